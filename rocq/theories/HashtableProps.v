(** Properties C07 and C08: the hash table is a map. *)
From Coq Require Import List NArith ZArith Bool Permutation String.
From Verif Require Import Common HashtableModel HashtableSpec HashtableProofs.
Import ListNotations.

(** C07, C08.  For every key type with an equivalence [keyeq] and every hash
    function respecting it, every initial capacity and every sequence of calls
    runs without undefined behaviour and returns what the map specification
    returns (listings up to order). *)
Theorem hashtable_refines_map :
  forall (K V : Type) (hashfunc : K -> N) (keyeq : K -> K -> bool),
  (forall k, keyeq k k = true) ->
  (forall a b, keyeq a b = keyeq b a) ->
  (forall a b c, keyeq a b = true -> keyeq b c = true -> keyeq a c = true) ->
  (forall a b, keyeq a b = true -> hashfunc a = hashfunc b) ->
  forall (cap : nat) (os : list (@op K V)),
  exists rs, run hashfunc keyeq (ht_initwithcapacity cap) os = Ok rs /\
    Forall2 out_equiv rs (spec_run keyeq [] os).
Proof.
  intros K V hf ke Hr Hs Ht Hh cap os.
  exact (hashtable_refines_map_proof hf ke Hs Ht Hh cap os).
Qed.
Print Assumptions hashtable_refines_map.

(** The hypotheses are met by yash's own wide-string keys ([hashwcs] with
    [htwcscmp]) and by a constant hash function. *)
Example wcs_keys_ok :
  (forall k, list_N_eqb k k = true) /\
  (forall a b, list_N_eqb a b = list_N_eqb b a) /\
  (forall a b c, list_N_eqb a b = true -> list_N_eqb b c = true -> list_N_eqb a c = true) /\
  (forall a b, list_N_eqb a b = true -> hashwcs a = hashwcs b).
Proof.
  repeat split.
  - apply list_N_eqb_refl.
  - intros a b. destruct (list_N_eqb a b) eqn:E.
    + apply list_N_eqb_eq in E. subst. now rewrite list_N_eqb_refl.
    + symmetry. apply list_N_eqb_neq. apply list_N_eqb_neq in E. congruence.
  - intros a b c H1 H2. apply list_N_eqb_eq in H1, H2. subst. apply list_N_eqb_refl.
  - intros a b H. apply list_N_eqb_eq in H. congruence.
Qed.

(** A run exercising collisions, growth, removal and slot reuse. *)
Local Open Scope string_scope.
Example run_collisions :
  run (fun _ => 7%N) N.eqb (ht_initwithcapacity 2)
    [OSet 1%N true; OSet 2%N false; OSet 3%N true; ORemove 2%N; OSet 4%N false;
     OSet 1%N false; OGet 1%N; OGet 2%N; OCount; OToArray; OIterate]
  = Ok [RKv None; RKv None; RKv None; RKv (Some (2%N, false)); RKv None;
        RKv (Some (1%N, true)); RKv (Some (1%N, false)); RKv None; RNum 3;
        RList [(1%N, false); (4%N, false); (3%N, true)];
        RList [(1%N, false); (4%N, false); (3%N, true)]].
Proof. vm_compute. reflexivity. Qed.
