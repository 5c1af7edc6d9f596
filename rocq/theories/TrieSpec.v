(** What tries of key sequences mean: finite maps from key strings to values
    (C14), their enumeration (C14), and the prediction of command lines from
    weighted examples (C37).  Nothing here refers to nodes. *)
From Coq Require Import List ZArith Bool Arith.
From Verif Require Import Common TrieModel.
Import ListNotations.
Open Scope res_scope.

Section Spec.
Variable V : Type.

(** A finite map, and what the operations do to it. *)
Definition kmap := list Z -> option V.
Definition kempty : kmap := fun _ => None.
Definition kput (m : kmap) (k : list Z) (v : V) : kmap :=
  fun k' => if list_eq_dec Z.eq_dec k k' then Some v else m k'.
Definition kdel (m : kmap) (k : list Z) : kmap :=
  fun k' => if list_eq_dec Z.eq_dec k k' then None else m k'.

(** An operation that changes a trie. *)
Inductive op := OSet (k : list Z) (v : V) | OSetNull (v : V) | ORemove (k : list Z).
Definition op_map (m : kmap) (o : op) : kmap :=
  match o with
  | OSet k v => kput m k v
  | OSetNull v => kput m [0%Z] v
  | ORemove k => kdel m k
  end.
Definition history_map (ops : list op) : kmap := fold_left op_map ops kempty.

(** The operations carried out on a trie. *)
Definition exec (o : op) (t : trie V) : res (trie V) :=
  match o with
  | OSet k v => trie_set t k v
  | OSetNull v => trie_set_null t v
  | ORemove k => trie_remove t k
  end.
Fixpoint run (ops : list op) (t : trie V) : res (trie V) :=
  match ops with
  | [] => Ok t
  | o :: ops' => let! t' := exec o t in run ops' t'
  end.

(** The answer to a look-up of [input]. *)
Definition is_prefix (k s : list Z) : Prop := exists rest, s = k ++ rest.
Definition has_prefix_key (m : kmap) (input : list Z) : Prop :=
  exists k, is_prefix k input /\ m k <> None.
Definition longest_prefix_key (m : kmap) (input k : list Z) (v : V) : Prop :=
  is_prefix k input /\ m k = Some v /\
  forall k', is_prefix k' input -> m k' <> None -> length k' <= length k.
Definition proper_prefix_of_key (m : kmap) (input : list Z) : Prop :=
  exists c ext, m (input ++ c :: ext) <> None.

Record lookup_answer (m : kmap) (input : list Z) (r : trieget V) : Prop := {
  la_exact : tg_exact r = true <-> has_prefix_key m input;
  la_longest : tg_exact r = true ->
    exists k v, longest_prefix_key m input k v /\ matchlength r = length k /\ tg_value r = Some v;
  la_prefix : tg_prefix r = true <-> proper_prefix_of_key m input;
}.

(** Enumeration in lexicographic order. *)
Inductive lexlt : list Z -> list Z -> Prop :=
| lex_nil c k : lexlt [] (c :: k)
| lex_lt c d k k' : (c < d)%Z -> lexlt (c :: k) (d :: k')
| lex_eq c k k' : lexlt k k' -> lexlt (c :: k) (c :: k').

Fixpoint visit {S} (func : S -> list Z -> V -> S * Z) (l : list (list Z * V)) (s : S) : S * Z :=
  match l with
  | [] => (s, 0%Z)
  | (k, v) :: l' =>
      let (s1, r) := func s k v in
      if (r =? 0)%Z then visit func l' s1 else (s1, r)
  end.
End Spec.
Arguments OSet {V} k v.
Arguments OSetNull {V} v.
Arguments ORemove {V} k.
Arguments exec {V} o t.
Arguments run {V} ops t.
Arguments kempty {V}.
Arguments kput {V} m k v.
Arguments kdel {V} m k.
Arguments op_map {V} m o.
Arguments history_map {V} ops.
Arguments lookup_answer {V} m input r.
Arguments visit {V S} func l s.

(** Prediction from a list of weighted command lines. *)
Section PredictSpec.
Variable P : Type.
Variable padd : P -> P -> P.
Variable pgt pge : P -> P -> bool.
Variable phalf : P -> P.
Variable iswblank : Z -> bool.

Fixpoint starts_with (pre k : list Z) : bool :=
  match pre, k with
  | [], _ => true
  | c :: pre', d :: k' => (c =? d)%Z && starts_with pre' k'
  | _ :: _, [] => false
  end.

(** Feeding the examples into a trie. *)
Fixpoint addall (hist : list (list Z * P)) (t : trie P) : res (trie P) :=
  match hist with
  | [] => Ok t
  | (k, p) :: h => let! t' := trie_add_probability P padd t k p in addall h t'
  end.

(** The total weight of the examples that start with [pre]; [None] if there is
    none. *)
Definition weight (hist : list (list Z * P)) (pre : list Z) : option P :=
  fold_left (fun acc (e : list Z * P) =>
               if starts_with pre (fst e)
               then Some match acc with Some q => padd q (snd e) | None => snd e end
               else acc) hist None.

(** [c] is the best next character after [pre]: no other is heavier, and the
    smallest of the heaviest is taken. *)
Definition best hist pre c w : Prop :=
  weight hist (pre ++ [c]) = Some w /\
  forall c' w', weight hist (pre ++ [c']) = Some w' ->
    pgt w' w = false /\ ((c' < c)%Z -> pgt w w' = true).

Inductive continues hist (threshold : P) : list Z -> list Z -> Prop :=
| cont_end pre : (forall c, weight hist (pre ++ [c]) = None) -> continues hist threshold pre []
| cont_stop pre c w :
    best hist pre c w -> pge w threshold = false -> iswblank c = false ->
    continues hist threshold pre []
| cont_go pre c w r :
    best hist pre c w -> pge w threshold = true \/ iswblank c = true ->
    continues hist threshold (pre ++ [c]) r -> continues hist threshold pre (c :: r).

Definition predicts hist skip r : Prop :=
  (forall c, weight hist (skip ++ [c]) = None) /\ r = [] \/
  exists c w, best hist skip c w /\ continues hist (phalf w) skip r.

(** What is assumed of the numbers: [ok] values are closed under addition,
    compared by a strict weak order, and above -HUGE_VAL.  (Finite doubles and
    positive weights satisfy it.) *)
Record weights_ok (neg_huge : P) (ok : P -> Prop) : Prop := {
  w_add : forall a b, ok a -> ok b -> ok (padd a b);
  w_neg : forall a, ok a -> pgt a neg_huge = true;
  w_irr : forall a, ok a -> pgt a a = false;
  w_trans : forall a b c, ok a -> ok b -> ok c -> pgt a b = true -> pgt b c = true -> pgt a c = true;
  w_ntrans : forall a b c, ok a -> ok b -> ok c -> pgt a b = false -> pgt b c = false -> pgt a c = false;
}.
End PredictSpec.
Arguments addall {P} padd hist t.
Arguments weight {P} padd hist pre.
Arguments best {P} padd pgt hist pre c w.
Arguments continues {P} padd pgt pge iswblank hist threshold.
Arguments predicts {P} padd pgt pge phalf iswblank hist skip r.
Arguments weights_ok {P} padd pgt neg_huge ok.
