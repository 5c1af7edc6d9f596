(** Specification: a finite map as an association list in which at most one
    pair has a key equal to any given key. *)
From Coq Require Import List Permutation.
From Verif Require Import HashtableModel.
Import ListNotations.

Section Spec.
Context {K V : Type}.
Variable keyeq : K -> K -> bool.

Definition m_lookup (m : list (K * V)) (k : K) : option (K * V) :=
  find (fun p => keyeq (fst p) k) m.
Definition m_delete (m : list (K * V)) (k : K) : list (K * V) :=
  filter (fun p => negb (keyeq (fst p) k)) m.
Definition m_set (m : list (K * V)) (k : K) (v : V) : list (K * V) :=
  (k, v) :: m_delete m k.

(** What each call does to the map and what it must return. *)
Definition spec_step (m : list (K * V)) (o : op) : list (K * V) * out :=
  match o with
  | OGet k => (m, RKv (m_lookup m k))
  | OSet k v => (m_set m k v, RKv (m_lookup m k))
  | ORemove k => (m_delete m k, RKv (m_lookup m k))
  | OClear => ([], RNone)
  | OSetCapacity _ | OEnsureCapacity _ => (m, RNone)
  | OCount => (m, RNum (length m))
  | OIterate | OToArray => (m, RList m)
  end.

Fixpoint spec_run (m : list (K * V)) (os : list op) : list out :=
  match os with
  | [] => []
  | o :: os' => let '(m', r) := spec_step m o in r :: spec_run m' os'
  end.

(** Listings are compared up to order; everything else exactly. *)
Inductive out_equiv : out -> out -> Prop :=
  | oe_none : out_equiv RNone RNone
  | oe_kv : forall o : option (K * V), out_equiv (RKv o) (RKv o)
  | oe_num : forall n, out_equiv (RNum n) (RNum n)
  | oe_list : forall l l' : list (K * V), Permutation l l' -> out_equiv (RList l) (RList l').
End Spec.
