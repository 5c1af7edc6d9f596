(** Shared definitions: characters, strings, outcomes.

    A wide character (wchar_t) is an [N]; a string is a [list N] without its
    terminating null.  [N] is unbounded; no modelled function depends on the
    maximal character value. *)
From Coq Require Import Ascii String.
From Coq Require Import List NArith ZArith Bool Arith.
Import ListNotations.

Notation wchar := N (only parsing).
Notation wstr := (list N) (only parsing).

(** Literal strings, used for keyword constants and in examples. *)
Fixpoint str (s : string) : list N :=
  match s with
  | EmptyString => []
  | String a s' => N_of_ascii a :: str s'
  end.

Definition ch (a : ascii) : N := N_of_ascii a.

(** Outcome of a C function: a normal result, undefined behaviour (an
    out-of-bounds access, signed overflow, use of an indeterminate value or a
    failed assertion), or the model's recursion fuel running out.  The
    theorems always exclude the last two explicitly. *)
Inductive res (A : Type) : Type :=
  | Ok (a : A)
  | UB
  | Fuel.
Arguments Ok {A} a.
Arguments UB {A}.
Arguments Fuel {A}.

Definition rbind {A B} (x : res A) (f : A -> res B) : res B :=
  match x with
  | Ok a => f a
  | UB => UB
  | Fuel => Fuel
  end.

Declare Scope res_scope.
Delimit Scope res_scope with res.
Notation "'let!' x ':=' a 'in' b" := (rbind a (fun x => b))
  (at level 200, x pattern, a at level 100, b at level 200) : res_scope.

(** Reading an array element: out of bounds is undefined behaviour. *)
Definition rget {A} (l : list A) (i : nat) : res A :=
  match nth_error l i with Some a => Ok a | None => UB end.

(** Writing an array element: out of bounds is undefined behaviour. *)
Fixpoint upd {A} (l : list A) (i : nat) (a : A) : list A :=
  match l, i with
  | [], _ => []
  | _ :: l', O => a :: l'
  | x :: l', S i' => x :: upd l' i' a
  end.
Definition rset {A} (l : list A) (i : nat) (a : A) : res (list A) :=
  if Nat.ltb i (length l) then Ok (upd l i a) else UB.

Definition list_N_eqb := fix eqb (a b : list N) : bool :=
  match a, b with
  | [], [] => true
  | x :: a', y :: b' => N.eqb x y && eqb a' b'
  | _, _ => false
  end.

Lemma list_N_eqb_eq : forall a b, list_N_eqb a b = true <-> a = b.
Proof.
  induction a as [|x a IH]; destruct b as [|y b]; cbn [list_N_eqb]; split; intro H;
    try discriminate; try reflexivity.
  - apply andb_true_iff in H as [H1 H2]. apply N.eqb_eq in H1. apply IH in H2. congruence.
  - injection H as H1 H2. subst. rewrite N.eqb_refl. cbn. apply IH. reflexivity.
Qed.

Lemma list_N_eqb_refl : forall a, list_N_eqb a a = true.
Proof. intros a. apply list_N_eqb_eq. reflexivity. Qed.

Lemma list_N_eqb_neq : forall a b, list_N_eqb a b = false <-> a <> b.
Proof.
  intros a b. split; intro H.
  - intro E. apply list_N_eqb_eq in E. congruence.
  - destruct (list_N_eqb a b) eqn:E; [|reflexivity]. apply list_N_eqb_eq in E. contradiction.
Qed.

Lemma rget_Ok : forall A (l : list A) i a, nth_error l i = Some a -> rget l i = Ok a.
Proof. intros. unfold rget. rewrite H. reflexivity. Qed.

Lemma length_upd : forall A (l : list A) i a, length (upd l i a) = length l.
Proof. induction l as [|x l IH]; intros [|i] a; cbn; auto. Qed.

Lemma nth_error_upd_eq : forall A (l : list A) i a,
  i < length l -> nth_error (upd l i a) i = Some a.
Proof.
  induction l as [|x l IH]; intros [|i] a H; cbn in *; try (now inversion H); auto.
  apply IH. now apply Nat.succ_lt_mono.
Qed.

Lemma nth_error_upd_neq : forall A (l : list A) i j a,
  i <> j -> nth_error (upd l i a) j = nth_error l j.
Proof.
  induction l as [|x l IH]; intros [|i] [|j] a H; cbn; try reflexivity; try congruence.
  apply IH. congruence.
Qed.

Lemma rset_Ok : forall A (l : list A) i a, i < length l -> rset l i a = Ok (upd l i a).
Proof. intros. unfold rset. apply Nat.ltb_lt in H. now rewrite H. Qed.
