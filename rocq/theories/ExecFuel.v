(** The result of an execution does not depend on the fuel. *)
From Coq Require Import List NArith Bool Arith Lia.
From Verif Require Import Common ExecModel.
Import ListNotations.

Section Fuel.
Context {O : os}.

Definition below (a b : res (out O)) : Prop := a = Fuel \/ a = b.

Lemma below_refl a : below a a.
Proof. right. reflexivity. Qed.
Lemma below_then a b k k' : below a b -> (forall s, below (k s) (k' s)) ->
  below (andthen a k) (andthen b k').
Proof.
  intros [-> | ->] H; [left; reflexivity|]. destruct b as [[s|v st]| |]; cbn; auto using below_refl.
Qed.

Lemma more_fuel_step n n' : (forall t s, below (exec n t s) (exec n' t s)) ->
  forall t s, below (exec (S n) t s) (exec (S n') t s).
Proof.
  intros H t s. destruct t; cbn [exec].
  all: repeat first
    [ apply H | apply below_refl
    | apply below_then; [|intro]
    | match goal with
      | |- below (match exec ?k ?t ?s with _ => _ end) _ =>
        let E := fresh "E" in destruct (H t s) as [E|E]; rewrite E; [left; reflexivity|];
        match goal with |- below (match ?x with _ => _ end) _ => destruct x as [[?|? ?]| |] end
      | |- below (let '(_, _) := ?x in _) _ => destruct x
      | |- below (match ?x with _ => _ end) _ => destruct x
      end ].
Qed.

Lemma more_fuel n k t s : below (exec n t s) (exec (n + k) t s).
Proof.
  revert k t s. induction n as [|n IH]; intros k t s; [left; reflexivity|].
  cbn [plus]. apply more_fuel_step. intros. apply IH.
Qed.

Theorem fuel_irrelevant n n' t (s : sh O) a b : exec n t s = Ok a -> exec n' t s = Ok b -> a = b.
Proof.
  intros A B. destruct (Nat.le_ge_cases n n') as [L|L].
  - replace n' with (n + (n' - n)) in B by lia. destruct (more_fuel n (n' - n) t s) as [E|E]; congruence.
  - replace n with (n' + (n - n')) in A by lia. destruct (more_fuel n' (n - n') t s) as [E|E]; congruence.
Qed.
End Fuel.
