(** The structured semantics gives one result: runs from states that differ
    only in how the traps and the pending signals are stored have the same
    outcome and the same effects. *)
From Coq Require Import List NArith Bool Arith Lia.
From Verif Require Import Common ExecModel ExecSpec ExecOk.
Import ListNotations.

Section Det.
Context {O : os}.
Notation dat := (dat O).
Notation fin := (fin O).

Record eqv (d d' : dat) : Prop := mkeqv {
  q_w : d_w d = d_w d';
  q_last : d_last d = d_last d';
  q_oe : d_oe d = d_oe d';
  q_orr : d_orr d = d_orr d';
  q_pf : d_pf d = d_pf d';
  q_fn : d_fn d = d_fn d';
  q_hand : d_hand d = d_hand d';
  q_save : d_save d = d_save d';
  q_ex : d_ex d = d_ex d';
  q_pend : forall g, In g (d_pend d) <-> In g (d_pend d');
  q_action : forall g, action d g = action d' g
}.

Definition eqf (f f' : fin) : Prop :=
  match f, f' with
  | Go o d, Go o' d' => o = o' /\ eqv d d'
  | Stop v st, Stop v' st' => v = v' /\ st = st'
  | _, _ => False
  end.

Lemma eqv_refl d : eqv d d.
Proof. constructor; tauto || reflexivity. Qed.
Lemma eqv_sym d d' : eqv d d' -> eqv d' d.
Proof. intros [A B C D E F G H I J K]. constructor; auto. intros g. symmetry. apply J. Qed.
Lemma eqv_trans a b c : eqv a b -> eqv b c -> eqv a c.
Proof.
  intros [A1 A2 A3 A4 A5 A6 A7 A8 A9 A10 A11] [B1 B2 B3 B4 B5 B6 B7 B8 B9 B10 B11].
  constructor; try congruence.
  - intros g. rewrite A10. apply B10.
Qed.

Lemma eqv_w a d d' : eqv d d' -> eqv (sd_w a d) (sd_w a d').
Proof. intros [A B C D E F G H I J K]. constructor; auto. Qed.
Lemma eqv_last a d d' : eqv d d' -> eqv (sd_last a d) (sd_last a d').
Proof. intros [A B C D E F G H I J K]. constructor; auto. Qed.
Lemma eqv_oe a d d' : eqv d d' -> eqv (sd_oe a d) (sd_oe a d').
Proof. intros [A B C D E F G H I J K]. constructor; auto. Qed.
Lemma eqv_orr a d d' : eqv d d' -> eqv (sd_orr a d) (sd_orr a d').
Proof. intros [A B C D E F G H I J K]. constructor; auto. Qed.
Lemma eqv_pf a d d' : eqv d d' -> eqv (sd_pf a d) (sd_pf a d').
Proof. intros [A B C D E F G H I J K]. constructor; auto. Qed.
Lemma eqv_fn a d d' : eqv d d' -> eqv (sd_fn a d) (sd_fn a d').
Proof. intros [A B C D E F G H I J K]. constructor; auto. Qed.
Lemma eqv_hand a d d' : eqv d d' -> eqv (sd_hand a d) (sd_hand a d').
Proof. intros [A B C D E F G H I J K]. constructor; auto. Qed.
Lemma eqv_save a d d' : eqv d d' -> eqv (sd_save a d) (sd_save a d').
Proof. intros [A B C D E F G H I J K]. constructor; auto. Qed.
Lemma eqv_ex a d d' : eqv d d' -> eqv (sd_ex a d) (sd_ex a d').
Proof. intros [A B C D E F G H I J K]. constructor; auto. Qed.
Lemma eqv_pend g d d' : eqv d d' ->
  eqv (sd_pend (remove N.eq_dec g (d_pend d)) d) (sd_pend (remove N.eq_dec g (d_pend d')) d').
Proof.
  intros [A B C D E F G H I J K]. constructor; auto. cbn. intros x. split; intros X;
    apply in_remove in X; destruct X; apply in_in_remove; auto; apply J; auto.
Qed.

Lemma catches_det sgs d1 d2 e1 e2 : eqv d1 d2 -> catches sgs d1 e1 -> catches sgs d2 e2 -> eqv e1 e2.
Proof.
  intros E (p1 & -> & P1) (p2 & -> & P2). destruct E as [A B C D E F G H I J K].
  constructor; auto. cbn. intros g. rewrite P1, P2, J, K. tauto.
Qed.
Lemma ran_det x d1 d2 e1 e2 : eqv d1 d2 -> ran x d1 e1 -> ran x d2 e2 -> eqv e1 e2.
Proof.
  intros E (a & A & ->) (b & B & ->). apply eqv_last. eapply catches_det; [|exact A|exact B].
  apply eqv_w, E.
Qed.
Lemma expands_det x d1 d2 e1 e2 r1 r2 : eqv d1 d2 -> expands x d1 e1 r1 -> expands x d2 e2 r2 ->
  eqv e1 e2 /\ r1 = r2.
Proof.
  intros E A B. destruct x as [x|]; cbn in A, B; destruct A as [A1 A2], B as [B1 B2].
  - rewrite (q_w _ _ E) in *. split; [|congruence]. eapply catches_det; [|exact A1|exact B1].
    apply eqv_w, E.
  - subst. auto.
Qed.
Lemma child_det d1 d2 e1 e2 : eqv d1 d2 -> starts_child d1 e1 -> starts_child d2 e2 -> eqv e1 e2.
Proof.
  intros [A B C D E F G H I J K] (S1 & X1 & Y1 & P1 & Q1) (S2 & X2 & Y2 & P2 & Q2).
  unfold same_but_traps in *. constructor; try (intuition congruence).
Qed.
Lemma set_trap_det sg a d1 d2 e1 e2 : eqv d1 d2 -> sets_trap sg a d1 e1 -> sets_trap sg a d2 e2 -> eqv e1 e2.
Proof.
  intros [A B C D E F G H I J K] (S1 & X1 & Y1 & P1 & Q1) (S2 & X2 & Y2 & P2 & Q2).
  unfold same_but_traps in *. constructor; try (intuition congruence).
  - intros g. rewrite P1, P2, J. tauto.
  - intros g. rewrite Q1, Q2. destruct (N.eq_dec g sg); auto.
Qed.
Lemma pats_det v ps w w1 b1 w2 b2 : @pats O v ps w w1 b1 -> pats v ps w w2 b2 -> w1 = w2 /\ b1 = b2.
Proof.
  intros H. revert w2 b2. induction H; intros w' b' H'; inversion H'; subst; auto; try congruence;
    try (split; congruence).
  apply IHpats. congruence.
Qed.
Lemma chosen_det v its w w1 b1 w2 b2 : @chosen O v its w w1 b1 -> chosen v its w w2 b2 -> w1 = w2 /\ b1 = b2.
Proof.
  intros H. revert w2 b2. induction H; intros w' b' H'; inversion H'; subst; auto;
    match goal with A : pats v ?ps ?w ?x ?y, B : pats v ?ps ?w ?x' ?y' |- _ =>
      destruct (pats_det _ _ _ _ _ _ _ A B); try discriminate; subst end; auto.
Qed.
Lemma zeros_split a s1 b a' s2 b' : a ++ s1 :: b = a' ++ s2 :: b' -> s1 <> 0%N -> s2 <> 0%N ->
  Forall (eq 0%N) b -> Forall (eq 0%N) b' -> s1 = s2.
Proof.
  revert a'. induction a as [|x a IH]; intros [|y a'] E N1 N2 F1 F2; cbn in E; inversion E; subst; auto.
  - rewrite Forall_forall in F1. exfalso. apply N2. symmetry. apply F1. apply in_or_app. cbn. auto.
  - rewrite Forall_forall in F2. exfalso. apply N1. symmetry. apply F2. apply in_or_app. cbn. auto.
  - eapply IH; eauto.
Qed.
Lemma status_det pf sts s1 s2 : pipeline_status pf sts s1 -> pipeline_status pf sts s2 -> s1 = s2.
Proof.
  unfold pipeline_status. destruct pf.
  - intros [[A B]|(a & b & A & B & C)] [[A' B']|(a' & b' & A' & B' & C')]; try congruence.
    + subst sts. rewrite Forall_forall in A. exfalso. apply B'. symmetry. apply A, in_or_app. cbn. auto.
    + subst sts. rewrite Forall_forall in A'. exfalso. apply B. symmetry. apply A', in_or_app. cbn. auto.
    + subst sts. eapply zeros_split; eauto.
  - intros [a ->] [b E]. apply app_inj_tail in E. apply E.
Qed.

Lemma pend_nil d d' : eqv d d' -> d_pend d = [] -> d_pend d' = [].
Proof.
  intros E H. destruct (d_pend d') as [|x l] eqn:P; auto. exfalso.
  assert (X : In x (d_pend d)) by (apply (q_pend _ _ E); rewrite P; cbn; auto). rewrite H in X. destruct X.
Qed.
Lemma skipped_eqv f c d d' : eqv d d' -> skipped f c d <-> skipped f c d'.
Proof. intros E. unfold skipped, fails. rewrite (q_last _ _ E). tauto. Qed.
Lemma negated_eqv d d' : eqv d d' -> eqv (negated d) (negated d').
Proof. intros E. unfold negated. rewrite (q_last _ _ E). apply eqv_last, E. Qed.

Hint Resolve eqv_refl eqv_w eqv_last eqv_oe eqv_orr eqv_pf eqv_fn eqv_hand eqv_save eqv_ex eqv_pend
  negated_eqv : eqv.

Ltac norm1 E := 
  try rewrite (q_w _ _ E) in *; try rewrite (q_last _ _ E) in *; try rewrite (q_fn _ _ E) in *;
  try rewrite (q_pf _ _ E) in *; try rewrite (q_save _ _ E) in *; try rewrite (q_oe _ _ E) in *;
  try rewrite (q_orr _ _ E) in *; try rewrite (q_ex _ _ E) in *; try rewrite (q_hand _ _ E) in *.

Ltac out1 :=
  match goal with
  | H : eqf (Go _ _) (Go _ _) |- _ => destruct H as [? H]; subst; norm1 H
  | H : eqf (Stop _ _) (Stop _ _) |- _ => destruct H as [? ?]; subst
  | H : eqf (Go _ _) (Stop _ _) |- _ => destruct H
  | H : eqf (Stop _ _) (Go _ _) |- _ => destruct H
  | H : eqf ?f (Go _ _) |- _ => is_var f; destruct f; [|destruct H]
  | H : eqf (Go _ _) ?f |- _ => is_var f; destruct f; [|destruct H]
  end.

Ltac fwd :=
  match goal with
  | IH : forall d' f', eqv ?X d' -> ev ?c ?j d' f' -> eqf ?F f', H : ev _ _ ?Y ?f' |- _ =>
    let Q := fresh "Q" in
    tryif constr_eq X Y then fail else idtac;
    assert (Q : eqf F f') by (apply (IH Y f'); [solve [auto with eqv]|exact H]);
    clear IH H; repeat out1
  end.

Ltac st1 :=
  match goal with
  | H : (if ?b then _ else _) = _ |- _ => is_var b; destruct b; try discriminate H; inversion H; subst; clear H
  | H : _ = (if ?b then _ else _) |- _ => is_var b; destruct b; try discriminate H; inversion H; subst; clear H
  | A : expands ?x ?d1 ?e1 ?r1, B : expands ?x ?d2 ?e2 ?r2 |- _ =>
    let X := fresh "X" in let Y := fresh "Y" in
    assert (X : eqv d1 d2) by (solve [auto with eqv]);
    destruct (expands_det _ _ _ _ _ _ _ X A B) as [? Y]; clear A B X;
    match goal with Z : eqv e1 e2 |- _ => norm1 Z end;
    try discriminate Y; try (injection Y; intros; subst); try clear Y
  | A : ran ?x ?d1 ?e1, B : ran ?x ?d2 ?e2 |- _ =>
    let X := fresh "X" in
    assert (X : eqv e1 e2) by (eapply ran_det; [|exact A|exact B]; solve [auto with eqv]);
    clear A B; norm1 X
  | A : starts_child ?d1 ?e1, B : starts_child ?d2 ?e2 |- _ =>
    let X := fresh "X" in
    assert (X : eqv e1 e2) by (eapply child_det; [|exact A|exact B]; solve [auto with eqv]);
    clear A B; norm1 X
  | A : sets_trap ?s ?a ?d1 ?e1, B : sets_trap ?s ?a ?d2 ?e2 |- _ =>
    let X := fresh "X" in
    assert (X : eqv e1 e2) by (eapply set_trap_det; [|exact A|exact B]; solve [auto with eqv]);
    clear A B; norm1 X
  | A : chosen ?v ?its ?w ?w1 ?b1, B : chosen ?v ?its ?w ?w2 ?b2 |- _ =>
    let X := fresh "X" in let Y := fresh "Y" in
    destruct (chosen_det _ _ _ _ _ _ _ A B) as [X Y]; clear A B;
    try discriminate Y; inversion X; subst; try (injection Y; intros; subst); try clear Y
  | A : pipeline_status ?p ?s ?x, B : pipeline_status ?p ?s ?y |- _ =>
    let X := fresh "X" in
    assert (X := status_det _ _ _ _ A B); clear A B; subst
  | A : ?x = ?a, B : ?x = ?b |- _ =>
    lazymatch x with
    | o_redir _ _ _ => idtac | o_words _ _ _ => idtac | o_word _ _ _ => idtac
    | o_assign _ _ _ _ => idtac | assoc _ _ => idtac | leave _ => idtac
    | d_ex _ => idtac
    | action _ _ => idtac
    | o_posix _ => idtac
    end;
    rewrite A in B; try discriminate B; inversion B; subst; clear B
  | E : eqv ?d ?d', A : context [action ?d ?g] |- _ => rewrite (q_action _ _ E g) in A
  | E : eqv ?d ?d', A : context [In ?g (d_pend ?d)] |- _ => rewrite (q_pend _ _ E g) in A
  | E : eqv ?d ?d', A : skipped ?f ?c ?d |- _ => rewrite (skipped_eqv f c _ _ E) in A
  | E : eqv ?d ?d', A : ~ skipped ?f ?c ?d |- _ => rewrite (skipped_eqv f c _ _ E) in A
  | E : eqv ?d ?d', A : d_pend ?d = [] |- _ => apply (pend_nil _ _ E) in A
  | E : eqv ?d ?d', A : d_pend ?d <> [] |- _ => assert (d_pend d' <> []) by (intros X; exact (A (pend_nil _ _ (eqv_sym _ _ E) X))); clear A
  | A : leave (OCont 0) = Some _ |- _ => discriminate A
  | A : leave ONorm = Some _ |- _ => discriminate A
  | A : abrupt (Go ONorm _) |- _ => destruct A
  end.

Ltac fin1 := solve [ assumption | contradiction | discriminate | congruence | tauto
  | split; auto with eqv ].

Theorem ev_det c j d f : ev c j d f -> forall d' f', eqv d d' -> ev c j d' f' -> eqf f f'.
Proof.
  induction 1; intros d' f' E H'; norm1 E; try (destruct b).
  all: try solve [inversion H'; clear H'; subst; repeat (st1 || fwd); try fin1].
  all: try (destruct neg); try (destruct ty); try (destruct e); unfold fails in *; norm1 E.
  all: try (match goal with o : optname |- _ => destruct o end).
  all: try (match goal with |- context [match ?l with [] => sd_w _ _ | _ => _ end] => destruct l end).
  all: inversion H'; clear H'; subst; repeat (st1 || fwd); try fin1.
  all: repeat match goal with H : _ \/ _ |- _ => destruct H end; repeat (st1 || fwd); try fin1.
  all: subst; contradiction.
Qed.
End Det.
