(** Proofs about field splitting and the "read" built-in. *)
From Coq Require Import Ascii String.
From Coq Require Import List NArith Bool Arith Lia.
From Verif Require Import Common Locale CharcatModel SplitModel SplitSpec.
Import ListNotations.
Open Scope res_scope.

(** ** Lists *)
Lemma skipn_app_len {A} (l : list A) i u t : skipn i l = u ++ t -> skipn (i + length u) l = t.
Proof.
  revert l. induction i as [|i IH]; intros l E; cbn in *.
  - subst. rewrite skipn_app, skipn_all2, Nat.sub_diag by lia. reflexivity.
  - destruct l; [|apply IH, E]. destruct u; [|discriminate]. cbn in *. congruence.
Qed.
Lemma skipn_len {A} (l : list A) i u t : i <= length l -> skipn i l = u ++ t -> i + length u <= length l.
Proof.
  intros Hi E. apply (f_equal (@length A)) in E. rewrite skipn_length, app_length in E. lia.
Qed.
Lemma slice_app {A} (l : list A) i u t : skipn i l = u ++ t -> slice l i (i + length u) = u.
Proof.
  intros E. unfold slice. rewrite E. replace (i + length u - i) with (length u) by lia.
  rewrite firstn_app, Nat.sub_diag, firstn_O, app_nil_r. apply firstn_all.
Qed.
Lemma slice_skipn {A} (l : list A) a b : a <= b -> b <= length l -> skipn a l = slice l a b ++ skipn b l.
Proof.
  intros H1 H2. unfold slice. rewrite <- (firstn_skipn (b - a) (skipn a l)) at 1. f_equal.
  assert (forall n m (k : list A), skipn n (skipn m k) = skipn (m + n) k) as X.
  { induction m; intros k; [reflexivity|]. destruct k; cbn; [apply skipn_nil|apply IHm]. }
  rewrite X. f_equal. lia.
Qed.
Lemma slice_len {A} (l : list A) a b : b <= length l -> length (slice l a b) = b - a.
Proof. intros. unfold slice. rewrite firstn_length, skipn_length. lia. Qed.
Lemma slice_nil {A} (l : list A) a b : a <= b -> b <= length l -> slice l a b = [] <-> a = b.
Proof.
  intros H1 H2. split; intros H.
  - apply (f_equal (@length A)) in H. rewrite slice_len in H by lia. cbn in H. lia.
  - subst. unfold slice. rewrite Nat.sub_diag. reflexivity.
Qed.

Lemma skip_while_ok p : forall t i t' i', skip_while p t i = (t', i') ->
  exists u, t = u ++ t' /\ Forall (fun x => p x = true) u /\ i' = i + length u /\
    match t' with [] => True | x :: _ => p x = false end.
Proof.
  induction t as [|x t IH]; intros i t' i' E; cbn [skip_while] in E.
  - injection E as <- <-. exists []. cbn. repeat split; auto.
  - destruct (p x) eqn:Ex.
    + destruct (IH _ _ _ E) as (u & -> & Hu & -> & Ht). exists (x :: u). cbn. repeat split; auto.
    + injection E as <- <-. exists []. cbn. repeat split; auto.
Qed.

Section Split.
Variable L : locale.
Variable ifs : list N.
Notation white := (white L ifs). Notation delim := (delim L ifs). Notation plain := (plain ifs).
Notation separator := (separator ifs). Notation peel := (peel L ifs). Notation splits := (splits L ifs).

(** ** Classes *)
Lemma ifs_char_ok x : fst x <> 0%N -> is_ifs_char ifs x = true <-> separator x.
Proof.
  intros Hx. unfold is_ifs_char, SplitSpec.separator.
  rewrite !andb_true_iff, cat_eqb_eq, negb_true_iff, N.eqb_neq, existsb_exists.
  split.
  - intros [[E _] (y & Hy & Hxy)]. apply N.eqb_eq in Hxy as <-. rewrite E. cbn. auto.
  - intros (E1 & E2 & E3 & HI). split; [split; [|exact Hx]|exists (fst x); split; [exact HI|apply N.eqb_refl]].
    destruct (snd x) as [o q r]. cbn in *. subst. reflexivity.
Qed.
Lemma ifs_white_ok x : fst x <> 0%N -> is_ifs_whitespace L ifs x = true <-> white x.
Proof.
  intros Hx. unfold is_ifs_whitespace, SplitSpec.white. rewrite andb_true_iff, ifs_char_ok by exact Hx. tauto.
Qed.
Lemma ifs_plain_ok x : fst x <> 0%N -> is_non_ifs_char ifs x = true <-> plain x.
Proof.
  intros Hx. unfold is_non_ifs_char, SplitSpec.plain. rewrite andb_true_iff, !negb_true_iff, N.eqb_neq.
  rewrite <- not_true_iff_false, ifs_char_ok by exact Hx. tauto.
Qed.
Lemma separator_dec x : separator x \/ ~ separator x.
Proof.
  unfold SplitSpec.separator. destruct (snd x) as [[] [] []]; cbn; try (right; intros (A & B & C & _); discriminate).
  destruct (in_dec N.eq_dec (fst x) ifs); [left|right]; tauto.
Qed.
Lemma class_cases x : white x \/ delim x \/ plain x.
Proof.
  destruct (separator_dec x) as [H|H]; [|right; right; exact H].
  destruct (iswspace L (fst x)) eqn:E; [left|right; left]; split; assumption.
Qed.
Lemma white_not_plain x : white x -> plain x -> False.
Proof. intros [H _] H'. exact (H' H). Qed.
Lemma delim_not_plain x : delim x -> plain x -> False.
Proof. intros [H _] H'. exact (H' H). Qed.
Lemma delim_not_white x : delim x -> white x -> False.
Proof. intros [_ H] [_ H']. congruence. Qed.

Lemma split_white t : exists w r, t = w ++ r /\ Forall white w /\ ~ starts_with white r.
Proof.
  induction t as [|x t (w & r & -> & Hw & Hr)].
  - exists [], []. cbn. auto.
  - destruct (class_cases x) as [H|H].
    + exists (x :: w), r. cbn. auto.
    + exists [], (x :: w ++ r). cbn. repeat split; auto. intros Hx. destruct H as [H|H]; [eapply delim_not_white|eapply white_not_plain]; eauto.
Qed.

(** Two ways of cutting off a maximal stretch agree. *)
Lemma cut_unique (p : cell -> Prop) : forall a b t u, a ++ t = b ++ u ->
  Forall p a -> Forall p b -> ~ starts_with p t -> ~ starts_with p u -> a = b /\ t = u.
Proof.
  induction a as [|x a IH]; intros [|y b] t u E Ha Hb Ht Hu; cbn in E.
  - auto.
  - subst t. exfalso. apply Ht. cbn. inversion Hb; auto.
  - subst u. exfalso. apply Hu. cbn. inversion Ha; auto.
  - injection E as <- E. inversion Ha; inversion Hb; subst. destruct (IH b t u E) as [-> ->]; auto.
Qed.

Lemma no_plain_white w t : Forall white w -> ~ starts_with plain t -> ~ starts_with plain (w ++ t).
Proof. intros Hw Ht. destruct w as [|x w]; [exact Ht|]. inversion Hw; subst. cbn. intros H. eapply white_not_plain; eauto. Qed.
Lemma no_plain_delim d t : delim d -> ~ starts_with plain (d :: t).
Proof. intros Hd H. cbn in H. eapply delim_not_plain; eauto. Qed.
Lemma no_white_delim d t : delim d -> ~ starts_with white (d :: t).
Proof. intros Hd H. cbn in H. eapply delim_not_white; eauto. Qed.
Lemma no_white_plain t : starts_with plain t -> ~ starts_with white t.
Proof. destruct t; [intros []|]. cbn. intros H1 H2. eapply white_not_plain; eauto. Qed.

(** ** The fields are unique *)
Lemma peel_det t f r : peel t f r -> forall f' r', peel t f' r' -> f = f' /\ r = r'.
Proof.
  intros H f' r' H'.
  inversion H as [g w1 d w2 r0 G1 G2 G3 G4 G5 E1 E2 E3|g w r0 G1 G2 G3 G4 G5 E1 E2 E3]; subst;
  inversion H' as [g' v1 e v2 r1 F1 F2 F3 F4 F5 E1' E2' E3'|g' v r1 F1 F2 F3 F4 F5 E1' E2' E3']; subst.
  - destruct (cut_unique plain _ _ _ _ E1' F1 G1) as [-> E]; try (apply no_plain_white; [assumption|apply no_plain_delim; assumption]).
    destruct (cut_unique white _ _ _ _ E F2 G2) as [-> E']; try (apply no_white_delim; assumption).
    injection E' as -> E'. destruct (cut_unique white _ _ _ _ E' F4 G4 F5 G5) as [-> ->]. auto.
  - destruct (cut_unique plain _ _ _ _ E1' F1 G1) as [-> E]; try (apply no_plain_white; [assumption|apply no_plain_delim; assumption]).
    { destruct v as [|x v]; [congruence|]. inversion F3; subst. cbn. intros ?. eapply white_not_plain; eauto. }
    destruct (cut_unique white _ _ _ _ E F3 G2) as [-> E']; try (apply no_white_delim; assumption).
    { apply no_white_plain, F5. }
    subst r'. exfalso. cbn in F5. eapply delim_not_plain; eauto.
  - destruct (cut_unique plain _ _ _ _ E1' F1 G1) as [-> E]; try (apply no_plain_white; [assumption|apply no_plain_delim; assumption]).
    { destruct w as [|x w]; [congruence|]. inversion G3; subst. cbn. intros ?. eapply white_not_plain; eauto. }
    destruct (cut_unique white _ _ _ _ E F2 G3) as [-> E']; try (apply no_white_delim; assumption).
    { apply no_white_plain, G5. }
    subst r. exfalso. cbn in G5. eapply delim_not_plain; eauto.
  - destruct (cut_unique plain _ _ _ _ E1' F1 G1) as [-> E].
    { destruct v as [|x v]; [congruence|]. inversion F3; subst. cbn. intros ?. eapply white_not_plain; eauto. }
    { destruct w as [|x w]; [congruence|]. inversion G3; subst. cbn. intros ?. eapply white_not_plain; eauto. }
    destruct (cut_unique white _ _ _ _ E F3 G3) as [-> ->]; auto using no_white_plain.
Qed.

Lemma peel_not_last t f r : peel t f r -> forall g w, Forall plain g -> Forall white w -> t = g ++ w -> False.
Proof.
  intros H g w Hg Hw E.
  assert (Hn : ~ starts_with plain w).
  { destruct w; [easy|]. inversion Hw; subst. cbn. intros ?. eapply white_not_plain; eauto. }
  assert (X : forall x, In x w -> white x) by (apply Forall_forall; exact Hw).
  inversion H as [k w1 d w2 r0 G1 G2 G3 G4 G5 E1 E2 E3|k v r0 G1 G2 G3 G4 G5 E1 E2 E3]; subst.
  - destruct (cut_unique plain _ _ _ _ E1 G1 Hg) as [-> E]; auto.
    { apply no_plain_white; [assumption|apply no_plain_delim; assumption]. }
    eapply delim_not_white; [exact G3|]. apply X. rewrite <- E. apply in_or_app. right. now left.
  - destruct (cut_unique plain _ _ _ _ E1 G1 Hg) as [-> E]; auto.
    { destruct v as [|x v]; [congruence|]. inversion G3; subst. cbn. intros ?. eapply white_not_plain; eauto. }
    destruct r as [|y r]; [contradiction|]. cbn in G5.
    eapply white_not_plain; [|exact G5]. apply X. rewrite <- E. apply in_or_app. right. now left.
Qed.
Lemma peel_rest t f r : peel t f r -> ~ starts_with white r.
Proof. intros H. inversion H; subst; auto using no_white_plain. Qed.

Lemma splits_det t fs : splits t fs -> forall gs, ~ starts_with white t -> splits t gs -> fs = gs.
Proof.
  induction 1 as [f w Hf Hw|t f r fs Hp Hs IH]; intros gs Ht H'.
  - inversion H' as [g v Hg Hv E|t' g r gs' Hp' Hs']; subst.
    + assert (Hn : forall u, Forall white u -> ~ starts_with plain u).
      { intros [|y u] Hu; [easy|]. inversion Hu; subst. cbn. intros ?. eapply white_not_plain; eauto. }
      destruct (cut_unique plain _ _ _ _ E Hg Hf) as [-> _]; auto.
    + exfalso. eapply peel_not_last; eauto.
  - inversion H' as [g v Hg Hv E|t' g r' gs' Hp' Hs']; subst.
    + exfalso. eapply peel_not_last; eauto.
    + destruct (peel_det _ _ _ Hp _ _ Hp') as [-> ->]. f_equal. apply IH; [|exact Hs']. eapply peel_rest; eauto.
Qed.
Lemma splits_nonempty t fs : splits t fs -> fs <> [].
Proof. inversion 1; discriminate. Qed.

Lemma app_single {A} (f : list A) x y : f ++ [x] = [y] -> f = [] /\ x = y.
Proof. intros H. apply (app_inj_tail f [] x y) in H. exact H. Qed.
Lemma final_det e fs0 fs : final_fields e fs0 fs -> forall gs, final_fields e fs0 gs -> fs = gs.
Proof.
  intros H gs H'.
  inversion H; inversion H'; subst; try congruence;
  repeat match goal with
  | E : [_] = ?f ++ [?x] |- _ => symmetry in E
  | E : ?f ++ [?x] = [_] |- _ => apply app_single in E as [? ?]
  | E : _ ++ [_] = _ ++ [_] |- _ => apply app_inj_tail in E as [? ?]
  end; subst; congruence.
Qed.
Lemma final_total e fs0 : fs0 <> [] -> exists fs, final_fields e fs0 fs.
Proof.
  intros H. destruct (exists_last H) as (fs & f & ->).
  destruct f as [|x f]; [|eexists; apply ff_keep; discriminate].
  destruct fs as [|g fs]; [eexists; apply ff_only|].
  destruct e; [exists ((g :: fs) ++ [[]]); apply ff_empty|exists (g :: fs); apply ff_drop]; congruence.
Qed.

Theorem posix_fields_det e s fs gs : posix_fields L ifs e s fs -> posix_fields L ifs e s gs -> fs = gs.
Proof.
  intros (w & r & fs0 & E & Hw & Hr & Hs & Hf) (w' & r' & gs0 & E' & Hw' & Hr' & Hs' & Hf').
  rewrite E in E'. destruct (cut_unique white _ _ _ _ E' Hw Hw' Hr Hr') as [-> ->].
  rewrite <- (splits_det _ _ Hs _ Hr' Hs') in Hf'. eapply final_det; eauto.
Qed.

(** ** The main loop *)
Section Loop.
Variable s : list cell.
Hypothesis Hnull : nonull s.
Notation sl r := (slice s (fst r) (snd r)).

Fixpoint chain (tail : nat) (R : list (nat * nat)) : Prop :=
  match R with
  | [] => True
  | (a, b) :: R' =>
    a <= b <= length s /\ Forall plain (slice s a b) /\
    match R' with
    | [] => Forall white (skipn b s)
    | (a', _) :: _ => b <= a' /\ b <= tail /\ peel (skipn a s) (slice s a b) (skipn a' s)
    end /\ chain tail R'
  end.

Definition before_ok (i tail : nat) : Prop :=
  tail = i \/ exists x, nth_error s (tail - 1) = Some x /\ i < tail /\ ~ white x.

Lemma null_in x t i : skipn i s = t -> In x t -> fst x <> 0%N.
Proof.
  intros E Hx. assert (In x s). { rewrite <- (firstn_skipn i s), E. apply in_or_app. now right. }
  exact (proj1 (Forall_forall _ _) Hnull x H).
Qed.

Lemma skip_pos p q t i t' i' : (forall x, fst x <> 0%N -> p x = true <-> q x) ->
  skipn i s = t -> i <= length s -> skip_while p t i = (t', i') ->
  exists u, t = u ++ t' /\ Forall q u /\ i' = i + length u /\ skipn i' s = t' /\ i' <= length s /\ ~ starts_with q t'
    /\ slice s i i' = u.
Proof.
  intros Hpq E Hi Hs. destruct (skip_while_ok _ _ _ _ _ Hs) as (u & -> & Hu & -> & Ht). exists u.
  assert (N : forall x, In x (u ++ t') -> fst x <> 0%N) by (intros x; eapply null_in; exact E).
  repeat split; auto.
  - apply Forall_forall. intros x Hx. rewrite <- Hpq. { exact (proj1 (Forall_forall _ _) Hu x Hx). }
    apply N, in_or_app. now left.
  - eapply skipn_app_len, E.
  - eapply skipn_len; eauto.
  - destruct t' as [|x t']; [easy|]. cbn. rewrite <- Hpq; [congruence|]. apply N, in_or_app. right. now left.
  - eapply slice_app, E.
Qed.

Lemma nth_skipn_0 {A} (l : list A) i x t : skipn i l = x :: t -> nth_error l i = Some x.
Proof. revert l. induction i; intros [|y l] E; cbn in *; try discriminate; [congruence|auto]. Qed.

Lemma last_in (x : cell) u i j : slice s i j = u -> i <= j -> j <= length s -> u <> [] -> (forall y, In y u -> ~ white y) ->
  exists y, nth_error s (j - 1) = Some y /\ i < j /\ ~ white y.
Proof.
  intros E Hi Hj Hu Hw. assert (i < j). { rewrite <- E in Hu. destruct (Nat.eq_dec i j); [|lia]. subst. exfalso. apply Hu. apply slice_nil; lia. }
  assert (Hlt : j - 1 - i < length u). { rewrite <- E, slice_len by lia. lia. }
  destruct (nth_error u (j - 1 - i)) as [y|] eqn:Ey; [|apply nth_error_None in Ey; lia].
  exists y. split; [|split; [assumption|apply Hw; eapply nth_error_In; eauto]].
  rewrite <- Ey, <- E. pose proof (slice_skipn s i j Hi Hj) as X. rewrite <- (firstn_skipn i s) at 1.
  rewrite nth_error_app2; rewrite firstn_length_le by lia; [|lia]. rewrite X, nth_error_app1; [reflexivity|]. rewrite slice_len; lia.
Qed.

Lemma extract_loop_ok : forall fuel t i af dest, length t < fuel -> skipn i s = t -> i <= length s ->
  (af = true -> ~ starts_with plain t) ->
  exists R tail, extract_loop L ifs fuel t i af dest = Ok (dest ++ R, tail) /\
    i <= tail <= length s /\ Forall white (skipn tail s) /\ before_ok i tail /\
    if af then forall a, a < i -> Forall plain (slice s a i) -> chain tail ((a, i) :: R)
    else chain tail R /\ exists a b R' w, R = (a, b) :: R' /\ i <= a /\ t = w ++ skipn a s /\ Forall white w /\ ~ starts_with white (skipn a s).
Proof.
  induction fuel as [|fuel IH]; intros t i af dest Hf E Hi Haf; [lia|]. cbn [extract_loop].
  destruct (skip_while (is_ifs_whitespace L ifs) t i) as [t1 i1] eqn:S1.
  destruct (skip_pos _ white _ _ _ _ ifs_white_ok E Hi S1) as (w & Et & Hw & Ei1 & E1 & Hi1 & Ht1 & _).
  destruct (skip_while (is_non_ifs_char ifs) t1 i1) as [t2 i2] eqn:S2.
  destruct (skip_pos _ plain _ _ _ _ ifs_plain_ok E1 Hi1 S2) as (f & Et1 & Hfp & Ei2 & E2 & Hi2 & Ht2 & Hsl).
  destruct (i2 =? i1) eqn:C; cbn [negb].
  - apply Nat.eqb_eq in C. assert (f = []) by (destruct f; [reflexivity|cbn in Ei2; lia]). clear Hsl. subst f. cbn in Et1. subst t2.
    clear Ei2 S2 E2 Hi2. subst i2.
    destruct t1 as [|x t1].
    + rewrite app_nil_r in Et. subst w.
      exists (if negb af then [(i1, i1)] else []), i. split; [destruct af; cbn [negb]; rewrite ?app_nil_r; reflexivity|].
      split; [lia|]. split; [rewrite E; exact Hw|]. split; [left; reflexivity|].
      destruct af; cbn [negb].
      * intros a Ha Hp. cbn. split; [lia|]. split; [exact Hp|]. split; [rewrite E; exact Hw|exact I].
      * split.
        { cbn. split; [lia|]. split; [|split; [rewrite E1; constructor|exact I]]. rewrite (proj2 (slice_nil s i1 i1 ltac:(lia) Hi1) eq_refl). constructor. }
        exists i1, i1, [], t. rewrite E1, app_nil_r.
        split; [reflexivity|]. split; [lia|]. auto.
    + assert (Nx : fst x <> 0%N) by (eapply null_in; [exact E1|now left]).
      rewrite (proj2 (N.eqb_neq _ _) Nx).
      assert (Hd : delim x).
      { destruct (class_cases x) as [H|[H|H]]; [exfalso; apply Ht1; exact H|exact H|exfalso; apply Ht2; exact H]. }
      rewrite (proj2 (ifs_char_ok x Nx) (proj1 Hd)). cbn [negb].
      replace (is_ifs_whitespace L ifs x) with false
        by (symmetry; apply not_true_iff_false; rewrite ifs_white_ok by exact Nx; intros H; eapply delim_not_white; eauto).
      assert (E3 : skipn (S i1) s = t1).
      { pose proof (skipn_app_len s i1 [x] t1 E1) as X. cbn [length] in X. rewrite Nat.add_1_r in X. exact X. }
      assert (Hi3 : S i1 <= length s). { pose proof (skipn_len s i1 [x] t1 Hi1 E1). cbn in H. lia. }
      assert (Hlen : length t1 < fuel).
      { rewrite Et, app_length in Hf. cbn in Hf. lia. }
      destruct (IH t1 (S i1) false (if negb af then dest ++ [(i1, i1)] else dest) Hlen E3 Hi3 ltac:(discriminate))
        as (R & tail & -> & Htl & Hwt & Hb & Hc & a & b & R' & w2 & ER & Ha & Et1 & Hw2 & Hns).
      assert (Hb' : before_ok i tail).
      { destruct Hb as [->|(y & Y1 & Y2 & Y3)]; [|right; exists y; repeat split; auto; lia].
        right. exists x. replace (S i1 - 1) with i1 by lia. split; [eapply nth_skipn_0; eauto|]. split; [lia|]. intros H. eapply delim_not_white; eauto. }
      destruct af; cbn [negb].
      * exists R, tail. split; [reflexivity|]. split; [lia|]. split; [exact Hwt|]. split; [exact Hb'|].
        intros a0 Ha0 Hp. subst R. cbn [chain]. split; [lia|]. split; [exact Hp|]. split.
        { split; [lia|]. split; [lia|]. rewrite (slice_skipn s a0 i) at 1 by lia. rewrite E, Et, Et1.
          apply peel_delim; assumption. }
        exact Hc.
      * exists ((i1, i1) :: R), tail. rewrite <- app_assoc. split; [reflexivity|]. split; [lia|]. split; [exact Hwt|]. split; [exact Hb'|].
        split.
        { subst R. cbn [chain]. rewrite (proj2 (slice_nil s i1 i1 ltac:(lia) Hi1) eq_refl).
          split; [lia|]. split; [constructor|]. split; [|exact Hc]. split; [lia|]. split; [lia|].
          rewrite E1, Et1. apply (peel_delim L ifs [] [] x w2); auto. }
        exists i1, i1, R, w. rewrite E1. split; [reflexivity|]. split; [lia|]. auto.
  - apply Nat.eqb_neq in C. assert (Hfn : f <> []) by (intros ->; cbn in Ei2; lia).
    assert (Hlen : length t2 < fuel).
    { rewrite Et, Et1, !app_length in Hf. destruct f; [congruence|]. cbn in Hf. lia. }
    destruct (IH t2 i2 true (dest ++ [(i1, i2)]) Hlen E2 Hi2 (fun _ => Ht2)) as (R & tail & -> & Htl & Hwt & Hb & Hc).
    specialize (Hc i1 ltac:(lia) ltac:(rewrite Hsl; exact Hfp)).
    exists ((i1, i2) :: R), tail. rewrite <- app_assoc. split; [reflexivity|]. split; [lia|]. split; [exact Hwt|].
    assert (Hb' : before_ok i tail).
    { destruct Hb as [->|(y & Y1 & Y2 & Y3)]; [|right; exists y; repeat split; auto; lia]. right.
      destruct (last_in (0%N, cc_lit) f i1 i2 Hsl ltac:(lia) Hi2 Hfn) as (y & Y1 & Y2 & Y3).
      { intros z Hz H. eapply white_not_plain; [exact H|]. exact (proj1 (Forall_forall _ _) Hfp z Hz). }
      exists y. repeat split; auto. lia. }
    split; [exact Hb'|]. destruct af.
    + intros a Ha Hp. cbn [chain] in *. split; [lia|]. split; [exact Hp|]. split; [|exact Hc].
      split; [lia|]. split; [lia|]. rewrite (slice_skipn s a i) at 1 by lia. rewrite E, Et, E1.
      apply peel_white; auto.
      * intros H. apply (f_equal (@length _)) in H. rewrite slice_len in H by lia. cbn in H. lia.
      * intros ->. cbn in Et. apply (Haf eq_refl). rewrite Et, Et1. destruct f; [congruence|]. inversion Hfp; auto.
      * rewrite Et1. destruct f; [congruence|]. inversion Hfp; auto.
    + split; [exact Hc|]. exists i1, i2, R, w. rewrite E1. split; [reflexivity|]. split; [lia|]. auto.
Qed.

(** ** What the chain of positions means *)
Lemma chain_splits tail : forall R a b, chain tail ((a, b) :: R) ->
  splits (skipn a s) (map (fun r => sl r) ((a, b) :: R)).
Proof.
  induction R as [|(a', b') R IH]; intros a b (Hab & Hp & Hn & Hc); cbn [map fst snd].
  - rewrite (slice_skipn s a b) at 1 by lia. apply splits_last; assumption.
  - eapply splits_more; [apply Hn|]. exact (IH a' b' Hc).
Qed.
Lemma chain_peels tail : forall R n a b a' b', chain tail ((a, b) :: R) -> nth_error ((a, b) :: R) n = Some (a', b') ->
  peels L ifs n (skipn a s) (map (fun r => sl r) (firstn n ((a, b) :: R))) (skipn a' s) /\ a' <= b' <= length s /\ Forall plain (slice s a' b') /\
  (S n < length ((a, b) :: R) -> b' <= tail).
Proof.
  induction R as [|(a1, b1) R IH]; intros [|n] a b a' b' (Hab & Hp & Hn & Hc) En; cbn [nth_error] in En.
  - injection En as <- <-. split; [constructor|]. split; [exact Hab|]. split; [exact Hp|]. cbn. lia.
  - destruct n; discriminate.
  - injection En as <- <-. split; [constructor|]. split; [exact Hab|]. split; [exact Hp|]. intros _. apply Hn.
  - destruct (IH n a1 b1 a' b' Hc En) as (H1 & H2 & H3 & H4). split; [|split; [exact H2|split; [exact H3|cbn in *; lia]]].
    cbn [firstn map fst snd]. econstructor; [apply Hn|exact H1].
Qed.
Lemma chain_in tail : forall R, chain tail R -> Forall (fun r => fst r <= snd r <= length s) R.
Proof. induction R as [|(a, b) R IH]; intros H; constructor; cbn in *; intuition. Qed.

(** ** extract_fields *)
Theorem extract_fields_ok e : exists R0 R tail, extract_fields L ifs e s = Ok (R, tail) /\
  chain tail R0 /\ R0 <> [] /\ tail <= length s /\ Forall white (skipn tail s) /\ before_ok 0 tail /\
  (R = R0 \/ exists r, R0 = R ++ [r] /\ sl r = []) /\
  final_fields e (map (fun r => sl r) R0) (map (fun r => sl r) R) /\
  exists a b R' w, R0 = (a, b) :: R' /\ s = w ++ skipn a s /\ Forall white w /\ ~ starts_with white (skipn a s).
Proof.
  unfold extract_fields.
  destruct (extract_loop_ok (S (length s)) s 0 false [] ltac:(lia) eq_refl ltac:(lia) ltac:(discriminate))
    as (R0 & tail & -> & Htl & Hw & Hb & Hc & a & b & R' & w & ER & Ha & Es & Hww & Hns).
  cbn [rbind app]. assert (Hne : R0 <> []) by (subst; discriminate).
  destruct (exists_last Hne) as (R1 & (c, d) & E1).
  assert (Hcd : c <= d <= length s).
  { pose proof (chain_in _ _ Hc) as H. rewrite E1 in H. apply Forall_app in H as [_ H]. inversion H; auto. }
  assert (Hl : length R0 = length R1 + 1) by (rewrite E1, app_length; reflexivity).
  assert (Hr : rev R0 = (c, d) :: rev R1) by (rewrite E1, rev_app_distr; reflexivity).
  rewrite Hr.
  assert (Common : forall R, (R = R0 \/ exists r, R0 = R ++ [r] /\ sl r = []) -> final_fields e (map (fun r => sl r) R0) (map (fun r => sl r) R) ->
    exists R2 R3 tail0, Ok (R, tail) = Ok (R3, tail0) /\ chain tail0 R2 /\ R2 <> [] /\ tail0 <= length s /\ Forall white (skipn tail0 s) /\ before_ok 0 tail0 /\
    (R3 = R2 \/ exists r, R2 = R3 ++ [r] /\ sl r = []) /\
    final_fields e (map (fun r => sl r) R2) (map (fun r => sl r) R3) /\
    exists a b R' w, R2 = (a, b) :: R' /\ s = w ++ skipn a s /\ Forall white w /\ ~ starts_with white (skipn a s)).
  { intros R HR HF. exists R0, R, tail. repeat (split; [first [reflexivity|assumption|lia]|]). exists a, b, R', w. auto. }
  assert (Hkeep : c <> d -> final_fields e (map (fun r => sl r) R0) (map (fun r => sl r) R0)).
  { intros Hne'. rewrite E1, map_app. apply ff_keep. cbn [fst snd]. rewrite slice_nil by lia. exact Hne'. }
  destruct (negb e || (length R0 =? 1)) eqn:Q.
  - destruct (c =? d) eqn:Ecd.
    + apply Nat.eqb_eq in Ecd. subst d. assert (Hsl : sl (c, c) = []) by (apply slice_nil; cbn; lia).
      replace (firstn (length R0 - 1) R0) with R1
        by (rewrite E1 at 2; rewrite firstn_app, firstn_all2, Hl, (proj2 (Nat.sub_0_le _ _)) by lia; cbn; rewrite app_nil_r; reflexivity).
      apply Common; [right; exists (c, c); auto|]. rewrite E1, map_app. cbn [map]. rewrite Hsl.
      destruct R1 as [|r R1]; [apply ff_only|]. apply ff_drop; [discriminate|].
      destruct e; [|reflexivity]. cbn [negb orb] in Q. rewrite E1 in Q. cbn in Q. rewrite app_length in Q. cbn in Q.
      apply Nat.eqb_eq in Q. lia.
    + apply Common; [left; reflexivity|]. apply Hkeep. now apply Nat.eqb_neq.
  - apply Common; [left; reflexivity|]. apply orb_false_iff in Q as [Q1 Q2]. apply Nat.eqb_neq in Q2. destruct e; [|discriminate].
    destruct (Nat.eq_dec c d) as [<-|Hd]; [|apply Hkeep, Hd].
    assert (Hsl : sl (c, c) = []) by (apply slice_nil; cbn; lia).
    rewrite E1, map_app. cbn [map]. rewrite Hsl. apply ff_empty; [|reflexivity]. destruct R1; [cbn in Hl; lia|discriminate].
Qed.

Corollary extract_fields_posix e : exists R tail, extract_fields L ifs e s = Ok (R, tail) /\
  posix_fields L ifs e s (map (fun r => sl r) R).
Proof.
  destruct (extract_fields_ok e) as (R0 & R & tail & -> & Hc & _ & _ & _ & _ & _ & Hf & a & b & R' & w & -> & Es & Hw & Hns).
  exists R, tail. split; [reflexivity|]. exists w, (skipn a s), (map (fun r => sl r) ((a, b) :: R')).
  repeat split; auto. eapply chain_splits; eauto.
Qed.
End Loop.

(** ** fieldsplit *)
Lemma fieldsplit_ok e : forall words, Forall nonull words -> exists fss,
  fieldsplit L ifs e words = Ok (concat fss) /\ Forall2 (posix_fields L ifs e) words fss.
Proof.
  induction words as [|s words IH]; intros Hn; cbn [fieldsplit].
  - exists []. split; [reflexivity|constructor].
  - inversion Hn as [|? ? Hs Hws]; subst. destruct (IH Hws) as (fss & -> & Hfss).
    destruct (extract_fields_posix s Hs e) as (R & tail & -> & HR). cbn [rbind].
    exists (map (fun r => slice s (fst r) (snd r)) R :: fss). split; [|constructor; assumption].
    cbn [concat]. f_equal. f_equal. destruct R as [|([|a], b) [|r R]]; try reflexivity.
    cbn [map fst snd]. destruct (b =? length s) eqn:Eb; [|reflexivity]. apply Nat.eqb_eq in Eb. subst b.
    unfold slice. cbn [skipn]. rewrite Nat.sub_0_r, firstn_all. reflexivity.
Qed.

(** ** Nothing is lost *)
Definition sepb (x : cell) : bool := cat_eqb (snd x) cc_soft && existsb (N.eqb (fst x)) ifs.
Lemma sepb_ok x : sepb x = true <-> separator x.
Proof.
  unfold sepb, SplitSpec.separator. rewrite andb_true_iff, cat_eqb_eq, existsb_exists. split.
  - intros [E (y & Hy & Hxy)]. apply N.eqb_eq in Hxy as <-. rewrite E. cbn. auto.
  - intros (E1 & E2 & E3 & HI). split; [destruct (snd x); cbn in *; subst; reflexivity|]. exists (fst x). split; [exact HI|apply N.eqb_refl].
Qed.
Lemma filter_plain f : Forall plain f -> filter (fun x => negb (sepb x)) f = f.
Proof.
  induction 1 as [|x f Hx Hf IH]; [reflexivity|]. cbn [filter].
  replace (sepb x) with false by (symmetry; apply not_true_iff_false; rewrite sepb_ok; exact Hx). cbn. now rewrite IH.
Qed.
Lemma filter_seps w : Forall separator w -> filter (fun x => negb (sepb x)) w = [].
Proof.
  induction 1 as [|x f Hx Hf IH]; [reflexivity|]. cbn [filter]. rewrite (proj2 (sepb_ok x) Hx). exact IH.
Qed.
Lemma white_seps w : Forall white w -> Forall separator w.
Proof. apply Forall_impl. intros x [H _]. exact H. Qed.
Lemma splits_filter t fs : splits t fs -> concat fs = filter (fun x => negb (sepb x)) t.
Proof.
  induction 1 as [f w Hf Hw|t f r fs Hp Hs IH]; cbn [concat].
  - rewrite filter_app, filter_plain, filter_seps, !app_nil_r by auto using white_seps. reflexivity.
  - rewrite IH. inversion Hp as [g w1 d w2 r0 G1 G2 G3 G4 G5|g w r0 G1 G2 G3 G4 G5]; subst.
    + rewrite filter_app, (filter_plain _ G1), filter_app, (filter_seps _ (white_seps _ G2)). cbn [filter app].
      rewrite (proj2 (sepb_ok d) (proj1 G3)). cbn [negb]. rewrite filter_app, (filter_seps _ (white_seps _ G4)). reflexivity.
    + rewrite filter_app, (filter_plain _ G1), filter_app, (filter_seps _ (white_seps _ G3)). reflexivity.
Qed.
Lemma final_concat e fs0 fs : final_fields e fs0 fs -> concat fs0 = concat fs.
Proof. inversion 1; subst; rewrite ?concat_app; cbn; rewrite ?app_nil_r; reflexivity. Qed.
Lemma posix_filter e s fs : posix_fields L ifs e s fs -> concat fs = filter (fun x => negb (sepb x)) s.
Proof.
  intros (w & r & fs0 & -> & Hw & _ & Hs & Hf). rewrite <- (final_concat _ _ _ Hf), (splits_filter _ _ Hs).
  rewrite filter_app, (filter_seps _ (white_seps _ Hw)). reflexivity.
Qed.
End Split.
