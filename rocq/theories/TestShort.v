(** Up to four arguments, and all argument lists together. *)
From Coq Require Import Ascii String.
From Coq Require Import List NArith ZArith Bool Lia Arith.
From Verif Require Import Common Locale NumModel NumProofs TestModel TestSpec TestPrim TestLong.
Import ListNotations.

Lemma g_nonempty :
  (forall e ws, g_or e ws -> ws <> []) /\ (forall e ws, g_and e ws -> ws <> []) /\ (forall e ws, g_term e ws -> ws <> []).
Proof.
  apply g_mut; intros; auto; try discriminate; destruct ws1; discriminate.
Qed.

Ltac getQ := match goal with H : _ ++ _ = _ |- _ => rename H into Q end.

(** The expressions with one, two and three words. *)
Lemma term1 : forall e a, g_term e [a] -> e = XWord a.
Proof.
  intros e a H. inversion H as [|?|?|? ws K|? ws K]; subst; auto.
  - apply g_nonempty in K. congruence.
  - destruct ws; discriminate.
Qed.
Lemma and1 : forall e a, g_and e [a] -> e = XWord a.
Proof.
  intros e a H. inversion H as [|? ? ws1 ws2 K1 K2]; subst; [apply term1; auto|].
  apply g_nonempty in K1. destruct ws1 as [|b [|c w]]; try discriminate. congruence.
Qed.
Lemma or1 : forall e a, g_or e [a] -> e = XWord a.
Proof.
  intros e a H. inversion H as [|? ? ws1 ws2 K1 K2]; subst; [apply and1; auto|].
  apply g_nonempty in K1. destruct ws1 as [|b [|c w]]; try discriminate. congruence.
Qed.

Lemma term2 : forall e a b, g_term e [a; b] ->
  (exists op, e = XUnary op b /\ In op unary_ops /\ a = str op) \/ (e = XNot (XWord b) /\ a = str "!").
Proof.
  intros e a b H. inversion H as [|?|?|? ws K|? ws K]; subst; eauto 6.
  - apply term1 in K. subst. auto.
  - apply g_nonempty in K. destruct ws as [|c [|d w]]; try discriminate. congruence.
Qed.
Lemma and2 : forall e a b, g_and e [a; b] -> g_term e [a; b].
Proof.
  intros e a b H. inversion H as [|? ? ws1 ws2 K1 K2]; subst; auto.
  apply g_nonempty in K1. apply g_nonempty in K2. destruct ws1 as [|c [|d [|f w]]], ws2; try discriminate; congruence.
Qed.
Lemma or2 : forall e a b, g_or e [a; b] -> g_term e [a; b].
Proof.
  intros e a b H. inversion H as [|? ? ws1 ws2 K1 K2]; subst; [apply and2; auto|].
  apply g_nonempty in K1. apply g_nonempty in K2. destruct ws1 as [|c [|d [|f w]]], ws2; try discriminate; congruence.
Qed.

Lemma term3 : forall e a b c, g_term e [a; b; c] ->
  (exists op, e = XBinary op a c /\ In op binary_ops /\ b = str op) \/
  (exists e', e = XNot e' /\ a = str "!" /\ g_term e' [b; c]) \/
  (e = XParen (XWord b) /\ a = str "(" /\ c = str ")").
Proof.
  intros e a b c H. inversion H as [|?|?|? ws K|? ws K]; subst; eauto 8.
  getQ. destruct ws as [|x [|y [|z w]]]; try discriminate.
  - injection Q as -> <-. apply or1 in K. subst. auto.
Qed.
Lemma or3 : forall e a b c, g_or e [a; b; c] -> g_term e [a; b; c] \/
  (e = XOr (XWord a) (XWord c) /\ b = str "-o") \/ (e = XAnd (XWord a) (XWord c) /\ b = str "-a").
Proof.
  intros e a b c H. inversion H as [? ? G|? ? ws1 ws2 K1 K2]; subst.
  - inversion G as [|? ? ws1 ws2 K1 K2]; subst; auto. pose proof K1 as K1'. pose proof K2 as K2'.
    apply g_nonempty in K1'. apply g_nonempty in K2'.
    getQ. destruct ws1 as [|x [|y [|z w]]]; try discriminate; try congruence.
    + cbn [app] in Q. injection Q as -> <- ->. apply and1 in K1. apply term1 in K2. subst. auto.
    + cbn [app] in Q. injection Q as -> -> <- Q. congruence.
    + cbn [app] in Q. injection Q as -> -> -> Q. destruct w; discriminate.
  - pose proof K1 as K1'. pose proof K2 as K2'. apply g_nonempty in K1'. apply g_nonempty in K2'.
    getQ. destruct ws1 as [|x [|y [|z w]]]; try discriminate; try congruence.
    + cbn [app] in Q. injection Q as -> <- ->. apply or1 in K1. apply and1 in K2. subst. auto.
    + cbn [app] in Q. injection Q as -> -> <- Q. congruence.
    + cbn [app] in Q. injection Q as -> -> -> Q. destruct w; discriminate.
Qed.

(** Four words of which the first is "!" or a parenthesis. *)
Lemma split4 : forall (a b c d : list N) ws1 m ws2, [a; b; c; d] = ws1 ++ m :: ws2 -> ws1 <> [] -> ws2 <> [] ->
  (ws1 = [a] /\ m = b /\ ws2 = [c; d]) \/ (ws1 = [a; b] /\ m = c /\ ws2 = [d]).
Proof.
  intros a b c d ws1 m ws2 H H1 H2. destruct ws1 as [|x [|y [|z [|t w]]]]; try congruence; cbn [app] in H.
  - injection H as -> <- <-. auto.
  - injection H as -> -> <- <-. auto.
  - injection H as -> -> -> <- <-. congruence.
  - injection H as -> -> -> -> H. destruct w; discriminate.
Qed.
Lemma or4 : forall e a b c d, g_or e [a; b; c; d] -> plain e -> opens a -> ~ posix_case [a; b; c; d] ->
  (exists e', e = XNot e' /\ a = str "!" /\ g_term e' [b; c; d]) \/
  (exists e', e = XParen e' /\ a = str "(" /\ d = str ")" /\ g_term e' [b; c]).
Proof.
  intros e a b c d H P O X.
  assert (T : forall e1, g_term e1 [a; b] -> plain e1 -> a = str "!" /\ e1 = XNot (XWord b)).
  { intros e1 K P1. apply term2 in K. destruct K as [(op & -> & Ho & ->)|(-> & ->)]; auto.
    destruct (unary_not_opens op Ho O). }
  inversion H as [? ? G|? ? ws1 ws2 K1 K2]; subst.
  - inversion G as [? ? K|? ? ws1 ws2 K1 K2]; subst.
    + inversion K as [|?|?|? ws K'|? ws K']; subst.
      * left. eauto.
      * right. getQ. destruct ws as [|x [|y [|z w]]]; try discriminate.
        -- cbn in Q. injection Q as -> -> <-. apply or2 in K'. eauto 6.
        -- destruct w; discriminate.
    + pose proof K1 as K1'. pose proof K2 as K2'. apply g_nonempty in K1'. apply g_nonempty in K2'. destruct P as [P1 P2].
      getQ. symmetry in Q. apply split4 in Q; auto. destruct Q as [(-> & <- & ->)|(-> & <- & ->)].
      * apply and1 in K1. subst. destruct P1 as [P1 _]. destruct (P1 O).
      * apply and2 in K1. destruct (T _ K1 P1) as [-> _]. exfalso. apply X. left. exists b, d. auto.
  - pose proof K1 as K1'. pose proof K2 as K2'. apply g_nonempty in K1'. apply g_nonempty in K2'. destruct P as [P1 P2].
    getQ. symmetry in Q. apply split4 in Q; auto. destruct Q as [(-> & <- & ->)|(-> & <- & ->)].
    + apply or1 in K1. subst. destruct P1 as [P1 _]. destruct (P1 O).
    + apply or2 in K1. destruct (T _ K1 P1) as [-> _]. exfalso. apply X. left. exists b, d. auto.
Qed.

Section Env.
Context (E : tenv) (Lok : locale_ok (t_loc E)).

Definition gives (x : option bool) (y : res tres) : Prop := exists v er, y = Ok (v, er) /\ agrees x v er.

Lemma gives_status : forall x args, gives x (test_eval E args) -> test_status E args = Ok (status_of x).
Proof.
  intros x args (v & er & H & A). unfold test_status. rewrite H. cbn [rbind].
  destruct x as [b|]; cbn in A; [destruct A as [-> ->]|subst er; reflexivity]. destruct b; reflexivity.
Qed.

Lemma gives_neg : forall x y, gives x y -> gives (option_map negb x) (tneg y).
Proof.
  intros x y (v & er & -> & A). exists (negb v), er. split; auto. destruct x; cbn in *; auto. destruct A as [-> ->]. auto.
Qed.

Lemma gives_word : forall w x, means E (XWord w) x -> gives x (val (test_single w)).
Proof. intros w x M. apply means_word in M. subst x. exists (test_single w), false. split; [reflexivity|]. cbn; auto. Qed.

(** Two words. *)
Lemma double_ok : forall e a b x, g_term e [a; b] -> means E e x -> gives x (test_double E a b).
Proof.
  intros e a b x G M. apply term2 in G. destruct G as [(op & -> & Ho & ->)|(-> & ->)].
  - inversion M as [|? ? ? M1| | | | | | | | |]; subst. apply (means1_ok E Lok op b x M1 Ho).
  - inversion M as [| | |? x1 M1| | | | | | |]; subst.
    apply means_word in M1. subst x1. exists (negb (test_single b)), false. split; [reflexivity|]. cbn; auto.
Qed.

(** Three words; not "!" before the unary "-o". *)
Lemma triple_ok : forall e a b c x, g_term e [a; b; c] -> plain e -> means E e x ->
  ~ (a = str "!" /\ b = str "-o") -> gives x (test_triple E a b c).
Proof.
  intros e a b c x G P M X. apply term3 in G.
  destruct G as [(op & -> & Ho & ->)|[(e' & -> & -> & G)|(-> & -> & ->)]].
  - inversion M as [| |? ? ? ? M2| | | | | | | |]; subst.
    destruct (means2_ok E Lok op a c x M2) as (_ & v & er & K & A). exists v, er. split; auto.
    unfold test_triple. rewrite K. auto.
  - inversion M as [| | |? x1 M1| | | | | | |]; subst.
    assert (NB : binary_op E b (str "!") c = None).
    { apply binary_none. pose proof G as G'. apply term2 in G'. destruct G' as [(op & -> & Ho & ->)|(-> & ->)]; [|destruct P].
      cbn [unary_ops In] in Ho. split; [|split].
      - clear - Ho. repeat destruct Ho as [<-|Ho]; try reflexivity. destruct Ho.
      - clear - Ho. intros K. repeat destruct Ho as [<-|Ho]; try discriminate. destruct Ho.
      - intros K. apply X. auto. }
    unfold test_triple. rewrite NB. change (list_N_eqb (str "!") (str "!")) with true. cbn iota.
    apply gives_neg. eapply double_ok; eauto.
  - inversion M as [| | | |? ? M1| | | | | |]; subst. apply means_word in M1. subst x.
    cbn [plain] in P. destruct P as (P1 & P2 & P3).
    assert (B : is_binary_primary b = false).
    { destruct (is_binary_primary b) eqn:B; auto. apply binary_iff in B. destruct (P3 B). }
    unfold test_triple. destruct (binary_op E b (str "(") (str ")")) as [y|] eqn:Q.
    + destruct (list_N_eqb b (str "-a")) eqn:Ea; [|destruct (list_N_eqb b (str "-o")) eqn:Eo].
      * apply list_N_eqb_eq in Ea. subst b. injection Q as <-. exists true, false. split; [reflexivity|]. cbn; auto.
      * apply list_N_eqb_eq in Eo. subst b. injection Q as <-. exists true, false. split; [reflexivity|]. cbn; auto.
      * apply list_N_eqb_neq in Ea, Eo. assert (binary_op E b (str "(") (str ")") = None) by (apply binary_none; auto). congruence.
    + change (list_N_eqb (str "(") (str "!")) with false. change (list_N_eqb (str "(") (str "(")) with true.
      change (list_N_eqb (str ")") (str ")")) with true. cbn [andb].
      exists (test_single b), false. split; [reflexivity|]. cbn; auto.
Qed.

Lemma long_value : forall e args x, g_or e args -> plain e -> means E e x -> gives x (test_long E args).
Proof.
  intros e args x G P M. destruct (long_complete E Lok) as (H & _).
  destruct (H e args G P x M [] I) as (v & er & r & A & R & K). clear H. rewrite app_nil_r in K.
  assert (Y : r_or E args (v, er, r)).
  { apply K. apply r_orl_stop. destruct er; auto. rewrite (R eq_refl). auto. }
  destruct Y as (f & Y). unfold test_long. set (F := (5 * length args + 3)%nat).
  assert (Z : long_or E F args = Ok (v, er, r)).
  { pose proof (long_total E args) as T. fold F in T.
    destruct (long_mono E F (F + f)) as (A1 & _); [lia|]. destruct (long_mono E f (F + f)) as (A2 & _); [lia|].
    rewrite <- (A1 args T). rewrite (A2 args); [exact Y|]. rewrite Y. discriminate. }
  rewrite Z. cbn [rbind]. exists v, (er || match r with [] => false | _ => true end). split; auto.
  destruct x as [b|]; cbn in *.
  - destruct A as [-> ->]. rewrite (R eq_refl). auto.
  - subst er. auto.
Qed.

Theorem eval_value : forall e args x, g_or e args -> plain e -> means E e x -> ~ posix_case args ->
  gives x (test_eval E args).
Proof.
  intros e args x G P M X. destruct args as [|a [|b [|c [|d [|f args]]]]]; cbn [test_eval].
  - apply g_nonempty in G. congruence.
  - apply or1 in G. subst. apply gives_word. auto.
  - apply or2 in G. eapply double_ok; eauto.
  - apply or3 in G. destruct G as [G|[(-> & ->)|(-> & ->)]].
    + eapply triple_ok; eauto. intros (-> & ->). apply X. right. eauto.
    + inversion M as [| | | | | | | |? ? u v M1 M2|? ? M1|? ? u M1 M2]; subst; try apply means_word in M1; try apply means_word in M2;
        try discriminate.
      injection M1 as ->. injection M2 as ->. exists (test_single a || test_single c), false. split; [reflexivity|cbn; auto].
    + inversion M as [| | | | |? ? u v M1 M2|? ? M1|? ? u M1 M2| | |]; subst; try apply means_word in M1; try apply means_word in M2;
        try discriminate.
      injection M1 as ->. injection M2 as ->. exists (test_single a && test_single c), false. split; [reflexivity|cbn; auto].
  - destruct (list_N_eqb a (str "!")) eqn:Q1.
    + apply list_N_eqb_eq in Q1. subst a. destruct (or4 _ _ _ _ _ G P (or_introl eq_refl) X) as [(e' & -> & _ & K)|(e' & _ & K & _)]; [|discriminate K].
      inversion M as [| | |? x1 M1| | | | | | |]; subst. apply gives_neg.
      assert (P' : plain e') by (destruct e'; try exact P; destruct P). eapply triple_ok; eauto.
      intros (-> & ->). apply term3 in K. destruct K as [(op & -> & Ho & _)|[(e2 & -> & _)|(_ & K & _)]]; try discriminate K.
      * apply P'. left; auto.
      * destruct P.
    + destruct (list_N_eqb a (str "(") && list_N_eqb d (str ")")) eqn:Q2; [|eapply long_value; eauto].
      apply andb_true_iff in Q2. destruct Q2 as [Q2 _]. apply list_N_eqb_eq in Q2. subst a.
      destruct (or4 _ _ _ _ _ G P (or_intror eq_refl) X) as [(e' & _ & K & _)|(e' & -> & _ & -> & K)]; [discriminate K|].
      inversion M as [| | | |? ? M1| | | | | |]; subst. eapply double_ok; eauto.
  - eapply long_value; eauto.
Qed.

(** ** Soundness *)
Lemma triple_sound : forall a b c v, test_triple E a b c = Ok (v, false) ->
  (exists e, g_term e [a; b; c] /\ means E e (Some v)) \/
  (b = str "-a" /\ v = (test_single a && test_single c)) \/ (b = str "-o" /\ v = (test_single a || test_single c)).
Proof.
  intros a b c v H. destruct (is_binary_primary b) eqn:B; [left; apply binary_sound; auto|].
  destruct (list_N_eqb b (str "-a")) eqn:Ea; [|destruct (list_N_eqb b (str "-o")) eqn:Eo].
  - apply list_N_eqb_eq in Ea. subst b. injection H as <-. auto.
  - apply list_N_eqb_eq in Eo. subst b. injection H as <-. auto.
  - apply list_N_eqb_neq in Ea, Eo. left. unfold test_triple in H.
    assert (Q : binary_op E b a c = None) by (apply binary_none; auto). rewrite Q in H.
    destruct (list_N_eqb a (str "!")) eqn:Q1.
    + apply list_N_eqb_eq in Q1. subst a. unfold tneg in H.
      destruct (test_double E b c) as [[v1 e1]| |] eqn:D; cbn [rbind] in H; try discriminate. injection H as <- ->.
      apply double_sound in D; auto. destruct D as (e & G & M). exists (XNot e). split; [apply g_not; auto|].
      apply m_not in M. exact M.
    + destruct (list_N_eqb a (str "(") && list_N_eqb c (str ")")) eqn:Q2; [|discriminate].
      apply andb_true_iff in Q2. destruct Q2 as [Q2 Q3]. apply list_N_eqb_eq in Q2, Q3. subst. injection H as <-.
      exists (XParen (XWord b)). split.
      * apply (g_paren (XWord b) [b]). apply g_or_one, g_and_one, g_word.
      * apply m_paren, m_word, single_truth.
Qed.

Lemma long_value_sound : forall args v, test_long E args = Ok (v, false) ->
  exists e, g_or e args /\ means E e (Some v).
Proof.
  intros args v H. unfold test_long in H.
  destruct (long_or E (5 * length args + 3) args) as [[[v1 e1] r]| |] eqn:Q; cbn [rbind] in H; try discriminate.
  injection H as <- H. apply orb_false_iff in H. destruct H as [-> H]. destruct r; [|discriminate].
  destruct (long_sound E Lok (5 * length args + 3)) as (S & _). apply S in Q. destruct Q as (e & ws & W & G & M).
  rewrite app_nil_r in W. subst. eauto.
Qed.

Theorem eval_sound : forall args v, test_eval E args = Ok (v, false) ->
  args = [] /\ v = false \/
  (exists e, g_or e args /\ means E e (Some v)) \/
  (exists a op b, args = [str "!"; a; op; b] /\ (op = str "-a" \/ op = str "-o")).
Proof.
  intros args v H.
  assert (T : forall e ws x, g_term e ws -> means E e x -> exists e, g_or e ws /\ means E e x).
  { intros e ws x G M. exists e. split; auto. apply g_or_one, g_and_one. auto. }
  destruct args as [|a [|b [|c [|d [|f args]]]]]; cbn [test_eval] in H.
  - injection H as <-. auto.
  - injection H as <-. right. left. eapply T; [apply g_word|]. apply m_word, single_truth.
  - right. left. apply double_sound in H; auto. destruct H as (e & G & M). eauto.
  - right. left. apply triple_sound in H. destruct H as [(e & G & M)|[(-> & ->)|(-> & ->)]]; eauto.
    + exists (XAnd (XWord a) (XWord c)). split.
      * apply g_or_one. apply (g_and_more (XWord a) (XWord c) [a] [c]); [apply g_and_one|]; apply g_word.
      * apply m_and; apply m_word, single_truth.
    + exists (XOr (XWord a) (XWord c)). split.
      * apply (g_or_more (XWord a) (XWord c) [a] [c]); [apply g_or_one|]; apply g_and_one, g_word.
      * apply m_or; apply m_word, single_truth.
  - destruct (list_N_eqb a (str "!")) eqn:Q1.
    + apply list_N_eqb_eq in Q1. subst a. unfold tneg in H.
      destruct (test_triple E b c d) as [[v1 e1]| |] eqn:D; cbn [rbind] in H; try discriminate. injection H as <- ->.
      apply triple_sound in D. destruct D as [(e & G & M)|[(-> & ->)|(-> & ->)]].
      * right. left. eapply T; [apply g_not; eauto|]. apply m_not in M. exact M.
      * right. right. exists b, (str "-a"), d. auto.
      * right. right. exists b, (str "-o"), d. auto.
    + right. left. destruct (list_N_eqb a (str "(") && list_N_eqb d (str ")")) eqn:Q2; [|apply long_value_sound; auto].
      apply andb_true_iff in Q2. destruct Q2 as [Q2 Q3]. apply list_N_eqb_eq in Q2, Q3. subst.
      apply double_sound in H; auto. destruct H as (e & G & M).
      eapply T; [apply (g_paren e [b; c]); apply g_or_one, g_and_one; eauto|]. apply m_paren. auto.
  - right. left. apply long_value_sound; auto.
Qed.

(** ** No undefined behaviour when words can be converted *)
Definition convertible : Prop := forall w, t_mbs E w <> None.
Lemma double_no_ub : forall a b, test_double E a b <> UB.
Proof.
  intros a b. unfold test_double, val, fail.
  repeat match goal with |- context [if ?c then _ else _] => destruct c end; try discriminate.
  destruct (t_mbs E b); discriminate.
Qed.
Lemma triple_no_ub : convertible -> forall a b c, test_triple E a b c <> UB.
Proof.
  clear Lok. intros C l op r. unfold test_triple. destruct (binary_op E op l r) as [x|] eqn:H.
  - assert (KI : forall f, int_cond E f l r <> UB) by (intros f; unfold int_cond; destruct (compare_integers E l r); discriminate).
    assert (KF : forall f, file_cond E f l r <> UB) by (intros f; unfold file_cond; destruct (compare_files E l r); discriminate).
    assert (KV : forall f, ver_cond E f l r <> UB).
    { intros f. unfold ver_cond. destruct (versions_total E (S (length l)) l r) as (z & Hc); [lia|]. unfold versions. rewrite Hc. discriminate. }
    assert (KR : match_regex E l r <> UB).
    { unfold match_regex. pose proof (C l). pose proof (C r). destruct (t_mbs E r); [|congruence].
      destruct (negb (t_regcomp E _)); [discriminate|]. destruct (t_mbs E l); [discriminate|congruence]. }
    unfold binary_op in H.
    repeat match type of H with context [if ?c then _ else _] => destruct c end; try discriminate H;
      injection H as <-; auto; discriminate.
  - destruct (list_N_eqb l (str "!")).
    + unfold tneg. pose proof (double_no_ub op r). destruct (test_double E op r) as [[v e]| |]; cbn; congruence.
    + destruct (list_N_eqb l (str "(") && list_N_eqb r (str ")")); discriminate.
Qed.
Lemma prim_no_ub : convertible -> forall a rest, long_prim E (a :: rest) <> UB.
Proof.
  clear Lok. intros C a rest. unfold long_prim.
  assert (D : match rest with
        | b :: r2 => if is_unary_primary a && term_ends r2
            then (let! (v, e) := test_double E a b in Ok (v, e, r2))%res else Ok (test_single a, false, rest)
        | [] => Ok (test_single a, false, rest) end <> UB).
  { destruct rest as [|b r2]; [discriminate|]. destruct (is_unary_primary a && term_ends r2); [|discriminate].
    pose proof (double_no_ub a b). destruct (test_double E a b) as [[v e]| |]; cbn; congruence. }
  destruct rest as [|op [|c r3]]; auto.
  destruct (is_binary_primary op && term_ends r3); auto.
  pose proof (triple_no_ub C a op c). destruct (test_triple E a op c) as [[v e]| |]; cbn; congruence.
Qed.
Lemma long_no_ub : convertible -> forall f,
  (forall rest, long_or E f rest <> UB) /\ (forall v e rest, or_loop E f v e rest <> UB) /\
  (forall rest, long_and E f rest <> UB) /\ (forall v e rest, and_loop E f v e rest <> UB) /\
  (forall rest, long_term E f rest <> UB).
Proof.
  clear Lok. intros C. induction f as [|f (IO & IOL & IA & IAL & IT)]; [repeat split; intros; discriminate|].
  split; [|split; [|split; [|split]]].
  - intros rest. rewrite long_or_S. pose proof (IA rest). destruct (long_and E f rest) as [[[v e] r]| |]; cbn [rbind]; try congruence; try apply IOL.
  - intros v e rest. rewrite or_loop_S. destruct (negb e && head_is rest "-o"); [|discriminate].
    pose proof (IA (tl rest)). destruct (long_and E f (tl rest)) as [[[v2 e2] r]| |]; cbn [rbind]; try congruence; try apply IOL.
  - intros rest. rewrite long_and_S. pose proof (IT rest). destruct (long_term E f rest) as [[[v e] r]| |]; cbn [rbind]; try congruence; try apply IAL.
  - intros v e rest. rewrite and_loop_S. destruct (negb e && head_is rest "-a"); [|discriminate].
    pose proof (IT (tl rest)). destruct (long_term E f (tl rest)) as [[[v2 e2] r]| |]; cbn [rbind]; try congruence; try apply IAL.
  - intros rest. rewrite long_term_S. cbv zeta. set (neg := head_is rest "!"). clearbody neg.
    destruct (if neg then tl rest else rest) as [|a r1]; [discriminate|].
    destruct (head_is (a :: r1) "(").
    + pose proof (IO (tl (a :: r1))). destruct (long_or E f (tl (a :: r1))) as [[[v e] r]| |]; cbn [rbind]; try discriminate; [|exfalso; apply H; reflexivity].
      destruct (head_is r ")"); discriminate.
    + pose proof (prim_no_ub C a r1). destruct (long_prim E (a :: r1)) as [[[v e] r]| |]; cbn [rbind]; try discriminate. exfalso; apply H; reflexivity.
Qed.
Theorem eval_total : convertible -> forall args, exists v e, test_eval E args = Ok (v, e).
Proof.
  clear Lok. intros C args.
  assert (L : exists v e, test_long E args = Ok (v, e)).
  { unfold test_long. pose proof (long_total E args). destruct (long_no_ub C (5 * length args + 3)) as (K & _). specialize (K args).
    destruct (long_or E (5 * length args + 3) args) as [[[v e] r]| |]; cbn [rbind]; eauto; congruence. }
  assert (D : forall a b, exists v e, test_double E a b = Ok (v, e)).
  { intros a b. pose proof (double_no_ub a b). pose proof (double_fuel E a b). destruct (test_double E a b) as [[v e]| |]; eauto; congruence. }
  assert (T : forall a b c, exists v e, test_triple E a b c = Ok (v, e)).
  { intros a b c. pose proof (triple_no_ub C a b c). pose proof (triple_fuel E a b c). destruct (test_triple E a b c) as [[v e]| |]; eauto; congruence. }
  destruct args as [|a [|b [|c [|d [|f args]]]]]; cbn [test_eval]; auto; try (unfold val; eauto; fail).
  destruct (list_N_eqb a (str "!")).
  - destruct (T b c d) as (v & e & K). rewrite K. cbn. eauto.
  - destruct (list_N_eqb a (str "(") && list_N_eqb d (str ")")); auto.
Qed.
End Env.
