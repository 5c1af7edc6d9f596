(** The parser accepts what is derived by the grammar. *)
From Coq Require Import Ascii String.
From Coq Require Import List NArith ZArith Bool Arith Lia.
From Coq Require Import ZifyBool ZifyN.
From Verif Require Import Common Locale NumModel NumProofs ParseModel ParseSpec ParseLex ParseRound GramSpec GramSound.
From Verif Require TestModel TestSpec TestPrim.
Import ListNotations.
Local Open Scope N_scope.
Local Open Scope pres_scope.

Section Complete.
Variable L : locale.
Hypothesis Lok : locale_ok L.
Variable X : Type.
Variable sp_parse : bool -> list N -> spres X.
Notation word := (word X).
Notation tok := (tok X).
Notation tk_type := (tk_type X).
Notation tk_word := (tk_word X).
Notation tk_rest := (tk_rest X).
Notation is t k := (tt_eqb (tk_type t) k).
Notation next_token := (next_token L X sp_parse).
Notation nt := (nt L X sp_parse).
Notation p_newlines := (p_newlines L X sp_parse).
Notation p_words := (p_words L X sp_parse).
Notation p_redir := (p_redir L X sp_parse).
Notation p_redirs := (p_redirs L X sp_parse).
Notation p_assign := (p_assign L X sp_parse).
Notation p_simple := (p_simple L X sp_parse).
Notation p_patterns := (p_patterns L X sp_parse).
Notation p_operand := (p_operand L X sp_parse).
Notation p_primary := (p_primary L X sp_parse).
Notation p_ors := (p_ors L X sp_parse).
Notation p_ands := (p_ands L X sp_parse).
Notation p_nots := (p_nots L X sp_parse).
Notation expect := (expect L X sp_parse).
Notation p_for_words := (p_for_words L X sp_parse).
Notation p_func_paren := (p_func_paren L X sp_parse).
Notation p_list := (p_list L X sp_parse).
Notation p_pipelines := (p_pipelines L X sp_parse).
Notation p_commands := (p_commands L X sp_parse).
Notation p_command := (p_command L X sp_parse).
Notation p_compound := (p_compound L X sp_parse).
Notation p_if := (p_if L X sp_parse).
Notation p_cases := (p_cases L X sp_parse).
Notation p_line := (p_line L X sp_parse).
Notation T_redir := (T_redir X).
Notation T_redirs := (T_redirs X).
Notation T_assign := (T_assign L X).
Notation T_simple := (T_simple L X).
Notation T_or := (T_or X).
Notation T_and := (T_and X).
Notation T_not := (T_not X).
Notation T_patterns := (T_patterns X).
Notation T_for := (T_for X).
Notation T_cmd := (T_cmd L X).
Notation T_comp := (T_comp L X).
Notation T_list := (T_list L X).
Notation T_pls := (T_pls L X).
Notation T_cmds := (T_cmds L X).
Notation T_ifs := (T_ifs L X).
Notation T_items := (T_items L X).
Notation T_line := (T_line L X).
Notation newlines := (newlines X).
Notation newline := (newline X).
Notation wd := (wd X).
Notation name := (name L).
Notation assigns := (assigns L X).

Notation T := (T L X sp_parse).
Notation seq := (seq L X sp_parse).

Lemma seq_cons_inv : forall t u ts t', seq t (u :: ts) t' -> u = t /\ exists t1, nt t = POk t1 /\ seq t1 ts t'.
Proof. intros t u ts t' H. inversion H; subst. eauto. Qed.
Lemma seq_nil_inv : forall t t', seq t [] t' -> t' = t.
Proof. intros t t' H. inversion H; auto. Qed.
Lemma seq_app_inv : forall ts t ts' t', seq t (ts ++ ts') t' -> exists t1, seq t ts t1 /\ seq t1 ts' t'.
Proof.
  induction ts as [|u ts IH]; intros t ts' t' H; cbn [app] in H; [exists t; split; [constructor|auto]|].
  apply seq_cons_inv in H. destruct H as (-> & t1 & Hn & H). apply IH in H. destruct H as (t2 & H1 & H2). exists t2. split; auto. eapply seq_cons; eauto.
Qed.
(** Takes a sequence apart *)
Ltac sqi := unfold GramSpec.newline, GramSpec.ty in *; repeat match goal with
  | H : seq _ (_ :: _) _ |- _ => let t1 := fresh "t" in let Hn := fresh "Hn" in apply seq_cons_inv in H; destruct H as (-> & t1 & Hn & H)
  | H : seq _ [] _ |- _ => apply seq_nil_inv in H; subst
  | H : seq _ (_ ++ _) _ |- _ => let t1 := fresh "t" in let H' := fresh "Hs" in apply seq_app_inv in H; destruct H as (t1 & H' & H)
  end.
Ltac tk := solve [eapply T_nt; eassumption | eapply seq_T; [|eassumption]; tk | assumption].

Lemma newlines_c : forall ns t t', newlines ns -> seq t ns t' -> tk_type t' <> TT_NEWLINE ->
  evt (fun m => p_newlines m t = POk (match ns with [] => false | _ => true end, t')).
Proof.
  intros ns t t' H. revert t. induction H as [|u ns Hu H IH]; intros t Hs Hn; sqi.
  - apply evt_S0. intros m. cbn [ParseModel.p_newlines]. rewrite tt_eqb_neq by auto. auto.
  - eapply evt_S; [apply (IH _ Hs Hn)|]. cbn beta. intros m E. cbn [ParseModel.p_newlines]. rewrite (proj2 (tt_eqb_eq _ _) Hu), Hn0. cbn [pbind]. rewrite E. reflexivity.
Qed.
Lemma words_c : forall ts ws t t', Forall2 wd ts ws -> seq t ts t' -> tk_word t' = None -> evt (fun m => p_words m false t = POk (ws, t')).
Proof.
  intros ts ws t t' H. revert t. induction H as [|u w ts ws Hu H IH]; intros t Hs Hn; sqi.
  - apply evt_S0. intros m. cbn [ParseModel.p_words andb]. rewrite Hn. auto.
  - eapply evt_S; [apply (IH _ Hs Hn)|]. cbn beta. intros m E. cbn [ParseModel.p_words andb]. unfold GramSpec.wd in Hu. rewrite Hu, Hn0. cbn [pbind]. rewrite E. reflexivity.
Qed.
Lemma word_type_no : forall t w k, T t -> tk_word t = Some w -> In k op_types -> tk_type t <> k.
Proof. intros t w k Ht Hw Hk E. subst k. apply (T_op _ _ _ _ Ht) in Hk. congruence. Qed.
Lemma word_fd : forall t w, T t -> tk_word t = Some w -> default_fd (tk_type t) = None.
Proof.
  intros t w Ht Hw. destruct (T_some _ _ _ _ _ Ht Hw) as [E|[E _]]; rewrite E; auto. apply keyword_tok.
Qed.
Definition nlw (ws : list word) (t t' : tok) : Prop :=
  exists t0 b, evt (fun m => p_newlines m t = POk (b, t0)) /\ tk_type t0 <> TT_NEWLINE /\ evt (fun m => p_words m true t0 = POk (ws, t')).
Lemma nlw_words : forall ws t t', nlw ws t t' -> evt (fun m => p_words m true t = POk (ws, t')).
Proof.
  intros ws t t' (t0 & b & H1 & H2 & H3). destruct (tt_eqb (tk_type t) TT_NEWLINE) eqn:E.
  - eapply evt_S; [apply evt_and; [exact H1|exact H3]|]. cbn beta. intros m [E1 E2]. cbn [ParseModel.p_words andb]. rewrite E, E1. cbn [pbind]. exact E2.
  - assert (t0 = t).
    { destruct H1 as [n H1]. specialize (H1 (S n) ltac:(lia)). cbn [ParseModel.p_newlines] in H1. rewrite E in H1. congruence. }
    subst t0. exact H3.
Qed.
Lemma values_c : forall ws ts t t', T_values X ws ts -> T t -> seq t ts t' -> tk_word t' = None -> tk_type t' <> TT_NEWLINE -> nlw ws t t'.
Proof.
  intros ws ts t t' H. revert t. induction H as [|u ws ts Hu H IH|u w ws ts Hu H IH]; intros t Ht Hs Hw Hn; sqi.
  - exists t, false. split; [apply (newlines_c [] t t); auto; constructor|]. split; auto. apply evt_S0. intros m. cbn [ParseModel.p_words andb].
    rewrite tt_eqb_neq by auto. rewrite Hw. auto.
  - destruct (IH t0 ltac:(tk) Hs Hw Hn) as (t1 & b & H1 & H2 & H3). exists t1, true. split; [|auto]. eapply evt_S; [exact H1|]. cbn beta. intros m E.
    cbn [ParseModel.p_newlines]. rewrite (proj2 (tt_eqb_eq _ _) Hu), Hn0. cbn [pbind]. rewrite E. reflexivity.
  - assert (Hnl : tk_type t <> TT_NEWLINE) by (eapply word_type_no; eauto; cbn; tauto).
    exists t, false. split; [apply (newlines_c [] t t); auto; constructor|]. split; auto.
    eapply evt_S; [apply nlw_words, (IH t0 ltac:(tk) Hs Hw Hn)|]. cbn beta. intros m E. cbn [ParseModel.p_words andb]. unfold GramSpec.wd in Hu. rewrite tt_eqb_neq by auto.
    rewrite Hu, Hn0. cbn [pbind]. rewrite E. reflexivity.
Qed.
Lemma redir_op_fun : forall k fd r, redir_op k fd r -> default_fd k = Some fd /\ redir_type k = POk r /\ k <> TT_IO_NUMBER /\ In k op_types.
Proof. intros k fd r H. destruct H; cbn; repeat split; try discriminate; tauto. Qed.
Lemma redir_c : forall r ts t t', T_redir r ts -> T t -> seq t ts t' -> p_redir t = POk (Some (r, t')).
Proof.
  intros r ts t t' H Ht Hs. unfold ParseModel.p_redir. destruct H as [o f fd k w Ho Hf|n o f s fd fd' k w Hn Hw Hd Ho Hf]; sqi.
  - apply redir_op_fun in Ho. destruct Ho as (H1 & H2 & H3 & _). unfold ty in *. rewrite tt_eqb_neq by auto. rewrite H1, H2. cbn [pbind]. rewrite Hn. cbn [pbind].
    unfold GramSpec.wd in Hf. rewrite Hf, Hn0. reflexivity.
  - apply redir_op_fun in Ho. destruct Ho as (H1 & H2 & H3 & _). unfold ty in *. rewrite (proj2 (tt_eqb_eq _ _) Hn).
    unfold GramSpec.wd in *. rewrite Hw. cbn [single_string]. rewrite Hn0. cbn [pbind]. rewrite H2. cbn [pbind]. rewrite Hn1. cbn [pbind]. rewrite Hf, Hn2. cbn [pbind].
    destruct (T_io _ _ _ _ Ht Hn) as (s' & Hw' & Hdig). assert (s' = s) by congruence. subst s'. apply (descriptor_fd X sp_parse) in Hdig. unfold descriptor in *.
    assert (fd = fd_of s) by lia. subst fd. reflexivity.
Qed.
Definition folc (t : tok) : Prop := default_fd (tk_type t) = None /\ tk_type t <> TT_IO_NUMBER.
Lemma redirs_c : forall r ts t t', T_redirs r ts -> T t -> seq t ts t' -> folc t' -> evt (fun m => p_redirs m t = POk (r, t')).
Proof.
  intros r ts t t' H. revert t. induction H as [|r rs ts ts' Hr H IH]; intros t Ht Hs [Hf1 Hf2]; sqi.
  - apply evt_S0. intros m. cbn [ParseModel.p_redirs]. rewrite p_redir_none by auto. reflexivity.
  - eapply evt_S; [apply (IH t0 ltac:(tk) Hs); split; auto|]. cbn beta. intros m E. cbn [ParseModel.p_redirs].
    rewrite (redir_c _ _ _ _ Hr Ht Hs0). cbn [pbind]. rewrite E. reflexivity.
Qed.
Lemma assign_c : forall a ts t t', T_assign a ts -> T t -> seq t ts t' -> evt (fun m => p_assign m t = POk (Some (a, t'))).
Proof.
  intros a ts t t' H Ht Hs. destruct H as [u w n v Hw Ha Hp|u w n vs o ts c Hw Ha Hp Ho Hv Hc]; sqi; unfold GramSpec.wd in Hw; apply (split_assign_iff _ Lok) in Ha.
  - apply evt_all. intros m. unfold ParseModel.p_assign. rewrite Hw, Ha, Hn. cbn [pbind]. destruct v as [|x v]; auto. destruct (tk_rest t) as [|c r] eqn:Er; auto.
    destruct (c =? ch "(") eqn:Ec; auto. exfalso. apply N.eqb_eq in Ec. subst c. apply Hp; auto. exists r. auto.
  - pose proof (values_c _ _ t1 t2 Hv ltac:(tk) Hs0) as E.
    assert (Hc1 : tk_word t2 = None). { apply T_op with (L := L) (sp_parse := sp_parse); [tk|]. unfold ty in Hc. rewrite Hc. cbn. tauto. }
    assert (Hc2 : tk_type t2 <> TT_NEWLINE) by (unfold ty in Hc; rewrite Hc; discriminate).
    specialize (E Hc1 Hc2). apply nlw_words in E. eapply evt_impl; [exact E|]. cbn beta. intros m Em. unfold ParseModel.p_assign. rewrite Hw, Ha, Hn. cbn [pbind].
    destruct Hp as [r Hr]. rewrite Hr, N.eqb_refl, Hn0. cbn [pbind]. rewrite Em. cbn [pbind]. unfold ty in Hc. rewrite Hc. cbn [tt_eqb]. rewrite tt_eqb_refl, Hn1. reflexivity.
Qed.
Lemma assign_head : forall a ts, T_assign a ts -> exists t w n v ts', ts = t :: ts' /\ wd t w /\ assigns w n v.
Proof. intros a ts H. destruct H; eauto 10. Qed.
Lemma assign_not_io : forall t w n v, T t -> wd t w -> assigns w n v -> tk_type t <> TT_IO_NUMBER.
Proof.
  intros t w n v Ht Hw [Hn (s & us & -> & _)] E. destruct (T_io _ _ _ _ Ht E) as (s' & Hw' & Hd). unfold GramSpec.wd in Hw. rewrite Hw in Hw'. injection Hw' as <- _.
  destruct n as [|c n]; [destruct Hn|]. destruct Hn as [Hn _]. cbn [app forallb] in Hd. apply andb_true_iff in Hd. destruct Hd as [Hd _]. apply digit_iff in Hd. auto.
Qed.
Lemma simple_c : forall b a ws r ts t t', T_simple b a ws r ts -> T t -> seq t ts t' -> tk_word t' = None -> default_fd (tk_type t') = None ->
  evt (fun m => p_simple m b t = POk (a, ws, r, t')).
Proof.
  intros b a ws r ts t t' H. revert t. induction H as [b|b r ts a ws rs ts' Hr H IH|x ts a ws rs ts' Hx H IH|b u w ws rs ts' Hu Hio Hna H IH]; intros t Ht Hs Hw Hd; sqi.
  - apply evt_S0. intros m. cbn [ParseModel.p_simple].
    assert (Hio : tk_type t <> TT_IO_NUMBER) by (intros E; destruct (T_io _ _ _ _ Ht E) as (? & ? & _); congruence).
    rewrite p_redir_none by auto. cbn [pbind]. destruct b; cbn [pbind]; unfold ParseModel.p_assign; rewrite Hw; cbn [pbind]; auto.
  - eapply evt_S; [apply (IH t0 ltac:(tk) Hs Hw Hd)|]. cbn beta. intros m E. cbn [ParseModel.p_simple]. rewrite (redir_c _ _ _ _ Hr Ht Hs0). cbn [pbind]. rewrite E. reflexivity.
  - destruct (assign_head _ _ Hx) as (u & w & n & v & ts0 & -> & Hu & Ha). assert (u = t) by (inversion Hs0; auto). subst u.
    eapply evt_S; [apply evt_and; [apply (assign_c _ _ _ _ Hx Ht Hs0)|apply (IH t0 ltac:(tk) Hs Hw Hd)]|]. cbn beta. intros m [E1 E2]. cbn [ParseModel.p_simple].
    rewrite p_redir_none; [|eapply word_fd; eauto|eapply assign_not_io; eauto]. cbn [pbind]. rewrite E1. cbn [pbind]. rewrite E2. reflexivity.
  - eapply evt_S; [apply (IH t0 ltac:(tk) Hs Hw Hd)|]. cbn beta. intros m E. cbn [ParseModel.p_simple].
    rewrite p_redir_none; [|eapply word_fd; eauto|auto]. cbn [pbind].
    assert (Ena : (if b then p_assign m t else POk None) = POk None).
    { destruct b; auto. unfold ParseModel.p_assign. unfold GramSpec.wd in Hu. rewrite Hu. destruct (split_assign L X w) as [[n v]|] eqn:Es; auto.
      exfalso. apply Hna; auto. exists n, v. apply (split_assign_iff _ Lok). auto. }
    rewrite Ena. cbn [pbind]. unfold GramSpec.wd in Hu. rewrite Hu, Hn. cbn [pbind]. rewrite E. reflexivity.
Qed.
Lemma patterns_c : forall ws ts c t t', T_patterns ws ts -> seq t (ts ++ [c]) t' -> tk_type c = TT_RPAREN -> evt (fun m => p_patterns m t = POk (ws, t')).
Proof.
  intros ws ts c t t' H. revert t. induction H as [u w Hu|u w o ws ts Hu Ho H IH]; intros t Hs Hc; cbn [app] in Hs; unfold GramSpec.wd, ty in *.
  - sqi. apply evt_S0. intros m. cbn [ParseModel.p_patterns]. rewrite Hu, Hn. cbn [pbind]. rewrite Hc, tt_eqb_neq by discriminate. rewrite tt_eqb_refl, Hn0. reflexivity.
  - apply seq_cons_inv in Hs. destruct Hs as (-> & t1 & Hn & Hs). apply seq_cons_inv in Hs. destruct Hs as (-> & t2 & Hn' & Hs).
    eapply evt_S; [apply (IH _ Hs Hc)|]. cbn beta. intros m E. cbn [ParseModel.p_patterns]. rewrite Hu, Hn. cbn [pbind]. rewrite Ho, tt_eqb_refl, Hn'. cbn [pbind]. rewrite E. reflexivity.
Qed.

(** ** Double brackets *)
Definition dfol (t : tok) : Prop := forall op, ~ binary X t op.
Lemma operand_c : forall t w t', operand X t w -> nt t = POk t' -> p_operand t = POk (w, t').
Proof.
  intros t w t' [Hw Hc] Hn. unfold ParseModel.p_operand. unfold GramSpec.wd in Hw. destruct (is_close X t) eqn:E; [apply close_iff in E; congruence|]. rewrite Hw, Hn. reflexivity.
Qed.
Lemma not_unary_c : forall t l, operand X t l -> ~ unary X l ->
  match tk_word t with
  | Some w => match single_string X w with Some s => if TestModel.is_unary_primary s then Some s else None | None => None end
  | None => None
  end = None.
Proof.
  intros t l [Hw _] Hu. unfold GramSpec.wd in Hw. rewrite Hw. destruct l as [|[s|] [|]]; auto. cbn [single_string]. destruct (TestModel.is_unary_primary s) eqn:E; auto.
  exfalso. apply Hu. apply unary_word. eauto.
Qed.
Definition bop (t : tok) : option (list N) :=
  if is t TT_LESS then Some (str "<") else if is t TT_GREATER then Some (str ">")
  else match tk_word t with
       | Some w => match single_string X w with Some s => if TestModel.is_binary_primary s then Some s else None | None => None end
       | None => None end.
Lemma bop_iff : forall t op, T t -> binary X t op -> bop t = Some op.
Proof.
  intros t op Ht H. unfold bop. destruct H as [H|H|o Ho H]; unfold ty, GramSpec.wd in *.
  - rewrite H, tt_eqb_refl. auto.
  - rewrite H, tt_eqb_neq by discriminate. rewrite tt_eqb_refl. auto.
  - rewrite !tt_eqb_neq by (eapply word_type_no; eauto; cbn; tauto). rewrite H. cbn [single_string].
    assert (E : TestModel.is_binary_primary (str o) = true) by (apply TestPrim.binary_iff; exists o; auto). rewrite E. auto.
Qed.
Lemma bop_none : forall t, dfol t -> bop t = None.
Proof.
  intros t H. unfold bop. destruct (is t TT_LESS) eqn:E1; [apply tt_eqb_eq in E1; destruct (H (str "<")); apply bin_less; auto|].
  destruct (is t TT_GREATER) eqn:E2; [apply tt_eqb_eq in E2; destruct (H (str ">")); apply bin_greater; auto|].
  destruct (tk_word t) as [[|[s|] [|]]|] eqn:Ew; auto. cbn [single_string]. destruct (TestModel.is_binary_primary s) eqn:E; auto.
  apply TestPrim.binary_iff in E. destruct E as (o & Ho & ->). destruct (H (str o)). apply bin_word; auto.
Qed.
Lemma dfol_op : forall t, T t -> In (tk_type t) op_types -> tk_type t <> TT_LESS -> tk_type t <> TT_GREATER -> dfol t.
Proof.
  intros t Ht H1 H2 H3 op H. destruct H as [H|H|o Ho H]; auto. apply (T_op _ _ _ _ Ht) in H1. unfold GramSpec.wd in H. congruence.
Qed.
Scheme T_or_min := Minimality for GramSpec.T_or Sort Prop
  with T_and_min := Minimality for GramSpec.T_and Sort Prop
  with T_not_min := Minimality for GramSpec.T_not Sort Prop.
Combined Scheme T_db_min from T_or_min, T_and_min, T_not_min.
Lemma db_c :
  (forall e ts, T_or e ts -> forall t t', T t -> seq t ts t' -> dfol t' -> tk_type t' <> TT_AMPAMP -> tk_type t' <> TT_PIPEPIPE -> evt (fun m => p_ors m t = POk (e, t'))) /\
  (forall e ts, T_and e ts -> forall t t', T t -> seq t ts t' -> dfol t' -> tk_type t' <> TT_AMPAMP -> evt (fun m => p_ands m t = POk (e, t'))) /\
  (forall e ts, T_not e ts -> forall t t', T t -> seq t ts t' -> dfol t' -> evt (fun m => p_nots m t = POk (e, t'))).
Proof.
  apply (T_db_min X
    (fun e ts => forall t t', T t -> seq t ts t' -> dfol t' -> tk_type t' <> TT_AMPAMP -> tk_type t' <> TT_PIPEPIPE -> evt (fun m => p_ors m t = POk (e, t')))
    (fun e ts => forall t t', T t -> seq t ts t' -> dfol t' -> tk_type t' <> TT_AMPAMP -> evt (fun m => p_ands m t = POk (e, t')))
    (fun e ts => forall t t', T t -> seq t ts t' -> dfol t' -> evt (fun m => p_nots m t = POk (e, t')))).
  - intros e ts _ IH t t' Ht Hs H1 H2 H3. eapply evt_S; [apply (IH _ _ Ht Hs H1 H2)|]. cbn beta. intros m E. rewrite p_ors_S, E. cbn [pbind]. rewrite tt_eqb_neq by auto. auto.
  - intros l ts o r ts' _ IH1 Ho _ IH2 t t' Ht Hs H1 H2 H3. unfold ty in Ho. sqi. assert (Ht0 : T t0) by tk.
    assert (Hf : dfol t0) by (apply dfol_op; auto; rewrite Ho; try discriminate; cbn; tauto).
    eapply evt_S; [apply evt_and; [apply (IH1 _ _ Ht Hs0 Hf); rewrite Ho; discriminate|apply (IH2 t1 t' ltac:(tk) Hs H1 H2 H3)]|]. cbn beta. intros m [E1 E2].
    rewrite p_ors_S, E1. cbn [pbind]. rewrite Ho, tt_eqb_refl, Hn. cbn [pbind]. rewrite E2. reflexivity.
  - intros e ts _ IH t t' Ht Hs H1 H2. eapply evt_S; [apply (IH _ _ Ht Hs H1)|]. cbn beta. intros m E. rewrite p_ands_S, E. cbn [pbind]. rewrite tt_eqb_neq by auto. auto.
  - intros l ts o r ts' _ IH1 Ho _ IH2 t t' Ht Hs H1 H2. unfold ty in Ho. sqi. assert (Ht0 : T t0) by tk.
    assert (Hf : dfol t0) by (apply dfol_op; auto; rewrite Ho; try discriminate; cbn; tauto).
    eapply evt_S; [apply evt_and; [apply (IH1 _ _ Ht Hs0 Hf)|apply (IH2 t1 t' ltac:(tk) Hs H1 H2)]|]. cbn beta. intros m [E1 E2].
    rewrite p_ands_S, E1. cbn [pbind]. rewrite Ho, tt_eqb_refl, Hn. cbn [pbind]. rewrite E2. reflexivity.
  - intros o e ts Ho _ IH t t' Ht Hs H1. unfold ty in Ho. sqi. eapply evt_S; [apply (IH t0 t' ltac:(tk) Hs H1)|]. cbn beta. intros m E.
    rewrite p_nots_S, Ho, tt_eqb_refl, Hn. cbn [pbind]. rewrite E. reflexivity.
  - intros o e ts c Ho _ IH Hc t t' Ht Hs H1. unfold ty in *. sqi. assert (Ht1 : T t1) by tk.
    assert (Hf : dfol t1) by (apply dfol_op; auto; rewrite Hc; try discriminate; cbn; tauto).
    eapply evt_S; [apply (IH t0 t1 ltac:(tk) Hs0 Hf); rewrite Hc; discriminate|]. cbn beta. intros m E.
    rewrite p_nots_S, Ho, tt_eqb_neq, tt_eqb_refl, Hn by discriminate. cbn [pbind]. rewrite E. cbn [pbind]. rewrite Hc, tt_eqb_refl, Hn0. reflexivity.
  - intros u o f w Hu Hun Hf t t' Ht Hs H1. sqi. unfold GramSpec.wd in Hu. apply evt_S0. intros m. rewrite p_nots_S.
    apply unary_word in Hun. destruct Hun as (s & Es & Hp). injection Es as <-.
    assert (Hb : tk_type t <> TT_BANG).
    { destruct (T_some _ _ _ _ _ Ht Hu) as [E|[E _]]; rewrite E; [|discriminate]. clear - Hp. apply TestPrim.unary_iff in Hp.
      destruct Hp as (c & Hc & ->). cbn in Hc. repeat (destruct Hc as [<-|Hc]; [discriminate|]). destruct Hc. }
    rewrite tt_eqb_neq by auto. rewrite tt_eqb_neq by (eapply word_type_no; eauto; cbn; tauto).
    unfold ParseModel.p_primary. rewrite Hu. cbn [single_string]. rewrite Hp, Hn. cbn [pbind]. rewrite (operand_c _ _ _ Hf Hn0). reflexivity.
  - intros u l o op f r Hl Hun Hb Ho Hop Hr t t' Ht Hs H1. sqi. apply evt_S0. intros m. rewrite p_nots_S. unfold ty in Hb. rewrite tt_eqb_neq by auto.
    rewrite tt_eqb_neq by (eapply word_type_no; [exact Ht|apply Hl|cbn; tauto]).
    unfold ParseModel.p_primary. rewrite (not_unary_c _ _ Hl Hun). rewrite (operand_c _ _ _ Hl Hn). cbn [pbind]. cbv zeta. fold (bop t0). rewrite (bop_iff t0 op ltac:(tk) Ho).
    destruct (list_N_eqb op (str "=~")) eqn:Eo; [apply list_N_eqb_eq in Eo; congruence|]. rewrite Hn0. cbn [pbind]. rewrite (operand_c _ _ _ Hr Hn1). reflexivity.
  - intros u l Hl Hun Hb t t' Ht Hs H1. sqi. apply evt_S0. intros m. rewrite p_nots_S. unfold ty in Hb. rewrite tt_eqb_neq by auto.
    rewrite tt_eqb_neq by (eapply word_type_no; [exact Ht|apply Hl|cbn; tauto]).
    unfold ParseModel.p_primary. rewrite (not_unary_c _ _ Hl Hun). rewrite (operand_c _ _ _ Hl Hn). cbn [pbind]. cbv zeta. fold (bop t0). rewrite (bop_none _ H1). reflexivity.
Qed.

(** ** Commands *)
Definition fol (b : bool) (t : tok) : Prop := folc t /\ (b = true -> tk_word t = None /\ tk_type t <> TT_LPAREN).
Definition pstart (t : tok) : Prop := tk_type t <> TT_NEWLINE /\ tk_type t <> TT_END_OF_INPUT /\ is_closing_tokentype (tk_type t) = false.
Definition cstart (t : tok) : Prop := pstart t /\ tk_type t <> TT_BANG /\ tk_type t <> TT_IN.
Lemma fol_op : forall b t, T t -> In (tk_type t) [TT_AMP; TT_AMPAMP; TT_PIPE; TT_PIPEPIPE; TT_SEMICOLON; TT_NEWLINE; TT_END_OF_INPUT; TT_RPAREN; TT_DOUBLE_SEMICOLON] -> fol b t.
Proof.
  intros b t Ht H. assert (Hw : tk_word t = None) by (apply (T_op _ _ _ _ Ht); cbn in H |- *; tauto).
  cbn in H. split; [split|intros _; split; [exact Hw|]]; repeat (destruct H as [H|H]; [rewrite <- H; first [reflexivity|discriminate]|]); destruct H.
Qed.
Lemma fol_close : forall b t, is_closing_tokentype (tk_type t) = true -> (b = true -> tk_word t = None) -> fol b t.
Proof. intros b t H Hb. split; [split|intros E; split; [auto|]]; destruct (tk_type t); discriminate || reflexivity. Qed.
Lemma close_not : forall t k, is_closing_tokentype (tk_type t) = true -> is_closing_tokentype k = false -> tk_type t <> k.
Proof. intros t k H H' E. congruence. Qed.
Lemma comp_cstart : forall t, comp_start (tk_type t) = true -> cstart t.
Proof. intros t H. unfold cstart, pstart. destruct (tk_type t); try discriminate H; repeat split; discriminate. Qed.
Lemma expect_c : forall k t, tk_type t = k -> expect k t = nt t.
Proof. intros k t H. unfold ParseModel.expect. rewrite H, tt_eqb_refl. reflexivity. Qed.
Lemma patterns_c' : forall ws ts c t t', T_patterns ws ts -> seq t ts c -> tk_type c = TT_RPAREN -> nt c = POk t' -> evt (fun m => p_patterns m t = POk (ws, t')).
Proof. intros. eapply (patterns_c _ _ c); eauto. eapply seq_app; eauto. eapply seq_cons; eauto. constructor. Qed.
Lemma for_c : forall ws ts ns t t', T_for ws ts -> newlines ns -> T t -> seq t (ts ++ ns) t' -> tk_type t' = TT_DO ->
  exists t3 b, evt (fun m => p_for_words m t = POk (ws, t3)) /\ evt (fun m => p_newlines m t3 = POk (b, t')).
Proof.
  intros ws ts ns t t' H Hns Ht Hs Hd. assert (Hnl : tk_type t' <> TT_NEWLINE) by (rewrite Hd; discriminate). unfold ParseModel.p_for_words.
  destruct H as [|s Hsm|ns' i ws ts s Hns' Hi Hw Hse]; cbn [app] in Hs.
  - exists t', false. split; [|apply (newlines_c [] t' t'); auto; constructor].
    eapply evt_impl; [apply (newlines_c _ _ _ Hns Hs Hnl)|]. cbn beta. intros m E. rewrite E. cbn [pbind]. rewrite Hd. reflexivity.
  - sqi. exists t0, (match ns with [] => false | _ => true end). split; [|apply newlines_c; auto].
    eapply evt_impl; [apply (newlines_c [] t t); [constructor|constructor|rewrite Hsm; discriminate]|]. cbn beta. intros m E. rewrite E. cbn [pbind].
    rewrite Hsm. cbn [tt_eqb]. rewrite tt_eqb_neq, tt_eqb_refl by discriminate. cbn [negb]. rewrite Hn. reflexivity.
  - rewrite <- app_assoc in Hs. cbn [app] in Hs. rewrite <- app_assoc in Hs. cbn [app] in Hs. sqi.
    assert (Ht2 : T t2) by tk. assert (Hw2 : tk_word t2 = None) by (apply (T_op _ _ _ _ Ht2); destruct Hse as [E|E]; rewrite E; cbn; tauto).
    assert (Hi' : tk_type t0 <> TT_NEWLINE) by (rewrite Hi; discriminate).
    pose proof (newlines_c _ _ _ Hns' Hs0 Hi') as E1. pose proof (words_c _ _ _ _ Hw Hs1 Hw2) as E2.
    destruct Hse as [E|E].
    + exists t3, (match ns with [] => false | _ => true end). split; [|apply newlines_c; auto].
      eapply evt_impl; [apply evt_and; [exact E1|exact E2]|]. cbn beta. intros m [F1 F2]. rewrite F1. cbn [pbind]. rewrite Hi, tt_eqb_refl, Hn. cbn [pbind]. rewrite F2. cbn [pbind].
      rewrite E, tt_eqb_refl, Hn0. reflexivity.
    + exists t2, true. split; [|apply (newlines_c (t2 :: ns)); auto; [constructor; auto|eapply seq_cons; eauto]].
      eapply evt_impl; [apply evt_and; [exact E1|exact E2]|]. cbn beta. intros m [F1 F2]. rewrite F1. cbn [pbind]. rewrite Hi, tt_eqb_refl, Hn. cbn [pbind]. rewrite F2. cbn [pbind].
      rewrite E. reflexivity.
Qed.
Lemma redir_head : forall r ts, T_redir r ts -> exists t ts', ts = t :: ts' /\ (tk_word t <> None \/ default_fd (tk_type t) <> None).
Proof.
  intros r ts H. destruct H as [o f fd k w Ho Hf|n o f s fd fd' k w Hn Hw Hd Ho Hf].
  - exists o, [f]. split; auto. right. apply redir_op_fun in Ho. unfold GramSpec.ty in Ho. destruct Ho as [-> _]. discriminate.
  - exists n, [o; f]. split; auto. left. unfold GramSpec.wd in Hw. rewrite Hw. discriminate.
Qed.
Lemma simple_head : forall b a ws r t ts, T_simple b a ws r (t :: ts) -> (tk_word t <> None \/ default_fd (tk_type t) <> None) /\ ~ (a = [] /\ ws = [] /\ r = []).
Proof.
  intros b a ws r t ts H. remember (t :: ts) as us eqn:E. destruct H as [b|b r us a ws rs us' Hr H|x us a ws rs us' Hx H|b u w ws rs us' Hu Hio Hna H].
  - discriminate.
  - split; [|intros (_ & _ & ?); discriminate]. destruct (redir_head _ _ Hr) as (t0 & us0 & -> & Hh). injection E as -> _. auto.
  - split; [|intros (? & _); discriminate]. destruct (assign_head _ _ Hx) as (t0 & w & n & v & us0 & -> & Hw & _). injection E as -> _. left. unfold GramSpec.wd in Hw. rewrite Hw. discriminate.
  - split; [|intros (_ & ? & _); discriminate]. injection E as -> _. left. unfold GramSpec.wd in Hu. rewrite Hu. discriminate.
Qed.
Lemma simple_start : forall t, T t -> tk_word t <> None \/ default_fd (tk_type t) <> None -> ~ reserved (tk_type t) -> comp_start (tk_type t) = false /\ cstart t.
Proof.
  intros t Ht H Hr. assert (Ho : In (tk_type t) op_types -> default_fd (tk_type t) <> None).
  { intros Hi. destruct H as [H|H]; auto. apply (T_op _ _ _ _ Ht) in Hi. contradiction. }
  unfold cstart, pstart. clear H. destruct (tk_type t);
    try (exfalso; apply Hr; eexists; cbn; tauto); try (exfalso; apply Ho; [cbn; tauto|reflexivity]);
    repeat split; discriminate.
Qed.
Lemma compound_not : forall t, comp_start (tk_type t) = false -> evt (fun m => p_compound m t = POk (None, t)).
Proof. intros t H. apply evt_S0. intros m. rewrite p_compound_S. cbv zeta. destruct (tk_type t); try discriminate H; reflexivity. Qed.
Lemma cstart_c : forall t, cstart t -> (is t TT_BANG || is t TT_IN || is_closing_tokentype (tk_type t))%bool = false.
Proof. intros t ((_ & _ & H1) & H2 & H3). rewrite !tt_eqb_neq, H1 by auto. reflexivity. Qed.
Lemma comp_len : forall c ts, T_comp c ts -> (2 <= List.length ts)%nat.
Proof. intros c ts H. destruct H; cbn [List.length]; rewrite ?app_length; cbn [List.length]; try lia.
  destruct H0; rewrite !app_length; cbn [List.length]; rewrite ?app_length; cbn [List.length]; lia.
Qed.
Lemma func_paren_c : forall ps ns body ts t t1 t' , T_comp body ts -> newlines ns ->
  map (ty X) ps = [TT_LPAREN; TT_RPAREN] \/
        ps = [] /\ (forall a b ts', ns ++ ts = a :: b :: ts' -> ~ (ty X a = TT_LPAREN /\ ty X b = TT_RPAREN)) ->
  seq t ps t1 -> seq t1 (ns ++ ts) t' -> p_func_paren t = POk t1.
Proof.
  intros ps ns body ts t t1 t' Hb Hns Hp Hs1 Hs2. unfold ParseModel.p_func_paren. destruct Hp as [Hp|[-> Hp]].
  - destruct ps as [|a [|b [|c ps]]]; try discriminate Hp. cbn [map] in Hp. injection Hp as Ha Hb'. sqi. rewrite Ha, tt_eqb_refl, Hn. cbn [pbind]. rewrite Hb', tt_eqb_refl. auto.
  - apply seq_nil_inv in Hs1. subst t1. destruct (is t TT_LPAREN) eqn:E; auto. apply tt_eqb_eq in E.
    apply comp_len in Hb. destruct (ns ++ ts) as [|a [|b us]] eqn:El.
    + apply (f_equal (@List.length _)) in El. rewrite app_length in El. cbn in El. lia.
    + apply (f_equal (@List.length _)) in El. rewrite app_length in El. cbn in El. lia.
    + apply seq_cons_inv in Hs2. destruct Hs2 as (-> & t2 & Hn & Hs2). apply seq_cons_inv in Hs2. destruct Hs2 as (-> & _). rewrite Hn. cbn [pbind].
      rewrite tt_eqb_neq; auto. intros E'. apply (Hp t t2 us); auto.
Qed.
Lemma open_c : forall o ps ts t t1 t2, T_open X o ts -> T_patterns ps ts -> T t -> seq t o t1 -> seq t1 ts t2 ->
  tk_type t <> TT_NEWLINE /\ tk_type t <> TT_ESAC /\ (if is t TT_LPAREN then nt t else POk t) = POk t1.
Proof.
  intros o ps ts t t1 t2 Ho Hp Ht Hs1 Hs2. destruct Ho as [o ts Ho|u ts Hu].
  - sqi. rewrite Ho, tt_eqb_refl. repeat split; auto; discriminate.
  - apply seq_nil_inv in Hs1. subst t1. assert (u = t) by (inversion Hs2; auto). subst u. unfold GramSpec.ty in Hu.
    assert (Hw : exists w, tk_word t = Some w) by (inversion Hp; subst; unfold GramSpec.wd in *; eauto). destruct Hw as [w Hw].
    split; [eapply word_type_no; eauto; cbn; tauto|]. split; auto. rewrite tt_eqb_neq; auto. eapply word_type_no; eauto; cbn; tauto.
Qed.
Scheme T_cmd_min := Minimality for GramSpec.T_cmd Sort Prop
  with T_comp_min := Minimality for GramSpec.T_comp Sort Prop
  with T_list_min := Minimality for GramSpec.T_list Sort Prop
  with T_pls_min := Minimality for GramSpec.T_pls Sort Prop
  with T_cmds_min := Minimality for GramSpec.T_cmds Sort Prop
  with T_ifs_min := Minimality for GramSpec.T_ifs Sort Prop
  with T_items_min := Minimality for GramSpec.T_items Sort Prop.
Combined Scheme T_all_min from T_cmd_min, T_comp_min, T_list_min, T_pls_min, T_cmds_min, T_ifs_min, T_items_min.

Definition C_cmd (c : cmd X) ts := forall t t', T t -> seq t ts t' -> fol (simple X c) t' -> cstart t /\ evt (fun m => p_command m t = POk (c, t')).
Definition C_comp (c : cmd X) ts := simple X c = false /\
  forall t t', T t -> seq t ts t' -> folc t' -> comp_start (tk_type t) = true /\ evt (fun m => p_compound m t = POk (Some c, t')).
Definition C_list (l : aos X) ts (b : bool) := forall t t', T t -> seq t ts t' -> is_closing_tokentype (tk_type t') = true -> (b = true -> tk_word t' = None) ->
  exists t0 b0, evt (fun m => p_newlines m t = POk (b0, t0)) /\
    forall need t2 b2, evt (fun m => p_newlines m t2 = POk (b2, t0)) -> b2 = true \/ need = false -> evt (fun m => p_list m need t2 = POk (l, t')).
Definition C_pls (p : pls X) (cond : bool) ts := forall t t', T t -> seq t ts t' -> fol (pls_open X p) t' ->
  tk_type t' <> TT_PIPE -> tk_type t' <> TT_AMPAMP -> tk_type t' <> TT_PIPEPIPE -> pstart t /\ evt (fun m => p_pipelines m cond t = POk (p, t')).
Definition C_cmds (cs : cmds X) ts := forall t t', T t -> seq t ts t' -> fol (cmds_open X cs) t' ->
  tk_type t' <> TT_PIPE -> cstart t /\ evt (fun m => p_commands m t = POk (cs, t')).
Definition C_ifs (l : ifcs X) ts := forall t t', T t -> seq t ts t' -> evt (fun m => p_if m false t = POk (l, t')).
Definition C_items (l : cis X) ts := forall t t', T t -> seq t ts t' -> tk_type t' = TT_ESAC -> evt (fun m => p_cases m t = POk (l, t')).

Lemma C_list_list : forall l ts b t t', C_list l ts b -> T t -> seq t ts t' -> is_closing_tokentype (tk_type t') = true -> (b = true -> tk_word t' = None) ->
  evt (fun m => p_list m false t = POk (l, t')).
Proof. intros l ts b t t' H Ht Hs Hc Hb. destruct (H t t' Ht Hs Hc Hb) as (t0 & b0 & H1 & H2). eapply H2; eauto. Qed.
Lemma closing_list : forall t, is_closing_tokentype (tk_type t) = true -> evt (fun m => p_list m true t = POk (ANil, t)).
Proof.
  intros t H. eapply evt_S; [apply (newlines_c [] t t); [constructor|constructor|apply close_not; auto]|]. cbn beta. intros m E. rewrite p_list_S, E. reflexivity.
Qed.
Ltac op_none := let E := fresh in intros _; apply T_op with (L := L) (sp_parse := sp_parse); [tk|]; match goal with H : tk_type ?t = _ |- In (tk_type ?t) _ => rewrite H end; cbn; tauto.
Ltac clos := match goal with H : tk_type ?t = _ |- is_closing_tokentype (tk_type ?t) = true => rewrite H; reflexivity end.
Ltac fin := intros m E; repeat match goal with H : _ /\ _ |- _ => destruct H end.

Theorem complete :
  (forall c ts, T_cmd c ts -> C_cmd c ts) /\ (forall c ts, T_comp c ts -> C_comp c ts) /\ (forall l ts b, T_list l ts b -> C_list l ts b) /\
  (forall p cond ts, T_pls p cond ts -> C_pls p cond ts) /\ (forall cs ts, T_cmds cs ts -> C_cmds cs ts) /\
  (forall l ts, T_ifs l ts -> C_ifs l ts) /\ (forall l ts, T_items l ts -> C_items l ts).
Proof.
  apply (T_all_min L X C_cmd C_comp C_list C_pls C_cmds C_ifs C_items).
  - (* simple command *)
    intros a ws r u ts H Hr t t' Ht Hs [[Hf1 Hf2] Hf3]. assert (u = t) by (inversion Hs; auto). subst u.
    destruct (Hf3 eq_refl) as [Hw Hp]. destruct (simple_head _ _ _ _ _ _ H) as [Hh Hne]. destruct (simple_start t Ht Hh Hr) as [Hc Hst]. split; auto.
    eapply evt_S; [apply evt_and; [apply (compound_not t Hc)|apply (simple_c _ _ _ _ _ _ _ H Ht Hs Hw Hf1)]|]. cbn beta. intros m [E1 E2].
    rewrite p_command_S, (cstart_c t Hst), E1. cbn [pbind]. rewrite E2. cbn [pbind]. rewrite tt_eqb_neq by auto.
    destruct a; auto. destruct ws; auto. destruct r; auto. exfalso. auto.
  - (* compound command *)
    intros c ts _ [Hsim IH] t t' Ht Hs [Hf _]. destruct (IH t t' Ht Hs Hf) as [Hc E]. pose proof (comp_cstart t Hc) as Hst. split; auto.
    eapply evt_S; [exact E|]. cbn beta. intros m E1. rewrite p_command_S, (cstart_c t Hst), E1. reflexivity.
  - (* function definition *)
    intros u n o c ns body ts Hu Hnm Hr Ho Hc Hns _ [Hsim IH] t t' Ht Hs [Hf _]. sqi. unfold GramSpec.wd in Hu.
    assert (Hh : tk_word t <> None \/ default_fd (tk_type t) <> None) by (left; rewrite Hu; discriminate).
    destruct (simple_start t Ht Hh Hr) as [Hcs Hst]. split; auto. assert (Ht0 : T t0) by tk. assert (Ht3 : T t3) by tk.
    assert (Hsm : T_simple true [] [[UStr n]] [] [t]).
    { apply t_sim_word; [exact Hu| | |constructor].
      - intros Eio. destruct (T_io _ _ _ _ Ht Eio) as (s & Hw & Hd). rewrite Hu in Hw. injection Hw as <-. destruct n as [|x n]; [destruct Hnm|]. destruct Hnm as [Hnm _]. apply Hnm.
        cbn [forallb] in Hd. apply andb_true_iff in Hd. apply digit_iff. tauto.
      - intros _ (n' & v & Hn' & s & us & E & _). injection E as E _. destruct n as [|x n]; [destruct Hnm|]. destruct Hnm as [_ Hnm]. rewrite E in Hnm.
        rewrite Forall_forall in Hnm. assert (G : GramSpec.name_char L (ch "=")) by (apply Hnm; apply in_or_app; right; left; auto).
        apply name_char_iff in G. rewrite (eq_no_name L Lok) in G. discriminate. }
    assert (Hw0 : tk_word t0 = None) by (apply (T_op _ _ _ _ Ht0); rewrite Ho; cbn; tauto).
    destruct (IH t3 t' Ht3 Hs Hf) as [Hc3 E3]. pose proof (comp_cstart t3 Hc3) as ((Hnl & _) & _).
    assert (Hd0 : default_fd (tk_type t0) = None) by (rewrite Ho; reflexivity).
    assert (Hs1 : seq t [t] t0) by (eapply seq_cons; eauto; constructor).
    eapply evt_S; [apply evt_and; [apply evt_and; [apply (compound_not t Hcs)|apply (simple_c _ _ _ _ _ _ _ Hsm Ht Hs1 Hw0 Hd0)]|apply evt_and; [apply (newlines_c _ _ _ Hns Hs0 Hnl)|exact E3]]|].
    cbn beta. intros m [[F1 F2] [F3 F4]]. rewrite p_command_S, (cstart_c t Hst), F1. cbn [pbind]. rewrite F2. cbn [pbind]. rewrite Ho, tt_eqb_refl.
    unfold is_name_word; cbn [single_string]. rewrite (proj2 (is_name_iff L n) Hnm), Hn0. cbn [pbind]. rewrite (expect_c _ _ Hc), Hn1. cbn [pbind]. rewrite F3. cbn [pbind]. rewrite F4. reflexivity.
  - (* subshell *)
    intros o l ts b c r rs Ho _ IH Hc Hr. split; [reflexivity|]. intros t t' Ht Hs Hf. sqi. split; [rewrite Ho; reflexivity|].
    pose proof (C_list_list _ _ _ t0 t1 IH ltac:(tk) Hs0 ltac:(clos) ltac:(op_none)) as E1. pose proof (redirs_c _ _ t2 t' Hr ltac:(tk) Hs Hf) as E2.
    eapply evt_S; [apply evt_and; [exact E1|exact E2]|]. cbn beta. intros m [F1 F2]. rewrite p_compound_S. cbv zeta. rewrite Ho, Hn. cbn [pbind]. rewrite F1. cbn [pbind].
    rewrite (expect_c _ _ Hc), Hn0. cbn [pbind]. rewrite F2. reflexivity.
  - (* group *)
    intros o l ts c r rs Ho _ IH Hc Hr. split; [reflexivity|]. intros t t' Ht Hs Hf. sqi. split; [rewrite Ho; reflexivity|].
    pose proof (C_list_list _ _ _ t0 t1 IH ltac:(tk) Hs0 ltac:(clos) ltac:(discriminate)) as E1. pose proof (redirs_c _ _ t2 t' Hr ltac:(tk) Hs Hf) as E2.
    eapply evt_S; [apply evt_and; [exact E1|exact E2]|]. cbn beta. intros m [F1 F2]. rewrite p_compound_S. cbv zeta. rewrite Ho, Hn. cbn [pbind]. rewrite F1. cbn [pbind].
    rewrite (expect_c _ _ Hc), Hn0. cbn [pbind]. rewrite F2. reflexivity.
  - (* if *)
    intros o l ts r rs Ho _ IH Hr. split; [reflexivity|]. intros t t' Ht Hs Hf. sqi. split; [rewrite Ho; reflexivity|].
    pose proof (IH t0 t1 ltac:(tk) Hs0) as E1. pose proof (redirs_c _ _ t1 t' Hr ltac:(tk) Hs Hf) as E2.
    eapply evt_S; [apply evt_and; [exact E1|exact E2]|]. cbn beta. intros m [F1 F2]. rewrite p_compound_S. cbv zeta. rewrite Ho, Hn. cbn [pbind]. rewrite F1. cbn [pbind]. rewrite F2. reflexivity.
  - (* for *)
    intros o u n ws ts ns d l ls e r rs Ho Hu Hnm Hfor Hns Hd _ IH He Hr. split; [reflexivity|]. intros t t' Ht Hs Hf.
    rewrite app_assoc in Hs. apply seq_cons_inv in Hs. destruct Hs as (-> & t0 & Hn & Hs). apply seq_cons_inv in Hs. destruct Hs as (-> & t1 & Hn1 & Hs).
    apply seq_app_inv in Hs. destruct Hs as (t2 & Hs0 & Hs). sqi. split; [rewrite Ho; reflexivity|].
    assert (Hs3 : seq t1 (ts ++ ns) t2) by (eapply seq_app; eauto). clear Hs2 Hs0 t6.
    destruct (for_c _ _ _ t1 t2 Hfor Hns ltac:(tk) Hs3 Hd) as (t6 & b & E1 & E2).
    assert (Ht2 : T t2) by (eapply seq_T; [|exact Hs3]; tk).
    pose proof (C_list_list _ _ _ t3 t4 IH ltac:(tk) Hs1 ltac:(clos) ltac:(discriminate)) as E3. pose proof (redirs_c _ _ t5 t' Hr ltac:(tk) Hs Hf) as E4.
    eapply evt_S; [apply evt_and; [apply evt_and; [exact E1|exact E2]|apply evt_and; [exact E3|exact E4]]|]. cbn beta. intros m [[F1 F2] [F3 F4]]. rewrite p_compound_S. cbv zeta. rewrite Ho, Hn. cbn [pbind].
    unfold GramSpec.wd in Hu. rewrite Hu, (proj2 (is_name_iff L n) Hnm), Hn1. cbn [pbind]. rewrite F1. cbn [pbind]. rewrite F2. cbn [pbind]. rewrite (expect_c _ _ Hd), Hn0. cbn [pbind].
    rewrite F3. cbn [pbind]. rewrite (expect_c _ _ He), Hn2. cbn [pbind]. rewrite F4. reflexivity.
  - (* while *)
    intros o whl l ts d l' ts' e r rs Ho _ IH Hd _ IH' He Hr. split; [reflexivity|]. intros t t' Ht Hs Hf. sqi. split; [rewrite Ho; destruct whl; reflexivity|].
    pose proof (C_list_list _ _ _ t0 t1 IH ltac:(tk) Hs0 ltac:(clos) ltac:(discriminate)) as E1.
    assert (Ht1 : T t1) by (eapply seq_T; [|exact Hs0]; tk).
    pose proof (C_list_list _ _ _ t2 t3 IH' ltac:(tk) Hs1 ltac:(clos) ltac:(discriminate)) as E2.
    pose proof (redirs_c _ _ t4 t' Hr ltac:(tk) Hs Hf) as E3.
    eapply evt_S; [apply evt_and; [exact E1|apply evt_and; [exact E2|exact E3]]|]. cbn beta. intros m (F1 & F2 & F3). rewrite p_compound_S. cbv zeta.
    destruct whl; rewrite Ho, Hn; cbn [pbind]; rewrite F1; cbn [pbind]; rewrite (expect_c _ _ Hd), Hn0; cbn [pbind]; rewrite F2; cbn [pbind]; rewrite (expect_c _ _ He), Hn1; cbn [pbind]; rewrite F3; reflexivity.
  - (* case *)
    intros o u w ns i l ts e r rs Ho Hu Hns Hi _ IH He Hr. split; [reflexivity|]. intros t t' Ht Hs Hf. sqi. split; [rewrite Ho; reflexivity|].
    assert (Hi' : tk_type t2 <> TT_NEWLINE) by (rewrite Hi; discriminate).
    pose proof (newlines_c _ _ _ Hns Hs0 Hi') as E1. pose proof (IH t3 t4 ltac:(tk) Hs1 He) as E2. pose proof (redirs_c _ _ t5 t' Hr ltac:(tk) Hs Hf) as E3.
    eapply evt_S; [apply evt_and; [exact E1|apply evt_and; [exact E2|exact E3]]|]. cbn beta. intros m (F1 & F2 & F3). rewrite p_compound_S. cbv zeta.
    rewrite Ho, Hn. cbn [pbind]. unfold GramSpec.wd in Hu. rewrite Hu, Hn0. cbn [pbind]. rewrite F1. cbn [pbind]. rewrite (expect_c _ _ Hi), Hn1. cbn [pbind]. rewrite F2. cbn [pbind].
    rewrite (expect_c _ _ He), Hn2. cbn [pbind]. rewrite F3. reflexivity.
  - (* double bracket *)
    intros o e ts c r rs Ho He Hc Hr. split; [reflexivity|]. intros t t' Ht Hs Hf. sqi. split; [rewrite Ho; reflexivity|]. unfold GramSpec.wd in Hc.
    assert (Ht1 : T t1) by (eapply seq_T; [|exact Hs0]; tk).
    assert (Hdf : dfol t1).
    { intros op Hb. destruct Hb as [Hb|Hb|op Hop Hb].
      - unfold GramSpec.ty in Hb. eapply word_type_no in Hb; eauto. cbn. tauto.
      - unfold GramSpec.ty in Hb. eapply word_type_no in Hb; eauto. cbn. tauto.
      - unfold GramSpec.wd in Hb. rewrite Hc in Hb. injection Hb as Hb. cbn in Hop. repeat (destruct Hop as [<-|Hop]; [discriminate Hb|]). exact Hop. }
    pose proof (proj1 db_c _ _ He t0 t1 ltac:(tk) Hs0 Hdf) as E1.
    assert (Hk1 : tk_type t1 <> TT_AMPAMP) by (eapply word_type_no; eauto; cbn; tauto). assert (Hk2 : tk_type t1 <> TT_PIPEPIPE) by (eapply word_type_no; eauto; cbn; tauto).
    specialize (E1 Hk1 Hk2). pose proof (redirs_c _ _ t2 t' Hr ltac:(tk) Hs Hf) as E2.
    eapply evt_S; [apply evt_and; [exact E1|exact E2]|]. cbn beta. intros m [F1 F2]. rewrite p_compound_S. cbv zeta. rewrite Ho, Hn. cbn [pbind]. rewrite F1. cbn [pbind].
    rewrite (proj2 (close_iff X t1) Hc), Hn0. cbn [pbind]. rewrite F2. reflexivity.
  - (* function *)
    intros o u w ps ns body ts Ho Hu Hps Hns Hb [Hsim IH]. split; [reflexivity|]. intros t t' Ht Hs Hf.
    apply seq_cons_inv in Hs. destruct Hs as (-> & t0 & Hn & Hs). apply seq_cons_inv in Hs. destruct Hs as (-> & t1 & Hn1 & Hs).
    apply seq_app_inv in Hs. destruct Hs as (t2 & Hs0 & Hs). unfold GramSpec.ty, GramSpec.wd in *. split; [rewrite Ho; reflexivity|].
    pose proof (func_paren_c ps ns body ts t1 t2 t' Hb Hns Hps Hs0 Hs) as Ep. apply seq_app_inv in Hs. destruct Hs as (t3 & Hs1 & Hs).
    assert (Ht2 : T t2) by (eapply seq_T; [|exact Hs0]; tk). assert (Ht3 : T t3) by (eapply seq_T; [|exact Hs1]; tk).
    destruct (IH t3 t' Ht3 Hs Hf) as [Hc3 E3]. pose proof (comp_cstart t3 Hc3) as ((Hnl & _) & _).
    eapply evt_S; [apply evt_and; [apply (newlines_c _ _ _ Hns Hs1 Hnl)|exact E3]|]. cbn beta. intros m [F1 F2]. rewrite p_compound_S. cbv zeta. rewrite Ho, Hn. cbn [pbind].
    rewrite Hu, Hn1. cbn [pbind]. rewrite Ep. cbn [pbind]. rewrite F1. cbn [pbind]. rewrite F2. reflexivity.
  - (* list: nothing *)
    intros ns Hns t t' Ht Hs Hc _. exists t', (match ns with [] => false | _ => true end). split; [apply newlines_c; auto; apply close_not; auto|].
    intros need t2 b2 H _. eapply evt_S; [exact H|]. cbn beta. intros m E. rewrite p_list_S, E. cbn [pbind]. rewrite Hc, orb_true_r. reflexivity.
  - (* list: last *)
    intros ns p ts Hns _ IH t t' Ht Hs Hc Hb. sqi. assert (Ht0 : T t0) by tk.
    destruct (IH t0 t' Ht0 Hs) as [(Hp1 & Hp2 & Hp3) E]; try (apply close_not; auto); [apply fol_close; auto|].
    exists t0, (match ns with [] => false | _ => true end). split; [apply newlines_c; auto|].
    intros need t2 b2 H Hn. eapply evt_S; [apply evt_and; [exact H|apply evt_and; [exact E|apply (closing_list _ Hc)]]|]. cbn beta. intros m (F1 & F2 & F3).
    rewrite p_list_S, F1. cbn [pbind]. rewrite Hp3, (tt_eqb_neq _ _ Hp2), !orb_false_r.
    replace (negb b2 && need)%bool with false by (destruct Hn; subst; [|destruct b2]; reflexivity). rewrite F2. cbn [pbind]. rewrite !tt_eqb_neq by (apply close_not; auto). cbn [orb].
    rewrite F3. reflexivity.
  - (* list: newline *)
    intros ns p ts s l ts' b Hns _ IH Hnl _ IHl t t' Ht Hs Hc Hb. sqi. assert (Ht0 : T t0) by tk. assert (Ht1 : T t1) by (eapply seq_T; [exact Ht0|exact Hs1]).
    destruct (IH t0 t1 Ht0 Hs1) as [(Hp1 & Hp2 & Hp3) E]; try (rewrite Hnl; discriminate); [apply fol_op; auto; rewrite Hnl; cbn; tauto|].
    exists t0, (match ns with [] => false | _ => true end). split; [apply newlines_c; auto|].
    destruct (IHl t2 t' ltac:(tk) Hs Hc Hb) as (t3 & b3 & E3 & E4).
    assert (E5 : evt (fun m => p_list m true t1 = POk (l, t'))).
    { eapply (E4 true t1 true); auto. eapply evt_S; [exact E3|]. cbn beta. intros m F. cbn [ParseModel.p_newlines]. rewrite Hnl, tt_eqb_refl, Hn. cbn [pbind]. rewrite F. reflexivity. }
    intros need t4 b2 H Hn'. eapply evt_S; [apply evt_and; [exact H|apply evt_and; [exact E|exact E5]]|]. cbn beta. intros m (F1 & F2 & F3).
    rewrite p_list_S, F1. cbn [pbind]. rewrite Hp3, (tt_eqb_neq _ _ Hp2), !orb_false_r.
    replace (negb b2 && need)%bool with false by (destruct Hn'; subst; [|destruct b2]; reflexivity). rewrite F2. cbn [pbind]. rewrite Hnl, !tt_eqb_neq by discriminate. cbn [orb].
    rewrite F3. reflexivity.
  - (* list: separator *)
    intros ns p ts s a l ts' b Hns _ IH Hsep _ IHl t t' Ht Hs Hc Hb. sqi. assert (Ht0 : T t0) by tk. assert (Ht1 : T t1) by (eapply seq_T; [exact Ht0|exact Hs1]).
    destruct (IH t0 t1 Ht0 Hs1) as [(Hp1 & Hp2 & Hp3) E]; try (rewrite Hsep; destruct a; discriminate); [apply fol_op; auto; rewrite Hsep; destruct a; cbn; tauto|].
    exists t0, (match ns with [] => false | _ => true end). split; [apply newlines_c; auto|].
    pose proof (C_list_list _ _ _ t2 t' IHl ltac:(tk) Hs Hc Hb) as E5.
    intros need t4 b2 H Hn'. eapply evt_S; [apply evt_and; [exact H|apply evt_and; [exact E|exact E5]]|]. cbn beta. intros m (F1 & F2 & F3).
    rewrite p_list_S, F1. cbn [pbind]. rewrite Hp3, (tt_eqb_neq _ _ Hp2), !orb_false_r.
    replace (negb b2 && need)%bool with false by (destruct Hn'; subst; [|destruct b2]; reflexivity). rewrite F2. cbn [pbind].
    replace (is t1 TT_AMP || is t1 TT_SEMICOLON)%bool with true by (rewrite Hsep; destruct a; reflexivity). rewrite Hn. cbn [pbind]. rewrite F3. cbn [pbind].
    rewrite Hsep. destruct a; reflexivity.
  - (* last pipeline *)
    intros cond neg ns cs ts Hns _ IH t t' Ht Hs Hf H1 H2 H3. sqi.
    assert (Ht0 : T t0) by tk. destruct (IH t0 t' Ht0 Hs Hf H1) as [Hst E]. destruct neg.
    + destruct ns as [|x [|]]; try discriminate Hns. cbn [map] in Hns. injection Hns as Hx. sqi. split; [unfold pstart; rewrite Hx; repeat split; discriminate|].
      eapply evt_S; [exact E|]. cbn beta. intros m F. rewrite p_pipelines_S. cbv zeta. rewrite Hx, tt_eqb_refl, Hn. cbn [pbind]. rewrite F. cbn [pbind]. rewrite !tt_eqb_neq by auto. reflexivity.
    + destruct ns; try discriminate Hns. sqi. split; [apply Hst|].
      eapply evt_S; [exact E|]. cbn beta. intros m F. rewrite p_pipelines_S. cbv zeta. destruct Hst as (_ & Hb & _). rewrite !(tt_eqb_neq _ TT_BANG) by auto. cbn [pbind]. rewrite F. cbn [pbind].
      rewrite !tt_eqb_neq by auto. reflexivity.
  - (* pipelines *)
    intros cond neg ns cs ts o and ns' p ts' Hns _ IH Ho Hns' Hp IHp t t' Ht Hs Hf H1 H2 H3. sqi.
    assert (Ht0 : T t0) by tk. assert (Ht1 : T t1) by (eapply seq_T; [exact Ht0|exact Hs1]). assert (Ht2 : T t2) by tk. assert (Ht3 : T t3) by (eapply seq_T; [exact Ht2|exact Hs2]).
    destruct (IH t0 t1 Ht0 Hs1) as [Hst E]; [apply fol_op; auto; rewrite Ho; destruct and; cbn; tauto|rewrite Ho; destruct and; discriminate|].
    assert (Hf' : fol (pls_open X p) t') by (destruct Hp; exact Hf).
    destruct (IHp t3 t' Ht3 Hs Hf' H1 H2 H3) as [(Hp1 & Hp2 & Hp3) E'].
    pose proof (newlines_c _ _ _ Hns' Hs2 Hp1) as En.
    assert (Eo : (is t1 TT_AMPAMP || is t1 TT_PIPEPIPE)%bool = true) by (rewrite Ho; destruct and; reflexivity).
    destruct neg.
    + destruct ns as [|x [|]]; try discriminate Hns. cbn [map] in Hns. injection Hns as Hx. sqi. split; [unfold pstart; rewrite Hx; repeat split; discriminate|].
      eapply evt_S; [apply evt_and; [exact E|apply evt_and; [exact En|exact E']]|]. cbn beta. intros m (F1 & F2 & F3). rewrite p_pipelines_S. cbv zeta. rewrite Hx, tt_eqb_refl, Hn0. cbn [pbind].
      rewrite F1. cbn [pbind]. rewrite Eo, Hn. cbn [pbind]. rewrite F2. cbn [pbind].
      assert (Ea : is t1 TT_AMPAMP = and) by (rewrite Ho; destruct and; reflexivity). rewrite Ea, F3. reflexivity.
    + destruct ns; try discriminate Hns. sqi. split; [apply Hst|].
      eapply evt_S; [apply evt_and; [exact E|apply evt_and; [exact En|exact E']]|]. cbn beta. intros m (F1 & F2 & F3). rewrite p_pipelines_S. cbv zeta.
      destruct Hst as (_ & Hb & _). rewrite !(tt_eqb_neq _ TT_BANG) by auto. cbn [pbind].
      rewrite F1. cbn [pbind]. rewrite Eo, Hn. cbn [pbind]. rewrite F2. cbn [pbind].
      assert (Ea : is t1 TT_AMPAMP = and) by (rewrite Ho; destruct and; reflexivity). rewrite Ea, F3. reflexivity.
  - (* last command *)
    intros c ts _ IH t t' Ht Hs Hf H1. destruct (IH t t' Ht Hs Hf) as [Hst E]. split; auto. eapply evt_S; [exact E|]. cbn beta. intros m F. rewrite p_commands_S, F. cbn [pbind].
    rewrite tt_eqb_neq by auto. reflexivity.
  - (* commands *)
    intros c ts o ns cs ts' _ IH Ho Hns Hcs IHc t t' Ht Hs Hf H1. sqi. assert (Ht0 : T t0) by tk. assert (Ht1 : T t1) by tk. assert (Ht2 : T t2) by (eapply seq_T; [exact Ht1|exact Hs1]).
    destruct (IH t t0 Ht Hs0) as [Hst E]; [apply fol_op; auto; rewrite Ho; cbn; tauto|]. split; auto.
    assert (Hf' : fol (cmds_open X cs) t') by (destruct Hcs; exact Hf).
    destruct (IHc t2 t' Ht2 Hs Hf' H1) as [((Hp1 & _) & _) E'].
    eapply evt_S; [apply evt_and; [exact E|apply evt_and; [apply (newlines_c _ _ _ Hns Hs1 Hp1)|exact E']]|]. cbn beta. intros m (F1 & F2 & F3). rewrite p_commands_S, F1. cbn [pbind].
    rewrite Ho, tt_eqb_refl, Hn. cbn [pbind]. rewrite F2. cbn [pbind]. rewrite F3. reflexivity.
  - (* fi *)
    intros c ts h b ts' e _ IH Hh _ IH' He t t' Ht Hs. sqi.
    pose proof (C_list_list _ _ _ t t0 IH Ht Hs0 ltac:(clos) ltac:(discriminate)) as E1. assert (Ht0 : T t0) by (eapply seq_T; [exact Ht|exact Hs0]).
    pose proof (C_list_list _ _ _ t1 t2 IH' ltac:(tk) Hs1 ltac:(clos) ltac:(discriminate)) as E2.
    eapply evt_S; [apply evt_and; [exact E1|exact E2]|]. cbn beta. intros m (F1 & F2). rewrite p_if_S, F1. cbn [pbind]. rewrite (expect_c _ _ Hh), Hn. cbn [pbind]. rewrite F2. cbn [pbind].
    rewrite He. cbn [negb andb]. rewrite !tt_eqb_neq by discriminate. rewrite (expect_c _ _ He), Hn0. reflexivity.
  - (* else *)
    intros c ts h b ts' e b' ts'' f _ IH Hh _ IH' He _ IH'' Hf t t' Ht Hs. sqi.
    pose proof (C_list_list _ _ _ t t0 IH Ht Hs0 ltac:(clos) ltac:(discriminate)) as E1. assert (Ht0 : T t0) by (eapply seq_T; [exact Ht|exact Hs0]). assert (Ht1 : T t1) by tk.
    pose proof (C_list_list _ _ _ t1 t2 IH' Ht1 Hs1 ltac:(clos) ltac:(discriminate)) as E2. assert (Ht2 : T t2) by (eapply seq_T; [exact Ht1|exact Hs1]). assert (Ht3 : T t3) by tk.
    pose proof (C_list_list _ _ _ t3 t4 IH'' Ht3 Hs2 ltac:(clos) ltac:(discriminate)) as E3.
    assert (E4 : evt (fun m => p_if m true t3 = POk (ICons ANil b' INil, t5))).
    { eapply evt_S; [exact E3|]. cbn beta. intros m F. rewrite p_if_S. cbn [pbind]. rewrite F. cbn [pbind negb andb]. rewrite (expect_c _ _ Hf), Hn1. reflexivity. }
    eapply evt_S; [apply evt_and; [exact E1|apply evt_and; [exact E2|exact E4]]|]. cbn beta. intros m (F1 & F2 & F3). rewrite p_if_S, F1. cbn [pbind]. rewrite (expect_c _ _ Hh), Hn. cbn [pbind]. rewrite F2. cbn [pbind].
    rewrite He. cbn [negb andb]. rewrite tt_eqb_refl, Hn0. cbn [pbind]. rewrite F3. reflexivity.
  - (* elif *)
    intros c ts h b ts' e l ts'' _ IH Hh _ IH' He _ IH'' t t' Ht Hs. sqi.
    pose proof (C_list_list _ _ _ t t0 IH Ht Hs0 ltac:(clos) ltac:(discriminate)) as E1. assert (Ht0 : T t0) by (eapply seq_T; [exact Ht|exact Hs0]). assert (Ht1 : T t1) by tk.
    pose proof (C_list_list _ _ _ t1 t2 IH' Ht1 Hs1 ltac:(clos) ltac:(discriminate)) as E2. assert (Ht2 : T t2) by (eapply seq_T; [exact Ht1|exact Hs1]). assert (Ht3 : T t3) by tk.
    pose proof (IH'' t3 t' Ht3 Hs) as E3.
    eapply evt_S; [apply evt_and; [exact E1|apply evt_and; [exact E2|exact E3]]|]. cbn beta. intros m (F1 & F2 & F3). rewrite p_if_S, F1. cbn [pbind]. rewrite (expect_c _ _ Hh), Hn. cbn [pbind]. rewrite F2. cbn [pbind].
    rewrite He. cbn [negb andb]. rewrite tt_eqb_neq by discriminate. rewrite tt_eqb_refl, Hn0. cbn [pbind]. rewrite F3. reflexivity.
  - (* no items *)
    intros ns Hns t t' Ht Hs He. eapply evt_S; [apply (newlines_c _ _ _ Hns Hs); rewrite He; discriminate|]. cbn beta. intros m F. rewrite p_cases_S, F. cbn [pbind]. rewrite He, tt_eqb_refl. reflexivity.
  - (* last item *)
    intros ns o ps ts c b ts' Hns Ho Hps Hc _ IH t t' Ht Hs He. sqi. assert (Ht0 : T t0) by tk. assert (Ht1 : T t1) by (eapply seq_T; [exact Ht0|exact Hs1]). assert (Ht2 : T t2) by (eapply seq_T; [exact Ht1|exact Hs2]).
    pose proof (C_list_list _ _ _ t3 t' IH ltac:(tk) Hs ltac:(clos) ltac:(discriminate)) as E2. pose proof (patterns_c' _ _ _ _ _ Hps Hs2 Hc Hn) as E1.
    destruct (open_c _ _ _ _ _ _ Ho Hps Ht0 Hs1 Hs2) as (Ho1 & Ho2 & Ho3).
    eapply evt_S; [apply evt_and; [apply (newlines_c _ _ _ Hns Hs0 Ho1)|apply evt_and; [exact E1|exact E2]]|]. cbn beta. intros m (F1 & F2 & F3). rewrite p_cases_S, F1. cbn [pbind].
    rewrite (tt_eqb_neq _ _ Ho2), Ho3. cbn [pbind]. rewrite F2. cbn [pbind]. rewrite F3. cbn [pbind]. rewrite He, tt_eqb_neq by discriminate. reflexivity.
  - (* items *)
    intros ns o ps ts c b ts' op s l ts'' Hns Ho Hps Hc _ IH Hsm _ IHi t t' Ht Hs He. sqi. assert (Ht0 : T t0) by tk. assert (Ht1 : T t1) by (eapply seq_T; [exact Ht0|exact Hs1]). assert (Ht2 : T t2) by (eapply seq_T; [exact Ht1|exact Hs2]).
    assert (Ht3 : T t3) by tk. assert (Ht4 : T t4) by (eapply seq_T; [exact Ht3|exact Hs3]).
    pose proof (C_list_list _ _ _ t3 t4 IH Ht3 Hs3 ltac:(clos) ltac:(op_none)) as E2. pose proof (patterns_c' _ _ _ _ _ Hps Hs2 Hc Hn) as E1.
    destruct (open_c _ _ _ _ _ _ Ho Hps Ht0 Hs1 Hs2) as (Ho1 & Ho2 & Ho3). pose proof (IHi t5 t' ltac:(tk) Hs He) as E3.
    eapply evt_S; [apply evt_and; [apply (newlines_c _ _ _ Hns Hs0 Ho1)|apply evt_and; [exact E1|apply evt_and; [exact E2|exact E3]]]|]. cbn beta. intros m (F1 & F2 & F3 & F4). rewrite p_cases_S, F1. cbn [pbind].
    rewrite (tt_eqb_neq _ _ Ho2), Ho3. cbn [pbind]. rewrite F2. cbn [pbind]. rewrite F3. cbn [pbind]. rewrite Hsm, tt_eqb_refl, Hn0. cbn [pbind]. rewrite F4. reflexivity.
Qed.
Theorem line_complete : forall l ts t e, T_line l ts -> T t -> seq t ts e -> tk_type e = TT_NEWLINE \/ tk_type e = TT_END_OF_INPUT ->
  evt (fun m => p_line m false t = POk (l, tk_rest e)).
Proof.
  intros l ts t e H. revert t. induction H as [|p ts Hp|p ts s a l ts' Hp Hsep H IH]; intros t Ht Hs He.
  - sqi. apply evt_S0. intros m. cbn [ParseModel.p_line]. destruct He as [He|He]; rewrite He; reflexivity.
  - assert (Hte : T e) by tk.
    destruct (proj1 (proj2 (proj2 (proj2 complete))) _ _ _ Hp t e Ht Hs) as [(Hp1 & Hp2 & _) E]; try (destruct He as [He|He]; rewrite He; discriminate); [apply fol_op; auto; destruct He as [He|He]; rewrite He; cbn; tauto|].
    eapply evt_S; [apply (evt_and _ (fun m => p_line m true e = POk (ANil, tk_rest e)) E)|].
    + apply evt_S0. intros m. cbn [ParseModel.p_line]. destruct He as [He|He]; rewrite He; reflexivity.
    + cbn beta. intros m [F1 F2]. cbn [ParseModel.p_line]. rewrite (tt_eqb_neq _ _ Hp1), (tt_eqb_neq _ _ Hp2). cbn [orb]. rewrite F1. cbn [pbind].
      replace (is e TT_AMP || is e TT_SEMICOLON)%bool with false by (destruct He as [He|He]; rewrite He; reflexivity). rewrite F2. reflexivity.
  - sqi. assert (Ht0 : T t0) by tk.
    destruct (proj1 (proj2 (proj2 (proj2 complete))) _ _ _ Hp t t0 Ht Hs0) as [(Hp1 & Hp2 & _) E]; try (rewrite Hsep; destruct a; discriminate); [apply fol_op; auto; rewrite Hsep; destruct a; cbn; tauto|].
    eapply evt_S; [apply evt_and; [exact E|apply (IH t1 ltac:(tk) Hs He)]|]. cbn beta. intros m [F1 F2]. cbn [ParseModel.p_line]. rewrite (tt_eqb_neq _ _ Hp1), (tt_eqb_neq _ _ Hp2). cbn [orb]. rewrite F1. cbn [pbind].
    replace (is t0 TT_AMP || is t0 TT_SEMICOLON)%bool with true by (rewrite Hsep; destruct a; reflexivity). rewrite Hn. cbn [pbind]. rewrite F2. cbn [pbind]. rewrite Hsep. destruct a; reflexivity.
Qed.
End Complete.
