(** What the parser accepts is derived by the grammar. *)
From Coq Require Import Ascii String.
From Coq Require Import List NArith ZArith Bool Arith Lia.
From Coq Require Import ZifyBool ZifyN.
From Verif Require Import Common Locale NumModel NumProofs ParseModel ParseSpec ParseLex ParseRound GramSpec.
From Verif Require TestModel TestSpec TestPrim.
Import ListNotations.
Local Open Scope N_scope.
Local Open Scope pres_scope.

Ltac bnd1 H :=
  match type of H with
  | pbind ?x _ = POk _ => let E := fresh "E" in destruct x as [?a| | |] eqn:E; cbn [pbind] in H; [|discriminate H..]
  | (let '(_, _) := ?x in _) = POk _ => destruct x as [? ?]
  | match ?x with pair _ _ => _ end = POk _ => destruct x as [? ?]
  end.
Ltac bnd H := repeat bnd1 H.

Section Sound.
Variable L : locale.
Hypothesis Lok : locale_ok L.
Variable X : Type.
Variable sp_parse : bool -> list N -> spres X.
Notation word := (word X).
Notation tok := (tok X).
Notation tk_type := (tk_type X).
Notation tk_word := (tk_word X).
Notation tk_rest := (tk_rest X).
Notation is t k := (tt_eqb (tk_type t) k).
Notation next_token := (next_token L X sp_parse).
Notation nt := (nt L X sp_parse).
Notation p_newlines := (p_newlines L X sp_parse).
Notation p_words := (p_words L X sp_parse).
Notation p_redir := (p_redir L X sp_parse).
Notation p_redirs := (p_redirs L X sp_parse).
Notation p_assign := (p_assign L X sp_parse).
Notation p_simple := (p_simple L X sp_parse).
Notation p_patterns := (p_patterns L X sp_parse).
Notation p_operand := (p_operand L X sp_parse).
Notation p_primary := (p_primary L X sp_parse).
Notation p_ors := (p_ors L X sp_parse).
Notation p_ands := (p_ands L X sp_parse).
Notation p_nots := (p_nots L X sp_parse).
Notation expect := (expect L X sp_parse).
Notation p_for_words := (p_for_words L X sp_parse).
Notation p_func_paren := (p_func_paren L X sp_parse).
Notation p_list := (p_list L X sp_parse).
Notation p_pipelines := (p_pipelines L X sp_parse).
Notation p_commands := (p_commands L X sp_parse).
Notation p_command := (p_command L X sp_parse).
Notation p_compound := (p_compound L X sp_parse).
Notation p_if := (p_if L X sp_parse).
Notation p_cases := (p_cases L X sp_parse).
Notation p_line := (p_line L X sp_parse).
Notation T_redir := (T_redir X).
Notation T_redirs := (T_redirs X).
Notation T_assign := (T_assign L X).
Notation T_simple := (T_simple L X).
Notation T_or := (T_or X).
Notation T_and := (T_and X).
Notation T_not := (T_not X).
Notation T_patterns := (T_patterns X).
Notation T_for := (T_for X).
Notation T_cmd := (T_cmd L X).
Notation T_comp := (T_comp L X).
Notation T_list := (T_list L X).
Notation T_pls := (T_pls L X).
Notation T_cmds := (T_cmds L X).
Notation T_ifs := (T_ifs L X).
Notation T_items := (T_items L X).
Notation T_line := (T_line L X).
Notation newlines := (newlines X).
Notation newline := (newline X).
Notation wd := (wd X).
Notation name := (name L).
Notation assigns := (assigns L X).

(** ** Tokens *)
Definition T (t : tok) : Prop := exists s, next_token s = POk t.
Lemma T_nt : forall t t', nt t = POk t' -> T t'.
Proof. intros t t' H. exists (tk_rest t). exact H. Qed.
Definition op_types : list tt :=
  [TT_END_OF_INPUT; TT_NEWLINE; TT_AMP; TT_AMPAMP; TT_LPAREN; TT_RPAREN; TT_SEMICOLON; TT_DOUBLE_SEMICOLON; TT_PIPE; TT_PIPEPIPE;
   TT_LESS; TT_LESSLESS; TT_LESSAMP; TT_LESSLESSDASH; TT_LESSLESSLESS; TT_LESSGREATER; TT_LESSLPAREN; TT_GREATER;
   TT_GREATERGREATER; TT_GREATERGREATERPIPE; TT_GREATERPIPE; TT_GREATERAMP; TT_GREATERLPAREN].
Lemma operator_types : forall s k r, operator s = Some (k, r) -> In k op_types.
Proof.
  intros s k r H. unfold operator in H. destruct s as [|c s]; [injection H as <- <-; cbn; tauto|].
  repeat match type of H with
  | Some _ = Some _ => injection H as <- <-; cbn; tauto
  | None = Some _ => discriminate H
  | context [match ?x with _ => _ end] => destruct x
  end.
Qed.
Lemma T_none : forall t, T t -> tk_word t = None -> In (tk_type t) op_types.
Proof.
  intros t [s H] Hw. unfold ParseModel.next_token in H. destruct (operator _) as [[k r]|] eqn:E.
  - injection H as <-. apply operator_types in E. exact E.
  - bnd H. injection H as <-. discriminate Hw.
Qed.
Lemma T_some : forall t w, T t -> tk_word t = Some w -> tk_type t = identify_reserved_word X w \/ tk_type t = TT_IO_NUMBER /\ is_digits_only X w = true.
Proof.
  intros t w [s H] Hw. unfold ParseModel.next_token in H. destruct (operator _) as [[ty r]|]; [injection H as <-; discriminate|].
  bnd H. injection H as <-. cbn [ParseModel.tk_word ParseModel.tk_type] in *. injection Hw as <-. unfold word_type.
  destruct (_ && is_digits_only X w0) eqn:E'; auto. right. apply andb_true_iff in E'. tauto.
Qed.
Lemma T_op : forall t, T t -> In (tk_type t) op_types -> tk_word t = None.
Proof.
  intros t Ht H. destruct (tk_word t) as [w|] eqn:E; auto. exfalso. destruct (T_some _ _ Ht E) as [H'|[H' _]]; rewrite H' in H.
  - pose proof (identify_types X w) as G. revert H G. generalize (identify_reserved_word X w). intros k H G. cbn in H, G.
    repeat (destruct H as [<-|H]; [repeat (destruct G as [G|G]; [discriminate G|]); exact G|]). exact H.
  - cbn in H. repeat (destruct H as [H|H]; [discriminate H|]). exact H.
Qed.
Lemma T_word : forall t, T t -> ~ In (tk_type t) op_types -> exists w, tk_word t = Some w.
Proof. intros t Ht H. destruct (tk_word t) as [w|] eqn:E; eauto. apply T_none in E; auto. tauto. Qed.
Lemma T_io : forall t, T t -> tk_type t = TT_IO_NUMBER -> exists s, tk_word t = Some [UStr s] /\ forallb iswdigit s = true.
Proof.
  intros t Ht H. destruct (T_word t Ht) as [w Hw]; [rewrite H; cbn; intuition discriminate|]. destruct (T_some _ _ Ht Hw) as [H'|[_ H']].
  - exfalso. pose proof (identify_types X w) as G. rewrite <- H', H in G. cbn in G. intuition discriminate.
  - unfold is_digits_only in H'. destruct w as [|[s|] [|]]; try discriminate. exists s. auto.
Qed.

(** The tokens [ts] lead from [t] to [t']. *)
Inductive seq : tok -> list tok -> tok -> Prop :=
  | seq_nil : forall t, seq t [] t
  | seq_cons : forall t t1 ts t', nt t = POk t1 -> seq t1 ts t' -> seq t (t :: ts) t'.
Lemma seq_app : forall t ts t1 ts' t', seq t ts t1 -> seq t1 ts' t' -> seq t (ts ++ ts') t'.
Proof. intros t ts t1 ts' t' H. induction H; intros H'; cbn [app]; auto. eapply seq_cons; eauto. Qed.
Lemma seq_T : forall t ts t', T t -> seq t ts t' -> T t'.
Proof. intros t ts t' Ht H. induction H; auto. apply IHseq. eapply T_nt; eauto. Qed.
Lemma seq_tokens : forall s t ts t', next_token s = POk t -> seq t ts t' -> tokens L X sp_parse s ts t'.
Proof. intros s t ts t' H H'. revert s H. induction H'; intros s E; cbn [tokens]; auto. Qed.
Lemma tokens_seq : forall ts s t', tokens L X sp_parse s ts t' -> exists t, next_token s = POk t /\ seq t ts t'.
Proof.
  induction ts as [|t ts IH]; intros s t' H; cbn [tokens] in H; [exists t'; split; [auto|constructor]|].
  destruct H as [H H']. exists t. split; auto. apply IH in H'. destruct H' as (t1 & H1 & H2). eapply seq_cons; eauto.
Qed.

(** ** Names and numbers *)
Lemma name_char_iff : forall c, is_name_char L c = true <-> name_char L c.
Proof. intros c. unfold is_name_char, name_char. rewrite orb_true_iff, N.eqb_eq. tauto. Qed.
Lemma digit_iff : forall c, iswdigit c = true <-> In c (str "0123456789").
Proof.
  intros c. unfold iswdigit. split; [|intros H; cbn in H; repeat (destruct H as [<-|H]; [reflexivity|]); destruct H].
  intros H. assert (G : c = 48 \/ c = 49 \/ c = 50 \/ c = 51 \/ c = 52 \/ c = 53 \/ c = 54 \/ c = 55 \/ c = 56 \/ c = 57) by lia.
  cbn. repeat (destruct G as [->|G]; [tauto|]). subst. tauto.
Qed.
Lemma take_name_app : forall n r, Forall (name_char L) n -> match r with [] => True | c :: _ => is_name_char L c = false end -> take_name L (n ++ r) = (n, r).
Proof.
  intros n r H Hr. induction H as [|c n Hc H IH]; cbn [app].
  - destruct r as [|c r]; cbn [take_name]; [auto|]. rewrite Hr. auto.
  - cbn [take_name]. rewrite (proj2 (name_char_iff c) Hc), IH. auto.
Qed.
Lemma take_name_inv : forall s n r, take_name L s = (n, r) -> s = n ++ r /\ Forall (name_char L) n.
Proof.
  induction s as [|c s IH]; intros n r H; cbn [take_name] in H; [injection H as <- <-; auto|].
  destruct (is_name_char L c) eqn:E; [|injection H as <- <-; auto]. destruct (take_name L s) as [n' r'] eqn:E'. injection H as <- <-.
  destruct (IH _ _ eq_refl) as [-> F]. split; auto. constructor; auto. apply name_char_iff. auto.
Qed.
Lemma skip_name_app : forall n r, name n -> match r with [] => True | c :: _ => is_name_char L c = false end -> skip_name L (n ++ r) = (n, r).
Proof.
  intros [|c n] r H Hr; [destruct H|]. destruct H as [Hd H]. cbn [app skip_name]. rewrite <- digit_iff in Hd. destruct (iswdigit c); [congruence|].
  apply (take_name_app (c :: n)); auto.
Qed.
Lemma skip_name_inv : forall s c n r, skip_name L s = (c :: n, r) -> s = c :: n ++ r /\ name (c :: n).
Proof.
  intros [|d s] c n r H; cbn [skip_name] in H; [discriminate|]. destruct (iswdigit d) eqn:Ed; [discriminate|].
  apply take_name_inv in H. destruct H as [H F]. injection H as -> ->. split; auto. split; auto. rewrite <- digit_iff. congruence.
Qed.
Lemma is_name_iff : forall s, is_name L s = true <-> name s.
Proof.
  intros s. unfold is_name. split.
  - destruct s as [|c s]; [discriminate|]. destruct (skip_name L (c :: s)) as [n r] eqn:E. cbn [snd]. destruct r; [|discriminate]. intros _.
    destruct n as [|d n].
    + exfalso. cbn [skip_name] in E. destruct (iswdigit c); [discriminate|]. apply take_name_inv in E. destruct E. discriminate.
    + apply skip_name_inv in E. destruct E as [E H]. rewrite app_nil_r in E. rewrite E. auto.
  - intros H. pose proof (skip_name_app s [] H I) as E. rewrite app_nil_r in E. destruct s; [destruct H|]. rewrite E. reflexivity.
Qed.
Lemma eq_no_name : is_name_char L (ch "=") = false.
Proof. unfold is_name_char, iswalnum. rewrite (lk_alpha L Lok) by reflexivity. reflexivity. Qed.
Lemma split_assign_iff : forall w n v, split_assign L X w = Some (n, v) <-> assigns w n v.
Proof.
  intros w n v. split.
  - intros H. destruct w as [|[s|x] us]; try discriminate. cbn [split_assign] in H.
    destruct (skip_name L s) as [[|c nm] [|e v']] eqn:E; try discriminate. destruct (e =? ch "=") eqn:Ee; [|discriminate]. apply N.eqb_eq in Ee. subst e.
    injection H as <- <-. apply skip_name_inv in E. destruct E as [-> F]. split; auto. exists v', us. split; auto.
  - intros [Hn (s & us & -> & ->)]. cbn [split_assign]. rewrite skip_name_app by (auto; exact eq_no_name).
    destruct n as [|c n]; [destruct Hn|]. reflexivity.
Qed.
Lemma descriptor_fd : forall s, forallb iswdigit s = true -> descriptor s (fd_of s).
Proof.
  intros s H. unfold fd_of, descriptor.
  assert (G : forall s z k, forallb iswdigit s = true -> exists b, scan_digits 10 z k s = (fold_left (fun z c => (10 * z + (Z.of_N c - 48))%Z) s z, [], b)).
  { induction s0 as [|c s0 IH]; intros z k Hs; cbn [scan_digits fold_left]; [eexists; reflexivity|]. cbn [forallb] in Hs. apply andb_true_iff in Hs. destruct Hs as [Hc Hs].
    assert (Hv : digitval c = (Z.of_N c - 48)%Z).
    { apply digit_iff in Hc. cbn in Hc. repeat (destruct Hc as [<-|Hc]; [reflexivity|]). destruct Hc. }
    assert (Hlt : (digitval c <? 10)%Z = true).
    { apply digit_iff in Hc. cbn in Hc. repeat (destruct Hc as [<-|Hc]; [reflexivity|]). destruct Hc. }
    rewrite Hlt. destruct (IH (z * 10 + digitval c)%Z true Hs) as [b E]. exists b. rewrite E, Hv. replace (z * 10 + (Z.of_N c - 48))%Z with (10 * z + (Z.of_N c - 48))%Z by lia. reflexivity. }
  destruct (G s 0%Z false H) as [b ->]. unfold decimal. unfold INT_MAX in *. destruct (_ >? _)%Z eqn:E; lia.
Qed.
Lemma kw_not_op : forall k, reserved k -> ~ In k op_types.
Proof. intros k [s H] H'. cbn in H. repeat (destruct H as [H|H]; [injection H as <- <-; cbn in H'; intuition discriminate|]). exact H. Qed.
Ltac kw := eexists; cbn; tauto.

(** ** Small parts *)
Lemma newlines_sound : forall n t b t', p_newlines n t = POk (b, t') ->
  exists ns, seq t ns t' /\ newlines ns /\ b = match ns with [] => false | _ => true end /\ tk_type t' <> TT_NEWLINE.
Proof.
  induction n as [|n IH]; intros t b t' H; cbn [ParseModel.p_newlines] in H; [discriminate|]. destruct (is t TT_NEWLINE) eqn:E.
  - bnd H. injection H as <- <-. destruct (IH _ _ _ E1) as (ns & H1 & H2 & _ & H3). apply tt_eqb_eq in E. exists (t :: ns).
    split; [eapply seq_cons; eauto|]. split; [constructor; auto|auto].
  - injection H as <- <-. exists []. repeat split; [constructor|constructor|]. intros E'. rewrite E' in E. discriminate.
Qed.
Lemma words_sound : forall n t ws t', p_words n false t = POk (ws, t') -> exists ts, seq t ts t' /\ Forall2 wd ts ws /\ tk_word t' = None.
Proof.
  induction n as [|n IH]; intros t ws t' H; cbn [ParseModel.p_words andb] in H; [discriminate|].
  destruct (tk_word t) eqn:Ew.
  - bnd H. injection H as <- <-. destruct (IH _ _ _ E0) as (ts & H1 & H2 & H3). exists (t :: ts). split; [eapply seq_cons; eauto|]. split; auto.
  - injection H as <- <-. exists []. split; [constructor|auto].
Qed.
Lemma values_nl : forall ns ws ts, newlines ns -> T_values X ws ts -> T_values X ws (ns ++ ts).
Proof. intros ns ws ts H H'. induction H; cbn [app]; auto. constructor; auto. Qed.
Lemma values_sound : forall n t ws t', p_words n true t = POk (ws, t') -> exists ts, seq t ts t' /\ T_values X ws ts.
Proof.
  induction n as [|n IH]; intros t ws t' H; cbn [ParseModel.p_words andb] in H; [discriminate|]. destruct (is t TT_NEWLINE).
  - bnd H. apply newlines_sound in E. destruct E as (ns & H1 & H2 & _ & _). destruct (IH _ _ _ H) as (ts & H3 & H4).
    exists (ns ++ ts). split; [eapply seq_app; eauto|apply values_nl; auto].
  - destruct (tk_word t) eqn:Ew.
    + bnd H. injection H as <- <-. destruct (IH _ _ _ E0) as (ts & H1 & H2). exists (t :: ts). split; [eapply seq_cons; eauto|]. apply t_val_word; auto.
    + injection H as <- <-. exists []. split; constructor.
Qed.
Lemma redir_type_op : forall k r, redir_type k = POk r -> exists fd, redir_op k fd r.
Proof. intros k r H. destruct k; try discriminate; injection H as <-; eexists; constructor. Qed.
Lemma redir_sound : forall t r t', T t -> p_redir t = POk (Some (r, t')) -> exists ts, seq t ts t' /\ T_redir r ts.
Proof.
  intros t r t' Ht H. unfold ParseModel.p_redir in H. destruct (is t TT_IO_NUMBER) eqn:Ei.
  - apply tt_eqb_eq in Ei. destruct (T_io t Ht Ei) as (s & Hw & Hd). rewrite Hw in H. cbn [single_string] in H. bnd H.
    destruct (tk_word a1) as [w|] eqn:Ew; [|discriminate]. bnd H. injection H as <- <-. destruct (redir_type_op _ _ E0) as [fd' Ho].
    exists [t; a; a1]. split; [repeat (eapply seq_cons; [eassumption|]); constructor|]. econstructor; eauto. apply descriptor_fd. auto.
  - destruct (default_fd (tk_type t)) as [fd|] eqn:Ed; [|discriminate]. bnd H. destruct (tk_word a0) as [w|] eqn:Ew; [|discriminate]. bnd H. injection H as <- <-.
    exists [t; a0]. split; [repeat (eapply seq_cons; [eassumption|]); constructor|]. constructor; auto. unfold ty.
    destruct (tk_type t); try discriminate E; injection E as <-; injection Ed as <-; constructor.
Qed.
Lemma redir_none : forall t, p_redir t = POk None -> tk_type t <> TT_IO_NUMBER /\ default_fd (tk_type t) = None.
Proof.
  intros t H. unfold ParseModel.p_redir in H. destruct (is t TT_IO_NUMBER) eqn:Ei.
  - exfalso. bnd H. destruct (tk_word a1); [bnd H|]; discriminate.
  - split; [intros E; rewrite E in Ei; discriminate|]. destruct (default_fd (tk_type t)); auto. exfalso. bnd H. destruct (tk_word a0); [bnd H|]; discriminate.
Qed.
Lemma redirs_sound : forall n t r t', T t -> p_redirs n t = POk (r, t') -> exists ts, seq t ts t' /\ T_redirs r ts.
Proof.
  induction n as [|n IH]; intros t r t' Ht H; cbn [ParseModel.p_redirs] in H; [discriminate|]. bnd1 H. destruct a as [[r1 t1]|].
  - bnd H. injection H as <- <-. destruct (redir_sound _ _ _ Ht E) as (ts & H1 & H2). destruct (IH _ _ _ (seq_T _ _ _ Ht H1) E0) as (ts' & H3 & H4).
    exists (ts ++ ts'). split; [eapply seq_app; eauto|constructor; auto].
  - injection H as <- <-. exists []. split; constructor.
Qed.
Lemma lparen_tok : forall r, next_token (ch "(" :: r) = POk (mkTok X TT_LPAREN None r).
Proof.
  intros r. apply next_token_op; [reflexivity|apply (blank_ascii L Lok); reflexivity|discriminate|discriminate].
Qed.
Lemma assign_sound : forall n t a t', p_assign n t = POk (Some (a, t')) -> exists ts, seq t ts t' /\ T_assign a ts.
Proof.
  intros n t a t' H. unfold ParseModel.p_assign in H. destruct (tk_word t) as [w|] eqn:Ew; [|discriminate].
  destruct (split_assign L X w) as [[nm v]|] eqn:Es; [|discriminate]. apply split_assign_iff in Es. bnd1 H.
  assert (Hsc : (v = [] -> ~ paren_next X t) -> exists ts, seq t ts a0 /\ T_assign (AScalar nm v) ts).
  { intros Hp. exists [t]. split; [eapply seq_cons; [eassumption|constructor]|]. econstructor; eauto. }
  destruct v as [|u v].
  - destruct (tk_rest t) as [|c r] eqn:Er.
    + injection H as <- <-. apply Hsc. intros _ [r Hr]. rewrite Er in Hr. discriminate.
    + destruct (c =? ch "(") eqn:Ec.
      * apply N.eqb_eq in Ec. subst c. bnd H. destruct (is t0 TT_RPAREN) eqn:Ep; [|discriminate]. apply tt_eqb_eq in Ep. bnd H. injection H as <- <-.
        destruct (values_sound _ _ _ _ E1) as (ts & H1 & H2). exists (t :: a0 :: ts ++ [t0]). split.
        -- eapply seq_cons; [eassumption|]. eapply seq_cons; [eassumption|]. eapply seq_app; [eassumption|]. eapply seq_cons; [eassumption|constructor].
        -- econstructor; eauto; [exists r; auto|]. unfold ty. unfold ParseModel.nt in E. rewrite Er, lparen_tok in E. injection E as <-. reflexivity.
      * injection H as <- <-. apply Hsc. intros _ [r' Hr]. rewrite Er in Hr. injection Hr as -> _. discriminate Ec.
  - injection H as <- <-. apply Hsc. discriminate.
Qed.
Lemma assign_none : forall n t w, p_assign n t = POk None -> tk_word t = Some w -> ~ exists n v, assigns w n v.
Proof.
  intros n t w H Ew (nm & v & Ha). apply split_assign_iff in Ha. unfold ParseModel.p_assign in H. rewrite Ew, Ha in H. bnd1 H.
  destruct v; [|discriminate H]. destruct (match tk_rest t with c :: _ => c =? ch "(" | [] => false end); [|discriminate H]. bnd H.
  destruct (is t0 TT_RPAREN); [|discriminate]. bnd H. discriminate.
Qed.
Lemma simple_false : forall a ws r ts, T_simple false a ws r ts -> a = [].
Proof. intros a ws r ts H. remember false as b eqn:Eb. induction H; auto. discriminate. Qed.
Lemma simple_sound : forall n first t a ws r t', T t -> p_simple n first t = POk (a, ws, r, t') ->
  exists ts, seq t ts t' /\ T_simple first a ws r ts /\ tk_word t' = None /\ default_fd (tk_type t') = None.
Proof.
  induction n as [|n IH]; intros first t a ws r t' Ht H; cbn [ParseModel.p_simple] in H; [discriminate|]. bnd1 H. destruct a0 as [[r1 t1]|].
  - apply redir_sound in E; auto. destruct E as (ts & H1 & H2). bnd H. injection H as <- <- <- <-.
    destruct (IH _ _ _ _ _ _ (seq_T _ _ _ Ht H1) E) as (ts' & H3 & H4 & H5). exists (ts ++ ts'). split; [eapply seq_app; eauto|]. split; auto. apply t_sim_redir; auto.
  - destruct (redir_none _ E) as [Hio Hd]. bnd1 H. destruct a0 as [[a1 t1]|].
    + destruct first; [|discriminate]. apply assign_sound in E0. destruct E0 as (ts & H1 & H2). bnd H. injection H as <- <- <- <-.
      destruct (IH _ _ _ _ _ _ (seq_T _ _ _ Ht H1) E0) as (ts' & H3 & H4 & H5). exists (ts ++ ts'). split; [eapply seq_app; eauto|]. split; auto. apply t_sim_assign; auto.
    + destruct (tk_word t) as [w|] eqn:Ew.
      * bnd H. injection H as <- <- <- <-. destruct (IH _ _ _ _ _ _ (T_nt _ _ E1) E2) as (ts' & H3 & H4 & H5).
        exists (t :: ts'). split; [eapply seq_cons; eauto|]. split; auto. pose proof (simple_false _ _ _ _ H4) as Ea. subst l0. apply t_sim_word; auto. intros ->. exact (assign_none n t w E0 Ew).
      * injection H as <- <- <- <-. exists []. split; [constructor|]. split; [constructor|auto].
Qed.

Lemma patterns_sound : forall n t ws t', p_patterns n t = POk (ws, t') ->
  exists ts c, seq t (ts ++ [c]) t' /\ T_patterns ws ts /\ tk_type c = TT_RPAREN.
Proof.
  induction n as [|n IH]; intros t ws t' H; cbn [ParseModel.p_patterns] in H; [discriminate|]. destruct (tk_word t) as [w|] eqn:Ew; [|discriminate].
  bnd1 H. destruct (is a TT_PIPE) eqn:Ep.
  - bnd H. injection H as <- <-. destruct (IH _ _ _ E1) as (ts & c & H1 & H2 & H3). apply tt_eqb_eq in Ep. exists (t :: a :: ts), c.
    split; [cbn [app]; repeat (eapply seq_cons; [eassumption|]); auto|]. split; auto. apply t_pat_cons; auto.
  - destruct (is a TT_RPAREN) eqn:Er; [|discriminate]. apply tt_eqb_eq in Er. bnd H. injection H as <- <-. exists [t], a.
    split; [cbn [app]; repeat (eapply seq_cons; [eassumption|]); constructor|]. split; auto. constructor. auto.
Qed.

(** ** Double brackets *)
Lemma unary_word : forall w, unary X w <-> exists s, w = [UStr s] /\ TestModel.is_unary_primary s = true.
Proof.
  intros w. split.
  - intros (o & Ho & ->). exists (str o). split; auto. apply TestPrim.unary_iff. exists o. auto.
  - intros (s & -> & H). apply TestPrim.unary_iff in H. destruct H as (o & Ho & ->). exists o. auto.
Qed.
Lemma close_iff : forall t, is_close X t = true <-> tk_word t = Some [UStr (str "]]")].
Proof.
  intros t. unfold is_close. destruct (tk_word t) as [w|]; [|split; discriminate]. split.
  - destruct w as [|[s|] [|]]; try discriminate. cbn [single_string]. rewrite list_N_eqb_eq. intros ->. auto.
  - intros E. injection E as ->. reflexivity.
Qed.
Lemma operand_sound : forall t w t', p_operand t = POk (w, t') -> operand X t w /\ nt t = POk t'.
Proof.
  intros t w t' H. unfold ParseModel.p_operand in H. destruct (is_close X t) eqn:Ec; [discriminate|]. destruct (tk_word t) as [w0|] eqn:Ew; [|discriminate].
  bnd H. injection H as <- <-. split; auto. split; auto. intros ->. apply close_iff in Ew. congruence.
Qed.
Lemma primary_sound : forall t e t', tk_type t <> TT_BANG -> p_primary t = POk (e, t') -> exists ts, seq t ts t' /\ T_not e ts.
Proof.
  intros t e t' Hb H. unfold ParseModel.p_primary in H.
  set (unary := match tk_word t with Some w => _ | None => None end) in H. destruct unary as [op|] eqn:Eu; subst unary.
  - destruct (tk_word t) as [w|] eqn:Ew; [|discriminate]. destruct w as [|[s|] [|]]; try discriminate. cbn [single_string] in Eu.
    destruct (TestModel.is_unary_primary s) eqn:Ep; [|discriminate]. injection Eu as ->.
    bnd H. injection H as <- <-. apply operand_sound in E0. destruct E0 as [H1 H2]. exists [t; a].
    split; [repeat (eapply seq_cons; [eassumption|]); constructor|]. apply t_unary; auto. apply unary_word. eauto.
  - bnd1 H. destruct a as [l t1]. apply operand_sound in E. destruct E as [H1 H2].
    assert (Hu : ~ unary X l).
    { intros Hu. apply unary_word in Hu. destruct Hu as (s & -> & Hs). destruct H1 as [H1 _]. unfold GramSpec.wd in H1. rewrite H1 in Eu. cbn [single_string] in Eu. rewrite Hs in Eu. discriminate. }
    cbv zeta in H. set (binary := if is t1 TT_LESS then _ else _) in H.
    assert (Hbin : forall op, binary = Some op -> GramSpec.binary X t1 op).
    { intros op Eb. subst binary. destruct (is t1 TT_LESS) eqn:E1; [injection Eb as <-; apply bin_less, tt_eqb_eq; auto|].
      destruct (is t1 TT_GREATER) eqn:E2; [injection Eb as <-; apply bin_greater, tt_eqb_eq; auto|].
      destruct (tk_word t1) as [w|] eqn:Ew1; [|discriminate]. destruct w as [|[s|] [|]]; try discriminate. cbn [single_string] in Eb.
      destruct (TestModel.is_binary_primary s) eqn:Ep; [|discriminate]. injection Eb as ->. apply TestPrim.binary_iff in Ep. destruct Ep as (o & Ho & ->).
      apply bin_word; auto. }
    destruct binary as [op|] eqn:Eb.
    + destruct (list_N_eqb op (str "=~")) eqn:Eo; [discriminate|]. bnd H. injection H as <- <-. apply operand_sound in E0. destruct E0 as [H3 H4].
      exists [t; t1; a]. split; [repeat (eapply seq_cons; [eassumption|]); constructor|]. apply t_binary; auto. intros ->. discriminate Eo.
    + injection H as <- <-. exists [t]. split; [eapply seq_cons; [eassumption|]; constructor|]. apply t_str; auto.
Qed.
Ltac sq := repeat first
  [ apply seq_nil
  | match goal with
    | |- seq _ (_ :: _) _ => eapply seq_cons; [eassumption|]
    | |- seq _ (_ ++ _) _ => eapply seq_app; [solve [eassumption | sq]|]
    end
  | eassumption ].
Ltac teqs := repeat match goal with E : tt_eqb _ _ = true |- _ => apply tt_eqb_eq in E end.
Lemma db_sound : forall n,
  (forall t e t', p_ors n t = POk (e, t') -> exists ts, seq t ts t' /\ T_or e ts) /\
  (forall t e t', p_ands n t = POk (e, t') -> exists ts, seq t ts t' /\ T_and e ts) /\
  (forall t e t', p_nots n t = POk (e, t') -> exists ts, seq t ts t' /\ T_not e ts).
Proof.
  induction n as [|n (IH1 & IH2 & IH3)]; [repeat split; discriminate|]. split; [|split]; intros t e t' H.
  - rewrite p_ors_S in H. bnd H. destruct (IH2 _ _ _ E) as (ts & H1 & H2). destruct (is t0 TT_PIPEPIPE) eqn:Ep; teqs.
    + bnd H. injection H as <- <-. destruct (IH1 _ _ _ E1) as (ts' & H3 & H4). exists (ts ++ t0 :: ts'). split; [sq|apply t_or; auto].
    + injection H as <- <-. exists ts. split; auto. apply t_or_one; auto.
  - rewrite p_ands_S in H. bnd H. destruct (IH3 _ _ _ E) as (ts & H1 & H2). destruct (is t0 TT_AMPAMP) eqn:Ep; teqs.
    + bnd H. injection H as <- <-. destruct (IH2 _ _ _ E1) as (ts' & H3 & H4). exists (ts ++ t0 :: ts'). split; [sq|apply t_and; auto].
    + injection H as <- <-. exists ts. split; auto. apply t_and_one; auto.
  - rewrite p_nots_S in H. destruct (is t TT_BANG) eqn:Eb; teqs.
    + bnd H. injection H as <- <-. destruct (IH3 _ _ _ E0) as (ts & H3 & H4). exists (t :: ts). split; [sq|apply t_not; auto].
    + destruct (is t TT_LPAREN) eqn:Ep; teqs.
      * bnd H. destruct (IH1 _ _ _ E0) as (ts & H3 & H4). destruct (is t0 TT_RPAREN) eqn:Er; [|discriminate]. teqs. bnd H. injection H as <- <-.
        exists (t :: ts ++ [t0]). split; [sq|apply t_paren; auto].
      * apply primary_sound in H; auto. intros E. rewrite E in Eb. discriminate.
Qed.

(** ** Commands *)
Lemma expect_sound : forall k t t', expect k t = POk t' -> tk_type t = k /\ nt t = POk t'.
Proof. intros k t t' H. unfold ParseModel.expect in H. destruct (is t k) eqn:E; [|discriminate]. teqs. auto. Qed.
Lemma for_sound : forall n t ws t1 b t2, p_for_words n t = POk (ws, t1) -> T t -> p_newlines n t1 = POk (b, t2) -> tk_type t2 = TT_DO ->
  exists ts ns, seq t (ts ++ ns) t2 /\ T_for ws ts /\ newlines ns.
Proof.
  intros n t ws t1 b t2 H Ht H' Hd. apply newlines_sound in H'. destruct H' as (ns & H1 & H2 & _ & _). unfold ParseModel.p_for_words in H. bnd H.
  apply newlines_sound in E. destruct E as (ns0 & H3 & H4 & Eb & _). destruct (is t0 TT_IN) eqn:Ei.
  - bnd H. injection H as <- <-. teqs. destruct (words_sound _ _ _ _ E0) as (ts & H5 & H6 & H7).
    destruct (is t3 TT_SEMICOLON) eqn:Es; teqs.
    + exists (ns0 ++ t0 :: ts ++ [t3]), ns. split; [|split; [apply t_for_in; auto|auto]]. rewrite <- app_assoc. cbn [app]. rewrite <- app_assoc. cbn [app]. sq.
    + injection E1 as <-. destruct ns as [|s ns].
      * exfalso. inversion H1; subst. assert (Ht2 : T t2) by (eapply seq_T; [|exact H5]; eapply T_nt; eauto).
        apply (T_none _ Ht2) in H7. rewrite Hd in H7. cbn in H7. intuition discriminate.
      * inversion H2; subst. exists (ns0 ++ t0 :: ts ++ [s]), ns. split; [|split; [apply t_for_in; auto|auto]]. rewrite <- app_assoc. cbn [app]. rewrite <- app_assoc. cbn [app]. sq.
  - destruct (is t0 TT_SEMICOLON) eqn:Es; teqs.
    + destruct b0; [discriminate|]. bnd H. injection H as <- <-. destruct ns0; [|discriminate]. inversion H3; subst.
      exists [t0], ns. split; [cbn [app]; sq|]. split; auto. apply t_for_semi. auto.
    + injection H as <- <-. exists [], (ns0 ++ ns). split; [cbn [app]; sq|]. split; [constructor|]. apply Forall_app. auto.
Qed.
Lemma kw_word : forall t k, T t -> tk_type t = k -> reserved k -> tk_word t <> None.
Proof. intros t k Ht E Hk H. apply (T_none _ Ht) in H. rewrite E in H. revert H. apply kw_not_op. auto. Qed.

Definition comp_start (k : tt) : bool :=
  match k with
  | TT_LPAREN | TT_LBRACE | TT_IF | TT_FOR | TT_FUNCTION | TT_WHILE | TT_UNTIL | TT_CASE | TT_DOUBLE_LBRACKET => true
  | _ => false
  end.
Lemma compound_none : forall n t t', p_compound n t = POk (None, t') -> comp_start (tk_type t) = false.
Proof.
  intros [|n] t t' H; [discriminate|]. rewrite p_compound_S in H. cbv zeta in H. destruct (tk_type t); try reflexivity; exfalso.
  all: repeat first [discriminate H | bnd1 H | match type of H with match ?x with _ => _ end = _ => destruct x; try discriminate H end].
Qed.
Lemma not_reserved : forall k, comp_start k = false -> k <> TT_BANG -> k <> TT_IN -> is_closing_tokentype k = false -> ~ reserved k.
Proof.
  intros k H1 H2 H3 H4 [s Hs]. cbn in Hs. repeat (destruct Hs as [Hs|Hs]; [injection Hs as _ <-; first [discriminate H1|discriminate H4|congruence]|]). exact Hs.
Qed.
Definition S_cmd n := forall t c t', T t -> p_command n t = POk (c, t') -> exists ts, seq t ts t' /\ T_cmd c ts /\ (simple X c = true -> tk_word t' = None).
Definition S_comp n := forall t c t', T t -> p_compound n t = POk (Some c, t') -> exists ts, seq t ts t' /\ T_comp c ts.
Definition S_list n := forall need t l t', T t -> p_list n need t = POk (l, t') ->
  need = true /\ l = ANil /\ t' = t \/
  exists ns ts b, seq t (ns ++ ts) t' /\ T_list l ts b /\ (b = true -> tk_word t' = None) /\
    if need then exists s, ns = [s] /\ newline s else ns = [].
Definition S_pls n := forall cond t p t', T t -> p_pipelines n cond t = POk (p, t') ->
  exists ts, seq t ts t' /\ T_pls p cond ts /\ (pls_open X p = true -> tk_word t' = None).
Definition S_cmds n := forall t cs t', T t -> p_commands n t = POk (cs, t') ->
  exists ts, seq t ts t' /\ T_cmds cs ts /\ (cmds_open X cs = true -> tk_word t' = None).
Definition S_ifs n := forall t l t', T t -> p_if n false t = POk (l, t') -> exists ts, seq t ts t' /\ T_ifs l ts.
Definition S_items n := forall t l t', T t -> p_cases n t = POk (l, t') -> tk_type t' = TT_ESAC -> exists ts, seq t ts t' /\ T_items l ts.
Lemma list_false : forall n t l t', S_list n -> T t -> p_list n false t = POk (l, t') ->
  exists ts b, seq t ts t' /\ T_list l ts b /\ (b = true -> tk_word t' = None) /\ T t'.
Proof.
  intros n t l t' H Ht E. destruct (H _ _ _ _ Ht E) as [[? _]|(ns & ts & b & H1 & H2 & H3 & ->)]; [discriminate|]. cbn [app] in H1.
  exists ts, b. repeat split; auto. eapply seq_T; eauto.
Qed.
Lemma list_closed : forall n t l t' k, S_list n -> T t -> p_list n false t = POk (l, t') -> tk_type t' = k -> reserved k ->
  exists ts, seq t ts t' /\ T_list l ts false /\ T t'.
Proof.
  intros n t l t' k H Ht E Ek Hk. destruct (list_false _ _ _ _ H Ht E) as (ts & b & H1 & H2 & H3 & H4). exists ts. repeat split; auto.
  destruct b; auto. exfalso. eapply kw_word; eauto.
Qed.
Ltac tk := solve [eapply T_nt; eassumption | eapply seq_T; [|eassumption]; tk | assumption].
Ltac ex := match goal with H : expect _ _ = POk _ |- _ =>
  lazymatch goal with H' : id (H = H) |- _ => fail | _ => let A := fresh "Xk" in let B := fresh "Xn" in destruct (expect_sound _ _ _ H) as [A B]; assert (id (H = H)) by reflexivity end end.
Lemma if_else : forall n t l t', S_list n -> T t -> p_if (S n) true t = POk (l, t') ->
  exists b ts f, l = ICons ANil b INil /\ seq t (ts ++ [f]) t' /\ T_list b ts false /\ tk_type f = TT_FI.
Proof.
  intros n t l t' IH Ht H. rewrite p_if_S in H. cbn [pbind negb andb] in H. bnd H. injection H as <- <-. ex.
  edestruct list_closed as (ts & H1 & H2 & H3); [exact IH| |exact E|eassumption|kw|]; [auto|].
  exists a, ts, t0. split; auto. split; [sq|auto].
Qed.

Lemma simple_empty : forall b a ws r, T_simple b a ws r [] -> a = [] /\ ws = [] /\ r = [].
Proof.
  intros b a ws r H. remember [] as ts eqn:E. destruct H; auto; try discriminate; apply app_eq_nil in E; destruct E as [-> _]; inversion H.
Qed.
Theorem sound : forall n, S_cmd n /\ S_comp n /\ S_list n /\ S_pls n /\ S_cmds n /\ S_ifs n /\ S_items n /\ forall m, (m < n)%nat -> S_list m.
Proof.
  induction n as [|n (IHcmd & IHcomp & IHlist & IHpls & IHcmds & IHifs & IHitems & IHm)].
  { repeat split; try (intros ?; intros; discriminate). intros m H. lia. }
  split; [|split; [|split; [|split; [|split; [|split; [|split]]]]]].
  - intros t c t' Ht H. rewrite p_command_S in H. destruct (is t TT_BANG || is t TT_IN || is_closing_tokentype (tk_type t)) eqn:Ec; [discriminate|].
    apply orb_false_iff in Ec. destruct Ec as [Ec Ec3]. apply orb_false_iff in Ec. destruct Ec as [Ec1 Ec2].
    bnd1 H. destruct a as [[c0|] t1].
    + injection H as <- <-. destruct (IHcomp _ _ _ Ht E) as (ts & H1 & H2). exists ts. split; auto. split; [apply t_compound; auto|].
      intros Hs. exfalso. destruct c0; try discriminate. inversion H2.
    + apply compound_none in E. assert (Hr : ~ reserved (tk_type t)).
      { apply not_reserved; auto; intros E'; rewrite E' in *; discriminate. }
      clear t1. bnd1 H. destruct a as [[[a ws] r] t1]. destruct (simple_sound _ _ _ _ _ _ _ Ht E0) as (ts & H1 & H2 & H3 & H4).
      assert (Hne : ts <> []) by (intros ->; apply simple_empty in H2; destruct H2 as (-> & -> & ->); discriminate H).
      assert (G : (if is t1 TT_LPAREN then
                  match a, ws, r with
                  | [], [name], [] =>
                      if is_name_word L X name then
                        let! t3 := nt t1 in
                        let! t4 := expect TT_RPAREN t3 in
                        let! (_, t5) := p_newlines n t4 in
                        let! (o, t6) := p_compound n t5 in
                        match o with
                        | Some body => POk (CFunc name body, t6)
                        | None => PErr
                        end
                      else PErr
                  | _, _, _ => PErr
                  end
                else POk (CSimple a ws r, t1)) = POk (c, t')).
      { destruct a; destruct ws; destruct r; auto. discriminate. }
      clear H. destruct (is t1 TT_LPAREN) eqn:El.
      * destruct a as [|? ?]; [|discriminate]. destruct ws as [|nm [|? ?]]; try discriminate. destruct r as [|? ?]; [|discriminate].
        destruct (is_name_word L X nm) eqn:En; [|discriminate]. unfold is_name_word in En. destruct nm as [|[s|] [|]]; try discriminate. cbn [single_string] in En.
        bnd G. ex. apply newlines_sound in E3. destruct E3 as (ns & H5 & H6 & _ & _). destruct o as [body|]; [|discriminate]. injection G as <- <-.
        assert (Ht0 : T t0) by tk. destruct (IHcomp _ _ _ Ht0 E4) as (ts' & H7 & H8). teqs.
        assert (Ets : ts = [t] /\ wd t [UStr s]).
        { inversion H2; subst. match goal with H : T_simple false [] [] [] _ |- _ => inversion H; subst end. inversion H1; subst. auto. }
        destruct Ets as [-> Hw]. exists (t :: t1 :: a :: ns ++ ts'). split.
        -- inversion H1; subst. match goal with H : seq _ [] _ |- _ => inversion H; subst end. sq.
        -- split; [|discriminate]. apply t_func; auto. apply is_name_iff. auto.
      * injection G as <- <-. exists ts. split; auto. split; auto. destruct ts as [|t0 ts]; [congruence|]. inversion H1; subst. apply t_simple; auto.
  - (* compound *)
    intros t c t' Ht H. rewrite p_compound_S in H. cbv zeta in H.
    assert (Fin : forall (k : list (redir X) -> cmd X) t0 c, T t0 -> (let! (r, t') := p_redirs n t0 in POk (Some (k r), t')) = POk (Some c, t') ->
      exists r rs, c = k r /\ seq t0 rs t' /\ T_redirs r rs).
    { intros k t0 c0 Ht0 H0. bnd H0. injection H0 as <- <-. destruct (redirs_sound _ _ _ _ Ht0 E) as (rs & H1 & H2). eauto. }
    destruct (tk_type t) eqn:Ety; try discriminate H.
    + (* subshell *)
      bnd1 H. bnd1 H. destruct a0 as [l t2]. bnd1 H. ex. edestruct list_false as (ts & b & H1 & H2 & _ & H3); [exact IHlist| |exact E0|]; [tk|].
      apply Fin in H; [|tk]. destruct H as (r & rs & -> & H4 & H5). exists (t :: ts ++ t2 :: rs). split; [sq|]. eapply t_subshell; eauto.
    + (* if *)
      bnd1 H. bnd1 H. destruct a0 as [l t2]. destruct (IHifs a l t2 ltac:(tk) E0) as (ts & H1 & H2).
      apply Fin in H; [|eapply seq_T; [|exact H1]; tk]. destruct H as (r & rs & -> & H4 & H5). exists (t :: ts ++ rs). split; [sq|]. apply t_if; auto.
    + (* case *)
      bnd1 H. destruct (tk_word a) as [w|] eqn:Ew; [|discriminate]. bnd1 H. bnd1 H. destruct a1 as [b t3]. bnd1 H. ex. bnd1 H. destruct a2 as [l t5]. bnd1 H. ex.
      apply newlines_sound in E1. destruct E1 as (ns & H6 & H7 & _ & _).
      destruct (IHitems a1 l t5 ltac:(tk) E3) as (ts & H8 & H9); [auto|].
      apply Fin in H; [|tk]. destruct H as (r & rs & -> & H4 & H5). exists (t :: a :: ns ++ t3 :: ts ++ t5 :: rs). split; [sq|]. eapply t_case; eauto.
    + (* while *)
      bnd1 H. bnd1 H. destruct a0 as [l t2]. bnd1 H. ex. bnd1 H. destruct a1 as [l' t4]. bnd1 H. ex.
      edestruct list_closed as (ts & H4 & H5 & H6); [exact IHlist| |exact E0|eassumption|kw|]; [tk|].
      edestruct list_closed as (ts' & H7 & H8 & H9); [exact IHlist| |exact E2|eassumption|kw|]; [tk|].
      apply Fin in H; [|tk]. destruct H as (r & rs & -> & H10 & H11). exists (t :: ts ++ t2 :: ts' ++ t4 :: rs). split; [sq|]. apply (t_while L X t true); auto.
    + (* until *)
      bnd1 H. bnd1 H. destruct a0 as [l t2]. bnd1 H. ex. bnd1 H. destruct a1 as [l' t4]. bnd1 H. ex.
      edestruct list_closed as (ts & H4 & H5 & H6); [exact IHlist| |exact E0|eassumption|kw|]; [tk|].
      edestruct list_closed as (ts' & H7 & H8 & H9); [exact IHlist| |exact E2|eassumption|kw|]; [tk|].
      apply Fin in H; [|tk]. destruct H as (r & rs & -> & H10 & H11). exists (t :: ts ++ t2 :: ts' ++ t4 :: rs). split; [sq|]. apply (t_while L X t false); auto.
    + (* for *)
      bnd1 H. destruct (tk_word a) as [[|[nm|] [|]]|] eqn:Ew; try discriminate. destruct (is_name L nm) eqn:En; [|discriminate]. apply is_name_iff in En.
      bnd1 H. bnd1 H. destruct a1 as [ws t3]. bnd1 H. destruct a1 as [b t4]. bnd1 H. ex. bnd1 H. destruct a2 as [l t6]. bnd1 H. ex.
      destruct (for_sound _ _ _ _ _ _ E1 ltac:(tk) E2 ltac:(auto)) as (ts & ns & H4 & H5 & H6).
      edestruct list_closed as (ls & H7 & H8 & H9); [exact IHlist| |exact E4|eassumption|kw|]; [tk|].
      apply Fin in H; [|tk]. destruct H as (r & rs & -> & H10 & H11). exists (t :: a :: ts ++ ns ++ t4 :: ls ++ t6 :: rs).
      split; [|apply t_for; auto]. rewrite app_assoc. sq.
    + (* group *)
      bnd1 H. bnd1 H. destruct a0 as [l t2]. bnd1 H. ex. edestruct list_closed as (ts & H1 & H2 & H3); [exact IHlist| |exact E0|eassumption|kw|]; [tk|].
      apply Fin in H; [|tk]. destruct H as (r & rs & -> & H4 & H5). exists (t :: ts ++ t2 :: rs). split; [sq|]. eapply t_group; eauto.
    + (* function *)
      bnd1 H. destruct (tk_word a) as [w|] eqn:Ew; [|discriminate]. bnd1 H. bnd1 H. bnd1 H. destruct a2 as [b t4]. bnd1 H. destruct a2 as [[body|] t5]; [|discriminate].
      injection H as <- <-. apply newlines_sound in E2. destruct E2 as (ns & H6 & H7 & _ & _).
      assert (Ht1 : T a1). { unfold ParseModel.p_func_paren in E1. destruct (is a0 TT_LPAREN); [|injection E1 as <-; tk]. bnd E1. destruct (is a2 TT_RPAREN); [tk|injection E1 as <-; tk]. }
      assert (Ht4 : T t4) by tk. destruct (IHcomp _ _ _ Ht4 E3) as (ts & H8 & H9).
      unfold ParseModel.p_func_paren in E1. destruct (is a0 TT_LPAREN) eqn:El; teqs.
      * bnd1 E1. destruct (is a2 TT_RPAREN) eqn:Er; teqs.
        -- exists (t :: a :: [a0; a2] ++ ns ++ ts). split; [cbn [app]; sq|]. apply t_function; auto. left. cbn [map]. unfold ty. rewrite El, Er. auto.
        -- injection E1 as <-. exists (t :: a :: [] ++ ns ++ ts). split; [cbn [app]; sq|]. apply t_function; auto. right. split; auto.
           intros x y ts' E' [Hx Hy]. assert (Hs : seq a0 (x :: y :: ts') t5) by (rewrite <- E'; sq). inversion Hs as [|? ? ? ? Hn Hs']; subst. inversion Hs'; subst.
           assert (a2 = y) by congruence. subst y. unfold ty in Hy. rewrite Hy in Er. discriminate.
      * injection E1 as <-. exists (t :: a :: [] ++ ns ++ ts). split; [cbn [app]; sq|]. apply t_function; auto. right. split; auto.
        intros x y ts' E' [Hx Hy]. assert (Hs : seq a0 (x :: y :: ts') t5) by (rewrite <- E'; sq). inversion Hs; subst. unfold ty in Hx. rewrite Hx in El. discriminate.
    + (* double bracket *)
      bnd1 H. bnd1 H. destruct a0 as [e t2]. destruct (is_close X t2) eqn:Ec; [|discriminate]. apply close_iff in Ec. bnd1 H.
      destruct (proj1 (db_sound n) _ _ _ E0) as (ts & H1 & H2). apply Fin in H; [|tk]. destruct H as (r & rs & -> & H4 & H5).
      exists (t :: ts ++ t2 :: rs). split; [sq|]. eapply t_bracket; eauto.
  - (* list *)
    intros need t l t' Ht H. rewrite p_list_S in H. bnd1 H. destruct a as [nl t1]. apply newlines_sound in E. destruct E as (ns & H1 & H2 & H3 & H4).
    destruct (negb nl && need) eqn:En.
    { left. apply andb_true_iff in En. destruct En as [En ->]. injection H as <- <-. destruct ns; [|subst nl; discriminate]. inversion H1; subst. auto. }
    right.
    assert (P : exists pre ns', ns = pre ++ ns' /\ newlines ns' /\ if need then exists s, pre = [s] /\ newline s else pre = []).
    { destruct need; [|exists [], ns; auto]. destruct ns as [|s ns]; [subst nl; discriminate|]. inversion H2; subst. exists [s], ns. repeat split; auto. exists s. auto. }
    destruct P as (pre & ns' & -> & Hns & Hpre).
    cbn [orb] in H. destruct (is t1 TT_END_OF_INPUT || is_closing_tokentype (tk_type t1)).
    + injection H as <- <-. exists pre, ns', false. repeat split; auto; [constructor; auto|discriminate].
    + bnd1 H. destruct a as [p t2]. assert (Ht1 : T t1) by tk. destruct (IHpls _ _ _ _ Ht1 E) as (ts & H5 & H6 & H7).
      destruct (is t2 TT_AMP || is t2 TT_SEMICOLON) eqn:Es.
      * bnd1 H. bnd1 H. destruct a0 as [l0 t4]. injection H as <- <-.
        edestruct list_false as (ts' & b & H8 & H9 & H10 & H11); [exact IHlist| |exact E1|]; [tk|].
        exists pre, (ns' ++ ts ++ t2 :: ts'), b. split; [rewrite app_assoc; sq|]. split; [|split; auto].
        apply t_list_sep; auto. destruct (is t2 TT_AMP) eqn:Ea; cbn [orb] in Es; teqs; auto.
      * bnd1 H. destruct a as [l0 t4]. injection H as <- <-. assert (Ht2 : T t2) by tk.
        destruct (IHlist _ _ _ _ Ht2 E0) as [(_ & -> & ->)|(ns2 & ts' & b & H8 & H9 & H10 & s & -> & Hs)].
        -- exists pre, (ns' ++ ts), (pls_open X p). split; [rewrite app_assoc; sq|]. split; [apply t_list_last; auto|auto].
        -- exists pre, (ns' ++ ts ++ s :: ts'), b. split; [rewrite app_assoc; cbn [app] in H8; sq|]. split; [apply t_list_newline; auto|auto].
  - (* pipelines *)
    intros cond t p t' Ht H. rewrite p_pipelines_S in H. cbv zeta in H. bnd1 H.
    assert (Hn : exists ns, seq t ns a /\ map (ty X) ns = if is t TT_BANG then [TT_BANG] else []).
    { destruct (is t TT_BANG) eqn:Eb; teqs; [exists [t]; split; [sq|cbn; unfold ty; rewrite Eb; auto]|]. injection E as <-. exists []. split; [sq|auto]. }
    destruct Hn as (ns & H1 & H2). assert (Ha : T a) by tk. bnd1 H. destruct a0 as [cs t1]. destruct (IHcmds _ _ _ Ha E0) as (ts & H3 & H4 & H5).
    destruct (is t1 TT_AMPAMP || is t1 TT_PIPEPIPE) eqn:Eo.
    + bnd1 H. bnd1 H. destruct a1 as [b t3]. bnd1 H. destruct a1 as [p0 t4]. injection H as <- <-.
      apply newlines_sound in E2. destruct E2 as (ns' & H6 & H7 & _ & _). assert (Ht3 : T t3) by tk. destruct (IHpls _ _ _ _ Ht3 E3) as (ts' & H8 & H9 & H10).
      exists (ns ++ ts ++ t1 :: ns' ++ ts'). split; [sq|]. split.
      * eapply t_pls_cons; eauto. destruct (is t1 TT_AMPAMP) eqn:Ea; cbn [orb] in Eo; teqs; auto.
      * destruct p0 as [|cs0 ? ? p0]; [inversion H9|]. cbn [pls_open] in *. destruct p0; auto.
    + injection H as <- <-. exists (ns ++ ts). split; [sq|]. split; [apply t_pls_last; auto|auto].
  - (* commands *)
    intros t cs t' Ht H. rewrite p_commands_S in H. bnd1 H. destruct a as [c t1]. destruct (IHcmd _ _ _ Ht E) as (ts & H1 & H2 & H3). destruct (is t1 TT_PIPE) eqn:Ep; teqs.
    + bnd1 H. bnd1 H. destruct a0 as [b t3]. bnd1 H. destruct a0 as [cs0 t4]. injection H as <- <-. apply newlines_sound in E1. destruct E1 as (ns & H6 & H7 & _ & _).
      assert (Ht3 : T t3) by tk. destruct (IHcmds _ _ _ Ht3 E2) as (ts' & H8 & H9 & H10).
      exists (ts ++ t1 :: ns ++ ts'). split; [sq|]. split; [apply t_cmds_cons; auto|]. destruct cs0 as [|c0 cs0]; [inversion H9|]. cbn [cmds_open] in *. destruct cs0; auto.
    + injection H as <- <-. exists ts. split; auto. split; [apply t_cmds_last; auto|auto].
  - (* if *)
    intros t l t' Ht H. rewrite p_if_S in H. cbv beta iota in H. bnd1 H. destruct a as [cond t2]. bnd1 E. destruct a as [c t1]. bnd1 E. injection E as <- <-. ex.
    edestruct list_closed as (ts & H1 & H2 & H3); [exact IHlist| |exact E0|eassumption|kw|]; [auto|].
    bnd1 H. destruct a0 as [body t3]. cbn [negb andb] in H.
    assert (Ha : T a) by tk.
    destruct (is t3 TT_ELSE) eqn:Ee; [|destruct (is t3 TT_ELIF) eqn:Ei]; teqs.
    + edestruct list_closed as (ts' & H5 & H6 & H7); [exact IHlist| |exact E|eassumption|kw|]; [auto|].
      bnd1 H. bnd1 H. destruct a1 as [l0 t5]. injection H as <- <-. destruct n as [|n]; [discriminate E3|].
      destruct (if_else n a0 l0 t5 (IHm n ltac:(lia)) ltac:(tk) E3) as (b & ts'' & f & -> & H8 & H9 & H10).
      exists (ts ++ t1 :: ts' ++ t3 :: ts'' ++ [f]). split; [sq|]. apply t_if_else; auto.
    + edestruct list_closed as (ts' & H5 & H6 & H7); [exact IHlist| |exact E|eassumption|kw|]; [auto|].
      bnd1 H. bnd1 H. destruct a1 as [l0 t5]. injection H as <- <-. destruct (IHifs a0 l0 t5 ltac:(tk) E3) as (ts'' & H8 & H9).
      exists (ts ++ t1 :: ts' ++ t3 :: ts''). split; [sq|]. apply t_if_elif; auto.
    + bnd1 H. ex. injection H as <- <-. edestruct list_closed as (ts' & H5 & H6 & H7); [exact IHlist| |exact E|eassumption|kw|]; [auto|].
      exists (ts ++ t1 :: ts' ++ [t3]). split; [sq|]. apply t_if_fi; auto.
  - (* case items *)
    intros t l t' Ht H He. rewrite p_cases_S in H. bnd1 H. destruct a as [b t1]. apply newlines_sound in E. destruct E as (ns & H1 & H2 & _ & _).
    destruct (is t1 TT_ESAC) eqn:Ee.
    + injection H as <- <-. exists ns. split; auto. constructor. auto.
    + bnd1 H. bnd1 H. destruct a0 as [pats t3]. destruct (patterns_sound _ _ _ _ E0) as (ps & c & H3 & H4 & H5).
      bnd1 H. destruct a0 as [body t4].
      assert (Ho : exists o, seq t1 o a /\ T_open X o ps).
      { destruct (is t1 TT_LPAREN) eqn:El; teqs; [exists [t1]; split; [sq|constructor; auto]|]. injection E as <-. exists []. split; [sq|].
        destruct ps as [|x ps]; [inversion H4|]. constructor. inversion H3; subst. intros E'. unfold ty in E'. rewrite E' in Ee. discriminate. }
      destruct Ho as (o & H6 & H7). assert (Ht1 : T t1) by tk. assert (Ha : T a) by tk. assert (Ht3 : T t3) by tk.
      assert (Hsq : seq a (ps ++ [c]) t3) by auto.
      destruct (is t4 TT_DOUBLE_SEMICOLON) eqn:Es; teqs.
      * bnd1 H. bnd1 H. destruct a1 as [l0 t6]. injection H as <- <-. edestruct list_false as (ts & op & H8 & H9 & _ & H11); [exact IHlist| |exact E1|]; [auto|].
        destruct (IHitems a0 l0 t6 ltac:(tk) E3 He) as (ts' & H12 & H13). exists (ns ++ o ++ ps ++ c :: ts ++ t4 :: ts'). split.
        -- change (c :: ts ++ t4 :: ts') with ([c] ++ ts ++ t4 :: ts'). rewrite (app_assoc ps). sq.
        -- eapply t_items_cons; eauto.
      * injection H as <- <-. edestruct list_closed as (ts & H8 & H9 & H11); [exact IHlist| |exact E1|exact He|kw|]; [auto|].
        exists (ns ++ o ++ ps ++ c :: ts). split; [change (c :: ts) with ([c] ++ ts); rewrite (app_assoc ps); sq|]. apply t_items_last; auto.
  - intros m Hm. destruct (Nat.eq_dec m n) as [->|]; auto. apply IHm. lia.
Qed.

Theorem line_sound : forall n need t l r, T t -> p_line n need t = POk (l, r) -> (need = true -> l = ANil) /\
  exists ts e, seq t ts e /\ T_line l ts /\ (tk_type e = TT_NEWLINE \/ tk_type e = TT_END_OF_INPUT) /\ r = tk_rest e.
Proof.
  induction n as [|n IH]; intros need t l r Ht H; cbn [ParseModel.p_line] in H; [discriminate|].
  destruct (is t TT_NEWLINE || is t TT_END_OF_INPUT) eqn:Ee.
  - injection H as <- <-. split; auto. exists [], t. split; [constructor|]. split; [constructor|]. split; auto. apply orb_true_iff in Ee. destruct Ee; teqs; auto.
  - destruct need; [discriminate|]. split; [discriminate|]. bnd1 H. destruct a as [p t2].
    destruct (proj1 (proj2 (proj2 (proj2 (sound n)))) _ _ _ _ Ht E) as (ts & H1 & H2 & _). destruct (is t2 TT_AMP || is t2 TT_SEMICOLON) eqn:Es.
    + bnd1 H. bnd1 H. destruct a0 as [l0 r0]. injection H as <- <-. destruct (IH _ _ _ _ (T_nt _ _ E0) E1) as (_ & ts' & e & H3 & H4 & H5 & H6).
      exists (ts ++ t2 :: ts'), e. split; [sq|]. split; auto. apply t_line_sep; auto. destruct (is t2 TT_AMP) eqn:Ea; cbn [orb] in Es; teqs; auto.
    + bnd1 H. destruct a as [l0 r0]. injection H as <- <-. assert (Ht2 : T t2) by tk. destruct (IH _ _ _ _ Ht2 E0) as (Hn & ts' & e & H3 & H4 & H5 & H6).
      rewrite Hn in * by auto. inversion H4; subst. inversion H3; subst. exists ts, e. split; auto. split; auto. apply t_line_last. auto.
Qed.
End Sound.
