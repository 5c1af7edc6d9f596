(** What the parser gives: trees whose printed form can be read back, as far as
    [cmd_ok] allows. *)
From Coq Require Import Ascii String.
From Coq Require Import List NArith ZArith Bool Arith Lia.
From Coq Require Import ZifyBool ZifyN.
From Verif Require Import Common Locale NumModel NumProofs ParseModel ParseSpec ParseLex ParseText ParseRound.
From Verif Require TestModel.
Import ListNotations.
Local Open Scope N_scope.
Local Open Scope pres_scope.

Section Sound.
Variable L : locale.
Hypothesis Lok : locale_ok L.
Variable X : Type.
Variable sp_parse : bool -> list N -> spres X.
Variable sp_print : X -> list N.
Hypothesis EX : expansions_ok L X sp_print sp_parse.
Notation word := (word X).
Notation redir := (redir X).
Notation assign := (assign X).
Notation dbexp := (dbexp X).
Notation cmd := (cmd X).
Notation cmds := (cmds X).
Notation pls := (pls X).
Notation aos := (aos X).
Notation ifcs := (ifcs X).
Notation cis := (cis X).
Notation tok := (tok X).
Notation tk_type := (tk_type X).
Notation tk_word := (tk_word X).
Notation tk_rest := (tk_rest X).
Notation mkTok := (mkTok X).
Notation is t k := (tt_eqb (tk_type t) k).
Notation is_name := (is_name L).
Notation is_name_word := (is_name_word L X).
Notation single_string := (single_string X).
Notation identify_reserved_word := (identify_reserved_word X).
Notation is_delim := (is_delim L).
Notation print_word := (print_word X sp_print).
Notation next_token := (next_token L X sp_parse).
Notation nt := (nt L X sp_parse).
Notation p_newlines := (p_newlines L X sp_parse).
Notation p_words := (p_words L X sp_parse).
Notation p_redir := (p_redir L X sp_parse).
Notation p_redirs := (p_redirs L X sp_parse).
Notation p_assign := (p_assign L X sp_parse).
Notation p_simple := (p_simple L X sp_parse).
Notation p_patterns := (p_patterns L X sp_parse).
Notation is_close := (is_close X).
Notation p_operand := (p_operand L X sp_parse).
Notation p_primary := (p_primary L X sp_parse).
Notation p_ors := (p_ors L X sp_parse).
Notation p_ands := (p_ands L X sp_parse).
Notation p_nots := (p_nots L X sp_parse).
Notation expect := (expect L X sp_parse).
Notation p_for_words := (p_for_words L X sp_parse).
Notation p_func_paren := (p_func_paren L X sp_parse).
Notation p_list := (p_list L X sp_parse).
Notation p_pipelines := (p_pipelines L X sp_parse).
Notation p_commands := (p_commands L X sp_parse).
Notation p_command := (p_command L X sp_parse).
Notation p_compound := (p_compound L X sp_parse).
Notation p_if := (p_if L X sp_parse).
Notation p_cases := (p_cases L X sp_parse).
Notation lexable := (lexable L X sp_parse sp_print).
Notation gword := (gword L X sp_parse sp_print).
Notation gredir := (gredir L X sp_parse sp_print).
Notation r_text := (r_text X sp_print).
Notation gassign := (gassign L X sp_parse sp_print).
Notation a_text := (a_text X sp_print).
Notation gfirst := (gfirst L X).
Notation quote_first := (quote_first X).
Notation split_assign := (split_assign L X).
Notation gdb := (gdb L X sp_parse sp_print).
Notation d_text := (d_text X sp_print).
Notation dnorm := (dnorm X).
Notation or_app := (or_app X).
Notation and_app := (and_app X).
Notation gcmd := (gcmd L X sp_parse sp_print).
Notation gcmds := (gcmds L X sp_parse sp_print).
Notation gpls := (gpls L X sp_parse sp_print).
Notation gaos := (gaos L X sp_parse sp_print).
Notation gifcs := (gifcs L X sp_parse sp_print).
Notation gcis := (gcis L X sp_parse sp_print).
Notation gbody := (gbody L X).
Notation norm := (norm X).
Notation norm_cmds := (norm_cmds X).
Notation norm_pls := (norm_pls X).
Notation norm_aos := (norm_aos X).
Notation norm_ifcs := (norm_ifcs X).
Notation norm_cis := (norm_cis X).
Notation pcond := (pcond X).
Notation rt := (rt X sp_print).
Notation tokw := (tokw L X sp_parse sp_print).
Notation word_ok := (word_ok X sp_print).
Notation redir_ok := (redir_ok X sp_print).
Notation assign_ok := (assign_ok X sp_print).
Notation dbexp_ok := (dbexp_ok X sp_print).
Notation cmd_ok := (cmd_ok L X sp_print).
Notation cmds_ok := (cmds_ok L X sp_print).
Notation pls_ok := (pls_ok L X sp_print).
Notation aos_ok := (aos_ok L X sp_print).
Notation ifcs_ok := (ifcs_ok L X sp_print).
Notation cis_ok := (cis_ok L X sp_print).
Notation sub := (sub X).
Notation sub_cmds := (sub_cmds X).
Notation sub_pls := (sub_pls X).
Notation sub_aos := (sub_aos X).
Notation sub_ifcs := (sub_ifcs X).
Notation sub_cis := (sub_cis X).
Notation psub := (psub X).
Notation psub_cmds := (psub_cmds X).
Notation psub_pls := (psub_pls X).
Notation psub_aos := (psub_aos X).
Notation psub_ifcs := (psub_ifcs X).
Notation psub_cis := (psub_cis X).

Ltac bnd1 H :=
  match type of H with
  | pbind ?x _ = POk _ => let E := fresh "E" in destruct x as [?a| | |] eqn:E; cbn [pbind] in H; [|discriminate H..]
  | (let '(_, _) := ?x in _) = POk _ => destruct x as [? ?]
  | match ?x with pair _ _ => _ end = POk _ => destruct x as [? ?]
  end.
Ltac bnd H := repeat bnd1 H.

(** ** Tokens *)
Definition T (t : tok) : Prop := exists s, next_token s = POk t.
Lemma T_nt : forall t t', nt t = POk t' -> T t'.
Proof. intros t t' H. exists (tk_rest t). exact H. Qed.
Lemma T_word : forall t w, T t -> tk_word t = Some w -> tokw w.
Proof. intros t w [s H] Hw. eapply next_token_word; eauto. Qed.
Lemma T_type : forall t w, T t -> tk_word t = Some w -> tk_type t = identify_reserved_word w \/ tk_type t = TT_IO_NUMBER /\ is_digits_only X w = true.
Proof.
  intros t w [s H] Hw. unfold ParseModel.next_token in H. destruct (operator _) as [[ty r]|]; [injection H as <-; discriminate|].
  bnd H. injection H as <-. cbn [ParseModel.tk_word ParseModel.tk_type] in *. injection Hw as <-. unfold word_type.
  destruct (_ && is_digits_only X w0) eqn:E'; auto. right. apply andb_true_iff in E'. tauto.
Qed.

Definition calm (c : N) : Prop := c <> ch "\" /\ c <> 34 /\ c <> ch "'" /\ c <> ch "$".
Lemma calm_step : forall c, calm c -> qstep q0 c = q0.
Proof.
  intros c (H1 & H2 & H3 & H4). unfold qstep. cbn [q_mode q0 q_esc].
  rewrite (proj2 (N.eqb_neq _ _) H1), (proj2 (N.eqb_neq _ _) H2), (proj2 (N.eqb_neq _ _) H3), (proj2 (N.eqb_neq _ _) H4). reflexivity.
Qed.
Lemma calm_fold : forall s, Forall calm s -> fold_left qstep s q0 = q0.
Proof. intros s H. induction H as [|c s Hc H IH]; auto. cbn [fold_left]. rewrite calm_step by auto. exact IH. Qed.
Lemma name_calm : forall c, is_name_char L c = true -> calm c /\ c <> 32.
Proof.
  intros c H. assert (G : forall d, d < 128 -> is_name_char L d = false -> c <> d) by (intros d _ Hd ->; congruence).
  repeat split; (apply G; [reflexivity|]; unfold is_name_char, iswalnum; rewrite (lk_alpha L Lok) by reflexivity; reflexivity).
Qed.
Lemma calm_word : forall s, Forall calm s -> solid s -> tokw [UStr s] -> gword [UStr s].
Proof.
  intros s H H' Hw. split; [apply Hw; cbn [clean]; rewrite calm_fold by auto; reflexivity|]. cbn [ParseModel.print_word]. rewrite app_nil_r. auto.
Qed.
Lemma take_name_spec : forall s n r, take_name L s = (n, r) -> s = n ++ r /\ Forall (fun c => is_name_char L c = true) n.
Proof.
  induction s as [|c s IH]; intros n r H; cbn [take_name] in H; [injection H as <- <-; auto|].
  destruct (is_name_char L c) eqn:E; [|injection H as <- <-; auto]. destruct (take_name L s) as [n' r'] eqn:E'. injection H as <- <-.
  destruct (IH _ _ eq_refl) as [-> F]. auto.
Qed.
Lemma skip_name_spec : forall s n r, skip_name L s = (n, r) -> s = n ++ r /\ Forall (fun c => is_name_char L c = true) n.
Proof.
  intros [|c s] n r H; cbn [skip_name] in H; [injection H as <- <-; auto|]. destruct (iswdigit c); [injection H as <- <-; auto|].
  apply take_name_spec. auto.
Qed.
Lemma names_calm : forall n, Forall (fun c => is_name_char L c = true) n -> Forall calm n.
Proof. intros n H. eapply Forall_impl; [|exact H]. intros c Hc. apply name_calm. auto. Qed.
Lemma name_calms : forall s, is_name s = true -> Forall calm s /\ solid s.
Proof.
  intros s H. pose proof (name_last L s H) as (c & s' & -> & Hc). split; [|apply solid_last; apply name_calm; auto].
  clear Hc. unfold ParseModel.is_name in H. set (x := s' ++ [c]) in *. clearbody x. destruct x as [|d x]; [discriminate|]. destruct (skip_name L (d :: x)) as [n r] eqn:E.
  apply skip_name_spec in E. destruct E as [E F]. cbn [snd] in H. destruct r; [|discriminate H]. rewrite E, app_nil_r. apply names_calm. auto.
Qed.

Lemma word_good : forall w, tokw w -> word_ok w -> gword w.
Proof.
  intros w Hw [Hc Hl]. specialize (Hw Hc). split; auto. apply not_last_solid; auto. intros E. destruct Hw as [_ Hw]. rewrite E in Hw. exact Hw.
Qed.
Lemma words_good : forall ws, Forall tokw ws -> Forall word_ok ws -> Forall gword ws.
Proof. intros ws H. induction H; intros F; inversion F; subst; constructor; auto. apply word_good; auto. Qed.

(** ** Redirections and assignments *)
Definition wredir (r : redir) : Prop := (rd_fd r <= INT_MAX)%Z /\ tokw (rd_file r).
Lemma redirs_good : forall r, Forall wredir r -> Forall redir_ok r -> Forall gredir r.
Proof.
  intros r H. induction H as [|x r [H1 H2] H IH]; intros F; inversion F as [|? ? [F1 F2] F']; subst; constructor; auto.
  split; [lia|]. apply word_good; auto.
Qed.
Definition wassign (a : assign) : Prop :=
  match a with
  | AScalar name v => exists w, tokw w /\ split_assign w = Some (name, v)
  | AArray name vs => tokw [UStr (name ++ [ch "="])] /\ split_assign [UStr (name ++ [ch "="])] = Some (name, []) /\ Forall tokw vs
  end.
Lemma split_assign_spec : forall w name v, split_assign w = Some (name, v) ->
  name <> [] /\ Forall (fun c => is_name_char L c = true) name /\
  exists v' us, w = UStr (name ++ ch "=" :: v') :: us /\ v = flush X v' us.
Proof.
  intros [|[s|x] us] name v H; try discriminate. cbn [ParseModel.split_assign] in H.
  destruct (skip_name L s) as [[|c nm] [|e v']] eqn:E; try discriminate. destruct (e =? ch "=") eqn:Ee; [|discriminate]. apply N.eqb_eq in Ee. subst e.
  injection H as <- <-. apply skip_name_spec in E. destruct E as [-> F]. split; [discriminate|]. split; auto. exists v', us. auto.
Qed.
Lemma name_eq_calm : forall name, Forall (fun c => is_name_char L c = true) name -> Forall calm (name ++ [ch "="]).
Proof. intros name H. apply Forall_app. split; [apply names_calm; auto|]. constructor; auto. repeat split; discriminate. Qed.
Lemma assign_good : forall a, wassign a -> assign_ok a -> gassign a.
Proof.
  intros [name v|name vs].
  - intros (w & Hw & Hs) [Hc Hl]. exists w. split; auto. apply split_assign_spec in Hs. destruct Hs as (Hn & F & v' & us & -> & ->).
    apply word_good; auto. split.
    + cbn [clean]. change (name ++ ch "=" :: v') with (name ++ [ch "="] ++ v'). rewrite app_assoc, fold_left_app, calm_fold by (apply name_eq_calm; auto).
      apply clean_flush. exact Hc.
    + rewrite print_flush in Hl. cbn [ParseModel.print_word]. intros s' E.
      change (name ++ ch "=" :: v') with (name ++ [ch "="] ++ v') in E. rewrite <- !app_assoc in E.
      destruct (v' ++ print_word us) as [|c x] using rev_ind.
      * rewrite app_nil_r in E. apply app_inj_tail in E. destruct E as [_ E]. discriminate E.
      * rewrite !app_assoc in E. apply app_inj_tail in E. destruct E as [_ ->]. eapply Hl. reflexivity.
  - intros (Hw & Hs & F) Hok. split; [|split; [auto|apply words_good; auto]].
    pose proof (split_assign_spec _ _ _ Hs) as (_ & Fn & _). apply calm_word; [apply name_eq_calm; auto|apply solid_last; discriminate|auto].
Qed.
Lemma assigns_good : forall a, Forall wassign a -> Forall assign_ok a -> Forall gassign a.
Proof. intros a H. induction H; intros F; inversion F; subst; constructor; auto. apply assign_good; auto. Qed.

Lemma fd_of_max : forall s, (fd_of s <= INT_MAX)%Z.
Proof. intros s. unfold fd_of. destruct (scan_digits 10 0 false s) as [[z ?] ?]. destruct (z >? INT_MAX)%Z eqn:E; unfold INT_MAX in *; lia. Qed.

Lemma newlines_sound : forall n t b t', T t -> p_newlines n t = POk (b, t') -> T t'.
Proof.
  induction n as [|n IH]; intros t b t' Ht H; cbn [ParseModel.p_newlines] in H; [discriminate|]. destruct (is t TT_NEWLINE).
  - bnd H. injection H as <- <-. eapply IH; [|eassumption]. eapply T_nt. eauto.
  - injection H as <- <-. auto.
Qed.
Lemma words_sound : forall n k t ws t', T t -> p_words n k t = POk (ws, t') -> Forall tokw ws /\ T t'.
Proof.
  induction n as [|n IH]; intros k t ws t' Ht H; cbn [ParseModel.p_words] in H; [discriminate|]. destruct (k && is t TT_NEWLINE).
  - bnd H. apply newlines_sound in E; auto. eapply IH; eauto.
  - destruct (tk_word t) eqn:Ew; [|injection H as <- <-; auto]. bnd H. injection H as <- <-.
    destruct (IH _ _ _ _ (T_nt _ _ E) E0). split; auto. constructor; auto. exact (T_word _ _ Ht Ew).
Qed.
Lemma redir_sound : forall t r t', T t -> p_redir t = POk (Some (r, t')) -> wredir r /\ T t'.
Proof.
  intros t r t' Ht H. unfold ParseModel.p_redir in H.
  assert (G : forall fd t, (fd <= INT_MAX)%Z -> T t ->
    (let! ty := redir_type (tk_type t) in
    let! t1 := nt t in
    match tk_word t1 with
    | None => PErr
    | Some w => let! t2 := nt t1 in POk (Some (mkRedir fd ty w, t2))
    end) = POk (Some (r, t')) -> wredir r /\ T t').
  { clear H. intros fd t0 Hfd Ht0 H. bnd H. destruct (tk_word a0) eqn:Ew; [|discriminate]. bnd H. injection H as <- <-.
    split; [split; [exact Hfd|]|eapply T_nt; eauto]. cbn [rd_file]. exact (T_word _ _ (T_nt _ _ E0) Ew). }
  destruct (is t TT_IO_NUMBER).
  - bnd1 H. eapply G; [|eapply T_nt; eassumption|exact H]. destruct (tk_word t) as [w|]; [destruct (single_string w)|]; try (unfold INT_MAX; lia). apply fd_of_max.
  - destruct (default_fd (tk_type t)) as [fd|] eqn:Ed; [|discriminate]. eapply G; [|eauto|eassumption].
    unfold INT_MAX. destruct (tk_type t); inversion Ed; lia.
Qed.
Lemma redirs_sound : forall n t r t', T t -> p_redirs n t = POk (r, t') -> Forall wredir r /\ T t'.
Proof.
  induction n as [|n IH]; intros t r t' Ht H; cbn [ParseModel.p_redirs] in H; [discriminate|]. bnd1 H. destruct a as [[r1 t1]|].
  - bnd H. injection H as <- <-. apply redir_sound in E; auto. destruct E as [E1 E2]. destruct (IH _ _ _ E2 E0). auto.
  - injection H as <- <-. auto.
Qed.
Lemma assign_sound : forall n t a t', T t -> p_assign n t = POk (Some (a, t')) -> wassign a /\ T t'.
Proof.
  intros n t a t' Ht H. unfold ParseModel.p_assign in H. destruct (tk_word t) as [w|] eqn:Ew; [|discriminate].
  destruct (split_assign w) as [[name v]|] eqn:Es; [|discriminate]. pose proof (T_word _ _ Ht Ew) as Hw. bnd1 H.
  assert (Hsc : wassign (AScalar name v)) by (exists w; auto).
  destruct v as [|u v].
  - destruct (match tk_rest t with c :: _ => c =? ch "(" | [] => false end).
    + bnd H. destruct (is t0 TT_RPAREN); [|discriminate]. bnd H. injection H as <- <-. split; [|eapply T_nt; eauto].
      pose proof (split_assign_spec _ _ _ Es) as (_ & _ & v' & us & -> & Hf).
      destruct v'; [|discriminate]. cbn [ParseModel.flush] in Hf. subst us. split; auto. split; auto. eapply words_sound; [|eauto]. eapply T_nt. eauto.
    + injection H as <- <-. split; auto. eapply T_nt. eauto.
  - injection H as <- <-. split; auto. eapply T_nt. eauto.
Qed.
Lemma assign_none : forall n t w, p_assign n t = POk None -> tk_word t = Some w -> split_assign w = None.
Proof.
  intros n t w H Ew. unfold ParseModel.p_assign in H. rewrite Ew in H. destruct (split_assign w) as [[name v]|]; auto. bnd1 H. exfalso.
  destruct v; [|discriminate H]. destruct (match tk_rest t with c :: _ => c =? ch "(" | [] => false end); [|discriminate H]. bnd H.
  destruct (is t0 TT_RPAREN); [|discriminate]. bnd H. discriminate.
Qed.
Lemma simple_sound : forall n first t a ws r t', T t -> p_simple n first t = POk (a, ws, r, t') ->
  Forall wassign a /\ Forall tokw ws /\ Forall wredir r /\ (first = true -> gfirst ws) /\ T t'.
Proof.
  induction n as [|n IH]; intros first t a ws r t' Ht H; cbn [ParseModel.p_simple] in H; [discriminate|]. bnd1 H. destruct a0 as [[r1 t1]|].
  - apply redir_sound in E; auto. destruct E as [E1 E2]. bnd H. injection H as <- <- <- <-. destruct (IH _ _ _ _ _ _ E2 E) as (? & ? & ? & ? & ?). auto 6.
  - bnd1 H. destruct a0 as [[a1 t1]|].
    + destruct first; [|discriminate]. apply assign_sound in E0; auto. destruct E0 as [E1 E2]. bnd H. injection H as <- <- <- <-.
      destruct (IH _ _ _ _ _ _ E2 E0) as (? & ? & ? & ? & ?). auto 6.
    + destruct (tk_word t) as [w|] eqn:Ew.
      * bnd H. injection H as <- <- <- <-. destruct (IH _ _ _ _ _ _ (T_nt _ _ E1) E2) as (? & ? & ? & _ & ?). repeat split; auto.
        -- constructor; auto. exact (T_word _ _ Ht Ew).
        -- intros ->. cbn [ParseText.gfirst]. eapply assign_none; eauto.
      * injection H as <- <- <- <-. repeat split; auto.
Qed.
Lemma patterns_sound : forall n t ws t', T t -> p_patterns n t = POk (ws, t') -> ws <> [] /\ Forall tokw ws /\ T t'.
Proof.
  induction n as [|n IH]; intros t ws t' Ht H; cbn [ParseModel.p_patterns] in H; [discriminate|]. destruct (tk_word t) as [w|] eqn:Ew; [|discriminate].
  bnd1 H. destruct (is a TT_PIPE).
  - bnd H. injection H as <- <-. destruct (IH _ _ _ (T_nt _ _ E0) E1) as (_ & ? & ?). split; [discriminate|]. split; auto. constructor; auto. exact (T_word _ _ Ht Ew).
  - destruct (is a TT_RPAREN); [|discriminate]. bnd H. injection H as <- <-. split; [discriminate|]. split; [|eapply T_nt; eauto]. constructor; auto. exact (T_word _ _ Ht Ew).
Qed.

(** ** Double brackets *)
Definition opc (c : N) : bool := existsb (N.eqb c) (str "=~!<>-abcdefghijklmnopqrstuvwxyzGLNOS").
Lemma opc_calm : forall c, opc c = true -> calm c /\ c <> 32.
Proof. intros c H. repeat split; intros ->; discriminate H. Qed.
Lemma ops_calm : forall s, s <> [] -> forallb opc s = true -> Forall calm s /\ solid s.
Proof.
  intros s Hn H. split.
  - apply Forall_forall. intros c Hc. rewrite forallb_forall in H. apply opc_calm. auto.
  - destruct (exists_last Hn) as (s' & c & ->). rewrite forallb_app in H. apply andb_true_iff in H. destruct H as [_ H]. cbn [forallb] in H. rewrite andb_true_r in H.
    apply solid_last. apply opc_calm. auto.
Qed.
Lemma opc_is : forall w i c, TestModel.is w i c = true -> nth_error w i = Some (ch c).
Proof. intros w i c H. unfold TestModel.is in H. destruct (nth_error w i); [|discriminate]. apply N.eqb_eq in H. congruence. Qed.
Lemma unary_opc : forall op, TestModel.is_unary_primary op = true -> op <> [] /\ forallb opc op = true.
Proof.
  intros op H. unfold TestModel.is_unary_primary in H. destruct (TestModel.is op 0 "-") eqn:E; [|discriminate]. apply opc_is in E.
  destruct op as [|a [|b [|c op]]]; try discriminate. injection E as ->. split; [discriminate|]. cbn [TestModel.ends nth_error negb orb] in H.
  unfold TestModel.at_ in H. cbn [nth] in H. apply existsb_exists in H. destruct H as (x & Hx & Hb). apply N.eqb_eq in Hb. subst b.
  cbn [forallb]. change (opc (ch "-")) with true. cbn [andb]. rewrite andb_true_r.
  revert x Hx. apply Forall_forall. repeat constructor.
Qed.
Lemma binary_opc : forall op, TestModel.is_binary_primary op = true -> op <> [] /\ forallb opc op = true.
Proof.
  intros op H.
  assert (G : forall i c, TestModel.is op i c = true \/ TestModel.is op i c = false) by (intros; destruct (TestModel.is op i c); auto).
  unfold TestModel.is_binary_primary, TestModel.eq_tail in H.
  repeat match type of H with
  | context [TestModel.is op ?i ?c] =>
      let E := fresh "E" in destruct (G i c) as [E|E]; rewrite E in H; cbn [negb orb andb] in H; [apply opc_is in E|]; try discriminate H
  end;
  (destruct op as [|a op]; [discriminate|]); split; try discriminate;
  repeat match goal with
  | E : nth_error (_ :: _) 0 = Some _ |- _ => cbn [nth_error] in E; injection E as ->
  end;
  (destruct op as [|b op]; [reflexivity|]); try discriminate H;
  repeat match goal with
  | E : nth_error (_ :: _) 1 = Some _ |- _ => cbn [nth_error] in E; injection E as ->
  end;
  (destruct op as [|c op]; [reflexivity|]); try discriminate H;
  repeat match goal with
  | E : nth_error (_ :: _) 2 = Some _ |- _ => cbn [nth_error] in E; injection E as ->
  end;
  (destruct op as [|d op]; [reflexivity|]); try discriminate H;
  repeat match goal with
  | E : nth_error (_ :: _) 3 = Some _ |- _ => cbn [nth_error] in E; injection E as ->
  end;
  (destruct op as [|e op]; [reflexivity|]); try discriminate H.
Qed.
Definition wdb (e : dbexp) : Prop := dbexp_ok e -> gdb e.
Lemma operand_sound : forall t w t', T t -> p_operand t = POk (w, t') -> tk_word t = Some w /\ tokw w /\ not_close X w /\ T t'.
Proof.
  intros t w t' Ht H. unfold ParseModel.p_operand in H. destruct (is_close t) eqn:Ec; [discriminate|]. destruct (tk_word t) as [w0|] eqn:Ew; [|discriminate].
  bnd H. injection H as <- <-. split; auto. split; [exact (T_word _ _ Ht Ew)|]. split; [|eapply T_nt; eauto].
  unfold ParseModel.is_close in Ec. rewrite Ew in Ec. unfold not_close. intros E'. rewrite E' in Ec. discriminate Ec.
Qed.
Lemma primary_sound : forall t e t', T t -> tk_type t <> TT_BANG -> p_primary t = POk (e, t') -> wdb e /\ T t'.
Proof.
  intros t e t' Ht Hb H. unfold ParseModel.p_primary in H.
  set (unary := match tk_word t with Some w => _ | None => None end) in H. destruct unary as [op|] eqn:Eu; subst unary.
  - destruct (tk_word t) as [w|] eqn:Ew; [|discriminate]. destruct (single_string w) as [s|] eqn:Es; [|discriminate].
    destruct (TestModel.is_unary_primary s) eqn:Ep; [|discriminate]. injection Eu as ->.
    bnd H. injection H as <- <-. apply operand_sound in E0; [|eapply T_nt; eauto]. destruct E0 as (_ & H1 & H2 & H3). split; auto. intros Hok. cbn [ParseSpec.dbexp_ok] in Hok.
    cbn [ParseText.gdb]. split; auto. destruct (unary_opc _ Ep) as [Hn Hc]. apply ops_calm in Hc; auto. destruct Hc as [Hc Hs].
    split; [|split; [apply word_good; auto|auto]]. apply calm_word; auto. destruct w as [|[s'|] [|]]; try discriminate. injection Es as ->. exact (T_word _ _ Ht Ew).
  - bnd1 H. destruct a as [l t1]. apply operand_sound in E; auto. destruct E as (Ew & H1 & H2 & H3).
    assert (Hu : not_unary X l).
    { intros s Es. rewrite Ew, Es in Eu. destruct (TestModel.is_unary_primary s); auto. discriminate. }
    assert (Hnb : not_bang X l).
    { intros E. destruct (T_type _ _ Ht Ew) as [Hty|[_ Hd]]; [congruence|]. unfold ParseModel.identify_reserved_word, is_digits_only in *.
      destruct (single_string l) as [s|]; [|discriminate]. unfold identify_reserved_word_string in E. destruct (find _ keywords) as [[k ty]|] eqn:Ef; [|discriminate].
      apply find_some in Ef. destruct Ef as [Hin Hk]. cbn [fst] in Hk. subst ty.
      repeat (destruct Hin as [Hin|Hin]; [try discriminate Hin; injection Hin as <-|]); [|destruct Hin].
      apply list_N_eqb_eq in Hk. subst s. discriminate Hd. }
    cbv zeta in H. set (binary := if is t1 TT_LESS then _ else _) in H.
    assert (Hbin : forall op, binary = Some op -> op = str "<" \/ op = str ">" \/ TestModel.is_binary_primary op = true /\ gword [UStr op]).
    { intros op Eb. subst binary. destruct (is t1 TT_LESS); [injection Eb as <-; auto|]. destruct (is t1 TT_GREATER); [injection Eb as <-; auto|]. right. right.
      destruct (tk_word t1) as [w|] eqn:Ew1; [|discriminate]. destruct (single_string w) as [s|] eqn:Es; [|discriminate].
      destruct (TestModel.is_binary_primary s) eqn:Ep; [|discriminate]. injection Eb as ->. split; auto.
      destruct (binary_opc _ Ep) as [Hn Hc]. apply ops_calm in Hc; auto. destruct Hc as [Hc Hs]. apply calm_word; auto.
      destruct w as [|[s'|] [|]]; try discriminate. injection Es as ->. exact (T_word _ _ H3 Ew1). }
    destruct binary as [op|] eqn:Eb.
    + destruct (list_N_eqb op (str "=~")) eqn:Eo; [discriminate|]. bnd H. injection H as <- <-. apply operand_sound in E0; [|eapply T_nt; eauto]. destruct E0 as (_ & H1' & H2' & H3').
      split; auto. intros [Hl Hr]. cbn [ParseText.gdb]. split; [apply word_good; auto|]. split; auto. split; auto. split; auto. split; [|split; [apply word_good; auto|auto]].
      split; [auto|]. intros ->. discriminate Eo.
    + injection H as <- <-. split; auto. intros Hok. cbn [ParseText.gdb]. split; [apply word_good; auto|auto].
Qed.
Lemma db_sound : forall n,
  (forall t e t', T t -> p_ors n t = POk (e, t') -> wdb e /\ T t') /\
  (forall t e t', T t -> p_ands n t = POk (e, t') -> wdb e /\ T t') /\
  (forall t e t', T t -> p_nots n t = POk (e, t') -> wdb e /\ T t').
Proof.
  induction n as [|n (IH1 & IH2 & IH3)]; [repeat split; discriminate|]. split; [|split]; intros t e t' Ht H.
  - rewrite p_ors_S in H. bnd H. apply IH2 in E; auto. destruct E as [E E']. destruct (is t0 TT_PIPEPIPE).
    + bnd H. injection H as <- <-. apply IH1 in E1; [|eapply T_nt; eauto]. destruct E1 as [E1 E1']. split; auto. intros [H1 H2]. split; auto.
    + injection H as <- <-. auto.
  - rewrite p_ands_S in H. bnd H. apply IH3 in E; auto. destruct E as [E E']. destruct (is t0 TT_AMPAMP).
    + bnd H. injection H as <- <-. apply IH2 in E1; [|eapply T_nt; eauto]. destruct E1 as [E1 E1']. split; auto. intros [H1 H2]. split; auto.
    + injection H as <- <-. auto.
  - rewrite p_nots_S in H. destruct (is t TT_BANG) eqn:Eb.
    + bnd H. injection H as <- <-. apply IH3 in E0; [|eapply T_nt; eauto]. destruct E0 as [E0 E0']. split; auto.
    + destruct (is t TT_LPAREN).
      * bnd H. apply IH1 in E0; [|eapply T_nt; eauto]. destruct E0 as [E0 E0']. destruct (is t0 TT_RPAREN); [|discriminate]. bnd H. injection H as <- <-. split; auto. eapply T_nt; eauto.
      * apply primary_sound in H; auto. intros E. rewrite E in Eb. discriminate.
Qed.

(** ** Commands *)
Definition compound (c : cmd) : Prop := match c with CSimple _ _ _ => False | _ => True end.
Definition gx (P : cmd -> Prop) (Q : pls -> Prop) : Prop :=
  (forall x, P x -> (cmd_ok x -> gcmd x) /\ match x with CFunc _ b => compound b | _ => True end) /\ (forall q, Q q -> q <> PNil /\ pcond q = false /\ (pls_ok q -> gpls q)).
Lemma gx_or : forall P P' Q Q', gx P Q -> gx P' Q' -> gx (fun x => P x \/ P' x) (fun q => Q q \/ Q' q).
Proof. intros P P' Q Q' [H1 H2] [H3 H4]. split; intros x [H|H]; auto. Qed.
Lemma gx_false : gx (fun _ => False) (fun _ => False).
Proof. split; intros x []. Qed.
Definition G_cmd (c : cmd) : Prop := gx (fun x => sub x c) (fun q => psub q c).
Definition G_cmds (cs : cmds) : Prop := gx (fun x => sub_cmds x cs) (fun q => psub_cmds q cs) /\ (cmds_ok cs -> gcmds cs).
Definition G_pls (p : pls) : Prop := gx (fun x => sub_pls x p) (fun q => psub_pls q p) /\ (pls_ok p -> gpls p).
Definition G_aos (l : aos) : Prop := gx (fun x => sub_aos x l) (fun q => psub_aos q l) /\ (aos_ok l -> gaos l).
Definition G_ifcs (l : ifcs) : Prop := gx (fun x => sub_ifcs x l) (fun q => psub_ifcs q l) /\ (ifcs_ok l -> gifcs l).
Definition G_cis (l : cis) : Prop := gx (fun x => sub_cis x l) (fun q => psub_cis q l) /\ (cis_ok l -> gcis l).
Lemma G_cmd_intro : forall c P Q, gx P Q -> (forall x, sub x c -> x = c \/ P x) -> (forall q, psub q c -> Q q) -> (cmd_ok c -> gcmd c) ->
  match c with CFunc _ b => compound b | _ => True end -> G_cmd c.
Proof. intros c P Q [H1 H2] H3 H4 H5 H6. split; [intros x Hx; destruct (H3 x Hx) as [->|H]; auto|intros q Hq; auto]. Qed.
Lemma aos_nil : G_aos ANil.
Proof. split; [apply gx_false|]. intros _. exact I. Qed.
Lemma aos_cons : forall p a l, G_pls p -> p <> PNil -> pcond p = false -> G_aos l -> G_aos (ACons p a l).
Proof.
  intros p a l [[H1 H2] H3] Hn Hc [[H4 H5] H6]. split; [split|].
  - intros x [H|H]; auto.
  - intros q [->|[H|H]]; auto.
  - intros [O1 O2]. split; [auto|]. split; [apply H3; exact O1|apply H6; exact O2].
Qed.
Lemma group_good : forall l r, G_aos l -> Forall wredir r -> G_cmd (CGroup l r).
Proof.
  intros l r [Hx Hg] Hr. eapply G_cmd_intro; [exact Hx|intros x H; exact H|intros q H; exact H| |exact I]. intros [O1 O2]. split; [apply Hg; exact O1|apply redirs_good; auto].
Qed.
Lemma subshell_good : forall l r, G_aos l -> Forall wredir r -> G_cmd (CSubshell l r).
Proof.
  intros l r [Hx Hg] Hr. eapply G_cmd_intro; [exact Hx|intros x H; exact H|intros q H; exact H| |exact I]. intros [O1 O2]. split; [apply Hg; exact O1|apply redirs_good; auto].
Qed.

Lemma for_words_sound : forall n t ws t', T t -> p_for_words n t = POk (ws, t') -> match ws with Some ws => Forall tokw ws | None => True end /\ T t'.
Proof.
  intros n t ws t' Ht H. unfold ParseModel.p_for_words in H. bnd H. apply newlines_sound in E; auto. destruct (is t0 TT_IN).
  - bnd H. injection H as <- <-. apply words_sound in E1; [|eapply T_nt; eauto]. destruct E1 as [E1 E1']. split; auto.
    destruct (is t1 TT_SEMICOLON); [eapply T_nt; eauto|injection E2 as <-; auto].
  - destruct (is t0 TT_SEMICOLON); [destruct b; [discriminate|]|].
    + bnd H. injection H as <- <-. split; auto. eapply T_nt; eauto.
    + injection H as <- <-. auto.
Qed.
Lemma expect_sound : forall k t t', expect k t = POk t' -> T t'.
Proof. intros k t t' H. unfold ParseModel.expect in H. destruct (is t k); [|discriminate]. eapply T_nt; eauto. Qed.
Lemma func_paren_sound : forall t t', T t -> p_func_paren t = POk t' -> T t'.
Proof.
  intros t t' Ht H. unfold ParseModel.p_func_paren in H. destruct (is t TT_LPAREN); [|injection H as <-; auto]. bnd H.
  destruct (is a TT_RPAREN); [eapply T_nt; eauto|injection H as <-; auto].
Qed.
Lemma name_good : forall w, tokw w -> word_ok w -> funcname_ok L X sp_print w -> gname L X sp_parse sp_print w.
Proof.
  intros w Hw Ho Hf. split; [apply word_good; auto|]. unfold ParseModel.is_name_word, ParseModel.identify_reserved_word. unfold funcname_ok in Hf.
  destruct (single_string w) as [s|] eqn:Es; auto. destruct w as [|[s'|] [|]]; try discriminate. injection Es as ->.
  destruct (is_name s).
  - unfold is_keyword in Hf. apply negb_false_iff in Hf. apply tt_eqb_eq in Hf. auto.
  - cbn [ParseModel.print_word]. rewrite app_nil_r. auto.
Qed.
Lemma func_good : forall w c, tokw w -> compound c -> G_cmd c -> G_cmd (CFunc w c).
Proof.
  intros w c Hw Hc Hg. eapply G_cmd_intro; [exact Hg|intros x H; exact H|intros q H; exact H| |exact Hc]. intros (O1 & O2 & O3 & O4).
  split; [apply name_good; auto|]. split; [|apply (proj1 (proj1 Hg c ltac:(destruct c; left; reflexivity))); exact O4].
  destruct c; auto.
Qed.

Theorem sound : forall n,
  (forall need t l t', T t -> p_list n need t = POk (l, t') -> G_aos l /\ T t') /\
  (forall cond t p t', T t -> p_pipelines n cond t = POk (p, t') -> G_pls p /\ p <> PNil /\ pcond p = cond /\ T t') /\
  (forall t cs t', T t -> p_commands n t = POk (cs, t') -> G_cmds cs /\ cs <> CNil /\ T t') /\
  (forall t c t', T t -> p_command n t = POk (c, t') -> G_cmd c /\ T t') /\
  (forall t c t', T t -> p_compound n t = POk (Some c, t') -> G_cmd c /\ compound c /\ T t') /\
  (forall e t l t', T t -> p_if n e t = POk (l, t') -> G_ifcs l /\ l <> INil /\ T t') /\
  (forall t l t', T t -> p_cases n t = POk (l, t') -> G_cis l /\ T t').
Proof.
  induction n as [|n (IHl & IHp & IHcs & IHc & IHk & IHi & IHca)]; [repeat split; discriminate|].
  split; [|split; [|split; [|split; [|split; [|split]]]]].
  - intros need t l t' Ht H. rewrite p_list_S in H. bnd H. apply newlines_sound in E; auto.
    destruct (negb b && need || is t0 TT_END_OF_INPUT || is_closing_tokentype (tk_type t0)).
    + injection H as <- <-. split; [apply aos_nil|auto].
    + bnd H. apply IHp in E0; auto. destruct E0 as (H1 & H2 & H3 & H4). destruct (is t1 TT_AMP || is t1 TT_SEMICOLON).
      * bnd H. injection H as <- <-. apply IHl in E1; [|eapply T_nt; eauto]. destruct E1. split; auto. apply aos_cons; auto.
      * bnd H. injection H as <- <-. apply IHl in E0; auto. destruct E0. split; auto. apply aos_cons; auto.
  - intros cond t p t' Ht H. rewrite p_pipelines_S in H. cbv zeta in H. bnd1 H.
    assert (Ha : T a) by (destruct (is t TT_BANG); [eapply T_nt; eauto|injection E as <-; auto]). bnd1 H. destruct a0 as [cs t1].
    apply IHcs in E0; auto. destruct E0 as ([[C1 C2] C3] & Hn & Ht1). destruct (is t1 TT_AMPAMP || is t1 TT_PIPEPIPE).
    + bnd H. injection H as <- <-. apply newlines_sound in E1; [|eapply T_nt; eauto]. apply IHp in E2; auto. destruct E2 as ([[P1 P2] P3] & _ & _ & Ht').
      split; [|split; [discriminate|split; auto]]. split; [split|].
      * intros x [Hx|Hx]; auto.
      * intros q [Hq|Hq]; auto.
      * intros [O1 O2]. split; auto. split; [apply C3; exact O1|apply P3; exact O2].
    + injection H as <- <-. split; [|split; [discriminate|split; auto]]. split; [split|].
      * intros x [Hx|[]]; auto.
      * intros q [Hq|[]]; auto.
      * intros [O1 O2]. split; auto. split; [apply C3; exact O1|exact I].
  - intros t cs t' Ht H. rewrite p_commands_S in H. bnd H. apply IHc in E; auto. destruct E as [[C1 C2] Ht0].
    assert (Cself : cmd_ok c -> gcmd c) by (apply C1; destruct c; left; reflexivity).
    destruct (is t0 TT_PIPE).
    + bnd H. injection H as <- <-. apply newlines_sound in E0; [|eapply T_nt; eauto]. apply IHcs in E1; auto. destruct E1 as ([[P1 P2] P3] & _ & Ht').
      split; [|split; [discriminate|auto]]. split; [split|].
      * intros x [Hx|Hx]; auto.
      * intros q [Hq|Hq]; auto.
      * intros [O1 O2]. split; [apply Cself; exact O1|apply P3; exact O2].
    + injection H as <- <-. split; [|split; [discriminate|auto]]. split; [split|].
      * intros x [Hx|[]]; auto.
      * intros q [Hq|[]]; auto.
      * intros [O1 O2]. split; [apply Cself; exact O1|exact I].
  - intros t c t' Ht H. rewrite p_command_S in H. destruct (is t TT_BANG || is t TT_IN || is_closing_tokentype (tk_type t)); [discriminate|].
    bnd1 H. destruct a as [[c0|] t1].
    + injection H as <- <-. apply IHk in E; auto. tauto.
    + bnd1 H. destruct a as [[[a ws] r] t2]. apply simple_sound in E0; auto. destruct E0 as (Ha & Hw & Hr & Hf & Ht2).
      assert (Hs : (a <> [] \/ ws <> [] \/ r <> []) -> G_cmd (CSimple a ws r)).
      { intros Hne. eapply G_cmd_intro; [apply gx_false|intros x Hx; exact Hx|intros q Hq; exact Hq| |exact I]. intros (O1 & O2 & O3).
        split; [apply assigns_good; auto|]. split; [apply words_good; auto|]. split; [apply redirs_good; auto|]. split; auto. }
      assert (HF : forall w, ws = [w] -> (if is_name_word w then
                        let! t3 := nt t2 in
                        let! t4 := expect TT_RPAREN t3 in
                        let! (_, t5) := p_newlines n t4 in
                        let! (o, t6) := p_compound n t5 in
                        match o with
                        | Some body => POk (CFunc w body, t6)
                        | None => PErr
                        end
                      else PErr) = POk (c, t') -> G_cmd c /\ T t').
      { clear H. intros w -> H. destruct (is_name_word w); [|discriminate]. bnd H. destruct o as [body|]; [|discriminate]. injection H as <- <-.
        apply newlines_sound in E2; [|eapply expect_sound; eauto]. apply IHk in E3; auto. destruct E3 as (? & ? & ?). split; auto. apply func_good; auto. inversion Hw; auto. }
      destruct a as [|a1 a]; [destruct ws as [|w1 ws]; [destruct r as [|r1 r]; [discriminate|]|]|]; (destruct (is t2 TT_LPAREN) eqn:El;
        [|injection H as <- <-; split; auto; apply Hs; first [left; discriminate|right; left; discriminate|right; right; discriminate]]); try discriminate.
      destruct ws as [|w2 ws]; [|discriminate]. destruct r as [|r1 r]; [|discriminate]. eapply HF; eauto.
  - intros t c t' Ht H. rewrite p_compound_S in H. cbv zeta in H. destruct (tk_type t) eqn:Ety; try discriminate H.
    + (* subshell *) bnd H. injection H as <- <-. apply IHl in E0; [|eapply T_nt; eauto]. destruct E0. apply redirs_sound in E2; [|eapply expect_sound; eauto]. destruct E2.
      split; [apply subshell_good; auto|]. split; [exact I|auto].
    + (* if *) bnd H. injection H as <- <-. apply IHi in E0; [|eapply T_nt; eauto]. destruct E0 as ([Gx Gg] & Gn & Ht0). apply redirs_sound in E1; auto. destruct E1. split; [|split; [exact I|auto]].
      eapply G_cmd_intro; [exact Gx|intros x Hx; exact Hx|intros q Hq; exact Hq| |exact I]. intros (O1 & O2). split; [apply Gg; exact O1|]. split; auto. apply redirs_good; auto.
    + (* case *) bnd1 H. destruct (tk_word a) as [w|] eqn:Ew; [|discriminate]. pose proof (T_word _ _ (T_nt _ _ E) Ew) as Hw. bnd H. injection H as <- <-.
      apply IHca in E3; [|eapply expect_sound; eauto]. destruct E3 as ([Gx Gg] & Ht0). apply redirs_sound in E5; [|eapply expect_sound; eauto]. destruct E5. split; [|split; [exact I|auto]].
      eapply G_cmd_intro; [exact Gx|intros x Hx; exact Hx|intros q Hq; exact Hq| |exact I]. intros (O1 & O2 & O3). split; [apply word_good; auto|]. split; [apply Gg; exact O2|apply redirs_good; auto].
    + (* while *) bnd H. injection H as <- <-. apply IHl in E0; [|eapply T_nt; eauto]. destruct E0 as ([[A1 A2] A3] & _). apply IHl in E2; [|eapply expect_sound; eauto]. destruct E2 as ([[B1 B2] B3] & _).
      apply redirs_sound in E4; [|eapply expect_sound; eauto]. destruct E4. split; [|split; [exact I|auto]].
      eapply G_cmd_intro; [exact (gx_or _ _ _ _ (conj A1 A2) (conj B1 B2))|intros x Hx; exact Hx|intros q Hq; exact Hq| |exact I]. intros (O1 & O2 & O3).
      split; [apply A3; exact O1|]. split; [apply B3; exact O2|apply redirs_good; auto].
    + (* until *) bnd H. injection H as <- <-. apply IHl in E0; [|eapply T_nt; eauto]. destruct E0 as ([[A1 A2] A3] & _). apply IHl in E2; [|eapply expect_sound; eauto]. destruct E2 as ([[B1 B2] B3] & _).
      apply redirs_sound in E4; [|eapply expect_sound; eauto]. destruct E4. split; [|split; [exact I|auto]].
      eapply G_cmd_intro; [exact (gx_or _ _ _ _ (conj A1 A2) (conj B1 B2))|intros x Hx; exact Hx|intros q Hq; exact Hq| |exact I]. intros (O1 & O2 & O3).
      split; [apply A3; exact O1|]. split; [apply B3; exact O2|apply redirs_good; auto].
    + (* for *) bnd1 H. destruct (tk_word a) as [[|[name|] [|]]|] eqn:Ew; try discriminate. pose proof (T_word _ _ (T_nt _ _ E) Ew) as Hw. destruct (is_name name) eqn:En; [|discriminate].
      bnd H. injection H as <- <-. apply for_words_sound in E1; [|eapply T_nt; eauto]. destruct E1 as [Hws _]. apply IHl in E4; [|eapply expect_sound; eauto]. destruct E4 as ([Gx Gg] & _).
      apply redirs_sound in E6; [|eapply expect_sound; eauto]. destruct E6. split; [|split; [exact I|auto]].
      eapply G_cmd_intro; [exact Gx|intros x Hx; exact Hx|intros q Hq; exact Hq| |exact I]. intros (O1 & O2 & O3). split; [split; auto|].
      * apply calm_word; auto; apply name_calms; auto.
      * split; [destruct o; auto; apply words_good; auto|]. split; [apply Gg; exact O2|apply redirs_good; auto].
    + (* group *) bnd H. injection H as <- <-. apply IHl in E0; [|eapply T_nt; eauto]. destruct E0. apply redirs_sound in E2; [|eapply expect_sound; eauto]. destruct E2.
      split; [apply group_good; auto|]. split; [exact I|auto].
    + (* function *) bnd1 H. destruct (tk_word a) as [w|] eqn:Ew; [|discriminate]. pose proof (T_word _ _ (T_nt _ _ E) Ew) as Hw. bnd H. destruct o as [body|]; [|discriminate]. injection H as <- <-.
      apply func_paren_sound in E1; [|eapply T_nt; eauto]. apply newlines_sound in E2; auto. apply IHk in E3; auto. destruct E3 as (? & ? & ?). split; [apply func_good; auto|]. split; [exact I|auto].
    + (* double bracket *) bnd H. apply (proj1 (db_sound n)) in E0; [|eapply T_nt; eauto]. destruct E0 as [Gd Ht0]. destruct (is_close t0); [|discriminate]. bnd H. injection H as <- <-.
      apply redirs_sound in E1; [|eapply T_nt; eauto]. destruct E1. split; [|split; [exact I|auto]].
      eapply G_cmd_intro; [apply gx_false|intros x Hx; exact Hx|intros q Hq; exact Hq| |exact I]. intros (O1 & O2). split; [apply Gd; exact O1|apply redirs_good; auto].
  - intros e t l t' Ht H. rewrite p_if_S in H. bnd1 H. destruct a as [cond t2].
    assert (Hc : G_aos cond /\ T t2).
    { destruct e; [injection E as <- <-; split; [apply aos_nil|auto]|]. bnd E. injection E as <- <-. apply IHl in E0; auto. split; [tauto|eapply expect_sound; eauto]. }
    destruct Hc as [[[A1 A2] A3] Ht2]. clear E. bnd1 H. destruct a as [body t3]. apply IHl in E; auto. destruct E as [[[B1 B2] B3] Ht3].
    assert (Hcons : forall r, G_ifcs r -> G_ifcs (ICons cond body r)).
    { intros r [[R1 R2] R3]. split; [split|].
      - intros x [Hx|[Hx|Hx]]; auto.
      - intros q [Hq|[Hq|Hq]]; auto.
      - intros (O1 & O2 & O3). split; [apply A3; exact O1|]. split; [apply B3; exact O2|apply R3; exact O3]. }
    assert (Hnil : G_ifcs INil) by (split; [apply gx_false|intros _; exact I]).
    destruct (negb e && is t3 TT_ELSE); [|destruct (negb e && is t3 TT_ELIF)]; bnd H; injection H as <- <-.
    + apply IHi in E0; [|eapply T_nt; eauto]. destruct E0 as (? & _ & ?). split; [auto|]. split; [discriminate|auto].
    + apply IHi in E0; [|eapply T_nt; eauto]. destruct E0 as (? & _ & ?). split; [auto|]. split; [discriminate|auto].
    + split; [auto|]. split; [discriminate|eapply expect_sound; eauto].
  - intros t l t' Ht H. rewrite p_cases_S in H. bnd H. apply newlines_sound in E; auto. destruct (is t0 TT_ESAC).
    + injection H as <- <-. split; auto. split; [apply gx_false|intros _; exact I].
    + bnd1 H. assert (Ha : T a) by (destruct (is t0 TT_LPAREN); [eapply T_nt; eauto|injection E0 as <-; auto]). bnd H.
      apply patterns_sound in E1; auto. destruct E1 as (Pn & Pw & Ht1). apply IHl in E2; auto. destruct E2 as [[[B1 B2] B3] Ht2].
      assert (Hcons : forall r, G_cis r -> G_cis (CICons l0 a0 r)).
      { intros r [[R1 R2] R3]. split; [split|].
        - intros x [Hx|Hx]; auto.
        - intros q [Hq|Hq]; auto.
        - intros (O1 & O2 & O3). split; [auto|]. split; [apply words_good; auto|]. split; [apply B3; exact O2|apply R3; exact O3]. }
      destruct (is t2 TT_DOUBLE_SEMICOLON).
      * bnd H. injection H as <- <-. apply IHca in E2; [|eapply T_nt; eauto]. destruct E2. auto.
      * injection H as <- <-. split; auto. apply Hcons. split; [apply gx_false|intros _; exact I].
Qed.

Theorem line_sound : forall n need t l r, T t -> p_line L X sp_parse n need t = POk (l, r) -> G_aos l.
Proof.
  induction n as [|n IH]; intros need t l r Ht H; cbn [p_line] in H; [discriminate|]. destruct (is t TT_NEWLINE || is t TT_END_OF_INPUT); [injection H as <- <-; apply aos_nil|].
  destruct need; [discriminate|]. bnd H. apply (proj1 (proj2 (sound n))) in E; auto. destruct E as (H1 & H2 & H3 & H4). destruct (is t0 TT_AMP || is t0 TT_SEMICOLON); bnd H; injection H as <- <-; apply aos_cons; auto.
  - eapply IH; [|eassumption]. eapply T_nt; eauto.
  - eapply IH; [|eassumption]. auto.
Qed.
End Sound.
