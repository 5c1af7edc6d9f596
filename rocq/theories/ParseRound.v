(** Reading back the text of a command. *)
From Coq Require Import Ascii String.
From Coq Require Import List NArith ZArith Bool Arith Lia.
From Coq Require Import ZifyBool ZifyN.
From Verif Require Import Common Locale NumModel NumProofs ParseModel ParseSpec ParseLex ParseText.
From Verif Require TestModel.
Import ListNotations.
Local Open Scope N_scope.
Local Open Scope pres_scope.

Definition evt (P : nat -> Prop) : Prop := exists n, forall m, (n <= m)%nat -> P m.
Lemma evt_all : forall P : nat -> Prop, (forall m, P m) -> evt P.
Proof. intros P H. exists O. auto. Qed.
Lemma evt_and : forall P Q : nat -> Prop, evt P -> evt Q -> evt (fun m => P m /\ Q m).
Proof. intros P Q [n H] [n' H']. exists (Nat.max n n'). intros m Hm. split; [apply H|apply H']; lia. Qed.
Lemma evt_S : forall P Q : nat -> Prop, evt P -> (forall m, P m -> Q (S m)) -> evt Q.
Proof. intros P Q [n H] H'. exists (S n). intros [|m] Hm; [lia|]. apply H', H. lia. Qed.
Lemma evt_S0 : forall Q : nat -> Prop, (forall m, Q (S m)) -> evt Q.
Proof. intros Q H. exists 1%nat. intros [|m] Hm; [lia|]. apply H. Qed.
Lemma evt_impl : forall P Q : nat -> Prop, evt P -> (forall m, P m -> Q m) -> evt Q.
Proof. intros P Q [n H] H'. exists n. auto. Qed.

Lemma tt_eqb_eq : forall a b, tt_eqb a b = true <-> a = b.
Proof. intros a b. unfold tt_eqb. destruct (_ : {a = b} + {a <> b}); split; congruence. Qed.
Lemma tt_eqb_refl : forall a, tt_eqb a a = true.
Proof. intros a. apply tt_eqb_eq. auto. Qed.
Lemma tt_eqb_neq : forall a b, a <> b -> tt_eqb a b = false.
Proof. intros a b H. destruct (tt_eqb a b) eqn:E; auto. apply tt_eqb_eq in E. congruence. Qed.

Section Round.
Variable L : locale.
Hypothesis Lok : locale_ok L.
Variable X : Type.
Variable sp_parse : bool -> list N -> spres X.
Variable sp_print : X -> list N.
Hypothesis EX : expansions_ok L X sp_print sp_parse.
Notation word := (word X).
Notation redir := (redir X).
Notation assign := (assign X).
Notation dbexp := (dbexp X).
Notation cmd := (cmd X).
Notation cmds := (cmds X).
Notation pls := (pls X).
Notation aos := (aos X).
Notation ifcs := (ifcs X).
Notation cis := (cis X).
Notation tok := (tok X).
Notation tk_type := (tk_type X).
Notation tk_word := (tk_word X).
Notation tk_rest := (tk_rest X).
Notation mkTok := (mkTok X).
Notation is t k := (tt_eqb (tk_type t) k).
Notation is_name := (is_name L).
Notation is_name_word := (is_name_word L X).
Notation single_string := (single_string X).
Notation identify_reserved_word := (identify_reserved_word X).
Notation is_delim := (is_delim L).
Notation print_word := (print_word X sp_print).
Notation next_token := (next_token L X sp_parse).
Notation nt := (nt L X sp_parse).
Notation p_newlines := (p_newlines L X sp_parse).
Notation p_words := (p_words L X sp_parse).
Notation p_redir := (p_redir L X sp_parse).
Notation p_redirs := (p_redirs L X sp_parse).
Notation p_assign := (p_assign L X sp_parse).
Notation p_simple := (p_simple L X sp_parse).
Notation p_patterns := (p_patterns L X sp_parse).
Notation is_close := (is_close X).
Notation p_operand := (p_operand L X sp_parse).
Notation p_primary := (p_primary L X sp_parse).
Notation p_ors := (p_ors L X sp_parse).
Notation p_ands := (p_ands L X sp_parse).
Notation p_nots := (p_nots L X sp_parse).
Notation expect := (expect L X sp_parse).
Notation p_for_words := (p_for_words L X sp_parse).
Notation p_func_paren := (p_func_paren L X sp_parse).
Notation p_list := (p_list L X sp_parse).
Notation p_pipelines := (p_pipelines L X sp_parse).
Notation p_commands := (p_commands L X sp_parse).
Notation p_command := (p_command L X sp_parse).
Notation p_compound := (p_compound L X sp_parse).
Notation p_if := (p_if L X sp_parse).
Notation p_cases := (p_cases L X sp_parse).

(** Unfolding *)
Lemma p_ors_S : forall (n : nat) (t : tok),
  p_ors (S n) t =
      let! (l, t1) := p_ands n t in
      if is t1 TT_PIPEPIPE then
        let! t2 := nt t1 in let! (r, t3) := p_ors n t2 in POk (DOr l r, t3)
      else POk (l, t1).
Proof. reflexivity. Qed.
Lemma p_ands_S : forall (n : nat) (t : tok),
  p_ands (S n) t =
      let! (l, t1) := p_nots n t in
      if is t1 TT_AMPAMP then
        let! t2 := nt t1 in let! (r, t3) := p_ands n t2 in POk (DAnd l r, t3)
      else POk (l, t1).
Proof. reflexivity. Qed.
Lemma p_nots_S : forall (n : nat) (t : tok),
  p_nots (S n) t =
      if is t TT_BANG then
        let! t1 := nt t in let! (e, t2) := p_nots n t1 in POk (DNot e, t2)
      else if is t TT_LPAREN then
        let! t1 := nt t in
        let! (e, t2) := p_ors n t1 in
        if is t2 TT_RPAREN then let! t3 := nt t2 in POk (e, t3) else PErr
      else p_primary t.
Proof. reflexivity. Qed.
Lemma p_list_S : forall (n : nat) (need : bool) (t : tok),
  p_list (S n) need t =
      let! (nl, t1) := p_newlines n t in
      if (negb nl && need) || is t1 TT_END_OF_INPUT || is_closing_tokentype (tk_type t1)
      then POk (ANil, t1)
      else
        let! (p, t2) := p_pipelines n false t1 in
        if is t2 TT_AMP || is t2 TT_SEMICOLON then
          let! t3 := nt t2 in
          let! (l, t4) := p_list n false t3 in
          POk (ACons p (is t2 TT_AMP) l, t4)
        else
          let! (l, t4) := p_list n true t2 in
          POk (ACons p false l, t4).
Proof. reflexivity. Qed.
Lemma p_pipelines_S : forall (n : nat) (cond : bool) (t : tok),
  p_pipelines (S n) cond t =
      let neg := is t TT_BANG in
      let! t0 := (if neg then nt t else POk t) in
      let! (cs, t1) := p_commands n t0 in
      if is t1 TT_AMPAMP || is t1 TT_PIPEPIPE then
        let! t2 := nt t1 in
        let! (_, t3) := p_newlines n t2 in
        let! (p, t4) := p_pipelines n (is t1 TT_AMPAMP) t3 in
        POk (PCons cs neg cond p, t4)
      else POk (PCons cs neg cond PNil, t1).
Proof. reflexivity. Qed.
Lemma p_commands_S : forall (n : nat) (t : tok),
  p_commands (S n) t =
      let! (c, t1) := p_command n t in
      if is t1 TT_PIPE then
        let! t2 := nt t1 in
        let! (_, t3) := p_newlines n t2 in
        let! (cs, t4) := p_commands n t3 in
        POk (CCons c cs, t4)
      else POk (CCons c CNil, t1).
Proof. reflexivity. Qed.
Lemma p_command_S : forall (n : nat) (t : tok),
  p_command (S n) t =
      if is t TT_BANG || is t TT_IN || is_closing_tokentype (tk_type t) then PErr
      else
        let! (o, t1) := p_compound n t in
        match o with
        | Some c => POk (c, t1)
        | None =>
            let! (a, w, r, t2) := p_simple n true t in
            match a, w, r with
            | [], [], [] => PErr
            | _, _, _ =>
                if is t2 TT_LPAREN then
                  match a, w, r with
                  | [], [name], [] =>
                      if is_name_word name then
                        let! t3 := nt t2 in
                        let! t4 := expect TT_RPAREN t3 in
                        let! (_, t5) := p_newlines n t4 in
                        let! (o, t6) := p_compound n t5 in
                        match o with
                        | Some body => POk (CFunc name body, t6)
                        | None => PErr
                        end
                      else PErr
                  | _, _, _ => PErr
                  end
                else POk (CSimple a w r, t2)
            end
        end.
Proof. reflexivity. Qed.
Lemma p_compound_S : forall (n : nat) (t : tok),
  p_compound (S n) t =
      let finish (k : list redir -> cmd) (t : tok) :=
        let! (r, t') := p_redirs n t in POk (Some (k r), t') in
      match tk_type t with
      | TT_LPAREN =>
          let! t1 := nt t in
          let! (l, t2) := p_list n false t1 in
          let! t3 := expect TT_RPAREN t2 in
          finish (CSubshell l) t3
      | TT_LBRACE =>
          let! t1 := nt t in
          let! (l, t2) := p_list n false t1 in
          let! t3 := expect TT_RBRACE t2 in
          finish (CGroup l) t3
      | TT_IF =>
          let! t1 := nt t in
          let! (l, t2) := p_if n false t1 in
          finish (CIf l) t2
      | TT_FOR =>
          let! t1 := nt t in
          match tk_word t1 with
          | Some [UStr name] =>
              if is_name name then
                let! t2 := nt t1 in
                let! (ws, t3) := p_for_words n t2 in
                let! (_, t4) := p_newlines n t3 in
                let! t5 := expect TT_DO t4 in
                let! (l, t6) := p_list n false t5 in
                let! t7 := expect TT_DONE t6 in
                finish (CFor name ws l) t7
              else PErr
          | _ => PErr
          end
      | TT_FUNCTION =>
          let! t1 := nt t in
          match tk_word t1 with
          | Some name =>
              let! t2 := nt t1 in
              let! t3 := p_func_paren t2 in
              let! (_, t4) := p_newlines n t3 in
              let! (o, t5) := p_compound n t4 in
              match o with
              | Some body => POk (Some (CFunc name body), t5)
              | None => PErr
              end
          | None => PErr
          end
      | TT_WHILE | TT_UNTIL =>
          let! t1 := nt t in
          let! (cond, t2) := p_list n false t1 in
          let! t3 := expect TT_DO t2 in
          let! (body, t4) := p_list n false t3 in
          let! t5 := expect TT_DONE t4 in
          finish (CWhile (is t TT_WHILE) cond body) t5
      | TT_CASE =>
          let! t1 := nt t in
          match tk_word t1 with
          | Some w =>
              let! t2 := nt t1 in
              let! (_, t3) := p_newlines n t2 in
              let! t4 := expect TT_IN t3 in
              let! (l, t5) := p_cases n t4 in
              let! t6 := expect TT_ESAC t5 in
              finish (CCase w l) t6
          | None => PErr
          end
      | TT_DOUBLE_LBRACKET =>
          let! t1 := nt t in
          let! (e, t2) := p_ors n t1 in
          if is_close t2 then let! t3 := nt t2 in finish (CBracket e) t3 else PErr
      | _ => POk (None, t)
      end.
Proof. reflexivity. Qed.
Lemma p_if_S : forall (n : nat) (after_else : bool) (t : tok),
  p_if (S n) after_else t =
      let! (cond, t2) :=
        (if after_else then POk (ANil, t)
         else let! (c, t1) := p_list n false t in
              let! t2 := expect TT_THEN t1 in POk (c, t2)) in
      let! (body, t3) := p_list n false t2 in
      if negb after_else && is t3 TT_ELSE then
        let! t4 := nt t3 in let! (l, t5) := p_if n true t4 in POk (ICons cond body l, t5)
      else if negb after_else && is t3 TT_ELIF then
        let! t4 := nt t3 in let! (l, t5) := p_if n false t4 in POk (ICons cond body l, t5)
      else
        let! t4 := expect TT_FI t3 in POk (ICons cond body INil, t4).
Proof. reflexivity. Qed.
Lemma p_cases_S : forall (n : nat) (t : tok),
  p_cases (S n) t =
      let! (_, t1) := p_newlines n t in
      if is t1 TT_ESAC then POk (CINil, t1)
      else
        let! t2 := (if is t1 TT_LPAREN then nt t1 else POk t1) in
        let! (pats, t3) := p_patterns n t2 in
        let! (body, t4) := p_list n false t3 in
        if is t4 TT_DOUBLE_SEMICOLON then
          let! t5 := nt t4 in let! (l, t6) := p_cases n t5 in POk (CICons pats body l, t6)
        else POk (CICons pats body CINil, t4).
Proof. reflexivity. Qed.

Ltac teq := repeat match goal with |- context [tt_eqb ?a ?b] =>
  let v := eval vm_compute in (tt_eqb a b) in
  match v with true => idtac | false => idtac end; change (tt_eqb a b) with v end.

(** ** Tokens *)
Notation lexable := (lexable L X sp_parse sp_print).
Notation gword := (gword L X sp_parse sp_print).

(** What comes after a command *)
Definition dstop (r : list N) : Prop := match r with [] => True | c :: _ => In c (32 :: 10 :: str ";&|)") end.
Lemma dstop_delim : forall c, In c (32 :: 10 :: str ";&|)") -> is_delim c = true /\ c <> ch "(" /\ c <> ch "<" /\ c <> ch ">".
Proof.
  intros c H. rewrite (delim_ascii L Lok) by (cbn in H; lia). cbn in H.
  repeat destruct H as [H|H]; [subst c..|destruct H]; repeat split; discriminate.
Qed.
Lemma dstop_dstart : forall r, dstop r -> dstart L r.
Proof. intros [|c r] H; [exact I|]. apply dstop_delim. exact H. Qed.
Lemma dstop_lpar : forall r, dstop r -> ~ lpar r.
Proof. intros [|c r] H; [tauto|]. apply dstop_delim in H. cbn [lpar]. tauto. Qed.
Lemma word_type_dstop : forall w r, dstop r -> word_type X w r = identify_reserved_word w.
Proof.
  intros w [|c r] H; unfold word_type; [reflexivity|]. apply dstop_delim in H.
  destruct (c =? ch "<") eqn:E1; [apply N.eqb_eq in E1; tauto|]. destruct (c =? ch ">") eqn:E2; [apply N.eqb_eq in E2; tauto|]. reflexivity.
Qed.
Lemma tok_lex : forall w r, lexable w -> dstop r ->
  next_token (print_word w ++ r) = POk (mkTok (identify_reserved_word w) (Some w) r).
Proof.
  intros w r H Hr. rewrite (next_token_back L Lok X sp_parse sp_print EX) by (auto using dstop_dstart; intros; exfalso; eapply dstop_lpar; eauto).
  rewrite word_type_dstop by auto. reflexivity.
Qed.
Lemma tok_word : forall w r, gword w -> dstop r ->
  next_token (print_word w ++ r) = POk (mkTok (identify_reserved_word w) (Some w) r).
Proof. intros w r [H _]. apply tok_lex. auto. Qed.

Definition plainc (c : N) : bool :=
  (c <? 128) && negb (existsb (N.eqb c) (0 :: 9 :: 10 :: 32 :: 34 :: str ";&|<>()\$`'#")).
Lemma plainc_ok : forall c, plainc c = true -> plain L false c /\ is_delim c = false /\ c <> ch "#" /\ c <> ch "\".
Proof.
  intros c H. unfold plainc in H. apply andb_true_iff in H. destruct H as [H1 H2]. apply negb_true_iff in H2.
  assert (D : is_delim c = false).
  { rewrite (delim_ascii L Lok) by lia. cbn [existsb str map] in *. unfold str in *. cbn [list_ascii_of_string map existsb] in *. lia. }
  unfold plain. rewrite D. cbn [negb andb].
  unfold str in H2; cbn [list_ascii_of_string map existsb] in H2.
  repeat split; auto; try (left); intros ->; vm_compute in H2; discriminate H2.
Qed.
Lemma lex_plain : forall s, s <> [] -> forallb plainc s = true -> lexable [UStr s].
Proof.
  assert (G : forall s acc, acc ++ s <> [] -> forallb plainc s = true -> pw L X sp_parse sp_print false acc s [UStr (acc ++ s)]).
  { induction s as [|c s IH]; intros acc Hn H.
    - rewrite app_nil_r in *. replace [UStr acc] with (flush X acc []) by (destruct acc; [congruence|reflexivity]). apply pw_end.
    - cbn [forallb] in H. apply andb_true_iff in H. destruct H as [H1 H2]. apply pw_plain; [apply plainc_ok; auto|].
      change (c :: s) with ([c] ++ s). rewrite app_assoc. apply IH; auto. destruct acc; discriminate. }
  intros s Hn H. split.
  - cbn [ParseModel.print_word]. rewrite app_nil_r. apply (G s []); auto.
  - cbn [ParseModel.print_word]. rewrite app_nil_r. destruct s as [|c s]; [congruence|]. cbn [forallb] in H.
    apply andb_true_iff in H. destruct H as [H1 H2]. destruct (plainc_ok _ H1) as (A & B & C & D). split; auto. split; auto.
    destruct s; auto.
Qed.
Lemma tok_plain : forall s r, s <> [] -> forallb plainc s = true -> dstop r ->
  next_token (s ++ r) = POk (mkTok (identify_reserved_word_string s) (Some [UStr s]) r).
Proof.
  intros s r Hn H Hr. rewrite <- (app_nil_r s) at 1.
  change (s ++ []) with (print_word [UStr s]). rewrite tok_lex; auto. apply lex_plain; auto.
Qed.
Lemma tok_char : forall c r ty, operator (c :: r) = Some (ty, r) -> In c (10 :: str ";&|()<>") ->
  next_token (c :: r) = POk (mkTok ty None r).
Proof.
  intros c r ty H Hc. apply next_token_op; auto.
  - rewrite (blank_ascii L Lok) by (cbn in Hc; lia). cbn in Hc. repeat destruct Hc as [Hc|Hc]; [subst c; reflexivity..|destruct Hc].
  - intros ->. cbn in Hc. lia.
  - intros ->. cbn in Hc. lia.
Qed.

Definition fol (t : tok) : Prop :=
  tk_word t = None /\ default_fd (tk_type t) = None /\ tk_type t <> TT_IO_NUMBER /\ tk_type t <> TT_LPAREN.

Lemma identify_in : forall s, identify_reserved_word_string s = TT_WORD \/ In (s, identify_reserved_word_string s) keywords.
Proof.
  intros s. unfold identify_reserved_word_string. destruct (find _ keywords) as [[k t]|] eqn:E; [|auto].
  apply find_some in E. destruct E as [E1 E2]. cbn [fst] in E2. apply list_N_eqb_eq in E2. subst k. auto.
Qed.
Lemma identify_types : forall w, In (identify_reserved_word w) (TT_WORD :: map snd keywords).
Proof.
  intros w. unfold ParseModel.identify_reserved_word. destruct (single_string w) as [s|]; [|left; auto].
  destruct (identify_in s) as [->|H]; [left; auto|]. right. apply (in_map snd) in H. exact H.
Qed.
Lemma keyword_tok : forall w, default_fd (identify_reserved_word w) = None /\ identify_reserved_word w <> TT_IO_NUMBER /\
  identify_reserved_word w <> TT_NEWLINE /\ identify_reserved_word w <> TT_LPAREN /\ identify_reserved_word w <> TT_SEMICOLON /\
  identify_reserved_word w <> TT_LESS /\ identify_reserved_word w <> TT_GREATER /\ identify_reserved_word w <> TT_AMPAMP /\
  identify_reserved_word w <> TT_PIPEPIPE /\ identify_reserved_word w <> TT_PIPE /\ identify_reserved_word w <> TT_RPAREN.
Proof.
  intros w. pose proof (identify_types w) as H. cbn in H. repeat destruct H as [H|H]; [rewrite <- H..|destruct H];
    repeat split; discriminate.
Qed.

Ltac optac := unfold operator; rewrite ?lc_other by discriminate; reflexivity.
Lemma wstart_lc : forall s, wstart L s -> lc s = s.
Proof.
  intros [|c [|d s]] H; auto. destruct H as (_ & _ & H). cbn [lc]. destruct ((c =? ch "\") && (d =? 10)) eqn:E; auto. lia.
Qed.
Lemma wstart_app : forall w r, lexable w -> dstart L r -> wstart L (print_word w ++ r).
Proof.
  intros w r [H1 H2] Hr. destruct (print_word w) as [|c [|d t]] eqn:E; [destruct H2| |exact H2].
  destruct H2 as (A & B & _). cbn [app]. split; auto. split; auto. destruct r as [|d r]; auto.
  destruct (pw_head L X sp_parse sp_print EX _ _ _ _ H1 c [] eq_refl) as [H|(d' & t'' & H & _)]; [auto|discriminate].
Qed.

(** ** Redirections *)
Notation gredir := (gredir L X sp_parse sp_print).
Notation r_text := (r_text X sp_print).

Lemma digits_of : forall z, (0 <= z <= INT_MAX)%Z -> exists c s, dec_of_Z z = c :: s /\ forallb iswdigit (c :: s) = true /\ fd_of (c :: s) = z.
Proof.
  intros z H. unfold dec_of_Z. destruct (z <? 0)%Z eqn:E; [lia|]. destruct (dec_of_N_ok (Z.to_N z)) as (c & w & E1 & _ & Hn).
  exists c, w. split; auto. rewrite Z2N.id in Hn by lia. apply numeral_iff in Hn; [|lia]. destruct Hn as (H1 & H2 & H3).
  split.
  - assert (G : forall s, all_digits 10 s -> forallb iswdigit s = true).
    { induction s as [|d s IH]; cbn [forallb]; [auto|]. intros [Hd Hs]. rewrite IH by auto. rewrite andb_true_r.
      revert Hd. clear. unfold digitval, iswdigit. repeat match goal with |- context [if ?b then _ else _] => destruct b eqn:? end; lia. }
    apply G. auto.
  - unfold fd_of. destruct (scan_all 10 (c :: w) 0 false z) as [_ H4]. rewrite H4 by auto. destruct (z >? INT_MAX)%Z eqn:E2; [lia|auto].
Qed.
Lemma digit_plain : forall s, forallb iswdigit s = true -> forallb plainc s = true.
Proof.
  intros s H. rewrite forallb_forall in *. intros c Hc. apply H in Hc.
  assert (E : forallb (fun c => negb (iswdigit c) || plainc c) (map N.of_nat (seq 0 128)) = true) by (vm_compute; reflexivity).
  rewrite forallb_forall in E. assert (Hl : c < 128) by (unfold iswdigit in Hc; lia).
  specialize (E c). rewrite Hc in E. cbn [negb orb] in E. apply E. apply in_map_iff. exists (N.to_nat c). split; [lia|]. apply in_seq. lia.
Qed.

Definition rd_tok (t : rdtype) : tt :=
  match t with
  | RT_INPUT => TT_LESS | RT_OUTPUT => TT_GREATER | RT_CLOBBER => TT_GREATERPIPE | RT_APPEND => TT_GREATERGREATER
  | RT_INOUT => TT_LESSGREATER | RT_DUPIN => TT_LESSAMP | RT_DUPOUT => TT_GREATERAMP | RT_PIPE => TT_GREATERGREATERPIPE
  | RT_HERESTR => TT_LESSLESSLESS
  end.
Lemma rd_op : forall ty s, wstart L s -> operator (rd_text ty ++ s) = Some (rd_tok ty, s) /\ redir_type (rd_tok ty) = POk ty.
Proof.
  intros ty s H. assert (Hl := wstart_lc s H). destruct s as [|c s]; [destruct H|]. destruct H as (D & _).
  assert (A : c <> ch ">" /\ c <> ch "<" /\ c <> ch "&" /\ c <> ch "|" /\ c <> ch "(").
  { repeat split; intros ->; rewrite (delim_ascii L Lok) in D by reflexivity; vm_compute in D; discriminate D. }
  destruct A as (A1 & A2 & A3 & A4 & A5).
  apply N.eqb_neq in A1, A2, A3, A4, A5.
  destruct ty; (split; [|reflexivity]); cbn [rd_text rd_tok];
    match goal with |- operator (str ?x ++ _) = _ => let v := eval vm_compute in (str x) in change (str x) with v end;
    unfold operator; cbn [app];
    repeat match goal with |- context [N.eqb ?a ?b] =>
      let v := eval vm_compute in (N.eqb a b) in
      match v with true => idtac | false => idtac end; change (N.eqb a b) with v end; cbv iota;
    repeat (rewrite Hl || rewrite lc_other by discriminate); cbv iota; rewrite ?A1, ?A2, ?A3, ?A4, ?A5; cbv iota;
    repeat match goal with |- context [N.eqb ?a ?b] =>
      let v := eval vm_compute in (N.eqb a b) in
      match v with true => idtac | false => idtac end; change (N.eqb a b) with v end; cbv iota;
    repeat (rewrite Hl || rewrite lc_other by discriminate); cbv iota; rewrite ?A1, ?A2, ?A3, ?A4, ?A5; try reflexivity.
Qed.

Lemma rd_text_head : forall ty, exists c s, rd_text ty = c :: s /\ (c = ch "<" \/ c = ch ">").
Proof. intros []; eexists _, _; (split; [reflexivity|]); cbn; auto. Qed.
Lemma redir_back : forall x r t1, gredir x -> dstop r -> next_token r = POk t1 ->
  exists t0, next_token (r_text x ++ r) = POk t0 /\ tk_type t0 = TT_IO_NUMBER /\ p_redir t0 = POk (Some (x, t1)).
Proof.
  intros [fd ty w] r t1 [Hfd [Hw _]] Hr Ht. cbn [rd_fd rd_file] in *. unfold ParseText.r_text. cbn [rd_fd rd_file rd_type].
  destruct (digits_of fd Hfd) as (c & s & Ed & Hd & Ef). rewrite Ed.
  set (r1 := rd_text ty ++ print_word w ++ r).
  assert (Hr1 : dstart L r1 /\ ~ lpar r1 /\ match r1 with c :: _ => (c =? ch "<") || (c =? ch ">") | [] => false end = true).
  { subst r1. destruct (rd_text_head ty) as (c' & s' & -> & Hc). cbn [app dstart lpar].
    destruct Hc; subst c'; (rewrite (delim_ascii L Lok) by reflexivity); repeat split; try discriminate. }
  destruct Hr1 as (H1 & H2 & H3).
  replace (((c :: s) ++ rd_text ty ++ print_word w) ++ r) with (print_word [UStr (c :: s)] ++ r1)
    by (subst r1; cbn [ParseModel.print_word]; rewrite app_nil_r, <- !app_assoc; reflexivity).
  rewrite (next_token_back L Lok X sp_parse sp_print EX); [|apply lex_plain; [discriminate|apply digit_plain; auto]|auto|tauto].
  eexists. split; [reflexivity|].
  assert (E : word_type X [UStr (c :: s)] r1 = TT_IO_NUMBER).
  { unfold word_type. rewrite H3. unfold is_digits_only. cbn [ParseModel.single_string]. rewrite Hd. reflexivity. }
  rewrite E. split; [reflexivity|]. unfold ParseModel.p_redir. cbn [ParseModel.tk_type ParseModel.tk_word]. teq. cbv iota.
  cbn [ParseModel.single_string]. rewrite Ef. unfold ParseModel.nt at 1. cbn [ParseModel.tk_rest].
  assert (Hs : wstart L (print_word w ++ r)) by (apply wstart_app; auto using dstop_dstart).
  destruct (rd_op ty _ Hs) as [E1 E2].
  assert (E3 : next_token r1 = POk (mkTok (rd_tok ty) None (print_word w ++ r))).
  { subst r1. destruct (rd_text_head ty) as (c' & s' & Ec & Hc). rewrite Ec in *. cbn [app] in *. apply next_token_op; auto.
    - rewrite (blank_ascii L Lok); destruct Hc; subst c'; reflexivity.
    - destruct Hc; subst c'; discriminate.
    - destruct Hc; subst c'; discriminate. }
  rewrite E3. cbn [pbind ParseModel.tk_type ParseModel.tk_rest]. rewrite E2. cbn [pbind]. unfold ParseModel.nt. cbn [ParseModel.tk_rest].
  rewrite tok_lex by auto. cbn [pbind ParseModel.tk_word ParseModel.tk_rest]. rewrite Ht. reflexivity.
Qed.
Lemma p_redir_none : forall t, default_fd (tk_type t) = None -> tk_type t <> TT_IO_NUMBER -> p_redir t = POk None.
Proof.
  intros t H H'. unfold ParseModel.p_redir. rewrite tt_eqb_neq by auto. rewrite H. reflexivity.
Qed.
Lemma sp_next : forall s, next_token (32 :: s) = next_token s.
Proof. apply next_token_space. auto. Qed.
Lemma dstop_space : forall s, dstop (32 :: s).
Proof. intros s. left. reflexivity. Qed.
Lemma spaced_dstop : forall l r, dstop r -> dstop (spaced l ++ r).
Proof. intros [|x l] r H; auto. apply dstop_space. Qed.

Lemma redirs_back : forall rs r t1, Forall gredir rs -> dstop r -> next_token r = POk t1 -> fol t1 ->
  exists t0, next_token (rt X sp_print rs ++ r) = POk t0 /\ evt (fun m => p_redirs m t0 = POk (rs, t1)).
Proof.
  unfold rt. induction rs as [|x rs IH]; intros r t1 H Hr Ht Hf.
  - exists t1. split; auto. apply evt_S0. intros m. cbn [ParseModel.p_redirs]. destruct Hf as (_ & H1 & H2 & _).
    rewrite p_redir_none by auto. reflexivity.
  - inversion H as [|? ? H1 H2]; subst. destruct (IH r t1 H2 Hr Ht Hf) as (t' & E' & He).
    cbn [map spaced flat_map]. fold (spaced (map r_text rs)). rewrite <- app_assoc.
    destruct (redir_back x (spaced (map r_text rs) ++ r) t' H1) as (t0 & E0 & _ & Ep); auto using spaced_dstop.
    exists t0. split; [cbn [app]; rewrite sp_next; auto|]. eapply evt_S; [exact He|]. cbn beta. intros m Hm.
    cbn [ParseModel.p_redirs]. rewrite Ep. cbn [pbind]. rewrite Hm. reflexivity.
Qed.

(** ** Words *)
Lemma words_back : forall ws nlf r t1, Forall gword ws -> dstop r -> next_token r = POk t1 -> tk_word t1 = None -> (nlf = true -> tk_type t1 <> TT_NEWLINE) ->
  exists t0, next_token (spaced (map print_word ws) ++ r) = POk t0 /\ evt (fun m => p_words m nlf t0 = POk (ws, t1)).
Proof.
  induction ws as [|w ws IH]; intros nlf r t1 H Hr Ht Hw Hn.
  - exists t1. split; auto. apply evt_S0. intros m. cbn [ParseModel.p_words]. rewrite Hw.
    destruct nlf; cbn [andb]; [rewrite tt_eqb_neq by auto|]; reflexivity.
  - inversion H as [|? ? H1 H2]; subst. destruct (IH nlf r t1 H2 Hr Ht Hw Hn) as (t' & E' & He).
    cbn [map spaced flat_map]. fold (spaced (map print_word ws)). rewrite <- app_assoc. cbn [app]. rewrite sp_next.
    rewrite tok_word by auto using spaced_dstop. eexists. split; [reflexivity|]. eapply evt_S; [exact He|]. cbn beta. intros m Hm.
    cbn [ParseModel.p_words ParseModel.tk_type ParseModel.tk_word]. rewrite tt_eqb_neq by apply keyword_tok. rewrite andb_false_r.
    unfold ParseModel.nt. cbn [ParseModel.tk_rest]. rewrite E'. cbn [pbind]. rewrite Hm. reflexivity.
Qed.

(** ** Simple commands *)
Notation gassign := (gassign L X sp_parse sp_print).
Notation a_text := (a_text X sp_print).
Notation gfirst := (gfirst L X).
Notation quote_first := (quote_first X).
Notation split_assign := (split_assign L X).

Lemma simple_redirs : forall rs f r t1, Forall gredir rs -> dstop r -> next_token r = POk t1 -> fol t1 ->
  exists t0, next_token (spaced (map r_text rs) ++ r) = POk t0 /\ (rs <> [] -> tk_type t0 = TT_IO_NUMBER) /\
    evt (fun m => p_simple m f t0 = POk ([], [], rs, t1)).
Proof.
  induction rs as [|x rs IH]; intros f r t1 H Hr Ht Hf.
  - exists t1. split; auto. split; [congruence|]. apply evt_S0. intros m. cbn [ParseModel.p_simple]. destruct Hf as (H0 & H1 & H2 & _).
    rewrite p_redir_none by auto. cbn [pbind]. unfold ParseModel.p_assign. rewrite H0. destruct f; reflexivity.
  - inversion H as [|? ? H1 H2]; subst. destruct (IH f r t1 H2 Hr Ht Hf) as (t' & E' & _ & He).
    cbn [map spaced flat_map]. fold (spaced (map r_text rs)). rewrite <- app_assoc.
    destruct (redir_back x (spaced (map r_text rs) ++ r) t' H1) as (t0 & E0 & Et & Ep); auto using spaced_dstop.
    exists t0. split; [cbn [app]; rewrite sp_next; auto|]. split; auto. eapply evt_S; [exact He|]. cbn beta. intros m Hm.
    cbn [ParseModel.p_simple]. rewrite Ep. cbn [pbind]. rewrite Hm. reflexivity.
Qed.
Lemma simple_words : forall ws rs f r t1, Forall lexable ws -> (f = true -> gfirst ws) -> Forall gredir rs -> dstop r -> next_token r = POk t1 -> fol t1 ->
  exists t0, next_token (spaced (map print_word ws ++ map r_text rs) ++ r) = POk t0 /\
    match ws with w :: _ => tk_type t0 = identify_reserved_word w | [] => rs <> [] -> tk_type t0 = TT_IO_NUMBER end /\
    evt (fun m => p_simple m f t0 = POk ([], ws, rs, t1)).
Proof.
  induction ws as [|w ws IH]; intros rs f r t1 H Hg Hrs Hr Ht Hf.
  - apply simple_redirs; auto.
  - inversion H as [|? ? H1 H2]; subst. destruct (IH rs false r t1) as (t' & E' & _ & He); auto; [discriminate|].
    cbn [map app spaced flat_map]. fold (spaced (map print_word ws ++ map r_text rs)). rewrite <- app_assoc. rewrite sp_next.
    rewrite tok_lex by auto using spaced_dstop. eexists. split; [reflexivity|]. split; [reflexivity|].
    eapply evt_S; [exact He|]. cbn beta. intros m Hm.
    cbn [ParseModel.p_simple]. rewrite p_redir_none by (cbn [ParseModel.tk_type]; apply keyword_tok). cbn [pbind].
    replace (if f then _ else _) with (@POk (option (assign * tok)) None)
      by (destruct f; auto; unfold ParseModel.p_assign; cbn [ParseModel.tk_word]; rewrite (Hg eq_refl); reflexivity).
    cbn [pbind ParseModel.tk_word]. unfold ParseModel.nt. cbn [ParseModel.tk_rest]. rewrite E'. cbn [pbind]. rewrite Hm. reflexivity.
Qed.

Lemma keyword_no_assign : forall s p, split_assign [UStr s] = Some p -> identify_reserved_word_string s = TT_WORD.
Proof.
  intros s p H. destruct (identify_in s) as [|H1]; auto. exfalso. cbn [ParseModel.split_assign] in H.
  destruct (skip_name L s) as [[|c n] [|e v]] eqn:E; try discriminate. destruct (e =? ch "=") eqn:Ee; [|discriminate].
  apply N.eqb_eq in Ee. subst e.
  assert (Hin : In (ch "=") s).
  { assert (T : forall s n r, take_name L s = (n, r) -> s = n ++ r).
    { clear. induction s as [|d s IH]; cbn [take_name]; intros n r H; [injection H as <- <-; auto|].
      destruct (is_name_char L d); [|injection H as <- <-; auto]. destruct (take_name L s) as [n' r'].
      injection H as <- <-. cbn [app]. f_equal. apply IH. auto. }
    assert (E' : s = (c :: n) ++ ch "=" :: v).
    { apply T. unfold skip_name in E. destruct s; [discriminate|]. destruct (iswdigit _); [discriminate|auto]. }
    rewrite E'. apply in_or_app. right. left. auto. }
  assert (F : forallb (fun p => negb (existsb (N.eqb (ch "=")) (fst p))) keywords = true) by (vm_compute; reflexivity).
  rewrite forallb_forall in F. apply F in H1. cbn [fst] in H1. apply negb_true_iff in H1.
  rewrite <- not_true_iff_false, existsb_exists in H1. apply H1. exists (ch "="). auto.
Qed.
Lemma assign_word : forall w p, split_assign w = Some p -> identify_reserved_word w = TT_WORD.
Proof.
  intros w p H. unfold ParseModel.identify_reserved_word. destruct (single_string w) as [s|] eqn:E; auto.
  destruct w as [|[s'|] [|]]; try discriminate. injection E as ->. eapply keyword_no_assign; eauto.
Qed.

Lemma assign_back : forall a r t1, gassign a -> dstop r -> next_token r = POk t1 ->
  exists t0, next_token (a_text a ++ r) = POk t0 /\ tk_type t0 = TT_WORD /\ evt (fun m => p_assign m t0 = POk (Some (a, t1))).
Proof.
  intros [name v|name vs] r t1 H Hr Ht.
  - destruct H as (w & Hw & Hs). cbn [ParseText.a_text]. rewrite <- (split_assign_print L X sp_print _ _ _ Hs).
    rewrite tok_word by auto. rewrite (assign_word _ _ Hs). eexists. split; [reflexivity|]. split; [reflexivity|]. apply evt_all. intros m.
    unfold ParseModel.p_assign. cbn [ParseModel.tk_word ParseModel.tk_rest]. rewrite Hs. unfold ParseModel.nt. cbn [ParseModel.tk_rest]. rewrite Ht. cbn [pbind].
    destruct v; [|reflexivity]. destruct r as [|c r]; [reflexivity|]. apply dstop_delim in Hr. destruct (c =? ch "(") eqn:E; [|reflexivity].
    apply N.eqb_eq in E. tauto.
  - destruct H as ([Hw _] & Hs & Hv). cbn [ParseText.a_text].
    destruct (words_back vs true (ch ")" :: r) (mkTok TT_RPAREN None r) Hv) as (t' & E' & He); auto.
    { right. right. cbn. auto. }
    { apply tok_char; [reflexivity|cbn; auto 10]. }
    { discriminate. }
    replace ((name ++ [ch "="; ch "("] ++ join (map print_word vs) ++ [ch ")"]) ++ r)
      with (print_word [UStr (name ++ [ch "="])] ++ ch "(" :: join (map print_word vs) ++ ch ")" :: r)
      by (cbn [ParseModel.print_word]; rewrite app_nil_r, <- ?app_assoc; cbn [app]; rewrite <- ?app_assoc; reflexivity).
    rewrite (next_token_back L Lok X sp_parse sp_print EX); auto.
    + eexists. split; [reflexivity|]. cbn [ParseModel.tk_type]. split.
      { unfold word_type. change ((ch "(" =? ch "<") || (ch "(" =? ch ">")) with false. cbn [andb]. eapply assign_word; eauto. }
      eapply evt_impl; [exact He|]. cbn beta. intros m Hm. unfold ParseModel.p_assign. cbn [ParseModel.tk_word ParseModel.tk_rest]. rewrite Hs.
      unfold ParseModel.nt at 1. cbn [ParseModel.tk_rest]. rewrite (tok_char (ch "(") _ TT_LPAREN) by (try reflexivity; cbn; auto 10). cbn [pbind].
      rewrite N.eqb_refl. unfold ParseModel.nt at 1. cbn [ParseModel.tk_rest].
      assert (E2 : next_token (join (map print_word vs) ++ ch ")" :: r) = POk t').
      { destruct vs as [|v vs]; [exact E'|]. cbn [map join]. cbn [map spaced flat_map app] in E'. rewrite sp_next in E'. exact E'. }
      rewrite E2. cbn [pbind]. rewrite Hm. cbn [pbind ParseModel.tk_type]. teq. cbv iota. unfold ParseModel.nt. cbn [ParseModel.tk_rest]. rewrite Ht. reflexivity.
    + cbn [dstart]. rewrite (delim_ascii L Lok) by reflexivity. reflexivity.
    + intros _ s' E. cbn [ParseModel.print_word] in E. rewrite app_nil_r in E. apply app_inj_tail in E. destruct E as [_ E]. discriminate E.
Qed.
Lemma simple_back : forall a ws rs r t1, Forall gassign a -> Forall lexable ws -> gfirst ws -> Forall gredir rs -> dstop r -> next_token r = POk t1 -> fol t1 ->
  exists t0, next_token (spaced (map a_text a ++ map print_word ws ++ map r_text rs) ++ r) = POk t0 /\
    match a, ws with [], w :: _ => tk_type t0 = identify_reserved_word w | [], [] => rs <> [] -> tk_type t0 = TT_IO_NUMBER | _, _ => tk_type t0 = TT_WORD end /\
    evt (fun m => p_simple m true t0 = POk (a, ws, rs, t1)).
Proof.
  induction a as [|x a IH]; intros ws rs r t1 Ha H Hg Hrs Hr Ht Hf.
  - apply simple_words; auto.
  - inversion Ha as [|? ? H1 H2]; subst. destruct (IH ws rs r t1) as (t' & E' & _ & He); auto.
    cbn [map app spaced flat_map]. fold (spaced (map a_text a ++ map print_word ws ++ map r_text rs)). rewrite <- app_assoc. rewrite sp_next.
    destruct (assign_back x (spaced (map a_text a ++ map print_word ws ++ map r_text rs) ++ r) t' H1) as (t0 & E0 & Et & Ep); auto using spaced_dstop.
    exists t0. split; auto. split; auto. eapply evt_S; [exact (evt_and _ _ He Ep)|]. cbn beta. intros m [Hm Hp].
    cbn [ParseModel.p_simple]. rewrite p_redir_none by (rewrite Et; (reflexivity || discriminate)). cbn [pbind]. rewrite Hp. cbn [pbind]. rewrite Hm. reflexivity.
Qed.

(** The first word, with its backslash if need be *)
Lemma quote_first_ok : forall ws a, Forall gword ws -> gfirst ws ->
  Forall lexable (quote_first a ws) /\ gfirst (quote_first a ws) /\
  match a, quote_first a ws with [], w :: _ => identify_reserved_word w = TT_WORD | _, _ => True end.
Proof.
  intros ws a Hw Hg.
  assert (Hl : Forall lexable ws) by (eapply Forall_impl; [|exact Hw]; intros w [H _]; exact H).
  destruct a; [|cbn [ParseSpec.quote_first]; auto]. destruct ws as [|w ws]; [cbn; auto|].
  destruct (single_string w) as [s|] eqn:E.
  - destruct w as [|[s'|] [|]]; try discriminate. injection E as ->. cbn [ParseSpec.quote_first]. destruct (is_keyword s) eqn:Ek.
    + split; [|split].
      * inversion Hl; subst. constructor; auto.
        assert (Hk : forallb plainc s = true /\ s <> []).
        { unfold is_keyword in Ek. destruct (identify_in s) as [H0|H0]; [rewrite H0 in Ek; discriminate|].
          revert H0. generalize (identify_reserved_word_string s). clear. intros t H0. cbn in H0.
          repeat destruct H0 as [H0|H0]; [injection H0 as <- _; split; [reflexivity|discriminate]..|destruct H0]. }
        destruct Hk as [Hk Hn]. destruct s as [|c s]; [congruence|].
        destruct (lex_plain (c :: s) Hn Hk) as [P _]. cbn [ParseModel.print_word] in P. rewrite app_nil_r in P.
        cbn [forallb] in Hk. apply andb_true_iff in Hk. destruct Hk as [Hc Hs]. destruct (plainc_ok _ Hc) as (A & B & C & D).
        split.
        -- cbn [ParseModel.print_word]. rewrite app_nil_r. cbn [app]. apply pw_esc; [intros ->; vm_compute in Hc; discriminate Hc|].
           clear - Hs Lok. cbn [app].
           assert (G : forall s acc, acc <> [] -> forallb plainc s = true -> pw L X sp_parse sp_print false acc s [UStr (acc ++ s)]).
           { induction s0 as [|d s0 IH]; intros acc Hn H.
             - rewrite app_nil_r in *. replace [UStr acc] with (flush X acc []) by (destruct acc; [congruence|reflexivity]). apply pw_end.
             - cbn [forallb] in H. apply andb_true_iff in H. destruct H as [H1 H2]. apply pw_plain; [apply plainc_ok; auto|].
               change (d :: s0) with ([d] ++ s0). rewrite app_assoc. apply IH; auto. destruct acc; discriminate. }
           apply (G s [ch "\"; c]); [discriminate|auto].
        -- cbn [ParseModel.print_word]. rewrite app_nil_r. cbn [app]. split; [apply (delim_bs L Lok)|]. split; [discriminate|].
           right. intros ->. vm_compute in Hc. discriminate Hc.
      * cbn [ParseText.gfirst]. cbn [ParseModel.split_assign]. unfold skip_name. change (iswdigit (ch "\")) with false. cbv iota.
        cbn [take_name]. unfold is_name_char, iswalnum. rewrite (lk_alpha L Lok) by reflexivity. reflexivity.
      * reflexivity.
    + split; auto. split; auto. unfold ParseModel.identify_reserved_word. cbn [ParseModel.single_string].
      unfold is_keyword in Ek. apply negb_false_iff, tt_eqb_eq in Ek. auto.
  - replace (quote_first [] (w :: ws)) with (w :: ws) by (destruct w as [|[s'|] [|]]; try discriminate; reflexivity).
    split; auto. split; auto. unfold ParseModel.identify_reserved_word. rewrite E. auto.
Qed.

(** ** [[ ]] *)
Notation gdb := (gdb L X sp_parse sp_print).
Notation d_text := (d_text X sp_print).
Notation dnorm := (dnorm X).
Notation or_app := (or_app X).
Notation and_app := (and_app X).

Lemma and_app_assoc : forall x y z, and_app (and_app x y) z = and_app x (and_app y z).
Proof. induction x; intros y z; cbn [ParseSpec.and_app]; try reflexivity. rewrite IHx2. reflexivity. Qed.
Lemma or_app_assoc : forall x y z, or_app (or_app x y) z = or_app x (or_app y z).
Proof. induction x; intros y z; cbn [ParseSpec.or_app]; try reflexivity. rewrite IHx2. reflexivity. Qed.
Lemma or_app_or : forall x y, exists p q, or_app x y = DOr p q.
Proof. intros [] y; cbn [ParseSpec.or_app]; eauto. Qed.
Lemma and_app_and : forall x y, exists p q, and_app x y = DAnd p q.
Proof. intros [] y; cbn [ParseSpec.and_app]; eauto. Qed.

(** What may follow a primary *)
Definition dfol (t : tok) : Prop :=
  tk_type t <> TT_LESS /\ tk_type t <> TT_GREATER /\
  forall w s, tk_word t = Some w -> single_string w = Some s -> TestModel.is_binary_primary s = false.

Ltac ntr E := unfold ParseModel.nt at 1; cbn [ParseModel.tk_rest]; rewrite E; cbn [pbind].

Lemma close_false : forall ty w r, not_close X w -> is_close (mkTok ty (Some w) r) = false.
Proof.
  intros ty w r H. unfold ParseModel.is_close. cbn [ParseModel.tk_word]. destruct (single_string w) as [s|] eqn:E; auto.
  destruct (list_N_eqb s (str "]]")) eqn:El; auto. apply list_N_eqb_eq in El. subst s. congruence.
Qed.
Lemma operand_back : forall w r t1, gword w -> not_close X w -> next_token r = POk t1 -> dstop r ->
  p_operand (mkTok (identify_reserved_word w) (Some w) r) = POk (w, t1).
Proof.
  intros w r t1 Hw Hc Ht Hr. unfold ParseModel.p_operand. rewrite close_false by auto. cbn [ParseModel.tk_word]. ntr Ht. reflexivity.
Qed.

Lemma prim_start : forall e r t1, match e with DUn _ _ | DBin _ _ _ | DStr _ => True | _ => False end -> gdb e -> next_token r = POk t1 -> dfol t1 ->
  exists t0, next_token (d_text e 0 ++ r) = POk t0 /\ tk_type t0 <> TT_BANG /\ tk_type t0 <> TT_LPAREN /\ p_primary t0 = POk (dnorm e, t1).
Proof.
  intros e r t1 He G Ht (F1 & F2 & F3). destruct e as [| | |op w|l op w|w]; try destruct He; unfold ParseText.d_text; cbn [print_dbexp app].
  - destruct G as (Hu & Hop & Hw & Hc).
    replace ((op ++ 32 :: print_word w ++ [32]) ++ r) with (print_word [UStr op] ++ 32 :: print_word w ++ 32 :: r)
      by (cbn [ParseModel.print_word]; rewrite app_nil_r, <- app_assoc; cbn [app]; rewrite <- app_assoc; reflexivity).
    rewrite tok_word by auto using dstop_space. eexists. split; [reflexivity|]. cbn [ParseModel.tk_type].
    split; [|split; [apply keyword_tok|]].
    { unfold ParseModel.identify_reserved_word. cbn [ParseModel.single_string]. intros E. destruct (identify_in op) as [E'|E']; [rewrite E in E'; discriminate|].
      rewrite E in E'. assert (op = str "!"). { cbn in E'. repeat destruct E' as [E'|E']; try discriminate E'; [injection E' as <-; reflexivity|destruct E']. }
      subst op. vm_compute in Hu. discriminate Hu. }
    unfold ParseModel.p_primary. cbn [ParseModel.tk_word ParseModel.single_string]. rewrite Hu.
    assert (E : next_token (32 :: print_word w ++ 32 :: r) = POk (mkTok (identify_reserved_word w) (Some w) (32 :: r)))
      by (rewrite sp_next; apply tok_word; auto using dstop_space).
    ntr E. rewrite (operand_back w (32 :: r) t1) by (auto using dstop_space; rewrite sp_next; auto). reflexivity.
  - destruct G as (Hl & Hlc & Hlu & Hlb & (Hop & Hne) & Hw & Hwc).
    replace ((print_word l ++ 32 :: op ++ 32 :: print_word w ++ [32]) ++ r) with (print_word l ++ 32 :: op ++ 32 :: print_word w ++ 32 :: r)
      by (rewrite <- app_assoc; cbn [app]; rewrite <- app_assoc; cbn [app]; rewrite <- app_assoc; reflexivity).
    rewrite tok_word by auto using dstop_space. eexists. split; [reflexivity|]. cbn [ParseModel.tk_type].
    split; [exact Hlb|]. split; [apply keyword_tok|].
    unfold ParseModel.p_primary. cbn [ParseModel.tk_word].
    assert (EN : (match single_string l with Some s => if TestModel.is_unary_primary s then Some s else None | None => None end) = None).
    { destruct (single_string l) as [s|] eqn:E; auto. rewrite (Hlu s E). auto. }
    rewrite EN. clear EN.
    assert (E : next_token (32 :: print_word w ++ 32 :: r) = POk (mkTok (identify_reserved_word w) (Some w) (32 :: r)))
      by (rewrite sp_next; apply tok_word; auto using dstop_space).
    assert (Eo : exists t2, next_token (32 :: op ++ 32 :: print_word w ++ 32 :: r) = POk t2 /\ tk_rest t2 = 32 :: print_word w ++ 32 :: r /\
      (if is t2 TT_LESS then Some (str "<") else if is t2 TT_GREATER then Some (str ">")
       else match tk_word t2 with
            | Some w => match single_string w with Some s => if TestModel.is_binary_primary s then Some s else None | None => None end
            | None => None end) = Some op).
    { rewrite sp_next. destruct Hop as [->|[->|[Hb Hop]]].
      - eexists. split; [apply (tok_char (ch "<") _ TT_LESS); [optac|cbn; auto 10]|]. split; reflexivity.
      - eexists. split; [apply (tok_char (ch ">") _ TT_GREATER); [optac|cbn; auto 10]|]. split; reflexivity.
      - rewrite <- (app_nil_r op). rewrite <- app_assoc. cbn [app]. change (op ++ 32 :: print_word w ++ 32 :: r) with (op ++ (32 :: print_word w ++ 32 :: r)).
        replace (op ++ (32 :: print_word w ++ 32 :: r)) with (print_word [UStr op] ++ (32 :: print_word w ++ 32 :: r)) by (cbn [ParseModel.print_word]; rewrite app_nil_r; reflexivity).
        rewrite tok_word by auto using dstop_space. eexists. split; [reflexivity|]. split; [reflexivity|].
        cbn [ParseModel.tk_type ParseModel.tk_word ParseModel.single_string]. rewrite !tt_eqb_neq by apply keyword_tok. rewrite Hb, app_nil_r. reflexivity. }
    destruct Eo as (t2 & E1 & E2 & E3).
    rewrite (operand_back l _ t2) by auto using dstop_space. cbn [pbind]. rewrite E3.
    destruct (list_N_eqb op (str "=~")) eqn:El; [apply list_N_eqb_eq in El; contradiction|].
    unfold ParseModel.nt. rewrite E2, E. cbn [pbind]. rewrite (operand_back w (32 :: r) t1) by (auto using dstop_space; rewrite sp_next; auto). reflexivity.
  - destruct G as (Hw & Hc & Hu & Hb). rewrite <- app_assoc. cbn [app].
    rewrite tok_word by auto using dstop_space. eexists. split; [reflexivity|]. cbn [ParseModel.tk_type].
    split; [exact Hb|]. split; [apply keyword_tok|].
    unfold ParseModel.p_primary. cbn [ParseModel.tk_word].
    assert (EN : (match single_string w with Some s => if TestModel.is_unary_primary s then Some s else None | None => None end) = None).
    { destruct (single_string w) as [s|] eqn:E; auto. rewrite (Hu s E). auto. }
    rewrite EN. clear EN.
    rewrite (operand_back w (32 :: r) t1) by (auto using dstop_space; rewrite sp_next; auto). cbn [pbind].
    rewrite !tt_eqb_neq by auto.
    destruct (tk_word t1) as [w1|] eqn:E1; [|reflexivity]. destruct (single_string w1) as [s|] eqn:E2; [|reflexivity].
    rewrite (F3 w1 s eq_refl E2). reflexivity.
Qed.

Lemma d_text_and : forall e, match e with DOr _ _ => False | _ => True end -> d_text e 0 = d_text e 1.
Proof. intros [] H; try destruct H; reflexivity. Qed.
Lemma d_text_prim : forall e, match e with DUn _ _ | DBin _ _ _ | DStr _ => True | _ => False end -> forall c, d_text e c = d_text e 0.
Proof. intros [] H c; try destruct H; reflexivity. Qed.
Lemma d_or : forall a b, d_text (DOr a b) 0 = d_text a 0 ++ str "|| " ++ d_text b 0.
Proof.
  intros a b. unfold ParseText.d_text. cbn [print_dbexp Nat.eqb]. rewrite print_dbexp_eq. unfold ParseText.d_text. rewrite <- app_assoc. reflexivity.
Qed.
Lemma d_and : forall a b, d_text (DAnd a b) 1 = d_text a 1 ++ str "&& " ++ d_text b 1.
Proof.
  intros a b. unfold ParseText.d_text. cbn [print_dbexp Nat.eqb]. rewrite print_dbexp_eq. unfold ParseText.d_text. rewrite <- app_assoc. reflexivity.
Qed.
Lemma d_paren_or : forall a b c, c <> O -> d_text (DOr a b) c = str "( " ++ d_text (DOr a b) 0 ++ str ") ".
Proof.
  intros a b [|c] H; [congruence|]. rewrite d_or. unfold ParseText.d_text. cbn [print_dbexp Nat.eqb].
  rewrite (print_dbexp_eq X sp_print a), (print_dbexp_eq X sp_print b). unfold ParseText.d_text. rewrite <- !app_assoc. reflexivity.
Qed.
Lemma d_paren_and : forall a b, d_text (DAnd a b) 2 = str "( " ++ d_text (DAnd a b) 0 ++ str ") ".
Proof.
  intros a b. rewrite d_text_and, d_and by exact I. unfold ParseText.d_text. cbn [print_dbexp Nat.eqb].
  rewrite (print_dbexp_eq X sp_print a), (print_dbexp_eq X sp_print b). unfold ParseText.d_text. rewrite <- !app_assoc. reflexivity.
Qed.
Lemma d_not : forall a c, d_text (DNot a) c = str "! " ++ d_text a 2.
Proof. intros a c. unfold ParseText.d_text. cbn [print_dbexp]. rewrite print_dbexp_eq. reflexivity. Qed.

(** The four levels of the grammar *)
Definition L2 (e : dbexp) : Prop := forall r t1, next_token r = POk t1 -> dfol t1 ->
  exists t0, next_token (d_text e 2 ++ r) = POk t0 /\ evt (fun m => p_nots m t0 = POk (dnorm e, t1)).
Definition L1 (e : dbexp) : Prop := forall r t1, next_token r = POk t1 -> dfol t1 ->
  exists t0, next_token (d_text e 1 ++ r) = POk t0 /\
    (tk_type t1 <> TT_AMPAMP -> evt (fun m => p_ands m t0 = POk (dnorm e, t1))) /\
    (forall t2 y t3, tk_type t1 = TT_AMPAMP -> nt t1 = POk t2 -> evt (fun m => p_ands m t2 = POk (y, t3)) ->
       evt (fun m => p_ands m t0 = POk (and_app (dnorm e) y, t3))).
Definition L0 (e : dbexp) : Prop := forall r t1, next_token r = POk t1 -> dfol t1 -> tk_type t1 <> TT_AMPAMP ->
  exists t0, next_token (d_text e 0 ++ r) = POk t0 /\
    (tk_type t1 <> TT_PIPEPIPE -> evt (fun m => p_ors m t0 = POk (dnorm e, t1))) /\
    (forall t2 y t3, tk_type t1 = TT_PIPEPIPE -> nt t1 = POk t2 -> evt (fun m => p_ors m t2 = POk (y, t3)) ->
       evt (fun m => p_ors m t0 = POk (or_app (dnorm e) y, t3))).

Lemma L1_of_L2 : forall e, L2 e -> d_text e 1 = d_text e 2 -> (forall y, and_app (dnorm e) y = DAnd (dnorm e) y) -> L1 e.
Proof.
  intros e H Et Ea r t1 Ht Hf. destruct (H r t1 Ht Hf) as (t0 & E0 & He). exists t0. rewrite Et. split; auto. split.
  - intros Hn. eapply evt_S; [exact He|]. cbn beta. intros m Hm. rewrite p_ands_S, Hm. cbn [pbind]. rewrite tt_eqb_neq by auto. reflexivity.
  - intros t2 y t3 Hn Hn2 Hy. eapply evt_S; [exact (evt_and _ _ He Hy)|]. cbn beta. intros m [Hm Hm2]. rewrite p_ands_S, Hm. cbn [pbind].
    rewrite Hn, tt_eqb_refl, Hn2. cbn [pbind]. rewrite Hm2. cbn [pbind]. rewrite Ea. reflexivity.
Qed.
Lemma L0_of_L1 : forall e, L1 e -> d_text e 0 = d_text e 1 -> (forall y, or_app (dnorm e) y = DOr (dnorm e) y) -> L0 e.
Proof.
  intros e H Et Ea r t1 Ht Hf Hna. destruct (H r t1 Ht Hf) as (t0 & E0 & He & _). specialize (He Hna). exists t0. rewrite Et. split; auto. split.
  - intros Hn. eapply evt_S; [exact He|]. cbn beta. intros m Hm. rewrite p_ors_S, Hm. cbn [pbind]. rewrite tt_eqb_neq by auto. reflexivity.
  - intros t2 y t3 Hn Hn2 Hy. eapply evt_S; [exact (evt_and _ _ He Hy)|]. cbn beta. intros m [Hm Hm2]. rewrite p_ors_S, Hm. cbn [pbind].
    rewrite Hn, tt_eqb_refl, Hn2. cbn [pbind]. rewrite Hm2. cbn [pbind]. rewrite Ea. reflexivity.
Qed.
Lemma L2_paren : forall e, L0 e -> d_text e 2 = str "( " ++ d_text e 0 ++ str ") " -> L2 e.
Proof.
  intros e H Et r t1 Ht Hf. rewrite Et.
  assert (E1 : next_token (ch ")" :: 32 :: r) = POk (mkTok TT_RPAREN None (32 :: r))) by (apply tok_char; [reflexivity|cbn; auto 10]).
  destruct (H (ch ")" :: 32 :: r) _ E1) as (t0 & E0 & He & _); [repeat split; discriminate|discriminate|].
  specialize (He ltac:(discriminate)).
  replace ((str "( " ++ d_text e 0 ++ str ") ") ++ r) with (ch "(" :: 32 :: d_text e 0 ++ ch ")" :: 32 :: r) by (cbn; rewrite <- app_assoc; reflexivity).
  rewrite (tok_char (ch "(") _ TT_LPAREN) by (try reflexivity; cbn; auto 10). eexists. split; [reflexivity|].
  eapply evt_S; [exact He|]. cbn beta. intros m Hm. rewrite p_nots_S. cbn [ParseModel.tk_type]. teq. cbv iota.
  assert (E2 : next_token (32 :: d_text e 0 ++ ch ")" :: 32 :: r) = POk t0) by (rewrite sp_next; auto). ntr E2. rewrite Hm. cbn [pbind ParseModel.tk_type]. teq. cbv iota.
  assert (E3 : next_token (32 :: r) = POk t1) by (rewrite sp_next; auto). ntr E3. reflexivity.
Qed.

Theorem dbexp_back : forall e, gdb e -> L2 e /\ L1 e /\ L0 e.
Proof.
  induction e as [a IHa b IHb|a IHa b IHb|a IHa|op w|l op w|w]; intros G.
  - destruct G as [Ga Gb]. destruct (IHa Ga) as (_ & _ & A). destruct (IHb Gb) as (_ & _ & B). clear IHa IHb.
    assert (HL : L0 (DOr a b)).
    { intros r t1 Ht Hf Hna. destruct (B r t1 Ht Hf Hna) as (tb & Eb & B1 & B2).
      assert (E1 : next_token (str "||" ++ 32 :: d_text b 0 ++ r) = POk (mkTok TT_PIPEPIPE None (32 :: d_text b 0 ++ r))).
      { apply next_token_op; try discriminate; [optac|apply (blank_ascii L Lok); reflexivity]. }
      assert (E2 : nt (mkTok TT_PIPEPIPE None (32 :: d_text b 0 ++ r)) = POk tb) by (unfold ParseModel.nt; cbn [ParseModel.tk_rest]; rewrite sp_next; auto).
      destruct (A _ _ E1) as (ta & Ea & _ & A2); [repeat split; discriminate|discriminate|].
      exists ta. split; [rewrite d_or, <- !app_assoc; exact Ea|]. split.
      - intros Hn. apply (A2 tb _ _ eq_refl E2). auto.
      - intros t2 y t3 Hn Hn2 Hy. cbn [ParseSpec.dnorm]. rewrite or_app_assoc. apply (A2 tb _ _ eq_refl E2). eauto. }
    assert (HL' : L2 (DOr a b)) by (apply L2_paren; auto; apply d_paren_or; discriminate).
    split; auto. split; auto. apply L1_of_L2; auto.
    { intros y. cbn [ParseSpec.dnorm]. destruct (or_app_or (dnorm a) (dnorm b)) as (p & q & ->). reflexivity. }
  - destruct G as [Ga Gb]. destruct (IHa Ga) as (_ & A & _). destruct (IHb Gb) as (_ & B & _). clear IHa IHb.
    assert (HL : L1 (DAnd a b)).
    { intros r t1 Ht Hf. destruct (B r t1 Ht Hf) as (tb & Eb & B1 & B2).
      assert (E1 : next_token (str "&&" ++ 32 :: d_text b 1 ++ r) = POk (mkTok TT_AMPAMP None (32 :: d_text b 1 ++ r))).
      { apply next_token_op; try discriminate; [optac|apply (blank_ascii L Lok); reflexivity]. }
      assert (E2 : nt (mkTok TT_AMPAMP None (32 :: d_text b 1 ++ r)) = POk tb) by (unfold ParseModel.nt; cbn [ParseModel.tk_rest]; rewrite sp_next; auto).
      destruct (A _ _ E1) as (ta & Ea & _ & A2); [repeat split; discriminate|].
      exists ta. split; [rewrite d_and, <- !app_assoc; exact Ea|]. split.
      - intros Hn. apply (A2 tb _ _ eq_refl E2). auto.
      - intros t2 y t3 Hn Hn2 Hy. cbn [ParseSpec.dnorm]. rewrite and_app_assoc. apply (A2 tb _ _ eq_refl E2). eauto. }
    assert (HL' : L0 (DAnd a b)).
    { apply L0_of_L1; auto. intros y. cbn [ParseSpec.dnorm]. destruct (and_app_and (dnorm a) (dnorm b)) as (p & q & ->). reflexivity. }
    split; auto. apply L2_paren; auto. apply d_paren_and.
  - destruct (IHa G) as (A & _).
    assert (HL : L2 (DNot a)).
    { intros r t1 Ht Hf. destruct (A r t1 Ht Hf) as (ta & Ea & He). rewrite d_not.
      replace ((str "! " ++ d_text a 2) ++ r) with (str "!" ++ 32 :: d_text a 2 ++ r) by reflexivity.
      rewrite tok_plain by (try discriminate; try reflexivity; apply dstop_space). eexists. split; [reflexivity|].
      eapply evt_S; [exact He|]. cbn beta. intros m Hm. rewrite p_nots_S. cbn [ParseModel.tk_type].
      change (identify_reserved_word_string (str "!")) with TT_BANG. teq. cbv iota.
      assert (E2 : next_token (32 :: d_text a 2 ++ r) = POk ta) by (rewrite sp_next; auto). ntr E2. rewrite Hm. reflexivity. }
    assert (HL' : L1 (DNot a)) by (apply L1_of_L2; auto; rewrite !d_not; auto).
    split; auto. split; auto. apply L0_of_L1; auto.
  - assert (HL : L2 (DUn op w)).
    { intros r t1 Ht Hf. destruct (prim_start (DUn op w) r t1 I G Ht Hf) as (t0 & E0 & Hb & Hp & Ep). rewrite d_text_prim by exact I.
      exists t0. split; auto. apply evt_S0. intros m. rewrite p_nots_S, !tt_eqb_neq by auto. auto. }
    assert (HL' : L1 (DUn op w)) by (apply L1_of_L2; auto). split; auto. split; auto. apply L0_of_L1; auto.
  - assert (HL : L2 (DBin l op w)).
    { intros r t1 Ht Hf. destruct (prim_start (DBin l op w) r t1 I G Ht Hf) as (t0 & E0 & Hb & Hp & Ep). rewrite d_text_prim by exact I.
      exists t0. split; auto. apply evt_S0. intros m. rewrite p_nots_S, !tt_eqb_neq by auto. auto. }
    assert (HL' : L1 (DBin l op w)) by (apply L1_of_L2; auto). split; auto. split; auto. apply L0_of_L1; auto.
  - assert (HL : L2 (DStr w)).
    { intros r t1 Ht Hf. destruct (prim_start (DStr w) r t1 I G Ht Hf) as (t0 & E0 & Hb & Hp & Ep). rewrite d_text_prim by exact I.
      exists t0. split; auto. apply evt_S0. intros m. rewrite p_nots_S, !tt_eqb_neq by auto. auto. }
    assert (HL' : L1 (DStr w)) by (apply L1_of_L2; auto). split; auto. split; auto. apply L0_of_L1; auto.
Qed.

(** ** Commands *)
Section Ml.
Variable ml : bool.
Notation nl := (nl ml).
Notation ind := (ind ml).
Notation k_cmd := (k_cmd L X sp_print ml).
Notation k_cmds := (k_cmds L X sp_print ml).
Notation k_pls := (k_pls L X sp_print ml).
Notation k_aos := (k_aos L X sp_print ml).
Notation k_body := (k_body L X sp_print ml).
Notation k_ifs := (k_ifs L X sp_print ml).
Notation k_cis := (k_cis L X sp_print ml).
Notation gcmd := (gcmd L X sp_parse sp_print).
Notation gcmds := (gcmds L X sp_parse sp_print).
Notation gpls := (gpls L X sp_parse sp_print).
Notation gaos := (gaos L X sp_parse sp_print).
Notation gifcs := (gifcs L X sp_parse sp_print).
Notation gcis := (gcis L X sp_parse sp_print).
Notation gbody := (gbody L X).
Notation norm := (norm X).
Notation norm_cmds := (norm_cmds X).
Notation norm_pls := (norm_pls X).
Notation norm_aos := (norm_aos X).
Notation norm_ifcs := (norm_ifcs X).
Notation norm_cis := (norm_cis X).
Notation pcond := (pcond X).
Notation rt := (rt X sp_print).

Lemma ind_next : forall k s, next_token (ind k ++ s) = next_token s.
Proof. intros k s. unfold ParseText.ind. destruct ml; [apply next_token_spaces; auto|reflexivity]. Qed.
Lemma newlines_no : forall t, tk_type t <> TT_NEWLINE -> evt (fun m => p_newlines m t = POk (false, t)).
Proof. intros t H. apply evt_S0. intros m. cbn [ParseModel.p_newlines]. rewrite tt_eqb_neq by auto. reflexivity. Qed.
Lemma nl_tok : forall k s t, next_token s = POk t -> tk_type t <> TT_NEWLINE ->
  exists tn, next_token (nl ++ ind k ++ s) = POk tn /\ evt (fun m => p_newlines m tn = POk (ml, t)) /\
    (if ml then tk_type tn = TT_NEWLINE /\ tk_word tn = None else tn = t).
Proof.
  intros k s t Ht Hn. unfold ParseText.nl. pose proof (ind_next k s) as Hi. destruct ml.
  - cbn [app]. rewrite (tok_char 10 _ TT_NEWLINE) by (try reflexivity; cbn; auto). eexists. split; [reflexivity|]. split; [|auto].
    eapply evt_S; [exact (newlines_no t Hn)|]. cbn beta. intros m Hm. cbn [ParseModel.p_newlines ParseModel.tk_type]. teq. cbv iota.
    unfold ParseModel.nt. cbn [ParseModel.tk_rest]. rewrite Hi, Ht. cbn [pbind]. rewrite Hm. reflexivity.
  - exists t. cbn [app]. rewrite sp_next, Hi. split; auto. split; auto. apply newlines_no. auto.
Qed.
Lemma nl_dstop : forall s, dstop (nl ++ s).
Proof. intros s. unfold ParseText.nl. destruct ml; cbn; auto. Qed.

Definition closing (t : tok) : Prop := is_closing_tokentype (tk_type t) = true.
Lemma closing_nl : forall t, closing t -> tk_type t <> TT_NEWLINE.
Proof. intros t H E. unfold closing in H. rewrite E in H. discriminate. Qed.
Definition pstart (t : tok) : Prop :=
  tk_type t <> TT_NEWLINE /\ tk_type t <> TT_END_OF_INPUT /\ is_closing_tokentype (tk_type t) = false.
Definition cstart (t : tok) : Prop := pstart t /\ tk_type t <> TT_BANG /\ tk_type t <> TT_IN.
Definition fol2 (t : tok) : Prop := fol t /\ tk_type t <> TT_PIPE /\ tk_type t <> TT_AMPAMP /\ tk_type t <> TT_PIPEPIPE.

Definition R_cmd (c : cmd) : Prop := gcmd c -> forall k r t1, dstop r -> next_token r = POk t1 -> fol t1 ->
  exists t0, next_token (k_cmd c k ++ r) = POk t0 /\ cstart t0 /\
    evt (fun m => p_command m t0 = POk (norm c, t1)) /\
    (gbody c -> evt (fun m => p_compound m t0 = POk (Some (norm c), t1))).
Definition R_cmds (cs : cmds) : Prop := gcmds cs -> cs <> CNil -> forall k r t1, dstop r -> next_token r = POk t1 -> fol t1 -> tk_type t1 <> TT_PIPE ->
  exists t0, next_token (k_cmds cs k ++ r) = POk t0 /\ cstart t0 /\ evt (fun m => p_commands m t0 = POk (norm_cmds cs, t1)).
Definition R_pls (p : pls) : Prop := gpls p -> p <> PNil -> forall k r t1, dstop r -> next_token r = POk t1 -> fol2 t1 ->
  exists t0, next_token (k_pls p k ++ r) = POk t0 /\ pstart t0 /\ evt (fun m => p_pipelines m (pcond p) t0 = POk (norm_pls p, t1)).
Definition rstop (r : list N) : Prop := match r with [] => False | c :: _ => c = 10 \/ c = 32 \/ c = ch ")" end.
Definition closes (r : list N) (tc : tok) : Prop :=
  exists t b, next_token r = POk t /\ evt (fun m => p_newlines m t = POk (b, tc)) /\ closing tc.
Definition R_aos (l : aos) : Prop := gaos l -> l <> ANil -> forall (o : bool) k r tc, closes r tc ->
  (o = true -> rstop r /\ forall t, next_token r = POk t -> fol2 t /\ tk_type t <> TT_AMP /\ tk_type t <> TT_SEMICOLON) ->
  exists t, next_token (k_aos l k o ++ r) = POk t /\ pstart t /\
    forall need t' b, evt (fun m => p_newlines m t' = POk (b, t)) -> b = true \/ need = false ->
      evt (fun m => p_list m need t' = POk (norm_aos l, tc)).
Definition R_ifs (l : ifcs) : Prop := gifcs l -> forall k r t1, dstop r -> next_token r = POk t1 ->
  (l <> INil -> exists tb, next_token (k_ifs l k true ++ ind k ++ str "fi" ++ r) = POk tb /\ evt (fun m => p_if m false tb = POk (norm_ifcs l, t1))) /\
  (forall b, l = ICons ANil b INil -> exists tb, next_token (nl ++ k_body b (S k) ++ ind k ++ str "fi" ++ r) = POk tb /\
    evt (fun m => p_if m true tb = POk (norm_ifcs l, t1))).
Definition R_cis (l : cis) : Prop := gcis l -> forall k k0 r tc, next_token r = POk tc -> tk_type tc = TT_ESAC ->
  exists tb, next_token (nl ++ k_cis l k ++ ind k0 ++ r) = POk tb /\ evt (fun m => p_cases m tb = POk (norm_cis l, tc)).

Lemma list_nil : forall need t tc b, evt (fun m => p_newlines m t = POk (b, tc)) -> closing tc -> evt (fun m => p_list m need t = POk (ANil, tc)).
Proof.
  intros need t tc b H Hc. eapply evt_S; [exact H|]. cbn beta. intros m Hm. rewrite p_list_S, Hm. cbn [pbind].
  unfold closing in Hc. rewrite Hc, orb_true_r. reflexivity.
Qed.
Lemma cmd_of_compound : forall t0 c t1, cstart t0 -> evt (fun m => p_compound m t0 = POk (Some c, t1)) -> evt (fun m => p_command m t0 = POk (c, t1)).
Proof.
  intros t0 c t1 ((_ & _ & Hc) & Hb & Hi) H. eapply evt_S; [exact H|]. cbn beta. intros m Hm. rewrite p_command_S, Hc, !tt_eqb_neq by auto.
  cbn [orb]. rewrite Hm. reflexivity.
Qed.
Lemma compound_done : forall t0 c t1, cstart t0 -> evt (fun m => p_compound m t0 = POk (Some (norm c), t1)) ->
  cstart t0 /\ evt (fun m => p_command m t0 = POk (norm c, t1)) /\ (gbody c -> evt (fun m => p_compound m t0 = POk (Some (norm c), t1))).
Proof. intros t0 c t1 H H'. split; auto. split; auto. apply cmd_of_compound; auto. Qed.
Lemma name_last : forall s, is_name s = true -> exists c s', s = s' ++ [c] /\ is_name_char L c = true.
Proof.
  intros s H. unfold ParseModel.is_name in H. destruct s as [|c s]; [discriminate|]. unfold skip_name in H.
  destruct (iswdigit c); [discriminate|].
  assert (G : forall s, snd (take_name L s) = [] -> forallb (is_name_char L) s = true).
  { clear. induction s as [|c s IH]; intros H; auto. cbn [take_name forallb] in *. destruct (is_name_char L c); [|discriminate H].
    destruct (take_name L s). cbn [snd andb] in *. auto. }
  destruct (snd (take_name L (c :: s))) eqn:E; [|discriminate]. apply G in E. clear G H. revert E. assert (Hne : c :: s <> []) by discriminate. revert Hne. generalize (c :: s) as x.
  intros x Hne Hx. destruct (exists_last Hne) as (s' & d & ->). exists d, s'. split; auto. rewrite forallb_app in Hx. apply andb_true_iff in Hx. destruct Hx as [_ Hx].
  cbn [forallb] in Hx. rewrite andb_true_r in Hx. exact Hx.
Qed.
Lemma closes_ind : forall k r tc, next_token r = POk tc -> closing tc -> closes (ind k ++ r) tc.
Proof.
  intros k r tc H Hc. exists tc, false. rewrite ind_next. split; auto. split; auto. apply newlines_no. apply closing_nl. auto.
Qed.
Lemma closes_nl : forall k r tc, next_token r = POk tc -> closing tc -> closes (nl ++ ind k ++ r) tc.
Proof.
  intros k r tc H Hc. destruct (nl_tok k r tc H (closing_nl tc Hc)) as (tn & E & He & _). exists tn, ml. auto.
Qed.
Lemma body_back : forall l, R_aos l -> gaos l -> forall k r tc, next_token r = POk tc -> closing tc ->
  exists tb, next_token (nl ++ k_body l (S k) ++ ind k ++ r) = POk tb /\ evt (fun m => p_list m false tb = POk (norm_aos l, tc)).
Proof.
  intros l R G k r tc Ht Hc. rewrite k_body_eq. destruct l as [|p a l].
  - destruct (closes_nl k r tc Ht Hc) as (t & b & E & He & _). exists t. split; auto. eapply list_nil; eauto.
  - destruct (R G ltac:(discriminate) false (S k) (ind k ++ r) tc (closes_ind k r tc Ht Hc) ltac:(discriminate)) as (t & E & Hp & He).
    rewrite <- app_assoc. destruct (nl_tok (S k) _ t E (proj1 Hp)) as (tn & En & Hn & _). exists tn. split; auto. eapply He; eauto.
Qed.
Lemma cond_back : forall l, R_aos l -> gaos l -> forall k r tc, next_token r = POk tc -> closing tc ->
  exists tb, next_token (k_aos l (S k) false ++ match l with ANil => [] | _ => ind k end ++ r) = POk tb /\ evt (fun m => p_list m false tb = POk (norm_aos l, tc)).
Proof.
  intros l R G k r tc Ht Hc. destruct l as [|p a l].
  - exists tc. split; auto. eapply list_nil; eauto. apply newlines_no. apply closing_nl. auto.
  - destruct (R G ltac:(discriminate) false (S k) (ind k ++ r) tc (closes_ind k r tc Ht Hc) ltac:(discriminate)) as (t & E & Hp & He).
    exists t. split; auto. eapply He; [apply newlines_no; apply Hp|auto].
Qed.
Lemma kw_tok : forall s ty r, In (s, ty) keywords -> dstop r -> next_token (s ++ r) = POk (mkTok ty (Some [UStr s]) r).
Proof.
  intros s ty r H Hr. rewrite tok_plain; auto.
  - cbn in H. repeat destruct H as [H|H]; [injection H as <- <-; reflexivity..|destruct H].
  - cbn in H. repeat destruct H as [H|H]; [injection H as <- <-; discriminate..|destruct H].
  - cbn in H. repeat destruct H as [H|H]; [injection H as <- <-; reflexivity..|destruct H].
Qed.
Ltac kw := apply kw_tok; [cbn; tauto|].

Lemma patterns_back : forall ps r t1, ps <> [] -> Forall gword ps -> next_token r = POk t1 ->
  exists t0, next_token (print_patterns X sp_print ps ++ str ")" ++ r) = POk t0 /\ evt (fun m => p_patterns m t0 = POk (ps, t1)).
Proof.
  induction ps as [|w ps IH]; intros r t1 Hn H Ht; [congruence|]. inversion H as [|? ? H1 H2]; subst. destruct ps as [|w' ps].
  - cbn [print_patterns]. rewrite tok_word by (auto; cbn; auto 10). eexists. split; [reflexivity|]. apply evt_S0. intros m.
    cbn [ParseModel.p_patterns ParseModel.tk_word].
    assert (E : next_token (str ")" ++ r) = POk (mkTok TT_RPAREN None r)) by (apply tok_char; [reflexivity|cbn; auto 10]).
    ntr E. cbn [ParseModel.tk_type]. teq. cbv iota. ntr Ht. reflexivity.
  - destruct (IH r t1 ltac:(discriminate) H2 Ht) as (t' & E' & He). set (ps' := w' :: ps) in *.
    change (print_patterns X sp_print (w :: ps')) with (print_word w ++ str " | " ++ print_patterns X sp_print ps').
    rewrite <- !app_assoc. rewrite tok_word by (auto; apply dstop_space). eexists. split; [reflexivity|].
    eapply evt_S; [exact He|]. cbn beta. intros m Hm. cbn [ParseModel.p_patterns ParseModel.tk_word].
    set (s := print_patterns X sp_print ps' ++ str ")" ++ r) in *.
    assert (E : next_token (str " | " ++ s) = POk (mkTok TT_PIPE None (32 :: s))).
    { change (str " | " ++ s) with (32 :: ch "|" :: 32 :: s). rewrite sp_next. apply tok_char; [optac|cbn; auto 10]. }
    ntr E. cbn [ParseModel.tk_type]. teq. cbv iota. assert (E2 : next_token (32 :: s) = POk t') by (rewrite sp_next; auto).
    ntr E2. rewrite Hm. reflexivity.
Qed.

Theorem round : (forall c, R_cmd c) /\ (forall c, R_cmds c) /\ (forall p, R_pls p) /\ (forall l, R_aos l) /\
  (forall l, R_ifs l) /\ (forall l, R_cis l).
Proof.
  apply tree_mut.
  - (* simple *)
    intros a ws rs (Ha & Hw & Hrs & Hg & Hn) k r t1 Hr Ht Hf. destruct (quote_first_ok ws a Hw Hg) as (Q1 & Q2 & Q3).
    destruct (simple_back a (quote_first a ws) rs r t1 Ha Q1 Q2 Hrs Hr Ht Hf) as (t0 & E0 & Et & He).
    exists t0.
    assert (Hq : quote_first a ws = [] -> ws = []) by (destruct a, ws as [|[|[s'|] [|]] ws]; cbn; congruence).
    assert (Ty : tk_type t0 = TT_WORD \/ tk_type t0 = TT_IO_NUMBER).
    { destruct a; [|auto]. destruct (quote_first [] ws) as [|w ws'] eqn:Eq; [|left; congruence]. right. apply Et.
      rewrite Hq in Hn by auto. intuition congruence. }
    split.
    { cbn [ParseText.k_cmd]. unfold k_simple.
      set (l := map a_text a ++ _) in *. destruct l as [|x l0]; [exact E0|].
      cbn [join]. cbn [spaced flat_map app] in E0. rewrite sp_next in E0. exact E0. }
    split; [unfold cstart, pstart; destruct Ty as [-> | ->]; repeat split; discriminate|]. split; [|intros []].
    eapply evt_S; [eapply evt_and; [exact He|]|].
    { eapply evt_S0 with (Q := fun m => p_compound m t0 = POk (None, t0)). intros m. rewrite p_compound_S. destruct Ty as [-> | ->]; reflexivity. }
    cbn beta. intros m [Hm Hc]. rewrite p_command_S.
    replace (is t0 TT_BANG || is t0 TT_IN || is_closing_tokentype (tk_type t0)) with false by (destruct Ty as [-> | ->]; reflexivity).
    rewrite Hc. cbn [pbind]. rewrite Hm. cbn [pbind norm ParseSpec.norm].
    destruct Hf as (_ & _ & _ & Hf). rewrite tt_eqb_neq by auto.
    destruct a; [|reflexivity]. destruct (quote_first [] ws) eqn:Eq; [|reflexivity]. destruct rs; [|reflexivity].
    rewrite Hq in Hn by auto. intuition congruence.
  - (* group *)
    intros l R rs (Gl & Grs) k r t1 Hr Ht Hf. destruct (redirs_back rs r t1 Grs Hr Ht Hf) as (t2 & E2 & H2).
    assert (Ec : next_token (str "}" ++ rt rs ++ r) = POk (mkTok TT_RBRACE (Some [UStr (str "}")]) (rt rs ++ r))) by (kw; apply spaced_dstop; auto).
    destruct (body_back l R Gl k _ _ Ec eq_refl) as (tb & Eb & Hb).
    assert (E0 : next_token (k_cmd (CGroup l rs) k ++ r) = POk (mkTok TT_LBRACE (Some [UStr (str "{")]) (nl ++ k_body l (S k) ++ ind k ++ str "}" ++ rt rs ++ r))).
    { cbn [ParseText.k_cmd]. rewrite <- !app_assoc. kw. apply nl_dstop. }
    rewrite E0. eexists. split; [reflexivity|]. apply compound_done; [repeat split; discriminate|].
    eapply evt_S; [exact (evt_and _ _ Hb H2)|]. cbn beta. intros m [Hm1 Hm2]. rewrite p_compound_S. cbn [ParseModel.tk_type]. cbv iota zeta.
    ntr Eb. rewrite Hm1. cbn [pbind]. unfold ParseModel.expect. cbn [ParseModel.tk_type]. teq. cbv iota. ntr E2. rewrite Hm2. reflexivity.
  - (* subshell *)
    intros l R rs (Gl & Grs) k r t1 Hr Ht Hf. destruct (redirs_back rs r t1 Grs Hr Ht Hf) as (t2 & E2 & H2).
    assert (Ec : next_token (str ")" ++ rt rs ++ r) = POk (mkTok TT_RPAREN None (rt rs ++ r))) by (apply tok_char; [reflexivity|cbn; auto 10]).
    assert (Hb : exists tb, next_token (k_aos l (S k) true ++ str ")" ++ rt rs ++ r) = POk tb /\ evt (fun m => p_list m false tb = POk (norm_aos l, mkTok TT_RPAREN None (rt rs ++ r)))).
    { destruct l as [|p a l].
      - eexists. split; [exact Ec|]. eapply list_nil; [apply newlines_no; discriminate|reflexivity].
      - destruct (R Gl ltac:(discriminate) true (S k) (str ")" ++ rt rs ++ r) (mkTok TT_RPAREN None (rt rs ++ r))) as (t & E & Hp & He).
        + eexists _, false. split; [exact Ec|]. split; [apply newlines_no; discriminate|reflexivity].
        + intros _. split; [cbn; auto|]. intros t Et. rewrite Ec in Et. injection Et as <-. repeat split; discriminate.
        + exists t. split; auto. eapply He; [apply newlines_no; apply Hp|auto]. }
    destruct Hb as (tb & Eb & Hb).
    assert (E0 : next_token (k_cmd (CSubshell l rs) k ++ r) = POk (mkTok TT_LPAREN None (k_aos l (S k) true ++ str ")" ++ rt rs ++ r))).
    { cbn [ParseText.k_cmd]. rewrite <- !app_assoc. apply tok_char; [reflexivity|cbn; auto 10]. }
    rewrite E0. eexists. split; [reflexivity|]. apply compound_done; [repeat split; discriminate|].
    eapply evt_S; [exact (evt_and _ _ Hb H2)|]. cbn beta. intros m [Hm1 Hm2]. rewrite p_compound_S. cbn [ParseModel.tk_type]. cbv iota zeta.
    ntr Eb. rewrite Hm1. cbn [pbind]. unfold ParseModel.expect. cbn [ParseModel.tk_type]. teq. cbv iota. ntr E2. rewrite Hm2. reflexivity.
  - (* if *)
    intros l R rs (Gl & Gn & Grs) k r t1 Hr Ht Hf. destruct (redirs_back rs r t1 Grs Hr Ht Hf) as (t2 & E2 & H2).
    destruct (R Gl k (rt rs ++ r) t2 (spaced_dstop _ _ Hr) E2) as (Hi & _). destruct (Hi Gn) as (tb & Eb & Hb).
    assert (E0 : next_token (k_cmd (CIf l rs) k ++ r) = POk (mkTok TT_IF (Some [UStr (str "if")]) (32 :: k_ifs l k true ++ ind k ++ str "fi" ++ rt rs ++ r))).
    { cbn [ParseText.k_cmd]. rewrite <- !app_assoc. change (str "if ") with (str "if" ++ [32]). rewrite <- app_assoc. kw. apply dstop_space. }
    rewrite E0. eexists. split; [reflexivity|]. apply compound_done; [repeat split; discriminate|].
    eapply evt_S; [exact (evt_and _ _ Hb H2)|]. cbn beta. intros m [Hm1 Hm2]. rewrite p_compound_S. cbn [ParseModel.tk_type]. cbv iota zeta.
    rewrite <- sp_next in Eb. ntr Eb. rewrite Hm1. cbn [pbind]. rewrite Hm2. reflexivity.
  - (* for *)
    intros name ws l R rs ((Gn & Gw) & Gws & Gl & Grs) k r t1 Hr Ht Hf. destruct (redirs_back rs r t1 Grs Hr Ht Hf) as (t2 & E2 & H2).
    assert (Ec : next_token (str "done" ++ rt rs ++ r) = POk (mkTok TT_DONE (Some [UStr (str "done")]) (rt rs ++ r))) by (kw; apply spaced_dstop; auto).
    destruct (body_back l R Gl k _ _ Ec eq_refl) as (tb & Eb & Hb).
    set (D := nl ++ k_body l (S k) ++ ind k ++ str "done" ++ rt rs ++ r) in *.
    assert (Ed : next_token (str "do" ++ D) = POk (mkTok TT_DO (Some [UStr (str "do")]) D)) by (kw; apply nl_dstop).
    set (W := match ws with
      | Some ws => str " in" ++ spaced (map print_word ws) ++ (if ml then [] else str ";") ++ nl ++ ind k
      | None => [32]
      end ++ str "do" ++ D).
    assert (HW : dstop W /\ exists tw, next_token W = POk tw /\
       evt (fun m => exists t3, p_for_words m tw = POk (ws, t3) /\ exists b, p_newlines m t3 = POk (b, mkTok TT_DO (Some [UStr (str "do")]) D))).
    { subst W. destruct ws as [ws|].
      - split; [apply dstop_space|].
        destruct (nl_tok k _ _ Ed ltac:(discriminate)) as (tn & En & Hn & Hty).
        set (V := (if ml then [] else str ";") ++ nl ++ ind k ++ str "do" ++ D).
        assert (HV : dstop V /\ exists tv, next_token V = POk tv /\ tk_word tv = None /\
           (if is tv TT_SEMICOLON then nt tv else POk tv) = POk tn).
        { subst V. destruct ml eqn:Em.
          - split; [cbn; auto|]. destruct Hty as [Hty1 Hty2]. exists tn. split; [exact En|]. split; auto. rewrite Hty1. teq. reflexivity.
          - split; [cbn; auto|]. eexists. split; [apply (tok_char (ch ";") _ TT_SEMICOLON); [|cbn; auto 10]|].
            + unfold ParseText.nl. cbn [app]. optac.
            + split; [reflexivity|]. cbn [ParseModel.tk_type]. teq. cbv iota. unfold ParseModel.nt. cbn [ParseModel.tk_rest]. exact En. }
        destruct HV as (HV & tv & Ev & Hvw & Hvn).
        destruct (words_back ws false V tv Gws HV Ev Hvw ltac:(discriminate)) as (t3 & E3 & H3).
        assert (Ei : next_token (str " in" ++ spaced (map print_word ws) ++ V) = POk (mkTok TT_IN (Some [UStr (str "in")]) (spaced (map print_word ws) ++ V))).
        { change (str " in") with (32 :: str "in"). cbn [app]. rewrite sp_next. change (ch "i" :: ch "n" :: ?x) with (str "in" ++ x). kw. apply spaced_dstop. auto. }
        eexists. split; [rewrite <- !app_assoc; exact Ei|].
        eapply evt_impl; [exact (evt_and _ _ H3 (evt_and _ _ Hn (newlines_no (mkTok TT_IN (Some [UStr (str "in")]) (spaced (map print_word ws) ++ V)) ltac:(discriminate))))|].
        cbn beta. intros m (Hm1 & Hm2 & Hm3). exists tn. split; [|exists ml; auto]. unfold ParseModel.p_for_words. rewrite Hm3. cbn [pbind ParseModel.tk_type]. teq. cbv iota.
        ntr E3. rewrite Hm1. cbn [pbind]. rewrite Hvn. reflexivity.
      - split; [apply dstop_space|]. eexists. split; [cbn [app]; rewrite sp_next; exact Ed|].
        eapply evt_impl; [exact (newlines_no (mkTok TT_DO (Some [UStr (str "do")]) D) ltac:(discriminate))|].
        cbn beta. intros m Hm. eexists. split; [|exists false; exact Hm]. unfold ParseModel.p_for_words. rewrite Hm. reflexivity. }
    destruct HW as (HW & tw & Ew & Hw).
    assert (En : next_token (32 :: name ++ W) = POk (mkTok (identify_reserved_word [UStr name]) (Some [UStr name]) W)).
    { rewrite sp_next. replace (name ++ W) with (print_word [UStr name] ++ W) by (cbn [ParseModel.print_word]; rewrite app_nil_r; auto). apply tok_word; auto. }
    assert (E0 : next_token (k_cmd (CFor name ws l rs) k ++ r) = POk (mkTok TT_FOR (Some [UStr (str "for")]) (32 :: name ++ W))).
    { cbn [ParseText.k_cmd]. rewrite <- !app_assoc. change (str "for ") with (str "for" ++ [32]). rewrite <- app_assoc. kw. apply dstop_space. }
    rewrite E0. eexists. split; [reflexivity|]. apply compound_done; [repeat split; discriminate|].
    eapply evt_S; [exact (evt_and _ _ Hw (evt_and _ _ Hb H2))|]. cbn beta. intros m ((t3 & Hm1 & b & Hm2) & Hm3 & Hm4).
    rewrite p_compound_S. cbn [ParseModel.tk_type]. cbv iota zeta. ntr En. cbn [ParseModel.tk_word]. rewrite Gn. ntr Ew. rewrite Hm1. cbn [pbind].
    rewrite Hm2. cbn [pbind]. unfold ParseModel.expect. cbn [ParseModel.tk_type]. teq. cbv iota. ntr Eb. rewrite Hm3. cbn [pbind ParseModel.tk_type]. teq. cbv iota. ntr E2. rewrite Hm4. reflexivity.
  - (* while *)
    intros whl cond Rc body Rb rs (Gc & Gb & Grs) k r t1 Hr Ht Hf. destruct (redirs_back rs r t1 Grs Hr Ht Hf) as (t2 & E2 & H2).
    assert (Ec : next_token (str "done" ++ rt rs ++ r) = POk (mkTok TT_DONE (Some [UStr (str "done")]) (rt rs ++ r))) by (kw; apply spaced_dstop; auto).
    destruct (body_back body Rb Gb k _ _ Ec eq_refl) as (tb & Eb & Hb).
    set (D := nl ++ k_body body (S k) ++ ind k ++ str "done" ++ rt rs ++ r) in *.
    assert (Ed : next_token (str "do" ++ D) = POk (mkTok TT_DO (Some [UStr (str "do")]) D)) by (kw; apply nl_dstop).
    destruct (cond_back cond Rc Gc k _ _ Ed eq_refl) as (tc & Etc & Hc).
    assert (E0 : exists t0, next_token (k_cmd (CWhile whl cond body rs) k ++ r) = POk t0 /\
       tk_type t0 = (if whl then TT_WHILE else TT_UNTIL) /\ nt t0 = POk tc).
    { cbn [ParseText.k_cmd]. rewrite <- !app_assoc. destruct whl.
      - change (str "while ") with (str "while" ++ [32]). rewrite <- app_assoc. eexists. split; [kw; apply dstop_space|]. split; [reflexivity|].
        unfold ParseModel.nt. cbn [ParseModel.tk_rest app]. rewrite sp_next. exact Etc.
      - change (str "until ") with (str "until" ++ [32]). rewrite <- app_assoc. eexists. split; [kw; apply dstop_space|]. split; [reflexivity|].
        unfold ParseModel.nt. cbn [ParseModel.tk_rest app]. rewrite sp_next. exact Etc. }
    destruct E0 as (t0 & E0 & Ty & En). exists t0. split; auto. apply compound_done; [unfold cstart, pstart; rewrite Ty; destruct whl; repeat split; discriminate|].
    eapply evt_S; [exact (evt_and _ _ Hc (evt_and _ _ Hb H2))|]. cbn beta. intros m (Hm1 & Hm2 & Hm3).
    rewrite p_compound_S. rewrite Ty. destruct whl; cbv iota zeta; rewrite En; cbn [pbind]; rewrite Hm1; cbn [pbind]; unfold ParseModel.expect; cbn [ParseModel.tk_type]; teq; cbv iota; ntr Eb;
      rewrite Hm2; cbn [pbind ParseModel.tk_type]; teq; cbv iota; ntr E2; rewrite Hm3; reflexivity.
  - (* case *)
    intros w l R rs (Gw & Gl & Grs) k r t1 Hr Ht Hf. destruct (redirs_back rs r t1 Grs Hr Ht Hf) as (t2 & E2 & H2).
    assert (Ec : next_token (str "esac" ++ rt rs ++ r) = POk (mkTok TT_ESAC (Some [UStr (str "esac")]) (rt rs ++ r))) by (kw; apply spaced_dstop; auto).
    destruct (R Gl (S k) k _ _ Ec eq_refl) as (tb & Eb & Hb).
    set (D := nl ++ k_cis l (S k) ++ ind k ++ str "esac" ++ rt rs ++ r) in *.
    assert (Ei : next_token (str " in" ++ D) = POk (mkTok TT_IN (Some [UStr (str "in")]) D)).
    { change (str " in") with (32 :: str "in"). cbn [app]. rewrite sp_next. change (ch "i" :: ch "n" :: D) with (str "in" ++ D). kw. apply nl_dstop. }
    assert (Ew : next_token (32 :: print_word w ++ str " in" ++ D) = POk (mkTok (identify_reserved_word w) (Some w) (str " in" ++ D)))
      by (rewrite sp_next; apply tok_word; auto; apply dstop_space).
    assert (E0 : next_token (k_cmd (CCase w l rs) k ++ r) = POk (mkTok TT_CASE (Some [UStr (str "case")]) (32 :: print_word w ++ str " in" ++ D))).
    { cbn [ParseText.k_cmd]. rewrite <- !app_assoc. change (str "case ") with (str "case" ++ [32]). rewrite <- app_assoc. kw. apply dstop_space. }
    rewrite E0. eexists. split; [reflexivity|]. apply compound_done; [repeat split; discriminate|].
    eapply evt_S; [exact (evt_and _ _ Hb (evt_and _ _ H2 (newlines_no (mkTok TT_IN (Some [UStr (str "in")]) D) ltac:(discriminate))))|].
    cbn beta. intros m (Hm1 & Hm2 & Hm3). rewrite p_compound_S. cbn [ParseModel.tk_type]. cbv iota zeta. ntr Ew. cbn [ParseModel.tk_word]. ntr Ei.
    rewrite Hm3. cbn [pbind]. unfold ParseModel.expect. cbn [ParseModel.tk_type]. teq. cbv iota. ntr Eb. rewrite Hm1. cbn [pbind ParseModel.tk_type]. teq. cbv iota. ntr E2. rewrite Hm2. reflexivity.
  - (* [[ ]] *)
    intros e rs (Ge & Grs) k r t1 Hr Ht Hf. destruct (redirs_back rs r t1 Grs Hr Ht Hf) as (t2 & E2 & H2).
    assert (Ec : next_token (str "]]" ++ rt rs ++ r) = POk (mkTok TT_WORD (Some [UStr (str "]]")]) (rt rs ++ r)))
      by (rewrite tok_plain; [reflexivity|discriminate|reflexivity|apply spaced_dstop; auto]).
    destruct (dbexp_back e Ge) as (_ & _ & D). destruct (D _ _ Ec) as (tb & Eb & Hb & _).
    { split; [discriminate|]. split; [discriminate|]. intros w s Ew Es. injection Ew as <-. injection Es as <-. reflexivity. }
    { discriminate. }
    specialize (Hb ltac:(discriminate)).
    assert (E0 : next_token (k_cmd (CBracket e rs) k ++ r) = POk (mkTok TT_DOUBLE_LBRACKET (Some [UStr (str "[[")]) (32 :: d_text e 0 ++ str "]]" ++ rt rs ++ r))).
    { cbn [ParseText.k_cmd]. rewrite <- !app_assoc. change (str "[[ ") with (str "[[" ++ [32]). rewrite <- app_assoc. kw. apply dstop_space. }
    rewrite E0. eexists. split; [reflexivity|]. apply compound_done; [repeat split; discriminate|].
    eapply evt_S; [exact (evt_and _ _ Hb H2)|]. cbn beta. intros m (Hm1 & Hm2). rewrite p_compound_S. cbn [ParseModel.tk_type]. cbv iota zeta.
    rewrite <- sp_next in Eb. ntr Eb. rewrite Hm1. cbn [pbind]. unfold ParseModel.is_close. cbn [ParseModel.tk_word ParseModel.single_string].
    change (list_N_eqb (str "]]") (str "]]")) with true. cbv iota. ntr E2. rewrite Hm2. reflexivity.
  - (* function *)
    intros name body R (Gn & Gb & Gc) k r t1 Hr Ht Hf. destruct (R Gc k r t1 Hr Ht Hf) as (tb & Eb & Hbs & _ & Hb). specialize (Hb Gb).
    destruct (nl_tok k _ _ Eb (proj1 (proj1 Hbs))) as (tn & En & Hn & _).
    set (D := nl ++ ind k ++ k_cmd body k ++ r) in *. destruct Gn as ((Hlex & _) & Gn).
    assert (Er : next_token (ch ")" :: D) = POk (mkTok TT_RPAREN None D)) by (apply tok_char; [reflexivity|cbn; auto 10]).
    assert (El : next_token (ch "(" :: ch ")" :: D) = POk (mkTok TT_LPAREN None (ch ")" :: D))) by (apply tok_char; [reflexivity|cbn; auto 10]).
    assert (Dl : dstart L (ch "(" :: ch ")" :: D)) by (cbn [dstart]; rewrite (delim_ascii L Lok) by reflexivity; reflexivity).
    destruct (is_name_word name) eqn:Ein.
    + assert (Hs : exists s, name = [UStr s] /\ is_name s = true).
      { unfold ParseModel.is_name_word in Ein. destruct (single_string name) as [s|] eqn:Es; [|discriminate]. exists s. split; auto.
        destruct name as [|[s'|] [|]]; try discriminate. injection Es as ->. auto. }
      destruct Hs as (s & -> & His).
      assert (E0 : next_token (k_cmd (CFunc [UStr s] body) k ++ r) = POk (mkTok TT_WORD (Some [UStr s]) (ch "(" :: ch ")" :: D))).
      { cbn [ParseText.k_cmd]. rewrite Ein. cbn [app]. rewrite <- !app_assoc.
        change (str "()" ++ nl ++ ind k ++ k_cmd body k ++ r) with (ch "(" :: ch ")" :: D).
        rewrite (next_token_back L Lok X sp_parse sp_print EX); auto.
        - unfold word_type. change ((ch "(" =? ch "<") || (ch "(" =? ch ">")) with false. cbn [andb]. rewrite Gn. reflexivity.
        - intros _ s' E. cbn [ParseModel.print_word] in E. rewrite app_nil_r in E. subst s. apply name_last in His. destruct His as (c & s'' & His & Hc).
          apply app_inj_tail in His. destruct His as [_ <-]. unfold is_name_char, iswalnum in Hc. rewrite (lk_alpha L Lok) in Hc by reflexivity. discriminate Hc. }
      rewrite E0. eexists. split; [reflexivity|]. split; [repeat split; discriminate|]. split; [|intros HH; cbn [ParseText.gbody] in HH; congruence].
      assert (Hp : evt (fun m => p_simple m true (mkTok TT_WORD (Some [UStr s]) (ch "(" :: ch ")" :: D)) = POk ([], [[UStr s]], [], mkTok TT_LPAREN None (ch ")" :: D)))).
      { eapply evt_S; [eapply (evt_S0 (fun m => p_simple m false (mkTok TT_LPAREN None (ch ")" :: D)) = POk ([], [], [], mkTok TT_LPAREN None (ch ")" :: D)))); intros m; reflexivity|].
        cbn beta. intros m Hm. cbn [ParseModel.p_simple]. rewrite p_redir_none by (cbn [ParseModel.tk_type]; (reflexivity || discriminate)). cbn [pbind].
        unfold ParseModel.p_assign. cbn [ParseModel.tk_word].
        assert (Hsa : split_assign [UStr s] = None).
        { unfold ParseModel.is_name in His. destruct s as [|c s]; [discriminate|]. cbn [ParseModel.split_assign]. destruct (skip_name L (c :: s)) as [[|] [|]]; try reflexivity. discriminate His. }
        rewrite Hsa. cbn [pbind]. ntr El. rewrite Hm. reflexivity. }
      eapply evt_S; [eapply evt_and; [exact Hp|eapply evt_and; [exact Hn|eapply evt_and; [exact Hb|]]]|].
      { eapply evt_S0 with (Q := fun m => p_compound m (mkTok TT_WORD (Some [UStr s]) (ch "(" :: ch ")" :: D)) = POk (None, mkTok TT_WORD (Some [UStr s]) (ch "(" :: ch ")" :: D))).
        intros m. reflexivity. }
      cbn beta. intros m (Hm1 & Hm2 & Hm3 & Hm4). rewrite p_command_S. cbn [ParseModel.tk_type is_closing_tokentype]. teq. cbn [orb]. rewrite Hm4. cbn [pbind]. rewrite Hm1. cbn [pbind ParseModel.tk_type]. teq. cbv iota.
      rewrite Ein. ntr Er. unfold ParseModel.expect. cbn [ParseModel.tk_type]. teq. cbv iota. ntr En. rewrite Hm2. cbn [pbind]. rewrite Hm3. reflexivity.
    + assert (Ew : next_token (32 :: print_word name ++ ch "(" :: ch ")" :: D) = POk (mkTok (word_type X name (ch "(" :: ch ")" :: D)) (Some name) (ch "(" :: ch ")" :: D)))
        by (rewrite sp_next; apply (next_token_back L Lok X sp_parse sp_print EX); auto).
      assert (E0 : next_token (k_cmd (CFunc name body) k ++ r) = POk (mkTok TT_FUNCTION (Some [UStr (str "function")]) (32 :: print_word name ++ ch "(" :: ch ")" :: D))).
      { cbn [ParseText.k_cmd]. rewrite Ein. rewrite <- !app_assoc. change (str "function ") with (str "function" ++ [32]). rewrite <- app_assoc.
        change (str "()" ++ nl ++ ind k ++ k_cmd body k ++ r) with (ch "(" :: ch ")" :: D). kw. apply dstop_space. }
      rewrite E0. eexists. split; [reflexivity|]. apply compound_done; [repeat split; discriminate|].
      eapply evt_S; [exact (evt_and _ _ Hn Hb)|]. cbn beta. intros m (Hm1 & Hm2). rewrite p_compound_S. cbn [ParseModel.tk_type]. cbv iota zeta.
      ntr Ew. cbn [ParseModel.tk_word]. ntr El. unfold ParseModel.p_func_paren. cbn [ParseModel.tk_type]. teq. cbv iota. ntr Er. cbn [ParseModel.tk_type]. teq. cbv iota. ntr En.
      rewrite Hm1. cbn [pbind]. rewrite Hm2. reflexivity.
  - intros _ H. congruence.
  - (* pipeline *)
    intros c Rc cs Rcs (Gc & Gcs) _ k r t1 Hr Ht Hf Hp. cbn [ParseText.k_cmds norm_cmds ParseSpec.norm_cmds]. destruct cs as [|c' cs].
    + rewrite app_nil_r. destruct (Rc Gc k r t1 Hr Ht Hf) as (t0 & E0 & Hs & He & _). exists t0. split; auto. split; auto.
      eapply evt_S; [exact He|]. cbn beta. intros m Hm. rewrite p_commands_S, Hm. cbn [pbind]. rewrite tt_eqb_neq by auto. reflexivity.
    + destruct (Rcs Gcs ltac:(discriminate) k r t1 Hr Ht Hf Hp) as (t' & E' & Hs' & He'). set (cs' := CCons c' cs) in *.
      rewrite <- !app_assoc. set (D := k_cmds cs' k ++ r) in *.
      assert (Ep : next_token (str " | " ++ D) = POk (mkTok TT_PIPE None (32 :: D))).
      { change (str " | " ++ D) with (32 :: ch "|" :: 32 :: D). rewrite sp_next. apply tok_char; [optac|cbn; auto 10]. }
      destruct (Rc Gc k (str " | " ++ D) _ (dstop_space _) Ep) as (t0 & E0 & Hs & He & _); [repeat split; discriminate|].
      exists t0. split; auto. split; auto. eapply evt_S; [exact (evt_and _ _ He (evt_and _ _ He' (newlines_no t' (proj1 (proj1 Hs')))))|].
      cbn beta. intros m (Hm1 & Hm2 & Hm3). rewrite p_commands_S, Hm1. cbn [pbind ParseModel.tk_type]. teq. cbv iota. rewrite <- sp_next in E'. ntr E'.
      rewrite Hm3. cbn [pbind]. rewrite Hm2. reflexivity.
  - intros _ H. congruence.
  - (* and-or list *)
    intros cs Rcs neg cond p Rp (Gn & Gcs & Gp) _ k r t1 Hr Ht Hf. cbn [ParseText.k_pls ParseSpec.norm_pls ParseText.pcond].
    set (T := match p with PNil => [] | PCons _ _ cond _ => 32 :: str (if cond then "&&" else "||") ++ nl ++ ind k ++ k_pls p k end).
    assert (HT : exists tt', dstop (T ++ r) /\ next_token (T ++ r) = POk tt' /\ fol tt' /\ tk_type tt' <> TT_PIPE /\
      evt (fun m => (if is tt' TT_AMPAMP || is tt' TT_PIPEPIPE then
        let! t2 := nt tt' in
        let! (_, t3) := p_newlines m t2 in
        let! (p, t4) := p_pipelines m (is tt' TT_AMPAMP) t3 in
        POk (PCons (norm_cmds cs) neg cond p, t4)
      else POk (PCons (norm_cmds cs) neg cond PNil, tt')) = POk (PCons (norm_cmds cs) neg cond (norm_pls p), t1))).
    { destruct p as [|cs' neg' cond' p].
      - exists t1. cbn [app T]. destruct Hf as (Hf & H1 & H2 & H3). split; auto. split; auto. split; auto. split; auto. apply evt_all. intros m.
        rewrite !tt_eqb_neq by auto. reflexivity.
      - destruct (Rp Gp ltac:(discriminate) k r t1 Hr Ht Hf) as (t' & E' & Hs' & He').
        destruct (nl_tok k _ _ E' (proj1 Hs')) as (tn & En & Hn & _). set (p' := PCons cs' neg' cond' p) in *.
        subst T. cbn [app]. rewrite <- !app_assoc. set (D := nl ++ ind k ++ k_pls p' k ++ r) in *.
        exists (mkTok (if cond' then TT_AMPAMP else TT_PIPEPIPE) None D). split; [apply dstop_space|]. split; [|split; [|split]].
        + rewrite sp_next. destruct cond'; (apply next_token_op; [optac|apply (blank_ascii L Lok); reflexivity|discriminate|discriminate]).
        + destruct cond'; repeat split; discriminate.
        + destruct cond'; discriminate.
        + eapply evt_impl; [exact (evt_and _ _ Hn He')|]. cbn beta. intros m (Hm1 & Hm2).
          destruct cond'; cbn [ParseModel.tk_type]; teq; cbn [orb]; ntr En; rewrite Hm1; cbn [pbind]; cbn [ParseText.pcond] in Hm2; subst p'; cbn [ParseText.pcond] in Hm2; rewrite Hm2; reflexivity. }
    destruct HT as (tt' & Hd & Et & Hft & Hpp & HeT).
    destruct (Rcs Gcs Gn k (T ++ r) tt' Hd Et Hft Hpp) as (t0 & E0 & Hs & He).
    destruct neg.
    + exists (mkTok TT_BANG (Some [UStr (str "!")]) (32 :: k_cmds cs k ++ T ++ r)). split; [|split].
      * rewrite <- !app_assoc. change (str "! ") with (str "!" ++ [32]). rewrite <- app_assoc. kw. apply dstop_space.
      * repeat split; discriminate.
      * eapply evt_S; [exact (evt_and _ _ He HeT)|]. cbn beta. intros m (Hm1 & Hm2). rewrite p_pipelines_S. cbn [ParseModel.tk_type]. teq. cbv iota zeta.
        rewrite <- sp_next in E0. ntr E0. rewrite Hm1. cbn [pbind]. exact Hm2.
    + exists t0. rewrite <- !app_assoc. split; [exact E0|]. split; [apply Hs|].
      eapply evt_S; [exact (evt_and _ _ He HeT)|]. cbn beta. intros m (Hm1 & Hm2). rewrite p_pipelines_S. rewrite tt_eqb_neq by apply Hs. cbv iota zeta. cbn [pbind].
      rewrite Hm1. cbn [pbind]. exact Hm2.
  - intros _ H. congruence.
  - (* list *)
    intros p Rp async l Rl ((Gn & Gc) & Gp & Gl) _ o k r tc Hcl Hro.
    set (more := match l with ANil => negb o | ACons _ _ _ => true end).
    set (T := (if async then str "&" else if negb ml && more then str ";" else []) ++ (if more then nl else []) ++
       match l with ANil => [] | ACons _ _ _ => ind k ++ k_aos l k o end ++ r).
    assert (HU : exists tu, next_token ((if more then nl else []) ++ match l with ANil => [] | ACons _ _ _ => ind k ++ k_aos l k o end ++ r) = POk tu /\
       (forall need, (need = true -> ml = true \/ l = ANil) -> evt (fun m => p_list m need tu = POk (norm_aos l, tc))) /\
       (more = true -> ml = true -> tk_type tu = TT_NEWLINE /\ tk_word tu = None)).
    { destruct l as [|p' a' l].
      - destruct Hcl as (t & b & Et & Hb & Hc). subst more. destruct o; cbn [negb].
        + exists t. split; auto. split; [intros need _; eapply list_nil; eauto|discriminate].
        + cbn [app]. unfold ParseText.nl. destruct ml.
          * cbn [app]. rewrite (tok_char 10 _ TT_NEWLINE) by (try reflexivity; cbn; auto). eexists. split; [reflexivity|]. split; [|auto].
            intros need _. eapply list_nil; [|exact Hc]. eapply evt_S; [exact Hb|]. cbn beta. intros m Hm. cbn [ParseModel.p_newlines ParseModel.tk_type]. teq. cbv iota. ntr Et. rewrite Hm. reflexivity.
          * cbn [app]. rewrite sp_next. exists t. split; auto. split; [intros need _; eapply list_nil; eauto|discriminate].
      - destruct (Rl Gl ltac:(discriminate) o k r tc Hcl Hro) as (t & Et & Hs & He). subst more. cbv iota. rewrite <- app_assoc.
        destruct (nl_tok k _ _ Et (proj1 Hs)) as (tn & En & Hn & Hty). exists tn. split; auto. split.
        + intros need Hneed. eapply He; [exact Hn|]. destruct need; auto. destruct (Hneed eq_refl) as [H|H]; [rewrite H; auto|discriminate].
        + intros _ Hml. rewrite Hml in Hty. exact Hty. }
    destruct HU as (tu & Eu & Hu & Hut).
    assert (HT : exists t2, dstop T /\ next_token T = POk t2 /\ fol2 t2 /\
      evt (fun m => (if is t2 TT_AMP || is t2 TT_SEMICOLON then
          let! t3 := nt t2 in
          let! (l, t4) := p_list m false t3 in
          POk (ACons (norm_pls p) (is t2 TT_AMP) l, t4)
        else
          let! (l, t4) := p_list m true t2 in
          POk (ACons (norm_pls p) false l, t4)) = POk (ACons (norm_pls p) async (norm_aos l), tc))).
    { subst T. destruct async.
      - eexists. split; [cbn; auto|]. split; [|split].
        + apply (tok_char (ch "&") _ TT_AMP); [|cbn; auto 10]. 
          assert (Hh : match (if more then nl else []) ++ match l with ANil => [] | ACons _ _ _ => ind k ++ k_aos l k o end ++ r with c :: _ => c = 10 \/ c = 32 \/ c = ch ")" | [] => False end).
          { subst more. destruct l; [destruct o; cbn [negb app]|].
            - destruct (Hro eq_refl) as [H _]. exact H.
            - unfold ParseText.nl. destruct ml; cbn; auto.
            - unfold ParseText.nl. destruct ml; cbn; auto. }
          destruct (_ ++ _ ++ r) as [|c D]; [destruct Hh|].
          assert (Hlc : lc (c :: D) = c :: D) by (apply lc_other; destruct Hh as [-> | [-> | ->]]; discriminate).
          unfold operator. rewrite Hlc. destruct Hh as [-> | [-> | ->]]; reflexivity.
        + repeat split; discriminate.
        + eapply evt_impl; [exact (Hu false ltac:(discriminate))|]. cbn beta. intros m Hm. cbn [ParseModel.tk_type]. teq. cbn [orb]. ntr Eu. rewrite Hm. reflexivity.
      - destruct (negb ml && more) eqn:Emm.
        + apply andb_true_iff in Emm. destruct Emm as [Em1 Em2]. apply negb_true_iff in Em1. eexists. split; [cbn; auto|]. split; [|split].
          * apply (tok_char (ch ";") _ TT_SEMICOLON); [|cbn; auto 10]. rewrite Em2. unfold ParseText.nl. rewrite Em1. cbn [app]. optac.
          * repeat split; discriminate.
          * eapply evt_impl; [exact (Hu false ltac:(discriminate))|]. cbn beta. intros m Hm. cbn [ParseModel.tk_type]. teq. cbn [orb]. ntr Eu. rewrite Hm. reflexivity.
        + cbn [app]. exists tu. destruct more eqn:Emo.
          * cbn [app]. rewrite andb_true_r in Emm. apply negb_false_iff in Emm. destruct (Hut eq_refl Emm) as [Hu1 Hu2].
            split; [apply nl_dstop|]. split; [exact Eu|]. split; [unfold fol2, fol; rewrite Hu1, Hu2; repeat split; discriminate|].
            eapply evt_impl; [exact (Hu true (fun _ => or_introl Emm))|]. cbn beta. intros m Hm. rewrite Hu1. teq. cbn [orb]. rewrite Hm. reflexivity.
          * subst more. destruct l; [|discriminate]. destruct o; [|discriminate]. cbn [app] in *. destruct (Hro eq_refl) as [H1 H2]. destruct (H2 tu Eu) as (H3 & H4 & H5).
            split; [destruct r; [destruct H1|]; cbn; destruct H1 as [-> | [-> | ->]]; cbn; auto 10|]. split; [exact Eu|]. split; auto.
            eapply evt_impl; [exact (Hu true (fun _ => or_intror eq_refl))|]. cbn beta. intros m Hm. rewrite !tt_eqb_neq by auto. cbn [orb]. rewrite Hm. reflexivity. }
    destruct HT as (t2 & Hd & E2 & Hf2 & He2).
    destruct (Rp Gp Gn k T t2 Hd E2 Hf2) as (t0 & E0 & Hs & He). exists t0. split.
    { cbn [ParseText.k_aos]. cbv zeta. fold more. rewrite <- !app_assoc. exact E0. }
    split; auto. intros need t' b Hb Hneed. eapply evt_S; [exact (evt_and _ _ Hb (evt_and _ _ He He2))|]. cbn beta. intros m (Hm1 & Hm2 & Hm3).
    rewrite p_list_S, Hm1. cbn [pbind]. destruct Hs as (_ & Hs1 & Hs2). rewrite Hs2. rewrite tt_eqb_neq by auto.
    replace (negb b && need) with false by (destruct Hneed as [-> | ->]; [reflexivity|rewrite andb_false_r; reflexivity]). cbn [orb].
    rewrite Gc in Hm2. rewrite Hm2. cbn [pbind]. exact Hm3.
  - intros _ k r t1 Hr Ht. split; [congruence|discriminate].
  - (* if clauses *)
    intros cond Rc body Rb l Rl (Gc & Gb & Gl) k r t1 Hr Ht.
    assert (Efi : next_token (str "fi" ++ r) = POk (mkTok TT_FI (Some [UStr (str "fi")]) r)) by (kw; auto).
    split.
    + intros _. cbn [ParseText.k_ifs negb andb app].
      assert (HB : exists tb tc, next_token (nl ++ k_body body (S k) ++ k_ifs l k false ++ ind k ++ str "fi" ++ r) = POk tb /\
        evt (fun m => p_list m false tb = POk (norm_aos body, tc)) /\
        evt (fun m => (if is tc TT_ELSE then
            let! t4 := nt tc in let! (l, t5) := p_if m true t4 in POk (ICons (norm_aos cond) (norm_aos body) l, t5)
          else if is tc TT_ELIF then
            let! t4 := nt tc in let! (l, t5) := p_if m false t4 in POk (ICons (norm_aos cond) (norm_aos body) l, t5)
          else let! t4 := expect TT_FI tc in POk (ICons (norm_aos cond) (norm_aos body) INil, t4)) =
            POk (ICons (norm_aos cond) (norm_aos body) (norm_ifcs l), t1))).
      { destruct l as [|cond' body' l].
        - cbn [ParseText.k_ifs app]. destruct (body_back body Rb Gb k _ _ Efi eq_refl) as (tb & Eb & Hb). eexists tb, _. split; [exact Eb|]. split; [exact Hb|].
          apply evt_all. intros m. cbn [ParseModel.tk_type]. teq. cbv iota. unfold ParseModel.expect. cbn [ParseModel.tk_type]. teq. cbv iota. ntr Ht. reflexivity.
        - destruct (Rl Gl k r t1 Hr Ht) as (Hi & He).
          set (last := match cond' with ANil => match l with INil => true | ICons _ _ _ => false end | ACons _ _ _ => false end).
          destruct last eqn:Elast.
          + assert (Ecl : cond' = ANil /\ l = INil) by (subst last; destruct cond', l; try discriminate; auto). destruct Ecl as [-> ->].
            destruct (He body' eq_refl) as (te & Ee & Hel). cbn [ParseText.k_ifs negb andb]. rewrite <- !app_assoc.
            assert (Els : next_token (str "else" ++ nl ++ k_body body' (S k) ++ ind k ++ str "fi" ++ r) = POk (mkTok TT_ELSE (Some [UStr (str "else")]) (nl ++ k_body body' (S k) ++ ind k ++ str "fi" ++ r))) by (kw; apply nl_dstop).
            destruct (body_back body Rb Gb k _ _ Els eq_refl) as (tb & Eb & Hb). eexists tb, _. split; [exact Eb|]. split; [exact Hb|].
            eapply evt_impl; [exact Hel|]. cbn beta. intros m Hm. cbn [ParseModel.tk_type]. teq. cbv iota. ntr Ee. rewrite Hm. reflexivity.
          + destruct (Hi ltac:(discriminate)) as (te & Ee & Hel).
            assert (Ek : k_ifs (ICons cond' body' l) k false = ind k ++ str "elif " ++ k_ifs (ICons cond' body' l) k true).
            { cbn [ParseText.k_ifs]. cbv zeta. fold last. rewrite Elast. cbn [negb andb app]. rewrite <- !app_assoc. reflexivity. }
            rewrite Ek. rewrite <- !app_assoc. change (str "elif ") with (str "elif" ++ [32]). rewrite <- !app_assoc.
            assert (Els : next_token (str "elif" ++ [32] ++ k_ifs (ICons cond' body' l) k true ++ ind k ++ str "fi" ++ r) =
              POk (mkTok TT_ELIF (Some [UStr (str "elif")]) ([32] ++ k_ifs (ICons cond' body' l) k true ++ ind k ++ str "fi" ++ r))) by (kw; apply dstop_space).
            destruct (body_back body Rb Gb k _ _ Els eq_refl) as (tb & Eb & Hb). eexists tb, _. split; [exact Eb|]. split; [exact Hb|].
            eapply evt_impl; [exact Hel|]. cbn beta. intros m Hm. cbn [ParseModel.tk_type]. teq. cbv iota. rewrite <- sp_next in Ee. cbn [app]. ntr Ee. rewrite Hm. reflexivity. }
      destruct HB as (tb & tc & Eb & Hb & HR). rewrite <- !app_assoc.
      set (D := nl ++ k_body body (S k) ++ k_ifs l k false ++ ind k ++ str "fi" ++ r) in *.
      assert (Eth : next_token (str "then" ++ D) = POk (mkTok TT_THEN (Some [UStr (str "then")]) D)) by (kw; apply nl_dstop).
      destruct (cond_back cond Rc Gc k _ _ Eth eq_refl) as (t0 & E0 & H0). exists t0. split; [exact E0|].
      eapply evt_S; [exact (evt_and _ _ H0 (evt_and _ _ Hb HR))|]. cbn beta. intros m (Hm1 & Hm2 & Hm3). rewrite p_if_S. cbv iota. rewrite Hm1. cbn [pbind].
      unfold ParseModel.expect at 1. cbn [ParseModel.tk_type]. teq. cbv iota. ntr Eb. rewrite Hm2. cbn [pbind negb andb]. exact Hm3.
    + intros b Eq. injection Eq as -> -> ->. destruct (body_back b Rb Gb k _ _ Efi eq_refl) as (tb & Eb & Hb). exists tb. split; [exact Eb|].
      eapply evt_S; [exact Hb|]. cbn beta. intros m Hm. rewrite p_if_S. cbv iota. cbn [pbind]. rewrite Hm. cbn [pbind negb andb]. unfold ParseModel.expect. cbn [ParseModel.tk_type]. teq. cbv iota. ntr Ht. reflexivity.
  - intros _ k k0 r tc Ht Hty. cbn [ParseText.k_cis app]. destruct (nl_tok k0 r tc Ht ltac:(rewrite Hty; discriminate)) as (tn & En & Hn & _). exists tn. split; auto.
    eapply evt_S; [exact Hn|]. cbn beta. intros m Hm. rewrite p_cases_S, Hm. cbn [pbind]. rewrite Hty. teq. reflexivity.
  - (* case items *)
    intros pats body Rb l Rl (Gn & Gp & Gb & Gl) k k0 r tc Ht Hty. cbn [ParseText.k_cis].
    destruct (Rl Gl k k0 r tc Ht Hty) as (tl & El & Hl). rewrite <- !app_assoc. set (D := nl ++ k_cis l k ++ ind k0 ++ r) in *.
    assert (Es : next_token (str ";;" ++ D) = POk (mkTok TT_DOUBLE_SEMICOLON None D)).
    { apply next_token_op; [optac|apply (blank_ascii L Lok); reflexivity|discriminate|discriminate]. }
    assert (HB : exists tb, next_token (nl ++ match body with ANil => [] | ACons _ _ _ => ind (S k) ++ k_aos body (S k) true ++ nl end ++ ind (S k) ++ str ";;" ++ D) = POk tb /\
      evt (fun m => p_list m false tb = POk (norm_aos body, mkTok TT_DOUBLE_SEMICOLON None D))).
    { destruct body as [|p' a' body].
      - cbn [app]. destruct (nl_tok (S k) _ _ Es ltac:(discriminate)) as (tn & En & Hn & _). exists tn. split; auto. eapply list_nil; [exact Hn|reflexivity].
      - destruct (Rb Gb ltac:(discriminate) true (S k) (nl ++ ind (S k) ++ str ";;" ++ D) (mkTok TT_DOUBLE_SEMICOLON None D)) as (t & E & Hs & He).
        + apply closes_nl; auto. reflexivity.
        + intros _. split; [unfold ParseText.nl; destruct ml; cbn; auto|]. intros t Et. destruct (nl_tok (S k) _ _ Es ltac:(discriminate)) as (tn & En & _ & Htn).
          rewrite En in Et. injection Et as <-. unfold fol2, fol. destruct ml; [destruct Htn as [-> ->]|subst tn]; repeat split; discriminate.
        + rewrite <- !app_assoc. destruct (nl_tok (S k) _ _ E (proj1 Hs)) as (tn & En & Hn & _). exists tn. split; auto. eapply He; [exact Hn|auto]. }
    destruct HB as (tb & Eb & Hb). set (B := nl ++ match body with ANil => [] | ACons _ _ _ => _ end ++ ind (S k) ++ str ";;" ++ D) in *.
    destruct (patterns_back pats B tb Gn Gp Eb) as (tp & Ep & Hp).
    assert (E0 : next_token (str "(" ++ print_patterns X sp_print pats ++ str ")" ++ B) = POk (mkTok TT_LPAREN None (print_patterns X sp_print pats ++ str ")" ++ B)))
      by (apply tok_char; [reflexivity|cbn; auto 10]).
    destruct (nl_tok k _ _ E0 ltac:(discriminate)) as (tn & En & Hn & _). exists tn. split; [exact En|].
    eapply evt_S; [exact (evt_and _ _ Hn (evt_and _ _ Hp (evt_and _ _ Hb Hl)))|]. cbn beta. intros m (Hm1 & Hm2 & Hm3 & Hm4). rewrite p_cases_S, Hm1. cbn [pbind ParseModel.tk_type]. teq. cbv iota.
    ntr Ep. rewrite Hm2. cbn [pbind]. rewrite Hm3. cbn [pbind ParseModel.tk_type]. teq. cbv iota. ntr El. rewrite Hm4. reflexivity.
Qed.
End Ml.
End Round.
