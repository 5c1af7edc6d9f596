(** Reading a line always ends, and more fuel does not change the outcome. *)
From Coq Require Import Ascii String.
From Coq Require Import List NArith ZArith Bool Arith Lia.
From Coq Require Import ZifyBool ZifyN.
From Verif Require Import Common Locale NumModel ParseModel ParseSpec ParseLex ParseRound GramSpec GramSound GramComplete.
From Verif Require TestModel.
Import ListNotations.
Local Open Scope N_scope.
Local Open Scope pres_scope.

Lemma lc_len : forall s, (List.length (lc s) <= List.length s)%nat.
Proof.
  intros s. remember (List.length s) as k eqn:Ek. assert (H : (List.length s <= k)%nat) by lia. clear Ek. revert s H. induction k as [|k IH]; intros s H.
  - destruct s; cbn in *; lia.
  - destruct s as [|c [|d s]]; cbn [lc]; auto. destruct (_ && _); auto. cbn [List.length] in *. specialize (IH s). lia.
Qed.

Section Term.
Variable L : locale.
Hypothesis Lok : locale_ok L.
Variable X : Type.
Variable sp_parse : bool -> list N -> spres X.
Notation word := (word X).
Notation tok := (tok X).
Notation tk_type := (tk_type X).
Notation tk_word := (tk_word X).
Notation tk_rest := (tk_rest X).
Notation is t k := (tt_eqb (tk_type t) k).
Notation next_token := (next_token L X sp_parse).
Notation nt := (nt L X sp_parse).
Notation p_newlines := (p_newlines L X sp_parse).
Notation p_words := (p_words L X sp_parse).
Notation p_redir := (p_redir L X sp_parse).
Notation p_redirs := (p_redirs L X sp_parse).
Notation p_assign := (p_assign L X sp_parse).
Notation p_simple := (p_simple L X sp_parse).
Notation p_patterns := (p_patterns L X sp_parse).
Notation p_operand := (p_operand L X sp_parse).
Notation p_primary := (p_primary L X sp_parse).
Notation p_ors := (p_ors L X sp_parse).
Notation p_ands := (p_ands L X sp_parse).
Notation p_nots := (p_nots L X sp_parse).
Notation expect := (expect L X sp_parse).
Notation p_for_words := (p_for_words L X sp_parse).
Notation p_func_paren := (p_func_paren L X sp_parse).
Notation p_list := (p_list L X sp_parse).
Notation p_pipelines := (p_pipelines L X sp_parse).
Notation p_commands := (p_commands L X sp_parse).
Notation p_command := (p_command L X sp_parse).
Notation p_compound := (p_compound L X sp_parse).
Notation p_if := (p_if L X sp_parse).
Notation p_cases := (p_cases L X sp_parse).
Notation p_line := (p_line L X sp_parse).
Notation T_redir := (T_redir X).
Notation T_redirs := (T_redirs X).
Notation T_assign := (T_assign L X).
Notation T_simple := (T_simple L X).
Notation T_or := (T_or X).
Notation T_and := (T_and X).
Notation T_not := (T_not X).
Notation T_patterns := (T_patterns X).
Notation T_for := (T_for X).
Notation T_cmd := (T_cmd L X).
Notation T_comp := (T_comp L X).
Notation T_list := (T_list L X).
Notation T_pls := (T_pls L X).
Notation T_cmds := (T_cmds L X).
Notation T_ifs := (T_ifs L X).
Notation T_items := (T_items L X).
Notation T_line := (T_line L X).
Notation newlines := (newlines X).
Notation newline := (newline X).
Notation wd := (wd X).
Notation name := (name L).
Notation assigns := (assigns L X).

Notation T := (T L X sp_parse).
Notation seq := (seq L X sp_parse).
Notation parse_word := (parse_word L X sp_parse).
Notation len := (@List.length N).
(** An expansion takes at least one character. *)
Hypothesis shrinks : forall q s x r, sp_parse q s = SpSome x r -> (len r < len s)%nat.

Lemma pbind_nf : forall A B (x : pres A) (f : A -> pres B), x <> PFuel -> (forall a, x = POk a -> f a <> PFuel) -> pbind x f <> PFuel.
Proof. intros A B [a| | |] f H1 H2; cbn [pbind]; auto; discriminate. Qed.
Lemma to_quote_len : forall s q r, to_quote s = Some (q, r) -> (len r < len s)%nat.
Proof.
  induction s as [|c s IH]; intros q r H; cbn [to_quote] in H; [discriminate|]. destruct (_ =? _); [injection H as <- <-; cbn; lia|].
  destruct (to_quote s) as [[q' r']|]; [|discriminate]. injection H as <- <-. specialize (IH _ _ eq_refl). cbn. lia.
Qed.
Lemma word_nf : forall n q s acc, (len s < n)%nat -> parse_word n q s acc <> PFuel.
Proof.
  induction n as [|n IH]; intros q s acc H; [lia|]. cbn [ParseModel.parse_word]. pose proof (lc_len s) as Hl. destruct (lc s) as [|c s']; [destruct q; discriminate|].
  cbn [List.length] in Hl. destruct (_ && _); [discriminate|]. destruct (c =? ch "\"); [destruct s' as [|d s']; apply IH; cbn [List.length] in *; lia|].
  destruct (_ || _).
  - destruct (sp_parse q (c :: s')) as [x r| |] eqn:E; [| |discriminate].
    + apply shrinks in E. cbn [List.length] in E. apply pbind_nf; [apply IH; lia|]. intros [us r'] _. discriminate.
    + apply pbind_nf; [apply IH; lia|]. intros [us r'] _. discriminate.
  - destruct (_ && _).
    + destruct (to_quote s') as [[b r]|] eqn:E; [|discriminate]. apply to_quote_len in E. apply IH. lia.
    + destruct (c =? 34); apply IH; lia.
Qed.
Lemma word_len : forall n q s acc w r, parse_word n q s acc = POk (w, r) -> (len r <= len s)%nat.
Proof.
  induction n as [|n IH]; intros q s acc w r H; [discriminate|]. cbn [ParseModel.parse_word] in H. pose proof (lc_len s) as Hl. destruct (lc s) as [|c s']; [destruct q; [discriminate|]; injection H as <- <-; cbn; lia|].
  cbn [List.length] in Hl. destruct (_ && _); [injection H as <- <-; cbn [List.length]; lia|]. destruct (c =? ch "\"); [destruct s' as [|d s']; apply IH in H; cbn [List.length] in *; lia|].
  destruct (_ || _).
  - destruct (sp_parse q (c :: s')) as [x r'| |] eqn:E; [| |discriminate].
    + apply shrinks in E. cbn [List.length] in E. destruct (parse_word n q r' []) as [[us r1]| | |] eqn:E1; try discriminate. cbn [pbind] in H. injection H as <- <-. apply IH in E1. lia.
    + destruct (parse_word n q s' [c]) as [[us r1]| | |] eqn:E1; try discriminate. cbn [pbind] in H. injection H as <- <-. apply IH in E1. lia.
  - destruct (_ && _).
    + destruct (to_quote s') as [[b r']|] eqn:E; [|discriminate]. apply to_quote_len in E. apply IH in H. lia.
    + destruct (c =? 34); apply IH in H; lia.
Qed.
(** A word that does not start at a delimiter takes a character. *)
Lemma word_takes : forall n s acc w r, parse_word n false s acc = POk (w, r) -> match lc s with c :: _ => is_delim L c = false | [] => False end -> (len r < len s)%nat.
Proof.
  intros [|n] s acc w r H Hd; [discriminate|]. cbn [ParseModel.parse_word] in H. pose proof (lc_len s) as Hl. destruct (lc s) as [|c s']; [destruct Hd|].
  cbn [List.length] in Hl. rewrite Hd in H. cbn [negb andb] in H. destruct (c =? ch "\"); [destruct s' as [|d s']; apply word_len in H; cbn [List.length] in *; lia|].
  destruct (_ || _).
  - destruct (sp_parse false (c :: s')) as [x r'| |] eqn:E; [| |discriminate].
    + apply shrinks in E. cbn [List.length] in E. destruct (parse_word n false r' []) as [[us r1]| | |] eqn:E1; try discriminate. cbn [pbind] in H. injection H as <- <-. apply word_len in E1. lia.
    + destruct (parse_word n false s' [c]) as [[us r1]| | |] eqn:E1; try discriminate. cbn [pbind] in H. injection H as <- <-. apply word_len in E1. lia.
  - destruct (_ && _).
    + destruct (to_quote s') as [[b r']|] eqn:E; [|discriminate]. apply to_quote_len in E. apply word_len in H. lia.
    + destruct (c =? 34); apply word_len in H; lia.
Qed.
Lemma blanks_len : forall k s, (len s <= k)%nat -> (len (skip_blanks L s) <= len s)%nat /\
  match skip_blanks L s with c :: _ => iswblank L c = false /\ lc (skip_blanks L s) = skip_blanks L s | [] => True end.
Proof.
  induction k as [|k IH]; intros s H; [destruct s; cbn in *; [lia|lia]|].
  destruct s as [|c r]; cbn [ParseModel.skip_blanks]; [cbn; auto|]. cbn [List.length] in H. destruct (iswblank L c) eqn:Eb.
  - destruct (IH r ltac:(lia)) as [H1 H2]. split; [cbn [List.length]; lia|exact H2].
  - destruct r as [|d s']; [split; auto|]. destruct ((c =? ch "\") && (d =? 10)) eqn:E.
    + cbn [List.length] in H. destruct (IH s' ltac:(lia)) as [H1 H2]. split; [cbn [List.length]; lia|exact H2].
    + split; auto. split; auto. cbn [lc]. rewrite E. auto.
Qed.
Lemma newline_len : forall s, (len (to_newline s) <= len s)%nat.
Proof. induction s as [|c s IH]; cbn [to_newline]; auto. destruct (_ =? _); auto. cbn [List.length] in *. lia. Qed.
Lemma operator_len : forall s k r, operator s = Some (k, r) -> k = TT_END_OF_INPUT \/ (len r < len s)%nat.
Proof.
  intros [|c s] k r H; cbn [operator] in H; [injection H as <- <-; auto|]. pose proof (lc_len s) as Hl. cbn [List.length].
  assert (G : forall s0 s1 : list N, (len s0 <= len s1)%nat -> (len s0 < S (len s1))%nat) by (intros; lia).
  destruct (c =? 0); [injection H as <- <-; auto|]. right.
  destruct (c =? 10); [injection H as _ <-; lia|]. destruct (c =? _); [injection H as _ <-; lia|]. destruct (c =? _); [injection H as _ <-; lia|].
  assert (G2 : forall r0, (len (lc r0) <= len r0)%nat) by apply lc_len.
  repeat match type of H with
  | (if ?b then _ else _) = _ => destruct b
  | match (match lc s with _ => _ end) with _ => _ end = _ => destruct (lc s) as [|d s']; cbn [List.length] in Hl; cbn iota in H
  | match (if ?b then _ else _) with _ => _ end = _ => destruct b
  | match lc ?x with _ => _ end = _ => specialize (G2 x); destruct (lc x); cbn [List.length] in G2
  | Some _ = Some _ => injection H as _ <-
  end; cbn [List.length] in *; try lia; discriminate.
Qed.
Lemma nextt_nf : forall s, next_token s <> PFuel.
Proof.
  intros s. unfold ParseModel.next_token. cbv zeta. destruct (operator _) as [[k r]|]; [discriminate|]. apply pbind_nf; [apply word_nf; lia|]. intros [w r] _. discriminate.
Qed.
Lemma op_none_delim : forall c s, operator (c :: s) = None -> iswblank L c = false -> is_delim L c = false.
Proof.
  intros c s H Hb. unfold is_delim. rewrite Hb, orb_false_r. apply not_true_is_false. intros E. apply existsb_exists in E. destruct E as (x & Hx & Hc). apply N.eqb_eq in Hc. subst x.
  revert H. cbn [operator]. cbn in Hx. repeat (destruct Hx as [<-|Hx]; [cbn|]); try discriminate.
  all: try (repeat match goal with |- context [match ?x with _ => _ end] => destruct x end; discriminate). destruct Hx.
Qed.
Lemma nextt_len : forall s t, next_token s = POk t -> tk_type t = TT_END_OF_INPUT \/ (len (tk_rest t) < len s)%nat.
Proof.
  intros s t H. unfold ParseModel.next_token in H. cbv zeta in H. destruct (blanks_len (len s) s ltac:(auto)) as [H1 H2]. set (s1 := skip_blanks L s) in *.
  assert (H3 : (len (skip_comment s1) <= len s1)%nat).
  { unfold skip_comment. destruct s1 as [|c r]; auto. destruct (_ =? _); auto. pose proof (newline_len r). cbn [List.length]. lia. }
  destruct (operator (skip_comment s1)) as [[k r]|] eqn:E.
  - injection H as <-. cbn [ParseModel.tk_type ParseModel.tk_rest]. destruct (operator_len _ _ _ E); auto. right. lia.
  - destruct (parse_word _ false _ []) as [[w r]| | |] eqn:Ew; try discriminate. cbn [pbind] in H. injection H as <-. cbn [ParseModel.tk_rest]. right.
    assert (Hsame : skip_comment s1 = s1).
    { unfold skip_comment in *. destruct s1 as [|c r0]; auto. destruct (c =? ch "#"); auto. exfalso. clear - E. induction r0 as [|d r0 IH]; [discriminate|]. cbn [to_newline] in E.
      destruct (d =? 10) eqn:Ed; auto. apply N.eqb_eq in Ed. subst d. discriminate E. }
    rewrite Hsame in *. apply word_takes in Ew; [lia|]. destruct s1 as [|c r0]; [discriminate E|]. destruct H2 as [Hb Hlc]. rewrite Hlc. eapply op_none_delim; eauto.
Qed.
Definition mu (t : tok) : nat := if is t TT_END_OF_INPUT then O else S (len (tk_rest t)).
Lemma eof_again : forall t t', T t -> tk_type t = TT_END_OF_INPUT -> nt t = POk t' -> tk_type t' = TT_END_OF_INPUT.
Proof.
  intros t t' [s H] He Hn. unfold ParseModel.next_token in H. cbv zeta in H. destruct (operator _) as [[k r]|] eqn:E.
  - injection H as <-. cbn [ParseModel.tk_type] in He. subst k. unfold ParseModel.nt in Hn. cbn [ParseModel.tk_rest] in Hn.
    assert (Hr : r = [] \/ exists s0, r = 0 :: s0).
    { destruct (skip_comment _) as [|c s1]; cbn [operator] in E; [injection E as <-; auto|]. destruct (c =? 0) eqn:E0; [apply N.eqb_eq in E0; subst; injection E as <-; eauto|].
      exfalso. repeat match type of E with
      | (if ?b then _ else _) = _ => destruct b
      | match (match ?y with _ => _ end) with _ => _ end = _ => destruct y
      | match lc ?x with _ => _ end = _ => destruct (lc x)
      end; discriminate E. }
    destruct Hr as [->|[s0 ->]].
    + injection Hn as <-. reflexivity.
    + unfold ParseModel.next_token in Hn. cbn [ParseModel.skip_blanks] in Hn. rewrite (blank_ascii L Lok) in Hn by reflexivity.
      assert (Es : skip_comment (if c_blank 0 then skip_blanks L s0 else match s0 with [] => 0 :: s0 | d :: s' => if (0 =? ch "\") && (d =? 10) then skip_blanks L s' else 0 :: s0 end) = 0 :: s0) by (destruct s0; reflexivity).
      cbv zeta in Hn. rewrite Es in Hn. cbn in Hn. injection Hn as <-. reflexivity.
  - destruct (parse_word _ false _ []) as [[w r]| | |] eqn:Ew; try discriminate. cbn [pbind] in H. injection H as <-. cbn [ParseModel.tk_type] in He. exfalso. revert He. unfold word_type.
    destruct (_ && _); [discriminate|]. intros He. pose proof (identify_types X w) as G. rewrite He in G. cbn in G. intuition discriminate.
Qed.
Lemma mu_eof : forall t, tk_type t = TT_END_OF_INPUT -> mu t = O.
Proof. intros t H. unfold mu. rewrite H, tt_eqb_refl. auto. Qed.
Lemma nt_mu : forall t t', T t -> nt t = POk t' -> (mu t' <= mu t)%nat /\ (tk_type t <> TT_END_OF_INPUT -> (mu t' < mu t)%nat).
Proof.
  intros t t' Ht Hn. destruct (is t TT_END_OF_INPUT) eqn:E.
  - apply tt_eqb_eq in E. rewrite (mu_eof t' (eof_again t t' Ht E Hn)). split; [lia|congruence].
  - assert (H : (mu t' < mu t)%nat); [|lia]. unfold mu at 2. rewrite E. apply nextt_len in Hn. unfold mu. destruct Hn as [Hn|Hn]; [rewrite Hn, tt_eqb_refl; lia|]. destruct (is t' _); lia.
Qed.
Lemma seq_mu : forall ts t t', T t -> seq t ts t' -> (mu t' <= mu t)%nat /\ (ts <> [] -> tk_type t <> TT_END_OF_INPUT -> (mu t' < mu t)%nat).
Proof.
  induction ts as [|u ts IH]; intros t t' Ht H; [apply seq_nil_inv in H; subst; split; [lia|congruence]|].
  apply seq_cons_inv in H. destruct H as (-> & t1 & H1 & H2). destruct (nt_mu t t1 Ht H1) as [G1 G2]. destruct (IH t1 t' ltac:(eapply T_nt; eauto) H2) as [G3 _].
  split; [lia|]. intros _ G. specialize (G2 G). lia.
Qed.
Lemma nt_nf : forall t, nt t <> PFuel.
Proof. intros t. apply nextt_nf. Qed.
Lemma expect_nf : forall k t, expect k t <> PFuel.
Proof. intros k t. unfold ParseModel.expect. destruct (is t k); [apply nt_nf|discriminate]. Qed.

(** ** Small parts *)
Lemma word_eof : forall t w, T t -> tk_word t = Some w -> tk_type t <> TT_END_OF_INPUT.
Proof. intros t w Ht Hw. eapply word_type_no; eauto. cbn. tauto. Qed.
Lemma newlines_mu : forall n t b t', T t -> p_newlines n t = POk (b, t') -> T t' /\ (mu t' <= mu t)%nat /\ (tk_type t = TT_NEWLINE -> (mu t' < mu t)%nat).
Proof.
  intros n t b t' Ht H. apply newlines_sound in H. destruct H as (ns & Hs & Hns & _ & Hn). split; [eapply seq_T; eauto|]. destruct (seq_mu _ _ _ Ht Hs) as [H1 H2]. split; auto.
  intros E. apply H2; [|rewrite E; discriminate]. intros ->. apply seq_nil_inv in Hs. congruence.
Qed.
Lemma newlines_nf : forall n t, T t -> (10 * mu t < n)%nat -> p_newlines n t <> PFuel.
Proof.
  induction n as [|n IH]; intros t Ht H; [lia|]. cbn [ParseModel.p_newlines]. destruct (is t TT_NEWLINE) eqn:E; [|discriminate]. apply tt_eqb_eq in E.
  apply pbind_nf; [apply nt_nf|]. intros t1 H1. destruct (nt_mu t t1 Ht H1) as [_ G]. specialize (G ltac:(rewrite E; discriminate)).
  apply pbind_nf; [apply IH; [eapply T_nt; eauto|lia]|]. intros [b t2] _. discriminate.
Qed.
Lemma words_nf : forall n nl t, T t -> (10 * mu t + 1 < n)%nat -> p_words n nl t <> PFuel.
Proof.
  induction n as [|n IH]; intros nl t Ht H; [lia|]. cbn [ParseModel.p_words]. destruct (nl && is t TT_NEWLINE)%bool eqn:E.
  - apply andb_true_iff in E. destruct E as [_ E]. apply tt_eqb_eq in E. apply pbind_nf; [apply newlines_nf; auto; lia|]. intros [b t1] H1.
    destruct (newlines_mu _ _ _ _ Ht H1) as (Ht1 & _ & G). specialize (G E). apply IH; auto. lia.
  - destruct (tk_word t) as [w|] eqn:Ew; [|discriminate]. apply pbind_nf; [apply nt_nf|]. intros t1 H1. destruct (nt_mu t t1 Ht H1) as [_ G]. specialize (G (word_eof t w Ht Ew)).
    apply pbind_nf; [apply IH; [eapply T_nt; eauto|lia]|]. intros [ws t2] _. discriminate.
Qed.
Lemma words_mu : forall n nl t ws t', T t -> p_words n nl t = POk (ws, t') -> T t' /\ (mu t' <= mu t)%nat.
Proof.
  intros n [|] t ws t' Ht H; [apply values_sound in H; destruct H as (ts & Hs & _)|apply words_sound in H; destruct H as (ts & Hs & _)]; (split; [eapply seq_T; eauto|apply (seq_mu _ _ _ Ht Hs)]).
Qed.
Lemma redir_nf : forall t, p_redir t <> PFuel.
Proof.
  intros t. unfold ParseModel.p_redir.
  assert (B : forall fd t0, (let! ty := redir_type (tk_type t0) in let! t1 := nt t0 in match tk_word t1 with None => PErr | Some w => let! t2 := nt t1 in POk (Some (mkRedir fd ty w, t2)) end) <> PFuel).
  { intros fd t0. apply pbind_nf; [destruct (tk_type t0); discriminate|]. intros k _. apply pbind_nf; [apply nt_nf|]. intros t1 _. destruct (tk_word t1); [|discriminate].
    apply pbind_nf; [apply nt_nf|]. discriminate. }
  destruct (is t TT_IO_NUMBER); [apply pbind_nf; [apply nt_nf|]; intros; apply B|]. destruct (default_fd (tk_type t)); [apply B|discriminate].
Qed.
Lemma redir_mu : forall t r t', T t -> p_redir t = POk (Some (r, t')) -> T t' /\ (mu t' < mu t)%nat.
Proof.
  intros t r t' Ht H. assert (He : tk_type t <> TT_END_OF_INPUT) by (intros E; unfold ParseModel.p_redir in H; rewrite E in H; discriminate H).
  apply (redir_sound L X sp_parse) in H; auto. destruct H as (ts & Hs & Hr). split; [eapply seq_T; eauto|]. apply (seq_mu _ _ _ Ht Hs); auto. destruct Hr; discriminate.
Qed.
Lemma redirs_nf : forall n t, T t -> (10 * mu t < n)%nat -> p_redirs n t <> PFuel.
Proof.
  induction n as [|n IH]; intros t Ht H; [lia|]. cbn [ParseModel.p_redirs]. apply pbind_nf; [apply redir_nf|]. intros [[r t1]|] H1; [|discriminate].
  destruct (redir_mu _ _ _ Ht H1) as [Ht1 G]. apply pbind_nf; [apply IH; auto; lia|]. intros [rs t2] _. discriminate.
Qed.
Lemma assign_nf : forall n t, T t -> (10 * mu t < n)%nat -> p_assign n t <> PFuel.
Proof.
  intros n t Ht H. unfold ParseModel.p_assign. destruct (tk_word t) as [w|] eqn:Ew; [|discriminate]. destruct (split_assign L X w) as [[nm v]|]; [|discriminate].
  apply pbind_nf; [apply nt_nf|]. intros t1 H1. destruct v; [|discriminate]. destruct (match tk_rest t with [] => false | c :: _ => c =? ch "(" end); [|discriminate].
  apply pbind_nf; [apply nt_nf|]. intros t2 H2. assert (Ht1 : T t1) by (eapply T_nt; eauto). destruct (nt_mu t t1 Ht H1) as [_ G1]. specialize (G1 (word_eof _ _ Ht Ew)). destruct (nt_mu t1 t2 Ht1 H2) as [G2 _].
  apply pbind_nf; [apply words_nf; [eapply T_nt; eauto|lia]|]. intros [vs t3] _. destruct (is t3 TT_RPAREN); [|discriminate]. apply pbind_nf; [apply nt_nf|]. discriminate.
Qed.
Lemma assign_mu : forall n t a t', T t -> p_assign n t = POk (Some (a, t')) -> T t' /\ (mu t' < mu t)%nat.
Proof.
  intros n t a t' Ht H. apply (assign_sound L Lok X sp_parse) in H. destruct H as (ts & Hs & Ha). split; [eapply seq_T; eauto|].
  destruct (assign_head _ _ _ _ Ha) as (u & w & nm & v & ts' & -> & Hw & _). apply (seq_mu _ _ _ Ht Hs); [discriminate|]. apply seq_cons_inv in Hs. destruct Hs as (-> & _). eapply word_eof; eauto.
Qed.
Lemma simple_nf : forall n b t, T t -> (10 * mu t + 1 < n)%nat -> p_simple n b t <> PFuel.
Proof.
  induction n as [|n IH]; intros b t Ht H; [lia|]. cbn [ParseModel.p_simple]. apply pbind_nf; [apply redir_nf|]. intros [[r t1]|] H1.
  - destruct (redir_mu _ _ _ Ht H1) as [Ht1 G]. apply pbind_nf; [apply IH; auto; lia|]. intros [[[a ws] rs] t2] _. discriminate.
  - apply pbind_nf; [destruct b; [apply assign_nf; auto; lia|discriminate]|]. intros [[a t1]|] H2.
    + destruct b; [|discriminate]. destruct (assign_mu _ _ _ _ Ht H2) as [Ht1 G]. apply pbind_nf; [apply IH; auto; lia|]. intros [[[a' ws] rs] t2] _. discriminate.
    + destruct (tk_word t) as [w|] eqn:Ew; [|discriminate]. apply pbind_nf; [apply nt_nf|]. intros t1 H3. destruct (nt_mu t t1 Ht H3) as [_ G]. specialize (G (word_eof _ _ Ht Ew)).
      apply pbind_nf; [apply IH; [eapply T_nt; eauto|lia]|]. intros [[[a' ws] rs] t2] _. discriminate.
Qed.
Lemma patterns_nf : forall n t, T t -> (10 * mu t < n)%nat -> p_patterns n t <> PFuel.
Proof.
  induction n as [|n IH]; intros t Ht H; [lia|]. cbn [ParseModel.p_patterns]. destruct (tk_word t) as [w|] eqn:Ew; [|discriminate].
  apply pbind_nf; [apply nt_nf|]. intros t1 H1. destruct (nt_mu t t1 Ht H1) as [_ G]. specialize (G (word_eof _ _ Ht Ew)). assert (Ht1 : T t1) by (eapply T_nt; eauto).
  destruct (is t1 TT_PIPE).
  - apply pbind_nf; [apply nt_nf|]. intros t2 H2. destruct (nt_mu t1 t2 Ht1 H2) as [G2 _]. apply pbind_nf; [apply IH; [eapply T_nt; eauto|lia]|]. intros [ws t3] _. discriminate.
  - destruct (is t1 TT_RPAREN); [|discriminate]. apply pbind_nf; [apply nt_nf|]. discriminate.
Qed.
Lemma operand_nf : forall t, p_operand t <> PFuel.
Proof. intros t. unfold ParseModel.p_operand. destruct (is_close X t); [discriminate|]. destruct (tk_word t); [|discriminate]. apply pbind_nf; [apply nt_nf|]. discriminate. Qed.
Lemma primary_nf : forall t, p_primary t <> PFuel.
Proof.
  intros t. unfold ParseModel.p_primary. match goal with |- match ?x with _ => _ end <> _ => destruct x end.
  - apply pbind_nf; [apply nt_nf|]. intros t1 _. apply pbind_nf; [apply operand_nf|]. intros [w t2] _. discriminate.
  - apply pbind_nf; [apply operand_nf|]. intros [w t1] _. cbv zeta. match goal with |- match ?x with _ => _ end <> _ => destruct x end; [|discriminate].
    destruct (list_N_eqb _ _); [discriminate|]. apply pbind_nf; [apply nt_nf|]. intros t2 _. apply pbind_nf; [apply operand_nf|]. intros [r t3] _. discriminate.
Qed.
Ltac same H := eapply seq_T; [|exact H]; auto.
Lemma db_nf : forall n,
  (forall t, T t -> (10 * mu t + 3 < n)%nat -> p_ors n t <> PFuel) /\
  (forall t, T t -> (10 * mu t + 2 < n)%nat -> p_ands n t <> PFuel) /\
  (forall t, T t -> (10 * mu t + 1 < n)%nat -> p_nots n t <> PFuel).
Proof.
  induction n as [|n (IH1 & IH2 & IH3)]; [repeat split; intros; lia|]. split; [|split].
  - intros t Ht H. rewrite p_ors_S. apply pbind_nf; [apply IH2; auto; lia|]. intros [e t1] H1. destruct (proj1 (proj2 (db_sound L X sp_parse n)) _ _ _ H1) as (ts & Hs & _).
    assert (Ht1 : T t1) by same Hs. destruct (is t1 TT_PIPEPIPE) eqn:E; [|discriminate]. apply tt_eqb_eq in E. destruct (seq_mu _ _ _ Ht Hs) as [G1 _].
    apply pbind_nf; [apply nt_nf|]. intros t2 H2. destruct (nt_mu t1 t2 Ht1 H2) as [_ G2]. specialize (G2 ltac:(rewrite E; discriminate)).
    apply pbind_nf; [apply IH1; [eapply T_nt; eauto|lia]|]. intros [e' t3] _. discriminate.
  - intros t Ht H. rewrite p_ands_S. apply pbind_nf; [apply IH3; auto; lia|]. intros [e t1] H1. destruct (proj2 (proj2 (db_sound L X sp_parse n)) _ _ _ H1) as (ts & Hs & _).
    assert (Ht1 : T t1) by same Hs. destruct (is t1 TT_AMPAMP) eqn:E; [|discriminate]. apply tt_eqb_eq in E. destruct (seq_mu _ _ _ Ht Hs) as [G1 _].
    apply pbind_nf; [apply nt_nf|]. intros t2 H2. destruct (nt_mu t1 t2 Ht1 H2) as [_ G2]. specialize (G2 ltac:(rewrite E; discriminate)).
    apply pbind_nf; [apply IH2; [eapply T_nt; eauto|lia]|]. intros [e' t3] _. discriminate.
  - intros t Ht H. rewrite p_nots_S. destruct (is t TT_BANG) eqn:E.
    + apply tt_eqb_eq in E. apply pbind_nf; [apply nt_nf|]. intros t2 H2. destruct (nt_mu t t2 Ht H2) as [_ G2]. specialize (G2 ltac:(rewrite E; discriminate)).
      apply pbind_nf; [apply IH3; [eapply T_nt; eauto|lia]|]. intros [e' t3] _. discriminate.
    + destruct (is t TT_LPAREN) eqn:E'; [|apply primary_nf]. apply tt_eqb_eq in E'. apply pbind_nf; [apply nt_nf|]. intros t2 H2. destruct (nt_mu t t2 Ht H2) as [_ G2]. specialize (G2 ltac:(rewrite E'; discriminate)).
      apply pbind_nf; [apply IH1; [eapply T_nt; eauto|lia]|]. intros [e' t3] _. destruct (is t3 TT_RPAREN); [|discriminate]. apply pbind_nf; [apply nt_nf|]. discriminate.
Qed.
Lemma for_nf : forall n t, T t -> (10 * mu t + 1 < n)%nat -> p_for_words n t <> PFuel.
Proof.
  intros n t Ht H. unfold ParseModel.p_for_words. apply pbind_nf; [apply newlines_nf; auto; lia|]. intros [b t1] H1. destruct (newlines_mu _ _ _ _ Ht H1) as (Ht1 & G1 & _).
  destruct (is t1 TT_IN) eqn:E.
  - apply pbind_nf; [apply nt_nf|]. intros t2 H2. destruct (nt_mu t1 t2 Ht1 H2) as [G2 _]. apply pbind_nf; [apply words_nf; [eapply T_nt; eauto|lia]|]. intros [ws t3] _.
    apply pbind_nf; [destruct (is t3 TT_SEMICOLON); [apply nt_nf|discriminate]|]. discriminate.
  - destruct (is t1 TT_SEMICOLON); [|discriminate]. destruct b; [discriminate|]. apply pbind_nf; [apply nt_nf|]. discriminate.
Qed.
Lemma for_mu : forall n t ws t', T t -> p_for_words n t = POk (ws, t') -> T t' /\ (mu t' <= mu t)%nat.
Proof.
  intros n t ws t' Ht H. unfold ParseModel.p_for_words in H. bnd1 H. destruct a as [b t1]. destruct (newlines_mu _ _ _ _ Ht E) as (Ht1 & G1 & _).
  destruct (is t1 TT_IN).
  - bnd1 H. bnd1 H. destruct a0 as [ws' t3]. assert (Ht2 : T a) by (eapply T_nt; eauto). destruct (nt_mu t1 a Ht1 E0) as [G2 _]. destruct (words_mu _ _ _ _ _ Ht2 E1) as [Ht3 G3].
    destruct (is t3 TT_SEMICOLON); cbn [pbind] in H.
    + bnd1 H. injection H as <- <-. destruct (nt_mu t3 a0 Ht3 E2) as [G4 _]. split; [eapply T_nt; eauto|lia].
    + injection H as <- <-. split; auto. lia.
  - destruct (is t1 TT_SEMICOLON).
    + destruct b; [discriminate|]. bnd1 H. injection H as <- <-. destruct (nt_mu t1 a Ht1 E0) as [G4 _]. split; [eapply T_nt; eauto|lia].
    + injection H as <- <-. auto.
Qed.
Lemma func_paren_nf : forall t, p_func_paren t <> PFuel.
Proof. intros t. unfold ParseModel.p_func_paren. destruct (is t _); [|discriminate]. apply pbind_nf; [apply nt_nf|]. intros t1 _. destruct (is t1 _); [apply nt_nf|discriminate]. Qed.
Lemma func_paren_mu : forall t t', T t -> p_func_paren t = POk t' -> T t' /\ (mu t' <= mu t)%nat.
Proof.
  intros t t' Ht H. unfold ParseModel.p_func_paren in H. destruct (is t _); [|injection H as <-; auto]. bnd1 H. destruct (is a _); [|injection H as <-; auto].
  assert (Ha : T a) by (eapply T_nt; eauto). destruct (nt_mu t a Ht E) as [G1 _]. destruct (nt_mu a t' Ha H) as [G2 _]. split; [eapply T_nt; eauto|lia].
Qed.

(** ** Commands *)
Notation S_ := (sound L Lok X sp_parse).
Lemma list_mu : forall n need t l t', T t -> p_list n need t = POk (l, t') -> T t' /\ (mu t' <= mu t)%nat.
Proof.
  intros n need t l t' Ht H. destruct (proj1 (proj2 (proj2 (S_ n))) _ _ _ _ Ht H) as [(_ & _ & ->)|(ns & ts & b & Hs & _)]; [auto|]. split; [same Hs|apply (seq_mu _ _ _ Ht Hs)].
Qed.
Lemma cmd_nonempty : forall c ts, T_cmd c ts -> ts <> [].
Proof. intros c ts H. destruct H as [| c ts H|]; try discriminate. destruct H; discriminate. Qed.
Lemma app_nonempty : forall A (a b : list A), b <> [] -> a ++ b <> [].
Proof. intros A [|x a] b H; [exact H|discriminate]. Qed.
Lemma cmds_nonempty : forall cs ts, T_cmds cs ts -> ts <> [].
Proof. intros cs ts H. destruct H as [c ts H|]; [eapply cmd_nonempty; eauto|apply app_nonempty; discriminate]. Qed.
Lemma pls_nonempty : forall p cond ts, T_pls p cond ts -> ts <> [].
Proof. intros p cond ts H. destruct H as [cond neg ns cs ts Hn H|]; apply app_nonempty; [eapply cmds_nonempty; eauto|apply app_nonempty; discriminate]. Qed.
Lemma pls_mu : forall n cond t p t', T t -> p_pipelines n cond t = POk (p, t') -> T t' /\ (mu t' <= mu t)%nat /\ (tk_type t <> TT_END_OF_INPUT -> (mu t' < mu t)%nat).
Proof.
  intros n cond t p t' Ht H. destruct (proj1 (proj2 (proj2 (proj2 (S_ n)))) _ _ _ _ Ht H) as (ts & Hs & Hp & _). split; [same Hs|]. destruct (seq_mu _ _ _ Ht Hs) as [G1 G2]. split; auto.
  apply G2. eapply pls_nonempty; eauto.
Qed.
Lemma cmds_mu : forall n t cs t', T t -> p_commands n t = POk (cs, t') -> T t' /\ (mu t' <= mu t)%nat.
Proof. intros n t cs t' Ht H. destruct (proj1 (proj2 (proj2 (proj2 (proj2 (S_ n))))) _ _ _ Ht H) as (ts & Hs & _). split; [same Hs|apply (seq_mu _ _ _ Ht Hs)]. Qed.
Lemma cmd_mu : forall n t c t', T t -> p_command n t = POk (c, t') -> T t' /\ (mu t' <= mu t)%nat.
Proof. intros n t c t' Ht H. destruct (proj1 (S_ n) _ _ _ Ht H) as (ts & Hs & _). split; [same Hs|apply (seq_mu _ _ _ Ht Hs)]. Qed.
Lemma ifs_mu : forall n t l t', T t -> p_if n false t = POk (l, t') -> T t' /\ (mu t' <= mu t)%nat.
Proof. intros n t l t' Ht H. destruct (proj1 (proj2 (proj2 (proj2 (proj2 (proj2 (S_ n)))))) _ _ _ Ht H) as (ts & Hs & _). split; [same Hs|apply (seq_mu _ _ _ Ht Hs)]. Qed.
Lemma items_mu : forall n t l t', T t -> p_cases n t = POk (l, t') -> tk_type t' = TT_ESAC -> T t' /\ (mu t' <= mu t)%nat.
Proof. intros n t l t' Ht H He. destruct (proj1 (proj2 (proj2 (proj2 (proj2 (proj2 (proj2 (S_ n))))))) _ _ _ Ht H He) as (ts & Hs & _). split; [same Hs|apply (seq_mu _ _ _ Ht Hs)]. Qed.
Lemma simple_mu : forall n b t a ws r t', T t -> p_simple n b t = POk (a, ws, r, t') -> T t' /\ (mu t' <= mu t)%nat.
Proof. intros n b t a ws r t' Ht H. destruct (simple_sound L Lok X sp_parse _ _ _ _ _ _ _ Ht H) as (ts & Hs & _). split; [same Hs|apply (seq_mu _ _ _ Ht Hs)]. Qed.
Lemma ors_mu : forall n t e t', T t -> p_ors n t = POk (e, t') -> T t' /\ (mu t' <= mu t)%nat.
Proof. intros n t e t' Ht H. destruct (proj1 (db_sound L X sp_parse n) _ _ _ H) as (ts & Hs & _). split; [same Hs|apply (seq_mu _ _ _ Ht Hs)]. Qed.
Lemma patterns_mu : forall n t ws t', T t -> p_patterns n t = POk (ws, t') -> T t' /\ (mu t' <= mu t)%nat.
Proof. intros n t ws t' Ht H. destruct (patterns_sound L X sp_parse _ _ _ _ H) as (ts & c & Hs & _). split; [same Hs|apply (seq_mu _ _ _ Ht Hs)]. Qed.
Lemma patterns_lt : forall n t ws t', T t -> p_patterns n t = POk (ws, t') -> T t' /\ (mu t' < mu t)%nat.
Proof.
  intros n t ws t' Ht H. destruct (patterns_sound L X sp_parse _ _ _ _ H) as (ts & c & Hs & Hp & _). split; [same Hs|]. apply (seq_mu _ _ _ Ht Hs); [apply app_nonempty; discriminate|].
  destruct Hp as [u w Hw|u w o ws ts Hw]; cbn [app] in Hs; apply seq_cons_inv in Hs; destruct Hs as (-> & _); eapply word_eof; eauto.
Qed.
Lemma expect_mu : forall k t t', T t -> expect k t = POk t' -> T t' /\ (mu t' <= mu t)%nat /\ tk_type t = k.
Proof. intros k t t' Ht H. apply expect_sound in H. destruct H as [He Hn]. split; [eapply T_nt; eauto|]. split; auto. apply (nt_mu t t' Ht Hn). Qed.
Lemma nt_mu' : forall t t', T t -> nt t = POk t' -> T t' /\ (mu t' <= mu t)%nat /\ (tk_type t <> TT_END_OF_INPUT -> (mu t' < mu t)%nat).
Proof. intros t t' Ht H. split; [eapply T_nt; eauto|apply nt_mu; auto]. Qed.

Definition F_list n := forall need t, T t -> (10 * mu t + 7 < n)%nat -> p_list n need t <> PFuel.
Definition F_pls n := forall cond t, T t -> (10 * mu t + 6 < n)%nat -> p_pipelines n cond t <> PFuel.
Definition F_cmds n := forall t, T t -> (10 * mu t + 5 < n)%nat -> p_commands n t <> PFuel.
Definition F_cmd n := forall t, T t -> (10 * mu t + 4 < n)%nat -> p_command n t <> PFuel.
Definition F_comp n := forall t, T t -> (10 * mu t + 3 < n)%nat -> p_compound n t <> PFuel.
Definition F_if n := forall b t, T t -> (10 * mu t + 8 < n)%nat -> p_if n b t <> PFuel.
Definition F_cases n := forall t, T t -> (10 * mu t + 1 < n)%nat -> p_cases n t <> PFuel.
Ltac ntx H := match type of H with nt ?t = POk ?t' => let a := fresh "NT" in let b := fresh "NM" in let c := fresh "NS" in destruct (nt_mu' t t' ltac:(assumption) H) as (a & b & c) end.
Ltac exx H := match type of H with expect ?k ?t = POk ?t' => let a := fresh "NT" in let b := fresh "NM" in let c := fresh "NS" in destruct (expect_mu k t t' ltac:(assumption) H) as (a & b & c) end.

Theorem nofuel : forall n, F_list n /\ F_pls n /\ F_cmds n /\ F_cmd n /\ F_comp n /\ F_if n /\ F_cases n.
Proof.
  induction n as [|n (IHl & IHp & IHcs & IHc & IHco & IHi & IHca)]; [repeat split; intros; unfold F_list, F_pls, F_cmds, F_cmd, F_comp, F_if, F_cases; intros; lia|].
  unfold F_list, F_pls, F_cmds, F_cmd, F_comp, F_if, F_cases. repeat split.
  - intros need t Ht H. rewrite p_list_S. apply pbind_nf; [apply newlines_nf; auto; lia|]. intros [nl t1] H1. destruct (newlines_mu _ _ _ _ Ht H1) as (Ht1 & G1 & _).
    destruct (is t1 TT_END_OF_INPUT) eqn:Ee; [rewrite orb_true_r; discriminate|]. destruct (_ || _ || _)%bool; [discriminate|].
    assert (He : tk_type t1 <> TT_END_OF_INPUT) by (intros E; rewrite E in Ee; discriminate).
    apply pbind_nf; [apply IHp; auto; lia|]. intros [p t2] H2. destruct (pls_mu _ _ _ _ _ Ht1 H2) as (Ht2 & _ & G2). specialize (G2 He). destruct (_ || _)%bool.
    + apply pbind_nf; [apply nt_nf|]. intros t3 H3. ntx H3. apply pbind_nf; [apply IHl; auto; lia|]. intros [l t4] _. discriminate.
    + apply pbind_nf; [apply IHl; auto; lia|]. intros [l t4] _. discriminate.
  - intros cond t Ht H. rewrite p_pipelines_S. cbv zeta. apply pbind_nf; [destruct (is t TT_BANG); [apply nt_nf|discriminate]|]. intros t0 H0.
    assert (Ht0 : T t0 /\ (mu t0 <= mu t)%nat) by (destruct (is t TT_BANG); [ntx H0; auto|injection H0 as <-; auto]). destruct Ht0 as [Ht0 G0].
    apply pbind_nf; [apply IHcs; auto; lia|]. intros [cs t1] H1. destruct (cmds_mu _ _ _ _ Ht0 H1) as [Ht1 G1]. destruct (is t1 TT_AMPAMP || is t1 TT_PIPEPIPE)%bool eqn:Eo; [|discriminate].
    assert (He : tk_type t1 <> TT_END_OF_INPUT) by (intros E; rewrite E in Eo; discriminate).
    apply pbind_nf; [apply nt_nf|]. intros t2 H2. ntx H2. assert (G2 : (mu t2 < mu t1)%nat) by auto. apply pbind_nf; [apply newlines_nf; auto; lia|]. intros [b t3] H3. destruct (newlines_mu _ _ _ _ ltac:(eassumption) H3) as (Ht3 & G3 & _).
    apply pbind_nf; [apply IHp; auto; lia|]. intros [p t4] _. discriminate.
  - intros t Ht H. rewrite p_commands_S. apply pbind_nf; [apply IHc; auto; lia|]. intros [c t1] H1. destruct (cmd_mu _ _ _ _ Ht H1) as [Ht1 G1]. destruct (is t1 TT_PIPE) eqn:Eo; [|discriminate].
    assert (He : tk_type t1 <> TT_END_OF_INPUT) by (intros E; rewrite E in Eo; discriminate).
    apply pbind_nf; [apply nt_nf|]. intros t2 H2. ntx H2. assert (G2 : (mu t2 < mu t1)%nat) by auto. apply pbind_nf; [apply newlines_nf; auto; lia|]. intros [b t3] H3. destruct (newlines_mu _ _ _ _ ltac:(eassumption) H3) as (Ht3 & G3 & _).
    apply pbind_nf; [apply IHcs; auto; lia|]. intros [p t4] _. discriminate.
  - intros t Ht H. rewrite p_command_S. destruct (_ || _ || _)%bool; [discriminate|]. apply pbind_nf; [apply IHco; auto; lia|]. intros [[c|] t1] _; [discriminate|].
    apply pbind_nf; [apply simple_nf; auto; lia|]. intros [[[a ws] r] t2] H2. destruct (simple_mu _ _ _ _ _ _ _ Ht H2) as [Ht2 G2].
    assert (Hne : forall k, is t2 TT_LPAREN = true -> (mu t2 < mu t)%nat -> (if is_name_word L X k then
        let! t3 := nt t2 in let! t4 := expect TT_RPAREN t3 in let! (_, t5) := p_newlines n t4 in let! (o, t6) := p_compound n t5 in
        match o with Some body => POk (CFunc k body, t6) | None => PErr end else PErr) <> PFuel).
    { intros k Hp Hlt. destruct (is_name_word L X k); [|discriminate]. apply pbind_nf; [apply nt_nf|]. intros t3 H3. ntx H3. apply pbind_nf; [apply expect_nf|]. intros t4 H4. exx H4.
      apply pbind_nf; [apply newlines_nf; auto; lia|]. intros [b t5] H5. destruct (newlines_mu _ _ _ _ ltac:(eassumption) H5) as (Ht5 & G5 & _).
      apply pbind_nf; [apply IHco; auto; lia|]. intros [[body|] t6] _; discriminate. }
    assert (Hw : ws <> [] -> a = [] -> r = [] -> (mu t2 < mu t)%nat).
    { intros Hw -> ->. destruct (simple_sound L Lok X sp_parse _ _ _ _ _ _ _ Ht H2) as (ts & Hs & Hsm & _). apply (seq_mu _ _ _ Ht Hs).
      - intros ->. inversion Hsm; subst; auto; match goal with E : _ ++ _ = [] |- _ => apply app_eq_nil in E; destruct E as [-> _] end; match goal with E : T_redir _ [] |- _ => inversion E | E : T_assign _ [] |- _ => inversion E end.
      - destruct ts as [|u ts]; [exfalso; inversion Hsm; subst; auto; match goal with E : _ ++ _ = [] |- _ => apply app_eq_nil in E; destruct E as [-> _] end; match goal with E : T_redir _ [] |- _ => inversion E | E : T_assign _ [] |- _ => inversion E end|].
        assert (u = t) by (apply seq_cons_inv in Hs; tauto). subst u. destruct (simple_head _ _ _ _ _ _ _ _ Hsm) as [[Hh|Hh] _].
        + destruct (tk_word t) as [w|] eqn:Ew; [|congruence]. eapply word_eof; eauto.
        + intros E. rewrite E in Hh. apply Hh. reflexivity. }
    destruct a as [|a0 a]; [|destruct (is t2 TT_LPAREN); discriminate]. destruct ws as [|w [|w' ws]]; destruct r as [|r0 r]; try discriminate; destruct (is t2 TT_LPAREN) eqn:Ep; try discriminate.
    apply Hne; auto. apply Hw; auto. discriminate.
  - intros t Ht H. rewrite p_compound_S. cbv zeta.
    assert (Fin : forall (k : list (redir X) -> cmd X) t0, T t0 -> (mu t0 <= mu t)%nat -> (let! (r, t') := p_redirs n t0 in POk (Some (k r), t')) <> PFuel).
    { intros k t0 Ht0 G0. apply pbind_nf; [apply redirs_nf; auto; lia|]. intros [r t'] _. discriminate. }
    assert (Nx : tk_type t <> TT_END_OF_INPUT -> forall t1, nt t = POk t1 -> T t1 /\ (mu t1 < mu t)%nat) by (intros Hne t1 H1; ntx H1; auto).
    destruct (tk_type t) eqn:Et; try discriminate; specialize (Nx ltac:(discriminate)); (apply pbind_nf; [apply nt_nf|]); intros t1 H1; destruct (Nx t1 H1) as [Ht1 G1]; clear Nx.
    + apply pbind_nf; [apply IHl; auto; lia|]. intros [l t2] H2. destruct (list_mu _ _ _ _ _ Ht1 H2) as [Ht2 G2]. apply pbind_nf; [apply expect_nf|]. intros t3 H3. exx H3. apply Fin; auto. lia.
    + apply pbind_nf; [apply IHi; auto; lia|]. intros [l t2] H2. destruct (ifs_mu _ _ _ _ Ht1 H2) as [Ht2 G2]. apply Fin; auto. lia.
    + destruct (tk_word t1); [|discriminate]. apply pbind_nf; [apply nt_nf|]. intros t2 H2. ntx H2. apply pbind_nf; [apply newlines_nf; auto; lia|]. intros [b t3] H3. destruct (newlines_mu _ _ _ _ ltac:(eassumption) H3) as (Ht3 & G3 & _).
      apply pbind_nf; [apply expect_nf|]. intros t4 H4. exx H4. apply pbind_nf; [apply IHca; auto; lia|]. intros [l t5] H5. apply pbind_nf; [apply expect_nf|]. intros t6 H6.
      assert (He : tk_type t5 = TT_ESAC) by (apply expect_sound in H6; tauto). destruct (items_mu _ t4 _ _ ltac:(assumption) H5 He) as [Ht5 G5]. exx H6. apply Fin; auto. lia.
    + apply pbind_nf; [apply IHl; auto; lia|]. intros [l t2] H2. destruct (list_mu _ _ _ _ _ Ht1 H2) as [Ht2 G2]. apply pbind_nf; [apply expect_nf|]. intros t3 H3. exx H3.
      apply pbind_nf; [apply IHl; auto; lia|]. intros [l' t4] H4. destruct (list_mu _ _ t3 _ _ ltac:(assumption) H4) as [Ht4 G4]. apply pbind_nf; [apply expect_nf|]. intros t5 H5. exx H5. apply Fin; auto. lia.
    + apply pbind_nf; [apply IHl; auto; lia|]. intros [l t2] H2. destruct (list_mu _ _ _ _ _ Ht1 H2) as [Ht2 G2]. apply pbind_nf; [apply expect_nf|]. intros t3 H3. exx H3.
      apply pbind_nf; [apply IHl; auto; lia|]. intros [l' t4] H4. destruct (list_mu _ _ t3 _ _ ltac:(assumption) H4) as [Ht4 G4]. apply pbind_nf; [apply expect_nf|]. intros t5 H5. exx H5. apply Fin; auto. lia.
    + destruct (tk_word t1) as [[|[nm|] [|]]|]; try discriminate. destruct (is_name L nm); [|discriminate]. apply pbind_nf; [apply nt_nf|]. intros t2 H2. ntx H2.
      apply pbind_nf; [apply for_nf; auto; lia|]. intros [ws t3] H3. destruct (for_mu _ t2 _ _ ltac:(assumption) H3) as [Ht3 G3].
      apply pbind_nf; [apply newlines_nf; auto; lia|]. intros [b t4] H4. destruct (newlines_mu _ _ _ _ Ht3 H4) as (Ht4 & G4 & _).
      apply pbind_nf; [apply expect_nf|]. intros t5 H5. exx H5. apply pbind_nf; [apply IHl; auto; lia|]. intros [l t6] H6. destruct (list_mu _ _ t5 _ _ ltac:(assumption) H6) as [Ht6 G6].
      apply pbind_nf; [apply expect_nf|]. intros t7 H7. exx H7. apply Fin; auto. lia.
    + apply pbind_nf; [apply IHl; auto; lia|]. intros [l t2] H2. destruct (list_mu _ _ _ _ _ Ht1 H2) as [Ht2 G2]. apply pbind_nf; [apply expect_nf|]. intros t3 H3. exx H3. apply Fin; auto. lia.
    + destruct (tk_word t1); [|discriminate]. apply pbind_nf; [apply nt_nf|]. intros t2 H2. ntx H2. apply pbind_nf; [apply func_paren_nf|]. intros t3 H3. destruct (func_paren_mu t2 t3 ltac:(assumption) H3) as [Ht3 G3].
      apply pbind_nf; [apply newlines_nf; auto; lia|]. intros [b t4] H4. destruct (newlines_mu _ _ _ _ Ht3 H4) as (Ht4 & G4 & _).
      apply pbind_nf; [apply IHco; auto; lia|]. intros [[body|] t5] _; discriminate.
    + apply pbind_nf; [apply (db_nf n); auto; lia|]. intros [e t2] H2. destruct (ors_mu _ _ _ _ Ht1 H2) as [Ht2 G2]. destruct (is_close X t2); [|discriminate]. apply pbind_nf; [apply nt_nf|]. intros t3 H3. ntx H3. apply Fin; auto. lia.
  - intros b t Ht H. rewrite p_if_S. apply pbind_nf.
    { destruct b; [discriminate|]. apply pbind_nf; [apply IHl; auto; lia|]. intros [c t1] _. apply pbind_nf; [apply expect_nf|]. discriminate. }
    intros [c t2] H2. assert (G : T t2 /\ (mu t2 <= mu t)%nat).
    { destruct b; [injection H2 as <- <-; auto|]. bnd1 H2. destruct a as [c' t1]. bnd1 H2. injection H2 as <- <-. destruct (list_mu _ _ _ _ _ Ht E) as [Ht1 G1]. exx E0. split; auto. lia. }
    destruct G as [Ht2 G2]. apply pbind_nf; [apply IHl; auto; lia|]. intros [body t3] H3. destruct (list_mu _ _ _ _ _ Ht2 H3) as [Ht3 G3].
    destruct (negb b && is t3 TT_ELSE)%bool eqn:E1; [|destruct (negb b && is t3 TT_ELIF)%bool eqn:E2].
    + apply andb_true_iff in E1. destruct E1 as [_ E1]. apply tt_eqb_eq in E1. apply pbind_nf; [apply nt_nf|]. intros t4 H4. ntx H4. assert (G4 : (mu t4 < mu t3)%nat) by (match goal with G : _ -> _ |- _ => apply G end; rewrite E1; discriminate).
      apply pbind_nf; [apply IHi; auto; lia|]. intros [l t5] _. discriminate.
    + apply andb_true_iff in E2. destruct E2 as [_ E2]. apply tt_eqb_eq in E2. apply pbind_nf; [apply nt_nf|]. intros t4 H4. ntx H4. assert (G4 : (mu t4 < mu t3)%nat) by (match goal with G : _ -> _ |- _ => apply G end; rewrite E2; discriminate).
      apply pbind_nf; [apply IHi; auto; lia|]. intros [l t5] _. discriminate.
    + apply pbind_nf; [apply expect_nf|]. discriminate.
  - intros t Ht H. rewrite p_cases_S. apply pbind_nf; [apply newlines_nf; auto; lia|]. intros [b t1] H1. destruct (newlines_mu _ _ _ _ Ht H1) as (Ht1 & G1 & _).
    destruct (is t1 TT_ESAC); [discriminate|]. apply pbind_nf; [destruct (is t1 TT_LPAREN); [apply nt_nf|discriminate]|]. intros t2 H2.
    assert (G : T t2 /\ (mu t2 <= mu t1)%nat) by (destruct (is t1 TT_LPAREN); [ntx H2; auto|injection H2 as <-; auto]). destruct G as [Ht2 G2].
    apply pbind_nf; [apply patterns_nf; auto; lia|]. intros [ps t3] H3. destruct (patterns_lt _ _ _ _ Ht2 H3) as [Ht3 G3].
    apply pbind_nf; [apply IHl; auto; lia|]. intros [body t4] H4. destruct (list_mu _ _ _ _ _ Ht3 H4) as [Ht4 G4]. destruct (is t4 TT_DOUBLE_SEMICOLON); [|discriminate].
    apply pbind_nf; [apply nt_nf|]. intros t5 H5. ntx H5. apply pbind_nf; [apply IHca; auto; lia|]. intros [l t6] _. discriminate.
Qed.
Theorem line_nofuel : forall n need t, T t -> (10 * mu t + 7 < n)%nat -> p_line n need t <> PFuel.
Proof.
  induction n as [|n IH]; intros need t Ht H; [lia|]. cbn [ParseModel.p_line]. destruct (is t TT_NEWLINE || is t TT_END_OF_INPUT)%bool eqn:E; [discriminate|]. destruct need; [discriminate|].
  assert (He : tk_type t <> TT_END_OF_INPUT) by (intros E'; rewrite E' in E; discriminate).
  apply pbind_nf; [apply (nofuel n); auto; lia|]. intros [p t2] H2. destruct (pls_mu _ _ _ _ _ Ht H2) as (Ht2 & _ & G2). specialize (G2 He). clear E. destruct (is t2 TT_AMP || is t2 TT_SEMICOLON)%bool.
  - apply pbind_nf; [apply nt_nf|]. intros t3 H3. ntx H3. apply pbind_nf; [apply IH; auto; lia|]. intros [l r] _. discriminate.
  - apply pbind_nf; [apply IH; auto; lia|]. intros [l r] _. discriminate.
Qed.

(** ** More fuel *)
Definition mo {A} (x y : pres A) : Prop := x <> PFuel -> y = x.
Lemma mo_refl : forall A (x : pres A), mo x x.
Proof. intros A x _. reflexivity. Qed.
Lemma mo_fuel : forall A (x : pres A), mo PFuel x.
Proof. intros A x H. congruence. Qed.
Lemma mo_bind : forall A B (x y : pres A) (f g : A -> pres B), mo x y -> (forall a, mo (f a) (g a)) -> mo (pbind x f) (pbind y g).
Proof. intros A B x y f g H1 H2 H. destruct x as [a| | |]; cbn [pbind] in *; [rewrite H1 by discriminate; cbn [pbind]; apply H2; auto|rewrite H1 by discriminate; reflexivity..|congruence]. Qed.
Ltac mos := repeat first
  [ apply mo_refl | apply mo_fuel | solve [auto 1] | apply mo_bind; [|let a := fresh "a" in intros a]
  | match goal with |- mo (match ?x with _ => _ end) _ => destruct x end ].
Lemma newlines_mo : forall n t, mo (p_newlines n t) (p_newlines (S n) t).
Proof. induction n as [|n IH]; intros t; [apply mo_fuel|]. cbn [ParseModel.p_newlines] in *. mos. Qed.
Lemma words_mo : forall n b t, mo (p_words n b t) (p_words (S n) b t).
Proof. pose proof newlines_mo. induction n as [|n IH]; intros b t; [apply mo_fuel|]. cbn [ParseModel.p_words] in *. mos. Qed.
Lemma redirs_mo : forall n t, mo (p_redirs n t) (p_redirs (S n) t).
Proof. induction n as [|n IH]; intros t; [apply mo_fuel|]. cbn [ParseModel.p_redirs] in *. mos. Qed.
Lemma assign_mo : forall n t, mo (p_assign n t) (p_assign (S n) t).
Proof. pose proof words_mo. intros n t. unfold ParseModel.p_assign. mos. Qed.
Lemma simple_mo : forall n b t, mo (p_simple n b t) (p_simple (S n) b t).
Proof. pose proof assign_mo. induction n as [|n IH]; intros b t; [apply mo_fuel|]. cbn [ParseModel.p_simple] in *. mos. apply (IH false a). Qed.
Lemma patterns_mo : forall n t, mo (p_patterns n t) (p_patterns (S n) t).
Proof. induction n as [|n IH]; intros t; [apply mo_fuel|]. cbn [ParseModel.p_patterns] in *. mos. Qed.
Lemma for_mo : forall n t, mo (p_for_words n t) (p_for_words (S n) t).
Proof. pose proof words_mo. pose proof newlines_mo. intros n t. unfold ParseModel.p_for_words. mos. Qed.
Lemma db_mo : forall n, (forall t, mo (p_ors n t) (p_ors (S n) t)) /\ (forall t, mo (p_ands n t) (p_ands (S n) t)) /\ (forall t, mo (p_nots n t) (p_nots (S n) t)).
Proof.
  induction n as [|n (H1 & H2 & H3)]; [repeat split; intros; apply mo_fuel|]. repeat split; intros t.
  - rewrite (p_ors_S L X sp_parse n), (p_ors_S L X sp_parse (S n)). mos.
  - rewrite (p_ands_S L X sp_parse n), (p_ands_S L X sp_parse (S n)). mos.
  - rewrite (p_nots_S L X sp_parse n), (p_nots_S L X sp_parse (S n)). mos.
Qed.
Lemma all_mo : forall n, (forall b t, mo (p_list n b t) (p_list (S n) b t)) /\ (forall b t, mo (p_pipelines n b t) (p_pipelines (S n) b t)) /\
  (forall t, mo (p_commands n t) (p_commands (S n) t)) /\ (forall t, mo (p_command n t) (p_command (S n) t)) /\ (forall t, mo (p_compound n t) (p_compound (S n) t)) /\
  (forall b t, mo (p_if n b t) (p_if (S n) b t)) /\ (forall t, mo (p_cases n t) (p_cases (S n) t)).
Proof.
  pose proof newlines_mo. pose proof redirs_mo. pose proof simple_mo. pose proof patterns_mo. pose proof for_mo.
  induction n as [|n (I1 & I2 & I3 & I4 & I5 & I6 & I7)]; [repeat split; intros; apply mo_fuel|]. pose proof (proj1 (db_mo n)). repeat split; intros.
  - rewrite (p_list_S L X sp_parse n), (p_list_S L X sp_parse (S n)). mos.
  - rewrite (p_pipelines_S L X sp_parse n), (p_pipelines_S L X sp_parse (S n)). cbv zeta. mos.
  - rewrite (p_commands_S L X sp_parse n), (p_commands_S L X sp_parse (S n)). mos.
  - rewrite (p_command_S L X sp_parse n), (p_command_S L X sp_parse (S n)). mos.
  - rewrite (p_compound_S L X sp_parse n), (p_compound_S L X sp_parse (S n)). cbv zeta. mos.
  - rewrite (p_if_S L X sp_parse n), (p_if_S L X sp_parse (S n)). mos.
  - rewrite (p_cases_S L X sp_parse n), (p_cases_S L X sp_parse (S n)). mos.
Qed.
Lemma line_mo : forall n b t, mo (p_line n b t) (p_line (S n) b t).
Proof. induction n as [|n IH]; intros b t; [apply mo_fuel|]. pose proof (proj1 (proj2 (all_mo n))). cbn [ParseModel.p_line] in *. mos; match goal with |- mo (p_line n ?b ?t) _ => apply (IH b t) end. Qed.
Lemma read_mo : forall n m s, (n <= m)%nat -> mo (read_and_parse L X sp_parse n s) (read_and_parse L X sp_parse m s).
Proof.
  intros n m s H. induction H as [|m H IH]; [apply mo_refl|]. intros E. specialize (IH E). rewrite <- IH in E |- *. revert E. unfold read_and_parse.
  apply (mo_bind _ _ (next_token s) (next_token s)); [apply mo_refl|]. intros t. apply line_mo.
Qed.
Theorem read_nofuel : forall s m, (10 * List.length s + 20 < m)%nat -> read_and_parse L X sp_parse m s <> PFuel.
Proof.
  intros s m H. unfold read_and_parse. apply pbind_nf; [apply nextt_nf|]. intros t Ht. apply line_nofuel; [exists s; exact Ht|].
  assert (G : (mu t <= S (List.length s))%nat); [|lia]. unfold mu. destruct (is t TT_END_OF_INPUT) eqn:E; [lia|]. destruct (nextt_len _ _ Ht) as [E'|E']; [rewrite E' in E; discriminate|lia].
Qed.
End Term.
