(** Properties C23-C25: quoting. *)
From Coq Require Import Ascii String.
From Coq Require Import List NArith Bool Arith Lia.
From Coq Require Import ZifyBool ZifyN.
From Verif Require Import Common Locale CharcatModel Regex XfnmatchModel XfnmatchSpec XfnmatchProps QuoteModel QuoteSpec QuoteProofs.
Import ListNotations.
Open Scope res_scope.

(** C23.  Escaping puts a backslash before exactly the characters asked for ... *)
Theorem escape_exact s t : escaped (in_set t) (escape s t) s /\ escapefree s t = escape s t.
Proof. split; [apply escape_ok|apply escapefree_ok]. Qed.
Print Assumptions escape_exact.
Example escape_exact_ex : escape (str "a*\b") (Some (str "*?[\")) = str "a\*\\b".
Proof. reflexivity. Qed.

(** ... and is undone by unescaping if the backslash is among them. *)
Theorem unescape_escape s t : in_set t backslash -> unescape (escape s t) = s.
Proof. intros H. apply (unescape_escaped (in_set t)); auto. apply escape_ok. Qed.
Print Assumptions unescape_escape.
Example unescape_escape_ex : in_set (Some (str "*\")) backslash /\ unescape (escape (str "\\a*\") (Some (str "*\"))) = str "\\a*\".
Proof. split; [cbn; tauto|reflexivity]. Qed.
(** The condition is needed. *)
Example unescape_escape_needed : unescape (escape (str "\a") (Some (str "*"))) <> str "\a".
Proof. discriminate. Qed.

(** A string with every character escaped is a pattern that matches just that string. *)
Theorem escape_pattern C : ctype_ok C -> forall s s',
  exists b, match_pattern C s' (escape s None) = Ok b /\ (b = true <-> s' = s).
Proof.
  intros HC s s'. destruct (pattern_language_partial C HC (escape s None) s') as (b & E & H).
  { unfold clear_pattern. rewrite marks_escape_all. apply clear_all_quoted. }
  exists b. split; [exact E|]. rewrite H. unfold pmatch. rewrite marks_escape_all. split.
  - intros (l & Hl & M). apply gparses_quoted in Hl as ->. now apply gmatch_chars in M.
  - intros ->. exists (map GChar s). split; [now apply gparses_quoted|now apply gmatch_chars].
Qed.
Print Assumptions escape_pattern.
Example escape_pattern_ex : match_pattern demo (str "[a]*") (escape (str "[a]*") None) = Ok true /\
  match_pattern demo (str "ab") (escape (str "[a]*") None) = Ok false.
Proof. split; vm_compute; reflexivity. Qed.

(** C24.  The quoted word contains no unquoted special character, is not empty
    and stands for the string ... *)
Theorem quote_as_word_plain L : locale_ok L -> forall s,
  exists w, quote_as_word L s = Ok w /\ plain_word L w s /\ quoting w s /\ w <> [].
Proof.
  intros HL s. destruct (quote_as_word_ok L HL s) as (w & E & P & N). exists w. split; [exact E|].
  split; [exact P|]. split; [now apply (plain_quoting L)|exact N].
Qed.
Print Assumptions quote_as_word_plain.
Example quote_ex1 : quote_as_word c_locale (str "it's $HOME") = Ok (str "it\''s $HOME'").
Proof. reflexivity. Qed.
Example quote_ex2 : quote_as_word wide_locale (12354%N :: str "/x-1") = Ok (12354%N :: str "/x-1") /\
  quote_as_word wide_locale [12288%N] = Ok [39%N; 12288%N; 39%N].
Proof. split; reflexivity. Qed.

(** ... and unquoting gives the string back. *)
Theorem unquote_quote L : locale_ok L -> forall s,
  exists w, quote_as_word L s = Ok w /\ unquote w = Ok (Some s).
Proof.
  intros HL s. destruct (quote_as_word_ok L HL s) as (w & E & P & _). exists w. split; [exact E|].
  destruct (unquote_ok w) as (o & -> & H). f_equal. apply H. now apply (plain_quoting L).
Qed.
Print Assumptions unquote_quote.
Example unquote_quote_ex : unquote (str "it\''s $HOME'") = Ok (Some (str "it's $HOME")).
Proof. reflexivity. Qed.

(** Unquoting decides the quoting rules: it fails exactly if a quotation is unclosed. *)
Theorem unquote_exact w : exists o, unquote w = Ok o /\ (forall s, o = Some s <-> quoting w s).
Proof. apply unquote_ok. Qed.
Print Assumptions unquote_exact.
Definition text1 : list N := str "a'\b'" ++ [34%N] ++ str "\c\$" ++ [34%N] ++ str "\d\".
Example unquote_exact_ex1 : unquote text1 = Ok (Some (str "a\b\c$d\")).
Proof. reflexivity. Qed.
Example unquote_exact_ex2 : unquote (str "a'b") = Ok None /\ ~ exists s, quoting (str "a'b") s.
Proof.
  split; [reflexivity|]. intros [s H]. destruct (unquote_exact (str "a'b")) as (o & E & Ho). apply Ho in H. subst o. discriminate.
Qed.

(** C25.  Quote removal deletes the quotation marks and nothing else. *)
Theorem quote_removal_exact w :
  quote_removal w ES_NONE = map fst (filter (fun x => negb (quotation (snd x))) w).
Proof. apply quote_removal_none. Qed.
Print Assumptions quote_removal_exact.

Definition qcell (c : N) : cell := (c, mkCat CharcatModel.Literal true false).
Definition qmark (c : N) : cell := (c, mkCat CharcatModel.Literal false true).
Definition lcell (c : N) : cell := (c, cc_lit).
Definition scell (c : N) : cell := (c, cc_soft).
Example quote_removal_ex : quote_removal [lcell 97; qmark dquote; qcell dquote; qmark dquote]%N ES_NONE = [97; dquote]%N.
Proof. reflexivity. Qed.

(** With escaping, the result read as a pattern has the same characters, and a
    character is literal if it was quoted (or, with ES_QUOTED_HARD, came from a
    tilde or numeric expansion) or follows an unquoted backslash. *)
Theorem quote_removal_pattern_partial w m :
  (reads quoted w m -> marks (quote_removal w ES_QUOTED) = m) /\
  (reads (fun k => quoted k || match org k with Hard => true | _ => false end) w m ->
   marks (quote_removal w ES_QUOTED_HARD) = m).
Proof.
  split; intros H; apply quote_removal_reads; [exact H|].
  assert (E : forall k, should_escape k ES_QUOTED_HARD = quoted k || match org k with Hard => true | _ => false end).
  { intros [[] [] ?]; reflexivity. }
  induction H; try (econstructor; rewrite ?E; eauto; fail).
Qed.
Print Assumptions quote_removal_pattern_partial.
Example quote_removal_pattern_ex :
  let w := [qmark dquote; qcell 42; qmark dquote; lcell 42; scell 92; qmark dquote; qmark dquote; scell 63]%N in
  reads quoted w [(42, true); (42, false); (63, true)]%N /\
  quote_removal w ES_QUOTED = str "\**\?".
Proof.
  cbv zeta. split; [|reflexivity]. apply r_quotation; [reflexivity|]. apply r_lit; [reflexivity..|]. apply r_quotation; [reflexivity|].
  apply r_active; [reflexivity|reflexivity|discriminate|].
  apply (r_bs quoted cc_soft [] [qmark dquote; qmark dquote] 63%N cc_soft []); try reflexivity; repeat constructor.
Qed.

(** An unquoted backslash, which an expansion may yield, before a quoted
    character takes the backslash put before the character, so that the quoted
    character becomes special: with x='\', $x'*' matches \abc. *)
Theorem quote_removal_pattern_refuted :
  exists w C s, ctype_ok C /\
    (forall x, In x w -> fst x = aster -> quotation (snd x) = false /\ quoted (snd x) = true) /\
    ~ In aster s /\ match_pattern C s (quote_removal w ES_QUOTED) = Ok true.
Proof.
  exists [scell 92; qmark squote; qcell 42; qmark squote]%N, demo, (str "\abc"). split; [apply demo_ok|]. split; [|split].
  - intros x Hx E. cbn in Hx. decompose [or] Hx; subst; try discriminate; try contradiction. split; reflexivity.
  - intros H. cbn in H. decompose [or] H; try discriminate; contradiction.
  - vm_compute. reflexivity.
Qed.
Print Assumptions quote_removal_pattern_refuted.
