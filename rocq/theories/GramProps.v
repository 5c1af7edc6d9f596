(** The parser accepts exactly the language of the grammar. *)
From Coq Require Import Ascii String.
From Coq Require Import List NArith ZArith Bool Arith Lia.
From Verif Require Import Common Locale NumModel ParseModel ParseSpec ParseInst ParseRound ParseProps GramSpec GramSound GramComplete GramTerm.
Import ListNotations.
Local Open Scope N_scope.

(** The commands [l] are derived from the tokens of the first line of [s]; [r] is
    the text after that line. *)
Definition derives (L : locale) (X : Type) (sp_parse : bool -> list N -> spres X) (s : list N) (l : aos X) (r : list N) : Prop :=
  exists ts e, tokens L X sp_parse s ts e /\ T_line L X l ts /\ (ty X e = TT_NEWLINE \/ ty X e = TT_END_OF_INPUT) /\ r = tk_rest X e.

(** C94: the parser returns the commands [l] and stops at [r] if and only if the
    grammar derives [l] from the tokens before [r]. *)
Theorem parser_is_grammar : forall L X sp_parse, locale_ok L -> forall s l r,
  ((exists n, read_and_parse L X sp_parse n s = POk (l, r)) <-> derives L X sp_parse s l r) /\
  (reads L X sp_parse s l r <-> derives L X sp_parse s l r).
Proof.
  intros L X sp Lok s l r.
  assert (H1 : (exists n, read_and_parse L X sp n s = POk (l, r)) -> derives L X sp s l r).
  { intros [n H]. unfold read_and_parse in H. destruct (next_token L X sp s) as [t| | |] eqn:E; try discriminate. cbn [pbind] in H.
    destruct (GramSound.line_sound L Lok X sp n false t l r ltac:(exists s; exact E) H) as (_ & ts & e & Hs & Hl & He & ->).
    exists ts, e. split; [eapply seq_tokens; eauto|auto]. }
  assert (H2 : derives L X sp s l r -> reads L X sp s l r).
  { intros (ts & e & Ht & Hl & He & ->). apply tokens_seq in Ht. destruct Ht as (t & E & Hs).
    destruct (line_complete L Lok X sp l ts t e Hl ltac:(exists s; exact E) Hs He) as [n Hn]. exists n. intros m Hm. unfold read_and_parse. rewrite E. cbn [pbind]. auto. }
  assert (H3 : reads L X sp s l r -> exists n, read_and_parse L X sp n s = POk (l, r)) by (intros [n H]; exists n; auto).
  tauto.
Qed.
Print Assumptions parser_is_grammar.

(** C95: the grammar derives at most one list of commands from a text. *)
Theorem grammar_unambiguous : forall L X sp_parse, locale_ok L -> forall s l r l' r',
  derives L X sp_parse s l r -> derives L X sp_parse s l' r' -> l = l' /\ r = r'.
Proof.
  intros L X sp Lok s l r l' r' H H'. apply (proj2 (parser_is_grammar L X sp Lok s l r)) in H. apply (proj2 (parser_is_grammar L X sp Lok s l' r')) in H'.
  eapply reads_unique; eauto.
Qed.
Print Assumptions grammar_unambiguous.

(** ** Examples *)
Definition w0 (s : string) : cmd exp0 := CSimple [] [[UStr (str s)]] [].
Example derives_hand : derives c_locale exp0 sp_parse0 (str "! a|b&&c ;d&" ++ [10; 120])
  (ACons (PCons (CCons (w0 "a") (CCons (w0 "b") CNil)) true false (PCons (CCons (w0 "c") CNil) false true PNil)) false
  (ACons (PCons (CCons (w0 "d") CNil) false false PNil) true ANil)) [120].
Proof.
  exists (map (fun p => mkTok exp0 (fst (fst p)) (match snd (fst p) with "" => None | s => Some [UStr (str s)] end)%string (str (snd p) ++ [10; 120]))
   [(TT_BANG, "!", " a|b&&c ;d&"); (TT_WORD, "a", "|b&&c ;d&"); (TT_PIPE, "", "b&&c ;d&"); (TT_WORD, "b", "&&c ;d&"); (TT_AMPAMP, "", "c ;d&");
    (TT_WORD, "c", " ;d&"); (TT_SEMICOLON, "", "d&"); (TT_WORD, "d", "&"); (TT_AMP, "", "")]%string).
  exists (mkTok exp0 TT_NEWLINE None [120]). split; [vm_compute; repeat split|]. split; [|split; [left; reflexivity|reflexivity]].
  cbn [map fst snd].
  assert (W : forall s k r, ~ reserved k -> k <> TT_IO_NUMBER -> (~ exists n v, assigns c_locale exp0 [UStr (str s)] n v) -> T_cmds c_locale exp0 (CCons (w0 s) CNil) [mkTok exp0 k (Some [UStr (str s)]) r]).
  { intros s k r H1 H2 H3. apply t_cmds_last. apply t_simple; auto. apply t_sim_word; [reflexivity|auto|auto|constructor]. }
  assert (R : ~ reserved TT_WORD) by (intros [s H]; cbn in H; intuition discriminate).
  assert (A : forall c, c <> ch "=" -> ~ exists n v, assigns c_locale exp0 [UStr [c]] n v).
  { intros c Hc (n & v & Hn & s & us & E & _). assert (E' : [c] = n ++ ch "=" :: s) by congruence. destruct n as [|x [|y n]]; [destruct Hn|discriminate E'|discriminate E']. }
  match goal with |- T_line _ _ (ACons ?p1 false (ACons ?p2 true ANil)) [?a;?b;?c;?d;?e;?f;?g;?h;?i] =>
    apply (t_line_sep _ _ p1 [a;b;c;d;e;f] g false (ACons p2 true ANil) [h;i]); [| reflexivity | apply (t_line_sep _ _ p2 [h] i true ANil []); [|reflexivity|constructor]] end.
  - match goal with |- T_pls _ _ (PCons ?x _ _ ?p) _ [?a;?b;?c;?d;?e;?f] => apply (t_pls_cons _ _ false true [a] x [b;c;d] e true [] p [f]) end; [reflexivity| |reflexivity|constructor|].
    + match goal with |- T_cmds _ _ (CCons ?x ?cs) [?b;?c;?d] => apply (t_cmds_cons _ _ x [b] c [] cs [d]) end; [|reflexivity|constructor|].
      * apply t_simple; auto. apply t_sim_word; [reflexivity|discriminate| |constructor]. intros _. apply A. discriminate.
      * apply W; auto; [discriminate|]. apply A. discriminate.
    + match goal with |- T_pls _ _ _ _ ?t => apply (t_pls_last _ _ true false [] _ t) end; [reflexivity|]. apply W; auto; [discriminate|]. apply A. discriminate.
  - match goal with |- T_pls _ _ _ _ ?t => apply (t_pls_last _ _ false false [] _ t) end; [reflexivity|]. apply W; auto; [discriminate|]. apply A. discriminate.
Qed.
Example derives_sample : exists r, derives c_locale exp0 sp_parse0 (str sample) (single exp0 sample_cmd) r.
Proof. destruct sample_read as [r H]. exists r. apply (proj1 (parser_is_grammar c_locale exp0 sp_parse0 c_locale_ok _ _ _)). exists 1000%nat. exact H. Qed.

(** C96: every text is accepted, rejected or outside the model, at a depth of
    recursion linear in its length; it is accepted exactly if the grammar derives it.
    The parser of expansions is assumed to take at least one character. *)
Definition takes {X : Type} (sp_parse : bool -> list N -> spres X) : Prop :=
  forall q s x r, sp_parse q s = SpSome x r -> (List.length r < List.length s)%nat.
Theorem parser_decides : forall L X sp_parse, locale_ok L -> takes sp_parse -> forall s,
  exists o, (forall m, (10 * List.length s + 20 < m)%nat -> read_and_parse L X sp_parse m s = o) /\
  ((exists l r, o = POk (l, r) /\ derives L X sp_parse s l r) \/
   ((o = PErr \/ o = PUnmod) /\ ~ exists l r, derives L X sp_parse s l r)).
Proof.
  intros L X sp Lok Hsp s. set (k := S (10 * List.length s + 20)). exists (read_and_parse L X sp k s).
  assert (Hk : read_and_parse L X sp k s <> PFuel) by (apply read_nofuel; auto; unfold k; lia).
  assert (Hm : forall m, (10 * List.length s + 20 < m)%nat -> read_and_parse L X sp m s = read_and_parse L X sp k s) by (intros m H; apply read_mo; [unfold k; lia|exact Hk]).
  split; [exact Hm|].
  assert (Hd : forall l r, derives L X sp s l r -> read_and_parse L X sp k s = POk (l, r)).
  { intros l r H. apply (proj2 (parser_is_grammar L X sp Lok s l r)) in H. destruct H as [n H]. rewrite <- (Hm (n + k)%nat) by (unfold k; lia). apply H. lia. }
  destruct (read_and_parse L X sp k s) as [[l r]| | |] eqn:E.
  - left. exists l, r. split; auto. apply (proj1 (parser_is_grammar L X sp Lok s l r)). exists k. exact E.
  - right. split; auto. intros (l & r & H). apply Hd in H. discriminate.
  - right. split; auto. intros (l & r & H). apply Hd in H. discriminate.
  - congruence.
Qed.
Print Assumptions parser_decides.

Lemma takes0 : takes sp_parse0.
Proof.
  assert (Sp : forall f s a r, span f s = (a, r) -> List.length s = (List.length a + List.length r)%nat) by (intros f s a r H; apply span_spec in H; destruct H as [-> _]; apply app_length).
  intros q s x r H. unfold sp_parse0 in H. destruct s as [|c s]; [discriminate|]. cbn [List.length]. destruct (c =? ch "$").
  - pose proof (lc_len s) as Hl. destruct (lc s) as [|d s2]; [discriminate|]. cbn [List.length] in Hl. destruct (d =? ch "{").
    + destruct s2 as [|e s3]; [discriminate|]. cbn [List.length] in Hl. destruct (is_special_par e).
      * destruct s3 as [|f r']; [discriminate|]. destruct (f =? _); [|discriminate]. injection H as <- <-. cbn [List.length] in Hl. lia.
      * destruct (span is_portable_name_char (e :: s3)) as [[|a n] [|f r']] eqn:E; try discriminate. destruct (f =? _); [|discriminate]. injection H as <- <-.
        apply Sp in E. cbn [List.length] in E. lia.
    + destruct (d =? ch "(").
      * destruct (span no_paren s2) as [a [|f r']] eqn:E; [discriminate|]. destruct (f =? _); [|discriminate]. injection H as <- <-. apply Sp in E. cbn [List.length] in E. lia.
      * destruct (_ || _); [injection H as <- <-; lia|]. destruct (is_portable_name_char d); [|discriminate]. destruct (span _ (d :: s2)) as [a b] eqn:E. injection H as <- <-.
        apply Sp in E. cbn [List.length] in E. lia.
  - destruct (span _ s) as [a [|f r']] eqn:E; [discriminate|]. destruct (f =? _); [|discriminate]. injection H as <- <-. apply Sp in E. cbn [List.length] in E. lia.
Qed.
(** No commands are derived from a text that the parser rejects. *)
Lemma rejects : forall s, read_and_parse c_locale exp0 sp_parse0 (10 * List.length s + 21) s = PErr -> ~ exists l r, derives c_locale exp0 sp_parse0 s l r.
Proof.
  intros s E. destruct (parser_decides c_locale exp0 sp_parse0 c_locale_ok takes0 s) as (o & Ho & [(l & r & -> & _)|[_ H]]); [|exact H]. rewrite Ho in E by lia. discriminate.
Qed.
Example no_if : ~ exists l r, derives c_locale exp0 sp_parse0 (str "if a; then b; done") l r.
Proof. apply rejects. vm_compute. reflexivity. Qed.
Example no_and : ~ exists l r, derives c_locale exp0 sp_parse0 (str "a && || b") l r.
Proof. apply rejects. vm_compute. reflexivity. Qed.
