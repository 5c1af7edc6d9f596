(** The tokens of a text are those of the specification, and the parser reads the
    commands that the grammar derives from them. *)
From Coq Require Import Ascii String.
From Coq Require Import List NArith ZArith Bool Arith Lia.
From Verif Require Import Common Locale NumModel ParseModel ParseSpec ParseInst ParseRound ParseProps GramSpec GramSound GramComplete GramTerm GramProps TokSpec TokOp TokProof.
Import ListNotations.
Local Open Scope N_scope.

(** C97: the tokenizer finds the token [k], [w] before [r] exactly if the
    specification does; there is at most one; without one there is an error. *)
Theorem token_recognition : forall L X sp_parse, locale_ok L -> takes sp_parse -> forall s,
  (forall k w r, next_token L X sp_parse s = POk (mkTok X k w r) <-> token L X sp_parse s k w r) /\
  (forall k w r k' w' r', token L X sp_parse s k w r -> token L X sp_parse s k' w' r' -> k = k' /\ w = w' /\ r = r') /\
  (next_token L X sp_parse s = PErr <-> ~ exists k w r, token L X sp_parse s k w r).
Proof.
  intros L X sp Lok Hsp s. split; [|split].
  - intros k w r. split; [intros H; apply (token_sound L X sp s _ H)|apply (token_complete L Lok X sp Hsp)].
  - intros k w r k' w' r' H H'. apply (token_complete L Lok X sp Hsp) in H, H'. rewrite H in H'. injection H' as -> -> ->. auto.
  - apply (token_error L Lok X sp Hsp).
Qed.
Print Assumptions token_recognition.

(** The tokens of a text according to the specification *)
Fixpoint spec_tokens (L : locale) (X : Type) (sp_parse : bool -> list N -> spres X) (s : list N) (ts : list (tok X)) (e : tok X) : Prop :=
  match ts with
  | [] => token L X sp_parse s (tk_type X e) (tk_word X e) (tk_rest X e)
  | t :: ts' => token L X sp_parse s (tk_type X t) (tk_word X t) (tk_rest X t) /\ spec_tokens L X sp_parse (tk_rest X t) ts' e
  end.
(** The commands [l] are the meaning of the first line of [s]; [r] is the text after it. *)
Definition means (L : locale) (X : Type) (sp_parse : bool -> list N -> spres X) (s : list N) (l : aos X) (r : list N) : Prop :=
  exists ts e, spec_tokens L X sp_parse s ts e /\ T_line L X l ts /\ (tk_type X e = TT_NEWLINE \/ tk_type X e = TT_END_OF_INPUT) /\ r = tk_rest X e.
Lemma spec_tokens_iff : forall L X sp_parse, locale_ok L -> takes sp_parse -> forall ts s e, spec_tokens L X sp_parse s ts e <-> tokens L X sp_parse s ts e.
Proof.
  intros L X sp Lok Hsp. assert (T : forall s t, token L X sp s (tk_type X t) (tk_word X t) (tk_rest X t) <-> next_token L X sp s = POk t).
  { intros s [k w r]. cbn [tk_type tk_word tk_rest]. symmetry. apply (token_recognition L X sp Lok Hsp s). }
  induction ts as [|t ts IH]; intros s e; cbn [spec_tokens tokens]; [apply T|]. rewrite T, IH. reflexivity.
Qed.

(** C98: the parser returns exactly the commands that the text means; other texts are
    errors or contain a construct that is not modelled. *)
Theorem parser_reads_meaning : forall L X sp_parse, locale_ok L -> takes sp_parse -> forall s,
  exists o, (forall m, (10 * List.length s + 20 < m)%nat -> read_and_parse L X sp_parse m s = o) /\
  (forall l r, o = POk (l, r) <-> means L X sp_parse s l r) /\
  ((forall l r, ~ means L X sp_parse s l r) -> o = PErr \/ o = PUnmod).
Proof.
  intros L X sp Lok Hsp s. destruct (parser_decides L X sp Lok Hsp s) as (o & Ho & Hd). exists o. split; [exact Ho|].
  assert (M : forall l r, means L X sp s l r <-> derives L X sp s l r).
  { intros l r. split; intros (ts & e & H1 & H2); exists ts, e; (split; [apply (spec_tokens_iff L X sp Lok Hsp); exact H1|exact H2]). }
  destruct Hd as [(l & r & -> & Hd)|[He Hd]].
  - split; [|intros H; destruct (H l r); apply M; exact Hd]. intros l' r'. rewrite M. split.
    + intros E. injection E as <- <-. exact Hd.
    + intros H. destruct (grammar_unambiguous L X sp Lok _ _ _ _ _ H Hd) as [-> ->]. reflexivity.
  - split; [|auto]. intros l r. rewrite M. split; [intros ->; destruct He; discriminate|]. intros H. destruct Hd. eauto.
Qed.
Print Assumptions parser_reads_meaning.

(** ** Examples *)
Example token_here : token c_locale exp0 sp_parse0 (str " <\" ++ 10 :: str "<\" ++ 10 :: str "-x") TT_LESSLESSDASH None (str "x").
Proof. apply token_recognition; [exact c_locale_ok|exact takes0|]. vm_compute. reflexivity. Qed.
Example token_amp : token c_locale exp0 sp_parse0 (str "&\" ++ 10 :: str "x") TT_AMP None (str "x").
Proof. apply token_recognition; [exact c_locale_ok|exact takes0|]. vm_compute. reflexivity. Qed.
Example token_quoted : token c_locale exp0 sp_parse0 (str "a'b c'""$x $. ""d;e") TT_WORD
  (Some [UStr (str "a'b c'"""); USpec (EPar (str "x")); UStr (str " "); UStr (str "$. ""d")]) (str ";e").
Proof. apply token_recognition; [exact c_locale_ok|exact takes0|]. vm_compute. reflexivity. Qed.
Example token_fd : token c_locale exp0 sp_parse0 (str "12\" ++ 10 :: str ">f") TT_IO_NUMBER (Some [UStr (str "12")]) (str ">f").
Proof. apply token_recognition; [exact c_locale_ok|exact takes0|]. vm_compute. reflexivity. Qed.
Example token_comment : token c_locale exp0 sp_parse0 (str "  # it's \" ++ 10 :: str "fi") TT_NEWLINE None (str "fi").
Proof. apply token_recognition; [exact c_locale_ok|exact takes0|]. vm_compute. reflexivity. Qed.
Example token_none : ~ exists k w r, token c_locale exp0 sp_parse0 (str "a'b") k w r.
Proof. apply token_recognition; [exact c_locale_ok|exact takes0|]. vm_compute. reflexivity. Qed.
(** A derivation by hand *)
Example token_by_hand : token c_locale exp0 sp_parse0 (str " if#;") TT_WORD (Some [UStr (str "if#")]) (str ";").
Proof.
  apply (token_word _ _ _ _ (str " ") [] (str "if#;") [PText exp0 (str "i"); PText exp0 (str "f"); PText exp0 (str "#")]); try reflexivity.
  - repeat constructor.
  - split; [intros b s' E; injection E as <- <-; reflexivity|discriminate].
  - left. split; [reflexivity|discriminate].
  - intros [E|[s' E]]; discriminate.
  - intros o k r Hi Hs. apply spells_b in Hs; [|apply (spellings_plain _ _ Hi)]. unfold spellings in Hi. cbn [In] in Hi. repeat (destruct Hi as [Hi|Hi]; [injection Hi as <- <-; discriminate|]). destruct Hi.
  - assert (C : forall c, c < 128 -> ~ In c (str ";&|<>()'\$`""") -> c <> 10 -> c <> 0 -> c <> 32 -> c <> 9 -> ~ special c /\ (false = true \/ c <> ch "'" /\ ~ delimiter c_locale c)).
    { intros c H1 H2 H3 H4 H5 H6. cbn in H2. split; [intros [G|[[G|G]|G]]; cbn in G; subst; intuition|]. right. split; [intros ->; cbn in H2; intuition|].
      intros [G|[G|[G|G]]]; try contradiction; [cbn in G; intuition|]. cbn in G. unfold c_blank in G. apply orb_true_iff in G. rewrite !N.eqb_eq in G. tauto. }
    assert (K : forall c s ps r, c < 128 -> ~ In c (str ";&|<>()'\$`""") -> c <> 10 -> c <> 0 -> c <> 32 -> c <> 9 -> parts c_locale exp0 sp_parse0 false s ps r -> parts c_locale exp0 sp_parse0 false (c :: s) (PText exp0 [c] :: ps) r).
    { intros c s ps r H1 H2 H3 H4 H5 H6 H7. destruct (C c H1 H2 H3 H4 H5 H6) as [G1 G2]. apply w_char; auto. }
    apply (K (ch "i")); [reflexivity|cbn; intuition discriminate|discriminate..|]. apply (K (ch "f")); [reflexivity|cbn; intuition discriminate|discriminate..|]. apply (K (ch "#")); [reflexivity|cbn; intuition discriminate|discriminate..|].
    apply w_delim. left. cbn. auto.
  - apply (u_text exp0 (str "i") [str "f"; str "#"] [] []); [intros s ps E; discriminate|constructor].
  - apply k_word.
    + intros (s & c & r' & E & _ & E' & Hi). injection E' as <- <-. cbn in Hi. intuition discriminate.
    + intros s k E Hi. injection E as <-. unfold reserved_words in Hi. cbn [In] in Hi. repeat (destruct Hi as [Hi|Hi]; [discriminate|]). destruct Hi.
Qed.
Example means_sample : exists r, means c_locale exp0 sp_parse0 (str sample) (single exp0 sample_cmd) r.
Proof.
  destruct derives_sample as [r (ts & e & H1 & H2)]. exists r, ts, e. split; [apply (spec_tokens_iff _ _ _ c_locale_ok takes0); exact H1|exact H2].
Qed.
