(** The tokenizer of the model finds the tokens of the specification. *)
From Coq Require Import Ascii String.
From Coq Require Import List NArith ZArith Bool Arith Lia.
From Coq Require Import ZifyBool ZifyN.
From Verif Require Import Common Locale NumModel ParseModel ParseLex ParseRound GramSound GramTerm TokSpec TokOp.
Import ListNotations.
Local Open Scope N_scope.

Lemma operator_none : forall s, operator s = None -> ~ ends s /\ no_operator s.
Proof.
  intros [|c s] H; cbn [operator] in H; [discriminate|]. destruct (c =? 0) eqn:E0; [discriminate|]. split; [intros [G|[s' G]]; [discriminate|injection G as -> ->; discriminate]|].
  intros o k r Hi Hs. apply spells_b in Hs; [|apply (spellings_plain _ _ Hi)].
  repeat match type of H with (if ?b then _ else _) = None => let E := fresh "E" in destruct b eqn:E; [repeat match type of H with match ?x with _ => _ end = _ => destruct x; try discriminate H | (if ?x then _ else _) = _ => destruct x; try discriminate H end; discriminate H|] end.
  unfold spellings in Hi; cbn [In] in Hi;
  repeat (destruct Hi as [Hi|Hi]; [injection Hi as <- <-; cbn [spellsb str list_ascii_of_string map] in Hs; apply andb_true_iff in Hs; destruct Hs as [Hs _]; apply eqb_lit in Hs; subst c; discriminate|]).
  destruct Hi.
Qed.
Lemma longest_unique : forall s k r k' r', longest s k r -> longest s k' r' -> k = k' /\ r = r'.
Proof.
  intros s k r k' r' (o & r0 & Hi & Hs & Hm & He & Hn) (o' & r0' & Hi' & Hs' & Hm' & He' & Hn').
  destruct (spells_same o s r0 Hs o' r0' Hs') as [<- <-]; [apply (spellings_plain _ _ Hi)|apply (spellings_plain _ _ Hi')|pose proof (Hm _ _ _ Hi' Hs'); pose proof (Hm' _ _ _ Hi Hs); lia|].
  split; [eapply spellings_fun; eauto|]. destruct (extends o) eqn:E.
  - apply extends_iff in E. destruct (He E) as (j & H1 & H2 & H3). destruct (He' E) as (j' & H1' & H2' & H3').
    assert (G : lc r0 = r) by (rewrite H2, lc_conts by auto; apply lc_id; auto). assert (G' : lc r0 = r') by (rewrite H2', lc_conts by auto; apply lc_id; auto). congruence.
  - assert (G : ~ extensible o) by (intros G; apply extends_iff in G; congruence). rewrite (Hn G), (Hn' G). reflexivity.
Qed.
Lemma ends_not_longest : forall s k r, ends s -> ~ longest s k r.
Proof.
  intros s k r [->|[s' ->]] (o & r0 & Hi & Hs & _); [inversion Hs|]. destruct (spellings_plain _ _ Hi) as [_ G]. inversion Hs; subst; destruct G as [G _]; apply G; reflexivity.
Qed.
Lemma operator_end : forall s, ends s -> operator s = Some (TT_END_OF_INPUT, s).
Proof. intros s [->|[s' ->]]; reflexivity. Qed.
Lemma operator_complete : forall s k r, longest s k r -> operator s = Some (k, r).
Proof.
  intros s k r H. destruct (operator s) as [[k' r']|] eqn:E.
  - destruct (operator_sound _ _ _ E) as [(G & _)|[_ G]]; [destruct (ends_not_longest _ _ _ G H)|]. destruct (longest_unique _ _ _ _ _ H G) as [-> ->]. reflexivity.
  - destruct (operator_none _ E) as [_ G]. destruct H as (o & r0 & Hi & Hs & _). destruct (G o k r0 Hi Hs).
Qed.

Section Tok.
Variable L : locale.
Hypothesis Lok : locale_ok L.
Variable X : Type.
Variable sp_parse : bool -> list N -> spres X.
Notation len := (@List.length N).
Hypothesis shrinks : forall q s x r, sp_parse q s = SpSome x r -> (len r < len s)%nat.
Notation word := (word X).
Notation part := (part X).
Notation parts := (parts L X sp_parse).
Notation units := (units X).
Notation parse_word := (parse_word L X sp_parse).
Notation gap := (gap L).
Notation no_gap := (no_gap L).
Notation delimiter := (delimiter L).
Notation is_delim := (is_delim L).

(** ** Gaps and comments *)
Lemma gap_split : forall s, exists g, gap g /\ s = g ++ skip_blanks L s /\ no_gap (skip_blanks L s).
Proof.
  fix IH 1. intros [|c s]; cbn [skip_blanks]; [exists []; repeat split; [constructor|discriminate|discriminate]|].
  destruct (iswblank L c) eqn:E.
  - destruct (IH s) as (g & H1 & H2 & H3). exists (c :: g). split; [constructor; auto|]. split; auto. cbn [app]. rewrite <- H2. reflexivity.
  - destruct s as [|d s]; [exists []; repeat split; [constructor|intros b s' G; injection G as <- <-; auto|discriminate]|].
    destruct ((c =? ch "\") && (d =? 10)) eqn:E'.
    + apply andb_true_iff in E'. destruct E' as [E1 E2]. apply N.eqb_eq in E1, E2. subst. destruct (IH s) as (g & H1 & H2 & H3). exists (ch "\" :: 10 :: g). split; [apply gap_cont; auto|]. split; auto. cbn [app]. rewrite <- H2. reflexivity.
    + exists []. repeat split; [constructor|intros b s' G; injection G as <- <-; auto|]. intros s' G. injection G as -> -> ->. rewrite !N.eqb_refl in E'. discriminate.
Qed.
Lemma gap_skip : forall g s, gap g -> no_gap s -> skip_blanks L (g ++ s) = s.
Proof.
  intros g s H [H1 H2]. induction H as [|b g Hb H IH|g H IH]; cbn [app].
  - destruct s as [|c [|d s]]; cbn [skip_blanks]; auto; rewrite (H1 c _ eq_refl); auto. destruct ((c =? ch "\") && (d =? 10)) eqn:E'; auto.
    apply andb_true_iff in E'. destruct E' as [E1 E2]. apply N.eqb_eq in E1, E2. subst. destruct (H2 s eq_refl).
  - cbn [skip_blanks]. rewrite Hb. exact IH.
  - cbn [skip_blanks]. rewrite (lk_blank L Lok) by reflexivity. rewrite !N.eqb_refl. exact IH.
Qed.
Lemma newline_split : forall s, exists b, ~ In 10 b /\ s = b ++ to_newline s /\ (to_newline s = [] \/ exists s', to_newline s = 10 :: s').
Proof.
  induction s as [|c s (b & H1 & H2 & H3)]; cbn [to_newline]; [exists []; cbn; auto|]. destruct (c =? 10) eqn:E.
  - apply N.eqb_eq in E. subst. exists []. split; [intros []|]. split; [reflexivity|]. right. eauto.
  - apply N.eqb_neq in E. exists (c :: b). split; [cbn [In]; intros [G|G]; auto|]. split; auto. cbn [app]. rewrite <- H2. reflexivity.
Qed.
Lemma newline_skip : forall b s, ~ In 10 b -> (s = [] \/ exists s', s = 10 :: s') -> to_newline (b ++ s) = s.
Proof.
  induction b as [|c b IH]; intros s H1 H2; cbn [app].
  - destruct H2 as [->|[s' ->]]; reflexivity.
  - cbn [to_newline]. cbn [In] in H1. destruct (c =? 10) eqn:E; [apply N.eqb_eq in E; subst; tauto|]. apply IH; auto.
Qed.
Lemma comment_split : forall s, exists c, s = c ++ skip_comment s /\ comment c (skip_comment s).
Proof.
  intros [|c s]; cbn [skip_comment]; [exists []; split; [reflexivity|left; split; [reflexivity|discriminate]]|]. destruct (c =? ch "#") eqn:E.
  - apply N.eqb_eq in E. subst. destruct (newline_split s) as (b & H1 & H2 & H3). exists (ch "#" :: b). split; [cbn [app]; rewrite <- H2; reflexivity|]. right. exists b. auto.
  - exists []. split; [reflexivity|]. left. split; auto. intros s' G. injection G as -> ->. rewrite N.eqb_refl in E. discriminate.
Qed.
Lemma comment_skip : forall c s, comment c s -> skip_comment (c ++ s) = s.
Proof.
  intros c s [[-> H]|(b & -> & H1 & H2)]; cbn [app].
  - destruct s as [|x s]; auto. cbn [skip_comment]. destruct (x =? ch "#") eqn:E; auto. apply N.eqb_eq in E. subst. destruct (H s eq_refl).
  - cbn [skip_comment]. rewrite N.eqb_refl. apply newline_skip; auto.
Qed.

(** ** Words *)
Fixpoint fl (acc : list N) (ps : list part) : word :=
  match ps with
  | [] => flush X acc []
  | PText _ s :: ps' => fl (acc ++ s) ps'
  | PSign _ c :: ps' => flush X acc (fl [c] ps')
  | PExp _ x :: ps' => flush X acc (USpec x :: fl [] ps')
  end.
Lemma delim_iff : forall c, is_delim c = true <-> delimiter c.
Proof.
  intros c. unfold ParseModel.is_delim, TokSpec.delimiter. rewrite orb_true_iff, existsb_exists. split.
  - intros [(x & H & E)|H]; [|auto]. apply N.eqb_eq in E. subst x. cbn [In] in H. destruct H as [<-|[<-|H]]; auto.
  - intros [H|[->|[->|H]]]; [left; exists c|left; exists 10|left; exists 0|auto]; (split; [cbn [In]; auto|apply N.eqb_refl]).
Qed.
Lemma delim_ascii : forall c, c < 128 -> iswblank L c = (c =? 32) || (c =? 9).
Proof. intros c H. apply (lk_blank L Lok c H). Qed.
Lemma parts_conts : forall k q s ps r, conts k -> parts q s ps r -> parts q (k ++ s) ps r.
Proof. intros k q s ps r H Hp. induction H; auto. cbn [app]. constructor. auto. Qed.
Lemma quote_split : forall s b r, to_quote s = Some (b, r) -> s = b ++ ch "'" :: r /\ ~ In (ch "'") b.
Proof.
  induction s as [|c s IH]; intros b r H; cbn [to_quote] in H; [discriminate|]. destruct (c =? ch "'") eqn:E.
  - injection H as <- <-. apply N.eqb_eq in E. subst. auto.
  - destruct (to_quote s) as [[q r']|]; [|discriminate]. injection H as <- <-. destruct (IH _ _ eq_refl) as [-> H]. split; auto. apply N.eqb_neq in E. cbn [In]. intros [G|G]; auto.
Qed.
Lemma quote_find : forall b s, ~ In (ch "'") b -> to_quote (b ++ ch "'" :: s) = Some (b, s).
Proof.
  induction b as [|c b IH]; intros s H; cbn [app to_quote]; [rewrite N.eqb_refl; reflexivity|]. cbn [In] in H. destruct (c =? ch "'") eqn:E; [apply N.eqb_eq in E; subst; tauto|].
  rewrite IH by tauto. reflexivity.
Qed.
Lemma word_sound : forall n q s acc w r, parse_word n q s acc = POk (w, r) -> exists ps, parts q s ps r /\ w = fl acc ps.
Proof.
  induction n as [|n IH]; intros q s acc w r H; [discriminate|].
  destruct (lc_split s) as (k & Hk & Es & Hl). enough (G : exists ps, parts q (lc s) ps r /\ w = fl acc ps).
  { destruct G as (ps & H1 & H2). exists ps. split; auto. rewrite Es. apply parts_conts; auto. }
  cbn [ParseModel.parse_word] in H. destruct (lc s) as [|c s'] eqn:El.
  { destruct q; [discriminate|]. injection H as <- <-. exists []. split; [constructor|reflexivity]. }
  clear Es El k Hk s. destruct (negb q && is_delim c) eqn:Ed.
  { injection H as <- <-. apply andb_true_iff in Ed. destruct Ed as [Eq Ed]. destruct q; [discriminate|]. exists []. split; [apply w_delim; apply delim_iff; auto|reflexivity]. }
  destruct (c =? ch "\") eqn:Eb.
  { apply N.eqb_eq in Eb. subst c. destruct s' as [|d s'].
    - destruct n as [|n]; [discriminate|]. cbn [ParseModel.parse_word lc] in H. destruct q; [discriminate|]. injection H as <- <-. exists [PText X [ch "\"]]. split; [apply w_backslash|reflexivity].
    - destruct (IH _ _ _ _ _ H) as (ps & H1 & ->). exists (PText X [ch "\"; d] :: ps). split; [|reflexivity]. apply w_escape; auto. intros ->. destruct (Hl s' eq_refl). }
  destruct ((c =? ch "$") || (c =? ch "`")) eqn:Ee.
  { assert (Hs : sign c) by (apply orb_true_iff in Ee; rewrite !N.eqb_eq in Ee; exact Ee). destruct (sp_parse q (c :: s')) as [x r'| |] eqn:Ep; [| |discriminate].
    - destruct (parse_word n q r' []) as [[us r1]| | |] eqn:E1; try discriminate. cbn [pbind] in H. injection H as <- <-. destruct (IH _ _ _ _ _ E1) as (ps & H1 & ->).
      exists (PExp X x :: ps). split; [eapply w_expansion; eauto|reflexivity].
    - destruct (parse_word n q s' [c]) as [[us r1]| | |] eqn:E1; try discriminate. cbn [pbind] in H. injection H as <- <-. destruct (IH _ _ _ _ _ E1) as (ps & H1 & ->).
      exists (PSign X c :: ps). split; [eapply w_sign; eauto|reflexivity]. }
  assert (Hsig : ~ sign c) by (intros [->| ->]; discriminate). apply N.eqb_neq in Eb.
  destruct ((c =? ch "'") && negb q) eqn:Eq.
  { apply andb_true_iff in Eq. destruct Eq as [Eq Eq']. destruct q; [discriminate|]. apply N.eqb_eq in Eq. subst c. destruct (to_quote s') as [[b r']|] eqn:Et; [|discriminate].
    apply quote_split in Et. destruct Et as [-> Hb]. destruct (IH _ _ _ _ _ H) as (ps & H1 & ->). exists (PText X (ch "'" :: b ++ [ch "'"]) :: ps). split; [apply w_single; auto|reflexivity]. }
  destruct (c =? 34) eqn:E34.
  { apply N.eqb_eq in E34. subst c. destruct (IH _ _ _ _ _ H) as (ps & H1 & ->). exists (PText X [34] :: ps). split; [|reflexivity]. destruct q; [apply w_close|apply w_open]; auto. }
  apply N.eqb_neq in E34. destruct (IH _ _ _ _ _ H) as (ps & H1 & ->). exists (PText X [c] :: ps). split; [|reflexivity]. apply w_char; auto.
  - intros [G|[G|G]]; auto.
  - destruct q; auto. right. cbn [negb andb] in *. rewrite andb_true_r in Eq. apply N.eqb_neq in Eq. split; auto. intros G. apply delim_iff in G. congruence.
Qed.
Lemma word_complete : forall q s ps r, parts q s ps r -> forall n acc, (len s < n)%nat -> parse_word n q s acc = POk (fl acc ps, r).
Proof.
  assert (D : forall c, c < 128 -> ~ In c (str ";&|<>()") -> c <> 10 -> c <> 0 -> c <> 32 -> c <> 9 -> is_delim c = false).
  { intros c H1 H2 H3 H4 H5 H6. destruct (is_delim c) eqn:E; auto. apply delim_iff in E. destruct E as [E|[E|[E|E]]]; try contradiction. rewrite delim_ascii in E by auto. lia. }
  assert (Db : is_delim (ch "\") = false) by (apply D; [reflexivity|cbn; intuition discriminate|discriminate..]).
  assert (Dd : forall c, sign c -> is_delim c = false) by (intros c [->| ->]; (apply D; [reflexivity|cbn; intuition discriminate|discriminate..])).
  assert (Dq : is_delim (ch "'") = false) by (apply D; [reflexivity|cbn; intuition discriminate|discriminate..]).
  assert (D2 : is_delim 34 = false) by (apply D; [reflexivity|cbn; intuition discriminate|discriminate..]).
  assert (Sg : forall c, sign c -> (c =? ch "\") = false /\ ((c =? ch "$") || (c =? ch "`")) = true) by (intros c [->| ->]; split; reflexivity).
  assert (Sl : forall c s, sign c -> lc (c :: s) = c :: s) by (intros c s [->| ->]; apply lc_other; discriminate).
  assert (Nn : forall q, negb q && false = false) by (intros []; reflexivity).
  intros q s ps r H. induction H; intros [|n] acc Hn; try (cbn [List.length] in Hn; lia).
  - reflexivity.
  - cbn [ParseModel.parse_word]. assert (E : is_delim c = true) by (apply delim_iff; auto). rewrite lc_other by (intros ->; congruence). rewrite E. reflexivity.
  - rewrite <- (IHparts (S n) acc) by (cbn [List.length] in Hn; lia). cbn [ParseModel.parse_word lc]. rewrite !N.eqb_refl. reflexivity.
  - cbn [ParseModel.parse_word]. rewrite lc_id by (intros s' E; congruence). rewrite Db, Nn, N.eqb_refl. apply IHparts. cbn [List.length] in Hn. lia.
  - destruct n as [|n]; [cbn [List.length] in Hn; lia|]. cbn [ParseModel.parse_word lc]. rewrite Db. reflexivity.
  - cbn [ParseModel.parse_word]. destruct (Sg c ltac:(assumption)) as [E1 E2]. rewrite Sl, Dd, Nn, E1, E2, H0 by auto. apply shrinks in H0. rewrite IHparts by lia. reflexivity.
  - cbn [ParseModel.parse_word]. destruct (Sg c ltac:(assumption)) as [E1 E2]. rewrite Sl, Dd, Nn, E1, E2, H0 by auto. rewrite IHparts by (cbn [List.length] in Hn; lia). reflexivity.
  - cbn [ParseModel.parse_word]. rewrite lc_other by discriminate. rewrite Dq, Nn. change (ch "'" =? ch "\") with false. change ((ch "'" =? ch "$") || (ch "'" =? ch "`")) with false. change ((ch "'" =? ch "'") && negb false) with true. cbn iota.
    rewrite quote_find by auto. apply IHparts. cbn [List.length] in Hn. rewrite app_length in Hn. cbn [List.length] in Hn. lia.
  - cbn [ParseModel.parse_word]. rewrite lc_other by discriminate. rewrite D2. cbn [negb andb]. change (34 =? ch "\") with false. change ((34 =? ch "$") || (34 =? ch "`")) with false. change (34 =? ch "'") with false. cbn [negb andb N.eqb Pos.eqb]. apply IHparts. cbn [List.length] in Hn. lia.
  - cbn [ParseModel.parse_word]. rewrite lc_other by discriminate. cbn [negb andb]. change (34 =? ch "\") with false. change ((34 =? ch "$") || (34 =? ch "`")) with false. change (34 =? ch "'") with false. cbn [negb andb N.eqb Pos.eqb]. apply IHparts. cbn [List.length] in Hn. lia.
  - cbn [ParseModel.parse_word]. assert (Hb : c <> ch "\") by (intros E; apply H; left; exact E). rewrite lc_other by auto. assert (Eb : (c =? ch "\") = false) by (apply N.eqb_neq; auto).
    assert (Es : (c =? ch "$") || (c =? ch "`") = false) by (apply orb_false_iff; split; apply N.eqb_neq; intros E; apply H; right; left; [left|right]; exact E).
    assert (E34 : (c =? 34) = false) by (apply N.eqb_neq; intros E; apply H; right; right; exact E).
    assert (Ed : negb q && is_delim c = false) by (destruct q; auto; destruct H0 as [G|[_ G]]; [discriminate|]; cbn [negb andb]; destruct (is_delim c) eqn:E; auto; apply delim_iff in E; tauto).
    assert (Eq : (c =? ch "'") && negb q = false) by (destruct q; [apply andb_false_r|]; destruct H0 as [G|[G _]]; [discriminate|]; apply N.eqb_neq in G; rewrite G; reflexivity).
    rewrite Ed, Eb, Es, Eq, E34. apply IHparts. cbn [List.length] in Hn. lia.
Qed.

(** ** The units of a word *)
Definition filled (ps : list part) : Prop := Forall (fun p => p <> PText X []) ps.
Lemma parts_filled : forall q s ps r, parts q s ps r -> filled ps.
Proof. intros q s ps r H. induction H; repeat constructor; auto; discriminate. Qed.
Lemma fl_flush : forall ps acc, no_text X ps -> fl acc ps = flush X acc (fl [] ps).
Proof. intros [|[s|c|x] ps] acc H; try reflexivity. destruct (H s ps eq_refl). Qed.
Lemma fl_texts : forall ts ps acc, fl acc (map (PText X) ts ++ ps) = fl (acc ++ concat ts) ps.
Proof. induction ts as [|t ts IH]; intros ps acc; cbn [map app concat fl]; [rewrite app_nil_r; reflexivity|]. rewrite IH, app_assoc. reflexivity. Qed.
Lemma units_fl : forall ps w, units ps w -> filled ps -> w = fl [] ps.
Proof.
  intros ps w H. induction H as [|s ts ps w Hn H IH|c ts ps w Hn H IH|x ps w H IH]; intros Hf.
  - reflexivity.
  - apply Forall_app in Hf. destruct Hf as [Hf Hp]. rewrite (fl_texts (s :: ts)). cbn [app concat map] in *. inversion Hf; subst. rewrite fl_flush by auto. rewrite <- IH by auto. destruct s; [congruence|reflexivity].
  - inversion Hf; subst. match goal with G : Forall _ (_ ++ _) |- _ => apply Forall_app in G; destruct G as [_ Hp] end. cbn [fl flush]. rewrite fl_texts, fl_flush by auto. rewrite <- IH by auto. reflexivity.
  - inversion Hf; subst. cbn [fl flush]. rewrite <- IH by auto. reflexivity.
Qed.
Lemma no_text_nil : no_text X [].
Proof. intros s ps H. discriminate. Qed.
Lemma fl_units : forall ps, filled ps -> units ps (fl [] ps) /\
  (forall s ts, s <> [] -> units (map (PText X) (s :: ts) ++ ps) (fl (s ++ concat ts) ps)) /\
  (forall c ts, units (PSign X c :: map (PText X) ts ++ ps) (fl (c :: concat ts) ps)).
Proof.
  induction ps as [|p ps IH]; intros Hf.
  - assert (N0 := no_text_nil). split; [constructor|split].
    + intros s ts Hs. cbn [fl]. destruct s as [|a s]; [congruence|]. apply (u_text X (a :: s) ts [] []); [auto|constructor].
    + intros c ts. cbn [fl flush]. apply (u_sign X c ts [] []); [auto|constructor].
  - inversion Hf as [|? ? Hp Hf']; subst. destruct (IH Hf') as (I1 & I2 & I3). destruct p as [t|c|x].
    + split; [|split].
      * assert (Ht : t <> []) by congruence. specialize (I2 t [] Ht). cbn [concat map app] in I2. rewrite app_nil_r in I2. exact I2.
      * intros s ts Hs. specialize (I2 s (ts ++ [t]) Hs). cbn [map] in I2. rewrite map_app, <- app_comm_cons, <- app_assoc, concat_app in I2. cbn [concat map app] in I2. rewrite app_nil_r, app_assoc in I2. exact I2.
      * intros c ts. specialize (I3 c (ts ++ [t])). rewrite map_app, <- app_assoc, concat_app in I3. cbn [concat map app] in I3. rewrite app_nil_r in I3. exact I3.
    + assert (N0 : no_text X (PSign X c :: ps)) by (intros s ps' E; discriminate). assert (J : units (PSign X c :: ps) (fl [] (PSign X c :: ps))) by (exact (I3 c [])).
      split; [exact J|split].
      * intros s ts Hs. rewrite fl_flush by auto. destruct s as [|a s]; [congruence|]. apply (u_text X (a :: s) ts); auto.
      * intros c' ts. rewrite fl_flush by auto. apply u_sign; auto.
    + assert (N0 : no_text X (PExp X x :: ps)) by (intros s ps' E; discriminate). assert (J : units (PExp X x :: ps) (fl [] (PExp X x :: ps))) by (cbn [fl flush]; constructor; auto).
      split; [exact J|split].
      * intros s ts Hs. rewrite fl_flush by auto. destruct s as [|a s]; [congruence|]. apply (u_text X (a :: s) ts); auto.
      * intros c' ts. rewrite fl_flush by auto. apply u_sign; auto.
Qed.

(** ** The type of a word *)
Lemma digit_iff : forall c, iswdigit c = true <-> In c (str "0123456789").
Proof.
  intros c. unfold iswdigit. split.
  - intros H. assert (E : In c [48; 49; 50; 51; 52; 53; 54; 55; 56; 57]) by (cbn [In]; lia). exact E.
  - intros H. assert (E : In c [48; 49; 50; 51; 52; 53; 54; 55; 56; 57]) by exact H. cbn [In] in E. lia.
Qed.
(** The units of a word that starts at no delimiter are not empty strings. *)
Definition solid (w : word) : Prop := w <> [UStr []].
Lemma descriptor_iff : forall w r, solid w ->
  match r with c :: _ => (c =? ch "<") || (c =? ch ">") | [] => false end && is_digits_only X w = true <-> descriptor_word X w r.
Proof.
  intros w r Hw. unfold is_digits_only, descriptor_word. rewrite andb_true_iff. split.
  - intros [H1 H2]. destruct r as [|c r]; [discriminate|]. destruct w as [|[s|] [|]]; cbn [single_string] in H2; try discriminate. exists s, c, r. split; auto. split; [split; [intros ->; apply Hw; reflexivity|]|split; auto].
    + apply Forall_forall. intros x Hx. apply digit_iff. rewrite forallb_forall in H2. auto.
    + apply orb_true_iff in H1. rewrite !N.eqb_eq in H1. destruct H1 as [->| ->]; cbn; auto.
  - intros (s & c & r' & -> & [H1 H2] & -> & H3). cbn [single_string]. split; [cbn in H3; destruct H3 as [<-|[<-|[]]]; reflexivity|]. apply forallb_forall. intros x Hx. apply digit_iff. rewrite Forall_forall in H2. auto.
Qed.
Lemma reserved_iff : forall s k, In (s, k) reserved_words <-> k = identify_reserved_word_string s /\ k <> TT_WORD.
Proof.
  intros s k. split.
  - intros H. unfold reserved_words in H. cbn [In] in H. repeat (destruct H as [H|H]; [injection H as <- <-; split; [reflexivity|discriminate]|]). destruct H.
  - intros [-> H]. unfold identify_reserved_word_string in *. destruct (find _ keywords) as [[s' k']|] eqn:E; [|congruence]. apply find_some in E. destruct E as [E1 E2]. cbn [fst] in E2. apply list_N_eqb_eq in E2. subst s'.
    unfold keywords in E1. unfold reserved_words. cbn [In] in *. intuition.
Qed.
Lemma kind_iff : forall w r k, solid w -> (word_kind X w r k <-> k = word_type X w r).
Proof.
  intros w r k Hw. pose proof (descriptor_iff w r Hw) as D. unfold word_type. destruct (_ && _).
  - split.
    + intros H. inversion H; subst; auto; tauto.
    + intros ->. apply k_descriptor. tauto.
  - assert (Dn : ~ descriptor_word X w r) by (intros G; apply D in G; discriminate). unfold identify_reserved_word. split.
    + intros H. inversion H as [|s k' _ E Hi|_ Hn]; subst; [tauto| |].
      * cbn [single_string]. apply reserved_iff in Hi. tauto.
      * destruct w as [|[s|] [|]]; cbn [single_string]; auto. destruct (tt_eqb (identify_reserved_word_string s) TT_WORD) eqn:E; [apply tt_eqb_eq in E; auto|].
        destruct (Hn s (identify_reserved_word_string s) eq_refl). apply reserved_iff. split; auto. intros E'. rewrite E' in E. discriminate.
    + intros ->. destruct w as [|[s|] [|]]; cbn [single_string]; try (apply k_word; [auto|intros s' k' E; discriminate]).
      destruct (tt_eqb (identify_reserved_word_string s) TT_WORD) eqn:E.
      * apply tt_eqb_eq in E. rewrite E. apply k_word; auto. intros s' k' E' Hi. injection E' as <-. apply reserved_iff in Hi. destruct Hi as [-> Hi]. auto.
      * eapply k_reserved; eauto. apply reserved_iff. split; auto. intros E'. rewrite E' in E. discriminate.
Qed.
Lemma fl_solid : forall ps acc, filled ps -> acc <> [] \/ True -> fl acc ps <> [UStr []].
Proof.
  induction ps as [|[s|c|x] ps IH]; intros acc Hf _; cbn [fl].
  - destruct acc; discriminate.
  - inversion Hf; subst. apply IH; auto.
  - inversion Hf; subst. destruct acc as [|a acc]; cbn [flush]; [apply IH; auto|]. discriminate.
  - destruct acc; discriminate.
Qed.

(** ** Tokens *)
Theorem token_sound : forall s t, next_token L X sp_parse s = POk t -> token L X sp_parse s (tk_type X t) (tk_word X t) (tk_rest X t).
Proof.
  intros s t H. unfold next_token in H. destruct (gap_split s) as (g & H1 & H2 & H3). set (x := skip_blanks L s) in *. destruct (comment_split x) as (c & H4 & H5). set (s1 := skip_comment x) in *.
  assert (E : s = g ++ c ++ s1) by congruence. assert (G : no_gap (c ++ s1)) by congruence. destruct (operator s1) as [[k r]|] eqn:Eo.
  - injection H as <-. cbn [tk_type tk_word tk_rest]. destruct (operator_sound _ _ _ Eo) as [(K1 & -> & ->)|[_ K]]; [eapply token_end; eauto|eapply token_operator; eauto].
  - destruct (operator_none _ Eo) as [K1 K2]. destruct (parse_word (S (length s1)) false s1 []) as [[w r]| | |] eqn:Ew; try discriminate. cbn [pbind] in H. injection H as <-. cbn [tk_type tk_word tk_rest].
    destruct (word_sound _ _ _ _ _ _ Ew) as (ps & Hp & ->). pose proof (parts_filled _ _ _ _ Hp) as Hf. eapply token_word; eauto; [apply fl_units; auto|]. apply kind_iff; auto. apply fl_solid; auto.
Qed.
Theorem token_complete : forall s k w r, token L X sp_parse s k w r -> next_token L X sp_parse s = POk (mkTok X k w r).
Proof.
  intros s k w r H. unfold next_token. destruct H as [g c s1 E Hg Hn Hc He|g c s1 k r E Hg Hn Hc Hl|g c s1 ps w k r E Hg Hn Hc He Ho Hp Hu Hk]; subst s; rewrite gap_skip, comment_skip by auto.
  - rewrite operator_end by auto. reflexivity.
  - rewrite (operator_complete _ _ _ Hl). reflexivity.
  - destruct (operator s1) as [[k' r']|] eqn:Eo.
    + destruct (operator_sound _ _ _ Eo) as [(K & _)|[_ (o & r0 & Hi & Hs & _)]]; [tauto|]. destruct (Ho _ _ _ Hi Hs).
    + pose proof (parts_filled _ _ _ _ Hp) as Hf. apply units_fl in Hu; auto. subst w. rewrite (word_complete _ _ _ _ Hp) by lia. cbn [pbind]. apply kind_iff in Hk; [|apply fl_solid; auto]. rewrite <- Hk. reflexivity.
Qed.
Lemma word_not_unmod : forall n q s acc, parse_word n q s acc <> PUnmod.
Proof.
  induction n as [|n IH]; intros q s acc; cbn [ParseModel.parse_word]; [discriminate|].
  repeat match goal with
  | |- parse_word n ?a ?b ?c <> PUnmod => apply IH
  | |- pbind (parse_word n ?a ?b ?c) _ <> PUnmod => specialize (IH a b c); destruct (parse_word n a b c) as [[? ?]| | |]; cbn [pbind]
  | |- match ?x with _ => _ end <> PUnmod => destruct x
  | |- _ => discriminate || congruence
  end.
Qed.
Lemma next_not_unmod : forall s, next_token L X sp_parse s <> PUnmod.
Proof.
  intros s. unfold next_token. destruct (operator _) as [[k r]|]; [discriminate|]. match goal with |- pbind ?x _ <> _ => pose proof (word_not_unmod (S (length (skip_comment (skip_blanks L s)))) false (skip_comment (skip_blanks L s)) []); destruct x as [[w r]| | |] end; cbn [pbind]; congruence.
Qed.
Theorem token_error : forall s, next_token L X sp_parse s = PErr <-> ~ exists k w r, token L X sp_parse s k w r.
Proof.
  intros s. split.
  - intros H (k & w & r & Ht). apply token_complete in Ht. congruence.
  - intros H. destruct (next_token L X sp_parse s) as [t| | |] eqn:E; auto; exfalso.
    + apply H. exists (tk_type X t), (tk_word X t), (tk_rest X t). apply token_sound; auto.
    + apply (next_not_unmod s E).
    + apply (nextt_nf L X sp_parse shrinks s E).
Qed.
End Tok.
