(** Words and tokens: what the tokenizer produces can be printed and read back. *)
From Coq Require Import Ascii String.
From Coq Require Import List NArith ZArith Bool Arith Lia.
From Coq Require Import ZifyBool ZifyN.
From Verif Require Import Common Locale NumModel NumProofs ParseModel ParseSpec.
Import ListNotations.
Local Open Scope N_scope.

Section Lex.
Variable L : locale.
Hypothesis Lok : locale_ok L.
Variable X : Type.
Variable sp_parse : bool -> list N -> spres X.
Variable sp_print : X -> list N.
Hypothesis EX : expansions_ok L X sp_print sp_parse.
Notation word := (word X).
Notation print_word := (print_word X sp_print).
Notation parse_word := (parse_word L X sp_parse).
Notation next_token := (next_token L X sp_parse).
Notation is_delim := (is_delim L).
Notation flush := (flush X).

Definition plain (q : bool) (c : N) : Prop :=
  negb q && is_delim c = false /\ c <> ch "\" /\ c <> ch "$" /\ c <> ch "`" /\ c <> 34 /\ (c <> ch "'" \/ q = true).
Definition xok (x : X) : Prop := forall q r, sp_parse q (sp_print x ++ r) = SpSome x r.
(** What may follow a dollar sign that stands for itself *)
Definition nolone (t : list N) : Prop :=
  match t with
  | [] => True
  | c :: _ => forall q s, hd_error (lc s) = Some c -> sp_parse q (ch "$" :: s) = SpNone
  end.

(** [pw q acc t w]: with the string [acc] pending, the text [t] completes [w]. *)
Inductive pw : bool -> list N -> list N -> word -> Prop :=
  | pw_end : forall acc, pw false acc [] (flush acc [])
  | pw_esc : forall q acc d t w, d <> 10 -> pw q (acc ++ [ch "\"; d]) t w -> pw q acc (ch "\" :: d :: t) w
  | pw_plain : forall q acc c t w, plain q c -> pw q (acc ++ [c]) t w -> pw q acc (c :: t) w
  | pw_dq : forall q acc t w, pw (negb q) (acc ++ [34]) t w -> pw q acc (34 :: t) w
  | pw_sq : forall acc b t w, ~ In (ch "'") b -> pw false (acc ++ ch "'" :: b ++ [ch "'"]) t w ->
      pw false acc (ch "'" :: b ++ ch "'" :: t) w
  | pw_spec : forall q acc x t w, xok x -> pw q [] t w -> pw q acc (sp_print x ++ t) (flush acc (USpec x :: w))
  | pw_dol : forall q acc t w, nolone t -> pw q [ch "$"] t w -> pw q acc (ch "$" :: t) (flush acc w).

Lemma blank_ascii : forall c, c < 128 -> iswblank L c = c_blank c.
Proof. apply (lk_blank L Lok). Qed.
Lemma delim_ascii : forall c, c < 128 -> is_delim c = existsb (N.eqb c) (0 :: 9 :: 10 :: 32 :: str ";&|<>()").
Proof.
  intros c H. unfold ParseModel.is_delim. rewrite blank_ascii by auto. unfold c_blank. cbn [existsb str].
  destruct (c =? 0), (c =? 10), (c =? 32), (c =? 9); cbn [orb]; rewrite ?orb_true_r, ?orb_false_r; reflexivity.
Qed.
Lemma delim_bs : is_delim (ch "\") = false.
Proof. rewrite delim_ascii; reflexivity. Qed.
Lemma delim_dollar : is_delim (ch "$") = false.
Proof. rewrite delim_ascii; reflexivity. Qed.
Lemma delim_dq : is_delim 34 = false.
Proof. rewrite delim_ascii; reflexivity. Qed.
Lemma delim_sq : is_delim (ch "'") = false.
Proof. rewrite delim_ascii; reflexivity. Qed.

Lemma lc_other : forall c s, c <> ch "\" -> lc (c :: s) = c :: s.
Proof. intros c [|d s] H; cbn [lc]; auto. destruct (c =? ch "\") eqn:E; [lia|]. reflexivity. Qed.
Lemma lc_esc : forall d s, d <> 10 -> lc (ch "\" :: d :: s) = ch "\" :: d :: s.
Proof. intros d s H. cbn [lc]. destruct (d =? 10) eqn:E; [lia|]. rewrite andb_false_r. reflexivity. Qed.
Lemma lc_head : forall s, match lc s with c :: d :: _ => c <> ch "\" \/ d <> 10 | _ => True end.
Proof.
  fix IH 1. intros [|c [|d s]]; cbn [lc]; auto.
  destruct ((c =? ch "\") && (d =? 10)) eqn:E; [apply IH|]. lia.
Qed.
Lemma to_quote_spec : forall s b r, to_quote s = Some (b, r) <-> s = b ++ ch "'" :: r /\ ~ In (ch "'") b.
Proof.
  induction s as [|c s IH]; intros b r; cbn [to_quote].
  - split; [discriminate|]. intros [H _]. destruct b; discriminate.
  - destruct (c =? ch "'") eqn:E.
    + apply N.eqb_eq in E. subst c. split.
      * intros [= <- <-]. auto.
      * intros [H1 H2]. destruct b as [|x b]; cbn [app] in H1; [injection H1 as ->; auto|].
        injection H1 as E1 _. exfalso. apply H2. subst x. left. reflexivity.
    + destruct (to_quote s) as [[b' r']|] eqn:E'.
      * split.
        -- intros [= <- <-]. destruct (proj1 (IH b' r') eq_refl) as [-> H]. split; auto.
           intros [H'|H']; [lia|]. auto.
        -- intros [H1 H2]. destruct b as [|x b]; cbn [app] in H1; injection H1 as E1 E2; [subst c; vm_compute in E; discriminate E|].
           subst x. assert (Some (b', r') = Some (b, r)) as H by (apply IH; split; auto; intros H; apply H2; cbn; auto).
           injection H as -> ->. reflexivity.
      * split; [discriminate|]. intros [H1 H2]. destruct b as [|x b]; cbn [app] in H1; injection H1 as E1 E2; [subst c; vm_compute in E; discriminate E|].
        exfalso. assert (None = Some (b, r)) by (apply IH; split; auto; intros H; apply H2; cbn; auto). discriminate.
Qed.

(** What can follow a word in printed text *)
Definition dstart (r : list N) : Prop := match r with [] => True | c :: _ => is_delim c = true end.
Definition lpar (r : list N) : Prop := match r with [] => False | c :: _ => c = ch "(" end.

Lemma dstart_lc : forall r, dstart r -> lc r = r.
Proof.
  intros [|c r] H; auto. apply lc_other. intros ->. cbn [dstart] in H. rewrite delim_bs in H. discriminate.
Qed.

Lemma print_flush : forall acc w, print_word (flush acc w) = acc ++ print_word w.
Proof. intros [|c acc] w; reflexivity. Qed.

Lemma pw_print : forall q acc t w, pw q acc t w -> print_word w = acc ++ t.
Proof.
  intros q acc t w H. induction H; rewrite ?print_flush; cbn [ParseModel.print_word];
    rewrite ?IHpw, <- ?app_assoc; cbn [app]; rewrite <- ?app_assoc; auto.
Qed.

(** Reading back *)
Lemma pw_parse : forall q acc t w, pw q acc t w -> forall r n, dstart r -> (length (t ++ r) < n)%nat ->
  (lpar r -> not_last (ch "$") (acc ++ t)) ->
  parse_word n q (t ++ r) acc = POk (w, r).
Proof.
  intros q acc t w H.
  induction H as [acc|q acc d t w Hd H IH|q acc c t w Hc H IH|q acc t w H IH|acc b t w Hb H IH|q acc x t w Hx H IH|q acc t w Hl H IH];
    intros r n Hr Hn Hp; (destruct n as [|n]; [lia|]); cbn [ParseModel.parse_word].
  - cbn [app]. rewrite dstart_lc by auto. destruct r as [|c r]; auto.
    cbn in Hr. rewrite Hr. reflexivity.
  - change ((ch "\" :: d :: t) ++ r) with (ch "\" :: d :: (t ++ r)) in *. rewrite lc_esc by auto. rewrite delim_bs, andb_false_r, N.eqb_refl.
    apply IH; auto; [cbn [length] in Hn; lia|]. rewrite <- app_assoc. auto.
  - change ((c :: t) ++ r) with (c :: (t ++ r)) in *. destruct Hc as (C1 & C2 & C3 & C4 & C5 & C6).
    rewrite lc_other, C1 by auto.
    destruct (c =? ch "\") eqn:E1; [lia|]. destruct (c =? ch "$") eqn:E2; [lia|].
    destruct (c =? ch "`") eqn:E3; [lia|]. destruct (c =? 34) eqn:E5; [lia|]. cbn [orb].
    destruct ((c =? ch "'") && negb q) eqn:E4; [destruct C6; [lia|subst q; lia]|].
    apply IH; auto; [cbn [length] in Hn; lia|]. rewrite <- app_assoc. auto.
  - change ((34 :: t) ++ r) with (34 :: (t ++ r)) in *. rewrite lc_other by discriminate. rewrite delim_dq, andb_false_r.
    change (34 =? ch "\") with false. change (34 =? ch "$") with false. change (34 =? ch "`") with false.
    change (34 =? ch "'") with false. cbn [orb andb N.eqb]. change (34 =? 34) with true. cbn match.
    apply IH; auto; [cbn [length] in Hn; lia|]. rewrite <- app_assoc. auto.
  - replace ((ch "'" :: b ++ ch "'" :: t) ++ r) with (ch "'" :: b ++ ch "'" :: t ++ r) in * by (cbn; rewrite <- app_assoc; reflexivity).
    rewrite lc_other by discriminate. rewrite delim_sq, andb_false_r.
    change (ch "'" =? ch "\") with false. change (ch "'" =? ch "$") with false. change (ch "'" =? ch "`") with false.
    change (ch "'" =? ch "'") with true. cbn [orb andb negb].
    rewrite (proj2 (to_quote_spec (b ++ ch "'" :: t ++ r) b (t ++ r))) by auto.
    apply IH; auto; [cbn [length] in Hn; rewrite app_length in Hn; cbn [length] in Hn; lia|].
    intros Hlp. specialize (Hp Hlp). intros s' E. apply (Hp s'). rewrite <- E. rewrite <- !app_assoc. cbn. rewrite <- app_assoc. reflexivity.
  - rewrite <- app_assoc in *. pose proof (Hx q (t ++ r)) as E. destruct (ex_dollar _ _ _ _ EX x) as [s Es]. rewrite Es in *.
    cbn [app] in *. rewrite lc_other by discriminate. rewrite delim_dollar, andb_false_r.
    change (ch "$" =? ch "\") with false. change (ch "$" =? ch "$") with true. cbn [orb]. rewrite E.
    rewrite IH; auto; [cbn [length] in Hn; rewrite app_length in Hn; lia|].
    intros Hlp s' E'. specialize (Hp Hlp). apply (Hp (acc ++ ch "$" :: s ++ s')).
    cbn [app] in E'. rewrite E', <- !app_assoc. cbn [app]. rewrite <- !app_assoc. reflexivity.
  - change ((ch "$" :: t) ++ r) with (ch "$" :: (t ++ r)) in *. rewrite lc_other by discriminate. rewrite delim_dollar, andb_false_r.
    change (ch "$" =? ch "\") with false. change (ch "$" =? ch "$") with true. cbn [orb].
    assert (E : sp_parse q (ch "$" :: t ++ r) = SpNone).
    { destruct t as [|c t].
      - apply (ex_delim _ _ _ _ EX). cbn [app]. destruct r as [|c r]; auto. split; auto.
        intros ->. apply (Hp eq_refl acc). reflexivity.
      - cbn in Hl. apply Hl. inversion H; subst; cbn [app].
        + rewrite lc_esc by auto. reflexivity.
        + destruct H4 as (_ & H4 & _). rewrite lc_other by auto. reflexivity.
        + rewrite lc_other by discriminate. reflexivity.
        + rewrite lc_other by discriminate. reflexivity.
        + destruct (ex_dollar _ _ _ _ EX x) as [s Es]. rewrite Es in *. cbn [app] in *.
          match goal with E : ch "$" :: _ = c :: t |- _ => injection E as <- <- end.
          rewrite lc_other by discriminate. reflexivity.
        + rewrite lc_other by discriminate. reflexivity. }
    rewrite E. rewrite IH; auto; [cbn [length] in Hn; lia|].
    intros Hlp s' E'. specialize (Hp Hlp). apply (Hp (acc ++ s')).
    cbn [app] in E'. rewrite E', <- !app_assoc. reflexivity.
Qed.

(** The state of the quotes after the pending string *)
Definition mode_of (q : bool) : mode := if q then MDouble else MPlain.
Lemma qstep_sq : forall b, ~ In (ch "'") b -> fold_left qstep b (mkQ MSingle false false) = mkQ MSingle false false.
Proof.
  induction b as [|c b IH]; intros H; cbn [fold_left]; auto. unfold qstep at 2. cbn [q_mode].
  destruct (c =? ch "'") eqn:E; [exfalso; apply H; left; lia|]. apply IH. intros H'. apply H. right. auto.
Qed.
Lemma clean_flush : forall st acc w, clean X st (flush acc w) <-> clean X (fold_left qstep acc st) w.
Proof. intros st [|c acc] w; cbn [ParseModel.flush clean fold_left]; tauto. Qed.

Ltac inv H := inversion H; subst; clear H.

(** What is read, if clean, can be read back *)
Lemma parse_pw : forall n q s acc w r st, parse_word n q s acc = POk (w, r) ->
  fold_left qstep acc st = mkQ (mode_of q) false (q_dol (fold_left qstep acc st)) ->
  clean X st w ->
  exists t, pw q acc t w /\
    (t = [] \/ hd_error t = hd_error (lc s) \/ exists x us, w = flush acc (USpec x :: us)) /\
    dstart r /\ (r = [] -> t <> [] \/ lc s = []) /\ (t = [] -> dstart (lc s) /\ q = false).
Proof.
  induction n as [|n IH]; intros q s acc w r st H Hst Hc; cbn [ParseModel.parse_word] in H; [discriminate|].
  destruct (lc s) as [|c s'] eqn:Es.
  { destruct q; [discriminate|]. injection H as <- <-. exists []. split; [constructor|]. cbn. auto 6. }
  destruct (negb q && is_delim c) eqn:Ed.
  { injection H as <- <-. destruct q; [discriminate|]. exists []. split; [constructor|]. cbn in Ed. cbn. repeat split; auto; try discriminate; right; left; auto. }
  destruct (c =? ch "\") eqn:E1.
  { apply N.eqb_eq in E1. subst c. destruct s' as [|d s'].
    - exfalso. destruct n as [|n]; [discriminate|]. cbn [ParseModel.parse_word lc] in H. destruct q; [discriminate|].
      injection H as <- <-. rewrite clean_flush in Hc. rewrite fold_left_app, Hst in Hc. cbn in Hc. discriminate.
    - assert (Hd : d <> 10).
      { pose proof (lc_head s) as H'. rewrite Es in H'. destruct H'; congruence. }
      destruct (IH q s' _ w r st H) as (t & T1 & T2 & T3 & T4 & T5); auto.
      { rewrite !fold_left_app, Hst. destruct q; reflexivity. }
      exists (ch "\" :: d :: t). split; [apply pw_esc; auto|]. split; [right; left; reflexivity|].
      split; auto. split; [left; discriminate|discriminate]. }
  destruct (c =? ch "$") eqn:E2; [|destruct (c =? ch "`") eqn:E3].
  - apply N.eqb_eq in E2. subst c. cbn [orb] in H. destruct (sp_parse q (ch "$" :: s')) as [x r1| |] eqn:Ep; [| |discriminate].
    + destruct (parse_word n q r1 []) as [[us r']| | |] eqn:Er; cbn [pbind] in H; [|discriminate..]. injection H as <- <-.
      rewrite clean_flush in Hc. cbn [clean] in Hc. destruct Hc as [Hc1 Hc2].
      destruct (IH q r1 [] us r' (mkQ (q_mode (fold_left qstep acc st)) false false) Er) as (t & T1 & T2 & T3 & T4 & T5); auto.
      { cbn [fold_left]. rewrite Hst. reflexivity. }
      destruct (ex_dollar _ _ _ _ EX x) as [sx Ex].
      exists (sp_print x ++ t). split; [apply pw_spec; auto; intros q' r''; apply (ex_back _ _ _ _ EX) with (1 := Ep)|].
      split; [right; right; eauto|]. rewrite Ex. split; auto. split; [left; discriminate|discriminate].
    + destruct (parse_word n q s' [ch "$"]) as [[us r']| | |] eqn:Er; cbn [pbind] in H; [|discriminate..]. injection H as <- <-.
      rewrite clean_flush in Hc.
      assert (Hq : qstep (fold_left qstep acc st) (ch "$") = mkQ (mode_of q) false true) by (rewrite Hst; destruct q; reflexivity).
      destruct (IH q s' [ch "$"] us r' (fold_left qstep acc st) Er) as (t & T1 & T2 & T3 & T4 & T5); auto.
      { cbn [fold_left]. rewrite Hq. reflexivity. }
      exists (ch "$" :: t). split.
      { apply pw_dol; auto. unfold nolone. destruct t as [|c t]; auto. intros q' s'' Hs.
        apply (ex_none _ _ _ _ EX) with (1 := Ep). rewrite Hs. destruct T2 as [T2|[T2|(x & us' & T2)]]; [discriminate|auto|].
        exfalso. subst us. rewrite clean_flush in Hc. cbn [fold_left] in Hc. rewrite Hq in Hc. destruct Hc as [Hc _]. discriminate. }
      split; [right; left; reflexivity|]. split; auto. split; [left; discriminate|discriminate].
  - apply N.eqb_eq in E3. subst c. cbn [orb] in H. destruct (sp_parse q (ch "`" :: s')) as [x r1| |] eqn:Ep; [| |discriminate].
    + destruct (parse_word n q r1 []) as [[us r']| | |] eqn:Er; cbn [pbind] in H; [|discriminate..]. injection H as <- <-.
      rewrite clean_flush in Hc. cbn [clean] in Hc. destruct Hc as [Hc1 Hc2].
      destruct (IH q r1 [] us r' (mkQ (q_mode (fold_left qstep acc st)) false false) Er) as (t & T1 & T2 & T3 & T4 & T5); auto.
      { cbn [fold_left]. rewrite Hst. reflexivity. }
      destruct (ex_dollar _ _ _ _ EX x) as [sx Ex].
      exists (sp_print x ++ t). split; [apply pw_spec; auto; intros q' r''; apply (ex_back _ _ _ _ EX) with (1 := Ep)|].
      split; [right; right; eauto|]. rewrite Ex. split; auto. split; [left; discriminate|discriminate].
    + exfalso. apply (ex_backquote _ _ _ _ EX q s'). auto.
  - cbn [orb] in H. destruct ((c =? ch "'") && negb q) eqn:E4.
    { assert (c = ch "'") by lia. destruct q; [lia|]. subst c.
      destruct (to_quote s') as [[b r1]|] eqn:Eq; [|discriminate]. apply to_quote_spec in Eq. destruct Eq as [-> Hb].
      destruct (IH false r1 _ w r st H) as (t & T1 & T2 & T3 & T4 & T5); auto.
      { rewrite !fold_left_app, Hst. cbn [fold_left]. rewrite fold_left_app.
        replace (qstep (mkQ (mode_of false) false (q_dol (fold_left qstep acc st))) (ch "'")) with (mkQ MSingle false false) by reflexivity.
        rewrite qstep_sq by auto. reflexivity. }
      exists (ch "'" :: b ++ ch "'" :: t). split; [apply pw_sq; auto|]. split; [right; left; reflexivity|].
      split; auto. split; [left; discriminate|discriminate]. }
    destruct (c =? 34) eqn:E5.
    { apply N.eqb_eq in E5. subst c.
      destruct (IH (negb q) s' _ w r st H) as (t & T1 & T2 & T3 & T4 & T5); auto.
      { rewrite !fold_left_app, Hst. destruct q; reflexivity. }
      exists (34 :: t). split; [apply pw_dq; auto|]. split; [right; left; reflexivity|].
      split; auto. split; [left; discriminate|discriminate]. }
    assert (Hp : plain q c) by (unfold plain; destruct q; repeat split; auto; try lia; intros ->; discriminate).
    destruct (IH q s' _ w r st H) as (t & T1 & T2 & T3 & T4 & T5); auto.
    { rewrite !fold_left_app, Hst. cbn [fold_left]. unfold qstep. cbn [q_mode q_esc].
      rewrite E1, E5. destruct q; cbn [mode_of]; destruct (c =? ch "'") eqn:E6; auto; discriminate E4. }
    exists (c :: t). split; [apply pw_plain; auto|]. split; [right; left; reflexivity|].
    split; auto. split; [left; discriminate|discriminate].
Qed.

(** ** Tokens *)

Definition opchar (c : N) : bool := existsb (N.eqb c) (0 :: 10 :: str ";&|<>()").
Lemma operator_word : forall c s, operator (c :: s) = None <-> opchar c = false.
Proof.
  intros c s. unfold opchar. cbn [existsb str]. unfold operator.
  change (N_of_ascii ";") with (ch ";"). change (N_of_ascii "&") with (ch "&"). change (N_of_ascii "|") with (ch "|").
  change (N_of_ascii "<") with (ch "<"). change (N_of_ascii ">") with (ch ">").
  change (N_of_ascii "(") with (ch "("). change (N_of_ascii ")") with (ch ")").
  destruct (c =? 0) eqn:?; [split; discriminate|]. destruct (c =? 10) eqn:?; [split; discriminate|].
  destruct (c =? ch "(") eqn:?; [rewrite !orb_true_r; split; discriminate|].
  destruct (c =? ch ")") eqn:?; [rewrite !orb_true_r; split; discriminate|].
  destruct (c =? ch ";") eqn:?.
  { cbn [orb]. split; [|discriminate]. destruct (lc s) as [|d t]; [discriminate|]. destruct (d =? ch ";"); discriminate. }
  destruct (c =? ch "&") eqn:?.
  { cbn [orb]. split; [|discriminate]. destruct (lc s) as [|d t]; [discriminate|]. destruct (d =? ch "&"); discriminate. }
  destruct (c =? ch "|") eqn:?.
  { cbn [orb]. split; [|discriminate]. destruct (lc s) as [|d t]; [discriminate|]. destruct (d =? ch "|"); discriminate. }
  destruct (c =? ch "<") eqn:?.
  { cbn [orb]. split; [|discriminate]. destruct (lc s) as [|d t]; [discriminate|].
    destruct (d =? ch ">"); [discriminate|]. destruct (d =? ch "("); [discriminate|].
    destruct (d =? ch "&"); [discriminate|]. destruct (d =? ch "<"); [|discriminate].
    destruct (lc t) as [|e u]; [discriminate|]. destruct (e =? ch "-"); [discriminate|].
    destruct (e =? ch "<"); discriminate. }
  destruct (c =? ch ">") eqn:?.
  { cbn [orb]. split; [|discriminate]. destruct (lc s) as [|d t]; [discriminate|].
    destruct (d =? ch "("); [discriminate|]. destruct (d =? ch "&"); [discriminate|].
    destruct (d =? ch "|"); [discriminate|]. destruct (d =? ch ">"); [|discriminate].
    destruct (lc t) as [|e u]; [discriminate|]. destruct (e =? ch "|"); discriminate. }
  cbn [orb]. split; auto.
Qed.
Lemma delim_op : forall c, is_delim c = opchar c || iswblank L c.
Proof. reflexivity. Qed.

(** A character that can start a word *)
Definition wstart (s : list N) : Prop :=
  match s with
  | [] => False
  | c :: _ => is_delim c = false /\ c <> ch "#" /\ match s with c :: d :: _ => c <> ch "\" \/ d <> 10 | _ => True end
  end.
Lemma pw_head : forall q acc t w, pw q acc t w -> forall c t', t = c :: t' ->
  c <> ch "\" \/ exists d t'', t' = d :: t'' /\ d <> 10.
Proof.
  intros q acc t w H. destruct H; intros c' t' E; try (injection E as <- <-); try discriminate E; try (left; discriminate).
  - right. eauto.
  - left. apply H.
  - destruct (ex_dollar _ _ _ _ EX x) as [sx Ex]. rewrite Ex in E. injection E as <- _. left. discriminate.
Qed.
(** A word that can be printed and read back as a token *)
Definition lexable (w : word) : Prop := pw false [] (print_word w) w /\ wstart (print_word w).
Definition tokw (w : word) : Prop := clean X q0 w -> lexable w.

Lemma skip_blanks_head : forall s, match skip_blanks L s with
  | [] => True
  | c :: t => iswblank L c = false /\ match t with d :: _ => c <> ch "\" \/ d <> 10 | [] => True end end.
Proof.
  fix IH 1. intros [|c s]; cbn [skip_blanks]; auto.
  destruct (iswblank L c) eqn:E; [apply IH|]. destruct s as [|d s]; [auto|].
  destruct ((c =? ch "\") && (d =? 10)) eqn:E'; [apply IH|]. split; auto. lia.
Qed.
Lemma skip_blanks_wstart : forall s, wstart s -> skip_blanks L s = s.
Proof.
  intros [|c s] H; [destruct H|]. destruct H as (H1 & H2 & H3). cbn [skip_blanks].
  rewrite delim_op in H1. apply orb_false_iff in H1. destruct H1 as [_ ->]. destruct s as [|d s]; auto.
  destruct ((c =? ch "\") && (d =? 10)) eqn:E; auto. lia.
Qed.
Lemma to_newline_head : forall s, match to_newline s with [] => True | c :: _ => c = 10 end.
Proof. induction s as [|c s IH]; cbn [to_newline]; auto. destruct (c =? 10) eqn:E; [lia|auto]. Qed.
Lemma skip_comment_other : forall c s, c <> ch "#" -> skip_comment (c :: s) = c :: s.
Proof. intros c s H. cbn [skip_comment]. destruct (c =? ch "#") eqn:E; auto. lia. Qed.

(** The word of a token that was read *)
Lemma next_token_word : forall s t w, next_token s = POk t -> tk_word X t = Some w -> tokw w.
Proof.
  intros s t w H Hw Hc. unfold ParseModel.next_token in H.
  destruct (operator (skip_comment (skip_blanks L s))) as [[ty r]|] eqn:Eo; [injection H as <-; discriminate|].
  set (s2 := skip_comment (skip_blanks L s)) in *.
  destruct (parse_word (S (length s2)) false s2 []) as [[w' r]| | |] eqn:Ep; cbn [pbind] in H; [|discriminate..].
  injection H as <-. cbn in Hw. injection Hw as ->.
  assert (Hs : wstart s2).
  { unfold s2 in *. pose proof (skip_blanks_head s) as Hb. destruct (skip_blanks L s) as [|c t] eqn:Es; [discriminate|].
    cbn [skip_comment] in Eo |- *. destruct (c =? ch "#") eqn:E.
    - pose proof (to_newline_head t) as Hn. destruct (to_newline t) as [|c' t']; [discriminate|]. subst c'. discriminate.
    - apply operator_word in Eo. destruct Hb as [Hb1 Hb2]. split; [rewrite delim_op, Eo, Hb1; reflexivity|].
      split; [lia|]. destruct t; auto. }
  destruct (parse_pw _ _ _ _ _ _ q0 Ep eq_refl Hc) as (t & T1 & T2 & T3 & T4 & T5).
  pose proof (pw_print _ _ _ _ T1) as E. cbn [app] in E. unfold lexable. rewrite E. split; auto.
  assert (Hlc : lc s2 = s2).
  { destruct s2 as [|c [|d s2]]; auto. destruct Hs as (_ & _ & Hs). cbn [lc]. destruct ((c =? ch "\") && (d =? 10)) eqn:E'; auto. lia. }
  destruct t as [|c t].
  { destruct (T5 eq_refl) as [T6 _]. rewrite Hlc in T6. destruct s2 as [|c s2]; [destruct Hs|].
    destruct Hs as [Hs _]. cbn in T6. congruence. }
  assert (Hesc : match c :: t with c :: d :: _ => c <> ch "\" \/ d <> 10 | _ => True end).
  { pose proof (pw_head _ _ _ _ T1 c t eq_refl) as [H|(d & t' & -> & H)]; [destruct t; auto|auto]. }
  destruct T2 as [T2|[T2|(x & us & T2)]]; [discriminate| |].
  - rewrite Hlc in T2. destruct s2 as [|c' s2]; [destruct Hs|]. cbn in T2. injection T2 as ->.
    destruct Hs as (H1 & H2 & _). split; [auto|]. split; auto.
  - subst w. cbn [ParseModel.flush] in E. cbn [ParseModel.print_word] in E. destruct (ex_dollar _ _ _ _ EX x) as [sx Ex].
    rewrite Ex in E. cbn in E. injection E as <- _. split; [apply delim_dollar|]. split; [discriminate|]. auto.
Qed.

(** Reading a word token back *)
Lemma next_token_back : forall w r, lexable w -> dstart r -> (lpar r -> not_last (ch "$") (print_word w)) ->
  next_token (print_word w ++ r) = POk (mkTok X (word_type X w r) (Some w) r).
Proof.
  intros w r [H1 H2] Hr Hl. unfold ParseModel.next_token.
  assert (Hs : wstart (print_word w ++ r)).
  { destruct (print_word w) as [|c [|d t]] eqn:E; [destruct H2| |].
    - destruct H2 as (A & B & C). cbn. split; auto. split; auto. destruct r as [|d r]; auto.
      pose proof (pw_head _ _ _ _ H1 c [] eq_refl) as [H|(d' & t' & H & _)]; [auto|discriminate].
    - destruct H2 as (A & B & C). cbn. auto. }
  rewrite skip_blanks_wstart by auto. destruct (print_word w ++ r) as [|c s] eqn:E; [destruct Hs|].
  destruct Hs as (A & B & C). rewrite skip_comment_other by auto.
  rewrite delim_op in A. apply orb_false_iff in A. destruct A as [A _].
  apply (operator_word c s) in A. rewrite A, <- E.
  rewrite (pw_parse _ _ _ _ H1) by (auto; cbn; lia). reflexivity.
Qed.

Lemma next_token_space : forall s, next_token (32 :: s) = next_token s.
Proof.
  intros s. unfold ParseModel.next_token. cbn [skip_blanks]. rewrite blank_ascii by lia. reflexivity.
Qed.
Lemma next_token_spaces : forall k s, next_token (repeat 32 k ++ s) = next_token s.
Proof. induction k as [|k IH]; intros s; cbn [repeat app]; auto. rewrite next_token_space. auto. Qed.

(** Operators in printed text *)
Lemma next_token_op : forall c s ty r, operator (c :: s) = Some (ty, r) -> iswblank L c = false -> c <> ch "\" -> c <> ch "#" ->
  next_token (c :: s) = POk (mkTok X ty None r).
Proof.
  intros c s ty r H Hb H1 H2. unfold ParseModel.next_token. cbn [skip_blanks]. rewrite Hb.
  destruct s as [|d s].
  - rewrite skip_comment_other by auto. rewrite H. reflexivity.
  - destruct ((c =? ch "\") && (d =? 10)) eqn:E; [lia|]. rewrite skip_comment_other by auto. rewrite H. reflexivity.
Qed.
End Lex.
