(** Proofs about the escaping functions. *)
From Coq Require Import Ascii String.
From Coq Require Import List NArith Bool Arith Lia.
From Coq Require Import ZifyBool ZifyN.
From Verif Require Import Common Locale CharcatModel QuoteModel QuoteSpec Regex XfnmatchSpec.
Import ListNotations.
Open Scope res_scope.

Lemma mem_In c t : mem c t = true <-> In c t.
Proof.
  unfold mem. rewrite existsb_exists. split.
  - intros (x & H & E). apply N.eqb_eq in E. now subst.
  - intros H. exists c. split; [auto|apply N.eqb_refl].
Qed.
Lemma mem_not c t : mem c t = false <-> ~ In c t.
Proof. rewrite <- mem_In. destruct (mem c t); split; congruence. Qed.

(** ** escape *)
Definition in_set (t : option (list N)) (c : N) : Prop := match t with None => True | Some t => In c t end.
Lemma in_set_dec t c : match t with None => true | Some t => mem c t end = true <-> in_set t c.
Proof. destruct t; cbn; [apply mem_In|tauto]. Qed.
Lemma escape_loop_app s t : forall buf, escape_loop s t buf = buf ++ escape s t.
Proof.
  unfold escape. induction s as [|c s IH]; intros buf; cbn [escape_loop].
  - now rewrite app_nil_r.
  - cbv zeta. rewrite IH, (IH (_ ++ _)). destruct (match t with None => _ | _ => _ end); cbn [app]; now rewrite <- ?app_assoc.
Qed.
Lemma escape_ok s t : escaped (in_set t) (escape s t) s.
Proof.
  induction s as [|c s IH]; [constructor|]. unfold escape. cbn [escape_loop]. cbv zeta. rewrite escape_loop_app.
  destruct (match t with None => _ | _ => _ end) eqn:E; cbn [app].
  - apply es_bs; auto. now apply in_set_dec.
  - apply es_plain; auto. rewrite <- in_set_dec. congruence.
Qed.
Lemma escaped_det t (D : forall c : N, t c \/ ~ t c) : forall s r r', escaped t r s -> escaped t r' s -> r = r'.
Proof.
  induction s as [|c s IH]; intros r r' H H'; inversion H; inversion H'; subst; auto; try contradiction; repeat f_equal; auto.
Qed.
Lemma in_set_lem t c : in_set t c \/ ~ in_set t c.
Proof. rewrite <- in_set_dec. destruct (match t with None => _ | _ => _ end); [now left|right; discriminate]. Qed.
Lemma escapefree_ok s t : escapefree s t = escape s t.
Proof.
  destruct t as [t|]; [|reflexivity]. cbn [escapefree]. destruct (existsb (fun c => mem c t) s) eqn:E; cbn [negb]; [reflexivity|].
  apply (escaped_det (in_set (Some t)) (in_set_lem (Some t)) s); [|apply escape_ok].
  induction s as [|c s IH]; [constructor|]. cbn [existsb] in E. apply orb_false_elim in E as [E1 E2].
  apply es_plain; auto. now apply mem_not.
Qed.

Lemma unescape_loop_app : forall n s buf, length s <= n -> unescape_loop s buf = buf ++ unescape s.
Proof.
  unfold unescape. induction n as [|n IH]; intros s buf H.
  - destruct s; [cbn; now rewrite app_nil_r|cbn in H; lia].
  - destruct s as [|c s]; cbn [unescape_loop]; [now rewrite app_nil_r|]. cbn [length] in H.
    destruct (c =? bs)%N.
    + destruct s as [|d s]; [now rewrite app_nil_r|]. cbn [length] in H. rewrite IH, (IH s ([] ++ [_])) by lia. cbn [app]. now rewrite <- app_assoc.
    + rewrite IH, (IH s ([] ++ [_])) by lia. cbn [app]. now rewrite <- app_assoc.
Qed.
Lemma unescape_cons c s : c <> bs -> unescape (c :: s) = c :: unescape s.
Proof.
  intros H. unfold unescape at 1. cbn [unescape_loop]. replace (c =? bs)%N with false by lia.
  rewrite (unescape_loop_app (length s)) by auto. reflexivity.
Qed.
Lemma unescape_bs c s : unescape (bs :: c :: s) = c :: unescape s.
Proof.
  unfold unescape at 1. cbn [unescape_loop]. rewrite N.eqb_refl.
  rewrite (unescape_loop_app (length s)) by auto. reflexivity.
Qed.
Lemma unescape_escaped (t : N -> Prop) r s : t backslash -> escaped t r s -> unescape r = s.
Proof.
  intros Ht H. induction H; [reflexivity| |].
  - rewrite unescape_cons, IHescaped; auto. intros ->. auto.
  - change backslash with bs. now rewrite unescape_bs, IHescaped.
Qed.

(** Escaping every character gives a pattern for the string itself. *)
Lemma marks_escape_all s : marks (escape s None) = map (fun c => (c, true)) s.
Proof.
  pose proof (escape_ok s None) as H. remember (escape s None) as r. clear Heqr.
  induction H; [reflexivity|exfalso; apply H; exact I|]. cbn [marks map]. change (backslash =? bslash)%N with true. cbn iota.
  now rewrite IHescaped.
Qed.
Lemma clear_all_quoted s b : clear_marks b (map (fun c => (c, true)) s) = true.
Proof. induction s as [|c s IH]; [reflexivity|]. cbn [map clear_marks negb]. now rewrite andb_false_r. Qed.
Lemma gparses_quoted C s l : gparses C (map (fun c => (c, true)) s) l <-> l = map GChar s.
Proof.
  split.
  - revert l. induction s as [|c s IH]; intros l H; inversion H; subst; auto. cbn [map]. f_equal. now apply IH.
  - intros ->. induction s as [|c s IH]; [constructor|]. cbn [map]. apply gp_char; auto.
Qed.
Lemma gmatch_chars C s s' : gmatch C false (map GChar s) s' <-> s' = s.
Proof.
  split.
  - revert s'. induction s as [|c s IH]; intros s' H; inversion H as [| | |c' l' x s2 Hc Hm|]; subst; auto.
    unfold char_match in Hc. f_equal; [|now apply IH]. lia.
  - intros ->. induction s as [|c s IH]; [constructor|]. cbn [map]. apply gm_char; auto. unfold char_match. lia.
Qed.

(** ** quote_as_word *)
Lemma span_spec p s : forall a r, span p s = (a, r) ->
  s = a ++ r /\ Forall (fun c => p c = true) a /\ match r with [] => True | d :: _ => p d = false end.
Proof.
  induction s as [|c s IH]; intros a r H; cbn [span] in H.
  - injection H as <- <-. auto.
  - destruct (p c) eqn:E.
    + destruct (span p s) as [a' r'] eqn:E'. injection H as <- <-. destruct (IH _ _ eq_refl) as (-> & F & R). auto.
    + injection H as <- <-. auto.
Qed.

Lemma bare_plain L c : locale_ok L -> bare L c = true -> ~ In c shell_special /\ iswblank L c = false.
Proof.
  intros HL H. unfold bare, iswalnum in H. split.
  - intros Hi. assert (F : forallb (fun c => (c <? 128)%N && negb (bare c_locale c)) shell_special = true) by reflexivity.
    rewrite forallb_forall in F. apply F, andb_prop in Hi as [H1 H2]. unfold bare, iswalnum in H2. cbn [c_locale iswalpha] in H2.
    rewrite (lk_alpha L HL) in H by lia. rewrite H in H2. discriminate.
  - destruct (iswblank L c) eqn:E; [|auto]. exfalso.
    pose proof (lk_blank_space L HL c E) as E2. pose proof (lk_disjoint L HL c E2) as E3. rewrite E3 in H.
    destruct (c <? 128)%N eqn:E4.
    + rewrite (lk_blank L HL) in E by lia. unfold c_blank in E. unfold iswdigit in H. cbn in H. lia.
    + unfold iswdigit in H. cbn in H. lia.
Qed.

Lemma plain_app L w s : plain_word L w s -> forall w' s', plain_word L w' s' -> plain_word L (w ++ w') (s ++ s').
Proof.
  induction 1; intros w' s' H'; cbn [app]; auto.
  - constructor; auto.
  - constructor; auto.
  - rewrite <- !app_assoc. cbn [app]. constructor; auto.
Qed.
Lemma plain_bare L a : locale_ok L -> Forall (fun c => bare L c = true) a -> plain_word L a a.
Proof.
  intros HL H. induction H; constructor; auto; now apply (bare_plain L).
Qed.

Lemma quote_loop_ok L : locale_ok L -> forall fuel s buf, length s < fuel ->
  exists w, quote_loop L fuel s buf = Ok (buf ++ w) /\ plain_word L w s /\ (s <> [] -> w <> []).
Proof.
  intros HL. induction fuel as [|fuel IH]; intros s buf H; [lia|]. cbn [quote_loop].
  destruct s as [|c s']. { exists []. rewrite app_nil_r. repeat split; [constructor|congruence]. }
  destruct (c =? sq)%N eqn:Ec.
  - apply N.eqb_eq in Ec. subst c. destruct (IH s' (buf ++ [bs; sq])) as (w & -> & P & _). { cbn in H. lia. }
    exists (bs :: sq :: w). rewrite <- app_assoc. split; [reflexivity|]. split; [|discriminate]. apply pw_esc; [discriminate|auto].
  - destruct (span (bare L) (c :: s')) as [a r] eqn:E1. destruct (span_spec _ _ _ _ E1) as (D1 & F1 & R1).
    destruct (match r with [] => _ | _ => _ end) eqn:Er.
    + assert (Ha : a <> []).
      { intros ->. cbn [app] in D1. rewrite <- D1 in *. cbn in R1. lia. }
      assert (Hl : length r < fuel).
      { apply (f_equal (@length N)) in D1. rewrite app_length in D1. cbn [length] in H, D1. destruct a; [congruence|cbn [length] in D1; lia]. }
      destruct (IH r (buf ++ a) Hl) as (w & -> & P & _). exists (a ++ w). rewrite <- app_assoc. split; [reflexivity|].
      split; [|now destruct a]. rewrite D1. apply plain_app; auto. now apply plain_bare.
    + clear E1 D1 F1 R1 Er. destruct (span (fun d => negb (d =? sq)%N) (c :: s')) as [a2 r2] eqn:E1.
      destruct (span_spec _ _ _ _ E1) as (D1 & F1 & R1).
      assert (Ha : a2 <> []).
      { intros ->. cbn [app] in D1. rewrite <- D1 in *. cbn in R1. lia. }
      assert (Hl : length r2 < fuel).
      { apply (f_equal (@length N)) in D1. rewrite app_length in D1. cbn [length] in H, D1. destruct a2; [congruence|cbn [length] in D1; lia]. }
      destruct (IH r2 (buf ++ [sq] ++ a2 ++ [sq]) Hl) as (w & -> & P & _). exists (sq :: a2 ++ sq :: w).
      split. { f_equal. cbn [app]. rewrite <- !app_assoc. cbn [app]. now rewrite <- ?app_assoc. }
      split; [|discriminate]. rewrite D1. apply pw_single; auto. intros Hi. rewrite Forall_forall in F1. apply F1 in Hi. discriminate.
Qed.
Lemma quote_as_word_ok L : locale_ok L -> forall s,
  exists w, quote_as_word L s = Ok w /\ plain_word L w s /\ w <> [].
Proof.
  intros HL s. unfold quote_as_word, wb_quote_as_word. destruct s as [|c s].
  - exists [sq; sq]. split; [reflexivity|]. split; [|discriminate]. apply (pw_single L [] [] []); [auto|constructor].
  - destruct (quote_loop_ok L HL (S (length (c :: s))) (c :: s) []) as (w & -> & P & Hn). { lia. }
    exists w. split; [reflexivity|]. split; [auto|]. apply Hn. discriminate.
Qed.

Lemma plain_quoting L w s : plain_word L w s -> quoting w s.
Proof.
  induction 1; try (constructor; auto; fail).
  apply q_char; auto; intros ->; apply H; cbn; tauto.
Qed.

(** ** unquote *)
Lemma add_sq_spec s : forall buf b r, add_sq s buf = (b, r) ->
  exists a, s = a ++ r /\ b = buf ++ a /\ ~ In sq a /\ match r with [] => True | d :: _ => d = sq end.
Proof.
  induction s as [|c s IH]; intros buf b r H; cbn [add_sq] in H.
  - injection H as <- <-. exists []. cbn. rewrite ?app_nil_r. tauto.
  - destruct (c =? sq)%N eqn:E.
    + injection H as <- <-. exists []. apply N.eqb_eq in E. cbn. rewrite ?app_nil_r. tauto.
    + destruct (IH _ _ _ H) as (a & -> & -> & Hn & R). exists (c :: a). rewrite <- app_assoc. repeat split; auto.
      intros [->|Hi]; [lia|auto].
Qed.

(** What the loop computes: [in_dq] says that the text starts between double quotes. *)
Definition uq (indq : bool) (w s : list N) : Prop :=
  if indq then exists t u v s', w = t ++ dquote :: v /\ dquoted t u /\ quoting v s' /\ s = u ++ s' else quoting w s.

Lemma dq_special_mem c : mem c chars_escapable = true <-> dq_special c.
Proof. rewrite mem_In. unfold chars_escapable, dq_special. cbn. tauto. Qed.

Lemma single_split t w t' w' : ~ In squote t -> ~ In squote t' -> t ++ squote :: w = t' ++ squote :: w' -> t = t' /\ w = w'.
Proof.
  revert t'. induction t as [|c t IH]; intros t' H H' E; destruct t' as [|c' t']; cbn in E.
  - now injection E.
  - injection E as <- E. exfalso. apply H'. now left.
  - injection E as -> E. exfalso. apply H. now left.
  - injection E as <- E. destruct (IH t') as [-> ->]; auto; intros Hi; [apply H|apply H']; now right.
Qed.

Lemma uq_nil indq s : uq indq [] s <-> indq = false /\ s = [].
Proof.
  destruct indq; cbn.
  - split; [|intros [? ?]; discriminate]. intros (t & u & v & s' & E & _). destruct t; discriminate.
  - split; [intros H; inversion H; auto|intros [_ ->]; constructor].
Qed.
Lemma uq_single t w s : ~ In squote t -> (uq false (squote :: t ++ squote :: w) s <-> exists s', quoting w s' /\ s = t ++ s').
Proof.
  intros Ht. cbn. split.
  - intros H. inversion H as [|? ? ? ?| | |t' w' s' Ht' Hq E|]; subst; try congruence.
    destruct (single_split _ _ _ _ Ht' Ht E) as [-> ->]. eauto.
  - intros (s' & H & ->). now constructor.
Qed.
Lemma uq_single_open t s : ~ In squote t -> ~ uq false (squote :: t) s.
Proof.
  intros Ht H. cbn in H. inversion H; subst; try congruence. apply Ht. apply in_or_app. right. now left.
Qed.
Lemma uq_dq_open w s : uq false (dquote :: w) s <-> uq true w s.
Proof.
  cbn. split.
  - intros H. inversion H; subst; try congruence. eauto 10.
  - intros (t & u & v & s' & -> & H1 & H2 & ->). now constructor.
Qed.
Lemma uq_dq_close w s : uq true (dquote :: w) s <-> uq false w s.
Proof.
  cbn. split.
  - intros (t & u & v & s' & E & H1 & H2 & ->). destruct H1; cbn in E; try congruence; try discriminate E. injection E as ->. auto.
  - intros H. exists [], [], w, s. repeat split; auto. constructor.
Qed.
Lemma uq_char indq c w s : (indq = false -> c <> squote) -> c <> dquote -> c <> backslash ->
  (uq indq (c :: w) s <-> exists s', uq indq w s' /\ s = c :: s').
Proof.
  intros H1 H2 H3. destruct indq; cbn.
  - split.
    + intros (t & u & v & s' & E & D & Q & ->). destruct D; cbn in E; try congruence; try discriminate E; injection E as <- ->.
      exists (s ++ s'). eauto 10.
    + intros (s' & (t & u & v & s2 & -> & D & Q & ->) & ->). exists (c :: t), (c :: u), v, s2. repeat split; auto. now constructor.
  - specialize (H1 eq_refl). split.
    + intros H. inversion H; subst; try congruence. eauto.
    + intros (s' & H & ->). now constructor.
Qed.
Lemma uq_bs_out c w s : uq false (backslash :: c :: w) s <-> exists s', uq false w s' /\ s = c :: s'.
Proof.
  cbn. split.
  - intros H. inversion H; subst; try congruence. eauto.
  - intros (s' & H & ->). now constructor.
Qed.
Lemma uq_bs_last s : uq false [backslash] s <-> s = [backslash].
Proof. cbn. split; [intros H; inversion H; subst; congruence|intros ->; apply q_last]. Qed.
Lemma uq_bs_in c w s : dq_special c -> (uq true (backslash :: c :: w) s <-> exists s', uq true w s' /\ s = c :: s').
Proof.
  intros Hc. cbn. split.
  - intros (t & u & v & s' & E & D & Q & ->). destruct D; cbn in E; try congruence; try discriminate E; injection E as <- ->.
    exists (s ++ s'). eauto 10.
  - intros (s' & (t & u & v & s2 & -> & D & Q & ->) & ->). exists (backslash :: c :: t), (c :: u), v, s2. repeat split; auto. now constructor.
Qed.
Lemma uq_bs_lit c w s : ~ dq_special c -> (uq true (backslash :: c :: w) s <-> exists s', uq true (c :: w) s' /\ s = backslash :: s').
Proof.
  intros Hc. cbn. split.
  - intros (t & u & v & s' & E & D & Q & ->). destruct D; cbn in E; try congruence; try discriminate E; injection E as <- ->.
    exists (s ++ s'). split; [|auto]. exists (c :: w0), s, v, s'. auto.
  - intros (s' & (t & u & v & s2 & E & D & Q & ->) & ->). destruct t as [|c' t]; cbn in E.
    { exfalso. injection E as -> _. apply Hc. unfold dq_special. cbn. tauto. }
    injection E as <- E.
    exists (backslash :: c :: t), (backslash :: u), v, s2. subst w. repeat split; auto. now constructor.
Qed.
Lemma uq_bs_in_last s : ~ uq true [backslash] s.
Proof. cbn. intros (t & u & v & s' & E & D & _). destruct t as [|a [|]]; cbn in E; try discriminate E; injection E as _ E; discriminate. Qed.

Lemma unquote_loop_ok : forall fuel w indq buf, length w < fuel ->
  exists o, unquote_loop fuel w indq buf = Ok o /\ (forall r, o = Some r <-> exists s, uq indq w s /\ r = buf ++ s).
Proof.
  assert (Step : forall (P P' : list N -> Prop) (buf pre : list N) (o : option (list N)),
    (forall s, P s <-> exists s', P' s' /\ s = pre ++ s') ->
    (forall r, o = Some r <-> exists s, P' s /\ r = (buf ++ pre) ++ s) ->
    (forall r, o = Some r <-> exists s, P s /\ r = buf ++ s)).
  { intros P P' buf pre o HP Ho r. rewrite Ho. split.
    - intros (s & H & ->). exists (pre ++ s). split; [apply HP; eauto|now rewrite app_assoc].
    - intros (s & H & ->). apply HP in H as (s' & H & ->). exists s'. split; [auto|now rewrite app_assoc]. }
  assert (None_ : forall (P : list N -> Prop) (buf : list N), (forall s, ~ P s) -> forall r, None = Some r <-> exists s, P s /\ r = buf ++ s).
  { intros P buf H r. split; [discriminate|]. intros (s & Hs & _). destruct (H _ Hs). }
  induction fuel as [|fuel IH]; intros w indq buf H; [lia|]. cbn [unquote_loop].
  destruct w as [|c w].
  - eexists. split; [reflexivity|]. intros r. destruct indq.
    + split; [discriminate|]. intros (s & Hs & _). apply uq_nil in Hs as [? ?]. discriminate.
    + split.
      * intros [= <-]. exists []. split; [now apply uq_nil|now rewrite app_nil_r].
      * intros (s & Hs & ->). apply uq_nil in Hs as [_ ->]. now rewrite app_nil_r.
  - cbn [length] in H. destruct ((c =? sq)%N && negb indq) eqn:E1.
    + apply andb_prop in E1 as [E1 E2]. apply N.eqb_eq in E1. subst c. destruct indq; [discriminate|].
      destruct (add_sq w buf) as [b r] eqn:Ea. destruct (add_sq_spec _ _ _ _ Ea) as (a & -> & -> & Hn & R).
      destruct r as [|d r].
      { eexists. split; [reflexivity|]. rewrite app_nil_r. apply None_. intros s. now apply uq_single_open. }
      subst d. rewrite N.eqb_refl. destruct (IH r false (buf ++ a)) as (o & -> & Ho). { rewrite app_length in H. cbn in H. lia. }
      exists o. split; [reflexivity|]. apply (Step _ (uq false r) _ a); auto. intros s. now apply uq_single.
    + destruct (c =? dq)%N eqn:E2.
      { apply N.eqb_eq in E2. subst c. destruct (IH w (negb indq) buf) as (o & -> & Ho); [lia|]. exists o. split; [reflexivity|].
        intros r. rewrite Ho. destruct indq; cbn [negb].
        - split; intros (s & Hs & ->); exists s; split; auto; now apply uq_dq_close.
        - split; intros (s & Hs & ->); exists s; split; auto; now apply uq_dq_open. }
      destruct (c =? bs)%N eqn:E3.
      * apply N.eqb_eq in E3. subst c. destruct w as [|d w].
        { destruct (IH [] indq (buf ++ [bs])) as (o & -> & Ho); [cbn in *; lia|]. exists o. split; [reflexivity|].
          apply (Step _ (uq indq []) _ [bs]); auto. intros s. destruct indq.
          - split; [intros Hs; now apply uq_bs_in_last in Hs|]. intros (s' & Hs & _). apply uq_nil in Hs as [? ?]. discriminate.
          - change bs with backslash. rewrite uq_bs_last. split.
            + intros ->. exists []. split; [now apply uq_nil|reflexivity].
            + intros (s' & Hs & ->). apply uq_nil in Hs as [_ ->]. reflexivity. }
        cbn [length] in H. destruct (negb indq || mem d chars_escapable) eqn:E4.
        -- destruct (IH w indq (buf ++ [d])) as (o & -> & Ho); [lia|]. exists o. split; [reflexivity|].
           apply (Step _ (uq indq w) _ [d]); auto. intros s. change bs with backslash. destruct indq.
           ++ apply uq_bs_in. now apply dq_special_mem.
           ++ apply uq_bs_out.
        -- apply orb_false_elim in E4 as [E4 E5]. destruct indq; [|discriminate].
           destruct (IH (d :: w) true (buf ++ [bs])) as (o & -> & Ho); [cbn; lia|]. exists o. split; [reflexivity|].
           apply (Step _ (uq true (d :: w)) _ [bs]); auto. intros s. apply uq_bs_lit. rewrite <- dq_special_mem. congruence.
      * destruct (IH w indq (buf ++ [c])) as (o & -> & Ho); [lia|]. exists o. split; [reflexivity|].
        apply (Step _ (uq indq w) _ [c]); auto. intros s. apply uq_char.
        -- intros ->. unfold sq in E1. unfold squote. cbn in E1. lia.
        -- unfold dquote, dq in *. lia.
        -- unfold backslash, bs in *. cbn in E3. lia.
Qed.
Lemma unquote_ok w : exists o, unquote w = Ok o /\ (forall s, o = Some s <-> quoting w s).
Proof.
  destruct (unquote_loop_ok (S (length w)) w false []) as (o & E & H); [lia|]. exists o. split; [exact E|].
  intros s. rewrite H. cbn. split; [intros (s' & Hs & ->); auto|eauto].
Qed.

(** ** Quote removal *)
Lemma quote_removal_loop_app e w : forall r, quote_removal_loop w e r = r ++ quote_removal w e.
Proof.
  unfold quote_removal. induction w as [|[c k] w IH]; intros r; cbn [quote_removal_loop].
  - now rewrite app_nil_r.
  - destruct (quotation k); [apply IH|]. cbv zeta. rewrite IH, (IH (_ ++ _)). destruct (should_escape k e); cbn [app]; now rewrite <- ?app_assoc.
Qed.
Lemma quote_removal_cons c k w e : quote_removal ((c, k) :: w) e =
  if quotation k then quote_removal w e
  else if should_escape k e then bs :: c :: quote_removal w e else c :: quote_removal w e.
Proof.
  unfold quote_removal at 1. cbn [quote_removal_loop]. destruct (quotation k); [reflexivity|]. cbv zeta.
  destruct (should_escape k e); rewrite quote_removal_loop_app; reflexivity.
Qed.
Lemma quote_removal_none w : quote_removal w ES_NONE = map fst (filter (fun x => negb (quotation (snd x))) w).
Proof.
  induction w as [|[c k] w IH]; [reflexivity|]. rewrite quote_removal_cons. cbn [should_escape filter snd].
  destruct (quotation k); cbn [negb map fst]; [auto|now rewrite IH].
Qed.
Lemma quote_removal_skip qs w e : Forall (fun x => quotation (snd x) = true) qs -> quote_removal (qs ++ w) e = quote_removal w e.
Proof.
  induction 1 as [|[c k] qs H F IH]; [reflexivity|]. cbn [app]. rewrite quote_removal_cons. cbn in H. now rewrite H.
Qed.
Lemma quote_removal_reads e w m : reads (fun k => should_escape k e) w m -> marks (quote_removal w e) = m.
Proof.
  induction 1.
  - reflexivity.
  - now rewrite quote_removal_cons, H.
  - rewrite quote_removal_cons, H, H0. cbn [marks]. change (bs =? bslash)%N with true. cbn iota. now rewrite IHreads.
  - rewrite quote_removal_cons, H, H0. cbn [marks]. change backslash with bslash in H1.
    apply N.eqb_neq in H1. rewrite H1. now rewrite IHreads.
  - rewrite quote_removal_cons, H, H0, quote_removal_skip by auto. rewrite quote_removal_cons, H2, H3.
    cbn [marks]. change (backslash =? bslash)%N with true. cbn iota. now rewrite IHreads.
  - rewrite quote_removal_cons, H, H0. rewrite <- (app_nil_r qs), quote_removal_skip by auto. reflexivity.
Qed.
