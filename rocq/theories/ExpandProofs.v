(** Words whose expansions are all between double quotes: nothing but quote removal
    happens to the fields. *)
From Coq Require Import Ascii String.
From Coq Require Import List NArith ZArith Bool Arith Lia.
From Coq Require Import ZifyBool ZifyN.
From Verif Require Import Common Locale NumModel CharcatModel Regex XfnmatchModel QuoteModel QuoteProps SplitModel SplitSpec SplitProofs SplitProps BraceModel BraceSpec BraceProps ExpandModel ExpandSpec ExpandFour ExpandWord ExpandQuoted.
Import ListNotations.
Open Scope res_scope.

(** An unquoted character without a meaning to brace and pathname expansion *)
Definition inert (c : N) : Prop := ~ In c [42; 63; 91; 92; 123]%N.
Definition settled (x : cell) : Prop := protected x \/ (x = (fst x, cc_lit) /\ inert (fst x)) \/ org (snd x) = Hard.

Section Settled.
Variable L : locale.
Hypothesis HL : locale_ok L.

Lemma settled_plain ifs x : settled x -> plain ifs x.
Proof.
  intros [[H|H]|[[-> H]|H]] (H1 & H2 & H3 & H4); try congruence. cbn in H1. discriminate.
Qed.
Lemma settled_open x : settled x -> x <> openb.
Proof. intros [[H|H]|[[E H]|H]] ->; try discriminate. apply H. cbn. tauto. Qed.
Lemma brace_settled fs : Forall (Forall settled) fs -> expand_brace_each L fs = Ok fs.
Proof.
  intros H. unfold expand_brace_each. assert (E : mapM (expand_brace L) fs = Ok (map (fun f => [f]) fs)).
  { induction H as [|f fs Hf _ IH]; [reflexivity|]. cbn [mapM map]. rewrite brace_plain.
    - cbn [rbind]. now rewrite IH.
    - exact HL.
    - intros pre mid post ->. rewrite Forall_forall in Hf. apply (settled_open openb); [|reflexivity]. apply Hf. apply in_app_iff. right. now left. }
  rewrite E. cbn [rbind]. f_equal. clear. induction fs; cbn; congruence.
Qed.
Lemma split_settled ifs el fs : Forall (Forall settled) fs -> Forall nonull fs -> Forall (fun f => f <> []) fs -> fieldsplit L ifs el fs = Ok fs.
Proof.
  intros H Hn He. destruct (splitting_posix L ifs el fs Hn) as (fss & -> & HF). f_equal.
  assert (E : fss = map (fun f => [f]) fs).
  { clear Hn. revert fss HF. induction fs as [|f fs IH]; intros fss HF; inversion HF as [|? fs1 ? fss' [_ Hd] HF']; subst; [reflexivity|]. cbn [map].
    inversion H; subst. inversion He; subst. f_equal; [|apply IH; auto]. symmetry. apply Hd. exists [], f, [f]. split; [reflexivity|]. split; [constructor|].
    assert (Hp : Forall (plain ifs) f) by (eapply Forall_impl; [|eassumption]; apply settled_plain). split; [|split].
    - destruct f as [|x f]; [intros []|]. cbn. inversion Hp; subst. intros [Hw _]. contradiction.
    - rewrite <- (app_nil_r f) at 1. constructor; [exact Hp|constructor].
    - apply (ff_keep _ [] f). assumption. }
  rewrite E. clear. induction fs; cbn; congruence.
Qed.

(** The text of settled cells as a pattern has nothing active in it. *)
Lemma removal_loop w e : forall r, quote_removal_loop w e r = r ++ quote_removal_loop w e [].
Proof.
  induction w as [|[c k] w IH]; intros r; cbn [quote_removal_loop]; [now rewrite app_nil_r|]. destruct (quotation k); [apply IH|].
  destruct (should_escape k e); rewrite IH, (IH (_ ++ _)); cbn [app]; now rewrite <- !app_assoc.
Qed.
Definition dead (p : list N) : Prop := forall f, length p < f -> is_matching_loop f p = Ok false.
Lemma dead_tok f : Forall settled f -> forall pre, (forall q, dead q -> dead (rev pre ++ q)) -> pathname_loop pre (quote_removal f ES_QUOTED_HARD) = Ok false.
Proof.
  assert (Dbs : dead [bs]).
  { intros [|n] Hn; [cbn in Hn; lia|]. reflexivity. }
  assert (Dn : dead []).
  { intros [|n] Hn; [cbn in Hn; lia|]. reflexivity. }
  assert (D2 : forall c q, dead q -> dead (bs :: c :: q)).
  { intros c q Hq [|n] Hn; [lia|]. cbn [is_matching_loop]. change (bs =? Regex.bslash)%N with true. cbn [length] in Hn. apply Hq. lia. }
  assert (D1 : forall c q, inert c -> dead q -> dead (c :: q)).
  { intros c q Hc Hq [|n] Hn; [lia|]. cbn [is_matching_loop length] in *.
    assert (Hc' : (c =? Regex.bslash)%N = false /\ (c =? aster)%N = false /\ (c =? quest)%N = false /\ (c =? lbr)%N = false).
    { unfold inert in Hc. cbn [In] in Hc. unfold Regex.bslash, aster, quest, lbr. unfold ch. cbn. lia. }
    destruct Hc' as (-> & -> & -> & ->). cbn [orb]. apply Hq. lia. }
  assert (F : forall pre, (forall q, dead q -> dead (rev pre ++ q)) -> is_matching_pattern (rev pre) = Ok false).
  { intros pre Hp. specialize (Hp [] Dn). rewrite app_nil_r in Hp. unfold is_matching_pattern. apply Hp. lia. }
  unfold quote_removal. induction f as [|[c k] f IH]; intros Hs pre Hp.
  - cbn [quote_removal_loop pathname_loop]. now apply F.
  - inversion Hs as [|? ? Hx Hs']; subst. cbn [quote_removal_loop]. destruct (quotation k) eqn:Eq; [now apply IH|].
    destruct (should_escape k ES_QUOTED_HARD) eqn:Es; rewrite removal_loop; cbn [app].
    + cbn [pathname_loop]. change (bs =? 47)%N with false. destruct (c =? 47)%N.
      * cbn [rev]. unfold is_matching_pattern. rewrite (Hp [bs] Dbs) by lia. cbn [rbind]. apply IH; auto.
      * apply IH; auto. intros q Hq. cbn [rev]. rewrite <- !app_assoc. cbn [app]. apply Hp. now apply D2.
    + assert (Hc : inert c).
      { destruct Hx as [[H|H]|[[_ H]|H]]; [exfalso|cbn in H; congruence|exact H|exfalso]; destruct k as [[] [] []]; cbn in *; discriminate. }
      cbn [pathname_loop]. destruct (c =? 47)%N.
      * rewrite F by auto. cbn [rbind]. apply IH; auto.
      * apply IH; auto. intros q Hq. cbn [rev]. rewrite <- !app_assoc. cbn [app]. apply Hp. now apply D1.
Qed.
Lemma glob_settled W OP fs : Forall (Forall settled) fs -> glob_all W OP fs = Ok (map visible fs).
Proof.
  induction 1 as [|f fs Hf _ IH]; [reflexivity|]. cbn [glob_all map]. unfold is_pathname_matching_pattern.
  rewrite dead_tok by (auto; cbn; auto). cbn [rbind]. rewrite andb_false_r, IH. cbn [rbind app]. now rewrite quote_removal_exact.
Qed.
End Settled.

(** ** Gluing *)
Lemma glue_forall {A} (P : list A -> Prop) a b : (forall x y, P x -> P y -> P (x ++ y)) -> Forall P a -> Forall P b -> Forall P (glue a b).
Proof.
  intros HP Ha Hb. destruct a as [|a0 a]; [exact Hb|]. destruct b as [|b0 b]; [exact Ha|]. unfold glue. set (f := a0 :: a) in *.
  assert (E : f = removelast f ++ [last f []]) by (apply app_removelast_last; discriminate). rewrite E in Ha. apply Forall_app in Ha as [H1 H2].
  inversion H2; subst. inversion Hb; subst. apply Forall_app. split; [exact H1|]. constructor; [auto|assumption].
Qed.
Definition full (l : list (list cell)) : Prop := Forall (fun f => f <> []) l.
Lemma glue_length {A} (a b : list (list A)) : a <> [] -> b <> [] -> length (glue a b) = length a + length b - 1.
Proof.
  intros Ha Hb. destruct a as [|a0 a]; [congruence|]. destruct b as [|b0 b]; [congruence|]. unfold glue. set (f := a0 :: a) in *.
  assert (E : length f = length (removelast f ++ [last f []])) by (f_equal; apply app_removelast_last; discriminate).
  rewrite app_length in *. cbn [length] in *. lia.
Qed.
Lemma full_glue a b : full a -> full b -> full (glue a b).
Proof. intros Ha Hb. apply glue_forall; auto. intros x y Hx _ E. apply app_eq_nil in E as [E _]. auto. Qed.
Lemma full_glue_l b : full b -> full (glue [[]] b) \/ b = [].
Proof. destruct b as [|x b]; [now right|]. intros H. now left. Qed.
Lemma solid_full l : solid l -> full l \/ l = [[]].
Proof.
  intros [_ H]. destruct l as [|x [|y l]]; [left; constructor| |left; apply H; cbn; lia]. destruct x; [now right|]. left. constructor; [discriminate|constructor].
Qed.
Lemma solid_glue a b : solid a -> solid b -> solid (glue a b).
Proof.
  intros Ha Hb. split; [apply glue_forall; [intros x y; rewrite Forall_app; auto|apply Ha|apply Hb]|]. intros Hl.
  destruct (solid_full a Ha) as [Fa| ->], (solid_full b Hb) as [Fb| ->].
  - now apply full_glue.
  - destruct a as [|a0 a]; [cbn in Hl; lia|]. unfold glue. set (f := a0 :: a) in *. rewrite app_nil_r.
    rewrite <- app_removelast_last by discriminate. exact Fa.
  - destruct b; [cbn in Hl; lia|]. exact Fb.
  - cbn in Hl. lia.
Qed.
Lemma solid_all cs : Forall solid cs -> solid (glue_all cs).
Proof.
  induction 1 as [|c cs Hc _ IH]; [split; [constructor|cbn; lia]|]. cbn [glue_all fold_right]. now apply solid_glue.
Qed.
Lemma full_quotes dc q l : solid l -> full (in_quotes dc q l).
Proof.
  intros H. unfold in_quotes. destruct (solid_full l H) as [F| ->].
  - apply full_glue; [constructor; [discriminate|constructor]|]. apply full_glue; [exact F|constructor; [discriminate|constructor]].
  - cbn. constructor; [discriminate|constructor].
Qed.
Lemma prot_quotes dc q l : Forall (Forall protected) l -> Forall (Forall protected) (in_quotes dc q l).
Proof.
  intros H. assert (M : Forall (Forall protected) [[(q, set_quotation dc)]]) by (constructor; [constructor; [right; reflexivity|constructor]|constructor]).
  assert (A : forall x y : list cell, Forall protected x -> Forall protected y -> Forall protected (x ++ y)) by (intros; now apply Forall_app).
  unfold in_quotes. apply glue_forall; auto. apply glue_forall; auto.
Qed.

(** ** Words without unquoted expansions *)
Definition quiet (p : part) : Prop := match p with PBare c => inert c | PUnit _ => False | _ => True end.

Section Quiet.
Variable L : locale.
Variable C : ctype.
Variable W : world.
Variable OP : opts.
Hypothesis HL : locale_ok L.
Notation uf := (ufields W (expand_unit L C W OP)).

Lemma ufields_solid u e c e' : uf u true e = Ok (Some c, e') -> solid c.
Proof.
  unfold ufields, bind. destruct (expand_unit L C W OP u true e) as [[[r|] e1]| |] eqn:E; try discriminate. intros H. injection H as <- <-.
  eapply unit_solid; eauto.
Qed.
Lemma one_solid x : Forall protected x -> solid [x].
Proof. intros H. split; [constructor; [exact H|constructor]|cbn; lia]. Qed.
Lemma dparts_solid dc l : forall e cs e', dparts_fields W uf dc l e = Ok (Some cs, e') -> Forall solid cs.
Proof.
  induction l as [|d l IH]; intros e cs e' H; cbn [dparts_fields] in H; [injection H as <- _; constructor|].
  unfold bind in H. destruct (dpart_fields W uf dc d e) as [[[c|] e1]| |] eqn:E; try discriminate.
  destruct (dparts_fields W uf dc l e1) as [[[cs'|] e2]| |] eqn:E2; try discriminate. injection H as <- _. constructor; [|eauto].
  destruct d as [x|x|x|u]; cbn [dpart_fields] in E.
  - injection E as <- <-. apply one_solid. repeat constructor.
  - injection E as <- <-. apply one_solid. constructor; [right; reflexivity|repeat constructor].
  - injection E as <- <-. apply one_solid. repeat constructor.
  - eapply ufields_solid; eauto.
Qed.
Lemma prot_settled l : Forall (Forall protected) l -> Forall (Forall settled) l.
Proof. intros H. eapply Forall_impl; [|exact H]. intros x Hx. eapply Forall_impl; [|exact Hx]. intros y Hy. now left. Qed.
Lemma quiet_fields ps : forall acc zero e fs e', Forall quiet ps ->
  Forall (Forall settled) acc -> acc = [[]] \/ full acc /\ acc <> [] -> parts_fields W uf cc_lit ps acc zero e = Ok (Some fs, e') ->
  Forall (Forall settled) fs /\ (full fs \/ fs = [[]] /\ ps = []).
Proof.
  assert (A : forall x y : list cell, Forall settled x -> Forall settled y -> Forall settled (x ++ y)) by (intros; now apply Forall_app).
  induction ps as [|p ps IH]; intros acc zero e fs e' Hq Ha Hc H.
  { cbn [parts_fields] in H. injection H as <- _.
    destruct zero, acc as [|[|x a] [|b acc]]; (split; [assumption || constructor|]); destruct Hc as [Hc|[Hc Hn]]; try discriminate; try congruence; try (now left); try (now left; constructor);
      now right. }
  inversion Hq as [|? ? Hp Hq']; subst.
  assert (K : forall c zero e, Forall (Forall settled) c -> full c -> c <> [] -> parts_fields W uf cc_lit ps (glue acc c) zero e = Ok (Some fs, e') ->
    Forall (Forall settled) fs /\ (full fs \/ fs = [[]] /\ p :: ps = [])).
  { intros c z e0 H1 H2 H3 H4. assert (Fg : full (glue acc c)).
    { destruct Hc as [->|[Hc Hn]]; [|now apply full_glue]. destruct c; [congruence|]. exact H2. }
    destruct (IH (glue acc c) z e0 fs e' Hq') as [S F]; auto.
    - apply glue_forall; auto.
    - right. split; [exact Fg|]. apply glue_ne. destruct Hc as [->|[_ Hn]]; [discriminate|exact Hn].
    - split; [exact S|]. left. destruct F as [F|[-> ->]]; [exact F|]. cbn [parts_fields] in H4. injection H4 as Hz _.
      exfalso. assert (X : full [[]]); [|inversion X; congruence]. destruct z; [|now rewrite <- Hz].
      destruct (glue acc c) as [|[|x g] [|y g']]; try discriminate; exact Fg. }
  destruct p as [c|c|s|l|u]; cbn [parts_fields] in H.
  - eapply K; [| | |exact H]; [|constructor; [discriminate|constructor]|discriminate].
    constructor; [|constructor]. constructor; [|constructor]. right. left. split; [reflexivity|exact Hp].
  - eapply K; [| | |exact H]; [|constructor; [discriminate|constructor]|discriminate]. apply prot_settled. constructor; [|constructor]. constructor; [right; reflexivity|repeat constructor].
  - assert (S : solid [cells (set_quoted cc_lit) s]) by (apply one_solid, cells_protected; reflexivity).
    eapply K; [| | |exact H]; [apply prot_settled, prot_quotes, S|now apply full_quotes|discriminate].
  - unfold bind in H. destruct (dparts_fields W uf cc_lit l e) as [[[cs|] e1]| |] eqn:E; try discriminate.
    apply dparts_solid, solid_all in E.
    assert (Kq : parts_fields W uf cc_lit ps (glue acc (in_quotes cc_lit dquote (glue_all cs))) zero e1 = Ok (Some fs, e') ->
      Forall (Forall settled) fs /\ (full fs \/ fs = [[]] /\ PDouble l :: ps = [])).
    { intros H'. eapply K; [| | |exact H']; [apply prot_settled, prot_quotes, E|now apply full_quotes|]. unfold in_quotes. apply glue_ne. discriminate. }
    destruct (vanishes cs); [|now apply Kq]. destruct acc as [|[|x a] [|b acc]]; try (now apply Kq). clear K Kq.
    destruct ps as [|p2 ps2].
    + cbn [parts_fields] in H. injection H as <- _. split; [constructor|left; constructor].
    + apply IH in H as [S F]; auto. split; [exact S|]. left. destruct F as [F|[_ F]]; [exact F|discriminate].
  - destruct Hp.
Qed.
Lemma quiet_tilde ps u r : Forall quiet ps -> tilde_prefix ps = Some (u, r) -> Forall quiet r.
Proof.
  intros H E. unfold tilde_prefix in E. destruct ps as [|[c| | | |] ps]; try discriminate. destruct (c =? 126)%N; [|discriminate].
  inversion H; subst. destruct (bare_split ps) as (Es & _). destruct (bare_prefix ps) as [u' r']. cbn [fst snd] in *.
  assert (Forall quiet r') by (rewrite Es in *; match goal with X : Forall quiet (_ ++ _) |- _ => apply Forall_app in X; tauto end).
  destruct r' as [|[]]; try discriminate; injection E as <- <-; auto.
Qed.
(** The word is expanded to the fields of its parts, without their quotes. *)
Lemma expand_quiet ps e fs e' : ps <> [] -> Forall wf_part ps -> Forall quiet ps -> (forall u, tilde_prefix ps = Some (u, []) -> tilde_home W e u <> Some []) ->
  word_fields W uf cc_lit true ps e = Ok (Some fs, e') -> Forall nonull fs ->
  expand_multiple L C W OP (word ps) e = Ok (Some (map visible fs), e').
Proof.
  intros Hne Hw Hq Ht H Hn.
  assert (SF : Forall (Forall settled) fs /\ full fs).
  { unfold word_fields in H.
    assert (Q : parts_fields W uf cc_lit ps [[]] false e = Ok (Some fs, e') -> Forall (Forall settled) fs /\ full fs).
    { intros H'. destruct (quiet_fields ps [[]] false e fs e' Hq) as [S F]; auto. split; [exact S|]. destruct F as [F|[_ F]]; [exact F|congruence]. }
    destruct (tilde_prefix ps) as [[u r]|] eqn:Ep; [|auto]. destruct (tilde_home W e u) as [home|] eqn:Eh; [|auto].
    destruct (quiet_fields r [cells cc_hard home] false e fs e') as [S F]; auto.
    - eapply quiet_tilde; eauto.
    - constructor; [|constructor]. apply Forall_forall. intros x Hx. apply in_map_iff in Hx as (c & <- & _). right. right. reflexivity.
    - destruct home; [now left|]. right. split; [constructor; [discriminate|constructor]|discriminate].
    - split; [exact S|]. destruct F as [F|[-> ->]]; [exact F|]. cbn [parts_fields] in H. destruct home; [|discriminate H]. exfalso. now apply (Ht u). }
  destruct SF as [S F].
  unfold expand_multiple, bind. rewrite (expand_four_word W TT_SINGLE cc_lit) by (auto; discriminate). rewrite H.
  unfold lift, gets. replace (if o_braceexpand OP then expand_brace_each L fs else Ok fs) with (Ok fs) by (rewrite brace_settled by auto; now destruct (o_braceexpand OP)).
  rewrite split_settled by auto. now rewrite glob_settled.
Qed.
Lemma expand_not ps e x : Forall wf_part ps ->
  word_fields W uf cc_lit true ps e = x -> match x with Ok (Some _, _) => False | _ => True end ->
  expand_multiple L C W OP (word ps) e = match x with Ok (_, e') => Ok (None, e') | UB => UB | Fuel => Fuel end.
Proof.
  intros Hw H Hx. unfold expand_multiple, bind. rewrite (expand_four_word W TT_SINGLE cc_lit) by (auto; discriminate). rewrite H. destruct x as [[[fs|] e1]| |]; try reflexivity; contradiction.
Qed.
End Quiet.

(** ** The texts *)
Lemma visible_app a b : visible (a ++ b) = visible a ++ visible b.
Proof. unfold visible. now rewrite filter_app, map_app. Qed.
Lemma map_removelast {A B} (f : A -> B) l : map f (removelast l) = removelast (map f l).
Proof. induction l as [|x l IH]; [reflexivity|]. destruct l; [reflexivity|]. change (removelast (x :: a :: l)) with (x :: removelast (a :: l)). cbn [map] in *. now rewrite IH. Qed.
Lemma last_map {A B} (f : A -> B) l d : last (map f l) (f d) = f (last l d).
Proof. induction l as [|x l IH]; [reflexivity|]. destruct l; [reflexivity|]. exact IH. Qed.
Lemma visible_glue a b : map visible (glue a b) = glue (map visible a) (map visible b).
Proof.
  destruct a as [|a0 a]; [reflexivity|]. destruct b as [|b0 b]; [reflexivity|]. unfold glue. set (f := a0 :: a).
  change (map visible (a0 :: a)) with (map visible f). rewrite map_app, map_removelast. cbn [map]. rewrite visible_app, <- last_map. reflexivity.
Qed.
Lemma visible_cells k s : quotation k = false -> visible (cells k s) = s.
Proof.
  intros H. unfold visible, cells. induction s as [|c s IH]; [reflexivity|]. cbn [map filter]. cbn [snd]. rewrite H. cbn [negb map fst]. now f_equal.
Qed.
Lemma visible_quotes dc q l : map visible (in_quotes dc q l) = glue [[]] (map visible l).
Proof.
  unfold in_quotes. rewrite !visible_glue. cbn [map]. assert (E : visible [(q, set_quotation dc)] = []) by reflexivity. rewrite E.
  destruct (map visible l) as [|x m]; [reflexivity|]. unfold glue at 2. rewrite app_nil_r, <- app_removelast_last by discriminate. reflexivity.
Qed.
Lemma concat_glue {A} (a b : list (list A)) : concat (glue a b) = concat a ++ concat b.
Proof.
  destruct a as [|a0 a]; [reflexivity|]. destruct b as [|b0 b]; [cbn; now rewrite app_nil_r|]. unfold glue. set (f := a0 :: a).
  assert (E : f = removelast f ++ [last f []]) by (apply app_removelast_last; discriminate). rewrite E at 3. rewrite !concat_app. cbn [concat]. now rewrite app_nil_r, <- !app_assoc.
Qed.
Lemma glue_nil_l {A} (f : list (list A)) : f <> [] -> glue [[]] f = f.
Proof. destruct f; [congruence|reflexivity]. Qed.

Section Texts.
Variable L : locale.
Variable C : ctype.
Variable W : world.
Variable OP : opts.
Notation uf := (ufields W (expand_unit L C W OP)).
Variable dc : cat.
Hypothesis Hdc : quotation dc = false.
(** The values of an expansion between double quotes *)
Definition dq_values (u : wunit) : M W (list (list N)) := bind W (uf u true) (fun l => ret W (map visible l)).

Lemma dparts_texts_ok l e : dparts_texts W dq_values l e =
  bind W (dparts_fields W uf dc l) (fun cs => ret W (map visible (glue_all cs), existsb null cs)) e.
Proof.
  revert e. induction l as [|d l IH]; intros e; [reflexivity|]. cbn [dparts_texts dparts_fields]. rewrite bind_assoc.
  assert (E : dpart_texts W dq_values d e = bind W (dpart_fields W uf dc d) (fun l => ret W (map visible l)) e).
  { destruct d; unfold bind, ret; cbn [dpart_texts dpart_fields]; unfold ret, visible; cbn; rewrite ?Hdc; reflexivity. }
  unfold bind in E |- *. rewrite E. destruct (dpart_fields W uf dc d e) as [[[c|] e1]| |]; try reflexivity. unfold ret at 1.
  rewrite IH. unfold bind. destruct (dparts_fields W uf dc l e1) as [[[cs|] e2]| |]; try reflexivity. cbn [ret glue_all fold_right existsb]. unfold ret.
  change (fold_right glue [] cs) with (glue_all cs). rewrite visible_glue. do 3 f_equal. now destruct c.
Qed.
Definition matches (acc : list (list cell)) (zero : bool) (x : res (option (list (list cell)) * E W)) (y : res (option (list (list N) * bool) * E W)) : Prop :=
  match x, y with
  | Ok (Some fs, e'), Ok (Some (T, z), e'') => e' = e'' /\
      (map visible fs = glue (map visible acc) T \/ zero || z = true /\ fs = [] /\ acc = [[]] /\ (T = [] \/ T = [[]]))
  | Ok (None, e'), Ok (None, e'') => e' = e''
  | UB, UB | Fuel, Fuel => True
  | _, _ => False
  end.
Lemma texts_ok ps : forall acc zero e, Forall quiet ps -> acc <> [] ->
  matches acc zero (parts_fields W uf dc ps acc zero e) (parts_texts W dq_values ps e).
Proof.
  induction ps as [|p ps IH]; intros acc zero e Hq Ha.
  { cbn [parts_fields parts_texts ret matches]. unfold ret. cbn. split; [reflexivity|]. rewrite glue_nil_r.
    destruct zero, acc as [|[|x a] [|b acc]]; auto. right. auto. }
  inversion Hq as [|? ? Hp Hq']; subst. cbn [parts_texts].
  assert (K : forall c t z, map visible c = t -> c <> [] -> part_texts W dq_values p e = Ok (Some (t, z), e) ->
    matches acc zero (parts_fields W uf dc ps (glue acc c) zero e) (bind W (part_texts W dq_values p) (fun '(t, z) => bind W (parts_texts W dq_values ps) (fun '(t', z') => ret W (glue t t', z || z'))) e)).
  { intros c t z E Hc Ep. unfold bind. rewrite Ep. specialize (IH (glue acc c) zero e Hq' (glue_ne _ _ Ha)). unfold matches in IH.
    destruct (parts_fields W uf dc ps (glue acc c) zero e) as [[[fs|] e1]| |], (parts_texts W dq_values ps e) as [[[[T z']|] e2]| |]; try contradiction; try exact IH; try exact I.
    destruct IH as [<- IH]. cbn. split; [reflexivity|]. rewrite visible_glue, E, glue_assoc in IH. destruct IH as [IH|(Hz & -> & Eg & HT)]; [now left|]. right.
    assert (Ea : acc = [[]] /\ c = [[]]).
    { assert (G : length (glue acc c) = 1) by now rewrite Eg. rewrite glue_length in G by auto. destruct acc as [|a0 [|a1 acc]]; cbn [length] in G; try lia; [congruence|..]; destruct c as [|c0 [|c1 c]]; cbn [length] in G; try lia; try congruence.
      cbn in Eg. injection Eg as Eg. apply app_eq_nil in Eg as [-> ->]. auto. }
    destruct Ea as [-> ->]. split; [destruct zero, z, z'; auto|]. split; [reflexivity|]. split; [reflexivity|]. right. subst t. cbn [map visible filter].
    destruct HT as [->| ->]; reflexivity. }
  destruct p as [c|c|s|l|u]; cbn [parts_fields].
  - eapply K; [|discriminate|reflexivity]. unfold visible. cbn. now rewrite Hdc.
  - eapply K; [|discriminate|reflexivity]. unfold visible. cbn. now rewrite Hdc.
  - eapply K; [|discriminate|reflexivity]. rewrite visible_quotes. cbn [map]. rewrite visible_cells by exact Hdc. reflexivity.
  - clear K. cbn [part_texts]. rewrite bind_assoc. unfold bind at 2. rewrite dparts_texts_ok. unfold bind at 1 2.
    destruct (dparts_fields W uf dc l e) as [[[cs|] e1]| |]; try reflexivity; [|exact I..]. unfold ret at 1. rewrite bind_ret. 
    set (t := map visible (glue_all cs)). set (z := existsb null cs).
    assert (K : matches acc zero (parts_fields W uf dc ps (glue acc (in_quotes dc dquote (glue_all cs))) zero e1)
      (bind W (parts_texts W dq_values ps) (fun '(t', z') => ret W (glue (glue [[]] t) t', z || z')) e1)).
    { assert (Hc : in_quotes dc dquote (glue_all cs) <> []) by (apply glue_ne; discriminate). assert (Hl := glue_length acc _ Ha Hc).
      unfold bind. specialize (IH (glue acc (in_quotes dc dquote (glue_all cs))) zero e1 Hq' (glue_ne _ _ Ha)). unfold matches in IH.
      destruct (parts_fields W uf dc ps _ zero e1) as [[[fs|] e2]| |], (parts_texts W dq_values ps e1) as [[[[T z']|] e3]| |]; try contradiction; try exact IH; try exact I.
      destruct IH as [<- IH]. cbn. split; [reflexivity|]. rewrite visible_glue, visible_quotes, glue_assoc in IH. fold t in IH. destruct IH as [IH|(Hz & -> & Eg & HT)]; [now left|].
      exfalso. apply (f_equal (@concat cell)) in Eg. unfold in_quotes in Eg. rewrite !concat_glue in Eg. cbn in Eg. apply app_eq_nil in Eg as [_ Eg]. discriminate. }
    destruct (vanishes cs) eqn:Ev; [|exact K]. destruct acc as [|[|x a] [|b acc]]; try exact K. clear K.
    unfold vanishes in Ev. apply andb_true_iff in Ev as [Ez Ev]. fold z in Ez.
    assert (Et : glue [[]] t = [[]]) by (unfold t; destruct (glue_all cs) as [|[|] [|]]; try discriminate; reflexivity).
    rewrite Et. specialize (IH [[]] true e1 Hq' Ha). unfold matches, bind in *.
    destruct (parts_fields W uf dc ps _ true e1) as [[[fs|] e2]| |], (parts_texts W dq_values ps e1) as [[[[T z']|] e3]| |]; try contradiction; try exact IH; try exact I.
    destruct IH as [<- IH]. cbn. split; [reflexivity|]. rewrite Ez. cbn. destruct IH as [IH|(_ & -> & _ & HT)].
    + left. rewrite IH. cbn. now destruct T.
    + right. rewrite orb_true_r. split; [reflexivity|]. split; [reflexivity|]. split; [reflexivity|]. right. destruct HT as [->| ->]; reflexivity.
  - destruct Hp.
Qed.
Lemma word_texts_ok ps e : Forall quiet ps ->
  match word_fields W uf dc true ps e, word_texts W dq_values ps e with
  | Ok (Some fs, e'), Ok (Some (T, z), e'') => e' = e'' /\ (map visible fs = glue [[]] T \/ z = true /\ fs = [] /\ (T = [] \/ T = [[]]))
  | Ok (None, e'), Ok (None, e'') => e' = e''
  | UB, UB | Fuel, Fuel => True
  | _, _ => False
  end.
Proof.
  intros Hq. unfold word_fields, word_texts.
  assert (Q : match parts_fields W uf dc ps [[]] false e, parts_texts W dq_values ps e with
    | Ok (Some fs, e'), Ok (Some (T, z), e'') => e' = e'' /\ (map visible fs = glue [[]] T \/ z = true /\ fs = [] /\ (T = [] \/ T = [[]]))
    | Ok (None, e'), Ok (None, e'') => e' = e'' | UB, UB | Fuel, Fuel => True | _, _ => False end).
  { pose proof (texts_ok ps [[]] false e Hq ltac:(discriminate)) as H. unfold matches in H.
    destruct (parts_fields W uf dc ps [[]] false e) as [[[fs|] e1]| |], (parts_texts W dq_values ps e) as [[[[T z]|] e2]| |]; try contradiction; auto.
    destruct H as [-> [H|(Hz & -> & _ & HT)]]; (split; [reflexivity|]); [left; exact H|right; auto]. }
  destruct (tilde_prefix ps) as [[u r]|] eqn:Ep; [|exact Q]. destruct (tilde_home W e u) as [home|]; [|exact Q]. clear Q.
  pose proof (texts_ok r [cells cc_hard home] false e (quiet_tilde _ _ _ Hq Ep) ltac:(discriminate)) as H. unfold matches in H. unfold bind.
  destruct (parts_fields W uf dc r _ false e) as [[[fs|] e1]| |], (parts_texts W dq_values r e) as [[[[T z]|] e2]| |]; try contradiction; auto.
  destruct H as [-> [H|(Hz & -> & Ea & HT)]]; (split; [reflexivity|]).
  - left. rewrite H. cbn [map]. rewrite visible_cells by reflexivity. now destruct T.
  - right. split; [exact Hz|]. split; [reflexivity|]. right. destruct home; [|discriminate]. destruct HT as [-> | ->]; reflexivity.
Qed.
End Texts.
