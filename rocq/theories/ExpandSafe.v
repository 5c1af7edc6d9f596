(** Expansion of well-formed words: no failed assertion, and it ends. *)
From Coq Require Import Ascii String.
From Coq Require Import List NArith ZArith Bool Arith Lia.
From Coq Require Import ZifyBool ZifyN.
From Verif Require Import Common Locale NumModel CharcatModel Regex XfnmatchModel QuoteModel QuoteProps SplitModel SplitSpec SplitProofs SplitProps BraceModel BraceSpec BraceProps ExpandModel ExpandSpec ExpandFour ExpandWord ExpandQuoted ExpandProofs ExpandPipe.
Import ListNotations.
Open Scope res_scope.

Section Safe.
Variable L : locale.
Variable C : ctype.
Variable W : world.
Variable OP : opts.

Definition fine {A} (x : res A) : Prop := match x with Ok _ => True | _ => False end.
Definition safe {A} (m : M W A) : Prop := forall e, fine (m e).
Lemma safe_ret {A} (a : A) : safe (ret W a).
Proof. intros e. exact I. Qed.
Lemma safe_fail {A} : safe (@fail W A).
Proof. intros e. exact I. Qed.
Lemma safe_bind {A B} (m : M W A) (k : A -> M W B) : safe m -> (forall a e e', m e = Ok (Some a, e') -> fine (k a e')) -> safe (bind W m k).
Proof. intros Hm Hk e. specialize (Hm e). unfold bind. destruct (m e) as [[[a|] e']| |] eqn:E; try exact I; try contradiction. eauto. Qed.
Lemma safe_bind' {A B} (m : M W A) (k : A -> M W B) : safe m -> (forall a, safe (k a)) -> safe (bind W m k).
Proof. intros Hm Hk. apply safe_bind; auto. intros a e e' _. apply Hk. Qed.
Lemma safe_ok {A} (f : E W -> option A * E W) : safe (fun e => Ok (f e)).
Proof. intros e. exact I. Qed.
Lemma safe_gets {A} (f : E W -> A) : safe (gets W f).
Proof. intros e. exact I. Qed.
Lemma safe_lift {A} (x : res A) : fine x -> safe (lift W x).
Proof. intros H e. unfold lift. destruct x; [exact I|contradiction..]. Qed.

(** ** Strings where single quotes are ordinary *)
Lemma string_fine tilde quot dc : quot <> Q_WORD -> tilde <> TT_MULTI -> forall fuel e hn ss st, length ss < fuel -> fine (four_string W tilde quot dc fuel e hn ss st).
Proof.
  intros Hq Ht. induction fuel as [|fuel IH]; intros e hn ss st Hl; [lia|]. destruct ss as [|c s']; [exact I|]. cbn [length] in Hl. cbn [four_string].
  assert (D : forall st, fine (four_string W tilde quot dc fuel e hn s' st)) by (intros; apply IH; lia).
  destruct (c =? dq)%N.
  { destruct quot; try apply D; [congruence|]. destruct (negb (findq st)); [apply D|].
    destruct (fremovedq st), (fe st) as [|], (fbuf st) as [|[d k] [|]]; try apply D. destruct ((d =? dq)%N && quotation k); apply D. }
  destruct (c =? sq)%N; [destruct quot; try apply D; congruence|]. destruct (c =? bs)%N.
  { match goal with |- context [if ?b then _ else _] => destruct b end; [|apply D]. destruct s' as [|d s'']; cbn [length] in *; apply IH; cbn; lia. }
  destruct (c =? ch ":")%N; [|apply D]. destruct tilde; try apply D. congruence.
Qed.
Lemma loop_safe tilde quot dc eu w : quot <> Q_WORD -> tilde <> TT_MULTI -> (forall u, In u w -> expansion u -> forall b, safe (eu u b)) ->
  forall first st, safe (four_loop W tilde quot dc eu w first st).
Proof.
  intros Hq Ht. induction w as [|u w IH]; intros Hw first st; [apply safe_ret|].
  assert (IH' : forall first st, safe (four_loop W tilde quot dc eu w first st)) by (apply IH; intros v Hv; apply Hw; now right). clear IH.
  destruct u as [s|a1 a2 a3 a4 a5 a6 a7 a8|k|w']; cbn [four_loop].
  - apply safe_bind'; [|intros; apply IH']. intros e. destruct (match tilde with TT_NONE => _ | _ => _ end) as [st1 s1].
    unfold lift. pose proof (string_fine tilde quot dc Hq Ht (S (length s1)) e (match w with [] => false | _ => true end) s1 st1 ltac:(lia)) as F.
    destruct (four_string _ _ _ _ _ _ _ _ _); [exact I|contradiction..].
  - apply safe_bind'; [apply Hw; [now left|exact I]|]. intros [l|s]; apply IH'.
  - apply safe_bind'; [apply Hw; [now left|exact I]|]. intros [l|s]; apply IH'.
  - apply safe_bind'; [apply Hw; [now left|exact I]|]. intros [l|s]; apply IH'.
Qed.
Lemma four_safe_other tilde quot dc eu w : quot <> Q_WORD -> tilde <> TT_MULTI -> (forall u, In u w -> expansion u -> forall b, safe (eu u b)) ->
  safe (expand_four W eu w tilde quot dc).
Proof.
  intros Hq Ht Hw. unfold expand_four. apply safe_bind'; [now apply loop_safe|]. intros st. destruct (fremoveempty st), (fe st), (fbuf st); apply safe_ret.
Qed.

(** ** Words *)
Lemma in_word u ts : expansion u -> In (inr u) ts -> In u (build ts).
Proof.
  intros Hu. induction ts as [|[c|v] ts IH]; intros H; [destruct H|..].
  - destruct H as [H|H]; [discriminate|]. specialize (IH H). cbn [build]. unfold add_char. destruct (build ts) as [|[] w]; try (destruct IH; fail); try (now right).
    destruct IH as [<-|IH]; [destruct Hu|]. now right.
  - destruct H as [H|H]; [injection H as <-; now left|]. right. auto.
Qed.
Lemma dparts_safe eu dc l : (forall u, In (DUnit u) l -> forall b, safe (eu u b)) -> safe (dparts_fields W (ufields W eu) dc l).
Proof.
  induction l as [|d l IH]; intros H; [apply safe_ret|]. cbn [dparts_fields]. apply safe_bind'.
  - destruct d; try apply safe_ret. cbn [dpart_fields]. unfold ufields. apply safe_bind'; [apply H; now left|]. intros; apply safe_ret.
  - intros a. apply safe_bind'; [|intros; apply safe_ret]. apply IH. intros u Hu. apply H. now right.
Qed.
Lemma parts_safe eu dc ps : (forall u, In (inr u) (flat_map toks ps) -> forall b, safe (eu u b)) -> forall acc z, safe (parts_fields W (ufields W eu) dc ps acc z).
Proof.
  induction ps as [|p ps IH]; intros H acc z; [apply safe_ret|].
  assert (IH' : forall acc z, safe (parts_fields W (ufields W eu) dc ps acc z)).
  { apply IH. intros u Hu. apply H. cbn [flat_map]. apply in_or_app. now right. } clear IH.
  destruct p as [c|c|s|l|u]; cbn [parts_fields]; try apply IH'.
  - apply safe_bind'.
    + apply dparts_safe. intros u Hu. apply H. cbn [flat_map toks]. apply in_or_app. left. apply in_or_app. right. apply in_or_app. left.
      apply in_flat_map. exists (DUnit u). split; [exact Hu|]. now left.
    + intros cs. destruct (vanishes cs); [|apply IH']. destruct acc as [|[|] [|]]; apply IH'.
  - apply safe_bind'; [|intros; apply IH']. unfold ufields. apply safe_bind'; [|intros; apply safe_ret]. apply H. cbn [flat_map toks]. now left.
Qed.
Lemma bare_sub ps : incl (snd (bare_prefix ps)) ps.
Proof.
  induction ps as [|[c|c|s|l|u] ps IH]; cbn [bare_prefix]; try apply incl_refl.
  destruct (c =? 47)%N; [apply incl_refl|]. destruct (bare_prefix ps) as [a r]. cbn [snd] in *. now apply incl_tl.
Qed.
Lemma units_wf ps u : Forall wf_part ps -> In (inr u) (flat_map toks ps) -> expansion u.
Proof.
  intros Hps Hin. apply in_flat_map in Hin as (p & Hp & Hin). rewrite Forall_forall in Hps. apply Hps in Hp.
  destruct p as [c|c|s|l|v]; cbn [toks] in Hin; unfold chars in Hin.
  - destruct Hin as [Hin|[]]; discriminate.
  - destruct Hin as [Hin|[Hin|[]]]; discriminate.
  - apply in_map_iff in Hin as (? & ? & ?); discriminate.
  - apply in_app_or in Hin as [[Hin|[]]|Hin]; [discriminate|]. apply in_app_or in Hin as [Hin|[Hin|[]]]; [|discriminate].
    apply in_flat_map in Hin as (d & Hdl & Hin). cbn in Hp. rewrite Forall_forall in Hp. apply Hp in Hdl.
    destruct d; cbn in Hin; [destruct Hin as [Hin|[]]; discriminate|destruct Hin as [Hin|[Hin|[]]]; discriminate|destruct Hin as [Hin|[Hin|[]]]; discriminate|].
    destruct Hin as [Hin|[]]. injection Hin as <-. exact Hdl.
  - destruct Hin as [Hin|[]]. injection Hin as <-. exact Hp.
Qed.
Lemma four_safe_word tilde dc eu ps : tilde <> TT_MULTI -> quoted dc = false -> Forall wf_part ps ->
  (forall u, In u (word ps) -> expansion u -> forall b, safe (eu u b)) -> safe (expand_four W eu (word ps) tilde Q_WORD dc).
Proof.
  intros Ht Hd Hps Hu e. rewrite expand_four_word by assumption.
  assert (U : forall ps', incl ps' ps -> forall acc z, safe (parts_fields W (ufields W eu) dc ps' acc z)).
  { intros ps' Hi. apply parts_safe. intros u Hin. apply Hu.
    - apply in_word; [eapply units_wf; [|exact Hin]|]; [eapply incl_Forall; eauto|].
      apply in_flat_map in Hin as (p & Hp & Hin). apply in_flat_map. eauto.
    - eapply units_wf; [|exact Hin]. eapply incl_Forall; eauto. }
  unfold word_fields. destruct (match tilde with TT_NONE => false | _ => true end); [|apply U, incl_refl].
  destruct (tilde_prefix ps) as [[user rest]|] eqn:Ep; [|apply U, incl_refl].
  destruct (tilde_home W e user); [|apply U, incl_refl]. apply U.
  unfold tilde_prefix in Ep. destruct ps as [|[c|c|s|l0|u] ps']; try discriminate. destruct (c =? 126)%N; [|discriminate].
  pose proof (bare_sub ps') as B. destruct (bare_prefix ps') as [a r]. cbn [snd] in B. destruct r as [|[] r]; try discriminate; injection Ep as <- <-; now apply incl_tl.
Qed.

(** ** Expansions *)
Lemma single_safe_word tilde eu ps esc : tilde <> TT_MULTI -> Forall wf_part ps ->
  (forall u, In u (word ps) -> expansion u -> forall b, safe (eu u b)) -> safe (expand_single W eu (word ps) tilde Q_WORD esc).
Proof.
  intros Ht Hps Hu. unfold expand_single, expand_single_cc. apply safe_bind'; [|intros; apply safe_ret].
  apply safe_bind'; [now apply four_safe_word|]. intros. apply safe_bind'; [apply safe_gets|]. intros; apply safe_ret.
Qed.
Lemma single_safe_other tilde quot eu w esc : quot <> Q_WORD -> tilde <> TT_MULTI ->
  (forall u, In u w -> expansion u -> forall b, safe (eu u b)) -> safe (expand_single W eu w tilde quot esc).
Proof.
  intros Hq Ht Hu. unfold expand_single, expand_single_cc. apply safe_bind'; [|intros; apply safe_ret].
  apply safe_bind'; [now apply four_safe_other|]. intros. apply safe_bind'; [apply safe_gets|]. intros; apply safe_ret.
Qed.
Lemma segment_eq {A} (l : list A) : forall k n, segment k n l = firstn (Z.to_nat n) (skipn (Z.to_nat k) l).
Proof.
  induction l as [|x l IH]; intros k n; cbn [segment]; [now rewrite skipn_nil, firstn_nil|]. rewrite !IH.
  destruct (Z.ltb_spec 0 k).
  - replace (Z.to_nat k) with (S (Z.to_nat (k - 1))) by lia. reflexivity.
  - replace (Z.to_nat k) with 0 by lia. cbn [skipn]. destruct (Z.ltb_spec 0 n).
    + replace (Z.to_nat n) with (S (Z.to_nat (n - 1))) by lia. reflexivity.
    + replace (Z.to_nat n) with 0 by lia. reflexivity.
Qed.
Lemma trim_fine s a b : fine (trim_wstring s a b).
Proof.
  unfold trim_wstring. destruct ((a =? 0)%Z && (b =? SSIZE_MAX)%Z); [exact I|].
  assert (Ha : (0 <= (if (a <? 0)%Z then Z.max 0 (a + Z.of_nat (length s)) else a))%Z) by (destruct (Z.ltb_spec a 0); lia).
  cbv zeta. revert Ha. generalize (if (a <? 0)%Z then Z.max 0 (a + Z.of_nat (length s)) else a). intros a' Ha.
  destruct (Z.ltb_spec a' 0); [lia|]. cbn [orb].
  destruct (b <? 0)%Z eqn:Eb.
  - destruct (Z.leb_spec (b + Z.of_nat (length s) + 1) a'); [exact I|]. destruct (Z.ltb_spec (b + Z.of_nat (length s) + 1) 0); [lia|exact I].
  - destruct (b <=? a')%Z; exact I.
Qed.
Lemma select_fine t values a b it : (t = TScalar -> exists s, values = [s]) -> fine (select_values t values a b it).
Proof.
  intros H. destruct t; cbn [select_values].
  - destruct (H eq_refl) as [s ->]. pose proof (trim_fine s a b) as F. destruct it; try exact I; destruct (trim_wstring s a b); try contradiction; exact I.
  - destruct it; exact I.
  - destruct it; exact I.
Qed.
Lemma finish_safe number indq concat values : safe (finish_param W number indq concat values).
Proof. apply safe_bind'; [apply safe_gets|]. intros; apply safe_ret. Qed.
Lemma index_safe eu ss es : (forall u, In u (word ss) -> expansion u -> forall b, safe (eu u b)) ->
  (forall u, In u (word es) -> expansion u -> forall b, safe (eu u b)) -> Forall wf_part ss -> Forall wf_part es ->
  safe (expand_index W eu (word ss) (word es)).
Proof.
  intros Hs He Ws We. pose proof (fun esc => single_safe_word TT_NONE eu ss esc ltac:(discriminate) Ws Hs) as Ss.
  pose proof (fun esc => single_safe_word TT_NONE eu es esc ltac:(discriminate) We He) as Se. revert Ss Se. generalize (word ss), (word es). clear. intros ss es Ss Se.
  unfold expand_index. destruct ss as [|u ss]; [apply safe_ret|]. apply safe_bind'; [apply Ss|]. intros s.
  destruct (parse_indextype s); try (destruct es; [apply safe_ret|apply safe_fail]).
  apply safe_bind'; [apply safe_ok|]. intros a. apply safe_bind'; [|intros; apply safe_ret].
  destruct es; [apply safe_ret|]. apply safe_bind'; [apply Se|]. intros. apply safe_ok.
Qed.
Lemma value_safe_word eu ps : (forall u, In u (word ps) -> expansion u -> forall b, safe (eu u b)) -> Forall wf_part ps -> safe (expand_value W eu (inr (word ps))).
Proof.
  intros Hu Hps. unfold expand_value, expand_word. apply safe_bind'; [|intros; apply safe_ret]. apply safe_bind'; [|intros; apply safe_ret].
  now apply four_safe_word.
Qed.
Lemma value_safe_name eu n : safe (expand_value W eu (inl n)).
Proof. apply safe_bind'; [apply safe_gets|]. intros; apply safe_ret. Qed.
Lemma value_scalar eu p e t values unset e' : expand_value W eu p e = Ok (Some (t, values, unset), e') -> t = TScalar -> exists s, values = [s].
Proof.
  unfold expand_value. destruct p as [n|w]; unfold bind, gets, ret.
  - intros H. injection H as H _. intros ->. destruct (get_variable W e n); try discriminate; injection H as <- <-; eauto.
  - destruct (expand_word W eu w e) as [[[l|] e1]| |]; try discriminate. intros H. injection H as <- <- _ _.
    destruct l as [|x [|]]; try discriminate. eauto.
Qed.
Lemma modify_safe eu colon ty p mw ss number indq t a b concat values unset : no_pattern ty ->
  (forall u, In u (word ss) -> expansion u -> forall b, safe (eu u b)) -> Forall wf_part ss ->
  safe (modify_param L C W OP eu colon ty p mw (word ss) number indq t a b concat values unset).
Proof.
  intros Hty Hs Ws. unfold modify_param.
  assert (S4 : safe (expand_four W eu (word ss) TT_SINGLE (if indq then Q_DQPARAM else Q_WORD) (mkCat Soft indq false))).
  { destruct indq; [apply four_safe_other; auto; discriminate|apply four_safe_word; auto; discriminate]. }
  assert (S1 : forall esc, safe (expand_single W eu (word ss) TT_SINGLE (if indq then Q_DQPARAM else Q_WORD) esc)).
  { intros esc. destruct indq; [apply single_safe_other; auto; discriminate|apply single_safe_word; auto; discriminate]. }
  cbv zeta. revert S4 S1. generalize (word ss). clear Hs Ws. intros w S4 S1.
  destruct ty; try contradiction; try (match goal with |- safe (if ?b then _ else _) => destruct b end).
  - apply safe_fail.
  - apply finish_safe.
  - apply safe_bind'; [exact S4|]. intros; apply safe_ret.
  - apply finish_safe.
  - apply finish_safe.
  - apply safe_bind'; [exact S4|]. intros; apply safe_ret.
  - destruct p as [n|]; [|apply safe_fail]. destruct (negb (is_name L n)); [apply safe_fail|].
    match goal with |- safe (if ?b then _ else _) => destruct b end; [apply safe_fail|]. apply safe_bind'; [apply S1|]. intros s.
    apply safe_bind'; [|intros; apply finish_safe]. intros e. destruct t; [destruct (set_variable W e n s)|destruct (set_array_element W e n a s)|destruct (set_variable W e n s)]; exact I.
  - apply finish_safe.
  - destruct w; [apply safe_fail|]. apply safe_bind'; [apply S1|]. intros; apply safe_fail.
  - apply finish_safe.
Qed.

Lemma good_use w : good_word w -> Forall (fun u => good u -> forall b, safe (expand_unit L C W OP u b)) w ->
  exists ps, w = word ps /\ Forall wf_part ps /\ (forall u, In u (word ps) -> expansion u -> forall b, safe (expand_unit L C W OP u b)).
Proof.
  intros H IH. inversion H as [ps Hps Hg E]. subst w. exists ps. split; [reflexivity|]. split; [exact Hps|]. rewrite Forall_forall in IH.
  intros u Hu Hx. apply IH; auto.
Qed.
Theorem unit_safe u : good u -> forall b, safe (expand_unit L C W OP u b).
Proof.
  induction u as [s|k|w IHw|number colon ty param start end_ match_ subst IHp IHs IHe IHm IHsub] using wunit_ind'; intros G indq.
  - inversion G.
  - cbn [expand_unit]. apply safe_bind'; [apply safe_ok|]. intros; apply safe_ret.
  - change (expand_unit L C W OP (WArith w) indq) with (bind W (expand_single W (expand_unit L C W OP) w TT_NONE Q_INDQ ES_NONE) (fun s =>
      bind W (fun e => Ok (evaluate_arithmetic W e s)) (fun s => ret W (SText s)))).
    inversion G as [|? Hw| |]. subst. apply safe_bind'.
    + apply single_safe_other; try discriminate. rewrite Forall_forall in IHw. auto.
    + intros s. apply safe_bind'; [apply safe_ok|]. intros; apply safe_ret.
  - change (expand_unit L C W OP (WParam number colon ty param start end_ match_ subst) indq) with
      (bind W (expand_index W (expand_unit L C W OP) start end_) (fun '(startindex, endindex, it) =>
       bind W (expand_value W (expand_unit L C W OP) param) (fun '(t, values, unset) =>
       bind W (lift W (select_values t values startindex endindex it)) (fun '(values, concat, startindex, endindex) =>
       modify_param L C W OP (expand_unit L C W OP) colon ty param match_ subst number indq t startindex endindex concat values unset)))).
    assert (X : no_pattern ty /\ good_word start /\ good_word end_ /\ good_word subst /\ match param with inl _ => True | inr w => good_word w end)
      by (inversion G; subst; auto 6).
    destruct X as (Hty & Gs & Ge & Gsub & Gp). clear G.
    destruct (good_use _ Gs IHs) as (ss & -> & Ws & Us). destruct (good_use _ Ge IHe) as (es & -> & We & Ue). destruct (good_use _ Gsub IHsub) as (subs & -> & Wsub & Usub).
    apply safe_bind'; [apply index_safe; auto|]. intros [[si ei] it].
    apply safe_bind.
    { destruct param as [n|w]; [apply value_safe_name|]. destruct (good_use _ Gp IHp) as (ps & -> & Wp & Up). apply value_safe_word; auto. }
    intros [[t vs] un] e1 e2 Hv. apply safe_bind'; [apply safe_lift, select_fine; eauto using value_scalar|].
    intros [[[vs2 cc] si2] ei2]. apply modify_safe; auto.
Qed.
Theorem four_safe w : good_word w -> safe (expand_four W (expand_unit L C W OP) w TT_SINGLE Q_WORD cc_lit).
Proof. intros H. inversion H as [ps Hps Hg E]. subst. apply four_safe_word; auto; try discriminate. intros u Hu Hx b. apply unit_safe; auto. Qed.
End Safe.
