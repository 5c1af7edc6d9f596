(** Properties C24, C27, C42-C46: word expansion. *)
From Coq Require Import Ascii String.
From Coq Require Import List NArith ZArith Bool Arith Lia.
From Coq Require Import ZifyBool ZifyN.
From Verif Require Import Common Locale NumModel CharcatModel Regex XfnmatchModel QuoteModel QuoteSpec QuoteProps SplitModel SplitSpec SplitProps BraceModel BraceSpec BraceProps ExpandModel ExpandSpec ExpandFour ExpandWord ExpandQuoted ExpandProofs ExpandPipe ExpandSafe ExpandNull ExpandDemo.
Import ListNotations.
Open Scope res_scope.

Section Props.
Variable L : locale.
Variable C : ctype.
Variable W : world.
Variable OP : opts.
Notation eu := (expand_unit L C W OP).
Notation uf := (ufields W eu).
Notation expand := (expand_multiple L C W OP).

(** ** Lemmas *)
Definition single_char (c : N) : list (list cell) := [[(c, qlit)]].
Lemma dparts_chars s l e : dparts_fields W uf cc_lit (map DChar s ++ l) e = bind W (dparts_fields W uf cc_lit l) (fun cs => ret W (map single_char s ++ cs)) e.
Proof.
  induction s as [|c s IH] in e |- *.
  - cbn [map app]. unfold bind, ret. destruct (dparts_fields W uf cc_lit l e) as [[[|]]| |]; reflexivity.
  - cbn [map app dparts_fields dpart_fields]. rewrite bind_ret. unfold bind in IH |- *. rewrite IH. destruct (dparts_fields W uf cc_lit l e) as [[[|]]| |]; reflexivity.
Qed.
Lemma glue_chars s r : glue_all (map single_char s ++ r) = glue (match s with [] => [] | _ => [cells qlit s] end) (glue_all r).
Proof.
  induction s as [|c s IH]; [reflexivity|]. cbn [map app glue_all fold_right]. fold (glue_all (map single_char s ++ r)). rewrite IH, <- glue_assoc. now destruct s.
Qed.
Lemma null_chars s r : existsb null (map single_char s ++ r) = existsb null r.
Proof. induction s as [|c s IH]; [reflexivity|exact IH]. Qed.

(** The values of an expansion that stands between the texts [pre] and [post] *)
Definition around (pre : list N) (values : list (list N)) (post : list N) : list (list N) :=
  match values with
  | [] => match pre ++ post with [] => [] | s => [s] end
  | _ => glue [pre] (glue values [post])
  end.
Definition dq_text (s : list N) : Prop := Forall (fun c => c <> dquote /\ c <> bslash) s.
Definition in_dq (pre : list N) (u : wunit) (post : list N) : list part := [PDouble (map DChar pre ++ DUnit u :: map DChar post)].
Lemma word_double l : exists s w, word [PDouble l] = WString (dquote :: s) :: w.
Proof.
  unfold word. cbn [flat_map toks chars map app]. rewrite app_nil_r. cbn [build]. unfold add_char. destruct (build _) as [|[s| | |] w]; eauto.
Qed.

Section Quoted.
Hypothesis HL : locale_ok L.
Hypothesis HW : clean_world W.

(** ** C42 *)

(** Every expansion between double quotes: the result is the texts and values as they
    are written, the last value of an expansion joined to what follows and the first
    to what precedes, whatever they contain and whatever $IFS, the options and the files are.
    Only if one of the expansions has no values and everything else is empty, the word
    may vanish. *)
Theorem quoted_word ps e : ps <> [] -> Forall wf_part ps -> Forall clean (word ps) -> Forall quiet ps ->
  (forall u, tilde_prefix ps = Some (u, []) -> tilde_home W e u <> Some []) ->
  match word_texts W (dq_values L C W OP) ps e with
  | Ok (Some (T, z), e') => exists r, expand (word ps) e = Ok (Some r, e') /\ (r = glue [[]] T \/ z = true /\ r = [] /\ (T = [] \/ T = [[]]))
  | Ok (None, e') => expand (word ps) e = Ok (None, e')
  | UB => expand (word ps) e = UB
  | Fuel => expand (word ps) e = Fuel
  end.
Proof.
  intros Hn Hw Hc Hq Ht. pose proof (word_texts_ok L C W OP cc_lit eq_refl ps e Hq) as H.
  pose proof (fun fs e' => expand_quiet L C W OP HL ps e fs e' Hn Hw Hq Ht) as X. pose proof (expand_not L C W OP ps e _ Hw eq_refl) as Y.
  pose proof (four_clean L C W OP HW (word ps) TT_SINGLE Q_WORD cc_lit Hc e) as Z. rewrite (expand_four_word W TT_SINGLE cc_lit) in Z by (auto; discriminate).
  change (word_fields W uf cc_lit (match TT_SINGLE with TT_NONE => false | _ => true end) ps e) with (word_fields W uf cc_lit true ps e) in Z.
  destruct (word_fields W uf cc_lit true ps e) as [[[fs|] e1]| |], (word_texts W (dq_values L C W OP) ps e) as [[[[T z]|] e2]| |]; try contradiction; try (now apply Y).
  - destruct H as [<- H]. exists (map visible fs). split; [apply X; [reflexivity|eapply Z; reflexivity]|]. destruct H as [H|(H1 & -> & H2)]; [now left|right; auto].
  - subst e2. now apply Y.
Qed.
Lemma glue_end {A} (v : list (list A)) : v <> [] -> glue v [[]] = v.
Proof. intros H. destruct v as [|x v]; [congruence|]. unfold glue. set (f := x :: v). rewrite app_nil_r. symmetry. apply app_removelast_last. discriminate. Qed.
Lemma opt_vis s : map visible (match s with [] => [] | _ => [cells qlit s] end) = match s with [] => [] | _ => [s] end.
Proof. destruct s as [|c s]; [reflexivity|]. cbn [map]. now rewrite visible_cells. Qed.
Lemma around_glue pre cs post : map visible (glue_all (map single_char pre ++ cs :: map single_char post)) =
  glue (match pre with [] => [] | _ => [pre] end) (glue (map visible cs) (match post with [] => [] | _ => [post] end)).
Proof.
  rewrite glue_chars, visible_glue, opt_vis. f_equal. cbn [glue_all fold_right]. fold (glue_all (map single_char post)). rewrite visible_glue. f_equal.
  rewrite <- (app_nil_r (map single_char post)), glue_chars, visible_glue, opt_vis. cbn [glue_all fold_right map]. apply glue_nil_r.
Qed.
Lemma around_vis pre cs post : cs <> [] \/ pre ++ post <> [] ->
  map visible (in_quotes cc_lit dquote (glue_all (map single_char pre ++ cs :: map single_char post))) = around pre (map visible cs) post.
Proof.
  intros H. rewrite visible_quotes, around_glue. unfold around. destruct (map visible cs) as [|v vs] eqn:Ev.
  - assert (cs = []) by (destruct cs; [reflexivity|discriminate]). destruct H as [H|H]; [congruence|]. destruct pre as [|c pre], post as [|d post]; cbn; try rewrite app_nil_r; try reflexivity. now destruct H.
  - assert (Hv : v :: vs <> []) by discriminate. revert Hv. generalize (v :: vs). clear. intros V HV.
    assert (E : glue V (match post with [] => [] | _ => [post] end) = glue V [post]) by (destruct post; [rewrite glue_nil_r; now rewrite glue_end|reflexivity]). rewrite E.
    destruct pre as [|c pre]; [reflexivity|]. rewrite glue_nil_l; [reflexivity|]. now apply glue_ne.
Qed.
(** One expansion between double quotes, with text around it *)
Theorem quoted_one u pre post e vs e' : expansion u -> dq_text pre -> dq_text post -> Forall clean (word (in_dq pre u post)) ->
  dq_values L C W OP u e = Ok (Some vs, e') -> expand (word (in_dq pre u post)) e = Ok (Some (around pre vs post), e').
Proof.
  intros Hu Hpre Hpost Hc H. unfold dq_values, bind in H. destruct (uf u true e) as [[[cs|] e1]| |] eqn:E; try discriminate. injection H as <- <-.
  assert (Hw : Forall wf_part (in_dq pre u post)).
  { constructor; [|constructor]. cbn [wf_part]. apply Forall_app. split; [rewrite Forall_map; exact Hpre|]. constructor; [exact Hu|]. rewrite Forall_map. exact Hpost. }
  assert (Hq : Forall quiet (in_dq pre u post)) by (constructor; [exact I|constructor]).
  assert (F : word_fields W uf cc_lit true (in_dq pre u post) e = Ok (Some
    (match vanishes (map single_char pre ++ cs :: map single_char post) with true => [] | false => in_quotes cc_lit dquote (glue_all (map single_char pre ++ cs :: map single_char post)) end), e1)).
  { unfold word_fields. cbn [in_dq tilde_prefix parts_fields]. unfold bind at 1. rewrite dparts_chars. unfold bind at 1. cbn [dparts_fields dpart_fields].
    unfold bind at 1. rewrite E. rewrite <- (app_nil_r (map DChar post)). unfold bind at 1. rewrite dparts_chars. cbn [dparts_fields]. rewrite bind_ret. unfold ret at 1 2 3.
    rewrite app_nil_r. destruct (vanishes _); [reflexivity|]. unfold ret. now rewrite glue_nil_l by (apply glue_ne; discriminate). }
  pose proof (four_clean L C W OP HW (word (in_dq pre u post)) TT_SINGLE Q_WORD cc_lit Hc e) as Z. rewrite (expand_four_word W TT_SINGLE cc_lit) in Z by (auto; discriminate).
  change (word_fields W uf cc_lit (match TT_SINGLE with TT_NONE => false | _ => true end) (in_dq pre u post) e) with (word_fields W uf cc_lit true (in_dq pre u post) e) in Z.
  specialize (Z _ _ F). apply (expand_quiet L C W OP HL) in F; auto; [|discriminate..]. rewrite F. f_equal. f_equal. f_equal. clear F Z.
  unfold vanishes. rewrite null_chars. cbn [existsb].
  rewrite <- (app_nil_r (map single_char post)) at 1. rewrite null_chars. cbn [existsb]. rewrite orb_false_r.
  destruct cs as [|c cs].
  - cbn [null andb]. destruct (pre ++ post) as [|x t] eqn:Epp.
    + apply app_eq_nil in Epp as [-> ->]. reflexivity.
    + assert (Hne : pre ++ post <> []) by congruence. clear x t Epp. rewrite <- (around_vis pre [] post) by now right.
      assert (V : map visible (glue_all (map single_char pre ++ [] :: map single_char post)) = [pre ++ post]).
      { rewrite around_glue. destruct pre as [|a pre], post as [|b post]; cbn; rewrite ?app_nil_r; try reflexivity. now destruct Hne. }
      destruct (glue_all (map single_char pre ++ [] :: map single_char post)) as [|[|y f] [|]]; try reflexivity; try discriminate. cbn in V. injection V as V. congruence.
  - cbn [null andb]. apply around_vis. left. discriminate.
Qed.

(** The expansion ${name} or ${#name} *)
Definition param (number : bool) (name : list N) : wunit := WParam number false PT_NONE (inl name) [] [] [] [].
Lemma visible_values vs : map visible (value_cells true vs) = vs.
Proof.
  unfold value_cells. rewrite map_map. rewrite <- (map_id vs) at 2. apply map_ext. intros v. rewrite visible_app, visible_cells by reflexivity.
  destruct (true && (1 <? length vs)); cbn; now rewrite app_nil_r.
Qed.
Lemma build_clean ts : Forall (fun t => match t with inl c => c <> 0%N | inr u => clean u end) ts -> Forall clean (build ts).
Proof.
  induction 1 as [|[c|u] ts Hx _ IH]; [constructor| |constructor; assumption].
  cbn [build]. assert (O1 : clean (WString [c])) by (constructor; [exact Hx|constructor]). unfold add_char. destruct (build ts) as [|[s| | |] w]; try (constructor; assumption).
  inversion IH; subst. constructor; [constructor; assumption|assumption].
Qed.
Lemma plain_clean number name pre post : nonzero pre -> nonzero post -> Forall clean (word (in_dq pre (param number name) post)).
Proof.
  intros H1 H2. unfold word, in_dq. cbn [flat_map toks app chars map]. rewrite app_nil_r.
  apply build_clean. constructor; [discriminate|]. apply Forall_app. split; [|constructor; [discriminate|constructor]].
  rewrite flat_map_concat_map, map_app, concat_app. assert (D : forall s, nonzero s -> Forall (fun t => match t with inl c => c <> 0%N | inr u => clean u end) (concat (map dtoks (map DChar s)))).
  { induction 1; [constructor|]. cbn. constructor; assumption. }
  apply Forall_app. split; [now apply D|]. cbn [map concat dtoks app]. constructor; [cbn; tauto|now apply D].
Qed.
Definition fits {A} (l : list A) : Prop := (Z.of_nat (length l) <= SSIZE_MAX)%Z.
Definition sizes (number : bool) (vs : list (list N)) : list (list N) := if number then map (fun v => dec_of_nat (length v)) vs else vs.
Lemma all_values vs : fits vs -> trim_values vs 0 SSIZE_MAX = Ok (vs, 0%Z, SSIZE_MAX).
Proof.
  unfold fits. intros H. unfold trim_values. rewrite segment_eq. cbn [Z.leb Z.compare]. replace (SSIZE_MAX <? 0)%Z with false by reflexivity.
  replace (Z.min 0 (Z.of_nat (length vs))) with 0%Z by lia. rewrite Z.max_l by lia. rewrite Z.sub_0_r. cbn [Z.to_nat skipn].
  rewrite firstn_all2 by lia. reflexivity.
Qed.
(** What a parameter between double quotes amounts to: a variable its value, $@ (or an array)
    all the values, $* the values joined by the first character of $IFS *)
Theorem quoted_values number name e :
  match get_variable W e name with
  | GVNot => dq_values L C W OP (param number name) e = if o_unset OP then Ok (Some (sizes number [[]]), e) else Ok (None, e)
  | GVScalar s => dq_values L C W OP (param number name) e = Ok (Some (sizes number [s]), e)
  | GVArray l => fits l -> dq_values L C W OP (param number name) e = Ok (Some (sizes number l), e)
  | GVConcat l => fits l -> dq_values L C W OP (param number name) e =
      Ok (Some (sizes number [match l with [x] => x | _ => join (ifs_separator (getifs W e)) l end]), e)
  end.
Proof.
  unfold dq_values, ufields, param. cbn [expand_unit expand_index]. unfold expand_value, bind, gets, ret, lift.
  destruct (get_variable W e name) as [|s|l|l]; cbn [select_values].
  - change (trim_wstring [] 0 SSIZE_MAX) with (Ok (@nil N)). cbn [rbind]. unfold modify_param. cbn [orb andb]. destruct (o_unset OP); [|reflexivity]. cbn [negb andb].
    unfold finish_param, bind, gets, ret. cbn [andb contribution]. now rewrite visible_values.
  - unfold trim_wstring. cbn [Z.eqb andb]. rewrite Z.eqb_refl. cbn [rbind]. unfold modify_param. cbn [orb andb negb]. 
    unfold finish_param, bind, gets, ret. cbn [andb contribution]. now rewrite visible_values.
  - intros H. rewrite all_values by exact H. cbn [rbind]. unfold modify_param. cbn [orb andb negb].
    unfold finish_param, bind, gets, ret. cbn [andb contribution]. now rewrite visible_values.
  - intros H. rewrite all_values by exact H. cbn [rbind]. unfold modify_param. cbn [orb andb negb].
    unfold finish_param, bind, gets, ret. cbn [andb contribution]. rewrite visible_values. destruct l as [|x [|y l]]; reflexivity.
Qed.
(** A variable: one field with the value unchanged *)
Theorem quoted_variable name s pre post e : get_variable W e name = GVScalar s -> dq_text pre -> dq_text post -> nonzero pre -> nonzero post ->
  expand (word (in_dq pre (param false name) post)) e = Ok (Some [pre ++ s ++ post], e).
Proof.
  intros Hv H1 H2 H3 H4. pose proof (quoted_values false name e) as Q. rewrite Hv in Q.
  rewrite (quoted_one (param false name) pre post e _ e I H1 H2 (plain_clean _ _ _ _ H3 H4) Q). reflexivity.
Qed.
(** $@: every value is a field of its own, and without values there is no field. *)
Theorem quoted_at name l pre post e : get_variable W e name = GVArray l -> fits l -> dq_text pre -> dq_text post -> nonzero pre -> nonzero post ->
  expand (word (in_dq pre (param false name) post)) e = Ok (Some (around pre l post), e).
Proof.
  intros Hv Hf H1 H2 H3 H4. pose proof (quoted_values false name e) as Q. rewrite Hv in Q.
  now rewrite (quoted_one (param false name) pre post e _ e I H1 H2 (plain_clean _ _ _ _ H3 H4) (Q Hf)).
Qed.
Corollary quoted_at_alone name l e : get_variable W e name = GVArray l -> fits l -> expand (word (in_dq [] (param false name) [])) e = Ok (Some l, e).
Proof.
  intros Hv Hf. rewrite (quoted_at name l [] [] e Hv Hf) by constructor. f_equal. f_equal. f_equal. destruct l as [|x l]; [reflexivity|]. unfold around.
  rewrite glue_end by discriminate. reflexivity.
Qed.
(** $*: one field, the values separated by the first character of $IFS *)
Theorem quoted_star name l pre post e : get_variable W e name = GVConcat l -> fits l -> dq_text pre -> dq_text post -> nonzero pre -> nonzero post ->
  expand (word (in_dq pre (param false name) post)) e = Ok (Some [pre ++ join (match getifs W e with None => [32%N] | Some s => firstn 1 s end) l ++ post], e).
Proof.
  intros Hv Hf H1 H2 H3 H4. pose proof (quoted_values false name e) as Q. rewrite Hv in Q.
  rewrite (quoted_one (param false name) pre post e _ e I H1 H2 (plain_clean _ _ _ _ H3 H4) (Q Hf)).
  replace (match getifs W e with None => [32%N] | Some s => firstn 1 s end) with (ifs_separator (getifs W e)) by (destruct (getifs W e) as [[|]|]; reflexivity).
  cbn [sizes around glue removelast last app]. now destruct l as [|x [|y l]].
Qed.

(** ** C43 *)

(** Any word: brace expansion of the fields that the word and its expansions make, then
    POSIX field splitting of each, then pathname expansion of each; an error in any
    expansion is an error of the word, and nothing else is. *)
Theorem word_expansion f ps e : sequence_ok L f -> Forall wf_part ps -> Forall clean (word ps) ->
  match word_fields W uf cc_lit true ps e with
  | Ok (Some fs, e') => exists bs fss rs, braced OP f fs bs /\
      Forall2 (posix_fields L (ifs_of (getifs W e')) (o_emptylastfield OP)) bs fss /\ Forall2 (globbed W OP) (concat fss) rs /\
      expand (word ps) e = Ok (Some (concat rs), e')
  | Ok (None, e') => expand (word ps) e = Ok (None, e')
  | UB => expand (word ps) e = UB
  | Fuel => expand (word ps) e = Fuel
  end.
Proof.
  intros Hf Hw Hc. pose proof (expand_not L C W OP ps e _ Hw eq_refl) as Y.
  pose proof (four_clean L C W OP HW (word ps) TT_SINGLE Q_WORD cc_lit Hc e) as Z. pose proof (expand_pipe L C W OP HL f (word ps) e) as X.
  rewrite (expand_four_word W TT_SINGLE cc_lit) in Z, X by (auto; discriminate).
  change (word_fields W uf cc_lit (match TT_SINGLE with TT_NONE => false | _ => true end) ps e) with (word_fields W uf cc_lit true ps e) in Z, X.
  destruct (word_fields W uf cc_lit true ps e) as [[[fs|] e1]| |]; try (now apply Y). apply X; auto. eapply Z; reflexivity.
Qed.

(** An unquoted parameter: nothing but splitting and pathname expansion happens to the values. *)
Lemma soft_braces f vs bs : sequence_ok L f -> braced OP f (map (cells cc_soft) vs) bs -> bs = map (cells cc_soft) vs.
Proof.
  intros Hf. unfold braced. destruct (o_braceexpand OP); [|auto]. intros (ls & H1 & H2 & ->). revert vs H2. induction H1 as [|l ls Hl _ IH]; intros [|v vs] H2; try discriminate; [reflexivity|].
  cbn [map] in H2. injection H2 as H2 H3. cbn [flat_map map]. rewrite (IH _ H3). destruct (brace_expansion L f HL Hf (unparse l)) as [_ B]. specialize (B l Hl eq_refl).
  rewrite brace_plain in B; [injection B as B; rewrite <- B, H2; reflexivity|exact HL|]. intros pre mid post. rewrite H2. intros E.
  assert (Hin : In openb (cells cc_soft v)) by (rewrite E; apply in_or_app; right; now left). unfold cells in Hin. apply in_map_iff in Hin as (c & Hx & _). discriminate.
Qed.
Definition values_of (v : gv) : list (list N) := match v with GVNot => [[]] | GVScalar s => [s] | GVArray l | GVConcat l => l end.
Lemma unquoted_fields name e : get_variable W e name <> GVNot -> fits (values_of (get_variable W e name)) ->
  word_fields W uf cc_lit true [PUnit (param false name)] e = Ok (Some (map (cells cc_soft) (values_of (get_variable W e name))), e).
Proof.
  intros Hn Hf. unfold word_fields. cbn [tilde_prefix parts_fields].
  assert (E : uf (param false name) false e = Ok (Some (map (cells cc_soft) (values_of (get_variable W e name))), e)).
  { assert (V : forall vs, map (fun v => cells (mkCat Soft false false) v ++ []) vs = map (cells cc_soft) vs) by (intros; apply map_ext; intros; apply app_nil_r).
    unfold ufields, param. cbn [expand_unit expand_index]. unfold expand_value, bind, gets, ret, lift.
    destruct (get_variable W e name) as [|s|l|l]; [congruence|..]; cbn [select_values values_of] in *.
    - unfold trim_wstring. cbn [Z.eqb andb]. rewrite Z.eqb_refl. cbn [rbind]. unfold modify_param. cbn [orb andb negb].
      unfold finish_param, bind, gets, ret. cbn [andb contribution]. unfold value_cells. cbn [andb]. now rewrite V.
    - rewrite all_values by exact Hf. cbn [rbind]. unfold modify_param. cbn [orb andb negb].
      unfold finish_param, bind, gets, ret. cbn [andb contribution]. unfold value_cells. cbn [andb]. now rewrite V.
    - rewrite all_values by exact Hf. cbn [rbind]. unfold modify_param. cbn [orb andb negb].
      unfold finish_param, bind, gets, ret. cbn [andb contribution]. unfold value_cells. cbn [andb]. now rewrite V. }
  unfold bind. rewrite E. cbn [parts_fields]. destruct (values_of (get_variable W e name)) as [|v vs]; [reflexivity|]. cbn [map glue null orb removelast last app]. unfold ret. reflexivity.
Qed.
Theorem unquoted_parameter name e : get_variable W e name <> GVNot -> fits (values_of (get_variable W e name)) ->
  exists fss rs, Forall2 (posix_fields L (ifs_of (getifs W e)) (o_emptylastfield OP)) (map (cells cc_soft) (values_of (get_variable W e name))) fss /\
    Forall2 (globbed W OP) (concat fss) rs /\ expand (word [PUnit (param false name)]) e = Ok (Some (concat rs), e).
Proof.
  intros Hn Hf. destruct (brace_ranges L HL) as (f & Hseq & _).
  pose proof (word_expansion f [PUnit (param false name)] e Hseq) as X. rewrite unquoted_fields in X by assumption.
  destruct X as (bs & fss & rs & Hb & Hs & Hg & X).
  - constructor; [exact I|constructor].
  - constructor; [cbn; tauto|constructor].
  - apply soft_braces in Hb; [|exact Hseq]. subst bs. eauto.
Qed.
Corollary unquoted_noglob name e : o_glob OP = false -> get_variable W e name <> GVNot -> fits (values_of (get_variable W e name)) ->
  exists fss, Forall2 (posix_fields L (ifs_of (getifs W e)) (o_emptylastfield OP)) (map (cells cc_soft) (values_of (get_variable W e name))) fss /\
    expand (word [PUnit (param false name)]) e = Ok (Some (map visible (concat fss)), e).
Proof.
  intros Hg Hn Hf. destruct (unquoted_parameter name e Hn Hf) as (fss & rs & Hs & HG & ->). exists fss. split; [exact Hs|]. f_equal. f_equal. f_equal.
  clear Hs. induction HG as [|x r l rs Hx _ IH]; [reflexivity|]. cbn [map concat]. rewrite IH. destruct Hx; try congruence. reflexivity.
Qed.

(** ** C46 *)

(** Expansion of well-formed words ends in a result or an error: no assertion fails. *)
Theorem expand_total_partial w e : good_word w -> Forall clean w -> exists r e', expand w e = Ok (r, e').
Proof.
  intros Hg Hc. destruct (brace_ranges L HL) as (f & Hseq & _). inversion Hg as [ps Hw Hu E]. subst w.
  pose proof (word_expansion f ps e Hseq Hw Hc) as X. pose proof (four_safe L C W OP (word ps) Hg e) as Y. rewrite (expand_four_word W TT_SINGLE cc_lit) in Y by (auto; discriminate).
  change (word_fields W uf cc_lit (match TT_SINGLE with TT_NONE => false | _ => true end) ps e) with (word_fields W uf cc_lit true ps e) in Y.
  destruct (word_fields W uf cc_lit true ps e) as [[[fs|] e1]| |]; try contradiction; [|eauto]. destruct X as (_ & _ & rs & _ & _ & _ & X). eauto.
Qed.
Theorem line_total_partial ws e : Forall good_word ws -> Forall (Forall clean) ws -> exists r e', expand_line L C W OP ws e = Ok (r, e').
Proof.
  intros Hg. revert e. induction Hg as [|w ws Hw _ IH]; intros e Hc; [cbn; unfold ret; eauto|]. inversion Hc; subst. cbn [expand_line]. unfold bind.
  destruct (expand_total_partial w e Hw) as ([r|] & e1 & ->); [assumption| |eauto]. destruct (IH e1) as ([r2|] & e2 & ->); [assumption| |]; unfold ret; eauto.
Qed.

(** Words expanded one after another, each in the state the one before leaves *)
Inductive in_turn : list (list wunit) -> E W -> list (list (list N)) -> E W -> Prop :=
| turn_nil e : in_turn [] e [] e
| turn_cons w ws e l e1 r e' : expand w e = Ok (Some l, e1) -> in_turn ws e1 r e' -> in_turn (w :: ws) e (l :: r) e'.
(** The fields of a command line are those of the words, in order; the first failing word
    makes the whole fail and the following words are not expanded. *)
Theorem line_fields ws : forall e r e', expand_line L C W OP ws e = Ok (r, e') <->
  match r with
  | Some fs => exists l, in_turn ws e l e' /\ fs = concat l
  | None => exists ws1 w ws2 l e1, ws = ws1 ++ w :: ws2 /\ in_turn ws1 e l e1 /\ expand w e1 = Ok (None, e')
  end.
Proof.
  induction ws as [|w ws IH]; intros e r e'; cbn [expand_line].
  - unfold ret. split.
    + intros H. injection H as <- <-. exists []. split; constructor.
    + destruct r as [fs|]; [intros (l0 & H & ->); inversion H as [e0|]; subst; reflexivity|]. intros ([|w0 ws0] & w & ws2 & l & e1 & H & _); discriminate.
  - unfold bind at 1. split.
    + destruct (expand_multiple L C W OP w e) as [[[l|] e1]| |] eqn:E; try discriminate.
      * unfold bind. destruct (expand_line L C W OP ws e1) as [[r1 e2]| |] eqn:E1; try discriminate.
        pose proof (proj1 (IH e1 r1 e2) E1) as I. destruct r1 as [fs|]; unfold ret; intros H; injection H as <- <-.
        -- destruct I as (r1 & T & ->). exists (l :: r1). split; [econstructor; eauto|reflexivity].
        -- destruct I as (ws1 & w' & ws2 & r1 & e3 & -> & T & E3). exists (w :: ws1), w', ws2, (l :: r1), e3. split; [reflexivity|]. split; [econstructor; eauto|exact E3].
      * intros H. injection H as <- <-. exists [], w, ws, [], e. split; [reflexivity|]. split; [constructor|exact E].
    + destruct r as [fs|].
      * intros (l & T & ->). inversion T as [|w0 ws0 e0 l0 e1 r0 e2 E T']; subst. rewrite E. unfold bind.
        pose proof (proj2 (IH e1 (Some (concat r0)) e') (ex_intro _ r0 (conj T' eq_refl))) as ->. reflexivity.
      * intros (ws1 & w' & ws2 & l & e1 & H & T & E). destruct ws1 as [|w1 ws1]; injection H as -> ->.
        -- inversion T as [e0|]; subst. now rewrite E.
        -- inversion T as [|w0 ws0 e0 l0 e2 r0 e3 E' T']; subst. rewrite E'. unfold bind.
           assert (X : expand_line L C W OP (ws1 ++ w' :: ws2) e2 = Ok (None, e')) by (apply IH; exists ws1, w', ws2, r0, e1; auto). now rewrite X.
Qed.

(** ** C45 *)

(** Words without expansions *)
Definition static (p : part) : Prop := match p with PBare c => inert c | PEsc _ | PSingle _ => True | _ => False end.
Definition static_text (p : part) : list N := match p with PBare c | PEsc c => [c] | PSingle s => s | _ => [] end.
Lemma static_quiet ps : Forall static ps -> Forall quiet ps.
Proof. intros H. eapply Forall_impl; [|exact H]. intros [] Hp; try exact I; try contradiction. exact Hp. Qed.
Lemma static_texts v ps e : Forall static ps -> parts_texts W v ps e = Ok (Some (match ps with [] => [] | _ => [flat_map static_text ps] end, false), e).
Proof.
  induction 1 as [|p ps Hp _ IH]; [reflexivity|]. cbn [parts_texts]. unfold bind at 1.
  replace (part_texts W v p e) with (@Ok (option (list (list N) * bool) * E W) (Some ([static_text p], false), e)) by (destruct p; try contradiction; reflexivity).
  unfold bind. rewrite IH. unfold ret. cbn [flat_map orb]. destruct ps; [cbn; now rewrite app_nil_r|reflexivity].
Qed.
Lemma static_clean ps : Forall static ps -> Forall (fun p => nonzero (static_text p)) ps -> Forall clean (word ps).
Proof.
  intros Hs Hz. apply build_clean. apply Forall_forall. intros t Ht. apply in_flat_map in Ht as (p & Hp & Ht). rewrite Forall_forall in Hs, Hz. specialize (Hs p Hp). specialize (Hz p Hp).
  unfold nonzero in Hz. rewrite Forall_forall in Hz. destruct p as [c|c|s| |]; try contradiction; cbn [toks chars] in Ht.
  - destruct Ht as [<-|[]]. apply Hz. now left.
  - destruct Ht as [<-|[<-|[]]]; [discriminate|]. apply Hz. now left.
  - apply in_map_iff in Ht as (c & <- & Ht). destruct Ht as [<-|Ht]; [discriminate|]. apply in_app_or in Ht as [Ht|[<-|[]]]; [now apply Hz|discriminate].
Qed.
Lemma static_word ps e : ps <> [] -> Forall static ps -> Forall wf_part ps -> Forall (fun p => nonzero (static_text p)) ps -> tilde_prefix ps = None ->
  expand (word ps) e = Ok (Some [flat_map static_text ps], e).
Proof.
  intros Hn P1 P2 P3 Et. pose proof (quoted_word ps e Hn P2 (static_clean _ P1 P3) (static_quiet _ P1)) as Q. rewrite Et in Q. specialize (Q ltac:(discriminate)).
  unfold word_texts in Q. rewrite Et, static_texts in Q by exact P1. destruct ps; [congruence|]. destruct Q as (r & -> & [->|(X & _)]); [reflexivity|discriminate].
Qed.
(** Unquoted characters that mean nothing outside quotes *)
Definition bare_ok (c : N) : Prop := c <> dquote /\ c <> squote /\ inert c /\ c <> 0%N.
Lemma bare_facts s : Forall bare_ok s -> Forall static (map PBare s) /\ Forall wf_part (map PBare s) /\ Forall (fun p => nonzero (static_text p)) (map PBare s) /\ flat_map static_text (map PBare s) = s.
Proof.
  induction 1 as [|c s (H1 & H2 & H3 & H4) _ (I1 & I2 & I3 & I4)]; [repeat split; constructor|]. cbn [map].
  split; [constructor; [exact H3|exact I1]|]. split; [constructor; [|exact I2]|split; [constructor; [constructor; [exact H4|constructor]|exact I3]|cbn; congruence]].
  cbn. split; [exact H1|]. split; [exact H2|]. intros ->. apply H3. cbn. tauto.
Qed.
Lemma bare_prefix_user user rest : ~ In 47%N user -> match rest with PBare c :: _ => c = 47%N | _ => True end -> bare_prefix (map PBare user ++ rest) = (user, rest).
Proof.
  intros Hu Hr. induction user as [|c user IH]; cbn [map app bare_prefix].
  - destruct rest as [|[c| | | |] rest]; try reflexivity. subst c. reflexivity.
  - destruct (N.eqb_spec c 47); [exfalso; apply Hu; left; auto|]. rewrite IH; [reflexivity|]. intros H. apply Hu. now right.
Qed.
(** ~user/path is the home directory and the path, in one field, whatever characters the home
    directory contains. *)
Theorem tilde_expansion user path e : Forall bare_ok user -> Forall bare_ok path -> ~ In 47%N user -> (path = [] \/ exists p, path = 47%N :: p) ->
  match tilde_home W e user with
  | Some home => home ++ path <> [] -> expand (word (map PBare (126%N :: user ++ path))) e = Ok (Some [home ++ path], e)
  | None => expand (word (map PBare (126%N :: user ++ path))) e = Ok (Some [126%N :: user ++ path], e)
  end.
Proof.
  intros Hu Hp Hs Hpath.
  assert (Ha : Forall bare_ok (126%N :: user ++ path)).
  { constructor; [|now apply Forall_app]. split; [discriminate|]. split; [discriminate|]. split; [|discriminate]. unfold inert. cbn. intuition discriminate. }
  destruct (bare_facts _ Ha) as (A1 & A2 & A3 & A4). destruct (bare_facts _ Hp) as (B1 & _ & _ & B4).
  assert (Et : tilde_prefix (map PBare (126%N :: user ++ path)) = Some (user, map PBare path)).
  { cbn [map tilde_prefix N.eqb Pos.eqb]. rewrite map_app, bare_prefix_user; [destruct path; reflexivity|exact Hs|]. destruct Hpath as [->|[p ->]]; [exact I|reflexivity]. }
  pose proof (quoted_word (map PBare (126%N :: user ++ path)) e ltac:(discriminate) A2 (static_clean _ A1 A3) (static_quiet _ A1)) as Q.
  unfold word_texts in Q. rewrite Et in Q. destruct (tilde_home W e user) as [home|] eqn:Eh.
  - intros Hne. unfold bind in Q. rewrite static_texts in Q by exact B1. unfold ret in Q.
    destruct Q as (r & -> & [->|(X & _)]); [|f_equal; f_equal; f_equal|discriminate].
    + intros v Hv. injection Hv as <- Hr. rewrite Eh. intros X. injection X as ->. destruct path; [|discriminate]. now apply Hne.
    + destruct path as [|c path]; [cbn; now rewrite app_nil_r|]. rewrite B4. reflexivity.
  - rewrite static_texts, A4 in Q by exact A1. change (match map PBare (126%N :: user ++ path) with [] => [] | _ => [126%N :: user ++ path] end) with [126%N :: user ++ path] in Q. destruct Q as (r & -> & [->|(X & _)]); [|f_equal; f_equal; f_equal|discriminate].
    intros v Hv. injection Hv as <- Hr. rewrite Eh. discriminate.
Qed.
(** With a quotation in the user name the tilde is an ordinary character. *)
Theorem tilde_quoted user c path e : Forall bare_ok user -> Forall bare_ok path -> ~ In 47%N user -> c <> 0%N ->
  expand (word (map PBare (126%N :: user) ++ PEsc c :: map PBare path)) e = Ok (Some [126%N :: user ++ c :: path], e) /\
  expand (word (PEsc 126%N :: map PBare path)) e = Ok (Some [126%N :: path], e).
Proof.
  intros Hu Hp Hs Hc.
  assert (Ha : Forall bare_ok (126%N :: user)).
  { constructor; [|exact Hu]. split; [discriminate|]. split; [discriminate|]. split; [|discriminate]. unfold inert. cbn. intuition discriminate. }
  destruct (bare_facts _ Ha) as (A1 & A2 & A3 & A4). destruct (bare_facts _ Hp) as (B1 & B2 & B3 & B4). split.
  - set (ps := map PBare (126%N :: user) ++ PEsc c :: map PBare path).
    assert (P1 : Forall static ps) by (apply Forall_app; split; [exact A1|constructor; [exact I|exact B1]]).
    assert (P2 : Forall wf_part ps) by (apply Forall_app; split; [exact A2|constructor; [exact I|exact B2]]).
    assert (P3 : Forall (fun p => nonzero (static_text p)) ps) by (apply Forall_app; split; [exact A3|constructor; [constructor; [exact Hc|constructor]|exact B3]]).
    assert (P4 : flat_map static_text ps = 126%N :: user ++ c :: path) by (unfold ps; rewrite flat_map_app, A4; cbn [flat_map static_text app]; now rewrite B4).
    assert (Et : tilde_prefix ps = None).
    { unfold ps. cbn [map app tilde_prefix N.eqb Pos.eqb]. now rewrite bare_prefix_user by (auto; exact I). }
    rewrite static_word by (auto; discriminate). now rewrite P4.
  - set (ps := PEsc 126%N :: map PBare path).
    assert (P1 : Forall static ps) by (constructor; [exact I|exact B1]). assert (P2 : Forall wf_part ps) by (constructor; [exact I|exact B2]).
    assert (P3 : Forall (fun p => nonzero (static_text p)) ps) by (constructor; [constructor; [discriminate|constructor]|exact B3]).
    rewrite static_word by (auto; discriminate). unfold ps. cbn [flat_map static_text app]. now rewrite B4.
Qed.

(** ** C24 *)
Lemma build_chars_word s : s <> [] -> build (chars s) = [WString s].
Proof.
  induction s as [|c s IH]; [congruence|]. intros _. cbn [chars map build]. destruct s as [|d s]; [reflexivity|]. fold (chars (d :: s)). rewrite IH by discriminate. reflexivity.
Qed.
(** The word made by quoting a string expands to exactly that string, whatever the
    variables, options and files are. *)
Theorem quote_expand s e : nonzero s -> exists w, quote_as_word L s = Ok w /\ w <> [] /\ expand [WString w] e = Ok (Some [s], e).
Proof.
  intros Hs. destruct (quote_as_word_plain L HL s) as (w & E & P & _ & Hn). exists w. split; [exact E|]. split; [exact Hn|]. clear E.
  assert (X : exists ps, flat_map toks ps = chars w /\ Forall static ps /\ Forall wf_part ps /\ Forall (fun p => nonzero (static_text p)) ps /\ flat_map static_text ps = s /\
    match ps with PBare c :: _ => c <> 126%N | _ => True end).
  { clear Hn. induction P as [|c w s Hc _ _ IH|c w s _ _ IH|t w s Ht _ IH].
    - exists []. repeat split; constructor.
    - inversion Hs; subst. destruct IH as (ps & I1 & I2 & I3 & I4 & I5 & _); [assumption|]. exists (PBare c :: ps).
      split; [cbn; now rewrite I1|]. split; [constructor; [|exact I2]|].
      { cbn. intros H. apply Hc. cbn in *. intuition (subst; auto 40). }
      split; [constructor; [|exact I3]|]. { cbn. repeat split; intros ->; apply Hc; cbn; auto 50. }
      split; [constructor; [constructor; [assumption|constructor]|exact I4]|]. split; [cbn; now rewrite I5|]. intros ->. apply Hc. cbn. auto 50.
    - inversion Hs; subst. destruct IH as (ps & I1 & I2 & I3 & I4 & I5 & _); [assumption|]. exists (PEsc c :: ps).
      split; [cbn; now rewrite I1|]. split; [constructor; [exact I|exact I2]|]. split; [constructor; [exact I|exact I3]|].
      split; [constructor; [constructor; [assumption|constructor]|exact I4]|]. split; [cbn; now rewrite I5|exact I].
    - apply Forall_app in Hs as [H1 H2]. destruct IH as (ps & I1 & I2 & I3 & I4 & I5 & _); [assumption|]. exists (PSingle t :: ps).
      split; [cbn [flat_map toks]; rewrite I1; unfold chars; cbn [map app]; rewrite !map_app, <- app_assoc; reflexivity|].
      split; [constructor; [exact I|exact I2]|]. split; [constructor; [exact Ht|exact I3]|]. split; [constructor; [exact H1|exact I4]|]. split; [cbn; now rewrite I5|exact I]. }
  destruct X as (ps & X1 & X2 & X3 & X4 & X5 & X6). assert (Ew : word ps = [WString w]) by (unfold word; rewrite X1; now apply build_chars_word).
  assert (Hps : ps <> []) by (intros ->; apply Hn; destruct w; [reflexivity|discriminate]).
  assert (Et : tilde_prefix ps = None).
  { destruct ps as [|[c| | | |] ps]; try reflexivity. cbn. destruct (N.eqb_spec c 126); [contradiction|reflexivity]. }
  rewrite <- Ew, static_word by auto. now rewrite X5.
Qed.
End Quoted.
End Props.

Print Assumptions quoted_word.
Print Assumptions quoted_one.
Print Assumptions quoted_values.
Print Assumptions quoted_variable.
Print Assumptions quoted_at.
Print Assumptions quoted_at_alone.
Print Assumptions quoted_star.
Print Assumptions word_expansion.
Print Assumptions unquoted_parameter.
Print Assumptions unquoted_noglob.
Print Assumptions expand_total_partial.
Print Assumptions line_total_partial.
Print Assumptions line_fields.
Print Assumptions tilde_expansion.
Print Assumptions tilde_quoted.
Print Assumptions quote_expand.

(** ** The hypotheses are met: an environment with variables, positional parameters
    (p 1, empty, p3), an array and home directories *)
Definition ascii_ctype : ctype :=
  mkCtype (fun n => None) (fun a b => if (a <=? b)%N then Some (fun c => (a <=? c)%N && (c <=? b)%N) else None)
    (fun n => match n with [x] => Some (N.eqb x) | _ => None end) (fun n => match n with [x] => Some x | _ => None end) (fun c => c) (fun c => c).
Definition dexpand (OP : opts) (w : list wunit) (e : env) := expand_multiple wide_locale ascii_ctype demo_world OP w e.
Lemma text_ok s : forallb (fun c => negb (c =? 34)%N && negb (c =? 92)%N) s = true -> dq_text s.
Proof.
  intros H. apply Forall_forall. intros c Hc. rewrite forallb_forall in H. specialize (H c Hc).
  unfold dquote, bslash. destruct (N.eqb_spec c 34), (N.eqb_spec c 92); try discriminate; auto.
Qed.
Lemma nonzero_ok s : forallb (fun c => negb (c =? 0)%N) s = true -> nonzero s.
Proof. intros H. apply Forall_forall. intros c Hc. rewrite forallb_forall in H. specialize (H c Hc). now destruct (N.eqb_spec c 0). Qed.
Notation on f := (f wide_locale ascii_ctype demo_world opts_on wide_locale_ok demo_clean).
Ltac meet := try reflexivity; try (apply text_ok; reflexivity); try (apply nonzero_ok; reflexivity); try (unfold fits; cbn; discriminate).
Example quoted_variable_ex : dexpand opts_on (word (in_dq (str "<") (param false (str "x")) (str ">"))) home = Ok (Some [str "<a  b*>"], home).
Proof. apply (on quoted_variable (str "x") (str "a  b*") (str "<") (str ">")); meet. Qed.
Example quoted_at_ex : dexpand opts_on (word (in_dq (str "<") (param false (str "@")) (str ">"))) home = Ok (Some [str "<p 1"; []; str "p3>"], home).
Proof. apply (on quoted_at (str "@") [str "p 1"; []; str "p3"] (str "<") (str ">")); meet. Qed.
Example quoted_at_alone_ex : dexpand opts_on (word (in_dq [] (param false (str "none")) [])) home = Ok (Some [], home).
Proof. apply (on quoted_at_alone (str "none") []); meet. Qed.
Example quoted_star_ex : dexpand opts_on (word (in_dq (str "<") (param false (str "*")) (str ">"))) home = Ok (Some [str "<p 1  p3>"], home).
Proof. apply (on quoted_star (str "*") [str "p 1"; []; str "p3"] (str "<") (str ">")); meet. Qed.
Example unquoted_ex : dexpand opts_on (word [PUnit (param false (str "@"))]) home = Ok (Some [str "p"; str "1"; str "p3"], home).
Proof. vm_compute. reflexivity. Qed.
Example unquoted_hypotheses : get_variable demo_world home (str "@") <> GVNot /\ fits (values_of (get_variable demo_world home (str "@"))).
Proof. split; [discriminate|meet]. Qed.

(** a"$x"'b'\c{1,2} and its expansion *)
Definition mixed : list part := [PBare 97%N; PDouble [DUnit (param false (str "x"))]; PSingle (str "b"); PEsc 99%N].
Example quoted_word_hypotheses : mixed <> [] /\ Forall wf_part mixed /\ Forall clean (word mixed) /\ Forall quiet mixed.
Proof.
  split; [discriminate|]. split; [|split]; repeat constructor; cbn; try discriminate; try tauto; unfold squote, inert; cbn; lia.
Qed.
Example quoted_word_ex : dexpand opts_on (word mixed) home = Ok (Some [str "aa  b*bc"], home).
Proof. vm_compute. reflexivity. Qed.
(** $x{1,2} : splitting, brace expansion and globbing together *)
Example word_expansion_ex : dexpand opts_on (word ([PUnit (param false (str "x"))] ++ map PBare (str "{1,2}"))) home =
  Ok (Some [str "a"; str "b*1"; str "a"; str "b*2"], home).
Proof. vm_compute. reflexivity. Qed.
Example tilde_ex : dexpand opts_on (word (map PBare (str "~/d"))) home = Ok (Some [str "/home/me/d"], home).
Proof.
  apply (on tilde_expansion [] (str "/d") home); [constructor| |tauto| |].
  - repeat constructor; try discriminate; unfold inert; cbn; lia.
  - right. now exists (str "d").
  - discriminate.
Qed.

(** ** What does not hold *)

(** POSIX: an expansion with no positional parameters between double quotes gives no field.
    The blank of an unquoted variable beside it makes an empty field instead. *)
Theorem at_beside_refuted : exists e x, get_variable demo_world e (str "x") = GVScalar x /\ x = str " " /\ get_variable demo_world e (str "@") = GVArray [] /\
  dexpand opts_on (word [PUnit (param false (str "x"))]) e = Ok (Some [], e) /\
  dexpand opts_on (word (in_dq [] (param false (str "@")) [])) e = Ok (Some [], e) /\
  dexpand opts_on (word (PUnit (param false (str "x")) :: in_dq [] (param false (str "@")) [])) e = Ok (Some [[]], e).
Proof. exists [(str "x", GVScalar (str " ")); (str "@", GVArray [])], (str " "). vm_compute. repeat split; reflexivity. Qed.
Print Assumptions at_beside_refuted.
(** One empty positional parameter is a field, but not when an empty array follows it between
    the double quotes. *)
Theorem at_array_refuted : exists e, get_variable demo_world e (str "@") = GVArray [[]] /\ get_variable demo_world e (str "a") = GVArray [] /\
  dexpand opts_on (word (in_dq [] (param false (str "@")) [])) e = Ok (Some [[]], e) /\
  dexpand opts_on (word [PDouble [DUnit (param false (str "@")); DUnit (param false (str "a"))]]) e = Ok (Some [], e).
Proof. exists [(str "a", GVArray []); (str "@", GVArray [[]])]. vm_compute. repeat split; reflexivity. Qed.
Print Assumptions at_array_refuted.
(** A tilde is no field at all when the home directory is empty. *)
Theorem tilde_empty_refuted : exists e, tilde_home demo_world e [] = Some [] /\ dexpand opts_on (word [PBare 126%N]) e = Ok (Some [], e).
Proof. exists [(str "HOME", GVScalar [])]. vm_compute. split; reflexivity. Qed.
Print Assumptions tilde_empty_refuted.
(** The hypotheses of expand_total_partial: mixed with a default value inside *)
Definition nested : list part := [PDouble [DUnit (WParam false true PT_MINUS (inl (str "e")) [] [] [] (word mixed))]].
Example line_fields_ex : exists l, in_turn wide_locale ascii_ctype demo_world opts_on [word [PUnit (param false (str "@"))]; word (map PBare (str "b"))] home l home /\
  concat l = [str "p"; str "1"; str "p3"; str "b"].
Proof. exists [[str "p"; str "1"; str "p3"]; [str "b"]]. split; [|reflexivity]. repeat (econstructor; [vm_compute; reflexivity|]). constructor. Qed.
Example total_hypotheses : good_word (word nested) /\ Forall clean (word nested).
Proof.
  assert (E0 : good_word []) by (apply (good_parts []); [constructor|intros u []]).
  assert (M : good_word (word mixed)).
  { apply good_parts; [apply quoted_word_hypotheses|]. intros u H. cbn in H. decompose [or] H; subst; try contradiction; intros []; now constructor. }
  split.
  - apply good_parts.
    + repeat constructor.
    + intros u H. cbn in H. decompose [or] H; subst; try contradiction; intros []. now apply good_name.
  - repeat constructor; cbn; discriminate.
Qed.
Example total_ex : dexpand opts_on (word nested) home = Ok (Some [str "aa  b*'b'\c"], home).
Proof. vm_compute. reflexivity. Qed.
