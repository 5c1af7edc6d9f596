(** Properties C27 and C44: indices and conditional parameter expansions. *)
From Coq Require Import Ascii String.
From Coq Require Import List NArith ZArith Bool Arith Lia.
From Coq Require Import ZifyBool ZifyN.
From Verif Require Import Common Locale NumModel CharcatModel Regex XfnmatchModel QuoteModel SplitModel BraceModel ExpandModel ExpandSpec ExpandFour ExpandWord ExpandQuoted ExpandProofs ExpandSafe ExpandDemo ExpandProps.
Import ListNotations.
Open Scope res_scope.

(** ** Specification *)

(** The elements with numbers from [lo] to [hi]; [k] is the number of the first in [l] *)
Fixpoint between {A} (k lo hi : Z) (l : list A) : list A :=
  match l with
  | [] => []
  | x :: l' => if (lo <=? k)%Z && (k <=? hi)%Z then x :: between (k + 1) lo hi l' else between (k + 1) lo hi l'
  end.
(** Negative numbers count from the end, -1 being the last element.  Nothing starts at 0. *)
Definition lower (len i : Z) : Z := if (i <? 0)%Z then len + 1 + i else if (i =? 0)%Z then len + 1 else i.
Definition upper (len j : Z) : Z := if (j <? 0)%Z then len + 1 + j else j.
Definition selected {A} (l : list A) (i j : Z) : list A :=
  let len := Z.of_nat (length l) in between 1 (lower len i) (upper len j) l.

(** The POSIX table of ${name-word} etc.; [v] is the value if the variable is set. *)
Inductive outcome := UseValue | UseWord | UseNull | DoAssign | DoError.
Definition table (colon : bool) (ty : pexp) (unset_ok : bool) (v : option (list N)) : outcome :=
  let usable := match v with None => false | Some [] => negb colon | Some _ => true end in
  match ty with
  | PT_MINUS => if usable then UseValue else UseWord
  | PT_PLUS => if usable then UseWord else UseNull
  | PT_ASSIGN => if usable then UseValue else DoAssign
  | PT_ERROR => if usable then UseValue else DoError
  | _ => if match v with None => true | Some _ => false end && negb unset_ok then DoError else match v with None => UseNull | Some _ => UseValue end
  end.

(** ** Proofs *)
Lemma between_seg {A} (l : list A) : forall k lo hi, between k lo hi l = firstn (Z.to_nat (hi - (k - 1) - Z.max 0 (lo - k))) (skipn (Z.to_nat (lo - k)) l).
Proof.
  induction l as [|x l IH]; intros k lo hi; cbn [between]; [now rewrite skipn_nil, firstn_nil|]. rewrite !IH. clear IH.
  destruct (Z.leb_spec lo k).
  - replace (Z.to_nat (lo - k)) with 0 by lia. replace (Z.to_nat (lo - (k + 1))) with 0 by lia. cbn [skipn andb]. destruct (Z.leb_spec k hi).
    + replace (Z.to_nat (hi - (k - 1) - Z.max 0 (lo - k))) with (S (Z.to_nat (hi - (k + 1 - 1) - Z.max 0 (lo - (k + 1))))) by lia. reflexivity.
    + replace (Z.to_nat (hi - (k - 1) - Z.max 0 (lo - k))) with 0 by lia. replace (Z.to_nat (hi - (k + 1 - 1) - Z.max 0 (lo - (k + 1)))) with 0 by lia. reflexivity.
  - cbn [andb]. replace (Z.to_nat (lo - k)) with (S (Z.to_nat (lo - (k + 1)))) by lia. cbn [skipn].
    replace (Z.to_nat (hi - (k + 1 - 1) - Z.max 0 (lo - (k + 1)))) with (Z.to_nat (hi - (k - 1) - Z.max 0 (lo - k))) by lia. reflexivity.
Qed.
(** The start index as expand_param passes it on *)
Definition start_of (i : Z) : Z := if (i =? 0)%Z then SSIZE_MAX else if (0 <=? i)%Z then (i - 1)%Z else i.
Lemma smax : (0 < SSIZE_MAX)%Z.
Proof. reflexivity. Qed.
Lemma seg_all {A} (l : list A) n m : length l <= m - n \/ length l <= m /\ n = 0 -> n <= 0 -> firstn m (skipn n l) = l.
Proof. intros H Hn. replace n with 0 by lia. cbn [skipn]. apply firstn_all2. lia. Qed.
Lemma seg_none {A} (l : list A) n m : length l <= n \/ m = 0 -> firstn m (skipn n l) = [].
Proof. intros [H| ->]; [|reflexivity]. rewrite skipn_all2 by exact H. apply firstn_nil. Qed.
Lemma trim_selected s i j : fits s -> trim_wstring s (start_of i) j = Ok (selected s i j).
Proof.
  unfold fits. intros Hf. unfold selected. rewrite between_seg. pose proof smax as HM. set (len := Z.of_nat (length s)) in *.
  unfold trim_wstring. fold len. cbv zeta. rewrite ?segment_eq. unfold start_of, lower, upper.
  destruct (Z.eqb_spec i 0) as [->|Hi].
  { replace (SSIZE_MAX =? 0)%Z with false by lia. cbn [andb]. replace (SSIZE_MAX <? 0)%Z with false by lia. cbn [orb]. cbn [Z.ltb Z.compare].
    rewrite (seg_none s (Z.to_nat (len + 1 - 1))) by (left; lia). destruct (Z.ltb_spec j 0).
    - replace (j + len + 1 <=? SSIZE_MAX)%Z with true by lia. reflexivity.
    - replace (j <? 0)%Z with false by lia. destruct (Z.leb_spec j SSIZE_MAX); [reflexivity|]. rewrite seg_none by (left; lia). reflexivity. }
  destruct (Z.leb_spec 0 i).
  - replace (i <? 0)%Z with false by lia. destruct ((i - 1 =? 0)%Z && (j =? SSIZE_MAX)%Z) eqn:E0.
    + replace (j <? 0)%Z with false by lia. rewrite seg_all by lia. reflexivity.
    + replace (i - 1 <? 0)%Z with false by lia. cbv iota. replace (i - 1 <? 0)%Z with false by lia. cbn [orb]. destruct (Z.ltb_spec j 0).
      * destruct (Z.leb_spec (j + len + 1) (i - 1)); [now rewrite seg_none by (right; lia)|]. replace (j + len + 1 <? 0)%Z with false by lia. match goal with |- Ok (firstn ?a ?b) = Ok (firstn ?c ?d) => replace a with c by lia; replace b with d by (f_equal; lia) end; reflexivity.
      * replace (j <? 0)%Z with false by lia. destruct (Z.leb_spec j (i - 1)); [now rewrite seg_none by (right; lia)|]. f_equal. f_equal; lia.
  - replace (i <? 0)%Z with true by lia. replace (i =? 0)%Z with false by lia. cbn [andb].
    replace (Z.max 0 (i + len) <? 0)%Z with false by lia. cbn [orb]. destruct (Z.ltb_spec j 0).
    + destruct (Z.leb_spec (j + len + 1) (Z.max 0 (i + len))); [now rewrite seg_none by (right; lia)|]. replace (j + len + 1 <? 0)%Z with false by lia. match goal with |- Ok (firstn ?a ?b) = Ok (firstn ?c ?d) => replace a with c by lia; replace b with d by (f_equal; lia) end; reflexivity.
    + replace (j <? 0)%Z with false by lia. destruct (Z.leb_spec j (Z.max 0 (i + len))); [now rewrite seg_none by (right; lia)|]. match goal with |- Ok (firstn ?a ?b) = Ok (firstn ?c ?d) => replace a with c by lia; replace b with d by (f_equal; lia) end; reflexivity.
Qed.
Lemma values_selected l i j : fits l -> exists a b, trim_values l (start_of i) j = Ok (selected l i j, a, b).
Proof.
  unfold fits. intros Hf. unfold selected. rewrite between_seg. pose proof smax as HM. set (len := Z.of_nat (length l)) in *.
  unfold trim_values. rewrite segment_eq. fold len. eexists _, _. f_equal. f_equal. f_equal. unfold start_of, lower, upper.
  destruct (Z.eqb_spec i 0) as [->|Hi].
  { replace (0 <=? SSIZE_MAX)%Z with true by lia. cbn [Z.ltb Z.compare]. rewrite !seg_none by (left; lia). reflexivity. }
  destruct (Z.leb_spec 0 i).
  - replace (0 <=? i - 1)%Z with true by lia. replace (i <? 0)%Z with false by lia. destruct (Z.leb_spec len (i - 1)).
    + rewrite !seg_none by (left; lia). reflexivity.
    + f_equal; [|f_equal; lia]. destruct (Z.ltb_spec j 0); lia.
  - replace (0 <=? i)%Z with false by lia. replace (i <? 0)%Z with true by lia. f_equal; [|f_equal; lia]. destruct (Z.ltb_spec j 0); lia.
Qed.
Lemma last_selected {A} (l : list A) : fits l -> selected l (-1) SSIZE_MAX = selected l (-1) (-1).
Proof.
  unfold fits. intros Hf. unfold selected. rewrite !between_seg. unfold lower, upper. cbn [Z.ltb Z.compare]. replace (SSIZE_MAX <? 0)%Z with false by reflexivity.
  set (len := Z.of_nat (length l)) in *. set (r := skipn _ l).
  assert (Hr : length r <= 1 /\ (len = 0 -> r = [])%Z).
  { unfold r. split; [rewrite skipn_length; lia|]. intros H. destruct l; [apply skipn_nil|cbn in len; lia]. }
  destruct Hr as [Hr H0]. destruct (Z.eq_dec len 0) as [E|E]; [rewrite H0 by exact E; now rewrite !firstn_nil|].
  rewrite !firstn_all2 by lia. reflexivity.
Qed.

Section Params.
Variable L : locale.
Variable C : ctype.
Variable W : world.
Variable OP : opts.
Notation eu := (expand_unit L C W OP).

(** The index words are the numbers [i] and [j]; without the second, [j] is [i]. *)
Definition index_text (w : list wunit) (e : E W) (t : list N) (e' : E W) : Prop := w <> [] /\ expand_single W eu w TT_NONE Q_WORD ES_NONE e = Ok (Some t, e').
Definition index_number (w : list wunit) (e : E W) (i : Z) (e' : E W) : Prop :=
  exists t e1, index_text w e t e1 /\ evaluate_index W e1 t = (Some i, e').
Definition indices (start end_ : list wunit) (e : E W) (i j : Z) (e' : E W) : Prop :=
  exists t e1 e2, index_text start e t e1 /\ ~ In t [[64]; [42]; [35]]%N /\ evaluate_index W e1 t = (Some i, e2) /\
    (end_ = [] /\ j = i /\ e' = e2 \/ index_number end_ e2 j e').
Lemma parse_none t : ~ In t [[64]; [42]; [35]]%N -> parse_indextype t = IDX_NONE.
Proof.
  intros H. unfold parse_indextype. destruct t as [|c [|]]; try reflexivity. unfold ch. cbn.
  destruct (N.eqb_spec c 64); [subst; exfalso; apply H; cbn; tauto|]. destruct (N.eqb_spec c 42); [subst; exfalso; apply H; cbn; tauto|]. destruct (N.eqb_spec c 35); [subst; exfalso; apply H; cbn; tauto|]. reflexivity.
Qed.
Lemma indices_ok start end_ e i j e' : indices start end_ e i j e' -> exists j', expand_index W eu start end_ e = Ok (Some (start_of i, j', IDX_NONE), e') /\
  (j' = j \/ i = (-1)%Z /\ j = (-1)%Z /\ j' = SSIZE_MAX).
Proof.
  intros (t & e1 & e2 & [Hs Ht] & Hn & Hi & He). unfold expand_index. destruct start as [|u start]; [congruence|]. unfold bind at 1. rewrite Ht, (parse_none t Hn).
  unfold bind at 1. rewrite Hi. destruct He as [(-> & -> & ->)|(te & e3 & [He Hte] & Hj)].
  - rewrite bind_ret. eexists. split; [reflexivity|]. destruct (Z.eqb_spec i (-1)) as [->|]; auto.
  - destruct end_ as [|v end_]; [congruence|]. unfold bind at 1 2. rewrite Hte, Hj. eexists. split; [reflexivity|now left].
Qed.
Definition indexed (number : bool) (name : list N) (start end_ : list wunit) : wunit := WParam number false PT_NONE (inl name) start end_ [] [].

Lemma indexed_eq number name start end_ e : dq_values L C W OP (indexed number name start end_) e =
  bind W (bind W (bind W (expand_index W eu start end_) (fun '(startindex, endindex, it) =>
       bind W (expand_value W eu (inl name)) (fun '(t, values, unset) =>
       bind W (lift W (select_values t values startindex endindex it)) (fun '(values, concat, startindex, endindex) =>
       modify_param L C W OP eu false PT_NONE (inl name) [] [] number true t startindex endindex concat values unset))))
    (fun r => ret W (contribution true r))) (fun l => ret W (map visible l)) e.
Proof. reflexivity. Qed.

(** C27.  An indexed parameter between double quotes: the characters or elements selected *)
Theorem index_selects number name start end_ e i j e' : indices start end_ e i j e' ->
  match get_variable W e' name with
  | GVScalar s => fits s -> dq_values L C W OP (indexed number name start end_) e = Ok (Some (sizes number [selected s i j]), e')
  | GVArray l => fits l -> dq_values L C W OP (indexed number name start end_) e = Ok (Some (sizes number (selected l i j)), e')
  | GVConcat l => fits l -> dq_values L C W OP (indexed number name start end_) e = Ok (Some (sizes number [join (ifs_separator (getifs W e')) (selected l i j)]), e')
  | GVNot => dq_values L C W OP (indexed number name start end_) e = Ok (if o_unset OP then Some (sizes number [[]]) else None, e')
  end.
Proof.
  intros H. apply indices_ok in H as (j' & Ei & Hj).
  assert (Sel : forall A (l : list A), fits l -> selected l i j' = selected l i j).
  { intros A l Hf. destruct Hj as [->|(-> & -> & ->)]; [reflexivity|]. now apply last_selected. }
  rewrite !indexed_eq.
  unfold bind. rewrite !Ei. unfold expand_value, bind, gets, ret, lift.
  destruct (get_variable W e' name) as [|s|l|l]; cbn [select_values].
  - rewrite trim_selected by (unfold fits; cbn; lia). cbn [rbind]. unfold modify_param. cbn [orb andb]. destruct (o_unset OP); [|reflexivity]. cbn [negb andb].
    unfold finish_param, bind, gets, ret. cbn [andb contribution]. rewrite visible_values. reflexivity.
  - intros Hf. rewrite trim_selected by exact Hf. cbn [rbind]. rewrite Sel by exact Hf. unfold modify_param. cbn [orb andb negb].
    unfold finish_param, bind, gets, ret. cbn [andb contribution]. now rewrite visible_values.
  - intros Hf. destruct (values_selected l i j' Hf) as (a & b & ->). cbn [rbind]. rewrite Sel by exact Hf. unfold modify_param. cbn [orb andb negb].
    unfold finish_param, bind, gets, ret. cbn [andb contribution]. now rewrite visible_values.
  - intros Hf. destruct (values_selected l i j' Hf) as (a & b & ->). cbn [rbind]. rewrite Sel by exact Hf. unfold modify_param. cbn [orb andb negb].
    unfold finish_param, bind, gets, ret. cbn [andb contribution]. rewrite visible_values. destruct (selected l i j) as [|x [|]]; reflexivity.
Qed.
(** The indices @, * and #: all elements, the elements joined, and the number of elements
    (of characters for a variable that is not an array) *)
Theorem index_special name start e t e' : index_text start e t e' -> In t [[64]; [42]; [35]]%N ->
  match get_variable W e' name with
  | GVArray l => fits l -> dq_values L C W OP (indexed false name start []) e =
      Ok (Some (if (hd 0 t =? 64)%N then l else if (hd 0 t =? 42)%N then [join (ifs_separator (getifs W e')) l] else [dec_of_nat (length l)]), e')
  | GVScalar s => dq_values L C W OP (indexed false name start []) e = Ok (Some [if (hd 0 t =? 35)%N then dec_of_nat (length s) else s], e')
  | _ => True
  end.
Proof.
  intros [Hs Ht] Hin.
  assert (Ei : expand_index W eu start [] e = Ok (Some (0%Z, SSIZE_MAX, if (hd 0 t =? 64)%N then IDX_ALL else if (hd 0 t =? 42)%N then IDX_CONCAT else IDX_NUMBER), e')).
  { unfold expand_index. destruct start as [|u start]; [congruence|]. unfold bind at 1. rewrite Ht. cbn in Hin. destruct Hin as [<-|[<-|[<-|[]]]]; reflexivity. }
  rewrite !indexed_eq.
  unfold bind. rewrite !Ei. unfold expand_value, bind, gets, ret, lift.
  destruct (get_variable W e' name) as [|s|l|l]; try exact I; cbn [select_values].
  - assert (Ts : trim_wstring s 0 SSIZE_MAX = Ok s) by (unfold trim_wstring; now rewrite !Z.eqb_refl). rewrite Ts.
    cbn in Hin. destruct Hin as [<-|[<-|[<-|[]]]]; cbn [hd N.eqb Pos.eqb];
      cbn [rbind]; unfold modify_param, finish_param, bind, gets, ret; cbn [orb andb negb contribution]; now rewrite visible_values.
  - intros Hf. rewrite all_values by exact Hf.
    cbn in Hin. destruct Hin as [<-|[<-|[<-|[]]]]; cbn [hd N.eqb Pos.eqb];
      cbn [rbind]; unfold modify_param, finish_param, bind, gets, ret; cbn [orb andb negb contribution]; rewrite visible_values; try reflexivity.
    destruct l as [|x [|]]; reflexivity.
Qed.

(** ** C44 *)
Definition cond (colon : bool) (ty : pexp) (name : list N) (subst : list wunit) : wunit := WParam false colon ty (inl name) [] [] [] subst.
(** The variable is unset, or has one value (is not an array). *)
Definition holds (e : E W) (name : list N) (v : option (list N)) : Prop :=
  get_variable W e name = match v with None => GVNot | Some s => GVScalar s end.
Definition simple (colon : bool) (ty : pexp) (subst : list wunit) : Prop :=
  match ty with PT_NONE => colon = false /\ subst = [] | PT_MINUS | PT_PLUS | PT_ASSIGN | PT_ERROR => True | _ => False end.
(** The text of the word, and its fields in place of the expansion *)
Definition word_text (indq : bool) (w : list wunit) : M W (list N) := expand_single W eu w TT_SINGLE (if indq then Q_DQPARAM else Q_WORD) ES_NONE.
Definition word_cells (indq : bool) (w : list wunit) : M W (list (list cell)) := expand_four W eu w TT_SINGLE (if indq then Q_DQPARAM else Q_WORD) (mkCat Soft indq false).
(** A string that results from the expansion *)
Definition result (indq : bool) (s : list N) : list (list cell) := [cells (mkCat Soft indq false) s].

Lemma cond_eq indq colon ty name subst e v : holds e name v ->
  ufields W eu (cond colon ty name subst) indq e =
  bind W (modify_param L C W OP eu colon ty (inl name) [] subst false indq TScalar 0%Z SSIZE_MAX false [match v with None => [] | Some s => s end] (match v with None => true | _ => false end))
    (fun r => ret W (contribution indq r)) e.
Proof.
  unfold holds. intros Hv. unfold ufields, cond.
  change (eu (WParam false colon ty (inl name) [] [] [] subst) indq) with
      (bind W (expand_index W eu [] []) (fun '(startindex, endindex, it) =>
       bind W (expand_value W eu (inl name)) (fun '(t, values, unset) =>
       bind W (lift W (select_values t values startindex endindex it)) (fun '(values, concat, startindex, endindex) =>
       modify_param L C W OP eu colon ty (inl name) [] subst false indq t startindex endindex concat values unset)))).
  cbn [expand_index]. unfold bind. unfold expand_value, bind, gets, ret, lift. rewrite Hv.
  destruct v as [s|]; cbn [select_values].
  - assert (Ts : trim_wstring s 0 SSIZE_MAX = Ok s) by (unfold trim_wstring; now rewrite !Z.eqb_refl). now rewrite Ts.
  - reflexivity.
Qed.
Lemma finish_one indq s e : bind W (finish_param W false indq false [s]) (fun r => ret W (contribution indq r)) e = Ok (Some (result indq s), e).
Proof. unfold finish_param, bind, gets, ret. cbn [andb]. unfold value_cells. cbn [length Nat.ltb Nat.leb map]. rewrite andb_false_r. cbn [contribution]. now rewrite app_nil_r. Qed.

(** C44.  The result of a conditional expansion, in every combination of the operator, the
    colon and the state of the variable *)
Theorem param_table indq colon ty name subst e v : holds e name v -> simple colon ty subst ->
  match table colon ty (o_unset OP) v with
  | UseValue => exists s, v = Some s /\ ufields W eu (cond colon ty name subst) indq e = Ok (Some (result indq s), e)
  | UseNull => ufields W eu (cond colon ty name subst) indq e = Ok (Some (result indq []), e)
  | UseWord => ufields W eu (cond colon ty name subst) indq e = word_cells indq subst e
  | DoAssign =>
    if is_name L name then
      match word_text indq subst e with
      | Ok (Some t, e1) =>
        let (ok, e2) := set_variable W e1 name t in
        ufields W eu (cond colon ty name subst) indq e = Ok (if ok then Some (result indq t) else None, e2)
      | x => ufields W eu (cond colon ty name subst) indq e = match x with Ok (_, e1) => Ok (None, e1) | UB => UB | Fuel => Fuel end
      end
    else ufields W eu (cond colon ty name subst) indq e = Ok (None, e)
  | DoError =>
    match word_text indq subst e with
    | Ok (_, e1) => ufields W eu (cond colon ty name subst) indq e = Ok (None, e1)
    | x => ufields W eu (cond colon ty name subst) indq e = match x with UB => UB | _ => Fuel end
    end
  end.
Proof.
  intros Hv Hs. rewrite !(cond_eq indq colon ty name subst e v Hv).
  set (val := match v with None => [] | Some s => s end).
  assert (U : (match v with None => true | _ => false end || colon && match [val] with [] | [[]] => true | _ => false end) =
    negb match v with None => false | Some [] => negb colon | Some _ => true end).
  { unfold val. destruct v as [[|]|], colon; reflexivity. }
  unfold modify_param. rewrite !U. clear U.
  assert (G : forall e', bind W (finish_param W false indq false [val]) (fun r => ret W (contribution indq r)) e' = Ok (Some (result indq val), e')) by (intros; apply finish_one).
  set (usable := match v with None => false | Some [] => negb colon | Some _ => true end).
  assert (V : usable = true -> v = Some val).
  { unfold usable, val. destruct v; [reflexivity|discriminate]. }
  assert (Z : usable = false -> val = []).
  { unfold usable, val. destruct v as [[|]|]; [reflexivity|discriminate|reflexivity]. }
  destruct ty; try contradiction; unfold table; fold usable.
  - destruct Hs as [-> ->]. destruct v as [s|].
    + assert (usable = true) as -> by (unfold usable; now destruct s). cbn [negb andb]. eauto.
    + cbn [usable negb andb]. subst usable. cbn [negb andb]. destruct (o_unset OP); cbn [negb].
      * rewrite G. reflexivity.
      * unfold word_text, expand_single, expand_single_cc, bind. cbn. destruct indq; reflexivity.
  - destruct usable; cbn [negb]; [eauto|]. unfold word_cells, bind, ret. destruct (expand_four W eu subst _ _ _ e) as [[[|]]| |]; reflexivity.
  - destruct usable; cbn [negb].
    + unfold word_cells, bind, ret. destruct (expand_four W eu subst _ _ _ e) as [[[|]]| |]; reflexivity.
    + rewrite G, Z by reflexivity. reflexivity.
  - destruct usable; cbn [negb]; [eauto|]. destruct (is_name L name); cbn [negb]; [|reflexivity]. unfold word_text.
    unfold bind.
    destruct (expand_single W eu subst _ _ _ e) as [[[t|] e1]| |]; try reflexivity.
    destruct (set_variable W e1 name t) as [[|] e2]; [|reflexivity].
    pose proof (finish_one indq t e2) as F. unfold bind in F. exact F.
  - destruct usable; cbn [negb]; [eauto|]. unfold word_text. destruct subst as [|u subst].
    + unfold expand_single, expand_single_cc, bind. cbn. destruct indq; reflexivity.
    + unfold bind. destruct (expand_single W eu (u :: subst) _ _ _ e) as [[[t|] e1]| |]; reflexivity.
Qed.
(** The word in the place of an unquoted expansion is expanded like a word, but its
    unquoted characters are subject to field splitting. *)
Corollary param_word colon ty name wps e v : holds e name v -> simple colon ty (word wps) -> table colon ty (o_unset OP) v = UseWord -> Forall wf_part wps ->
  ufields W eu (cond colon ty name (word wps)) false e = word_fields W (ufields W eu) cc_soft true wps e.
Proof.
  intros Hv Hs Ht Hw. pose proof (param_table false colon ty name (word wps) e v Hv Hs) as T. rewrite Ht in T. rewrite T. unfold word_cells.
  change (mkCat Soft false false) with cc_soft. now rewrite (expand_four_word W TT_SINGLE cc_soft) by (auto; discriminate).
Qed.
End Params.

Print Assumptions index_selects.
Print Assumptions index_special.
Print Assumptions param_table.
Print Assumptions param_word.

(** ** The hypotheses are met *)
Notation at_demo OP f := (f wide_locale ascii_ctype demo_world OP).
Definition lit (s : string) : list wunit := [WString (str s)].
(** ${a[2,-1]} and ${a[-1]}, where a is (one two three) *)
Example indices_ex : at_demo opts_on indices (lit "2") (lit "-1") home 2 (-1) home /\ at_demo opts_on indices (lit "-1") [] home (-1) (-1) home.
Proof.
  split.
  - exists (str "2"), home, home. split; [split; [discriminate|vm_compute; reflexivity]|]. split; [intros H; repeat destruct H as [H|H]; discriminate H || exact H|]. split; [reflexivity|]. right.
    exists (str "-1"), home. split; [split; [discriminate|vm_compute; reflexivity]|reflexivity].
  - exists (str "-1"), home, home. split; [split; [discriminate|vm_compute; reflexivity]|]. split; [intros H; repeat destruct H as [H|H]; discriminate H || exact H|]. split; [reflexivity|]. left. auto.
Qed.
Example index_ex : at_demo opts_on dq_values (indexed false (str "a") (lit "2") (lit "-1")) home = Ok (Some [str "two"; str "three"], home).
Proof. rewrite (at_demo opts_on index_selects false (str "a") (lit "2") (lit "-1") home 2 (-1) home (proj1 indices_ex)) by (unfold fits; cbn; discriminate). reflexivity. Qed.
Example index_scalar_ex : at_demo opts_on dq_values (indexed true (str "x") (lit "2") (lit "-1")) home = Ok (Some [str "4"], home).
Proof. rewrite (at_demo opts_on index_selects true (str "x") (lit "2") (lit "-1") home 2 (-1) home (proj1 indices_ex)) by (unfold fits; cbn; discriminate). reflexivity. Qed.
Example index_last_ex : at_demo opts_on dq_values (indexed false (str "a") (lit "-1") []) home = Ok (Some [str "three"], home).
Proof. rewrite (at_demo opts_on index_selects false (str "a") (lit "-1") [] home (-1) (-1) home (proj2 indices_ex)) by (unfold fits; cbn; discriminate). reflexivity. Qed.
Example index_special_ex : at_demo opts_on index_text (lit "#") home (str "#") home /\ at_demo opts_on dq_values (indexed false (str "a") (lit "#") []) home = Ok (Some [str "3"], home).
Proof. split; [split; [discriminate|]|]; vm_compute; reflexivity. Qed.
(** The four outcomes: ${e:-w}, ${e-w}, ${n:=w}, ${n?w} *)
Example table_ex :
  holds demo_world home (str "e") (Some []) /\ holds demo_world home (str "n") None /\
  table true PT_MINUS true (Some []) = UseWord /\ table false PT_MINUS true (Some []) = UseValue /\
  table true PT_ASSIGN true None = DoAssign /\ table false PT_ERROR true None = DoError /\
  at_demo opts_on (fun L C W OP => ufields W (expand_unit L C W OP)) (cond true PT_ASSIGN (str "n") (lit "w")) false home =
    Ok (Some [cells cc_soft (str "w")], (str "n", GVScalar (str "w")) :: home).
Proof. repeat split; vm_compute; reflexivity. Qed.

(** ** What does not hold *)

(** Any element of an array can be assigned by an expansion, whether its index is given from
    the start or from the end; but not the last by the index -1. *)
Definition assigning (i : string) : list wunit := [WParam false true PT_ASSIGN (inl (str "a")) (lit i) [] [] (lit "x")].
Theorem assign_last_refuted : exists e : env, look e (str "a") = GVArray [[]; []] /\
  (forall i, In i ["1"; "2"; "-2"]%string -> exists e', dexpand opts_on (assigning i) e = Ok (Some [str "x"], e')) /\
  at_demo opts_on dq_values (indexed false (str "a") (lit "-1") []) e = at_demo opts_on dq_values (indexed false (str "a") (lit "2") []) e /\
  dexpand opts_on (assigning "-1") e = Ok (None, e).
Proof.
  exists [(str "a", GVArray [[]; []])]. split; [reflexivity|]. split; [|split; vm_compute; reflexivity].
  intros i [<-|[<-|[<-|[]]]]; eexists; vm_compute; reflexivity.
Qed.
Print Assumptions assign_last_refuted.
(** Substitution of the whole value in a variable that is set, but empty, is an error under
    set -u. *)
Theorem subst_whole_refuted : exists e : env, look e (str "e") = GVScalar [] /\
  dexpand opts_u [WParam false false PT_NONE (inl (str "e")) [] [] [] []] e = Ok (Some [], e) /\
  dexpand opts_u [WParam false true (PT_SUBST true true false) (inl (str "e")) [] [] (lit "a") (lit "b")] e = Ok (None, e).
Proof. exists [(str "e", GVScalar [])]. vm_compute. repeat split; reflexivity. Qed.
Print Assumptions subst_whole_refuted.
