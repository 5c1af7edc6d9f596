(** C15 and C16: alias substitution. *)
From Coq Require Import Ascii String.
From Coq Require Import List NArith ZArith Bool Arith Lia.
From Verif Require Import Common Locale AliasModel AliasSpec AliasProofs.
Import ListNotations.
Open Scope res_scope.

(** ** Tables made by the alias and unalias built-ins are well-formed. *)
Lemma name_end_chars L s : Forall (fun c => is_alias_name_char L c = true) (firstn (name_end L s) s).
Proof.
  induction s as [|c s IH]; cbn; [constructor|].
  destruct (is_alias_name_char L c) eqn:E; cbn; constructor; auto.
Qed.
Lemma name_end_le L s : name_end L s <= length s.
Proof. induction s as [|c s IH]; cbn; [lia|]. destruct (is_alias_name_char L c); lia. Qed.
Lemma name_end_stop L s : is_alias_name_char L (nth (name_end L s) s 0%N) = false.
Proof.
  induction s as [|c s IH]; cbn; [reflexivity|].
  destruct (is_alias_name_char L c) eqn:E; cbn; auto.
Qed.

Lemma tdel_In t k x : In x (tdel t k) <-> In x t /\ fst x <> k.
Proof. unfold tdel. rewrite filter_In, negb_true_iff, list_N_eqb_neq. reflexivity. Qed.
Lemma NoDup_map_filter {A B} (f : A -> B) p l : NoDup (map f l) -> NoDup (map f (filter p l)).
Proof.
  induction l as [|x l IH]; cbn; auto. intros N. inversion N; subst.
  destruct (p x); cbn; auto. constructor; auto. intros I. apply H1.
  apply in_map_iff in I as (y & <- & I). apply filter_In in I as [I _]. apply in_map; auto.
Qed.

Lemma tstep_ok L t n c : table_ok L t -> (forall k a, In (k, a) t -> aid a < n) ->
  table_ok L (fst (tstep L (t, n) c)) /\
  forall k a, In (k, a) (fst (tstep L (t, n) c)) -> aid a < snd (tstep L (t, n) c).
Proof.
  intros [N1 N2 V] B.
  assert (D : forall k, table_ok L (tdel t k) /\ forall k' a, In (k', a) (tdel t k) -> aid a < n).
  { intros k. split.
    - constructor; [apply NoDup_map_filter; auto|apply NoDup_map_filter; auto|].
      intros k' a I. apply tdel_In in I as [I _]. eauto.
    - intros k' a I. apply tdel_In in I as [I _]. eauto. }
  destruct c as [arg g|name|]; cbn [tstep].
  - unfold alias_operand. destruct (Nat.eqb_spec (name_end L arg) 0) as [E0|E0]; cbn [negb andb].
    { cbn. split; [constructor; auto|auto]. }
    destruct (N.eqb (nth (name_end L arg) arg 0%N) 61); cbn [fst snd].
    + unfold define_alias, tset. destruct (D (firstn (name_end L arg) arg)) as [[D1 D2 D3] D4]. split.
      * constructor.
        -- cbn. constructor; auto. intros I. apply in_map_iff in I as ((k & a) & E & I).
           apply tdel_In in I as [_ I]. cbn in *. congruence.
        -- cbn. constructor; auto. intros I. apply in_map_iff in I as ((k & a) & E & I).
           apply D4 in I. cbn in *. lia.
        -- intros k a [[= <- <-]|I]; [|eauto]. split; [|apply name_end_chars].
           intros E. apply (f_equal (@length N)) in E. rewrite firstn_length in E. cbn in E.
           pose proof (name_end_le L arg). lia.
      * intros k a [[= <- <-]|I]; [cbn; lia|]. apply D4 in I. lia.
    + destruct (N.eqb _ 0); cbn; split; auto; constructor; auto.
  - unfold remove_alias. destruct (tget t name); cbn [fst snd]; [|split; [constructor; auto|auto]].
    apply D.
  - cbn. split; [|intros ? ? []]. constructor; [constructor|constructor|intros ? ? []].
Qed.

Theorem alias_tables_ok : forall L cs, table_ok L (table_of L cs).
Proof.
  intros L cs. unfold table_of.
  assert (G : forall cs st, table_ok L (fst st) -> (forall k a, In (k, a) (fst st) -> aid a < snd st) ->
    table_ok L (fst (fold_left (tstep L) cs st))).
  { clear cs. induction cs as [|c cs IH]; intros [t n] H1 H2; cbn [fold_left]; auto.
    destruct (tstep_ok L t n c H1 H2) as [A B]. apply IH; auto. }
  apply G; cbn; [|intros ? ? []]. constructor; [constructor|constructor|intros ? ? []].
Qed.
Print Assumptions alias_tables_ok.

(** ** C38: definitions are a map in which the last definition counts. *)
Lemma tget_tdel t k k' : tget (tdel t k) k' = if list_N_eqb k k' then None else tget t k'.
Proof.
  unfold tdel. induction t as [|[n a] t IH]; cbn; [destruct (list_N_eqb k k'); auto|].
  destruct (list_N_eqb n k) eqn:E; cbn.
  - apply list_N_eqb_eq in E. subst n. rewrite IH. destruct (list_N_eqb k k'); auto.
  - rewrite IH. destruct (list_N_eqb n k') eqn:E2; auto.
    apply list_N_eqb_eq in E2. subst k'. destruct (list_N_eqb k n) eqn:E3; auto.
    apply list_N_eqb_eq in E3. subst. rewrite (proj2 (list_N_eqb_eq n n) eq_refl) in E. discriminate.
Qed.

Lemma is_name_char_equal L : is_alias_name_char L 61 = false.
Proof. reflexivity. Qed.

Lemma name_end_split L arg :
  match split_equal arg with
  | Some (n, v) =>
      if forallb (is_alias_name_char L) n
      then name_end L arg = length n /\ nth (name_end L arg) arg 0%N = 61%N /\
           firstn (name_end L arg) arg = n /\ skipn (name_end L arg + 1) arg = v
      else nth (name_end L arg) arg 0%N <> 61%N
  | None => nth (name_end L arg) arg 0%N <> 61%N
  end.
Proof.
  induction arg as [|c arg IH]; [cbn; discriminate|]. cbn [split_equal name_end].
  destruct (N.eqb_spec c 61) as [->|Nc].
  - rewrite is_name_char_equal. cbn. auto.
  - destruct (split_equal arg) as [[n v]|]; cbn [forallb].
    + destruct (is_alias_name_char L c) eqn:Ec; cbn [andb].
      * destruct (forallb (is_alias_name_char L) n); [|exact IH].
        destruct IH as (E1 & E2 & E3 & E4). cbn. rewrite E1 in *. rewrite E3. auto.
      * cbn. auto.
    + destruct (is_alias_name_char L c) eqn:Ec; cbn; auto.
Qed.

Theorem alias_definitions : forall L cs k,
  option_map (fun a => (isglobal a, avalue a)) (tget (table_of L cs) k) = defs_of L cs k.
Proof.
  intros L cs. unfold table_of, defs_of.
  assert (G : forall cs st m, (forall k, option_map (fun a => (isglobal a, avalue a)) (tget (fst st) k) = m k) ->
    forall k, option_map (fun a => (isglobal a, avalue a)) (tget (fst (fold_left (tstep L) cs st)) k)
      = fold_left (defs_step L) cs m k).
  { clear cs. induction cs as [|c cs IH]; intros [t n] m H k; cbn [fold_left]; [apply H|].
    apply IH. clear k. intros k. cbn [fst] in H. destruct c as [arg g|name|]; cbn [tstep defs_step].
    - unfold alias_operand. pose proof (name_end_split L arg) as X.
      assert (NE : nth (name_end L arg) arg 0%N <> 61%N ->
        option_map (fun a => (isglobal a, avalue a)) (tget (fst (match
          (if negb (name_end L arg =? 0) && (nth (name_end L arg) arg 0 =? 61)%N
           then ODefine (firstn (name_end L arg) arg) (skipn (name_end L arg + 1) arg)
           else if negb (name_end L arg =? 0) && (nth (name_end L arg) arg 0 =? 0)%N then OPrint arg else OInvalid)
          with ODefine _ _ => (define_alias t arg (name_end L arg) g n, S n) | _ => (t, n) end)) k) = m k).
      { intros Nq. apply N.eqb_neq in Nq. rewrite Nq, andb_false_r.
        destruct (negb _ && _); cbn [fst]; apply H. }
      destruct (split_equal arg) as [[[|c nm] v]|]; [| |apply NE; auto].
      + cbn [forallb] in X. destruct X as (X1 & X2 & _). rewrite X1. cbn. apply H.
      + destruct (forallb (is_alias_name_char L) (c :: nm)); [|apply NE; auto].
        destruct X as (X1 & X2 & X3 & X4). rewrite X2. rewrite X1. cbn [length Nat.eqb negb andb].
        change ((61 =? 61)%N) with true. cbv iota. cbn [fst].
        unfold define_alias, tset. cbn [length] in X1. rewrite <- X1, X3, X4. cbn [tget].
        rewrite tget_tdel. destruct (list_N_eqb (c :: nm) k); [reflexivity|apply H].
    - unfold remove_alias. destruct (tget t name) eqn:E; cbn [fst].
      + rewrite tget_tdel. destruct (list_N_eqb name k); [reflexivity|apply H].
      + destruct (list_N_eqb name k) eqn:E2; [|apply H].
        apply list_N_eqb_eq in E2. subst k. rewrite E. reflexivity.
    - reflexivity. }
  apply G. reflexivity.
Qed.
Print Assumptions alias_definitions.

(** ** C16: the code does what the specification by origins says. *)
Theorem alias_substitution_refines : forall L posix cs es s bs,
  locale_ok L -> sruns L posix (table_of L cs) sinit es s bs ->
  exists l, cruns L posix (table_of L cs) ([], 0, []) es = Ok (chars s, spos s, l, bs).
Proof.
  intros L posix cs es s bs HL R.
  eapply (runs_ok L posix (table_of L cs) HL (alias_tables_ok L cs) es sinit [] [] []); eauto.
  apply inv_init.
Qed.
Print Assumptions alias_substitution_refines.

(** The specification has an answer for every attempt to substitute a word that
    ends at a delimiter. *)
Theorem alias_spec_total : forall L posix cs s j ng ne,
  spos s <= j -> j <= length (stext s) ->
  is_token_delimiter_char L (nth j (chars s) 0%N) = true ->
  exists s' b, sstep L posix (table_of L cs) s (ESubst j ng ne) s' b.
Proof.
  intros L posix cs s j ng ne H1 H2 H3. set (t := table_of L cs).
  assert (DB : after_blank_expansion L s \/ ~ after_blank_expansion L s).
  { assert (DB1 : forall e, (e <= spos s /\ forall p, e <= p -> p < spos s -> iswblank L (nth p (chars s) 0%N) = true)
       \/ ~ (e <= spos s /\ forall p, e <= p -> p < spos s -> iswblank L (nth p (chars s) 0%N) = true)).
    { intros e. destruct (Nat.le_gt_cases e (spos s)) as [Le|Gt]; [|right; lia].
      pose proof (blank_range_iff L (chars s) (spos s - e) e) as X.
      replace (e + (spos s - e)) with (spos s) in X by lia.
      destruct (blank_range_loop L (chars s) e (spos s - e)).
      - left. split; [auto|]. apply X. auto.
      - right. intros [_ Y]. apply X in Y. discriminate. }
    unfold after_blank_expansion. induction (sends s) as [|e es IH].
    - right. intros (? & [] & _).
    - destruct (DB1 e) as [Y|Y]; [left; exists e; cbn; tauto|].
      destruct IH as [(e' & I & Z)|Z]; [left; exists e'; cbn; tauto|].
      right. intros (e' & [<-|I] & W); [tauto|]. apply Z. eauto. }
  assert (DR : (exists a, replaces L posix t s j ng ne a) \/ forall a, ~ replaces L posix t s j ng ne a).
  { destruct (Nat.lt_ge_cases (spos s) j) as [Lt|Ge]; [|right; intros a (? & _); lia].
    destruct (tget t (firstn (j - spos s) (skipn (spos s) (chars s)))) as [a|] eqn:G.
    2:{ right. intros a (_ & _ & I & _). apply (In_tget t _ a (tk_names _ _ (alias_tables_ok L cs))) in I. congruence. }
    assert (U : forall b, replaces L posix t s j ng ne b -> b = a).
    { intros b (_ & _ & I & _). apply (In_tget t _ b (tk_names _ _ (alias_tables_ok L cs))) in I. congruence. }
    assert (D1 : (ne = true -> j < length (stext s)) \/ ~ (ne = true -> j < length (stext s))).
    { destruct ne; [|left; discriminate]. destruct (Nat.lt_ge_cases j (length (stext s))); [auto|].
      right. intros X. specialize (X eq_refl). lia. }
    assert (D2 : (ng = true \/ after_blank_expansion L s \/ (isglobal a = true /\ posix = false)) \/
       ~ (ng = true \/ after_blank_expansion L s \/ (isglobal a = true /\ posix = false))).
    { destruct ng; [auto|]. destruct DB; [auto|]. destruct (isglobal a), posix; intuition discriminate. }
    destruct (in_dec Nat.eq_dec (aid a) (origins s (spos s))) as [D3|D3].
    - right. intros b R. pose proof (U b R). subst b. destruct R as (_ & _ & _ & _ & R). tauto.
    - destruct D1 as [D1|D1]; [|right; intros b (_ & ? & _); tauto].
      destruct D2 as [D2|D2].
      + left. exists a. split; [auto|]. split; [auto|]. split; [apply tget_In; auto|auto].
      + right. intros b R. pose proof (U b R). subst b. destruct R as (_ & _ & _ & R & _). tauto. }
  destruct DR as [(a & R)|NR].
  - eexists _, true. eapply (st_replace L posix t s j ng ne a
      ((if negb (isglobal a) && ends_with_blank L a then [spos s + length (avalue a)] else []) ++
        map (shift_end (spos s) j (length (avalue a))) (sends s))); auto.
    intros e. rewrite in_app_iff, in_map_iff, blank_ending_iff.
    destruct (isglobal a); cbn [negb andb].
    + split; [intros [[]|(e0 & <- & I)]; eauto|intros [(e0 & I & ->)|[[? _] _]]; [eauto|discriminate]].
    + destruct (ends_with_blank L a).
      * split; [intros [[<-|[]]|(e0 & <- & I)]; eauto|intros [(e0 & I & ->)|[_ ->]]; [eauto|cbn; auto]].
      * split; [intros [[]|(e0 & <- & I)]; eauto|intros [(e0 & I & ->)|[[_ ?] _]]; [eauto|discriminate]].
  - eexists _, false. apply st_keep; auto.
Qed.
Print Assumptions alias_spec_total.

(** The completion parser's entry point either leaves everything alone or tries
    the longest run of name characters, which ends at a delimiter. *)
Theorem substitute_alias_word : forall L posix t buf i l ng ne, i <= length buf ->
  substitute_alias L posix t buf i l ng ne = Ok (buf, l, false) \/
  exists j, i <= j /\ j <= length buf /\ is_token_delimiter_char L (nth j buf 0%N) = true /\
    substitute_alias L posix t buf i l ng ne = substitute_alias_range L posix t buf i j l ng ne.
Proof.
  intros L posix t buf i l ng ne Hi. unfold substitute_alias.
  destruct (Nat.ltb_spec (length buf) i); [lia|].
  destruct (is_redir_fd (skipn i buf)); [auto|]. set (j := i + name_end L (skipn i buf)).
  pose proof (name_end_le L (skipn i buf)) as Le. rewrite skipn_length in Le.
  unfold bget. destruct (Nat.ltb_spec (length buf) j); [unfold j in *; lia|]. cbn [rbind].
  destruct (is_token_delimiter_char L (nth j buf 0%N)) eqn:D; cbn [negb]; [|auto].
  right. exists j. split; [unfold j; lia|]. split; [lia|]. auto.
Qed.
Print Assumptions substitute_alias_word.

(** ** C15: the number of substitutions is bounded. *)
Theorem alias_terminates : forall L posix cs es s bs,
  sruns L posix (table_of L cs) sinit es s bs ->
  length (filter (fun b => b) bs)
    <= text_read es * (max_value (table_of L cs) + 1) ^ length (table_of L cs).
Proof.
  intros L posix cs es s bs R.
  pose proof (runs_measure L posix _ (alias_tables_ok L cs) es _ _ _ R) as H.
  unfold K in H. replace (max_value (table_of L cs) + 1) with (S (max_value (table_of L cs))) by lia.
  unfold M in H. cbn [sinit spos stext skipn tot fold_right] in H. lia.
Qed.
Print Assumptions alias_terminates.

(** A non-trivial run: two aliases that refer to each other, one ending with a
    blank.  The number of successful substitutions is what the specification
    says. *)
Definition ex_cs : list tcmd :=
  [CDefine (str "ls=ll -l") false; CDefine (str "ll=ls ") false; CDefine (str "x=ls") false].
Definition ex_es : list event :=
  [ERead (str "ls x" ++ [10%N]); ESubst 2 true false; ESubst 2 true false; ESubst 2 true false;
   EAdvance 4; ESubst 6 false false; EAdvance 7; ESubst 8 false false].
Example ex_alias_code :
  match cruns c_locale false (table_of c_locale ex_cs) ([], 0, []) ex_es with
  | Ok (buf, _, _, bs) => buf = str "ls  -l x" ++ [10%N] /\
      bs = [false; true; true; false; false; false; false; false]
  | _ => False
  end.
Proof. vm_compute. split; reflexivity. Qed.

Example ex_alias_spec : exists s,
  sruns c_locale false (table_of c_locale ex_cs) sinit
    [ERead (str "ls x" ++ [10%N]); ESubst 2 true false; ESubst 2 true false; ESubst 2 true false] s
    [false; true; true; false] /\ chars s = str "ls  -l x" ++ [10%N].
Proof.
  set (t := table_of c_locale ex_cs).
  set (ls := mkAlias 0 false (str "ll -l")). set (ll := mkAlias 1 false (str "ls ")).
  assert (BE1 : ~ blank_ending c_locale ls).
  { intros [_ (v & c & E & B)]. apply (f_equal (@rev N)) in E. rewrite rev_unit in E. vm_compute in E.
    injection E as <- _. discriminate. }
  eexists. split.
  { eapply sr_cons; [apply st_read; reflexivity|].
    eapply sr_cons.
    { apply (st_replace c_locale false t _ 2 true false ls []); [cbn; lia|cbn; lia|reflexivity| |].
      - split; [cbn; lia|]. split; [discriminate|]. split; [vm_compute; tauto|]. split; [auto|]. intros [].
      - intros e. cbn. split; [intros []|]. intros [(e0 & [] & _)|[? _]]. tauto. }
    eapply sr_cons.
    { apply (st_replace c_locale false t _ 2 true false ll [3]); [cbn; lia|cbn; lia|reflexivity| |].
      - split; [cbn; lia|]. split; [discriminate|]. split; [vm_compute; tauto|]. split; [auto|].
        vm_compute. intros [?|[]]; discriminate.
      - intros e. split.
        + intros [<-|[]]. right. split; [|reflexivity]. split; [reflexivity|].
          exists (str "ls"), 32%N. split; reflexivity.
        + intros [(e0 & [] & _)|[_ ->]]. left. reflexivity. }
    eapply sr_cons.
    { apply st_keep; [cbn; lia|cbn; lia|reflexivity|].
      intros a (_ & _ & I & _ & No). vm_compute in I.
      destruct I as [I|[I|[I|[]]]]; [discriminate| discriminate|].
      injection I as <-. apply No. vm_compute. auto. }
    apply sr_nil. }
  reflexivity.
Qed.

(** C16, refuted part: an expansion that ends with a backslash, followed by a
    newline in the input, is joined with the next line; the end of the
    expansion is then inside a word, and replacing that word by a shorter one
    fails the assertion in shift_aliaslist_index (in a build without
    assertions, the index wraps around and the alias is blocked for the rest of
    the parse). *)
Theorem alias_line_continuation_refuted : exists cs es j,
  match cruns c_locale false (table_of c_locale cs) ([], 0, []) es with
  | Ok (buf, i, l, bs) =>
      (i < j /\ j <= length buf /\ is_token_delimiter_char c_locale (nth j buf 0%N) = true) /\
      bs = [false; true; false; false] /\
      substitute_alias_range c_locale false (table_of c_locale cs) buf i j l true false = UB
  | _ => False
  end.
Proof.
  exists [CDefine (str "a=b\") false; CDefine (str "bxyz=c") false],
    [ERead (str "a" ++ [10%N]); ESubst 1 true false; ELineCont 1; ERead (str "xyz" ++ [10%N])], 4.
  vm_compute. split; [split; [lia|split; [lia|reflexivity]]|]. split; reflexivity.
Qed.
Print Assumptions alias_line_continuation_refuted.
