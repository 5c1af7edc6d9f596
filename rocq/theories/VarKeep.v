(** What commands preserve *)
From Coq Require Import Ascii String.
From Coq Require Import List NArith ZArith Bool Arith Lia Permutation.
From Verif Require Import Common Locale NumModel BraceSpec BraceNum VarModel VarSpec VarProofs VarSet.
Import ListNotations.
Open Scope res_scope.

Section Var.
Variable L : locale.
Hypothesis HL : locale_ok L.
Variable mbs : list N -> option (list N).
Hypothesis mbs_inj : forall a b m, mbs a = Some m -> mbs b = Some m -> a = b.
Variable order : list (list N * var) -> list (list N * var).
Hypothesis order_perm : forall l, Permutation (order l) l.
Variable seed_ok : list N -> bool.

Notation touches := (touches mbs).
Notation exact := (exact mbs).
Notation pathok := (pathok mbs).
Notation reexport := (reexport mbs seed_ok).
Notation found := (found mbs).
Notation store_var := (store_var mbs seed_ok).

Record keep (X P S R A : Prop) (n : list N) (s s' : st) : Prop := mkKeep {
  k_temps : temps s' = temps s;
  k_exact : X -> exact n s -> exact n s';
  k_path : P -> forall p, path_name p = n -> pathok p s -> pathok p s';
  k_shield : S -> forall i v, nth_error (temps s) i = Some false -> nth_error (bindings n s) i = Some (Some v) ->
    (exists v', nth_error (bindings n s') i = Some (Some v')) /\ (forall j, (i < j)%nat -> nth_error (bindings n s') j = nth_error (bindings n s) j);
  k_ro : R -> n <> RANDOM -> n <> LINENO -> forall i v, nth_error (bindings n s) i = Some (Some v) -> v_readonly v = true ->
    exists v', nth_error (bindings n s') i = Some (Some v') /\ v_val v' = v_val v /\ v_readonly v' = true;
  k_same : A -> bindings n s' = bindings n s }.
Lemma keep_refl : forall X P S R A n s, keep X P S R A n s s.
Proof. intros. constructor; auto. - intros _ i v _ H. split; [eauto|auto]. - intros _ _ _ i v H1 H2. eauto. Qed.
Lemma keep_trans : forall X P S R A n s s1 s2, keep X P S R A n s s1 -> keep X P S R A n s1 s2 -> keep X P S R A n s s2.
Proof.
  intros X P S R A n s s1 s2 [A1 A2 A3 A4 A5 A6] [B1 B2 B3 B4 B5 B6]. constructor.
  - congruence.
  - auto.
  - intros HP p Hp H. auto.
  - intros HS i v Ht Hv. destruct (A4 HS i v Ht Hv) as [[v' Hv'] E]. rewrite <- A1 in Ht. destruct (B4 HS i v' Ht Hv') as [G F].
    split; [exact G|]. intros j Hj. rewrite F, E by exact Hj. reflexivity.
  - intros HR N1 N2 i v Hv Hr. destruct (A5 HR N1 N2 i v Hv Hr) as [v1 [V1 [V2 V3]]]. destruct (B5 HR N1 N2 i v1 V1 V3) as [v2 [W1 [W2 W3]]].
    exists v2. split; [exact W1|]. split; congruence.
  - intros HA. rewrite B6, A6 by exact HA. reflexivity.
Qed.
Lemma keep_weaken : forall (X P S R A X' P' S' R' A' : Prop) n s s', (X' -> X) -> (P' -> P) -> (S' -> S) -> (R' -> R) -> (A' -> A) ->
  keep X P S R A n s s' -> keep X' P' S' R' A' n s s'.
Proof. intros X P S R A X' P' S' R' A' n s s' H1 H2 H3 H4 H5 [A1 A2 A3 A4 A5 A6]. constructor; [exact A1| | | | |]; intro H.
  - apply A2, H1, H. - apply A3, H2, H. - apply A4, H3, H. - apply A5, H4, H. - apply A6, H5, H.
Qed.
(** Commands that deal with another name *)
Lemma keep_other : forall X P S R A n m s s', touches m s s' -> n <> m -> keep X P S R A n s s'.
Proof.
  intros X P S R A n m s s' T D. pose proof (t_col _ _ _ _ T n D) as C. constructor.
  - apply T.
  - intros _ H. eapply touches_exact; eauto.
  - intros _ p Hp H. unfold VarProofs.pathok in *. rewrite (t_pcol _ _ _ _ T) by (rewrite Hp; exact D). rewrite H, Hp, C. reflexivity.
  - intros _ i v _ H. rewrite C. split; [eauto|auto].
  - intros _ _ _ i v H1 H2. rewrite C. eauto.
  - intros _. exact C.
Qed.
(** Other changes: line numbers and options *)
Lemma keep_envs : forall X P S R A n s s', envs s' = envs s -> osenv s' = osenv s -> keep X P S R A n s s'.
Proof.
  intros X P S R A n s s' E O. assert (C : bindings n s' = bindings n s) by (unfold bindings; rewrite E; reflexivity). constructor.
  - unfold temps. rewrite E. reflexivity.
  - intros _ H m Hm Hn. rewrite O, C. apply H; assumption.
  - intros _ p Hp H. unfold VarProofs.pathok, pcol in *. unfold bindings in *. rewrite E. exact H.
  - intros _ i v _ H. rewrite C. split; [eauto|auto].
  - intros _ _ _ i v H1 H2. rewrite C. eauto.
  - intros _. exact C.
Qed.

Lemma ro_not_temp : forall n ts c i v, okcol n ts c -> length ts = length c -> nth_error c i = Some (Some v) -> v_readonly v = true -> nth_error ts i = Some false.
Proof.
  intros n ts c i v O E H R. destruct (nth_error ts i) as [[|]|] eqn:T; [exfalso| reflexivity|exfalso].
  - destruct (O i true v T H). rewrite o_temp in o_ro by reflexivity. specialize (o_ro R). discriminate.
  - apply nth_error_None in T. rewrite E in T. apply nth_error_None in T. congruence.
Qed.
Lemma cols_len : forall n s, length (temps s) = length (bindings n s).
Proof. intros. rewrite temps_len, col_len. reflexivity. Qed.

(** Changes at the place found *)
Lemma keep_found : forall (R : Prop) n s k v s1 s2, found n s k v s1 -> okcol n (temps s) (bindings n s) ->
  touches n s1 s2 -> (exact n s1 -> exact n s2) -> (forall p, path_name p = n -> pathok p s1 -> pathok p s2) ->
  (exists w, nth_error (bindings n s2) k = Some (Some w) /\ (R -> v_readonly v = true -> v_val w = v_val v /\ v_readonly w = true)) ->
  (forall i, (k < i)%nat -> nth_error (bindings n s2) i = nth_error (bindings n s1) i) ->
  keep True True True R False n s s2.
Proof.
  intros R n s k v s1 s2 F O T X P [w [W1 W2]] Af. destruct F as [F1 F2 F3 F4 F5 F6 F7 F8].
  constructor; auto.
  - rewrite (t_temps _ _ _ _ T). apply F1.
  - intros _ i u Ht Hu. destruct (Nat.lt_trichotomy i k) as [B|[B|B]].
    + destruct (F5 i B); congruence.
    + subst i. split; [eauto|]. intros j Hj. rewrite Af, F6 by exact Hj. reflexivity.
    + split; [exists u; rewrite Af, F6 by exact B; exact Hu|]. intros j Hj. rewrite Af, F6 by lia. reflexivity.
  - intros HR _ _ i u Hu Hr. destruct (Nat.lt_trichotomy i k) as [B|[B|B]].
    + pose proof (ro_not_temp _ _ _ _ _ O (cols_len n s) Hu Hr). destruct (F5 i B); congruence.
    + subst i. destruct F3 as [F3|[F3 _]]; [|congruence]. rewrite F3 in Hu. injection Hu as <-. exists w. split; [exact W1|]. apply W2; assumption.
    + exists u. rewrite Af, F6 by exact B. auto.
  - intros [].
Qed.
Lemma keep_found0 : forall n s k v s1, found n s k v s1 -> okcol n (temps s) (bindings n s) -> keep True True True True False n s s1.
Proof.
  intros n s k v s1 F O. eapply (keep_found True); eauto.
  - apply touches_refl.
  - exists v. split; [apply F|auto].
Qed.
Lemma keep_store : forall (R : Prop) n s k v s1 w b, found n s k v s1 -> okcol n (temps s) (bindings n s) ->
  (R -> v_readonly v = true -> v_val w = v_val v /\ v_readonly w = true) ->
  (b = false -> v_export v = false /\ v_export w = false \/ v_export w = v_export v /\ v_val w = v_val v) ->
  keep True True True R False n s (store_var n k w b s1).
Proof.
  intros R n s k v s1 w b F O HR Hb. pose proof (found_len _ _ _ _ _ _ F) as B.
  destruct (store_col mbs seed_ok n k w b s1 B) as [g [C G]].
  eapply (keep_found R); eauto.
  - apply store_touches.
  - intro E. eapply store_exact; [apply F|exact E|]. intro Hf. destruct (Hb Hf) as [[Q1 Q2]|[Q1 Q2]]; [left; split; assumption|right; exists v; auto].
  - intros p Hp Hq. apply store_path; assumption.
  - exists (with_getter g w). rewrite C. split; [apply upd_nth_same; rewrite col_len; exact B|]. cbn [with_getter v_val v_readonly]. exact HR.
  - intros i Hi. rewrite C, upd_nth_other by lia. reflexivity.
Qed.

(** Commands that deal with the name [m] only *)
Lemma keep_split : forall (X P S R A : Prop) m s s', touches m s s' -> keep X P S R A m s s' ->
  forall n, keep (n = m -> X) (n = m -> P) (n = m -> S) (n = m -> R) (n <> m) n s s'.
Proof.
  intros X P S R A m s s' T K n. destruct (list_eq_dec N.eq_dec n m) as [->|D].
  - eapply keep_weaken; [| | | | |exact K]; try (intro H; apply H; reflexivity). intro H. contradiction (H eq_refl).
  - eapply keep_other; eauto.
Qed.

(** ** Assignment *)

Lemma set_value_keep : forall n x sc export s, wf0 s -> (sc = TEMP -> nth_error (temps s) 0 = Some true) ->
  exists ok s', set_value mbs seed_ok n x sc export s = Ok (ok, s') /\ touches n s s' /\ keep True True True True False n s s' /\ wf0 s'.
Proof.
  intros n x sc export s W H. destruct (set_value_ok mbs mbs_inj seed_ok n x sc export s W H) as [k [v [s1 [F [P R]]]]].
  pose proof (w_col _ W n) as O. pose proof (found_okcol _ _ _ _ _ _ F O) as O1.
  rewrite R. destruct (v_readonly v) eqn:Hr.
  - exists false, s1. split; [reflexivity|]. split; [apply F|]. split; [eapply keep_found0; eauto|].
    eapply touches_wf0; [apply F|exact W|exact O1].
  - cbn zeta. set (e := (v_export v || exporting n export s)%bool).
    exists true, (store_var n k (mkVar x e false (v_nodelete v) GNone) e s1). split; [reflexivity|].
    assert (T : touches n s (store_var n k (mkVar x e false (v_nodelete v) GNone) e s1)).
    { eapply touches_trans; [apply F|apply store_touches]. }
    split; [exact T|]. split.
    + eapply keep_store; eauto; [congruence|]. intro E. left. split; [|exact E]. unfold e in E. apply orb_false_elim in E. apply E.
    + eapply touches_wf0; [exact T|exact W|]. rewrite <- (t_temps _ _ _ _ (f_touch _ _ _ _ _ _ F)) in O1 |- *.
      apply store_okcol; [eapply found_len; eauto|exact O1|]. intros t Ht.
      assert (Ov : okvar n t v) by (eapply O1; [exact Ht|apply F]). destruct Ov. constructor; cbn; auto; congruence.
Qed.
Lemma do_assignments_keep : forall l sc export s, wf0 s -> (sc = TEMP -> nth_error (temps s) 0 = Some true) ->
  exists ok s', do_assignments mbs seed_ok l sc export s = Ok (ok, s') /\ wf0 s' /\ forall n, keep True True True True (Forall (fun a => fst a <> n) l) n s s'.
Proof.
  induction l as [|[m x] l IH]; intros sc export s W H; cbn [do_assignments].
  - exists true, s. split; [reflexivity|]. split; [exact W|]. intro. apply keep_refl.
  - destruct (set_value_keep m x sc export s W H) as [ok [s1 [R [T [K W1]]]]]. rewrite R. cbn [rbind].
    assert (K1 : forall n, keep True True True True (Forall (fun a => fst a <> n) ((m, x) :: l)) n s s1).
    { intro n. eapply keep_weaken; [| | | | |exact (keep_split _ _ _ _ _ _ _ _ T K n)]; auto.
      intro D. inversion D; subst. cbn in *. congruence. }
    destruct ok.
    + destruct (IH sc export s1 W1) as [ok [s2 [R2 [W2 K2]]]]; [rewrite (t_temps _ _ _ _ T); exact H|].
      exists ok, s2. split; [exact R2|]. split; [exact W2|]. intro n. eapply keep_trans; [apply K1|].
      eapply keep_weaken; [| | | | |apply K2]; auto. intro D. inversion D; assumption.
    + exists false, s1. auto.
Qed.
(** The positional parameters *)
Lemma pos_of_keep : forall X P S R n s s', keep X P S R True n s s' -> n = positional -> poscol (temps s) (bindings positional s) -> poscol (temps s') (bindings positional s').
Proof. intros X P S R n s s' K -> H. rewrite (k_temps _ _ _ _ _ _ _ _ K), (k_same _ _ _ _ _ _ _ _ K I). exact H. Qed.
Lemma touches_pos : forall n s s', touches n s s' -> n <> positional -> poscol (temps s) (bindings positional s) -> poscol (temps s') (bindings positional s').
Proof. intros n s s' T D H. rewrite (t_temps _ _ _ _ T), (t_col _ _ _ _ T) by congruence. exact H. Qed.
Lemma exporting_pos : forall s, exporting positional false s = false.
Proof. intro s. unfold exporting. cbn. rewrite andb_false_r. reflexivity. Qed.
(** The parameters of the innermost scope that is not temporary *)
Lemma set_params_ok : forall l s k o, wf0 s -> nth_error (temps s) k = Some false -> (forall j, (j < k)%nat -> nth_error (temps s) j = Some true) ->
  (forall j, (j < k)%nat -> nth_error (bindings positional s) j = Some None) -> nth_error (bindings positional s) k = Some o ->
  (forall v, o = Some v -> exists l', v = params l') ->
  exists s', set_positional_parameters mbs seed_ok l s = Ok s' /\ touches positional s s' /\ keep True True True True False positional s s' /\ wf0 s' /\
             bindings positional s' = upd (bindings positional s) k (Some (params l)).
Proof.
  intros l s k o W Ht Hb Hn Ho Hp.
  destruct (set_value_keep positional (Array l) LOCAL false s W) as [ok [s' [R [T [K W']]]]]; [discriminate|].
  unfold set_positional_parameters, set_array. rewrite R. cbn [rbind]. exists s'. split; [reflexivity|]. split; [exact T|]. split; [exact K|]. split; [exact W'|].
  destruct (set_value_ok mbs mbs_inj seed_ok positional (Array l) LOCAL false s W) as [k' [v [s1 [F [[P1 P2] R']]]]]; [discriminate|].
  assert (k' = k). { destruct (Nat.lt_trichotomy k' k) as [B|[B|B]]; [|exact B|]; [specialize (Hb _ B)|specialize (P2 _ B)]; congruence. }
  subst k'. rewrite R in R'.
  assert (V : exists l', v = params l' \/ v = fresh).
  { destruct (f_old _ _ _ _ _ _ F) as [E|[_ ->]]; [|exists []; auto]. rewrite Ho in E. injection E as ->. destruct (Hp v eq_refl) as [l' ->]. eauto. }
  destruct V as [l' V]. assert (Vr : v_readonly v = false) by (destruct V as [-> | ->]; reflexivity).
  assert (Ve : v_export v = false) by (destruct V as [-> | ->]; reflexivity).
  assert (Vd : v_nodelete v = false) by (destruct V as [-> | ->]; reflexivity).
  rewrite Vr in R'. cbn zeta in R'. rewrite Ve, exporting_pos, Vd in R'. cbn [orb] in R'.
  assert (Es : s' = store_var positional k (params l) false s1) by (injection R'; auto). rewrite Es. clear Es R'. destruct (store_col mbs seed_ok positional k (params l) false s1 (found_len _ _ _ _ _ _ F)) as [g [C G]].
  rewrite C. destruct G as [->|[G _]]; [|discriminate].
  apply nth_ext'. intro j. destruct (Nat.eq_dec k j) as [->|D].
  - rewrite !upd_nth_same; [reflexivity| |]; rewrite col_len; [|eapply found_len; eauto]. rewrite <- temps_len. apply nth_error_Some. congruence.
  - rewrite !upd_nth_other by exact D. destruct (Nat.lt_trichotomy j k) as [B|[B|B]]; [|congruence|apply F, B].
    rewrite (f_before _ _ _ _ _ _ F j B). symmetry. apply Hn, B.
Qed.

(** ** Built-ins *)

Lemma cut_eq_ok : forall s acc, name_ok acc -> name_ok (fst (cut_eq acc s)).
Proof.
  induction s as [|c s IH]; intros acc H; cbn [cut_eq]; [exact H|]. destruct (N.eqb_spec c (ch "=")) as [E|D]; [exact H|].
  apply IH. intro X. apply in_app_or in X. destruct X as [X|[X|[]]]; [exact (H X)|congruence].
Qed.
Lemma typeset_keep : forall global readonly export unexport n x s, wf0 s ->
  exists ok s', typeset_operand mbs seed_ok global readonly export unexport n x s = Ok (ok, s') /\ touches n s s' /\ keep True True True True False n s s' /\ wf0 s'.
Proof.
  intros global readonly export unexport n x s W.
  assert (D : exists k v s1, (if global then new_global mbs seed_ok n s else new_local mbs seed_ok n s) = Ok (k, s1) /\ found n s k v s1 /\ nth_error (temps s) k = Some false).
  { destruct global; [destruct (new_global_ok mbs mbs_inj seed_ok n s W) as [k [v [s1 [A [B [C _]]]]]]; exists k, v, s1; auto|]. destruct (new_local_ok mbs mbs_inj seed_ok n s W) as [k [v [s1 [A [B [C _]]]]]]. exists k, v, s1; auto. }
  destruct D as [k [v [s1 [R [F Ht]]]]]. unfold typeset_operand. rewrite R. cbn [rbind]. rewrite get_at_col, (f_at _ _ _ _ _ _ F).
  set (w1 := match x with Some x => if v_readonly v then v else mkVar (Scalar (Some x)) (v_export v) (v_readonly v) (v_nodelete v) GNone | None => v end).
  set (w2 := if readonly then mkVar (v_val w1) (v_export w1) true true (v_getter w1) else w1).
  set (w := mkVar (v_val w2) (if export then true else if unexport then false else v_export w2) (v_readonly w2) (v_nodelete w2) (v_getter w2)).
  cbn zeta. set (b := negb (Bool.eqb (v_export v) (v_export w)) || (match x with Some _ => true | None => false end) && v_export w).
  exists (negb match x with Some _ => v_readonly v | None => false end), (store_var n k w b s1). split; [reflexivity|].
  assert (T : touches n s (store_var n k w b s1)) by (eapply touches_trans; [apply F|apply store_touches]).
  pose proof (w_col _ W n) as O. pose proof (found_okcol _ _ _ _ _ _ F O) as O1.
  assert (Hv : v_val w = v_val w1 /\ (v_readonly w1 = true -> v_readonly w = true) /\ v_getter w = v_getter w1 /\ v_nodelete w = (readonly || v_nodelete w1)%bool /\ v_readonly w = (readonly || v_readonly w1)%bool)
    by (unfold w, w2; destruct readonly; auto 6).
  destruct Hv as [Hv1 [Hv2 [Hv3 [Hv4 Hv5]]]]. split; [exact T|]. split.
  - eapply keep_store; eauto.
    + intros _ Hr. unfold w1 in *. destruct x; rewrite ?Hr in *; split; auto.
    + intro E. unfold b in E. apply orb_false_elim in E. destruct E as [E1 E2]. apply negb_false_iff, eqb_prop in E1.
      destruct x; cbn [andb] in E2; [left; split; congruence|right]. split; [congruence|]. rewrite Hv1. reflexivity.
  - eapply touches_wf0; [exact T|exact W|]. rewrite <- (t_temps _ _ _ _ (f_touch _ _ _ _ _ _ F)) in O1, Ht |- *.
    apply store_okcol; [eapply found_len; eauto|exact O1|]. intros t Ht'. rewrite Ht in Ht'. injection Ht' as <-.
    destruct (O1 k false v Ht (f_at _ _ _ _ _ _ F)) as [Q1 Q2 Q3 Q4 Q5].
    assert (G : v_getter w1 = v_getter v /\ v_val w1 = v_val v \/ v_getter w1 = GNone) by (unfold w1; destruct x; [destruct (v_readonly v)|]; auto).
    assert (M : v_nodelete w1 = v_nodelete v /\ v_readonly w1 = v_readonly v) by (unfold w1; destruct x; [destruct (v_readonly v) eqn:?|]; auto).
    constructor.
    + rewrite Hv5, Hv4. destruct readonly; [reflexivity|]. cbn [orb]. destruct M as [-> ->]. exact Q1.
    + discriminate.
    + rewrite Hv3. destruct G as [[-> _]| ->]; [exact Q3|discriminate].
    + rewrite Hv3. destruct G as [[-> _]| ->]; [exact Q4|discriminate].
    + rewrite Hv3, Hv1. destruct G as [[-> ->]| ->]; [exact Q5|congruence].
Qed.

(** unset *)
Lemma unset_from_eq : forall n m i s, unset_from mbs seed_ok n i m s =
  match seek (firstn m (skipn i (bindings n s))) with
  | Some (j, v) => if v_nodelete v then (false, s) else (true, reexport n v (del (i + j) n s))
  | None => (true, s)
  end.
Proof.
  intros n. induction m as [|m IH]; intros i s; cbn [unset_from]; [reflexivity|].
  rewrite get_at_col. destruct (nth_error (bindings n s) i) as [o|] eqn:E.
  - assert (X : skipn i (bindings n s) = o :: skipn (S i) (bindings n s)).
    { clear - E. revert i E. induction (bindings n s) as [|a l IHl]; intros [|i] E; cbn in *; try discriminate; [congruence|]. apply IHl, E. }
    rewrite X. cbn [firstn seek]. destruct o as [v|].
    + rewrite Nat.add_0_r. destruct (v_nodelete v); reflexivity.
    + rewrite IH. destruct (seek (firstn m (skipn (S i) (bindings n s)))) as [[j v]|]; [|reflexivity]. rewrite Nat.add_succ_r. reflexivity.
  - rewrite IH. apply nth_error_None in E. rewrite !skipn_all2 by lia. rewrite !firstn_nil. reflexivity.
Qed.
Lemma unset_eq : forall n s, unset_variable mbs seed_ok n s =
  match seek (bindings n s) with
  | Some (j, v) => if v_nodelete v then (false, s) else (true, reexport n v (del j n s))
  | None => (true, s)
  end.
Proof. intros. unfold unset_variable. rewrite unset_from_eq. cbn [skipn]. rewrite firstn_all2 by (rewrite col_len; lia). reflexivity. Qed.
Lemma remove_keep : forall n k v s, nth_error (bindings n s) k = Some (Some v) -> v_readonly v = false ->
  keep True True False True False n s (reexport n v (del k n s)).
Proof.
  intros n k v s H R. constructor; try (intros []; fail).
  - apply remove_touches.
  - intros _. apply remove_exact, H.
  - intros _ p Hp _. apply remove_path, Hp.
  - intros _ _ _ i u Hu Hr. rewrite remove_col. rewrite upd_nth_other by congruence. eauto.
Qed.
Lemma unset_keep : forall n s, wf0 s -> let s' := snd (unset mbs seed_ok n s) in
  wf0 s' /\ (s' = s \/ touches n s s' /\ n <> positional /\ keep True True False True False n s s').
Proof.
  intros n s W. unfold unset. destruct (has_eq n) eqn:E; [cbn; auto|]. rewrite unset_eq.
  destruct (seek (bindings n s)) as [[k v]|] eqn:Es; [|cbn; auto]. destruct (v_nodelete v) eqn:D; [cbn; auto|]. cbn [snd].
  destruct (seek_some _ _ _ Es) as [A B].
  assert (R : v_readonly v = false).
  { destruct (v_readonly v) eqn:R; [|reflexivity]. pose proof (ro_not_temp _ _ _ _ _ (w_col _ W n) (cols_len n s) A R) as T.
    destruct (w_col _ W n k false v T A). rewrite (o_ro R) in D. discriminate. }
  assert (T : touches n s (reexport n v (del k n s))) by apply remove_touches.
  split.
  - eapply touches_wf0; [exact T|exact W|]. rewrite remove_col. apply okcol_upd; [apply W|discriminate].
  - right. split; [exact T|]. split; [intros ->; discriminate|]. eapply remove_keep; eauto.
Qed.

(** Arrays changed in place *)
Lemma put_keep : forall n k v x s, seek (bindings n s) = Some (k, v) -> keep False False True (v_readonly v = false) False n s (put k n (with_val x v) s).
Proof.
  intros n k v x s H. destruct (seek_some _ _ _ H) as [A B]. assert (L0 : (k < length (bindings n s))%nat) by (apply nth_error_Some; congruence).
  constructor; try (intros []; fail).
  - apply temps_put.
  - intros _ i u Ht Hu. rewrite col_put. destruct (Nat.lt_trichotomy i k) as [C|[C|C]]; [rewrite (B i C) in Hu; discriminate| |].
    + subst i. split; [eexists; apply upd_nth_same, L0|]. intros j Hj. apply upd_nth_other. lia.
    + split; [exists u; rewrite upd_nth_other by lia; exact Hu|]. intros j Hj. apply upd_nth_other. lia.
  - intros R _ _ i u Hu Hr. rewrite col_put. assert (i <> k) by congruence. rewrite upd_nth_other by congruence. eauto.
Qed.
Lemma put_wf0 : forall n k v x s, nth_error (bindings n s) k = Some (Some v) -> (v_getter v = GNone \/ exists y, x = Scalar y) -> wf0 s -> wf0 (put k n (with_val x v) s).
Proof.
  intros n k v x s H G W. eapply touches_wf0; [apply (touches_put mbs)|exact W|]. rewrite col_put. apply okcol_upd; [apply W|].
  intros t w Ht E. injection E as <-. destruct (w_col _ W n k t v Ht H) as [Q1 Q2 Q3 Q4 Q5]. constructor; cbn [with_val v_readonly v_nodelete v_getter v_val]; auto.
  intro D. destruct G as [G|[y ->]]; [congruence|eauto].
Qed.
Lemma array_getter : forall n s k v l, wf0 s -> nth_error (bindings n s) k = Some (Some v) -> v_val v = Array l -> v_getter v = GNone.
Proof.
  intros n s k v l W H E. destruct (nth_error (temps s) k) as [t|] eqn:T.
  - destruct (w_col _ W n k t v T H) as [_ _ _ _ Q]. destruct (v_getter v); [reflexivity| |]; destruct Q as [y Y]; congruence.
  - apply nth_error_None in T. rewrite (cols_len n) in T. apply nth_error_None in T. congruence.
Qed.
Lemma changeable_inv : forall n s k v l, changeable_array n s = Some (k, v, l) ->
  seek (bindings n s) = Some (k, v) /\ v_val v = Array l /\ v_readonly v = false.
Proof.
  intros n s k v l. unfold changeable_array. rewrite search_seek. destruct (seek (bindings n s)) as [[k' v']|]; [|discriminate].
  destruct (v_val v') eqn:E; [discriminate|]. destruct (v_readonly v') eqn:R; [discriminate|]. intro H. injection H as -> -> ->. auto.
Qed.
Lemma set_element_keep : forall n i x s, wf0 s -> let s' := snd (set_array_element mbs n i x s) in
  wf0 s' /\ touches n s s' /\ keep True False True True False n s s'.
Proof.
  intros n i x s W. unfold set_array_element.
  assert (Z : wf0 s /\ touches n s s /\ keep True False True True False n s s) by (split; [exact W|split; [apply touches_refl|apply keep_refl]]).
  destruct (changeable_array n s) as [[[k v] l]|] eqn:E; [|exact Z]. destruct (length l <=? i); [exact Z|]. clear Z. cbn [snd].
  destruct (changeable_inv _ _ _ _ _ E) as [A [B C]]. destruct (seek_some _ _ _ A) as [A1 _].
  set (s1 := put k n (with_val (Array (upd l i x)) v) s).
  assert (W1 : wf0 s1) by (apply put_wf0; [exact A1| |exact W]; left; eapply array_getter; eauto).
  assert (T1 : touches n s s1) by apply touches_put.
  assert (K1 : keep False False True (v_readonly v = false) False n s s1) by (apply put_keep, A).
  assert (C1 : bindings n s1 = upd (bindings n s) k (Some (with_val (Array (upd l i x)) v))) by apply col_put.
  assert (O1 : osenv s1 = osenv s) by reflexivity. clearbody s1.
  assert (U : touches n s1 (if v_export v then update_environment mbs n s1 else s1)).
  { destruct (v_export v); [apply update_touches|apply touches_refl]. }
  assert (Cu : bindings n (if v_export v then update_environment mbs n s1 else s1) = bindings n s1).
  { destruct (v_export v); [apply update_col|reflexivity]. }
  assert (Xu : exact n s -> exact n (if v_export v then update_environment mbs n s1 else s1)).
  { intro X. destruct (v_export v) eqn:Ev; [apply update_exact|]. intros m Hm Hn. rewrite O1, C1, (X m Hm Hn). symmetry.
    eapply exported_quiet; eauto. }
  set (s2 := if v_export v then update_environment mbs n s1 else s1) in *. clearbody s2.
  split; [|split].
  - eapply touches_wf0; [exact U|exact W1|]. rewrite Cu. apply W1.
  - eapply touches_trans; eauto.
  - destruct K1 as [K1 K2 K3 K4 K5 K6]. constructor; try (intros []; fail).
    + rewrite (t_temps _ _ _ _ U). exact K1.
    + intros _. exact Xu.
    + rewrite Cu. exact K4.
    + intros _. rewrite Cu. exact (K5 C).
Qed.
Lemma array_keep : forall n o s, wf0 s ->
  exists ok s', array_builtin L mbs seed_ok n o s = Ok (ok, s') /\ wf0 s' /\ (touches n s s' /\ (n = positional -> s' = s)) /\
    keep (match o with ASet _ => True | _ => False end) (match o with ASet _ => True | _ => False end) True True False n s s'.
Proof.
  intros n o s W. unfold array_builtin.
  destruct (has_eq n) eqn:E.
  - exists false, s. split; [reflexivity|]. split; [exact W|]. split; [split; [apply touches_refl|auto]|apply keep_refl].
  - assert (Np : n <> positional) by (intros ->; discriminate).
    assert (H : forall f, exists ok s', match changeable_array n s with
        | None => Ok (false, s)
        | Some (k, v, l) => match f l with None => Ok (false, s) | Some l' => Ok (true, put k n (with_val (Array l') v) s) end
        end = Ok (ok, s') /\ wf0 s' /\ (touches n s s' /\ (n = positional -> s' = s)) /\ keep False False True True False n s s').
    { intro f. assert (Z : forall b : bool, exists ok s', Ok (b, s) = Ok (ok, s') /\ wf0 s' /\ (touches n s s' /\ (n = positional -> s' = s)) /\ keep False False True True False n s s').
      { intro b. exists b, s. split; [reflexivity|]. split; [exact W|]. split; [split; [apply touches_refl|auto]|apply keep_refl]. }
      destruct (changeable_array n s) as [[[k v] l]|] eqn:Ec; [|apply Z]. destruct (f l) as [l'|]; [|apply Z]. clear Z.
      destruct (changeable_inv _ _ _ _ _ Ec) as [A [B C]]. destruct (seek_some _ _ _ A) as [A1 _].
      exists true, (put k n (with_val (Array l') v) s). split; [reflexivity|]. split; [|split].
      - apply put_wf0; [exact A1| |exact W]. left. eapply array_getter; eauto.
      - split; [apply touches_put|]. intro. contradiction.
      - eapply keep_weaken; [| | | | |apply put_keep, A]; auto. }
    destruct o; try apply H.
    destruct (set_value_keep n (Array l) GLOBAL false s W) as [ok [s' [R [T [K W']]]]]; [discriminate|].
    exists ok, s'. split; [exact R|]. split; [exact W'|]. split; [split; [exact T|intro; contradiction]|exact K].
Qed.
(** The positional parameters that are in effect *)
Lemma poscol_seek : forall s, wf s -> exists k l, seek (bindings positional s) = Some (k, params l) /\ nth_error (temps s) k = Some false /\
  (forall j, (j < k)%nat -> nth_error (temps s) j = Some true).
Proof.
  intros s [W P]. destruct (seek (bindings positional s)) as [[k v]|] eqn:E.
  - destruct (seek_some _ _ _ E) as [A B]. exists k.
    destruct (nth_error (temps s) k) as [[|]|] eqn:T.
    + pose proof (P k true T) as H. change (nth_error (bindings positional s) k = Some None) in H. congruence.
    + destruct (P k false T) as [l H]. exists l. rewrite H in A. injection A as <-. split; [reflexivity|]. split; [reflexivity|].
      intros j Hj. destruct (nth_error (temps s) j) as [[|]|] eqn:Tj; [reflexivity| |].
      * destruct (P j false Tj) as [l' H']. rewrite (B j Hj) in H'. discriminate.
      * apply nth_error_None in Tj. assert (X : nth_error (temps s) k <> None) by congruence. apply nth_error_Some in X. lia.
    + apply nth_error_None in T. rewrite (cols_len positional) in T. apply nth_error_None in T. congruence.
  - exfalso. pose proof (w_last _ W) as Wl. destruct (P _ _ Wl) as [l H].
    rewrite (seek_none _ E) in H; [discriminate|]. rewrite col_len. assert (X : nth_error (temps s) (length (envs s) - 1) <> None) by congruence.
    apply nth_error_Some in X. rewrite temps_len in X. lia.
Qed.
Lemma positional_values_ok : forall s k l, seek (bindings positional s) = Some (k, params l) -> positional_values s = Ok l.
Proof. intros s k l H. unfold positional_values. rewrite search_seek, H. reflexivity. Qed.
Lemma upd_params_pos : forall s k l, poscol (temps s) (bindings positional s) -> nth_error (temps s) k = Some false -> poscol (temps s) (upd (bindings positional s) k (Some (params l))).
Proof.
  intros s k l P H i t Ht. destruct (Nat.eq_dec k i) as [->|D].
  - rewrite H in Ht. injection Ht as <-. exists l. apply upd_nth_same. rewrite <- (cols_len positional). apply nth_error_Some. congruence.
  - specialize (P i t Ht). destruct t; [rewrite upd_nth_other by exact D; exact P|]. destruct P as [l' P]. exists l'. rewrite upd_nth_other by exact D. exact P.
Qed.
Lemma shift_keep : forall o c s, wf s ->
  exists ok s', shift_builtin o c s = Ok (ok, s') /\ wf s' /\
    let n := match o with Some n => n | None => positional end in touches n s s' /\ keep (o = None) (o = None) True (o = None) False n s s'.
Proof.
  intros o c s W. unfold shift_builtin.
  assert (Z : forall n, exists ok s', Ok (false, s) = Ok (ok, s') /\ wf s' /\ (touches n s s' /\ keep (o = None) (o = None) True (o = None) False n s s')).
  { intro n. exists false, s. split; [reflexivity|]. split; [exact W|]. split; [apply touches_refl|apply keep_refl]. }
  destruct o as [n|].
  - cbn [rbind]. destruct (has_eq n) eqn:E; [apply Z|]. rewrite search_seek. destruct (seek (bindings n s)) as [[k v]|] eqn:Es; [|apply Z].
    destruct (v_val v) eqn:Ev; [apply Z|]. destruct (Z.of_nat (length l) <? Z.abs c)%Z; [apply Z|]. clear Z.
    destruct (seek_some _ _ _ Es) as [A _].
    eexists _, _. split; [reflexivity|]. split; [split|split].
    + apply put_wf0; [exact A| |apply W]. left. eapply array_getter; eauto. apply W.
    + eapply touches_pos; [apply (touches_put mbs)| |apply W]. intros ->. discriminate.
    + apply touches_put.
    + eapply keep_weaken; [| | | | |apply put_keep, Es]; auto; discriminate.
  - destruct (poscol_seek s W) as [k [l [Es [Ht Hb]]]]. rewrite search_seek, Es. cbn [params v_val rbind].
    destruct (Z.of_nat (length l) <? Z.abs c)%Z; [apply Z|]. clear Z. destruct (seek_some _ _ _ Es) as [A _]. fold (params l).
    set (l' := firstn _ l ++ _). exists true, (put k positional (params l') s). split; [reflexivity|]. split; [split|split].
    + apply (put_wf0 positional k (params l) (Array l')); [exact A|left; reflexivity|apply W].
    + rewrite temps_put, col_put. apply upd_params_pos; [apply W|exact Ht].
    + apply touches_put.
    + destruct (put_keep positional k (params l) (Array l') s Es) as [K1 K2 K3 K4 K5 K6]. constructor; auto.
      * intros _ X m Hm Hn. change (osenv (put k positional (params l') s)) with (osenv s). rewrite (X m Hm Hn), col_put.
        symmetry. eapply exported_quiet; [exact A|reflexivity|reflexivity].
      * intros _ p Hp. exfalso. destruct p; discriminate.
Qed.
(** Reading *)
Lemma run_getter_keep : forall n k v r s, wf s -> seek (bindings n s) = Some (k, v) ->
  exists v' s', run_getter mbs n k v r s = Ok (v', s') /\ wf s' /\ touches n s s' /\ keep True True True True False n s s' /\ (v_getter v = GNone -> v' = v /\ s' = s).
Proof.
  intros n k v r s W H. destruct (seek_some _ _ _ H) as [A _].
  assert (T : exists t, nth_error (temps s) k = Some t).
  { destruct (nth_error (temps s) k) as [t|] eqn:T; [eauto|]. apply nth_error_None in T. rewrite (cols_len n) in T. apply nth_error_None in T. congruence. }
  destruct T as [t T]. destruct W as [W Pos]. destruct (w_col _ W n k t v T A) as [Q1 Q2 Q3 Q4 Q5].
  assert (G : forall g x, v_val v = Scalar g -> n = LINENO \/ n = RANDOM -> let v' := with_val (Scalar (Some x)) v in
      let s' := if v_export v then update_environment mbs n (put k n v' s) else put k n v' s in
      wf s' /\ touches n s s' /\ keep True True True True False n s s').
  { intros g x Hv Hn v' s'.
    assert (Ts : touches n s s').
    { eapply touches_trans; [apply (touches_put mbs n k v')|]. unfold s'. destruct (v_export v); [apply update_touches|apply touches_refl]. }
    assert (C : bindings n s' = upd (bindings n s) k (Some v')).
    { unfold s'. destruct (v_export v); rewrite ?update_col; apply col_put. }
    assert (Np : n <> positional) by (intros ->; destruct Hn; discriminate).
    split; [split|split].
    - eapply touches_wf0; [exact Ts|exact W|]. rewrite C, <- (col_put n k v' s), <- (temps_put n k v' s). apply put_wf0; [exact A|right; eauto|exact W].
    - eapply touches_pos; [exact Ts|exact Np|exact Pos].
    - exact Ts.
    - pose proof (put_keep n k v (Scalar (Some x)) s H) as [K1 K2 K3 K4 K5 K6]. constructor; try (intros []; fail).
      + apply Ts.
      + intros _ X. unfold s'. destruct (v_export v) eqn:Ev; [apply update_exact|]. intros m Hm Hn'. change (osenv (put k n v' s)) with (osenv s).
        rewrite (X m Hm Hn'), col_put. symmetry. eapply exported_quiet; [exact A|exact Ev|exact Ev].
      + intros _ p Hp. exfalso. destruct p, Hn as [-> | ->]; discriminate.
      + rewrite C. rewrite col_put in K4. exact K4.
      + intros _ N1 N2. destruct Hn; contradiction. }
  unfold run_getter. destruct (v_getter v) eqn:Eg.
  - exists v, s. split; [reflexivity|]. split; [split; assumption|]. split; [apply touches_refl|]. split; [apply keep_refl|auto].
  - destruct (Q5 ltac:(discriminate)) as [y Hy]. rewrite Hy. cbn [with_val v_export v_getter]. rewrite Eg. pose proof (Q3 eq_refl). subst n.
    eexists _, _. split; [reflexivity|]. destruct (G y (dec_of_N (lineno s)) Hy (or_introl eq_refl)) as [G1 [G2 G3]].
    split; [exact G1|]. split; [exact G2|]. split; [exact G3|discriminate].
  - destruct (Q5 ltac:(discriminate)) as [y Hy]. rewrite Hy. cbn [with_val v_export v_getter]. rewrite Eg. pose proof (Q4 eq_refl). subst n.
    eexists _, _. split; [reflexivity|]. destruct (G y (dec_of_N r) Hy (or_intror eq_refl)) as [G1 [G2 G3]].
    split; [exact G1|]. split; [exact G2|]. split; [exact G3|discriminate].
Qed.
Lemma digits_value_nonneg : forall ds acc, Forall (fun c => is_digit c = true) ds -> (0 <= acc)%Z -> (0 <= digits_value acc ds)%Z.
Proof.
  induction ds as [|d ds IH]; intros acc H Ha; cbn [digits_value]; [exact Ha|]. inversion H as [|? ? H1 H2]; subst. apply IH; [exact H2|].
  unfold is_digit in H1. lia.
Qed.
Lemma wcstol_digit : forall c n v rest, iswdigit c = true -> wcstol L 10 (c :: n) = (Some v, rest) ->
  exists ds, c :: n = ds ++ rest /\ Forall (fun c => is_digit c = true) ds /\ nodigit rest /\ v = digits_value 0 ds.
Proof.
  intros c n v rest Hc H. assert (D : is_digit c = true) by exact Hc.
  rewrite wcstol_unfold in H. cbn [skip_space] in H. rewrite (digit_nospace L HL c D) in H.
  rewrite take_sign_other in H by (unfold is_digit in D; lia).
  destruct (scan_digits 10 0 false (c :: n)) as [[v0 r0] b] eqn:E. apply scan_digits_bwd in E as (ds & E & F & R & V & Eb). destruct b.
  - injection H as <- <-. exists ds. auto.
  - exfalso. destruct ds as [|d ds]; [|discriminate]. cbn [app] in E. rewrite <- E in R. cbn in R. congruence.
Qed.
Lemma get_keep : forall n r s, wf s -> exists g s', get_variable L mbs n r s = Ok (g, s') /\ wf s' /\ touches n s s' /\ keep True True True True False n s s'.
Proof.
  intros n r s W. unfold get_variable.
  assert (Z : forall g : gv, exists g' s', Ok (g, s) = Ok (g', s') /\ wf s' /\ touches n s s' /\ keep True True True True False n s s').
  { intro g. exists g, s. split; [reflexivity|]. split; [exact W|]. split; [apply touches_refl|apply keep_refl]. }
  destruct (poscol_seek s W) as [k0 [l0 [Es _]]]. rewrite (positional_values_ok _ _ _ Es). cbn [rbind].
  destruct (list_N_eqb n []); [apply Z|]. destruct (list_N_eqb n [ch "*"]); [apply Z|]. destruct (list_N_eqb n [ch "@"]); [apply Z|].
  destruct (list_N_eqb n [ch "#"]); [apply Z|]. destruct (_ || _ || _ || _ || _)%bool; [apply Z|].
  destruct (match n with c :: _ => iswdigit c | [] => false end) eqn:Dg.
  - destruct (wcstol L 10 n) as [[v|] [|c rest]] eqn:Ew; try apply Z. destruct (v <=? UINTMAX)%Z; [|apply Z].
    destruct ((v =? 0)%Z || (Z.of_nat (length l0) <? v)%Z)%bool eqn:E; [apply Z|].
    apply orb_false_elim in E. destruct E as [E1 E2]. apply Z.eqb_neq in E1. apply Z.ltb_ge in E2.
    unfold rget. destruct (nth_error l0 (Z.to_nat (v - 1))) eqn:En; [apply Z|].
    apply nth_error_None in En.
    exfalso. destruct n as [|c n]; [discriminate|]. destruct (wcstol_digit _ _ _ _ Dg Ew) as [ds [_ [F [_ Vd]]]].
    pose proof (digits_value_nonneg ds 0 F ltac:(lia)). lia.
  - rewrite search_seek. destruct (seek (bindings n s)) as [[k v]|] eqn:Ek; [|apply Z].
    destruct (run_getter_keep n k v r s W Ek) as [v' [s' [R [W' [T [K _]]]]]]. rewrite R. cbn [rbind]. eexists _, _. split; [reflexivity|]. auto.
Qed.
Lemma lineno_keep : forall m s, wf s -> exists s', update_lineno mbs m s = Ok s' /\ wf s' /\ temps s' = temps s /\
  forall n, keep True True True True (n <> LINENO) n s s'.
Proof.
  intros m s W. unfold update_lineno. set (s1 := with_lineno m s).
  assert (W1 : wf s1) by (destruct W as [[A B C] D]; split; [constructor; assumption|exact D]).
  assert (K1 : forall n, keep True True True True (n <> LINENO) n s s1) by (intro; apply keep_envs; reflexivity).
  assert (T1 : temps s1 = temps s) by reflexivity. clearbody s1.
  assert (Z : exists s', Ok s1 = Ok s' /\ wf s' /\ temps s' = temps s /\ forall n, keep True True True True (n <> LINENO) n s s') by eauto.
  rewrite search_seek. destruct (seek (bindings LINENO s1)) as [[k v]|] eqn:E; [|exact Z].
  destruct (v_getter v); try exact Z. destruct (v_export v); [|exact Z].
  destruct (run_getter_keep LINENO k v 0 s1 W1 E) as [v' [s' [R [W' [T [K _]]]]]]. rewrite R. cbn [rbind].
  exists s'. split; [reflexivity|]. split; [exact W'|]. split; [rewrite (t_temps _ _ _ _ T); exact T1|].
  intro n. eapply keep_trans; [apply K1|]. eapply keep_weaken; [| | | | |exact (keep_split _ _ _ _ _ _ _ _ T K n)]; auto.
Qed.
End Var.
