(** The relation between exec.c and the structured semantics. *)
From Coq Require Import List NArith Bool Arith Lia.
From Verif Require Import Common ExecModel ExecSpec ExecOk.
Import ListNotations.

(** What is assumed of the world: a parent that has waited for a single child
    has the files as the child left them, and no signal arrives while an
    expansion fails with an error that ends the shell. *)
Definition os_ok (O : os) : Prop :=
  (forall w v, o_vis O (o_join O w [v]) = v) /\
  (forall x w, match o_expand O x w with (_, sgs, XErr _ true) => sgs = [] | _ => True end).

Section Sim.
Context {O : os}.
Variable m : bool.
Notation dat := (dat O).
Notation sh := (sh O).
Notation out := (out O).
Notation task := (@task O).
Notation job := (@job O).

Definition cxs (s : sh) : cx := mkcx (e_ln (s_e s)) (s_see s) (s_ser s) (e_it (s_e s)).

(** No trap action is due. *)
Definition calm (d : dat) : Prop := d_pend d = [] \/ d_hand d = true.

Record inv (d : dat) : Prop := mkinv {
  i_any : d_any d = false -> forall g, acting g d = None;
  i_pend : d_pend d <> [] -> d_any d = true;
  i_fn : Forall (fun p => ok_cmd m (snd p) = true /\ nj_cmd true false (snd p) = true) (d_fn d);
  i_tr : Forall (fun p => ok_lines m (snd p) = true /\ (m = true -> fst p = 0%N -> snd p = []))
           (d_tr d);
  i_orr : m = false -> d_orr d = false;
  i_inter : d_inter d = false
}.

Record base (s : sh) : Prop := mkbase {
  b_x : s_x s = XNone;
  b_le : e_ln (s_e s) <= e_bn (s_e s);
  b_nr : e_nr (s_e s) = false;
  b_inv : inv (s_d s)
}.

Definition flow (s : sh) (o : outcome) : Prop :=
  let ln := e_ln (s_e s) in let bn := e_bn (s_e s) in
  match o with
  | ONorm => s_x s = XNone /\ ln <= bn
  | OBrk k => s_x s = XNone /\ k < ln /\ bn = ln - S k /\ d_last (s_d s) = 0%N
  | OCont k => s_x s = XContinue /\ k < ln /\ bn = ln - k /\ d_last (s_d s) = 0%N
  | ORet => s_x s = XReturn /\ ln <= bn
  | OBrkI => s_x s = XBreakIter /\ ln <= bn
  | OContI => s_x s = XContinueIter /\ ln <= bn
  end.

(** Attributes of tasks: those that are simulated, the corresponding job, the
    flag "finally exit", ... *)
Definition main (t : task) : bool :=
  match t with
  | TComs _ TyAsync | TKids _ _ _ _ _ | TFunc _ _ | TCond _ | TEndLoop _ | TSigs | TPass _ | TErr _
  | TMaybeExit _ | TExit _ => false
  | _ => true
  end.
Definition job_of (t : task) : job :=
  match t with
  | TList l _ => JList l
  | TPipes f ps _ => JPipes f ps
  | TComs cs _ => JComs cs
  | TOne c _ => JOne c
  | TKind k _ => JKind k
  | TBody b _ => JBody b
  | TIf cls _ => JIf cls
  | TFors v ws l _ => JFors v ws l
  | TWhile ty c l st _ => JWhile ty c l st
  | TLines ls e _ _ => JLines ls e
  | TIter lss sv c => JIter lss sv c
  | _ => JSigs
  end.
Definition fe_of (t : task) : bool :=
  match t with
  | TList _ fe | TPipes _ _ fe | TOne _ fe | TKind _ fe | TBody _ fe | TIf _ fe | TFors _ _ _ fe
  | TWhile _ _ _ _ fe | TLines _ _ fe _ => fe
  | TComs _ ty => is_self ty
  | _ => false
  end.
Definition soft_of (t : task) : bool :=
  match t with TOne _ _ | TKind _ _ | TBody _ _ => true | _ => false end.
Definition loop_of (t : task) : bool :=
  match t with TFors _ _ _ _ | TWhile _ _ _ _ _ => true | _ => false end.
Definition is_iter (t : task) : bool := match t with TIter _ _ _ => true | _ => false end.
Definition light_of (t : task) : bool := match t with TKind k _ => light k | _ => false end.
Definition ok_cls (cls : list (list andor * list andor)) : bool :=
  forallb (fun p => match p with (c, l) => ok_list m c && ok_list m l end) cls
  && nj_list false false (fst (last cls ([], []))).
Definition ok_cmds (cs : list cmd) : bool :=
  forallb (ok_cmd m) cs && match cs with [] => false | [_] => true | _ => nb_last cs end.
Definition ok_of (t : task) : bool :=
  match t with
  | TList l _ => ok_list m l
  | TPipes _ ps _ => forallb (ok_pipe m) ps
  | TComs cs _ => ok_cmds cs
  | TOne c _ => ok_cmd m c
  | TKind k _ => ok_kind m k
  | TBody b _ => ok_body m b && match b with BSimple _ _ => false | _ => true end
  | TIf cls _ => ok_cls cls
  | TFors _ _ l _ => ok_list m l
  | TWhile _ c l _ _ => ok_list m c && ok_list m l
  | TLines ls _ _ _ => ok_lines m ls
  | TIter lss _ _ => forallb (ok_lines m) lss
  | _ => true
  end.
Definition nj_of (r i : bool) (t : task) : bool :=
  match t with
  | TList l _ => nj_list r i l
  | TPipes _ ps _ => forallb (nj_pipe r i) ps
  | TComs cs _ => forallb (nj_cmd r i) cs
  | TOne c _ => nj_cmd r i c
  | TKind k _ => nj_kind r i k
  | TBody b _ => nj_body r i b
  | TIf cls _ => forallb (fun p => match p with (c, l) => nj_list r i c && nj_list r i l end) cls
  | TFors _ _ l _ => nj_list r i l
  | TWhile _ c l _ _ => nj_list r i c && nj_list r i l
  | TLines ls _ _ _ => nj_lines r i ls
  | TIter lss _ _ => forallb (nj_lines r true) lss
  | _ => true
  end.

Definition okout (r i : bool) (o : outcome) : Prop :=
  match o with ORet => r = true | OBrkI | OContI => i = true | _ => True end.

Record pre (t : task) (s : sh) : Prop := mkpre {
  p_main : main t = true;
  p_base : base s;
  p_ok : ok_of t = true;
  p_calm : light_of t = false -> calm (s_d s);
  p_fe : fe_of t = true -> s_ser s = false /\ d_ex (s_d s) = None /\ e_it (s_e s) = false;
  p_any : soft_of t = true -> fe_of t = true -> d_any (s_d s) = false;
  p_loop : loop_of t = true -> e_ln (s_e s) <> 0
}.

(** What is not changed, the number of loops being [b] less. *)
Record keep (b : bool) (s s' : sh) : Prop := mkkeep {
  k_see : s_see s' = s_see s;
  k_ser : s_ser s' = s_ser s;
  k_ln : e_ln (s_e s') = if b then pred (e_ln (s_e s)) else e_ln (s_e s);
  k_nr : e_nr (s_e s') = e_nr (s_e s);
  k_it : e_it (s_e s') = e_it (s_e s);
  k_ex : d_ex (s_d s') = d_ex (s_d s);
  k_hand : d_hand (s_d s) = true -> d_hand (s_d s') = true /\ d_save (s_d s') = d_save (s_d s)
}.

Record RR (t : task) (s : sh) (o : outcome) (s' : sh) : Prop := mkRR {
  r_keep : keep (loop_of t) s s';
  r_flow : flow s' o;
  r_inv : inv (s_d s');
  r_m : m = false -> match o with ONorm | OBrk _ => True | _ => False end;
  r_iter : match o with OBrkI | OContI => e_it (s_e s) = true /\ is_iter t = false | _ => True end;
  r_nj : forall r i, nj_of r i t = true -> s_ser s = true \/ r = true -> okout r i o;
  r_calm : calm (s_d s') \/ soft_of t = true /\ o = ONorm /\ d_any (s_d s) = true
}.

Definition closes (fe : bool) (c : cx) (f : fin O) (v : V O) (st : N) : Prop :=
  f = Stop v st \/
  fe = true /\ exists o d1, f = Go o d1 /\ calm d1 /\ d_ex d1 = None
                            /\ ev c (JExit None) d1 (Stop v st).

Definition good (t : task) (s : sh) (r : res out) : Prop :=
  match r with
  | Ok (Cont s') =>
    fe_of t = false /\ exists o, ev (cxs s) (job_of t) (s_d s) (Go o (s_d s')) /\ RR t s o s'
  | Ok (Dead v st) =>
    exists f, ev (cxs s) (job_of t) (s_d s) f /\ closes (fe_of t) (cxs s) f v st
  | UB => False
  | Fuel => True
  end.

Definition SIM (n : nat) : Prop := forall t s, pre t s -> good t s (exec n t s).

(** ** Small facts *)

Lemma sd_last_id (d : dat) : sd_last (d_last d) d = d.
Proof. destruct d; reflexivity. Qed.
Lemma sd_last_eq (d : dat) v : d_last d = v -> sd_last v d = d.
Proof. intros <-. apply sd_last_id. Qed.

Lemma acting_action (d : dat) g : acting g d = action d g.
Proof. unfold acting, action. destruct (d_ph d), (assoc g (d_tr d)) as [[]|]; reflexivity. Qed.

Lemma keep_refl s : keep false s s.
Proof. constructor; auto. Qed.
Lemma keep_trans b s1 s2 s3 : keep false s1 s2 -> keep b s2 s3 -> keep b s1 s3.
Proof.
  intros [A1 A2 A3 A4 A5 A6 A7] [B1 B2 B3 B4 B5 B6 B7].
  constructor; try congruence.
  - rewrite B3, A3. reflexivity.
  - intros H. destruct (A7 H) as [H1 H2]. destruct (B7 H1) as [H3 H4]. split; congruence.
Qed.
Lemma keep_d s d' : d_ex d' = d_ex (s_d s) ->
  (d_hand (s_d s) = true -> d_hand d' = true /\ d_save d' = d_save (s_d s)) ->
  keep false s (ss_d d' s).
Proof. constructor; auto. Qed.

(** JExit depends on little of the context. *)
Lemma exit_cx c c' st d f : ev c (JExit st) d f -> c_see c = c_see c' -> c_ser c = c_ser c' ->
  @ev O c' (JExit st) d f.
Proof.
  intros H A B. assert (E : intrap c = intrap c') by (unfold intrap; congruence).
  inversion H; subst; try rewrite E in *.
  - apply X_plain; auto.
  - eapply X_trap; eauto.
  - eapply X_trap_stop; eauto.
  - apply X_again; auto.
Qed.
Lemma exit_some c v d f : ev c (JExit (Some v)) d f -> d_ex d = None ->
  @ev O c (JExit None) (sd_last v d) f.
Proof.
  intros H A. inversion H; subst; try congruence.
  - apply (X_plain c None (sd_last v d)); auto.
  - apply (X_trap c None v (sd_last v d) ls o d1); auto.
  - apply (X_trap_stop c None v (sd_last v d) ls); auto.
Qed.
Lemma exit_last c d f : ev c (JExit (Some (d_last d))) d f -> d_ex d = None ->
  @ev O c (JExit None) d f.
Proof. intros H A. rewrite <- (sd_last_id d). apply exit_some; auto. Qed.

Lemma quiet_false c : quiet false c = c.
Proof. destruct c. unfold quiet. cbn. rewrite !orb_false_r. reflexivity. Qed.

Lemma flow_break s o : flow s o -> o <> ONorm -> need_break s = true.
Proof.
  unfold need_break. destruct o; cbn; intros F N; try congruence;
    destruct F as [-> F]; cbn; try apply orb_true_r.
  destruct F as (F1 & F2 & _). apply orb_true_iff. left. apply Nat.ltb_lt. lia.
Qed.
Lemma flow_norm (s : sh) : s_x s = XNone -> e_ln (s_e s) <= e_bn (s_e s) -> need_break s = false.
Proof.
  intros A B. unfold need_break. rewrite A. cbn. apply orb_false_iff. split; [|reflexivity].
  apply Nat.ltb_ge. assumption.
Qed.
Lemma base_nb s : base s -> need_break s = false.
Proof. intros [A B _ _]. apply flow_norm; auto. Qed.

Lemma onorm_dec (o : outcome) : {o = ONorm} + {o <> ONorm}.
Proof. destruct o; (left; reflexivity) || (right; discriminate). Qed.
Lemma abrupt_go o d : o <> ONorm -> @abrupt O (Go o d).
Proof. destruct o; cbn; auto. Qed.

(** ** The invariant *)

Lemma inv_w d w : inv d -> inv (sd_w w d).
Proof. intros [A B C D E F]. constructor; auto. Qed.
Lemma inv_last d w : inv d -> inv (sd_last w d).
Proof. intros [A B C D E F]. constructor; auto. Qed.
Lemma inv_save d w : inv d -> inv (sd_save w d).
Proof. intros [A B C D E F]. constructor; auto. Qed.
Lemma inv_hand d w : inv d -> inv (sd_hand w d).
Proof. intros [A B C D E F]. constructor; auto. Qed.
Lemma inv_ex d w : inv d -> inv (sd_ex w d).
Proof. intros [A B C D E F]. constructor; auto. Qed.

Lemma inv_pend d p : inv d -> (p <> [] -> d_any d = true) -> inv (sd_pend p d).
Proof. intros [A B C D E F]. constructor; auto. Qed.

Lemma filter_remove g l : filter (fun p => negb (N.eqb g p)) l = remove N.eq_dec g l.
Proof.
  induction l as [|a l IH]; cbn; auto. destruct (N.eq_dec g a) as [->|N].
  - rewrite N.eqb_refl. cbn. exact IH.
  - apply N.eqb_neq in N. rewrite N. cbn. congruence.
Qed.
Lemma existsb_In g l : existsb (N.eqb g) l = true <-> In g l.
Proof.
  rewrite existsb_exists. split.
  - intros (x & H & E). apply N.eqb_eq in E. congruence.
  - intros H. exists g. split; auto. apply N.eqb_refl.
Qed.
Lemma existsb_nIn g l : existsb (N.eqb g) l = false <-> ~ In g l.
Proof.
  rewrite <- existsb_In. destruct (existsb (N.eqb g) l); intuition congruence.
Qed.

Lemma deliver_catches sgs (d : dat) : catches sgs d (deliver sgs d).
Proof.
  unfold deliver. eexists. split; [reflexivity|]. intros g.
  rewrite in_app_iff, filter_In, andb_true_iff, existsb_In, <- acting_action.
  destruct (acting g d); intuition congruence.
Qed.
Lemma deliver_nil (d : dat) : deliver [] d = d.
Proof. unfold deliver. cbn. rewrite app_nil_r. destruct d; reflexivity. Qed.
Lemma deliver_none sgs (d : dat) : (forall g, acting g d = None) -> deliver sgs d = d.
Proof.
  intros H. unfold deliver. replace (filter _ sgs) with (@nil N).
  - rewrite app_nil_r. destruct d; reflexivity.
  - induction sgs as [|g l IH]; cbn; auto. rewrite H. cbn. exact IH.
Qed.
Lemma inv_deliver sgs d : inv d -> inv (deliver sgs d).
Proof.
  intros I. unfold deliver. apply inv_pend; auto. intros H.
  destruct (d_any d) eqn:A; auto. exfalso. apply H.
  change (d_pend (deliver sgs d) = []). rewrite deliver_none by (apply I; auto).
  destruct (d_pend d) eqn:P; auto. assert (d_any d = true) by (apply I; congruence). congruence.
Qed.

Lemma any_false d : inv d -> d_any d = false -> d_pend d = [] /\ forall g, acting g d = None.
Proof.
  intros I A. split; [|apply I; auto].
  destruct (d_pend d) eqn:P; auto. assert (d_any d = true) by (apply I; congruence). congruence.
Qed.

Lemma same_refl (d : dat) : same_but_traps d d.
Proof. unfold same_but_traps. tauto. Qed.
Lemma phantomize_child d : inv d ->
  same_but_traps d (phantomize d) /\ d_pend (phantomize d) = [] /\ d_any (phantomize d) = false
  /\ forall g, acting g (phantomize d) = None.
Proof.
  intros I. unfold phantomize. destruct (d_any d) eqn:A.
  - cbn. repeat (split; [auto using same_refl; try reflexivity|]); try reflexivity.
  - destruct (any_false d I A) as [P Q]. rewrite P. cbn.
    auto using same_refl.
Qed.
Lemma starts_child_ok d : inv d -> starts_child d (child_d d).
Proof.
  intros I. destruct (phantomize_child d I) as (A & B & C & D). unfold starts_child, child_d.
  repeat split; try apply A; auto. intros g. rewrite <- acting_action. exact (D g).
Qed.
Lemma inv_child d : inv d -> inv (child_d d) /\ d_any (child_d d) = false /\ d_pend (child_d d) = []
  /\ d_ex (child_d d) = None.
Proof.
  intros I. destruct (phantomize_child d I) as (A & B & C & D).
  assert (H : d_fn (phantomize d) = d_fn d /\ d_tr (phantomize d) = d_tr d
              /\ d_orr (phantomize d) = d_orr d).
  { unfold phantomize. destruct (negb (d_any d) && _); auto. }
  destruct H as (H1 & H2 & H3).
  split; [|auto]. constructor.
  - intros _ g. exact (D g).
  - intros H. exfalso. apply H. exact B.
  - cbn. rewrite H1. apply I.
  - cbn. rewrite H2. apply I.
  - cbn. rewrite H3. apply I.
  - reflexivity.
Qed.

(** trap *)
Lemma assoc_filter {A} g (l : list (N * A)) sg :
  assoc g (filter (fun p => negb (N.eqb sg (fst p))) l) = if N.eq_dec g sg then None else assoc g l.
Proof.
  induction l as [|[a b] l IH]; cbn.
  - destruct (N.eq_dec g sg); reflexivity.
  - destruct (N.eqb sg a) eqn:E; cbn.
    + apply N.eqb_eq in E. subst a. rewrite IH. destruct (N.eq_dec g sg) as [|N]; auto.
      apply N.eqb_neq in N. rewrite N. reflexivity.
    + rewrite IH. apply N.eqb_neq in E. destruct (N.eqb g a) eqn:F; auto.
      apply N.eqb_eq in F. subst a. destruct (N.eq_dec g sg); congruence.
Qed.
Lemma banish_ph (d : dat) : d_ph (banish d) = false.
Proof. unfold banish. destruct (d_ph d) eqn:E; auto. Qed.
Lemma assoc_In {A} g (l : list (N * A)) x : assoc g l = Some x -> In (g, x) l.
Proof.
  induction l as [|[a b] l IH]; cbn; [discriminate|]. destruct (N.eqb g a) eqn:E.
  - apply N.eqb_eq in E. intros [= ->]. subst. auto.
  - auto.
Qed.
Lemma banish_action (d : dat) g : action (banish d) g = action d g.
Proof.
  unfold banish. destruct (d_ph d) eqn:E; auto. unfold action. rewrite E. cbn.
  destruct (assoc g _) as [[|l ls]|] eqn:F; auto. exfalso.
  apply assoc_In in F. apply filter_In in F. destruct F as [_ F]. discriminate.
Qed.
Lemma set_trap_ok sg a (d : dat) : sets_trap sg a d (set_trap sg a (banish d)).
Proof.
  assert (S1 : same_but_traps d (set_trap sg a (banish d))
              /\ d_ex (set_trap sg a (banish d)) = d_ex d
              /\ d_inter (set_trap sg a (banish d)) = d_inter d).
  { unfold set_trap, banish, same_but_traps. destruct (d_ph d), a as [[]|]; cbn; tauto. }
  assert (P : d_pend (set_trap sg a (banish d)) = remove N.eq_dec sg (d_pend d)).
  { rewrite <- filter_remove.
    unfold set_trap, banish. destruct (d_ph d), a as [[]|]; reflexivity. }
  destruct S1 as (S1 & S2 & S3). split; [exact S1|]. split; [exact S2|]. split; [exact S3|].
  split.
  - intros g. rewrite P. split.
    + intros H. apply in_remove in H. exact H.
    + intros [H1 H2]. apply in_in_remove; auto.
  - intros g. rewrite <- (banish_action d g). generalize (banish_ph d).
    generalize (banish d) as d0. intros d0 PH. unfold action, set_trap.
    assert (Q : forall t p y, d_ph (sd_any y (sd_tr t (sd_pend p d0))) = false) by (intros; exact PH).
    destruct a as [[|l ls]|]; cbn [d_ph d_tr sd_any sd_tr sd_pend]; rewrite PH; cbn [assoc].
    + rewrite assoc_filter. destruct (N.eq_dec g sg) as [->|N].
      * rewrite N.eqb_refl. reflexivity.
      * apply N.eqb_neq in N. rewrite N. reflexivity.
    + rewrite assoc_filter. destruct (N.eq_dec g sg) as [->|N].
      * rewrite N.eqb_refl. reflexivity.
      * apply N.eqb_neq in N. rewrite N. reflexivity.
    + rewrite assoc_filter. destruct (N.eq_dec g sg) as [->|N]; reflexivity.
Qed.
Lemma Forall_filter {A} (P : A -> Prop) f l : Forall P l -> Forall P (filter f l).
Proof. rewrite !Forall_forall. intros H x I. apply filter_In in I. apply H, I. Qed.

Lemma inv_banish d : inv d -> inv (banish d) /\ d_pend (banish d) = d_pend d /\ d_hand (banish d) = d_hand d
  /\ d_ex (banish d) = d_ex d /\ d_save (banish d) = d_save d.
Proof.
  intros I. split.
  - assert (Q : forall g, acting g (banish d) = acting g d).
    { intros g. rewrite !acting_action. apply banish_action. }
    constructor.
    + intros A g. rewrite Q. apply I. revert A. unfold banish. destruct (d_ph d); auto.
    + unfold banish. destruct (d_ph d); apply I.
    + unfold banish. destruct (d_ph d); apply I.
    + unfold banish. destruct (d_ph d); [|apply I]. cbn. apply Forall_filter. apply I.
    + unfold banish. destruct (d_ph d); apply I.
    + unfold banish. destruct (d_ph d); apply I.
  - unfold banish. destruct (d_ph d); auto.
Qed.
Lemma inv_set_trap sg a d : inv d -> ok_kind m (KTrap sg a) = true -> inv (set_trap sg a d).
Proof.
  intros I K.
  assert (P : forall p, filter p (d_pend d) <> [] -> d_pend d <> []).
  { intros p H E. rewrite E in H. auto. }
  assert (T : Forall (fun p => ok_lines m (snd p) = true /\ (m = true -> fst p = 0%N -> snd p = []))
            (filter (fun p => negb (N.eqb sg (fst p))) (d_tr d))).
  { apply Forall_filter, I. }
  assert (Q : d_any d = false -> forall g, acting g (sd_tr (filter (fun p => negb (N.eqb sg (fst p))) (d_tr d)) d) = None).
  { intros A g. generalize (i_any _ I A g). unfold acting. cbn. destruct (d_ph d); auto.
    rewrite assoc_filter. destruct (N.eq_dec g sg); auto. }
  destruct a as [[|l ls]|]; constructor; cbn;
    try (intros H; apply I, (P _ H)); try apply I; auto.
  - intros A g. generalize (Q A g). unfold acting. cbn. destruct (d_ph d); auto.
    destruct (N.eqb g sg); auto.
  - discriminate.
  - constructor; auto. cbn [snd fst]. cbn [ok_kind] in K. apply andb_true_iff in K.
    destruct K as [K1 K2]. split; [exact K2|]. intros -> ->. discriminate.
Qed.

(** Statuses. *)
Lemma job_status_ok pf sts : sts <> [] -> pipeline_status pf sts (job_status pf sts).
Proof.
  intros N. unfold job_status, pipeline_status. destruct pf; cbn [negb].
  - assert (H : forall l, match find (fun st => negb (N.eqb st Exit_SUCCESS)) l with
                | Some st => exists a b, l = a ++ st :: b /\ st <> 0%N /\ Forall (eq 0%N) a
                | None => Forall (eq 0%N) l end).
    { induction l as [|a l IH]; cbn; auto. destruct (N.eqb a Exit_SUCCESS) eqn:E; cbn.
      - apply N.eqb_eq in E. unfold Exit_SUCCESS in E. subst a.
        destruct (find _ l) as [st|].
        + destruct IH as (x & y & -> & A & B). exists (0%N :: x), y. split; auto.
        + constructor; auto.
      - apply N.eqb_neq in E. exists [], l. auto. }
    specialize (H (rev sts)). destruct (find _ (rev sts)) as [st|].
    + right. destruct H as (a & b & E & A & B). exists (rev b), (rev a). split; [|split].
      * rewrite <- (rev_involutive sts), E, rev_app_distr. cbn. rewrite <- app_assoc. reflexivity.
      * exact A.
      * rewrite Forall_forall in *. intros x I. apply B, in_rev, I.
    + left. split; [|reflexivity]. rewrite Forall_forall in *. intros x I. apply H.
      apply in_rev in I. exact I.
  - exists (removelast sts). apply app_removelast_last. exact N.
Qed.

Lemma err_plain cs : is_err_condition_for cs = true <-> plain cs.
Proof.
  destruct cs as [|[r b] [|]]; cbn; try (destruct b; cbn; intuition congruence); tauto.
Qed.

Lemma special_ok k : special k = true <-> special_builtin k.
Proof. destruct k; cbn; intuition congruence. Qed.

Lemma try_pats_ok v ps (w : W O) : pats v ps w (fst (try_pats v ps w)) (snd (try_pats v ps w)).
Proof.
  revert w. induction ps as [|p ps IH]; intros w; cbn; [constructor|].
  destruct (o_pat O p v w) as [w1 [[]|]] eqn:E; cbn.
  - eapply P_yes; eauto.
  - eapply P_no; eauto.
  - eapply P_err; eauto.
Qed.
Lemma find_item_ok v its (w : W O) :
  chosen v its w (fst (find_item v its w))
    (match snd (find_item v its w) with FNone => Some [] | FErr => None | FItem l => Some l end).
Proof.
  revert w. induction its as [|[ps l] its IH]; intros w; cbn; [constructor|].
  generalize (try_pats_ok v ps w). destruct (try_pats v ps w) as [w1 [[]|]]; cbn; intros P.
  - eapply Ch_yes; eauto.
  - eapply Ch_no; eauto.
  - eapply Ch_err; eauto.
Qed.
Lemma find_item_forallb v its w l p :
  snd (find_item (O:=O) v its w) = FItem l ->
  forallb (fun q : list N * list andor => match q with (_, l) => p l end) its = true -> p l = true.
Proof.
  revert w. induction its as [|[ps l'] its IH]; intros w; cbn; [discriminate|].
  rewrite andb_true_iff. destruct (try_pats v ps w) as [w1 [[]|]]; cbn; intros E [A B].
  - inversion E; subst; auto.
  - eauto.
  - discriminate.
Qed.

End Sim.
