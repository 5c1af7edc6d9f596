(** exec.c follows the structured semantics: one lemma for each function. *)
From Coq Require Import List NArith Bool Arith Lia.
From Verif Require Import Common ExecModel ExecSpec ExecOk ExecSim.
Import ListNotations.

Ltac sp := repeat match goal with |- _ /\ _ => split end.

Section Proofs.
Context {O : os} (OK : os_ok O) (m : bool).
Notation dat := (dat O).
Notation sh := (sh O).
Notation out := (out O).
Notation task := (@task O).
Notation job := (@job O).
Notation inv := (@inv O m).
Notation base := (@base O m).
Notation RR := (@RR O m).
Notation pre := (@pre O m).
Notation good := (@good O m).
Notation SIM := (@SIM O m).
Context (n : nat) (IH : forall k, k < n -> SIM k).

Lemma keep_cxs s s' : @keep O false s s' -> cxs s' = cxs s.
Proof. intros K. unfold cxs. f_equal; apply K. Qed.

Lemma base_next t s s' : loop_of t = false -> RR t s ONorm s' -> base s -> base s'.
Proof.
  intros L R B. destruct (r_flow _ _ _ _ _ R) as [X Le]. constructor; auto.
  - rewrite (k_nr _ _ _ (r_keep _ _ _ _ _ R)). apply B.
  - apply R.
Qed.

Lemma RR_via t1 s1 t s o s' : RR t1 s1 o s' -> keep false s s1 ->
  loop_of t1 = loop_of t -> (is_iter t1 = false -> is_iter t = false) ->
  (soft_of t1 = true -> soft_of t = true /\ d_any (s_d s1) = d_any (s_d s)) ->
  (forall r i, nj_of r i t = true -> nj_of r i t1 = true) ->
  RR t s o s'.
Proof.
  intros R K L I S NJ. destruct R as [A B C D E F G]. constructor; auto.
  - rewrite <- L. eapply keep_trans; eauto.
  - destruct o; auto; destruct E; split; auto; rewrite <- (k_it _ _ _ K); auto.
  - intros r i H1 H2. apply F; auto. rewrite (k_ser _ _ _ K). exact H2.
  - destruct G as [G|(G1 & G2 & G3)]; auto. right. destruct (S G1) as [S1 S2].
    sp; auto. congruence.
Qed.

Lemma good_seq t1 s1 t s r : good t1 s1 r -> keep false s s1 ->
  fe_of t1 = fe_of t ->
  (forall f, ev (cxs s) (job_of t1) (s_d s1) f -> ev (cxs s) (job_of t) (s_d s) f) ->
  loop_of t1 = loop_of t -> (is_iter t1 = false -> is_iter t = false) ->
  (soft_of t1 = true -> soft_of t = true /\ d_any (s_d s1) = d_any (s_d s)) ->
  (forall r i, nj_of r i t = true -> nj_of r i t1 = true) ->
  good t s r.
Proof.
  intros G K FE EV L I S NJ. unfold ExecSim.good in *. rewrite (keep_cxs _ _ K), FE in G.
  destruct r as [[s'|v st]| |]; auto.
  - destruct G as (G1 & o & G2 & G3). split; auto. exists o. split; auto.
    eapply RR_via; eauto.
  - destruct G as (f & G1 & G2). exists f. auto.
Qed.

(** ** Exit *)

Definition exits (st : option N) (s : sh) (r : res out) : Prop :=
  match r with
  | Ok (Dead v z) => ev (cxs s) (JExit st) (s_d s) (Stop v z)
  | Ok (Cont _) | UB => False
  | Fuel => True
  end.

Lemma lines_pre ls s : base s -> ok_lines m ls = true -> calm (s_d s) ->
  pre (TLines ls false false false) s.
Proof. intros A B C. constructor; auto; discriminate. Qed.

Lemma exit_ok k st s : k <= n -> inv (s_d s) -> calm (s_d s) -> (m = false -> s_x s = XNone) ->
  exits st s (exec k (TExit st) s).
Proof.
  intros Hk I C X. destruct k as [|k]; [exact Logic.I|]. cbn [exec].
  set (d := match st with Some v => sd_last v (s_d s) | None => s_d s end).
  assert (D : d_ex d = d_ex (s_d s) /\ d_w d = d_w (s_d s) /\ d_ph d = d_ph (s_d s)
              /\ d_tr d = d_tr (s_d s) /\ d_pend d = d_pend (s_d s) /\ d_hand d = d_hand (s_d s)
              /\ d_last d = match st with Some v => v | None => d_last (s_d s) end
              /\ sd_last (d_last d) (s_d s) = d /\ inv d).
  { unfold d. destruct st; cbn; repeat (split; [try reflexivity|]); auto using inv_last.
    apply sd_last_id. }
  clearbody d. destruct D as (D1 & D2 & D3 & D4 & D5 & D6 & D7 & D8 & ID).
  rewrite D1. destruct (d_ex (s_d s)) as [v|] eqn:EX.
  - cbn [exits]. rewrite D2. apply X_again. exact EX.
  - cbn [d_ph sd_ex]. rewrite D3. destruct (d_ph (s_d s)) eqn:PH.
    { cbn [exits]. rewrite D7. cbn [d_w sd_ex]. rewrite D2. apply X_plain; auto.
      unfold action. rewrite PH. reflexivity. }
    cbn [d_tr sd_ex]. rewrite D4. destruct (assoc 0%N (d_tr (s_d s))) as [ls|] eqn:TR.
    2:{ cbn [exits]. rewrite D7. cbn [d_w sd_ex]. rewrite D2. apply X_plain; auto.
        unfold action. rewrite PH, TR. reflexivity. }
    destruct ls as [|l ls].
    + (* an ignored EXIT trap *)
      assert (A : action (s_d s) 0 = None) by (unfold action; rewrite PH, TR; reflexivity).
      destruct k as [|k]; [exact Logic.I|]. cbn [exec].
      set (s1 := ss_e _ _).
      assert (Z : exists s2, (if need_break s1 then exec k (TMaybeExit false) s1
         else exec k (TMaybeExit false) (sets_last Exit_SUCCESS s1)) = exec k (TMaybeExit false) s2
         /\ d_ex (s_d s2) = Some (d_last d) /\ d_w (s_d s2) = d_w d).
      { destruct (need_break s1); eexists; (split; [reflexivity|]); split; reflexivity. }
      destruct Z as (s2 & -> & Z1 & Z2). destruct k as [|k]; [exact Logic.I|]. cbn [exec].
      rewrite Z1. cbn [exits]. rewrite Z2, D2, D7. apply X_plain; auto.
    + assert (TI := i_tr _ _ ID). rewrite D4 in TI. rewrite Forall_forall in TI.
      specialize (TI _ (assoc_In _ _ _ TR)). cbn [fst snd] in TI. destruct TI as [T1 T2].
      assert (M : m = false).
      { destruct (m); auto. discriminate (T2 eq_refl eq_refl). }
      assert (A : action (s_d s) 0 = Some (l :: ls)) by (unfold action; rewrite PH, TR; reflexivity).
      set (s1 := ss_e _ _).
      assert (P : pre (TLines (l :: ls) false false false) s1).
      { apply lines_pre; auto.
        - constructor; cbn; auto. apply inv_save, inv_ex, ID.
        - unfold calm in *. cbn. rewrite D5, D6. exact C. }
      assert (G := IH k Hk _ _ P).
      assert (EC : cxs s1 = intrap (cxs s)) by reflexivity.
      assert (ED : s_d s1 = sd_save (Some (d_last d)) (sd_ex (Some (d_last d))
                     (sd_last (d_last d) (s_d s)))) by (rewrite D8; reflexivity).
      unfold ExecSim.good in G. rewrite EC in G. cbn [job_of] in G. rewrite ED in G.
      rewrite D7 in G.
      destruct (exec k _ s1) as [[s2|v z]| |]; auto; cbn [exits].
      * destruct G as (_ & o & G & R).
        assert (E2 := k_ex _ _ _ (r_keep _ _ _ _ _ R)).
        cbn [s1 s_d ss_e ss_d d_ex sd_save sd_ex] in E2. unfold s1 in E2. cbn in E2. rewrite E2.
        cbn [exits]. rewrite D7.
        eapply X_trap; [exact EX|exact A|reflexivity|exact G].
      * destruct G as (f & G & [-> |(F & _)]); [|discriminate].
        eapply X_trap_stop; [exact EX|exact A|reflexivity|exact G].
Qed.

Lemma finish k fe t s s' o : k <= n -> fe_of t = fe ->
  ev (cxs s) (job_of t) (s_d s) (Go o (s_d s')) -> RR t s o s' ->
  (fe = true -> d_ex (s_d s) = None /\ calm (s_d s')) ->
  good t s (exec k (TMaybeExit fe) s').
Proof.
  intros Hk FE EV R C. destruct k as [|k]; [exact Logic.I|]. cbn [exec].
  destruct fe.
  - destruct (C eq_refl) as [C1 C2].
    assert (H : exits None s' (exec k (TExit None) s')).
    { apply exit_ok; auto; [lia|apply R|]. intros M. assert (A := r_m _ _ _ _ _ R M).
      assert (F := r_flow _ _ _ _ _ R). destruct o; try contradiction; apply F. }
    destruct (exec k (TExit None) s') as [[s''|v st]| |]; auto; cbn [exits] in H; try contradiction.
    cbn. exists (Go o (s_d s')). split; auto. right. split; auto. exists o, (s_d s').
    sp; auto.
    + rewrite (k_ex _ _ _ (r_keep _ _ _ _ _ R)). exact C1.
    + eapply exit_cx; [exact H| |]; apply (r_keep _ _ _ _ _ R).
  - cbn. split; auto. exists o. auto.
Qed.

(** ** Signals *)

Definition passes (tab : list N) (sv : N) (s : sh) (r : res out) : Prop :=
  match r with
  | Ok (Cont s') =>
    ev (intrap (cxs s)) (JPass tab sv) (s_d s) (Go ONorm (s_d s')) /\ s' = ss_d (s_d s') s
    /\ inv (s_d s') /\ d_ex (s_d s') = d_ex (s_d s) /\ d_pend (s_d s') = []
    /\ d_last (s_d s') = sv
  | Ok (Dead v z) => ev (intrap (cxs s)) (JPass tab sv) (s_d s) (Stop v z)
  | UB => False
  | Fuel => True
  end.

Lemma pass_ok k : k <= n -> forall tab s sv, s_x s = XNone -> inv (s_d s) ->
  d_save (s_d s) = Some sv -> d_last (s_d s) = sv -> passes tab sv s (exec k (TPass tab) s).
Proof.
  induction k as [|k IHk]; intros Hk tab s sv X I SV LA; [exact Logic.I|].
  assert (Hk' : k <= n) by lia. specialize (IHk Hk'). cbn [exec].
  destruct tab as [|sg tab].
  - destruct (d_pend (s_d s)) eqn:P.
    + cbn. sp; auto; [|destruct s; reflexivity]. apply Q_end. exact P.
    + assert (G := IHk (o_sigtab O) s sv X I SV LA).
      unfold passes in *. destruct (exec k (TPass (o_sigtab O)) s) as [[s'|v z]| |]; auto.
      * destruct G as (G & G'). split; [|exact G']. apply Q_again; auto. congruence.
      * apply Q_again; auto. congruence.
  - destruct (existsb (N.eqb sg) (d_pend (s_d s))) eqn:IN.
    + apply existsb_In in IN. set (d1 := sd_pend _ (s_d s)).
      assert (D1 : d1 = sd_pend (remove N.eq_dec sg (d_pend (s_d s))) (s_d s)).
      { unfold d1. rewrite filter_remove. reflexivity. }
      assert (I1 : inv d1).
      { unfold d1. apply inv_pend; auto. intros H. apply I. intros E. rewrite E in H. auto. }
      clearbody d1.
      assert (AC : acting sg d1 = action (s_d s) sg) by (rewrite acting_action, D1; reflexivity).
      assert (EQ : d_save d1 = d_save (s_d s) /\ d_last d1 = d_last (s_d s) /\ d_ex d1 = d_ex (s_d s))
        by (rewrite D1; auto).
      destruct EQ as (EQ1 & EQ2 & EQ3).
      destruct (acting sg d1) as [ls|] eqn:AT.
      * set (s1 := ss_e _ _).
        assert (P : pre (TLines ls false false false) s1).
        { apply lines_pre; auto.
          - constructor; cbn; auto. apply inv_hand, I1.
          - unfold acting in AT. destruct (d_ph d1); [discriminate|].
            destruct (assoc sg (d_tr d1)) as [[|l ls']|] eqn:AS; try discriminate.
            inversion AT; subst ls. assert (T := i_tr _ _ I1). rewrite Forall_forall in T.
            apply (T _ (assoc_In _ _ _ AS)).
          - right. reflexivity. }
        assert (G := IH k Hk _ _ P).
        unfold ExecSim.good in G. change (cxs s1) with (intrap (cxs s)) in G. cbn [job_of] in G.
        change (s_d s1) with (sd_hand true d1) in G. rewrite D1 in G.
        destruct (exec k _ s1) as [[s2|v z]| |]; auto; cbn [andthen].
        -- destruct G as (_ & o & G & R).
           assert (K := r_keep _ _ _ _ _ R). cbn [loop_of] in K.
           destruct (k_hand _ _ _ K eq_refl) as [H1 H2].
           change (d_save (s_d s1)) with (d_save d1) in H2.
           assert (XX : s_x (cancel_return s2) = XNone /\ s_d (cancel_return s2) = s_d s2
                        /\ s_see (cancel_return s2) = s_see s /\ s_ser (cancel_return s2) = s_ser s).
           { assert (F := r_flow _ _ _ _ _ R). assert (L := k_ln _ _ _ K). cbn in L.
             assert (IT := r_iter _ _ _ _ _ R).
             assert (S1 := k_see _ _ _ K). assert (S2 := k_ser _ _ _ K). cbn in S1, S2.
             unfold cancel_return.
             destruct o; cbn in F, IT; try (destruct IT; discriminate);
               destruct F as [FX F]; rewrite FX; cbn; rewrite ?FX; auto; exfalso; lia. }
           destruct XX as (X1 & X2 & X3 & X4).
           cbn [s_d ss_e]. rewrite X2. rewrite H2, EQ1, SV.
           set (s3 := sets_last sv (ss_e (s_e s) (cancel_return s2))).
           assert (E3 : s3 = ss_d (sd_last sv (s_d s2)) s).
           { unfold s3, sets_last. unfold ss_d, ss_e. cbn. rewrite X1, X2, X3, X4, X. reflexivity. }
           clearbody s3. subst s3.
           assert (Q : passes tab sv (ss_d (sd_last sv (s_d s2)) s) (exec k (TPass tab) (ss_d (sd_last sv (s_d s2)) s))).
           { apply IHk; auto.
             - apply inv_last, R.
             - cbn. rewrite H2, EQ1. exact SV. }
           unfold passes in *. change (cxs (ss_d (sd_last sv (s_d s2)) s)) with (cxs s) in Q.
           destruct (exec k (TPass tab) _) as [[s4|v z]| |]; auto.
           ++ destruct Q as (Q1 & Q2 & Q3 & Q4 & Q5 & Q6). cbn in Q4.
              assert (KE := k_ex _ _ _ K). cbn in KE.
              sp; auto; [|congruence].
              eapply Q_act; [exact IN|symmetry; exact AC|exact G|exact Q1].
           ++ eapply Q_act; [exact IN|symmetry; exact AC|exact G|exact Q].
        -- destruct G as (f & G & [-> |(F & _)]); [|discriminate]. cbn.
           eapply Q_stop; [exact IN|symmetry; exact AC|exact G].
      * assert (Q : passes tab sv (ss_d d1 s) (exec k (TPass tab) (ss_d d1 s))).
        { apply IHk; cbn; auto; congruence. }
        unfold passes in *. change (cxs (ss_d d1 s)) with (cxs s) in Q. cbn [s_d ss_d] in Q.
        destruct (exec k (TPass tab) _) as [[s4|v z]| |]; auto.
        -- destruct Q as (Q1 & Q2 & Q3 & Q4 & Q5 & Q6). sp; auto; [|congruence].
           rewrite D1 in Q1. apply Q_drop; auto.
        -- rewrite D1 in Q. apply Q_drop; auto.
    + apply existsb_nIn in IN. assert (Q := IHk tab s sv X I SV LA). unfold passes in *.
      destruct (exec k (TPass tab) s) as [[s4|v z]| |]; auto.
      * destruct Q as (Q & Q'). split; [|exact Q']. apply Q_skip; auto.
      * apply Q_skip; auto.
Qed.

Definition signals (s : sh) (r : res out) : Prop :=
  match r with
  | Ok (Cont s') =>
    ev (cxs s) JSigs (s_d s) (Go ONorm (s_d s')) /\ s' = ss_d (s_d s') s
    /\ keep false s s' /\ inv (s_d s') /\ calm (s_d s') /\ d_last (s_d s') = d_last (s_d s)
  | Ok (Dead v z) => ev (cxs s) JSigs (s_d s) (Stop v z)
  | UB => False
  | Fuel => True
  end.

Lemma sigs_calm k s : inv (s_d s) -> calm (s_d s) -> exec (S k) TSigs s = Ok (Cont s).
Proof.
  intros I C. cbn [exec].
  destruct C as [-> | ->]; rewrite ?orb_true_r; reflexivity.
Qed.

Lemma sigs_ok k s : k <= n -> inv (s_d s) -> (calm (s_d s) \/ s_x s = XNone) ->
  signals s (exec k TSigs s).
Proof.
  intros Hk I C. destruct k as [|k]; [exact Logic.I|].
  assert (CD : calm (s_d s) \/ (d_pend (s_d s) <> [] /\ d_hand (s_d s) = false /\ s_x s = XNone)).
  { destruct C as [C|C]; auto. unfold calm. destruct (d_pend (s_d s)); auto.
    destruct (d_hand (s_d s)); auto. right. sp; auto. discriminate. }
  destruct CD as [CD|(P & H & X)].
  - rewrite sigs_calm by auto. cbn. sp; auto using G_none, keep_refl. destruct s; reflexivity.
  - cbn [exec]. rewrite (i_pend _ _ I P), H. cbn [negb orb].
    destruct (d_pend (s_d s)) as [|p ps] eqn:PE; [congruence|]. cbn [orb].
    set (s1 := ss_d _ s).
    assert (Q : passes (o_sigtab O) (d_last (s_d s)) s1 (exec k (TPass (o_sigtab O)) s1)).
    { apply pass_ok; auto; [lia|]. apply inv_save, I. }
    unfold passes in Q. change (cxs s1) with (cxs s) in Q.
    change (s_d s1) with (sd_save (Some (d_last (s_d s))) (s_d s)) in Q.
    destruct (exec k (TPass _) s1) as [[s2|v z]| |]; auto; cbn [andthen signals].
    + destruct Q as (Q1 & Q2 & Q3 & Q4 & Q5 & Q6). cbn in Q4.
      set (d2 := s_d s2) in *. clearbody d2. subst s2.
      sp; auto; cbn [s_d ss_d].
      * apply G_run; auto. congruence.
      * constructor; cbn; auto. intros E. congruence.
      * apply inv_hand, inv_save, Q3.
      * left. exact Q5.
    + apply G_stop; auto. congruence.
Qed.

(** ** errexit and errreturn *)

Definition pl (cs : option (list cmd)) : Prop := match cs with None => True | Some cs => plain cs end.

Lemma err_ok k cs s o : k <= n -> inv (s_d s) -> calm (s_d s) -> flow s o ->
  e_nr (s_e s) = false -> (m = false -> s_x s = XNone) ->
  match exec k (TErr cs) s with
  | Ok (Cont s') =>
    exists o', ev (cxs s) (JErr (pl cs) o) (s_d s) (Go o' (s_d s'))
      /\ (s' = s /\ o' = o
          \/ s' = ss_x XReturn s /\ o' = ORet /\ e_ln (s_e s) <= e_bn (s_e s)
             /\ s_ser s = false /\ m = true)
  | Ok (Dead v z) => ev (cxs s) (JErr (pl cs) o) (s_d s) (Stop v z)
  | UB => False
  | Fuel => True
  end.
Proof.
  intros Hk I C F NR X. destruct k as [|k]; [exact Logic.I|]. cbn [exec].
  set (fc := match cs with None => true | Some cs => is_err_condition_for cs end).
  assert (FC : fc = true <-> pl cs).
  { unfold fc, pl. destruct cs; [apply err_plain|tauto]. }
  clearbody fc. unfold is_errexit_condition, is_errreturn_condition. rewrite NR.
  assert (FA : fails (s_d s) <-> negb (N.eqb (d_last (s_d s)) Exit_SUCCESS) = true).
  { unfold fails, Exit_SUCCESS. destruct (N.eqb_spec (d_last (s_d s)) 0); cbn; intuition congruence. }
  destruct (negb (N.eqb (d_last (s_d s)) Exit_SUCCESS)) eqn:LA.
  2:{ rewrite !andb_false_r. cbn. exists o. split; auto. apply R_none.
      intros (_ & Q & _). apply FA in Q. discriminate. }
  assert (FL : fails (s_d s)) by (apply FA; auto).
  destruct fc.
  2:{ rewrite !andb_false_r. cbn. exists o. split; auto. apply R_none.
      intros (Q & _ & _). apply FC in Q. discriminate. }
  assert (PL : pl cs) by (apply FC; auto).
  rewrite !andb_true_r.
  destruct (d_oe (s_d s) && negb (s_see s)) eqn:OE.
  - apply andb_true_iff in OE. destruct OE as [OE1 OE2]. apply negb_true_iff in OE2.
    assert (E := exit_ok k (Some (d_last (s_d s))) s). specialize (E ltac:(lia) I C X).
    unfold exits in E. destruct (exec k (TExit _) s) as [[s'|v z]| |]; auto; try contradiction.
    apply R_exit; auto.
  - destruct (d_orr (s_d s) && negb (s_ser s)) eqn:ER; cbn [negb].
    + apply andb_true_iff in ER. destruct ER as [ER1 ER2]. apply negb_true_iff in ER2.
      cbn. exists ORet. split.
      * apply R_ret; auto. apply andb_false_iff in OE. destruct OE as [OE|OE]; auto.
        right. apply negb_false_iff in OE. exact OE.
      * right. sp; auto.
        -- destruct o; cbn in F; try apply F; exfalso; apply FL; apply F.
        -- destruct (m) eqn:M; auto. rewrite (i_orr _ _ I) in ER1; congruence.
    + cbn. exists o. split; auto. apply R_none. cbn.
      intros (_ & _ & [[Q1 Q2]|[Q1 Q2]]); rewrite Q1, Q2 in *; discriminate.
Qed.

(** What follows a command. *)
Lemma settle k t cs fe s s1 o : k <= n -> loop_of t = false -> is_iter t = false ->
  keep false s s1 -> e_nr (s_e s) = false -> flow s1 o -> inv (s_d s1) ->
  (m = false -> match o with ONorm | OBrk _ => True | _ => False end) ->
  match o with OBrkI | OContI => e_it (s_e s) = true | _ => True end ->
  (forall r i, nj_of r i t = true -> s_ser s = true \/ r = true -> okout r i o) ->
  (calm (s_d s1) \/ o = ONorm) ->
  (fe = true -> d_ex (s_d s) = None) ->
  match (let? s2 := exec k TSigs s1 in
         let? s3 := exec k (TErr (Some cs)) s2 in
         exec k (TMaybeExit fe) s3)%res with
  | Ok (Cont s') =>
    fe = false /\ exists o', ev (cxs s) (JSettle cs o) (s_d s1) (Go o' (s_d s')) /\ RR t s o' s'
  | Ok (Dead v st) =>
    exists f, ev (cxs s) (JSettle cs o) (s_d s1) f /\ closes fe (cxs s) f v st
  | UB => False
  | Fuel => True
  end.
Proof.
  intros Hk L IT K NR F I M OI NJ C EX.
  assert (CX := keep_cxs _ _ K).
  assert (S1 : signals s1 (exec k TSigs s1)).
  { apply sigs_ok; auto. destruct C as [C| ->]; auto. right. apply F. }
  unfold signals in S1. rewrite CX in S1.
  destruct (exec k TSigs s1) as [[s2|v z]| |]; auto; cbn [andthen].
  2:{ exists (Stop v z). split; [apply Se_stop; auto|left; reflexivity]. }
  destruct S1 as (G & E2 & K2 & I2 & C2 & LA).
  assert (F2 : flow s2 o).
  { rewrite E2. destruct o; cbn in F |- *; rewrite ?LA; exact F. }
  assert (K12 := keep_trans _ _ _ _ K K2).
  assert (X2 : m = false -> s_x s2 = XNone).
  { intros MM. specialize (M MM). destruct o; try contradiction; apply F2. }
  assert (NR2 : e_nr (s_e s2) = false) by (rewrite (k_nr _ _ _ K12); auto).
  assert (ER := err_ok k (Some cs) s2 o Hk I2 C2 F2 NR2 X2).
  rewrite (keep_cxs _ _ K12) in ER. cbn [pl] in ER.
  destruct (exec k (TErr (Some cs)) s2) as [[s3|v z]| |]; auto; cbn [andthen].
  2:{ exists (Stop v z). split; [|left; reflexivity]. eapply Se_go; eauto. }
  destruct ER as (o' & ER & CASE).
  assert (SE : ev (cxs s) (JSettle cs o) (s_d s1) (Go o' (s_d s3))) by (eapply Se_go; eauto).
  assert (R : RR t s o' s3).
  { destruct CASE as [[-> ->]|(-> & -> & LE & SER & MT)].
    - constructor; auto; [rewrite L; exact K12|]. destruct o; auto.
    - constructor; auto; cbn; try (intros; congruence); auto.
      + rewrite L. destruct K12. constructor; auto.
      + intros r i _ [Q|Q]; [|exact Q].
        rewrite (k_ser _ _ _ K12) in SER. congruence. }
  destruct k as [|k]; [exact Logic.I|]. cbn [exec]. destruct fe.
  - assert (H : exits None s3 (exec k (TExit None) s3)).
    { apply exit_ok; [lia|apply R| |].
      - destruct (r_calm _ _ _ _ _ R) as [Q|Q]; auto.
        destruct CASE as [[-> _]|(-> & _)]; exact C2.
      - intros MM. assert (A := r_m _ _ _ _ _ R MM). assert (FF := r_flow _ _ _ _ _ R).
        destruct o'; try contradiction; apply FF. }
    unfold exits in H. destruct (exec k (TExit None) s3) as [[s'|v st]| |]; auto; try contradiction.
    exists (Go o' (s_d s3)). split; auto. right. split; auto. exists o', (s_d s3).
    assert (KR := r_keep _ _ _ _ _ R). rewrite L in KR.
    sp; auto.
    + destruct CASE as [[-> _]|(-> & _)]; exact C2.
    + rewrite (k_ex _ _ _ KR). auto.
    + rewrite (keep_cxs _ _ KR) in H. exact H.
  - split; auto. exists o'. auto.
Qed.

(** ** Lists *)

(** A list after a jump. *)
Lemma list_abrupt k l fe (s : sh) : need_break s = true ->
  exec k (TList l fe) s = match k with 0 => Fuel | S k => exec k (TMaybeExit fe) s end.
Proof. intros H. destruct k as [|k]; auto. destruct l as [|[a ps] l]; cbn [exec]; auto. rewrite H. auto. Qed.


Lemma list_ok k l fe s : k < n -> pre (TList l fe) s -> good (TList l fe) s (exec (S k) (TList l fe) s).
Proof.
  intros Hk P. destruct l as [|[async ps] l].
  - cbn [exec]. apply finish with ONorm; [lia|reflexivity|apply L_nil| |].
    + destruct P as [P1 [B1 B2 B3 B4] P3 P4 P5 P6 P7].
      constructor; cbn; auto. apply keep_refl.
    + intros E. split; [apply P, E|]. apply P; reflexivity.
  - cbn [exec]. rewrite (base_nb _ _ (p_base _ _ _ P)).
    assert (B := p_base _ _ _ P). assert (C := p_calm _ _ _ P eq_refl).
    assert (OKL := p_ok _ _ _ P). cbn [ok_of] in OKL. unfold ok_list in OKL. cbn [forallb] in OKL.
    apply andb_true_iff in OKL. destruct OKL as [OKA OKL].
    set (lst := fe && match l with [] => true | _ => false end).
    set (r1 := if negb async then _ else _).
    (* the first and-or list *)
    assert (H : match r1 with
        | Ok (Cont s1) => lst && negb async = false /\ exists o, ev (cxs s) (JAndOr (AndOr async ps)) (s_d s) (Go o (s_d s1))
                          /\ RR (TPipes true ps false) s o s1
        | Ok (Dead v st) => exists f, ev (cxs s) (JAndOr (AndOr async ps)) (s_d s) f
                            /\ closes lst (cxs s) f v st
        | UB => False
        | Fuel => True
        end).
    { unfold r1. cbn [ok_andor] in OKA. apply andb_true_iff in OKA. destruct OKA as [OKA OKB].
      destruct async; cbn [negb orb] in *.
      - rewrite andb_false_r.
        assert (Z : forall w, let s1 := sets_last Exit_SUCCESS (upd_w w s) in
                    RR (TPipes true ps false) s ONorm s1).
        { intros w. constructor; cbn; auto.
          - constructor; cbn; auto.
          - split; apply B.
          - apply inv_last, inv_w, B. }
        destruct ps as [|[cond neg cs] ps]; [discriminate|].
        destruct ps as [|p ps].
        + destruct neg.
          * split; auto. exists ONorm. split; [apply A_async; exact Logic.I|apply Z].
          * cbn [forallb ok_pipe] in OKA. rewrite andb_true_r in OKA.
            destruct k as [|k]; [exact Logic.I|]. cbn [exec is_self is_async].
            assert (CS : cs <> []) by (intros ->; discriminate).
            set (s1 := sets_last Exit_SUCCESS (upd_w (o_bg O [Pipe true false cs] (d_w (s_d s))) s)).
            replace (match cs with [] => UB | [_] => Ok (Cont s1) | _ :: _ :: _ => Ok (Cont s1) end)
              with (Ok (Cont s1)) by (destruct cs as [|? [|]]; congruence).
            cbn [andthen].
            assert (Q := settle k (TPipes true [Pipe cond false cs] false) cs false s s1 ONorm).
            assert (Q1 := Z (o_bg O [Pipe true false cs] (d_w (s_d s)))). cbv zeta in Q1. fold s1 in Q1.
            specialize (Q ltac:(lia) eq_refl eq_refl (r_keep _ _ _ _ _ Q1) (b_nr _ _ B)
                          (r_flow _ _ _ _ _ Q1) (r_inv _ _ _ _ _ Q1) (fun _ => Logic.I) Logic.I
                          (fun _ _ _ _ => Logic.I) (or_intror eq_refl)).
            specialize (Q ltac:(discriminate)).
            destruct (andthen _ _) as [[s2|v st]| |]; auto.
            -- destruct Q as (_ & o & Q & R). split; auto. exists o. split; auto.
               apply A_async1. exact Q.
            -- destruct Q as (f & Q & [-> |[Q' _]]); [|discriminate].
               exists (Stop v st). split; [apply A_async1; exact Q|left; reflexivity].
        + destruct neg; (split; auto; exists ONorm; split; [apply A_async; exact Logic.I|apply Z]).
      - rewrite andb_true_r.
        assert (Q : good (TPipes true ps lst) s (exec k (TPipes true ps lst) s)).
        { apply IH; auto. destruct P as [P1 P2 P3 P4 P5 P6 P7]. constructor; auto.
          - cbn. intros E. apply P5. cbn. unfold lst in E. apply andb_true_iff in E. apply E.
          - discriminate. }
        unfold ExecSim.good in Q. cbn [fe_of job_of] in Q.
        fold lst. destruct (exec k (TPipes true ps lst) s) as [[s1|v st]| |]; auto.
        + destruct Q as (Q1 & o & Q2 & Q3). split; auto. exists o. split; [apply A_sync; exact Q2|].
          eapply RR_via; [exact Q3|apply keep_refl|reflexivity|auto|discriminate|auto].
        + destruct Q as (f & Q1 & Q2). exists f. split; auto. apply A_sync. exact Q1. }
    clearbody r1. destruct r1 as [[s1|v st]| |]; auto; cbn [andthen].
    + destruct H as (_ & o & H & R). destruct (onorm_dec o) as [-> | NO].
      * eapply good_seq with (t1 := TList l fe) (s1 := s1).
        -- apply IH; auto.
           assert (K := r_keep _ _ _ _ _ R). constructor; auto; try discriminate.
           ++ eapply base_next; [|exact R|exact B]; reflexivity.
           ++ intros _. destruct (r_calm _ _ _ _ _ R) as [Q|[Q _]]; [exact Q|discriminate].
           ++ cbn. intros E. assert (Q := p_fe _ _ _ P E).
              rewrite (k_ser _ _ _ K), (k_ex _ _ _ K), (k_it _ _ _ K). exact Q.
        -- apply R.
        -- reflexivity.
        -- intros f Q. cbn [job_of] in *. eapply L_go; eauto.
        -- reflexivity.
        -- auto.
        -- discriminate.
        -- intros r i. cbn. unfold nj_list. cbn [forallb]. rewrite andb_true_iff. tauto.
      * rewrite list_abrupt by (eapply flow_break; [apply R|auto]).
        destruct k as [|k]; [exact Logic.I|].
        apply finish with o; [lia|reflexivity| | |].
        -- cbn [job_of]. apply L_stop; auto. apply abrupt_go; auto.
        -- eapply RR_via; [exact R|apply keep_refl|reflexivity|auto|discriminate|].
           intros r i. cbn. rewrite andb_true_iff. tauto.
        -- intros E. split; [apply P, E|]. destruct (r_calm _ _ _ _ _ R) as [Q|[Q _]]; [exact Q|discriminate].
    + destruct H as (f & H & CL). cbn. destruct CL as [-> |(LS & o & d1 & -> & CL)].
      * exists (Stop v st). split; [apply L_stop; cbn; auto|left; reflexivity].
      * unfold lst in LS. apply andb_true_iff in LS. destruct LS as [LS1 LS2].
        destruct l; [|discriminate]. exists (Go o d1). split.
        -- destruct (onorm_dec o) as [-> | NO].
           ++ eapply L_go; [exact H|apply L_nil].
           ++ apply L_stop; auto. apply abrupt_go; auto.
        -- right. split; auto. exists o, d1. auto.
Qed.

(** ** Pipelines *)

Lemma next_pre t1 s s1 : keep false s s1 -> base s1 -> calm (s_d s1) -> main t1 = true ->
  ok_of m t1 = true ->
  (fe_of t1 = true -> s_ser s = false /\ d_ex (s_d s) = None /\ e_it (s_e s) = false) ->
  soft_of t1 = false -> loop_of t1 = false -> pre t1 s1.
Proof.
  intros K B C M OKT FE S L. constructor; auto; try congruence.
  intros E. rewrite (k_ser _ _ _ K), (k_ex _ _ _ K), (k_it _ _ _ K). auto.
Qed.

(** Suppressing errexit and errreturn in a part. *)
Lemma RR_sup t1 t s a b o s1 : RR t1 (ss_sup a b s) o s1 -> (s_ser s = true -> b = true) ->
  loop_of t1 = false -> loop_of t = false -> soft_of t1 = false ->
  (is_iter t1 = false -> is_iter t = false) ->
  (forall r i, nj_of r i t = true -> nj_of r i t1 = true) ->
  RR t s o (ss_sup (s_see s) (s_ser s) s1).
Proof.
  intros R SB L1 L2 S I NJ. destruct R as [[A1 A2 A3 A4 A5 A6 A7] B C D E F G]. rewrite L1 in *.
  constructor; auto.
  - rewrite L2. constructor; auto.
  - destruct o; auto; destruct E; auto.
  - intros r i H1 H2. apply F; auto. destruct H2; auto.
  - rewrite S in G. destruct G as [G|[G _]]; [auto|discriminate].
Qed.

Lemma pipes_abrupt k ps fe (s : sh) f : need_break s = true -> ps = [] ->
  exec k (TPipes f ps fe) s = match k with 0 => Fuel | S k => exec k (TMaybeExit fe) s end.
Proof. intros H ->. destruct k; reflexivity. Qed.

Lemma skip_iff first cond (d : dat) :
  negb first && Bool.eqb cond (negb (N.eqb (d_last d) Exit_SUCCESS)) = true <-> skipped first cond d.
Proof.
  unfold skipped, fails, Exit_SUCCESS. destruct first, cond; cbn;
    destruct (N.eqb_spec (d_last d) 0); cbn; intuition congruence.
Qed.

Lemma RR_refl t s : base s -> calm (s_d s) -> loop_of t = false -> RR t s ONorm s.
Proof.
  intros B C L. constructor; cbn; auto; try apply B.
  - rewrite L. apply keep_refl.
  - split; apply B.
Qed.

Lemma pipes_ok k first ps fe s : k < n -> pre (TPipes first ps fe) s ->
  good (TPipes first ps fe) s (exec (S k) (TPipes first ps fe) s).
Proof.
  intros Hk P. assert (B := p_base _ _ _ P). assert (C := p_calm _ _ _ P eq_refl).
  assert (FE := p_fe _ _ _ P). cbn [fe_of] in FE. assert (OKP := p_ok _ _ _ P). cbn [ok_of] in OKP.
  destruct ps as [|[cond neg cs] ps].
  { cbn [exec]. apply finish with ONorm; [lia|reflexivity|apply P_nil|apply RR_refl; auto|].
    intros E. split; auto. apply FE, E. }
  cbn [forallb] in OKP. apply andb_true_iff in OKP. destruct OKP as [OKC OKP].
  cbn [exec]. destruct (negb first && Bool.eqb cond (negb (N.eqb (d_last (s_d s)) Exit_SUCCESS))) eqn:SK.
  - apply skip_iff in SK. eapply good_seq with (t1 := TPipes false ps fe) (s1 := s).
    + apply IH; auto. apply next_pre with s; auto. apply keep_refl.
    + apply keep_refl.
    + reflexivity.
    + cbn [job_of]. intros f. apply P_skip; auto.
    + reflexivity.
    + auto.
    + discriminate.
    + intros r i. cbn. rewrite andb_true_iff. tauto.
  - assert (NS : ~ skipped first cond (s_d s)) by (rewrite <- skip_iff, SK; discriminate).
    clear SK. set (lst := match ps with [] => true | _ => false end).
    set (sup := neg || negb lst).
    assert (SUP : sup = neg || match ps with [] => false | _ => true end)
      by (unfold sup, lst; destruct ps; reflexivity).
    set (self := fe && lst && negb neg).
    set (ty := if self then TySelf else TyNormal).
    assert (TY : is_self ty = self) by (unfold ty; destruct self; reflexivity).
    set (sq := ss_sup (s_see s || sup) (s_ser s || sup) s).
    assert (SELF : self = true -> fe = true /\ ps = [] /\ neg = false /\ sup = false).
    { unfold self. rewrite !andb_true_iff. intros [[E1 E2] E3]. apply negb_true_iff in E3.
      subst neg. unfold sup, lst in *. destruct ps; [auto|discriminate]. }
    assert (Q : good (TComs cs ty) sq (exec k (TComs cs ty) sq)).
    { apply IH; auto. constructor.
      - unfold ty. destruct self; reflexivity.
      - destruct B as [B1 B2 B3 B4]. constructor; auto.
      - exact OKC.
      - intros _. exact C.
      - cbn [fe_of]. rewrite TY. intros E. destruct (SELF E) as (E1 & E2 & E3 & E4).
        cbn. rewrite E4, orb_false_r. auto.
      - discriminate.
      - discriminate. }
    unfold ExecSim.good in Q. cbn [fe_of job_of] in Q. rewrite TY in Q.
    replace (cxs sq) with (quiet (neg || match ps with [] => false | _ => true end) (cxs s)) in Q
      by (rewrite <- SUP; reflexivity).
    change (s_d sq) with (s_d s) in Q.
    destruct (exec k (TComs cs ty) sq) as [[s1|v st]| |]; auto; cbn [andthen].
    + destruct Q as (SF & o & Q & R).
      set (s2 := ss_sup (s_see s) (s_ser s) s1).
      assert (R2 : RR (TPipes first (Pipe cond neg cs :: ps) fe) s o s2).
      { eapply RR_sup; [exact R| | | | | | ]; auto.
        - intros ->. reflexivity.
        - intros r i. cbn. rewrite andb_true_iff. tauto. }
      assert (C2 : calm (s_d s2)).
      { destruct (r_calm _ _ _ _ _ R2) as [Z|[Z _]]; [exact Z|discriminate]. }
      destruct (onorm_dec o) as [-> | NO].
      * assert (B2 : base s2) by (eapply base_next; [|exact R2|exact B]; reflexivity).
        rewrite (base_nb _ _ B2).
        set (s3 := if neg then _ else s2).
        assert (E3 : s3 = ss_d (if neg then negated (s_d s2) else s_d s2) s2).
        { unfold s3, negated, sets_last, Exit_SUCCESS, Exit_FAILURE. destruct neg.
          - destruct (N.eqb_spec (d_last (s_d s2)) 0), (N.eq_dec (d_last (s_d s2)) 0); try congruence.
          - destruct s2; reflexivity. }
        clearbody s3. subst s3.
        assert (K3 : keep false s (ss_d (if neg then negated (s_d s2) else s_d s2) s2)).
        { assert (K := r_keep _ _ _ _ _ R2). destruct K as [K1 K2 K3 K4 K5 K6 K7].
          destruct neg; constructor; auto. }
        eapply good_seq with (t1 := TPipes false ps fe).
        -- apply IH; auto. apply next_pre with s; auto.
           ++ destruct B2 as [B21 B22 B23 B24]. destruct neg; constructor; auto.
              apply inv_last; auto.
           ++ destruct neg; exact C2.
        -- exact K3.
        -- reflexivity.
        -- cbn [job_of s_d ss_d]. intros f Z. eapply P_go; eauto.
        -- reflexivity.
        -- auto.
        -- discriminate.
        -- intros r i. cbn. rewrite andb_true_iff. tauto.
      * rewrite (flow_break s2 o) by (auto; apply R2).
        apply finish with o; [lia|reflexivity| |exact R2|].
        -- cbn [job_of]. apply P_stop; auto. apply abrupt_go; auto.
        -- intros E. split; auto. apply FE, E.
    + destruct Q as (f & Q & CL). cbn [ExecSim.good fe_of job_of].
      destruct CL as [-> |(SF & o & d1 & -> & CL)].
      * exists (Stop v st). split; [|left; reflexivity]. apply P_stop; cbn; auto.
      * destruct (SELF SF) as (E1 & -> & -> & E4). cbn [orb] in *. rewrite quiet_false in *.
        exists (Go o d1). split.
        -- destruct (onorm_dec o) as [-> | NO].
           ++ eapply P_go; [exact NS| |apply P_nil]. cbn [orb]. rewrite quiet_false. exact Q.
           ++ apply P_stop; auto; [|apply abrupt_go; auto]. cbn [orb]. rewrite quiet_false. exact Q.
        -- right. split; auto. exists o, d1. auto.
Qed.

Lemma proc_of c (j : job) d f v st : ev c j d f -> closes true c f v st -> ev c (JProc j) d (Stop v st).
Proof.
  intros E [-> |(_ & o & d1 & -> & _ & _ & X)].
  - apply Pr_stop. exact E.
  - eapply Pr_go; eauto.
Qed.

Lemma nb_last_cons a b l : nb_last (a :: b :: l) = nb_last (b :: l).
Proof.
  unfold nb_last. cbn [rev]. destruct (rev l ++ [b]) as [|c l'] eqn:E.
  - apply app_eq_nil in E. destruct E. discriminate.
  - reflexivity.
Qed.

Lemma kids_ok k : k <= n -> forall cs i w0 acc short s, base s -> calm (s_d s) ->
  forallb (ok_cmd m) cs = true -> (acc <> [] \/ cs <> []) ->
  (short = true -> cs <> [] /\ d_any (s_d s) = false /\ d_pf (s_d s) = false /\ s_ser s = false
     /\ d_ex (s_d s) = None /\ e_it (s_e s) = false /\ nb_last cs = true) ->
  match exec k (TKids i w0 acc cs short) s with
  | Ok (Cont s') =>
    short = false /\ exists w st, s' = sets_last st (upd_w w s)
      /\ ev (cxs s) (JKids i w0 acc cs) (s_d s) (Go ONorm (s_d s'))
  | Ok (Dead v st) =>
    short = true /\ exists w, v = o_vis O w
      /\ ev (cxs s) (JKids i w0 acc cs) (s_d s) (Go ONorm (sd_last st (sd_w w (s_d s))))
  | UB => False
  | Fuel => True
  end.
Proof.
  induction k as [|k IHk]; intros Hk cs i w0 acc short s B C OKC NE SH; [exact Logic.I|].
  cbn [exec]. destruct cs as [|c cs].
  - split.
    + destruct short; auto. destruct (SH eq_refl) as [Q _]. congruence.
    + do 2 eexists. split; [reflexivity|]. cbn [s_d sets_last upd_w ss_d]. apply K_nil.
      apply job_status_ok. destruct acc; [destruct NE; congruence|discriminate].
  - cbn [forallb] in OKC. apply andb_true_iff in OKC. destruct OKC as [OK1 OK2].
    destruct (short && match cs with [] => true | _ => false end) eqn:LAST.
    + apply andb_true_iff in LAST. destruct LAST as [-> LAST]. destruct cs; [|discriminate].
      destruct (SH eq_refl) as (_ & AN & PF & SE & EX & IT & NB).
      set (s1 := upd_w (o_fork O i w0) s).
      destruct (any_false _ _ (b_inv _ _ B) AN) as [PE AC].
      assert (Q : good (TOne c true) s1 (exec k (TOne c true) s1)).
      { apply IH; [lia|]. destruct B as [B1 B2 B3 B4]. constructor; auto; try discriminate.
        constructor; auto. apply inv_w; auto. }
      unfold ExecSim.good in Q. destruct (exec k (TOne c true) s1) as [[s2|v st]| |]; auto.
      * destruct Q as [Q _]. discriminate.
      * destruct Q as (f & Q & CL). split; auto. eexists. split; [reflexivity|].
        replace (map fst acc ++ [v]) with (map fst (acc ++ [(v, st)])) by (rewrite map_app; reflexivity).
        cbn [job_of fe_of] in *.
        assert (E0 : setdep 0 (cxs s1) = inproc (cxs s)).
        { unfold setdep, inproc, cxs. cbn. rewrite SE, IT. reflexivity. }
        apply K_cons with (dc := s_d s1) (v := v) (st := st).
        -- cbn. unfold starts_child. sp; cbn; auto using same_refl.
           ++ apply B.
           ++ intros g. rewrite <- acting_action. exact (AC g).
        -- rewrite <- E0. apply proc_of with f.
           ++ apply depth_irrelevant; [exact Q|exact NB|apply Nat.le_0_l].
           ++ destruct CL as [CL|(CL0 & o & d1 & CL1 & CL2 & CL3 & CL4)]; [left; auto|].
              right. split; auto. exists o, d1. sp; auto.
              eapply exit_cx; [exact CL4| |]; reflexivity.
        -- apply K_nil. rewrite PF, map_app. cbn. exists (map snd acc). reflexivity.
    + set (s1 := become_child (upd_w (o_fork O i w0) s)).
      assert (I1 : inv (sd_w (o_fork O i w0) (s_d s))) by (apply inv_w, B).
      destruct (inv_child _ _ I1) as (J1 & J2 & J3 & J4).
      assert (Q : good (TOne c true) s1 (exec k (TOne c true) s1)).
      { apply IH; [lia|]. constructor; auto; try discriminate.
        - constructor; auto. apply B.
        - intros _. left. exact J3. }
      unfold ExecSim.good in Q. destruct (exec k (TOne c true) s1) as [[s2|v st]| |]; auto.
      * destruct Q as [Q _]. discriminate.
      * destruct Q as (f & Q & CL).
        assert (E1 : cxs s1 = inproc (cxs s)) by reflexivity.
        assert (PR : ev (inproc (cxs s)) (JProc (JOne c)) (s_d s1) (Stop v st)).
        { rewrite <- E1. eapply proc_of; eauto. }
        assert (SC : starts_child (sd_w (o_fork O i w0) (s_d s)) (s_d s1)).
        { apply starts_child_ok with m. exact I1. }
        assert (Q2 := IHk ltac:(lia) cs (S i) w0 (acc ++ [(v, st)]) short s B C OK2).
        assert (NE2 : acc ++ [(v, st)] <> [] \/ cs <> []).
        { left. destruct acc; discriminate. }
        specialize (Q2 NE2).
        assert (SH2 : short = true -> cs <> [] /\ d_any (s_d s) = false /\ d_pf (s_d s) = false /\ s_ser s = false
     /\ d_ex (s_d s) = None /\ e_it (s_e s) = false /\ nb_last cs = true).
        { intros E. destruct (SH E) as (X1 & X2 & X3 & X4 & X5 & X6 & X7). rewrite E in LAST.
          destruct cs as [|c2 cs]; [discriminate|]. rewrite nb_last_cons in X7. sp; auto. discriminate. }
        specialize (Q2 SH2).
        destruct (exec k (TKids (S i) w0 (acc ++ [(v, st)]) cs short) s) as [[s2|v2 st2]| |]; auto.
        -- destruct Q2 as (Q0 & w & x & Q2 & Q3). split; auto. exists w, x. split; auto.
           eapply K_cons; eauto.
        -- destruct Q2 as (Q0 & w & Q2 & Q3). split; auto. exists w. split; auto.
           eapply K_cons; eauto.
Qed.

Lemma settle_exit c cs o d v st : calm d -> d_ex d = None -> ev c (JExit None) d (Stop v st) ->
  exists f, @ev O c (JSettle cs o) d f /\ closes true c f v st.
Proof.
  intros C X E.
  assert (E2 : ev c (JExit (Some (d_last d))) d (Stop v st)).
  { inversion E; subst; try congruence.
    - apply (X_plain c (Some (d_last d)) d); auto.
    - eapply X_trap; eauto.
    - eapply X_trap_stop; eauto. }
  assert (G : ev c JSigs d (Go ONorm d)) by (apply G_none; exact C).
  assert (NONE : ~ (plain cs /\ fails d /\ (d_oe d = true /\ c_see c = false \/ d_orr d = true /\ c_ser c = false))
     -> exists f, @ev O c (JSettle cs o) d f /\ closes true c f v st).
  { intros N. exists (Go o d). split.
    - eapply Se_go; [exact G|]. apply R_none. exact N.
    - right. split; auto. exists o, d. auto. }
  destruct (is_err_condition_for cs) eqn:PL.
  2:{ apply NONE. intros (Q & _). apply err_plain in Q. congruence. }
  apply err_plain in PL. destruct (N.eq_dec (d_last d) 0) as [Z|Z].
  { apply NONE. intros (_ & Q & _). contradiction. }
  assert (D1 : (d_oe d = true /\ c_see c = false) \/ (d_oe d = false \/ c_see c = true)).
  { destruct (d_oe d), (c_see c); auto. }
  destruct D1 as [[D1 D2]|D1].
  - exists (Stop v st). split; [|left; reflexivity]. eapply Se_go; [exact G|]. apply R_exit; auto.
  - assert (D2 : (d_orr d = true /\ c_ser c = false) \/ (d_orr d = false \/ c_ser c = true)).
    { destruct (d_orr d), (c_ser c); auto. }
    destruct D2 as [[D2 D3]|D2].
    + exists (Go ORet d). split.
      * eapply Se_go; [exact G|]. apply R_ret; auto.
      * right. split; auto. exists ORet, d. auto.
    + apply NONE. intros (_ & _ & [[Q1 Q2]|[Q1 Q2]]).
      * destruct D1; congruence.
      * destruct D2; congruence.
Qed.

Lemma coms_ok k cs ty s : k < n -> pre (TComs cs ty) s ->
  good (TComs cs ty) s (exec (S k) (TComs cs ty) s).
Proof.
  intros Hk P. assert (B := p_base _ _ _ P). assert (C := p_calm _ _ _ P eq_refl).
  assert (FE := p_fe _ _ _ P). cbn [fe_of] in FE. assert (OKP := p_ok _ _ _ P). cbn [ok_of] in OKP.
  assert (NA : is_async ty = false).
  { assert (M := p_main _ _ _ P). destruct ty; auto. }
  cbn [exec]. rewrite NA.
  set (short := is_self ty && negb (o_jobctl O) && negb (d_any (s_d s))
                   && (Nat.eqb (length cs) 1 || negb (d_pf (s_d s)))).
  assert (SH : short = true -> is_self ty = true /\ d_any (s_d s) = false
               /\ (length cs = 1 \/ d_pf (s_d s) = false)).
  { unfold short. rewrite !andb_true_iff, orb_true_iff, !negb_true_iff, Nat.eqb_eq. tauto. }
  clearbody short. unfold ok_cmds in OKP. apply andb_true_iff in OKP. destruct OKP as [OKC OKL].
  assert (NR := b_nr _ _ B).
  assert (EXF : is_self ty = true -> d_ex (s_d s) = None) by (intros E; apply FE, E).
  destruct cs as [|c [|c2 cs]]; [discriminate| |].
  - assert (Q : good (TOne c short) s (exec k (TOne c short) s)).
    { apply IH; auto. constructor; auto; try discriminate.
      - cbn in OKC. rewrite andb_true_r in OKC. exact OKC.
      - cbn. intros E. apply FE, SH, E.
      - cbn. intros _ E. apply SH, E. }
    unfold ExecSim.good in Q. cbn [fe_of job_of] in Q.
    destruct (exec k (TOne c short) s) as [[s1|v st]| |]; auto; cbn [andthen].
    + destruct Q as (Q0 & o & Q & R).
      assert (S1 := settle k (TComs [c] ty) [c] (is_self ty) s s1 o).
      specialize (S1 ltac:(lia) eq_refl eq_refl (r_keep _ _ _ _ _ R) NR (r_flow _ _ _ _ _ R)
        (r_inv _ _ _ _ _ R) (r_m _ _ _ _ _ R)).
      assert (H1 : match o with OBrkI | OContI => e_it (s_e s) = true | _ => True end).
      { assert (IT := r_iter _ _ _ _ _ R). destruct o; auto; apply IT. }
      assert (H2 : forall r i, @nj_of O r i (TComs [c] ty) = true -> s_ser s = true \/ r = true -> okout r i o).
      { intros r i. cbn. rewrite andb_true_r. apply (r_nj _ _ _ _ _ R). }
      assert (H3 : calm (s_d s1) \/ o = ONorm).
      { destruct (r_calm _ _ _ _ _ R) as [Z|(_ & Z & _)]; auto. }
      specialize (S1 H1 H2 H3 EXF). unfold ExecSim.good. cbn [fe_of job_of].
      destruct (andthen _ _) as [[s2|v st]| |]; auto.
      * destruct S1 as (S0 & o' & S1 & S2). split; auto. exists o'. split; auto.
        eapply C_one; eauto.
      * destruct S1 as (f & S1 & S2). exists f. split; auto. eapply C_one; eauto.
    + destruct Q as (f & Q & [-> |(E & o & d1 & -> & C1 & C2 & C3)]).
      * exists (Stop v st). split; [apply C_one_stop; exact Q|left; reflexivity].
      * destruct (settle_exit _ [c] o _ _ _ C1 C2 C3) as (f & F1 & F2).
        cbn. destruct (SH E) as (-> & _). exists f. split; auto. eapply C_one; eauto.
  - assert (LE : k <= n) by lia.
    assert (NE : (@nil (V O * N)) <> [] \/ c :: c2 :: cs <> []) by (right; discriminate).
    assert (Q := kids_ok k LE (c :: c2 :: cs) 0 (d_w (s_d s)) [] short s B C OKC NE).
    assert (SH2 : short = true -> c :: c2 :: cs <> [] /\ d_any (s_d s) = false /\ d_pf (s_d s) = false
       /\ s_ser s = false /\ d_ex (s_d s) = None /\ e_it (s_e s) = false
       /\ nb_last (c :: c2 :: cs) = true).
    { intros E. destruct (SH E) as (E1 & E2 & [E3|E3]); [discriminate|].
      destruct (FE E1) as (E4 & E5 & E6). sp; auto. discriminate. }
    specialize (Q SH2).
    destruct (exec k (TKids 0 (d_w (s_d s)) [] (c :: c2 :: cs) short) s) as [[s1|v st]| |]; auto; cbn [andthen].
    + destruct Q as (Q0 & w & st & Q1 & Q2).
      assert (K1 : keep false s s1) by (rewrite Q1; constructor; cbn; auto).
      assert (F1 : flow s1 ONorm) by (rewrite Q1; split; apply B).
      assert (I1 : inv (s_d s1)) by (rewrite Q1; apply inv_last, inv_w, B).
      assert (C1 : calm (s_d s1)) by (rewrite Q1; exact C).
      assert (S1 := settle k (TComs (c :: c2 :: cs) ty) (c :: c2 :: cs) (is_self ty) s s1 ONorm).
      specialize (S1 ltac:(lia) eq_refl eq_refl K1 NR F1 I1 (fun _ => Logic.I) Logic.I
                    (fun _ _ _ _ => Logic.I) (or_intror eq_refl) EXF).
      unfold ExecSim.good. cbn [fe_of job_of].
      destruct (andthen _ _) as [[s2|v st2]| |]; auto.
      * destruct S1 as (S0 & o' & S1 & S2). split; auto. exists o'. split; auto.
        eapply C_many; eauto.
      * destruct S1 as (f & S1 & S2). exists f. split; auto. eapply C_many; eauto.
    + destruct Q as (Q0 & w & -> & Q2). destruct (SH2 Q0) as (_ & E1 & E2 & E3 & E4 & E5 & E6).
      destruct (SH Q0) as (E7 & _).
      set (d1 := sd_last st (sd_w w (s_d s))) in *.
      assert (X1 : ev (cxs s) (JExit None) d1 (Stop (o_vis O w) st)).
      { apply (X_plain (cxs s) None d1); [exact E4|]. rewrite <- acting_action.
        apply (i_any _ _ (b_inv _ _ B) E1). }
      destruct (settle_exit (cxs s) (c :: c2 :: cs) ONorm d1 (o_vis O w) st C E4 X1) as (f & F1 & F2).
      cbn [ExecSim.good fe_of job_of]. rewrite E7. exists f. split; auto. eapply C_many; eauto.
Qed.

(** ** Simple commands *)

Lemma sd_w_id (d : dat) : sd_w (d_w d) d = d.
Proof. destruct d; reflexivity. Qed.

Lemma RR_w t s o s1 w : RR t s o s1 -> RR t s o (upd_w w s1).
Proof.
  intros [[A1 A2 A3 A4 A5 A6 A7] B C D E F G]. constructor; auto.
  - constructor; auto.
  - apply inv_w; auto.
Qed.

Lemma RR_d t s d' : base s -> inv d' -> d_ex d' = d_ex (s_d s) -> d_hand d' = d_hand (s_d s) ->
  d_save d' = d_save (s_d s) -> loop_of t = false ->
  (calm d' \/ soft_of t = true /\ d_any (s_d s) = true) -> RR t s ONorm (ss_d d' s).
Proof.
  intros B I X H S L C. constructor; cbn; auto.
  - rewrite L. apply keep_d; auto. intros E. split; congruence.
  - split; apply B.
  - destruct C as [C|[C1 C2]]; auto.
Qed.

Lemma fin_d k t s d' fe : k <= n -> fe_of t = fe -> base s ->
  ev (cxs s) (job_of t) (s_d s) (Go ONorm d') -> inv d' ->
  d_ex d' = d_ex (s_d s) -> d_hand d' = d_hand (s_d s) ->
  d_save d' = d_save (s_d s) -> loop_of t = false ->
  (calm d' \/ soft_of t = true /\ d_any (s_d s) = true) ->
  (fe = true -> d_ex (s_d s) = None /\ calm d') ->
  good t s (exec k (TMaybeExit fe) (ss_d d' s)).
Proof.
  intros. apply finish with ONorm; auto. apply RR_d; auto.
Qed.

Lemma calm_deliver sgs d w : inv d -> calm d ->
  calm (deliver sgs (sd_w w d)) \/ d_any d = true.
Proof.
  intros I C. destruct (d_any d) eqn:A; auto. left.
  destruct (any_false _ _ I A) as [P Q]. rewrite deliver_none; [exact C|exact Q].
Qed.
Lemma calm_any sgs d w : inv d -> d_any d = false -> d_pend (deliver sgs (sd_w w d)) = [].
Proof.
  intros I A. destruct (any_false _ _ I A) as [P Q]. rewrite deliver_none; [exact P|exact Q].
Qed.

Lemma simple_ok k r x kd fe s : k < n -> pre (TOne (Cmd r (BSimple x kd)) fe) s ->
  good (TOne (Cmd r (BSimple x kd)) fe) s (exec (S k) (TOne (Cmd r (BSimple x kd)) fe) s).
Proof.
  intros Hk P. assert (B := p_base _ _ _ P). assert (C := p_calm _ _ _ P eq_refl).
  assert (FE := p_fe _ _ _ P). cbn [fe_of] in FE. assert (OKP := p_ok _ _ _ P). cbn [ok_of] in OKP.
  assert (ANY := p_any _ _ _ P eq_refl). cbn [fe_of] in ANY.
  cbn [ok_cmd ok_body] in OKP. apply andb_true_iff in OKP. destruct OKP as [OKK CL].
  assert (I := b_inv _ _ B).
  cbn [exec].
  (* expansion *)
  set (e := match x with None => (d_w (s_d s), [], XOk) | Some x => o_expand O x (d_w (s_d s)) end).
  assert (H : exists d1 xr, (e = (fst (fst e), snd (fst e), xr)
      /\ d1 = deliver (snd (fst e)) (sd_w (fst (fst e)) (s_d s)))
      /\ expands x (s_d s) d1 xr
      /\ (light kd = false -> calm d1)
      /\ (forall st, xr = XErr st true -> calm d1)).
  { unfold e. destruct x as [x|]; cbn [constant orb] in CL.
    - destruct (o_expand O x (d_w (s_d s))) as [[w1 sgs] xr] eqn:EX.
      exists (deliver sgs (sd_w w1 (s_d s))), xr. cbn [fst snd]. split; [split; reflexivity|].
      split; [|split].
      + unfold expands. rewrite EX. cbn. split; auto. apply deliver_catches.
      + congruence.
      + intros st ->. assert (Q := proj2 OK x (d_w (s_d s))). rewrite EX in Q. subst sgs.
        rewrite deliver_nil. exact C.
    - exists (s_d s), XOk. cbn [fst snd]. rewrite deliver_nil, sd_w_id. split; [split; reflexivity|].
      split; [split; reflexivity|]. split; [auto|discriminate]. }
  destruct H as (d1 & xr & (E1 & E2) & EX & LC & DC). rewrite E1.
  assert (I1 : inv d1) by (rewrite E2; apply inv_deliver, inv_w, I).
  assert (Q1 : d_ex d1 = d_ex (s_d s) /\ d_hand d1 = d_hand (s_d s) /\ d_save d1 = d_save (s_d s)
               /\ d_any d1 = d_any (s_d s)) by (rewrite E2; auto).
  destruct Q1 as (Q1 & Q2 & Q3 & Q4).
  assert (CA : d_any (s_d s) = false -> d_pend d1 = []).
  { intros A. rewrite E2. apply calm_any; auto. }
  assert (CC : calm d1 \/ d_any (s_d s) = true).
  { rewrite E2. apply calm_deliver; auto. }
  rewrite <- E2. clear E1 E2. clearbody e.
  set (s1 := ss_d d1 s).
  assert (K1 : keep false s s1).
  { apply keep_d; auto. intros Z. split; congruence. }
  assert (B1 : base s1) by (destruct B; constructor; auto).
  assert (CFE : fe = true -> calm d1).
  { intros E. left. apply CA, ANY, E. }
  change (d_inter (s_d s1)) with (d_inter d1). rewrite (i_inter _ _ I1). cbn [negb].
  rewrite ?andb_true_r.
  assert (XN : m = false -> s_x s1 = XNone) by (intros _; apply B1).
  destruct xr as [|st die].
  - destruct r as [r|].
    + (* redirections *)
      destruct (o_redir O r (d_w (s_d s1))) as [w2 ok] eqn:RE. destruct ok.
      * set (s2 := upd_w w2 s1).
        assert (G : good (TKind kd false) s2 (exec k (TKind kd false) s2)).
        { apply IH; auto. constructor; auto; try discriminate.
          destruct B1 as [Z1 Z2 Z3 Z4]. constructor; auto. apply inv_w; auto. }
        unfold ExecSim.good in G. cbn [fe_of job_of] in G. change (cxs s2) with (cxs s) in G.
        change (s_d s2) with (sd_w w2 d1) in G.
        destruct (exec k (TKind kd false) s2) as [[s3|v st]| |]; auto; cbn [andthen].
        -- destruct G as (_ & o & G & R).
           set (s4 := upd_w (o_undo O r (d_w (s_d s3))) s3).
           assert (R4 : RR (TOne (Cmd (Some r) (BSimple x kd)) fe) s o s4).
           { eapply RR_via with (s1 := s2); [apply RR_w; exact R| |reflexivity|auto| |auto].
             - destruct K1 as [Z1 Z2 Z3 Z4 Z5 Z6 Z7]. constructor; auto.
             - intros _. split; auto. }
           assert (EV : ev (cxs s) (JOne (Cmd (Some r) (BSimple x kd))) (s_d s) (Go o (s_d s4))).
           { eapply S_redir_go; eauto. }
           destruct fe.
           ++ assert (D4 : d_ex (s_d s4) = None).
              { rewrite (k_ex _ _ _ (r_keep _ _ _ _ _ R4)). apply FE; auto. }
              assert (C4 : calm (s_d s4)).
              { destruct (r_calm _ _ _ _ _ R4) as [Z|(_ & _ & Z)]; auto.
                rewrite (ANY eq_refl) in Z. discriminate. }
              assert (X := exit_ok k (Some (d_last (s_d s4))) s4).
              specialize (X ltac:(lia) (r_inv _ _ _ _ _ R4) C4).
              assert (X4 : m = false -> s_x s4 = XNone).
              { intros M. assert (A := r_m _ _ _ _ _ R4 M). assert (F := r_flow _ _ _ _ _ R4).
                destruct o; try contradiction; apply F. }
              specialize (X X4). unfold exits in X.
              destruct (exec k (TExit _) s4) as [[s5|v st]| |]; auto; try contradiction.
              cbn. exists (Go o (s_d s4)). split; auto. right. split; auto.
              exists o, (s_d s4). sp; auto.
              assert (KK := keep_cxs _ _ (r_keep _ _ _ _ _ R4)). rewrite <- KK.
              apply exit_last; auto.
           ++ split; auto. exists o. auto.
        -- destruct G as (f & G & [-> |[Z _]]); [|discriminate].
           exists (Stop v st). split; [|left; reflexivity]. eapply S_redir_stop; eauto.
      * set (s2 := sets_last Exit_REDIRERR (upd_w (o_undo O r w2) s1)).
        assert (I2 : inv (s_d s2)) by (apply inv_last, inv_w; auto).
        change (d_inter (s_d s2)) with (d_inter d1). rewrite (i_inter _ _ I1). cbn [negb].
        rewrite ?andb_true_r.
        assert (X := exit_ok k (Some Exit_REDIRERR) s2).
        specialize (X ltac:(lia) I2).
        destruct (o_posix O && special kd) eqn:PS.
        -- rewrite orb_true_r. apply andb_true_iff in PS. destruct PS as [PS1 PS2].
           assert (C2 : calm (s_d s2)).
           { apply LC. destruct kd; try discriminate; reflexivity. }
           specialize (X C2 XN). unfold exits in X.
           destruct (exec k (TExit _) s2) as [[s5|v st]| |]; auto; try contradiction.
           exists (Stop v st). split; [|left; reflexivity].
           apply special_ok in PS2. eapply S_redir_die; eauto.
        -- rewrite orb_false_r.
           assert (NS : ~ (o_posix O = true /\ special_builtin kd)).
           { rewrite <- special_ok. intros [Z1 Z2]. rewrite Z1, Z2 in PS. discriminate. }
           assert (EV : ev (cxs s) (JOne (Cmd (Some r) (BSimple x kd))) (s_d s) (Go ONorm (s_d s2))).
           { eapply S_redir_err; eauto. }
           destruct fe.
           ++ specialize (X (CFE eq_refl) XN). unfold exits in X.
              destruct (exec k (TExit _) s2) as [[s5|v st]| |]; auto; try contradiction.
              cbn. exists (Go ONorm (s_d s2)). split; auto. right. split; auto.
              exists ONorm, (s_d s2).
              destruct (FE eq_refl) as (F1 & F2 & F3).
              assert (D4 : d_ex (s_d s2) = None) by (cbn; congruence).
              sp; auto. apply exit_last; auto.
           ++ split; auto. exists ONorm. split; auto.
              change s2 with (ss_d (s_d s2) s). apply RR_d; auto.
              destruct CC as [Z|Z]; auto.
    + (* no redirection *)
      assert (G : good (TKind kd fe) s1 (exec k (TKind kd fe) s1)).
      { apply IH; auto. constructor; auto; try discriminate.
        - cbn [fe_of]. intros E. destruct (FE E) as (F1 & F2 & F3). sp; auto. cbn. congruence.
        - cbn. intros _ E. rewrite Q4. auto. }
      assert (G2 : good (TOne (Cmd None (BSimple x kd)) fe) s (exec k (TKind kd fe) s1)).
      { eapply good_seq; [exact G|exact K1|reflexivity| |reflexivity|auto| |auto].
        - cbn [job_of]. intros f Z. eapply S_plain; eauto.
        - intros _. split; auto. }
      destruct (exec k (TKind kd fe) s1) as [[s2|v st]| |]; auto; cbn [andthen].
      destruct fe; auto. destruct G2 as [G2 _]. discriminate.
  - assert (X := exit_ok k (Some st) s1). specialize (X ltac:(lia) I1).
    destruct die.
    + rewrite orb_true_r. specialize (X (DC _ eq_refl) XN). unfold exits in X.
      destruct (exec k (TExit _) s1) as [[s5|v z]| |]; auto; try contradiction.
      exists (Stop v z). split; [|left; reflexivity]. eapply S_die; eauto.
    + rewrite orb_false_r.
      assert (EV : ev (cxs s) (JOne (Cmd r (BSimple x kd))) (s_d s) (Go ONorm (sd_last st d1))).
      { eapply S_err; eauto. }
      destruct fe.
      * specialize (X (CFE eq_refl) XN). unfold exits in X.
        destruct (exec k (TExit _) s1) as [[s5|v z]| |]; auto; try contradiction.
        cbn. exists (Go ONorm (sd_last st d1)). split; auto. right. split; auto.
        exists ONorm, (sd_last st d1).
        destruct (FE eq_refl) as (F1 & F2 & F3).
        sp; auto; [cbn; congruence|].
        apply exit_some; auto. cbn. congruence.
      * split; auto. exists ONorm. split; auto.
        change (sets_last st s1) with (ss_d (sd_last st d1) s). apply RR_d; auto.
        -- apply inv_last; auto.
        -- destruct CC as [Z|Z]; auto.
Qed.

Lemma one_ok k r b fe s : k < n -> match b with BSimple _ _ => False | _ => True end ->
  pre (TOne (Cmd r b) fe) s ->
  good (TOne (Cmd r b) fe) s (exec (S k) (TOne (Cmd r b) fe) s).
Proof.
  intros Hk NS P. assert (B := p_base _ _ _ P). assert (C := p_calm _ _ _ P eq_refl).
  assert (FE := p_fe _ _ _ P). cbn [fe_of] in FE. assert (OKP := p_ok _ _ _ P). cbn [ok_of ok_cmd] in OKP.
  assert (ANY := p_any _ _ _ P eq_refl). cbn [fe_of] in ANY.
  assert (I := b_inv _ _ B).
  assert (OKB : forall fe', ok_of m (@TBody O b fe') = true).
  { intros fe'. cbn. rewrite OKP. destruct b; auto. }
  assert (EQ : exec (S k) (TOne (Cmd r b) fe) s =
    match r with
      | None =>
        let? s1 := exec k (TBody b fe) s in
        exec k (TMaybeExit fe) s1
      | Some r =>
        let '(w1, ok) := o_redir O r (d_w (s_d s)) in
        if ok then
          let? s1 := exec k (TBody b false) (upd_w w1 s) in
          exec k (TMaybeExit fe) (upd_w (o_undo O r (d_w (s_d s1))) s1)
        else
          let? s1 := exec k (TErr None)
                       (sets_last Exit_REDIRERR (upd_w (o_undo O r w1) s)) in
          exec k (TMaybeExit fe) s1
      end%res).
  { destruct b; try contradiction; reflexivity. }
  rewrite EQ. clear EQ. destruct r as [r|].
  - destruct (o_redir O r (d_w (s_d s))) as [w1 ok] eqn:RE. destruct ok.
    + set (s1 := upd_w w1 s).
      assert (G : good (TBody b false) s1 (exec k (TBody b false) s1)).
      { apply IH; auto. constructor; auto; try discriminate.
        destruct B as [Z1 Z2 Z3 Z4]. constructor; auto. apply inv_w; auto. }
      unfold ExecSim.good in G. cbn [fe_of job_of] in G. change (cxs s1) with (cxs s) in G.
      change (s_d s1) with (sd_w w1 (s_d s)) in G.
      destruct (exec k (TBody b false) s1) as [[s2|v st]| |]; auto; cbn [andthen].
      * destruct G as (_ & o & G & R).
        assert (R2 : RR (TOne (Cmd (Some r) b) fe) s o (upd_w (o_undo O r (d_w (s_d s2))) s2)).
        { eapply RR_via with (s1 := s1); [apply RR_w; exact R| |reflexivity|auto| |auto].
          - constructor; auto.
          - intros _. split; auto. }
        apply finish with o; [lia|reflexivity| |exact R2|].
        -- eapply O_redir_go; eauto.
        -- intros E. split; [apply FE, E|].
           destruct (r_calm _ _ _ _ _ R2) as [Z|(_ & _ & Z)]; auto.
           rewrite (ANY E) in Z. discriminate.
      * destruct G as (f & G & [-> |[Z _]]); [|discriminate].
        exists (Stop v st). split; [|left; reflexivity]. eapply O_redir_stop; eauto.
    + set (s1 := sets_last _ _).
      assert (I1 : inv (s_d s1)) by (apply inv_last, inv_w; auto).
      assert (F1 : flow s1 ONorm) by (split; apply B).
      assert (ER := err_ok k None s1 ONorm ltac:(lia) I1 C F1 (b_nr _ _ B) (fun _ => b_x _ _ B)).
      cbn [pl] in ER. change (cxs s1) with (cxs s) in ER.
      destruct (exec k (TErr None) s1) as [[s2|v st]| |]; auto; cbn [andthen].
      2:{ exists (Stop v st). split; [|left; reflexivity]. eapply O_redir_err; eauto. }
      destruct ER as (o & ER & CASE).
      assert (C2 : calm (s_d s2)) by (destruct CASE as [(-> & _)|(-> & _)]; exact C).
      assert (R2 : RR (TOne (Cmd (Some r) b) fe) s o s2).
      { assert (R1 : RR (TOne (Cmd (Some r) b) fe) s ONorm s1) by (apply (RR_d _ s (s_d s1)); auto).
        destruct CASE as [(-> & ->)|(-> & -> & LE & SE & MT)]; auto.
        constructor; auto; cbn; try (intros; congruence); auto.
        - destruct (r_keep _ _ _ _ _ R1) as [Z1 Z2 Z3 Z4 Z5 Z6 Z7]. constructor; auto.
        - intros ? ? _ [Z|Z]; [|auto]. cbn in SE. congruence. }
      apply finish with o; [lia|reflexivity| |exact R2|].
      * eapply O_redir_err; eauto.
      * intros E. split; [apply FE, E|auto].
  - assert (G : good (TBody b fe) s (exec k (TBody b fe) s)).
    { apply IH; auto. constructor; auto; try discriminate. }
    unfold ExecSim.good in G. cbn [fe_of job_of] in G.
    destruct (exec k (TBody b fe) s) as [[s2|v st]| |]; auto; cbn [andthen].
    + destruct G as (-> & o & G & R). apply finish with o; [lia|reflexivity| | |discriminate].
      * apply O_plain; auto.
      * eapply RR_via; [exact R|apply keep_refl|reflexivity|auto|auto|auto].
    + destruct G as (f & G & CL). exists f. split; auto. apply O_plain; auto.
Qed.

(** ** Built-ins, programs and functions *)

Definition callee (s : sh) : sh := ss_sup (s_see s) false (ss_e (reset_execstate false (s_e s)) s).
Definition return_to (s s1 : sh) : sh :=
  ss_e (s_e s) (ss_sup (s_see s1) (s_ser s) (cancel_return s1)).

Lemma cancel_d (s : sh) : s_d (cancel_return s) = s_d s.
Proof. unfold cancel_return. destruct (s_x s); reflexivity. Qed.

Lemma RR_func t1 t s o s1 : RR t1 (callee s) o s1 -> base s -> loop_of t1 = false ->
  loop_of t = false -> is_iter t = false -> soft_of t1 = false ->
  (forall r i, nj_of r i t = true -> exists j, nj_of true j t1 = true /\ (j = true -> i = true)) ->
  RR t s (calls_off o) (return_to s s1) /\ s_d (return_to s s1) = s_d s1.
Proof.
  intros R BS L1 L2 I2 S NJ.
  assert (D : s_d (return_to s s1) = s_d s1) by apply cancel_d.
  split; [|exact D].
  destruct R as [[A1 A2 A3 A4 A5 A6 A7] B C M E F G]. rewrite L1 in A3. cbn in A1, A2, A3, A4, A5, A6, A7.
  destruct BS as [BX BL BN BI].
  constructor.
  - rewrite L2. constructor; auto; rewrite D; auto.
  - unfold return_to, cancel_return. unfold flow in B. rewrite A3 in B.
    destruct o; cbn; try (exfalso; destruct B as (_ & B & _); lia); destruct B as [BB _];
      rewrite BB; cbn; rewrite ?BB; auto.
  - rewrite D. auto.
  - intros Z. specialize (M Z). destruct o; auto.
  - destruct o; cbn; auto; destruct E; auto.
  - intros r i Z1 Z2. destruct (NJ r i Z1) as (j & Z3 & Z4).
    specialize (F true j Z3 (or_intror eq_refl)).
    destruct o; cbn in *; auto.
  - rewrite D. rewrite S in G. destruct G as [G|[G _]]; [auto|discriminate].
Qed.

Lemma callee_pre t1 s : base s -> calm (s_d s) -> main t1 = true -> ok_of m t1 = true ->
  (fe_of t1 = true -> d_ex (s_d s) = None /\ e_it (s_e s) = false) ->
  soft_of t1 = false -> loop_of t1 = false -> pre t1 (callee s).
Proof.
  intros [B1 B2 B3 B4] C M OKT FE S L. constructor; auto; try congruence.
  constructor; auto.
Qed.

Lemma kind_ok k kd fe s : k < n -> pre (TKind kd fe) s ->
  good (TKind kd fe) s (exec (S k) (TKind kd fe) s).
Proof.
  intros Hk P. assert (B := p_base _ _ _ P). assert (C := p_calm _ _ _ P). cbn [light_of] in C.
  assert (FE := p_fe _ _ _ P). cbn [fe_of] in FE. assert (OKP := p_ok _ _ _ P). cbn [ok_of] in OKP.
  assert (ANY := p_any _ _ _ P eq_refl). cbn [fe_of] in ANY.
  assert (I := b_inv _ _ B). assert (LE : k <= n) by lia.
  assert (CA : forall d' : dat, d_pend d' = d_pend (s_d s) -> d_hand d' = d_hand (s_d s) ->
               light kd = false -> calm d').
  { intros d' E1 E2 E3. unfold calm. rewrite E1, E2. apply C, E3. }
  assert (FX : fe = true -> d_ex (s_d s) = None) by (intros E; apply FE, E).
  (* a built-in that changes nothing but data *)
  assert (SIMPLE : forall d', light kd = false -> ev (cxs s) (JKind kd) (s_d s) (Go ONorm d') ->
     inv d' -> d_ex d' = d_ex (s_d s) -> d_hand d' = d_hand (s_d s) -> d_save d' = d_save (s_d s) ->
     calm d' -> good (TKind kd fe) s (exec k (TMaybeExit fe) (ss_d d' s))).
  { intros d' LI EV I' X1 X2 X3 C'. apply fin_d; auto. }
  assert (ERR : forall b c, kd = (if b : bool then KBreak c else KCont c) ->
     (c = 0%N \/ e_ln (s_e s) = 0) ->
     good (TKind kd fe) s
       (if o_posix O && negb (d_inter (s_d s)) then exec k (TExit (Some Exit_ERROR)) s
        else exec k (TMaybeExit fe) (sets_last Exit_ERROR s))).
  { intros b c E Z. assert (LI : light kd = false) by (rewrite E; destruct b; reflexivity).
    rewrite (i_inter _ _ I). cbn [negb]. rewrite andb_true_r.
    destruct (o_posix O) eqn:PO.
    - assert (X := exit_ok k (Some Exit_ERROR) s LE I (C LI) (fun _ => b_x _ _ B)).
      unfold exits in X. destruct (exec k (TExit _) s) as [[s5|v z]| |]; auto; try contradiction.
      exists (Stop v z). split; [|left; reflexivity]. cbn [job_of]. rewrite E.
      apply B_loop_die; auto.
    - apply SIMPLE; auto; [|apply inv_last; auto]. rewrite E. apply B_loop_err; auto. }
  destruct kd as [b|b|f|c|c| | |nr st|st|ls|lss|ls|o b|sg a]; cbn [exec].
  - (* KBasic *)
    destruct (o_basic O b (d_w (s_d s))) as [[w1 sgs] st] eqn:E.
    set (d' := sd_last st (deliver sgs (sd_w w1 (s_d s)))).
    assert (CC : d_any (s_d s) = false -> calm d').
    { intros A. left. apply (calm_any sgs (s_d s) w1 I A). }
    apply fin_d; auto.
    + cbn [job_of]. apply B_basic. rewrite E. eexists. split; [apply deliver_catches|reflexivity].
    + apply inv_last, inv_deliver, inv_w, I.
    + destruct (d_any (s_d s)) eqn:A; auto.
  - (* KExt *)
    destruct (o_ext O b (d_w (s_d s))) as [[w1 sgs] st] eqn:E.
    set (d' := sd_last st (deliver sgs (sd_w w1 (s_d s)))).
    assert (EV : ev (cxs s) (JKind (KExt b)) (s_d s) (Go ONorm d')).
    { apply B_ext. rewrite E. eexists. split; [apply deliver_catches|reflexivity]. }
    destruct fe.
    + assert (A := ANY eq_refl). destruct (any_false _ _ I A) as [P1 P2].
      assert (D' : d' = sd_last st (sd_w w1 (s_d s))).
      { unfold d'. rewrite deliver_none; auto. }
      exists (Go ONorm d'). split; auto. right. split; auto. exists ONorm, d'. sp; auto.
      * rewrite D'. left. exact P1.
      * rewrite D'. refine (X_plain _ None (sd_last st (sd_w w1 (s_d s))) _ _); [exact (FX eq_refl)|].
        rewrite <- acting_action. exact (P2 0%N).
    + split; auto. exists ONorm. split; auto. apply (RR_d _ s d'); auto.
      * apply inv_last, inv_deliver, inv_w, I.
      * destruct (d_any (s_d s)) eqn:A; auto. left. left. apply (calm_any sgs (s_d s) w1 I A).
  - (* KCall *)
    destruct (assoc f (d_fn (s_d s))) as [c|] eqn:AS.
    2:{ apply SIMPLE; auto using inv_last; apply B_call_no; auto. }
    destruct k as [|k]; [exact Logic.I|]. cbn [exec].
    fold (callee s). set (ty := if fe then TySelf else TyNormal).
    assert (TY : is_self ty = fe) by (unfold ty; destruct fe; reflexivity).
    assert (FN := i_fn _ _ I). rewrite Forall_forall in FN.
    destruct (FN _ (assoc_In _ _ _ AS)) as [FN1 FN2]. cbn [snd] in FN1, FN2.
    assert (G : good (TComs [c] ty) (callee s) (exec k (TComs [c] ty) (callee s))).
    { apply IH; [lia|]. apply callee_pre; auto.
      - unfold ty. destruct fe; reflexivity.
      - cbn. unfold ok_cmds. cbn. rewrite FN1. reflexivity.
      - cbn [fe_of]. rewrite TY. intros E. split; apply FE, E. }
    unfold ExecSim.good in G. cbn [fe_of job_of] in G. rewrite TY in G.
    change (cxs (callee s)) with (infunc (cxs s)) in G.
    change (s_d (callee s)) with (s_d s) in G.
    destruct (exec k (TComs [c] ty) (callee s)) as [[s1|v st]| |]; auto; cbn [andthen].
    + destruct G as (-> & o & G & R).
      change (ss_e (s_e s) (ss_sup (s_see s1) (s_ser s) (cancel_return s1))) with (return_to s s1).
      destruct (RR_func _ (TKind (KCall f) false) s o s1 R B) as [R2 D2]; auto.
      { intros r i _. exists false. cbn. rewrite andb_true_r. split; [exact FN2|discriminate]. }
      split; auto. exists (calls_off o). split; [|exact R2].
      rewrite D2. eapply B_call; eauto.
    + destruct G as (f' & G & CL). destruct CL as [-> |(E & o & d1 & -> & C1 & C2 & C3)].
      * exists (Stop v st). split; [|left; reflexivity]. eapply B_call_stop; eauto.
      * exists (Go (calls_off o) d1). split; [eapply B_call; eauto|]. right. split; auto.
        exists (calls_off o), d1. sp; auto.
        eapply exit_cx; [exact C3|reflexivity|]. cbn. symmetry. apply FE, E.
  - (* KBreak *)
    destruct (N.eqb_spec c 0) as [Z|Z]; [apply (ERR true c); auto|].
    destruct (Nat.eqb_spec (e_ln (s_e s)) 0) as [Y|Y]; [apply (ERR true c); auto|].
    set (c1 := N.min c (N.of_nat (e_ln (s_e s)))).
    assert (C1 : N.to_nat c1 = min (N.to_nat c) (e_ln (s_e s))) by (unfold c1; lia).
    assert (C0 : N.to_nat c <> 0) by lia.
    apply finish with (OBrk (pred (min (N.to_nat c) (e_ln (s_e s))))); [exact LE|reflexivity|apply (B_break (cxs s)); auto| |].
    + constructor; cbn [loop_of is_iter soft_of].
      * constructor; auto.
      * cbn. rewrite C1. split; [apply B|]. split; [lia|]. split; [lia|reflexivity].
      * apply inv_last, I.
      * auto.
      * exact Logic.I.
      * intros; exact Logic.I.
      * left. apply CA; auto.
    + intros E. split; [auto|apply CA; auto].
  - (* KCont *)
    destruct (N.eqb_spec c 0) as [Z|Z]; [apply (ERR false c); auto|].
    destruct (Nat.eqb_spec (e_ln (s_e s)) 0) as [Y|Y]; [apply (ERR false c); auto|].
    set (c1 := N.min c (N.of_nat (e_ln (s_e s)))).
    assert (C1 : N.to_nat c1 = min (N.to_nat c) (e_ln (s_e s))) by (unfold c1; lia).
    assert (C0 : N.to_nat c <> 0) by lia.
    apply finish with (OCont (pred (min (N.to_nat c) (e_ln (s_e s))))); [exact LE|reflexivity|apply (B_cont (cxs s)); auto| |].
    + constructor; cbn [loop_of is_iter soft_of].
      * constructor; auto.
      * cbn. rewrite C1. split; [reflexivity|]. split; [lia|]. split; [lia|reflexivity].
      * apply inv_last, I.
      * cbn in OKP. intros; congruence.
      * exact Logic.I.
      * intros; exact Logic.I.
      * left. apply CA; auto.
    + intros E. split; [auto|apply CA; auto].
  - (* KBreakI *)
    destruct (e_it (s_e s)) eqn:IT.
    + apply finish with OBrkI; [exact LE|reflexivity|apply (B_iter _ true); auto| |].
      * constructor; cbn [loop_of is_iter soft_of].
        -- constructor; auto.
        -- split; [reflexivity|apply B].
        -- exact I.
        -- cbn in OKP. intros; congruence.
        -- auto.
        -- cbn. auto.
        -- left. apply CA; auto.
      * intros E. split; [auto|apply CA; auto].
    + apply SIMPLE; auto using inv_last; apply (B_iter_err _ true); auto.
  - (* KContI *)
    destruct (e_it (s_e s)) eqn:IT.
    + apply finish with OContI; [exact LE|reflexivity|apply (B_iter _ false); auto| |].
      * constructor; cbn [loop_of is_iter soft_of].
        -- constructor; auto.
        -- split; [reflexivity|apply B].
        -- exact I.
        -- cbn in OKP. intros; congruence.
        -- auto.
        -- cbn. auto.
        -- left. apply CA; auto.
      * intros E. split; [auto|apply CA; auto].
    + apply SIMPLE; auto using inv_last; apply (B_iter_err _ false); auto.
  - (* KRet *)
    set (v := match st with Some st => st | None => _ end).
    assert (EV := B_ret (cxs s) nr st (s_d s)).
    assert (V : v = match st, d_save (s_d s) with Some v, _ => v | None, Some v => v | None, None => d_last (s_d s) end).
    { unfold v. destruct st; auto. }
    rewrite <- V in EV. clearbody v. rewrite (b_nr _ _ B). cbn [andb].
    destruct nr.
    + apply SIMPLE; auto using inv_last.
    + apply finish with ORet; [exact LE|reflexivity|exact EV| |].
      * constructor; cbn [loop_of is_iter soft_of].
        -- constructor; auto.
        -- split; [reflexivity|apply B].
        -- apply inv_last, I.
        -- cbn in OKP. intros; congruence.
        -- exact Logic.I.
        -- cbn. auto.
        -- left. apply CA; auto.
      * intros E. split; [auto|apply CA; auto].
  - (* KExit *)
    assert (X := exit_ok k st s LE I (C eq_refl) (fun _ => b_x _ _ B)).
    unfold exits in X.
    destruct (exec k (TExit st) s) as [[s5|v z]| |]; [contradiction| |contradiction|exact Logic.I].
    exists (Stop v z). split; [|left; reflexivity]. apply B_exit; auto.
  - (* KEval *)
    assert (G : good (TLines ls false false false) s (exec k (TLines ls false false false) s)).
    { apply IH; auto. apply lines_pre; auto. }
    unfold ExecSim.good in G. cbn [fe_of job_of] in G.
    destruct (exec k (TLines ls false false false) s) as [[s1|v st]| |]; auto; cbn [andthen].
    + destruct G as (_ & o & G & R). apply finish with o; [exact LE|reflexivity| | |].
      * apply B_eval; auto.
      * eapply RR_via; [exact R|apply keep_refl|reflexivity|auto|discriminate|auto].
      * intros E. split; auto. destruct (r_calm _ _ _ _ _ R) as [Z|[Z _]]; [auto|discriminate].
    + destruct G as (f & G & [-> |[Z _]]); [|discriminate].
      exists (Stop v st). split; [apply B_eval; auto|left; reflexivity].
  - (* KEvalI *)
    set (s0 := ss_e _ s).
    assert (G : good (TIter lss (d_last (s_d s)) Exit_SUCCESS) s0
                  (exec k (TIter lss (d_last (s_d s)) Exit_SUCCESS) s0)).
    { apply IH; auto. destruct B as [B1 B2 B3 B4]. constructor; auto; try discriminate.
      constructor; auto. }
    unfold ExecSim.good in G. cbn [fe_of job_of] in G.
    change (cxs s0) with (initer (cxs s)) in G. change (s_d s0) with (s_d s) in G.
    destruct (exec k (TIter lss (d_last (s_d s)) Exit_SUCCESS) s0) as [[s1|v st]| |]; auto; cbn [andthen].
    + destruct G as (_ & o & G & R). apply finish with o; [exact LE|reflexivity| | |].
      * apply B_evali; auto.
      * destruct R as [[A1 A2 A3 A4 A5 A6 A7] RF RI RM RIT RN RC]. constructor; auto.
        -- constructor; auto.
        -- destruct o; auto; destruct RIT; discriminate.
        -- destruct RC as [RC|[RC _]]; [auto|discriminate].
      * intros E. split; auto. destruct (r_calm _ _ _ _ _ R) as [Z|[Z _]]; [auto|discriminate].
    + destruct G as (f & G & [-> |[Z _]]); [|discriminate].
      exists (Stop v st). split; [apply B_evali; auto|left; reflexivity].
  - (* KDot *)
    fold (callee s).
    assert (G : good (TLines ls false false false) (callee s) (exec k (TLines ls false false false) (callee s))).
    { apply IH; auto. apply callee_pre; auto; discriminate. }
    unfold ExecSim.good in G. cbn [fe_of job_of] in G.
    change (cxs (callee s)) with (infunc (cxs s)) in G.
    change (s_d (callee s)) with (s_d s) in G.
    destruct (exec k (TLines ls false false false) (callee s)) as [[s1|v st]| |]; auto; cbn [andthen].
    + destruct G as (_ & o & G & R).
      change (ss_e (s_e s) (ss_sup (s_see s1) (s_ser s) (cancel_return s1))) with (return_to s s1).
      destruct (RR_func _ (TKind (KDot ls) fe) s o s1 R B) as [R2 D2]; auto.
      { intros r i Z. exists i. auto. }
      apply finish with (calls_off o); [exact LE|reflexivity| |exact R2|].
      * rewrite D2. apply B_dot; auto.
      * intros E. split; auto. rewrite D2.
        destruct (r_calm _ _ _ _ _ R) as [Z|[Z _]]; [auto|discriminate].
    + destruct G as (f & G & [-> |[Z _]]); [|discriminate].
      exists (Stop v st). split; [apply B_dot_stop; auto|left; reflexivity].
  - (* KSet *)
    apply SIMPLE with (d' := sd_last Exit_SUCCESS (set_opt o b (s_d s))); auto.
    + exact (B_set (cxs s) o b (s_d s)).
    + apply inv_last. destruct I as [I1 I2 I3 I4 I5 I6]. destruct o; constructor; auto.
      cbn. cbn in OKP. destruct b; auto. intros; congruence.
    + destruct o; reflexivity.
    + destruct o; reflexivity.
    + destruct o; reflexivity.
    + apply CA; destruct o; reflexivity.
  - (* KTrap *)
    destruct (inv_banish _ _ I) as (I1 & I2 & I3 & I4 & I5).
    apply SIMPLE with (d' := sd_last Exit_SUCCESS (set_trap sg a (banish (s_d s)))); auto.
    + apply B_trap. apply set_trap_ok.
    + apply inv_last. apply inv_set_trap; auto.
    + unfold set_trap. destruct a as [[]|]; exact I4.
    + unfold set_trap. destruct a as [[]|]; exact I3.
    + unfold set_trap. destruct a as [[]|]; exact I5.
    + assert (CS := C eq_refl). unfold calm in *.
      assert (Z : d_pend (set_trap sg a (banish (s_d s))) = filter (fun p => negb (N.eqb sg p)) (d_pend (s_d s))
                  /\ d_hand (set_trap sg a (banish (s_d s))) = d_hand (s_d s)).
      { unfold set_trap. destruct a as [[]|]; cbn; rewrite I2, I3; auto. }
      cbn. destruct Z as [-> ->]. destruct CS as [-> |CS]; auto.
Qed.

(** ** Compound commands *)

Lemma err_cx c c' p o d f : ev c (JErr p o) d f -> c_see c = c_see c' -> c_ser c = c_ser c' ->
  @ev O c' (JErr p o) d f.
Proof.
  intros H A B. inversion H; subst.
  - apply R_exit; try congruence. eapply exit_cx; eauto.
  - rewrite A in *. rewrite B in *. apply R_ret; auto.
  - apply R_none. rewrite <- A, <- B. assumption.
Qed.

Lemma block_ev c l d f : ev c (JList l) d f -> calm d -> @ev O c (JBlock l) d f.
Proof.
  intros H C. destruct l as [|a l].
  - inversion H; subst. apply Bl_sigs, G_none, C.
  - apply Bl_list, H.
Qed.

Lemma good_loop t1 t s d1 r : good t1 (ss_d d1 (enter_loop s)) r ->
  loop_of t1 = true -> loop_of t = false -> is_iter t = false -> fe_of t1 = fe_of t ->
  d_ex d1 = d_ex (s_d s) -> d_hand d1 = d_hand (s_d s) -> d_save d1 = d_save (s_d s) ->
  (forall r i, nj_of r i t = true -> nj_of r i t1 = true) ->
  (forall f, ev (inloop (cxs s)) (job_of t1) d1 f -> ev (cxs s) (job_of t) (s_d s) f) ->
  good t s r.
Proof.
  intros G L1 L2 I2 FE X1 X2 X3 NJ EV. unfold ExecSim.good in *.
  change (cxs (ss_d d1 (enter_loop s))) with (inloop (cxs s)) in G.
  change (s_d (ss_d d1 (enter_loop s))) with d1 in G. rewrite FE in G.
  assert (S1 : soft_of t1 = false) by (destruct t1; auto; discriminate).
  destruct r as [[s'|v st]| |]; auto.
  - destruct G as (G1 & o & G2 & G3). split; auto. exists o. split; auto.
    destruct G3 as [[A1 A2 A3 A4 A5 A6 A7] B C D E F G]. rewrite L1 in A3.
    cbn in A1, A2, A3, A4, A5, A6, A7.
    constructor; auto.
    + rewrite L2. constructor; auto; try congruence. intros H. rewrite <- X3. apply A7. congruence.
    + destruct o; auto; destruct E; auto.
    + destruct G as [G|(G4 & _)]; auto. congruence.
  - destruct G as (f & G1 & G2). exists f. split; auto.
    destruct G2 as [-> |(E & o & d2 & -> & C1 & C2 & C3)]; [left; reflexivity|].
    right. split; auto. exists o, d2. sp; auto. eapply exit_cx; [exact C3|reflexivity|reflexivity].
Qed.

Lemma err_good k t fe s st w : k <= n -> base s -> calm (s_d s) -> fe_of t = fe ->
  loop_of t = false -> (fe = true -> d_ex (s_d s) = None) ->
  (forall f, ev (cxs s) (JErr True ONorm) (sd_last st (sd_w w (s_d s))) f ->
             ev (cxs s) (job_of t) (s_d s) f) ->
  good t s (let? s1 := exec k (TErr None) (sets_last st (upd_w w s)) in exec k (TMaybeExit fe) s1)%res.
Proof.
  intros Hk B C FE L FX EV. set (s0 := sets_last st (upd_w w s)).
  assert (E := err_ok k None s0 ONorm Hk (inv_last _ _ _ (inv_w _ _ _ (b_inv _ _ B))) C
                 (conj (b_x _ _ B) (b_le _ _ B)) (b_nr _ _ B) (fun _ => b_x _ _ B)).
  change (cxs s0) with (cxs s) in E. change (pl None) with True in E.
  change (s_d s0) with (sd_last st (sd_w w (s_d s))) in E.
  destruct (exec k (TErr None) s0) as [[s1|v z]| |]; auto; cbn [andthen].
  - destruct E as (o & E & D). assert (E' := EV _ E).
    assert (K : s_d s1 = s_d s0) by (destruct D as [[-> _]|[-> _]]; reflexivity).
    apply finish with o; auto.
    + constructor.
      * rewrite L. destruct D as [[-> _]|[-> _]]; constructor; auto.
      * destruct D as [[-> ->]|(-> & -> & Z & _)]; cbn; split; auto; apply B.
      * rewrite K. apply inv_last, inv_w, B.
      * intros M. destruct D as [[_ ->]|(_ & -> & _ & _ & Z)]; [exact Logic.I|congruence].
      * destruct D as [[_ ->]|(_ & -> & _)]; exact Logic.I.
      * intros r i _ H. destruct D as [[_ ->]|(_ & -> & _ & Z & _)]; [exact Logic.I|].
        cbn. destruct H; auto. change (s_ser s0) with (s_ser s) in Z. congruence.
      * left. rewrite K. exact C.
    + intros F. split; auto. rewrite K. exact C.
  - exists (Stop v z). split; auto. left; reflexivity.
Qed.

Lemma end_ok k fe t s s2 o : k <= n -> fe_of t = fe ->
  ev (cxs s) (job_of t) (s_d s) (Go o (s_d s2)) -> RR t s o (leave_loop s2) ->
  (fe = true -> d_ex (s_d s) = None /\ calm (s_d s2)) ->
  good t s (exec k (TEndLoop fe) s2).
Proof.
  intros Hk FE EV R C. destruct k as [|k]; [exact Logic.I|]. cbn [exec].
  apply finish with o; auto. lia.
Qed.

Lemma nj_its r i its x l v w : forallb (fun p : list N * list andor => match p with (_, l) => forallb (nj_andor r i) l end) its = true ->
  snd (find_item (O:=O) v its w) = FItem l -> nj_of r i (@TBody O (BCase x its) false) = true ->
  nj_list r i l = true.
Proof. intros A B _. exact (find_item_forallb v its w l (nj_list r i) B A). Qed.

Lemma body_ok k b fe s : k < n -> pre (TBody b fe) s ->
  good (TBody b fe) s (exec (S k) (TBody b fe) s).
Proof.
  intros Hk P. assert (B := p_base _ _ _ P). assert (C := p_calm _ _ _ P eq_refl).
  assert (FE := p_fe _ _ _ P). cbn [fe_of] in FE. assert (OKP := p_ok _ _ _ P). cbn [ok_of] in OKP.
  assert (ANY := p_any _ _ _ P eq_refl). cbn [fe_of] in ANY.
  assert (I := b_inv _ _ B). assert (LE : k <= n) by lia.
  assert (FX : fe = true -> d_ex (s_d s) = None) by (intros E; apply FE, E).
  apply andb_true_iff in OKP. destruct OKP as [OKP NS].
  destruct b as [x kd|l|l|cls|v x l|ty cond l|x its|b|f c]; cbn [exec]; [discriminate| | | | | | | | ].
  - (* BSub *)
    destruct (inv_child _ _ I) as (I1 & I2 & I3 & I4).
    assert (G : good (TList l true) (become_child s) (exec k (TList l true) (become_child s))).
    { apply IH; auto. constructor; auto; try discriminate.
      - constructor; cbn; auto. apply B.
      - intros _. left. exact I3. }
    unfold ExecSim.good in G. cbn [fe_of job_of] in G.
    change (cxs (become_child s)) with (inproc (cxs s)) in G.
    change (s_d (become_child s)) with (child_d (s_d s)) in G.
    destruct (exec k (TList l true) (become_child s)) as [[s1|v st]| |].
    + destruct G; discriminate.
    + destruct G as (f & G1 & G2). assert (G := proc_of _ _ _ _ _ _ G1 G2).
      set (d1 := sd_last st (sd_w (o_join O (d_w (s_d s)) [v]) (s_d s))).
      assert (EV : ev (cxs s) (JBody (BSub l)) (s_d s) (Go ONorm d1)).
      { eapply D_sub; [exact (starts_child_ok m _ I)|exact G]. }
      destruct fe.
      * exists (Go ONorm d1). split; [exact EV|]. right. split; [reflexivity|].
        exists ONorm, d1. sp; auto.
        assert (X : Stop v st = Stop (o_vis O (d_w d1)) (d_last d1)).
        { cbn. rewrite (proj1 OK). reflexivity. }
        rewrite X. apply (X_plain (cxs s) None d1); [exact (FX eq_refl)|].
        rewrite <- acting_action. exact (i_any _ _ I (ANY eq_refl) 0%N).
      * split; auto. exists ONorm. split; [exact EV|]. apply (RR_d _ s d1); auto.
        apply inv_last, inv_w, I.
    + destruct fe; exact G.
    + destruct fe; exact Logic.I.
  - (* BGroup *)
    eapply good_seq with (t1 := TList l fe) (s1 := s);
      [|apply keep_refl|reflexivity|intros f H; apply D_group; exact H|reflexivity|auto|discriminate|auto].
    apply IH; auto. apply (next_pre _ s); auto using keep_refl.
  - (* BIf *)
    eapply good_seq with (t1 := TIf cls fe) (s1 := s);
      [|apply keep_refl|reflexivity|intros f H; apply D_if; exact H|reflexivity|auto|discriminate|auto].
    apply IH; auto. apply (next_pre _ s); auto using keep_refl.
  - (* BFor *)
    change (d_w (s_d (enter_loop s))) with (d_w (s_d s)).
    destruct (o_words O x (d_w (s_d s))) as [w1 [[|y ws]|]] eqn:WO.
    + set (s1 := match l with [] => _ | _ => _ end).
      assert (S1 : exists d1, s1 = ss_d d1 (enter_loop s)
        /\ d1 = match l with [] => sd_w w1 (s_d s) | _ => sd_last 0%N (sd_w w1 (s_d s)) end).
      { eexists. split; [|reflexivity]. unfold s1. destruct l; reflexivity. }
      clearbody s1. destruct S1 as (d1 & -> & D1).
      assert (EV := D_for_none (cxs s) v x l (s_d s) w1 WO). rewrite <- D1 in EV.
      assert (Q : d_ex d1 = d_ex (s_d s) /\ d_hand d1 = d_hand (s_d s) /\ d_save d1 = d_save (s_d s)
                  /\ inv d1 /\ calm d1).
      { rewrite D1. destruct l; sp; auto using inv_w, inv_last. }
      destruct Q as (Q1 & Q2 & Q3 & Q4 & Q5).
      apply end_ok with ONorm; auto.
      constructor; cbn; auto.
      * constructor; auto. intros E. split; cbn; congruence.
      * split; [apply B|]. assert (Z := b_le _ _ B). lia.
    + change (good (TBody (BFor v x l) fe) s (exec k (TFors v (y :: ws) l fe) (ss_d (sd_w w1 (s_d s)) (enter_loop s)))).
      apply good_loop with (t1 := TFors v (y :: ws) l fe) (d1 := sd_w w1 (s_d s)); auto.
      * apply IH; auto. constructor; auto; try discriminate.
        constructor; cbn; try apply B; auto. apply inv_w, I.
      * intros f H. eapply D_for; eauto.
    + set (s0 := sets_last Exit_EXPERROR (upd_w w1 (enter_loop s))).
      assert (E := err_ok k None s0 ONorm LE (inv_last _ _ _ (inv_w _ _ _ I)) C
                     (conj (b_x _ _ B) (le_n _)) (b_nr _ _ B) (fun _ => b_x _ _ B)).
      change (cxs s0) with (inloop (cxs s)) in E. change (pl None) with True in E.
      change (s_d s0) with (sd_last 2%N (sd_w w1 (s_d s))) in E.
      destruct (exec k (TErr None) s0) as [[s1|u z]| |]; auto; cbn [andthen].
      * destruct E as (o & E & D).
        assert (E' := D_for_err (cxs s) v x l (s_d s) w1 _ WO
                        (err_cx _ (cxs s) _ _ _ _ E eq_refl eq_refl)).
        assert (K : s_d s1 = s_d s0) by (destruct D as [[-> _]|[-> _]]; reflexivity).
        assert (Ks : s_e (leave_loop s1) = s_e (leave_loop s0) /\ s_see s1 = s_see s /\ s_ser s1 = s_ser s)
          by (destruct D as [[-> _]|[-> _]]; sp; reflexivity).
        destruct Ks as (Ks & Ks1 & Ks2).
        apply end_ok with o; auto.
        -- constructor; cbn [loop_of].
           ++ constructor; rewrite ?Ks; auto; change (s_d (leave_loop s1)) with (s_d s1); rewrite K; auto.
           ++ assert (Z := b_le _ _ B).
              destruct D as [[-> ->]|(-> & -> & _)]; cbn; split; auto; apply B.
           ++ change (s_d (leave_loop s1)) with (s_d s1). rewrite K. apply inv_last, inv_w, I.
           ++ intros M. destruct D as [[_ ->]|(_ & -> & _ & _ & Z)]; [exact Logic.I|congruence].
           ++ destruct D as [[_ ->]|(_ & -> & _)]; exact Logic.I.
           ++ intros r i _ H. destruct D as [[_ ->]|(_ & -> & _ & Z & _)]; [exact Logic.I|].
              cbn. destruct H; auto. change (s_ser s0) with (s_ser s) in Z. congruence.
           ++ left. change (s_d (leave_loop s1)) with (s_d s1). rewrite K. exact C.
        -- intros F. split; auto. rewrite K. exact C.
      * exists (Stop u z). split; [|left; reflexivity].
        eapply D_for_err; [exact WO|]. eapply err_cx; [exact E|reflexivity|reflexivity].
  - (* BWhile *)
    change (enter_loop s) with (ss_d (s_d s) (enter_loop s)).
    apply good_loop with (t1 := TWhile ty cond l Exit_SUCCESS fe) (d1 := s_d s); auto.
    + apply IH; auto. constructor; auto; try discriminate.
      constructor; cbn; try apply B; auto.
    + intros f H. apply D_while. exact H.
  - (* BCase *)
    destruct (o_word O x (d_w (s_d s))) as [w1 [v|]] eqn:WO.
    2:{ apply err_good; auto. intros f H. eapply D_case_err0; eauto. }
    assert (CH := find_item_ok v its w1).
    assert (FA := fun l p => find_item_forallb v its w1 l p).
    destruct (find_item v its w1) as [w2 [| |l]] eqn:FI; cbn [fst snd] in CH, FA.
    + apply (fin_d k _ s (sd_last Exit_SUCCESS (sd_w w2 (s_d s)))); auto using inv_last, inv_w.
      eapply D_case_none; eauto.
    + apply err_good; auto. intros f H. eapply D_case_err; eauto.
    + destruct l as [|a l].
      { apply (fin_d k _ s (sd_last Exit_SUCCESS (sd_w w2 (s_d s)))); auto using inv_last, inv_w.
        eapply D_case_none; eauto. }
      assert (OL : ok_list m (a :: l) = true) by exact (FA _ (ok_list m) eq_refl OKP).
      assert (K : keep false s (upd_w w2 s)) by (constructor; auto).
      assert (B1 : base (upd_w w2 s)).
      { constructor; try apply B. apply inv_w, I. }
      assert (G : good (TList (a :: l) fe) (upd_w w2 s) (exec k (TList (a :: l) fe) (upd_w w2 s))).
      { apply IH; auto. apply (next_pre _ s); auto. }
      assert (G2 : good (TBody (BCase x its) fe) s (exec k (TList (a :: l) fe) (upd_w w2 s))).
      { eapply good_seq; [exact G|exact K|reflexivity| |reflexivity|auto|discriminate|].
        - intros f H. eapply D_case; eauto.
        - intros r i H. exact (FA _ (nj_list r i) eq_refl H). }
      clear G. destruct (exec k (TList (a :: l) fe) (upd_w w2 s)) as [[s1|u z]| |]; auto; cbn [andthen].
      destruct G2 as (F & o & G & R). cbn in F. subst fe. apply finish with o; auto. discriminate.
  - (* BBracket *)
    destruct (o_basic O b (d_w (s_d s))) as [[w1 sgs] st] eqn:E.
    set (d' := sd_last st (deliver sgs (sd_w w1 (s_d s)))).
    assert (CC : d_any (s_d s) = false -> calm d').
    { intros A. left. apply (calm_any sgs (s_d s) w1 I A). }
    apply fin_d; auto.
    + cbn [job_of]. apply D_bracket. rewrite E. eexists. split; [apply deliver_catches|reflexivity].
    + apply inv_last, inv_deliver, inv_w, I.
    + destruct (d_any (s_d s)) eqn:A; auto.
  - (* BFundef *)
    cbn [ok_body] in OKP. apply andb_true_iff in OKP. destruct OKP as [O1 O2].
    destruct f as [f|].
    + apply (fin_d k _ s (sd_last Exit_SUCCESS (define_function f c (s_d s)))); auto.
      * apply D_fundef.
      * apply inv_last. destruct I as [J1 J2 J3 J4 J5 J6]. constructor; auto.
        constructor; auto.
    + apply (fin_d k _ s (sd_last Exit_EXPERROR (s_d s))); auto using inv_last.
      apply D_fundef_err.
Qed.

(** ** Conditions, if, loops, texts and iterations *)

Definition ne {A} (l : list A) : bool := match l with [] => false | _ => true end.

Lemma cond_ok k cond s : k <= n -> base s -> calm (s_d s) -> ok_list m cond = true ->
  match exec k (TCond cond) s with
  | Ok (Cont s1) =>
    exists o, ev (quiet (ne cond) (cxs s)) (JBlock cond) (s_d s) (Go o (s_d s1))
      /\ RR (TList cond false) s o s1 /\ calm (s_d s1)
      /\ (forall r i, nj_list r i cond = true -> okout r i o)
      /\ (cond = [] -> s1 = s /\ o = ONorm)
  | Ok (Dead v st) => ev (quiet (ne cond) (cxs s)) (JBlock cond) (s_d s) (Stop v st)
  | UB => False
  | Fuel => True
  end.
Proof.
  intros Hk B C OKC. destruct k as [|k]; [exact Logic.I|]. cbn [exec].
  destruct cond as [|a cond].
  - exists ONorm. sp; auto.
    + apply Bl_sigs, G_none, C.
    + apply RR_refl; auto.
    + intros; exact Logic.I.
  - set (s0 := ss_sup true true s).
    assert (G : good (TList (a :: cond) false) s0 (exec k (TList (a :: cond) false) s0)).
    { apply IH; [lia|]. constructor; auto; try discriminate. destruct B. constructor; auto. }
    unfold ExecSim.good in G. cbn [fe_of job_of] in G.
    assert (Q : cxs s0 = quiet (ne (a :: cond)) (cxs s)).
    { unfold cxs, quiet. cbn. rewrite !orb_true_r. reflexivity. }
    rewrite Q in G. change (s_d s0) with (s_d s) in G.
    destruct (exec k (TList (a :: cond) false) s0) as [[s1|v st]| |]; auto; cbn [andthen].
    + destruct G as (_ & o & G & R). exists o. sp; [|..|discriminate].
      * apply Bl_list. exact G.
      * eapply RR_sup; [exact R|auto|reflexivity|reflexivity|reflexivity|auto|auto].
      * destruct (r_calm _ _ _ _ _ R) as [Z|[Z _]]; [exact Z|discriminate].
      * intros r i Z. apply (r_nj _ _ _ _ _ R); auto.
    + destruct G as (f & G & [-> |(F & _)]); [|discriminate]. apply Bl_list. exact G.
Qed.

Lemma ok_cls_tail p cls : ok_cls m (p :: cls) = true -> ok_cls m cls = true.
Proof.
  unfold ok_cls. cbn [forallb]. rewrite !andb_true_iff. intros [[A B] C]. split; auto.
  destruct cls; auto.
Qed.

Lemma if_ok k cls fe s : k < n -> pre (TIf cls fe) s -> good (TIf cls fe) s (exec (S k) (TIf cls fe) s).
Proof.
  intros Hk P. assert (B := p_base _ _ _ P). assert (C := p_calm _ _ _ P eq_refl).
  assert (FE := p_fe _ _ _ P). cbn [fe_of] in FE. assert (OKP := p_ok _ _ _ P). cbn [ok_of] in OKP.
  assert (I := b_inv _ _ B). assert (LE : k <= n) by lia.
  assert (FX : fe = true -> d_ex (s_d s) = None) by (intros E; apply FE, E).
  destruct cls as [|[cond l] cls]; cbn [exec].
  { apply (fin_d k _ s (sd_last Exit_SUCCESS (s_d s))); auto using inv_last. apply I_none. }
  rewrite (base_nb _ _ B).
  assert (OKT := ok_cls_tail _ _ OKP).
  assert (OKC : ok_list m cond = true /\ ok_list m l = true).
  { unfold ok_cls in OKP. cbn [forallb] in OKP. rewrite !andb_true_iff in OKP. tauto. }
  destruct OKC as [OKC OKL].
  assert (CO := cond_ok k cond s LE B C OKC).
  destruct (exec k (TCond cond) s) as [[s1|v st]| |]; auto; cbn [andthen].
  2:{ exists (Stop v st). split; [|left; reflexivity]. cbn [job_of].
      destruct cond as [|a cond].
      - inversion CO; subst.
        match goal with H : ev _ JSigs _ _ |- _ => inversion H; subst end.
        unfold calm in C. destruct C; congruence.
      - inversion CO; subst. apply I_abrupt; auto. exact Logic.I. }
  destruct CO as (o & EV & R & C1 & NJ & E0).
  assert (K := r_keep _ _ _ _ _ R). cbn [loop_of] in K.
  destruct cond as [|a cond].
  { destruct (E0 eq_refl) as [-> ->].
    eapply good_seq with (t1 := TList l fe) (s1 := s);
      [|exact K|reflexivity|intros f H; apply I_else; exact H|reflexivity|auto|discriminate|].
    - apply IH; auto. apply (next_pre _ s); auto.
    - cbn. intros r i H. apply andb_true_iff in H. apply H. }
  inversion EV; subst. clear EV. cbn [ne] in *.
  assert (RI : RR (TIf ((a :: cond, l) :: cls) fe) s o s1).
  { eapply RR_via; [exact R|apply keep_refl|reflexivity|auto|discriminate|].
    intros r i H. cbn [nj_of forallb] in *. rewrite !andb_true_iff in H. apply H. }
  destruct (onorm_dec o) as [-> |N].
  - assert (B1 : base s1) by (eapply base_next; [|exact R|exact B]; reflexivity).
    destruct (N.eqb_spec (d_last (s_d s1)) Exit_SUCCESS) as [Z|Z].
    + eapply good_seq with (t1 := TList l fe) (s1 := s1);
        [|exact K|reflexivity| |reflexivity|auto|discriminate|].
      * apply IH; auto. apply (next_pre _ s); auto.
      * intros f H. eapply I_yes; eauto.
      * cbn [nj_of forallb]. intros r i H. rewrite !andb_true_iff in H. apply H.
    + eapply good_seq with (t1 := TIf cls fe) (s1 := s1);
        [|exact K|reflexivity| |reflexivity|auto|discriminate|].
      * apply IH; auto. apply (next_pre _ s); auto.
      * intros f H. eapply I_no; eauto.
      * cbn [nj_of forallb]. intros r i H. rewrite !andb_true_iff in H. apply H.
  - assert (NB := flow_break _ _ (r_flow _ _ _ _ _ R) N).
    assert (EA : ev (cxs s) (JIf ((a :: cond, l) :: cls)) (s_d s) (Go o (s_d s1))).
    { apply I_abrupt; auto. apply abrupt_go, N. }
    destruct (N.eqb_spec (d_last (s_d s1)) Exit_SUCCESS) as [Z|Z].
    + rewrite list_abrupt by exact NB. destruct k as [|k]; [exact Logic.I|].
      apply finish with o; auto. lia.
    + destruct cls as [|[c2 l2] cls].
      * exfalso. unfold ok_cls in OKP. cbn [last fst] in OKP. apply andb_true_iff in OKP.
        assert (Y := NJ false false (proj2 OKP)). assert (F := r_flow _ _ _ _ _ R).
        destruct o; try discriminate Y; try congruence; cbn in F; apply Z, F.
      * destruct k as [|k]; [exact Logic.I|]. cbn [exec]. rewrite NB.
        apply finish with o; auto. lia.
Qed.

Lemma check_flow (s : sh) o : flow s o -> e_ln (s_e s) <> 0 ->
  match leave o with
  | None => check_loop s = Some (ss_x XNone s) /\ e_ln (s_e s) <= e_bn (s_e s)
  | Some o' => check_loop s = None /\ flow (leave_loop s) o'
  end.
Proof.
  intros F L. unfold check_loop.
  destruct o as [|[|i]|[|i]| | |]; cbn [flow leave] in F |- *; unfold flow in *;
    destruct F as [X F]; rewrite X; cbn [leave_loop ss_e s_e s_x e_ln e_bn s_d];
    repeat match goal with H : _ /\ _ |- _ => destruct H end;
    match goal with |- context [Nat.ltb ?a ?b] => destruct (Nat.ltb_spec a b) end;
    try lia; sp; auto; try lia.
  f_equal. destruct s as [d e x a b]. cbn in X. subst x. reflexivity.
Qed.

Lemma okout_leave r i o o' : leave o = Some o' -> okout r i o -> okout r i o'.
Proof. destruct o as [|[|]|[|]| | |]; cbn; intros E; inversion E; subst; cbn; auto. Qed.

Lemma RR_leave t1 t s s0 o o' s2 : RR t1 s0 o s2 -> leave o = Some o' -> keep false s s0 ->
  e_ln (s_e s) <> 0 -> loop_of t1 = false -> is_iter t1 = false ->
  loop_of t = true -> is_iter t = false -> calm (s_d s2) ->
  (forall r i, nj_of r i t = true -> nj_of r i t1 = true) ->
  RR t s o' (leave_loop s2).
Proof.
  intros R LV K LN L1 I1 L2 I2 C NJ.
  assert (K1 := r_keep _ _ _ _ _ R). rewrite L1 in K1. assert (K2 := keep_trans _ _ _ _ K K1).
  assert (F := check_flow s2 o (r_flow _ _ _ _ _ R)). rewrite LV in F.
  rewrite (k_ln _ _ _ K2) in F. specialize (F LN). destruct F as [_ F].
  destruct R as [_ _ A3 A4 A5 A6 A7]. constructor; auto.
  - rewrite L2. destruct K2 as [B1 B2 B3 B4 B5 B6 B7]. constructor; auto. cbn. rewrite B3. reflexivity.
  - intros M. specialize (A4 M). destruct o as [|[|]|[|]| | |]; inversion LV; subst; auto.
  - destruct o as [|[|]|[|]| | |]; inversion LV; subst; auto; rewrite <- (k_it _ _ _ K); destruct A5; auto.
  - intros r i H1 H2. eapply okout_leave; [exact LV|]. apply A6; auto.
    rewrite (k_ser _ _ _ K). exact H2.
Qed.

Lemma next_loop t1 s s1 s0 o t2 : RR t1 s0 o s1 -> leave o = None -> keep false s s0 -> base s ->
  e_ln (s_e s) <> 0 -> loop_of t1 = false -> calm (s_d s1) ->
  main t2 = true -> ok_of m t2 = true ->
  (fe_of t2 = true -> s_ser s = false /\ d_ex (s_d s) = None /\ e_it (s_e s) = false) ->
  soft_of t2 = false ->
  check_loop s1 = Some (ss_x XNone s1) /\ keep false s (ss_x XNone s1) /\ pre t2 (ss_x XNone s1).
Proof.
  intros R LV K B LN L1 C M OKT FE S.
  assert (K1 := r_keep _ _ _ _ _ R). rewrite L1 in K1. assert (K2 := keep_trans _ _ _ _ K K1).
  assert (F := check_flow s1 o (r_flow _ _ _ _ _ R)). rewrite LV in F.
  rewrite (k_ln _ _ _ K2) in F. specialize (F LN). destruct F as [F1 F2].
  rewrite <- (k_ln _ _ _ K2) in F2.
  split; [exact F1|].
  destruct K2 as [B1 B2 B3 B4 B5 B6 B7]. split; [constructor; auto|].
  constructor; auto.
  - constructor; auto; [|apply R]. cbn. rewrite B4. apply B.
  - cbn. rewrite B2, B5, B6. auto.
  - congruence.
  - cbn. rewrite B3. auto.
Qed.

Lemma block_sigs {A} k k1 (l : list A) (s : sh) : k1 = S k -> inv (s_d s) -> calm (s_d s) ->
  match l with [] => exec k1 TSigs s | _ => Ok (Cont s) end = Ok (Cont s).
Proof. intros -> I C. destruct l; auto. apply sigs_calm; auto. Qed.

Lemma fors_ok k v ws l fe s : k < n -> pre (TFors v ws l fe) s ->
  good (TFors v ws l fe) s (exec (S k) (TFors v ws l fe) s).
Proof.
  intros Hk P. assert (B := p_base _ _ _ P). assert (C := p_calm _ _ _ P eq_refl).
  assert (FE := p_fe _ _ _ P). cbn [fe_of] in FE. assert (OKP := p_ok _ _ _ P). cbn [ok_of] in OKP.
  assert (I := b_inv _ _ B). assert (LE : k <= n) by lia. assert (LN := p_loop _ _ _ P eq_refl).
  assert (FX : fe = true -> d_ex (s_d s) = None) by (intros E; apply FE, E).
  destruct k as [|k]; [destruct ws; cbn [exec]; [exact Logic.I|destruct (o_assign _ _ _ _); exact Logic.I]|].
  remember (S k) as k1 eqn:EK. destruct ws as [|x ws]; cbn [exec].
  { apply end_ok with ONorm; auto; [apply F_end|].
    constructor; cbn; auto.
    - constructor; auto.
    - split; [apply B|]. assert (Z := b_le _ _ B). lia. }
  destruct (o_assign O v x (d_w (s_d s))) as [w1|] eqn:AS.
  - set (fe' := fe && match ws with [] => true | _ => false end).
    assert (K : keep false s (upd_w w1 s)) by (constructor; auto).
    assert (B1 : base (upd_w w1 s)).
    { constructor; try apply B. apply inv_w, I. }
    assert (G : good (TList l fe') (upd_w w1 s) (exec k1 (TList l fe') (upd_w w1 s))).
    { apply IH; auto. apply (next_pre _ s); auto. intros E. apply FE.
      cbn [fe_of] in E. unfold fe' in E. apply andb_true_iff in E. apply E. }
    unfold ExecSim.good in G. cbn [fe_of job_of] in G.
    change (cxs (upd_w w1 s)) with (cxs s) in G. change (s_d (upd_w w1 s)) with (sd_w w1 (s_d s)) in G.
    destruct (exec k1 (TList l fe') (upd_w w1 s)) as [[s1|u z]| |]; auto; cbn [andthen].
    + destruct G as (F & o & G & R).
      assert (C1 : calm (s_d s1)).
      { destruct (r_calm _ _ _ _ _ R) as [Z|[Z _]]; [exact Z|discriminate]. }
      rewrite (block_sigs k k1 _ _ EK (r_inv _ _ _ _ _ R) C1). cbn [andthen].
      assert (G' := block_ev _ _ _ _ G C).
      destruct (leave o) as [o'|] eqn:LV.
      * assert (CF := check_flow s1 o (r_flow _ _ _ _ _ R)). rewrite LV in CF.
        rewrite (k_ln _ _ _ (r_keep _ _ _ _ _ R)) in CF. destruct (CF LN) as [-> _].
        apply end_ok with o'; auto.
        -- eapply F_leave; eauto.
        -- eapply RR_leave; [exact R|exact LV|exact K|auto..].
      * destruct (next_loop _ s s1 _ o (TFors v ws l fe) R LV K B LN) as (CL & K2 & P2); auto.
        rewrite CL.
        eapply good_seq with (t1 := TFors v ws l fe) (s1 := ss_x XNone s1);
          [|exact K2|reflexivity| |reflexivity|auto|discriminate|auto].
        -- apply IH; auto.
        -- intros f H. eapply F_next; eauto.
    + destruct G as (f & G & CL). assert (G' := block_ev _ _ _ _ G C).
      destruct CL as [-> |(E & o & d1 & -> & C1 & C2 & C3)].
      * exists (Stop u z). split; [|left; reflexivity]. eapply F_stop; eauto.
      * unfold fe' in E. destruct fe; [|discriminate]. destruct ws; [|discriminate].
        destruct (leave o) as [o'|] eqn:LV.
        -- exists (Go o' d1). split; [eapply F_leave; eauto|]. right. split; auto.
           exists o', d1. sp; auto.
        -- exists (Go ONorm d1). split; [eapply F_next; eauto; apply F_end|]. right. split; auto.
           exists ONorm, d1. sp; auto.
  - set (s0 := sets_last Exit_ASSGNERR s).
    assert (E := err_ok k1 None s0 ONorm LE (inv_last _ _ _ I) C
                   (conj (b_x _ _ B) (b_le _ _ B)) (b_nr _ _ B) (fun _ => b_x _ _ B)).
    change (cxs s0) with (cxs s) in E. change (pl None) with True in E.
    change (s_d s0) with (sd_last 2%N (s_d s)) in E.
    destruct (exec k1 (TErr None) s0) as [[s1|u z]| |]; auto; cbn [andthen].
    + destruct E as (o & E & D).
      assert (KD : s_d s1 = s_d s0) by (destruct D as [[-> _]|[-> _]]; reflexivity).
      rewrite KD. change (d_inter (s_d s0)) with (d_inter (s_d s)). rewrite (i_inter _ _ I).
      cbn [negb]. rewrite orb_true_r. rewrite EK. cbn [exec].
      destruct k as [|k]; [exact Logic.I|]. cbn [exec].
      assert (X : exits None (leave_loop s1) (exec k (TExit None) (leave_loop s1))).
      { apply exit_ok; [lia| | |].
        - change (s_d (leave_loop s1)) with (s_d s1). rewrite KD. apply inv_last, I.
        - change (s_d (leave_loop s1)) with (s_d s1). rewrite KD. exact C.
        - intros M. destruct D as [[-> _]|(_ & _ & _ & _ & Z)]; [apply B|congruence]. }
      destruct (exec k (TExit None) (leave_loop s1)) as [[s5|u z]| |]; [contradiction| |contradiction|exact Logic.I].
      cbn [exits] in X. exists (Stop u z). split; [|left; reflexivity].
      eapply F_die; [exact AS|]. eapply Pr_go; [exact E|].
      eapply exit_cx; [exact X| |]; cbn; destruct D as [[-> _]|[-> _]]; reflexivity.
    + exists (Stop u z). split; [|left; reflexivity]. eapply F_die; [exact AS|]. apply Pr_stop. exact E.
Qed.

Lemma while_ok k ty cond l st fe s : k < n -> pre (TWhile ty cond l st fe) s ->
  good (TWhile ty cond l st fe) s (exec (S k) (TWhile ty cond l st fe) s).
Proof.
  intros Hk P. assert (B := p_base _ _ _ P). assert (C := p_calm _ _ _ P eq_refl).
  assert (FE := p_fe _ _ _ P). cbn [fe_of] in FE. assert (OKP := p_ok _ _ _ P). cbn [ok_of] in OKP.
  assert (I := b_inv _ _ B). assert (LE : k <= n) by lia. assert (LN := p_loop _ _ _ P eq_refl).
  assert (FX : fe = true -> d_ex (s_d s) = None) by (intros E; apply FE, E).
  apply andb_true_iff in OKP. destruct OKP as [OKC OKL].
  destruct k as [|k]; [exact Logic.I|].
  remember (S k) as k1 eqn:EK. cbn [exec].
  assert (CO := cond_ok k1 cond s LE B C OKC).
  destruct (exec k1 (TCond cond) s) as [[s1|u z]| |]; auto; cbn [andthen].
  2:{ exists (Stop u z). split; [|left; reflexivity]. apply W_stop. exact CO. }
  destruct CO as (o & EV & R & C1 & NJ & E0).
  set (c := match cond with [] => true | _ => _ end).
  rewrite (block_sigs k k1 _ _ EK (r_inv _ _ _ _ _ R) C1). cbn [andthen].
  assert (K := r_keep _ _ _ _ _ R). cbn [loop_of] in K.
  assert (NW : forall r i, nj_of r i (@TWhile O ty cond l st fe) = true ->
               nj_list r i cond = true /\ nj_list r i l = true).
  { intros r i H. apply andb_true_iff in H. exact H. }
  assert (OKW : forall st', ok_of m (@TWhile O ty cond l st' fe) = true).
  { intros. cbn. rewrite OKC. exact OKL. }
  destruct (leave o) as [o'|] eqn:LV.
  { assert (CF := check_flow s1 o (r_flow _ _ _ _ _ R)). rewrite LV in CF.
    rewrite (k_ln _ _ _ K) in CF. destruct (CF LN) as [-> _].
    apply end_ok with o'; auto.
    - eapply W_leave; eauto.
    - eapply RR_leave; [exact R|exact LV|apply keep_refl|auto..]. intros r i H. apply (NW r i H). }
  destruct (next_loop _ s s1 _ o (TWhile ty cond l st fe) R LV (keep_refl s) B LN) as (CL & K2 & P2); auto.
  rewrite CL. set (s3 := ss_x XNone s1) in *.
  assert (OO : o = ONorm \/ o = OCont 0) by (destruct o as [|[|]|[|]| | |]; auto; discriminate).
  assert (F := r_flow _ _ _ _ _ R).
  destruct OO as [-> | ->].
  2:{ destruct F as [-> _].
      eapply good_seq with (t1 := TWhile ty cond l st fe) (s1 := s3);
        [|exact K2|reflexivity| |reflexivity|auto|discriminate|auto].
      - apply IH; auto.
      - intros f H. eapply W_again; eauto. }
  assert (S3 : s3 = s1) by (unfold s3; destruct F as [F1 _]; revert F1; generalize s1; intros [d e y a b] F1; cbn in F1; subst y; reflexivity).
  clearbody s3. subst s3. destruct F as [-> _].
  assert (B1 : base s1) by apply P2.
  destruct (Bool.eqb c ty) eqn:CT; cbn [negb].
  - assert (CC : if ty then cond = [] \/ ~ fails (s_d s1) else cond <> [] /\ fails (s_d s1)).
    { unfold c, fails, Exit_SUCCESS in *. destruct cond; destruct ty; cbn in CT; try discriminate; auto;
        destruct (N.eqb_spec (d_last (s_d s1)) 0); cbn in CT; try discriminate; auto.
      split; [discriminate|auto]. }
    destruct l as [|a l].
    + rewrite (block_sigs k k1 (@nil nat) _ EK (r_inv _ _ _ _ _ R) C1). cbn [andthen]. rewrite CL.
      eapply good_seq with (t1 := TWhile ty cond [] st fe) (s1 := s1);
        [|exact K2|reflexivity| |reflexivity|auto|discriminate|auto].
      * apply IH; auto.
      * intros f H. eapply W_body_next with (o := ONorm); [exact EV|exact CC| |reflexivity|exact H].
        apply Bl_sigs, G_none, C1.
    + assert (G : good (TList (a :: l) false) s1 (exec k1 (TList (a :: l) false) s1)).
      { apply IH; auto. apply (next_pre _ s); auto. discriminate. }
      unfold ExecSim.good in G. cbn [fe_of job_of] in G. rewrite (keep_cxs _ _ K) in G.
      destruct (exec k1 (TList (a :: l) false) s1) as [[s4|u z]| |]; auto; cbn [andthen].
      * destruct G as (_ & o & G & R4).
        assert (C4 : calm (s_d s4)).
        { destruct (r_calm _ _ _ _ _ R4) as [Z|[Z _]]; [exact Z|discriminate]. }
        assert (K4 := keep_trans _ _ _ _ K (r_keep _ _ _ _ _ R4)).
        destruct (leave o) as [o'|] eqn:LV4.
        -- assert (CF := check_flow s4 o (r_flow _ _ _ _ _ R4)). rewrite LV4 in CF.
           rewrite (k_ln _ _ _ K4) in CF. destruct (CF LN) as [-> _].
           apply end_ok with o'; auto.
           ++ eapply W_body_leave; [exact EV|exact CC|apply Bl_list; exact G|exact LV4].
           ++ eapply RR_leave; [exact R4|exact LV4|exact K|auto..]. intros r i H. apply (NW r i H).
        -- destruct (next_loop _ s s4 _ o (TWhile ty cond (a :: l) (d_last (s_d s4)) fe) R4 LV4 K B LN)
             as (CL4 & K5 & P5); auto.
           rewrite CL4.
           eapply good_seq with (t1 := TWhile ty cond (a :: l) (d_last (s_d s4)) fe) (s1 := ss_x XNone s4);
             [|exact K5|reflexivity| |reflexivity|auto|discriminate|auto].
           ++ apply IH; auto.
           ++ intros f H. eapply W_body_next; [exact EV|exact CC|apply Bl_list; exact G|exact LV4|exact H].
      * destruct G as (f & G & [-> |(Z & _)]); [|discriminate].
        exists (Stop u z). split; [|left; reflexivity].
        eapply W_body_stop; [exact EV|exact CC|apply Bl_list; exact G].
  - assert (CC : if ty then cond <> [] /\ fails (s_d s1) else cond = [] \/ ~ fails (s_d s1)).
    { unfold c, fails, Exit_SUCCESS in *. destruct cond; destruct ty; cbn in CT; try discriminate; auto;
        destruct (N.eqb_spec (d_last (s_d s1)) 0); cbn in CT; try discriminate; auto.
      split; [discriminate|auto]. }
    apply end_ok with ONorm; auto.
    + eapply W_end; eauto.
    + assert (R2 : RR (TList cond false) s (OBrk 0) s1 -> True) by auto.
      destruct R as [[A1 A2 A3 A4 A5 A6 A7] RB RC RD RE RF RG]. constructor; cbn; auto.
      * constructor; auto. cbn. rewrite A3. reflexivity.
      * destruct RB as [X1 X2]. split; auto. lia.
      * apply inv_last. exact RC.
Qed.

Lemma lines_ok k ls e fe eof s : k < n -> pre (TLines ls e fe eof) s ->
  good (TLines ls e fe eof) s (exec (S k) (TLines ls e fe eof) s).
Proof.
  intros Hk P. assert (B := p_base _ _ _ P). assert (C := p_calm _ _ _ P eq_refl).
  assert (FE := p_fe _ _ _ P). cbn [fe_of] in FE. assert (OKP := p_ok _ _ _ P). cbn [ok_of] in OKP.
  assert (I := b_inv _ _ B). assert (LE : k <= n) by lia.
  assert (FX : fe = true -> d_ex (s_d s) = None) by (intros E; apply FE, E).
  cbn [exec]. rewrite (base_nb _ _ B).
  destruct ls as [|[|a l] ls].
  - set (s1 := if e then s else _).
    assert (S1 : s1 = ss_d (if e then s_d s else sd_last 0%N (s_d s)) s).
    { unfold s1. destruct e; [destruct s|]; reflexivity. }
    clearbody s1. subst s1. apply fin_d; auto.
    + apply N_end.
    + destruct e; auto using inv_last.
    + destruct e; reflexivity.
    + destruct e; reflexivity.
    + destruct e; reflexivity.
    + left. destruct e; exact C.
    + intros F. split; auto. destruct e; exact C.
  - eapply good_seq with (t1 := TLines ls e fe eof) (s1 := s);
      [|apply keep_refl|reflexivity| |reflexivity|auto|discriminate|auto].
    + apply IH; auto. apply (next_pre _ s); auto using keep_refl.
    + intros f H. apply N_blank. exact H.
  - cbn [ok_lines forallb] in OKP. apply andb_true_iff in OKP. destruct OKP as [OKL OKS].
    set (fe' := fe && eof && match ls with [] => true | _ => false end).
    assert (G : good (TList (a :: l) fe') s (exec k (TList (a :: l) fe') s)).
    { apply IH; auto. apply (next_pre _ s); auto using keep_refl. intros E. apply FE.
      cbn [fe_of] in E. unfold fe' in E. rewrite !andb_true_iff in E. apply E. }
    unfold ExecSim.good in G. cbn [fe_of job_of] in G.
    destruct (exec k (TList (a :: l) fe') s) as [[s1|u z]| |]; auto; cbn [andthen].
    + destruct G as (F & o & G & R).
      assert (C1 : calm (s_d s1)).
      { destruct (r_calm _ _ _ _ _ R) as [Z|[Z _]]; [exact Z|discriminate]. }
      assert (K := r_keep _ _ _ _ _ R). cbn [loop_of] in K.
      destruct (onorm_dec o) as [-> |N].
      * assert (B1 : base s1) by (eapply base_next; [|exact R|exact B]; reflexivity).
        eapply good_seq with (t1 := TLines ls true fe eof) (s1 := s1);
          [|exact K|reflexivity| |reflexivity|auto|discriminate|].
        -- apply IH; auto. apply (next_pre _ s); auto.
        -- intros f H. eapply N_go; eauto.
        -- intros r i H. cbn [nj_of nj_lines forallb] in *. apply andb_true_iff in H. apply H.
      * assert (NB := flow_break _ _ (r_flow _ _ _ _ _ R) N).
        destruct k as [|k]; [exact Logic.I|]. cbn [exec]. rewrite NB.
        apply finish with o; [lia|reflexivity| | |].
        -- apply N_stop; auto. apply abrupt_go, N.
        -- eapply RR_via; [exact R|apply keep_refl|reflexivity|auto|discriminate|].
           intros r i H. cbn [nj_of nj_lines forallb] in *. apply andb_true_iff in H. apply H.
        -- auto.
    + destruct G as (f & G & CL).
      destruct CL as [-> |(E & o & d1 & -> & C1 & C2 & C3)].
      * exists (Stop u z). split; [|left; reflexivity]. apply N_stop; auto. exact Logic.I.
      * unfold fe' in E. destruct fe; [|discriminate]. destruct eof; [|discriminate].
        destruct ls; [|discriminate].
        destruct (onorm_dec o) as [-> |N].
        -- exists (Go ONorm d1). split; [eapply N_go; [exact G|apply (N_end _ true)]|]. right. split; auto.
           exists ONorm, d1. sp; auto.
        -- exists (Go o d1). split; [apply N_stop; auto; apply abrupt_go, N|]. right. split; auto.
           exists o, d1. sp; auto.
Qed.

Lemma iter_ok k lss sv cst s : k < n -> pre (TIter lss sv cst) s ->
  good (TIter lss sv cst) s (exec (S k) (TIter lss sv cst) s).
Proof.
  intros Hk P. assert (B := p_base _ _ _ P). assert (C := p_calm _ _ _ P eq_refl).
  assert (OKP := p_ok _ _ _ P). cbn [ok_of] in OKP.
  assert (I := b_inv _ _ B). assert (LE : k <= n) by lia.
  destruct lss as [|ls lss]; cbn [exec].
  { split; auto. exists ONorm. split; [apply T_end|]. apply (RR_d _ s (sd_last cst (s_d s))); auto using inv_last. }
  cbn [forallb] in OKP. apply andb_true_iff in OKP. destruct OKP as [OKL OKS].
  assert (G : good (TLines ls false false false) s (exec k (TLines ls false false false) s)).
  { apply IH; auto. apply lines_pre; auto. }
  unfold ExecSim.good in G. cbn [fe_of job_of] in G.
  destruct (exec k (TLines ls false false false) s) as [[s1|u z]| |]; auto; cbn [andthen].
  2:{ destruct G as (f & G & [-> |(Z & _)]); [|discriminate].
      exists (Stop u z). split; [|left; reflexivity]. apply T_abrupt; [exact G|exact Logic.I]. }
  destruct G as (_ & o & G & R).
  assert (C1 : calm (s_d s1)).
  { destruct (r_calm _ _ _ _ _ R) as [Z|[Z _]]; [exact Z|discriminate]. }
  assert (K := r_keep _ _ _ _ _ R). cbn [loop_of] in K.
  assert (F := r_flow _ _ _ _ _ R).
  assert (SL : forall x (s2 : sh), s_d s2 = sd_last sv (s_d s1) -> x = d_last (s_d s1) -> s_d (sets_last x s2) = s_d s1).
  { intros x s2 H ->. unfold sets_last, ss_d. cbn [s_d]. rewrite H. destruct (s_d s1); reflexivity. }
  assert (KL : forall x c, keep false s (ss_x x (sets_last sv s1)) /\ keep false s (sets_last c (ss_x x (sets_last sv s1)))).
  { intros x c. destruct K as [A1 A2 A3 A4 A5 A6 A7]. split; constructor; auto. }
  assert (NEXT : o = ONorm \/ o = OContI ->
    good (TIter (ls :: lss) sv cst) s (exec k (TIter lss sv (d_last (s_d s1))) (ss_x XNone (sets_last sv s1)))).
  { intros OO.
    eapply good_seq with (t1 := TIter lss sv (d_last (s_d s1))) (s1 := ss_x XNone (sets_last sv s1));
      [|apply (KL XNone 0%N)|reflexivity| |reflexivity|auto|discriminate|].
    - apply IH; auto. apply (next_pre _ s); auto; [apply (KL XNone 0%N)| |discriminate].
      constructor; auto.
      + destruct OO as [-> | ->]; apply F.
      + cbn. rewrite (k_nr _ _ _ K). apply B.
      + apply inv_last, R.
    - intros f H. eapply T_next; eauto.
    - intros r i H. cbn [nj_of forallb] in *. apply andb_true_iff in H. apply H. }
  assert (ABR : forall s2, s2 = s1 -> match o with ONorm | OBrkI | OContI => False | _ => True end ->
    good (TIter (ls :: lss) sv cst) s (Ok (Cont s2))).
  { intros s2 -> OO. split; auto. exists o. split.
    - apply T_abrupt; [exact G|]. destruct o; auto.
    - destruct R as [RA RB RC RD RE RF RG]. constructor; auto.
      + destruct o; auto; contradiction.
      + intros r i H1 H2. cbn [nj_of forallb] in H1. apply andb_true_iff in H1. destruct H1 as [H1 _].
        specialize (RF r true H1 H2). destruct o; auto; contradiction. }
  cbn [s_x sets_last ss_d].
  assert (ID : forall x, s_x s1 = x -> sets_last (d_last (s_d s1)) (sets_last sv s1) = s1).
  { intros x _. destruct s1 as [d e y a b]. unfold sets_last. cbn. destruct d; reflexivity. }
  assert (ID2 : s_x s1 = XNone -> sets_last (d_last (s_d s1)) (ss_x XNone (sets_last sv s1)) = s1).
  { intros Z. destruct s1 as [d e y a b]. cbn in Z. subst y. unfold sets_last. cbn. destruct d; reflexivity. }
  destruct o as [|i|i| | |]; cbn in F; destruct F as [X F]; rewrite X.
  - cbn [s_e ss_x ss_d sets_last]. destruct (Nat.ltb_spec (e_bn (s_e s1)) (e_ln (s_e s1))); [lia|]. auto.
  - cbn [s_e ss_x ss_d sets_last]. destruct (Nat.ltb_spec (e_bn (s_e s1)) (e_ln (s_e s1))); [|lia].
    apply ABR; auto.
  - apply ABR; auto. apply (ID _ X).
  - apply ABR; auto. apply (ID _ X).
  - split; auto. exists ONorm. rewrite SL by reflexivity.
    split; [apply T_break; exact G|]. constructor; cbn [is_iter loop_of]; auto.
    + apply KL.
    + split; [reflexivity|apply F].
    + rewrite SL by reflexivity. apply R.
    + intros; exact Logic.I.

  - cbn [s_e ss_x ss_d sets_last]. destruct (Nat.ltb_spec (e_bn (s_e s1)) (e_ln (s_e s1))); [lia|]. auto.
Qed.

Lemma step_ok : SIM n.
Proof.
  intros t s P. destruct n as [|k] eqn:EN; [exact Logic.I|]. rewrite <- EN in *.
  assert (Hk : k < n) by lia. rewrite EN.
  assert (M := p_main _ _ _ P).
  destruct t; try discriminate M.
  - apply list_ok; auto.
  - apply pipes_ok; auto.
  - apply coms_ok; auto.
  - destruct c as [r b]. destruct b; try (apply one_ok; auto; exact Logic.I). apply simple_ok; auto.
  - apply kind_ok; auto.
  - apply body_ok; auto.
  - apply if_ok; auto.
  - apply fors_ok; auto.
  - apply while_ok; auto.
  - apply lines_ok; auto.
  - apply iter_ok; auto.
Qed.
End Proofs.

Theorem SIM_all {O : os} (OK : os_ok O) m n : @SIM O m n.
Proof. induction n as [n IH] using lt_wf_ind. apply step_ok; auto. Qed.
