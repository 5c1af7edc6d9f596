(** Exit statuses, waiting for all jobs, reports and job specifications *)
From Coq Require Import Ascii String.
From Coq Require Import List NArith ZArith Bool Arith Lia Sorted.
From Verif Require Import Common Locale NumModel BraceSpec BraceNum JobModel JobSpec JobProofs JobHist JobWait JobRun.
Import ListNotations.
Open Scope res_scope.

(** ** Exit status after waiting *)
Lemma track_end evs p0 p : track evs p0 p -> wf_proc p -> ended p -> exists n, proc_exit p n /\ ends_with evs p0 n.
Proof.
  intros [T1 T2] W E. destruct (wf_exit p W E) as (n & H). exists n. split; [exact H|]. destruct T2 as [[T2 ->]|[T2 [[T3 _]|(_ & w & T4 & T5)]]]; [left; auto|contradiction|]. right. split; [exact T2|]. exists w. split; [exact T4|].
  destruct H as [[_ H]|(_ & w' & H & K)]; congruence.
Qed.
Lemma followed_done n id ps0 evs s j pf : followed n id ps0 evs s j -> j_status j = Done ->
  exists l x, Forall2 (ends_with evs) ps0 l /\ calc_status_of_job pf j = Ok x /\ pipeline_status pf l x.
Proof.
  intros F S. pose proof (in_wf _ (fo_inv _ _ _ _ _ _ F) n j (fo_at _ _ _ _ _ _ F)) as [W1 W2 W3]. pose proof (fo_honest _ _ _ _ _ _ F) as H. unfold honest in H. rewrite S in H. cbn in H. pose proof (fo_track _ _ _ _ _ _ F) as T.
  assert (X : exists l, Forall2 proc_exit (j_procs j) l /\ Forall2 (ends_with evs) ps0 l).
  { clear - W2 H T. revert W2 H. induction T as [|p0 p ps0 ps T0 T IH]; intros W H; [exists []; auto|]. inversion W as [|? ? Wa Wb]; inversion H as [|? ? Ha Hb]; subst. destruct (IH Wb Hb) as (l & L1 & L2), (track_end _ _ _ T0 Wa Ha) as (n & N1 & N2). exists (n :: l). split; now constructor. }
  destruct X as (l & L1 & L2). destruct (done_status pf j l S W1 L1) as (x & E & P). eauto.
Qed.
Lemma ended_dec p : {ended p} + {~ ended p}.
Proof. unfold ended. destruct (pr_status p); [right|right|left]; congruence. Qed.
Lemma followed_undone n id ps0 evs s j : followed n id ps0 evs s j -> j_status j <> Done -> Exists (fun p => ~ ended p /\ no_fate (pr_pid p) evs) ps0.
Proof.
  intros F S. pose proof (in_wf _ (fo_inv _ _ _ _ _ _ F) n j (fo_at _ _ _ _ _ _ F)) as [W1 _ _]. pose proof (fo_honest _ _ _ _ _ _ F) as H. pose proof (fo_track _ _ _ _ _ _ F) as T.
  assert (X : ~ Forall ended (j_procs j)). { intros X. apply S. eapply status_of_unique; [exact H|exact X|exact W1]. }
  clear - T X. induction T as [|p0 p ps0 ps T0 T IH]; [destruct X; constructor|]. destruct (ended_dec p) as [E|E].
  - apply Exists_cons_tl, IH. intros Y. apply X. now constructor.
  - apply Exists_cons_hd. destruct T0 as [T1 [[T2 ->]|[T2 [[T3 T4]|(T3 & _)]]]]; [contradiction|auto|contradiction].
Qed.
Lemma calm_any rs : Forall (calm false false) rs.
Proof. apply Forall_forall. intros r _. split; now left. Qed.
Lemma new_distinct ps : Forall (fun p => fst p <> Some 0%Z) ps -> NoDup (pids ps) -> distinct (map new_proc ps).
Proof.
  intros F N i k p q Hi Hk Ep Eq E. rewrite nth_error_map in Hi, Hk. destruct (nth_error ps i) as [[[a|] x]|] eqn:Ei; cbn in Hi; try discriminate; [|injection Hi as <-; now destruct Ep]. destruct (nth_error ps k) as [[[b|] y]|] eqn:Ek; cbn in Hk; try discriminate; [|injection Hk as <-; now destruct Eq].
  injection Hi as <-. injection Hk as <-. cbn in E. subst b. clear - N Ei Ek.
  assert (X : forall ps k y, nth_error ps k = Some (Some a, y) -> In a (pids ps)).
  { clear. intros ps k y H. apply in_flat_map. exists (Some a, y). split; [eapply nth_error_In; exact H|now left]. }
  revert i k Ei Ek. induction ps as [|[[b|] z] ps IH]; intros i k Ei Ek; [destruct i; discriminate| |].
  - cbn in N. inversion N as [|? ? N1 N2]; subst. destruct i as [|i], k as [|k]; cbn in Ei, Ek; [reflexivity| | |f_equal; eauto].
    + injection Ei as <- _. destruct N1. eapply X; exact Ek.
    + injection Ek as <- _. destruct N1. eapply X; exact Ei.
  - destruct i as [|i], k as [|k]; cbn in Ei, Ek; try discriminate. f_equal. eauto.
Qed.
Lemma foreground_ok jc pf pgid ps rs s : inv s -> no_foreground s -> ps_ok true ps -> NoDup (pids ps) ->
  (exists x s' rs1 rs2 l, run_foreground jc pf pgid ps rs s = Ok (x, s') /\ rs = rs1 ++ rs2 /\ Forall2 (command_ends (all_events rs1)) ps l /\ pipeline_status pf l x /\ same_jobs s s' /\ no_foreground s') \/
  (jc = true /\ exists sig s' n j, run_foreground jc pf pgid ps rs s = Ok ((sig + 384)%Z, s') /\ ~ is_job s n /\ listed s' n j /\ j_status j = Stopped /\ map pr_pid (j_procs j) = map (fun p => match fst p with Some pid => pid | None => 0%Z end) ps /\
    (exists a p b, j_procs j = a ++ p :: b /\ pr_code p = Code (StopSig sig) /\ stops p /\ Forall (fun q => ~ stops q) b) /\ no_foreground s') \/
  (run_foreground jc pf pgid ps rs s = Fuel /\ exists pid, In pid (pids ps) /\ no_fate pid (all_events rs)).
Proof.
  intros I N (P1 & P2 & P3) U. unfold run_foreground. set (pg := if jc then pgid else 0%Z). assert (E : exists s1, new_job pg true ps s = Ok s1).
  { unfold new_job, set_active_job. apply no_foreground_get in N. unfold get_job in N. destruct (jobs s) as [|[j|] l] eqn:E; [destruct (in_len _ I E)|discriminate|]. cbn [rbind]. eauto. }
  destruct E as (s1 & E). rewrite E. cbn [rbind]. destruct (new_inv _ _ _ _ _ P1 P2 E I) as [I1 _]. apply new_job_ok in E as (H0 & H1 & H2 & H3 & H4 & H5 & H6). set (j := mkJob (next_id s) pg Running true false false (map new_proc ps)) in *.
  assert (F : followed 0 (j_id j) (map new_proc ps) [] s1 j).
  { constructor; [exact I1|now apply get_job_at|reflexivity| | |now apply new_distinct|].
    - cbn [j_procs j]. clear. induction ps; constructor; [apply track_refl|assumption].
    - unfold honest. cbn [j_procs j_status j status_of]. specialize (P3 eq_refl). apply Exists_exists in P3 as (p & Ip & Np). apply Exists_exists. exists (new_proc p). split; [now apply in_map|]. destruct p as [[pid|] name]; [reflexivity|now destruct Np].
    - intros i j0 p q Hi. lia. }
  destruct (wait_for_job_ok rs 0 _ jc false false s1 j (calm_any rs) eq_refl F) as [(rs1 & rs2 & s2 & j2 & Er & -> & F2 & S2 & [D|[J D]])|(-> & s2 & j2 & F2 & D & _)]; [| |]; cbn [rbind].
  - left. pose proof (fo_at _ _ _ _ _ _ F2) as A. apply get_job_at in A. rewrite A. destruct (followed_done _ _ _ _ _ _ pf F2 D) as (l & x & L1 & -> & L2). cbn [rbind]. rewrite D. cbn [jstatus_eqb].
    destruct (remove_ok 0 s2 (get_job_bound _ _ _ A)) as (s3 & -> & _ & G & _). cbn [rbind]. exists x, s3, rs1, rs2, l. split; [reflexivity|]. split; [exact Er|]. split; [|split; [exact L2|split]].
    + clear - L1 P2. revert l L1. induction P2 as [|[[pid|] name] ps Hp P2 IH]; intros l L; inversion L as [|? n ? l' E1 E2]; subst; constructor; auto.
      * destruct E1 as [[X _]|[_ X]]; [discriminate X|exact X].
      * destruct E1 as [[_ [[_ X]|[X _]]]|[X _]]; [cbn in X; injection X as <-; reflexivity|now destruct X|now destruct X].
    + intros n Hn. rewrite G. destruct (Nat.eqb_spec n 0); [lia|]. rewrite <- S2 by exact Hn. now rewrite H2.
    + apply no_foreground_get. now rewrite G.
  - right. left. split; [exact J|]. pose proof (fo_at _ _ _ _ _ _ F2) as A2. pose proof A2 as G2. apply get_job_at in G2. rewrite G2. pose proof (fo_inv _ _ _ _ _ _ F2) as I2. pose proof (in_wf _ I2 _ _ A2) as W2.
    destruct (stopped_status pf j2 W2 D) as (a & p & b & sig & K1 & K2 & K3 & K4 & ->). cbn [rbind]. rewrite D. cbn [jstatus_eqb]. destruct (add_ok true s2 j2 A2) as (n & s3 & -> & [B1 B2 B3 B4 B5 B6 B7 B8] & _). cbn [rbind]. exists sig, s3, n, j2. split; [reflexivity|].
    split; [|split; [split; [exact B1|exact B4]|split; [exact D|split; [|split; [exists a, p, b; auto|now apply no_foreground_get]]]]].
    + intros (k & _ & Ak). apply B2. apply get_job_at in Ak. rewrite <- H2 in Ak by exact B1. specialize (S2 n B1). rewrite Ak in S2. destruct (get_job s2 n) as [k2|] eqn:G; [|discriminate]. exists k2. split; [exact B1|now apply get_job_at].
    + pose proof (fo_track _ _ _ _ _ _ F2) as T. clear - T. revert T. generalize (j_procs j2). induction ps as [|[[pid|] name] ps IH]; intros l T; inversion T as [|? q ? l' [T1 _] T2]; subst; [reflexivity| |]; cbn [map fst]; rewrite T1; cbn [new_proc pr_pid]; f_equal; now apply IH.
  - right. right. split; [reflexivity|]. pose proof (followed_undone _ _ _ _ _ _ F2 D) as X. apply Exists_exists in X as (p & Ip & E1 & E2). apply in_map_iff in Ip as ([[pid|] name] & <- & Ip); [|now destruct E1]. exists pid. split; [|exact E2]. apply in_flat_map. exists (Some pid, name). split; [exact Ip|now left].
Qed.
Lemma wait_number_ok pf verbose rs n s j : inv s -> listed s n j -> j_legacy j = false -> honest j -> separate s -> Forall (fun r => rd_trap r = None) rs ->
  (exists x s' rs1 rs2 l, wait_for_number pf false verbose rs n s = Ok (x, s') /\ rs = rs1 ++ rs2 /\ Forall2 (ends_with (all_events rs1)) (j_procs j) l /\ pipeline_status pf l x /\ (verbose = false -> ~ is_job s' n)) \/
  (wait_for_number pf false verbose rs n s = Fuel /\ exists p, In p (j_procs j) /\ ~ ended p /\ no_fate (pr_pid p) (all_events rs)).
Proof.
  intros I [N A] Lg H U C. unfold wait_for_number. pose proof A as G. apply get_job_at in G. rewrite G, Lg. destruct (Nat.eqb_spec n 0) as [->|_]; [lia|]. cbn [orb].
  assert (F : followed n (j_id j) (j_procs j) [] s j).
  { constructor; auto.
    - clear. induction (j_procs j); constructor; [apply track_refl|assumption].
    - intros i k p q Hi Hk Ep Eq E. exact (proj2 (U n n j j i k p q A A Hi Hk Ep Eq E)).
    - intros i j0 p q Hi Hj Ip Iq Ep Eq E. apply In_nth_error in Ip as (a & Ip), Iq as (b & Iq). pose proof (proj1 (U i n j0 j a b p q Hj A Ip Iq Ep Eq E)). lia. }
  assert (C' : Forall (calm false true) rs) by (eapply Forall_impl; [|exact C]; intros r Hr; split; [now right|now left]).
  destruct (wait_for_job_ok rs n _ false false true s j C' Lg F) as [(rs1 & rs2 & s2 & j2 & Er & -> & F2 & S2 & [D|[D _]])|(-> & s2 & j2 & F2 & D & _)]; [| |]; cbn [rbind].
  - left. cbn [Z.eqb negb]. pose proof (fo_at _ _ _ _ _ _ F2) as A2. assert (D2 : deref (j_id j) s2 = Ok j2) by (rewrite <- (fo_id _ _ _ _ _ _ F2); eapply deref_at; [exact (fo_inv _ _ _ _ _ _ F2)|exact A2]). rewrite D2. cbn [rbind].
    destruct (followed_done _ _ _ _ _ _ pf F2 D) as (l & x & L1 & -> & L2). cbn [rbind]. rewrite D. cbn [jstatus_eqb]. destruct verbose.
    + assert (R : exists s3, print_job_status n false true s2 = Ok s3).
      { unfold print_job_status. apply get_job_at in A2. rewrite A2. destruct (j_nonotify j2); [eauto|]. cbn [andb]. rewrite D. cbn [jstatus_eqb]. set (t := mkSt _ _ _ _ _ _). destruct (remove_ok n t) as (s3 & -> & _); [|eauto]. subst t. cbn [jobs]. rewrite length_upd. eapply get_job_bound; exact A2. }
      destruct R as (s3 & ->). cbn [rbind]. exists x, s3, rs1, rs2, l. split; [reflexivity|]. split; [exact Er|]. split; [exact L1|]. split; [exact L2|discriminate].
    + apply get_job_at in A2. destruct (remove_ok n s2 (get_job_bound _ _ _ A2)) as (s3 & -> & _ & G3 & _). cbn [rbind]. exists x, s3, rs1, rs2, l. split; [reflexivity|]. split; [exact Er|]. split; [exact L1|]. split; [exact L2|].
      intros _ (k & _ & K). apply get_job_at in K. rewrite G3, Nat.eqb_refl in K. discriminate.
  - discriminate.
  - right. split; [reflexivity|]. pose proof (followed_undone _ _ _ _ _ _ F2 D) as X. apply Exists_exists in X as (p & Ip & E1 & E2). eauto.
Qed.

(** ** Waiting for all *)
Lemma has_job_false jc v s s' : has_job jc v s = Ok (false, s') -> forall n j, listed s' n j -> jc = true /\ j_status j <> Running.
Proof.
  unfold has_job. destruct (reap v 1 (length (jobs s)) s) as [t| |]; cbn [rbind]; try discriminate. intros H. injection H as H <-. intros n j [N A]. unfold job_at in A. destruct (jobs t) as [|o l]; [destruct n; discriminate|]. destruct n as [|n]; [lia|]. cbn in A, H.
  assert (X : negb jc || jstatus_eqb (j_status j) Running = false).
  { destruct (negb jc || jstatus_eqb (j_status j) Running) eqn:E; [|reflexivity]. assert (Y : existsb (fun o => match o with Some j => negb jc || jstatus_eqb (j_status j) Running | None => false end) l = true); [|congruence]. apply existsb_exists. exists (Some j). split; [eapply nth_error_In; exact A|exact E]. }
  apply orb_false_iff in X as [X1 X2]. destruct jc; [|discriminate]. split; [reflexivity|]. destruct (jstatus_eqb_spec (j_status j) Running); [discriminate|assumption].
Qed.
Lemma wait_sigs r i t s x s' : (forall sig ops, rd_trap r = Some (sig, ops) -> (0 < sig)%Z) -> wait_for_sigchld r i t s = Ok (x, s') -> (0 <= x)%Z.
Proof.
  unfold wait_for_sigchld. intros P. destruct (rd_trap r) as [[sig ops]|].
  - specialize (P sig ops eq_refl). destruct t.
    + destruct (do_ops ops s); cbn [rbind]; try discriminate. destruct (handle_sigchld _ _ _ _); cbn [rbind]; try discriminate. intros H. injection H as <- _. destruct (i && rd_int r); [unfold SIGINT|]; lia.
    + cbn [rbind]. destruct (handle_sigchld _ _ _ _); cbn [rbind]; try discriminate. intros H. injection H as <- _. destruct (i && rd_int r); [unfold SIGINT|]; lia.
  - cbn [rbind]. destruct (handle_sigchld _ _ _ _); cbn [rbind]; try discriminate. intros H. injection H as <- _. destruct (i && rd_int r); [unfold SIGINT|]; lia.
Qed.
Lemma wait_all_ok jc v rs s s' : Forall (fun r => forall sig ops, rd_trap r = Some (sig, ops) -> (0 < sig)%Z) rs -> wait_all jc v rs s = Ok (0%Z, s') -> forall n j, listed s' n j -> jc = true /\ j_status j <> Running.
Proof.
  intros F. revert s. induction F as [|r rs Hr F IH]; intros s; cbn [wait_all]; (destruct (has_job jc v s) as [[b s1]| |] eqn:E; cbn [rbind]; try discriminate); (destruct b; cbn [negb]; [|intros H; injection H as <-; eapply has_job_false; exact E]); try discriminate.
  destruct (wait_for_sigchld r jc true s1) as [[sig s2]| |] eqn:E2; cbn [rbind]; try discriminate. pose proof (wait_sigs _ _ _ _ _ _ Hr E2). destruct (negb (sig =? 0)%Z); [|exact (IH s2)]. intros X. injection X as X _. unfold TERMSIGOFFSET in X. lia.
Qed.

(** ** Reports *)
Definition rep (s : st) (n : nat) : list report :=
  match get_job s n with
  | Some j => if j_nonotify j then [] else if j_changed j then [mkReport n (mark_of s n) (j_status j) (j_id j)] else []
  | None => []
  end.
Lemma print_out n s : exists s', print_job_status n true false s = Ok s' /\ out s' = out s ++ rep s n /\
  (forall j, get_job s' n = Some j -> j_nonotify j = true \/ j_changed j = false).
Proof.
  unfold print_job_status, rep. destruct (get_job s n) as [j|] eqn:E; [|exists s; rewrite app_nil_r; split; [reflexivity|split; [reflexivity|congruence]]].
  destruct (j_nonotify j) eqn:EN; [exists s; rewrite app_nil_r; split; [reflexivity|split; [reflexivity|]]; intros i Hi; left; congruence|].
  destruct (j_changed j) eqn:EC; cbn [andb negb]; [|exists s; rewrite app_nil_r; split; [reflexivity|split; [reflexivity|]]; intros i Hi; right; congruence].
  eexists. split; [reflexivity|]. split; [reflexivity|]. intros i Hi. right. change (get_job (with_jobs (upd (jobs s) n (Some (with_changed false j))) s) n = Some i) in Hi. rewrite upd_get in Hi by (eapply get_job_bound; exact E). rewrite Nat.eqb_refl in Hi. injection Hi as <-. reflexivity.
Qed.
Lemma print_from_out i k s : length (jobs s) <= i + k -> exists s', print_from (fun i => print_job_status i true false) i k s = Ok s' /\ out s' = out s ++ flat_map (rep s) (seq i (length (jobs s) - i)) /\
  forall n j, i <= n -> get_job s' n = Some j -> j_nonotify j = true \/ j_changed j = false.
Proof.
  revert i s. induction k as [|k IH]; intros i s B; cbn [print_from].
  - exists s. replace (length (jobs s) - i) with 0 by lia. cbn [seq flat_map]. rewrite app_nil_r. split; [reflexivity|]. split; [reflexivity|]. intros n j Hn G. apply get_job_bound in G. lia.
  - destruct (Nat.ltb_spec i (length (jobs s))) as [Hi|Hi].
    2:{ exists s. replace (length (jobs s) - i) with 0 by lia. cbn [seq flat_map]. rewrite app_nil_r. split; [reflexivity|]. split; [reflexivity|]. intros n j Hn G. apply get_job_bound in G. lia. }
    destruct (print_out i s) as (s1 & E1 & O1 & C1). destruct (print_keeps i true s) as (s2 & E2 & _ & K1 & K2 & K3 & K4). rewrite E1 in E2. injection E2 as <-. rewrite E1. cbn [rbind].
    destruct (IH (S i) s1) as (s' & E & O & C); [lia|]. exists s'. split; [exact E|]. split.
    + rewrite O, O1, K3. replace (length (jobs s) - i) with (S (length (jobs s) - S i)) by lia. cbn [seq flat_map]. rewrite <- app_assoc. f_equal. f_equal.
      assert (X : forall l, Forall (fun m => i < m) l -> flat_map (rep s1) l = flat_map (rep s) l).
      { intros l Fl. induction Fl as [|m l Hm Fl IHl]; [reflexivity|]. cbn [flat_map]. rewrite IHl. f_equal. unfold rep, mark_of. rewrite K1, K2. destruct (K4 m) as [->|(Y & _)]; [reflexivity|lia]. }
      apply X. apply Forall_forall. intros m Hm. apply in_seq in Hm. lia.
    + intros n j Hn G. destruct (Nat.eq_dec n i) as [->|N]; [|apply (C n); [lia|exact G]]. apply C1. rewrite <- G. symmetry. destruct (print_from_ok true (S i) k s1) as (s3 & E3 & _ & _ & _ & _ & X & _). rewrite E in E3. injection E3 as <-. apply X. lia.
Qed.
Lemma print_all_out b s : inv s -> exists s' reps, print_job_status_all b s = Ok s' /\ out s' = out s ++ reps /\ StronglySorted lt (map r_number reps) /\
  (forall r, In r reps <-> exists j, to_report s (r_number r) j /\ r = mkReport (r_number r) (mark_of s' (r_number r)) (j_status j) (j_id j)) /\
  (forall n j, ~ to_report s' n j).
Proof.
  intros I. unfold print_job_status_all. cbv zeta. destruct (curstop_keeps b s) as (K1 & _ & K2). set (t := apply_curstop b s) in *. assert (G : forall n, get_job t n = get_job s n) by (intros n; apply curstop_get). clearbody t.
  destruct (print_from_out 1 (length (jobs t)) t) as (s' & E & O & C); [lia|]. destruct (print_from_ok true 1 (length (jobs t)) t) as (s1 & E1 & _ & _ & M1 & M2 & _). rewrite E in E1. injection E1 as <-. exists s'. eexists. split; [exact E|]. split; [rewrite O, K2; reflexivity|].
  assert (R1 : forall n r, In r (rep t n) -> r_number r = n).
  { intros n r. unfold rep. destruct (get_job t n) as [j|]; [|intros []]. destruct (j_nonotify j); [intros []|]. destruct (j_changed j); [|intros []]. intros [<-|[]]. reflexivity. }
  split; [|split].
  - generalize (length (jobs t) - 1) as k. generalize 1 as i. intros i k. revert i. induction k as [|k IH]; intros i; cbn [seq flat_map]; [constructor|].
    assert (X : rep t i = [] \/ exists r, rep t i = [r] /\ r_number r = i). { unfold rep. destruct (get_job t i) as [j|]; [|auto]. destruct (j_nonotify j); [auto|]. destruct (j_changed j); [right; eexists; split; reflexivity|auto]. }
    destruct X as [->|(r & -> & Er)]; [apply IH|]. cbn [app map]. constructor; [apply IH|]. rewrite Er. apply Forall_forall. intros m Hm. apply in_map_iff in Hm as (q & <- & Hq). apply in_flat_map in Hq as (m & Hm & Hq). apply R1 in Hq. rewrite Hq. apply in_seq in Hm. lia.
  - intros r. split.
    + intros H. apply in_flat_map in H as (n & Hn & H). pose proof (R1 n r H) as En. apply in_seq in Hn. unfold rep in H. destruct (get_job t n) as [j|] eqn:Ej; [|destruct H]. destruct (j_nonotify j) eqn:EN; [destruct H|]. destruct (j_changed j) eqn:EC; [|destruct H]. destruct H as [<-|[]]. cbn [r_number].
      exists j. split; [|unfold mark_of; rewrite M1, M2; reflexivity]. split; [|auto]. split; [lia|]. apply get_job_at. now rewrite <- G.
    + intros (j & ([Hn A] & EC & EN) & ->). cbn [r_number] in *. apply get_job_at in A. rewrite <- G in A. apply in_flat_map. exists (r_number r). split; [apply in_seq; pose proof (get_job_bound _ _ _ A); lia|]. unfold rep. rewrite A, EN, EC. left. unfold mark_of. now rewrite M1, M2.
  - intros n j ([Hn A] & EC & EN). apply get_job_at in A. destruct (C n j Hn A); congruence.
Qed.

(** ** Job specifications *)
Lemma prefix_ok p t : prefix p t = true <-> exists b, t = p ++ b.
Proof.
  revert t. induction p as [|a p IH]; intros t; cbn [prefix]; [split; [exists t; reflexivity|reflexivity]|]. destruct t as [|b t]; [split; [discriminate|intros (x & H); discriminate]|].
  rewrite andb_true_iff, N.eqb_eq, IH. split; [intros (-> & x & ->); exists x; reflexivity|intros (x & H)]. injection H as -> ->. eauto.
Qed.
Lemma contains_ok p t : contains p t = true <-> exists a b, t = a ++ p ++ b.
Proof.
  induction t as [|c t IH]; cbn [contains]; rewrite orb_true_iff, prefix_ok.
  - split; [intros [(b & H)|H]; [exists [], b; exact H|discriminate]|]. intros (a & b & H). left. destruct a; [exists b; exact H|discriminate].
  - rewrite IH. split.
    + intros [(b & H)|(a & b & H)]; [exists [], b; exact H|exists (c :: a), b; now rewrite H].
    + intros (a & b & H). destruct a as [|d a]; [left; exists b; exact H|right]. injection H as _ H. eauto.
Qed.
Lemma name_join ps t : ps <> [] -> name_of ps t <-> t = join_names ps.
Proof.
  intros N. split.
  - clear N. induction 1 as [p|p q ps t H IH]; [reflexivity|]. rewrite IH. reflexivity.
  - intros ->. induction ps as [|p ps IH]; [congruence|]. destruct ps as [|q ps]; [constructor|]. change (join_names (p :: q :: ps)) with (pr_name p ++ [32; 124; 32]%N ++ join_names (q :: ps)). constructor. apply IH. discriminate.
Qed.
Definition matcher (name : list N) : list N -> bool := match name with 63%N :: name' => contains name' | _ => prefix name end.
Lemma matcher_ok name j : j_procs j <> [] -> matcher name (get_job_name j) = true <-> matches name j.
Proof.
  intros Np. unfold matches, matcher, get_job_name.
  assert (X : forall Q : list N -> Prop, (exists t, name_of (j_procs j) t /\ Q t) <-> Q (join_names (j_procs j))).
  { intros Q. split; [intros (t & H & K); apply name_join in H; [now subst|exact Np]|]. intros K. eexists. split; [apply name_join; [exact Np|reflexivity]|exact K]. }
  destruct name as [|c name]; [rewrite X; apply prefix_ok|]. destruct (N.eq_dec c 63) as [->|Nc]; [rewrite X; apply contains_ok|].
  assert (Y : forall (A : Type) (f : list N -> A) (g : A), match c with 63%N => f name | _ => g end = g) by (intros A f g; destruct c as [|p]; [reflexivity|]; do 6 (destruct p as [p|p|]; try reflexivity); congruence).
  rewrite (Y _ (fun name => contains name) (prefix (c :: name))), X. rewrite (Y Prop (fun x => exists a b, join_names (j_procs j) = a ++ x ++ b) (exists b, join_names (j_procs j) = (c :: name) ++ b)). apply prefix_ok.
Qed.
Definition hit (p : list N -> bool) (o : option job) : bool := match o with Some j => p (get_job_name j) | None => false end.
Lemma search_none p len i n l : existsb (hit p) l = false -> search_name p len i n l = n.
Proof. revert i n. induction l as [|[j|] l IH]; intros i n; cbn [existsb hit search_name orb]; [auto| |apply IH]. intros H. apply orb_false_iff in H as [-> H]. now apply IH. Qed.
Lemma search_more p len i n l : n <> 0 -> existsb (hit p) l = true -> search_name p len i n l = len.
Proof.
  intros N. revert i. induction l as [|[j|] l IH]; intros i; cbn [existsb hit search_name orb]; [discriminate| |apply IH]. destruct (p (get_job_name j)); cbn [orb]; [|apply IH]. intros _. destruct (Nat.eqb_spec n 0); [contradiction|reflexivity].
Qed.
Lemma existsb_hit p l : existsb (hit p) l = true <-> exists k j, nth_error l k = Some (Some j) /\ p (get_job_name j) = true.
Proof.
  rewrite existsb_exists. split.
  - intros (o & I & H). apply In_nth_error in I as (k & I). destruct o as [j|]; [|discriminate]. eauto.
  - intros (k & j & H & K). exists (Some j). split; [eapply nth_error_In; exact H|exact K].
Qed.
Inductive search_result (p : list N -> bool) (l : list (option job)) : nat -> nat -> nat -> Prop :=
| sr_none len i : (forall k j, nth_error l k = Some (Some j) -> p (get_job_name j) = false) -> search_result p l len i 0
| sr_one len i k j : nth_error l k = Some (Some j) -> p (get_job_name j) = true -> (forall m q, nth_error l m = Some (Some q) -> p (get_job_name q) = true -> m = k) -> search_result p l len i (i + k)
| sr_many len i k m j q : k <> m -> nth_error l k = Some (Some j) -> p (get_job_name j) = true -> nth_error l m = Some (Some q) -> p (get_job_name q) = true -> search_result p l len i len.
Lemma search_ok p len i l : 1 <= i -> search_result p l len i (search_name p len i 0 l).
Proof.
  revert i. induction l as [|o l IH]; intros i Hi; [apply sr_none; intros k j H; destruct k; discriminate|]. cbn [search_name].
  assert (Lift : hit p o = false -> search_result p (o :: l) len i (search_name p len (S i) 0 l)).
  { intros Ho. specialize (IH (S i) ltac:(lia)). set (r := search_name p len (S i) 0 l) in *. clearbody r. inversion IH as [? ? H1 E1 E2 E3|? ? k j H1 H2 H3 E1 E2 E3|? ? k m j q H1 H2 H3 H4 H5 E1 E2 E3]; subst.
    - apply sr_none. intros k j H. destruct k as [|k]; [cbn in H; injection H as ->; exact Ho|eauto].
    - replace (S i + k) with (i + S k) by lia. apply sr_one with j; [exact H1|exact H2|]. intros m q H K. destruct m as [|m]; [cbn in H; injection H as ->; cbn in Ho; congruence|]. f_equal. eauto.
    - apply sr_many with (S k) (S m) j q; auto. }
  destruct o as [j|]; [|now apply Lift]. destruct (p (get_job_name j)) eqn:E; [|now apply Lift]. cbn [Nat.eqb negb].
  destruct (existsb (hit p) l) eqn:X.
  - rewrite search_more by (lia || exact X). apply existsb_hit in X as (k & q & H & K). apply sr_many with 0 (S k) j q; auto.
  - rewrite search_none by exact X. replace i with (i + 0) at 2 by lia. apply sr_one with j; [reflexivity|exact E|]. intros m q H K. destruct m as [|m]; [reflexivity|]. exfalso. assert (existsb (hit p) l = true); [|congruence]. apply existsb_hit. eauto.
Qed.
(** A specification that is neither special nor a number *)
Definition by_name (L : locale) (name : list N) : Prop :=
  name <> [] /\ name <> str "%" /\ name <> str "+" /\ name <> str "-" /\ (iswdigit (hd 0%N name) = true -> xwcstoul10 L name = None).
Lemma list_N_eqb_false a b : a <> b -> list_N_eqb a b = false.
Proof. intros H. destruct (list_N_eqb a b) eqn:E; [|reflexivity]. apply list_N_eqb_eq in E. contradiction. Qed.
Lemma number_by_name L name s : by_name L name -> get_jobnumber_from_name L name s = search_name (matcher name) (length (jobs s)) 1 0 (tl (jobs s)).
Proof.
  intros (H1 & H2 & H3 & H4 & H5). unfold get_jobnumber_from_name. rewrite !list_N_eqb_false by assumption. cbn [orb]. cbv zeta. fold (matcher name). destruct name as [|c name]; [congruence|]. cbn [hd] in H5. destruct (iswdigit c); [now rewrite H5|reflexivity].
Qed.
Lemma operand_by_name L name s : inv s -> by_name L name ->
  match find_operand L name s with
  | Job n => exists j, listed s n j /\ matches name j /\ forall m k, listed s m k -> matches name k -> m = n
  | NoSuch => forall n j, listed s n j -> ~ matches name j
  | Ambiguous => exists n m j k, n <> m /\ listed s n j /\ matches name j /\ listed s m k /\ matches name k
  end.
Proof.
  intros I B. unfold find_operand. rewrite (number_by_name L name s B). destruct (jobs s) as [|o l] eqn:Ej; [destruct (in_len _ I Ej)|]. cbn [tl].
  assert (W : forall n j, listed s n j -> matcher name (get_job_name j) = true <-> matches name j) by (intros n j [_ A]; apply matcher_ok; apply (in_wf _ I n j A)).
  assert (A : forall k j, nth_error l k = Some (Some j) -> listed s (S k) j) by (intros k j H; split; [lia|]; unfold job_at; rewrite Ej; exact H).
  assert (A' : forall n j, listed s n j -> exists k, n = S k /\ nth_error l k = Some (Some j)). { intros n j [Hn H]. unfold job_at in H. rewrite Ej in H. destruct n as [|n]; [lia|]. eauto. }
  pose proof (search_ok (matcher name) (length (o :: l)) 1 l ltac:(lia)) as R. set (r := search_name _ _ _ _ _) in *. clearbody r. inversion R as [? ? H1 E1 E2 E3|? ? k j H1 H2 H3 E1 E2 E3|? ? k m j q H1 H2 H3 H4 H5 E1 E2 E3]; subst.
  - cbn [length Nat.leb Nat.eqb orb]. intros n j Hl M. destruct (A' n j Hl) as (k & -> & K). apply (W _ _ Hl) in M. rewrite (H1 k j K) in M. discriminate.
  - assert (Bk : k < length l) by (apply nth_error_Some; congruence). cbn [length Nat.add]. destruct (Nat.leb_spec (S (length l)) (S k)); [lia|]. cbn [Nat.eqb orb]. pose proof (A k j H1) as Hl. destruct Hl as [Hn Ha]. pose proof Ha as G. apply get_job_at in G. rewrite G. cbn [exists_job negb].
    exists j. split; [split; assumption|]. split; [apply (W (S k) j); [split; assumption|exact H2]|]. intros m q Hq M. destruct (A' m q Hq) as (i & -> & K). f_equal. apply (H3 i q K). apply (W _ _ Hq). exact M.
  - rewrite Nat.leb_refl. exists (S k), (S m), j, q. split; [congruence|]. pose proof (A k j H2) as La. pose proof (A m q H4) as Lb. split; [exact La|]. split; [now apply (W _ _ La)|]. split; [exact Lb|now apply (W _ _ Lb)].
Qed.
Lemma digits_number L name : locale_ok L -> name <> [] -> Forall (fun c => is_digit c = true) name -> xwcstoul10 L name = if (digits_value 0 name <? ULONG_MOD)%Z then Some (digits_value 0 name) else None.
Proof.
  intros HL N F. unfold xwcstoul10. rewrite (wcstol_unfold L).
  destruct name as [|c name]; [congruence|]. assert (Hc : is_digit c = true) by (now inversion F). assert (S : skip_space L (c :: name) = c :: name) by (cbn; now rewrite (digit_nospace L HL c Hc)).
  rewrite S, take_sign_other by (unfold is_digit in Hc; lia). pose proof (scan_digits_fwd (c :: name) 0 false []) as X. rewrite app_nil_r in X. rewrite X by (auto; exact Logic.I). cbn [orb negb]. reflexivity.
Qed.
Lemma no_number L name : locale_ok L -> iswdigit (hd 0%N name) = true -> ~ Forall (fun c => is_digit c = true) name -> xwcstoul10 L name = None.
Proof.
  intros HL H N. unfold xwcstoul10. rewrite (wcstol_unfold L). destruct name as [|c name]; [discriminate|]. cbn [hd] in H. change (iswdigit c) with (is_digit c) in H. assert (S : skip_space L (c :: name) = c :: name) by (cbn; now rewrite (digit_nospace L HL c H)).
  rewrite S, take_sign_other by (unfold is_digit in H; lia). destruct (scan_digits 10 0 false (c :: name)) as [[v r] b] eqn:E. destruct b; [|reflexivity]. destruct r as [|d r]; [|reflexivity]. apply scan_digits_bwd in E as (ds & E & F & _). rewrite app_nil_r in E. now rewrite <- E in F.
Qed.
Lemma operand_by_number L name s : inv s -> locale_ok L -> name <> [] -> Forall (fun c => is_digit c = true) name -> (digits_value 0 name < 2 ^ 64)%Z ->
  match find_operand L name s with
  | Job n => Z.of_nat n = digits_value 0 name /\ is_job s n
  | NoSuch => forall n, Z.of_nat n = digits_value 0 name -> ~ is_job s n
  | Ambiguous => False
  end.
Proof.
  intros I HL N F B. assert (P : forall ds acc, (0 <= acc)%Z -> Forall (fun c => is_digit c = true) ds -> (0 <= digits_value acc ds)%Z).
  { clear. induction ds as [|d ds IH]; intros acc Ha Hd; cbn [digits_value]; [exact Ha|]. inversion Hd as [|? ? H1 H2]; subst. apply IH; [|exact H2]. unfold is_digit in H1. lia. }
  specialize (P name 0%Z ltac:(lia) F). pose proof (digits_number L name HL N F) as D. assert (U : (digits_value 0 name <? ULONG_MOD)%Z = true) by (unfold ULONG_MOD; lia). rewrite U in D.
  destruct name as [|c name]; [congruence|]. assert (Hc : iswdigit c = true) by (inversion F; assumption).
  assert (E : get_jobnumber_from_name L (c :: name) s = if (digits_value 0 (c :: name) <? Z.of_nat (length (jobs s)))%Z && exists_job (get_job s (Z.to_nat (digits_value 0 (c :: name)))) then Z.to_nat (digits_value 0 (c :: name)) else 0).
  { unfold get_jobnumber_from_name. rewrite !list_N_eqb_false by (intros X; try discriminate X; injection X as -> _; discriminate Hc). cbn [orb]. cbv zeta. rewrite Hc, D. reflexivity. }
  unfold find_operand. rewrite E. clear E. set (v := digits_value 0 (c :: name)) in *. clearbody v. pose proof (in_len _ I) as Ln. assert (Lp : 0 < length (jobs s)) by (destruct (jobs s); [congruence|cbn; lia]).
  destruct (get_job s (Z.to_nat v)) as [j|] eqn:G; cbn [exists_job].
  - pose proof (get_job_bound _ _ _ G) as Bv. replace (v <? Z.of_nat (length (jobs s)))%Z with true by lia. cbn [andb]. destruct (Nat.leb_spec (length (jobs s)) (Z.to_nat v)); [lia|]. rewrite G. cbn [exists_job negb]. rewrite orb_false_r. destruct (Nat.eqb_spec (Z.to_nat v) 0) as [Z0|Z0].
    + intros n Hn [k [K _]]. lia.
    + split; [lia|]. exists j. split; [lia|now apply get_job_at].
  - rewrite andb_false_r. destruct (Nat.leb_spec (length (jobs s)) 0); [lia|]. cbn [Nat.eqb orb]. intros n Hn [k [_ K]]. apply get_job_at in K. replace n with (Z.to_nat v) in K by lia. congruence.
Qed.
Lemma operand_special L s : inv s -> valid s ->
  (forall name, name = [] \/ name = str "%" \/ name = str "+" -> find_operand L name s = if cur s =? 0 then NoSuch else Job (cur s)) /\
  find_operand L (str "-") s = if prev s =? 0 then NoSuch else Job (prev s).
Proof.
  intros I [V1 V2]. pose proof (in_len _ I) as Ln. assert (X : forall n, n = 0 \/ is_job s n -> (if length (jobs s) <=? n then Ambiguous else if (n =? 0) || negb (exists_job (get_job s n)) then NoSuch else Job n) = if n =? 0 then NoSuch else Job n).
  { intros n [->|H]; [destruct (jobs s); [congruence|reflexivity]|]. destruct H as (j & [Hn A]). apply get_job_at in A. pose proof (get_job_bound _ _ _ A). destruct (Nat.leb_spec (length (jobs s)) n); [lia|]. rewrite A. cbn [exists_job negb]. rewrite orb_false_r. reflexivity. }
  split.
  - intros name H. unfold find_operand. replace (get_jobnumber_from_name L name s) with (cur s) by (destruct H as [->|[-> | ->]]; reflexivity). now apply X.
  - unfold find_operand. change (get_jobnumber_from_name L (str "-") s) with (prev s). now apply X.
Qed.
