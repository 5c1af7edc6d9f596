(** Properties C30 to C32 and C49 to C52: job control *)
From Coq Require Import Ascii String.
From Coq Require Import List NArith ZArith Bool Arith Lia Sorted.
From Verif Require Import Common Locale NumModel BraceSpec JobModel JobSpec JobProofs JobHist JobWait JobRun JobEnd JobAll.
Import ListNotations.
Open Scope res_scope.

(** ** C30: the current and the previous job *)

(** Whenever a command has removed, continued, reported or listed jobs, or has run a pipeline in
    the foreground, the current and previous job are as they should be. *)
Theorem job_discipline c s s' : reach false s -> no_foreground s -> chooses c -> cmd_fine false c -> do_cmd c s = Ok s' -> no_foreground s' /\ disciplined s'.
Proof.
  intros R N C F E. destruct (chooses_disciplined c s s' C (go_inv _ _ (reach_good _ _ R)) E N) as [H|(b & ->)]; [exact H|]. cbn in E. unfold add_job in E. apply no_foreground_get in N. unfold get_job in N. destruct (jobs s) as [|[j|] l]; discriminate.
Qed.
(** The same when the pipeline in the foreground becomes a job. *)
Theorem job_discipline_add b s j : reach false s -> job_at s 0 j -> exists s', add_job b s = Ok s' /\ no_foreground s' /\ disciplined s'.
Proof.
  intros R A. destruct (add_ok b s j A) as (n & s' & E & Ad & Re). exists s'. split; [exact E|]. assert (N : no_foreground s') by (apply no_foreground_get; exact (ad_fg _ _ _ _ Ad)). split; [exact N|]. now apply refreshed_disciplined.
Qed.
(** The numbers never refer to jobs that do not exist, whatever has happened. *)
Theorem current_exists s : reach false s -> (cur s = 0 \/ is_job s (cur s)) /\ (prev s = 0 \/ is_job s (prev s)).
Proof. intros R. exact (go_valid _ _ (reach_good _ _ R)). Qed.
(** So fg without operands never accesses a job that does not exist, and never makes an exit
    status of a code that is not there. *)
Lemma loop_defined rs id n a s j : 1 <= n -> inv s -> job_at s n j -> j_id j = id ->
  wait_loop rs id a false false s = Fuel \/ exists s' j', wait_loop rs id a false false s = Ok (0%Z, s') /\ inv s' /\ job_at s' n j' /\ j_id j' = id /\ j_status j' <> Running.
Proof.
  intros Hn. revert s j. induction rs as [|r rs IH]; intros s j I A E; cbn [wait_loop]; rewrite <- E; rewrite (deref_at s n j I A); cbn [rbind].
  - destruct (jstatus_eqb_spec (j_status j) Done) as [D|D]; [right; exists s, j; (split; [reflexivity|]; split; [exact I|]; split; [exact A|]; split; [reflexivity|congruence])|]. destruct (a && jstatus_eqb (j_status j) Stopped) eqn:S; [|now left].
    right. exists s, j. apply andb_true_iff in S as [_ S]. destruct (jstatus_eqb_spec (j_status j) Stopped); [|discriminate]. (split; [reflexivity|]; split; [exact I|]; split; [exact A|]; split; [reflexivity|congruence]).
  - destruct (jstatus_eqb_spec (j_status j) Done) as [D|D]; [right; exists s, j; (split; [reflexivity|]; split; [exact I|]; split; [exact A|]; split; [reflexivity|congruence])|]. destruct (a && jstatus_eqb (j_status j) Stopped) eqn:S.
    { right. exists s, j. apply andb_true_iff in S as [_ S]. destruct (jstatus_eqb_spec (j_status j) Stopped); [|discriminate]. (split; [reflexivity|]; split; [exact I|]; split; [exact A|]; split; [reflexivity|congruence]). }
    assert (C : calm false false r) by (split; now left). destruct (calm_wait r false false s C) as (s1 & E1 & ->). cbn [rbind Z.eqb negb].
    destruct (sigchld_ok (rd_events r) (rd_notify r) (rd_curstop r) s) as (s2 & E2 & S2 & _). rewrite E1 in E2. injection E2 as <-.
    assert (I1 : inv s1) by (eapply pw_inv; [eapply pw_weak; [exact fair_change|eapply pw_sigchld; exact E1]|exact I]).
    specialize (S2 n Hn). apply get_job_at in A. rewrite A in S2. destruct (get_job s1 n) as [j1|] eqn:G; [|discriminate]. cbn in S2. injection S2 as S2. rewrite E. apply (IH s1 j1 I1); [now apply get_job_at|congruence].
Qed.
Lemma modify_defined b s n j : inv s -> job_at s n j -> exists s', modify (j_id j) (with_nonotify b) s = Ok s' /\ inv s' /\ job_at s' n (with_nonotify b j).
Proof.
  intros I A. destruct (modify (j_id j) (with_nonotify b) s) as [s'| |] eqn:E; [|unfold modify in E; rewrite (deref_at s n j I A) in E; discriminate..]. exists s'. split; [reflexivity|].
  split; [eapply pw_inv; [eapply pw_weak; [exact fair_change|eapply pw_modify; exact E]|exact I]|]. unfold modify in E. rewrite (deref_at s n j I A) in E. cbn [rbind] in E. injection E as <-. unfold job_at in *. cbn [jobs with_jobs]. rewrite nth_error_map, A. cbn. now rewrite Nat.eqb_refl.
Qed.
Lemma wait_for_job_defined rs n a s j : 1 <= n -> inv s -> job_at s n j -> j_legacy j = false ->
  wait_for_job rs n a false false s = Fuel \/ exists s' j', wait_for_job rs n a false false s = Ok (0%Z, s') /\ inv s' /\ job_at s' n j' /\ j_status j' <> Running.
Proof.
  intros Hn I A Lg. unfold wait_for_job. pose proof A as G. apply get_job_at in G. rewrite G, Lg. destruct (modify_defined true s n j I A) as (s1 & -> & I1 & A1). cbn [rbind].
  destruct (loop_defined rs (j_id j) n a s1 _ Hn I1 A1 eq_refl) as [->|(s2 & j2 & -> & I2 & A2 & E2 & S2)]; [now left|]. cbn [rbind]. right. destruct (modify_defined (j_nonotify j) s2 n j2 I2 A2) as (s3 & E3 & I3 & A3). rewrite E2 in E3. rewrite E3. cbn [rbind]. exists s3, (with_nonotify (j_nonotify j) j2). auto.
Qed.
Lemma calc_defined pf j : wf_job j -> j_status j <> Running -> exists x, calc_status_of_job pf j = Ok x.
Proof.
  intros W S. destruct (j_status j) eqn:E; [congruence| |].
  - destruct (stopped_status pf j W E) as (? & ? & ? & sig & _ & _ & _ & _ & ->). eauto.
  - assert (H : honest j) by (apply (wj_sound _ W); congruence). unfold honest in H. rewrite E in H. destruct (wf_exits _ (wj_wf _ W) H) as (l & Hl). destruct (done_status pf j l E (wj_procs _ W) Hl) as (x & -> & _). eauto.
Qed.
Theorem fg_current_defined pf ko rs s : reach false s -> (forall j, get_job s (cur s) = Some j -> (0 <= j_pgid j)%Z) -> fg_current pf ko rs s <> UB.
Proof.
  intros R P. pose proof (reach_good _ _ R) as [I [V _] _]. unfold fg_current. destruct (Nat.eqb_spec (cur s) 0) as [C|C]; [discriminate|]. destruct V as [V|(j & [Hn A])]; [contradiction|]. pose proof A as G. apply get_job_at in G. rewrite G. destruct (j_legacy j) eqn:Lg; cbn [orb]; [discriminate|].
  destruct (Z.eqb_spec (j_pgid j) 0); [discriminate|]. specialize (P j G). unfold continue_fg. rewrite G, Lg. destruct (Z.ltb_spec 0 (j_pgid j)); [|lia]. cbn [negb orb]. cbv zeta. set (s1 := if _ && ko then _ else s).
  assert (X : inv s1 /\ exists j1, job_at s1 (cur s) j1 /\ j_legacy j1 = false).
  { subst s1. destruct (_ && ko); [|eauto]. split.
    - eapply pw_inv; [apply pw_upd with (R := change) (j := j); [exact change_refl|exact G|apply set_running_change]|exact I].
    - exists (set_running j). split; [|exact Lg]. apply get_job_at. rewrite upd_get by (eapply get_job_bound; exact G). now rewrite Nat.eqb_refl. }
  clearbody s1. destruct X as (I1 & j1 & A1 & Lg1). destruct (wait_for_job_defined rs (cur s) true s1 j1 Hn I1 A1 Lg1) as [->|(s2 & j2 & -> & I2 & A2 & S2)]; [discriminate|]. cbn [rbind].
  pose proof A2 as G2. apply get_job_at in G2. rewrite G2. destruct (calc_defined pf j2 (in_wf _ I2 _ _ A2) S2) as (x & Ex). destruct (j_status j2); [congruence| |]; rewrite Ex; cbn [rbind]; [discriminate|]. destruct (remove_ok (cur s) s2 (get_job_bound _ _ _ G2)) as (s3 & -> & _). discriminate.
Qed.
(** When another job becomes current, the one that was current becomes previous, unless two jobs
    are stopped and it is not one of them. *)
Theorem current_becomes_previous n s : no_foreground s -> is_job s (cur s) -> (forall a b, a <> b -> stopped s a -> stopped s b -> stopped s (cur s)) ->
  let s' := set_current_jobnumber n s in cur s' <> cur s -> prev s' = cur s.
Proof.
  intros N J S. cbv zeta. rewrite set_current_eq. cbv zeta. change (if bad1 s n then if bad1 s (cur s) then if bad1 s (prev s) then find_next_job 0 s else prev s else cur s else n) with (pick1 n s).
  set (m := pick1 n s). clearbody m. cbn [cur prev with_numbers]. destruct (Nat.eqb_spec m (cur s)) as [->|Nm]; cbn [negb]; [congruence|]. intros _.
  unfold pick2. assert (B : bad2 s m (cur s) = false). { apply bad2_spec; [exact N|]. split; [exact J|]. split; [congruence|]. intros (a & b & Nab & Ha & Hb). now apply (S a b). } now rewrite B.
Qed.
Print Assumptions job_discipline.
Print Assumptions job_discipline_add.
Print Assumptions current_exists.
Print Assumptions fg_current_defined.
Print Assumptions current_becomes_previous.

(** *** Concrete cases *)
Definition p1 : option Z * list N := (Some 101%Z, str "one").
Definition p2 : option Z * list N := (Some 102%Z, str "two").
Definition p3 : option Z * list N := (Some 103%Z, str "three").
Definition run (cs : list cmd) : res st := fold_left (fun r c => let! s := r in do_cmd c s) cs (Ok init_job).
Lemma run_reach k cs s : Forall (cmd_fine k) cs -> run cs = Ok s -> reach k s.
Proof.
  unfold run. intros F. assert (X : forall r, (forall t, r = Ok t -> reach k t) -> forall s, fold_left (fun r c => let! s := r in do_cmd c s) cs r = Ok s -> reach k s).
  { induction F as [|c cs Hc F IH]; intros r Hr t; cbn [fold_left]; [apply Hr|]. apply IH. intros u Hu. destruct r as [v| |]; cbn [rbind] in Hu; try discriminate. eapply re_cmd; [exact Hc|apply Hr; reflexivity|exact Hu]. }
  apply X. intros t H. injection H as <-. constructor.
Qed.
Definition got (r : res st) : st := match r with Ok s => s | _ => init_job end.
Lemma got_reach k cs : Forall (cmd_fine k) cs -> reach k (got (run cs)).
Proof. intros F. destruct (run cs) as [s| |] eqn:E; cbn [got]; [eapply run_reach; eassumption|constructor|constructor]. Qed.
Definition async (p : option Z * list N) : list cmd := [COp (ONew (match fst p with Some pid => pid | None => 0%Z end) true [p]); COp (OAdd false)].
Definition sigchld (l : list (Z * wstatus)) : cmd := COp (OSigchld (Some (map (fun e => WPid (fst e) (snd e)) l)) false false).
(** Three jobs, the second of which has been stopped and is reported *)
Definition ex_cs : list cmd := async p1 ++ async p2 ++ async p3 ++ [sigchld [(102%Z, StopSig 20)]; COp (OPrintAll false)].
Definition ex_st : st := Eval vm_compute in got (run ex_cs).
Ltac fine := repeat match goal with |- Forall _ [] => constructor | |- Forall _ (_ :: _) => constructor end; cbn; auto; try (split; [discriminate|]); try (split; [constructor; [discriminate|constructor]|]); try (intros _; constructor; discriminate).
Example ex_reach : reach true ex_st.
Proof. apply run_reach with ex_cs; [|reflexivity]. unfold ex_cs, async, sigchld. cbn [app]. fine. Qed.
Example ex_current : cur ex_st = 2 /\ stopped ex_st 2 /\ is_job ex_st 1 /\ is_job ex_st 3 /\ prev ex_st = 1 /\ no_foreground ex_st.
Proof.
  split; [reflexivity|]. split; [eexists; split; [split; [lia|reflexivity]|reflexivity]|]. split; [eexists; split; [lia|reflexivity]|]. split; [eexists; split; [lia|reflexivity]|]. split; [reflexivity|]. intros j H. discriminate H.
Qed.
(** The rules do not hold after every change: a job may be stopped, but until the shell looks for
    the current job again, the current job is one that runs; fg would resume that one. *)
Theorem discipline_refuted : exists s, reach true s /\ no_foreground s /\ (exists n, stopped s n) /\ ~ stopped s (cur s).
Proof.
  exists (got (run (async p1 ++ async p2 ++ [sigchld [(102%Z, StopSig 20)]]))). split; [|split; [|split]].
  - apply got_reach. unfold async, sigchld. cbn [app]. fine.
  - intros j H. discriminate H.
  - exists 2. eexists. split; [split; [lia|reflexivity]|reflexivity].
  - intros (j & [_ H] & K). vm_compute in H. injection H as <-. discriminate K.
Qed.
(** In a subshell the jobs of the parent remain, but none is current. *)
Theorem discipline_subshell_refuted : exists s, reach true s /\ no_foreground s /\ is_job s 1 /\ cur s = 0.
Proof.
  exists (got (run (async p1 ++ [COp ONeglect]))). split; [|split; [|split]].
  - apply got_reach. unfold async. cbn [app]. fine.
  - intros j H. discriminate H.
  - eexists. split; [lia|reflexivity].
  - reflexivity.
Qed.
Print Assumptions discipline_refuted.
Print Assumptions discipline_subshell_refuted.

(** ** C31: numbers *)

Theorem job_number_least b s j : reach false s -> job_at s 0 j -> exists n s', add_job b s = Ok s' /\
  1 <= n /\ ~ is_job s n /\ (forall m, 1 <= m < n -> is_job s m) /\ job_at s' n j /\ (forall m, 1 <= m -> m <> n -> get_job s' m = get_job s m) /\ no_foreground s'.
Proof.
  intros R A. destruct (add_ok b s j A) as (n & s' & E & [A1 A2 A3 A4 A5 A6 A7 A8] & _). exists n, s'. do 6 (split; [assumption|]). now apply no_foreground_get.
Qed.
(** A job that is still there after any commands has the number it had, the same processes, and
    processes that had ended are as they were. *)
Theorem job_number_kept s s' n m j k : reach false s -> leads s s' -> listed s n j -> job_at s' m k -> j_id k = j_id j ->
  m = n /\ Forall2 (fun p q => pr_pid q = pr_pid p /\ pr_name q = pr_name p /\ (ended p -> q = p)) (j_procs j) (j_procs k).
Proof.
  intros R Le [Hn A] B E. pose proof (reach_good _ _ R) as G. destruct (leads_keeps s s' Le G) as [_ [_ Ev]]. destruct (Ev m k B) as [X|(n0 & j0 & A0 & X & L)].
  - pose proof (in_ids _ (go_inv _ _ G) n j A). lia.
  - assert (n0 = n) by (eapply (in_unique _ (go_inv _ _ G)); [exact A0|exact A|rewrite <- (la_id _ _ L); exact E]). subst n0. assert (j0 = j) by (unfold job_at in *; congruence). subst j0. split; [lia|].
    pose proof (la_procs _ _ L) as F. clear - F. induction F as [|p q a b (H1 & H2 & H3) F IH]; constructor; auto.
Qed.
(** Notifications and reports leave the set of jobs and their numbers alone. *)
Theorem notifications_keep_jobs evs a b s : exists s', handle_sigchld evs a b s = Ok s' /\ same_jobs s s'.
Proof. destruct (sigchld_ok evs a b s) as (s' & E & S & _). eauto. Qed.
Theorem remove_only_one n s j : reach false s -> job_at s n j -> exists s', remove_job n s = Ok s' /\ forall m, get_job s' m = if m =? n then None else get_job s m.
Proof. intros R A. apply get_job_at, get_job_bound in A. destruct (remove_ok n s A) as (s' & E & _ & G & _). eauto. Qed.
Print Assumptions job_number_least.
Print Assumptions job_number_kept.
Print Assumptions notifications_keep_jobs.
Print Assumptions remove_only_one.
(** Job 2 is removed; the next job gets number 2 although 3 exists, and 3 stays what it is. *)
Definition ex_cs2 : list cmd := [COp (ORemove 2); COp (ONew 104 true [(Some 104%Z, str "four")])].
Definition ex_st2 : st := Eval vm_compute in got (run (ex_cs ++ ex_cs2)).
Example ex_number : exists j k s', job_at ex_st2 0 j /\ listed ex_st2 3 k /\ add_job false ex_st2 = Ok s' /\ job_at s' 2 j /\ job_at s' 3 k /\ reach true ex_st2.
Proof.
  do 3 eexists. split; [reflexivity|]. split; [split; [lia|reflexivity]|]. split; [reflexivity|]. split; [reflexivity|]. split; [reflexivity|]. eapply run_reach with (ex_cs ++ ex_cs2); [|reflexivity]. unfold ex_cs, ex_cs2, async, sigchld. cbn [app]. fine.
Qed.

(** ** C32: status *)

(** As long as no job is continued with fg or bg and for every job at least one process can be
    created, the status of every job summarises the statuses of its processes. *)
Theorem job_status_exact s n j : reach true s -> job_at s n j -> status_of (j_procs j) (j_status j).
Proof. intros R A. exact (go_honest _ _ (reach_good _ _ R) eq_refl n j A). Qed.
(** In any case a job that counts as stopped or done is. *)
Theorem job_status_sound s n j : reach false s -> job_at s n j -> j_status j <> Running -> status_of (j_procs j) (j_status j).
Proof. intros R A. exact (wj_sound _ (in_wf _ (go_inv _ _ (reach_good _ _ R)) n j A)). Qed.
(** The summary is well defined. *)
Theorem status_unique ps x y : ps <> [] -> status_of ps x -> status_of ps y -> x = y.
Proof. intros N H K. exact (status_of_unique ps x y H K N). Qed.
(** A notification changes exactly the process concerned; the status of its job is then right even
    if the job has been continued. *)
Theorem notification s n j a p b w : separate s -> job_at s n j -> j_procs j = a ++ p :: b -> ~ ended p ->
  let s' := do_wait [WPid (pr_pid p) w] s in
  (exists j', job_at s' n j' /\ j_id j' = j_id j /\ status_of (j_procs j') (j_status j') /\
     exists p', j_procs j' = a ++ p' :: b /\ pr_pid p' = pr_pid p /\ pr_name p' = pr_name p /\ pr_code p' = Code w /\
       match w with Exited _ | Signaled _ => ended p' | StopSig _ => stops p' | Continued => runs p' end) /\
  forall m, m <> n -> get_job s' m = get_job s m.
Proof.
  intros U A Ej Ep. cbv zeta. cbn [do_wait]. set (pid := pr_pid p).
  assert (N : forall q, In q (a ++ b) -> pr_pid q <> pid \/ ended q).
  { intros q I. destruct (ended_dec q) as [D|D]; [now right|left]. intros E. assert (Hp : nth_error (j_procs j) (length a) = Some p) by (rewrite Ej, nth_error_app2 by lia; now rewrite Nat.sub_diag).
    assert (X : exists i, i <> length a /\ nth_error (j_procs j) i = Some q).
    { rewrite Ej. apply in_app_or in I as [I|I]; apply In_nth_error in I as (i & I).
      - exists i. assert (i < length a) by (apply nth_error_Some; congruence). split; [lia|]. now rewrite nth_error_app1.
      - exists (length a + S i). split; [lia|]. rewrite nth_error_app2 by lia. now replace (length a + S i - length a) with (S i) by lia. }
    destruct X as (i & Ni & Hi). destruct (U n n j j i (length a) q p A A Hi Hp D Ep E). contradiction. }
  assert (M : notify_procs pid w (j_procs j) = Some (a ++ notified p w :: b)).
  { rewrite Ej. clear - N Ep. induction a as [|x a IH]; cbn [app notify_procs].
    - unfold pid_matches. subst pid. rewrite Z.eqb_refl. destruct (jstatus_eqb_spec (pr_status p) Done); [contradiction|reflexivity].
    - assert (X : pid_matches pid x = false). { unfold pid_matches. destruct (N x) as [X|X]; [now left| |]; [destruct (Z.eqb_spec (pr_pid x) pid); [contradiction|reflexivity]|rewrite X; apply andb_false_r]. }
      rewrite X, IH; [reflexivity|]. intros q I. apply N. now right. }
  assert (O : forall m k, m <> n -> job_at s m k -> notify_procs pid w (j_procs k) = None).
  { intros m k Nm Ak. apply notify_procs_none. apply Forall_forall. intros q I. destruct (ended_dec q) as [D|D]; [now right|left]. intros E. apply In_nth_error in I as (i & I). assert (Hp : nth_error (j_procs j) (length a) = Some p) by (rewrite Ej, nth_error_app2 by lia; now rewrite Nat.sub_diag).
    destruct (U m n k j i (length a) q p Ak A I Hp D Ep E). contradiction. }
  split.
  - exists (with_procs (a ++ notified p w :: b) j). split; [|split; [reflexivity|split]].
    + unfold job_at. cbn [jobs with_jobs]. rewrite (notify_at pid w (jobs s) n j A); [now rewrite M|]. left. intros i k Hi Ak. apply (O i k); [lia|exact Ak].
    + cbn [j_procs j_status with_procs]. apply summary_ok.
    + exists (notified p w). split; [reflexivity|]. split; [reflexivity|]. split; [reflexivity|]. split; [reflexivity|]. destruct w; reflexivity.
  - intros m Nm. unfold get_job. cbn [jobs with_jobs]. destruct (nth_error (jobs s) m) as [[k|]|] eqn:E.
    + rewrite (notify_at pid w (jobs s) m k E); [|right; apply (O m k Nm E)]. now rewrite (O m k Nm E).
    + pose proof (notify_ids pid w (jobs s) m) as X. rewrite E in X. destruct (nth_error (notify_jobs pid w (jobs s)) m) as [[k|]|]; cbn in X; try discriminate; reflexivity.
    + pose proof (notify_ids pid w (jobs s) m) as X. rewrite E in X. destruct (nth_error (notify_jobs pid w (jobs s)) m) as [[k|]|]; cbn in X; try discriminate; reflexivity.
Qed.
(** A notification about an unknown process, or one that has ended, changes nothing. *)
Theorem notification_ignored s pid w : ~ live s pid -> do_wait [WPid pid w] s = s.
Proof.
  intros H. cbn [do_wait]. assert (X : notify_jobs pid w (jobs s) = jobs s); [|rewrite X; destruct s; reflexivity].
  assert (Y : forall o, In o (jobs s) -> forall j, o = Some j -> notify_procs pid w (j_procs j) = None).
  { intros o I j ->. apply notify_procs_none. apply Forall_forall. intros q Iq. destruct (ended_dec q) as [D|D]; [now right|left]. intros E. apply In_nth_error in I as (n & I). apply H. exists n, j, q. auto. }
  clear H. induction (jobs s) as [|[j|] l IH]; [reflexivity| |]; cbn [notify_jobs].
  - rewrite (Y (Some j) (or_introl eq_refl) j eq_refl). now rewrite IH by (intros o I; apply Y; now right).
  - now rewrite IH by (intros o I; apply Y; now right).
Qed.
Print Assumptions job_status_exact.
Print Assumptions job_status_sound.
Print Assumptions status_unique.
Print Assumptions notification.
Print Assumptions notification_ignored.
(** A pipeline: one process is stopped, the other has ended *)
Definition ex_cs3 : list cmd := [COp (ONew 101 true [p1; p2]); COp (OAdd false); sigchld [(102%Z, Exited 3); (101%Z, StopSig 20)]].
Definition ex_st3 : st := Eval vm_compute in got (run ex_cs3).
Example ex_status : reach true ex_st3 /\ (exists j, listed ex_st3 1 j /\ j_status j = Stopped /\ map pr_status (j_procs j) = [Stopped; Done]) /\ separate ex_st3 /\ live ex_st3 101 /\ ~ live ex_st3 102.
Proof.
  assert (X : forall n j, job_at ex_st3 n j -> n = 1 /\ nth_error (jobs ex_st3) 1 = Some (Some j)). { intros n j H. destruct n as [|[|[|n]]]; try discriminate H. auto. }
  split; [eapply run_reach with ex_cs3; [|reflexivity]; unfold ex_cs3, sigchld; repeat constructor; discriminate|]. split; [eexists; split; [split; [lia|reflexivity]|split; reflexivity]|]. split; [|split].
  - intros n m j k a b p q H1 H2 H3 H4 D1 D2 _. destruct (X n j H1) as [-> Hj], (X m k H2) as [-> Hk]. injection Hj as <-. injection Hk as <-. split; [reflexivity|].
    destruct a as [|[|[|a]]]; cbn in H3; try discriminate H3; injection H3 as <-; [|now destruct D1]. destruct b as [|[|[|b]]]; cbn in H4; try discriminate H4; injection H4 as <-; [reflexivity|now destruct D2].
  - exists 1. eexists. eexists. split; [reflexivity|]. split; [now left|]. split; [reflexivity|discriminate].
  - intros (n & j & p & H & I & E & D). destruct (X n j H) as [-> Hj]. injection Hj as <-. destruct I as [<-|[<-|[]]]; [discriminate E|now destruct D].
Qed.
(** If no process can be created for a pipeline, its job counts as running though every process
    has ended.  The shell waits for it for ever, whatever is reported. *)
Theorem status_fork_refuted : exists s n j, reach false s /\ job_at s n j /\ Forall ended (j_procs j) /\ j_status j = Running.
Proof.
  exists (got (run [COp (ONew 0 true [(None, str "one"); (None, str "two")])])), 0. eexists. split; [apply got_reach|split; [reflexivity|split; [|reflexivity]]]; repeat constructor; discriminate.
Qed.
Theorem fork_failure_hangs_refuted : exists ps, Forall (fun p => fst p = None) ps /\ forall pf pgid rs, run_foreground false pf pgid ps rs init_job = Fuel.
Proof.
  exists [(None, str "one"); (None, str "two")]. split; [repeat constructor|]. intros pf pgid rs. unfold run_foreground. cbn [new_job set_active_job jobs init_job rbind]. unfold wait_for_job. cbn [get_job nth_error jobs with_jobs j_legacy]. 
  set (j := mkJob _ _ _ _ _ _ _). set (s := mkSt _ _ _ _ _ _). change (modify (j_id j) (with_nonotify true) s) with (Ok (with_jobs [Some (with_nonotify true j)] s)). cbn [rbind].
  assert (X : forall rs, wait_loop rs (j_id j) false false false (with_jobs [Some (with_nonotify true j)] s) = Fuel).
  { clear rs. induction rs as [|r rs IH]; [reflexivity|]. cbn [wait_loop]. change (deref (j_id j) (with_jobs [Some (with_nonotify true j)] s)) with (Ok (with_nonotify true j)). cbn [rbind]. cbn [with_nonotify j_status j jstatus_eqb andb].
    assert (W : forall e, do_wait e (with_jobs [Some (with_nonotify true j)] s) = with_jobs [Some (with_nonotify true j)] s).
    { clear. induction e as [|[| | | |pid w] e IH]; cbn [do_wait]; auto. cbn [jobs with_jobs notify_jobs]. assert (Y : notify_procs pid w (j_procs (with_nonotify true j)) = None) by (apply notify_procs_none; constructor; [now right|constructor; [now right|constructor]]). rewrite Y. exact IH. }
    unfold wait_for_sigchld. assert (T : (match rd_trap r with Some (sig, ops) => if false then let! t := do_ops ops (with_jobs [Some (with_nonotify true j)] s) in Ok (sig, t) else Ok (0%Z, with_jobs [Some (with_nonotify true j)] s) | None => Ok (0%Z, with_jobs [Some (with_nonotify true j)] s) end) = Ok (0%Z, with_jobs [Some (with_nonotify true j)] s)) by (destruct (rd_trap r) as [[? ?]|]; reflexivity).
    cbn [with_nonotify j_id j_pgid j_changed j_legacy j_procs j] in *. rewrite T. cbn [rbind]. unfold handle_sigchld. destruct (rd_events r) as [e|]; [rewrite W|]; cbn [any_job_status_has_changed existsb tl jobs with_jobs andb rbind Z.eqb negb]; exact IH. }
  now rewrite X.
Qed.
(** A subshell keeps the jobs of its parent; if the system reuses a process number for a child of
    the subshell, what is reported about the child is taken for the old process. *)
Theorem reused_pid_refuted : exists s, reach true s /\ (exists j, listed s 1 j /\ j_legacy j = true /\ Forall ended (j_procs j)) /\ (exists j, listed s 2 j /\ j_legacy j = false /\ Forall runs (j_procs j)).
Proof.
  exists (got (run (async p1 ++ [COp ONeglect] ++ async p1 ++ [sigchld [(101%Z, Exited 0)]]))). split; [|split].
  - apply got_reach. unfold async, sigchld. cbn [app]. fine.
  - eexists. split; [split; [lia|reflexivity]|]. split; [reflexivity|repeat constructor].
  - eexists. split; [split; [lia|reflexivity]|]. split; [reflexivity|repeat constructor].
Qed.
Print Assumptions status_fork_refuted.
Print Assumptions fork_failure_hangs_refuted.
Print Assumptions reused_pid_refuted.

(** ** C49: exit statuses *)

(** A pipeline in the foreground: when the shell goes on, every process has ended and the exit
    status is that of the last command or, with pipefail, of the last that failed; the job list is
    as before.  With job control the pipeline may also have been stopped; then it is a new job, and
    the exit status tells the signal.  While the shell waits, there is a process of which no end has
    been reported. *)
Theorem pipeline_exit_status jc pf pgid ps rs s : reach false s -> no_foreground s -> ps_ok true ps -> NoDup (pids ps) ->
  (exists x s' rs1 rs2 l, run_foreground jc pf pgid ps rs s = Ok (x, s') /\ rs = rs1 ++ rs2 /\ Forall2 (command_ends (all_events rs1)) ps l /\ pipeline_status pf l x /\ same_jobs s s' /\ no_foreground s') \/
  (jc = true /\ exists sig s' n j, run_foreground jc pf pgid ps rs s = Ok ((sig + 384)%Z, s') /\ ~ is_job s n /\ listed s' n j /\ j_status j = Stopped /\ map pr_pid (j_procs j) = map (fun p => match fst p with Some pid => pid | None => 0%Z end) ps /\
    (exists a p b, j_procs j = a ++ p :: b /\ pr_code p = Code (StopSig sig) /\ stops p /\ Forall (fun q => ~ stops q) b) /\ no_foreground s') \/
  (run_foreground jc pf pgid ps rs s = Fuel /\ exists pid, In pid (pids ps) /\ no_fate pid (all_events rs)).
Proof. intros R. apply foreground_ok. exact (go_inv _ _ (reach_good _ _ R)). Qed.
(** wait with an operand likewise, for a job in the background *)
Theorem wait_exit_status pf verbose rs n s j : reach true s -> listed s n j -> j_legacy j = false -> separate s -> Forall (fun r => rd_trap r = None) rs ->
  (exists x s' rs1 rs2 l, wait_for_number pf false verbose rs n s = Ok (x, s') /\ rs = rs1 ++ rs2 /\ Forall2 (ends_with (all_events rs1)) (j_procs j) l /\ pipeline_status pf l x /\ (verbose = false -> ~ is_job s' n)) \/
  (wait_for_number pf false verbose rs n s = Fuel /\ exists p, In p (j_procs j) /\ ~ ended p /\ no_fate (pr_pid p) (all_events rs)).
Proof. intros R A Lg U C. apply wait_number_ok; try assumption; [exact (go_inv _ _ (reach_good _ _ R))|exact (job_status_exact s n j R (proj2 A))]. Qed.
(** The exit status of a stopped job tells the signal that stopped the last stopped process. *)
Theorem stopped_exit_status pf s n j : reach false s -> job_at s n j -> j_status j = Stopped ->
  exists a p b sig, j_procs j = a ++ p :: b /\ stops p /\ pr_code p = Code (StopSig sig) /\ Forall (fun q => ~ stops q) b /\ calc_status_of_job pf j = Ok (sig + 384)%Z.
Proof.
  intros R A S. destruct (stopped_status pf j (in_wf _ (go_inv _ _ (reach_good _ _ R)) n j A) S) as (a & p & b & sig & H1 & H2 & H3 & H4 & H5). exists a, p, b, sig. auto.
Qed.
(** A process has one end at most, so the exit status is determined. *)
Theorem fate_unique pid evs w w' : fate pid evs w -> fate pid evs w' -> w = w'.
Proof.
  induction 1 as [w l F|e l w N H IH]; intros K; inversion K as [v l' F' E1 E2|e' l' v N' H' E1 E2]; subst; auto.
  - destruct N' as [N'|N']; [now destruct N'|]. destruct (final_not w F N').
  - destruct N as [N|N]; [now destruct N|]. destruct (final_not w' F' N).
Qed.
Print Assumptions pipeline_exit_status.
Print Assumptions wait_exit_status.
Print Assumptions stopped_exit_status.
Print Assumptions fate_unique.
(** A pipeline whose first command is killed, the second is stopped and continued and then exits
    with 0, while a job in the background ends *)
Definition quiet (l : list (Z * wstatus)) : round := mkRound None false (Some (map (fun e => WPid (fst e) (snd e)) l)) false false.
Definition ex_rs : list round := [quiet [(202, StopSig 20); (201, Signaled 13)]; quiet [(101, Exited 0); (202, Continued)]; quiet [(202, Exited 0)]; quiet []]%Z.
Definition ex_ps : list (option Z * list N) := [(Some 201%Z, str "a"); (Some 202%Z, str "b")].
Example ex_pipeline : (exists s', run_foreground false false 0 ex_ps ex_rs ex_st = Ok (0%Z, s')) /\ (exists s', run_foreground false true 0 ex_ps ex_rs ex_st = Ok (397%Z, s')) /\ ps_ok true ex_ps /\ NoDup (pids ex_ps) /\
  run_foreground false false 0 ex_ps (firstn 2 ex_rs) ex_st = Fuel.
Proof.
  split; [eexists; vm_compute; reflexivity|]. split; [eexists; vm_compute; reflexivity|]. split; [split; [discriminate|]; split; [constructor; [discriminate|constructor; [discriminate|constructor]]|intros _; constructor; discriminate]|]. split; [|reflexivity].
  cbn. constructor; [intros [H|[]]; discriminate H|constructor; [intros []|constructor]].
Qed.
Example ex_stop : exists s', run_foreground true false 0 ex_ps ex_rs ex_st = Ok (404%Z, s') /\ cur s' = 4.
Proof. eexists. split; [vm_compute; reflexivity|reflexivity]. Qed.
Example ex_wait : exists s', wait_for_number false false false [quiet [(101, Exited 7)]]%Z 1 ex_st = Ok (7%Z, s').
Proof. eexists. vm_compute. reflexivity. Qed.

(** ** C50: job specifications *)

(** A specification that is a name finds the job if it matches exactly one, and says so if it
    matches none or several. *)
Theorem job_spec_name L name s : reach false s -> by_name L name ->
  match find_operand L name s with
  | Job n => exists j, listed s n j /\ matches name j /\ forall m k, listed s m k -> matches name k -> m = n
  | NoSuch => forall n j, listed s n j -> ~ matches name j
  | Ambiguous => exists n m j k, n <> m /\ listed s n j /\ matches name j /\ listed s m k /\ matches name k
  end.
Proof. intros R. apply operand_by_name. exact (go_inv _ _ (reach_good _ _ R)). Qed.
(** Which specifications are names: all that are not digits only, bar the empty one and the three
    special ones *)
Theorem job_spec_is_name L name : locale_ok L -> name <> [] -> name <> str "%" -> name <> str "+" -> name <> str "-" -> ~ Forall (fun c => is_digit c = true) name -> by_name L name.
Proof. intros HL H1 H2 H3 H4 H5. split; [exact H1|]. split; [exact H2|]. split; [exact H3|]. split; [exact H4|]. intros H6. now apply no_number. Qed.
Theorem job_spec_number L name s : reach false s -> locale_ok L -> name <> [] -> Forall (fun c => is_digit c = true) name -> (digits_value 0 name < 2 ^ 64)%Z ->
  match find_operand L name s with
  | Job n => Z.of_nat n = digits_value 0 name /\ is_job s n
  | NoSuch => forall n, Z.of_nat n = digits_value 0 name -> ~ is_job s n
  | Ambiguous => False
  end.
Proof. intros R. apply operand_by_number. exact (go_inv _ _ (reach_good _ _ R)). Qed.
Theorem job_spec_special L s : reach false s ->
  (forall name, name = [] \/ name = str "%" \/ name = str "+" -> find_operand L name s = if cur s =? 0 then NoSuch else Job (cur s)) /\
  find_operand L (str "-") s = if prev s =? 0 then NoSuch else Job (prev s).
Proof. intros R. destruct (reach_good _ _ R). now apply operand_special. Qed.
(** disown removes that job and no other. *)
Theorem disown_exact L name s : reach false s ->
  match find_operand L name s with
  | Job n => exists s', disown_operand L name s = Ok (true, s') /\ forall m, get_job s' m = if m =? n then None else get_job s m
  | _ => disown_operand L name s = Ok (false, s)
  end.
Proof.
  intros R. unfold disown_operand. destruct (find_operand L name s) as [| |n] eqn:E; try reflexivity. unfold find_operand in E. destruct (Nat.leb_spec (length (jobs s)) (get_jobnumber_from_name L name s)); [discriminate|]. destruct (_ || _); [discriminate|]. injection E as E. rewrite E in *.
  destruct (remove_ok n s) as (s' & -> & _ & G & _); [assumption|]. cbn [rbind]. eauto.
Qed.
Print Assumptions job_spec_name.
Print Assumptions job_spec_is_name.
Print Assumptions job_spec_number.
Print Assumptions job_spec_special.
Print Assumptions disown_exact.
Example ex_spec : by_name c_locale (str "t") /\ find_operand c_locale (str "t") ex_st = Ambiguous /\ find_operand c_locale (str "tw") ex_st = Job 2 /\ find_operand c_locale (str "?ree") ex_st = Job 3 /\
  find_operand c_locale (str "?x") ex_st = NoSuch /\ find_operand c_locale (str "3") ex_st = Job 3 /\ find_operand c_locale (str "4") ex_st = NoSuch /\ find_operand c_locale (str "-") ex_st = Job 1.
Proof. split; [repeat (split; [discriminate|]); discriminate|]. vm_compute. repeat split. Qed.

(** ** C51: wait without operands *)

(** It does not return before all jobs have gone: as long as it waits, a process is left of which
    no end has been reported. *)
Theorem wait_for_all v rs s : reach true s -> separate s -> Forall (fun r => rd_trap r = None) rs ->
  (exists s', wait_all false v rs s = Ok (0%Z, s') /\ forall n, ~ is_job s' n) \/
  (wait_all false v rs s = Fuel /\ exists n j p, listed s n j /\ In p (j_procs j) /\ ~ ended p /\ no_fate (pr_pid p) (all_events rs)).
Proof. intros R U C. pose proof (reach_good _ _ R) as [I _ H]. exact (wait_all_followed v rs s [] s C (all_followed_init s I (H eq_refl) U)). Qed.
(** With job control and traps: status 0 means that no job runs. *)
Theorem wait_for_all_jobctl jc v rs s s' : Forall (fun r => forall sig ops, rd_trap r = Some (sig, ops) -> (0 < sig)%Z) rs -> wait_all jc v rs s = Ok (0%Z, s') ->
  forall n j, listed s' n j -> jc = true /\ j_status j <> Running.
Proof. apply wait_all_ok. Qed.
Print Assumptions wait_for_all.
Print Assumptions wait_for_all_jobctl.
Definition ex_all : st := Eval vm_compute in got (run (async p1 ++ async p2)).
Example ex_wait_all : reach true ex_all /\ is_job ex_all 1 /\ is_job ex_all 2 /\ (exists s', wait_all false false [quiet [(102, Exited 1)]; quiet [(101, Exited 7)]]%Z ex_all = Ok (0%Z, s')) /\ wait_all false false [quiet [(102, Exited 1)]]%Z ex_all = Fuel.
Proof.
  split; [eapply run_reach with (async p1 ++ async p2); [|reflexivity]; unfold async; cbn [app]; fine|]. split; [eexists; split; [lia|reflexivity]|]. split; [eexists; split; [lia|reflexivity]|]. split; [eexists; vm_compute; reflexivity|reflexivity].
Qed.
(** A trap executed while wait waits for a job may remove the job (trap 'disown -a' INT); the
    shell then goes on using the memory of the job. *)
Theorem wait_trap_refuted : exists s rs, reach true s /\ (exists j, listed s 1 j) /\ Forall (round_fine true) rs /\ wait_for_number false false false rs 1 s = UB.
Proof.
  exists ex_all, [mkRound (Some (10%Z, [ORemoveAll])) false None false false]. split; [apply ex_wait_all|]. split; [eexists; split; [lia|reflexivity]|]. split; [repeat constructor|reflexivity].
Qed.
Print Assumptions wait_trap_refuted.

(** ** C52: reports *)

Lemma notify_one pid w l n j : nth_error l n = Some (Some j) -> exists j', nth_error (notify_jobs pid w l) n = Some (Some j') /\ j_id j' = j_id j /\
  (j_changed j' = true <-> j_changed j = true \/ j_status j' <> j_status j).
Proof.
  revert n. induction l as [|o l IH]; intros n H; [destruct n; discriminate|]. destruct n as [|n].
  - injection H as ->. cbn [notify_jobs]. destruct (notify_procs pid w (j_procs j)) as [ps|]; eexists; (split; [reflexivity|]); (split; [reflexivity|]).
    + cbn [with_procs j_changed j_status]. rewrite orb_true_iff, negb_true_iff. destruct (summary ps), (j_status j); cbn [jstatus_eqb]; intuition (try discriminate; try congruence).
    + intuition congruence.
  - cbn [nth_error] in H. destruct o as [i|]; cbn [notify_jobs]; [destruct (notify_procs pid w (j_procs i)) as [ps|]|]; cbn [nth_error]; [|apply IH, H|apply IH, H].
    exists j. split; [exact H|]. split; [reflexivity|]. intuition congruence.
Qed.
(** A job is left to report after notifications exactly if it was before or if its status has
    changed in the meantime, however many notifications without a change of it followed. *)
Theorem changes_noted evs s n j : job_at s n j -> exists j', job_at (do_wait evs s) n j' /\ j_id j' = j_id j /\
  (j_changed j' = true <-> j_changed j = true \/ exists a b k, evs = a ++ b /\ job_at (do_wait a s) n k /\ j_status k <> j_status j).
Proof.
  revert s j. induction evs as [|e evs IH]; intros s j A.
  - exists j. split; [exact A|]. split; [reflexivity|]. split; [now left|]. intros [H|(a & b & k & E & Ak & S)]; [exact H|]. symmetry in E. apply app_eq_nil in E as [-> ->]. unfold job_at in *. cbn [do_wait] in Ak. congruence.
  - assert (Triv : (forall a, do_wait (e :: a) s = s) -> exists j', job_at (do_wait (e :: evs) s) n j' /\ j_id j' = j_id j /\
      (j_changed j' = true <-> j_changed j = true \/ exists a b k, e :: evs = a ++ b /\ job_at (do_wait a s) n k /\ j_status k <> j_status j)).
    { intros T. exists j. rewrite T. split; [exact A|]. split; [reflexivity|]. split; [now left|]. intros [H|(a & b & k & E & Ak & S)]; [exact H|]. exfalso. apply S. f_equal.
      destruct a as [|x a]; [unfold job_at in *; cbn [do_wait] in Ak; congruence|]. injection E as <- _. rewrite T in Ak. unfold job_at in *. congruence. }
    destruct e as [| | | |pid w]; try (apply Triv; reflexivity).
    + destruct (IH s j A) as (j' & A' & I & C). exists j'. split; [exact A'|]. split; [exact I|]. rewrite C. split; (intros [H|(a & b & k & E & Ak & S)]; [now left|right]).
      * exists (WIntr :: a), b, k. rewrite E. auto.
      * destruct a as [|x a]; [exists [], evs, k; auto|]. injection E as <- ->. exists a, b, k. auto.
    + destruct (notify_one pid w (jobs s) n j A) as (i & Ai & Ii & Ci). destruct (IH (with_jobs (notify_jobs pid w (jobs s)) s) i Ai) as (j' & A' & I & C).
      exists j'. split; [exact A'|]. split; [congruence|]. rewrite C, Ci. split.
      * intros [[H|H]|(a & b & k & E & Ak & S)]; [now left|right; exists [WPid pid w], evs, i; auto|right].
        destruct (jstatus_eqb (j_status i) (j_status j)) eqn:Ej.
        -- exists (WPid pid w :: a), b, k. rewrite E. split; [reflexivity|]. split; [exact Ak|]. destruct (j_status i), (j_status j); cbn in Ej; congruence.
        -- exists [WPid pid w], evs, i. split; [reflexivity|]. split; [exact Ai|]. intros X. rewrite X in Ej. destruct (j_status j); discriminate.
      * intros [H|(a & b & k & E & Ak & S)]; [now left; left|]. destruct a as [|x a]; [unfold job_at in *; cbn [do_wait] in Ak; congruence|]. injection E as <- ->.
        destruct (jstatus_eqb (j_status i) (j_status j)) eqn:Ej; [right; exists a, b, k|left; right].
        -- split; [reflexivity|]. split; [exact Ak|]. destruct (j_status i), (j_status j); cbn in Ej; congruence.
        -- intros X. rewrite X in Ej. destruct (j_status j); discriminate.
Qed.
Print Assumptions changes_noted.
(** The third job is stopped and gets a second notification of the same kind: it is still to be reported. *)
Example ex_noted : exists j, job_at ex_st 3 j /\ j_changed j = false /\ exists j', job_at (do_wait [WPid 103 (StopSig 20); WPid 103 (StopSig 20)] ex_st) 3 j' /\ j_changed j' = true.
Proof. eexists. split; [vm_compute; reflexivity|]. split; [vm_compute; reflexivity|]. eexists. split; vm_compute; reflexivity. Qed.

(** Before a prompt every job whose status has changed is reported once, in the order of the
    numbers, with its status and with the mark it has then; afterwards none is left to report. *)
Theorem reports_exact b s : reach false s -> exists s' reps, print_job_status_all b s = Ok s' /\ out s' = out s ++ reps /\ StronglySorted lt (map r_number reps) /\
  (forall r, In r reps <-> exists j, to_report s (r_number r) j /\ r = mkReport (r_number r) (mark_of s' (r_number r)) (j_status j) (j_id j)) /\
  (forall n j, ~ to_report s' n j).
Proof. intros R. apply print_all_out. exact (go_inv _ _ (reach_good _ _ R)). Qed.
(** The mark is a plus sign for the current job and a minus sign for the previous one. *)
Theorem mark_exact s n : reach false s -> 1 <= n -> (mark_of s n = Plus <-> n = cur s) /\ (n <> cur s -> mark_of s n = Minus <-> n = prev s).
Proof.
  intros _ Hn. unfold mark_of. destruct (Nat.eqb_spec n (cur s)); [split; [tauto|contradiction]|]. destruct (Nat.eqb_spec n (prev s)); split; try (split; [discriminate|contradiction]); intros _; tauto || (split; [discriminate|contradiction]).
Qed.
Print Assumptions reports_exact.
Print Assumptions mark_exact.
(** Two of three jobs have changed *)
Example ex_report : exists s', (let! s := do_cmd (sigchld [(101%Z, Exited 0); (103%Z, StopSig 20)]) ex_st in print_job_status_all true s) = Ok s' /\
  map (fun r => (r_number r, r_mark r, r_status r)) (skipn (length (out ex_st)) (out s')) = [(1, Blank, Done); (3, Plus, Stopped)].
Proof. eexists. split; [vm_compute; reflexivity|reflexivity]. Qed.
