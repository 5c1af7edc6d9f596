(** Waiting for jobs: the processes end as waitpid reports, and the exit status follows *)
From Coq Require Import List NArith ZArith Bool Arith Lia.
From Verif Require Import Common Locale JobModel JobSpec JobProofs JobHist.
Import ListNotations.
Open Scope res_scope.

(** ** Exit status of finished and stopped jobs *)
Lemma exit_status_calc w n : exit_status w n -> calc_status w = n.
Proof. intros []; reflexivity. Qed.
Lemma proc_exit_calc p n : proc_exit p n -> calc_status_of_process p = Ok n.
Proof.
  intros [[H1 H2]|(H1 & w & H2 & H3)]; unfold calc_status_of_process; rewrite H2.
  - now rewrite H1.
  - destruct (Z.eqb_spec (pr_pid p) 0); [contradiction|]. now rewrite (exit_status_calc w n H3).
Qed.
Lemma wf_exit p : wf_proc p -> ended p -> exists n, proc_exit p n.
Proof.
  intros [(H1 & _ & n & H2)|[H1 H2]] E; [exists n; left; auto|]. rewrite E in H2. destruct H2 as (w & n & H2 & H3). exists n. right. eauto.
Qed.
Lemma wf_exits ps : Forall wf_proc ps -> Forall ended ps -> exists l, Forall2 proc_exit ps l.
Proof.
  induction ps as [|p ps IH]; intros W E; [now exists []|]. inversion W as [|? ? W1 W2]; inversion E as [|? ? E1 E2]; subst. destruct (IH W2 E2) as (l & H), (wf_exit p W1 E1) as (n & K). exists (n :: l). now constructor.
Qed.
Lemma last_failure_ok ps l : Forall2 proc_exit ps l -> exists x, last_failure ps = Ok x /\ (x = 0%Z /\ Forall (eq 0%Z) l \/ x <> 0%Z /\ exists a b, l = a ++ x :: b /\ Forall (eq 0%Z) a).
Proof.
  intros H. induction H as [|p n ps l H F IH]; cbn [last_failure]; [exists 0%Z; auto|]. rewrite (proc_exit_calc p n H). cbn [rbind]. destruct (Z.eqb_spec n 0) as [->|N].
  - destruct IH as (x & -> & [[-> K]|(Nx & a & b & -> & K)]); [exists 0%Z; split; [reflexivity|left; split; [reflexivity|now constructor]]|].
    exists x. split; [reflexivity|]. right. split; [exact Nx|]. exists (0%Z :: a), b. split; [reflexivity|now constructor].
  - exists n. split; [reflexivity|]. right. split; [exact N|]. exists [], l. auto.
Qed.
Lemma Forall2_rev' {A B} (R : A -> B -> Prop) l m : Forall2 R l m -> Forall2 R (rev l) (rev m).
Proof. induction 1; cbn; [constructor|]. apply Forall2_app; [assumption|]. now constructor. Qed.
Lemma done_status pipefail j l : j_status j = Done -> j_procs j <> [] -> Forall2 proc_exit (j_procs j) l -> exists x, calc_status_of_job pipefail j = Ok x /\ pipeline_status pipefail l x.
Proof.
  intros S N F. unfold calc_status_of_job. rewrite S. apply Forall2_rev' in F. unfold pipeline_status. destruct pipefail.
  - destruct (last_failure_ok _ _ F) as (x & -> & K). exists x. split; [reflexivity|]. rewrite <- (rev_involutive l). destruct K as [[-> K]|(Nx & a & b & E & K)].
    + apply lf_none. now apply Forall_rev.
    + rewrite E, rev_app_distr. cbn [rev]. rewrite <- app_assoc. apply lf_some; [exact Nx|]. now apply Forall_rev.
  - destruct (rev (j_procs j)) as [|p ps] eqn:E. { destruct N. rewrite <- (rev_involutive (j_procs j)), E. reflexivity. }
    inversion F as [|? n ? m H K El Er]; subst. exists n. split; [now apply proc_exit_calc|]. exists (rev m). rewrite <- (rev_involutive l), <- Er. reflexivity.
Qed.
Lemma stopped_status pipefail j : wf_job j -> j_status j = Stopped -> exists a p b sig, j_procs j = a ++ p :: b /\ pr_code p = Code (StopSig sig) /\ stops p /\ Forall (fun q => ~ stops q) b /\ calc_status_of_job pipefail j = Ok (sig + 384)%Z.
Proof.
  intros [W1 W2 W3] S. assert (H : honest j) by (apply W3; congruence). unfold honest in H. rewrite S in H. destruct H as [_ H]. unfold calc_status_of_job. rewrite S.
  assert (X : forall l, Forall wf_proc l -> Exists stops l -> exists a p b sig, l = a ++ p :: b /\ pr_code p = Code (StopSig sig) /\ stops p /\ Forall (fun q => ~ stops q) a /\ last_stopped l = Ok (sig + 384)%Z).
  { clear. induction l as [|q l IH]; intros W E; [inversion E|]. inversion W as [|? ? Wa Wb]; subst. cbn [last_stopped]. destruct (jstatus_eqb_spec (pr_status q) Stopped) as [Y|Y].
    - destruct Wa as [(_ & D & _)|[_ K]]; [unfold ended in D; congruence|]. rewrite Y in K. destruct K as (sig & K). exists [], q, l, sig. rewrite K. repeat split; auto.
    - inversion E as [? ? Z|? ? Z]; subst; [contradiction|]. destruct (IH Wb Z) as (a & p & b & sig & -> & H1 & H2 & H3 & H4). exists (q :: a), p, b, sig. repeat split; auto. }
  destruct (X (rev (j_procs j))) as (a & p & b & sig & E & H1 & H2 & H3 & H4); [now apply Forall_rev|now apply Exists_rev|].
  exists (rev b), p, (rev a), sig. split; [|repeat split; auto; now apply Forall_rev]. rewrite <- (rev_involutive (j_procs j)), E, rev_app_distr. cbn [rev]. now rewrite <- app_assoc.
Qed.

(** ** Numbers and identities stay *)
Lemma same_refl s : same_jobs s s.
Proof. intros n _. reflexivity. Qed.
Lemma same_trans a b c : same_jobs a b -> same_jobs b c -> same_jobs a c.
Proof. intros H K n Hn. rewrite H by exact Hn. auto. Qed.
Lemma same_get s s' : (forall n, get_job s' n = get_job s n) -> same_jobs s s'.
Proof. intros H n _. now rewrite H. Qed.
Lemma same_current n s : same_jobs s (set_current_jobnumber n s).
Proof. apply same_get. apply set_current_get. Qed.
Lemma notify_ids pid w l n : option_map (option_map j_id) (nth_error (notify_jobs pid w l) n) = option_map (option_map j_id) (nth_error l n).
Proof.
  revert n. induction l as [|[j|] l IH]; intros n; cbn [notify_jobs]; [reflexivity| |destruct n; [reflexivity|apply IH]].
  destruct (notify_procs pid w (j_procs j)); destruct n; try reflexivity. apply IH.
Qed.
Lemma ids_get s s' n : option_map (option_map j_id) (nth_error (jobs s') n) = option_map (option_map j_id) (nth_error (jobs s) n) -> option_map j_id (get_job s n) = option_map j_id (get_job s' n).
Proof. unfold get_job. destruct (nth_error (jobs s') n), (nth_error (jobs s) n); cbn; congruence. Qed.
Lemma same_wait evs s : same_jobs s (do_wait evs s).
Proof.
  revert s. induction evs as [|[| | | |pid w] evs IH]; intros s; cbn [do_wait]; try apply same_refl; [apply IH|].
  eapply same_trans; [|apply IH]. intros n _. apply ids_get. apply notify_ids.
Qed.
(** Printing without removing *)
Lemma print_keeps n c s : exists s', print_job_status n c false s = Ok s' /\ next_id s' = next_id s /\ cur s' = cur s /\ prev s' = prev s /\ length (jobs s') = length (jobs s) /\
  forall m, get_job s' m = get_job s m \/ m = n /\ exists j, get_job s m = Some j /\ get_job s' m = Some (with_changed false j).
Proof.
  unfold print_job_status. destruct (get_job s n) as [j|] eqn:E; [|exists s; auto 10]. destruct (j_nonotify j); [exists s; auto 10|]. destruct (c && negb (j_changed j)); [exists s; auto 10|]. cbn [andb].
  eexists. split; [reflexivity|]. cbn [next_id cur prev jobs]. rewrite length_upd. do 4 (split; [reflexivity|]). intros m. assert (B := get_job_bound _ _ _ E).
  change (get_job (mkSt (upd (jobs s) n (Some (with_changed false j))) (cap s) (cur s) (prev s) (next_id s) (out s ++ [mkReport n (mark_of s n) (j_status j) (j_id j)])) m)
    with (get_job (with_jobs (upd (jobs s) n (Some (with_changed false j))) s) m). rewrite upd_get by exact B.
  destruct (Nat.eqb_spec m n) as [->|N]; [right; split; [reflexivity|eauto]|now left].
Qed.
Lemma same_print n c s s' : print_job_status n c false s = Ok s' -> same_jobs s s'.
Proof.
  intros H. destruct (print_keeps n c s) as (s1 & E & _ & _ & _ & _ & K). rewrite H in E. injection E as <-. intros m _. destruct (K m) as [->|(_ & j & -> & ->)]; reflexivity.
Qed.
Lemma print_from_ok c i k s : exists s', print_from (fun i => print_job_status i c false) i k s = Ok s' /\ same_jobs s s' /\ next_id s' = next_id s /\ cur s' = cur s /\ prev s' = prev s /\
  (forall n, n < i -> get_job s' n = get_job s n) /\ (forall n, get_job s' n = get_job s n \/ exists j, get_job s n = Some j /\ get_job s' n = Some (with_changed false j)).
Proof.
  revert i s. induction k as [|k IH]; intros i s; cbn [print_from]; [exists s; split; [reflexivity|]; split; [apply same_refl|auto 10]|].
  destruct (i <? length (jobs s)); [|exists s; split; [reflexivity|]; split; [apply same_refl|auto 10]].
  destruct (print_keeps i c s) as (s1 & E & H1 & H2 & H3 & _ & H4). rewrite E. cbn [rbind]. destruct (IH (S i) s1) as (s2 & E2 & K1 & K2 & K3 & K4 & K5 & K6). exists s2. split; [exact E2|].
  split; [eapply same_trans; [eapply same_print; exact E|exact K1]|]. split; [congruence|]. split; [congruence|]. split; [congruence|]. split.
  - intros n Hn. rewrite K5 by lia. destruct (H4 n) as [X|(X & _)]; [exact X|lia].
  - intros n. destruct (K6 n) as [X|(j & X & Y)], (H4 n) as [X'|(_ & j' & X' & Y')]; rewrite ?X; eauto.
    + right. exists j. split; [congruence|exact Y].
    + right. exists j'. split; [exact X'|]. rewrite Y' in X. injection X as <-. exact Y.
Qed.
Lemma fold_current_keeps l s : let s' := fold_left (fun s i => if newly_stopped (get_job s i) then set_current_jobnumber i s else s) l s in jobs s' = jobs s /\ next_id s' = next_id s /\ out s' = out s.
Proof.
  cbv zeta. revert s. induction l as [|i l IH]; intros s; cbn [fold_left]; [auto|]. destruct (IH (if newly_stopped (get_job s i) then set_current_jobnumber i s else s)) as (H1 & H2 & H3).
  rewrite H1, H2, H3. destruct (newly_stopped (get_job s i)); [rewrite set_current_jobs, set_current_next, set_current_out|]; auto.
Qed.
Lemma curstop_keeps b s : jobs (apply_curstop b s) = jobs s /\ next_id (apply_curstop b s) = next_id s /\ out (apply_curstop b s) = out s.
Proof.
  unfold apply_curstop. cbv zeta. rewrite set_current_jobs, set_current_next, set_current_out. destruct b; [apply fold_current_keeps|auto].
Qed.
Lemma curstop_get b s n : get_job (apply_curstop b s) n = get_job s n.
Proof. unfold get_job. now rewrite (proj1 (curstop_keeps b s)). Qed.
Lemma print_all_ok b s : exists s', print_job_status_all b s = Ok s' /\ same_jobs s s' /\ get_job s' 0 = get_job s 0 /\
  (forall n, get_job s' n = get_job s n \/ exists j, get_job s n = Some j /\ get_job s' n = Some (with_changed false j)).
Proof.
  unfold print_job_status_all. cbv zeta. destruct (print_from_ok true 1 (length (jobs (apply_curstop b s))) (apply_curstop b s)) as (s' & E & H1 & _ & _ & _ & H5 & H6). exists s'. split; [exact E|].
  split; [eapply same_trans; [apply same_get; apply curstop_get|exact H1]|]. split; [rewrite H5 by lia; apply curstop_get|]. intros n. rewrite <- (curstop_get b s n). apply H6.
Qed.
Lemma sigchld_ok evs a b s : exists s', handle_sigchld evs a b s = Ok s' /\ same_jobs s s' /\
  let t := match evs with Some l => do_wait l s | None => s end in
  forall n, get_job s' n = get_job t n \/ exists j, get_job t n = Some j /\ get_job s' n = Some (with_changed false j).
Proof.
  unfold handle_sigchld. cbv zeta. set (t := match evs with Some l => do_wait l s | None => s end). assert (X : same_jobs s t) by (subst t; destruct evs; [apply same_wait|apply same_refl]). clearbody t.
  destruct (any_job_status_has_changed t && a); [|exists t; auto]. destruct (print_all_ok b t) as (s' & E & H1 & _ & H2). exists s'. split; [exact E|]. split; [eapply same_trans; eassumption|exact H2].
Qed.

(** ** Following a job through notifications *)
(** [p0] is a process and [p] is the same process after the notifications *)
Definition track (evs : list (Z * wstatus)) (p0 p : proc) : Prop :=
  pr_pid p = pr_pid p0 /\ (ended p0 /\ p = p0 \/ ~ ended p0 /\ (~ ended p /\ no_fate (pr_pid p0) evs \/ ended p /\ exists w, fate (pr_pid p0) evs w /\ pr_code p = Code w)).
Definition final (w : wstatus) : Prop := (exists n, w = Exited n) \/ (exists n, w = Signaled n).
Lemma final_dec w : final w \/ (exists n, w = StopSig n) \/ w = Continued.
Proof. unfold final. destruct w; eauto. Qed.
Lemma final_not w : final w -> ~ ((exists n, w = StopSig n) \/ w = Continued).
Proof. intros [[n ->]|[n ->]] [[m H]|H]; discriminate. Qed.
Lemma fate_app pid evs l w : fate pid evs w -> fate pid (evs ++ l) w.
Proof. induction 1; cbn; constructor; assumption. Qed.
Lemma fate_snoc pid evs e : no_fate pid evs -> (forall w, fate pid (evs ++ [e]) w <-> e = (pid, w) /\ final w).
Proof.
  intros N w. split.
  - revert N. induction evs as [|f evs IH]; cbn [app]; intros N H.
    + inversion H as [w' l Hf|f l w' Hf Hr]; subst; [auto|]. inversion Hr.
    + inversion H as [w' l Hf|f' l w' Hf Hr]; subst; [destruct (N w); constructor; exact Hf|]. apply IH; [|exact Hr]. intros v K. apply (N v). now constructor.
  - intros [-> F]. induction evs as [|f evs IH]; cbn [app]; [constructor; exact F|]. destruct f as [q v]. destruct (Z.eq_dec q pid) as [->|E].
    + destruct (final_dec v) as [Fv|Fv]; [destruct (N v); constructor; exact Fv|]. apply fa_later; [now right|]. apply IH. intros u K. apply (N u). apply fa_later; [now right|exact K].
    + apply fa_later; [now left|]. apply IH. intros u K. apply (N u). apply fa_later; [now left|exact K].
Qed.
Lemma track_refl p : track [] p p.
Proof. split; [reflexivity|]. destruct (jstatus_eqb_spec (pr_status p) Done) as [E|E]; [left; auto|right]. split; [exact E|]. left. split; [exact E|]. intros w H. inversion H. Qed.
(** The notification concerns another process, or one that has ended. *)
Lemma track_other evs p0 p pid w : track evs p0 p -> pr_pid p <> pid \/ ended p -> track (evs ++ [(pid, w)]) p0 p.
Proof.
  intros [T1 T2] H. split; [exact T1|]. destruct T2 as [T2|[T2 [[T3 T4]|(T3 & w' & T4 & T5)]]]; [now left| |]; right; (split; [exact T2|]).
  - left. split; [exact T3|]. destruct H as [H|H]; [|contradiction]. intros v K. apply fate_snoc in K as [K _]; [|exact T4]. injection K as K _. congruence.
  - right. split; [exact T3|]. exists w'. split; [now apply fate_app|exact T5].
Qed.
Lemma track_notified evs p0 p w : track evs p0 p -> ~ ended p -> track (evs ++ [(pr_pid p, w)]) p0 (notified p w).
Proof.
  intros [T1 T2] H. split; [exact T1|]. destruct T2 as [[T2 ->]|[T2 [[T3 T4]|(T3 & _)]]]; [contradiction| |contradiction]. right. split; [exact T2|]. rewrite T1.
  destruct (final_dec w) as [F|F].
  - right. split; [destruct F as [[n ->]|[n ->]]; reflexivity|]. exists w. split; [|reflexivity]. apply fate_snoc; auto.
  - left. split; [destruct F as [[n ->]| ->]; discriminate|]. intros v K. apply fate_snoc in K as [K1 K2]; [|exact T4]. injection K1 as ->. exact (final_not v K2 F).
Qed.
(** Live processes have different numbers: within a job, and of the jobs before it *)
Definition distinct (ps : list proc) : Prop := forall i k p q, nth_error ps i = Some p -> nth_error ps k = Some q -> ~ ended p -> ~ ended q -> pr_pid p = pr_pid q -> i = k.
Definition apart (s : st) (n : nat) (j : job) : Prop := forall i j0 p q, i < n -> job_at s i j0 -> In p (j_procs j0) -> In q (j_procs j) -> ~ ended p -> ~ ended q -> pr_pid p <> pr_pid q.
Lemma later_live ps ps' q' : Forall2 proc_later ps ps' -> In q' ps' -> ~ ended q' -> exists q, In q ps /\ ~ ended q /\ pr_pid q = pr_pid q'.
Proof.
  induction 1 as [|p p' ps ps' H F IH]; intros I N; [destruct I|]. destruct I as [->|I].
  - destruct H as (H1 & _ & H2). exists p. split; [now left|]. split; [|exact H1]. intros E. apply N. rewrite (H2 E). exact E.
  - destruct (IH I N) as (q & K1 & K2). exists q. split; [now right|exact K2].
Qed.
Lemma later_distinct ps ps' : Forall2 proc_later ps ps' -> distinct ps -> distinct ps'.
Proof.
  intros F D i k p q Hi Hk Ep Eq E.
  assert (X : forall i p, nth_error ps' i = Some p -> ~ ended p -> exists p0, nth_error ps i = Some p0 /\ ~ ended p0 /\ pr_pid p0 = pr_pid p).
  { clear - F. induction F as [|a b l m H F IH]; intros i p Hi N; [destruct i; discriminate|]. destruct i as [|i]; cbn in Hi.
    - injection Hi as <-. exists a. destruct H as (H1 & _ & H2). split; [reflexivity|]. split; [|exact H1]. intros E. apply N. rewrite (H2 E). exact E.
    - now apply IH. }
  destruct (X i p Hi Ep) as (p0 & A1 & A2 & A3), (X k q Hk Eq) as (q0 & B1 & B2 & B3). apply (D i k p0 q0); congruence.
Qed.
Lemma apart_later s s' n j j' : pw fair s s' -> later j j' -> apart s n j -> apart s' n j'.
Proof.
  intros (_ & _ & P) L A i j0 p q Hi Hj Ip Iq Ep Eq. destruct (P i j0 Hj) as (j1 & K & [L1 _]). destruct (later_live _ _ _ (la_procs _ _ L1) Ip Ep) as (p1 & P1 & P2 & P3).
  destruct (later_live _ _ _ (la_procs _ _ L) Iq Eq) as (q1 & Q1 & Q2 & Q3). rewrite <- P3, <- Q3. eapply A; eassumption.
Qed.
Lemma notify_at pid w l n j : nth_error l n = Some (Some j) ->
  (forall i j0, i < n -> nth_error l i = Some (Some j0) -> notify_procs pid w (j_procs j0) = None) \/ notify_procs pid w (j_procs j) = None ->
  nth_error (notify_jobs pid w l) n = Some (Some (match notify_procs pid w (j_procs j) with Some ps => with_procs ps j | None => j end)).
Proof.
  revert n. induction l as [|[k|] l IH]; intros n H C; [destruct n; discriminate| |]; cbn [notify_jobs].
  - destruct n as [|n]; cbn [nth_error] in H.
    + injection H as ->. destruct (notify_procs pid w (j_procs j)); reflexivity.
    + destruct (notify_procs pid w (j_procs k)) as [ps|] eqn:E.
      * destruct C as [C|C]; [rewrite (C 0 k ltac:(lia) eq_refl) in E; discriminate|]. rewrite C. exact H.
      * cbn [nth_error]. apply IH; [exact H|]. destruct C as [C|C]; [left|now right]. intros i j0 Hi K. apply (C (S i) j0); [lia|exact K].
  - destruct n as [|n]; [discriminate|]. cbn [nth_error] in *. apply IH; [exact H|]. destruct C as [C|C]; [left|now right]. intros i j0 Hi K. apply (C (S i) j0); [lia|exact K].
Qed.
(** The job at [n] in [s], having started with the processes [ps0], after the notifications *)
Record followed (n id : nat) (ps0 : list proc) (evs : list (Z * wstatus)) (s : st) (j : job) : Prop := {
  fo_inv : inv s;
  fo_at : job_at s n j;
  fo_id : j_id j = id;
  fo_track : Forall2 (track evs) ps0 (j_procs j);
  fo_honest : honest j;
  fo_distinct : distinct (j_procs j);
  fo_apart : apart s n j
}.
Lemma followed_notify n id ps0 evs s j pid w : followed n id ps0 evs s j -> exists j', followed n id ps0 (evs ++ [(pid, w)]) (with_jobs (notify_jobs pid w (jobs s)) s) j'.
Proof.
  intros [F1 F2 F3 F4 F5 F6 F7]. set (j' := match notify_procs pid w (j_procs j) with Some ps => with_procs ps j | None => j end).
  assert (Hj : fair j j') by (subst j'; destruct (notify_procs pid w (j_procs j)) eqn:E; [eapply notify_fair; exact E|apply fair_refl]).
  destruct Hj as (L & W & H).
  exists j'. constructor.
  - apply pw_inv with s; [|exact F1]. eapply pw_weak; [exact fair_change|apply pw_notify].
  - apply notify_at; [exact F2|]. destruct (notify_procs pid w (j_procs j)) as [ps|] eqn:E; [left|now right]. intros i j0 Hi K. apply notify_procs_none. apply Forall_forall. intros p Ip.
    apply notify_procs_ok in E as (a & q & b & E & _ & E1 & E2 & _). destruct (jstatus_eqb_spec (pr_status p) Done) as [D|D]; [now right|left]. rewrite <- E1. eapply F7; [exact Hi|exact K|exact Ip| |exact D|exact E2]. rewrite E. apply in_elt.
  - rewrite (la_id _ _ L). exact F3.
  - subst j'. destruct (notify_procs pid w (j_procs j)) as [ps|] eqn:E.
    + apply notify_procs_ok in E as (a & q & b & E & -> & E1 & E2 & E3). cbn [j_procs with_procs]. rewrite E in F4. apply Forall2_app_inv_r in F4 as (a0 & b0 & A1 & B1 & ->). inversion B1 as [|q0 ? b1 ? T B2]; subst.
      apply Forall2_app; [|constructor].
      * clear - A1 E3. induction A1 as [|x y l m H F IH]; constructor; inversion E3; subst; [now apply track_other|auto].
      * now apply track_notified.
      * assert (X : forall p, In p b -> pr_pid p <> pr_pid q \/ ended p).
        { intros p I. destruct (jstatus_eqb_spec (pr_status p) Done) as [D|D]; [now right|left]. intros Y. apply In_nth_error in I as (k & I). specialize (F6 (length a) (length a + S k) q p). rewrite E in F6.
          rewrite !nth_error_app2 in F6 by lia. rewrite Nat.sub_diag in F6. replace (length a + S k - length a) with (S k) in F6 by lia. specialize (F6 eq_refl I E2 D (eq_sym Y)). lia. }
        clear - B2 X. induction B2 as [|x y l m H F IH]; constructor; [apply track_other; [exact H|apply X; now left]|apply IH; intros p I; apply X; now right].
    + apply notify_procs_none in E. clear - F4 E. induction F4 as [|x y l m H F IH]; constructor; inversion E; subst; [now apply track_other|auto].
  - apply H; [|exact F5]. eapply in_wf; eassumption.
  - eapply later_distinct; [apply la_procs; exact L|exact F6].
  - eapply apart_later; [apply pw_notify|exact L|exact F7].
Qed.
Lemma followed_wait n id ps0 evs l s j : followed n id ps0 evs s j -> exists j', followed n id ps0 (evs ++ reported l) (do_wait l s) j'.
Proof.
  revert evs s j. induction l as [|[| | | |pid w] l IH]; intros evs s j F; cbn [do_wait reported]; try (exists j; rewrite app_nil_r; exact F); [eapply IH; exact F|].
  destruct (followed_notify n id ps0 evs s j pid w F) as (j1 & F1). destruct (IH _ _ _ F1) as (j2 & F2). exists j2. rewrite <- app_assoc in F2. exact F2.
Qed.
(** Changes that do not concern processes *)
Lemma followed_change n id ps0 evs s s' j j' : followed n id ps0 evs s j -> pw fair s s' -> job_at s' n j' -> j_id j' = j_id j -> j_procs j' = j_procs j -> j_status j' = j_status j -> followed n id ps0 evs s' j'.
Proof.
  intros [F1 F2 F3 F4 F5 F6 F7] P A E1 E2 E3. constructor.
  - apply pw_inv with s; [|exact F1]. eapply pw_weak; [exact fair_change|exact P].
  - exact A.
  - congruence.
  - now rewrite E2.
  - unfold honest. now rewrite E2, E3.
  - now rewrite E2.
  - destruct P as (_ & _ & P). intros i j0 p q Hi Hj Ip Iq Ep Eq. destruct (P i j0 Hj) as (j1 & K & [L1 _]). destruct (later_live _ _ _ (la_procs _ _ L1) Ip Ep) as (p1 & P1 & P2 & P3).
    rewrite <- P3. rewrite E2 in Iq. eapply F7; eassumption.
Qed.
Lemma followed_sigchld n id ps0 evs s j e a b s' : followed n id ps0 evs s j -> handle_sigchld e a b s = Ok s' -> same_jobs s s' /\ exists j', followed n id ps0 (evs ++ match e with Some l => reported l | None => [] end) s' j'.
Proof.
  intros F E. destruct (sigchld_ok e a b s) as (s1 & E1 & S1 & G). rewrite E in E1. injection E1 as <-. split; [exact S1|].
  assert (X : exists j1, followed n id ps0 (evs ++ match e with Some l => reported l | None => [] end) (match e with Some l => do_wait l s | None => s end) j1).
  { destruct e as [l|]; [eapply followed_wait; exact F|exists j; now rewrite app_nil_r]. }
  destruct X as (j1 & F1). pose proof (fo_at _ _ _ _ _ _ F1) as A. apply get_job_at in A. specialize (G n). cbv zeta in G. rewrite A in G.
  assert (P : pw fair (match e with Some l => do_wait l s | None => s end) s').
  { unfold handle_sigchld in E. destruct (any_job_status_has_changed _ && a); [eapply pw_print_all; exact E|injection E as <-; apply pw_refl, fair_refl]. }
  destruct G as [G|(j2 & G1 & G2)].
  - exists j1. eapply followed_change; [exact F1|exact P|now apply get_job_at| | |]; reflexivity.
  - injection G1 as <-. exists (with_changed false j1). eapply followed_change; [exact F1|exact P|now apply get_job_at| | |]; reflexivity.
Qed.

(** ** Waiting *)
Definition calm (intr trap : bool) (r : round) : Prop := (trap = false \/ rd_trap r = None) /\ (intr = false \/ rd_int r = false).
Lemma calm_wait r intr trap s : calm intr trap r -> exists s', handle_sigchld (rd_events r) (rd_notify r) (rd_curstop r) s = Ok s' /\ wait_for_sigchld r intr trap s = Ok (0%Z, s').
Proof.
  intros [C1 C2]. destruct (sigchld_ok (rd_events r) (rd_notify r) (rd_curstop r) s) as (s' & E & _). exists s'. split; [exact E|]. unfold wait_for_sigchld.
  assert (X : (match rd_trap r with
    | Some (sig, ops) => if trap then let! s := do_ops ops s in Ok (sig, s) else Ok (0%Z, s)
    | None => Ok (0%Z, s) end) = Ok (0%Z, s)) by (destruct C1 as [-> | ->]; [destruct (rd_trap r) as [[sig ops]|]; reflexivity|reflexivity]).
  rewrite X. cbn [rbind]. rewrite E. cbn [rbind]. destruct C2 as [-> | ->]; [reflexivity|]. now rewrite andb_false_r.
Qed.
Lemma deref_at s n j : inv s -> job_at s n j -> deref (j_id j) s = Ok j.
Proof.
  intros Hi Ha. unfold deref. assert (H : exists k, find (has_id (j_id j)) (jobs s) = Some (Some k) /\ exists m, job_at s m k /\ j_id k = j_id j).
  { unfold job_at in *. generalize (jobs s) Ha. clear. intros l. revert n. induction l as [|o l IH]; intros n H; [destruct n; discriminate|]. cbn [find]. destruct (has_id (j_id j) o) eqn:E.
    - destruct o as [k|]; [|discriminate]. apply Nat.eqb_eq in E. exists k. split; [reflexivity|]. exists 0. auto.
    - destruct n as [|n]; cbn in H; [injection H as ->; cbn in E; rewrite Nat.eqb_refl in E; discriminate|]. destruct (IH n H) as (k & K1 & m & K2 & K3). exists k. split; [exact K1|]. exists (S m). auto. }
  destruct H as (k & -> & m & Hm & Ek). assert (m = n) by (eapply in_unique; eassumption). subst m. unfold job_at in *. congruence.
Qed.
Lemma wait_loop_ok rs n id ps0 evs ros intr trap s j : Forall (calm intr trap) rs -> followed n id ps0 evs s j ->
  (exists rs1 rs2 s' j', rs = rs1 ++ rs2 /\ wait_loop rs id ros intr trap s = Ok (0%Z, s') /\ followed n id ps0 (evs ++ all_events rs1) s' j' /\ same_jobs s s' /\
     (j_status j' = Done \/ ros = true /\ j_status j' = Stopped)) \/
  (wait_loop rs id ros intr trap s = Fuel /\ exists s' j', followed n id ps0 (evs ++ all_events rs) s' j' /\ j_status j' <> Done /\ (ros = true -> j_status j' <> Stopped)).
Proof.
  intros C. revert evs s j. induction C as [|r rs Hr C IH]; intros evs s j F;
    (assert (D : deref id s = Ok j) by (rewrite <- (fo_id _ _ _ _ _ _ F); eapply deref_at; [apply F|eapply fo_at; exact F])); cbn [wait_loop]; rewrite D; cbn [rbind].
  - destruct (jstatus_eqb_spec (j_status j) Done) as [E|E].
    { left. exists [], [], s, j. cbn [all_events flat_map]. rewrite (app_nil_r evs). split; [reflexivity|]. split; [reflexivity|]. split; [exact F|]. split; [apply same_refl|now left]. }
    destruct (ros && jstatus_eqb (j_status j) Stopped) eqn:E'.
    { apply andb_true_iff in E' as [-> E']. left. exists [], [], s, j. cbn [all_events flat_map]. rewrite (app_nil_r evs). split; [reflexivity|]. split; [reflexivity|]. split; [exact F|]. split; [apply same_refl|right]. split; [reflexivity|]. destruct (jstatus_eqb_spec (j_status j) Stopped); [assumption|discriminate]. }
    right. split; [reflexivity|]. exists s, j. cbn [all_events flat_map]. rewrite (app_nil_r evs). split; [exact F|]. split; [exact E|]. intros ->. cbn [andb] in E'. destruct (jstatus_eqb_spec (j_status j) Stopped); [discriminate|assumption].
  - destruct (jstatus_eqb_spec (j_status j) Done) as [E|E].
    { left. exists [], (r :: rs), s, j. cbn [all_events flat_map]. rewrite (app_nil_r evs). split; [reflexivity|]. split; [reflexivity|]. split; [exact F|]. split; [apply same_refl|now left]. }
    destruct (ros && jstatus_eqb (j_status j) Stopped) eqn:E'.
    { apply andb_true_iff in E' as [-> E']. left. exists [], (r :: rs), s, j. cbn [all_events flat_map]. rewrite (app_nil_r evs). split; [reflexivity|]. split; [reflexivity|]. split; [exact F|]. split; [apply same_refl|right]. split; [reflexivity|]. destruct (jstatus_eqb_spec (j_status j) Stopped); [assumption|discriminate]. }
    destruct (calm_wait r intr trap s Hr) as (s1 & E1 & ->). cbn [rbind Z.eqb negb]. destruct (followed_sigchld _ _ _ _ _ _ _ _ _ _ F E1) as (S1 & j1 & F1).
    destruct (IH _ _ _ F1) as [(rs1 & rs2 & s' & j' & -> & E2 & F2 & S2 & K)|(E2 & s' & j' & F2 & K)]; rewrite E2.
    + left. exists (r :: rs1), rs2, s', j'. split; [reflexivity|]. split; [reflexivity|]. rewrite <- app_assoc in F2. split; [exact F2|]. split; [eapply same_trans; eassumption|exact K].
    + right. split; [reflexivity|]. exists s', j'. rewrite <- app_assoc in F2. split; [exact F2|exact K].
Qed.
Lemma modify_ok n id ps0 evs b s j : followed n id ps0 evs s j -> exists s', modify id (with_nonotify b) s = Ok s' /\ same_jobs s s' /\ followed n id ps0 evs s' (with_nonotify b j) /\ (forall m, m <> n -> get_job s' m = get_job s m) /\ cur s' = cur s /\ prev s' = prev s /\ length (jobs s') = length (jobs s).
Proof.
  intros F. pose proof (fo_inv _ _ _ _ _ _ F) as Hi. pose proof (fo_at _ _ _ _ _ _ F) as Ha. assert (D : deref id s = Ok j) by (rewrite <- (fo_id _ _ _ _ _ _ F); eapply deref_at; eassumption).
  unfold modify. rewrite D. cbn [rbind]. eexists. split; [reflexivity|]. set (f := fun o : option job => match o with Some k => Some (if j_id k =? id then with_nonotify b k else k) | None => None end).
  assert (G : forall m, get_job (with_jobs (map f (jobs s)) s) m = f (get_job s m)) by (intros m; unfold get_job; cbn [jobs with_jobs]; rewrite nth_error_map; destruct (nth_error (jobs s) m) as [[k|]|]; reflexivity).
  assert (N : forall m, m <> n -> f (get_job s m) = get_job s m).
  { intros m Nm. destruct (get_job s m) as [k|] eqn:E; [|reflexivity]. cbn. destruct (Nat.eqb_spec (j_id k) id) as [X|X]; [|reflexivity]. destruct Nm. apply get_job_at in E. eapply in_unique; [exact Hi|exact E|exact Ha|]. now rewrite (fo_id _ _ _ _ _ _ F). }
  assert (Gn : f (get_job s n) = Some (with_nonotify b j)) by (apply get_job_at in Ha; rewrite Ha; cbn; now rewrite (fo_id _ _ _ _ _ _ F), Nat.eqb_refl).
  assert (P : pw fair s (with_jobs (map f (jobs s)) s)).
  { apply (pw_map fair (fun k => if j_id k =? id then with_nonotify b k else k)). intros k. destruct (j_id k =? id); [apply flags_fair; auto|apply fair_refl]. }
  split; [|split; [|split; [|split; [reflexivity|split; [reflexivity|]]]]].
  - intros m _. rewrite G. destruct (get_job s m) as [k|]; [|reflexivity]. cbn. destruct (j_id k =? id); reflexivity.
  - eapply followed_change; [exact F|exact P|apply get_job_at; now rewrite G| | |]; reflexivity.
  - intros m Nm. rewrite G. now apply N.
  - cbn [jobs with_jobs]. apply map_length.
Qed.
Lemma wait_for_job_ok rs n ps0 ros intr trap s j : Forall (calm intr trap) rs -> j_legacy j = false -> followed n (j_id j) ps0 [] s j ->
  (exists rs1 rs2 s' j', rs = rs1 ++ rs2 /\ wait_for_job rs n ros intr trap s = Ok (0%Z, s') /\ followed n (j_id j) ps0 (all_events rs1) s' j' /\ same_jobs s s' /\
     (j_status j' = Done \/ ros = true /\ j_status j' = Stopped)) \/
  (wait_for_job rs n ros intr trap s = Fuel /\ exists s' j', followed n (j_id j) ps0 (all_events rs) s' j' /\ j_status j' <> Done /\ (ros = true -> j_status j' <> Stopped)).
Proof.
  intros C Lg F. unfold wait_for_job. pose proof (fo_at _ _ _ _ _ _ F) as Ha. apply get_job_at in Ha. rewrite Ha, Lg.
  destruct (modify_ok n _ ps0 [] true s j F) as (s1 & -> & S1 & F1 & _). cbn [rbind].
  destruct (wait_loop_ok rs n _ ps0 [] ros intr trap s1 _ C F1) as [(rs1 & rs2 & s2 & j2 & E1 & -> & F2 & S2 & K)|(-> & s2 & j2 & F2 & K)]; cbn [rbind].
  - destruct (modify_ok n _ ps0 _ (j_nonotify j) s2 j2 F2) as (s3 & -> & S3 & F3 & _). cbn [rbind]. left. exists rs1, rs2, s3, (with_nonotify (j_nonotify j) j2).
    split; [exact E1|]. split; [reflexivity|]. split; [exact F3|]. split; [|exact K]. eapply same_trans; [exact S1|]. eapply same_trans; eassumption.
  - right. split; [reflexivity|]. exists s2, j2. auto.
Qed.
