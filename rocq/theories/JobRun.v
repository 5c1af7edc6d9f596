(** Everything commands do keeps the job list consistent *)
From Coq Require Import List NArith ZArith Bool Arith Lia.
From Verif Require Import Common Locale JobModel JobSpec JobProofs JobHist JobWait.
Import ListNotations.
Open Scope res_scope.

Definition valid (s : st) : Prop := (cur s = 0 \/ is_job s (cur s)) /\ (prev s = 0 \/ is_job s (prev s)).
Definition all_honest (s : st) : Prop := forall n j, job_at s n j -> honest j.
Record good (strict : bool) (s : st) : Prop := { go_inv : inv s; go_valid : valid s; go_honest : strict = true -> all_honest s }.
Definition keeps (strict : bool) (s s' : st) : Prop := good strict s -> good strict s' /\ evolve s s'.
Lemma evolve_refl s : evolve s s.
Proof. split; [lia|]. intros n j H. right. exists n, j. split; [exact H|]. split; [now left|apply later_refl]. Qed.
Lemma keeps_refl k s : keeps k s s.
Proof. intros G. split; [exact G|apply evolve_refl]. Qed.
Lemma keeps_trans k a b c : keeps k a b -> keeps k b c -> keeps k a c.
Proof. intros H1 H2 G. destruct (H1 G) as [G1 E1], (H2 G1) as [G2 E2]. split; [exact G2|]. exact (evolve_trans a b c (go_inv _ _ G) (go_inv _ _ G1) E1 E2). Qed.
Lemma good_init k : good k init_job.
Proof.
  constructor; [apply init_inv|split; now left|]. intros _ n j H. unfold job_at in H. cbn in H. destruct n as [|[|n]]; discriminate.
Qed.
Lemma is_job_same s s' n : same_jobs s s' -> is_job s n -> is_job s' n.
Proof.
  intros S [j [H1 H2]]. apply get_job_at in H2. specialize (S n H1). rewrite H2 in S. destruct (get_job s' n) as [j'|] eqn:E; [|discriminate]. exists j'. split; [exact H1|now apply get_job_at].
Qed.
Lemma valid_same s s' : same_jobs s s' -> cur s' = cur s -> prev s' = prev s -> valid s -> valid s'.
Proof. intros S E1 E2 [[H|H] [K|K]]; split; rewrite ?E1, ?E2; auto; right; eapply is_job_same; eassumption. Qed.
Lemma keeps_fair k s s' : pw fair s s' -> (valid s -> valid s') -> keeps k s s'.
Proof.
  intros P V [I1 I2 I3]. destruct (pw_inv s s') as [J E]; [eapply pw_weak; [exact fair_change|exact P]|exact I1|]. split; [|exact E]. constructor; [exact J|auto|].
  intros K n j' H. destruct P as (_ & _ & P). destruct (P n j' H) as (j & Hj & (_ & _ & F)). apply F; [exact (in_wf _ I1 n j Hj)|exact (I3 K n j Hj)].
Qed.
Lemma keeps_change s s' : pw change s s' -> (valid s -> valid s') -> keeps false s s'.
Proof. intros P V [I1 I2 I3]. destruct (pw_inv s s' P I1) as [J E]. split; [|exact E]. constructor; [exact J|auto|discriminate]. Qed.
Lemma keeps_current k n s : keeps k s (set_current_jobnumber n s).
Proof. apply keeps_fair; [apply pw_current|]. intros _. exact (set_current_valid n s). Qed.
Lemma keeps_remove k n s s' : remove_job n s = Ok s' -> keeps k s s'.
Proof.
  intros E. apply keeps_fair; [eapply pw_remove; exact E|]. intros _. unfold remove_job in E. destruct (rset (jobs s) n None); try discriminate. cbn [rbind] in E. destruct (trim_joblist _); try discriminate. cbn [rbind] in E. injection E as <-. apply set_current_valid.
Qed.
Lemma keeps_remove_all k s s' : remove_all_jobs s = Ok s' -> keeps k s s'.
Proof.
  intros E. apply keeps_fair; [eapply pw_remove_all; exact E|]. intros _. unfold remove_all_jobs in E. destruct (trim_joblist _); try discriminate. cbn [rbind] in E. injection E as <-. split; now left.
Qed.
Lemma keeps_neglect k s : keeps k s (neglect_all_jobs s).
Proof. apply keeps_fair; [apply pw_neglect|]. intros _. split; now left. Qed.
Lemma wait_numbers evs s : cur (do_wait evs s) = cur s /\ prev (do_wait evs s) = prev s.
Proof. revert s. induction evs as [|[| | | |pid w] evs IH]; intros s; cbn [do_wait]; auto. destruct (IH (with_jobs (notify_jobs pid w (jobs s)) s)) as [-> ->]. auto. Qed.
Lemma keeps_wait k evs s : keeps k s (do_wait evs s).
Proof. apply keeps_fair; [apply pw_wait|]. destruct (wait_numbers evs s). apply valid_same; [apply same_wait|assumption..]. Qed.
Lemma keeps_print k n c r s s' : print_job_status n c r s = Ok s' -> keeps k s s'.
Proof.
  intros E. apply keeps_fair; [eapply pw_print; exact E|]. intros V. destruct r.
  - unfold print_job_status in E. destruct (get_job s n) as [j|] eqn:G; [|injection E as <-; exact V]. destruct (j_nonotify j) eqn:EN; [injection E as <-; exact V|]. destruct (c && negb (j_changed j)) eqn:EC; [injection E as <-; exact V|]. cbn [andb] in E.
    set (t := mkSt _ _ _ _ _ _) in E. destruct (jstatus_eqb (j_status j) Done) eqn:ED.
    + unfold remove_job in E. destruct (rset (jobs t) n None); try discriminate. cbn [rbind] in E. destruct (trim_joblist _); try discriminate. cbn [rbind] in E. injection E as <-. apply set_current_valid.
    + assert (E' : print_job_status n c false s = Ok s') by (unfold print_job_status; rewrite G, EN, EC; exact E). destruct (print_keeps n c s) as (s1 & E1 & _ & H2 & H3 & _). rewrite E' in E1. injection E1 as <-. eapply valid_same; [eapply same_print; exact E'|assumption..].
  - destruct (print_keeps n c s) as (s1 & E1 & _ & H2 & H3 & _). rewrite E in E1. injection E1 as <-. eapply valid_same; [eapply same_print; exact E|assumption..].
Qed.
Lemma keeps_print_from k f i n s s' : (forall i s s', f i s = Ok s' -> keeps k s s') -> print_from f i n s = Ok s' -> keeps k s s'.
Proof.
  intros Hf. revert i s. induction n as [|n IH]; intros i s; cbn [print_from]; [intros H; injection H as <-; apply keeps_refl|].
  destruct (i <? length (jobs s)); [|intros H; injection H as <-; apply keeps_refl]. destruct (f i s) as [s1| |] eqn:E; cbn [rbind]; try discriminate. intros H. eapply keeps_trans; [eapply Hf; exact E|eapply IH; exact H].
Qed.
Lemma keeps_curstop k b s : keeps k s (apply_curstop b s).
Proof. apply keeps_fair; [apply pw_curstop|]. intros _. unfold apply_curstop. cbv zeta. apply set_current_valid. Qed.
Lemma keeps_print_all k b s s' : print_job_status_all b s = Ok s' -> keeps k s s'.
Proof. unfold print_job_status_all. cbv zeta. intros E. eapply keeps_trans; [apply keeps_curstop|]. eapply keeps_print_from; [|exact E]. intros ? ? ? H. exact (keeps_print _ _ _ _ _ _ H). Qed.
Lemma keeps_jobs_all k b s s' : jobs_all b s = Ok s' -> keeps k s s'.
Proof. unfold jobs_all. cbv zeta. intros E. eapply keeps_trans; [apply keeps_curstop|]. eapply keeps_print_from; [|exact E]. intros ? ? ? H. exact (keeps_print _ _ _ _ _ _ H). Qed.
Lemma keeps_sigchld k evs a b s s' : handle_sigchld evs a b s = Ok s' -> keeps k s s'.
Proof.
  unfold handle_sigchld. set (t := match evs with Some l => do_wait l s | None => s end). assert (X : keeps k s t) by (subst t; destruct evs; [apply keeps_wait|apply keeps_refl]).
  clearbody t. destruct (any_job_status_has_changed t && a); intros H; [eapply keeps_trans; [exact X|eapply keeps_print_all; exact H]|injection H as <-; exact X].
Qed.
Lemma keeps_new k pgid ch ps s s' : ps_ok k ps -> new_job pgid ch ps s = Ok s' -> keeps k s s'.
Proof.
  intros (N & F & X) E [I1 I2 I3]. destruct (new_inv pgid ch ps s s' N F E I1) as [J Ev]. split; [|exact Ev]. pose proof E as E'. apply new_job_ok in E' as (H0 & H1 & H2 & H3 & H4 & H5 & H6). constructor; [exact J| |].
  - eapply valid_same; [|exact H3|exact H4|exact I2]. intros n Hn. now rewrite H2.
  - intros K n j H. apply get_job_at in H. destruct n as [|n].
    + rewrite H5 in H. injection H as <-. unfold honest. cbn [j_procs j_status status_of]. specialize (X K). apply Exists_exists in X as (p & Ip & Np). apply Exists_exists. exists (new_proc p). split; [now apply in_map|]. destruct p as [[pid|] name]; [reflexivity|]. now destruct Np.
    + rewrite H2 in H by lia. apply (I3 K (S n)). now apply get_job_at.
Qed.
Lemma keeps_add k b s s' : add_job b s = Ok s' -> keeps k s s'.
Proof.
  intros E [I1 I2 I3]. destruct (add_inv b s s' E I1) as [J Ev]. split; [|exact Ev]. assert (exists j, job_at s 0 j) as [j Hj]. { unfold add_job in E. unfold job_at. destruct (jobs s) as [|[j|] l]; try discriminate. now exists j. }
  destruct (add_ok b s j Hj) as (n & s1 & E1 & A & (m & s0 & ->)). rewrite E in E1. injection E1 as ->. constructor; [exact J|apply set_current_valid|].
  intros K i x H. destruct A as [A1 A2 A3 A4 A5 A6 A7 A8]. destruct (Nat.eq_dec i n) as [->|N]; [assert (x = j) by (unfold job_at in *; congruence); subst x; exact (I3 K 0 j Hj)|].
  apply get_job_at in H. destruct i as [|i]; [congruence|]. rewrite A5 in H by (lia || exact N). apply (I3 K (S i)). now apply get_job_at.
Qed.
Lemma valid_upd n j j' s : get_job s n = Some j -> j_id j' = j_id j -> valid s -> valid (with_jobs (upd (jobs s) n (Some j')) s).
Proof.
  intros E I. apply valid_same; [|reflexivity|reflexivity]. intros m _. rewrite upd_get by (eapply get_job_bound; exact E). destruct (Nat.eqb_spec m n) as [->|]; [|reflexivity]. rewrite E. cbn. now rewrite I.
Qed.
Lemma keeps_continue n b s s' : continue_bg n b s = Ok s' -> keeps false s s'.
Proof.
  intros E. apply keeps_change; [eapply pw_continue; exact E|]. intros _. unfold continue_bg in E. destruct (get_job s n); [|discriminate]. destruct (negb _ || _); [discriminate|]. cbv zeta in E. injection E as <-. apply set_current_valid.
Qed.
Lemma keeps_op k o s s' : op_fine k o -> do_op o s = Ok s' -> keeps k s s'.
Proof.
  intros F E. destruct o; cbn [do_op op_fine] in *.
  - eapply keeps_new; eassumption.
  - eapply keeps_add; exact E.
  - eapply keeps_remove; exact E.
  - eapply keeps_remove_all; exact E.
  - injection E as <-. apply keeps_neglect.
  - eapply keeps_sigchld; exact E.
  - injection E as <-. apply keeps_curstop.
  - eapply keeps_print; exact E.
  - eapply keeps_print_all; exact E.
  - subst k. eapply keeps_continue; exact E.
Qed.
Lemma keeps_ops k l s s' : Forall (op_fine k) l -> do_ops l s = Ok s' -> keeps k s s'.
Proof.
  intros F. revert s. induction F as [|o l Ho F IH]; intros s; cbn [do_ops]; [intros H; injection H as <-; apply keeps_refl|].
  destruct (do_op o s) as [s1| |] eqn:E; cbn [rbind]; try discriminate. intros H. eapply keeps_trans; [eapply keeps_op; eassumption|exact (IH s1 H)].
Qed.
Lemma keeps_round k r i t s x s' : round_fine k r -> wait_for_sigchld r i t s = Ok (x, s') -> keeps k s s'.
Proof.
  intros F. unfold wait_for_sigchld, round_fine in *. destruct (rd_trap r) as [[sig ops]|].
  - destruct t.
    + destruct (do_ops ops s) as [s1| |] eqn:E; cbn [rbind]; try discriminate. destruct (handle_sigchld _ _ _ s1) as [s2| |] eqn:E2; cbn [rbind]; try discriminate. intros H. injection H as _ <-. eapply keeps_trans; [eapply keeps_ops; eassumption|eapply keeps_sigchld; exact E2].
    + cbn [rbind]. destruct (handle_sigchld _ _ _ s) as [s2| |] eqn:E2; cbn [rbind]; try discriminate. intros H. injection H as _ <-. eapply keeps_sigchld; exact E2.
  - cbn [rbind]. destruct (handle_sigchld _ _ _ s) as [s2| |] eqn:E2; cbn [rbind]; try discriminate. intros H. injection H as _ <-. eapply keeps_sigchld; exact E2.
Qed.
Lemma keeps_modify k id b s s' : modify id (with_nonotify b) s = Ok s' -> keeps k s s'.
Proof.
  unfold modify. destruct (deref id s); cbn [rbind]; try discriminate. intros H. injection H as <-. apply keeps_fair.
  - apply (pw_map fair (fun k => if j_id k =? id then with_nonotify b k else k)). intros x. destruct (j_id x =? id); [apply flags_fair; auto|apply fair_refl].
  - apply valid_same; [|reflexivity|reflexivity]. intros m _. unfold get_job. cbn [jobs with_jobs]. rewrite nth_error_map. destruct (nth_error (jobs s) m) as [[x|]|]; [|reflexivity|reflexivity]. cbn. destruct (j_id x =? id); reflexivity.
Qed.
Lemma keeps_loop k rs id a i t s x s' : Forall (round_fine k) rs -> wait_loop rs id a i t s = Ok (x, s') -> keeps k s s'.
Proof.
  intros F. revert s. induction F as [|r rs Hr F IH]; intros s; cbn [wait_loop]; (destruct (deref id s) as [j| |]; cbn [rbind]; try discriminate);
    (destruct (jstatus_eqb (j_status j) Done); [intros H; injection H as _ <-; apply keeps_refl|]); (destruct (a && jstatus_eqb (j_status j) Stopped); [intros H; injection H as _ <-; apply keeps_refl|]); try discriminate.
  destruct (wait_for_sigchld r i t s) as [[sig s1]| |] eqn:E; cbn [rbind]; try discriminate. pose proof (keeps_round k r i t s sig s1 Hr E) as K. destruct (negb (sig =? 0)%Z); [intros H; injection H as _ <-; exact K|]. intros H. eapply keeps_trans; [exact K|exact (IH s1 H)].
Qed.
Lemma keeps_wait_for_job k rs n a i t s x s' : Forall (round_fine k) rs -> wait_for_job rs n a i t s = Ok (x, s') -> keeps k s s'.
Proof.
  intros F. unfold wait_for_job. destruct (get_job s n) as [j|]; [|discriminate]. destruct (j_legacy j); [intros H; injection H as _ <-; apply keeps_refl|].
  destruct (modify (j_id j) (with_nonotify true) s) as [s1| |] eqn:E1; cbn [rbind]; try discriminate. destruct (wait_loop rs (j_id j) a i t s1) as [[sig s2]| |] eqn:E2; cbn [rbind]; try discriminate.
  destruct (modify (j_id j) (with_nonotify (j_nonotify j)) s2) as [s3| |] eqn:E3; cbn [rbind]; try discriminate. intros H. injection H as _ <-.
  eapply keeps_trans; [eapply keeps_modify; exact E1|]. eapply keeps_trans; [eapply keeps_loop; eassumption|eapply keeps_modify; exact E3].
Qed.
Lemma keeps_foreground k jc pf pgid ps rs s x s' : ps_ok k ps -> Forall (round_fine k) rs -> run_foreground jc pf pgid ps rs s = Ok (x, s') -> keeps k s s'.
Proof.
  intros P F. unfold run_foreground. destruct (new_job _ true ps s) as [s1| |] eqn:E1; cbn [rbind]; try discriminate. destruct (wait_for_job rs 0 jc false false s1) as [[sig s2]| |] eqn:E2; cbn [rbind]; try discriminate.
  destruct (get_job s2 0) as [j|]; [|discriminate]. destruct (calc_status_of_job pf j) as [y| |]; cbn [rbind]; try discriminate. intros H.
  eapply keeps_trans; [eapply keeps_new; eassumption|]. eapply keeps_trans; [eapply keeps_wait_for_job; eassumption|]. destruct (jstatus_eqb (j_status j) Done).
  - destruct (remove_job 0 s2) as [s3| |] eqn:E3; cbn [rbind] in H; try discriminate. injection H as _ <-. eapply keeps_remove; exact E3.
  - destruct (add_job true s2) as [s3| |] eqn:E3; cbn [rbind] in H; try discriminate. injection H as _ <-. eapply keeps_add; exact E3.
Qed.
Lemma keeps_fg pf ko rs n s x s' : Forall (round_fine false) rs -> continue_fg pf ko rs n s = Ok (x, s') -> keeps false s s'.
Proof.
  intros F. unfold continue_fg. destruct (get_job s n) as [j|] eqn:G; [|discriminate]. destruct (negb _ || _); [discriminate|]. cbv zeta. set (s1 := if _ && ko then _ else s). assert (K : keeps false s s1).
  { subst s1. destruct (_ && ko); [|apply keeps_refl]. apply keeps_change; [apply pw_upd with (j := j); [exact change_refl|exact G|apply set_running_change]|]. apply valid_upd with j; [exact G|reflexivity]. }
  clearbody s1. destruct (wait_for_job rs n true false false s1) as [[sig s2]| |] eqn:E2; cbn [rbind]; try discriminate. assert (K2 : keeps false s s2) by (eapply keeps_trans; [exact K|eapply keeps_wait_for_job; eassumption]).
  destruct (get_job s2 n) as [j2|]; [|discriminate]. destruct (j_status j2); try discriminate; (destruct (calc_status_of_job pf j2) as [y| |]; cbn [rbind]; try discriminate).
  - intros H. injection H as _ <-. eapply keeps_trans; [exact K2|apply keeps_current].
  - destruct (remove_job n s2) as [s3| |] eqn:E3; cbn [rbind]; try discriminate. intros H. injection H as _ <-. eapply keeps_trans; [exact K2|eapply keeps_remove; exact E3].
Qed.
Lemma keeps_wait_number k pf jc v rs n s x s' : Forall (round_fine k) rs -> wait_for_number pf jc v rs n s = Ok (x, s') -> keeps k s s'.
Proof.
  intros F. unfold wait_for_number. destruct (get_job s n) as [j|]; [|intros H; injection H as _ <-; apply keeps_refl]. destruct ((n =? 0) || j_legacy j); [intros H; injection H as _ <-; apply keeps_refl|].
  destruct (wait_for_job rs n jc jc true s) as [[sig s1]| |] eqn:E1; cbn [rbind]; try discriminate. pose proof (keeps_wait_for_job k _ _ _ _ _ _ _ _ F E1) as K. destruct (negb (sig =? 0)%Z); [intros H; injection H as _ <-; exact K|].
  destruct (deref (j_id j) s1) as [j1| |]; cbn [rbind]; try discriminate. destruct (calc_status_of_job pf j1) as [y| |]; cbn [rbind]; try discriminate. intros H. eapply keeps_trans; [exact K|]. destruct v.
  - destruct (print_job_status n false true s1) as [s2| |] eqn:E2; cbn [rbind] in H; try discriminate. injection H as _ <-. eapply keeps_print; exact E2.
  - destruct (jstatus_eqb (j_status j1) Done).
    + destruct (remove_job n s1) as [s2| |] eqn:E2; cbn [rbind] in H; try discriminate. injection H as _ <-. eapply keeps_remove; exact E2.
    + cbn [rbind] in H. injection H as _ <-. apply keeps_refl.
Qed.
Lemma keeps_reap k v i n s s' : reap v i n s = Ok s' -> keeps k s s'.
Proof.
  revert i s. induction n as [|n IH]; intros i s; cbn [reap]; [intros H; injection H as <-; apply keeps_refl|]. destruct (i <? length (jobs s)); [|intros H; injection H as <-; apply keeps_refl]. cbv zeta.
  destruct (if v then print_job_status i true false s else Ok s) as [s1| |] eqn:E1; cbn [rbind]; try discriminate. assert (K : keeps k s s1) by (destruct v; [eapply keeps_print; exact E1|injection E1 as <-; apply keeps_refl]).
  set (r := match get_job s i with Some j => _ | None => Ok s1 end). destruct r as [s2| |] eqn:E2; cbn [rbind]; try discriminate. intros H. eapply keeps_trans; [exact K|]. eapply keeps_trans; [|exact (IH (S i) s2 H)]. subst r.
  destruct (get_job s i) as [j|]; [destruct (j_legacy j || jstatus_eqb (j_status j) Done); [eapply keeps_remove; exact E2|]|]; injection E2 as <-; apply keeps_refl.
Qed.
Lemma keeps_wait_all k jc v rs s x s' : Forall (round_fine k) rs -> wait_all jc v rs s = Ok (x, s') -> keeps k s s'.
Proof.
  intros F. revert s. assert (R : forall s b s1, has_job jc v s = Ok (b, s1) -> keeps k s s1).
  { intros s b s1. unfold has_job. destruct (reap v 1 (length (jobs s)) s) as [s2| |] eqn:E; cbn [rbind]; try discriminate. intros H. injection H as _ <-. eapply keeps_reap; exact E. }
  induction F as [|r rs Hr F IH]; intros s; cbn [wait_all]; (destruct (has_job jc v s) as [[b s1]| |] eqn:E; cbn [rbind]; try discriminate); (destruct (negb b); [intros H; injection H as _ <-; eapply R; exact E|]); try discriminate.
  destruct (wait_for_sigchld r jc true s1) as [[sig s2]| |] eqn:E2; cbn [rbind]; try discriminate. assert (K : keeps k s s2) by (eapply keeps_trans; [eapply R; exact E|eapply keeps_round; eassumption]). destruct (negb (sig =? 0)%Z); [intros H; injection H as _ <-; exact K|]. intros H. eapply keeps_trans; [exact K|exact (IH s2 H)].
Qed.
Lemma keeps_cmd k c s s' : cmd_fine k c -> do_cmd c s = Ok s' -> keeps k s s'.
Proof.
  intros F E. destruct c; cbn [do_cmd cmd_fine] in *.
  - eapply keeps_op; eassumption.
  - destruct F. destruct (run_foreground _ _ _ _ _ s) as [[x s1]| |] eqn:E1; cbn [rbind] in E; try discriminate. injection E as <-. eapply keeps_foreground; eassumption.
  - destruct F as [-> F]. destruct (continue_fg _ _ _ _ s) as [[x s1]| |] eqn:E1; cbn [rbind] in E; try discriminate. injection E as <-. eapply keeps_fg; eassumption.
  - destruct (wait_for_number _ _ _ _ _ s) as [[x s1]| |] eqn:E1; cbn [rbind] in E; try discriminate. injection E as <-. eapply keeps_wait_number; eassumption.
  - destruct (wait_all _ _ _ s) as [[x s1]| |] eqn:E1; cbn [rbind] in E; try discriminate. injection E as <-. eapply keeps_wait_all; eassumption.
  - eapply keeps_jobs_all; exact E.
  - unfold disown_operand in E. destruct (find_operand L name s) as [| |n]; cbn [rbind] in E; try (injection E as <-; apply keeps_refl). destruct (remove_job n s) as [s1| |] eqn:E1; cbn [rbind] in E; try discriminate. injection E as <-. eapply keeps_remove; exact E1.
  - unfold disown_current in E. destruct ((cur s =? 0) || _); cbn [rbind] in E; [injection E as <-; apply keeps_refl|]. destruct (remove_job (cur s) s) as [s1| |] eqn:E1; cbn [rbind] in E; try discriminate. injection E as <-. eapply keeps_remove; exact E1.
Qed.
Lemma reach_good k s : reach k s -> good k s.
Proof. induction 1 as [|c s s' F R IH E]; [apply good_init|]. exact (proj1 (keeps_cmd k c s s' F E IH)). Qed.
Lemma leads_keeps s s' : leads s s' -> keeps false s s'.
Proof. induction 1 as [|c a b s F E H IH]; [apply keeps_refl|]. eapply keeps_trans; [eapply keeps_cmd; eassumption|exact IH]. Qed.

(** ** The discipline after commands that choose the current job anew *)
Lemma disciplined_ext s s' : (forall n, option_map j_status (get_job s' n) = option_map j_status (get_job s n)) -> cur s' = cur s -> prev s' = prev s -> disciplined s -> disciplined s'.
Proof.
  intros G E1 E2 [D1 D2 D3 D4 D5 D6].
  assert (J : forall n, is_job s' n <-> is_job s n).
  { intros n. split; intros [j [H1 H2]]; apply get_job_at in H2; specialize (G n); rewrite H2 in G.
    - destruct (get_job s n) as [i|] eqn:E; [|discriminate]. exists i. split; [exact H1|now apply get_job_at].
    - destruct (get_job s' n) as [i|] eqn:E; [|discriminate]. exists i. split; [exact H1|now apply get_job_at]. }
  assert (S : forall n, stopped s' n <-> stopped s n).
  { intros n. split; intros (j & [H1 H2] & H3); apply get_job_at in H2; specialize (G n); rewrite H2 in G; cbn in G; rewrite H3 in G.
    - destruct (get_job s n) as [i|] eqn:E; [|discriminate]. cbn in G. exists i. split; [split; [exact H1|now apply get_job_at]|congruence].
    - destruct (get_job s' n) as [i|] eqn:E; [|discriminate]. cbn in G. exists i. split; [split; [exact H1|now apply get_job_at]|congruence]. }
  constructor; rewrite ?E1, ?E2.
  - rewrite J. exact D1.
  - intros n. rewrite J. apply D2.
  - rewrite J. exact D3.
  - intros n m N. rewrite !J. now apply D4.
  - intros n. rewrite !S. apply D5.
  - intros n m N. rewrite !S. now apply D6.
Qed.
Lemma no_foreground_get s : no_foreground s <-> get_job s 0 = None.
Proof. unfold no_foreground. rewrite get_job_none. reflexivity. Qed.
Definition refreshed (s : st) : Prop := exists k s0, s = set_current_jobnumber k s0.
Lemma refreshed_disciplined s : refreshed s -> no_foreground s -> disciplined s.
Proof.
  intros (k & s0 & ->) H. apply set_current_disciplined. rewrite no_foreground_get in *. now rewrite set_current_get in H.
Qed.
Lemma remove_refreshed n s s' : remove_job n s = Ok s' -> refreshed s'.
Proof.
  unfold remove_job. destruct (rset (jobs s) n None); cbn [rbind]; try discriminate. destruct (trim_joblist _) as [t| |]; cbn [rbind]; try discriminate. intros H. injection H as <-. red. eauto.
Qed.
Lemma remove_at n s s' : remove_job n s = Ok s' -> n < length (jobs s).
Proof. unfold remove_job, rset. destruct (Nat.ltb_spec n (length (jobs s))); [auto|discriminate]. Qed.
Lemma remove_foreground n s s' : remove_job n s = Ok s' -> no_foreground s -> no_foreground s'.
Proof.
  intros E H. destruct (remove_ok n s (remove_at n s s' E)) as (s1 & E1 & _ & G & _). rewrite E in E1. injection E1 as <-. rewrite no_foreground_get in *. rewrite G. destruct (0 =? n); [reflexivity|exact H].
Qed.
Lemma print_disciplined n c r s s' : 1 <= n -> print_job_status n c r s = Ok s' -> no_foreground s -> no_foreground s' /\ (disciplined s -> disciplined s').
Proof.
  intros Hn E N. assert (X : print_job_status n c false s = Ok s' -> no_foreground s' /\ (disciplined s -> disciplined s')).
  { clear E. intros E. destruct (print_keeps n c s) as (s1 & E1 & _ & H2 & H3 & _ & G). rewrite E in E1. injection E1 as <-. split.
    - rewrite no_foreground_get in *. destruct (G 0) as [H|(H & _)]; [congruence|lia].
    - apply disciplined_ext; [|exact H2|exact H3]. intros m. destruct (G m) as [->|(_ & j & -> & ->)]; reflexivity. }
  destruct r; [|exact (X E)]. pose proof E as E'. unfold print_job_status in E. destruct (get_job s n) as [j|] eqn:Gj; [|injection E as <-; auto]. destruct (j_nonotify j) eqn:EN; [injection E as <-; auto|]. destruct (c && negb (j_changed j)) eqn:EC; [injection E as <-; auto|]. cbn [andb] in E.
  destruct (jstatus_eqb (j_status j) Done) eqn:ED; [|apply X; unfold print_job_status; rewrite Gj, EN, EC; exact E]. clear X. assert (Y : no_foreground s').
  { eapply remove_foreground; [exact E|]. rewrite no_foreground_get in *. change (get_job (with_jobs (upd (jobs s) n (Some (with_changed false j))) s) 0 = None). rewrite upd_get by (eapply get_job_bound; exact Gj). destruct (Nat.eqb_spec 0 n); [lia|exact N]. }
  split; [exact Y|]. intros _. apply refreshed_disciplined; [eapply remove_refreshed; exact E|exact Y].
Qed.
Lemma print_from_disciplined c r i k s s' : 1 <= i -> print_from (fun i => print_job_status i c r) i k s = Ok s' -> no_foreground s -> no_foreground s' /\ (disciplined s -> disciplined s').
Proof.
  revert i s. induction k as [|k IH]; intros i s Hi; cbn [print_from]; [intros H; injection H as <-; auto|]. destruct (i <? length (jobs s)); [|intros H; injection H as <-; auto].
  destruct (print_job_status i c r s) as [s1| |] eqn:E; cbn [rbind]; try discriminate. intros H N. destruct (print_disciplined i c r s s1 Hi E N) as [N1 D1]. destruct (IH (S i) s1 ltac:(lia) H N1) as [N2 D2]. auto.
Qed.
Lemma curstop_disciplined b s : no_foreground s -> no_foreground (apply_curstop b s) /\ disciplined (apply_curstop b s).
Proof.
  intros H. assert (N : no_foreground (apply_curstop b s)) by (rewrite no_foreground_get in *; now rewrite curstop_get). split; [exact N|]. apply refreshed_disciplined; [|exact N]. unfold apply_curstop. cbv zeta. red. eauto.
Qed.
(** Waiting without executing traps only notes what has been reported. *)
Lemma pw_modify id b s s' : modify id (with_nonotify b) s = Ok s' -> pw fair s s'.
Proof.
  unfold modify. destruct (deref id s); cbn [rbind]; try discriminate. intros H. injection H as <-.
  apply (pw_map fair (fun k => if j_id k =? id then with_nonotify b k else k)). intros x. destruct (j_id x =? id); [apply flags_fair; auto|apply fair_refl].
Qed.
Lemma pw_loop rs id a i s x s' : wait_loop rs id a i false s = Ok (x, s') -> pw fair s s'.
Proof.
  revert s. induction rs as [|r rs IH]; intros s; cbn [wait_loop]; (destruct (deref id s) as [j| |]; cbn [rbind]; try discriminate);
    (destruct (jstatus_eqb (j_status j) Done); [intros H; injection H as _ <-; apply pw_refl, fair_refl|]); (destruct (a && jstatus_eqb (j_status j) Stopped); [intros H; injection H as _ <-; apply pw_refl, fair_refl|]); try discriminate.
  destruct (wait_for_sigchld r i false s) as [[sig s1]| |] eqn:E; cbn [rbind]; try discriminate. assert (K : pw fair s s1).
  { unfold wait_for_sigchld in E. destruct (rd_trap r) as [[y ops]|]; cbn [rbind] in E; (destruct (handle_sigchld _ _ _ s) as [s2| |] eqn:E2; cbn [rbind] in E; try discriminate); injection E as _ <-; eapply pw_sigchld; exact E2. }
  destruct (negb (sig =? 0)%Z); [intros H; injection H as _ <-; exact K|]. intros H. eapply pw_trans; [exact fair_trans|exact K|exact (IH s1 H)].
Qed.
Lemma pw_wait_for_job rs n a i s x s' : wait_for_job rs n a i false s = Ok (x, s') -> pw fair s s'.
Proof.
  unfold wait_for_job. destruct (get_job s n) as [j|]; [|discriminate]. destruct (j_legacy j); [intros H; injection H as _ <-; apply pw_refl, fair_refl|].
  destruct (modify (j_id j) (with_nonotify true) s) as [s1| |] eqn:E1; cbn [rbind]; try discriminate. destruct (wait_loop rs (j_id j) a i false s1) as [[sig s2]| |] eqn:E2; cbn [rbind]; try discriminate.
  destruct (modify (j_id j) (with_nonotify (j_nonotify j)) s2) as [s3| |] eqn:E3; cbn [rbind]; try discriminate. intros H. injection H as _ <-.
  apply pw_trans with s1; [exact fair_trans|eapply pw_modify; exact E1|]. apply pw_trans with s2; [exact fair_trans|eapply pw_loop; exact E2|eapply pw_modify; exact E3].
Qed.
(** Commands after which the current job has been chosen anew *)
Definition chooses (c : cmd) : Prop :=
  match c with
  | COp o => match o with OAdd _ | ORemove _ | ORemoveAll | OCurstop _ | OPrintAll _ | OContinue _ _ => True | _ => False end
  | CPipeline _ _ _ _ _ | CFg _ _ _ _ | CJobs _ => True
  | _ => False
  end.
Lemma no_foreground_back b s : no_foreground (apply_curstop b s) -> no_foreground s.
Proof. rewrite !no_foreground_get. now rewrite curstop_get. Qed.
Lemma chooses_disciplined c s s' : chooses c -> inv s -> do_cmd c s = Ok s' -> no_foreground s -> no_foreground s' /\ disciplined s' \/ exists b, c = COp (OAdd b).
Proof.
  intros C I E N. destruct c as [o|jc pf pgid ps rs|pf ko rs n|?|?|b|?|]; cbn [chooses do_cmd] in *; try contradiction.
  - destruct o; cbn [do_op] in E; try contradiction.
    + right. eauto.
    + left. assert (Y : no_foreground s') by (eapply remove_foreground; eassumption). split; [exact Y|]. apply refreshed_disciplined; [eapply remove_refreshed; exact E|exact Y].
    + left. destruct (remove_all_ok s (in_len _ I)) as (s1 & E1 & _ & G & _ & H1 & H2). rewrite E in E1. injection E1 as <-. assert (Y : no_foreground s') by (apply no_foreground_get; apply G). split; [exact Y|].
      assert (J : forall n, ~ is_job s' n). { intros n (j & _ & H). apply get_job_at in H. congruence. } assert (S : forall n, ~ stopped s' n) by (intros n H; exact (J n (stopped_is_job _ _ H))).
      constructor; [auto|intros n H; destruct (J n H)|auto|intros n m _ H; destruct (J n H)|intros n H; destruct (S n H)|intros n m _ H; destruct (S n H)].
    + left. injection E as <-. now apply curstop_disciplined.
    + left. unfold print_job_status_all in E. cbv zeta in E. destruct (curstop_disciplined curstop s N) as [N1 D1]. eapply print_from_disciplined in E as [N2 D2]; [auto|lia|exact N1].
    + left. unfold continue_bg in E. destruct (get_job s n) as [j|] eqn:G; [|discriminate]. destruct (negb _ || _); [discriminate|]. cbv zeta in E. injection E as <-.
      match goal with |- no_foreground ?t /\ _ => assert (Y : no_foreground t) end.
      { rewrite no_foreground_get in *. rewrite set_current_get. destruct (jstatus_eqb (j_status j) Done); [exact N|]. rewrite upd_get by (eapply get_job_bound; exact G). destruct (Nat.eqb_spec 0 n) as [<-|]; [congruence|exact N]. }
      split; [exact Y|]. apply refreshed_disciplined; [red; eauto|exact Y].
  - left. destruct (run_foreground jc pf pgid ps rs s) as [[x s1]| |] eqn:E1; cbn [rbind] in E; try discriminate. injection E as <-. unfold run_foreground in E1.
    destruct (new_job _ true ps s) as [s2| |]; cbn [rbind] in E1; try discriminate. destruct (wait_for_job rs 0 jc false false s2) as [[sig s3]| |]; cbn [rbind] in E1; try discriminate. destruct (get_job s3 0) as [j|] eqn:G; [|discriminate]. destruct (calc_status_of_job pf j) as [y| |]; cbn [rbind] in E1; try discriminate.
    destruct (jstatus_eqb (j_status j) Done).
    + destruct (remove_job 0 s3) as [s4| |] eqn:E4; cbn [rbind] in E1; try discriminate. injection E1 as _ <-. destruct (remove_ok 0 s3 (remove_at _ _ _ E4)) as (s5 & E5 & _ & G5 & _). rewrite E4 in E5. injection E5 as <-. assert (Y : no_foreground s4) by (apply no_foreground_get; now rewrite G5).
      split; [exact Y|]. apply refreshed_disciplined; [eapply remove_refreshed; exact E4|exact Y].
    + destruct (add_job true s3) as [s4| |] eqn:E4; cbn [rbind] in E1; try discriminate. injection E1 as _ <-. apply get_job_at in G. destruct (add_ok true s3 j G) as (n & s5 & E5 & A & R). rewrite E4 in E5. injection E5 as <-. assert (Y : no_foreground s4) by (apply no_foreground_get; exact (ad_fg _ _ _ _ A)).
      split; [exact Y|]. apply refreshed_disciplined; [exact R|exact Y].
  - left. destruct (continue_fg pf ko rs n s) as [[x s1]| |] eqn:E1; cbn [rbind] in E; try discriminate. injection E as <-. unfold continue_fg in E1. destruct (get_job s n) as [j|] eqn:G; [|discriminate]. destruct (negb _ || _); [discriminate|]. cbv zeta in E1.
    set (s2 := if _ && ko then _ else s) in E1. assert (N2 : no_foreground s2).
    { subst s2. destruct (_ && ko); [|exact N]. rewrite no_foreground_get in *. rewrite upd_get by (eapply get_job_bound; exact G). destruct (Nat.eqb_spec 0 n) as [<-|]; [congruence|exact N]. }
    clearbody s2. destruct (wait_for_job rs n true false false s2) as [[sig s3]| |] eqn:E3; cbn [rbind] in E1; try discriminate.
    assert (N3 : no_foreground s3).
    { intros i H. destruct (pw_wait_for_job _ _ _ _ _ _ _ E3) as (_ & _ & P). destruct (P 0 i H) as (i0 & H0 & _). exact (N2 i0 H0). }
    destruct (get_job s3 n) as [j2|] eqn:G3; [|discriminate]. destruct (j_status j2); try discriminate; (destruct (calc_status_of_job pf j2) as [y| |]; cbn [rbind] in E1; try discriminate).
    + injection E1 as _ <-. split; [rewrite no_foreground_get in *; now rewrite set_current_get|]. now apply set_current_disciplined.
    + destruct (remove_job n s3) as [s4| |] eqn:E4; cbn [rbind] in E1; try discriminate. injection E1 as _ <-. assert (Y : no_foreground s4) by (eapply remove_foreground; eassumption). split; [exact Y|]. apply refreshed_disciplined; [eapply remove_refreshed; exact E4|exact Y].
  - left. unfold jobs_all in E. cbv zeta in E. destruct (curstop_disciplined b s N) as [N1 D1]. eapply print_from_disciplined in E as [N2 D2]; [auto|lia|exact N1].
Qed.
