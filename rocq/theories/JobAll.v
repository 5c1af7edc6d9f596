(** wait without operands returns when all processes have ended *)
From Coq Require Import List NArith ZArith Bool Arith Lia.
From Verif Require Import Common Locale JobModel JobSpec JobProofs JobHist JobWait JobRun JobEnd.
Import ListNotations.
Open Scope res_scope.

Definition flag (j j' : job) : Prop := j' = j \/ j' = with_changed false j.
Lemma flag_refl j : flag j j.
Proof. now left. Qed.
Lemma flag_trans a b c : flag a b -> flag b c -> flag a c.
Proof. intros [-> | ->] [-> | ->]; unfold flag; auto. Qed.
Lemma flag_fair a b : flag a b -> fair a b.
Proof. intros [-> | ->]; [apply fair_refl|apply flags_fair; auto]. Qed.
Lemma reap_step (v : bool) i s : jobs s <> [] -> i < length (jobs s) -> exists s1 s2,
  (if v then print_job_status i true false s else Ok s) = Ok s1 /\
  (match get_job s i with Some j => if j_legacy j || jstatus_eqb (j_status j) Done then remove_job i s1 else Ok s1 | None => Ok s1 end) = Ok s2 /\
  pw flag s s2 /\ forall j, job_at s2 i j -> j_legacy j = false /\ j_status j <> Done.
Proof.
  intros N Hi. assert (X : exists s1, (if v then print_job_status i true false s else Ok s) = Ok s1 /\ pw flag s s1 /\ length (jobs s1) = length (jobs s)).
  { destruct v; [|exists s; split; [reflexivity|]; split; [apply pw_refl, flag_refl|reflexivity]]. destruct (print_keeps i true s) as (s1 & -> & H1 & _ & _ & H2 & H3). exists s1. split; [reflexivity|]. split; [|exact H2]. split; [exact H1|]. split; [intros _ E; rewrite E in H2; cbn in H2; lia|].
    intros n j' A. apply get_job_at in A. destruct (H3 n) as [E|(_ & j & E1 & E2)].
    - exists j'. rewrite E in A. split; [now apply get_job_at|apply flag_refl].
    - exists j. split; [now apply get_job_at|]. right. congruence. }
  destruct X as (s1 & E1 & P1 & L1). exists s1. rewrite E1.
  assert (K : forall j', job_at s1 i j' -> exists j, get_job s i = Some j /\ flag j j'). { intros j' A. destruct P1 as (_ & _ & P1). destruct (P1 i j' A) as (j & Hj & F). exists j. split; [now apply get_job_at|exact F]. }
  destruct (get_job s i) as [j|] eqn:G.
  - destruct (j_legacy j || jstatus_eqb (j_status j) Done) eqn:C.
    + destruct (remove_ok i s1) as (s2 & -> & R1 & R2 & R3 & _); [lia|]. exists s2. split; [reflexivity|]. split; [reflexivity|]. split.
      * apply pw_trans with s1; [exact flag_trans|exact P1|]. split; [exact R3|]. split; [auto|]. intros n k A. apply get_job_at in A. rewrite R2 in A. destruct (n =? i); [discriminate|]. exists k. split; [now apply get_job_at|apply flag_refl].
      * intros k A. apply get_job_at in A. rewrite R2, Nat.eqb_refl in A. discriminate.
    + exists s1. split; [reflexivity|]. split; [reflexivity|]. split; [exact P1|]. intros k A. destruct (K k A) as (j0 & E & F). injection E as <-. apply orb_false_iff in C as [C1 C2]. destruct (jstatus_eqb_spec (j_status j) Done); [discriminate|]. destruct F as [-> | ->]; auto.
  - exists s1. split; [reflexivity|]. split; [reflexivity|]. split; [exact P1|]. intros k A. destruct (K k A) as (j0 & E & _). discriminate.
Qed.
Lemma reap_ok v i k s : jobs s <> [] -> length (jobs s) <= i + k -> exists s', reap v i k s = Ok s' /\ pw flag s s' /\ forall n j, i <= n -> job_at s' n j -> j_legacy j = false /\ j_status j <> Done.
Proof.
  revert i s. induction k as [|k IH]; intros i s N B; cbn [reap].
  - exists s. split; [reflexivity|]. split; [apply pw_refl, flag_refl|]. intros n j Hn A. apply get_job_at, get_job_bound in A. lia.
  - destruct (Nat.ltb_spec i (length (jobs s))) as [Hi|Hi].
    2:{ exists s. split; [reflexivity|]. split; [apply pw_refl, flag_refl|]. intros n j Hn A. apply get_job_at, get_job_bound in A. lia. }
    cbv zeta. destruct (reap_step v i s N Hi) as (s1 & s2 & E1 & E2 & P & C). rewrite E1. cbn [rbind]. rewrite E2. cbn [rbind].
    assert (N2 : jobs s2 <> []) by (apply P; exact N). assert (L2 : length (jobs s2) <= length (jobs s)).
    { assert (L1 : length (jobs s1) = length (jobs s)). { destruct v; [|injection E1 as <-; reflexivity]. destruct (print_keeps i true s) as (t & Et & _ & _ & _ & H2 & _). rewrite E1 in Et. injection Et as <-. exact H2. }
      rewrite <- L1. destruct (get_job s i) as [j|]; [destruct (j_legacy j || jstatus_eqb (j_status j) Done)|]; [|injection E2 as <-; lia..]. unfold remove_job in E2. destruct (rset (jobs s1) i None) as [l| |] eqn:Er; cbn [rbind] in E2; try discriminate. unfold rset in Er. destruct (Nat.ltb_spec i (length (jobs s1))); [injection Er as <-|discriminate].
      unfold trim_joblist in E2. cbn [jobs with_jobs cap] in E2. destruct (_ && _); cbn [rbind] in E2.
      - injection E2 as <-. rewrite set_current_jobs. cbn [jobs]. rewrite length_upd. lia.
      - assert (T : forall l, length (trim_tail l) <= length l) by (clear; induction l as [|o l IH]; cbn [trim_tail]; [lia|]; destruct o; [cbn [length]; lia|]; destruct (trim_tail l); cbn [length] in *; lia).
        destruct (upd (jobs s1) i None) as [|o l] eqn:El; cbn [rbind] in E2; [discriminate|]. injection E2 as <-. rewrite set_current_jobs. cbn [jobs with_jobs length]. rewrite <- (length_upd _ (jobs s1) i None), El. cbn [length]. specialize (T l). lia. }
    destruct (IH (S i) s2 N2) as (s' & E & P' & C'); [lia|]. exists s'. split; [exact E|]. split; [eapply pw_trans; [exact flag_trans|exact P|exact P']|]. intros n j Hn A. destruct (Nat.eq_dec n i) as [->|Ne]; [|apply (C' n); [lia|exact A]].
    destruct P' as (_ & _ & P'). destruct (P' i j A) as (j2 & A2 & F). destruct (C j2 A2). destruct F as [-> | ->]; auto.
Qed.
(** Every job that remains has been followed. *)
Definition all_followed (s0 : st) (evs : list (Z * wstatus)) (s : st) : Prop :=
  inv s /\ forall n j, job_at s n j -> exists j0, job_at s0 n j0 /\ followed n (j_id j0) (j_procs j0) evs s j.
Lemma all_followed_init s : inv s -> all_honest s -> separate s -> all_followed s [] s.
Proof.
  intros I H U. split; [exact I|]. intros n j A. exists j. split; [exact A|]. constructor; auto.
  - clear. induction (j_procs j); constructor; [apply track_refl|assumption].
  - exact (H n j A).
  - intros i k p q Hi Hk Ep Eq E. exact (proj2 (U n n j j i k p q A A Hi Hk Ep Eq E)).
  - intros i j0 p q Hi Hj Ip Iq Ep Eq E. apply In_nth_error in Ip as (a & Ip), Iq as (b & Iq). pose proof (proj1 (U i n j0 j a b p q Hj A Ip Iq Ep Eq E)). lia.
Qed.
Lemma all_followed_flag s0 evs s s' : all_followed s0 evs s -> pw flag s s' -> all_followed s0 evs s'.
Proof.
  intros [I F] P. assert (Pf : pw fair s s') by (eapply pw_weak; [exact flag_fair|exact P]). split; [eapply pw_inv; [eapply pw_weak; [exact fair_change|exact Pf]|exact I]|].
  intros n j' A. pose proof P as (_ & _ & P'). destruct (P' n j' A) as (j & Aj & Fl). destruct (F n j Aj) as (j0 & A0 & F0). exists j0. split; [exact A0|]. eapply followed_change; [exact F0|exact Pf|exact A| | |]; destruct Fl as [-> | ->]; reflexivity.
Qed.
Lemma all_followed_sigchld s0 evs s e a b s' : all_followed s0 evs s -> handle_sigchld e a b s = Ok s' -> all_followed s0 (evs ++ match e with Some l => reported l | None => [] end) s'.
Proof.
  intros [I F] E. pose proof (pw_sigchld _ _ _ _ _ E) as P. split; [eapply pw_inv; [eapply pw_weak; [exact fair_change|exact P]|exact I]|].
  intros n j' A. destruct P as (_ & _ & P). destruct (P n j' A) as (j & Aj & _). destruct (F n j Aj) as (j0 & A0 & F0). exists j0. split; [exact A0|]. destruct (followed_sigchld _ _ _ _ _ _ _ _ _ _ F0 E) as (_ & j2 & F2). assert (j2 = j') by (pose proof (fo_at _ _ _ _ _ _ F2) as X; unfold job_at in *; congruence). now subst j2.
Qed.
Lemma wait_all_followed v rs s0 evs s : Forall (fun r => rd_trap r = None) rs -> all_followed s0 evs s ->
  (exists s', wait_all false v rs s = Ok (0%Z, s') /\ forall n, ~ is_job s' n) \/
  (wait_all false v rs s = Fuel /\ exists n j p, listed s0 n j /\ In p (j_procs j) /\ ~ ended p /\ no_fate (pr_pid p) (evs ++ all_events rs)).
Proof.
  intros C. revert evs s. induction C as [|r rs Hr C IH]; intros evs s F; cbn [wait_all]; unfold has_job;
    (destruct (reap_ok v 1 (length (jobs s)) s) as (s1 & -> & P & D); [apply F|lia|]); cbn [rbind]; pose proof (all_followed_flag _ _ _ _ F P) as F1; set (b := existsb _ _);
    (assert (Hb : b = true -> exists n j, listed s1 n j) by (subst b; intros X; apply existsb_exists in X as (o & Io & Ho); destruct o as [j|]; [|discriminate]; apply In_nth_error in Io as (n & Io); exists (S n), j; split; [lia|]; unfold job_at; destruct (jobs s1); [destruct n; discriminate|exact Io]));
    (assert (Hb' : b = false -> forall n, ~ is_job s1 n) by (subst b; intros X n (j & [Hn A]); unfold job_at in A; destruct (jobs s1) as [|o l]; [destruct n; discriminate|]; destruct n as [|n]; [lia|]; cbn in A, X; assert (Y : existsb (fun o : option job => match o with Some _ => true | None => false end) l = true) by (apply existsb_exists; exists (Some j); split; [eapply nth_error_In; exact A|reflexivity]); cbn in X; congruence));
    clearbody b; (destruct b; cbn [negb]; [|left; exists s1; auto]).
  - right. split; [reflexivity|]. destruct (Hb eq_refl) as (n & j & [Hn A]). destruct F1 as [I1 F1]. destruct (F1 n j A) as (j0 & A0 & F0). destruct (D n j Hn A) as [_ Dj]. pose proof (followed_undone _ _ _ _ _ _ F0 Dj) as X. apply Exists_exists in X as (p & Ip & E1 & E2). exists n, j0, p. cbn [all_events flat_map]. rewrite app_nil_r. split; [split; assumption|auto].
  - assert (Cr : calm false true r) by (split; [now right|now left]). destruct (calm_wait r false true s1 Cr) as (s2 & E2 & ->). cbn [rbind Z.eqb negb]. pose proof (all_followed_sigchld _ _ _ _ _ _ _ F1 E2) as F2. destruct (IH _ _ F2) as [X|(X1 & n & j & p & X2 & X3 & X4 & X5)]; [now left|]. right. split; [exact X1|]. exists n, j, p. rewrite <- app_assoc in X5. auto.
Qed.
