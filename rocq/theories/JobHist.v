(** Histories of the job list: what every operation preserves *)
From Coq Require Import List NArith ZArith Bool Arith Lia.
From Verif Require Import Common Locale JobModel JobSpec JobProofs.
Import ListNotations.
Open Scope res_scope.

Lemma set_current_valid n s : let s' := set_current_jobnumber n s in (cur s' = 0 \/ is_job s' (cur s')) /\ (prev s' = 0 \/ is_job s' (prev s')).
Proof.
  cbv zeta. rewrite set_current_eq. cbv zeta. set (m := if negb _ then _ else _). clearbody m.
  assert (B1 : forall k, bad1 s k = false -> k = 0 \/ is_job s k).
  { intros k H. unfold bad1 in H. destruct (get_job s k) eqn:E; [|discriminate]. destruct k; [now left|right]. apply is_job_get; [lia|now rewrite E]. }
  assert (B2 : forall c k, bad2 s c k = false -> k = 0 \/ is_job s k).
  { intros c k H. unfold bad2 in H. destruct (get_job s k) eqn:E; [|discriminate]. destruct k; [now left|right]. apply is_job_get; [lia|now rewrite E]. }
  assert (F : forall excl t, jobs t = jobs s -> find_next_job excl t = 0 \/ is_job s (find_next_job excl t)).
  { intros excl t E. assert (G : forall k, get_job t k = get_job s k) by (intros k; unfold get_job; now rewrite E). unfold find_next_job. destruct (negb (prev t =? excl) && is_stopped (get_job t (prev t))) eqn:X.
    - apply andb_true_iff in X as [_ X]. destruct (prev t) as [|k]; [now left|right]. rewrite G in X. apply stopped_get in X; [|lia]. now apply stopped_is_job.
    - destruct (highest t excl is_stopped (length (jobs t) - 1)) as [k|] eqn:Y.
      + apply highest_some in Y as (H1 & _ & H2). rewrite G in H2. right. apply stopped_is_job, stopped_get; assumption.
      + destruct (highest t excl exists_job (length (jobs t) - 1)) as [k|] eqn:Z; [|now left].
        apply highest_some in Z as (H1 & _ & H2). rewrite G in H2. right. apply is_job_get; assumption. }
  assert (P1 : pick1 n s = 0 \/ is_job s (pick1 n s)).
  { unfold pick1. destruct (bad1 s n) eqn:E1; [|now apply B1]. destruct (bad1 s (cur s)) eqn:E2; [|now apply B1]. destruct (bad1 s (prev s)) eqn:E3; [|now apply B1]. now apply F. }
  split; [exact P1|].
  change (pick2 m (pick1 n s) s = 0 \/ is_job s (pick2 m (pick1 n s) s)). unfold pick2.
  destruct (bad2 s (pick1 n s) m) eqn:E1; [|eapply B2; exact E1]. destruct (bad2 s (pick1 n s) (prev s)) eqn:E2; [|eapply B2; exact E2]. now apply F.
Qed.

(** ** Adding and removing *)
Lemma first_empty_some k l n : first_empty k l = Some n -> k <= n < k + length l /\ nth_error l (n - k) = Some None /\ forall m, k <= m < n -> exists j, nth_error l (m - k) = Some (Some j).
Proof.
  revert k. induction l as [|[j|] l IH]; intros k; cbn [first_empty]; [discriminate| |].
  - intros H. apply IH in H as (H1 & H2 & H3). cbn [length]. split; [lia|]. replace (n - k) with (S (n - S k)) by lia. split; [exact H2|].
    intros m Hm. destruct (Nat.eq_dec m k) as [->|N]; [exists j; now rewrite Nat.sub_diag|]. replace (m - k) with (S (m - S k)) by lia. apply H3. lia.
  - intros H. injection H as <-. cbn [length]. split; [lia|]. rewrite Nat.sub_diag. split; [reflexivity|]. intros m Hm. lia.
Qed.
Lemma first_empty_none k l : first_empty k l = None -> forall m, m < length l -> exists j, nth_error l m = Some (Some j).
Proof.
  revert k. induction l as [|[j|] l IH]; intros k; cbn [first_empty length]; [lia| |discriminate].
  intros H m Hm. destruct m as [|m]; [now exists j|]. apply (IH _ H). lia.
Qed.
Record added (s : st) (j : job) (n : nat) (s' : st) : Prop := {
  ad_pos : 1 <= n;
  ad_free : ~ is_job s n;
  ad_least : forall m, 1 <= m < n -> is_job s m;
  ad_there : job_at s' n j;
  ad_others : forall m, 1 <= m -> m <> n -> get_job s' m = get_job s m;
  ad_fg : get_job s' 0 = None;
  ad_next : next_id s' = next_id s;
  ad_len : jobs s' <> []
}.
Lemma added_current s j n s' k : added s j n s' -> added s j n (set_current_jobnumber k s').
Proof.
  intros [A1 A2 A3 A4 A5 A6 A7 A8]. constructor; try assumption.
  - unfold job_at. now rewrite set_current_jobs.
  - intros m. rewrite set_current_get. apply A5.
  - now rewrite set_current_get.
  - now rewrite set_current_next.
  - now rewrite set_current_jobs.
Qed.
Lemma add_ok current s j : job_at s 0 j -> exists n s', add_job current s = Ok s' /\ added s j n s' /\
  (exists k s0, s' = set_current_jobnumber k s0).
Proof.
  unfold job_at, add_job. destruct (jobs s) as [|o l] eqn:El; [discriminate|]. intros H. cbn in H. injection H as ->.
  assert (X : exists n s0, (match first_empty 1 l with
      | Some n => (n, with_jobs (upd (None :: l) n (Some j)) s)
      | None => (length (Some j :: l), mkSt (None :: l ++ [Some j]) (grow (cap s) (length (Some j :: l))) (cur s) (prev s) (next_id s) (out s)) end) = (n, s0) /\ added s j n s0).
  { destruct (first_empty 1 l) as [n|] eqn:E.
    - apply first_empty_some in E as (H1 & H2 & H3). exists n, (with_jobs (upd (None :: l) n (Some j)) s). split; [reflexivity|].
      assert (U : forall m, m <> n -> nth_error (upd (None :: l) n (Some j)) m = nth_error (None :: l) m) by (intros m N; apply nth_error_upd_neq; congruence).
      assert (V : nth_error (upd (None :: l) n (Some j)) n = Some (Some j)) by (apply nth_error_upd_eq; cbn [length]; lia).
      constructor; cbn [jobs with_jobs next_id]; [lia| | |exact V| | |reflexivity|].
      + intros (j' & _ & K). unfold job_at in K. rewrite El in K. replace n with (S (n - 1)) in K by lia. cbn in K. congruence.
      + intros m Hm. destruct (H3 m ltac:(lia)) as (j' & K). exists j'. split; [lia|]. unfold job_at. rewrite El. replace m with (S (m - 1)) by lia. exact K.
      + intros m Hm N. unfold get_job. cbn [jobs with_jobs]. rewrite U by exact N. rewrite El. destruct m; [lia|]. reflexivity.
      + unfold get_job. cbn [jobs with_jobs]. rewrite U by lia. reflexivity.
      + destruct n; [lia|]. discriminate.
    - pose proof (first_empty_none _ _ E) as H1. eexists _, _. split; [reflexivity|].
      assert (V : nth_error (None :: l ++ [Some j]) (length (Some j :: l)) = Some (Some j)) by (cbn [length nth_error]; rewrite nth_error_app2, Nat.sub_diag by lia; reflexivity).
      constructor; cbn [jobs next_id]; [cbn [length]; lia| | |exact V| |reflexivity|reflexivity|discriminate].
      + intros (j' & _ & K). unfold job_at in K. rewrite El in K. assert (length (Some j :: l) < length (Some j :: l)); [|lia]. apply nth_error_Some. congruence.
      + intros m Hm. cbn [length] in Hm. destruct (H1 (m - 1) ltac:(lia)) as (j' & K). exists j'. split; [lia|]. unfold job_at. rewrite El. replace m with (S (m - 1)) by lia. exact K.
      + intros m Hm N. unfold get_job. cbn [jobs]. rewrite El. destruct m as [|m]; [lia|]. cbn [length nth_error] in *. destruct (le_lt_dec (length l) m) as [K|K].
        * rewrite nth_error_app2 by exact K. assert (m - length l <> 0) by lia. destruct (m - length l) as [|[|q]]; [lia| |]; cbn; rewrite (proj2 (nth_error_None l m)) by exact K; reflexivity.
        * now rewrite nth_error_app1 by exact K. }
  destruct X as (n & s0 & E & A). rewrite E. assert (G : get_job s0 n = Some j) by (apply get_job_at, (ad_there _ _ _ _ A)). rewrite G, Nat.eqb_refl. cbn [negb].
  exists n. destruct (jstatus_eqb (j_status j) Stopped || current).
  - eexists. split; [reflexivity|]. split; [now apply added_current|eauto].
  - eexists. split; [reflexivity|]. split; [now apply added_current|eauto].
Qed.

Lemma trim_tail_nth l n : match nth_error (trim_tail l) n with Some o => o | None => None end = match nth_error l n with Some o => o | None => None end.
Proof.
  revert n. induction l as [|o l IH]; intros n; [reflexivity|]. cbn [trim_tail].
  assert (X : match nth_error (o :: trim_tail l) n with Some o => o | None => None end = match nth_error (o :: l) n with Some o => o | None => None end) by (destruct n; [reflexivity|apply IH]).
  destruct o as [j|]; [exact X|]. destruct (trim_tail l) eqn:E; [|exact X]. rewrite <- X. destruct n; [reflexivity|]. destruct n; reflexivity.
Qed.
Lemma trim_ok s : jobs s <> [] -> exists s', trim_joblist s = Ok s' /\ jobs s' <> [] /\ (forall n, get_job s' n = get_job s n) /\ next_id s' = next_id s /\ cur s' = cur s /\ prev s' = prev s /\ out s' = out s.
Proof.
  intros H. unfold trim_joblist. destruct ((20 <? cap s) && (length (jobs s) <? cap s / 2)).
  - eexists. split; [reflexivity|]. auto 10.
  - destruct (jobs s) as [|o l] eqn:E; [congruence|]. eexists. split; [reflexivity|]. split; [discriminate|]. split; [|auto].
    intros n. unfold get_job. cbn [jobs with_jobs]. rewrite E. destruct n; [reflexivity|]. cbn [nth_error]. apply trim_tail_nth.
Qed.
Lemma upd_get s n o m : n < length (jobs s) -> get_job (with_jobs (upd (jobs s) n o) s) m = if m =? n then o else get_job s m.
Proof.
  intros H. unfold get_job. cbn [jobs with_jobs]. destruct (Nat.eqb_spec m n) as [->|N]; [now rewrite nth_error_upd_eq|]. now rewrite nth_error_upd_neq by congruence.
Qed.
Lemma remove_ok n s : n < length (jobs s) -> exists s', remove_job n s = Ok s' /\ jobs s' <> [] /\ (forall m, get_job s' m = if m =? n then None else get_job s m) /\ next_id s' = next_id s /\ out s' = out s /\
  exists k s0, s' = set_current_jobnumber k s0.
Proof.
  intros H. unfold remove_job. rewrite rset_Ok by exact H. cbn [rbind].
  destruct (trim_ok (with_jobs (upd (jobs s) n None) s)) as (s1 & E & J & G & N & C & P & O).
  { cbn [jobs with_jobs]. intros K. apply (f_equal (@length _)) in K. rewrite length_upd in K. cbn in K. lia. }
  rewrite E. cbn [rbind]. eexists. split; [reflexivity|]. rewrite set_current_jobs, set_current_next, set_current_out. split; [exact J|]. split; [|split; [exact N|split; [exact O|eauto]]].
  intros m. rewrite set_current_get, G. now apply upd_get.
Qed.
Lemma remove_all_ok s : jobs s <> [] -> exists s', remove_all_jobs s = Ok s' /\ jobs s' <> [] /\ (forall m, get_job s' m = None) /\ next_id s' = next_id s /\ cur s' = 0 /\ prev s' = 0.
Proof.
  intros H. unfold remove_all_jobs. destruct (trim_ok (with_jobs (map (fun _ => None) (jobs s)) s)) as (s1 & E & J & G & N & C & P & O).
  { cbn [jobs with_jobs]. destruct (jobs s); [congruence|discriminate]. }
  rewrite E. cbn [rbind]. eexists. split; [reflexivity|]. split; [exact J|]. split; [|auto]. intros m. change (get_job (with_numbers 0 0 s1) m) with (get_job s1 m). rewrite G.
  unfold get_job. cbn [jobs with_jobs]. rewrite nth_error_map. destruct (nth_error (jobs s) m); reflexivity.
Qed.

(** ** Changes in place *)
Definition proc_later (p p' : proc) : Prop := pr_pid p = pr_pid p' /\ pr_name p = pr_name p' /\ (ended p -> p' = p).
Record later (j j' : job) : Prop := {
  la_id : j_id j' = j_id j;
  la_pgid : j_pgid j' = j_pgid j;
  la_legacy : j_legacy j = true -> j_legacy j' = true;
  la_procs : Forall2 proc_later (j_procs j) (j_procs j')
}.
Definition wf_proc (p : proc) : Prop :=
  pr_pid p = 0%Z /\ ended p /\ (exists n, pr_code p = Plain n) \/
  pr_pid p <> 0%Z /\ match pr_status p with
                     | Running => True
                     | Stopped => exists sig, pr_code p = Code (StopSig sig)
                     | Done => exists w n, pr_code p = Code w /\ exit_status w n
                     end.
Definition honest (j : job) : Prop := status_of (j_procs j) (j_status j).
Record wf_job (j : job) : Prop := {
  wj_procs : j_procs j <> [];
  wj_wf : Forall wf_proc (j_procs j);
  wj_sound : j_status j <> Running -> honest j
}.
Definition change (j j' : job) : Prop := later j j' /\ (wf_job j -> wf_job j').
Definition fair (j j' : job) : Prop := later j j' /\ (wf_job j -> wf_job j') /\ (wf_job j -> honest j -> honest j').

Lemma later_refl j : later j j.
Proof. constructor; auto. induction (j_procs j); constructor; auto. now repeat split. Qed.
Lemma later_trans a b c : later a b -> later b c -> later a c.
Proof.
  intros [A1 A2 A3 A4] [B1 B2 B3 B4]. constructor; [congruence|congruence|auto|].
  clear A1 A2 A3 B1 B2 B3. revert A4 B4. generalize (j_procs a), (j_procs b), (j_procs c). intros x y z A. revert z. induction A as [|p q x y H A IH]; intros z B; inversion B as [|q' r y' z' H' B']; subst; constructor; [|auto].
  destruct H as (H1 & H2 & H3), H' as (K1 & K2 & K3). split; [congruence|]. split; [congruence|]. intros E. rewrite K3; [auto|]. rewrite H3; assumption.
Qed.
Lemma change_refl j : change j j.
Proof. split; [apply later_refl|auto]. Qed.
Lemma change_trans a b c : change a b -> change b c -> change a c.
Proof. intros [A1 A2] [B1 B2]. split; [eapply later_trans; eassumption|auto]. Qed.
Lemma fair_refl j : fair j j.
Proof. split; [apply later_refl|auto]. Qed.
Lemma fair_trans a b c : fair a b -> fair b c -> fair a c.
Proof. intros (A1 & A2 & A3) (B1 & B2 & B3). split; [eapply later_trans; eassumption|auto]. Qed.
Lemma fair_change a b : fair a b -> change a b.
Proof. intros (A & B & _). now split. Qed.

(** Every job of [s'] is a job of [s] with the same number, changed as [R] says *)
Definition pw (R : job -> job -> Prop) (s s' : st) : Prop :=
  next_id s' = next_id s /\ (jobs s <> [] -> jobs s' <> []) /\ forall n j', job_at s' n j' -> exists j, job_at s n j /\ R j j'.
Lemma pw_refl (R : job -> job -> Prop) s : (forall j, R j j) -> pw R s s.
Proof. intros H. split; [reflexivity|]. split; [auto|]. intros n j K. eauto. Qed.
Lemma pw_trans (R : job -> job -> Prop) a b c : (forall x y z, R x y -> R y z -> R x z) -> pw R a b -> pw R b c -> pw R a c.
Proof.
  intros T (A1 & A2 & A3) (B1 & B2 & B3). split; [congruence|]. split; [auto|]. intros n j' H. destruct (B3 n j' H) as (j & H1 & H2). destruct (A3 n j H1) as (i & H3 & H4). eauto.
Qed.
Lemma pw_weak (R R' : job -> job -> Prop) a b : (forall x y, R x y -> R' x y) -> pw R a b -> pw R' a b.
Proof. intros W (A1 & A2 & A3). split; [exact A1|]. split; [exact A2|]. intros n j' H. destruct (A3 n j' H) as (j & H1 & H2). eauto. Qed.
Lemma pw_sub s s' : next_id s' = next_id s -> (jobs s <> [] -> jobs s' <> []) -> (forall n j, get_job s' n = Some j -> get_job s n = Some j) -> pw fair s s'.
Proof. intros H1 H2 H3. split; [exact H1|]. split; [exact H2|]. intros n j H. exists j. split; [apply get_job_at, H3, get_job_at, H|apply fair_refl]. Qed.
Lemma pw_current n s : pw fair s (set_current_jobnumber n s).
Proof. apply pw_sub; [apply set_current_next|now rewrite set_current_jobs|intros k j; now rewrite set_current_get]. Qed.
Lemma pw_remove n s s' : remove_job n s = Ok s' -> pw fair s s'.
Proof.
  intros E. destruct (le_lt_dec (length (jobs s)) n) as [H|H].
  - unfold remove_job, rset in E. destruct (Nat.ltb_spec n (length (jobs s))); [lia|discriminate].
  - destruct (remove_ok n s H) as (s1 & E1 & J & G & N & _). rewrite E in E1. injection E1 as <-. apply pw_sub; [exact N|auto|]. intros m j. rewrite G. destruct (m =? n); [discriminate|auto].
Qed.
Lemma pw_remove_all s s' : remove_all_jobs s = Ok s' -> pw fair s s'.
Proof.
  intros E. destruct (jobs s) eqn:Ej.
  - unfold remove_all_jobs, trim_joblist in E. cbn [jobs with_jobs cap] in E. rewrite Ej in E. cbn [map length] in E. destruct ((20 <? cap s) && (0 <? cap s / 2)); [|discriminate].
    injection E as <-. split; [reflexivity|]. split; [rewrite Ej; congruence|]. intros n j H. unfold job_at in H. cbn in H. destruct n; discriminate.
  - destruct (remove_all_ok s ltac:(congruence)) as (s1 & E1 & J & G & N & _). rewrite E in E1. injection E1 as <-. apply pw_sub; [exact N|auto|]. intros m j. now rewrite G.
Qed.
Lemma pw_upd (R : job -> job -> Prop) n j j' s : (forall x, R x x) -> get_job s n = Some j -> R j j' -> pw R s (with_jobs (upd (jobs s) n (Some j')) s).
Proof.
  intros Hr H K. split; [reflexivity|]. assert (B := get_job_bound _ _ _ H). split.
  - intros _ X. apply (f_equal (@length _)) in X. cbn [jobs with_jobs] in X. rewrite length_upd in X. cbn in X. lia.
  - intros m i X. apply get_job_at in X. rewrite upd_get in X by exact B. destruct (Nat.eqb_spec m n) as [->|N].
    + injection X as <-. exists j. split; [apply get_job_at, H|exact K].
    + exists i. split; [apply get_job_at, X|apply Hr].
Qed.
Lemma pw_map (R : job -> job -> Prop) f s : (forall j, R j (f j)) -> pw R s (with_jobs (map (option_map f) (jobs s)) s).
Proof.
  intros H. split; [reflexivity|]. split; [cbn; destruct (jobs s); [congruence|discriminate]|]. intros n j' K. unfold job_at in K. cbn [jobs with_jobs] in K. rewrite nth_error_map in K.
  destruct (nth_error (jobs s) n) as [[j|]|] eqn:E; cbn in K; try discriminate. injection K as <-. exists j. split; [exact E|apply H].
Qed.
(** Flags other than the status do not matter. *)
Lemma flags_fair j j' : j_id j' = j_id j -> j_pgid j' = j_pgid j -> j_status j' = j_status j -> (j_legacy j = true -> j_legacy j' = true) -> j_procs j' = j_procs j -> fair j j'.
Proof.
  intros H1 H2 H3 H4 H5. assert (X : honest j' <-> honest j) by (unfold honest; now rewrite H3, H5). split; [|split].
  - constructor; try assumption. rewrite H5. apply la_procs, later_refl.
  - intros [W1 W2 W3]. constructor; rewrite ?H5, ?H3, ?X; assumption.
  - intros _. apply X.
Qed.

(** ** Notifications *)
Lemma summary_ok ps : status_of ps (summary ps).
Proof.
  unfold summary. destruct (existsb (fun p => jstatus_eqb (pr_status p) Running) ps) eqn:E.
  - apply existsb_exists in E as (p & H & K). apply Exists_exists. exists p. split; [exact H|]. destruct (jstatus_eqb_spec (pr_status p) Running); [assumption|discriminate].
  - assert (NR : ~ Exists runs ps). { intros X. apply Exists_exists in X as (p & H & K). assert (existsb (fun p => jstatus_eqb (pr_status p) Running) ps = true); [|congruence]. apply existsb_exists. exists p. split; [exact H|]. now rewrite K. }
    destruct (existsb (fun p => jstatus_eqb (pr_status p) Stopped) ps) eqn:E'.
    + split; [exact NR|]. apply existsb_exists in E' as (p & H & K). apply Exists_exists. exists p. split; [exact H|]. destruct (jstatus_eqb_spec (pr_status p) Stopped); [assumption|discriminate].
    + apply Forall_forall. intros p H. unfold ended. destruct (pr_status p) eqn:S; [| |reflexivity].
      * destruct NR. apply Exists_exists. now exists p.
      * assert (existsb (fun p => jstatus_eqb (pr_status p) Stopped) ps = true); [|congruence]. apply existsb_exists. exists p. split; [exact H|]. now rewrite S.
Qed.
Lemma status_of_unique ps x y : status_of ps x -> status_of ps y -> ps <> [] -> x = y.
Proof.
  intros Hx Hy N. assert (E1 : Forall ended ps -> ~ Exists runs ps). { intros F X. apply Exists_exists in X as (p & H & K). rewrite Forall_forall in F. specialize (F p H). unfold ended, runs in *. congruence. }
  assert (E2 : Forall ended ps -> ~ Exists stops ps). { intros F X. apply Exists_exists in X as (p & H & K). rewrite Forall_forall in F. specialize (F p H). unfold ended, stops in *. congruence. }
  destruct x, y; cbn in *; try reflexivity; tauto.
Qed.
Lemma notified_wf p w : pr_pid p <> 0%Z -> wf_proc (notified p w).
Proof. intros H. right. split; [exact H|]. destruct w as [n|n|n|]; cbn; [exists (Exited n), n|exists (Signaled n), (n + 384)%Z|eauto|exact I]; split; try reflexivity; constructor. Qed.
Lemma notify_procs_ok pid w ps ps' : notify_procs pid w ps = Some ps' ->
  exists a p b, ps = a ++ p :: b /\ ps' = a ++ notified p w :: b /\ pr_pid p = pid /\ ~ ended p /\ Forall (fun q => pr_pid q <> pid \/ ended q) a.
Proof.
  revert ps'. induction ps as [|p ps IH]; intros ps'; cbn [notify_procs]; [discriminate|]. unfold pid_matches.
  destruct (Z.eqb_spec (pr_pid p) pid) as [E|E]; cbn [andb]; [destruct (jstatus_eqb_spec (pr_status p) Done) as [D|D]; cbn [negb]|].
  - destruct (notify_procs pid w ps) as [qs|]; [|discriminate]. intros H. injection H as <-. destruct (IH qs eq_refl) as (a & q & b & -> & -> & H1 & H2 & H3). exists (p :: a), q, b. repeat split; auto.
  - intros H. injection H as <-. exists [], p, ps. repeat split; auto.
  - destruct (notify_procs pid w ps) as [qs|]; [|discriminate]. intros H. injection H as <-. destruct (IH qs eq_refl) as (a & q & b & -> & -> & H1 & H2 & H3). exists (p :: a), q, b. repeat split; auto.
Qed.
Lemma notify_procs_none pid w ps : notify_procs pid w ps = None <-> Forall (fun q => pr_pid q <> pid \/ ended q) ps.
Proof.
  induction ps as [|p ps IH]; cbn [notify_procs]; [split; auto|]. unfold pid_matches.
  assert (X : pr_pid p <> pid \/ ended p -> option_map (cons p) (notify_procs pid w ps) = None <-> Forall (fun q => pr_pid q <> pid \/ ended q) (p :: ps)).
  { intros Hp. destruct (notify_procs pid w ps) as [qs|]; cbn.
    - split; [discriminate|]. intros H. inversion H; subst. assert (Some qs = None) by (now apply IH). discriminate.
    - split; [|reflexivity]. intros _. constructor; [exact Hp|now apply IH]. }
  destruct (Z.eqb_spec (pr_pid p) pid) as [E|E]; cbn [andb]; [destruct (jstatus_eqb_spec (pr_status p) Done) as [D|D]; cbn [negb]|]; [apply X; now right| |apply X; now left].
  split; [discriminate|]. intros H. inversion H as [|? ? [?|?] ?]; subst; [congruence|contradiction].
Qed.
Lemma notify_fair pid w j ps : notify_procs pid w (j_procs j) = Some ps -> fair j (with_procs ps j).
Proof.
  intros H. apply notify_procs_ok in H as (a & p & b & E & -> & H1 & H2 & _). split; [|split].
  - constructor; cbn; auto. rewrite E. apply Forall2_app; [|constructor].
    + clear E. induction a; constructor; [now repeat split|assumption].
    + split; [reflexivity|]. split; [reflexivity|]. intros X. contradiction.
    + clear E. induction b; constructor; [now repeat split|assumption].
  - intros [W1 W2 W3]. rewrite E in W2. apply Forall_app in W2 as [W2 W4]. inversion W4 as [|? ? W5 W6]; subst. constructor; cbn.
    + destruct a; discriminate.
    + apply Forall_app. split; [exact W2|]. constructor; [|exact W6]. apply notified_wf. destruct W5 as [(_ & X & _)|[X _]]; [contradiction|exact X].
    + intros _. apply summary_ok.
  - intros _ _. apply summary_ok.
Qed.
Lemma pw_notify pid w s : pw fair s (with_jobs (notify_jobs pid w (jobs s)) s).
Proof.
  split; [reflexivity|]. cbn [jobs with_jobs]. split.
  - destruct (jobs s) as [|[j|] l]; [congruence| |]; intros _; cbn [notify_jobs]; [destruct (notify_procs pid w (j_procs j))|]; discriminate.
  - intros n j'. unfold job_at. cbn [jobs with_jobs]. generalize (jobs s). intros l. revert n. induction l as [|[j|] l IH]; intros n; cbn [notify_jobs].
    + intros H. destruct n; discriminate.
    + destruct (notify_procs pid w (j_procs j)) as [ps|] eqn:E.
      * destruct n as [|n]; cbn [nth_error]; intros H; [|exists j'; split; [exact H|apply fair_refl]]. injection H as <-. exists j. split; [reflexivity|]. eapply notify_fair. exact E.
      * destruct n as [|n]; cbn [nth_error]; intros H; [|now apply IH]. injection H as <-. exists j. split; [reflexivity|apply fair_refl].
    + destruct n as [|n]; cbn [nth_error]; intros H; [discriminate|now apply IH].
Qed.
Lemma pw_wait evs s : pw fair s (do_wait evs s).
Proof.
  revert s. induction evs as [|[| | | |pid w] evs IH]; intros s; cbn [do_wait]; try (apply pw_refl, fair_refl); [apply IH|].
  eapply pw_trans; [exact fair_trans|apply pw_notify|apply IH].
Qed.

(** ** Reports *)
Lemma pw_out s o : pw fair s (mkSt (jobs s) (cap s) (cur s) (prev s) (next_id s) o).
Proof. apply pw_sub; auto. Qed.
Lemma pw_print n c r s s' : print_job_status n c r s = Ok s' -> pw fair s s'.
Proof.
  unfold print_job_status. destruct (get_job s n) as [j|] eqn:E; [|intros H; injection H as <-; apply pw_refl, fair_refl].
  destruct (j_nonotify j); [intros H; injection H as <-; apply pw_refl, fair_refl|]. destruct (c && negb (j_changed j)); [intros H; injection H as <-; apply pw_refl, fair_refl|].
  assert (X : pw fair s (mkSt (upd (jobs s) n (Some (with_changed false j))) (cap s) (cur s) (prev s) (next_id s) (out s ++ [mkReport n (mark_of s n) (j_status j) (j_id j)]))).
  { apply pw_trans with (with_jobs (upd (jobs s) n (Some (with_changed false j))) s); [exact fair_trans|apply pw_upd with (R := fair) (j := j); [exact fair_refl|exact E|apply flags_fair; auto]|].
    exact (pw_out (with_jobs (upd (jobs s) n (Some (with_changed false j))) s) _). }
  destruct (r && jstatus_eqb (j_status j) Done).
  - intros H. apply pw_remove in H. eapply pw_trans; [exact fair_trans|exact X|exact H].
  - intros H. injection H as <-. exact X.
Qed.
Lemma pw_print_from f i k s s' : (forall i s s', f i s = Ok s' -> pw fair s s') -> print_from f i k s = Ok s' -> pw fair s s'.
Proof.
  intros Hf. revert i s. induction k as [|k IH]; intros i s; cbn [print_from]; [intros H; injection H as <-; apply pw_refl, fair_refl|].
  destruct (i <? length (jobs s)); [|intros H; injection H as <-; apply pw_refl, fair_refl].
  destruct (f i s) as [s1| |] eqn:E; cbn [rbind]; try discriminate. intros H. eapply pw_trans; [exact fair_trans|eapply Hf; exact E|eapply IH; exact H].
Qed.
Lemma fold_current_pw l s : pw fair s (fold_left (fun s i => if newly_stopped (get_job s i) then set_current_jobnumber i s else s) l s).
Proof.
  revert s. induction l as [|i l IH]; intros s; cbn [fold_left]; [apply pw_refl, fair_refl|].
  eapply pw_trans; [exact fair_trans| |apply IH]. destruct (newly_stopped (get_job s i)); [apply pw_current|apply pw_refl, fair_refl].
Qed.
Lemma pw_curstop b s : pw fair s (apply_curstop b s).
Proof. unfold apply_curstop. eapply pw_trans; [exact fair_trans| |apply pw_current]. destruct b; [apply fold_current_pw|apply pw_refl, fair_refl]. Qed.
Lemma pw_print_all b s s' : print_job_status_all b s = Ok s' -> pw fair s s'.
Proof. intros H. eapply pw_trans; [exact fair_trans|apply pw_curstop|]. eapply pw_print_from; [|exact H]. intros i t t'. apply pw_print. Qed.
Lemma pw_sigchld evs a b s s' : handle_sigchld evs a b s = Ok s' -> pw fair s s'.
Proof.
  unfold handle_sigchld. set (t := match evs with Some l => do_wait l s | None => s end). assert (X : pw fair s t) by (subst t; destruct evs; [apply pw_wait|apply pw_refl, fair_refl]).
  clearbody t. destruct (any_job_status_has_changed t && a); intros H.
  - eapply pw_trans; [exact fair_trans|exact X|eapply pw_print_all; exact H].
  - injection H as <-. exact X.
Qed.
Lemma pw_neglect s : pw fair s (neglect_all_jobs s).
Proof. apply (pw_map fair with_legacy). intros j. apply flags_fair; auto. Qed.
Lemma set_running_change j : change j (set_running j).
Proof.
  split; [constructor; auto; exact (la_procs _ _ (later_refl j))|]. intros [W1 W2 W3]. constructor; auto. cbn. congruence.
Qed.
Lemma pw_continue n b s s' : continue_bg n b s = Ok s' -> pw change s s'.
Proof.
  unfold continue_bg. destruct (get_job s n) as [j|] eqn:E; [|discriminate]. destruct (negb (0 <? j_pgid j)%Z || j_legacy j); [discriminate|]. cbv zeta. intros H. injection H as <-.
  eapply pw_trans; [exact change_trans| |eapply pw_weak; [exact fair_change|apply pw_current]].
  destruct (jstatus_eqb (j_status j) Done); [apply pw_refl, change_refl|]. apply pw_upd with (j := j); [exact change_refl|exact E|apply set_running_change].
Qed.

(** ** All operations *)
Record inv (s : st) : Prop := {
  in_len : jobs s <> [];
  in_ids : forall n j, job_at s n j -> j_id j < next_id s;
  in_unique : forall n m j k, job_at s n j -> job_at s m k -> j_id j = j_id k -> n = m;
  in_wf : forall n j, job_at s n j -> wf_job j
}.
Lemma init_inv : inv init_job.
Proof. constructor; [discriminate| | |]; intros n; [intros j|intros m j k|intros j]; intros H; destruct n as [|[|n]]; discriminate H. Qed.
(** A job is older than [s], or is in it, perhaps in the foreground. *)
Definition evolve (s s' : st) : Prop :=
  next_id s <= next_id s' /\ forall n j', job_at s' n j' -> next_id s <= j_id j' \/ exists n0 j, job_at s n0 j /\ (n0 = n \/ n0 = 0) /\ later j j'.
Lemma pw_inv s s' : pw change s s' -> inv s -> inv s' /\ evolve s s'.
Proof.
  intros (P1 & P2 & P3) [I1 I2 I3 I4]. split.
  - constructor; [auto| | |].
    + intros n j' H. destruct (P3 n j' H) as (j & K & [L _]). rewrite P1, (la_id _ _ L). eauto.
    + intros n m j k H1 H2 H3. destruct (P3 n j H1) as (j0 & K1 & [L1 _]), (P3 m k H2) as (k0 & K2 & [L2 _]). rewrite (la_id _ _ L1), (la_id _ _ L2) in H3. eauto.
    + intros n j' H. destruct (P3 n j' H) as (j & K & [_ W]). eauto.
  - split; [lia|]. intros n j' H. right. destruct (P3 n j' H) as (j & K & [L _]). eauto 10.
Qed.
Lemma evolve_trans a b c : inv a -> inv b -> evolve a b -> evolve b c -> evolve a c.
Proof.
  intros Ia Ib [A1 A2] [B1 B2]. split; [lia|]. intros n j' H. destruct (B2 n j' H) as [H'|(n1 & j1 & H1 & H2 & H3)]; [left; lia|].
  destruct (A2 n1 j1 H1) as [H4|(n0 & j0 & H4 & H5 & H6)]; [left; rewrite (la_id _ _ H3); lia|]. right. exists n0, j0. split; [exact H4|]. split; [destruct H2, H5; subst; auto|eapply later_trans; eassumption].
Qed.
Definition op_ok (o : op) : Prop :=
  match o with ONew _ _ ps => ps <> [] /\ Forall (fun p => fst p <> Some 0%Z) ps | _ => True end.
Lemma new_job_ok pgid ch ps s s' : new_job pgid ch ps s = Ok s' ->
  get_job s 0 = None /\ next_id s' = S (next_id s) /\ (forall n, 1 <= n -> get_job s' n = get_job s n) /\ cur s' = cur s /\ prev s' = prev s /\
  get_job s' 0 = Some (mkJob (next_id s) pgid Running ch false false (map new_proc ps)) /\ jobs s' <> [].
Proof.
  unfold new_job, set_active_job, get_job. destruct (jobs s) as [|[j|] l] eqn:E; cbn [rbind]; try discriminate. intros H. injection H as <-. cbn [jobs next_id cur prev with_jobs].
  split; [reflexivity|]. split; [reflexivity|]. split; [|repeat split; discriminate]. intros n Hn. destruct n; [lia|reflexivity].
Qed.
Lemma new_proc_wf p : fst p <> Some 0%Z -> wf_proc (new_proc p).
Proof. destruct p as [[pid|] name]; cbn; intros H; [right; split; [cbn; intros ->; now apply H|exact I]|left; split; [reflexivity|split; [reflexivity|now exists 126%Z]]]. Qed.
Lemma new_inv pgid ch ps s s' : ps <> [] -> Forall (fun p => fst p <> Some 0%Z) ps -> new_job pgid ch ps s = Ok s' -> inv s -> inv s' /\ evolve s s'.
Proof.
  intros N F E [I1 I2 I3 I4]. apply new_job_ok in E as (H0 & H1 & H2 & H3 & H4 & H5 & H6).
  assert (X : forall n j, job_at s' n j -> n = 0 /\ j = mkJob (next_id s) pgid Running ch false false (map new_proc ps) \/ 1 <= n /\ job_at s n j).
  { intros n j H. apply get_job_at in H. destruct n as [|n]; [left; split; [reflexivity|congruence]|right]. split; [lia|]. apply get_job_at. rewrite <- H2 by lia. exact H. }
  split.
  - constructor; [exact H6| | |].
    + intros n j H. destruct (X n j H) as [[-> ->]|[_ K]]; cbn [j_id]; [lia|]. apply I2 in K. lia.
    + intros n m j k Hj Hk Ei. destruct (X n j Hj) as [[-> ->]|[_ K1]], (X m k Hk) as [[-> ->]|[_ K2]]; [reflexivity| | |eauto]; cbn in Ei; [apply I2 in K2; lia|apply I2 in K1; lia].
    + intros n j H. destruct (X n j H) as [[-> ->]|[_ K]]; [|eauto]. constructor; cbn; [destruct ps; [congruence|discriminate]| |congruence].
      apply Forall_map. eapply Forall_impl; [|exact F]. intros p. apply new_proc_wf.
  - split; [lia|]. intros n j H. destruct (X n j H) as [[-> ->]|[_ K]]; [now left|]. right. exists n, j. split; [exact K|]. split; [now left|apply later_refl].
Qed.
Lemma add_inv b s s' : add_job b s = Ok s' -> inv s -> inv s' /\ evolve s s'.
Proof.
  intros E [I1 I2 I3 I4]. assert (exists j, job_at s 0 j) as [j Hj]. { unfold add_job in E. unfold job_at. destruct (jobs s) as [|[j|] l]; try discriminate. now exists j. }
  destruct (add_ok b s j Hj) as (n & s1 & E1 & A & _). rewrite E in E1. injection E1 as <-. destruct A as [A1 A2 A3 A4 A5 A6 A7 A8].
  assert (X : forall m k, job_at s' m k -> m = n /\ k = j \/ 1 <= m /\ m <> n /\ job_at s m k).
  { intros m k H. destruct (Nat.eq_dec m n) as [->|N]; [left; split; [reflexivity|]; unfold job_at in *; congruence|right]. apply get_job_at in H. destruct m as [|m]; [congruence|]. split; [lia|]. split; [exact N|]. apply get_job_at. rewrite <- A5 by lia. exact H. }
  split.
  - constructor; [exact A8| | |].
    + intros m k H. rewrite A7. destruct (X m k H) as [[-> ->]|[_ [_ K]]]; eauto.
    + intros m1 m2 k1 k2 H1 H2 Ei. destruct (X m1 k1 H1) as [[-> ->]|(P1 & N1 & K1)], (X m2 k2 H2) as [[-> ->]|(P2 & N2 & K2)]; [reflexivity| | |eauto].
      * assert (0 = m2) by eauto. lia.
      * assert (m1 = 0) by eauto. lia.
    + intros m k H. destruct (X m k H) as [[-> ->]|[_ [_ K]]]; eauto.
  - split; [lia|]. intros m k H. right. destruct (X m k H) as [[-> ->]|[_ [_ K]]]; [exists 0, j|exists m, k]; (split; [assumption|]); (split; [auto|apply later_refl]).
Qed.
Lemma do_op_inv o s s' : op_ok o -> do_op o s = Ok s' -> inv s -> inv s' /\ evolve s s'.
Proof.
  intros Ho E Hi. destruct o; cbn [do_op op_ok] in *.
  - destruct Ho. eapply new_inv; eassumption.
  - eapply add_inv; eassumption.
  - apply pw_inv; [|exact Hi]. eapply pw_weak; [exact fair_change|]. eapply pw_remove. exact E.
  - apply pw_inv; [|exact Hi]. eapply pw_weak; [exact fair_change|]. eapply pw_remove_all. exact E.
  - injection E as <-. apply pw_inv; [|exact Hi]. eapply pw_weak; [exact fair_change|]. apply pw_neglect.
  - apply pw_inv; [|exact Hi]. eapply pw_weak; [exact fair_change|]. eapply pw_sigchld. exact E.
  - injection E as <-. apply pw_inv; [|exact Hi]. eapply pw_weak; [exact fair_change|]. apply pw_curstop.
  - apply pw_inv; [|exact Hi]. eapply pw_weak; [exact fair_change|]. eapply pw_print. exact E.
  - apply pw_inv; [|exact Hi]. eapply pw_weak; [exact fair_change|]. eapply pw_print_all. exact E.
  - apply pw_inv; [|exact Hi]. eapply pw_continue. exact E.
Qed.
Lemma do_ops_inv l s s' : Forall op_ok l -> do_ops l s = Ok s' -> inv s -> inv s' /\ evolve s s'.
Proof.
  intros Hl. revert s. induction Hl as [|o l Ho Hl IH]; intros s; cbn [do_ops].
  - intros H Hi. injection H as <-. split; [exact Hi|]. split; [lia|]. intros n j H. right. exists n, j. split; [exact H|]. split; [now left|apply later_refl].
  - destruct (do_op o s) as [s1| |] eqn:E; cbn [rbind]; try discriminate. intros H Hi. destruct (do_op_inv o s s1 Ho E Hi) as [I1 E1]. destruct (IH s1 H I1) as [I2 E2]. split; [exact I2|]. exact (evolve_trans s s1 s' Hi I1 E1 E2).
Qed.
