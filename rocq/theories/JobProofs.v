(** Proofs about the job list *)
From Coq Require Import List NArith ZArith Bool Arith Lia.
From Verif Require Import Common Locale JobModel JobSpec.
Import ListNotations.
Open Scope res_scope.

(** ** Lists *)
Lemma filter_one {A} (p : A -> bool) l : 0 < length (filter p l) <-> exists i x, nth_error l i = Some x /\ p x = true.
Proof.
  induction l as [|a l IH]; cbn [filter].
  - split; [cbn; lia|]. intros (i & x & H & _). destruct i; discriminate.
  - destruct (p a) eqn:E.
    + split; [|cbn; lia]. intros _. exists 0, a. auto.
    + rewrite IH. split.
      * intros (i & x & H). exists (S i), x. exact H.
      * intros (i & x & H & P). destruct i as [|i]; [cbn in H; injection H as <-; congruence|]. exists i, x. auto.
Qed.
Lemma filter_two {A} (p : A -> bool) l : 1 < length (filter p l) <-> exists i k x y, i <> k /\ nth_error l i = Some x /\ p x = true /\ nth_error l k = Some y /\ p y = true.
Proof.
  induction l as [|a l IH]; cbn [filter].
  - split; [cbn; lia|]. intros (i & k & x & y & _ & H & _). destruct i; discriminate.
  - destruct (p a) eqn:E.
    + cbn [length]. split.
      * intros H. assert (H' : 0 < length (filter p l)) by lia. apply filter_one in H' as (i & x & H1 & H2). exists 0, (S i), a, x. auto.
      * intros (i & k & x & y & N & H1 & H2 & H3 & H4). assert (0 < length (filter p l)); [|lia]. apply filter_one.
        destruct i as [|i]; [destruct k as [|k]; [lia|exists k, y; auto]|exists i, x; auto].
    + rewrite IH. split.
      * intros (i & k & x & y & N & H). exists (S i), (S k), x, y. split; [lia|exact H].
      * intros (i & k & x & y & N & H1 & H2 & H3 & H4). destruct i as [|i]; [cbn in H1; injection H1 as <-; congruence|]. destruct k as [|k]; [cbn in H3; injection H3 as <-; congruence|].
        exists i, k, x, y. split; [lia|auto].
Qed.
Lemma jstatus_eqb_spec a b : reflect (a = b) (jstatus_eqb a b).
Proof. destruct a, b; constructor; congruence. Qed.

(** ** Looking up jobs *)
Lemma get_job_at s n j : get_job s n = Some j <-> job_at s n j.
Proof. unfold get_job, job_at. destruct (nth_error (jobs s) n) as [o|]; split; intros H; congruence. Qed.
Lemma get_job_none s n : get_job s n = None <-> forall j, ~ job_at s n j.
Proof.
  split.
  - intros H j K. apply get_job_at in K. congruence.
  - intros H. destruct (get_job s n) as [j|] eqn:E; [|reflexivity]. apply get_job_at in E. destruct (H j E).
Qed.
Lemma get_job_bound s n j : get_job s n = Some j -> n < length (jobs s).
Proof. unfold get_job. destruct (nth_error (jobs s) n) eqn:E; [|discriminate]. intros _. apply nth_error_Some. congruence. Qed.
Lemma is_stopped_spec o : is_stopped o = true <-> exists j, o = Some j /\ j_status j = Stopped.
Proof.
  destruct o as [j|]; cbn; split; try discriminate.
  - intros H. exists j. destruct (jstatus_eqb_spec (j_status j) Stopped); [auto|discriminate].
  - intros (j' & E & K). injection E as <-. now rewrite K.
  - intros (j' & E & _). discriminate.
Qed.
Lemma some_stopped s : no_foreground s -> 0 < stopped_job_count s <-> exists n, stopped s n.
Proof.
  intros NF. unfold stopped_job_count. rewrite filter_one. split.
  - intros (i & o & H1 & H2). apply is_stopped_spec in H2 as (j & -> & H2). exists i, j. split; [|exact H2]. split; [|exact H1].
    destruct i; [|lia]. destruct (NF j H1).
  - intros (n & j & [H1 H2] & H3). exists n, (Some j). split; [exact H2|]. apply is_stopped_spec. eauto.
Qed.
Lemma two_stopped s : no_foreground s -> 1 < stopped_job_count s <-> exists n m, n <> m /\ stopped s n /\ stopped s m.
Proof.
  intros NF. unfold stopped_job_count. rewrite filter_two. split.
  - intros (i & k & x & y & N & H1 & H2 & H3 & H4). apply is_stopped_spec in H2 as (j & -> & H2). apply is_stopped_spec in H4 as (j' & -> & H4).
    exists i, k. split; [exact N|]. split; [exists j|exists j']; (split; [split; [|assumption]|assumption]); [destruct i; [destruct (NF j H1)|lia]|destruct k; [destruct (NF j' H3)|lia]].
  - intros (n & m & N & (j & [H1 H2] & H3) & (j' & [H4 H5] & H6)). exists n, m, (Some j), (Some j'). split; [exact N|]. repeat split; try assumption; apply is_stopped_spec; eauto.
Qed.

(** ** The current and previous job *)
Lemma highest_some s excl p k n : highest s excl p k = Some n -> 1 <= n /\ n <> excl /\ p (get_job s n) = true.
Proof.
  induction k as [|k IH]; [discriminate|]. cbn [highest]. destruct (Nat.eqb_spec (S k) excl); cbn [negb andb]; [auto|].
  destruct (p (get_job s (S k))) eqn:E; [|auto]. intros H. injection H as <-. auto with arith.
Qed.
Lemma highest_none s excl p k n : highest s excl p k = None -> 1 <= n <= k -> n <> excl -> p (get_job s n) = false.
Proof.
  induction k as [|k IH]; [lia|]. cbn [highest]. intros H Hn Hx. destruct (Nat.eq_dec n (S k)) as [->|N].
  - destruct (Nat.eqb_spec (S k) excl); [congruence|]. cbn [negb andb] in H. destruct (p (get_job s (S k))); [discriminate|reflexivity].
  - apply IH; [|lia|exact Hx]. destruct (negb (S k =? excl) && p (get_job s (S k))); [discriminate|exact H].
Qed.
Lemma highest_all s excl p n : highest s excl p (length (jobs s) - 1) = None -> p None = false -> 1 <= n -> n <> excl -> p (get_job s n) = false.
Proof.
  intros H P Hn Hx. destruct (le_lt_dec (length (jobs s)) n) as [K|K].
  - destruct (get_job s n) as [j|] eqn:E; [|exact P]. apply get_job_bound in E. lia.
  - eapply highest_none; [exact H|lia|exact Hx].
Qed.

(** What find_next_job finds *)
Record next_ok (s : st) (excl n : nat) : Prop := {
  no_zero : n = 0 -> forall k, k <> excl -> ~ is_job s k;
  no_job : n <> 0 -> is_job s n /\ n <> excl;
  no_stopped : forall k, k <> excl -> stopped s k -> stopped s n
}.
Lemma is_job_get s n : 1 <= n -> exists_job (get_job s n) = true <-> is_job s n.
Proof.
  intros Hn. unfold is_job, listed. split.
  - destruct (get_job s n) as [j|] eqn:E; [|discriminate]. apply get_job_at in E. eauto.
  - intros (j & _ & H). apply get_job_at in H. now rewrite H.
Qed.
Lemma stopped_get s n : 1 <= n -> is_stopped (get_job s n) = true <-> stopped s n.
Proof.
  intros Hn. rewrite is_stopped_spec. unfold stopped, listed. split.
  - intros (j & H & K). apply get_job_at in H. eauto.
  - intros (j & [_ H] & K). apply get_job_at in H. eauto.
Qed.
Lemma stopped_is_job s n : stopped s n -> is_job s n.
Proof. intros (j & H & _). now exists j. Qed.
Lemma is_job_pos s n : is_job s n -> 1 <= n.
Proof. intros (j & H & _). exact H. Qed.
Lemma find_next_ok s excl : no_foreground s -> next_ok s excl (find_next_job excl s).
Proof.
  intros NF. unfold find_next_job. destruct (negb (prev s =? excl) && is_stopped (get_job s (prev s))) eqn:E.
  - apply andb_true_iff in E as [E1 E2]. apply negb_true_iff, Nat.eqb_neq in E1.
    assert (Hp : 1 <= prev s). { destruct (prev s) eqn:P; [|lia]. apply is_stopped_spec in E2 as (j & E2 & _). apply get_job_at in E2. destruct (NF j E2). }
    apply stopped_get in E2; [|exact Hp]. constructor; [lia| |auto]. intros _. split; [now apply stopped_is_job|exact E1].
  - clear E. destruct (highest s excl is_stopped (length (jobs s) - 1)) as [n|] eqn:E.
    + apply highest_some in E as (H1 & H2 & H3). apply stopped_get in H3; [|exact H1]. constructor; [lia| |auto]. intros _. split; [now apply stopped_is_job|exact H2].
    + assert (NS : forall k, k <> excl -> ~ stopped s k).
      { intros k Hk Hs. assert (Hp := is_job_pos _ _ (stopped_is_job _ _ Hs)). apply stopped_get in Hs; [|exact Hp]. rewrite (highest_all s excl is_stopped k E eq_refl Hp Hk) in Hs. discriminate. }
      destruct (highest s excl exists_job (length (jobs s) - 1)) as [n|] eqn:E'.
      * apply highest_some in E' as (H1 & H2 & H3). apply is_job_get in H3; [|exact H1]. constructor; [lia|auto|]. intros k Hk Hs. destruct (NS k Hk Hs).
      * constructor; [|congruence|]; intros; [intros Hj|destruct (NS k); assumption].
        assert (Hp := is_job_pos _ _ Hj). apply is_job_get in Hj; [|exact Hp]. rewrite (highest_all s excl exists_job k E' eq_refl Hp) in Hj by assumption. discriminate.
Qed.

(** What set_current_jobnumber leaves alone *)
Lemma set_current_jobs n s : jobs (set_current_jobnumber n s) = jobs s.
Proof. unfold set_current_jobnumber. destruct (if negb _ then _ else _) as [c m]. reflexivity. Qed.
Lemma set_current_out n s : out (set_current_jobnumber n s) = out s.
Proof. unfold set_current_jobnumber. destruct (if negb _ then _ else _) as [c m]. reflexivity. Qed.
Lemma set_current_next n s : next_id (set_current_jobnumber n s) = next_id s.
Proof. unfold set_current_jobnumber. destruct (if negb _ then _ else _) as [c m]. reflexivity. Qed.
Lemma set_current_get n s k : get_job (set_current_jobnumber n s) k = get_job s k.
Proof. unfold get_job. now rewrite set_current_jobs. Qed.

(** The choice of the two numbers, in terms of predicates *)
Definition fit (s : st) (k : nat) : Prop := is_job s k /\ ((exists n, stopped s n) -> stopped s k).
Definition fit2 (s : st) (c k : nat) : Prop := is_job s k /\ k <> c /\ ((exists n m, n <> m /\ stopped s n /\ stopped s m) -> stopped s k).
Definition bad1 (s : st) (k : nat) : bool := match get_job s k with None => true | Some j => (0 <? stopped_job_count s) && negb (jstatus_eqb (j_status j) Stopped) end.
Definition bad2 (s : st) (c k : nat) : bool := match get_job s k with None => true | Some j => (k =? c) || (1 <? stopped_job_count s) && negb (jstatus_eqb (j_status j) Stopped) end.
Definition pick1 (n : nat) (s : st) : nat := if bad1 s n then if bad1 s (cur s) then if bad1 s (prev s) then find_next_job 0 s else prev s else cur s else n.
Definition pick2 (n c : nat) (s : st) : nat := if bad2 s c n then if bad2 s c (prev s) then find_next_job c (with_numbers c (prev s) s) else prev s else n.
Lemma set_current_eq n s : set_current_jobnumber n s =
  let c := pick1 n s in with_numbers c (pick2 (if negb (c =? cur s) then cur s else prev s) c s) s.
Proof.
  change (set_current_jobnumber n s) with
    (let '(c, m) := if negb (pick1 n s =? cur s) then (pick1 n s, cur s) else (cur s, prev s) in with_numbers c (pick2 m c s) s).
  cbv zeta. destruct (Nat.eqb_spec (pick1 n s) (cur s)) as [E|E]; cbn [negb]; [now rewrite E|reflexivity].
Qed.
Lemma bad1_spec s k : no_foreground s -> bad1 s k = false <-> fit s k.
Proof.
  intros NF. unfold bad1, fit. destruct (get_job s k) as [j|] eqn:E.
  - assert (Hk : 1 <= k) by (destruct k; [apply get_job_at in E; destruct (NF j E)|lia]).
    assert (Hj : is_job s k) by (apply is_job_get; [exact Hk|now rewrite E]).
    assert (Hs : jstatus_eqb (j_status j) Stopped = true <-> stopped s k) by (rewrite <- stopped_get by exact Hk; now rewrite E).
    destruct (Nat.ltb_spec 0 (stopped_job_count s)) as [C|C]; cbn [andb].
    + apply some_stopped in C; [|exact NF]. rewrite negb_false_iff, Hs. tauto.
    + split; [|reflexivity]. intros _. split; [exact Hj|]. intros X. apply some_stopped in X; [lia|exact NF].
  - split; [discriminate|]. intros [(j & _ & H) _]. apply get_job_at in H. congruence.
Qed.
Lemma bad2_spec s c k : no_foreground s -> bad2 s c k = false <-> fit2 s c k.
Proof.
  intros NF. unfold bad2, fit2. destruct (get_job s k) as [j|] eqn:E.
  - assert (Hk : 1 <= k) by (destruct k; [apply get_job_at in E; destruct (NF j E)|lia]).
    assert (Hj : is_job s k) by (apply is_job_get; [exact Hk|now rewrite E]).
    assert (Hs : jstatus_eqb (j_status j) Stopped = true <-> stopped s k) by (rewrite <- stopped_get by exact Hk; now rewrite E).
    rewrite orb_false_iff, Nat.eqb_neq. destruct (Nat.ltb_spec 1 (stopped_job_count s)) as [C|C]; cbn [andb].
    + apply two_stopped in C; [|exact NF]. rewrite negb_false_iff, Hs. tauto.
    + split; [|tauto]. intros [H _]. split; [exact Hj|]. split; [exact H|]. intros X. apply two_stopped in X; [lia|exact NF].
  - split; [discriminate|]. intros [(j & _ & H) _]. apply get_job_at in H. congruence.
Qed.
Lemma pick1_ok n s : no_foreground s -> pick1 n s <> 0 /\ fit s (pick1 n s) \/ pick1 n s = 0 /\ forall k, ~ is_job s k.
Proof.
  intros NF. unfold pick1.
  assert (X : forall k, bad1 s k = false -> k <> 0 /\ fit s k \/ k = 0 /\ forall k, ~ is_job s k).
  { intros k H. apply bad1_spec in H; [|exact NF]. left. split; [|exact H]. destruct H as [H _]. apply is_job_pos in H. lia. }
  destruct (bad1 s n) eqn:E1; [|now apply X]. destruct (bad1 s (cur s)) eqn:E2; [|now apply X]. destruct (bad1 s (prev s)) eqn:E3; [|now apply X].
  destruct (find_next_ok s 0 NF) as [A B C]. destruct (Nat.eq_dec (find_next_job 0 s) 0) as [Z|Z].
  - right. split; [exact Z|]. intros k Hk. assert (P := is_job_pos _ _ Hk). apply (A Z k); [lia|exact Hk].
  - left. split; [exact Z|]. split; [apply B, Z|]. intros (k & Hk). apply (C k); [|exact Hk]. apply stopped_is_job, is_job_pos in Hk. lia.
Qed.
Lemma pick2_ok n c s : no_foreground s -> fit s c \/ c = 0 -> pick2 n c s <> 0 /\ fit2 s c (pick2 n c s) \/ pick2 n c s = 0 /\ forall k, k <> c -> ~ is_job s k.
Proof.
  intros NF Hc. unfold pick2.
  assert (X : forall k, bad2 s c k = false -> k <> 0 /\ fit2 s c k \/ k = 0 /\ forall k, k <> c -> ~ is_job s k).
  { intros k H. apply bad2_spec in H; [|exact NF]. left. split; [|exact H]. destruct H as [H _]. apply is_job_pos in H. lia. }
  destruct (bad2 s c n) eqn:E1; [|now apply X]. destruct (bad2 s c (prev s)) eqn:E2; [|now apply X].
  destruct (find_next_ok (with_numbers c (prev s) s) c NF) as [A B C]. destruct (Nat.eq_dec (find_next_job c (with_numbers c (prev s) s)) 0) as [Z|Z].
  - right. split; [exact Z|]. exact (A Z).
  - left. split; [exact Z|]. destruct (B Z) as [B1 B2]. split; [exact B1|]. split; [exact B2|]. intros (k & m & N & Hk & Hm).
    destruct (Nat.eq_dec k c) as [->|K]; [apply (C m); [congruence|exact Hm]|apply (C k); assumption].
Qed.
Theorem set_current_disciplined n s : no_foreground s -> disciplined (set_current_jobnumber n s).
Proof.
  intros NF. rewrite set_current_eq. cbv zeta. set (m := if negb _ then _ else _). clearbody m.
  pose proof (pick1_ok n s NF) as H1. set (c := pick1 n s) in *. clearbody c.
  assert (Hc : fit s c \/ c = 0) by (destruct H1 as [[_ H]|[H _]]; auto).
  pose proof (pick2_ok m c s NF Hc) as H2. set (p := pick2 m c s) in *. clearbody p.
  assert (I : forall k, is_job (with_numbers c p s) k <-> is_job s k) by reflexivity.
  assert (S : forall k, stopped (with_numbers c p s) k <-> stopped s k) by reflexivity.
  constructor; cbn [cur prev with_numbers].
  - destruct H1 as [[_ [H _]]|[H _]]; auto.
  - intros k Hk. destruct H1 as [[H _]|[_ H]]; [exact H|]. destruct (H k Hk).
  - destruct H2 as [[_ [H [H' _]]]|[H _]]; auto.
  - intros k l N Hk Hl. destruct H2 as [[H _]|[_ H]]; [exact H|]. destruct (Nat.eq_dec k c) as [->|K]; [destruct (H l (not_eq_sym N) Hl)|destruct (H k K Hk)].
  - intros k Hk. destruct H1 as [[_ [_ H]]|[_ H]]; [apply H; eauto|]. apply stopped_is_job in Hk. destruct (H k Hk).
  - intros k l N Hk Hl. destruct H2 as [[_ [_ [_ H]]]|[_ H]]; [apply H; eauto|]. apply stopped_is_job in Hk, Hl.
    destruct (Nat.eq_dec k c) as [->|K]; [destruct (H l (not_eq_sym N) Hl)|destruct (H k K Hk)].
Qed.
