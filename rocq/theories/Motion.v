(** Proofs about motions. *)
From Coq Require Import Ascii String.
From Coq Require Import List NArith ZArith Bool Arith Lia.
From Verif Require Import Common MotionModel MotionSpec.
Import ListNotations.
Local Open Scope nat_scope.

Lemma nth_error_at s i c : nth_error s i = Some c -> at_ s i = c /\ i < length s.
Proof. intro H. split; [apply (nth_error_nth s i 0%N H)|apply nth_error_Some; congruence]. Qed.
Lemma at_nth_error s i : i < length s -> nth_error s i = Some (at_ s i).
Proof. intro H. apply nth_error_nth'. exact H. Qed.

(** * Loops *)
Lemma run_le p l : run p l <= length l.
Proof. induction l as [|c l IH]; cbn; [lia|]. destruct (p c); lia. Qed.
Lemma run_in p : forall l k, k < run p l -> p (nth k l 0%N) = true.
Proof.
  induction l as [|c l IH]; intros k H; cbn in H; [lia|]. destruct (p c) eqn:P; [|lia].
  destruct k as [|k]; [exact P|]. cbn. apply IH. lia.
Qed.
Lemma run_stop p : forall l, run p l < length l -> p (nth (run p l) l 0%N) = false.
Proof.
  induction l as [|c l IH]; intro H; cbn in *; [lia|]. destruct (p c) eqn:P; [|exact P]. cbn. apply IH. lia.
Qed.
Lemma nth_skipn_at s i k : nth k (skipn i s) 0%N = at_ s (i + k).
Proof.
  unfold at_. revert s; induction i as [|i IH]; intros s; [reflexivity|]. destruct s as [|c s]; [destruct k; reflexivity|]. apply IH.
Qed.
Lemma fwd_spec p s i : i <= length s ->
  i <= fwd p s i <= length s
  /\ (forall k, i <= k -> k < fwd p s i -> p (at_ s k) = true)
  /\ (fwd p s i < length s -> p (at_ s (fwd p s i)) = false).
Proof.
  intro L. unfold fwd. pose proof (run_le p (skipn i s)) as R. rewrite skipn_length in R. split; [lia|]. split.
  - intros k A B. pose proof (run_in p (skipn i s) (k - i) ltac:(lia)) as H. rewrite nth_skipn_at in H. replace (i + (k - i)) with k in H by lia. exact H.
  - intro A. rewrite <- nth_skipn_at. apply run_stop. rewrite skipn_length. lia.
Qed.
Lemma back_spec p s : forall i,
  back p s i <= i
  /\ (forall k, back p s i < k -> k <= i -> p (at_ s k) = true)
  /\ (0 < back p s i -> p (at_ s (back p s i)) = false).
Proof.
  induction i as [|i (A & B & C)]; cbn [back]; [split; [lia|]; split; intros; lia|].
  destruct (p (at_ s (S i))) eqn:P; [|split; [lia|]; split; [intros; lia|auto]].
  split; [lia|]. split; [|exact C]. intros k K1 K2. destruct (Nat.eq_dec k (S i)) as [->|]; [exact P|]. apply B; lia.
Qed.

(** * Starts and ends in terms of [at_] *)
Lemma start_at K s i : word_start K s i <-> i < length s /\ K (at_ s i) <> 0 /\ (i = 0 \/ K (at_ s (i - 1)) <> K (at_ s i)).
Proof.
  split.
  - intros (c & E & N & D). destruct (nth_error_at _ _ _ E) as (A & L). rewrite A. split; [exact L|]. split; [exact N|].
    destruct i as [|j]; [left; reflexivity|right]. cbn. rewrite Nat.sub_0_r. apply (D j); [reflexivity|]. apply at_nth_error. lia.
  - intros (L & N & D). exists (at_ s i). split; [apply at_nth_error, L|]. split; [exact N|].
    intros j d -> E. destruct (nth_error_at _ _ _ E) as (A & _). destruct D as [D|D]; [discriminate|]. cbn in D. rewrite Nat.sub_0_r, A in D. exact D.
Qed.
Lemma end_at K s i : word_end K s i <-> i < length s /\ K (at_ s i) <> 0 /\ (S i = length s \/ K (at_ s (S i)) <> K (at_ s i)).
Proof.
  split.
  - intros (c & E & N & D). destruct (nth_error_at _ _ _ E) as (A & L). rewrite A. split; [exact L|]. split; [exact N|].
    destruct (Nat.eq_dec (S i) (length s)) as [Q|Q]; [left; exact Q|right]. apply D. apply at_nth_error. lia.
  - intros (L & N & D). exists (at_ s i). split; [apply at_nth_error, L|]. split; [exact N|].
    intros d E. destruct (nth_error_at _ _ _ E) as (A & L2). destruct D as [D|D]; [lia|]. rewrite A in D. exact D.
Qed.

(** * The next start, for any kinds *)
Lemma next_start_gen K s i a b : i <= a -> a <= b -> b <= length s ->
  (forall k, i <= k -> k < a -> K (at_ s k) = K (at_ s i)) ->
  (forall k, a <= k -> k < b -> K (at_ s k) = 0) ->
  (b < length s -> K (at_ s b) <> 0) ->
  (b < length s -> i < b /\ K (at_ s (b - 1)) <> K (at_ s b)) ->
  (i < length s -> i < b) ->
  first_after (word_start K s) i (length s) b.
Proof.
  intros IA AB BL H1 H2 H3 H4 H5.
  assert (NO : forall k, i < k -> k < b -> ~ word_start K s k).
  { intros k K1 K2 W. apply start_at in W. destruct W as (L & N & [D|D]); [lia|].
    destruct (Nat.lt_ge_cases k a) as [KA|KA].
    - apply D. rewrite (H1 k), (H1 (k - 1)) by lia. reflexivity.
    - apply N, H2; lia. }
  destruct (Nat.eq_dec b (length s)) as [E|NE].
  - right. split; [|exact E]. intros k K1 W. pose proof W as W'. apply start_at in W'. apply (NO k); [exact K1|lia|exact W].
  - left. assert (BL' : b < length s) by lia. destruct (H4 BL') as (IB & D). split; [exact IB|]. split; [|exact NO].
    apply start_at. split; [exact BL'|]. split; [apply H3, BL'|right; exact D].
Qed.

(** two kinds only, told by a predicate *)
Definition kp (w : N -> bool) (c : N) : nat := if w c then 1 else 0.
Lemma kp_eq w a b : kp w a = kp w b <-> w a = w b.
Proof. unfold kp. destruct (w a), (w b); split; congruence. Qed.
Lemma kp_nz w a : kp w a <> 0 <-> w a = true.
Proof. unfold kp. destruct (w a); split; congruence. Qed.
Lemma kp_z w a : kp w a = 0 <-> w a = false.
Proof. unfold kp. destruct (w a); split; congruence. Qed.

Lemma next_two w s i : i <= length s -> first_after (word_start (kp w) s) i (length s) (fwd (notp w) s (fwd w s i)).
Proof.
  intro L. destruct (fwd_spec w s i L) as ((A1 & A2) & A3 & A4). set (a := fwd w s i) in *.
  destruct (fwd_spec (notp w) s a A2) as ((B1 & B2) & B3 & B4). set (b := fwd (notp w) s a) in *. unfold notp in B3, B4.
  assert (W0 : b < length s -> w (at_ s b) = true) by (intro H; specialize (B4 H); apply negb_false_iff in B4; exact B4).
  assert (AB : b < length s -> a < b).
  { intro H. destruct (Nat.eq_dec a b) as [E|]; [|lia]. specialize (W0 H). rewrite <- E in W0, H. rewrite (A4 H) in W0. discriminate. }
  apply (next_start_gen _ s i a b); auto.
  - intros k K1 K2. apply kp_eq. rewrite (A3 k K1 K2), (A3 i); [reflexivity|lia|lia].
  - intros k K1 K2. apply kp_z. specialize (B3 k K1 K2). apply negb_true_iff in B3. exact B3.
  - intro H. apply kp_nz, W0, H.
  - intro H. split; [specialize (AB H); lia|]. rewrite kp_eq, (W0 H). specialize (AB H).
    specialize (B3 (b - 1) ltac:(lia) ltac:(lia)). apply negb_true_iff in B3. rewrite B3. discriminate.
  - intro H. destruct (Nat.eq_dec b (length s)) as [->|]; [exact H|]. specialize (AB ltac:(lia)). lia.
Qed.

(** The kinds of viwords *)
Lemma vichar_kind W c : w_ok W -> vichar W c = true <-> kind_vi W c = 1.
Proof.
  intros OK. unfold vichar, kind_vi. destruct (blank W c) eqn:B.
  - split; [|discriminate]. rewrite (w_excl W OK c B), orb_false_r. intro H. apply N.eqb_eq in H. subst. rewrite (w_under W OK) in B. discriminate.
  - destruct ((c =? ch "_")%N || alnum W c); split; congruence.
Qed.
Lemma blank_kind W c : blank W c = true <-> kind_vi W c = 0.
Proof. unfold kind_vi. destruct (blank W c), ((c =? ch "_")%N || alnum W c); split; congruence. Qed.
Lemma viother_kind W c : viother W c = true <-> kind_vi W c = 2.
Proof.
  unfold viother, kind_vi. destruct (blank W c), (c =? ch "_")%N, (alnum W c); cbn; split; congruence.
Qed.
Lemma kind_vi_cases W c : kind_vi W c = 0 \/ kind_vi W c = 1 \/ kind_vi W c = 2.
Proof. unfold kind_vi. destruct (blank W c); auto. destruct ((c =? ch "_")%N || alnum W c); auto. Qed.
Lemma kind_vi_0 W : w_ok W -> kind_vi W 0 = 2.
Proof. intro OK. unfold kind_vi. rewrite (w_blank0 W OK), (w_alnum0 W OK). reflexivity. Qed.

Lemma vi_other_spec W s : w_ok W -> forall n i, n = length s - i -> i <= length s -> kind_vi W (at_ s i) <> 1 ->
  let '(a, ret) := vi_other W (skipn i s) i in
  i <= a <= length s /\ (forall k, i <= k -> k < a -> kind_vi W (at_ s k) = 2)
  /\ (ret = true -> (a = length s \/ kind_vi W (at_ s a) = 1) /\ (i < length s -> i < a))
  /\ (ret = false -> a < length s /\ kind_vi W (at_ s a) = 0).
Proof.
  intro OK. induction n as [|n IH]; intros i En L NK.
  - rewrite skipn_all2 by lia. cbn [vi_other]. split; [lia|]. split; [intros; lia|]. split; [|discriminate]. intros _. split; [left; lia|lia].
  - assert (E : skipn i s = at_ s i :: skipn (S i) s).
    { clear - En. assert (i < length s) by lia. clear En. revert i H. induction s as [|c s IH]; intros i H; [cbn in H; lia|].
      destruct i as [|i]; [reflexivity|]. cbn in H. cbn [skipn]. rewrite IH by lia. reflexivity. }
    rewrite E. cbn [vi_other]. destruct (blank W (at_ s i)) eqn:B.
    + apply blank_kind in B. split; [lia|]. split; [intros; lia|]. split; [discriminate|]. intros _. split; [lia|exact B].
    + assert (K2 : kind_vi W (at_ s i) = 2).
      { destruct (kind_vi_cases W (at_ s i)) as [Q|[Q|Q]]; [apply blank_kind in Q; congruence|contradiction|exact Q]. }
      destruct (skipn (S i) s) as [|d l] eqn:E2.
      * apply (f_equal (@length _)) in E2. rewrite skipn_length in E2. cbn in E2. split; [lia|]. split; [intros; replace k with i by lia; exact K2|].
        split; [|discriminate]. intros _. split; [left; lia|lia].
      * assert (D : at_ s (S i) = d). { rewrite <- (Nat.add_0_r (S i)), <- nth_skipn_at, E2. reflexivity. }
        assert (L2 : S i < length s). { apply (f_equal (@length _)) in E2. rewrite skipn_length in E2. cbn in E2. lia. }
        destruct (vichar W d) eqn:V.
        -- apply (vichar_kind W d OK) in V. split; [lia|]. split; [intros; replace k with i by lia; exact K2|]. split; [|discriminate].
           intros _. split; [right; rewrite D; exact V|lia].
        -- specialize (IH (S i) ltac:(lia) ltac:(lia)). rewrite E2, D in IH.
           assert (NV : kind_vi W d <> 1). { intro Q. apply (vichar_kind W d OK) in Q. congruence. }
           specialize (IH NV). destruct (vi_other W (d :: l) (S i)) as [a ret]. destruct IH as (I1 & I2 & I3 & I4).
           split; [lia|]. split; [|split; [|exact I4]].
           ++ intros k K1 K3. destruct (Nat.eq_dec k i) as [->|]; [exact K2|]. apply I2; lia.
           ++ intro R. destruct (I3 R) as (J & _). split; [exact J|lia].
Qed.
Lemma next_vi W s i : w_ok W -> i <= length s -> first_after (word_start (kind_vi W) s) i (length s) (next_viword W s i).
Proof.
  intros OK L. unfold next_viword.
  assert (X : let '(a, ret) := if vichar W (at_ s i) then let i := fwd (vichar W) s (S i) in (i, negb (blank W (at_ s i))) else vi_other W (skipn i s) i in
    i <= a <= length s /\ (forall k, i <= k -> k < a -> kind_vi W (at_ s k) = kind_vi W (at_ s i))
    /\ (a < length s -> i < a -> kind_vi W (at_ s a) <> kind_vi W (at_ s i))
    /\ (ret = true -> (a < length s -> kind_vi W (at_ s a) <> 0) /\ (i < length s -> i < a))
    /\ (ret = false -> a < length s /\ kind_vi W (at_ s a) = 0)).
  { destruct (vichar W (at_ s i)) eqn:V.
    - apply (vichar_kind W _ OK) in V.
      assert (L' : i < length s).
      { destruct (Nat.eq_dec i (length s)) as [->|]; [|lia]. unfold at_ in V. rewrite nth_overflow, (kind_vi_0 W OK) in V by lia. discriminate. }
      destruct (fwd_spec (vichar W) s (S i) L') as ((A1 & A2) & A3 & A4). set (a := fwd (vichar W) s (S i)) in *.
      assert (KS : forall k, i <= k -> k < a -> kind_vi W (at_ s k) = 1).
      { intros k K1 K2. destruct (Nat.eq_dec k i) as [->|]; [exact V|]. apply (vichar_kind W _ OK), A3; lia. }
      split; [lia|]. split; [intros; rewrite V; auto|]. split.
      { intros H _ Q. rewrite V in Q. apply (vichar_kind W _ OK) in Q. rewrite (A4 H) in Q. discriminate. }
      split; intro R.
      + split; [|lia]. intros _ Q. apply blank_kind in Q. rewrite Q in R. discriminate.
      + apply negb_false_iff in R. split; [|apply blank_kind, R]. destruct (Nat.eq_dec a (length s)) as [Q|]; [|lia].
        rewrite Q in R. unfold at_ in R. rewrite nth_overflow, (w_blank0 W OK) in R by lia. discriminate.
    - assert (NV : kind_vi W (at_ s i) <> 1). { intro Q. apply (vichar_kind W _ OK) in Q. congruence. }
      pose proof (vi_other_spec W s OK (length s - i) i eq_refl L NV) as H. destruct (vi_other W (skipn i s) i) as [a ret].
      destruct H as (H1 & H2 & H3 & H4). split; [exact H1|]. split; [intros k K1 K2; rewrite (H2 k), (H2 i); [reflexivity|lia|lia|lia|lia]|].
      split; [intros HL HI; rewrite (H2 i) by lia; destruct ret; [destruct (H3 eq_refl) as ([Q|Q] & _); [lia|rewrite Q; discriminate]|destruct (H4 eq_refl) as (_ & Q); rewrite Q; discriminate]|].
      split; [|exact H4]. intro R. destruct (H3 R) as (J & J2). split; [|exact J2]. intros HL. destruct J as [Q|Q]; [lia|rewrite Q; discriminate]. }
  destruct (if vichar W (at_ s i) then let i := fwd (vichar W) s (S i) in (i, negb (blank W (at_ s i))) else vi_other W (skipn i s) i) as [a ret].
  destruct X as (X1 & X2 & X3 & X4 & X5). destruct ret.
  - destruct (X4 eq_refl) as (Y1 & Y2). apply (next_start_gen _ s i a a); try lia; auto.
    + intro H. assert (IA : i < a) by (apply Y2; lia). split; [exact IA|]. rewrite (X2 (a - 1)) by lia. intro Q. apply (X3 H IA). congruence.
  - destruct (X5 eq_refl) as (Y1 & Y2). destruct (fwd_spec (blank W) s (S a) Y1) as ((B1 & B2) & B3 & B4). set (b := fwd (blank W) s (S a)) in *.
    assert (Z : forall k, a <= k -> k < b -> kind_vi W (at_ s k) = 0).
    { intros k K1 K2. destruct (Nat.eq_dec k a) as [->|]; [exact Y2|]. apply blank_kind, B3; lia. }
    apply (next_start_gen _ s i a b); try lia; auto.
    + intros H Q. apply blank_kind in Q. rewrite (B4 H) in Q. discriminate.
    + intro H. split; [lia|]. rewrite (Z (b - 1)) by lia. intro Q. symmetry in Q. apply blank_kind in Q. rewrite (B4 H) in Q. discriminate.
Qed.

(** * The previous start *)
(** One round from [i], which is [init] or just before it; [i1] and [i2] are where the loops
    stop. *)
Lemma prev_round K s init i i1 i2 : 0 < init -> init <= length s -> init - 1 <= i -> i <= init ->
  i1 <= i -> (forall k, i1 < k -> k <= i -> K (at_ s k) = 0) ->
  0 < i1 -> K (at_ s i1) <> 0 ->
  i2 < i1 -> (forall k, i2 < k -> k <= i1 -> K (at_ s k) = K (at_ s i1)) -> K (at_ s i2) <> K (at_ s i1) ->
  S i2 < init -> last_before (word_start K s) init (S i2).
Proof.
  intros I0 IL IB IE A1 A2 A3 A4 B1 B2 B3 LT. left. split; [exact LT|]. split.
  - apply start_at. split; [lia|]. rewrite (B2 (S i2)) by lia. split; [exact A4|]. right. cbn. rewrite Nat.sub_0_r. exact B3.
  - intros k K1 K2 W. apply start_at in W. destruct W as (_ & N & [D|D]); [lia|].
    destruct (Nat.le_gt_cases k i1) as [Q|Q].
    + apply D. rewrite (B2 k), (B2 (k - 1)) by lia. reflexivity.
    + apply N, A2; lia.
Qed.
Lemma prev_zero K s init i i1 : 0 < init -> init <= length s -> init - 1 <= i -> i <= init ->
  i1 <= i -> (forall k, i1 < k -> k <= i -> K (at_ s k) = 0) ->
  (forall k, k <= i1 -> K (at_ s k) = K (at_ s i1)) -> (0 < i1 -> K (at_ s i1) <> 0) ->
  last_before (word_start K s) init 0.
Proof.
  intros I0 IL IB IE A1 A2 B2 NZ.
  assert (NO : forall k, 0 < k -> k < init -> ~ word_start K s k).
  { intros k K1 K2 W. apply start_at in W. destruct W as (_ & N & [D|D]); [lia|].
    destruct (Nat.le_gt_cases k i1) as [Q|Q]; [apply D; rewrite (B2 k), (B2 (k - 1)) by lia; reflexivity|apply N, A2; lia]. }
  destruct (Nat.eq_dec (K (at_ s 0)) 0) as [Z|Z].
  - right. split; [|reflexivity]. intros k K1 W. destruct k as [|k]; [|apply (NO (S k)); auto; lia].
    apply start_at in W. destruct W as (_ & N & _). contradiction.
  - left. split; [exact I0|]. split; [apply start_at; split; [lia|]; split; [exact Z|left; reflexivity]|exact NO].
Qed.

(** What the loops for two kinds give: right, or 0 where the word that starts at index 1 was meant *)
Definition prev_but_first (K : N -> nat) (s : list N) (i j : nat) : Prop :=
  last_before (word_start K s) i j
  \/ (j = 0 /\ K (at_ s 0) = 0 /\ last_before (word_start K s) i 1 /\ word_start K s 1 /\ 1 < i).
Lemma prev_loop_spec w s init : 0 < init -> init <= length s -> forall fuel i, init - 1 <= i -> i <= init ->
  (init + 2 <= i + fuel /\ 2 <= fuel \/ (i = init - 1 /\ 1 <= fuel)) ->
  prev_but_first (kp w) s init (prev_loop w init s fuel i).
Proof.
  intros I0 IL. induction fuel as [|fuel IH]; intros i IB IE FU; [lia|]. cbn [prev_loop].
  destruct (back_spec (notp w) s i) as (A1 & A2 & A3). set (i1 := back (notp w) s i) in *. unfold notp in A2, A3.
  destruct (back_spec w s i1) as (B1 & B2 & B3). set (i2 := back w s i1) in *.
  assert (Z1 : forall k, i1 < k -> k <= i -> kp w (at_ s k) = 0) by (intros k K1 K2; apply kp_z, negb_true_iff, A2; lia).
  assert (W1 : 0 < i1 -> w (at_ s i1) = true) by (intro H; specialize (A3 H); apply negb_false_iff in A3; exact A3).
  assert (LT : 0 < i1 -> i2 < i1).
  { intro H. destruct (Nat.eq_dec i2 i1) as [E|]; [|lia]. specialize (W1 H). rewrite <- E in W1, H. rewrite (B3 H) in W1. discriminate. }
  destruct (Nat.eqb_spec i2 0) as [E0|N0].
  - destruct (w (at_ s 0)) eqn:W0.
    + left. apply (prev_zero _ s init i i1); auto.
      * intros k K1. apply kp_eq. assert (X : forall k, k <= i1 -> w (at_ s k) = true).
        { intros q Q. destruct q as [|q]; [exact W0|]. apply B2; lia. }
        rewrite !X; auto.
      * intro H. apply kp_nz, W1, H.
    + destruct (Nat.eq_dec i1 0) as [E1|N1].
      * left. apply (prev_zero _ s init i i1); auto.
        -- intros k K1. replace k with i1 by lia. reflexivity.
        -- lia.
      * assert (S1 : word_start (kp w) s 1 \/ length s <= 1).
        { destruct (Nat.le_gt_cases (length s) 1) as [|G]; [right; assumption|left]. apply start_at. split; [exact G|].
          rewrite kp_nz. rewrite (B2 1) by lia. split; [reflexivity|]. right. cbn. rewrite kp_eq, W0, (B2 1) by lia. discriminate. }
        destruct (Nat.le_gt_cases init 1) as [Q|Q].
        -- left. right. split; [|reflexivity]. intros k K1 W. apply start_at in W. replace k with 0 in W by lia. destruct W as (_ & N & _). apply N, kp_z, W0.
        -- right. split; [reflexivity|]. split; [apply kp_z, W0|]. destruct S1 as [S1|S1]; [|lia]. split; [|auto].
           rewrite <- E0. apply (prev_round _ s init i i1 i2); auto; try lia.
           ++ apply kp_nz, W1. lia.
           ++ intros k K1 K2. apply kp_eq. rewrite (B2 k), (W1 ltac:(lia)) by lia. reflexivity.
           ++ rewrite kp_eq, E0, W0, (W1 ltac:(lia)). discriminate.
  - assert (P1 : 0 < i1) by lia. specialize (LT P1). specialize (W1 P1). specialize (B3 ltac:(lia)).
    destruct (Nat.ltb_spec (S i2) init) as [Q|Q].
    + left. apply (prev_round _ s init i i1 i2); auto.
      * apply kp_nz, W1.
      * intros k K1 K2. apply kp_eq. rewrite (B2 k), W1 by lia. reflexivity.
      * rewrite kp_eq, B3, W1. discriminate.
    + apply IH; lia.
Qed.

Lemma vi_back_spec p s : forall i,
  match vi_back p s i with
  | None => forall k, k < i -> p (at_ s k) = true
  | Some j => j < i /\ (forall k, j < k -> k < i -> p (at_ s k) = true) /\ p (at_ s j) = false
  end.
Proof.
  induction i as [|i IH]; cbn [vi_back]; [intros; lia|]. destruct (p (at_ s i)) eqn:P.
  - destruct (vi_back p s i) as [j|].
    + destruct IH as (A & B & C). split; [lia|]. split; [|exact C]. intros k K1 K2. destruct (Nat.eq_dec k i) as [->|]; [exact P|]. apply B; lia.
    + intros k K1. destruct (Nat.eq_dec k i) as [->|]; [exact P|]. apply IH. lia.
  - split; [lia|]. split; [intros; lia|exact P].
Qed.
Lemma prev_vi_spec W s init : w_ok W -> 0 < init -> init <= length s -> forall fuel i, init - 1 <= i -> i <= init ->
  (init + 2 <= i + fuel /\ 2 <= fuel \/ (i = init - 1 /\ 1 <= fuel)) ->
  last_before (word_start (kind_vi W) s) init (vi_prev_loop W init s fuel i).
Proof.
  intros OK I0 IL. induction fuel as [|fuel IH]; intros i IB IE FU; [lia|]. cbn [vi_prev_loop].
  destruct (back_spec (blank W) s i) as (A1 & A2 & A3). set (i1 := back (blank W) s i) in *.
  assert (Z1 : forall k, i1 < k -> k <= i -> kind_vi W (at_ s k) = 0) by (intros k K1 K2; apply blank_kind, A2; lia).
  assert (W1 : 0 < i1 -> kind_vi W (at_ s i1) <> 0) by (intros H Q; apply blank_kind in Q; rewrite (A3 H) in Q; discriminate).
  set (p := if vichar W (at_ s i1) then vichar W else viother W).
  assert (PK : 0 < i1 -> forall c, p c = true <-> kind_vi W c = kind_vi W (at_ s i1)).
  { intros H c. subst p. destruct (vichar W (at_ s i1)) eqn:V.
    - rewrite (vichar_kind W c OK). apply (vichar_kind W _ OK) in V. rewrite V. reflexivity.
    - rewrite viother_kind. destruct (kind_vi_cases W (at_ s i1)) as [Q|[Q|Q]]; [exfalso; apply (W1 H Q)|apply (vichar_kind W _ OK) in Q; congruence|rewrite Q; reflexivity]. }
  pose proof (vi_back_spec p s i1) as VB. destruct (vi_back p s i1) as [i2|].
  - destruct VB as (B1 & B2 & B3). assert (P1 : 0 < i1) by lia.
    assert (B2' : forall k, i2 < k -> k <= i1 -> kind_vi W (at_ s k) = kind_vi W (at_ s i1)).
    { intros k K1 K2. destruct (Nat.eq_dec k i1) as [->|]; [reflexivity|]. apply (PK P1), B2; lia. }
    destruct (Nat.ltb_spec (S i2) init) as [Q|Q].
    + apply (prev_round _ s init i i1 i2); auto. intro E. apply (PK P1) in E. congruence.
    + apply IH; lia.
  - apply (prev_zero _ s init i i1); auto. intros k K1. destruct (Nat.eq_dec k i1) as [->|]; [reflexivity|].
    apply PK; [lia|]. apply VB. lia.
Qed.

(** * The next end *)
Lemma end_round K s init i a b : i <= a -> init <= i -> i <= S init -> a < b -> b <= length s ->
  (forall k, i <= k -> k < a -> K (at_ s k) = 0) ->
  (forall k, a <= k -> k < b -> K (at_ s k) = K (at_ s a)) -> K (at_ s a) <> 0 ->
  (b < length s -> K (at_ s b) <> K (at_ s a)) -> forall dflt, init < b - 1 -> first_after (word_end K s) init dflt (b - 1).
Proof.
  intros IA I1 I2 AB BL H1 H2 NZ H3 dflt LT. left. split; [exact LT|]. split.
  - apply end_at. split; [lia|]. rewrite (H2 (b - 1)) by lia. split; [exact NZ|].
    replace (S (b - 1)) with b by lia. destruct (Nat.eq_dec b (length s)); [left; assumption|right; apply H3; lia].
  - intros k K1 K2 W. apply end_at in W. destruct W as (_ & N & [D|D]); [lia|].
    destruct (Nat.lt_ge_cases k a) as [Q|Q]; [apply N, H1; lia|]. apply D. rewrite (H2 k), (H2 (S k)) by lia. reflexivity.
Qed.
Definition end_default (s : list N) (i : nat) : nat := if length s <=? i then i else Nat.max (S i) (length s - 1).
Lemma end_loop_spec w s init : init <= length s -> forall fuel i, init <= i -> i <= S init -> i <= length s ->
  (i = init -> 3 <= fuel) -> (i = S init -> 2 <= fuel) ->
  first_after (word_end (kp w) s) init (end_default s init) (end_loop w true init s fuel i).
Proof.
  intros IL. induction fuel as [|fuel IH]; intros i I1 I2 I3 F1 F2; [lia|]. cbn [end_loop].
  destruct (Nat.leb_spec (length s) i) as [G|G].
  - right. split; [intros k K1 W; apply end_at in W; lia|]. unfold end_default.
    destruct (Nat.leb_spec (length s) init); lia.
  - destruct (fwd_spec (notp w) s i I3) as ((A1 & A2) & A3 & A4). set (a := fwd (notp w) s i) in *.
    destruct (fwd_spec w s a A2) as ((B1 & B2) & B3 & B4). set (b := fwd w s a) in *. unfold notp in A3, A4.
    assert (Z : forall k, i <= k -> k < a -> kp w (at_ s k) = 0) by (intros k K1 K2; apply kp_z, negb_true_iff, A3; lia).
    rewrite orb_false_r. destruct (Nat.eq_dec a (length s)) as [E|NE].
    + assert (b = length s) by lia. rewrite H.
      assert (NO : forall k, init < k -> ~ word_end (kp w) s k).
      { intros k K1 W. apply end_at in W. destruct W as (L & N & _). apply N, Z; lia. }
      destruct (Nat.ltb_spec init (length s - 1)) as [Q|Q].
      * right. split; [exact NO|]. unfold end_default. destruct (Nat.leb_spec (length s) init); lia.
      * replace (S (length s - 1)) with (length s) by lia. assert (init = length s - 1) by lia.
        destruct fuel as [|fuel]; [lia|]. cbn [end_loop]. rewrite Nat.leb_refl. right. split; [exact NO|].
        unfold end_default. destruct (Nat.leb_spec (length s) init); lia.
    + assert (WA : w (at_ s a) = true) by (specialize (A4 ltac:(lia)); apply negb_false_iff in A4; exact A4).
      assert (AB : a < b). { destruct (Nat.eq_dec a b) as [Q|]; [|lia]. rewrite <- Q in B4. rewrite (B4 ltac:(lia)) in WA. discriminate. }
      destruct (Nat.ltb_spec init (b - 1)) as [Q|Q].
      * apply (end_round _ s init i a b); auto.
        -- intros k K1 K2. apply kp_eq. rewrite (B3 k), WA by lia. reflexivity.
        -- apply kp_nz, WA.
        -- intro H. rewrite kp_eq, (B4 H), WA. discriminate.
      * replace (S (b - 1)) with b by lia. apply IH; lia.
Qed.
Lemma vi_end_spec W s init : w_ok W -> init <= length s -> forall fuel i, init <= i -> i <= S init -> i <= length s ->
  (i = init -> 3 <= fuel) -> (i = S init -> 2 <= fuel) ->
  first_after (word_end (kind_vi W) s) init (length s) (vi_end_loop W true init s fuel i).
Proof.
  intros OK IL. induction fuel as [|fuel IH]; intros i I1 I2 I3 F1 F2; [lia|]. cbn [vi_end_loop].
  destruct (fwd_spec (blank W) s i I3) as ((A1 & A2) & A3 & A4). set (a := fwd (blank W) s i) in *.
  assert (Z : forall k, i <= k -> k < a -> kind_vi W (at_ s k) = 0) by (intros k K1 K2; apply blank_kind, A3; lia).
  destruct (Nat.leb_spec (length s) a) as [G|G].
  - right. split; [|lia]. intros k K1 W0. apply end_at in W0. destruct W0 as (L & N & _). apply N, Z; lia.
  - specialize (A4 G). assert (NZ : kind_vi W (at_ s a) <> 0) by (intro Q; apply blank_kind in Q; congruence).
    set (p := if vichar W (at_ s a) then vichar W else viother W).
    assert (PK : forall c, p c = true <-> kind_vi W c = kind_vi W (at_ s a)).
    { intros c. subst p. destruct (vichar W (at_ s a)) eqn:V.
      - rewrite (vichar_kind W c OK). apply (vichar_kind W _ OK) in V. rewrite V. reflexivity.
      - rewrite viother_kind. destruct (kind_vi_cases W (at_ s a)) as [Q|[Q|Q]]; [contradiction|apply (vichar_kind W _ OK) in Q; congruence|rewrite Q; reflexivity]. }
    assert (E : (if vichar W (at_ s a) then fwd (vichar W) s (S a) else fwd (viother W) s (S a)) = fwd p s (S a)) by (subst p; destruct (vichar W (at_ s a)); reflexivity).
    rewrite E. destruct (fwd_spec p s (S a) G) as ((B1 & B2) & B3 & B4). set (b := fwd p s (S a)) in *. rewrite orb_false_r.
    destruct (Nat.ltb_spec init (b - 1)) as [Q|Q].
    + apply (end_round _ s init i a b); auto.
      * intros k K1 K2. destruct (Nat.eq_dec k a) as [->|]; [reflexivity|]. apply PK, B3; lia.
      * intros H X. apply PK in X. rewrite (B4 H) in X. discriminate.
    + replace (S (b - 1)) with b by lia. apply IH; lia.
Qed.

(** * Emacs words: the end of the word *)
Lemma next_emacs W s i : i <= length s -> i < length s ->
  exists e, first_after (fun k => 0 < k /\ word_end (kind_emacs W) s (k - 1)) i (length s) e /\ next_emacsword W s i = e.
Proof.
  intros L LT. exists (next_emacsword W s i). split; [|reflexivity]. unfold next_emacsword.
  destruct (fwd_spec (notp (alnum W)) s i L) as ((A1 & A2) & A3 & A4). set (a := fwd (notp (alnum W)) s i) in *.
  destruct (fwd_spec (alnum W) s a A2) as ((B1 & B2) & B3 & B4). set (b := fwd (alnum W) s a) in *. unfold notp in A3, A4.
  assert (NO : forall k, i < k -> k < b -> ~ (0 < k /\ word_end (kind_emacs W) s (k - 1))).
  { intros k K1 K2 (_ & W0). apply end_at in W0. destruct W0 as (_ & N & D). replace (S (k - 1)) with k in D by lia. unfold kind_emacs in *.
    destruct (Nat.lt_ge_cases (k - 1) a) as [Q|Q].
    - specialize (A3 (k - 1) ltac:(lia) Q). apply negb_true_iff in A3. rewrite A3 in N. congruence.
    - destruct D as [D|D]; [lia|]. rewrite (B3 (k - 1)), (B3 k) in D by lia. congruence. }
  destruct (Nat.eq_dec a (length s)) as [E|NE].
  - right. assert (b = length s) by lia. split; [|exact H]. intros k K1 (K2 & W0). pose proof W0 as W1. apply end_at in W1. destruct W1 as (L1 & N & _). unfold kind_emacs in N.
    specialize (A3 (k - 1) ltac:(lia) ltac:(lia)). apply negb_true_iff in A3. rewrite A3 in N. congruence.
  - assert (WA : alnum W (at_ s a) = true) by (specialize (A4 ltac:(lia)); apply negb_false_iff in A4; exact A4).
    assert (AB : a < b). { destruct (Nat.eq_dec a b) as [Q|]; [|lia]. rewrite <- Q in B4. rewrite (B4 ltac:(lia)) in WA. discriminate. }
    left. split; [lia|]. split; [|exact NO]. split; [lia|]. apply end_at. split; [lia|]. replace (S (b - 1)) with b by lia. unfold kind_emacs.
    rewrite (B3 (b - 1)) by lia. split; [discriminate|]. destruct (Nat.eq_dec b (length s)); [left; assumption|right]. rewrite B4 by lia. discriminate.
Qed.

(** * Everything together *)
Lemma word_start_ext K K' s : (forall c, K c = K' c) -> forall i, word_start K s i <-> word_start K' s i.
Proof. intros E i. rewrite !start_at, !E. reflexivity. Qed.
Lemma word_end_ext K K' s : (forall c, K c = K' c) -> forall i, word_end K s i <-> word_end K' s i.
Proof. intros E i. rewrite !end_at, !E. reflexivity. Qed.
Lemma kp_big W c : kp (bigchar W) c = kind_big W c.
Proof. unfold kp, bigchar, kind_big. destruct (blank W c); reflexivity. Qed.
Lemma kp_semi W c : kp (semichar W) c = kind_semi W c.
Proof. unfold kp, semichar, kind_semi. destruct (blank W c), (punct W c); reflexivity. Qed.
Lemma kp_emacs W c : kp (alnum W) c = kind_emacs W c.
Proof. reflexivity. Qed.
Lemma first_after_ext (P Q : nat -> Prop) i d j : (forall k, P k <-> Q k) -> first_after P i d j -> first_after Q i d j.
Proof.
  intros E [(A & B & C)|(A & B)]; [left|right].
  - split; [exact A|]. split; [apply E, B|]. intros k K1 K2 H. apply (C k K1 K2), E, H.
  - split; [|exact B]. intros k K1 H. apply (A k K1), E, H.
Qed.
Lemma last_before_ext (P Q : nat -> Prop) i j : (forall k, P k <-> Q k) -> last_before P i j -> last_before Q i j.
Proof.
  intros E [(A & B & C)|(A & B)]; [left|right].
  - split; [exact A|]. split; [apply E, B|]. intros k K1 K2 H. apply (C k K1 K2), E, H.
  - split; [|exact B]. intros k K1 H. apply (A k K1), E, H.
Qed.
Lemma prev_but_first_ext K K' s i j : (forall c, K c = K' c) -> prev_but_first K s i j -> prev_but_first K' s i j.
Proof.
  intros E [H|(A & B & C & D & F)]; [left; eapply last_before_ext; [|exact H]; apply word_start_ext, E|right].
  split; [exact A|]. split; [rewrite <- E; exact B|]. split; [eapply last_before_ext; [|exact C]; apply word_start_ext, E|]. split; [|exact F].
  eapply word_start_ext; [|exact D]. intro c. symmetry. apply E.
Qed.
Lemma next_of_spec W k s i : w_ok W -> i <= length s -> first_after (word_start (kind_of W k) s) i (length s) (next_of W k s i).
Proof.
  intros OK L. destruct k; cbn [next_of kind_of].
  - eapply first_after_ext; [|apply (next_two (bigchar W) s i L)]. apply word_start_ext, kp_big.
  - eapply first_after_ext; [|apply (next_two (semichar W) s i L)]. apply word_start_ext, kp_semi.
  - apply next_vi; assumption.
Qed.
Lemma prev_of_spec W k s i : w_ok W -> 0 < i -> i <= length s ->
  match k with Viw => last_before (word_start (kind_of W k) s) i (prev_of W k s i) | _ => prev_but_first (kind_of W k) s i (prev_of W k s i) end.
Proof.
  intros OK P L. destruct k; cbn [prev_of kind_of].
  - eapply prev_but_first_ext; [apply kp_big|]. apply prev_loop_spec; lia.
  - eapply prev_but_first_ext; [apply kp_semi|]. apply prev_loop_spec; lia.
  - apply prev_vi_spec; try assumption; lia.
Qed.
Lemma end_of_spec W k s i : w_ok W -> i <= length s ->
  first_after (word_end (kind_of W k) s) i (match k with Viw => length s | _ => end_default s i end) (end_of W k s i true).
Proof.
  intros OK L. destruct k; cbn [end_of kind_of].
  - eapply first_after_ext; [|apply (end_loop_spec (bigchar W) s i L 3 i); lia]. apply word_end_ext, kp_big.
  - eapply first_after_ext; [|apply (end_loop_spec (semichar W) s i L 3 i); lia]. apply word_end_ext, kp_semi.
  - apply vi_end_spec; try assumption; lia.
Qed.

(** * Inside the line *)
Lemma first_start_le K s i d j : d <= length s -> first_after (word_start K s) i d j -> j <= length s.
Proof. intros D [(A & B & _)|(_ & ->)]; [apply start_at in B; lia|exact D]. Qed.
Lemma last_before_le P i j : last_before P i j -> j <= i.
Proof. intros [(A & _)|(_ & ->)]; lia. Qed.
Lemma forward_n_le next s : (forall i, i < length s -> next s i <= length s) -> forall n i, i <= length s -> forward_n next s n i <= length s.
Proof. intro H. induction n as [|n IH]; intros i L; cbn [forward_n]; [exact L|]. destruct (Nat.ltb_spec i (length s)); auto. Qed.
Lemma backward_n_le prev s : (forall i, 0 < i -> i <= length s -> prev s i <= i) -> forall n i, i <= length s -> backward_n prev s n i <= i.
Proof.
  intro H. induction n as [|n IH]; intros i L; cbn [backward_n]; [lia|]. destruct (Nat.ltb_spec 0 i) as [P|P]; [|lia].
  specialize (H i P L). specialize (IH (prev s i)). lia.
Qed.
