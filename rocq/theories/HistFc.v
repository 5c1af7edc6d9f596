(** The ranges of the fc built-in, and the addition of lines. *)
From Coq Require Import List NArith ZArith Bool Arith Lia Sorted.
From Verif Require Import Common HistModel HistSpec HistProof.
Import ListNotations.
Local Open Scope N_scope.

Lemma walk_spec : forall m i j, walk i j m = if (i <=? j)%nat && (j <? i + length m)%nat then Some (firstn (S (j - i)) m) else None.
Proof.
  induction m as [|e m IH]; intros i j; cbn [walk length].
  - destruct (Nat.leb_spec i j), (Nat.ltb_spec j (i + 0)); try lia; reflexivity.
  - destruct (Nat.eqb_spec i j) as [->|N].
    + rewrite Nat.leb_refl. destruct (Nat.ltb_spec j (j + S (length m))); [|lia]. cbn [andb].
      replace (j - j)%nat with O by lia. reflexivity.
    + rewrite IH. destruct (Nat.leb_spec (S i) j), (Nat.leb_spec i j); try lia; [|reflexivity]. cbn [andb].
      destruct (Nat.ltb_spec j (S i + length m)), (Nat.ltb_spec j (i + S (length m))); try lia; [|reflexivity].
      cbn [option_map]. replace (j - i)%nat with (S (j - S i)) by lia. reflexivity.
Qed.
Definition segment (f t : nat) (l : hist) : hist := firstn (S (t - f)) (skipn f l).
Lemma walk_entries_spec : forall l f t r, (f < length l)%nat -> (t < length l)%nat ->
  walk_entries f t r l = if (f <=? t)%nat then Some (if r then rev (segment f t l) else segment f t l) else None.
Proof.
  intros l f t r Hf Ht. unfold walk_entries, segment. destruct r; rewrite walk_spec.
  - rewrite skipn_length, rev_length.
    destruct (Nat.leb_spec f t), (Nat.leb_spec (length l - 1 - t) (length l - 1 - f)); try lia; [|reflexivity].
    destruct (Nat.ltb_spec (length l - 1 - f) (length l - 1 - t + (length l - (length l - 1 - t)))); [|lia]. cbn [andb]. f_equal.
    rewrite skipn_rev. replace (length l - (length l - 1 - t))%nat with (S t) by lia.
    rewrite firstn_rev. rewrite firstn_length_le by lia. rewrite firstn_skipn_comm. f_equal. f_equal; [lia|]. f_equal. lia.
  - rewrite skipn_length. destruct (Nat.leb_spec f t); [|reflexivity].
    destruct (Nat.ltb_spec t (f + (length l - f))); [reflexivity|lia].
Qed.
Lemma filter_segment : forall P (l : hist) f t, (f <= t < length l)%nat ->
  (forall i e, nth_error l i = Some e -> P e = ((f <=? i) && (i <=? t))%nat) -> filter P l = segment f t l.
Proof.
  intros P l f t H HP. unfold segment.
  rewrite <- (firstn_skipn f l) at 1. rewrite filter_app.
  rewrite <- (firstn_skipn (S (t - f)) (skipn f l)) at 1. rewrite filter_app.
  assert (N0 : forall m : hist, (forall e, In e m -> P e = false) -> filter P m = []).
  { clear. induction m as [|e m IH]; cbn [filter]; intro H; [reflexivity|]. rewrite (H e) by (left; reflexivity). apply IH.
    intros x Hx. apply H. right. assumption. }
  assert (A0 : forall m : hist, (forall e, In e m -> P e = true) -> filter P m = m).
  { clear. induction m as [|e m IH]; cbn [filter]; intro H; [reflexivity|]. rewrite (H e) by (left; reflexivity). f_equal. apply IH.
    intros x Hx. apply H. right. assumption. }
  assert (Nth1 : forall k (m : hist) e, In e (firstn k m) -> exists i, (i < k)%nat /\ nth_error m i = Some e).
  { clear. induction k as [|k IH]; intros [|y m] e; cbn [firstn In]; try tauto. intros [->|I].
    - exists O. split; [lia|reflexivity].
    - destruct (IH _ _ I) as (i & Hi & E). exists (S i). split; [lia|exact E]. }
  rewrite (N0 (firstn f l)), (A0 (firstn (S (t - f)) (skipn f l))), (N0 (skipn (S (t - f)) (skipn f l))).
  - cbn [app]. apply app_nil_r.
  - intros e I. apply In_nth_error in I. destruct I as [i I]. rewrite !nth_error_skip in I. rewrite (HP _ _ I).
    destruct (Nat.leb_spec f (f + (S (t - f) + i))), (Nat.leb_spec (f + (S (t - f) + i)) t); try reflexivity; lia.
  - intros e I. apply Nth1 in I. destruct I as (i & Hi & I). rewrite nth_error_skip in I. rewrite (HP _ _ I).
    destruct (Nat.leb_spec f (f + i)), (Nat.leb_spec (f + i) t); try reflexivity; lia.
  - intros e I. apply Nth1 in I. destruct I as (i & Hi & I). rewrite (HP _ _ I).
    destruct (Nat.leb_spec f i), (Nat.leb_spec i t); try reflexivity; lia.
Qed.

Section Fc.
Variable max : N.
Variable l : hist.
Hypothesis ne : l <> [].
Variable c : nat.
Hypothesis T : turn l c.
Hypothesis bnd : forall i, (i < length l)%nat -> 1 <= num_at l i <= max.
Notation n := (length l).
Notation K := (kx max l c).
Notation pl := (place max l c).

(** The four forms of a place *)
Inductive form (k : N) : option nat -> option nat -> nat -> nat -> Prop :=
  | f_exact j : (j < n)%nat -> k = K j -> form k (Some j) (Some j) j j
  | f_gap j : (S j < n)%nat -> K j < k -> k < K (S j) -> form k (Some j) (Some (S j)) (S j) j
  | f_low : k < K 0 -> form k None (Some O) O O
  | f_high : K (n - 1) < k -> form k (Some (n - 1)%nat) None (n - 1) (n - 1).
Lemma place_form : forall k p q, pl k p q -> exists lo hi, form k p q lo hi.
Proof.
  intros k p q (Hp & Hq & H). pose proof (n_pos max l ne c T bnd) as Np.
  assert (Kle := kx_le max l ne c T bnd).
  destruct p as [p|], q as [q|].
  - destruct (H p Hp) as [[_ H1] _]. specialize (H1 (le_n p)). destruct (H q Hq) as [_ [_ H2]]. specialize (H2 (le_n q)).
    assert (p <= q)%nat by (apply Kle; [assumption|assumption|lia]).
    assert (q <= S p)%nat. { destruct (Nat.lt_ge_cases (S p) n) as [L|L]; [|lia]. destruct (H (S p) L) as [H3 H4]. apply H4. lia. }
    destruct (Nat.eq_dec q p) as [->|Nq].
    + exists p, p. apply f_exact; [assumption|lia].
    + assert (q = S p) by lia. subst q. exists (S p), p. destruct (H p Hp) as [_ H5]. destruct (H (S p) Hq) as [H6 _].
      apply f_gap; [assumption|lia|lia].
  - exists (n - 1)%nat, (n - 1)%nat. destruct (H (n - 1)%nat ltac:(lia)) as [H1 H2].
    assert (K (n - 1)%nat < k) by lia. assert (p = n - 1)%nat by lia. subst p. apply f_high. assumption.
  - exists O, O. destruct (H O ltac:(lia)) as [H1 H2]. assert (q = O) by lia. subst q. apply f_low. lia.
  - destruct (H O ltac:(lia)) as [H1 H2]. lia.
Qed.
Lemma K0 : first_num l = K 0.
Proof.
  rewrite first_num_at. destruct T as (T0 & _). unfold kx. destruct (Nat.ltb_spec 0 c); [reflexivity|lia].
Qed.
Lemma Kn : key max l (last_num l) = K (n - 1).
Proof. rewrite last_num_at. apply key_at; [exact ne|exact T|exact bnd|]. pose proof (n_pos max l ne c T bnd). lia. Qed.
Lemma form_clamp : forall k p q lo hi, form k p q lo hi -> forall i, (i < n)%nat ->
  (clamp max l k <= K i <-> (lo <= i)%nat) /\ (K i <= clamp max l k <-> (i <= hi)%nat).
Proof.
  intros k p q lo hi F i Hi. unfold clamp. rewrite Kn, K0. pose proof (n_pos max l ne c T bnd) as Np.
  assert (Kle := kx_le max l ne c T bnd).
  pose proof (Kle O i ltac:(lia) Hi). pose proof (Kle i (n - 1)%nat Hi ltac:(lia)). pose proof (Kle i O Hi ltac:(lia)).
  pose proof (Kle (n - 1)%nat i ltac:(lia) Hi). pose proof (Kle O (n - 1)%nat ltac:(lia) ltac:(lia)).
  inversion F; subst.
  - pose proof (Kle hi i ltac:(lia) Hi). pose proof (Kle i hi Hi ltac:(lia)).
    pose proof (Kle O hi ltac:(lia) ltac:(lia)). pose proof (Kle hi (n - 1)%nat ltac:(lia) ltac:(lia)). lia.
  - pose proof (Kle hi i ltac:(lia) Hi). pose proof (Kle i hi Hi ltac:(lia)).
    pose proof (Kle (S hi) i ltac:(lia) Hi). pose proof (Kle i (S hi) Hi ltac:(lia)).
    pose proof (Kle O hi ltac:(lia) ltac:(lia)). pose proof (Kle (S hi) (n - 1)%nat ltac:(lia) ltac:(lia)). lia.
  - lia.
  - lia.
Qed.
Lemma between_segment : forall k1 p1 q1 lo1 hi1 k2 p2 q2 lo2 hi2, form k1 p1 q1 lo1 hi1 -> form k2 p2 q2 lo2 hi2 ->
  (Nat.min lo1 lo2 <= Nat.max hi1 hi2)%nat ->
  between max l k1 k2 = segment (Nat.min lo1 lo2) (Nat.max hi1 hi2) l.
Proof.
  intros k1 p1 q1 lo1 hi1 k2 p2 q2 lo2 hi2 F1 F2 H. pose proof (n_pos max l ne c T bnd) as Np.
  assert (B : forall k p q lo hi, form k p q lo hi -> (lo < n)%nat /\ (hi < n)%nat).
  { intros k p q lo hi F. inversion F; subst; lia. }
  pose proof (B _ _ _ _ _ F1). pose proof (B _ _ _ _ _ F2). clear B.
  unfold between. apply filter_segment; [lia|]. intros i e E. cbv zeta.
  assert (Hi : (i < n)%nat) by (apply nth_error_Some; congruence).
  rewrite <- (num_at_nth _ _ _ E). rewrite (key_at max l ne c T bnd i Hi).
  destruct (form_clamp _ _ _ _ _ F1 i Hi) as [A1 A2]. destruct (form_clamp _ _ _ _ _ F2 i Hi) as [B1 B2].
  apply eq_true_iff_eq. rewrite !andb_true_iff, !N.leb_le, !Nat.leb_le. lia.
Qed.
(** Whether the first place is newer, by the forms *)
Lemma newer_forms : forall k1 p1 q1 lo1 hi1 k2 p2 q2 lo2 hi2, form k1 p1 q1 lo1 hi1 -> form k2 p2 q2 lo2 hi2 ->
  result_newer l p1 q1 p2 q2 =
  match p1, q2 with
  | Some p1, Some q2 => match q1, p2 with Some q1, Some p2 => (p2 <=? p1)%nat || (q2 <=? q1)%nat | _, _ => true end
  | _, _ => false
  end.
Proof.
  intros k1 p1 q1 lo1 hi1 k2 p2 q2 lo2 hi2 F1 F2. unfold result_newer.
  destruct p1 as [p1|]; [|reflexivity]. destruct q2 as [q2|]; [|reflexivity]. destruct q1 as [q1|]; [|reflexivity].
  destruct p2 as [p2|]; [|reflexivity].
  assert (p1 < n /\ q1 < n)%nat by (inversion F1; subst; lia). assert (p2 < n /\ q2 < n)%nat by (inversion F2; subst; lia).
  rewrite !(newer_at max l ne c T bnd) by lia. reflexivity.
Qed.
Definition bad (p1 q1 p2 q2 : option nat) : Prop :=
  match p1, q1, p2, q2 with
  | Some p1, Some q1, Some p2, Some q2 => (p1 = p2 /\ q2 = S p1 \/ q1 = S p1 /\ q2 = q1)%nat
  | _, _, _, _ => False
  end.
Lemma rev_single : forall f, (f < n)%nat -> rev (segment f f l) = segment f f l.
Proof.
  intros f H. unfold segment. replace (f - f)%nat with O by lia. destruct (skipn f l) as [|x r]; reflexivity.
Qed.
Lemma range_forms : forall rv k1 p1 q1 lo1 hi1 k2 p2 q2 lo2 hi2, form k1 p1 q1 lo1 hi1 -> form k2 p2 q2 lo2 hi2 ->
  (bad p1 q1 p2 q2 -> fc_range rv p1 q1 p2 q2 l = FcCrash) /\
  (~ bad p1 q1 p2 q2 -> fc_range rv p1 q1 p2 q2 l = FcEntries (selection max rv l k1 k2)).
Proof.
  intros rv k1 p1 q1 lo1 hi1 k2 p2 q2 lo2 hi2 F1 F2. pose proof (n_pos max l ne c T bnd) as Np.
  assert (Kle := kx_le max l ne c T bnd).
  unfold fc_range. rewrite (newer_forms _ _ _ _ _ _ _ _ _ _ F1 F2).
  pose proof (between_segment _ _ _ _ _ _ _ _ _ _ F1 F2) as BS. unfold selection.
  assert (G : forall f t r, (f < n)%nat -> (t < n)%nat -> (t < f)%nat -> match walk_entries f t r l with Some r => FcEntries r | None => FcCrash end = FcCrash).
  { intros f t r Hf Ht L. rewrite walk_entries_spec by assumption. destruct (Nat.leb_spec f t); [lia|reflexivity]. }
  assert (G2 : forall f t r, (f <= t < n)%nat -> (f = Nat.min lo1 lo2)%nat -> (t = Nat.max hi1 hi2)%nat ->
     (r = xorb rv (k2 <? k1) \/ f = t) ->
     match walk_entries f t r l with Some r => FcEntries r | None => FcCrash end =
     FcEntries (if xorb rv (k2 <? k1) then rev (between max l k1 k2) else between max l k1 k2)).
  { intros f t r H Ef Et Hr. rewrite walk_entries_spec by lia. destruct (Nat.leb_spec f t); [|lia]. f_equal.
    rewrite BS by lia. rewrite <- Ef, <- Et. destruct Hr as [-> | ->]; [reflexivity|]. rewrite rev_single by lia.
    destruct r, (xorb rv (k2 <? k1)); reflexivity. }
  assert (X1 : negb rv = xorb rv true) by (destruct rv; reflexivity).
  assert (X0 : rv = xorb rv false) by (destruct rv; reflexivity).
  inversion F1; subst; inversion F2; subst; cbn [bad].
  - (* exact, exact *)
    pose proof (Kle hi1 hi2 ltac:(lia) ltac:(lia)). pose proof (Kle hi2 hi1 ltac:(lia) ltac:(lia)).
    split; [lia|]. intros _. destruct (Nat.leb_spec hi2 hi1); cbn [orb].
    + apply G2; [lia|lia|lia|]. destruct (N.ltb_spec (K hi2) (K hi1)); [left; assumption|right; lia].
    + apply G2; [lia|lia|lia|]. destruct (N.ltb_spec (K hi2) (K hi1)); [lia|left; assumption].
  - (* exact, gap *)
    pose proof (Kle hi1 hi2 ltac:(lia) ltac:(lia)). pose proof (Kle hi2 hi1 ltac:(lia) ltac:(lia)).
    pose proof (Kle hi1 (S hi2) ltac:(lia) ltac:(lia)). pose proof (Kle (S hi2) hi1 ltac:(lia) ltac:(lia)).
    destruct (Nat.eq_dec hi1 hi2) as [E|E].
    + split; [|lia]. intros _. rewrite E, Nat.leb_refl. cbn [orb]. apply G; lia.
    + split; [lia|]. intros _. destruct (Nat.leb_spec hi2 hi1), (Nat.leb_spec (S hi2) hi1); try lia; cbn [orb].
      * apply G2; [lia|lia|lia|]. destruct (N.ltb_spec k2 (K hi1)); [left; assumption|right; lia].
      * apply G2; [lia|lia|lia|]. destruct (N.ltb_spec k2 (K hi1)); [lia|left; assumption].
  - (* exact, low *)
    pose proof (Kle O hi1 ltac:(lia) ltac:(lia)). split; [tauto|]. intros _.
    apply G2; [lia|lia|lia|]. destruct (N.ltb_spec k2 (K hi1)); [left; assumption|right; lia].
  - (* exact, high *)
    pose proof (Kle hi1 (n - 1)%nat ltac:(lia) ltac:(lia)). split; [tauto|]. intros _.
    apply G2; [lia|lia|lia|]. destruct (N.ltb_spec k2 (K hi1)); [lia|left; assumption].
  - (* gap, exact *)
    pose proof (Kle hi1 hi2 ltac:(lia) ltac:(lia)). pose proof (Kle hi2 hi1 ltac:(lia) ltac:(lia)).
    pose proof (Kle (S hi1) hi2 ltac:(lia) ltac:(lia)). pose proof (Kle hi2 (S hi1) ltac:(lia) ltac:(lia)).
    destruct (Nat.eq_dec (S hi1) hi2) as [E|E].
    + split; [|lia]. intros _. destruct (Nat.leb_spec hi2 hi1), (Nat.leb_spec hi2 (S hi1)); try lia; cbn [orb]; apply G; lia.
    + split; [lia|]. intros _. destruct (Nat.leb_spec hi2 hi1), (Nat.leb_spec hi2 (S hi1)); try lia; cbn [orb].
      * apply G2; [lia|lia|lia|]. destruct (N.ltb_spec (K hi2) k1); [left; assumption|right; lia].
      * apply G2; [lia|lia|lia|]. destruct (N.ltb_spec (K hi2) k1); [lia|left; assumption].
  - (* gap, gap *)
    pose proof (Kle hi1 hi2 ltac:(lia) ltac:(lia)). pose proof (Kle hi2 hi1 ltac:(lia) ltac:(lia)).
    pose proof (Kle (S hi1) hi2 ltac:(lia) ltac:(lia)). pose proof (Kle (S hi2) hi1 ltac:(lia) ltac:(lia)).
    destruct (Nat.eq_dec hi1 hi2) as [E|E].
    + split; [|lia]. intros _. rewrite E, Nat.leb_refl. cbn [orb]. apply G; lia.
    + split; [lia|]. intros _. destruct (Nat.leb_spec hi2 hi1), (Nat.leb_spec (S hi2) (S hi1)); try lia; cbn [orb].
      * apply G2; [lia|lia|lia|]. destruct (N.ltb_spec k2 k1); [left; assumption|lia].
      * apply G2; [lia|lia|lia|]. destruct (N.ltb_spec k2 k1); [lia|left; assumption].
  - (* gap, low *)
    pose proof (Kle O hi1 ltac:(lia) ltac:(lia)). split; [tauto|]. intros _.
    apply G2; [lia|lia|lia|]. destruct (N.ltb_spec k2 k1); [left; assumption|lia].
  - (* gap, high *)
    pose proof (Kle (S hi1) (n - 1)%nat ltac:(lia) ltac:(lia)). split; [tauto|]. intros _.
    apply G2; [lia|lia|lia|]. destruct (N.ltb_spec k2 k1); [lia|left; assumption].
  - pose proof (Kle O hi2 ltac:(lia) ltac:(lia)). split; [tauto|]. intros _.
    apply G2; [lia|lia|lia|]. destruct (N.ltb_spec (K hi2) k1); [lia|left; assumption].
  - pose proof (Kle O hi2 ltac:(lia) ltac:(lia)). split; [tauto|]. intros _.
    apply G2; [lia|lia|lia|]. destruct (N.ltb_spec k2 k1); [lia|left; assumption].
  - split; [tauto|]. intros _. apply G2; [lia|lia|lia|]. right. reflexivity.
  - pose proof (Kle O (n - 1)%nat ltac:(lia) ltac:(lia)). split; [tauto|]. intros _.
    apply G2; [lia|lia|lia|]. destruct (N.ltb_spec k2 k1); [lia|left; assumption].
  - pose proof (Kle hi2 (n - 1)%nat ltac:(lia) ltac:(lia)). split; [tauto|]. intros _.
    apply G2; [lia|lia|lia|]. destruct (N.ltb_spec (K hi2) k1); [left; assumption|lia].
  - pose proof (Kle (S hi2) (n - 1)%nat ltac:(lia) ltac:(lia)). split; [tauto|]. intros _.
    apply G2; [lia|lia|lia|]. destruct (N.ltb_spec k2 k1); [left; assumption|lia].
  - pose proof (Kle O (n - 1)%nat ltac:(lia) ltac:(lia)). split; [tauto|]. intros _.
    apply G2; [lia|lia|lia|]. destruct (N.ltb_spec k2 k1); [left; assumption|lia].
  - split; [tauto|]. intros _. apply G2; [lia|lia|lia|]. right. reflexivity.
Qed.

Ltac nogap E1 E2 := first [congruence | injection E1; injection E2; intros; exfalso; lia].
Lemma missing_form : forall k p q lo hi, form k p q lo hi ->
  (missing max l k <-> exists j, p = Some j /\ q = Some (S j)).
Proof.
  intros k p q lo hi F. pose proof (n_pos max l ne c T bnd) as Np. assert (Kle := kx_le max l ne c T bnd). unfold missing. rewrite K0, Kn.
  assert (KI : forall e, In e l -> exists i, (i < n)%nat /\ key max l (e_num e) = K i).
  { intros e I. destruct (in_num_at _ _ I) as (i & Hi & E & _). exists i. split; [assumption|]. rewrite <- E. apply key_at; assumption. }
  inversion F; subst.
  - split; [|intros (j & E1 & E2); nogap E1 E2]. intros [_ M]. exfalso. destruct (at_in l hi ltac:(lia)) as (e & I & E & _).
    apply (M e I). rewrite E. apply key_at; assumption.
  - split; [intros _; exists hi; split; reflexivity|]. intros _.
    pose proof (Kle O hi ltac:(lia) ltac:(lia)). pose proof (Kle (S hi) (n - 1)%nat ltac:(lia) ltac:(lia)). split; [lia|].
    intros e I. destruct (KI e I) as (i & Hi & ->). pose proof (Kle i hi Hi ltac:(lia)). pose proof (Kle (S hi) i ltac:(lia) Hi).
    destruct (Nat.le_gt_cases i hi); lia.
  - split; [lia|intros (j & E1 & E2); nogap E1 E2].
  - split; [lia|intros (j & E1 & E2); nogap E1 E2].
Qed.
Lemma touching_bad : forall k1 p1 q1 lo1 hi1 k2 p2 q2 lo2 hi2, form k1 p1 q1 lo1 hi1 -> form k2 p2 q2 lo2 hi2 ->
  (touching max l k1 k2 <-> bad p1 q1 p2 q2).
Proof.
  intros k1 p1 q1 lo1 hi1 k2 p2 q2 lo2 hi2 F1 F2. pose proof (n_pos max l ne c T bnd) as Np. assert (Kle := kx_le max l ne c T bnd).
  unfold touching. rewrite (missing_form _ _ _ _ _ F1), (missing_form _ _ _ _ _ F2).
  assert (KI : forall e, In e l -> exists i, (i < n)%nat /\ key max l (e_num e) = K i).
  { intros e I. destruct (in_num_at _ _ I) as (i & Hi & E & _). exists i. split; [assumption|]. rewrite <- E. apply key_at; assumption. }
  assert (KE : (forall e, In e l -> ~ (k1 < key max l (e_num e) < k2) /\ ~ (k2 < key max l (e_num e) < k1)) <->
               (forall i, (i < n)%nat -> ~ (k1 < K i < k2) /\ ~ (k2 < K i < k1))).
  { split; intros H.
    - intros i Hi. destruct (at_in l i Hi) as (e & I & E & _). specialize (H e I). rewrite E in H.
      rewrite (key_at max l ne c T bnd i Hi) in H. exact H.
    - intros e I. destruct (KI e I) as (i & Hi & ->). apply H. assumption. }
  rewrite KE. clear KE KI.
  inversion F1; subst; inversion F2; subst; cbn [bad].
  - split; [|lia]. intros [_ [[(j & E1 & E2) _]|[_ [(j & E1 & E2)|(j & E1 & E2)]]]]; nogap E1 E2.
  - (* exact, gap *)
    pose proof (Kle hi1 hi2 ltac:(lia) ltac:(lia)). pose proof (Kle hi2 hi1 ltac:(lia) ltac:(lia)). split.
    + intros [HB [[(j & E1 & E2) _]|[L _]]]; [nogap E1 E2|]. specialize (HB hi2 ltac:(lia)).
      pose proof (Kle (S hi2) hi1 ltac:(lia) ltac:(lia)). lia.
    + intro B. assert (hi1 = hi2) by lia. subst hi2. split.
      * intros i Hi. pose proof (Kle i hi1 Hi ltac:(lia)). pose proof (Kle (S hi1) i ltac:(lia) Hi).
        destruct (Nat.le_gt_cases i hi1); lia.
      * right. split; [assumption|]. right. exists hi1. split; reflexivity.
  - split; [|tauto]. intros [_ [[(j & E1 & E2) _]|[_ [(j & E1 & E2)|(j & E1 & E2)]]]]; nogap E1 E2.
  - split; [|tauto]. intros [_ [[(j & E1 & E2) _]|[_ [(j & E1 & E2)|(j & E1 & E2)]]]]; nogap E1 E2.
  - (* gap, exact *)
    pose proof (Kle hi1 hi2 ltac:(lia) ltac:(lia)). pose proof (Kle hi2 hi1 ltac:(lia) ltac:(lia)). split.
    + intros [HB [[_ (j & E1 & E2)]|[L _]]]; [nogap E1 E2|]. specialize (HB (S hi1) ltac:(lia)).
      pose proof (Kle hi2 (S hi1) ltac:(lia) ltac:(lia)). lia.
    + intro B. assert (hi2 = S hi1) by lia. subst hi2. split.
      * intros i Hi. pose proof (Kle i hi1 Hi ltac:(lia)). pose proof (Kle (S hi1) i ltac:(lia) Hi).
        destruct (Nat.le_gt_cases i hi1); lia.
      * right. split; [assumption|]. left. exists hi1. split; reflexivity.
  - (* gap, gap *)
    split.
    + intros [HB _]. destruct (Nat.lt_trichotomy hi1 hi2) as [L|[->|L]]; [| lia|].
      * specialize (HB (S hi1) ltac:(lia)). pose proof (Kle (S hi1) hi2 ltac:(lia) ltac:(lia)). lia.
      * specialize (HB (S hi2) ltac:(lia)). pose proof (Kle (S hi2) hi1 ltac:(lia) ltac:(lia)). lia.
    + intro B. assert (hi2 = hi1) by lia. subst hi2. split.
      * intros i Hi. pose proof (Kle i hi1 Hi ltac:(lia)). pose proof (Kle (S hi1) i ltac:(lia) Hi).
        destruct (Nat.le_gt_cases i hi1); lia.
      * left. split; exists hi1; split; reflexivity.
  - pose proof (Kle O hi1 ltac:(lia) ltac:(lia)). split; [|tauto]. intros [_ [[_ (j & E1 & E2)]|[L _]]]; [nogap E1 E2|lia].
  - split; [|tauto]. intros [HB [[_ (j & E1 & E2)]|[L _]]]; [nogap E1 E2|]. specialize (HB (S hi1) ltac:(lia)).
    pose proof (Kle (S hi1) (n - 1)%nat ltac:(lia) ltac:(lia)). lia.
  - split; [|tauto]. intros [_ [[(j & E1 & E2) _]|[_ [(j & E1 & E2)|(j & E1 & E2)]]]]; nogap E1 E2.
  - split; [|tauto]. intros [HB [[(j & E1 & E2) _]|[L _]]]; [nogap E1 E2|]. specialize (HB O ltac:(lia)).
    pose proof (Kle O hi2 ltac:(lia) ltac:(lia)). lia.
  - split; [|tauto]. intros [_ [[(j & E1 & E2) _]|[_ [(j & E1 & E2)|(j & E1 & E2)]]]]; nogap E1 E2.
  - split; [|tauto]. intros [_ [[(j & E1 & E2) _]|[_ [(j & E1 & E2)|(j & E1 & E2)]]]]; nogap E1 E2.
  - split; [|tauto]. intros [_ [[(j & E1 & E2) _]|[_ [(j & E1 & E2)|(j & E1 & E2)]]]]; nogap E1 E2.
  - pose proof (Kle (S hi2) (n - 1)%nat ltac:(lia) ltac:(lia)). split; [|tauto]. intros [_ [[(j & E1 & E2) _]|[L _]]]; [nogap E1 E2|lia].
  - split; [|tauto]. intros [_ [[(j & E1 & E2) _]|[_ [(j & E1 & E2)|(j & E1 & E2)]]]]; nogap E1 E2.
  - split; [|tauto]. intros [_ [[(j & E1 & E2) _]|[_ [(j & E1 & E2)|(j & E1 & E2)]]]]; nogap E1 E2.
Qed.

Lemma prefixb_iff : forall p s, prefixb p s = true <-> has_prefix p s.
Proof.
  induction p as [|a p IH]; intros s; cbn [prefixb].
  - split; [intros _; exists s; reflexivity|reflexivity].
  - destruct s as [|b s]; [split; [discriminate|intros [r H]; discriminate]|].
    rewrite andb_true_iff, N.eqb_eq, IH. unfold has_prefix. split.
    + intros [-> [r ->]]. exists r. reflexivity.
    + intros [r H]. cbn [app] in H. inversion H; subst. split; [reflexivity|exists r; reflexivity].
Qed.
Lemma find_prefix_skip : forall p r1 e r2 i, (forall x, In x r1 -> ~ has_prefix p (e_val x)) -> has_prefix p (e_val e) ->
  find_prefix p i (r1 ++ e :: r2) = Some (i + length r1)%nat.
Proof.
  intros p r1. induction r1 as [|x r1 IH]; intros e r2 i H He; cbn [app find_prefix length].
  - rewrite (proj2 (prefixb_iff _ _) He). f_equal. lia.
  - destruct (prefixb p (e_val x)) eqn:E; [exfalso; apply (H x); [left; reflexivity|apply prefixb_iff; assumption]|].
    rewrite IH; [f_equal; lia| |assumption]. intros y Hy. apply H. right. assumption.
Qed.
Lemma at_app : forall l1 e l2, l = l1 ++ e :: l2 -> num_at l (length l1) = e_num e /\ (length l1 < n)%nat.
Proof.
  intros l1 e l2 E. rewrite E. rewrite num_at_app2 by lia. replace (length l1 - length l1)%nat with O by lia.
  split; [reflexivity|]. rewrite app_length. cbn [length]. lia.
Qed.
Lemma means_place : forall o k, means max l o k -> exists p q, fc_search max o l = SRes p q /\ pl k p q.
Proof.
  intros o k M. pose proof (n_pos max l ne c T bnd) as Np. destruct M as [z Hz Hs|z l1 e l2 Hz E El|z Hz El|p l1 e l2 E Hp Hn]; cbn [fc_search].
  - rewrite (proj2 (Z.gtb_lt z 0)) by lia. pose proof (search_ok max l ne c T bnd (Z.to_N z)) as S.
    destruct (search max (Z.to_N z) l) as [|p q].
    + exfalso. apply Hs. apply (seam_iff max l ne c T bnd). exact S.
    + exists p, q. split; [reflexivity|apply S].
  - destruct (at_app _ _ _ E) as [A1 A2]. exists (Some (length l1)), (Some (length l1)).
    assert (Ln : (length l = length l1 + length (e :: l2))%nat) by (rewrite E, app_length; reflexivity).
    split.
    + destruct (Z.gtb_spec z 0); [lia|]. destruct (Z.eqb_spec z INT_MIN) as [Zi|Zi]; [lia|].
      assert (Zn : Z.to_N (- z) = N.of_nat (length (e :: l2))) by lia.
      rewrite Zn. unfold nth_newest, count. rewrite Ln. cbn [length] in *.
      destruct (N.leb_spec (N.of_nat (length l1 + S (length l2))) (N.of_nat (S (length l2)))).
      * destruct l as [|e0 l0] eqn:E0; [congruence|]. destruct l1; [|cbn [length] in *; lia].
        cbn [length]. destruct (N.ltb_spec (N.of_nat (0 + S (length l2))) (N.of_nat (S (length l2)))); [lia|reflexivity].
      * destruct (N.eqb_spec (N.of_nat (S (length l2))) 0) as [Zj|Zj]; [lia|].
        destruct (N.ltb_spec (N.of_nat (length l1 + S (length l2))) (N.of_nat (S (length l2)))); [lia|].
        replace (length l1 + S (length l2) - N.to_nat (N.of_nat (S (length l2))))%nat with (length l1) by lia. reflexivity.
    + apply place_exact; [exact ne|exact T|exact bnd|assumption|]. rewrite <- A1. apply key_at; assumption.
  - exists None, (Some O). split.
    + destruct (Z.gtb_spec z 0); [lia|]. destruct (Z.eqb_spec z INT_MIN) as [Zi|Zi]; [lia|].
      unfold nth_newest, count. destruct (N.leb_spec (N.of_nat n) (Z.to_N (- z))); [|lia].
      destruct (N.ltb_spec (N.of_nat n) (Z.to_N (- z))); [|lia]. destruct l; [congruence|reflexivity].
    + apply place_low; [exact ne|exact T|exact bnd|]. pose proof (bnd O Np). unfold kx. destruct (0 <? c)%nat; lia.
  - destruct (at_app _ _ _ E) as [A1 A2]. exists (Some (length l1)), (Some (length l1)). split.
    + unfold search_prefix. assert (R : rev l = rev l2 ++ e :: rev l1). { rewrite E, rev_app_distr. cbn [rev]. rewrite <- app_assoc. reflexivity. }
      rewrite R, (find_prefix_skip _ _ _ _ O); [|intros y Hy; apply Hn; apply in_rev; assumption|assumption].
      rewrite rev_length. assert (Ln : (n = length l1 + S (length l2))%nat) by (rewrite E at 1; rewrite app_length; reflexivity).
      rewrite Ln. replace (length l1 + S (length l2) - 1 - (0 + length l2))%nat with (length l1) by lia. reflexivity.
    + apply place_exact; [exact ne|exact T|exact bnd|assumption|]. rewrite <- A1. apply key_at; assumption.
Qed.
Lemma fc_ok : forall lm rv o1 o2 k1 k2, means max l o1 k1 -> means max l o2 k2 ->
  (touching max l k1 k2 -> fc max lm rv (Some o1) (Some o2) l = FcCrash) /\
  (~ touching max l k1 k2 -> fc max lm rv (Some o1) (Some o2) l = FcEntries (selection max rv l k1 k2)).
Proof.
  intros lm rv o1 o2 k1 k2 M1 M2. destruct (means_place _ _ M1) as (p1 & q1 & E1 & P1). destruct (means_place _ _ M2) as (p2 & q2 & E2 & P2).
  destruct (place_form _ _ _ P1) as (lo1 & hi1 & F1). destruct (place_form _ _ _ P2) as (lo2 & hi2 & F2).
  rewrite (touching_bad _ _ _ _ _ _ _ _ _ _ F1 F2).
  assert (R : fc max lm rv (Some o1) (Some o2) l = fc_range rv p1 q1 p2 q2 l).
  { unfold fc. destruct l as [|e0 l0] eqn:El; [congruence|]. rewrite E1, E2.
    destruct p1, q1, p2, q2; try reflexivity; solve [inversion F1|inversion F2]. }
  rewrite R. exact (range_forms rv _ _ _ _ _ _ _ _ _ _ F1 F2).
Qed.
End Fc.
