(** The long operators of arith.c compute exactly or report an error. *)
From Coq Require Import List NArith ZArith Bool Lia.
From Coq Require Import ZifyBool.
From Verif Require Import Common Locale NumModel ArithModel ArithSpec.
Import ListNotations.
Local Open Scope Z_scope.

Ltac ulong := unfold is_long, in_long, LONG_MAX, LONG_MIN, ULONG_MOD, LONG_BIT in *.

Lemma in_long_iff : forall z, in_long z = true <-> is_long z.
Proof. intros z. ulong. lia. Qed.

Lemma cl_Ok : forall z, is_long z -> cl z = Ok z.
Proof. intros z H. unfold cl. apply in_long_iff in H. rewrite H. reflexivity. Qed.

Lemma land_max_mod : forall z, Z.land z LONG_MAX = z mod 9223372036854775808.
Proof.
  intros z. change LONG_MAX with (Z.ones 63). rewrite Z.land_ones by lia. reflexivity.
Qed.

Lemma mul_overflow_spec : forall a b, is_long a -> is_long b ->
  long_mul_will_overflow a b = Ok (negb (in_long (a * b))).
Proof.
  intros a b Ha Hb. unfold long_mul_will_overflow.
  destruct ((a =? 0) || (a =? 1) || (b =? 0) || (b =? 1)) eqn:E0.
  { f_equal. symmetry. apply negb_false_iff. apply in_long_iff.
    assert (a = 0 \/ a = 1 \/ b = 0 \/ b = 1) by lia.
    destruct H as [-> |[-> |[-> | ->]]]; rewrite ?Z.mul_0_l, ?Z.mul_1_l, ?Z.mul_0_r, ?Z.mul_1_r; auto;
      ulong; lia. }
  destruct ((a =? LONG_MIN) || (b =? LONG_MIN)) eqn:E1.
  { f_equal. symmetry. apply negb_true_iff.
    destruct (in_long (a * b)) eqn:Ei; auto. exfalso. ulong.
    assert (H : a = -9223372036854775808 \/ b = -9223372036854775808) by lia.
    destruct H as [-> | ->]; lia. }
  assert (Hu : forall v, is_long v -> v <> LONG_MIN -> labs v = Ok (Z.abs v)).
  { intros v Hv Hn. unfold labs. destruct (Z.ltb_spec v 0).
    - rewrite cl_Ok by (ulong; lia). f_equal. lia.
    - f_equal. lia. }
  rewrite !Hu by (auto; ulong; lia). cbn [rbind].
  set (u1 := Z.abs a). set (u2 := Z.abs b).
  assert (Hu1 : 1 <= u1 <= LONG_MAX) by (ulong; lia).
  assert (Hu2 : 1 <= u2 <= LONG_MAX) by (ulong; lia).
  set (p := u1 * u2). assert (Hp : 1 <= p) by (subst p; nia).
  assert (Hab : a * b = p \/ a * b = - p) by (subst p u1 u2; nia).
  assert (Hs1 : Bool.eqb (0 <=? a) (0 <=? b) = true -> a * b = p)
    by (subst p u1 u2; destruct (Z.leb_spec 0 a), (Z.leb_spec 0 b); cbn; intro; try discriminate; nia).
  assert (Hs2 : Bool.eqb (0 <=? a) (0 <=? b) = false -> a * b = - p)
    by (subst p u1 u2; destruct (Z.leb_spec 0 a), (Z.leb_spec 0 b); cbn; intro; try discriminate; nia).
  assert (Hudiv : forall x, udiv x u2 = Ok (x / u2)).
  { intros x. unfold udiv. destruct (Z.eqb_spec u2 0); [lia|reflexivity]. }
  assert (Hdiv : forall m, m <= p -> (m / u2 =? u1) = (m =? p)).
  { intros m Hm. assert (p / u2 = u1) by (subst p; apply Z.div_mul; lia).
    destruct (Z.eqb_spec m p) as [->|Hne]; [lia|].
    assert (m / u2 < u1); [|lia]. apply Z.div_lt_upper_bound; [lia|]. subst p. nia. }
  unfold to_ulong. change (LONG_MIN mod ULONG_MOD) with 9223372036854775808.
  assert (Hmod : p mod ULONG_MOD <= p) by (apply Z.mod_le; ulong; lia).
  pose proof (Z.div_mod p ULONG_MOD ltac:(discriminate)) as Hdm.
  pose proof (Z.mod_pos_bound p ULONG_MOD ltac:(reflexivity)) as Hmb.
  assert (Hq : 0 <= p / ULONG_MOD) by (apply Z.div_pos; ulong; lia).
  destruct (Z.eqb_spec (p mod ULONG_MOD) 9223372036854775808) as [He|He].
  - destruct (Bool.eqb (0 <=? a) (0 <=? b)) eqn:Es.
    + f_equal. symmetry. apply negb_true_iff. rewrite (Hs1 eq_refl).
      destruct (in_long p) eqn:Ei; auto. exfalso. ulong. lia.
    + rewrite Hudiv. cbn [rbind]. rewrite He in *. rewrite Hdiv by lia. f_equal. f_equal.
      rewrite (Hs2 eq_refl). destruct (Z.eqb_spec 9223372036854775808 p).
      * subst p. symmetry. apply in_long_iff. ulong. lia.
      * symmetry. apply not_true_is_false. rewrite in_long_iff. ulong. lia.
  - rewrite Hudiv. cbn [rbind]. rewrite land_max_mod.
    assert (Hm2 : (p mod ULONG_MOD) mod 9223372036854775808 <= p mod ULONG_MOD) by (apply Z.mod_le; lia).
    rewrite Hdiv by lia. f_equal. f_equal.
    pose proof (Z.div_mod (p mod ULONG_MOD) 9223372036854775808 ltac:(discriminate)) as Hdm2.
    pose proof (Z.mod_pos_bound (p mod ULONG_MOD) 9223372036854775808 ltac:(reflexivity)) as Hmb2.
    destruct (Z.eqb_spec ((p mod ULONG_MOD) mod 9223372036854775808) p) as [Hx|Hx].
    + symmetry. apply in_long_iff. ulong. lia.
    + symmetry. apply not_true_is_false. rewrite in_long_iff. intro Hl.
      apply Hx. assert (Hpl : p <= 9223372036854775808) by (ulong; lia).
      assert (Hpm : p mod ULONG_MOD = p) by (apply Z.mod_small; ulong; lia).
      rewrite Hpm in *. apply Z.mod_small. lia.
Qed.

(** Bitwise operations stay in range. *)
Lemma is_long_shift : forall z, is_long z <-> Z.shiftr z 63 = 0 \/ Z.shiftr z 63 = -1.
Proof.
  intros z. rewrite Z.shiftr_div_pow2 by lia. change (2 ^ 63) with 9223372036854775808. ulong.
  pose proof (Z.div_mod z 9223372036854775808 ltac:(discriminate)).
  pose proof (Z.mod_pos_bound z 9223372036854775808 ltac:(reflexivity)). lia.
Qed.

Lemma land_long : forall a b, is_long a -> is_long b -> is_long (Z.land a b).
Proof.
  intros a b Ha Hb. apply is_long_shift in Ha, Hb. apply is_long_shift. rewrite Z.shiftr_land.
  destruct Ha as [-> | ->], Hb as [-> | ->]; cbn; auto.
Qed.
Lemma lor_long : forall a b, is_long a -> is_long b -> is_long (Z.lor a b).
Proof.
  intros a b Ha Hb. apply is_long_shift in Ha, Hb. apply is_long_shift. rewrite Z.shiftr_lor.
  destruct Ha as [-> | ->], Hb as [-> | ->]; cbn; auto.
Qed.
Lemma lxor_long : forall a b, is_long a -> is_long b -> is_long (Z.lxor a b).
Proof.
  intros a b Ha Hb. apply is_long_shift in Ha, Hb. apply is_long_shift. rewrite Z.shiftr_lxor.
  destruct Ha as [-> | ->], Hb as [-> | ->]; cbn; auto.
Qed.
Lemma lnot_long : forall a, is_long a -> is_long (Z.lnot a).
Proof. intros a Ha. unfold Z.lnot. ulong. lia. Qed.

Lemma shr_long : forall a b, is_long a -> 0 <= b -> is_long (a / 2 ^ b).
Proof.
  intros a b Ha Hb. assert (H : 0 < 2 ^ b) by (apply Z.pow_pos_nonneg; lia). ulong. split.
  - apply Z.div_le_lower_bound; nia.
  - destruct (Z.le_gt_cases 0 a).
    + apply Z.div_le_upper_bound; nia.
    + assert (a / 2 ^ b < 0); [|lia]. apply Z.div_lt_upper_bound; nia.
Qed.

(** The token of each operator, plain and assigning form. *)
Definition iop_tok (o : iop) : tok :=
  match o with
  | IMul => TAster | IDiv => TSlash | IRem => TPercent | IAdd => TPlus | ISub => TMinus
  | IShl => TLessless | IShr => TGreatergreater | IAnd => TAmp | IXor => THat | IOr => TPipe
  end.
Definition iop_asg (o : iop) : tok :=
  match o with
  | IMul => TAsterequal | IDiv => TSlashequal | IRem => TPercentequal | IAdd => TPlusequal
  | ISub => TMinusequal | IShl => TLesslessequal | IShr => TGreatergreaterequal
  | IAnd => TAmpequal | IXor => THatequal | IOr => TPipeequal
  end.

Definition iop_class1 (o : iop) : bool :=
  match o with IMul | IDiv | IRem | IAdd | ISub => true | _ => false end.

Definition calc_result (o : iop) (a b : Z) (r : Z + amsg) : Prop :=
  match r with inl z => long_op o a b = Some z | inr _ => long_op o a b = None end.

Lemma quot_long : forall a b, is_long a -> is_long b -> b <> 0 ->
  in_long (Z.quot a b) = negb ((a =? LONG_MIN) && (b =? -1)).
Proof.
  intros a b Ha Hb Hn.
  assert (Hq : Z.abs (Z.quot a b) <= Z.abs a).
  { rewrite <- Z.quot_abs by auto. apply Z.quot_le_upper_bound; nia. }
  destruct (Z.eqb_spec b (-1)) as [->|Hb1].
  - change (-1) with (- (1)). rewrite Z.quot_opp_r by lia. rewrite Z.quot_1_r.
    ulong. lia.
  - rewrite andb_false_r. cbn [negb]. apply in_long_iff.
    destruct (Z.eqb_spec a LONG_MIN) as [->|Ha1]; [|ulong; lia].
    destruct (Z.eqb_spec b 1) as [->|Hb2]; [rewrite Z.quot_1_r; ulong; lia|].
    assert (Z.abs (Z.quot LONG_MIN b) <= 4611686018427387904).
    { rewrite <- Z.quot_abs by auto. apply Z.quot_le_upper_bound; ulong; nia. }
    ulong. lia.
Qed.

Lemma calc1_spec : forall o t a b, iop_class1 o = true -> t = iop_tok o \/ t = iop_asg o ->
  is_long a -> is_long b ->
  exists r, do_long_calculation1 t a b = Ok r /\ calc_result o a b r.
Proof.
  intros o t a b Ho Ht Ha Hb. unfold calc_result, long_op.
  destruct o; try discriminate; destruct Ht as [-> | ->]; cbn [iop_tok iop_asg do_long_calculation1 exact_op].
  1,2: (rewrite mul_overflow_spec by auto; cbn [rbind]; destruct (in_long (a * b)) eqn:E; cbn [negb];
    [rewrite cl_Ok by (apply in_long_iff; auto); cbn [rbind]|]; eexists; split; reflexivity).
  1,2: (destruct (Z.eqb_spec b 0) as [Hz|Hz]; [eexists; split; reflexivity|];
    rewrite (quot_long a b) by auto;
    destruct ((a =? LONG_MIN) && (b =? -1)) eqn:E; cbn [negb];
    [eexists; split; reflexivity|];
    rewrite cl_Ok by (apply in_long_iff; rewrite quot_long by auto; rewrite E; reflexivity); cbn [rbind];
    eexists; split; reflexivity).
  1,2: (destruct (Z.eqb_spec b 0) as [Hz|Hz]; cbn [orb]; [eexists; split; reflexivity|];
    rewrite (quot_long a b) by auto;
    destruct ((a =? LONG_MIN) && (b =? -1)) eqn:E; cbn [negb];
    [eexists; split; reflexivity|];
    rewrite cl_Ok by (apply in_long_iff; rewrite quot_long by auto; rewrite E; reflexivity); cbn [rbind];
    assert (Hr : is_long (Z.rem a b)) by
      (pose proof (Z.rem_bound_abs a b Hz); ulong; lia);
    rewrite (cl_Ok _ Hr); cbn [rbind]; apply in_long_iff in Hr; rewrite Hr;
    eexists; split; reflexivity).
  1,2: (destruct (Z.leb_spec 0 b);
    rewrite cl_Ok by (ulong; lia); cbn [rbind];
    match goal with |- context [if ?x <? ?y then Ok (inr _) else _] => destruct (Z.ltb_spec x y) end;
    [ replace (in_long (a + b)) with false by (ulong; lia)
    | replace (in_long (a + b)) with true by (ulong; lia); rewrite cl_Ok by (ulong; lia); cbn [rbind]
    | replace (in_long (a + b)) with false by (ulong; lia)
    | replace (in_long (a + b)) with true by (ulong; lia); rewrite cl_Ok by (ulong; lia); cbn [rbind] ];
    eexists; split; reflexivity).
  1,2: (destruct (Z.ltb_spec b 0);
    rewrite cl_Ok by (ulong; lia); cbn [rbind];
    match goal with |- context [if ?x <? ?y then Ok (inr _) else _] => destruct (Z.ltb_spec x y) end;
    [ replace (in_long (a - b)) with false by (ulong; lia)
    | replace (in_long (a - b)) with true by (ulong; lia); rewrite cl_Ok by (ulong; lia); cbn [rbind]
    | replace (in_long (a - b)) with false by (ulong; lia)
    | replace (in_long (a - b)) with true by (ulong; lia); rewrite cl_Ok by (ulong; lia); cbn [rbind] ];
    eexists; split; reflexivity).
Qed.

Lemma shl_check : forall a b, 0 <= a <= LONG_MAX -> 0 <= b < 64 ->
  (Z.shiftr (Z.land (to_ulong (Z.shiftl (to_ulong a) b)) LONG_MAX) b =? to_ulong a) = in_long (a * 2 ^ b).
Proof.
  intros a b Ha Hb. unfold to_ulong. rewrite (Z.mod_small a) by (ulong; lia).
  rewrite land_max_mod, Z.shiftl_mul_pow2, Z.shiftr_div_pow2 by lia.
  assert (Hp : 0 < 2 ^ b) by (apply Z.pow_pos_nonneg; lia).
  set (q := a * 2 ^ b). assert (Hq : 0 <= q) by (subst q; nia).
  assert (Hmm : (q mod ULONG_MOD) mod 9223372036854775808 = q mod 9223372036854775808).
  { change ULONG_MOD with (9223372036854775808 * 2). rewrite Z.rem_mul_r by lia.
    rewrite Z.mul_comm, Z.mod_add by lia. apply Z.mod_mod. lia. }
  rewrite Hmm. pose proof (Z.mod_pos_bound q 9223372036854775808 ltac:(reflexivity)) as Hb1.
  assert (Hle : q mod 9223372036854775808 <= q) by (apply Z.mod_le; lia).
  destruct (Z.eqb_spec (q mod 9223372036854775808 / 2 ^ b) a) as [He|He].
  - symmetry. apply in_long_iff.
    assert (a * 2 ^ b <= q mod 9223372036854775808).
    { rewrite <- He. rewrite Z.mul_comm. apply Z.mul_div_le. lia. }
    fold q in H. ulong. lia.
  - symmetry. apply not_true_is_false. rewrite in_long_iff. intro Hl. apply He.
    rewrite Z.mod_small by (ulong; lia). subst q. apply Z.div_mul. lia.
Qed.

Lemma calc2_spec : forall o t a b, iop_class1 o = false -> t = iop_tok o \/ t = iop_asg o ->
  is_long a -> is_long b ->
  exists r, do_long_calculation2 t a b = Ok r /\ calc_result o a b r.
Proof.
  intros o t a b Ho Ht Ha Hb. unfold calc_result, long_op.
  destruct o; try discriminate; destruct Ht as [-> | ->]; cbn [iop_tok iop_asg do_long_calculation2 exact_op].
  1,2: (destruct (Z.ltb_spec a 0) as [Hn|Hn]; cbn [orb]; [eexists; split; reflexivity|];
    unfold LONG_BIT; destruct ((b <? 0) || (64 <=? b)) eqn:Ew; [eexists; split; reflexivity|];
    rewrite shl_check by (ulong; lia);
    destruct (in_long (a * 2 ^ b)) eqn:E; cbn [negb]; [|eexists; split; reflexivity];
    rewrite Z.shiftl_mul_pow2 by lia; rewrite cl_Ok by (apply in_long_iff; auto); cbn [rbind];
    eexists; split; reflexivity).
  1,2: (unfold LONG_BIT; destruct ((b <? 0) || (64 <=? b)) eqn:Ew; [eexists; split; reflexivity|];
    rewrite Z.shiftr_div_pow2 by lia;
    assert (Hl : is_long (a / 2 ^ b)) by (apply shr_long; auto; lia);
    apply in_long_iff in Hl; eexists; split; [reflexivity|]; cbn; rewrite Hl; reflexivity).
  1,2: (pose proof (land_long a b Ha Hb) as Hl; apply in_long_iff in Hl; eexists; split; [reflexivity|]; cbn; rewrite Hl; reflexivity).
  1,2: (pose proof (lxor_long a b Ha Hb) as Hl; apply in_long_iff in Hl; eexists; split; [reflexivity|]; cbn; rewrite Hl; reflexivity).
  1,2: (pose proof (lor_long a b Ha Hb) as Hl; apply in_long_iff in Hl; eexists; split; [reflexivity|]; cbn; rewrite Hl; reflexivity).
Qed.

Lemma long_op_long : forall o a b r, long_op o a b = Some r -> is_long r.
Proof.
  intros o a b r H. unfold long_op in H. destruct (exact_op o a b) as [x|]; [|discriminate].
  destruct (in_long x) eqn:E; [|discriminate]. injection H as <-. apply in_long_iff; auto.
Qed.
