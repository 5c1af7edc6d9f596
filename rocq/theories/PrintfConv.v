(** Integer operands, the C library's formatted output, conversion specifications. *)
From Coq Require Import Ascii String.
From Coq Require Import List NArith ZArith Bool Lia Arith.
From Coq Require Import ZifyBool ZifyN ZifyNat.
From Verif Require Import Common Locale NumModel NumProofs PrintfModel PrintfSpec PrintfEsc.
Import ListNotations.
Local Open Scope Z_scope.

(** ** Runs of characters *)
Lemma span_app : forall p s t, Forall (fun c => p c = true) s ->
  (forall c, hd_error t = Some c -> p c = false) -> span p (s ++ t) = (s, t).
Proof.
  induction s as [|c s IH]; intros t H1 H2.
  - cbn [app]. destruct t as [|c t]; [reflexivity|]. cbn [span]. rewrite (H2 c eq_refl). reflexivity.
  - inversion H1; subst. cbn [app span]. rewrite H3, IH by assumption. reflexivity.
Qed.
Lemma span_split : forall p s a b, span p s = (a, b) ->
  s = a ++ b /\ Forall (fun c => p c = true) a /\ (forall c, hd_error b = Some c -> p c = false).
Proof.
  induction s as [|c s IH]; intros a b H; cbn [span] in H.
  - injection H as <- <-. repeat split; [constructor | discriminate].
  - destruct (p c) eqn:E.
    + destruct (span p s) as [a' b'] eqn:E2. injection H as <- <-.
      destruct (IH _ _ eq_refl) as (-> & B & C). repeat split; auto.
    + injection H as <- <-. repeat split; [constructor|]. intros x [= <-]. exact E.
Qed.
Lemma is_flag_iff : forall c, is_flag c = true <-> In c (str "-+ #0").
Proof.
  intros c. unfold is_flag. cbn. change (ch "-") with 45%N. change (ch "+") with 43%N.
  change (ch " ") with 32%N. change (ch "#") with 35%N. change (ch "0") with 48%N. lia.
Qed.
Lemma iswdigit_iff : forall c, iswdigit c = true <-> digit10 c.
Proof. intros c. unfold iswdigit, digit10. lia. Qed.
Lemma memc_iff : forall c s, memc c s = true <-> In c s.
Proof.
  intros c s. unfold memc. rewrite existsb_exists. split.
  - intros (x & H & E). apply N.eqb_eq in E. subst. assumption.
  - intros H. exists c. split; [assumption | apply N.eqb_refl].
Qed.
Lemma memc_not : forall c s, memc c s = false <-> ~ In c s.
Proof. intros c s. rewrite <- memc_iff. destruct (memc c s); split; congruence. Qed.

(** ** Decimal numbers in the format *)
Lemma decval_app : forall s t a, fold_left (fun a c => (a * 10 + (c - 48))%N) (s ++ t) a =
  fold_left (fun a c => (a * 10 + (c - 48))%N) t (fold_left (fun a c => (a * 10 + (c - 48))%N) s a).
Proof. intros. apply fold_left_app. Qed.
Lemma decval_numeral : forall ds, ds <> [] -> Forall digit10 ds -> numeral 10 ds (Z.of_N (decval ds)).
Proof.
  induction ds as [|c ds IH] using rev_ind; intros Hn H; [contradiction|].
  apply Forall_app in H as [H1 H2]. inversion H2 as [|? ? Hc _]; subst. unfold digit10 in Hc.
  assert (D : digit c (Z.of_N (c - 48))).
  { replace c with (48 + (c - 48))%N at 1 by lia. constructor. lia. }
  destruct ds as [|x ds].
  - cbn [app]. unfold decval. cbn [fold_left]. replace (0 * 10 + (c - 48))%N with (c - 48)%N by lia.
    constructor; [exact D | lia].
  - assert (E : decval ((x :: ds) ++ [c]) = (decval (x :: ds) * 10 + (c - 48))%N).
    { unfold decval. rewrite decval_app. reflexivity. }
    rewrite E.
    replace (Z.of_N (decval (x :: ds) * 10 + (c - 48))) with (Z.of_N (decval (x :: ds)) * 10 + Z.of_N (c - 48)) by lia.
    constructor; [apply IH; [discriminate | exact H1] | exact D | lia].
Qed.
Lemma decval_value : forall ds, Forall digit10 ds -> dec_value ds (decval ds).
Proof.
  intros ds H. destruct ds as [|c ds]; [left; auto|]. right. apply decval_numeral; [discriminate | exact H].
Qed.
Lemma numeral_nonempty : forall b w z, numeral b w z -> w <> [].
Proof. intros b w z H. inversion H; subst; [discriminate|]. destruct w0; discriminate. Qed.
Lemma numeral_fun : forall b w z z', b <= 36 -> numeral b w z -> numeral b w z' -> z = z'.
Proof.
  intros b w z z' Hb H H'. apply numeral_iff in H, H'; auto. destruct H as (_ & _ & ->), H' as (_ & _ & ->). reflexivity.
Qed.
Lemma dec_value_fun : forall ds n m, dec_value ds n -> dec_value ds m -> n = m.
Proof.
  intros ds n m [[-> ->]|H] [[E ->]|H']; auto.
  - apply numeral_nonempty in H'. contradiction.
  - subst. apply numeral_nonempty in H. contradiction.
  - pose proof (numeral_fun 10 ds _ _ ltac:(lia) H H'). lia.
Qed.

(** ** Digits *)
Section Digits.
Variables b a : N.
Hypothesis Hb : (2 <= b <= 16)%N.
Hypothesis Ha : a = ch "a" \/ a = ch "A".

Lemma digit_char_ok : forall d, (d < b)%N -> digit (digit_char a d) (Z.of_N d).
Proof.
  intros d H. unfold digit_char. destruct (d <? 10)%N eqn:E.
  - constructor. lia.
  - destruct Ha as [-> | ->]; change (ch "a") with 97%N; change (ch "A") with 65%N;
      replace (Z.of_N d) with (Z.of_N (d - 10) + 10) by lia; [apply digit_low | apply digit_upp]; lia.
Qed.
Lemma digit_char_zero : forall d, (d < b)%N -> digit_char a d = 48%N -> d = 0%N.
Proof.
  intros d H. unfold digit_char. destruct Ha as [-> | ->]; change (ch "a") with 97%N; change (ch "A") with 65%N;
    destruct (d <? 10)%N eqn:E; lia.
Qed.
Lemma digit_char_case : forall d, (d < b)%N ->
  if (a =? ch "A")%N then ascii_lower (digit_char a d) = false else ascii_upper (digit_char a d) = false.
Proof.
  intros d H. unfold digit_char, ascii_lower, ascii_upper.
  destruct Ha as [-> | ->]; cbn [N.eqb]; change (ch "A" =? ch "A")%N with true; change (ch "a" =? ch "A")%N with false;
    cbn iota; change (ch "a") with 97%N; change (ch "A") with 65%N; destruct (d <? 10)%N eqn:E; lia.
Qed.

Lemma digits_acc : forall f n acc, digits f b a n acc = digits f b a n [] ++ acc.
Proof.
  induction f as [|f IH]; intros n acc; [reflexivity|]. cbn [digits].
  destruct (n / b =? 0)%N; [reflexivity|]. rewrite IH. rewrite (IH _ [_]). rewrite <- app_assoc. reflexivity.
Qed.
Lemma digits_ok : forall f n, (n < 2 ^ N.of_nat f)%N -> (0 < f)%nat ->
  numeral (Z.of_N b) (digits f b a n []) (Z.of_N n) /\
  (hd_error (digits f b a n []) = Some 48%N -> n = 0%N /\ digits f b a n [] = [48%N]) /\
  Forall (fun c => if (a =? ch "A")%N then ascii_lower c = false else ascii_upper c = false) (digits f b a n []) /\
  (length (digits f b a n []) <= f)%nat.
Proof.
  induction f as [|f IH]; intros n Hn Hf; [lia|]. cbn [digits].
  assert (M : (n mod b < b)%N) by (apply N.mod_lt; lia).
  assert (DM : n = (b * (n / b) + n mod b)%N) by (apply N.div_mod; lia).
  assert (Bd : forall d, (d < b)%N -> numeral (Z.of_N b) [digit_char a d] (Z.of_N d)).
  { intros d Hd. constructor; [apply digit_char_ok; exact Hd | lia]. }
  destruct (n / b =? 0)%N eqn:E.
  - assert (n = n mod b)%N as En by lia. split; [rewrite En at 2; apply Bd; exact M|].
    split; [|split; [constructor; [apply digit_char_case; exact M | constructor] | cbn; lia]].
    cbn [hd_error]. intros [= Q]. pose proof (digit_char_zero _ M Q). rewrite Q. split; [lia | reflexivity].
  - rewrite digits_acc.
    assert (Hq : (n / b < 2 ^ N.of_nat f)%N).
    { apply N.div_lt_upper_bound; [lia|]. rewrite Nat2N.inj_succ, N.pow_succ_r' in Hn.
      assert (2 * 2 ^ N.of_nat f <= b * 2 ^ N.of_nat f)%N by (apply N.mul_le_mono_r; lia). lia. }
    assert (Hf' : (0 < f)%nat).
    { destruct f; [|lia]. change (2 ^ N.of_nat 0)%N with 1%N in Hq. apply N.lt_1_r in Hq. rewrite Hq in E. discriminate. }
    destruct (IH (n / b)%N Hq Hf') as (I1 & I2 & I3 & I4). split; [|split; [|split]].
    + replace (Z.of_N n) with (Z.of_N (n / b) * Z.of_N b + Z.of_N (n mod b)) by lia.
      apply numeral_snoc; [exact I1 | apply digit_char_ok; exact M | lia].
    + destruct (digits f b a (n / b) []) as [|c w] eqn:Q; [apply numeral_nonempty in I1; contradiction|].
      cbn [app hd_error]. intros [= ->]. destruct (I2 eq_refl) as [Z0 _]. lia.
    + apply Forall_app. split; [exact I3|]. constructor; [apply digit_char_case; exact M | constructor].
    + rewrite app_length. cbn. lia.
Qed.
Lemma digits_of_ok : forall n,
  canonical (Z.of_N b) (a =? ch "A")%N (digits_of b a n) n.
Proof.
  intros n. unfold digits_of. destruct (digits_ok (S (N.to_nat (N.log2 n))) n) as (A & B & C & _); [|lia|].
  - rewrite Nat2N.inj_succ, N2Nat.id. destruct n as [|p]; [reflexivity|]. apply N.log2_spec. lia.
  - split; [exact A|]. split; [|exact C]. intros H. apply B in H as [_ H]. exact H.
Qed.
Lemma digits_of_len : forall n, (n < 2 ^ 64)%N -> (lenN (digits_of b a n) <= 64)%N.
Proof.
  intros n Hn. unfold digits_of, lenN. destruct (digits_ok (S (N.to_nat (N.log2 n))) n) as (_ & _ & _ & D); [|lia|].
  - rewrite Nat2N.inj_succ, N2Nat.id. destruct n as [|p]; [reflexivity|]. apply N.log2_spec. lia.
  - assert (N.log2 n < 64)%N; [|lia]. destruct n as [|p]; [reflexivity|]. apply N.log2_lt_pow2; [lia | exact Hn].
Qed.
End Digits.

(** ** Integer operands *)
Section Loc.
Variable L : locale.
Hypothesis Lok : locale_ok L.

Lemma wcstol_split : forall s, s <> [] ->
  (forall v, wcstol L 0 s = (Some v, []) <-> int_text L s v) /\
  (forall r, wcstol L 0 s = (None, r) -> r <> []).
Proof.
  intros s Hs. split.
  - intros v. destruct (skip_space_spec L s) as (sp & r & E & H1 & H2 & H3).
    assert (T : int_text L s v <-> signed r = Some v).
    { rewrite E. rewrite (int_text_spaces L Lok) by assumption. symmetry. apply (signed_iff L). assumption. }
    rewrite T. unfold wcstol. rewrite H2. clear T E H2.
    assert (B : forall u (neg : bool), (let '(b, s3) := base_prefix 0 u in
      match scan_digits b 0 false s3 with
      | (v, rest, true) => (Some (if neg then - v else v), rest)
      | (_, _, false) => (None, s) end) = (Some v, []) <->
      (if neg then option_map Z.opp (body u) else body u) = Some v).
    { intros u neg. unfold body. destruct (base_prefix 0 u) as [b s3].
      destruct (scan_digits b 0 false s3) as [[v' rest] [|]]; destruct rest; destruct neg; cbn [option_map];
        split; intros Q; try discriminate; injection Q as <-; reflexivity. }
    unfold signed. destruct r as [|c w]; [apply (B [] false)|].
    destruct c as [|p]; [apply (B (_ :: w) false)|].
    do 6 (destruct p as [p|p|]; try apply (B (_ :: w) false)); first [apply (B w true)|apply (B w false)].
  - intros r. unfold wcstol.
    destruct (match skip_space L s with
              | 45%N :: s' => (true, s') | 43%N :: s' => (false, s') | _ => (false, skip_space L s) end) as [neg s2].
    destruct (base_prefix 0 s2) as [b s3]. destruct (scan_digits b 0 false s3) as [[v rest] [|]]; intros Q; [discriminate|].
    injection Q as <-. exact Hs.
Qed.

Definition parse_int (arg : option (list N)) (sg : bool) : Z :=
  if sg then to_intmax (fst (printf_parse_integer L arg true)) else fst (printf_parse_integer L arg false).

Lemma not_text_nil : forall v, ~ int_text L [] v.
Proof. intros v H. inversion H as [? ? Hi| | |]; subst. inversion Hi. Qed.
Lemma quote_not_text : forall q s v, quote_char q -> ~ int_text L (q :: s) v.
Proof.
  intros q s v Hq H.
  assert (K : (33 <= q < 48)%N /\ q <> 43%N /\ q <> 45%N) by (destruct Hq as [-> | ->]; cbn; lia).
  inversion H as [? ? Hi| ? ? Hi| ? ? Hi| ? ? ? Hs Hi]; subst; try (cbn in K; lia).
  - apply const_head in Hi. destruct Hi as (c & w' & E & Hd). injection E as <- _.
    apply digit_ascii in Hd. lia.
  - rewrite (nospace_ascii L Lok) in Hs by lia. discriminate.
Qed.

Lemma parse_integer_ok : forall arg sg, (forall a, arg = Some a -> Forall (fun c => (c < 2 ^ 31)%N) a) ->
  int_arg L sg arg (parse_int arg sg) (snd (printf_parse_integer L arg sg)).
Proof.
  intros arg sg Hw.
  destruct arg as [a|].
  2: { unfold parse_int, printf_parse_integer. cbn [str].
       change (N_of_ascii "0") with 48%N. change ((48 =? 34) || (48 =? ch "'"))%N with false. cbn iota.
       assert (W : wcstol L 0 [48%N] = (Some 0, [])).
       { unfold wcstol. cbn [skip_space]. rewrite (nospace_ascii L Lok) by lia. reflexivity. }
       unfold wcstoimax, wcstoumax. rewrite W. destruct sg; constructor. }
  specialize (Hw a eq_refl).
  destruct a as [|q s].
  { assert (W : wcstol L 0 [] = (None, [])) by reflexivity.
    unfold parse_int, printf_parse_integer. change ((0 =? 34) || (0 =? ch "'"))%N with false. cbn iota.
    unfold wcstoimax, wcstoumax. rewrite W. destruct sg; cbn [snd fst]; cbn.
    - apply ia_bad; [apply not_text_nil | discriminate | unfold is_long, LONG_MIN, LONG_MAX; lia].
    - apply ia_bad; [apply not_text_nil | discriminate | lia]. }
  destruct ((q =? 34) || (q =? ch "'"))%N eqn:Eq.
  { assert (Hq : quote_char q) by (unfold quote_char; lia).
    unfold parse_int, printf_parse_integer. rewrite Eq. destruct s as [|x s].
    - destruct sg; cbn [fst snd]; change (to_intmax 0) with 0; apply ia_quote; exact Hq.
    - inversion Hw as [|? ? _ Hw2]; subst. inversion Hw2 as [|? ? Hx _]; subst.
      change (2 ^ 31)%N with 2147483648%N in Hx.
      destruct sg; cbn [fst snd]; [|apply ia_char; exact Hq].
      replace (to_intmax (Z.of_N x)) with (Z.of_N x); [apply ia_char; exact Hq|].
      unfold to_intmax, LONG_MAX. destruct (9223372036854775807 <? Z.of_N x) eqn:E; lia. }
  assert (Hq : forall q', hd_error (q :: s) = Some q' -> ~ quote_char q').
  { intros q' [= <-]. unfold quote_char. lia. }
  destruct (wcstol_split (q :: s) ltac:(discriminate)) as [T1 T2].
  unfold parse_int, printf_parse_integer. rewrite Eq. unfold wcstoimax, wcstoumax.
  destruct (wcstol L 0 (q :: s)) as [[v|] r] eqn:W.
  - assert (Nt : r <> [] -> forall v', ~ int_text L (q :: s) v').
    { intros Hr v' Ht. apply T1 in Ht. injection Ht as _ Q. contradiction. }
    assert (Tx : r = [] -> int_text L (q :: s) v).
    { intros ->. apply T1. reflexivity. }
    assert (Idem : forall z, is_long z -> to_intmax (z mod UINTMAX_MOD) = z).
    { intros z Hz. unfold is_long, LONG_MIN, LONG_MAX in Hz. unfold to_intmax, UINTMAX_MOD, LONG_MAX.
      destruct (Z_lt_dec z 0).
      - replace (z mod 18446744073709551616) with (z + 18446744073709551616).
        2: { apply Z.mod_unique with (q := -1); lia. }
        destruct (9223372036854775807 <? z + 18446744073709551616) eqn:E; lia.
      - rewrite Z.mod_small by lia. destruct (9223372036854775807 <? z) eqn:E; lia. }
    destruct sg.
    + (* signed *)
      destruct (v <? LONG_MIN) eqn:E1; [|destruct (LONG_MAX <? v) eqn:E2].
      * cbn [fst snd orb]. rewrite Idem by (unfold is_long, LONG_MIN, LONG_MAX; lia).
        destruct r as [|x r].
        -- assert (K := ia_over L true (q :: s) v (Tx eq_refl)).
           replace (v <? 0) with true in K by (unfold LONG_MIN in E1; lia). apply K.
           cbn [in_range]. unfold is_long. lia.
        -- apply ia_bad; [apply Nt; discriminate | exact Hq | unfold is_long, LONG_MIN, LONG_MAX; lia].
      * cbn [fst snd orb]. rewrite Idem by (unfold is_long, LONG_MIN, LONG_MAX; lia).
        destruct r as [|x r].
        -- assert (K := ia_over L true (q :: s) v (Tx eq_refl)).
           replace (v <? 0) with false in K by (unfold LONG_MAX in E2; lia). apply K.
           cbn [in_range]. unfold is_long. lia.
        -- apply ia_bad; [apply Nt; discriminate | exact Hq | unfold is_long, LONG_MIN, LONG_MAX; lia].
      * cbn [fst snd orb]. assert (IL : is_long v) by (unfold is_long; lia). rewrite Idem by exact IL.
        destruct r as [|x r].
        -- apply (ia_good L true (q :: s) v (Tx eq_refl)). exact IL.
        -- apply ia_bad; [apply Nt; discriminate | exact Hq | exact IL].
    + destruct (UINTMAX_MOD <=? Z.abs v) eqn:E1.
      * cbn [fst snd orb]. replace ((UINTMAX_MOD - 1) mod UINTMAX_MOD) with (2 ^ 64 - 1) by reflexivity.
        destruct r as [|x r].
        -- apply (ia_over L false (q :: s) v (Tx eq_refl)). cbn [in_range]. unfold UINTMAX_MOD in E1. lia.
        -- apply ia_bad; [apply Nt; discriminate | exact Hq | lia].
      * cbn [fst snd orb]. rewrite Zmod_mod. unfold UINTMAX_MOD in *.
        change 18446744073709551616 with (2 ^ 64) in *.
        destruct r as [|x r].
        -- apply (ia_good L false (q :: s) v (Tx eq_refl)). cbn [in_range]. lia.
        -- apply ia_bad; [apply Nt; discriminate | exact Hq | apply Z.mod_pos_bound; lia].
  - assert (Nt : forall v', ~ int_text L (q :: s) v').
    { intros v' Ht. apply T1 in Ht. discriminate. }
    specialize (T2 r eq_refl). destruct r as [|x r]; [contradiction|].
    destruct sg; cbn [fst snd orb].
    + change (to_intmax (0 mod UINTMAX_MOD)) with 0.
      apply ia_bad; [exact Nt | exact Hq | unfold is_long, LONG_MIN, LONG_MAX; lia].
    + change (0 mod UINTMAX_MOD) with 0. apply ia_bad; [exact Nt | exact Hq | lia].
Qed.

Lemma parse_int_range : forall arg (sg : bool), (forall a, arg = Some a -> Forall (fun c => (c < 2 ^ 31)%N) a) ->
  if sg then is_long (parse_int arg sg) else 0 <= parse_int arg sg < 2 ^ 64.
Proof.
  intros arg sg H. pose proof (parse_integer_ok arg sg H) as K.
  assert (C : forall x, (x < 2 ^ 31)%N -> Z.of_N x < 2147483648) by (intros; change (2 ^ 31)%N with 2147483648%N in *; lia).
  inversion K as [Q1 Q2 | q x s Hq Q1 Q2 | q Hq Q1 Q2 | a v T R Q1 Q2 | a v T R Q1 Q2 | a z T1 T2 R Q1 Q2];
    destruct sg; unfold is_long, LONG_MIN, LONG_MAX in *; cbn [in_range] in *; unfold is_long, LONG_MIN, LONG_MAX in *; try lia.
  - assert (Hx : (x < 2 ^ 31)%N).
    { specialize (H _ (eq_sym Q1)). inversion H as [|? ? _ H2]; subst. inversion H2; subst; assumption. }
    apply C in Hx. lia.
  - assert (Hx : (x < 2 ^ 31)%N).
    { specialize (H _ (eq_sym Q1)). inversion H as [|? ? _ H2]; subst. inversion H2; subst; assumption. }
    apply C in Hx. lia.
  - destruct (v <? 0); lia.
Qed.
End Loc.

(** ** Fields *)
Section Fmt.
Variable enc : N -> option (list N).
Hypothesis ascii : ascii_enc enc.

Definition spec_of (cv : conv) : spec :=
  mkSpec (cv_fl cv) (decval (cv_w cv)) (option_map decval (cv_p cv)) (cv_c cv).
Definition convspec_of (cv : conv) (l : N) : list N :=
  ch "%" :: cv_fl cv ++ cv_w cv ++ (match cv_p cv with Some d => ch "." :: d | None => [] end) ++ [l; cv_c cv].

Lemma flags_digits : forall c, In c (str "-+ #0") -> c = 48%N \/ ~ digit10 c.
Proof. intros c H. cbn in H. unfold digit10. lia. Qed.

(** The parts of a conversion specification are found again. *)
Lemma spans : forall cv rest, conv_ok cv ->
  (forall c, hd_error rest = Some c -> ~ digit10 c /\ ~ In c (str "-+ #0") /\ c <> 46%N) ->
  span is_flag (cv_fl cv ++ cv_w cv ++ (match cv_p cv with Some d => ch "." :: d | None => [] end) ++ rest)
    = (cv_fl cv, cv_w cv ++ (match cv_p cv with Some d => ch "." :: d | None => [] end) ++ rest) /\
  span iswdigit (cv_w cv ++ (match cv_p cv with Some d => ch "." :: d | None => [] end) ++ rest)
    = (cv_w cv, (match cv_p cv with Some d => ch "." :: d | None => [] end) ++ rest) /\
  (forall d, cv_p cv = Some d -> span iswdigit (d ++ rest) = (d, rest)).
Proof.
  intros cv rest [K1 K2 K3 K4 K5 K6 K7] Hr. split; [|split].
  - apply span_app.
    + eapply Forall_impl; [|exact K1]. intros c Hc. apply is_flag_iff. exact Hc.
    + intros c Hc. destruct (is_flag c) eqn:E; [|reflexivity]. apply is_flag_iff in E. exfalso.
      destruct (cv_w cv) as [|x w].
      * cbn [app] in Hc. destruct (cv_p cv) as [d|].
        -- cbn in Hc. injection Hc as <-. cbn in E. intuition discriminate.
        -- cbn in Hc. destruct (Hr c Hc) as (_ & A & _). contradiction.
      * cbn in Hc. injection Hc as <-. inversion K2; subst. apply flags_digits in E. destruct E as [->|E]; [|contradiction].
        apply K3. reflexivity.
  - apply span_app.
    + eapply Forall_impl; [|exact K2]. intros c Hc. apply iswdigit_iff. exact Hc.
    + intros c Hc. destruct (iswdigit c) eqn:E; [|reflexivity]. apply iswdigit_iff in E. exfalso.
      destruct (cv_p cv) as [d|]; cbn in Hc.
      * injection Hc as <-. unfold digit10 in E. change (ch ".") with 46%N in E. lia.
      * destruct (Hr c Hc) as (A & _). contradiction.
  - intros d Hd. apply span_app.
    + eapply Forall_impl; [|exact (K4 d Hd)]. intros c Hc. apply iswdigit_iff. exact Hc.
    + intros c Hc. destruct (iswdigit c) eqn:E; [|reflexivity]. apply iswdigit_iff in E. exfalso.
      destruct (Hr c Hc) as (A & _). contradiction.
Qed.

Lemma parse_spec_ok : forall cv l, conv_ok cv -> In l (str "jlL") ->
  parse_spec (convspec_of cv l) = Some (spec_of cv).
Proof.
  intros cv l Hk Hl. unfold parse_spec, convspec_of.
  destruct (spans cv [l; cv_c cv] Hk) as (A & B & C).
  { intros c [= <-]. cbn in Hl. unfold digit10. cbn.
    destruct Hl as [<-|[<-|[<-|[]]]]; repeat split; try lia; intuition discriminate. }
  rewrite A, B. unfold spec_of. destruct (cv_p cv) as [d|] eqn:E.
  - cbn [app]. change (ch ".") with 46%N. rewrite (C d eq_refl). reflexivity.
  - cbn [app option_map]. assert (X : l <> 46%N) by (cbn in Hl; intuition lia).
    destruct l as [|p]; [reflexivity|].
    do 6 (destruct p as [p|p|]; try reflexivity). exfalso. apply X. reflexivity.
Qed.

Lemma spec_width : forall cv, conv_ok cv -> width cv (sp_width (spec_of cv)).
Proof. intros cv K. apply decval_value. apply (ck_w _ K). Qed.
Lemma spec_prec : forall cv, conv_ok cv -> prec cv (sp_prec (spec_of cv)).
Proof.
  intros cv K. unfold prec, spec_of. cbn [sp_prec]. destruct (cv_p cv) as [d|] eqn:E; cbn [option_map]; [|exact I].
  apply decval_value. apply (ck_p _ K _ E).
Qed.

Lemma len_app : forall s t, len (s ++ t) = (len s + len t)%N.
Proof. intros. unfold len. rewrite app_length. lia. Qed.
Lemma len_repeat : forall (c : N) k, len (repeat c k) = N.of_nat k.
Proof. intros. unfold len. rewrite repeat_length. reflexivity. Qed.

Lemma pad_ok : forall cv w body,
  justified cv w body (pad (memc (ch "-") (cv_fl cv)) w body).
Proof.
  intros cv w body. exists (N.to_nat (w - lenN body)). split; [rewrite N2Nat.id; reflexivity|].
  unfold pad, spaces, flag. destruct (memc (ch "-") (cv_fl cv)) eqn:E.
  - left. split; [apply memc_iff; exact E | reflexivity].
  - right. split; [apply memc_not; exact E | reflexivity].
Qed.
Lemma pad_len : forall lf w s, len (pad lf w s) = N.max w (len s).
Proof.
  intros lf w s. unfold pad, spaces. change lenN with len. destruct lf; rewrite len_app, len_repeat, N2Nat.id; lia.
Qed.

(** The zeros and digits of an integer conversion, as the model puts them together *)
Definition int_digits (sp : spec) (n b a : N) : list N :=
  match sp_prec sp with
  | Some 0%N => if (n =? 0)%N then [] else digits_of b a n
  | _ => digits_of b a n
  end.
Definition int_zeros (sp : spec) (n b a : N) : list N :=
  let k := match sp_prec sp with Some p => N.to_nat (p - lenN (int_digits sp n b a)) | None => O end in
  if (sp_conv sp =? ch "o")%N && memc (ch "#") (sp_fl sp) &&
     match k with O => match int_digits sp n b a with 48%N :: _ => false | _ => true end | _ => false end
  then [ch "0"] else repeat (ch "0") k.
Lemma fmt_int_eq : forall sp sg n b a, fmt_int sp sg n b a =
  (let zd := int_zeros sp n b a ++ int_digits sp n b a in
   if memc (ch "0") (sp_fl sp) && negb (memc (ch "-") (sp_fl sp)) && match sp_prec sp with None => true | _ => false end
   then sg ++ zeros (sp_width sp - lenN sg - lenN zd) ++ zd
   else pad (memc (ch "-") (sp_fl sp)) (sp_width sp) (sg ++ zd)).
Proof.
  intros sp sg n b a. unfold fmt_int. fold (int_digits sp n b a).
  assert (E : (if (sp_conv sp =? ch "o")%N && memc (ch "#") (sp_fl sp) then
       match (match sp_prec sp with
             | Some p => zeros (p - lenN (int_digits sp n b a)) ++ int_digits sp n b a
             | None => int_digits sp n b a end) with
       | 48%N :: _ => match sp_prec sp with
             | Some p => zeros (p - lenN (int_digits sp n b a)) ++ int_digits sp n b a
             | None => int_digits sp n b a end
       | _ => ch "0" :: match sp_prec sp with
             | Some p => zeros (p - lenN (int_digits sp n b a)) ++ int_digits sp n b a
             | None => int_digits sp n b a end
       end
     else match sp_prec sp with
             | Some p => zeros (p - lenN (int_digits sp n b a)) ++ int_digits sp n b a
             | None => int_digits sp n b a end) = int_zeros sp n b a ++ int_digits sp n b a).
  2: { cbv zeta. rewrite <- E. reflexivity. }
  unfold int_zeros, zeros. set (D := int_digits sp n b a).
  set (k := match sp_prec sp with Some p => N.to_nat (p - lenN D) | None => O end).
  replace (match sp_prec sp with Some p => repeat (ch "0") (N.to_nat (p - lenN D)) ++ D | None => D end)
    with (repeat (ch "0") k ++ D) by (unfold k; destruct (sp_prec sp); reflexivity).
  clearbody D k. destruct ((sp_conv sp =? ch "o")%N && memc (ch "#") (sp_fl sp)); [|reflexivity].
  destruct k as [|k]; [|reflexivity]. cbn [repeat app andb].
  destruct D as [|[|p] D]; try reflexivity.
  do 6 (destruct p as [p|p|]; try reflexivity).
Qed.

Definition conv_base (c : N) : N :=
  if (c =? ch "o")%N then 8%N else if (c =? ch "x")%N || (c =? ch "X")%N then 16%N else 10%N.
Lemma conv_base_ok : forall cv, In (cv_c cv) (str "diuoxX") -> base_of cv (Z.of_N (conv_base (cv_c cv))).
Proof.
  intros cv H. unfold base_of, conv_base. cbn in H.
  destruct H as [H|[H|[H|[H|[H|[H|[]]]]]]]; rewrite <- H; cbn; intuition.
Qed.
Lemma digits_out_ok : forall cv n a, conv_ok cv -> In (cv_c cv) (str "diuoxX") ->
  a = (if (cv_c cv =? ch "X")%N then ch "A" else ch "a") ->
  digits_out cv n (int_zeros (spec_of cv) n (conv_base (cv_c cv)) a)
                  (int_digits (spec_of cv) n (conv_base (cv_c cv)) a).
Proof.
  intros cv n a K Hc Ea. exists (Z.of_N (conv_base (cv_c cv))), (sp_prec (spec_of cv)).
  split; [apply conv_base_ok; exact Hc|]. split; [apply spec_prec; exact K|].
  assert (Hb : (2 <= conv_base (cv_c cv) <= 16)%N).
  { unfold conv_base. destruct (cv_c cv =? ch "o")%N; [lia|]. destruct ((cv_c cv =? ch "x")%N || (cv_c cv =? ch "X")%N); lia. }
  assert (Ha : a = ch "a" \/ a = ch "A") by (rewrite Ea; destruct (cv_c cv =? ch "X")%N; auto).
  assert (Can : canonical (Z.of_N (conv_base (cv_c cv))) (cv_c cv =? ch "X")%N (digits_of (conv_base (cv_c cv)) a n) n).
  { replace (cv_c cv =? ch "X")%N with (a =? ch "A")%N; [apply digits_of_ok; assumption|].
    rewrite Ea. destruct (cv_c cv =? ch "X")%N; reflexivity. }
  split.
  - unfold int_digits. destruct (sp_prec (spec_of cv)) as [[|p]|]; destruct (n =? 0)%N; cbn [andb]; auto.
  - set (D := int_digits (spec_of cv) n (conv_base (cv_c cv)) a).
    exists (match sp_prec (spec_of cv) with Some p => N.to_nat (p - lenN D) | None => O end). split.
    { destruct (sp_prec (spec_of cv)); [rewrite N2Nat.id; reflexivity | reflexivity]. }
    unfold int_zeros. fold D. cbn [spec_of sp_conv sp_fl]. change (sp_prec (spec_of cv)) with (option_map decval (cv_p cv)).
    change (sp_prec {| sp_fl := cv_fl cv; sp_width := decval (cv_w cv); sp_prec := option_map decval (cv_p cv); sp_conv := cv_c cv |})
      with (option_map decval (cv_p cv)).
    set (k := match option_map decval (cv_p cv) with Some p => N.to_nat (p - lenN D) | None => O end). unfold flag.
    clearbody D k.
    destruct (cv_c cv =? ch "o")%N eqn:E1.
    2: { right. apply N.eqb_neq in E1. split; [tauto | reflexivity]. }
    apply N.eqb_eq in E1. destruct (memc (ch "#") (cv_fl cv)) eqn:E2; cbn [andb].
    2: { right. apply memc_not in E2. split; [tauto | reflexivity]. }
    apply memc_iff in E2. destruct k as [|k].
    2: { right. split; [intros (_ & _ & Q & _); discriminate | reflexivity]. }
    destruct (match D with 48%N :: _ => false | _ => true end) eqn:E3.
    + left. repeat split; auto. intros Q. destruct D as [|x D]; [discriminate|]. injection Q as ->. discriminate.
    + right. split; [|reflexivity]. intros (_ & _ & _ & Q). apply Q.
      destruct D as [|[|p] D]; try discriminate.
      do 6 (destruct p as [p|p|]; try discriminate E3). reflexivity.
Qed.

Lemma fmt_int_ok : forall cv neg n sg a, conv_ok cv -> In (cv_c cv) (str "diuoxX") ->
  a = (if (cv_c cv =? ch "X")%N then ch "A" else ch "a") -> sign_of cv neg n sg ->
  int_field cv neg n (fmt_int (spec_of cv) sg n (conv_base (cv_c cv)) a).
Proof.
  intros cv neg n sg a K Hc Ea Hs. rewrite fmt_int_eq. cbv zeta.
  set (zs := int_zeros (spec_of cv) n (conv_base (cv_c cv)) a).
  set (ds := int_digits (spec_of cv) n (conv_base (cv_c cv)) a).
  exists (sp_width (spec_of cv)), sg, zs, ds. split; [apply spec_width; exact K|]. split; [exact Hs|].
  split; [apply digits_out_ok; assumption|]. unfold flag.
  change (sp_fl (spec_of cv)) with (cv_fl cv). change (sp_prec (spec_of cv)) with (option_map decval (cv_p cv)).
  assert (Right : ~ (In (ch "0") (cv_fl cv) /\ ~ In (ch "-") (cv_fl cv) /\ cv_p cv = None) ->
     memc (ch "0") (cv_fl cv) && negb (memc (ch "-") (cv_fl cv)) &&
       match option_map decval (cv_p cv) with None => true | _ => false end = false).
  { intros Q. destruct (memc (ch "0") (cv_fl cv)) eqn:E1; [|reflexivity].
    destruct (memc (ch "-") (cv_fl cv)) eqn:E2; [reflexivity|]. destruct (cv_p cv) eqn:E3; [reflexivity|].
    exfalso. apply Q. apply memc_iff in E1. apply memc_not in E2. auto. }
  destruct (memc (ch "0") (cv_fl cv) && negb (memc (ch "-") (cv_fl cv)) &&
       match option_map decval (cv_p cv) with None => true | _ => false end) eqn:E.
  - left. apply andb_prop in E as [E E3]. apply andb_prop in E as [E1 E2].
    split; [apply memc_iff; exact E1|]. split; [apply memc_not; destruct (memc (ch "-") (cv_fl cv)); [discriminate | reflexivity]|].
    split; [destruct (cv_p cv); [discriminate | reflexivity]|].
    exists (N.to_nat (sp_width (spec_of cv) - lenN sg - lenN (zs ++ ds))). split; [|reflexivity].
    change lenN with len. rewrite N2Nat.id, !len_app. lia.
  - right. split; [|apply pad_ok]. intros (Q1 & Q2 & Q3). apply memc_iff in Q1. apply memc_not in Q2.
    rewrite Q1, Q2, Q3 in E. discriminate.
Qed.
Lemma fmt_int_len : forall cv n sg a, conv_ok cv -> In (cv_c cv) (str "diuoxX") ->
  a = (if (cv_c cv =? ch "X")%N then ch "A" else ch "a") -> (n < 2 ^ 64)%N -> (len sg <= 2)%N -> 
  (sp_width (spec_of cv) <= billion)%N -> (forall p, sp_prec (spec_of cv) = Some p -> (p <= billion)%N) ->
  (len (fmt_int (spec_of cv) sg n (conv_base (cv_c cv)) a) <= 2 * billion)%N.
Proof.
  intros cv n sg a K Hc Ea Hn Hs Hw Hp. rewrite fmt_int_eq. cbv zeta.
  assert (Hb : (2 <= conv_base (cv_c cv) <= 16)%N).
  { unfold conv_base. destruct (cv_c cv =? ch "o")%N; [lia|]. destruct ((cv_c cv =? ch "x")%N || (cv_c cv =? ch "X")%N); lia. }
  assert (Ha : a = ch "a" \/ a = ch "A") by (rewrite Ea; destruct (cv_c cv =? ch "X")%N; auto).
  assert (HD : (len (int_digits (spec_of cv) n (conv_base (cv_c cv)) a) <= 64)%N).
  { pose proof (digits_of_len _ _ Hb Ha n Hn) as Q. change lenN with len in Q. unfold int_digits.
    destruct (sp_prec (spec_of cv)) as [[|p]|]; [destruct (n =? 0)%N; [cbn; lia|exact Q] | exact Q | exact Q]. }
  assert (HZ : (len (int_zeros (spec_of cv) n (conv_base (cv_c cv)) a) <= billion)%N).
  { unfold int_zeros. match goal with |- context [if ?c then _ else _] => destruct c end.
    - cbn. unfold billion. lia.
    - rewrite len_repeat. destruct (sp_prec (spec_of cv)) as [p|]; [|unfold billion; lia].
      specialize (Hp p eq_refl). lia. }
  unfold billion in *.
  match goal with |- context [if ?c then _ else _] => destruct c end.
  - unfold zeros. change lenN with len. rewrite !len_app, len_repeat. lia.
  - rewrite pad_len, !len_app. lia.
Qed.

(** Strings *)
Lemma conv_str_ok : forall s p o, conv_str enc p s = Some o -> str_prefix enc p s o.
Proof.
  induction s as [|c s IH]; intros p o H.
  - cbn in H. injection H as <-. destruct p as [p|]; cbn [str_prefix].
    + exists [], []. repeat split; [constructor | cbn; lia | auto].
    + constructor.
  - cbn [conv_str] in H. destruct p as [p|].
    + destruct p as [|p].
      { injection H as <-. exists [], (c :: s). repeat split; [constructor | cbn; lia | left; reflexivity]. }
      destruct (enc c) as [bs|] eqn:E; [|discriminate].
      destruct (N.pos p <? lenN bs)%N eqn:E2.
      { injection H as <-. exists [], (c :: s). repeat split; [constructor | cbn; lia|]. right. right.
        exists c, bs, s. repeat split; auto. cbn [app]. change lenN with len in E2. lia. }
      destruct (conv_str enc (Some (N.pos p - lenN bs)%N) s) as [o'|] eqn:E3; [|discriminate].
      injection H as <-. destruct (IH _ _ E3) as (s1 & s2 & -> & B & C & D). change lenN with len in *.
      exists (c :: s1), s2. split; [reflexivity|]. split; [constructor; assumption|]. rewrite len_app. split; [lia|].
      destruct D as [D|[D|(c' & bs' & s3 & D1 & D2 & D3)]]; [left; lia | right; left; exact D | right; right].
      exists c', bs', s3. repeat split; auto. rewrite !len_app in *. lia.
    + destruct (enc c) as [bs|] eqn:E; [|discriminate].
      destruct (conv_str enc None s) as [o'|] eqn:E3; [|discriminate]. injection H as <-.
      cbn [str_prefix]. constructor; [assumption|]. apply (IH None). exact E3.
Qed.
Lemma conv_str_some : forall s p bs, encodes enc s bs ->
  exists o, conv_str enc p s = Some o /\ (len o <= len bs)%N.
Proof.
  induction s as [|c s IH]; intros p bs H.
  - exists []. split; [reflexivity | cbn; lia].
  - inversion H as [|? ? b o E H']; subst. cbn [conv_str]. rewrite E.
    destruct p as [[|p]|].
    + exists []. split; [reflexivity | cbn; lia].
    + destruct (N.pos p <? lenN b)%N.
      * exists []. split; [reflexivity | cbn; lia].
      * destruct (IH (Some (N.pos p - lenN b)%N) _ H') as (o' & -> & B). exists (b ++ o').
        split; [reflexivity|]. rewrite !len_app. lia.
    + destruct (IH None _ H') as (o' & -> & B). exists (b ++ o'). split; [reflexivity|]. rewrite !len_app. lia.
Qed.
End Fmt.
