(** Integer constants: which texts xwcstol accepts in base 0 and with which
    value, and that decimal output reads back as the same number. *)
From Coq Require Import Ascii String.
From Coq Require Import List NArith ZArith Bool Lia.
From Coq Require Import ZifyBool ZifyN.
From Verif Require Import Common Locale NumModel.
Import ListNotations.
Local Open Scope Z_scope.

(** ** Specification *)
(** [c] is a digit of base [b] with value [v]. *)
Inductive digit : N -> Z -> Prop :=
  | digit_num : forall i, (i < 10)%N -> digit (48 + i) (Z.of_N i)
  | digit_low : forall i, (i < 26)%N -> digit (97 + i) (Z.of_N i + 10)
  | digit_upp : forall i, (i < 26)%N -> digit (65 + i) (Z.of_N i + 10).

(** [w] is a non-empty sequence of base-[b] digits denoting [z]. *)
Inductive numeral (b : Z) : list N -> Z -> Prop :=
  | numeral_one : forall c v, digit c v -> v < b -> numeral b [c] v
  | numeral_snoc : forall w z c v, numeral b w z -> digit c v -> v < b ->
      numeral b (w ++ [c]) (z * b + v).

(** C integer constants: decimal, octal with leading 0, hexadecimal with 0x. *)
Inductive int_const : list N -> Z -> Prop :=
  | ic_dec : forall c w z, (c <> ch "0")%N -> numeral 10 (c :: w) z -> int_const (c :: w) z
  | ic_oct : forall w z, numeral 8 (ch "0" :: w) z -> int_const (ch "0" :: w) z
  | ic_hex : forall x w z, x = ch "x" \/ x = ch "X" -> numeral 16 w z ->
      int_const (ch "0" :: x :: w) z.

(** A number text: spaces, an optional sign, a constant. *)
Inductive int_text (L : locale) : list N -> Z -> Prop :=
  | it_plain : forall w z, int_const w z -> int_text L w z
  | it_plus : forall w z, int_const w z -> int_text L (ch "+" :: w) z
  | it_minus : forall w z, int_const w z -> int_text L (ch "-" :: w) (- z)
  | it_space : forall c w z, iswspace L c = true -> int_text L w z -> int_text L (c :: w) z.

(** ** Proofs *)
Lemma digit_val : forall c v, digit c v <-> digitval c = v /\ v < 36.
Proof.
  intros c v. split.
  - intros H. destruct H; unfold digitval;
      repeat match goal with |- context [if ?b then _ else _] => destruct b eqn:? end; lia.
  - unfold digitval. intros [H H2].
    destruct ((48 <=? c)%N && (c <=? 57)%N) eqn:E1.
    { replace c with (48 + (c - 48))%N by lia. replace v with (Z.of_N (c - 48)) by lia. constructor. lia. }
    destruct ((97 <=? c)%N && (c <=? 122)%N) eqn:E2.
    { replace c with (97 + (c - 97))%N by lia. replace v with (Z.of_N (c - 97) + 10) by lia. constructor. lia. }
    destruct ((65 <=? c)%N && (c <=? 90)%N) eqn:E3.
    { replace c with (65 + (c - 65))%N by lia. replace v with (Z.of_N (c - 65) + 10) by lia. constructor. lia. }
    lia.
Qed.

Fixpoint all_digits (b : Z) (w : list N) : Prop :=
  match w with [] => True | c :: w => digitval c < b /\ all_digits b w end.
Fixpoint horner (b acc : Z) (w : list N) : Z :=
  match w with [] => acc | c :: w => horner b (acc * b + digitval c) w end.

Lemma all_digits_app : forall b u w, all_digits b (u ++ w) <-> all_digits b u /\ all_digits b w.
Proof. induction u as [|c u IH]; intros w; cbn [app all_digits]; [tauto|]. rewrite IH. tauto. Qed.
Lemma horner_app : forall b u acc w, horner b acc (u ++ w) = horner b (horner b acc u) w.
Proof. induction u as [|c u IH]; intros acc w; cbn [app horner]; auto. Qed.

Lemma numeral_iff : forall b w z, b <= 36 ->
  numeral b w z <-> w <> [] /\ all_digits b w /\ z = horner b 0 w.
Proof.
  intros b w z Hb. split.
  - intros H. induction H as [c v Hd Hv|w z c v H IH Hd Hv].
    + apply digit_val in Hd. destruct Hd as [Hd _]. cbn. subst v. repeat split; auto. congruence.
    + destruct IH as (I1 & I2 & I3). apply digit_val in Hd. destruct Hd as [Hd _].
      split; [destruct w; discriminate|]. rewrite all_digits_app, horner_app. cbn. subst.
      repeat split; auto.
  - intros (H1 & H2 & ->). revert H1 H2. induction w as [|c w IH] using rev_ind; [congruence|].
    intros _ H2. rewrite all_digits_app in H2. destruct H2 as [H2 [H3 _]].
    assert (Hd : digit c (digitval c)) by (apply digit_val; lia).
    destruct w as [|c' w].
    + cbn. constructor; auto.
    + rewrite horner_app. cbn [horner]. apply numeral_snoc; auto. apply IH; [discriminate|auto].
Qed.

Lemma scan_all : forall b s acc any v, scan_digits b acc any s = (v, [], true) <->
  all_digits b s /\ v = horner b acc s /\ (any = true \/ s <> []).
Proof.
  induction s as [|c s IH]; intros acc any v; cbn [scan_digits all_digits horner].
  - split; [intros H; injection H as <- ->; auto|]. intros (_ & -> & [->|H]); [reflexivity|congruence].
  - destruct (digitval c <? b) eqn:E.
    + rewrite IH. split.
      * intros (H1 & H2 & _). repeat split; auto; [lia|right; discriminate].
      * intros ((H1 & H2) & H3 & _). auto.
    + split; [discriminate|]. intros ((H1 & _) & _). lia.
Qed.

Lemma scan_not : forall b s acc any v rest, scan_digits b acc any s = (v, rest, false) -> v = acc /\ rest = s.
Proof.
  assert (K : forall b s acc v rest, scan_digits b acc true s = (v, rest, false) -> False).
  { induction s as [|c s IH]; cbn; intros; [discriminate|]. destruct (digitval c <? b); [eauto|discriminate]. }
  destruct s as [|c s]; cbn; intros acc any v rest H; [injection H as <- <- _; auto|].
  destruct (digitval c <? b); [exfalso; eauto|]. injection H as <- <- _. auto.
Qed.

Definition body (s : list N) : option Z :=
  let '(b, s3) := base_prefix 0 s in
  match scan_digits b 0 false s3 with (v, [], true) => Some v | _ => None end.

Lemma d16_0 : digitval 48 = 0. Proof. reflexivity. Qed.
Lemma d16_x : forall x, x = ch "x" \/ x = ch "X" -> digitval x = 33.
Proof. intros x [->| ->]; reflexivity. Qed.

Lemma scan_opt : forall b s v,
  match scan_digits b 0 false s with (v, [], true) => Some v | _ => None end = Some v <->
  s <> [] /\ all_digits b s /\ v = horner b 0 s.
Proof.
  intros b s v. pose proof (scan_all b s 0 false v) as H.
  destruct (scan_digits b 0 false s) as [[v' r] k].
  split.
  - intros E. destruct r; [|discriminate]. destruct k; [|discriminate]. injection E as ->.
    destruct (proj1 H eq_refl) as (? & ? & [?|?]); [discriminate|auto].
  - intros (H1 & H2 & H3). pose proof (proj2 H (conj H2 (conj H3 (or_intror H1)))) as E.
    injection E as -> -> ->. reflexivity.
Qed.

Definition hexpref (s : list N) : bool :=
  match s with
  | c :: x :: d :: _ => (c =? 48)%N && ((x =? 120) || (x =? 88))%N && (digitval d <? 16)
  | _ => false
  end.
Lemma prefix_hex : forall s, hexpref s = true ->
  exists x w, s = 48%N :: x :: w /\ (x = 120 \/ x = 88)%N /\ base_prefix 0 s = (16, w).
Proof.
  intros [|c [|x [|d w]]] H; try discriminate. cbn [hexpref] in H.
  assert (c = 48%N) by lia. subst c. exists x, (d :: w). split; auto. split; [lia|].
  cbn. destruct ((x =? 120)%N || (x =? 88)%N) eqn:E1; [|lia].
  destruct (digitval d <? 16) eqn:E2; [|lia]. reflexivity.
Qed.
Lemma prefix_oct : forall c w, hexpref (c :: w) = false -> c = 48%N -> base_prefix 0 (c :: w) = (8, c :: w).
Proof.
  intros c [|x [|d w]] H ->; try reflexivity. cbn in *.
  destruct (((x =? 120)%N || (x =? 88)%N) && (digitval d <? 16)); [discriminate|reflexivity].
Qed.
Lemma prefix_dec : forall c w, c <> 48%N -> base_prefix 0 (c :: w) = (10, c :: w).
Proof.
  intros c w H. unfold base_prefix.
  destruct c as [|p]; [destruct w as [|? [|? ?]]; reflexivity|].
  do 6 (destruct p as [p|p|]; try (destruct w as [|? [|? ?]]; reflexivity)); congruence.
Qed.

Lemma body_iff : forall s z, body s = Some z <-> int_const s z.
Proof.
  intros s z. unfold body. destruct s as [|c w].
  { cbn. split; [discriminate|]. intros H. inversion H. }
  destruct (hexpref (c :: w)) eqn:Eh.
  - destruct (prefix_hex _ Eh) as (x & u & Es & Hx & ->). rewrite scan_opt.
    rewrite <- (numeral_iff 16 u z) by lia. rewrite Es. split.
    + intros H. apply ic_hex; auto.
    + intros H. inversion H as [? ? ? Hc| ? ? Hn| ? ? ? ? Hn]; subst; auto.
      * exfalso. apply Hc. reflexivity.
      * exfalso. apply numeral_iff in Hn; [|lia]. destruct Hn as (_ & (_ & Hn & _) & _).
        rewrite (d16_x x) in Hn; [lia|auto].
  - destruct (N.eq_dec c 48) as [->|Hc].
    + rewrite prefix_oct by auto. rewrite scan_opt, <- (numeral_iff 8) by lia. split.
      * intros H. apply ic_oct. exact H.
      * intros H. inversion H as [? ? ? Hc| ? ? Hn| ? ? ? Hx Hn]; subst; auto.
        -- exfalso. apply Hc. reflexivity.
        -- exfalso. apply numeral_iff in Hn; [|lia]. destruct Hn as (Hn1 & Hn2 & _).
           destruct w0 as [|d w0]; [congruence|]. cbn in Eh. destruct Hn2 as [Hn2 _].
           apply Z.ltb_lt in Hn2. rewrite Hn2 in Eh. destruct Hx as [->| ->]; discriminate.
    + rewrite prefix_dec by auto. rewrite scan_opt, <- (numeral_iff 10) by lia. split.
      * intros H. apply ic_dec; auto.
      * intros H. inversion H as [? ? ? Hc'| ? ? Hn| ? ? ? Hx Hn]; subst; auto; exfalso; apply Hc; reflexivity.
Qed.

Lemma const_head : forall w z, int_const w z -> exists c w', w = c :: w' /\ digitval c < 16.
Proof.
  intros w z H. inversion H as [c u ? Hc Hn| u ? Hn| x u ? Hx Hn]; subst; eexists _, _; (split; [reflexivity|]); try (cbn; lia).
  apply numeral_iff in Hn; [|lia]. destruct Hn as (_ & (Hn & _) & _). lia.
Qed.

Lemma digit_ascii : forall c, digitval c < 16 -> (c < 128)%N /\ (48 <= c)%N.
Proof.
  intros c. unfold digitval.
  repeat match goal with |- context [if ?b then _ else _] => destruct b eqn:? end; lia.
Qed.

Section Loc.
Variable L : locale.
Hypothesis Lok : locale_ok L.

Lemma skip_space_spec : forall s, exists sp r, s = sp ++ r /\ Forall (fun c => iswspace L c = true) sp /\
  skip_space L s = r /\ match r with c :: _ => iswspace L c = false | [] => True end.
Proof.
  induction s as [|c s (sp & r & -> & H1 & H2 & H3)].
  - exists [], []. cbn. auto.
  - cbn [skip_space]. destruct (iswspace L c) eqn:E.
    + exists (c :: sp), r. repeat split; auto.
    + exists [], (c :: sp ++ r). repeat split; auto.
Qed.

Lemma nospace_ascii : forall c, (33 <= c < 128)%N -> iswspace L c = false.
Proof. intros c H. rewrite (lk_space L Lok) by lia. unfold c_space. lia. Qed.

Lemma int_text_spaces : forall sp r z, Forall (fun c => iswspace L c = true) sp ->
  int_text L (sp ++ r) z <-> int_text L r z.
Proof.
  intros sp r z H. induction H as [|c sp Hc H IH]; cbn [app]; [tauto|]. rewrite <- IH. split.
  - intros T.
    assert (Hn : forall v, int_const (c :: sp ++ r) v -> False).
    { intros v Hv. apply const_head in Hv. destruct Hv as (c' & w' & E & Hd). injection E as <- _.
      apply digit_ascii in Hd. rewrite nospace_ascii in Hc by lia. discriminate. }
    inversion T as [? ? Hi| ? ? Hi| ? ? Hi| ? ? ? Hs Hi]; subst; auto.
    + exfalso; eauto.
    + rewrite nospace_ascii in Hc; [discriminate|cbn; lia].
    + rewrite nospace_ascii in Hc; [discriminate|cbn; lia].
  - intros T. apply it_space; auto.
Qed.

Definition signed (s : list N) : option Z :=
  match s with
  | 45%N :: s' => option_map Z.opp (body s')
  | 43%N :: s' => body s'
  | _ => body s
  end.

Lemma signed_iff : forall s z, match s with c :: _ => iswspace L c = false | [] => True end ->
  signed s = Some z <-> int_text L s z.
Proof.
  intros s z Hs.
  assert (K : forall w v, int_const w v -> (match w with c :: _ => c <> 45 /\ c <> 43 | [] => False end)%N).
  { intros w v H. apply const_head in H. destruct H as (c & w' & -> & Hd).
    split; intros ->; cbn in Hd; lia. }
  destruct s as [|c w].
  { cbn. split; [discriminate|]. intros T. inversion T as [? ? Hi| | |]; subst. inversion Hi. }
  destruct (N.eq_dec c 45) as [->|H45]; [|destruct (N.eq_dec c 43) as [->|H43]].
  - cbn [signed]. split.
    + destruct (body w) as [v|] eqn:E; [|discriminate]. cbn. intros H. injection H as <-.
      apply (it_minus L). apply body_iff. auto.
    + intros T. inversion T as [? ? Hi| ? ? Hi| ? ? Hi| ? ? ? Hsp Hi]; subst; try congruence.
      * apply K in Hi. cbn in Hi. destruct Hi. congruence.
      * apply body_iff in Hi. rewrite Hi. reflexivity.
  - cbn [signed]. split.
    + intros H. apply (it_plus L). apply body_iff. auto.
    + intros T. inversion T as [? ? Hi| ? ? Hi| ? ? Hi| ? ? ? Hsp Hi]; subst; try congruence.
      * apply K in Hi. cbn in Hi. destruct Hi. congruence.
      * apply body_iff in Hi. auto.
  - replace (signed (c :: w)) with (body (c :: w)).
    + rewrite body_iff. split.
      * intros H. apply it_plain. auto.
      * intros T. inversion T as [? ? Hi| ? ? Hi| ? ? Hi| ? ? ? Hsp Hi]; subst; auto; congruence.
    + unfold signed. destruct c as [|p]; auto.
      do 6 (destruct p as [p|p|]; auto; try congruence).
Qed.

Lemma xwcstol_signed : forall s, xwcstol L 0 s =
  match signed (skip_space L s) with Some v => if in_long v then Some v else None | None => None end.
Proof.
  intros s. unfold xwcstol. destruct s as [|c0 w0] eqn:Es; [reflexivity|]. rewrite <- Es. clear c0 w0 Es.
  unfold wcstol. generalize (skip_space L s). intros r.
  assert (B : forall u (neg : bool), match (let '(b, s3) := base_prefix 0 u in
      match scan_digits b 0 false s3 with
      | (v, rest, true) => (Some (if neg then - v else v), rest)
      | (_, _, false) => (None, s) end) with (Some v, []) => if in_long v then Some v else None | _ => None end =
      match (if neg then option_map Z.opp (body u) else body u) with Some v => if in_long v then Some v else None | None => None end).
  { intros u neg. unfold body. destruct (base_prefix 0 u) as [b s3].
    destruct (scan_digits b 0 false s3) as [[v rest] [|]]; destruct rest; destruct neg; reflexivity. }
  unfold signed. destruct r as [|c w]; [apply (B [] false)|].
  destruct c as [|p]; [apply (B (_ :: w) false)|].
  do 6 (destruct p as [p|p|]; try apply (B (_ :: w) false)); first [apply (B w true)|apply (B w false)].
Qed.

(** xwcstol with base 0 accepts exactly the number texts whose value is a long. *)
Lemma xwcstol_iff : forall s z, xwcstol L 0 s = Some z <-> int_text L s z /\ is_long z.
Proof.
  intros s z. rewrite xwcstol_signed.
  destruct (skip_space_spec s) as (sp & r & -> & H1 & -> & H2).
  rewrite int_text_spaces by auto. rewrite <- (signed_iff r z H2).
  destruct (signed r) as [v|]; [|split; [discriminate|intros [? _]; discriminate]].
  destruct (in_long v) eqn:E; unfold in_long in E; unfold is_long.
  - split; [intros H|intros [H _]; exact H]. injection H as <-. split; [auto|lia].
  - split; [discriminate|]. intros [H K]. injection H as <-. lia.
Qed.

(** ** Decimal output *)
Lemma dec_digits_app : forall f n acc, dec_digits f n acc = dec_digits f n [] ++ acc.
Proof.
  induction f as [|f IH]; intros n acc; cbn [dec_digits]; auto.
  destruct (n / 10 =? 0)%N; [reflexivity|]. rewrite IH, (IH _ [_]). rewrite <- app_assoc. reflexivity.
Qed.

Lemma dec_digits_S : forall f n acc, dec_digits (S f) n acc =
  if (n / 10 =? 0)%N then ((48 + n mod 10) :: acc)%N else dec_digits f (n / 10) ((48 + n mod 10) :: acc)%N.
Proof. reflexivity. Qed.

Lemma dec_digits_ok : forall f n, (n < 2 ^ N.of_nat (S f))%N ->
  exists c w, dec_digits (S f) n [] = c :: w /\ (c = 48%N -> n = 0%N) /\ numeral 10 (c :: w) (Z.of_N n).
Proof.
  induction f as [|f IH]; intros n H; rewrite dec_digits_S.
  - assert (n = 0 \/ n = 1)%N as [->| ->] by (cbn in H; lia); cbn.
    + exists 48%N, []. repeat split; auto. apply (numeral_one 10 48 0); [|lia].
      apply (digit_num 0). lia.
    + exists 49%N, []. repeat split; [discriminate|]. apply (numeral_one 10 49 1); [|lia].
      apply (digit_num 1). lia.
  - pose proof (N.mod_lt n 10 ltac:(lia)) as Hm. pose proof (N.div_mod n 10 ltac:(lia)) as Hd.
    destruct (n / 10 =? 0)%N eqn:E.
    + assert (Hn : (n mod 10 = n)%N) by lia. rewrite Hn. exists (48 + n)%N, [].
      split; auto. split; [lia|]. apply numeral_one; [|lia]. apply digit_num. lia.
    + rewrite Nat2N.inj_succ, N.pow_succ_r' in H.
      destruct (IH (n / 10)%N) as (c & w & E1 & E2 & E3); [lia|].
      rewrite dec_digits_app, E1. exists c, (w ++ [(48 + n mod 10)%N]). split; auto.
      split; [intros Hc; specialize (E2 Hc); lia|].
      replace (Z.of_N n) with (Z.of_N (n / 10) * 10 + Z.of_N (n mod 10)) by lia.
      apply (numeral_snoc 10 (c :: w)); auto; [|lia]. apply digit_num. auto.
Qed.

Lemma dec_of_N_ok : forall n, exists c w, dec_of_N n = c :: w /\ (c = 48%N -> n = 0%N) /\ numeral 10 (c :: w) (Z.of_N n).
Proof.
  intros n. unfold dec_of_N. apply dec_digits_ok. rewrite Nat2N.inj_succ, N2Nat.id.
  destruct (N.eq_dec n 0) as [->|Hn]; [reflexivity|].
  pose proof (N.log2_spec n ltac:(lia)). lia.
Qed.

Lemma dec_of_N_const : forall n, int_const (dec_of_N n) (Z.of_N n).
Proof.
  intros n. destruct (dec_of_N_ok n) as (c & w & E & H1 & H2).
  destruct (N.eq_dec c 48) as [Hc|Hc].
  - rewrite (H1 Hc). apply (ic_oct []). apply (numeral_one 8 48 0); [|lia]. apply (digit_num 0). lia.
  - rewrite E. apply ic_dec; auto.
Qed.

Lemma dec_of_Z_text : forall z, int_text L (dec_of_Z z) z.
Proof.
  intros z. unfold dec_of_Z. destruct (z <? 0) eqn:E.
  - pose proof (it_minus L _ _ (dec_of_N_const (Z.to_N (- z)))) as H.
    rewrite Z2N.id, Z.opp_involutive in H by lia. exact H.
  - apply it_plain. pose proof (dec_of_N_const (Z.to_N z)) as H. rewrite Z2N.id in H by lia. exact H.
Qed.

(** Every long reads back as itself. *)
Lemma dec_roundtrip : forall z, is_long z -> xwcstol L 0 (dec_of_Z z) = Some z.
Proof. intros z H. apply xwcstol_iff. split; auto. apply dec_of_Z_text. Qed.

(** A number text has one value. *)
Lemma int_text_fun : forall s z z', int_text L s z -> int_text L s z' -> z = z'.
Proof.
  intros s z z'.
  destruct (skip_space_spec s) as (sp & r & -> & H1 & _ & H2). rewrite !int_text_spaces by auto.
  rewrite <- !signed_iff by auto. congruence.
Qed.
End Loc.
