(** Proofs about numeric brace expansion. *)
From Coq Require Import Ascii String.
From Coq Require Import List NArith ZArith Bool Arith Lia.
From Coq Require Import ZifyBool ZifyN.
From Verif Require Import Common Locale NumModel NumProofs CharcatModel BraceModel BraceSpec.
Import ListNotations.
Open Scope res_scope.

Section L.
Variable L : locale.
Hypothesis HL : locale_ok L.

Lemma digitval_digit c : is_digit c = true <-> (digitval c < 10)%Z.
Proof.
  unfold is_digit, digitval. destruct ((48 <=? c) && (c <=? 57))%N eqn:E; [lia|].
  destruct ((97 <=? c) && (c <=? 122))%N eqn:E2; [lia|]. destruct ((65 <=? c) && (c <=? 90))%N eqn:E3; lia.
Qed.
Lemma digitval_value c : is_digit c = true -> digitval c = (Z.of_N c - 48)%Z.
Proof. unfold is_digit, digitval. intros ->. reflexivity. Qed.

Definition nodigit (s : list N) : Prop := match s with [] => True | c :: _ => is_digit c = false end.
Lemma scan_digits_fwd ds : forall acc any rest, Forall (fun c => is_digit c = true) ds -> nodigit rest ->
  scan_digits 10 acc any (ds ++ rest) = (digits_value acc ds, rest, any || negb (match ds with [] => true | _ => false end)).
Proof.
  induction ds as [|d ds IH]; intros acc any rest H Hr; cbn [app scan_digits digits_value].
  - destruct rest as [|c rest]; cbn [scan_digits]; [now rewrite orb_false_r|]. cbn in Hr.
    replace (digitval c <? 10)%Z with false. 2:{ destruct (digitval_digit c). destruct (Z.ltb_spec (digitval c) 10); [|auto]. rewrite H1 in Hr by auto. discriminate. }
    now rewrite orb_false_r.
  - inversion H as [|? ? H1 H2]; subst. pose proof H1 as H3. apply digitval_digit in H3. replace (digitval d <? 10)%Z with true by lia.
    rewrite IH, (digitval_value d) by auto. cbn. now rewrite orb_true_r.
Qed.
Lemma scan_digits_bwd s : forall acc any v rest b, scan_digits 10 acc any s = (v, rest, b) ->
  exists ds, s = ds ++ rest /\ Forall (fun c => is_digit c = true) ds /\ nodigit rest /\ v = digits_value acc ds /\
    b = any || negb (match ds with [] => true | _ => false end).
Proof.
  induction s as [|c s IH]; intros acc any v rest b H; cbn [scan_digits] in H.
  - injection H as <- <- <-. exists []. cbn. rewrite orb_false_r. auto.
  - destruct (digitval c <? 10)%Z eqn:E.
    + apply IH in H as (ds & -> & F & R & -> & ->). assert (D : is_digit c = true) by (apply digitval_digit; lia).
      exists (c :: ds). cbn [app digits_value]. rewrite (digitval_value c) by auto. cbn. rewrite orb_true_r. repeat split; auto.
    + injection H as <- <- <-. exists []. cbn. rewrite orb_false_r. repeat split; auto. cbn.
      destruct (is_digit c) eqn:D; auto. apply digitval_digit in D. lia.
Qed.

Lemma base10 s : base_prefix 10 s = (10%Z, s).
Proof.
  unfold base_prefix. destruct s as [|c s]; [reflexivity|].
  destruct c as [|p]; [reflexivity|]. do 6 (destruct p as [p|p|]; try reflexivity).
  destruct s as [|x s]; [reflexivity|]. destruct s as [|d s]; [reflexivity|].
  cbn [Z.eqb orb]. now rewrite andb_false_r.
Qed.

(** The sign that follows the white space *)
Definition take_sign (s : list N) : bool * list N :=
  match s with 45%N :: s' => (true, s') | 43%N :: s' => (false, s') | _ => (false, s) end.
Lemma take_sign_minus s : take_sign (45%N :: s) = (true, s). Proof. reflexivity. Qed.
Lemma take_sign_plus s : take_sign (43%N :: s) = (false, s). Proof. reflexivity. Qed.
Lemma take_sign_other c s : c <> 45%N -> c <> 43%N -> take_sign (c :: s) = (false, c :: s).
Proof.
  intros H1 H2. unfold take_sign. destruct c as [|p]; [reflexivity|]. do 6 (destruct p as [p|p|]; try reflexivity); congruence.
Qed.
Lemma take_sign_bwd s : forall n s', take_sign s = (n, s') ->
  exists sg, s = sg ++ s' /\ (n = false /\ (sg = [] \/ sg = [43%N]) \/ n = true /\ sg = [45%N]).
Proof.
  intros n s' H. destruct s as [|c s].
  - injection H as <- <-. exists []. cbn. auto.
  - destruct (N.eq_dec c 45) as [->|H1]. { injection H as <- <-. exists [45%N]. auto. }
    destruct (N.eq_dec c 43) as [->|H2]. { injection H as <- <-. exists [43%N]. auto. }
    rewrite take_sign_other in H by auto. injection H as <- <-. exists []. auto.
Qed.
Lemma wcstol_unfold s : wcstol L 10 s =
  let '(neg, s2) := take_sign (skip_space L s) in
  match scan_digits 10 0 false s2 with
  | (v, rest, true) => (Some (if neg then - v else v)%Z, rest)
  | (_, _, false) => (None, s)
  end.
Proof. unfold wcstol. fold (take_sign (skip_space L s)). destruct (take_sign (skip_space L s)) as [n s2]. now rewrite base10. Qed.

Lemma is_long_range v : in_long v = true <-> (- 2 ^ 63 <= v < 2 ^ 63)%Z.
Proof. unfold in_long, LONG_MIN, LONG_MAX. lia. Qed.

Lemma skip_space_app sp r : Forall (fun c => iswspace L c = true) sp ->
  match r with [] => True | c :: _ => iswspace L c = false end -> skip_space L (sp ++ r) = r.
Proof.
  intros H Hr. induction H as [|c sp H F IH]; cbn [app skip_space].
  - destruct r as [|c r]; [reflexivity|]. cbn. now rewrite Hr.
  - now rewrite H.
Qed.
Lemma nospace c : (33 <= c < 128)%N -> iswspace L c = false.
Proof. intros H. rewrite (lk_space L HL) by lia. unfold c_space. lia. Qed.
Lemma digit_nospace c : is_digit c = true -> iswspace L c = false.
Proof. intros H. apply nospace. unfold is_digit in H. lia. Qed.

(** What an integer looks like after its white space *)
Lemma integer_split a sg ds v : integer L a sg ds v ->
  exists sp d ds', a = sp ++ sg ++ ds /\ ds = d :: ds' /\ Forall (fun c => iswspace L c = true) sp /\ is_digit d = true /\
    forall rest, skip_space L (a ++ rest) = sg ++ ds ++ rest.
Proof.
  intros (sp & -> & Hs & Hn & Hd & _ & Hv). destruct ds as [|d ds']; [congruence|]. inversion Hd; subst.
  exists sp, d, ds'. repeat split; auto. intros rest. rewrite <- !app_assoc. apply skip_space_app; auto.
  destruct Hv as [[[->| ->] _]|[-> _]]; cbn; [now apply digit_nospace|apply nospace; lia..].
Qed.

Lemma number_fwd a sg ds v rest : integer L a sg ds v -> nodigit rest -> number L (a ++ rest) = Some (v, rest).
Proof.
  intros Hi Hr. destruct (integer_split _ _ _ _ Hi) as (sp & d & ds' & Ea & Ed & _ & Hd & Hk).
  destruct Hi as (_ & _ & _ & Hn & HF & Hl & Hv). unfold number. rewrite wcstol_unfold, Hk.
  assert (Hd' : d <> 45%N /\ d <> 43%N) by (unfold is_digit in Hd; lia).
  assert (Hb : match ds with [] => true | _ => false end = false) by (rewrite Ed; reflexivity). apply is_long_range in Hl.
  destruct Hv as [[[->| ->] Ev]|[-> Ev]]; cbn [app].
  - rewrite Ed at 1. cbn [app]. rewrite take_sign_other by tauto. change (d :: ds' ++ rest) with ((d :: ds') ++ rest). rewrite <- Ed.
    rewrite scan_digits_fwd by auto. rewrite Hb. cbn [orb negb]. rewrite <- Ev. now rewrite Hl.
  - rewrite take_sign_plus. rewrite scan_digits_fwd by auto. rewrite Hb. cbn [orb negb]. rewrite <- Ev. now rewrite Hl.
  - rewrite take_sign_minus. rewrite scan_digits_fwd by auto. rewrite Hb. cbn [orb negb]. rewrite <- Ev. now rewrite Hl.
Qed.
Lemma number_bwd s v rest : number L s = Some (v, rest) ->
  exists a sg ds, s = a ++ rest /\ integer L a sg ds v /\ nodigit rest.
Proof.
  unfold number. rewrite wcstol_unfold. intros H.
  destruct (skip_space_spec L s) as (sp & r & Es & Hsp & Hr). clear Hr.
  assert (Ek : exists sp, s = sp ++ skip_space L s /\ Forall (fun c => iswspace L c = true) sp).
  { clear. induction s as [|c s (sp & E & F)]; [exists []; auto|]. cbn [skip_space]. destruct (iswspace L c) eqn:W; [|exists []; auto].
    exists (c :: sp). cbn [app]. rewrite <- E. auto. }
  clear sp r Es Hsp. destruct Ek as (sp & Es & Hsp). remember (skip_space L s) as s1 eqn:E1. clear E1.
  destruct (take_sign s1) as [n s2] eqn:Et. apply take_sign_bwd in Et as (sg & -> & Hsg).
  destruct (scan_digits 10 0 false s2) as [[v0 r0] b] eqn:Ed. destruct b; [|discriminate].
  apply scan_digits_bwd in Ed as (ds & -> & HF & Hr & -> & Eb). destruct (in_long _) eqn:El; [|discriminate].
  injection H as <- <-. exists (sp ++ sg ++ ds), sg, ds. rewrite <- !app_assoc. split; [auto|]. split; [|auto].
  exists sp. split; [auto|]. split; [auto|]. split. { intros ->. discriminate. } split; [auto|]. split; [now apply is_long_range|].
  destruct Hsg as [[-> ?]|[-> ->]]; auto.
Qed.

Lemma hlz a sg ds v rest sign : integer L a sg ds v ->
  has_leading_zero L (a ++ rest) sign = ((hd 0%N ds =? 48)%N, sign || match sg with [43%N] => true | _ => false end).
Proof.
  intros Hi. destruct (integer_split _ _ _ _ Hi) as (sp & d & ds' & Ea & Ed & _ & Hd & Hk).
  destruct Hi as (_ & _ & _ & Hn & HF & Hl & Hv). unfold has_leading_zero. rewrite Hk. subst ds. cbn [hd].
  assert (Z : forall t, match d :: t with 48%N :: _ => true | _ => false end = (d =? 48)%N).
  { intros t. destruct (N.eqb_spec d 48) as [->|H]; [reflexivity|]. destruct d as [|p]; [reflexivity|]. do 6 (destruct p as [p|p|]; try reflexivity); congruence. }
  destruct Hv as [[[->| ->] Ev]|[-> Ev]]; cbn [app].
  - assert (H1 : d <> 45%N) by (unfold is_digit in Hd; lia). assert (H2 : d <> 43%N) by (unfold is_digit in Hd; lia).
    replace (match d :: ds' ++ rest with 43%N :: s' => (s', true) | 45%N :: s' => (s', sign) | _ => (d :: ds' ++ rest, sign) end)
      with (d :: ds' ++ rest, sign).
    + now rewrite Z, orb_false_r.
    + destruct d as [|p]; [reflexivity|]. do 6 (destruct p as [p|p|]; try reflexivity); congruence.
  - now rewrite Z, orb_true_r.
  - now rewrite Z, orb_false_r.
Qed.

(** ** The values *)
Lemma seq_values_ok fuel : forall value e d, d <> 0%Z -> is_long value -> is_long e -> is_long d ->
  Z.to_nat ((e - value) / d) < fuel ->
  seq_values fuel value e d = Ok (map (fun k => value + Z.of_nat k * d)%Z (seq 0 (S (Z.to_nat ((e - value) / d))))).
Proof.
  induction fuel as [|fuel IH]; intros value e d Hd Hv He Hl H; [lia|]. cbn [seq_values].
  assert (One : Z.to_nat ((e - value) / d) = 0 ->
    map (fun k => value + Z.of_nat k * d)%Z (seq 0 (S (Z.to_nat ((e - value) / d)))) = [value]).
  { intros ->. cbn. f_equal. lia. }
  assert (More : (0 <=? d)%Z = true /\ (value + d <= e)%Z \/ (0 <=? d)%Z = false /\ (e <= value + d)%Z ->
    Z.to_nat ((e - value) / d) = S (Z.to_nat ((e - (value + d)) / d))).
  { intros Hc. replace (e - value)%Z with ((e - (value + d)) + 1 * d)%Z by lia. rewrite Z.div_add by auto.
    assert (0 <= (e - (value + d)) / d)%Z.
    { destruct Hc as [[H1 H2]|[H1 H2]].
      - apply Z.div_pos; lia.
      - rewrite <- Z.div_opp_opp by auto. apply Z.div_pos; lia. }
    lia. }
  assert (Less : (0 <=? d)%Z = true /\ (e < value + d)%Z \/ (0 <=? d)%Z = false /\ (value + d < e)%Z ->
    Z.to_nat ((e - value) / d) = 0).
  { intros [[H1 H2]|[H1 H2]].
    - assert ((e - value) / d < 1)%Z by (apply Z.div_lt_upper_bound; lia). lia.
    - rewrite <- Z.div_opp_opp by auto. assert ((- (e - value)) / (- d) < 1)%Z by (apply Z.div_lt_upper_bound; lia). lia. }
  unfold is_long, LONG_MAX, LONG_MIN in *.
  destruct (if (0 <=? d)%Z then _ else _) eqn:Es.
  - rewrite One; [reflexivity|]. apply Less. destruct (0 <=? d)%Z eqn:E; lia.
  - replace (in_long (value + d)) with true. 2:{ symmetry. unfold in_long, LONG_MAX, LONG_MIN. destruct (0 <=? d)%Z eqn:E; lia. }
    cbn [negb]. destruct (if (0 <=? d)%Z then (value + d <=? e)%Z else _) eqn:Ec.
    + assert (Hm : Z.to_nat ((e - value) / d) = S (Z.to_nat ((e - (value + d)) / d))).
      { apply More. destruct (0 <=? d)%Z eqn:E; lia. }
      rewrite IH; auto; try (destruct (0 <=? d)%Z eqn:E; lia).
      rewrite Hm. cbn [rbind]. f_equal. remember (Z.to_nat ((e - (value + d)) / d)) as n. 
      change (seq 0 (S (S n))) with (0 :: seq 1 (S n)). rewrite <- (seq_shift (S n) 0). remember (seq 0 (S n)) as q. cbn [map].
      f_equal; [lia|]. rewrite map_map. apply map_ext. intros k. lia.
    + rewrite One; [reflexivity|]. apply Less. destruct (0 <=? d)%Z eqn:E; lia.
Qed.

(** ** Formatting *)
Lemma numeral_value w z : numeral 10 w z -> Forall (fun c => is_digit c = true) w /\ digits_value 0 w = z /\ w <> [].
Proof.
  assert (V : forall u acc c, digits_value acc (u ++ [c]) = (digits_value acc u * 10 + (Z.of_N c - 48))%Z).
  { induction u as [|x u IH]; intros acc c; cbn [app digits_value]; auto. }
  assert (D : forall c v, digit c v -> (v < 10)%Z -> is_digit c = true /\ v = (Z.of_N c - 48)%Z).
  { intros c v H Hv. apply digit_val in H as [E _]. rewrite <- E in *. apply digitval_digit in Hv. split; auto. now apply digitval_value. }
  induction 1 as [c v Hc Hv|w z c v Hn (F & E & _) Hc Hv].
  - destruct (D _ _ Hc Hv) as [H1 ->]. split; [auto|]. split; [cbn; lia|discriminate].
  - destruct (D _ _ Hc Hv) as [H1 ->]. split; [apply Forall_app; auto|]. split; [rewrite V; lia|]. destruct w; discriminate.
Qed.
Lemma format_shown r v : shown r v (format_ld (r_plus r) (r_width r) v).
Proof.
  unfold format_ld, shown. destruct (dec_of_N_ok (Z.abs_N v)) as (c & w & E & H0 & Hn).
  pose proof (numeral_value _ _ Hn) as (HF & HV & _). rewrite E.
  set (sg := (if v <? 0 then [45%N] else if r_plus r then [43%N] else [])%Z).
  exists sg, (repeat 48%N (r_width r - length sg - length (c :: w))), (c :: w).
  split; [reflexivity|]. split; [reflexivity|]. split.
  { apply Forall_forall. intros x Hx. apply repeat_spec in Hx. auto. }
  rewrite !app_length, repeat_length. split; [|split; [|split; [discriminate|split; [auto|split; [lia|]]]]].
  - destruct (r_width r - length sg - length (c :: w)) eqn:En; [left; reflexivity|right; lia].
  - lia.
  - cbn [hd]. intros ->. specialize (H0 eq_refl). assert (v = 0)%Z by lia. subst v. cbn in E. injection E as <-. reflexivity.
Qed.
End L.
