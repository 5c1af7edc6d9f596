(** Lemmas about signal names. *)
From Coq Require Import Ascii String.
From Coq Require Import List NArith ZArith Bool Arith Lia.
From Verif Require Import Common Locale NumModel NumProofs BraceSpec BraceNum SigModel SigSpec.
Import ListNotations.
Local Open Scope Z_scope.

Section S.
Variable L : locale.
Hypothesis HL : locale_ok L.
Variable G : sigs.
Hypothesis HG : sigs_ok G.

Lemma dv_nonneg c : 0 <= digitval c.
Proof.
  unfold digitval. destruct ((48 <=? c) && (c <=? 57))%N eqn:A; [lia|]. destruct ((97 <=? c) && (c <=? 122))%N eqn:B; [lia|].
  destruct ((65 <=? c) && (c <=? 90))%N eqn:D; lia.
Qed.
Lemma dv_zero c : digitval c = 0 -> c = 48%N.
Proof.
  unfold digitval. destruct ((48 <=? c) && (c <=? 57))%N eqn:A; [lia|]. destruct ((97 <=? c) && (c <=? 122))%N eqn:B; [lia|].
  destruct ((65 <=? c) && (c <=? 90))%N eqn:D; lia.
Qed.
Lemma horner_ge b : 0 <= b -> forall r acc, 0 <= acc -> 0 <= horner b acc r /\ (0 < b -> horner b acc r = 0 -> acc = 0 /\ Forall (fun c => c = 48%N) r).
Proof.
  intros B r. induction r as [|c r IH]; intros acc A; cbn [horner]; [split; [exact A|auto]|].
  pose proof (dv_nonneg c) as D. destruct (IH (acc * b + digitval c) ltac:(nia)) as (I1 & I2). split; [exact I1|].
  intros B2 E. destruct (I2 B2 E) as (E1 & E2). assert (acc = 0) by nia. subst. split; [reflexivity|]. constructor; [apply dv_zero; lia|exact E2].
Qed.
Lemma space_digit c : isdigit c = true -> iswspace L c = false.
Proof. intro D. apply (digit_nospace L HL). exact D. Qed.
Lemma space_plus : iswspace L (ch "+") = false /\ iswspace L (ch "-") = false.
Proof. split; apply nospace; auto; vm_compute; intuition congruence. Qed.

(** Numbers with or without a sign *)
Definition sgn (neg : bool) : list N := if neg then str "-" else str "+".
Lemma wcstol_sign neg r : wcstol L 10 (sgn neg ++ r) =
  match scan_digits 10 0 false r with (v, rest, true) => (Some (if neg then - v else v), rest) | (_, _, false) => (None, sgn neg ++ r) end.
Proof.
  rewrite wcstol_unfold. destruct space_plus as (S1 & S2). destruct neg; cbn [sgn str app skip_space].
  - change (iswspace L _) with (iswspace L (ch "-")). rewrite S2. reflexivity.
  - change (iswspace L _) with (iswspace L (ch "+")). rewrite S1. reflexivity.
Qed.
Lemma xwcstoi_sign neg r n : xwcstoi L 10 (sgn neg ++ r) = Some n ->
  exists v, 0 <= v /\ n = (if neg then - v else v) /\ r <> [] /\ (v = 0 -> Forall (fun c => c = 48%N) r).
Proof.
  unfold xwcstoi, xwcstol. intro E. assert (X : sgn neg ++ r <> []) by (destruct neg; discriminate).
  destruct (sgn neg ++ r) as [|c0 r0] eqn:Q; [congruence|]. rewrite <- Q in E. rewrite wcstol_sign in E.
  pose proof (scan_opt 10 r) as SO. destruct (scan_digits 10 0 false r) as [[v rest] k]. destruct k; [|discriminate]. destruct rest; [|discriminate].
  destruct (proj1 (SO v) eq_refl) as (A & B & C). destruct (horner_ge 10 ltac:(lia) r 0 ltac:(lia)) as (D1 & D2). rewrite <- C in D1, D2.
  exists v. split; [exact D1|]. split; [|split; [exact A|intro V; apply (D2 ltac:(lia) V)]].
  destruct (in_long _); [|discriminate]. destruct (_ || _); [discriminate|]. congruence.
Qed.
Lemma scan_numeral t z : numeral 10 t z -> scan_digits 10 0 false t = (z, [], true).
Proof.
  intro NV. apply (numeral_iff 10) in NV; [|lia]. destruct NV as (A & B & C). apply scan_all. auto.
Qed.
Lemma xwcstoi_of_sign neg t z : numeral 10 t z -> z <= INT_MAX -> 0 <= z -> xwcstoi L 10 (sgn neg ++ t) = Some (if neg then - z else z).
Proof.
  intros NV Z1 Z0. unfold xwcstoi, xwcstol. assert (X : sgn neg ++ t <> []) by (destruct neg; discriminate).
  destruct (sgn neg ++ t) as [|c0 r0] eqn:Q; [congruence|]. rewrite <- Q. rewrite wcstol_sign, (scan_numeral t z NV).
  unfold INT_MAX in Z1. assert (IL : in_long (if neg then - z else z) = true) by (unfold in_long, LONG_MIN, LONG_MAX; destruct neg; lia). rewrite IL.
  unfold INT_MIN, INT_MAX. destruct ((_ <? _) || _)%bool eqn:O; [destruct neg; lia|reflexivity].
Qed.
Lemma numeral_digit t z : numeral 10 t z -> match t with c :: _ => isdigit c | [] => false end = true /\ Forall (fun c => isdigit c = true) t.
Proof. intro NV. destruct (numeral_value _ _ NV) as (D & _ & E). destruct t as [|c t]; [congruence|]. split; [inversion D; assumption|exact D]. Qed.
Lemma xwcstoi_numeral t z : numeral 10 t z -> 0 <= z <= INT_MAX -> xwcstoi L 10 t = Some z.
Proof.
  intros NV Z0. destruct (numeral_digit t z NV) as (D & _). destruct t as [|c t]; [discriminate|].
  unfold xwcstoi, xwcstol. rewrite wcstol_unfold. cbn [skip_space]. rewrite (space_digit c D). rewrite take_sign_other by (unfold isdigit in D; lia).
  rewrite (scan_numeral _ z NV). unfold INT_MAX in Z0. assert (IL : in_long z = true) by (unfold in_long, LONG_MIN, LONG_MAX; lia). rewrite IL.
  unfold INT_MIN, INT_MAX. destruct ((_ <? _) || _)%bool eqn:O; [lia|reflexivity].
Qed.
Lemma dec_num n : 0 <= n -> numeral 10 (dec_of_Z n) n.
Proof.
  intro P. unfold dec_of_Z. destruct (Z.ltb_spec n 0); [lia|]. destruct (dec_of_N_ok (Z.to_N n)) as (c & w & -> & _ & X). rewrite Z2N.id in X by lia. exact X.
Qed.

(** ** Names *)
Lemma rt_iff z : is_rt G z = true <-> rtmin G <= z <= rtmax G.
Proof. unfold is_rt. rewrite andb_true_iff, !Z.leb_le. tauto. Qed.
Lemma in_table_iff z : in_table G z = true <-> In z (map snd (table G)).
Proof.
  unfold in_table. rewrite existsb_exists, in_map_iff. split; intros (p & A & B); exists p; [apply Z.eqb_eq in B|split; [|apply Z.eqb_eq]]; auto.
Qed.
Lemma find_name nm z : In (nm, z) (table G) -> find (fun p => list_N_eqb nm (fst p)) (table G) = Some (nm, z).
Proof.
  pose proof (ok_names G HG) as ND. revert ND. generalize (table G) as t. induction t as [|(n, y) t IH]; intros ND I; [contradiction|]. cbn [find fst].
  cbn [map fst] in ND. inversion ND as [|? ? N1 N2]; subst. destruct (list_N_eqb nm n) eqn:E.
  - apply list_N_eqb_eq in E. subst n. destruct I as [I|I]; [injection I as ->; reflexivity|]. exfalso. apply N1. apply in_map_iff. exists (nm, z). auto.
  - destruct I as [I|I]; [injection I as -> ->; rewrite (proj2 (list_N_eqb_eq nm nm) eq_refl) in E; discriminate|auto].
Qed.
Lemma find_none_name nm : (forall z, ~ In (nm, z) (table G)) -> find (fun p => list_N_eqb nm (fst p)) (table G) = None.
Proof.
  intro N. destruct (find _ (table G)) as [(n, z)|] eqn:F; [|reflexivity]. exfalso. apply find_some in F. destruct F as (I & E). apply list_N_eqb_eq in E. cbn in E. subst. apply (N z I).
Qed.
Lemma drop_app p s : drop_prefix p (p ++ s) = Some s.
Proof. induction p as [|a p IH]; [reflexivity|]. cbn. rewrite N.eqb_refl. exact IH. Qed.
Lemma drop_inv : forall p s r, drop_prefix p s = Some r -> s = p ++ r.
Proof.
  induction p as [|a p IH]; intros s r E; [cbn in *; congruence|]. destruct s as [|b s]; [discriminate|]. cbn in E.
  destruct (N.eqb_spec a b); [|discriminate]. subst. cbn. f_equal. auto.
Qed.
Lemma rt_not_in_table r z : ~ In (str "RTM" ++ r, z) (table G).
Proof. intro I. apply (ok_table G HG) in I. destruct I as ((_ & _ & _ & D & _) & _). rewrite drop_app in D. discriminate. Qed.
(** What a name without prefix means *)
Definition bare (nm : list N) : gres := signal_number L G (str "SIG" ++ nm).
Lemma bare_eq nm : match nm with c :: _ => isdigit c | [] => false end = false -> nm <> str "EXIT" -> drop_prefix (str "SIG") nm = None -> signal_number L G nm = bare nm.
Proof.
  intros A B C. unfold bare, signal_number. rewrite A, C. destruct (list_N_eqb nm (str "EXIT")) eqn:E; [apply list_N_eqb_eq in E; contradiction|].
  reflexivity.
Qed.
Lemma bare_table nm z : In (nm, z) (table G) -> bare nm = GNum z /\ signal_number L G nm = GNum z.
Proof.
  intro I. pose proof (ok_table G HG nm z I) as ((( c & r & -> & C) & _ & D & _ & E) & _).
  assert (B : bare (c :: r) = GNum z).
  { unfold bare, signal_number. change (match str "SIG" ++ c :: r with c :: _ => isdigit c | [] => false end) with false. cbv iota.
    change (list_N_eqb (str "SIG" ++ c :: r) (str "EXIT")) with false. cbv iota. rewrite drop_app. rewrite (find_name _ z I). reflexivity. }
  split; [exact B|]. rewrite bare_eq; auto. unfold isdigit. lia.
Qed.
Lemma bare_rtmin r : bare (str "RTMIN" ++ r) = signal_number L G (str "RTMIN" ++ r) /\ bare (str "RTMIN" ++ r) =
  match r with [] => GNum (rtmin G) | c :: r' => if (c =? ch "+")%N then match xwcstoi L 10 (c :: r') with Some n => if debug G && (n <? 0) then GAbort else if n <=? rtmax G - rtmin G then GNum (rtmin G + n) else GNone | None => GNone end else GNone end.
Proof.
  split; [symmetry; apply bare_eq; try reflexivity; discriminate|]. unfold bare, signal_number.
  change (match str "SIG" ++ str "RTMIN" ++ r with c :: _ => isdigit c | [] => false end) with false. cbv iota.
  change (list_N_eqb (str "SIG" ++ str "RTMIN" ++ r) (str "EXIT")) with false. cbv iota. rewrite drop_app.
  rewrite find_none_name by (intros z I; apply (rt_not_in_table (str "IN" ++ r) z); exact I). rewrite drop_app. destruct r; reflexivity.
Qed.
Lemma bare_rtmax r : bare (str "RTMAX" ++ r) = signal_number L G (str "RTMAX" ++ r) /\ bare (str "RTMAX" ++ r) =
  match r with [] => GNum (rtmax G) | c :: r' => if (c =? ch "-")%N then match xwcstoi L 10 (c :: r') with Some n => if debug G && (0 <=? n) then GAbort else if rtmin G - rtmax G <=? n then GNum (rtmax G + n) else GNone | None => GNone end else GNone end.
Proof.
  split; [symmetry; apply bare_eq; try reflexivity; discriminate|]. unfold bare, signal_number.
  change (match str "SIG" ++ str "RTMAX" ++ r with c :: _ => isdigit c | [] => false end) with false. cbv iota.
  change (list_N_eqb (str "SIG" ++ str "RTMAX" ++ r) (str "EXIT")) with false. cbv iota. rewrite drop_app.
  rewrite find_none_name by (intros z I; apply (rt_not_in_table (str "AX" ++ r) z); exact I).
  change (drop_prefix (str "RTMIN") (str "RTMAX" ++ r)) with (@None (list N)). cbv iota. rewrite drop_app. destruct r; reflexivity.
Qed.
Lemma name_bare z : valid G z -> z <> 0 -> bare (signal_name G z) = GNum z /\ signal_number L G (signal_name G z) = GNum z.
Proof.
  intros V NZ. unfold signal_name. destruct (Z.eqb_spec z 0); [contradiction|]. pose proof (ok_rt G HG) as (R1 & R2). destruct (is_rt G z) eqn:R.
  - apply rt_iff in R. destruct (Z.eqb_spec z (rtmin G)) as [->|N1].
    { destruct (bare_rtmin []) as (A & B). rewrite app_nil_r in A, B. rewrite <- A, B. auto. }
    destruct (Z.eqb_spec z (rtmax G)) as [->|N2].
    { destruct (bare_rtmax []) as (A & B). rewrite app_nil_r in A, B. rewrite <- A, B. auto. }
    cbv zeta. destruct (Z.leb_spec (z - rtmin G) ((rtmax G - rtmin G) / 2)).
    + change (str "RTMIN+" ++ dec_of_Z (z - rtmin G)) with (str "RTMIN" ++ (ch "+" :: dec_of_Z (z - rtmin G))).
      destruct (bare_rtmin (ch "+" :: dec_of_Z (z - rtmin G))) as (A & B). rewrite <- A, B, N.eqb_refl.
      change (ch "+" :: dec_of_Z (z - rtmin G)) with (sgn false ++ dec_of_Z (z - rtmin G)).
      rewrite (xwcstoi_of_sign false _ (z - rtmin G)); [|apply dec_num; lia|unfold INT_MAX in *; lia|lia].
      destruct (Z.ltb_spec (z - rtmin G) 0); [lia|]. rewrite andb_false_r. destruct (Z.leb_spec (z - rtmin G) (rtmax G - rtmin G)); [|lia].
      replace (rtmin G + (z - rtmin G)) with z by lia. auto.
    + change (str "RTMAX-" ++ dec_of_Z (rtmax G - z)) with (str "RTMAX" ++ (ch "-" :: dec_of_Z (rtmax G - z))).
      destruct (bare_rtmax (ch "-" :: dec_of_Z (rtmax G - z))) as (A & B). rewrite <- A, B, N.eqb_refl.
      change (ch "-" :: dec_of_Z (rtmax G - z)) with (sgn true ++ dec_of_Z (rtmax G - z)).
      rewrite (xwcstoi_of_sign true _ (rtmax G - z)); [|apply dec_num; lia|unfold INT_MAX in *; lia|lia].
      destruct (Z.leb_spec 0 (- (rtmax G - z))); [lia|]. rewrite andb_false_r. destruct (Z.leb_spec (rtmin G - rtmax G) (- (rtmax G - z))); [|lia].
      replace (rtmax G + - (rtmax G - z)) with z by lia. auto.
  - destruct V as [V|[V|V]]; [contradiction|apply rt_iff in V; congruence|].
    destruct (find (fun p => snd p =? z) (table G)) as [(nm, y)|] eqn:F.
    + apply find_some in F. destruct F as (I & E). apply Z.eqb_eq in E. cbn [fst snd] in *. subst y. apply bare_table. exact I.
    + exfalso. apply in_map_iff in V. destruct V as (p & E & I). apply (find_none _ _ F) in I. subst z. rewrite Z.eqb_refl in I. discriminate.
Qed.
End S.
