(** Reading what was written to the history file. *)
From Coq Require Import Ascii String.
From Coq Require Import List NArith ZArith Bool Arith Lia Sorted.
From Coq Require Import ZifyBool ZifyN ZifyNat.
From Verif Require Import Common Locale NumModel NumProofs PrintfModel PrintfSpec PrintfConv.
From Verif Require Import HistModel HistSpec HistProof HistFc HistProps HistFileModel.
Import ListNotations.
Local Open Scope N_scope.

Section HistFileProof.
Variable L : locale.
Hypothesis Lok : locale_ok L.

(** ** Numbers *)
Definition stop (r : list N) : Prop := r = [] \/ exists r', r = ch " " :: r' \/ r = ch ":" :: r'.
Lemma scan_app : forall ds acc any rest, all_digits 16 ds -> stop rest -> ds <> [] ->
  scan_digits 16 acc any (ds ++ rest) = (horner 16 acc ds, rest, true).
Proof.
  assert (G : forall ds acc rest, all_digits 16 ds -> stop rest -> scan_digits 16 acc true (ds ++ rest) = (horner 16 acc ds, rest, true)).
  { induction ds as [|c ds IH]; intros acc rest A S; cbn [app horner].
    - destruct S as [-> | (r & [-> | ->])]; reflexivity.
    - cbn [scan_digits]. destruct A as [A1 A2]. destruct (Z.ltb_spec (digitval c) 16); [|lia]. apply IH; assumption. }
  intros [|c ds] acc any rest A S N; [congruence|]. cbn [app scan_digits horner]. destruct A as [A1 A2].
  destruct (Z.ltb_spec (digitval c) 16); [|lia]. apply G; assumption.
Qed.
Lemma hex_ok : forall n, canonical 16 true (hex n) n.
Proof. intro n. apply (digits_of_ok 16 (ch "A")); [lia|right; reflexivity]. Qed.
Lemma hex_head : forall n, exists c w, hex n = c :: w /\
  ((ch "0" <=? c) && (c <=? ch "9") || (ch "A" <=? c) && (c <=? ch "F") = true).
Proof.
  intro n. destruct (hex_ok n) as (A & _ & C). apply numeral_iff in A; [|lia]. destruct A as (A1 & A2 & _).
  destruct (hex n) as [|c w]; [congruence|]. exists c, w. split; [reflexivity|]. inversion C; subst. destruct A2 as [A2 _].
  unfold digitval in A2. unfold ascii_lower in *. change (ch "0") with 48. change (ch "9") with 57. change (ch "A") with 65. change (ch "F") with 70.
  destruct ((48 <=? c) && (c <=? 57)) eqn:E1; [reflexivity|].
  destruct ((97 <=? c) && (c <=? 122)) eqn:E2; [lia|].
  destruct ((65 <=? c) && (c <=? 90)) eqn:E3; lia.
Qed.
Lemma wcstoul_hex : forall n r, n < 2 ^ 64 -> stop r -> wcstoul16 L (hex n ++ r) = (Some n, r).
Proof.
  intros n r Hn S. destruct (hex_ok n) as (A & B & _). destruct (hex_head n) as (c & w & E & Hc).
  change (ch "0") with 48 in Hc. change (ch "9") with 57 in Hc. change (ch "A") with 65 in Hc. change (ch "F") with 70 in Hc.
  apply numeral_iff in A; [|lia]. destruct A as (A1 & A2 & A3).
  assert (Sk : skip_space L (hex n ++ r) = hex n ++ r).
  { rewrite E. cbn [app skip_space]. rewrite (lk_space L Lok) by lia. replace (c_space c) with false; [reflexivity|].
    symmetry. unfold c_space. lia. }
  assert (Bp : base_prefix 16 (hex n ++ r) = (16%Z, hex n ++ r)).
  { destruct (N.eq_dec c 48) as [->|N0].
    - rewrite B by (rewrite E; reflexivity). cbn [app base_prefix]. destruct S as [-> | (r' & [-> | ->])]; [reflexivity| |]; destruct r'; reflexivity.
    - rewrite E. cbn [app]. unfold base_prefix. destruct c as [|p]; [lia|].
      repeat (destruct p as [p|p|]; try reflexivity); exfalso; apply N0; reflexivity. }
  unfold wcstoul16, wcstol. rewrite Sk.
  assert (Sg : (match hex n ++ r with 45 :: s' => (true, s') | 43 :: s' => (false, s') | _ => (false, hex n ++ r) end) = (false, hex n ++ r)).
  { rewrite E. cbn [app]. assert (c <> 45 /\ c <> 43) by lia. destruct c as [|p]; [reflexivity|].
    repeat (destruct p as [p|p|]; try reflexivity); exfalso; lia. }
  rewrite Sg, Bp. rewrite (scan_app _ _ _ _ A2 S A1). rewrite <- A3.
  change ULONG_MOD with (2 ^ 64)%Z. change (2 ^ 64) with (Z.to_N (2 ^ 64)) in Hn.
  destruct (Z.ltb_spec (Z.abs (Z.of_N n)) (2 ^ 64)); [|lia]. rewrite Z.mod_small by lia. rewrite N2Z.id. reflexivity.
Qed.

Variable size max : N.
Variable rmdups : nat.
Variable graph : N -> bool.
Variable bytes : list N -> N.
Hypothesis size_pos : 1 <= size.
Hypothesis max_big : 2 * size <= max.
Hypothesis max_small : max < 2 ^ 64.
Notation wf := (well_formed size max).
Notation rd := (read_one L size max rmdups graph).
Notation rds := (read_lines L size max rmdups graph).

Lemma rds_app : forall now a b l, rds now (a ++ b) l = match rds now a l with Some l' => rds now b l' | None => None end.
Proof.
  intros now a. induction a as [|x a IH]; intros b l; cbn [app read_lines]; [reflexivity|].
  destruct (rd now x l); [apply IH|reflexivity].
Qed.

(** An entry that is written completely and is not from the future *)
Definition fine (t : Z) (e : entry) : Prop :=
  bytes (e_val e) < LINE_MAX /\ (-1 <= e_time e <= t)%Z.
Lemma write_read : forall t now e l, (t <= now <= LONG_MAX)%Z -> fine t e -> 1 <= e_num e <= max ->
  rds now (write_entry bytes e) l = new_entry size max (e_num e) (e_time e) (e_val e) l.
Proof.
  intros t now [num time val] l Hn [F1 F2] B. cbn [e_num e_time e_val] in *. unfold write_entry. cbn [e_num e_time e_val].
  destruct (N.leb_spec LINE_MAX (bytes val)); [lia|]. unfold LONG_MAX in Hn.
  destruct (hex_head num) as (c & w & E & Hc).
  assert (Sp : iswspace L (ch " ") = true). { rewrite (lk_space L Lok); [reflexivity|]. change (ch " ") with 32. lia. }
  destruct (Z.geb_spec time 0).
  - cbn [read_lines]. unfold read_one. rewrite E at 1. cbn [app]. rewrite Hc.
    unfold parse_entry. rewrite wcstoul_hex by (try lia; right; eexists; right; reflexivity).
    destruct (N.ltb_spec max num); [lia|]. unfold entry_time. change (ch ":" =? ch ":") with true. cbn [andb].
    destruct (hex_head (Z.to_N time)) as (c2 & w2 & E2 & Hc2). rewrite E2 at 1. cbn [app].
    assert (Xd : xdigit c2 = true).
    { destruct (hex_ok (Z.to_N time)) as (A & _ & _). apply numeral_iff in A; [|lia]. destruct A as (_ & A & _). rewrite E2 in A.
      unfold xdigit. destruct A as [A _]. lia. }
    rewrite Xd. rewrite wcstoul_hex by (try (right; eexists; left; reflexivity); change (2 ^ 64) with (Z.to_N (2 ^ 64)); lia).
    rewrite Z2N.id by lia. destruct (Z.gtb_spec time now); [lia|]. rewrite Sp. destruct (new_entry size max num time val l); reflexivity.
  - assert (time = (-1)%Z) by lia. subst time.
    cbn [read_lines]. unfold read_one. rewrite E at 1. cbn [app]. rewrite Hc.
    unfold parse_entry. rewrite wcstoul_hex by (try lia; right; eexists; left; reflexivity).
    destruct (N.ltb_spec max num); [lia|]. unfold entry_time. change (ch " " =? ch ":") with false. cbn [andb].
    rewrite Sp. destruct (new_entry size max num (-1) val l); reflexivity.
Qed.

(** ** Deletion *)
Lemma present_not_seam : forall l e, wf l -> In e l -> ~ at_the_seam max l (e_num e).
Proof.
  intros l e W I [H [[H1 H2]|[H1 H2]]].
  - specialize (H2 e I H1). lia.
  - specialize (H2 e I (proj1 H1)). lia.
Qed.
Lemma search_present : forall l1 e l2, wf (l1 ++ e :: l2) ->
  search max (e_num e) (l1 ++ e :: l2) = SRes (Some (length l1)) (Some (length l1)).
Proof.
  intros l1 e l2 W. set (l := l1 ++ e :: l2) in *.
  assert (Ne : l <> []) by (unfold l; destruct l1; discriminate).
  destruct (ordered_turn l (proj2 (proj2 W)) Ne) as [c T]. pose proof (wf_bnd _ _ _ W) as B.
  destruct (at_app l l1 e l2 eq_refl) as [A1 A2].
  assert (NS : ~ at_the_seam max l (e_num e)). { apply present_not_seam; [assumption|]. apply in_or_app. right. left. reflexivity. }
  rewrite (seam_iff max l Ne c T B) in NS.
  pose proof (search_ok max l Ne c T B (e_num e)) as S. destruct (search max (e_num e) l) as [|p q]; [tauto|].
  destruct S as [_ P]. rewrite <- A1 in P. rewrite (key_at max l Ne c T B _ A2) in P.
  destruct (place_at max l c Ne T B _ _ _ A2 P) as [-> ->]. reflexivity.
Qed.
Lemma remove_at_app : forall l1 (e : entry) l2, remove_at (length l1) (l1 ++ e :: l2) = l1 ++ l2.
Proof.
  intros. unfold remove_at. rewrite firstn_app, Nat.sub_diag, firstn_all. cbn [firstn]. rewrite app_nil_r. f_equal.
  rewrite skipn_app. rewrite skipn_all2 by lia. replace (S (length l1) - length l1)%nat with 1%nat by lia. reflexivity.
Qed.
Lemma read_removed : forall now l1 e l2, wf (l1 ++ e :: l2) -> rd now (removed (e_num e)) (l1 ++ e :: l2) = Some (l1 ++ l2).
Proof.
  intros now l1 e l2 W. unfold removed, read_one. change ((ch "0" <=? ch "d") && (ch "d" <=? ch "9") || (ch "A" <=? ch "d") && (ch "d" <=? ch "F")) with false.
  change (ch "d" =? ch "c") with false. change (ch "d" =? ch "d") with true. cbn iota.
  assert (B : 1 <= e_num e <= max). { destruct W as (_ & F & _). rewrite Forall_forall in F. apply F. apply in_or_app. right. left. reflexivity. }
  unfold parse_removed. destruct (hex_head (e_num e)) as (c & w & E & _).
  pose proof (wcstoul_hex (e_num e) [] ltac:(lia) (or_introl eq_refl)) as H. rewrite app_nil_r in H. rewrite H.
  assert (St : step size max rmdups graph (FileDelete (e_num e)) (l1 ++ e :: l2) = Some (l1 ++ l2)).
  { cbn [step]. destruct (N.ltb_spec max (e_num e)); [lia|]. rewrite search_present by assumption. rewrite Nat.eqb_refl.
    rewrite remove_at_app. reflexivity. }
  rewrite St. rewrite E. destruct l1; reflexivity.
Qed.
Lemma read_rmdup : forall now line k r suf, wf (rev r ++ suf) ->
  rds now (rmdup_lines k line r) (rev r ++ suf) = Some (rev (rmdup k line r) ++ suf).
Proof.
  intros now line k. induction k as [|k IH]; intros [|e r] suf W; try reflexivity.
  cbn [rmdup_lines rmdup]. cbn [rev] in *. rewrite <- app_assoc in *. cbn [app] in *.
  destruct (list_N_eqb (e_val e) line).
  - cbn [read_lines]. rewrite read_removed by assumption. apply IH. eapply wf_without; [|exact W].
    apply without_app; [apply without_refl|]. constructor. apply without_refl.
  - rewrite IH by assumption. cbn [rev]. rewrite <- app_assoc. reflexivity.
Qed.

(** ** Addition *)
Definition short_lines (s : list N) : Prop := Forall (fun x => bytes x < LINE_MAX) (lines_of s).
Lemma add_line_w_ok : forall now line l, wf l -> (0 <= now)%Z -> bytes line < LINE_MAX ->
  exists l' w, add_line_w size max rmdups graph bytes now line l = Some (l', w) /\
    add_line size max rmdups graph now line l = Some l' /\ wf l' /\
    (forall now', (now <= now' <= LONG_MAX)%Z -> rds now' w l = Some l') /\
    (forall t, (t <= now)%Z -> Forall (fine t) l -> Forall (fine now) l').
Proof.
  intros now line l W Hn Hb. unfold add_line_w, add_line. destruct (existsb graph line).
  2:{ exists l, []. split; [reflexivity|]. split; [reflexivity|]. split; [assumption|]. split; [intros; reflexivity|].
      intros t Ht F. eapply Forall_impl; [|exact F]. intros e [H1 H2]. split; [assumption|lia]. }
  set (l1 := rev (rmdup rmdups line (rev l))).
  assert (Wo : without l1 l). { unfold l1. rewrite <- (rev_involutive l) at 2. apply without_rev. apply rmdup_without. }
  assert (W1 : wf l1) by (eapply wf_without; eassumption).
  pose proof (next_range size max ltac:(lia) l1 ltac:(lia) (proj1 (proj2 W1))) as N.
  destruct (new_entry_wf size max size_pos (next_number max l1) now line l1 W1 N) as [E W2].
  rewrite E. eexists _, _. split; [reflexivity|]. split; [reflexivity|]. split; [exact W2|]. split.
  - intros now' Hn'. rewrite rds_app. pose proof (read_rmdup now' line rmdups (rev l) []) as R. rewrite !app_nil_r, rev_involutive in R.
    rewrite R by assumption. fold l1. rewrite (write_read now) by (first [assumption | split; cbn; [assumption|lia]]). exact E.
  - intros t Ht F. apply Forall_app. split.
    + rewrite Forall_forall in F |- *. intros e He.
      assert (I : In e l). { eapply without_in; [exact Wo|]. destruct (evict_suffix size (next_number max l1) l1) as [d Ed]. rewrite Ed. apply in_or_app. right. assumption. }
      destruct (F e I) as [F1 F2]. split; [assumption|lia].
    + constructor; [|constructor]. split; cbn; [assumption|lia].
Qed.
Lemma add_lines_w_ok : forall s now cur l, wf l -> (0 <= now)%Z ->
  Forall (fun x => bytes x < LINE_MAX) (match lines_of s with x :: xs => (cur ++ x) :: xs | [] => [] end) ->
  exists l' w, add_lines_w size max rmdups graph bytes now cur s l = Some (l', w) /\
    add_lines size max rmdups graph now cur s l = Some l' /\ wf l' /\
    (forall now', (now <= now' <= LONG_MAX)%Z -> rds now' w l = Some l') /\
    (forall t, (t <= now)%Z -> Forall (fine t) l -> Forall (fine now) l').
Proof.
  induction s as [|c s IH]; intros now cur l W Hn Hb; cbn [add_lines add_lines_w].
  - cbn [lines_of] in Hb. rewrite app_nil_r in Hb. inversion Hb; subst. apply add_line_w_ok; assumption.
  - cbn [lines_of] in Hb. destruct (c =? 10) eqn:Ec.
    + rewrite app_nil_r in Hb. inversion Hb as [|x xs H1 H2]; subst.
      destruct (add_line_w_ok now cur l W Hn H1) as (l1 & w1 & A1 & A2 & A3 & A4 & A5). rewrite A1, A2.
      destruct (IH now [] l1 A3 Hn) as (l2 & w2 & B1 & B2 & B3 & B4 & B5).
      { destruct (lines_of s) as [|x xs]; [constructor|]. cbn [app]. assumption. }
      rewrite B1, B2. exists l2, (w1 ++ w2). repeat (split; [first [reflexivity|assumption]|]). split.
      * intros now' Hn'. rewrite rds_app, A4 by assumption. apply B4. assumption.
      * intros t Ht F. apply (B5 now ltac:(lia)). eapply A5; eassumption.
    + apply IH; [assumption..|]. destruct (lines_of s) as [|x xs] eqn:El.
      * destruct s as [|d s]; cbn [lines_of] in El; [discriminate|]. destruct (d =? 10); [discriminate|]. destruct (lines_of s); discriminate.
      * rewrite <- app_assoc. assumption.
Qed.

(** ** The whole list *)
Lemma snoc_evicts_nothing : forall p e, wf (p ++ [e]) -> need_remove size p (e_num e) = false.
Proof.
  intros p e W. destruct p as [|e0 p0] eqn:Ep; [reflexivity|]. rewrite <- Ep in *.
  assert (Np : p <> []) by (rewrite Ep; discriminate). unfold need_remove.
  transitivity (if size <=? count p then true
      else if oldest p <=? newest p then (oldest p <=? e_num e) && (e_num e <=? newest p)
      else (oldest p <=? e_num e) || (e_num e <=? newest p)); [rewrite Ep; reflexivity|]. clear Ep e0 p0.
  destruct W as (C & F & Or). rewrite app_length in C. cbn [length] in C. unfold count.
  destruct (N.leb_spec size (N.of_nat (length p))); [lia|].
  destruct (ordered_turn (p ++ [e]) Or) as [c T]; [destruct p; discriminate|].
  assert (Lp : (0 < length p)%nat) by (destruct p; [congruence|cbn; lia]).
  rewrite oldest_at, newest_at.
  assert (X : forall i, (i < length p)%nat -> num_at (p ++ [e]) i = num_at p i) by (intros; apply num_at_app1; assumption).
  assert (Y : num_at (p ++ [e]) (length p) = e_num e). { rewrite num_at_app2 by lia. rewrite Nat.sub_diag. reflexivity. }
  unfold turn in T. rewrite app_length in T. cbn [length] in T. destruct T as (T0 & T1 & T2 & T3).
  set (m := length p) in *. set (x := fun i => num_at (p ++ [e]) i) in *.
  rewrite <- (X O Lp), <- (X (m - 1)%nat ltac:(lia)), <- Y.
  change (num_at (p ++ [e]) 0) with (x O). change (num_at (p ++ [e]) (m - 1)) with (x (m - 1)%nat). change (num_at (p ++ [e]) m) with (x m).
  pose proof (T1 O (m - 1)%nat) as T1a. pose proof (T1 (m - 1)%nat m) as T1b. pose proof (T2 (m - 1)%nat m) as T2a.
  pose proof (T3 O m) as T3a. pose proof (T3 O (m - 1)%nat) as T3b.
  change (num_at (p ++ [e]) 0) with (x O) in *. change (num_at (p ++ [e]) (m - 1)) with (x (m - 1)%nat) in *. change (num_at (p ++ [e]) m) with (x m) in *.
  assert (M1 : m = 1%nat -> x (m - 1)%nat = x O) by (intros ->; reflexivity).
  clearbody x m. clear X Y F C Or T1 T2 T3 H.
  set (u := x O) in *. set (v := x (m - 1)%nat) in *. set (w := x m) in *. clearbody u v w. clear x p e Np.
  assert (Hc : (c = m + 1)%nat \/ c = m \/ (c < m)%nat) by lia.
  destruct (Nat.eq_dec m 1) as [Em|Em].
  - specialize (M1 Em). subst v m. destruct (N.leb_spec u u); [|lia].
    destruct Hc as [Hc|[Hc|Hc]]; [specialize (T1b ltac:(lia))|specialize (T3a ltac:(lia) ltac:(lia))|]; lia.
  - clear M1. destruct Hc as [Hc|[Hc|Hc]].
    + specialize (T1b ltac:(lia)). specialize (T1a ltac:(lia)). destruct (N.leb_spec u v); lia.
    + specialize (T3a ltac:(lia) ltac:(lia)). specialize (T1a ltac:(lia)). destruct (N.leb_spec u v); lia.
    + specialize (T2a ltac:(lia) ltac:(lia)). specialize (T3a ltac:(lia) ltac:(lia)). specialize (T3b ltac:(lia) ltac:(lia)). destruct (N.leb_spec u v); lia.
Qed.
Lemma snoc_new : forall p e, wf (p ++ [e]) -> new_entry size max (e_num e) (e_time e) (e_val e) p = Some (p ++ [e]).
Proof.
  intros p e W. pose proof (snoc_evicts_nothing p e W) as E. unfold new_entry.
  assert (B : 1 <= e_num e <= max). { destruct W as (_ & F & _). rewrite Forall_forall in F. apply F. apply in_or_app. right. left. reflexivity. }
  destruct (N.ltb_spec 0 (e_num e)); [|lia]. destruct (N.leb_spec (e_num e) max); [|lia]. cbn [andb].
  assert (Ev : evict size (e_num e) p = p). { destruct p as [|e0 p]; [reflexivity|]. cbn [evict]. rewrite E. reflexivity. }
  rewrite Ev. destruct e as [n t v]. cbn [e_num e_time e_val]. unfold count.
  destruct (N.leb_spec (N.of_nat (length (p ++ [mkEntry n t v]))) size) as [C|C]; [reflexivity|]. destruct W as (W & _ & _). lia.
Qed.
Lemma wf_prefix : forall a b, wf (a ++ b) -> wf a.
Proof.
  intros a b W. eapply wf_without; [|exact W]. rewrite <- (app_nil_r a) at 1. apply without_app; [apply without_refl|apply without_nil].
Qed.
Lemma read_all : forall t now l, (t <= now <= LONG_MAX)%Z -> wf l -> Forall (fine t) l ->
  rds now (flat_map (write_entry bytes) l) [] = Some l.
Proof.
  intros t now l Hn. induction l as [|e l IH] using rev_ind; intros W F; [reflexivity|].
  apply Forall_app in F. destruct F as [F1 F2]. inversion F2; subst. rewrite flat_map_app, rds_app. rewrite IH by (try assumption; eapply wf_prefix; eassumption).
  cbn [flat_map]. rewrite app_nil_r. rewrite (write_read t) by (try assumption; destruct W as (_ & F & _); rewrite Forall_forall in F; apply F; apply in_or_app; right; left; reflexivity).
  apply snoc_new. assumption.
Qed.
Lemma read_pids : forall now ls l, rds now (map (cons (ch "p")) ls) l = Some l.
Proof. intros now ls l. induction ls as [|x ls IH]; [reflexivity|]. cbn [map read_lines]. exact IH. Qed.

(** ** Shells *)
Notation upd := (update L size max rmdups graph).
Record inv (t : Z) (l : hist) (shs : nat -> shell) (f : file) : Prop := {
  i_wf : wf l;
  i_fine : Forall (fine t) l;
  i_file : forall now, (t <= now <= LONG_MAX)%Z -> rds now (f_lines f) [] = Some l;
  i_rev : (0 <= f_rev f)%Z;
  i_shell : forall i, (s_rev (shs i) <= f_rev f)%Z /\
    (s_rev (shs i) = f_rev f -> (s_pos (shs i) <= length (f_lines f))%nat /\
     forall now, (t <= now <= LONG_MAX)%Z -> rds now (firstn (s_pos (shs i)) (f_lines f)) [] = Some (s_mem (shs i))) }.
Lemma inv_update : forall t l shs f, inv t l shs f -> forall i now, (t <= now <= LONG_MAX)%Z -> upd now (shs i) f = Some l.
Proof.
  intros t l shs f I i now Hn. unfold update. destruct (i_shell _ _ _ _ I i) as [_ S].
  destruct (Z.eqb_spec (s_rev (shs i)) (f_rev f)) as [E|E]; [|apply (i_file _ _ _ _ I); assumption].
  destruct (S E) as [Hp R]. pose proof (i_file _ _ _ _ I now Hn) as F.
  rewrite <- (firstn_skipn (s_pos (shs i)) (f_lines f)) in F. rewrite rds_app, (R now Hn) in F. exact F.
Qed.
Lemma refresh_read : forall t now pids l f, (t <= now <= LONG_MAX)%Z -> wf l -> Forall (fine t) l ->
  rds now (f_lines (refresh bytes pids l f)) [] = Some l.
Proof. intros. cbn [refresh f_lines]. rewrite rds_app, read_pids. eapply read_all; eassumption. Qed.
Lemma fine_mono : forall t t' l, (t <= t')%Z -> Forall (fine t) l -> Forall (fine t') l.
Proof. intros t t' l H F. eapply Forall_impl; [|exact F]. intros e [A B]. split; [assumption|lia]. Qed.
Lemma fine_without : forall t r l, without r l -> Forall (fine t) l -> Forall (fine t) r.
Proof. intros t r l W F. rewrite Forall_forall in F |- *. intros e He. apply F. eapply without_in; eassumption. Qed.
Lemma inv_mono : forall t t' l shs f, (t <= t')%Z -> inv t l shs f -> inv t' l shs f.
Proof.
  intros t t' l shs f H [A B C D E]. constructor; [assumption|eapply fine_mono; eassumption| |assumption|].
  - intros now Hn. apply C. lia.
  - intro i. destruct (E i) as [E1 E2]. split; [assumption|]. intro Er. destruct (E2 Er) as [E3 E4]. split; [assumption|].
    intros now Hn. apply E4. lia.
Qed.
Lemma inv_refresh : forall t l shs f pids, inv t l shs f -> (f_rev f < LONG_MAX)%Z -> inv t l shs (refresh bytes pids l f) /\ f_rev (refresh bytes pids l f) = (f_rev f + 1)%Z.
Proof.
  intros t l shs f pids [A B C D E] Hr.
  assert (R : f_rev (refresh bytes pids l f) = (f_rev f + 1)%Z).
  { cbn [refresh f_rev]. unfold next_rev. destruct (Z.ltb_spec (f_rev f) 0); [lia|]. destruct (Z.eqb_spec (f_rev f) LONG_MAX); [lia|reflexivity]. }
  split; [|assumption]. constructor; [assumption..| |lia|].
  - intros now Hn. eapply refresh_read; eassumption.
  - intro i. destruct (E i) as [E1 _]. rewrite R. split; [lia|]. intro. lia.
Qed.

(** What an event does to the history *)
Definition meaning (ev : event) : list op :=
  match ev_op ev with
  | FAdd s => [Add (ev_now ev) s]
  | FDelete o => [Delete o]
  | FCancel => [FileCancel]
  | FClear => [Clear]
  | FRenumber => [Renumber]
  | FRead | FRefresh | FPid _ => []
  end.
Definition short_event (ev : event) : Prop := match ev_op ev with FAdd s => short_lines s | _ => True end.
Notation stp := (steps size max rmdups graph).

Lemma renumber_fine : forall t l k, Forall (fine t) l -> Forall (fine t) (renumber k l).
Proof. intros t l. induction l as [|e l IH]; intros k F; cbn [renumber]; [constructor|]. inversion F; subst. constructor; [assumption|auto]. Qed.
Lemma find_bound : forall p r i j, find_prefix p i r = Some j -> (i <= j < i + length r)%nat.
Proof.
  intros p r. induction r as [|e r IH]; cbn [find_prefix length]; intros i j H; [discriminate|].
  destruct (prefixb p (e_val e)); [inversion H; subst; lia|]. apply IH in H. lia.
Qed.
Lemma target_bound : forall o l p, wf l -> delete_target max o l = SRes (Some p) (Some p) -> (p < length l)%nat.
Proof.
  intros o l p W D. assert (Hl : l = [] \/ l <> []) by (destruct l; [left; reflexivity|right; discriminate]).
  destruct Hl as [-> | Ne].
  { destruct o as [z|pr]; cbn [delete_target] in D; [|discriminate]. destruct (z >=? 0)%Z; [discriminate|].
    set (k := Z.to_N _) in D. unfold nth_newest in D. change (count []) with 0 in D.
    destruct (N.leb_spec 0 k); [discriminate|lia]. }
  assert (Lp : (0 < length l)%nat) by (destruct l; [congruence|cbn; lia]).
  destruct o as [z|pr]; cbn [delete_target] in D.
  - destruct (z >=? 0)%Z.
    + destruct (ordered_turn l (proj2 (proj2 W)) Ne) as [c T].
      pose proof (search_ok max l Ne c T (wf_bnd _ _ _ W) (Z.to_N z)) as S. rewrite D in S. destruct S as (_ & P & _). exact P.
    + unfold nth_newest in D. set (k := Z.to_N (if (z =? INT_MIN)%Z then 2147483647 else - z)) in *.
      destruct (N.leb_spec (count l) k); [destruct l; [congruence|]; inversion D; subst; cbn; lia|].
      destruct (N.eqb_spec k 0); inversion D; subst. clearbody k. lia.
  - unfold search_prefix in D. destruct (find_prefix pr 0 (rev l)) as [i|]; inversion D; subst. lia.
Qed.
Lemma act_ok : forall now o l, wf l -> Forall (fine now) l -> (0 <= now <= LONG_MAX)%Z ->
  (match o with FAdd s => short_lines s | _ => True end) ->
  match act size max rmdups graph bytes now o l with
  | None => stp (meaning (mkEvent 0 now false [] o)) l = None
  | Some (l', c) =>
      stp (meaning (mkEvent 0 now false [] o)) l = Some l' /\ wf l' /\ Forall (fine now) l' /\
      match c with
      | Append ls => forall now', (now <= now' <= LONG_MAX)%Z -> rds now' ls l = Some l'
      | Rewrite => True
      end
  end.
Proof.
  intros now o l W F Hn Sh. destruct o as [s|o| | | | | |s]; cbn [act meaning ev_op ev_now steps step].
  - destruct (add_lines_w_ok s now [] l W ltac:(lia)) as (l' & w & A1 & A2 & A3 & A4 & A5).
    { destruct (lines_of s) as [|x xs] eqn:E; [constructor|]. cbn [app]. unfold short_lines in Sh. rewrite E in Sh. exact Sh. }
    rewrite A1, A2. repeat (split; [first [reflexivity|assumption]|]). split; [|assumption]. apply (A5 now); [lia|assumption].
  - unfold history_delete. destruct (delete_target max o l) as [|[p|] [q|]] eqn:D; [reflexivity| |auto..].
    destruct (Nat.eqb_spec p q) as [<-|]; [|auto]. split; [reflexivity|].
    pose proof (remove_at_without size size_pos p l) as Wo.
    split; [eapply wf_without; [|exact W]; assumption|]. split; [eapply fine_without; [|exact F]; assumption|].
    intros now' _. cbn [read_lines].
    assert (Hp : (p < length l)%nat) by (eapply target_bound; eassumption).
    destruct (nth_error l p) as [e|] eqn:E; [|apply nth_error_None in E; lia].
    apply nth_error_split in E. destruct E as (l1 & l2 & -> & <-).
    destruct (at_app _ l1 e l2 eq_refl) as [A1 _]. rewrite A1, read_removed, remove_at_app by assumption. reflexivity.
  - split; [reflexivity|]. pose proof (removelast_without l) as Wo. split; [eapply wf_without; eassumption|].
    split; [eapply fine_without; eassumption|]. intros; reflexivity.
  - split; [reflexivity|]. split; [apply wf_nil|]. split; [constructor|exact I].
  - auto.
  - auto.
  - split; [reflexivity|]. split; [apply renumber_wf; [assumption|lia|assumption]|]. split; [apply renumber_fine; assumption|exact I].
  - repeat (split; [first [reflexivity|assumption]|]). intros; reflexivity.
Qed.

Lemma exec_ok : forall t l shs f ev, inv t l shs f -> (0 <= t <= ev_now ev)%Z -> (ev_now ev <= LONG_MAX)%Z -> short_event ev ->
  (f_rev f + 2 <= LONG_MAX)%Z ->
  match exec L size max rmdups graph bytes ev shs f with
  | None => stp (meaning ev) l = None
  | Some (shs', f') => exists l', stp (meaning ev) l = Some l' /\ inv (ev_now ev) l' shs' f' /\
      (f_rev f <= f_rev f' <= f_rev f + 2)%Z /\ s_mem (shs' (ev_shell ev)) = l'
  end.
Proof.
  intros t l shs f [i now rf pids o] I Ht Hn Sh Hr. cbn [ev_now] in *. unfold short_event in Sh. cbn [ev_op] in Sh.
  apply (inv_mono t now) in I; [|lia].
  unfold exec. cbn [ev_shell ev_now ev_refresh ev_pids ev_op].
  rewrite (inv_update _ _ _ _ I i now) by lia.
  set (f1 := if rf then refresh bytes pids l f else f).
  assert (I1 : inv now l shs f1 /\ (f_rev f <= f_rev f1 <= f_rev f + 1)%Z).
  { unfold f1. destruct rf; [|split; [assumption|lia]]. destruct (inv_refresh _ _ _ _ pids I ltac:(lia)) as [A B]. split; [assumption|lia]. }
  clearbody f1. destruct I1 as [I1 Hr1]. destruct I1 as [A B C D E].
  pose proof (act_ok now o l A B ltac:(lia) Sh) as K.
  change (meaning (mkEvent 0 now false [] o)) with (meaning (mkEvent i now rf pids o)) in K.
  destruct (act size max rmdups graph bytes now o l) as [[l' c]|]; [|exact K].
  destruct K as (K1 & K2 & K3 & K4). exists l'. split; [exact K1|].
  assert (Hs : s_mem (if (i =? i)%nat then mkShell l' (f_rev (store bytes pids l' c f1)) (length (f_lines (store bytes pids l' c f1))) else shs i) = l')
    by (rewrite Nat.eqb_refl; reflexivity).
  assert (R : forall now', (now <= now' <= LONG_MAX)%Z -> rds now' (f_lines (store bytes pids l' c f1)) [] = Some l').
  { intros now' Hn'. destruct c as [ls|]; cbn [store].
    - cbn [f_lines]. rewrite rds_app, (C now' Hn'). apply K4. assumption.
    - eapply refresh_read; eassumption. }
  assert (Rv : (f_rev f1 <= f_rev (store bytes pids l' c f1) <= f_rev f1 + 1)%Z /\
    (f_rev (store bytes pids l' c f1) = f_rev f1 -> exists ls, f_lines (store bytes pids l' c f1) = f_lines f1 ++ ls)).
  { destruct c as [ls|]; cbn [store refresh f_rev f_lines]; [split; [lia|intros _; exists ls; reflexivity]|].
    unfold next_rev. destruct (Z.ltb_spec (f_rev f1) 0); [lia|]. destruct (Z.eqb_spec (f_rev f1) LONG_MAX); [lia|]. cbn [orb]. split; [lia|]. intro. exfalso. lia. }
  destruct Rv as [Rv1 Rv2]. split; [|split; [lia|exact Hs]]. clear Hs.
  set (f2 := store bytes pids l' c f1) in *. clearbody f2.
  constructor; [assumption|assumption|assumption|lia|].
  intro j. destruct (Nat.eqb_spec j i) as [->|Nj]; cbn [s_rev s_pos s_mem].
  - split; [lia|]. intros _. split; [lia|]. intros now' Hn'. rewrite firstn_all. apply R. assumption.
  - destruct (E j) as [E1 E2]. split; [lia|]. intro Er. assert (Er1 : f_rev f2 = f_rev f1) by lia.
    destruct (Rv2 Er1) as [ls ->]. destruct (E2 ltac:(lia)) as [E3 E4]. rewrite app_length. split; [lia|].
    intros now' Hn'. rewrite firstn_app. replace (s_pos (shs j) - length (f_lines f1))%nat with O by lia. cbn [firstn].
    rewrite app_nil_r. apply E4. assumption.
Qed.

Lemma steps_app : forall a b l, stp (a ++ b) l = match stp a l with Some l' => stp b l' | None => None end.
Proof.
  induction a as [|o a IH]; intros b l; cbn [app steps]; [reflexivity|].
  destruct (step size max rmdups graph o l); [apply IH|reflexivity].
Qed.
(** The clock does not go back. *)
Fixpoint clock (t : Z) (evs : list event) : Prop :=
  match evs with
  | [] => True
  | ev :: evs' => (t <= ev_now ev <= LONG_MAX)%Z /\ clock (ev_now ev) evs'
  end.
Fixpoint last_time (t : Z) (evs : list event) : Z :=
  match evs with [] => t | ev :: evs' => last_time (ev_now ev) evs' end.
Lemma run_ok : forall evs t l shs f, inv t l shs f -> (0 <= t)%Z -> clock t evs -> Forall short_event evs ->
  (f_rev f + 2 * Z.of_nat (length evs) <= LONG_MAX)%Z ->
  match run L size max rmdups graph bytes evs shs f with
  | None => stp (flat_map meaning evs) l = None
  | Some (shs', f') => exists l', stp (flat_map meaning evs) l = Some l' /\ inv (last_time t evs) l' shs' f'
  end.
Proof.
  induction evs as [|ev evs IH]; intros t l shs f I Ht Ck Sh Hr; cbn [run flat_map last_time].
  - exists l. split; [reflexivity|assumption].
  - destruct Ck as [Ck1 Ck2]. inversion Sh; subst. cbn [length] in Hr. rewrite steps_app.
    pose proof (exec_ok t l shs f ev I ltac:(lia) ltac:(lia) ltac:(assumption) ltac:(lia)) as E.
    destruct (exec L size max rmdups graph bytes ev shs f) as [[shs1 f1]|]; [|rewrite E; reflexivity].
    destruct E as (l1 & E1 & E2 & E3 & _). rewrite E1. apply IH; [assumption|lia|assumption|assumption|lia].
Qed.
Lemma inv_start : inv 0 [] (fun _ => new_shell) (mkFile 0 []).
Proof.
  constructor; [apply wf_nil|constructor|intros; reflexivity|cbn; lia|]. intro i. cbn. split; [lia|]. intro. lia.
Qed.
End HistFileProof.
