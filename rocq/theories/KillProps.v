(** The kill built-in: theorems. Signals and their words are specified in SigSpec.v. *)
From Coq Require Import Ascii String.
From Coq Require Import List NArith ZArith Bool Arith Lia.
From Verif Require Import Common Locale NumModel NumProofs BraceSpec BraceNum SigModel SigSpec Sig SigTrap SigProps KillModel.
Import ListNotations.
Local Open Scope Z_scope.

(** What an operand of [kill -l] stands for: a number of a signal, an exit status of 128 or 384 plus such a
    number, or a word for a signal that begins with a letter *)
Definition letter (c : N) : Prop := (65 <= c <= 90)%N \/ (97 <= c <= 122)%N.
Inductive lists (G : sigs) (H : shell) : list N -> Z -> Prop :=
| L_number t z : numeral 10 t z -> z < 128 -> lists G H t z
| L_status t z : numeral 10 t (128 + z) -> z < 256 -> lists G H t z
| L_status2 t z : numeral 10 t (384 + z) -> 384 + z <= INT_MAX -> lists G H t z
| L_word c t z : letter c -> means G H (c :: t) z -> lists G H (c :: t) z.

Section S.
Variable L : locale.
Hypothesis HL : locale_ok L.
Variable G : sigs.
Hypothesis HG : sigs_ok G.
Variable H : shell.
Hypothesis HU : up_ok H.
Variable sigterm : Z.
Variable posix : bool.
Notation kill := (kill L G H sigterm posix).
Notation list_some := (list_some L G H).

Lemma table_entry nm z : In (z, nm) (list_all G) -> sig_name G nm z /\ map (up H) nm = nm /\ 0 < z /\ (exists c r, nm = c :: r /\ (65 <= c <= 90)%N) /\ drop_prefix (str "SIG") nm = None.
Proof.
  pose proof (ok_rt G HG) as (R1 & R2). unfold list_all. intro I. apply in_app_or in I. destruct I as [I|I].
  - apply in_map_iff in I. destruct I as ((n, y) & E & I). cbn in E. injection E as <- <-. destruct (ok_table G HG n y I) as ((X1 & X2 & X3 & X4) & X5 & X6).
    split; [constructor; exact I|]. split; [apply (table_up G HG H HU n y I)|]. split; [lia|]. split; [exact X1|exact X3].
  - apply in_map_iff in I. destruct I as (i & E & I). cbv zeta in E. apply in_seq in I. injection E as <- <-. set (z := rtmin G + Z.of_nat i).
    assert (V : valid G z) by (right; left; unfold z; lia). assert (R : rtmin G <= z <= rtmax G) by (unfold z; lia).
    assert (S : sig_name G (signal_name G z) z /\ (exists r, signal_name G z = str "RTM" ++ r)).
    { unfold signal_name. destruct (Z.eqb_spec z 0); [lia|]. rewrite (proj2 (rt_iff G z) R).
      destruct (Z.eqb_spec z (rtmin G)) as [E|]; [rewrite E; split; [apply S_min|exists (str "IN"); reflexivity]|].
      destruct (Z.eqb_spec z (rtmax G)) as [E|]; [rewrite E; split; [apply S_max|exists (str "AX"); reflexivity]|]. cbv zeta.
      destruct (_ <=? _).
      - split; [|exists (str "IN+" ++ dec_of_Z (z - rtmin G)); reflexivity]. replace z with (rtmin G + (z - rtmin G)) at 2 by lia. apply S_plus; [apply dec_num; lia|lia].
      - split; [|exists (str "AX-" ++ dec_of_Z (rtmax G - z)); reflexivity]. replace z with (rtmax G - (rtmax G - z)) at 2 by lia. apply S_minus; [apply dec_num; lia|lia|lia]. }
    destruct S as (S & r & E). split; [exact S|]. split; [apply (name_up G HG H HU z V)|]. split; [lia|]. rewrite E. split; [|reflexivity].
    eexists _, _. split; [reflexivity|]. vm_compute; split; discriminate.
Qed.
(** Every name that [kill -l] prints can be given to the built-in in each form and selects the signal
    printed with it; every signal of the system is listed. *)
Theorem kill_names nm z ops : In (z, nm) (list_all G) -> hd [] ops <> str "--" ->
  kill (str "-s" :: nm :: ops) = KSend z ops /\ kill ((str "-s" ++ nm) :: ops) = KSend z ops /\ kill (str "-n" :: nm :: ops) = KSend z ops
  /\ kill ((str "-" ++ nm) :: ops) = KSend z ops /\ kill ((str "-" ++ nm) :: str "--" :: ops) = KSend z ops.
Proof.
  intros I NO. destruct (table_entry nm z I) as (S & U & Z0 & (c & r & -> & C) & D).
  assert (N : signal_number L G (map (up H) (c :: r)) = GNum z) by (rewrite U; apply (sig_bare L HL G HG); exact S).
  assert (W : forall rest, with_signal L G H posix (c :: r) rest = KSend z (match rest with d :: r => if list_N_eqb d (str "--") then r else rest | [] => [] end)).
  { intro rest. unfold with_signal. rewrite D, andb_false_r, N. destruct (Z.eqb_spec z 0); [lia|reflexivity]. }
  assert (W2 : with_signal L G H posix (c :: r) ops = KSend z ops).
  { rewrite W. destruct ops as [|d ops]; [reflexivity|]. destruct (list_N_eqb d (str "--")) eqn:E; [|reflexivity]. apply list_N_eqb_eq in E. cbn [hd] in NO. contradiction. }
  assert (LT : forall rest, letters L G H sigterm posix (str "-" ++ c :: r) true (c :: r) rest false false = inl (with_signal L G H posix (c :: r) rest)).
  { intro rest. cbn [letters]. assert (X : forall k, (k <? 65)%N = true \/ (90 <? k)%N = true -> (c =? k)%N = false) by (intros k K; apply N.eqb_neq; destruct K as [K|K]; apply N.ltb_lt in K; lia).
    rewrite !X by (first [left; reflexivity|right; reflexivity]). reflexivity. }
  unfold KillModel.kill. split; [|split; [|split; [|split]]].
  - exact W2.
  - exact W2.
  - exact W2.
  - change (str "-" ++ c :: r) with (ch "-" :: c :: r). cbn [options]. rewrite N.eqb_refl. change (ch "-" :: c :: r) with (str "-" ++ c :: r). rewrite LT, W2. reflexivity.
  - change (str "-" ++ c :: r) with (ch "-" :: c :: r). cbn [options]. rewrite N.eqb_refl. change (ch "-" :: c :: r) with (str "-" ++ c :: r). rewrite LT, W. reflexivity.
Qed.
Theorem kill_lists_all z : valid G z -> z <> 0 -> exists nm, In (z, nm) (list_all G).
Proof.
  intros [V|[V|V]] NZ; [contradiction| |].
  - exists (signal_name G z). unfold list_all. apply in_or_app. right. apply in_map_iff. exists (Z.to_nat (z - rtmin G)). split; [cbv zeta; rewrite Z2Nat.id by lia; replace (rtmin G + (z - rtmin G)) with z by lia; reflexivity|].
    apply in_seq. lia.
  - apply in_map_iff in V. destruct V as ((nm, y) & <- & I). exists nm. unfold list_all. apply in_or_app. left. apply in_map_iff. exists (nm, y). auto.
Qed.
(** Without options SIGTERM is sent to the operands. *)
Theorem kill_default ops : hd [] ops <> str "--" -> (forall c r, hd [] ops = ch "-" :: c :: r -> False) -> kill ops = KSend sigterm ops /\ kill (str "--" :: ops) = KSend sigterm ops.
Proof.
  intros N1 N2. split; [|reflexivity]. unfold KillModel.kill. destruct ops as [|[|h [|c cs]] rest]; [reflexivity|reflexivity|reflexivity|]. cbn [options].
  destruct (N.eqb_spec h (ch "-")) as [->|]; [|reflexivity]. exfalso. apply (N2 c cs). reflexivity.
Qed.
(** Options made of l and v list signals, verbosely if there is a v. *)
Theorem kill_list_option w ops : w <> [] -> Forall (fun c => c = ch "l" \/ c = ch "v") w -> hd [] ops <> str "--" -> (forall c r, hd [] ops = ch "-" :: c :: r -> False) ->
  kill ((str "-" ++ w) :: ops) = KList (existsb (N.eqb (ch "v")) w) ops /\ kill ((str "-" ++ w) :: str "--" :: ops) = KList (existsb (N.eqb (ch "v")) w) ops.
Proof.
  intros NE F N1 N2.
  assert (LT : forall arg first rest l v, letters L G H sigterm posix arg first w rest l v = inr (l || negb (match w with [] => true | _ => false end), v || existsb (N.eqb (ch "v")) w)).
  { clear NE. induction F as [|c w [->| ->] _ IH]; intros arg first rest l v; cbn [letters existsb].
    - rewrite !orb_false_r. reflexivity.
    - cbn [N.eqb ch]. change (letters L G H sigterm posix arg false w rest true v = inr (l || true, v || existsb (N.eqb (ch "v")) w)). rewrite IH, orb_true_r. reflexivity.
    - change (letters L G H sigterm posix arg false w rest true true = inr (l || true, v || true)). rewrite IH, !orb_true_r. reflexivity. }
  assert (MN : forall v, options L G H sigterm posix ops true v = KList v ops).
  { intro v. destruct ops as [|[|h [|c cs]] rest]; [reflexivity|reflexivity|reflexivity|]. cbn [options]. destruct (N.eqb_spec h (ch "-")) as [->|]; [|reflexivity]. exfalso. apply (N2 c cs). reflexivity. }
  destruct w as [|c w]; [congruence|]. unfold KillModel.kill. change (str "-" ++ c :: w) with (ch "-" :: c :: w). cbn [options]. rewrite N.eqb_refl, !LT. split; [apply MN|reflexivity].
Qed.
(** After -s every word for a signal is accepted (EXIT is none), in either case, and with SIG unless
    the shell conforms to POSIX; with -l this is an error. *)
Theorem kill_s a z ops : means G H a z -> (z = 0 -> exists c r, map (up H) a = c :: r /\ (48 <= c <= 57)%N) ->
  posix = false \/ (forall r, a <> str "SIG" ++ r) -> hd [] ops <> str "--" -> kill (str "-s" :: a :: ops) = KSend z ops.
Proof.
  intros M Z0 P NO. apply (signal_words L HL G HG) in M. unfold KillModel.kill. change (with_signal L G H posix a ops = KSend z ops). unfold with_signal. rewrite M.
  assert (PX : posix && (match drop_prefix (str "SIG") a with Some _ => true | None => false end) = false).
  { destruct P as [->|P]; [reflexivity|]. destruct (drop_prefix (str "SIG") a) as [r|] eqn:D; [exfalso; apply (P r); apply drop_inv; exact D|apply andb_false_r]. }
  rewrite PX. assert (ZX : (z =? 0) && negb (match map (up H) a with c :: _ => isdigit c | [] => false end) = false).
  { destruct (Z.eqb_spec z 0) as [E|]; [|reflexivity]. destruct (Z0 E) as (c & r & -> & C). unfold isdigit. cbn [andb]. lia. }
  rewrite ZX. f_equal. destruct ops as [|d ops]; [reflexivity|]. destruct (list_N_eqb d (str "--")) eqn:E; [|reflexivity]. apply list_N_eqb_eq in E. cbn [hd] in NO. contradiction.
Qed.
Theorem kill_exclusive w c r ops : w <> [] -> Forall (fun c => c = ch "l" \/ c = ch "v") w -> c = ch "s" \/ c = ch "n" \/ (65 <= c <= 90)%N \/ (48 <= c <= 57)%N ->
  kill ((str "-" ++ w) :: (ch "-" :: c :: r) :: ops) = KError /\ kill ((str "-" ++ w ++ str "s" ++ r) :: ops) = KError.
Proof.
  intros NE F C.
  assert (LT : forall arg first tail rest l v, letters L G H sigterm posix arg first (w ++ tail) rest l v = letters L G H sigterm posix arg false tail rest true (v || existsb (N.eqb (ch "v")) w)).
  { destruct w as [|x w]; [congruence|]. clear NE. intros arg first tail rest l v. revert first l v. inversion F as [|? ? X F2]; subst. clear F. revert x X.
    induction F2 as [|y w Y _ IH]; intros x X first l v; cbn [app].
    - destruct X as [->| ->]; cbn [existsb]; [rewrite orb_false_r|rewrite orb_true_r]; reflexivity.
    - destruct X as [->| ->].
      + change (letters L G H sigterm posix arg false ((y :: w) ++ tail) rest true v = letters L G H sigterm posix arg false tail rest true (v || existsb (N.eqb (ch "v")) (y :: w))). apply (IH y Y).
      + change (letters L G H sigterm posix arg false ((y :: w) ++ tail) rest true true = letters L G H sigterm posix arg false tail rest true (v || true)). rewrite orb_true_r. apply (IH y Y). }
  unfold KillModel.kill. destruct w as [|x w]; [congruence|]. split.
  - change (str "-" ++ x :: w) with (ch "-" :: x :: w). cbn [options]. rewrite N.eqb_refl.
    pose proof (LT (ch "-" :: x :: w) true [] ((ch "-" :: c :: r) :: ops) false false) as Q. rewrite app_nil_r in Q. rewrite Q. cbn [letters]. cbn [letters].
    destruct ((c =? ch "n")%N || (c =? ch "s")%N) eqn:NS; [reflexivity|]. apply orb_false_iff in NS. destruct NS as (NS1 & NS2).
    assert (X : (c =? ch "l")%N = false /\ (c =? ch "v")%N = false /\ (c =? ch "-")%N = false).
    { apply N.eqb_neq in NS1. apply N.eqb_neq in NS2. rewrite !N.eqb_neq. change (ch "l") with 108%N. change (ch "v") with 118%N. change (ch "-") with 45%N. destruct C as [C|[C|C]]; [contradiction|contradiction|]. lia. }
    destruct X as (-> & -> & ->). reflexivity.
  - change (str "-" ++ (x :: w) ++ str "s" ++ r) with (ch "-" :: x :: (w ++ str "s" ++ r)). cbn [options]. rewrite N.eqb_refl.
    change (x :: (w ++ str "s" ++ r)) with ((x :: w) ++ (ch "s" :: r)). rewrite LT. reflexivity.
Qed.
(** With POSIX conformance, names with SIG are errors. *)
Theorem kill_posix nm ops : posix = true -> kill (str "-s" :: (str "SIG" ++ nm) :: ops) = KError /\ kill ((str "-SIG" ++ nm) :: ops) = KError.
Proof. intros P. unfold KillModel.kill. split; cbn; unfold with_signal; rewrite P; reflexivity. Qed.
(** Only SIGTERM or signals of the system are sent, to the last arguments; 0 only as a number. *)
Lemma with_signal_send a rest z ops : with_signal L G H posix a rest = KSend z ops -> means G H a z /\ (z = 0 -> exists c r, map (up H) a = c :: r /\ (48 <= c <= 57)%N) /\ exists pre, rest = pre ++ ops.
Proof.
  unfold with_signal. destruct (posix && _); [discriminate|]. destruct (signal_number L G (map (up H) a)) as [| |y] eqn:N; [discriminate|discriminate|].
  destruct ((y =? 0) && _) eqn:Z0; [discriminate|]. intro E. injection E as -> E. split; [apply (signal_words L HL G HG); exact N|]. split.
  - intros ->. cbn [Z.eqb andb] in Z0. apply negb_false_iff in Z0. destruct (map (up H) a) as [|c r]; [discriminate|]. exists c, r. split; [reflexivity|]. unfold isdigit in Z0. lia.
  - destruct rest as [|d r]; [exists []; subst; reflexivity|]. revert E. destruct (list_N_eqb d _); intro E; [exists [d]|exists []]; subst; reflexivity.
Qed.
Theorem kill_sends args z ops : kill args = KSend z ops -> (exists pre, args = pre ++ ops)
  /\ (z = sigterm \/ valid G z /\ exists a, means G H a z /\ (z = 0 -> exists c r, map (up H) a = c :: r /\ (48 <= c <= 57)%N)).
Proof.
  unfold KillModel.kill. generalize false at 1 as l. generalize false as v. revert z ops.
  assert (MAIN : forall l v rest z ops, main sigterm l v rest = KSend z ops -> rest = ops /\ z = sigterm) by (intros l v rest z ops; unfold main; destruct l; intro E; [discriminate|injection E as <- <-; auto]).
  assert (WS : forall a rest z ops, with_signal L G H posix a rest = KSend z ops -> (exists pre, rest = pre ++ ops) /\ (z = sigterm \/ valid G z /\ exists a, means G H a z /\ (z = 0 -> exists c r, map (up H) a = c :: r /\ (48 <= c <= 57)%N))).
  { intros a rest z ops E. destruct (with_signal_send a rest z ops E) as (A & B & C). split; [exact C|]. right. split; [apply (number_valid L HL G HG (map (up H) a)); apply (signal_words L HL G HG); exact A|]. exists a. auto. }
  assert (LT : forall cs arg first rest l v z ops, letters L G H sigterm posix arg first cs rest l v = inl (KSend z ops) -> (exists pre, rest = pre ++ ops)
    /\ (z = sigterm \/ valid G z /\ exists a, means G H a z /\ (z = 0 -> exists c r, map (up H) a = c :: r /\ (48 <= c <= 57)%N))).
  { induction cs as [|c cs IH]; intros arg first rest l v z ops E; cbn [letters] in E; [discriminate|].
    destruct (_ || _).
    { injection E as E. destruct l; [discriminate|]. destruct cs as [|d cs]; [|apply (WS _ _ _ _ E)]. destruct rest as [|a rest]; [discriminate|].
      destruct (WS _ _ _ _ E) as ((pre & ->) & X). split; [exists (a :: pre); reflexivity|exact X]. }
    destruct (c =? ch "l")%N; [eapply IH; exact E|]. destruct (c =? ch "v")%N; [eapply IH; exact E|].
    destruct (_ && _ && match cs with [] => true | _ => false end); [injection E as E; destruct (MAIN _ _ _ _ _ E) as (-> & ->); split; [exists []; reflexivity|auto]|].
    destruct (_ && _ && _ && _); [discriminate|]. destruct (first && negb l); [injection E as E; apply (WS _ _ _ _ E)|discriminate]. }
  induction args as [|a rest IH]; intros z ops v l E.
  { cbn [options] in E. destruct (MAIN _ _ _ _ _ E) as (<- & ->). split; [exists []; reflexivity|auto]. }
  destruct a as [|h [|c cs]]; cbn [options] in E.
  1,2: destruct (MAIN _ _ _ _ _ E) as (<- & ->); split; [exists []; reflexivity|auto].
  destruct (h =? ch "-")%N; [|destruct (MAIN _ _ _ _ _ E) as (<- & ->); split; [exists []; reflexivity|auto]].
  destruct (letters _ _ _ _ _ _ _ _ _ _ _) as [r|(l2, v2)] eqn:LE.
  - subst r. destruct (LT _ _ _ _ _ _ _ _ LE) as ((pre & ->) & X). split; [exists ((h :: c :: cs) :: pre); reflexivity|exact X].
  - destruct (IH _ _ _ _ E) as ((pre & ->) & X). split; [exists ((h :: c :: cs) :: pre); reflexivity|exact X].
Qed.

(** ** Listing *)
Lemma letter_no_number c t : letter c -> xwcstoi L 10 (c :: t) = None.
Proof.
  intro LT. unfold xwcstoi, xwcstol. rewrite wcstol_unfold. cbn [skip_space]. rewrite nospace by (try exact HL; unfold letter in LT; lia).
  rewrite take_sign_other by (unfold letter in LT; lia). cbn [scan_digits].
  assert (D : 10 <= digitval c). { unfold letter in LT. unfold digitval. destruct ((48 <=? c) && (c <=? 57))%N eqn:A; [lia|]. destruct ((97 <=? c) && (c <=? 122))%N eqn:B; [lia|]. destruct ((65 <=? c) && (c <=? 90))%N eqn:E; lia. }
  destruct (Z.ltb_spec (digitval c) 10); [lia|]. reflexivity.
Qed.
Lemma name_nonempty z : valid G z -> z <> 0 -> signal_name G z <> [].
Proof.
  intros V N E. pose proof (name_bare L HL G HG z V N) as (_ & X). rewrite E in X. apply (signal_words L HL G HG) in X. inversion X as [|t y NV|t y S|t y S]; subst.
  - destruct (numeral_digit _ _ NV). discriminate.
  - inversion S as [t y I| | | |]; subst. destruct (ok_table G HG _ _ I) as (((c & r & ? & _) & _) & _). discriminate.
Qed.
(** [kill -l] with operands prints the name of the signal that each operand stands for, and has no error. *)
Theorem kill_lists ops zs : Forall2 (fun a z => lists G H a z /\ valid G z /\ z <> 0) ops zs ->
  list_some ops = Some (map (fun z => (z, signal_name G z)) zs, false).
Proof.
  induction 1 as [|a z ops zs (LS & V & NZ) _ IH]; [reflexivity|]. cbn [KillModel.list_some map]. rewrite IH. pose proof (valid_max G HG z V) as VM.
  assert (F : (z <=? 0) || (match signal_name G z with [] => true | _ => false end) = false).
  { destruct (Z.leb_spec z 0); [lia|]. pose proof (name_nonempty z V NZ). destruct (signal_name G z); [congruence|reflexivity]. }
  change (Z.land offset 255) with 128. unfold offset.
  destruct LS as [t z NV B|t z NV B|t z NV B|c t z LT M].
  - rewrite (xwcstoi_numeral L HL t z NV) by lia. destruct (Z.leb_spec 0 z); [|lia]. destruct (Z.leb_spec 384 z); [lia|]. destruct (Z.leb_spec 128 z); [lia|]. rewrite F. reflexivity.
  - rewrite (xwcstoi_numeral L HL t _ NV) by (unfold INT_MAX; lia). destruct (Z.leb_spec 0 (128 + z)); [|lia]. destruct (Z.leb_spec 384 (128 + z)); [lia|]. destruct (Z.leb_spec 128 (128 + z)); [|lia].
    replace (128 + z - 128) with z by lia. rewrite F. reflexivity.
  - rewrite (xwcstoi_numeral L HL t _ NV) by lia. destruct (Z.leb_spec 0 (384 + z)); [|lia]. destruct (Z.leb_spec 384 (384 + z)); [|lia].
    replace (384 + z - 384) with z by lia. rewrite F. reflexivity.
  - rewrite (letter_no_number c t LT). apply (signal_words L HL G HG) in M. rewrite M, F. reflexivity.
Qed.
(** Operands do not influence each other, unknown ones included. *)
Theorem kill_lists_app : forall a b l1 e1 l2 e2, list_some a = Some (l1, e1) -> list_some b = Some (l2, e2) -> list_some (a ++ b) = Some (l1 ++ l2, e1 || e2).
Proof.
  induction a as [|x a IH]; intros b l1 e1 l2 e2 A B; [injection A as <- <-; exact B|]. cbn [KillModel.list_some app] in *. cbv zeta in *.
  set (n := match xwcstoi L 10 x with Some _ => _ | None => _ end) in *. clearbody n. destruct n as [| |z]; [discriminate| |].
  - destruct (list_some a) as [(l, e)|]; [|discriminate]. injection A as <- <-. rewrite (IH b _ _ _ _ eq_refl B). reflexivity.
  - destruct ((z <=? 0) || _); (destruct (list_some a) as [(l, e)|]; [|discriminate]); injection A as <- <-; rewrite (IH b _ _ _ _ eq_refl B); reflexivity.
Qed.
(** Whatever the operands, only signals of the system are printed, with their names. *)
Theorem kill_lists_valid : forall ops l e, list_some ops = Some (l, e) -> Forall (fun p => valid G (fst p) /\ fst p <> 0 /\ sig_word G (snd p) (fst p)) l /\ (length l <= length ops)%nat /\ (e = false <-> length l = length ops).
Proof.
  induction ops as [|a ops IH]; intros l e E; cbn [KillModel.list_some] in E; [injection E as <- <-; split; [constructor|split; [constructor|split; reflexivity]]|]. cbv zeta in E.
  set (n := match xwcstoi L 10 a with Some _ => _ | None => _ end) in E. clearbody n. destruct n as [| |z]; [discriminate| |].
  - destruct (list_some ops) as [(l1, e1)|]; [|discriminate]. injection E as <- <-. destruct (IH _ _ eq_refl) as (A & A2 & _). cbn [length]. split; [exact A|]. split; [lia|]. split; [discriminate|lia].
  - destruct ((z <=? 0) || _) eqn:B.
    + destruct (list_some ops) as [(l1, e1)|]; [|discriminate]. injection E as <- <-. destruct (IH _ _ eq_refl) as (A & A2 & _). cbn [length]. split; [exact A|]. split; [lia|]. split; [discriminate|lia].
    + destruct (list_some ops) as [(l1, e1)|]; [|discriminate]. injection E as <- <-. destruct (IH _ _ eq_refl) as (A & A2 & C).
      split; [|cbn [length]; split; [lia|rewrite C; lia]]. constructor; [|exact A]. cbn [fst snd]. apply orb_false_iff in B. destruct B as (B1 & B2). apply Z.leb_gt in B1.
      assert (V : valid G z).
      { unfold signal_name in B2. destruct (Z.eqb_spec z 0); [lia|]. destruct (is_rt G z) eqn:R; [right; left; apply rt_iff; exact R|].
        destruct (find (fun p => snd p =? z) (table G)) as [(nm, y)|] eqn:F; [|discriminate]. apply find_some in F. destruct F as (I & Y). apply Z.eqb_eq in Y. right; right. apply in_map_iff. exists (nm, y). auto. }
      split; [exact V|]. split; [lia|]. apply (signal_name_number L HL G HG H HU z V).
Qed.
End S.
Print Assumptions kill_names. Print Assumptions kill_lists_all. Print Assumptions kill_default. Print Assumptions kill_sends. Print Assumptions kill_list_option. Print Assumptions kill_posix. Print Assumptions kill_s. Print Assumptions kill_exclusive. Print Assumptions kill_lists_app.
Print Assumptions kill_lists. Print Assumptions kill_lists_valid.

(** Names in lower case are accepted after [-s], but not directly after the hyphen if they begin with s or n. *)
Theorem kill_lower_refuted : exists nm z, kill c_locale linux script 15 false [str "-s"; nm; str "1"] = KSend z [str "1"]
  /\ kill c_locale linux script 15 false [str "-" ++ nm; str "1"] = KNoSignal.
Proof. exists (str "stop"), 19. vm_compute. auto. Qed.
Print Assumptions kill_lower_refuted.

(** * Examples *)
Example ex_kill : kill c_locale linux script 15 false [str "-hup"; str "--"; str "-5"] = KSend 1 [str "-5"] /\ kill c_locale linux script 15 false [str "-9"; str "5"] = KSend 9 [str "5"]
  /\ kill c_locale linux script 15 true [str "-s"; str "SIGHUP"; str "5"] = KError /\ kill c_locale linux script 15 false [str "-lv"; str "-l"; str "--"; str "5"] = KList true [str "5"]
  /\ kill c_locale linux script 15 false [str "--he"] = KHelp /\ kill c_locale linux script 15 false [str "-s"; str "EXIT"; str "5"] = KNoSignal /\ kill c_locale linux script 15 false [str "-0"; str "5"] = KSend 0 [str "5"].
Proof. vm_compute. auto 8. Qed.
Example ex_list : list_some c_locale linux script [str "398"; str "129"; str "3"; str "sigint"; str "4000"] = Some ([(14, str "ALRM"); (1, str "HUP"); (3, str "QUIT"); (2, str "INT")], true)
  /\ In (36, str "RTMIN+2") (list_all linux) /\ lists linux script (str "int") 2.
Proof.
  split; [vm_compute; reflexivity|]. split; [vm_compute; tauto|]. apply (L_word linux script (ch "i") (str "nt")); [right; vm_compute; split; discriminate|].
  apply (signal_words c_locale c_locale_ok linux linux_ok). vm_compute. reflexivity.
Qed.
