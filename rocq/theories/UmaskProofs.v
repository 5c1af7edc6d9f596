(** The umask built-in computes the meaning of symbolic modes. *)
From Coq Require Import Ascii String.
From Coq Require Import List NArith Bool Arith Lia.
From Verif Require Import Common UmaskModel UmaskSpec.
Import ListNotations.
Local Open Scope N_scope.
Local Open Scope res_scope.

Definition R (x : N) (f : permissions) : Prop := forall c p, N.testbit x (index c p) = f c p.

Ltac bits := repeat first [rewrite N.lor_spec | rewrite N.land_spec].

Lemma index_low c p : index c p < 32.
Proof. destruct c, p; reflexivity. Qed.
Lemma not_spec m c p : N.testbit (mode_not m) (index c p) = negb (N.testbit m (index c p)).
Proof. apply N.lnot_spec_low, index_low. Qed.

Lemma land_one m i : (N.land m (2 ^ i) =? 0) = negb (N.testbit m i).
Proof.
  destruct (N.testbit m i) eqn:E.
  - cbn. apply N.eqb_neq. intros H. assert (X : N.testbit (N.land m (2 ^ i)) i = false) by (rewrite H; apply N.bits_0).
    rewrite N.land_spec, E, N.pow2_bits_true in X. discriminate.
  - cbn. apply N.eqb_eq. apply N.bits_inj. intros j. rewrite N.land_spec, N.bits_0.
    destruct (N.eq_dec i j) as [<-|NE]; [now rewrite E|]. rewrite N.pow2_bits_false by auto. apply andb_false_r.
Qed.
Lemma copy_spec m k c p :
  N.testbit (match k with User => copy_user_mask m | Group => copy_group_mask m | Other => copy_other_mask m end)
    (index c p) = N.testbit m (index k p).
Proof.
  destruct k; unfold copy_user_mask, copy_group_mask, copy_other_mask, copy_mask.
  - change S_IRUSR with (2 ^ 8) at 1. change S_IWUSR with (2 ^ 7) at 1. change S_IXUSR with (2 ^ 6) at 1.
    rewrite !land_one. bits. cbv [index N.add Pos.add Pos.add_carry Pos.succ].
    destruct p, c, (N.testbit m 8), (N.testbit m 7), (N.testbit m 6); reflexivity.
  - change S_IRGRP with (2 ^ 5) at 1. change S_IWGRP with (2 ^ 4) at 1. change S_IXGRP with (2 ^ 3) at 1.
    rewrite !land_one. bits. cbv [index N.add Pos.add Pos.add_carry Pos.succ].
    destruct p, c, (N.testbit m 5), (N.testbit m 4), (N.testbit m 3); reflexivity.
  - change S_IROTH with (2 ^ 2) at 1. change S_IWOTH with (2 ^ 1) at 1. change S_IXOTH with (2 ^ 0) at 1.
    rewrite !land_one. bits. cbv [index N.add Pos.add Pos.add_carry Pos.succ].
    destruct p, c, (N.testbit m 2), (N.testbit m 1), (N.testbit m 0); reflexivity.
Qed.
Lemma some_exec m :
  (N.land m (N.lor (N.lor S_IXUSR S_IXGRP) S_IXOTH) =? 0) =
  negb (N.testbit m (index User Exec) || N.testbit m (index Group Exec) || N.testbit m (index Other Exec)).
Proof.
  rewrite !N.land_lor_distr_r.
  change S_IXUSR with (2 ^ index User Exec). change S_IXGRP with (2 ^ index Group Exec).
  change S_IXOTH with (2 ^ index Other Exec).
  rewrite !negb_orb, <- !land_one.
  set (a := N.land m (2 ^ index User Exec)). set (b := N.land m (2 ^ index Group Exec)).
  set (c := N.land m (2 ^ index Other Exec)). clearbody a b c.
  destruct (N.eqb_spec (N.lor (N.lor a b) c) 0) as [H|H].
  - apply N.lor_eq_0_iff in H as [H ->]. apply N.lor_eq_0_iff in H as [-> ->]. reflexivity.
  - destruct (N.eqb_spec a 0) as [->|]; cbn; auto. destruct (N.eqb_spec b 0) as [->|]; cbn; auto.
    destruct (N.eqb_spec c 0) as [->|]; cbn; auto.
Qed.

(** A character that begins an action. *)
Definition op_char (c : N) : bool := (c =? ch "+") || (c =? ch "-") || (c =? ch "=").
Definition stops (s : list N) : Prop := match s with c :: _ => op_char c = true \/ c = ch "," | [] => True end.

Lemma op_char_cases c : op_char c = true -> c = ch "+" \/ c = ch "-" \/ c = ch "=".
Proof.
  unfold op_char. intros H. apply orb_true_iff in H as [H|H]; [apply orb_true_iff in H as [H|H]|];
    apply N.eqb_eq in H; auto.
Qed.
Lemma stops_cases s : stops s -> s = [] \/ exists c s', s = c :: s' /\ (c = ch "+" \/ c = ch "-" \/ c = ch "=" \/ c = ch ",").
Proof.
  destruct s as [|c s']; [auto|]. cbn. intros [H|H]; right; exists c, s'; split; auto.
  apply op_char_cases in H. tauto.
Qed.

Lemma parse_who_text ws : forall w rest, stops rest ->
  exists w', parse_who w (flat_map who_text ws ++ rest) = (w', rest) /\
    (forall c p, N.testbit w' (index c p) =
       N.testbit w (index c p) || existsb (fun x => match x with Class c' => class_eqb c c' | Everyone => true end) ws).
Proof.
  induction ws as [|x ws IH]; intros w rest H.
  - exists w. split; [|intros; cbn; now rewrite orb_false_r].
    destruct (stops_cases _ H) as [->|(c & s' & -> & [->|[->|[->| ->]]])]; reflexivity.
  - cbn [flat_map]. rewrite <- app_assoc. destruct x as [[| |]|].
    + destruct (IH (N.lor w S_IRWXU) rest H) as (w' & E & B). exists w'. split; [exact E|].
      intros c p. rewrite B. bits. cbn [existsb]. rewrite <- orb_assoc. f_equal. f_equal. destruct c, p; reflexivity.
    + destruct (IH (N.lor w S_IRWXG) rest H) as (w' & E & B). exists w'. split; [exact E|].
      intros c p. rewrite B. bits. cbn [existsb]. rewrite <- orb_assoc. f_equal. f_equal. destruct c, p; reflexivity.
    + destruct (IH (N.lor w S_IRWXO) rest H) as (w' & E & B). exists w'. split; [exact E|].
      intros c p. rewrite B. bits. cbn [existsb]. rewrite <- orb_assoc. f_equal. f_equal. destruct c, p; reflexivity.
    + destruct (IH (N.lor (N.lor S_IRWXU S_IRWXG) S_IRWXO) rest H) as (w' & E & B). exists w'. split; [exact E|].
      intros c p. rewrite B. cbn [existsb]. cbn [orb]. rewrite orb_true_r. destruct c, p; reflexivity.
Qed.
Lemma start_who_text ws rest : stops rest ->
  exists w, start_who (flat_map who_text ws ++ rest) = (w, rest) /\ forall c p, N.testbit w (index c p) = concerns ws c.
Proof.
  intros H. unfold start_who. destruct (parse_who_text ws 0 rest H) as (w & E & B). rewrite E.
  eexists. split; [reflexivity|]. intros c p. destruct (N.eqb_spec w 0) as [->|NE].
  - assert (X : existsb (fun x => match x with Class c' => class_eqb c c' | Everyone => true end) ws = false /\ ws = []).
    { assert (Y : forall c p, false = existsb (fun x => match x with Class c' => class_eqb c c' | Everyone => true end) ws)
        by (intros c' p'; specialize (B c' p'); rewrite !N.bits_0 in B; exact B).
      split; [symmetry; exact (Y c p)|]. destruct ws as [|[k|] ws]; [reflexivity| |].
      - specialize (Y k Read). cbn in Y. destruct k; discriminate Y.
      - specialize (Y User Read). discriminate Y. }
    destruct X as [_ ->]. destruct c, p; reflexivity.
  - rewrite B, N.bits_0. cbn [orb]. destruct ws as [|x ws]; [|reflexivity].
    destruct NE. apply (f_equal fst) in E. cbn in E.
    destruct (stops_cases _ H) as [->|(c' & s' & -> & [->|[->|[->| ->]]])]; symmetry; exact E.
Qed.

Lemma parse_letters_text orig f l : R orig f -> forall x rest, stops rest ->
  exists x', parse_letters orig x (flat_map letter_text l ++ rest) = (x', rest) /\
    (forall c p, N.testbit x' (index c p) = N.testbit x (index c p) || existsb (fun l => denotes f l p) l).
Proof.
  intros RO. induction l as [|a l IH]; intros x rest H.
  - exists x. split; [|intros; cbn; now rewrite orb_false_r].
    destruct (stops_cases _ H) as [->|(c & s' & -> & [->|[->|[->| ->]]])]; reflexivity.
  - cbn [flat_map]. rewrite <- app_assoc. destruct a as [[| |]| |].
    + destruct (IH (N.lor x (N.lor (N.lor S_IRUSR S_IRGRP) S_IROTH)) rest H) as (x' & E & B). exists x'.
      split; [exact E|]. intros c p. rewrite B. rewrite N.lor_spec. cbn [existsb].
      rewrite <- orb_assoc. f_equal. f_equal. destruct c, p; reflexivity.
    + destruct (IH (N.lor x (N.lor (N.lor S_IWUSR S_IWGRP) S_IWOTH)) rest H) as (x' & E & B). exists x'.
      split; [exact E|]. intros c p. rewrite B. rewrite N.lor_spec. cbn [existsb].
      rewrite <- orb_assoc. f_equal. f_equal. destruct c, p; reflexivity.
    + destruct (IH (N.lor x (N.lor (N.lor S_IXUSR S_IXGRP) S_IXOTH)) rest H) as (x' & E & B). exists x'.
      split; [exact E|]. intros c p. rewrite B. rewrite N.lor_spec. cbn [existsb].
      rewrite <- orb_assoc. f_equal. f_equal. destruct c, p; reflexivity.
    + assert (SE := some_exec orig). rewrite !RO in SE.
      assert (Q : parse_letters orig x (letter_text SearchX ++ flat_map letter_text l ++ rest) =
        (if N.land orig (N.lor (N.lor S_IXUSR S_IXGRP) S_IXOTH) =? 0
         then parse_letters orig x (flat_map letter_text l ++ rest)
         else parse_letters orig (N.lor x (N.lor (N.lor S_IXUSR S_IXGRP) S_IXOTH)) (flat_map letter_text l ++ rest))) by reflexivity.
      rewrite Q, SE. clear Q. cbn [existsb denotes]. destruct (f User Exec || f Group Exec || f Other Exec); cbn [negb].
      * destruct (IH (N.lor x (N.lor (N.lor S_IXUSR S_IXGRP) S_IXOTH)) rest H) as (x' & E & B). exists x'.
        split; [exact E|]. intros c p. rewrite B. rewrite N.lor_spec.
        rewrite <- orb_assoc. f_equal. f_equal. destruct c, p; reflexivity.
      * destruct (IH x rest H) as (x' & E & B). exists x'. split; [exact E|]. intros c p. rewrite B.
        rewrite andb_false_r. reflexivity.
    + destruct (IH (N.lor x (N.lor S_ISUID S_ISGID)) rest H) as (x' & E & B). exists x'.
      split; [exact E|]. intros c p. rewrite B. rewrite N.lor_spec. cbn [existsb].
      rewrite <- orb_assoc. f_equal. f_equal. destruct c, p; reflexivity.
Qed.
Lemma parse_perm_text orig f x rest : R orig f -> stops rest ->
  exists v, parse_perm orig (perms_text x ++ rest) = (v, rest) /\ forall c p, N.testbit v (index c p) = given f x p.
Proof.
  intros RO H. destruct x as [k|l].
  - exists (match k with User => copy_user_mask orig | Group => copy_group_mask orig | Other => copy_other_mask orig end).
    split; [destruct k; reflexivity|]. intros c p. rewrite copy_spec. apply RO.
  - destruct (parse_letters_text orig f l RO 0 rest H) as (v & E & B). exists v. split.
    + cbn [perms_text]. rewrite <- E. destruct l as [|a l].
      * cbn [flat_map app]. destruct (stops_cases _ H) as [->|(c & s' & -> & [->|[->|[->| ->]]])]; reflexivity.
      * destruct a as [[| |]| |]; reflexivity.
    + intros c p. rewrite B, N.bits_0. reflexivity.
Qed.

(** One step of the loop. *)
Definition update (op who perm new : N) : N :=
  if op =? ch "+" then N.lor new (N.land who perm)
  else if op =? ch "-" then N.land new (mode_not (N.land who perm))
  else N.lor (N.land (mode_not who) new) (N.land who perm).
Definition op_of (o : op) : N := match o with Plus => ch "+" | Minus => ch "-" | Assign => ch "=" end.
Lemma update_spec a ws f who perm new now : R new now ->
  (forall c p, N.testbit who (index c p) = concerns ws c) ->
  (forall c p, N.testbit perm (index c p) = given f (snd a) p) ->
  R (update (op_of (fst a)) who perm new) (act f ws now a).
Proof.
  intros RN W P c p. unfold update, act. specialize (RN c p). specialize (W c p). specialize (P c p).
  destruct (fst a); cbn [op_of].
  - change (ch "+" =? ch "+") with true. cbn match. bits. rewrite RN, W, P.
    destruct (concerns ws c); cbn; [reflexivity|apply orb_false_r].
  - change (ch "-" =? ch "+") with false. change (ch "-" =? ch "-") with true. cbn match. rewrite N.land_spec, not_spec.
    bits. rewrite RN, W, P. destruct (concerns ws c); cbn; [reflexivity|apply andb_true_r].
  - change (ch "=" =? ch "+") with false. change (ch "=" =? ch "-") with false. cbn match. bits. rewrite not_spec.
    rewrite RN, W, P. destruct (concerns ws c); cbn; [reflexivity|apply orb_false_r].
Qed.
Lemma op_start_step n orig new who a rest f : R orig f -> stops rest ->
  exists perm, (forall c p, N.testbit perm (index c p) = given f (snd a) p) /\
  op_start (S n) orig new who (action_text a ++ rest) =
    match rest with
    | [] => Ok (Some (update (op_of (fst a)) who perm new))
    | c :: s' =>
      if c =? ch "," then let '(w, s) := start_who s' in op_start n orig (update (op_of (fst a)) who perm new) w s
      else op_start n orig (update (op_of (fst a)) who perm new) who rest
    end.
Proof.
  intros RO H. destruct (parse_perm_text orig f (snd a) rest RO H) as (v & E & B). exists v. split; [exact B|].
  unfold action_text. rewrite <- app_assoc. destruct a as [o x]. cbn [fst snd] in *.
  destruct o; cbn [str app op_start op_of]; cbn [tl]; rewrite E; reflexivity.
Qed.

Definition clauses_text (cs : list clause) : list N := flat_map (fun c => str "," ++ clause_text c) cs.
Lemma clauses_stop cs : stops (clauses_text cs).
Proof. destruct cs as [|c cs]; cbn; auto. Qed.
Lemma actions_ok orig f who ws l : forall n a new now tail, R orig f -> R new now ->
  (forall c p, N.testbit who (index c p) = concerns ws c) ->
  (exists cs, tail = clauses_text cs) ->
  exists new', R new' (fold_left (act f ws) (a :: l) now) /\
    op_start (length l + S n) orig new who (action_text a ++ flat_map action_text l ++ tail) =
    match tail with
    | [] => Ok (Some new')
    | _ :: s' => let '(w, s) := start_who s' in op_start n orig new' w s
    end.
Proof.
  induction l as [|b l IH]; intros n a new now tail RO RN W T.
  - cbn [length Nat.add flat_map app].
    assert (ST : stops tail) by (destruct T as (cs & ->); apply clauses_stop).
    destruct (op_start_step n orig new who a tail f RO ST) as (perm & P & E). rewrite E.
    exists (update (op_of (fst a)) who perm new). split; [apply update_spec; auto|].
    destruct T as ([|c cs] & ->); reflexivity.
  - cbn [length Nat.add flat_map]. rewrite <- app_assoc.
    assert (ST : stops (action_text b ++ flat_map action_text l ++ tail)).
    { destruct b as [[| |] x]; cbn; left; reflexivity. }
    destruct (op_start_step (length l + S n) orig new who a _ f RO ST) as (perm & P & E). rewrite E.
    destruct (IH n b (update (op_of (fst a)) who perm new) (act f ws now a) tail RO) as (new' & R' & E'); auto.
    { apply update_spec; auto. }
    exists new'. split; [exact R'|]. rewrite <- E'. destruct b as [[| |] x]; reflexivity.
Qed.

Definition count (c : clause) : nat := S (length (actions c)).
Definition start (n : nat) (orig new : N) (s : list N) : res (option N) :=
  let '(w, s) := start_who s in op_start n orig new w s.
Lemma clauses_ok orig f cs : forall n c new now, R orig f -> R new now ->
  exists new', R new' (fold_left (apply_clause f) (c :: cs) now) /\
    start (list_sum (map count (c :: cs)) + n) orig new (clause_text c ++ clauses_text cs) = Ok (Some new').
Proof.
  induction cs as [|d cs IH]; intros n c new now RO RN.
  - unfold start, clause_text. rewrite <- !app_assoc.
    destruct (start_who_text (whos c) (action_text (action c) ++ flat_map action_text (actions c) ++ clauses_text []))
      as (w & E & B). { destruct (action c) as [[| |] x]; cbn; left; reflexivity. }
    rewrite E. cbn [map list_sum fold_right]. unfold count. rewrite Nat.add_0_r, Nat.add_succ_comm.
    destruct (actions_ok orig f w (whos c) (actions c) n (action c) new now (clauses_text []) RO RN B) as (new' & R' & E').
    { exists []. reflexivity. }
    exists new'. split; [exact R'|exact E'].
  - unfold start, clause_text. rewrite <- !app_assoc.
    destruct (start_who_text (whos c) (action_text (action c) ++ flat_map action_text (actions c) ++ clauses_text (d :: cs)))
      as (w & E & B). { destruct (action c) as [[| |] x]; cbn; left; reflexivity. }
    rewrite E.
    destruct (actions_ok orig f w (whos c) (actions c) (list_sum (map count (d :: cs)) + n) (action c) new now
               (clauses_text (d :: cs)) RO RN B) as (new' & R' & E').
    { exists (d :: cs). reflexivity. }
    destruct (IH n d new' (apply_clause f now c) RO R') as (new2 & R2 & E2).
    exists new2. split; [exact R2|].
    replace (list_sum (map count (c :: d :: cs)) + n)%nat with (length (actions c) + S (list_sum (map count (d :: cs)) + n))%nat
      by (cbn; unfold count; lia).
    rewrite E'. exact E2.
Qed.

Lemma action_len a : (1 <= length (action_text a))%nat.
Proof. unfold action_text. destruct (fst a); cbn; lia. Qed.
Lemma actions_len l : (length l <= length (flat_map action_text l))%nat.
Proof. induction l as [|a l IH]; cbn; [lia|]. rewrite app_length. assert (H := action_len a). lia. Qed.
Lemma count_len c : (count c <= length (clause_text c))%nat.
Proof.
  unfold count, clause_text. rewrite !app_length. assert (H := action_len (action c)).
  assert (H' := actions_len (actions c)). lia.
Qed.
Lemma counts_len cs : (list_sum (map count cs) <= length (clauses_text cs))%nat.
Proof.
  induction cs as [|c cs IH]; [cbn; lia|].
  change (count c + list_sum (map count cs) <= length ((str "," ++ clause_text c) ++ clauses_text cs))%nat.
  rewrite !app_length. assert (H := count_len c). lia.
Qed.

Lemma clause_no_digit c rest : match clause_text c ++ rest with x :: _ => is_digit x | [] => false end = false.
Proof.
  unfold clause_text. destruct (whos c) as [|[[| |]|] l]; cbn; try reflexivity.
  destruct (action c) as [[| |] x]; reflexivity.
Qed.
Lemma perm_low x c p : N.testbit (sys_umask x) (index c p) = N.testbit x (index c p).
Proof. unfold sys_umask. rewrite N.land_spec. destruct c, p; cbn; apply andb_true_r. Qed.
Lemma sys_small x : sys_umask x < 512.
Proof. unfold sys_umask. change 511 with (N.ones 9). rewrite N.land_ones. apply N.mod_lt. discriminate. Qed.

Lemma same_mask m m' : m < 512 -> m' < 512 -> (forall c p, permits m c p = permits m' c p) -> m = m'.
Proof.
  intros H H' E. apply N.bits_inj. intros i. destruct (N.lt_ge_cases i 9) as [L|G].
  - assert (X : exists c p, i = index c p).
    { destruct (N.eq_dec i 0) as [->|]; [exists Other, Exec; reflexivity|].
      destruct (N.eq_dec i 1) as [->|]; [exists Other, Write; reflexivity|].
      destruct (N.eq_dec i 2) as [->|]; [exists Other, Read; reflexivity|].
      destruct (N.eq_dec i 3) as [->|]; [exists Group, Exec; reflexivity|].
      destruct (N.eq_dec i 4) as [->|]; [exists Group, Write; reflexivity|].
      destruct (N.eq_dec i 5) as [->|]; [exists Group, Read; reflexivity|].
      destruct (N.eq_dec i 6) as [->|]; [exists User, Exec; reflexivity|].
      destruct (N.eq_dec i 7) as [->|]; [exists User, Write; reflexivity|].
      exists User, Read. change (index User Read) with 8. lia. }
    destruct X as (c & p & ->). specialize (E c p). unfold permits in E.
    destruct (N.testbit m (index c p)), (N.testbit m' (index c p)); auto; discriminate.
  - assert (Z : forall x, x < 512 -> N.testbit x i = false).
    { intros x Hx. destruct (N.eq_dec x 0) as [->|NZ]; [apply N.bits_0|]. apply N.bits_above_log2.
      cut (N.log2 x < 9); [lia|]. apply N.log2_lt_pow2; [lia|exact Hx]. }
    now rewrite !Z.
Qed.

(** Symbolic modes. *)
Theorem set_umask_text md m : m < 512 ->
  exists m', set_umask (mode_text md) m = Ok (m', 0) /\ m' < 512 /\
    forall c p, permits m' c p = meaning md (permits m) c p.
Proof.
  intros L. destruct md as [c cs]. unfold set_umask, mode_text. cbn [fst snd]. fold (clauses_text cs).
  rewrite clause_no_digit.
  assert (RO : R (mode_not m) (permits m)) by (intros k p; apply not_spec).
  assert (LE : (list_sum (map count (c :: cs)) <= length (clause_text c ++ clauses_text cs))%nat).
  { rewrite app_length. assert (H := counts_len cs). assert (H' := count_len c).
    change (count c + list_sum (map count cs) <= length (clause_text c) + length (clauses_text cs))%nat. lia. }
  remember (length (clause_text c ++ clauses_text cs)) as len.
  destruct (clauses_ok (mode_not m) (permits m) cs (S len - list_sum (map count (c :: cs))) c (mode_not m) (permits m) RO RO)
    as (new & RN & E).
  replace (list_sum (map count (c :: cs)) + (S len - list_sum (map count (c :: cs))))%nat with (S len) in E by lia.
  unfold start in E. destruct (start_who (clause_text c ++ clauses_text cs)) as [w s]. rewrite E. cbn [rbind].
  eexists. split; [reflexivity|]. split; [apply sys_small|].
  intros k p. unfold permits at 1. rewrite perm_low, not_spec, negb_involutive. apply RN.
Qed.

(** Other strings are rejected. *)
Lemma who_inv s : forall w w' r, parse_who w s = (w', r) -> exists ws, s = flat_map who_text ws ++ r.
Proof.
  induction s as [|c s IH]; intros w w' r; cbn [parse_who]; [intros E; injection E as _ <-; exists []; reflexivity|].
  destruct (N.eqb_spec c (ch "u")) as [->|_]; [intros E; destruct (IH _ _ _ E) as (ws & ->); exists (Class User :: ws); reflexivity|].
  destruct (N.eqb_spec c (ch "g")) as [->|_]; [intros E; destruct (IH _ _ _ E) as (ws & ->); exists (Class Group :: ws); reflexivity|].
  destruct (N.eqb_spec c (ch "o")) as [->|_]; [intros E; destruct (IH _ _ _ E) as (ws & ->); exists (Class Other :: ws); reflexivity|].
  destruct (N.eqb_spec c (ch "a")) as [->|_]; [intros E; destruct (IH _ _ _ E) as (ws & ->); exists (Everyone :: ws); reflexivity|].
  intros E. injection E as _ <-. exists []. reflexivity.
Qed.
Lemma start_who_inv s w r : start_who s = (w, r) -> exists ws, s = flat_map who_text ws ++ r.
Proof.
  unfold start_who. destruct (parse_who 0 s) as [w' r'] eqn:E. intros X. injection X as _ <-. eapply who_inv; eauto.
Qed.
Lemma letters_inv orig s : forall x x' r, parse_letters orig x s = (x', r) -> exists l, s = flat_map letter_text l ++ r.
Proof.
  induction s as [|c s IH]; intros x x' r; cbn [parse_letters]; [intros E; injection E as _ <-; exists []; reflexivity|].
  destruct (N.eqb_spec c (ch "r")) as [->|_]; [intros E; destruct (IH _ _ _ E) as (l & ->); exists (Right Read :: l); reflexivity|].
  destruct (N.eqb_spec c (ch "w")) as [->|_]; [intros E; destruct (IH _ _ _ E) as (l & ->); exists (Right Write :: l); reflexivity|].
  destruct (N.eqb_spec c (ch "X")) as [->|_].
  { destruct (_ =? 0); intros E; destruct (IH _ _ _ E) as (l & ->); exists (SearchX :: l); reflexivity. }
  destruct (N.eqb_spec c (ch "x")) as [->|_]; [intros E; destruct (IH _ _ _ E) as (l & ->); exists (Right Exec :: l); reflexivity|].
  destruct (N.eqb_spec c (ch "s")) as [->|_]; [intros E; destruct (IH _ _ _ E) as (l & ->); exists (SetId :: l); reflexivity|].
  intros E. injection E as _ <-. exists []. reflexivity.
Qed.
Lemma perm_inv orig s v r : parse_perm orig s = (v, r) -> exists x, s = perms_text x ++ r.
Proof.
  unfold parse_perm. destruct s as [|c s]; [intros E; injection E as _ <-; exists (Letters []); reflexivity|].
  destruct (N.eqb_spec c (ch "u")) as [->|_]; [intros E; injection E as _ <-; exists (Copy User); reflexivity|].
  destruct (N.eqb_spec c (ch "g")) as [->|_]; [intros E; injection E as _ <-; exists (Copy Group); reflexivity|].
  destruct (N.eqb_spec c (ch "o")) as [->|_]; [intros E; injection E as _ <-; exists (Copy Other); reflexivity|].
  intros E. destruct (letters_inv _ _ _ _ _ E) as (l & ->). exists (Letters l). reflexivity.
Qed.

(** Sequences of actions and clauses. *)
Definition rest_text (a : op * perms) (l : list (op * perms)) (cs : list clause) : list N :=
  action_text a ++ flat_map action_text l ++ clauses_text cs.
Lemma op_start_inv n : forall orig new who s, (length s < n)%nat -> Forall (fun c => c < 256) s ->
  op_start n orig new who s = Ok None \/
  exists new' a l cs, op_start n orig new who s = Ok (Some new') /\ s = rest_text a l cs.
Proof.
  induction n as [|n IH]; intros orig new who s L FA; [lia|]. cbn [op_start].
  destruct s as [|o s]; [left; reflexivity|].
  inversion_clear FA as [|? ? LO FS]. rewrite (N.mod_small o 256) by exact LO. cbn [tl].
  destruct (_ || _ || _) eqn:OP; [|left; reflexivity].
  destruct (parse_perm orig s) as [v r] eqn:P. destruct (perm_inv _ _ _ _ P) as (x & ->).
  assert (OO : exists b, o :: perms_text x ++ r = action_text (b, x) ++ r).
  { unfold action_text. cbn [fst snd]. change (op_char o = true) in OP.
    destruct (op_char_cases _ OP) as [->|[->| ->]]; [exists Plus|exists Minus|exists Assign]; reflexivity. }
  destruct OO as (b & OO). rewrite OO. fold (update o who v new).
  cbn [length] in L. rewrite app_length in L. apply Forall_app in FS as [_ FR].
  destruct r as [|c r].
  - right. exists (update o who v new), (b, x), [], []. split; reflexivity.
  - destruct (N.eqb_spec c (ch ",")) as [->|NC].
    + destruct (start_who r) as [w t] eqn:W. destruct (start_who_inv _ _ _ W) as (ws & ->).
      inversion_clear FR as [|? ? _ FR']. apply Forall_app in FR' as [_ FT].
      cbn [length] in L. rewrite app_length in L.
      destruct (IH orig (update o who v new) w t) as [E|(new' & a & l & cs & E & T)]; [lia|exact FT|left; exact E|].
      right. exists new', (b, x), [], ({| whos := ws; action := a; actions := l |} :: cs). split; [exact E|].
      subst t. unfold rest_text, clauses_text, clause_text. cbn [flat_map whos action actions app].
      rewrite <- !app_assoc. reflexivity.
    + destruct (IH orig (update o who v new) who (c :: r)) as [E|(new' & a & l & cs & E & T)]; [cbn [length] in *; lia|exact FR|left; exact E|].
      right. exists new', (b, x), (a :: l), cs. split; [exact E|]. rewrite T.
      unfold rest_text. cbn [flat_map]. rewrite <- !app_assoc. reflexivity.
Qed.

Theorem set_umask_other s m : m < 512 -> Forall (fun c => c < 256) s ->
  match s with c :: _ => is_digit c | [] => false end = false ->
  (forall md, s <> mode_text md) -> set_umask s m = Ok (m, 2).
Proof.
  intros L FA D H. unfold set_umask. rewrite D. destruct (start_who s) as [w r] eqn:W.
  destruct (start_who_inv _ _ _ W) as (ws & ->). apply Forall_app in FA as [_ FR].
  destruct (op_start_inv (S (length (flat_map who_text ws ++ r))) (mode_not m) (mode_not m) w r)
    as [-> |(new' & a & l & cs & _ & E)]; [rewrite app_length; lia|exact FR| |].
  - cbn [rbind]. f_equal. f_equal. apply same_mask; auto using sys_small. intros c p. unfold permits.
    rewrite perm_low, !not_spec, negb_involutive. reflexivity.
  - destruct (H ({| whos := ws; action := a; actions := l |}, cs)).
    rewrite E. unfold mode_text, rest_text, clause_text. cbn [fst snd whos action actions]. rewrite <- !app_assoc. reflexivity.
Qed.
