(** Theorems about motions in line editing (C114-C116). *)
From Coq Require Import Ascii String.
From Coq Require Import List NArith ZArith Bool Arith Lia.
From Verif Require Import Common MotionModel MotionSpec Motion.
Import ListNotations.
Local Open Scope nat_scope.

(** Forward by one word: to the next start of a word, else to the end of the line. *)
Theorem forward_word : forall W k s i, w_ok W -> i <= length s ->
  first_after (word_start (kind_of W k) s) i (length s) (next_of W k s i).
Proof. intros. apply next_of_spec; assumption. Qed.
Print Assumptions forward_word.
(** To the end of a word: the next end of a word; if there is none, the end of the line for
    viwords; for others the last character or, from there, the end of the line. *)
Theorem end_of_word : forall W k s i, w_ok W -> i < length s ->
  first_after (word_end (kind_of W k) s) i (match k with Viw => length s | _ => Nat.max (S i) (length s - 1) end) (end_of W k s i true).
Proof.
  intros W k s i OK L. pose proof (end_of_spec W k s i OK ltac:(lia)) as H. destruct k; auto;
  unfold end_default in H; destruct (Nat.leb_spec (length s) i); auto; lia.
Qed.
Print Assumptions end_of_word.
(** Forward by one Emacs word: just after the next end of a word *)
Theorem forward_emacsword : forall W s i, i < length s ->
  first_after (fun k => 0 < k /\ word_end (kind_emacs W) s (k - 1)) i (length s) (next_emacsword W s i).
Proof. intros W s i L. destruct (next_emacs W s i ltac:(lia) L) as (e & H & <-). exact H. Qed.
Print Assumptions forward_emacsword.

(** Backward by one word: to the previous start of a word, else to the start of the line.
    For words other than viwords there is one exception: if only the first character of the
    line is before all words, the first word is passed. *)
Theorem backward_viword : forall W s i, w_ok W -> 0 < i -> i <= length s ->
  last_before (word_start (kind_vi W) s) i (prev_viword W s i).
Proof. intros W s i OK P L. exact (prev_of_spec W Viw s i OK P L). Qed.
Print Assumptions backward_viword.
Definition backward_ok (K : N -> nat) (s : list N) (i j : nat) : Prop :=
  last_before (word_start K s) i j
  \/ (j = 0 /\ (exists c, nth_error s 0 = Some c /\ K c = 0) /\ last_before (word_start K s) i 1 /\ word_start K s 1 /\ 1 < i).
Lemma but_first_ok K s i j : i <= length s -> prev_but_first K s i j -> backward_ok K s i j.
Proof.
  intros L [H|(A & B & C & D & E)]; [left; exact H|right]. split; [exact A|]. split; [|auto].
  exists (at_ s 0). split; [apply at_nth_error; lia|exact B].
Qed.
Theorem backward_words : forall W s i, w_ok W -> 0 < i -> i <= length s ->
  backward_ok (kind_big W) s i (prev_bigword W s i)
  /\ backward_ok (kind_semi W) s i (prev_semiword W s i)
  /\ backward_ok (kind_emacs W) s i (prev_emacsword W s i).
Proof.
  intros W s i OK P L. split; [|split]; apply but_first_ok; auto.
  - exact (prev_of_spec W Big s i OK P L).
  - exact (prev_of_spec W Semi s i OK P L).
  - apply (prev_loop_spec (alnum W) s i P L 3 i); lia.
Qed.
Print Assumptions backward_words.

(** The ASCII classes *)
Definition c_w : wclass :=
  mkW (fun c => (c =? 32)%N || (c =? 9)%N)
    (fun c => ((33 <=? c)%N && (c <=? 47)%N) || ((58 <=? c)%N && (c <=? 64)%N) || ((91 <=? c)%N && (c <=? 96)%N) || ((123 <=? c)%N && (c <=? 126)%N))
    (fun c => ((48 <=? c)%N && (c <=? 57)%N) || ((65 <=? c)%N && (c <=? 90)%N) || ((97 <=? c)%N && (c <=? 122)%N)).
Lemma c_w_ok : w_ok c_w.
Proof.
  constructor; try reflexivity. intros c H. cbn in *. apply orb_true_iff in H. rewrite !N.eqb_eq in H. destruct H; subst; reflexivity.
Qed.
(** In [ echo x] with one blank before the first word, going back from [x] twice does not
    stop at [echo]. *)
Theorem backward_word_refuted : exists W s i, w_ok W /\ 0 < i /\ i <= length s
  /\ ~ last_before (word_start (kind_big W) s) i (prev_bigword W s i).
Proof.
  exists c_w, (str " echo x"), 6. split; [apply c_w_ok|]. split; [lia|]. split; [cbn; lia|].
  assert (E : prev_bigword c_w (str " echo x") 6 = 0) by (vm_compute; reflexivity). rewrite E.
  assert (S1 : word_start (kind_big c_w) (str " echo x") 1).
  { exists (ch "e"). split; [reflexivity|]. split; [vm_compute; discriminate|]. intros j d J D. injection J as J. subst j. cbn in D. injection D as D. subst d. vm_compute. discriminate. }
  intros [(_ & _ & H)|(H & _)]; [apply (H 1 ltac:(lia) ltac:(lia) S1)|apply (H 1 ltac:(lia) S1)].
Qed.
Print Assumptions backward_word_refuted.

(** Going back as many words as forward leads back to the start of a word. *)
Lemma prev_next_start W k s i : w_ok W -> word_start (kind_of W k) s i ->
  word_start (kind_of W k) s (next_of W k s i) ->
  (k = Viw \/ 1 < i \/ exists c, nth_error s 0 = Some c /\ kind_of W k c <> 0) ->
  prev_of W k s (next_of W k s i) = i.
Proof.
  intros OK S SN EX. pose proof S as S'. apply start_at in S'. destruct S' as (L & _).
  destruct (next_of_spec W k s i OK ltac:(lia)) as [(A & _ & B)|(A & E)].
  2: { rewrite E in SN. apply start_at in SN. lia. }
  pose proof SN as SN'. apply start_at in SN'. destruct SN' as (L2 & _).
  assert (U : forall j, last_before (word_start (kind_of W k) s) (next_of W k s i) j -> j = i).
  { intros j [(J1 & J2 & J3)|(J1 & J2)]; [|exfalso; apply (J1 i A S)].
    destruct (Nat.lt_trichotomy j i) as [Q|[Q|Q]]; [exfalso; apply (J3 i Q A S)|exact Q|exfalso; apply (B j Q J1 J2)]. }
  pose proof (prev_of_spec W k s (next_of W k s i) OK ltac:(lia) ltac:(lia)) as P.
  destruct k; [| |apply U, P].
  - destruct P as [P|(P1 & P2 & P3 & _)]; [apply U, P|]. apply U in P3. subst i. exfalso.
    destruct EX as [EX|[EX|(c & C & Z)]]; [discriminate|lia|]. apply nth_error_at in C. destruct C as (C & _). congruence.
  - destruct P as [P|(P1 & P2 & P3 & _)]; [apply U, P|]. apply U in P3. subst i. exfalso.
    destruct EX as [EX|[EX|(c & C & Z)]]; [discriminate|lia|]. apply nth_error_at in C. destruct C as (C & _). congruence.
Qed.
Lemma backward_n_snoc prev s : forall n i, backward_n prev s (S n) i = (if 0 <? backward_n prev s n i then prev s (backward_n prev s n i) else backward_n prev s n i).
Proof.
  induction n as [|n IH]; intro i; [reflexivity|].
  change (backward_n prev s (S (S n)) i) with (if 0 <? i then backward_n prev s (S n) (prev s i) else i).
  change (backward_n prev s (S n) i) with (if 0 <? i then backward_n prev s n (prev s i) else i).
  destruct (Nat.ltb_spec 0 i) as [P|P]; [apply IH|]. destruct (Nat.ltb_spec 0 i); [lia|reflexivity].
Qed.
Theorem words_there_and_back : forall W k s n i, w_ok W ->
  word_start (kind_of W k) s i -> (k = Viw \/ 1 < i \/ exists c, nth_error s 0 = Some c /\ kind_of W k c <> 0) ->
  forward_n (next_of W k) s n i < length s ->
  backward_n (prev_of W k) s n (forward_n (next_of W k) s n i) = i.
Proof.
  intros W k s n. induction n as [|n IH]; intros i OK S EX LT; [reflexivity|].
  pose proof S as S'. apply start_at in S'. destruct S' as (L & _). cbn [forward_n] in *.
  destruct (Nat.ltb_spec i (length s)); [|lia].
  assert (LN : next_of W k s i < length s).
  { destruct (Nat.lt_ge_cases (next_of W k s i) (length s)) as [|G]; [assumption|]. exfalso.
    destruct n as [|n]; cbn [forward_n] in LT; [lia|]. destruct (Nat.ltb_spec (next_of W k s i) (length s)); lia. }
  destruct (next_of_spec W k s i OK ltac:(lia)) as [(A & B & _)|(_ & E)]; [|lia].
  rewrite backward_n_snoc, (IH (next_of W k s i) OK B); [|destruct EX as [EX|[EX|EX]]; [left; exact EX|right; left; lia|right; right; exact EX]|exact LT].
  destruct (Nat.ltb_spec 0 (next_of W k s i)); [|lia]. apply prev_next_start; assumption.
Qed.
Print Assumptions words_there_and_back.

(** [cw] on a word goes to the end of the word, without passing it. *)
Theorem change_word_end : forall W k s i, w_ok W -> (exists c, nth_error s i = Some c /\ kind_of W k c <> 0) ->
  let e := end_of W k s i false in
  i <= e /\ word_end (kind_of W k) s e /\ forall j, i <= j -> j < e -> ~ word_end (kind_of W k) s j.
Proof.
  intros W k s i OK (c & C & Z). apply nth_error_at in C. destruct C as (<- & L). cbv zeta.
  assert (G : forall K b, i < b -> b <= length s -> (forall q, i <= q -> q < b -> K (at_ s q) = K (at_ s i)) -> K (at_ s i) <> 0 ->
      (b < length s -> K (at_ s b) <> K (at_ s i)) ->
      i <= b - 1 /\ word_end K s (b - 1) /\ forall j, i <= j -> j < b - 1 -> ~ word_end K s j).
  { intros K b B1 B2 B3 B4 B5. split; [lia|]. split.
    - apply end_at. split; [lia|]. rewrite (B3 (b - 1)) by lia. split; [exact B4|]. replace (S (b - 1)) with b by lia.
      destruct (Nat.eq_dec b (length s)); [left; assumption|right; apply B5; lia].
    - intros j J1 J2 E. apply end_at in E. destruct E as (_ & _ & [E|E]); [lia|]. rewrite (B3 (S j)), (B3 j) in E by lia. congruence. }
  assert (T : forall w, w (at_ s i) = true -> let e := end_loop w false i s 3 i in
      i <= e /\ word_end (kp w) s e /\ forall j, i <= j -> j < e -> ~ word_end (kp w) s j).
  { intros w WI. cbv zeta. cbn [end_loop]. destruct (Nat.leb_spec (length s) i); [lia|]. rewrite orb_true_r.
    assert (A : fwd (notp w) s i = i).
    { destruct (fwd_spec (notp w) s i ltac:(lia)) as ((A1 & A2) & A3 & _). destruct (Nat.eq_dec (fwd (notp w) s i) i) as [|N]; [assumption|].
      specialize (A3 i ltac:(lia) ltac:(lia)). unfold notp in A3. rewrite WI in A3. discriminate. }
    rewrite A. destruct (fwd_spec w s i ltac:(lia)) as ((B1 & B2) & B3 & B4). apply G; auto.
    - destruct (Nat.eq_dec (fwd w s i) i) as [Q|]; [|lia]. rewrite Q in B4. rewrite (B4 ltac:(lia)) in WI. discriminate.
    - intros q Q1 Q2. apply kp_eq. rewrite (B3 q), WI by lia. reflexivity.
    - apply kp_nz, WI.
    - intro Q. rewrite kp_eq, (B4 Q), WI. discriminate. }
  destruct k; cbn [kind_of end_of] in *.
  - destruct (T (bigchar W)) as (T1 & T2 & T3).
    { apply kp_nz. rewrite kp_big. exact Z. }
    split; [exact T1|]. split; [eapply word_end_ext; [|exact T2]; intro; symmetry; apply kp_big|].
    intros j J1 J2 E. apply (T3 j J1 J2). eapply word_end_ext; [|exact E]. apply kp_big.
  - destruct (T (semichar W)) as (T1 & T2 & T3).
    { apply kp_nz. rewrite kp_semi. exact Z. }
    split; [exact T1|]. split; [eapply word_end_ext; [|exact T2]; intro; symmetry; apply kp_semi|].
    intros j J1 J2 E. apply (T3 j J1 J2). eapply word_end_ext; [|exact E]. apply kp_semi.
  - unfold next_end_viword. cbn [vi_end_loop]. assert (NB : blank W (at_ s i) = false).
    { destruct (blank W (at_ s i)) eqn:B; [|reflexivity]. apply blank_kind in B. contradiction. }
    assert (A : fwd (blank W) s i = i).
    { destruct (fwd_spec (blank W) s i ltac:(lia)) as ((A1 & A2) & A3 & _). destruct (Nat.eq_dec (fwd (blank W) s i) i) as [|N]; [assumption|].
      rewrite (A3 i ltac:(lia) ltac:(lia)) in NB. discriminate. }
    rewrite A. destruct (Nat.leb_spec (length s) i); [lia|]. rewrite orb_true_r.
    set (p := if vichar W (at_ s i) then vichar W else viother W).
    assert (PK : forall c, p c = true <-> kind_vi W c = kind_vi W (at_ s i)).
    { intros c. subst p. destruct (vichar W (at_ s i)) eqn:V.
      - rewrite (vichar_kind W c OK). apply (vichar_kind W _ OK) in V. rewrite V. reflexivity.
      - rewrite viother_kind. destruct (kind_vi_cases W (at_ s i)) as [Q|[Q|Q]]; [contradiction|apply (vichar_kind W _ OK) in Q; congruence|rewrite Q; reflexivity]. }
    assert (E : (if vichar W (at_ s i) then fwd (vichar W) s (S i) else fwd (viother W) s (S i)) = fwd p s (S i)) by (subst p; destruct (vichar W (at_ s i)); reflexivity).
    rewrite E. destruct (fwd_spec p s (S i) L) as ((B1 & B2) & B3 & B4). apply G; auto.
    + intros q Q1 Q2. destruct (Nat.eq_dec q i) as [->|]; [reflexivity|]. apply PK, B3; lia.
    + intros Q X. apply PK in X. rewrite (B4 Q) in X. discriminate.
Qed.
Print Assumptions change_word_end.

(** * Finding characters *)
Lemma occ_cons c d l : occurrences c (d :: l) = (if (d =? c)%N then 1 else 0) + occurrences c l.
Proof. unfold occurrences. cbn [filter]. rewrite (N.eqb_sym c d). destruct (d =? c)%N; reflexivity. Qed.
Lemma occ_app c l m : occurrences c (l ++ m) = occurrences c l + occurrences c m.
Proof. unfold occurrences. rewrite filter_app, app_length. reflexivity. Qed.
Lemma find_fwd_spec c : forall l n i,
  match find_fwd c n l i with
  | Some j => i <= j /\ j - i <= length l /\ occurrences c (firstn (j - i) l) = n /\ (0 < n -> i < j /\ nth_error l (j - i - 1) = Some c)
  | None => occurrences c l < n
  end.
Proof.
  induction l as [|d l IH]; intros [|n] i; cbn [find_fwd].
  - rewrite Nat.sub_diag. cbn. repeat split; lia.
  - cbn. lia.
  - rewrite Nat.sub_diag. cbn. repeat split; lia.
  - rewrite occ_cons. destruct (N.eqb_spec d c) as [->|N].
    + destruct n as [|n].
      * assert (E : find_fwd c 0 l (S i) = Some (S i)) by (destruct l; reflexivity). rewrite E.
        replace (S i - i) with 1 by lia. cbn [firstn length]. rewrite occ_cons, N.eqb_refl. repeat split; cbn; lia.
      * specialize (IH (S n) (S i)). destruct (find_fwd c (S n) l (S i)) as [j|]; [|lia]. destruct IH as (A & L & B & C).
        destruct (C ltac:(lia)) as (C1 & C2).
        replace (j - i) with (S (j - S i)) by lia. cbn [firstn length]. rewrite occ_cons, N.eqb_refl, B. repeat split; try lia.
        cbn. rewrite Nat.sub_0_r. destruct (j - S i) as [|q] eqn:Q; [lia|]. cbn. replace (S q - 1) with q in C2 by lia. exact C2.
    + specialize (IH (S n) (S i)). destruct (find_fwd c (S n) l (S i)) as [j|]; [|lia]. destruct IH as (A & L & B & C). destruct (C ltac:(lia)) as (C1 & C2).
      replace (j - i) with (S (j - S i)) by lia. cbn [firstn length]. rewrite occ_cons. destruct (N.eqb_spec d c); [contradiction|]. repeat split; try lia.
      cbn. rewrite Nat.sub_0_r. destruct (j - S i) as [|q] eqn:Q; [lia|]. cbn. replace (S q - 1) with q in C2 by lia. exact C2.
Qed.
Lemma firstn_skipn_step (s : list N) j i : j < i -> i <= length s -> firstn (i - j) (skipn j s) = at_ s j :: firstn (i - S j) (skipn (S j) s).
Proof.
  intros H L. assert (E : skipn j s = at_ s j :: skipn (S j) s).
  { assert (J : j < length s) by lia. clear - J. revert j J. induction s as [|c s IH]; intros j J; [cbn in J; lia|].
    destruct j as [|j]; [reflexivity|]. cbn in J. cbn [skipn]. rewrite IH by lia. reflexivity. }
  rewrite E. replace (i - j) with (S (i - S j)) by lia. reflexivity.
Qed.
Lemma find_back_spec c s i0 : i0 <= length s -> forall i n m, i <= i0 -> occurrences c (firstn (i0 - i) (skipn i s)) = m ->
  match find_back c s n i with
  | Some j => j <= i /\ occurrences c (firstn (i0 - j) (skipn j s)) = m + n /\ (0 < n -> j < i /\ nth_error s j = Some c)
  | None => occurrences c (firstn i0 s) < m + n
  end.
Proof.
  intro L. induction i as [|i IH]; intros [|n] m LI M; cbn [find_back].
  - rewrite Nat.add_0_r. split; [lia|]. split; [exact M|lia].
  - rewrite Nat.sub_0_r in M. cbn [skipn] in M. lia.
  - rewrite Nat.add_0_r. split; [lia|]. split; [exact M|lia].
  - destruct (N.eqb_spec (at_ s i) c) as [E|N].
    + assert (M2 : occurrences c (firstn (i0 - i) (skipn i s)) = S m).
      { rewrite firstn_skipn_step, occ_cons, E, N.eqb_refl, M by lia. reflexivity. }
      specialize (IH n (S m) ltac:(lia) M2). destruct (find_back c s n i) as [j|] eqn:F; [|lia]. destruct IH as (A & B & C).
      split; [lia|]. split; [lia|]. intros _. split; [lia|]. destruct n as [|n]; [|apply C; lia].
      assert (X : find_back c s 0 i = Some i) by (destruct i; reflexivity). rewrite X in F. injection F as <-. rewrite <- E. apply at_nth_error. lia.
    + assert (M2 : occurrences c (firstn (i0 - i) (skipn i s)) = m).
      { rewrite firstn_skipn_step, occ_cons by lia. destruct (N.eqb_spec (at_ s i) c); [contradiction|]. rewrite M. reflexivity. }
      specialize (IH (S n) m ltac:(lia) M2). destruct (find_back c s (S n) i) as [j|]; [|exact IH]. destruct IH as (A & B & C).
      split; [lia|]. split; [exact B|]. intros H. destruct (C H). split; [lia|assumption].
Qed.
(** [f] finds the [n]th occurrence after the cursor, [F] the one before it; [t] and [T] stop
    next to it on the side of the cursor. *)
Theorem find_char_exact : forall W v p cw c n s i, c <> 0%N -> 0 < n -> i <= length s ->
  match move W v p cw (Some (Z.of_nat n)) (MFind c) s i with
  | Some j => i < j /\ nth_error s j = Some c /\ occurrences c (firstn (j - i) (skipn (S i) s)) = n
  | None => occurrences c (skipn (S i) s) < n
  end
  /\ move W v p cw (Some (Z.of_nat n)) (MTill c) s i = option_map (fun j => j - 1) (move W v p cw (Some (Z.of_nat n)) (MFind c) s i).
Proof.
  intros W v p cw c n s i C0 N0 L. unfold move, exec_find, find_nth.
  destruct (Z.eqb_spec (Z.of_nat n) 0); [lia|]. destruct (N.eqb_spec c 0); [contradiction|]. destruct (Z.leb_spec 0 (Z.of_nat n)); [|lia]. rewrite Nat2Z.id.
  pose proof (find_fwd_spec c (skipn (S i) s) n i) as F. destruct (find_fwd c n (skipn (S i) s) i) as [j|]; [|split; [exact F|reflexivity]].
  destruct F as (A & _ & B & D). destruct (D N0) as (D1 & D2). split.
  - split; [exact D1|]. split; [|exact B]. apply nth_error_at in D2. destruct D2 as (D2 & D3). rewrite skipn_length in D3.
    unfold at_ in D2 at 1. rewrite nth_skipn_at in D2. replace (S i + (j - i - 1)) with j in D2 by lia. rewrite <- D2. apply at_nth_error. lia.
  - destruct (Nat.leb_spec i j); [|lia]. destruct (Nat.eqb_spec j 0); [lia|]. reflexivity.
Qed.
Print Assumptions find_char_exact.
Theorem find_char_rev_exact : forall W v p cw c n s i, c <> 0%N -> 0 < n -> i <= length s ->
  match move W v p cw (Some (Z.of_nat n)) (MFindRev c) s i with
  | Some j => j < i /\ nth_error s j = Some c /\ occurrences c (firstn (i - j) (skipn j s)) = n
  | None => occurrences c (firstn i s) < n
  end
  /\ move W v p cw (Some (Z.of_nat n)) (MTillRev c) s i = option_map S (move W v p cw (Some (Z.of_nat n)) (MFindRev c) s i).
Proof.
  intros W v p cw c n s i C0 N0 L. unfold move, exec_find, find_nth.
  destruct (Z.eqb_spec (- Z.of_nat n) 0); [lia|]. destruct (N.eqb_spec c 0); [contradiction|]. destruct (Z.leb_spec 0 (- Z.of_nat n)); [lia|].
  rewrite Z.opp_involutive, Nat2Z.id.
  pose proof (find_back_spec c s i L i n 0 (le_n i)) as F. rewrite Nat.sub_diag in F. specialize (F eq_refl).
  destruct (find_back c s n i) as [j|]; [|split; [exact F|reflexivity]].
  destruct F as (A & B & D). destruct (D N0) as (D1 & D2). split; [auto|].
  destruct (Nat.leb_spec i j); [lia|]. destruct (Nat.eqb_spec j (length s)); [lia|]. reflexivity.
Qed.
Print Assumptions find_char_rev_exact.

(** * All motions lead to an index of the line or its end. *)
Lemma end_false_le W k s i : w_ok W -> i < length s -> end_of W k s i false <= length s.
Proof.
  intros OK L.
  assert (T : forall w, end_loop w false i s 3 i <= length s).
  { intro w. cbn [end_loop]. destruct (Nat.leb_spec (length s) i); [lia|]. rewrite orb_true_r.
    destruct (fwd_spec (notp w) s i ltac:(lia)) as ((A1 & A2) & _). destruct (fwd_spec w s _ A2) as ((B1 & B2) & _). lia. }
  destruct k; cbn [end_of]; [apply T|apply T|]. unfold next_end_viword. cbn [vi_end_loop].
  destruct (fwd_spec (blank W) s i ltac:(lia)) as ((A1 & A2) & _). destruct (Nat.leb_spec (length s) (fwd (blank W) s i)); [exact A2|]. rewrite orb_true_r.
  destruct (fwd_spec (vichar W) s (S (fwd (blank W) s i)) ltac:(lia)) as ((B1 & B2) & _).
  destruct (fwd_spec (viother W) s (S (fwd (blank W) s i)) ltac:(lia)) as ((C1 & C2) & _).
  destruct (vichar W (at_ s (fwd (blank W) s i))); lia.
Qed.
Lemma first_end_le K s i d j : d <= length s -> first_after (word_end K s) i d j -> j <= length s.
Proof. intros D [(A & B & _)|(_ & ->)]; [apply end_at in B; lia|exact D]. Qed.
Lemma exec_find_le c n till s i j : i <= length s -> exec_find c n till s i = Some j -> j <= length s.
Proof.
  intros L H. unfold exec_find in H. destruct (find_nth c n s i) as [q|] eqn:F; [|discriminate].
  assert (QL : q <= length s).
  { unfold find_nth in F. destruct (n =? 0)%Z; [injection F as <-; exact L|]. destruct (c =? 0)%N; [discriminate|]. destruct (0 <=? n)%Z.
    - pose proof (find_fwd_spec c (skipn (S i) s) (Z.to_nat n) i) as X. rewrite F in X. destruct X as (A & B & _). rewrite skipn_length in B. lia.
    - pose proof (find_back_spec c s i L i (Z.to_nat (- n)) 0 (le_n i)) as X. rewrite Nat.sub_diag in X. specialize (X eq_refl). rewrite F in X. lia. }
  destruct till; [|injection H as <-; exact QL]. destruct (i <=? q).
  - destruct (q =? 0); [discriminate|]. injection H as <-. lia.
  - destruct (Nat.eqb_spec q (length s)); [discriminate|]. injection H as <-. lia.
Qed.
Theorem motions_inside : forall W vicmd pending cw count m s i j, w_ok W -> i <= length s ->
  move W vicmd pending cw count m s i = Some j -> j <= length s.
Proof.
  intros W vicmd pending cw count m s i j OK L H. unfold move in H.
  set (n := match count with Some n => n | None => 1%Z end) in H.
  assert (FN : forall k q i, i <= length s -> forward_n (next_of W k) s q i <= length s).
  { intros k q x X. apply forward_n_le; [|exact X]. intros y Y. eapply first_start_le; [|apply next_of_spec; [exact OK|lia]]. lia. }
  assert (WF : forall k q, (if cw && negb (blank W (at_ s i)) then cw_n (next_of W k) (end_of W k) s q i else forward_n (next_of W k) s q i) <= length s).
  { intros k q. destruct (cw && negb (blank W (at_ s i))); [|apply FN, L]. unfold cw_n.
    destruct (Nat.ltb_spec (forward_n (next_of W k) s (q - 1) i) (length s)) as [G|G]; [|rewrite andb_false_r; apply FN, L].
    destruct (0 <? q); cbn [andb]; [apply end_false_le; assumption|lia]. }
  assert (WB : forall k q, backward_n (prev_of W k) s q i <= length s).
  { intros k q. etransitivity; [|exact L]. apply backward_n_le; [|exact L]. intros y Y1 Y2.
    pose proof (prev_of_spec W k s y OK Y1 Y2) as P. destruct k; [destruct P as [P|(-> & _)]; [eapply last_before_le; eauto|lia]|destruct P as [P|(-> & _)]; [eapply last_before_le; eauto|lia]|eapply last_before_le; eauto]. }
  assert (EF : forall q, forward_n (next_emacsword W) s q i <= length s).
  { intro q. apply forward_n_le; [|exact L]. intros y Y. destruct (forward_emacsword W s y Y) as [(_ & (A & B) & _)|(_ & ->)]; [|lia]. apply end_at in B. lia. }
  assert (EB : forall q, backward_n (prev_emacsword W) s q i <= length s).
  { intro q. etransitivity; [|exact L]. apply backward_n_le; [|exact L]. intros y Y1 Y2.
    destruct (backward_words W s y OK Y1 Y2) as (_ & _ & [P|(-> & _)]); [eapply last_before_le; eauto|lia]. }
  assert (CF : forall q, char_fwd s q i <= length s) by (intro q; unfold char_fwd; destruct (Nat.ltb_spec (length s - i) q); lia).
  assert (CB : forall q, char_back q i <= length s) by (intro q; unfold char_back; destruct (Nat.leb_spec i q); lia).
  destruct m.
  - destruct (0 <=? n)%Z; [destruct (at_last vicmd pending s i)|destruct (i =? 0)]; inversion H; auto.
  - destruct (0 <=? n)%Z; [destruct (i =? 0)|destruct (at_last vicmd pending s i)]; inversion H; auto.
  - destruct (0 <=? n)%Z; [destruct (at_last vicmd pending s i)|destruct (i =? 0)]; inversion H; auto.
  - destruct (0 <=? n)%Z; [destruct (i =? 0)|destruct (at_last vicmd pending s i)]; inversion H; auto.
  - destruct (at_last vicmd pending s i); [discriminate|]. inversion H. unfold end_n. apply forward_n_le; [|exact L].
    intros y Y. eapply first_end_le; [|apply (end_of_word W k s y OK Y)]. destruct k; lia.
  - destruct (0 <=? n)%Z; inversion H; auto.
  - destruct (0 <=? n)%Z; inversion H; auto.
  - inversion H. lia.
  - inversion H. lia.
  - inversion H. unfold column. destruct (0 <=? _)%Z; [lia|]. destruct (_ <? _)%Z; lia.
  - inversion H. apply (fwd_spec (blank W) s 0). lia.
  - apply (exec_find_le _ _ _ _ _ _ L H).
  - apply (exec_find_le _ _ _ _ _ _ L H).
  - apply (exec_find_le _ _ _ _ _ _ L H).
  - apply (exec_find_le _ _ _ _ _ _ L H).
Qed.
Print Assumptions motions_inside.
(** Characters: exactly [n] of them, as far as the line goes *)
Theorem char_motions : forall s n i, i <= length s ->
  char_fwd s n i = Nat.min (length s) (i + n) /\ char_back n i = i - n.
Proof.
  intros s n i L. unfold char_fwd, char_back. destruct (Nat.ltb_spec (length s - i) n), (Nat.leb_spec i n); lia.
Qed.
Print Assumptions char_motions.

(** * The commands *)
(** Without a count, the commands for words go by one word. *)
Theorem word_commands : forall W v p k s i j, w_ok W -> i < length s ->
  (move W v p false None (MWord k) s i = Some j -> first_after (word_start (kind_of W k) s) i (length s) j)
  /\ (move W v p false None (MEnd k) s i = Some j ->
      first_after (word_end (kind_of W k) s) i (match k with Viw => length s | _ => Nat.max (S i) (length s - 1) end) j)
  /\ (move W v p false None (MWordBack k) s i = Some j ->
      last_before (word_start (kind_of W k) s) i j \/ (k <> Viw /\ backward_ok (kind_of W k) s i j))
  /\ (move W v p false None MEmacs s i = Some j -> first_after (fun k => 0 < k /\ word_end (kind_emacs W) s (k - 1)) i (length s) j)
  /\ (0 < i -> move W v p false None MEmacsBack s i = Some j -> backward_ok (kind_emacs W) s i j).
Proof.
  intros W v p k s i j OK L.
  assert (N1 : forall nx, forward_n nx s 1 i = nx s i) by (intro nx; cbn [forward_n]; destruct (Nat.ltb_spec i (length s)); [reflexivity|lia]).
  unfold move. change (0 <=? 1)%Z with true. change (Z.to_nat 1) with 1. cbn [andb negb]. unfold end_n. rewrite !N1.
  split; [|split; [|split; [|split]]].
  - destruct (at_last v p s i); [discriminate|]. intro H. injection H as <-. apply forward_word; [exact OK|lia].
  - destruct (at_last v p s i); [discriminate|]. intro H. injection H as <-. apply end_of_word; assumption.
  - destruct (Nat.eqb_spec i 0); [discriminate|]. intro H. injection H as <-. cbn [backward_n]. destruct (Nat.ltb_spec 0 i); [|lia].
    destruct k; [right; split; [discriminate|]; apply (backward_words W s i OK); lia|right; split; [discriminate|]; apply (backward_words W s i OK); lia|].
    left. apply backward_viword; [exact OK|lia|lia].
  - intro H. injection H as <-. apply forward_emacsword. exact L.
  - intros P H. injection H as <-. cbn [backward_n]. destruct (Nat.ltb_spec 0 i); [|lia]. apply (backward_words W s i OK); lia.
Qed.
Print Assumptions word_commands.
(** [cw] on a word goes to its end; on a blank it is like [dw]. *)
Theorem cw_command : forall W v p k s i j, w_ok W -> i < length s -> move W v p true None (MWord k) s i = Some j ->
  (forall c, nth_error s i = Some c -> kind_of W k c <> 0 ->
     i <= j /\ word_end (kind_of W k) s j /\ forall q, i <= q -> q < j -> ~ word_end (kind_of W k) s q)
  /\ (forall c, nth_error s i = Some c -> blank W c = true -> move W v p false None (MWord k) s i = Some j).
Proof.
  intros W v p k s i j OK L. unfold move. change (0 <=? 1)%Z with true. change (Z.to_nat 1) with 1.
  destruct (at_last v p s i); [discriminate|]. cbn [andb]. intro H. injection H as H. split; intros c C Z.
  - pose proof C as C0. apply nth_error_at in C0. destruct C0 as (C0 & _). rewrite C0 in H.
    assert (B : blank W c = false).
    { destruct (blank W c) eqn:B; [|reflexivity]. exfalso. apply Z. destruct k; cbn; unfold kind_big, kind_semi, kind_vi; rewrite B; reflexivity. }
    rewrite B in H. cbn [negb] in H. unfold cw_n in H. change (1 - 1) with 0 in H. cbn [forward_n] in H.
    change (0 <? 1) with true in H. cbn [andb] in H. destruct (Nat.ltb_spec i (length s)); [|lia].
    rewrite <- H. apply (change_word_end W k s i OK). eauto.
  - apply nth_error_at in C. destruct C as (C & _). rewrite C, Z in H. cbn [negb] in H. f_equal. exact H.
Qed.
Print Assumptions cw_command.
(** A command with a count [n + m] is the command with [n] and then with [m]. *)
Theorem counts_add : forall f s n m i,
  forward_n f s (n + m) i = forward_n f s m (forward_n f s n i) /\ backward_n f s (n + m) i = backward_n f s m (backward_n f s n i).
Proof.
  intros f s n m. induction n as [|n IH]; intro i; [split; reflexivity|].
  cbn [Nat.add forward_n backward_n]. destruct (Nat.ltb_spec i (length s)), (Nat.ltb_spec 0 i); split; try apply IH.
  all: destruct m; [reflexivity|]; cbn [forward_n backward_n].
  all: try (destruct (Nat.ltb_spec i (length s)); [lia|reflexivity]).
  all: destruct (Nat.ltb_spec 0 i); [lia|reflexivity].
Qed.
Print Assumptions counts_add.
Theorem word_counts_add : forall W v p k s n m i j q, w_ok W -> 0 < n -> 0 < m -> i <= length s ->
  (move W v p false (Some (Z.of_nat n)) (MWord k) s i = Some j -> move W v p false (Some (Z.of_nat m)) (MWord k) s j = Some q ->
   move W v p false (Some (Z.of_nat (n + m))) (MWord k) s i = Some q)
  /\ (move W v p false (Some (Z.of_nat n)) (MWordBack k) s i = Some j -> move W v p false (Some (Z.of_nat m)) (MWordBack k) s j = Some q ->
   move W v p false (Some (Z.of_nat (n + m))) (MWordBack k) s i = Some q)
  /\ (move W v p false (Some (Z.of_nat n)) (MEnd k) s i = Some j -> move W v p false (Some (Z.of_nat m)) (MEnd k) s j = Some q ->
   move W v p false (Some (Z.of_nat (n + m))) (MEnd k) s i = Some q).
Proof.
  intros W v p k s n m i j q OK N M L. unfold move.
  repeat match goal with |- context [(0 <=? Z.of_nat ?x)%Z] => replace (0 <=? Z.of_nat x)%Z with true by (symmetry; apply Z.leb_le; lia) end.
  rewrite !Nat2Z.id. cbn [andb].
  split; [|split].
  - destruct (at_last v p s i); [discriminate|]. intros H. injection H as <-. destruct (at_last v p s _); [discriminate|]. intro H. injection H as <-.
    f_equal. apply counts_add.
  - destruct (i =? 0); [discriminate|]. intros H. injection H as <-. destruct (_ =? 0); [discriminate|]. intro H. injection H as <-.
    f_equal. apply counts_add.
  - destruct (at_last v p s i); [discriminate|]. intros H. injection H as <-. destruct (at_last v p s _); [discriminate|]. intro H. injection H as <-.
    f_equal. unfold end_n. apply counts_add.
Qed.
Print Assumptions word_counts_add.
(** Forward and backward commands with opposite counts do the same. *)
Definition opposite (m : motion) : option motion :=
  match m with
  | MChar => Some MCharBack | MWord k => Some (MWordBack k) | MEmacs => Some MEmacsBack
  | MFind c => Some (MFindRev c) | MTill c => Some (MTillRev c)
  | _ => None
  end.
Theorem negative_counts : forall W v p cw n m m' s i, n <> 0%Z -> opposite m = Some m' ->
  move W v p cw (Some n) m s i = move W v p cw (Some (- n)%Z) m' s i.
Proof.
  intros W v p cw n m m' s i N O. destruct m; try discriminate; injection O as <-; unfold move;
    rewrite ?Z.opp_involutive; try reflexivity; destruct (Z.leb_spec 0 n), (Z.leb_spec 0 (- n)); try lia; reflexivity.
Qed.
Print Assumptions negative_counts.
(** A motion by characters or words moves the cursor or alerts; it alerts only if there is
    nothing in its direction: at the end of the line or, in the vi command mode without a
    command pending, on the last character. *)
Theorem motion_progress : forall W v p n m s i, w_ok W -> 0 < n -> i < length s ->
  (match m with MChar | MWord _ | MEnd _ => True | _ => False end ->
   match move W v p false (Some (Z.of_nat n)) m s i with
   | Some j => i < j
   | None => v = true /\ p = false /\ length s = S i
   end)
  /\ (match m with MCharBack | MWordBack _ => True | _ => False end ->
   match move W v p false (Some (Z.of_nat n)) m s i with Some j => j < i | None => i = 0 end).
Proof.
  intros W v p n m s i OK N L. destruct n as [|n]; [lia|].
  assert (AL : at_last v p s i = true -> v = true /\ p = false /\ length s = S i).
  { unfold at_last. destruct v; [destruct p; [discriminate|]|]; rewrite Nat.leb_le; lia. }
  assert (FW : forall f, (forall y, i <= y -> y < length s -> y < f s y) -> i < forward_n f s (S n) i).
  { intros f F. cbn [forward_n]. destruct (Nat.ltb_spec i (length s)); [|lia].
    assert (G : forall u y, i < y -> i < forward_n f s u y).
    { induction u as [|u IH]; intros y Y; [exact Y|]. cbn [forward_n]. destruct (Nat.ltb_spec y (length s)) as [Y2|]; [|exact Y]. apply IH. specialize (F y ltac:(lia) Y2). lia. }
    apply G, F; lia. }
  assert (NX : forall k y, y < length s -> y < next_of W k s y).
  { intros k y Y. destruct (forward_word W k s y OK ltac:(lia)) as [(A & _)|(_ & ->)]; lia. }
  assert (EX : forall k y, y < length s -> y < end_of W k s y true).
  { intros k y Y. destruct (end_of_word W k s y OK Y) as [(A & _)|(_ & ->)]; [lia|]. destruct k; lia. }
  assert (PV : forall k y, 0 < y -> y <= length s -> prev_of W k s y < y).
  { intros k y Y1 Y2. pose proof (prev_of_spec W k s y OK Y1 Y2) as P. destruct k; [destruct P as [[(A & _)|(_ & ->)]|(-> & _)]; lia..|destruct P as [(A & _)|(_ & ->)]; lia]. }
  assert (BW : forall k, 0 < i -> backward_n (prev_of W k) s (S n) i < i).
  { intros k P. cbn [backward_n]. destruct (Nat.ltb_spec 0 i); [|lia].
    assert (G : forall u y, y < i -> backward_n (prev_of W k) s u y < i).
    { induction u as [|u IH]; intros y Y; [exact Y|]. cbn [backward_n]. destruct (Nat.ltb_spec 0 y) as [Y2|]; [|exact Y]. apply IH. specialize (PV k y Y2 ltac:(lia)). lia. }
    apply G, PV; lia. }
  assert (Z0 : (0 <=? Z.of_nat (S n))%Z = true) by (apply Z.leb_le; lia).
  split; intro M; destruct m; try contradiction; unfold move; rewrite ?Z0, ?Nat2Z.id; cbn [andb].
  - destruct (at_last v p s i); [auto|]. destruct (char_motions s (S n) i ltac:(lia)) as (-> & _). lia.
  - destruct (at_last v p s i); [auto|]. apply FW. intros; apply NX; lia.
  - destruct (at_last v p s i); [auto|]. apply (FW (fun s i => end_of W k s i true)). intros; apply EX; lia.
  - destruct (Nat.eqb_spec i 0); [assumption|]. destruct (char_motions s (S n) i ltac:(lia)) as (_ & ->). lia.
  - destruct (Nat.eqb_spec i 0); [assumption|]. apply BW. lia.
Qed.
Print Assumptions motion_progress.
(** Columns count from 1; negative ones count from the end of the line. *)
Theorem column_command : forall W v p cw s i n,
  move W v p cw (Some (Z.of_nat (S n))) MColumn s i = Some (Nat.min n (length s))
  /\ move W v p cw (Some (- Z.of_nat (S n)))%Z MColumn s i = Some (length s - S n)
  /\ move W v p cw None MColumn s i = Some 0.
Proof.
  intros W v p cw s i n. unfold move, column. split; [|split]; f_equal.
  - destruct (Z.leb_spec 0 (Z.of_nat (S n))); [|lia]. rewrite Nat2Z.id. cbn. rewrite Nat.sub_0_r. reflexivity.
  - destruct (Z.leb_spec 0 (- Z.of_nat (S n))); [lia|]. rewrite Z.opp_involutive, Nat2Z.id. destruct (Z.ltb_spec (Z.of_nat (length s)) (Z.of_nat (S n))); lia.
Qed.
Print Assumptions column_command.
(** The first nonblank character: all before it are blanks. *)
Theorem first_nonblank : forall W v p cw n s i j, w_ok W -> move W v p cw n MNonblank s i = Some j ->
  (forall q c, q < j -> nth_error s q = Some c -> blank W c = true)
  /\ (j = length s \/ exists c, nth_error s j = Some c /\ blank W c = false).
Proof.
  intros W v p cw n s i j OK H. unfold move in H. injection H as <-.
  destruct (fwd_spec (blank W) s 0 ltac:(lia)) as ((A & B) & C & D). split.
  - intros q c Q E. apply nth_error_at in E. destruct E as (<- & _). apply C; lia.
  - destruct (Nat.eq_dec (fwd (blank W) s 0) (length s)) as [|X]; [left; assumption|right].
    exists (at_ s (fwd (blank W) s 0)). split; [apply at_nth_error; lia|apply D; lia].
Qed.
Print Assumptions first_nonblank.

(** * Examples *)
Definition line := str "  foo-bar  x_1 ;; end ".
Example ex_vi : map (next_viword c_w line) [0; 2; 5; 6; 11; 15; 18] = [2; 5; 6; 11; 15; 18; 22]
  /\ map (prev_viword c_w line) [2; 3; 6; 11; 15; 22] = [0; 2; 5; 6; 11; 18].
Proof. vm_compute. auto. Qed.
Example ex_big : map (next_bigword c_w line) [0; 2; 11] = [2; 11; 15] /\ map (prev_bigword c_w line) [2; 11; 12] = [0; 2; 11]
  /\ map (fun i => next_end_bigword c_w line i true) [0; 8; 20; 21] = [8; 13; 21; 22].
Proof. vm_compute. auto. Qed.
Example ex_back : forward_n (next_of c_w Viw) line 4 2 = 15 /\ backward_n (prev_of c_w Viw) line 4 15 = 2.
Proof. vm_compute. auto. Qed.
Example ex_start : word_start (kind_of c_w Viw) line 2.
Proof. exists (ch "f"). split; [reflexivity|]. split; [vm_compute; discriminate|]. intros j d J D. injection J as <-. cbn in D. injection D as <-. vm_compute. discriminate. Qed.
Example ex_find : exec_find (ch "o") 2 false line 1 = Some 4 /\ exec_find (ch "o") (-1) true line 8 = Some 5 /\ exec_find (ch "o") 3 false line 1 = None.
Proof. vm_compute. auto. Qed.
Example ex_cw : move c_w true true true None (MWord Viw) line 2 = Some 4 /\ move c_w true true false None (MWord Viw) line 2 = Some 5
  /\ move c_w true false false None MChar line 21 = None /\ move c_w false false false (Some (-2)%Z) MColumn line 3 = Some 20.
Proof. vm_compute. auto. Qed.
