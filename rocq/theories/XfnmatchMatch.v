(** Proofs about pattern matching: searching for a match. *)
From Coq Require Import Ascii String.
From Coq Require Import List NArith ZArith Bool Arith Lia.
From Verif Require Import Common Regex XfnmatchModel XfnmatchSpec XfnmatchProofs.
Import ListNotations.
Open Scope res_scope.

(** ** Lists *)
Lemma skipn_add {A} (l : list A) i j : skipn i (skipn j l) = skipn (j + i) l.
Proof. revert l. induction j as [|j IH]; intros l; [reflexivity|]. destruct l; [now rewrite !skipn_nil|]. cbn. apply IH. Qed.
Lemma substr_0 s j : substr s 0 j = firstn j s.
Proof. unfold substr. now rewrite Nat.sub_0_r. Qed.
Lemma substr_end s i : substr s i (length s) = skipn i s.
Proof. unfold substr. apply firstn_all2. rewrite skipn_length. lia. Qed.
Lemma substr_skipn s i a b : substr (skipn i s) a b = substr s (a + i) (b + i).
Proof. unfold substr. rewrite skipn_add. f_equal; [lia|]. f_equal. lia. Qed.
Lemma substr_firstn s n a b : b <= n -> substr (firstn n s) a b = substr s a b.
Proof.
  intros H. unfold substr. rewrite skipn_firstn_comm. rewrite firstn_firstn. f_equal. lia.
Qed.
Lemma substr_length s i j : i <= j -> j <= length s -> length (substr s i j) = j - i.
Proof. intros. unfold substr. rewrite firstn_length, skipn_length. lia. Qed.

(** ** The parse of a pattern is unique. *)
Lemma gparses_det C m l1 : gparses C m l1 -> forall l2, gparses C m l2 -> l1 = l2.
Proof.
  induction 1 as [|m l H IH|m l H IH|m neg toks r its l B I H IH|m l B H IH|c q m l Q H IH];
    intros l2 H2; inversion H2; subst; try reflexivity; try (f_equal; auto; fail);
    try (exfalso; intuition congruence).
  match goal with B2 : gbracket m = Some _ |- _ => rewrite B in B2; injection B2 as <- <- <- end.
  match goal with I2 : items _ _ _ = Some _ |- _ => rewrite I in I2; injection I2 as <- end.
  f_equal. auto.
Qed.

(** ** Matching by atoms *)
Section Match.
Variable C : ctype.

Lemma gmatch_star_inv ic l s : gmatch C ic (GStar :: l) s -> exists t s', s = t ++ s' /\ gmatch C ic l s'.
Proof. intros H. inversion H; subst. eauto. Qed.

Lemma re_match_ok ic l : forall s, re_match C ic (map to_r l) s = true <-> gmatch C ic l s.
Proof.
  induction l as [|a l IH]; intros s.
  - cbn. destruct s; split; intros H; try discriminate; try constructor. inversion H.
  - destruct a as [| |c|neg its]; cbn [map to_r re_match].
    + destruct s as [|x s]; [split; [discriminate|intros H; inversion H]|]. cbn [one_match andb].
      rewrite IH. split; intros H; [now constructor|now inversion H].
    + induction s as [|x s IHs].
      * rewrite orb_false_r, IH. split; intros H.
        -- apply (gm_star C ic l [] []). auto.
        -- apply gmatch_star_inv in H as (t & s' & E & H). symmetry in E. apply app_eq_nil in E as [-> ->]. auto.
      * rewrite orb_true_iff, IH. cbn [one_match andb]. rewrite IHs. split.
        -- intros [H|H]; [apply (gm_star C ic l []); auto|].
           apply gmatch_star_inv in H as (t & s' & -> & H). apply (gm_star C ic l (x :: t)); auto.
        -- intros H. apply gmatch_star_inv in H as ([|y t] & s' & E & H); cbn in E; [subst s'; auto|].
           injection E as -> ->. right. constructor. auto.
    + destruct s as [|x s]; [split; [discriminate|intros H; inversion H]|]. cbn [one_match].
      rewrite andb_true_iff, IH. split; [intros [H1 H2]; constructor; auto|intros H; inversion H; auto].
    + destruct s as [|x s]; [split; [discriminate|intros H; inversion H]|]. cbn [one_match].
      rewrite andb_true_iff, IH. split; [intros [H1 H2]; constructor; auto|intros H; inversion H; auto].
Qed.

(** ** regexec *)
Lemma find_last_ok f lo n :
  match find_last f lo n with
  | Some j => lo <= j <= lo + n /\ f j = true /\ forall j', j < j' <= lo + n -> f j' = false
  | None => forall j', lo <= j' <= lo + n -> f j' = false
  end.
Proof.
  induction n as [|n IH]; cbn [find_last].
  - destruct (f (lo + 0)) eqn:E.
    + split; [lia|]. split; [auto|]. intros; lia.
    + intros j' H. replace j' with (lo + 0) by lia. auto.
  - destruct (f (lo + S n)) eqn:E.
    + split; [lia|]. split; [auto|]. intros; lia.
    + destruct (find_last f lo n) as [j|].
      * destruct IH as (H1 & H2 & H3). split; [lia|]. split; [auto|]. intros j' H.
        destruct (Nat.eq_dec j' (lo + S n)) as [->|]; [auto|]. apply H3. lia.
      * intros j' H. destruct (Nat.eq_dec j' (lo + S n)) as [->|]; [auto|]. apply IH. lia.
Qed.
Lemma find_first_ok {A} (f : nat -> option A) n : forall lo,
  match find_first f lo n with
  | Some (i, a) => lo <= i <= lo + n /\ f i = Some a /\ forall i', lo <= i' < i -> f i' = None
  | None => forall i', lo <= i' <= lo + n -> f i' = None
  end.
Proof.
  induction n as [|n IH]; intros lo; cbn [find_first]; destruct (f lo) eqn:E.
  - split; [lia|]. split; [auto|]. intros; lia.
  - intros i' H. replace i' with lo by lia. auto.
  - split; [lia|]. split; [auto|]. intros; lia.
  - specialize (IH (S lo)). destruct (find_first f (S lo) n) as [[i a']|].
    + destruct IH as (H1 & H2 & H3). split; [lia|]. split; [auto|]. intros i' H.
      destruct (Nat.eq_dec i' lo) as [->|]; [auto|]. apply H3. lia.
    + intros i' H. destruct (Nat.eq_dec i' lo) as [->|]; [auto|]. apply IH. lia.
Qed.

Definition rlang (re : regex) (t : list N) : Prop := re_match C (ricase re) (ratoms re) t = true.

Lemma regexec_wanted re s : wanted (rlang re) false (rhead re) (rtail re) s (regexec C re s).
Proof.
  unfold regexec.
  set (test := fun i j => (negb (rtail re) || (j =? length s)) && re_match C (ricase re) (ratoms re) (substr s i j)).
  set (ends := fun i => if rhead re && negb (i =? 0) then None
    else find_last (fun j => (negb (rtail re) || (j =? length s)) && re_match C (ricase re) (ratoms re) (substr s i j)) i (length s - i)).
  assert (T : forall i j, i <= j -> j <= length s -> is_match (rlang re) (rhead re) (rtail re) s i j <->
     rhead re && negb (i =? 0) = false /\ test i j = true).
  { intros i j H1 H2. unfold is_match, test, rlang. rewrite andb_true_iff. split.
    - intros (_ & _ & M & Hh & Ht). split; [|split; [|auto]].
      + destruct (rhead re); [|auto]. rewrite (Hh eq_refl). reflexivity.
      + destruct (rtail re); [|auto]. rewrite (Ht eq_refl), Nat.eqb_refl. reflexivity.
    - intros (Hh & Ht & M). split; [auto|]. split; [auto|]. split; [auto|]. split; intros E; rewrite E in *.
      + cbn [andb] in Hh. apply negb_false_iff, Nat.eqb_eq in Hh. auto.
      + cbn [negb orb] in Ht. apply Nat.eqb_eq in Ht. auto. }
  assert (E : forall i, i <= length s -> match ends i with
    | Some j => is_match (rlang re) (rhead re) (rtail re) s i j /\
        forall j', is_match (rlang re) (rhead re) (rtail re) s i j' -> j' <= j
    | None => forall j', ~ is_match (rlang re) (rhead re) (rtail re) s i j' end).
  { intros i Hi. unfold ends. destruct (rhead re && negb (i =? 0)) eqn:Eh.
    - intros j' M. destruct M as (M1 & M2 & M). apply (T i j' M1 M2) in Eh || idtac.
      destruct (proj1 (T i j' M1 M2) (conj M1 (conj M2 M))) as [X _]. congruence.
    - pose proof (find_last_ok (test i) i (length s - i)) as F. fold (test i) in *.
      change (fun j => (negb (rtail re) || (j =? length s)) && re_match C (ricase re) (ratoms re) (substr s i j)) with (test i).
      destruct (find_last (test i) i (length s - i)) as [j|].
      + destruct F as (F1 & F2 & F3). split; [apply T; auto; lia|].
        intros j' M. pose proof M as (M1 & M2 & _). apply (T i j' M1 M2) in M as [_ M].
        destruct (Nat.le_gt_cases j' j); [auto|]. rewrite F3 in M by lia. discriminate.
      + intros j' M. pose proof M as (M1 & M2 & _). apply (T i j' M1 M2) in M as [_ M].
        rewrite F in M by lia. discriminate. }
  pose proof (find_first_ok ends (length s) 0) as F. fold ends.
  destruct (find_first ends 0 (length s)) as [[i j]|].
  - destruct F as (F1 & F2 & F3). pose proof (E i ltac:(lia)) as Ei. rewrite F2 in Ei. destruct Ei as [M1 M2].
    split; [auto|]. intros i' j' M. cbn [better]. destruct (Nat.lt_trichotomy i i') as [?|[->|Lt]]; [auto|right; auto|].
    exfalso. pose proof (E i' ltac:(lia)) as Ei'. rewrite F3 in Ei' by lia. eapply Ei'; eauto.
  - intros i j M. pose proof M as (M1 & M2 & _). pose proof (E i ltac:(lia)) as Ei. rewrite F in Ei by lia. eapply Ei; eauto.
Qed.

(** ** Shortest matches *)
Lemma shortest_head_ok re : rhead re = true -> rtail re = false -> forall s,
  wanted (rlang re) true true false s (wmatch_shortest_head C re s).
Proof.
  intros Hh Ht s. unfold wmatch_shortest_head.
  assert (G : forall r buf, buf ++ r = s -> (forall j, j < length buf -> ~ rlang re (firstn j s)) ->
    wanted (rlang re) true true false s (shortest_head_loop C re buf (length buf) r)).
  { induction r as [|c r IH]; intros buf E No.
    - cbn [shortest_head_loop]. pose proof (regexec_wanted re buf) as W.
      rewrite app_nil_r in E. subst buf. rewrite Hh, Ht in W.
      destruct (regexec C re s) as [[i j]|].
      + destruct W as [(M1 & M2 & M3 & M4 & _) _]. rewrite (M4 eq_refl), substr_0 in M3.
        assert (j = length s). { destruct (Nat.eq_dec j (length s)); [auto|]. exfalso. apply (No j); [lia|auto]. }
        subst j. split.
        * split; [lia|]. split; [lia|]. rewrite substr_0. auto.
        * intros i' j' (M1' & M2' & M3' & M4' & _). cbn [better]. rewrite (M4' eq_refl), substr_0 in *.
          destruct (Nat.le_gt_cases (length s) j'); [lia|]. exfalso. eapply No; eauto.
      + intros i j M. apply (W i j). exact M.
    - cbn [shortest_head_loop]. pose proof (regexec_wanted re buf) as W. rewrite Hh, Ht in W.
      assert (Ls : length buf <= length s) by (subst s; rewrite app_length; lia).
      assert (Hs : forall j, j <= length buf -> firstn j s = firstn j buf).
      { intros j Hj. subst s. rewrite firstn_app. replace (j - length buf) with 0 by lia. now rewrite app_nil_r. }
      destruct (regexec C re buf) as [[i j]|].
      + destruct W as [(M1 & M2 & M3 & M4 & _) _]. rewrite (M4 eq_refl), substr_0 in M3. rewrite <- Hs in M3 by auto.
        assert (j = length buf). { destruct (Nat.eq_dec j (length buf)); [auto|]. exfalso. apply (No j); [lia|auto]. }
        subst j. split.
        * split; [lia|]. split; [lia|]. rewrite substr_0. split; [auto|]. split; [auto|discriminate].
        * intros i' j' (M1' & M2' & M3' & M4' & _). cbn [better]. rewrite (M4' eq_refl), substr_0 in *.
          destruct (Nat.le_gt_cases (length buf) j'); [lia|]. exfalso. eapply No; eauto.
      + replace (S (length buf)) with (length (buf ++ [c])) by (rewrite app_length; cbn; lia).
        apply IH; [now rewrite <- app_assoc|]. rewrite app_length. cbn [length].
        intros j Hj. destruct (Nat.eq_dec j (length buf)) as [->|]; [|apply No; lia].
        intros M. apply (W 0 (length buf)). split; [lia|]. split; [lia|]. rewrite substr_0.
        rewrite <- Hs by auto. split; [auto|]. split; [auto|discriminate]. }
  apply (G s []); [auto|]. cbn. intros; lia.
Qed.

Lemma shortest_tail_ok re : rhead re = false -> rtail re = true -> forall s,
  exists r, wmatch_shortest_tail C re s = Ok r /\ wanted (rlang re) true false true s r.
Proof.
  intros Hh Ht s. unfold wmatch_shortest_tail.
  assert (Tr : forall i a b, i <= length s -> is_match (rlang re) false true (skipn i s) a b <->
     is_match (rlang re) false true s (a + i) (b + i)).
  { intros i a b Hi. unfold is_match. rewrite substr_skipn, skipn_length.
    split; intros (H1 & H2 & H3 & _ & H5); specialize (H5 eq_refl);
      (split; [lia|]; split; [lia|]; split; [exact H3|]; split; [discriminate|]; intros _; lia). }
  assert (G : forall f i result, i <= length s -> length s - i < f ->
    match result with
    | Some (st, en) => st + 1 = i /\ is_match (rlang re) false true s st en
    | None => i = 0
    end ->
    exists r, shortest_tail_loop C f re s i result = Ok r /\ wanted (rlang re) true false true s r).
  { induction f as [|f IH]; intros i result Hi Hf Hr; [lia|]. cbn [shortest_tail_loop].
    pose proof (regexec_wanted re (skipn i s)) as W. unfold wmatch_longest. rewrite Hh, Ht in W.
    destruct (regexec C re (skipn i s)) as [[a b]|].
    - destruct W as [M _]. pose proof M as (M1 & M2 & _). rewrite skipn_length in M2.
      apply Tr in M; [|auto].
      destruct (Nat.ltb_spec (length s) (a + i)); [lia|].
      destruct (Nat.eqb_spec (length s) (a + i)) as [E|E].
      + eexists. split; [reflexivity|]. split; [auto|]. intros i' j' (N1 & N2 & N3 & _ & N5). cbn [better].
        destruct M as (_ & _ & _ & _ & M5). rewrite (N5 eq_refl), (M5 eq_refl). lia.
      + apply IH; [lia|lia|]. split; [auto|auto].
    - eexists. split; [reflexivity|]. destruct result as [[st en]|].
      + destruct Hr as [<- M]. split; [auto|]. intros i' j' M'. cbn [better].
        pose proof M as (_ & M2 & _ & _ & M5). pose proof M' as (N1 & N2 & _ & _ & N5).
        rewrite (M5 eq_refl), (N5 eq_refl) in *.
        destruct (Nat.le_gt_cases (st + 1) i') as [Le|]; [|lia]. exfalso.
        apply (W (i' - (st + 1)) (length s - (st + 1))). apply Tr; [auto|].
        replace (i' - (st + 1) + (st + 1)) with i' by lia. replace (length s - (st + 1) + (st + 1)) with (length s) by lia. auto.
      + subst i. intros i' j' M'. apply (W i' j'). apply Tr; [lia|]. rewrite !Nat.add_0_r. auto. }
  apply G; [lia|lia|reflexivity].
Qed.
End Match.

Lemma wanted_ext P Q short head tail s r : (forall t, P t <-> Q t) ->
  wanted P short head tail s r -> wanted Q short head tail s r.
Proof.
  intros E. assert (M : forall i j, is_match P head tail s i j <-> is_match Q head tail s i j).
  { intros i j. unfold is_match. rewrite (E (substr s i j)). reflexivity. }
  destruct r as [[i j]|]; cbn.
  - intros [H1 H2]. split; [apply M; auto|]. intros i' j' H. apply H2. apply M; auto.
  - intros H i j Hm. apply (H i j). apply M; auto.
Qed.

(** ** Occurrences of a string *)
Lemma starts_iff p : forall s, starts s p = true <-> exists t, s = p ++ t.
Proof.
  induction p as [|c p IH]; intros s; cbn [starts].
  - split; [intros _; exists s; auto|auto].
  - destruct s as [|x s]; [split; [discriminate|intros [t [=]]]|].
    rewrite andb_true_iff, N.eqb_eq, IH. split.
    + intros [-> [t ->]]. exists t. auto.
    + intros [t [= -> ->]]. split; [auto|exists t; auto].
Qed.
Lemma starts_len s p : starts s p = true -> length p <= length s.
Proof. intros H. apply starts_iff in H as [t ->]. rewrite app_length. lia. Qed.

Definition occ (s lit : list N) (k : nat) : Prop := k <= length s /\ starts (skipn k s) lit = true.
Lemma occ_len s lit k : occ s lit k -> k + length lit <= length s.
Proof. intros [H1 H2]. apply starts_len in H2. rewrite skipn_length in H2. lia. Qed.
Lemma occ_S c s lit k : occ (c :: s) lit (S k) <-> occ s lit k.
Proof. unfold occ. cbn. split; intros [H1 H2]; split; auto; lia. Qed.

Lemma wcsstr_cons s p : wcsstr s p = if starts s p then Some s else match s with [] => None | _ :: s' => wcsstr s' p end.
Proof. destruct s; reflexivity. Qed.
Lemma wcsstr_ok lit : forall s,
  match wcsstr s lit with
  | Some r => exists k, occ s lit k /\ r = skipn k s /\ forall k', occ s lit k' -> k <= k'
  | None => forall k, ~ occ s lit k
  end.
Proof.
  induction s as [|c s IH]; rewrite wcsstr_cons.
  - destruct (starts [] lit) eqn:E.
    + exists 0. split; [split; [cbn; lia|auto]|]. split; [auto|]. intros; lia.
    + intros k [H1 H2]. rewrite skipn_nil in H2. congruence.
  - destruct (starts (c :: s) lit) eqn:E.
    + exists 0. split; [split; [cbn; lia|auto]|]. split; [auto|]. intros; lia.
    + destruct (wcsstr s lit) as [r|].
      * destruct IH as (k & O & -> & M). exists (S k). split; [now apply occ_S|]. split; [auto|].
        intros [|k'] O'; [destruct O'; cbn [skipn] in *; congruence|]. apply occ_S in O'. apply M in O'. lia.
      * intros [|k'] O'; [destruct O'; cbn [skipn] in *; congruence|]. apply occ_S in O'. eapply IH; eauto.
Qed.

Lemma occ_skipn s lit i k : i <= length s -> occ (skipn i s) lit k <-> occ s lit (i + k).
Proof. intros Hi. unfold occ. rewrite skipn_length, skipn_add. split; intros [H1 H2]; split; auto; lia. Qed.

Lemma last_wcsstr_ok s lit :
  exists r, last_wcsstr s lit = Ok r /\
  match r with
  | Some k => occ s lit k /\ forall k', occ s lit k' -> k' <= k
  | None => forall k, ~ occ s lit k
  end.
Proof.
  unfold last_wcsstr. destruct lit as [|c0 lit0] eqn:El.
  - eexists. split; [reflexivity|]. cbn. split; [|intros k' [H _]; auto].
    split; [lia|]. reflexivity.
  - rewrite <- El in *. assert (Ln : 0 < length lit) by (subst; cbn; lia). clear El.
    assert (G : forall f i last, i <= length s -> length s - i < f ->
      match last with
      | Some k => k + 1 = i /\ occ s lit k
      | None => i = 0
      end ->
      exists r, last_wcsstr_loop f (skipn i s) lit i last = Ok r /\
        match r with
        | Some k => occ s lit k /\ forall k', occ s lit k' -> k' <= k
        | None => forall k, ~ occ s lit k
        end).
    { induction f as [|f IH]; intros i last Hi Hf Hl; [lia|]. cbn [last_wcsstr_loop].
      pose proof (wcsstr_ok lit (skipn i s)) as W. destruct (wcsstr (skipn i s) lit) as [r|].
      - destruct W as (k & O & -> & _). apply occ_skipn in O; [|auto].
        pose proof (occ_len _ _ _ O) as OL. rewrite skipn_add, !skipn_length.
        replace (i + (length s - i - (length s - (i + k)))) with (i + k) by lia.
        destruct (skipn (i + k) s) as [|x r'] eqn:Es.
        { apply (f_equal (@length N)) in Es. rewrite skipn_length in Es. cbn in Es. lia. }
        assert (r' = skipn (S (i + k)) s) as ->.
        { replace (S (i + k)) with (i + k + 1) by lia. rewrite <- skipn_add, Es. reflexivity. }
        apply IH; [lia|lia|]. split; [lia|auto].
      - eexists. split; [reflexivity|]. destruct last as [k|].
        + destruct Hl as [<- O]. split; [auto|]. intros k' O'. destruct (Nat.le_gt_cases k' k); [auto|]. exfalso.
          apply (W (k' - (k + 1))). apply occ_skipn; [auto|]. replace (k + 1 + (k' - (k + 1))) with k' by lia. auto.
        + subst i. intros k O. apply (W k). apply occ_skipn; [lia|]. auto. }
    apply (G (S (length s)) 0 None); [lia|lia|reflexivity].
Qed.

(** The strings matched by a literal with asterisks around it. *)
Definition around (hs : bool) (lit : list N) (ts : bool) (s : list N) : Prop :=
  exists a b, s = a ++ lit ++ b /\ (hs = false -> a = []) /\ (ts = false -> b = []).

Lemma around_match hs lit ts head tail s i j :
  is_match (around hs lit ts) head tail s i j <->
  exists k, occ s lit k /\ i <= k /\ k + length lit <= j /\ j <= length s /\
    (hs = false -> k = i) /\ (ts = false -> k + length lit = j) /\
    (head = true -> i = 0) /\ (tail = true -> j = length s).
Proof.
  unfold is_match. split.
  - intros (H1 & H2 & (a & b & E & Ha & Hb) & H3 & H4).
    pose proof (f_equal (@length N) E) as L. rewrite substr_length in L by auto. rewrite !app_length in L.
    exists (i + length a). split.
    + split; [lia|]. apply starts_iff.
      assert (skipn i s = substr s i j ++ skipn j s) as Es.
      { unfold substr. rewrite <- (firstn_skipn (j - i) (skipn i s)) at 1. f_equal. rewrite skipn_add. f_equal. lia. }
      rewrite <- skipn_add, Es, E, <- app_assoc. rewrite skipn_app, skipn_all, Nat.sub_diag. cbn [skipn app].
      rewrite <- app_assoc. eauto.
    + split; [lia|]. split; [lia|]. split; [auto|]. split; [|split; [|auto]].
      * intros X. rewrite (Ha X). cbn. lia.
      * intros X. rewrite (Hb X) in L. cbn in L. lia.
  - intros (k & [O1 O2] & H1 & H2 & H3 & H4 & H5 & H6 & H7). split; [lia|]. split; [auto|]. split; [|auto].
    apply starts_iff in O2 as [t Et].
    exists (substr s i k), (substr s (k + length lit) j). split; [|split].
    + assert (forall a b c, a <= b -> b <= c -> c <= length s -> substr s a c = substr s a b ++ substr s b c) as Sp.
      { intros a b c Ha Hb Hc. unfold substr.
        rewrite <- (firstn_skipn (b - a) (firstn (c - a) (skipn a s))), firstn_firstn, skipn_firstn_comm, skipn_add.
        f_equal; f_equal; try lia. f_equal. lia. }
      rewrite (Sp i k j) by lia. f_equal. rewrite (Sp k (k + length lit) j) by lia. f_equal.
      unfold substr. rewrite Et. replace (k + length lit - k) with (length lit) by lia.
      rewrite firstn_app, Nat.sub_diag, firstn_all. cbn. now rewrite app_nil_r.
    + intros X. rewrite (H4 X). unfold substr. now rewrite Nat.sub_diag.
    + intros X. rewrite (H5 X). unfold substr. now rewrite Nat.sub_diag.
Qed.

Lemma list_N_eqb_iff a b : list_N_eqb a b = true <-> a = b.
Proof. split; [apply list_N_eqb_eq|intros ->; apply list_N_eqb_eq; auto]. Qed.

(** The result of wmatch_literal with the flags given by try_compile_literal. *)
Lemma wmatch_literal_ok fl hs lit ts s :
  (SHORTEST fl = true -> xorb (HEADONLY fl) (TAILONLY fl) = true) ->
  let headonly := HEADONLY fl && negb hs in
  let tailonly := TAILONLY fl && negb ts in
  let hs' := if SHORTEST fl && negb (HEADONLY fl) then false else hs in
  let ts' := if SHORTEST fl && HEADONLY fl then false else ts in
  exists r, wmatch_literal (mkFl (SHORTEST fl) headonly tailonly (PERIOD fl) (CASEFOLD fl) hs' ts') lit s = Ok r /\
    wanted (around hs lit ts) (SHORTEST fl) (HEADONLY fl) (TAILONLY fl) s r.
Proof.
  intros Leg headonly tailonly hs' ts'. unfold wmatch_literal. cbn [HEADONLY TAILONLY SHORTEST headstar tailstar].
  assert (Wi : forall head tail short i j,
    (exists k, occ s lit k /\ i <= k /\ k + length lit <= j /\ j <= length s /\
      (hs = false -> k = i) /\ (ts = false -> k + length lit = j) /\
      (head = true -> i = 0) /\ (tail = true -> j = length s)) ->
    (forall i' j' k', occ s lit k' -> i' <= k' -> k' + length lit <= j' -> j' <= length s ->
      (hs = false -> k' = i') -> (ts = false -> k' + length lit = j') ->
      (head = true -> i' = 0) -> (tail = true -> j' = length s) -> better short i j i' j') ->
    wanted (around hs lit ts) short head tail s (Some (i, j))).
  { intros head tail short i j H1 H2. split; [now apply around_match|]. intros i' j' M.
    apply around_match in M as (k' & ? & ? & ? & ? & ? & ? & ? & ?). eauto. }
  assert (Wn : forall head tail short,
    (forall i' j' k', occ s lit k' -> i' <= k' -> k' + length lit <= j' -> j' <= length s ->
      (hs = false -> k' = i') -> (ts = false -> k' + length lit = j') ->
      (head = true -> i' = 0) -> (tail = true -> j' = length s) -> False) ->
    wanted (around hs lit ts) short head tail s None).
  { intros head tail short H i' j' M. apply around_match in M as (k' & ? & ? & ? & ? & ? & ? & ? & ?). eauto. }
  destruct headonly eqn:Eh.
  { apply andb_true_iff in Eh as [Eh Ehs]. apply negb_true_iff in Ehs. rewrite Eh in *. subst hs.
    unfold matchwcsprefix. destruct (starts s lit) eqn:Es.
    - assert (O : occ s lit 0) by (split; [lia|auto]). pose proof (occ_len _ _ _ O) as OL.
      destruct (tailonly && match skipn (length lit) s with [] => false | _ => true end) eqn:Et.
      + eexists. split; [reflexivity|]. apply andb_true_iff in Et as [Et Ek]. unfold tailonly in Et.
        apply andb_true_iff in Et as [Et Ets]. apply negb_true_iff in Ets. rewrite Et, Ets in *. apply Wn.
        intros i' j' k' O' H1 H2 H3 H4 H5 H6 H7. specialize (H4 eq_refl). specialize (H5 eq_refl). specialize (H6 eq_refl). specialize (H7 eq_refl).
        assert (length s = length lit) by lia. destruct (skipn (length lit) s) eqn:E; [discriminate|].
        apply (f_equal (@length N)) in E. rewrite skipn_length in E. cbn in E. lia.
      + eexists. split; [reflexivity|]. subst hs' ts'. rewrite skipn_length. cbn [andb] in *.
        destruct (SHORTEST fl) eqn:Esh; cbn [negb andb] in *.
        * specialize (Leg eq_refl). destruct (TAILONLY fl); [discriminate|]. rewrite Nat.add_0_r. apply Wi.
          -- exists 0. repeat split; try lia; try apply O; auto; discriminate.
          -- intros; cbn [better]. match goal with H : true = true -> _ |- _ => specialize (H eq_refl) end. lia.
        * apply Wi.
          -- exists 0. split; [auto|]. split; [lia|]. destruct ts; cbn [negb andb].
             ++ split; [lia|]. split; [lia|]. split; [auto|]. split; [discriminate|]. split; [auto|]. intros _. lia.
             ++ split; [lia|]. split; [lia|]. split; [auto|]. split; [lia|]. split; [auto|].
                intros X. unfold tailonly in Et. rewrite X in Et. cbn in Et.
                destruct (skipn (length lit) s) eqn:E; [|discriminate].
                apply (f_equal (@length N)) in E. rewrite skipn_length in E. cbn in E. lia.
          -- intros i' j' k' O' H1 H2 H3 H4 H5 H6 H7. cbn [better]. right. specialize (H6 eq_refl). specialize (H4 eq_refl).
             split; [lia|]. destruct ts; [lia|]. specialize (H5 eq_refl). lia.
    - eexists. split; [reflexivity|]. apply Wn. intros i' j' k' [O1 O2] H1 H2 H3 H4 H5 H6 H7.
      specialize (H6 eq_refl). specialize (H4 eq_refl). subst. cbn in O2. congruence. }
  destruct tailonly eqn:Et.
  { apply andb_true_iff in Et as [Et Ets]. apply negb_true_iff in Ets. rewrite Et in *. subst ts.
    destruct (Nat.ltb_spec (length s) (length lit)).
    { eexists. split; [reflexivity|]. apply Wn. intros. lia. }
    destruct (list_N_eqb (skipn (length s - length lit) s) lit) eqn:El; cbn [negb].
    - apply list_N_eqb_iff in El. eexists. split; [reflexivity|].
      assert (O : occ s lit (length s - length lit)).
      { split; [lia|]. rewrite El. apply starts_iff. exists []. now rewrite app_nil_r. }
      subst hs' ts'. destruct (SHORTEST fl) eqn:Esh; cbn [negb andb].
      + specialize (Leg eq_refl). destruct (HEADONLY fl); [discriminate|]. apply Wi.
        * exists (length s - length lit). split; [auto|]. repeat split; try lia; try discriminate.
        * intros. cbn [better]. lia.
      + apply Wi.
        * exists (length s - length lit). split; [auto|]. destruct hs; cbn [negb andb] in *.
          -- repeat split; try lia.
          -- repeat split; try lia; try discriminate. intros X. unfold headonly in Eh. rewrite X in Eh. cbn in Eh. lia || discriminate.
        * intros i' j' k' O' H1 H2 H3 H4 H5 H6 H7. cbn [better]. specialize (H5 eq_refl). specialize (H7 eq_refl).
          destruct hs; [lia|]. specialize (H4 eq_refl). lia.
    - eexists. split; [reflexivity|]. apply Wn. intros i' j' k' [O1 O2] H1 H2 H3 H4 H5 H6 H7.
      specialize (H5 eq_refl). specialize (H7 eq_refl).
      assert (k' = length s - length lit) as -> by lia.
      apply starts_iff in O2 as [t Eq]. pose proof (f_equal (@length N) Eq) as L.
      rewrite skipn_length, app_length in L. destruct t; [|cbn in L; lia]. rewrite app_nil_r in Eq.
      apply list_N_eqb_iff in Eq. congruence. }
  assert (Hh : HEADONLY fl = true -> hs = true).
  { intros X. unfold headonly in Eh. rewrite X in Eh. destruct hs; [auto|discriminate]. }
  assert (Ht : TAILONLY fl = true -> ts = true).
  { intros X. unfold tailonly in Et. rewrite X in Et. destruct ts; [auto|discriminate]. }
  match goal with |- context [if ?u then last_wcsstr _ _ else _] => set (use := u) end.
  assert (exists r, (if use then last_wcsstr s lit
       else Ok match wcsstr s lit with Some r => Some (length s - length r) | None => None end) = Ok r /\
    match r with
    | Some k => occ s lit k /\ forall k', occ s lit k' -> if use then k' <= k else k <= k'
    | None => forall k, ~ occ s lit k
    end) as (r & -> & Hr).
  { destruct use; [apply last_wcsstr_ok|]. eexists. split; [reflexivity|].
    pose proof (wcsstr_ok lit s) as W. destruct (wcsstr s lit) as [r|]; [|auto].
    destruct W as (k & O & -> & M). rewrite skipn_length. replace (length s - (length s - k)) with k by (destruct O; lia). auto. }
  cbn [rbind]. destruct r as [k|]; eexists; (split; [reflexivity|]).
  - destruct Hr as [O M]. pose proof (occ_len _ _ _ O) as OL. apply Wi.
    + exists k. split; [auto|]. subst hs' ts'.
      destruct (SHORTEST fl) eqn:Esh; [specialize (Leg eq_refl)|].
      * destruct (HEADONLY fl) eqn:Ehd, (TAILONLY fl) eqn:Etl; try discriminate; cbn [negb andb].
        -- rewrite (Hh eq_refl). repeat split; try lia; discriminate.
        -- rewrite (Ht eq_refl). repeat split; try lia; discriminate.
      * cbn [andb]. destruct hs, ts; repeat split; try lia; try discriminate; intros X;
          try (specialize (Hh X)); try (specialize (Ht X)); discriminate.
    + intros i' j' k' O' H1 H2 H3 H4 H5 H6 H7. specialize (M k' O'). subst use hs' ts'.
      destruct (SHORTEST fl) eqn:Esh; [specialize (Leg eq_refl)|]; cbn [better].
      * destruct (HEADONLY fl) eqn:Ehd, (TAILONLY fl) eqn:Etl; try discriminate; cbn [negb andb] in *.
        -- rewrite (Hh eq_refl) in *. specialize (H6 eq_refl). cbn in M. lia.
        -- rewrite (Ht eq_refl) in *. specialize (H7 eq_refl). cbn in M. lia.
      * cbn [negb andb] in *. destruct hs, ts; cbn [negb andb orb] in M;
          try specialize (H4 eq_refl); try specialize (H5 eq_refl); lia.
  - apply Wn. intros. eapply Hr; eauto.
Qed.

(** ** Literal patterns *)
Lemma skip_stars_ok pat : exists k, fst (skip_stars pat) = (0 <? k) /\
  marks pat = repeat (aster, false) k ++ marks (snd (skip_stars pat)) /\
  (forall p, snd (skip_stars pat) <> aster :: p).
Proof.
  induction pat as [|c pat IH]; cbn [skip_stars].
  - exists 0. repeat split; auto. discriminate.
  - destruct (N.eqb_spec c aster) as [->|Ne].
    + destruct IH as (k & _ & E2 & E3). exists (S k). cbn [fst snd]. split; [reflexivity|]. split; [|auto].
      rewrite marks_plain by discriminate. rewrite E2. reflexivity.
    + exists 0. cbn [fst snd]. split; [auto|]. split; [auto|]. intros p [= ? ?]. congruence.
Qed.

Lemma marks_in c q pat : In (c, q) (marks pat) -> In c pat.
Proof.
  induction pat as [| |x y pat IH1 IH2] using list_ind2; cbn [marks]; auto.
  - destruct (x =? bslash)%N; cbn; intros H; [contradiction|]. destruct H as [[= -> _]|[]]. auto.
  - destruct (x =? bslash)%N.
    + intros [[= -> _]|H]; [cbn; auto|]. cbn. auto.
    + intros [[= -> _]|H]; [cbn; auto|]. right. auto.
Qed.

Lemma gtok_no_rbr : forall n m md, length m <= n -> (forall q, ~ In (rbr, q) m) -> gtok md m = None.
Proof.
  induction n as [|n IH]; intros m md Hn Hm.
  - destruct m; [destruct md; reflexivity|cbn in Hn; lia].
  - destruct m as [|[c q] m]; [destruct md; reflexivity|]. cbn [length] in Hn.
    assert (Hc : (c =? rbr)%N = false).
    { apply N.eqb_neq. intros ->. apply (Hm q). left. auto. }
    assert (Hm' : forall q, ~ In (rbr, q) m) by (intros q' X; apply (Hm q'); right; auto).
    assert (Mid' : gtok Mid m = None) by (apply IH; auto; lia).
    assert (NS : md <> Sym 0 [] -> True) by auto. clear NS.
    destruct md as [| |d acc].
    + destruct q; [cbn [gtok]; rewrite Mid'; reflexivity|]. cbn [gtok]. rewrite Hc, Mid'. cbn [andb].
      destruct m as [|[c2 q2] m2]; [auto|]. destruct ((c =? lbr)%N && is_symd c2 && negb q2); [|auto].
      apply IH; [cbn in Hn; lia|]. intros q' X. apply (Hm' q'). right. auto.
    + destruct q; [cbn [gtok]; rewrite Mid'; reflexivity|]. cbn [gtok]. rewrite Hc, Mid'. cbn [andb].
      destruct m as [|[c2 q2] m2]; [auto|]. destruct ((c =? lbr)%N && is_symd c2 && negb q2); [|auto].
      apply IH; [cbn in Hn; lia|]. intros q' X. apply (Hm' q'). right. auto.
    + destruct m as [|[c2 q2] m2]; [reflexivity|]. rewrite gtok_sym.
      assert ((c2 =? rbr)%N = false) as E.
      { apply N.eqb_neq. intros ->. apply (Hm' q2). left. auto. }
      rewrite E. destruct ((c =? d)%N && negb q); cbn [andb]; apply IH; auto; lia.
Qed.
Lemma gbracket_no_rbr m : (forall q, ~ In (rbr, q) m) -> gbracket m = None.
Proof.
  intros H. unfold gbracket.
  destruct m as [|[c [|]] m]; [reflexivity| |].
  - now rewrite (gtok_no_rbr _ _ Start (le_n _) H).
  - destruct ((c =? excl)%N || (c =? caret)%N).
    + rewrite (gtok_no_rbr _ _ Start (le_n _)); [auto|]. intros q X. apply (H q). right. auto.
    + now rewrite (gtok_no_rbr _ _ Start (le_n _) H).
Qed.
Lemma wcschr_in s c : wcschr s c = false -> ~ In c s.
Proof.
  unfold wcschr. intros H X. assert (existsb (N.eqb c) s = true); [|congruence].
  apply existsb_exists. exists c. split; [auto|apply N.eqb_refl].
Qed.

Lemma literal_cons2 c c1 pat : literal_loop (c :: c1 :: pat) =
  let cons c o := match o with Some (l, b) => Some (c :: l, b) | None => None end in
  if (c =? quest)%N then None
  else if (c =? aster)%N then
    match snd (skip_stars (c1 :: pat)) with
    | [] => Some ([], true)
    | _ => None
    end
  else if (c =? lbr)%N then
    if wcschr (c1 :: pat) rbr then None else cons c (literal_loop (c1 :: pat))
  else if (c =? bslash)%N then cons c1 (literal_loop pat)
  else cons c (literal_loop (c1 :: pat)).
Proof. reflexivity. Qed.

Section Literal.
Variable C : ctype.

Lemma literal_loop_ok : forall pat lit ts, literal_loop pat = Some (lit, ts) ->
  exists m, gparses C (marks pat) (map GChar lit ++ repeat GStar m) /\ ts = (0 <? m).
Proof.
  induction pat as [| |x y pat IH1 IH2] using list_ind2; intros lit ts H.
  - injection H as <- <-. exists 0. split; [constructor|auto].
  - cbn [literal_loop] in H. destruct (N.eqb_spec x quest); [discriminate|].
    destruct (N.eqb_spec x aster) as [->|].
    { cbn in H. injection H as <- <-. exists 1. split; [|auto]. cbn. repeat constructor. }
    destruct (N.eqb_spec x lbr) as [->|].
    { cbn in H. injection H as <- <-. exists 0. split; [|auto]. cbn. apply gp_open; [auto|constructor]. }
    destruct (N.eqb_spec x bslash) as [->|].
    { injection H as <- <-. exists 0. split; [constructor|auto]. }
    injection H as <- <-. exists 0. split; [|auto]. rewrite marks_plain by auto. cbn. apply gp_char; [auto|constructor].
  - rewrite literal_cons2 in H. cbv zeta in H.
    assert (Cons : forall q c p l t,
      match literal_loop p with Some (l, b) => Some (c :: l, b) | None => None end = Some (l, t) ->
      (forall lit ts, literal_loop p = Some (lit, ts) ->
        exists m, gparses C (marks p) (map GChar lit ++ repeat GStar m) /\ ts = (0 <? m)) ->
      (forall l, gparses C (marks p) l -> gparses C ((c, q) :: marks p) (GChar c :: l)) ->
      exists m, gparses C ((c, q) :: marks p) (map GChar l ++ repeat GStar m) /\ t = (0 <? m)).
    { intros q c p l t E IH G. destruct (literal_loop p) as [[l' b]|] eqn:Ep; [|discriminate].
      injection E as <- <-. destruct (IH l' b eq_refl) as (m & P & ->). exists m. split; [|auto].
      cbn [map app]. apply G. auto. }
    destruct (N.eqb_spec x quest); [discriminate|].
    destruct (N.eqb_spec x aster) as [->|].
    { destruct (skip_stars_ok (y :: pat)) as (k & _ & E2 & _).
      destruct (snd (skip_stars (y :: pat))) eqn:Es; [|discriminate]. injection H as <- <-.
      exists (S k). split; [|auto]. rewrite marks_plain by discriminate. rewrite E2. cbn.
      rewrite app_nil_r. clear. constructor. induction k; cbn; constructor; auto. }
    destruct (N.eqb_spec x lbr) as [->|].
    { destruct (wcschr (y :: pat) rbr) eqn:Ew; [discriminate|]. rewrite marks_plain by discriminate.
      apply (Cons false) in H; auto. intros l P. apply gp_open; [|auto]. apply gbracket_no_rbr.
      intros q X. apply marks_in in X. eapply wcschr_in; eauto. }
    destruct (N.eqb_spec x bslash) as [->|].
    { rewrite marks_quoted. apply (Cons true) in H; auto. intros l P. apply gp_char; auto. }
    rewrite marks_plain by auto. apply (Cons false) in H; auto. intros l P. apply gp_char; auto.
Qed.

Lemma gmatch_stars ic m : forall s, gmatch C ic (repeat GStar m) s <-> (m = 0 -> s = []).
Proof.
  induction m as [|m IH]; intros s; cbn [repeat].
  - split; [intros H; inversion H; auto|]. intros H. rewrite H by auto. constructor.
  - split; [intros _ [=]|]. intros _. rewrite <- (app_nil_r s). constructor. apply IH. auto.
Qed.
Lemma gmatch_around l1 : forall k lit m s,
  l1 = repeat GStar k ++ map GChar lit ++ repeat GStar m ->
  gmatch C false l1 s <-> around (0 <? k) lit (0 <? m) s.
Proof.
  intros k lit m s ->. revert s. induction k as [|k IH]; intros s; cbn [repeat app].
  - revert s. induction lit as [|c lit IHl]; intros s; cbn [map app].
    + rewrite gmatch_stars. split.
      * intros H. exists [], s. split; [auto|]. split; [auto|]. intros X. apply H. destruct m; [auto|discriminate].
      * intros (a & b & -> & Ha & Hb) ->. rewrite (Ha eq_refl), (Hb eq_refl). auto.
    + split.
      * intros H. inversion H as [| | |c' l' x s' Hc H'|]; subst. apply IHl in H' as (a & b & -> & Ha & Hb).
        unfold char_match in Hc. apply N.eqb_eq in Hc. subst x.
        exists [], b. rewrite (Ha eq_refl). auto.
      * intros (a & b & -> & Ha & Hb). rewrite (Ha eq_refl). cbn [app]. constructor.
        -- unfold char_match. apply N.eqb_refl.
        -- apply IHl. exists [], b. auto.
  - split.
    + intros H. apply gmatch_star_inv in H as (t & s' & -> & H). apply IH in H as (a & b & -> & _ & Hb).
      exists (t ++ a), b. rewrite <- app_assoc. split; [auto|]. split; [discriminate|auto].
    + intros (a & b & -> & _ & Hb). constructor. apply IH. exists [], b. auto.
Qed.

Lemma try_literal_ok pat fl x : try_compile_literal pat fl = Some x ->
  exists hs lit ts,
  (exists l, gparses C (marks pat) l) /\
  (forall s, pmatch C false pat s <-> around hs lit ts s) /\
  x = mkX (mkFl (SHORTEST fl) (HEADONLY fl && negb hs) (TAILONLY fl && negb ts) (PERIOD fl) (CASEFOLD fl)
          (if SHORTEST fl && negb (HEADONLY fl) then false else hs)
          (if SHORTEST fl && HEADONLY fl then false else ts)) (Literal lit).
Proof.
  unfold try_compile_literal. destruct (skip_stars_ok pat) as (k & E1 & E2 & _).
  destruct (skip_stars pat) as [hs pat1]. cbn [fst snd] in *.
  destruct (literal_loop pat1) as [[lit ts]|] eqn:El; [|discriminate]. intros [= <-].
  exists hs, lit, ts. apply literal_loop_ok in El as (m & G & ->). subst hs.
  assert (G' : gparses C (marks pat) (repeat GStar k ++ map GChar lit ++ repeat GStar m)).
  { rewrite E2. clear E2. induction k; cbn; [auto|]. constructor. auto. }
  split; [eauto|]. split; [|reflexivity]. intros s. unfold pmatch. split.
  - intros (l & Hl & M). rewrite (gparses_det _ _ _ Hl _ G') in M. eapply gmatch_around in M; eauto.
  - intros A. eexists. split; [exact G'|]. eapply gmatch_around; eauto.
Qed.
End Literal.

(** ** Compiled patterns *)
Section Compiled.
Variable C : ctype.
Hypothesis HC : ctype_ok C.

Lemma regcomp_ok m e (h tl ic : bool) : encodes C m e ->
  (exists re l, regcomp C ((if h then [caret] else []) ++ e ++ tailtext tl) ic = Ok (Some re) /\
     gparses C m l /\ rhead re = h /\ rtail re = tl /\ ricase re = ic /\ ratoms re = map to_r l) \/
  ((forall l, ~ gparses C m l) /\ regcomp C ((if h then [caret] else []) ++ e ++ tailtext tl) ic = Ok None).
Proof.
  intros [Hg He].
  assert (E : exists r, regcomp C ((if h then [caret] else []) ++ e ++ tailtext tl) ic = Ok r /\
     re_atoms C (S (length (e ++ tailtext tl))) (e ++ tailtext tl) =
       Ok match r with Some re => Some (ratoms re, rtail re) | None => None end /\
     match r with Some re => rhead re = h /\ ricase re = ic | None => True end).
  { specialize (He tl (S (length (e ++ tailtext tl))) (Nat.lt_succ_diag_r _)).
    assert (exists r, re_atoms C (S (length (e ++ tailtext tl))) (e ++ tailtext tl) = Ok r) as [r Er].
    { destruct He as [(l & _ & ->)|[_ ->]]; eauto. }
    clear He. set (s1 := e ++ tailtext tl) in *.
    assert (Nc : forall c s', s1 = c :: s' -> c <> caret /\ c <> aster).
    { intros c s' Es. unfold s1 in Es. destruct e as [|c' e']; [destruct tl; [injection Es as <- _; split; discriminate|discriminate]|].
      injection Es as -> _. destruct (Hg _ _ eq_refl) as (? & ? & ?). auto. }
    clearbody s1.
    assert (exists r', regcomp C ((if h then [caret] else []) ++ s1) ic = Ok r' /\
      r' = match r with Some (l, t) => Some (mkRe h l t ic) | None => None end) as (r' & E1 & E2).
    { eexists. split; [|reflexivity]. unfold regcomp. destruct h; cbn [app].
      - rewrite N.eqb_refl. destruct s1 as [|c s'] eqn:Es.
        + injection Er as <-. reflexivity.
        + destruct (N.eqb_spec c aster); [exfalso; eapply Nc; eauto|]. cbv beta iota; rewrite Er; reflexivity.
      - destruct s1 as [|c s'] eqn:Es.
        + injection Er as <-. reflexivity.
        + destruct (Nc c s' eq_refl) as [Nc1 Nc2]. apply N.eqb_neq in Nc1, Nc2. rewrite Nc1, Nc2. cbv beta iota zeta.
          rewrite Er. reflexivity. }
    exists r'. split; [auto|]. rewrite Er, E2. destruct r as [[l t]|]; cbn; auto. }
  destruct E as (r & E1 & E2 & E3). destruct (He tl _ (Nat.lt_succ_diag_r _)) as [(l & Hl & E)|[No E]]; rewrite E in E2.
  - destruct r as [re|]; [|discriminate]. injection E2 as E4 E5. left. exists re, l. intuition congruence.
  - destruct r as [re|]; [discriminate|]. right. auto.
Qed.

Lemma try_regex_ok pat fl : clear_pattern pat ->
  (exists re, try_compile_regex C pat fl = Ok (Some (mkX fl (Compiled re))) /\
     (exists l, gparses C (marks pat) l) /\ rhead re = HEADONLY fl /\ rtail re = TAILONLY fl /\
     forall t, rlang C re t <-> pmatch C (CASEFOLD fl) pat t) \/
  ((forall l, ~ gparses C (marks pat) l) /\ try_compile_regex C pat fl = Ok None).
Proof.
  intros Hp. unfold try_compile_regex.
  destruct (encode_ok C HC (S (length pat)) pat (if HEADONLY fl then [caret] else []) ltac:(lia) Hp) as (e & -> & He).
  cbn [rbind].
  assert ((if TAILONLY fl then ((if HEADONLY fl then [caret] else []) ++ e) ++ [dollar] else (if HEADONLY fl then [caret] else []) ++ e) =
     (if HEADONLY fl then [caret] else []) ++ e ++ tailtext (TAILONLY fl)) as ->.
  { destruct (TAILONLY fl); cbn [tailtext]; rewrite <- ?app_assoc, ?app_nil_r; auto. }
  destruct (regcomp_ok (marks pat) e (HEADONLY fl) (TAILONLY fl) (CASEFOLD fl) He)
    as [(re & l & -> & Hl & E1 & E2 & E3 & E4)|[No ->]]; cbn [rbind].
  - left. exists re. split; [auto|]. split; [eauto|]. split; [auto|]. split; [auto|].
    intros t. unfold rlang. rewrite E3, E4, re_match_ok. unfold pmatch. split; [eauto|].
    intros (l' & Hl' & M). now rewrite (gparses_det _ _ _ Hl _ Hl').
  - right. auto.
Qed.

(** A compiled pattern, whatever its form, finds the wanted match. *)
Definition legal (fl : flags) : Prop :=
  (SHORTEST fl = true -> xorb (HEADONLY fl) (TAILONLY fl) = true) /\ (PERIOD fl = true -> HEADONLY fl = true).
Definition dot_first (s : list N) : bool := match s with c :: _ => (c =? dot)%N | [] => false end.
Definition explicit_dot (pat : list N) : bool :=
  match pat with c :: _ => (c =? dot)%N || (c =? bslash)%N | [] => false end.

Definition finds (P : list N -> Prop) (fl : flags) (s : list N) (r : option (nat * nat)) : Prop :=
  if HEADONLY fl && TAILONLY fl then (r <> None <-> P s) else wanted P (SHORTEST fl) (HEADONLY fl) (TAILONLY fl) s r.

Lemma wanted_headtail P short s r : wanted P short true true s r -> (r <> None <-> P s).
Proof.
  assert (E : is_match P true true s 0 (length s) <-> P s).
  { unfold is_match. rewrite substr_end. cbn [skipn]. intuition lia. }
  destruct r as [[i j]|]; cbn.
  - intros [M _]. split; [|discriminate]. intros _. pose proof M as (_ & _ & _ & H1 & H2).
    rewrite (H1 eq_refl), (H2 eq_refl) in M. tauto.
  - intros H. split; [congruence|]. intros Hp. exfalso. apply (H 0 (length s)). tauto.
Qed.

Lemma compile_ok pat fl : clear_pattern pat -> legal fl ->
  (exists x, xfnm_compile C pat fl = Ok (Some x) /\ (exists l, gparses C (marks pat) l) /\
     SHORTEST (xflags x) = SHORTEST fl /\ PERIOD (xflags x) = PERIOD fl && negb (explicit_dot pat) /\
     (HEADONLY (xflags x) = true -> HEADONLY fl = true) /\ (TAILONLY (xflags x) = true -> TAILONLY fl = true) /\
     forall s, PERIOD (xflags x) && dot_first s = false ->
       exists r, xfnm_wmatch C x s = Ok r /\ finds (pmatch C (CASEFOLD fl) pat) fl s r) \/
  ((forall l, ~ gparses C (marks pat) l) /\ xfnm_compile C pat fl = Ok None).
Proof.
  intros Hp [L1 L2]. unfold xfnm_compile.
  assert (SHORTEST fl && negb (xorb (HEADONLY fl) (TAILONLY fl)) = false) as ->.
  { destruct (SHORTEST fl); [rewrite (L1 eq_refl)|]; reflexivity. }
  assert (PERIOD fl && negb (HEADONLY fl) = false) as ->.
  { destruct (PERIOD fl); [rewrite (L2 eq_refl)|]; reflexivity. }
  fold (explicit_dot pat). cbn [CASEFOLD].
  set (fl1 := mkFl (SHORTEST fl) (HEADONLY fl) (TAILONLY fl) (PERIOD fl && negb (explicit_dot pat)) (CASEFOLD fl) (headstar fl) (tailstar fl)).
  assert (Re : (exists x, try_compile_regex C pat fl1 = Ok (Some x) /\ (exists l, gparses C (marks pat) l) /\
     SHORTEST (xflags x) = SHORTEST fl /\ PERIOD (xflags x) = PERIOD fl && negb (explicit_dot pat) /\
     (HEADONLY (xflags x) = true -> HEADONLY fl = true) /\ (TAILONLY (xflags x) = true -> TAILONLY fl = true) /\
     forall s, PERIOD (xflags x) && dot_first s = false ->
       exists r, xfnm_wmatch C x s = Ok r /\ finds (pmatch C (CASEFOLD fl) pat) fl s r) \/
    ((forall l, ~ gparses C (marks pat) l) /\ try_compile_regex C pat fl1 = Ok None)).
  { destruct (try_regex_ok pat fl1 Hp) as [(re & E & G & Eh & Et & EP)|]; [|auto]. left.
    eexists. split; [exact E|]. split; [auto|]. split; [auto|]. split; [auto|]. split; [auto|]. split; [auto|]. cbn [xflags].
    intros s Hd. unfold xfnm_wmatch. cbn [xflags xval]. fold (dot_first s). rewrite Hd.
    unfold fl1 in *. cbn [HEADONLY TAILONLY SHORTEST CASEFOLD] in *. unfold finds.
    pose proof (regexec_wanted C re s) as W.
    apply (wanted_ext _ _ _ _ _ _ _ EP) in W. rewrite Eh, Et in W.
    destruct (HEADONLY fl && TAILONLY fl) eqn:Eht.
    - eexists. split; [reflexivity|]. apply andb_true_iff in Eht as [H1 H2]. rewrite H1, H2 in W.
      unfold wmatch_headtail. apply wanted_headtail in W. rewrite <- W.
      destruct (regexec C re s); split; congruence.
    - destruct (SHORTEST fl) eqn:Es.
      + specialize (L1 eq_refl). destruct (HEADONLY fl), (TAILONLY fl); try discriminate.
        * eexists. split; [reflexivity|]. eapply wanted_ext; [exact EP|]. apply shortest_head_ok; auto.
        * destruct (shortest_tail_ok C re Eh Et s) as (r & E1 & E2). exists r. split; [auto|]. eapply wanted_ext; [exact EP|]. auto.
      + eexists. split; [reflexivity|]. exact W. }
  destruct (CASEFOLD fl) eqn:Ecf; [exact Re|].
  destruct (try_compile_literal pat fl1) as [x|] eqn:El; [|exact Re].
  left. exists x. split; [auto|].
  apply (try_literal_ok C) in El as (hs & lit & ts & G & EP & ->). split; [auto|]. split; [auto|]. split; [auto|].
  cbn [xflags HEADONLY TAILONLY]. split; [intros X; apply andb_true_iff in X; tauto|].
  split; [intros X; apply andb_true_iff in X; tauto|].
  cbn [xflags PERIOD]. intros s Hd. unfold xfnm_wmatch. cbn [xflags xval PERIOD]. fold (dot_first s). rewrite Hd.
  destruct (wmatch_literal_ok fl1 hs lit ts s L1) as (r & E1 & E2). exists r. split; [exact E1|].
  eapply wanted_ext in E2; [|intros t; symmetry; apply EP]. unfold finds. cbn [SHORTEST HEADONLY TAILONLY fl1] in E2.
  destruct (HEADONLY fl && TAILONLY fl) eqn:Eht; [|auto]. apply andb_true_iff in Eht as [H1 H2]. rewrite H1, H2 in E2.
  eapply wanted_headtail; eauto.
Qed.
End Compiled.

(** ** Strings that are not patterns *)

(** A backslash-unescaped string and the same string with everything quoted. *)
Definition unescape (pat : list N) : list N := map fst (marks pat).
Definition quoteall (t : list N) : list N := flat_map (fun c => [bslash; c]) t.

Lemma marks_quoteall t : marks (quoteall t) = map (fun c => (c, true)) t.
Proof. induction t as [|c t IH]; [reflexivity|]. cbn [quoteall flat_map app]. rewrite marks_quoted. cbn. f_equal. exact IH. Qed.
Lemma clear_quoteall t : clear_pattern (quoteall t).
Proof.
  unfold clear_pattern. rewrite marks_quoteall. generalize false.
  induction t as [|c t IH]; intros b; [reflexivity|]. cbn [map clear_marks]. rewrite andb_false_r. apply IH.
Qed.
Lemma gparses_quoteall C t : gparses C (marks (quoteall t)) (map GChar t).
Proof. rewrite marks_quoteall. induction t; cbn; constructor; auto. Qed.

Lemma bracket2_copy_raw d r : d <> bslash -> forall n pre fuel buf, length pre <= n -> length pre + 2 <= fuel ->
  exists buf', bracket2_copy fuel (pre ++ d :: rbr :: r) (d :: rbr :: r) buf = Ok (rbr :: r, buf').
Proof.
  intros Hd. set (p := d :: rbr :: r).
  assert (End : forall fuel buf, 1 <= fuel -> exists buf', bracket2_copy fuel (rbr :: r) p buf = Ok (rbr :: r, buf')).
  { intros [|f] buf Hf; [lia|]. cbn [bracket2_copy]. change (rbr =? bslash)%N with false. cbn [rbind].
    assert (length (rbr :: r) <? length p = true) as -> by (apply Nat.ltb_lt; unfold p; cbn; lia).
    rewrite N.eqb_refl. eauto. }
  assert (At : forall fuel buf, 2 <= fuel -> exists buf', bracket2_copy fuel p p buf = Ok (rbr :: r, buf')).
  { intros [|f] buf Hf; [lia|]. cbn [bracket2_copy]. unfold p at 1.
    destruct (N.eqb_spec d bslash); [contradiction|]. cbn [rbind]. unfold p at 1. fold p. rewrite Nat.ltb_irrefl. apply End. lia. }
  induction n as [|n IH]; intros pre fuel buf Hn Hf.
  - destruct pre; [|cbn in Hn; lia]. cbn in *. apply At. lia.
  - destruct pre as [|c pre]; [cbn in *; apply At; lia|]. cbn [length] in *.
    destruct fuel as [|f]; [lia|]. cbn [app bracket2_copy].
    destruct (N.eqb_spec c bslash) as [->|Hc]; cbn [rbind].
    + destruct pre as [|c1 pre].
      * cbn [app]. unfold p at 1. fold p. rewrite Nat.ltb_irrefl. apply End. cbn in Hf. lia.
      * cbn [app]. cbn [length] in *.
        match goal with |- context [if ?b then _ else _] => assert (b = false) as -> by (apply Nat.ltb_ge; cbn [length]; rewrite app_length; lia) end.
        apply IH; lia.
    + match goal with |- context [if ?b then _ else _] => assert (b = false) as -> by (apply Nat.ltb_ge; cbn [length]; rewrite app_length; lia) end.
      apply IH; lia.
Qed.

Lemma bracket_loop_encode N0 : forall f pat f' buf, length pat < N0 -> bracket_loop f N0 pat = Ok false ->
  length pat < f' -> encode_bracket_loop f' pat buf = Ok None.
Proof.
  induction f as [|f IH]; intros pat [|f'] buf Hn H Hf; try discriminate; try lia.
  cbn [bracket_loop] in H. cbn [encode_bracket_loop].
  destruct pat as [|c pat]; [reflexivity|]. cbn [length] in *.
  destruct (N.eqb_spec c lbr) as [->|].
  - unfold encode_pattern_bracket2. rewrite N.eqb_refl. cbn [negb].
    destruct pat as [|d pat].
    + cbn [rbind]. apply (IH []); auto; cbn; lia.
    + destruct (is_symd d) eqn:Ed.
      * pose proof (wcsstr_ok [d; rbr] pat) as W. destruct (wcsstr pat [d; rbr]) as [p|]; [|reflexivity].
        destruct W as (k & [O1 O2] & -> & _). apply starts_iff in O2 as [r Er]. rewrite Er in *. cbn [app skipn] in *.
        assert (Ep : lbr :: d :: pat = (lbr :: d :: firstn k pat) ++ d :: rbr :: r).
        { rewrite <- (firstn_skipn k pat) at 1. rewrite Er. reflexivity. }
        assert (Lp : length pat = k + (2 + length r)).
        { rewrite <- (firstn_skipn k pat), app_length, Er, firstn_length. cbn. lia. }
        destruct (bracket2_copy_raw d r ltac:(apply symd_ne in Ed as [Ed _]; apply N.eqb_neq; auto) _ (lbr :: d :: firstn k pat) (S (length (lbr :: d :: pat))) buf (le_n _)) as [buf' E].
        { cbn [length]. rewrite firstn_length. lia. }
        rewrite <- Ep in E. rewrite E. cbn [rbind].
        apply (IH r); auto; cbn [length] in *; lia.
      * cbn [rbind]. apply (IH (d :: pat)); auto; cbn [length] in *; lia.
  - destruct (N.eqb_spec c rbr) as [->|].
    + change (rbr =? bslash)%N with false. destruct (Nat.ltb_spec (S (length pat)) N0); [discriminate|lia].
    + destruct (N.eqb_spec c bslash) as [->|].
      * destruct pat as [|c1 pat]; [reflexivity|]. apply (IH pat); auto; cbn in *; lia.
      * apply (IH pat); auto; lia.
Qed.

Lemma not_bracket_encode pat buf : is_matching_pattern_bracket (lbr :: pat) = Ok false ->
  encode_pattern_bracket (lbr :: pat) buf = Ok (lbr :: pat, buf ++ [bslash; lbr]).
Proof.
  unfold is_matching_pattern_bracket, encode_pattern_bracket. rewrite N.eqb_refl. cbn [negb]. intros H.
  assert (Go : forall f q n, bracket_loop f (length pat) q = Ok false -> length q < length pat -> length q < n ->
     forall buf', encode_bracket_loop n q buf' = Ok None).
  { intros f q n Hq H1 H2 buf'. exact (bracket_loop_encode _ f q n buf' H1 Hq H2). }
  destruct pat as [|c pat]; [reflexivity|]. set (N0 := length (c :: pat)) in *.
  destruct ((c =? excl)%N || (c =? caret)%N) eqn:Ec.
  - (* after an exclamation mark *)
    assert (Ne : (c =? lbr)%N = false /\ (c =? rbr)%N = false /\ (c =? bslash)%N = false).
    { apply orb_true_iff in Ec as [Ec|Ec]; apply N.eqb_eq in Ec; subst c; auto. }
    destruct Ne as (N1 & N2 & N3). cbn [bracket_loop] in H. rewrite N1, N2, N3 in H.
    destruct pat as [|c2 pat]; [reflexivity|].
    destruct (N.eqb_spec c2 rbr) as [->|].
    + exfalso. unfold N0 in H. cbn [bracket_loop length] in H. change (rbr =? lbr)%N with false in H. rewrite N.eqb_refl in H. destruct (Nat.ltb_spec (S (length pat)) (S (S (length pat)))); [discriminate|lia].
    + rewrite (Go _ _ _ H); [reflexivity| |]; unfold N0; cbn; lia.
  - destruct (N.eqb_spec c rbr) as [->|].
    + cbn [bracket_loop] in H. change (rbr =? lbr)%N with false in H. rewrite N.eqb_refl in H.
      unfold N0 in H at 1. rewrite Nat.ltb_irrefl in H.
      rewrite (Go _ _ _ H); [reflexivity| |]; unfold N0; cbn; lia.
    + assert (B : forall f, encode_bracket_loop f (c :: pat) (buf ++ [lbr]) = Ok None \/ f <= length (c :: pat)).
      { intros f. destruct (Nat.le_gt_cases f (length (c :: pat))); [auto|left].
        apply (bracket_loop_encode (S N0) (S N0)); [unfold N0; lia| |lia].
        (* the first character is not a closing bracket, so its position is irrelevant *)
        assert (forall k q, (forall q', q <> rbr :: q') -> length q <= length (c :: pat) ->
          bracket_loop k N0 q = Ok false -> bracket_loop k (S N0) q = Ok false) as Mono.
        { clear -n. assert (M : forall k q, length q < N0 -> bracket_loop k N0 q = Ok false -> bracket_loop k (S N0) q = Ok false).
          { induction k as [|k IH]; intros q Hq H; [discriminate|]. cbn [bracket_loop] in *.
            destruct q as [|x q]; [auto|]. cbn [length] in *.
            destruct (x =? lbr)%N.
            - destruct q as [|d q]; [apply IH; auto; cbn; lia|]. destruct (is_symd d); [|apply IH; auto; cbn in *; lia].
              pose proof (wcsstr_ok [d; rbr] q) as W. destruct (wcsstr q [d; rbr]); [|auto]. destruct W as (j & O & -> & _).
              apply IH; auto. rewrite !skipn_length. cbn in *. lia.
            - destruct (x =? rbr)%N.
              + destruct (Nat.ltb_spec (S (length q)) N0); [discriminate|lia].
              + destruct (x =? bslash)%N; [destruct q; [auto|]|]; apply IH; auto; cbn in *; lia. }
          intros [|k] q Hq Hl H; [discriminate|]. cbn [bracket_loop] in *.
          destruct q as [|x q]; [auto|]. cbn [length] in *.
          destruct (x =? lbr)%N.
          - destruct q as [|d q]; [apply M; auto; unfold N0; cbn; lia|]. destruct (is_symd d); [|apply M; auto; unfold N0; cbn in *; lia].
            pose proof (wcsstr_ok [d; rbr] q) as W. destruct (wcsstr q [d; rbr]); [|auto]. destruct W as (j & O & -> & _).
            apply M; auto. rewrite !skipn_length. unfold N0. cbn in *. lia.
          - destruct (N.eqb_spec x rbr); [subst; exfalso; eapply Hq; eauto|].
            destruct (x =? bslash)%N; [destruct q; [auto|]|]; apply M; auto; unfold N0; cbn in *; lia. }
        apply Mono; auto. intros q' [= ? ?]. contradiction. }
      destruct (B (S (length (c :: pat)))) as [->|]; [reflexivity|lia].
Qed.

Lemma is_matching_total pat : exists b, is_matching_pattern pat = Ok b.
Proof.
  assert (B : forall f n q, length q < f -> exists b, bracket_loop f n q = Ok b).
  { induction f as [|f IH]; intros n q Hq; [lia|]. cbn [bracket_loop]. destruct q as [|c q]; [eauto|]. cbn [length] in *.
    destruct (c =? lbr)%N.
    - destruct q as [|d q]; [apply IH; cbn; lia|]. destruct (is_symd d); [|apply IH; cbn in *; lia].
      pose proof (wcsstr_ok [d; rbr] q) as W. destruct (wcsstr q [d; rbr]); [|eauto]. destruct W as (j & O & -> & _).
      apply IH. rewrite !skipn_length. cbn in *. lia.
    - destruct (c =? rbr)%N; [destruct (S (length q) <? n); eauto; apply IH; lia|].
      destruct (c =? bslash)%N; [destruct q; [eauto|]|]; apply IH; cbn in *; lia. }
  assert (G : forall f q, length q < f -> exists b, is_matching_loop f q = Ok b).
  { induction f as [|f IH]; intros q Hq; [lia|]. cbn [is_matching_loop]. destruct q as [|c q]; [eauto|]. cbn [length] in *.
    destruct (c =? bslash)%N; [destruct q; [eauto|]; apply IH; cbn in *; lia|].
    destruct ((c =? aster)%N || (c =? quest)%N); [eauto|].
    destruct (N.eqb_spec c lbr) as [->|]; [|apply IH; lia].
    unfold is_matching_pattern_bracket. rewrite N.eqb_refl.
    destruct (B (S (length q)) (length q) q ltac:(lia)) as [b ->]. cbn [rbind]. destruct b; [eauto|]. apply IH; lia. }
  apply G. lia.
Qed.

Definition esc (c : N) : list N :=
  if existsb (N.eqb c) [dot; aster; lbr; caret; dollar; bslash] then [bslash; c] else [c].
Lemma encode_not_pattern : forall f n pat buf, is_matching_loop f pat = Ok false -> length pat < n ->
  encode_pattern n pat buf = Ok (buf ++ flat_map esc (unescape pat)).
Proof.
  unfold unescape. induction f as [|f IH]; intros [|n] pat buf H Hn; try discriminate; try lia.
  cbn [is_matching_loop] in H. cbn [encode_pattern]. destruct pat as [|c pat]; [cbn; now rewrite app_nil_r|].
  cbn [length] in Hn.
  destruct (N.eqb_spec c bslash) as [->|Nb].
  - change (bslash =? quest)%N with false. change (bslash =? aster)%N with false. change (bslash =? lbr)%N with false.
    destruct pat as [|c1 pat]; [cbn; now rewrite app_nil_r|].
    rewrite marks_quoted. cbn [map fst flat_map]. fold (esc c1).
    rewrite (IH n) by (auto; cbn in Hn; lia). now rewrite <- app_assoc.
  - destruct (N.eqb_spec c aster); [discriminate|]. destruct (N.eqb_spec c quest); [discriminate|]. cbn [orb] in H.
    rewrite marks_plain by auto. cbn [map fst flat_map].
    destruct (N.eqb_spec c lbr) as [->|].
    + destruct (is_matching_pattern_bracket (lbr :: pat)) as [[|]| |] eqn:Eb; try discriminate. cbn [rbind] in H.
      rewrite (not_bracket_encode pat buf Eb). cbn [rbind]. rewrite (IH n) by (auto; lia). now rewrite <- app_assoc.
    + destruct ((c =? dot)%N || (c =? caret)%N || (c =? dollar)%N) eqn:Es; rewrite (IH n) by (auto; lia); rewrite <- app_assoc; f_equal; f_equal; f_equal;
        unfold esc; cbn [existsb].
      * apply orb_true_iff in Es as [Es|Es]; [apply orb_true_iff in Es as [Es|Es]|]; rewrite Es; rewrite ?orb_true_r; auto.
      * apply orb_false_iff in Es as [Es E3]; apply orb_false_iff in Es as [E1 E2]. rewrite E1, E2, E3.
        repeat match goal with H : c <> _ |- _ => apply N.eqb_neq in H; rewrite H; clear H end. reflexivity.
Qed.
Lemma encode_quoteall t : forall n buf, length (quoteall t) < n ->
  encode_pattern n (quoteall t) buf = Ok (buf ++ flat_map esc t).
Proof.
  induction t as [|c t IH]; intros [|n] buf Hn; try lia; [cbn; now rewrite app_nil_r|].
  cbn [quoteall flat_map app encode_pattern]. change (bslash =? quest)%N with false. change (bslash =? aster)%N with false.
  change (bslash =? lbr)%N with false. rewrite N.eqb_refl. fold (esc c). fold (quoteall t).
  rewrite IH; [now rewrite <- app_assoc|]. unfold quoteall in *. cbn in Hn. lia.
Qed.
Lemma regex_not_pattern C pat fl : is_matching_pattern pat = Ok false ->
  try_compile_regex C pat fl = try_compile_regex C (quoteall (unescape pat)) fl.
Proof.
  intros H. unfold try_compile_regex. rewrite (encode_not_pattern _ _ _ _ H) by lia.
  rewrite encode_quoteall by lia. reflexivity.
Qed.
Lemma literal_not_pattern : forall f pat, is_matching_loop f pat = Ok false ->
  forall lit ts, literal_loop pat = Some (lit, ts) -> lit = unescape pat /\ ts = false.
Proof.
  unfold unescape. intros f pat. revert f. induction pat as [| |x y pat IH1 IH2] using list_ind2; intros [|f] H lit ts E; try discriminate.
  - injection E as <- <-. auto.
  - cbn [is_matching_loop] in H. cbn [literal_loop marks] in *.
    destruct (N.eqb_spec x bslash) as [->|].
    { cbn in E. injection E as <- <-. auto. }
    destruct (N.eqb_spec x quest); [discriminate|]. destruct (N.eqb_spec x aster); [discriminate|].
    destruct (x =? lbr)%N; cbn in E; injection E as <- <-; auto.
  - cbn [is_matching_loop] in H. rewrite literal_cons2 in E. cbv zeta in E.
    destruct (N.eqb_spec x bslash) as [->|].
    { change (bslash =? quest)%N with false in E. change (bslash =? aster)%N with false in E. change (bslash =? lbr)%N with false in E.
      rewrite marks_quoted. cbn [map fst]. destruct (literal_loop pat) as [[l b]|] eqn:El; [|discriminate].
      injection E as <- <-. destruct (IH1 f H l b eq_refl) as [-> ->]. auto. }
    destruct (N.eqb_spec x quest); [discriminate|]. destruct (N.eqb_spec x aster); [discriminate|]. cbn [orb] in H.
    rewrite marks_plain by auto. cbn [map fst].
    assert (exists l, literal_loop (y :: pat) = Some (l, ts) /\ lit = x :: l) as (l & El & ->).
    { destruct (x =? lbr)%N; [destruct (wcschr (y :: pat) rbr); [discriminate|]|];
        destruct (literal_loop (y :: pat)) as [[l b]|]; try discriminate; injection E as <- <-; eauto. }
    assert (is_matching_loop f (y :: pat) = Ok false) as Hf.
    { destruct (x =? lbr)%N; [|auto]. destruct (is_matching_pattern_bracket (x :: y :: pat)) as [[|]| |]; auto; discriminate. }
    destruct (IH2 f Hf l ts El) as [-> ->]. auto.
Qed.
Lemma skip_not_pattern f pat : is_matching_loop f pat = Ok false -> skip_stars pat = (false, pat).
Proof.
  destruct f; [discriminate|]. cbn [is_matching_loop]. destruct pat as [|c pat]; [reflexivity|]. cbn [skip_stars].
  destruct (N.eqb_spec c aster) as [->|]; [|auto]. change (aster =? bslash)%N with false. discriminate.
Qed.

Lemma gmatch_chars C t : forall s, gmatch C false (map GChar t) s <-> s = t.
Proof.
  induction t as [|c t IH]; intros s; cbn [map].
  - split; [intros H; inversion H; auto|intros ->; constructor].
  - split.
    + intros H. inversion H as [| | |c' l' x s' Hc H'|]; subst. apply IH in H' as ->. unfold char_match in Hc.
      apply N.eqb_eq in Hc. congruence.
    + intros ->. constructor; [unfold char_match; apply N.eqb_refl|]. apply IH. auto.
Qed.

(** ** Substitution *)
Section Subst.
Variable C : ctype.
Hypothesis HC : ctype_ok C.

Lemma subst_once_ok pat repl (head tail : bool) s : clear_pattern pat -> head && tail = false ->
  exists r, wanted (pmatch C false pat) false head tail s r /\
    subst_each C head tail false pat repl s =
      Ok match r with
         | Some (i, j) => if i <? j then firstn i s ++ repl ++ skipn j s else s
         | None => s
         end.
Proof.
  intros Hp Hht. unfold subst_each. set (fl := mkFl false head tail false false false false).
  destruct (compile_ok C HC pat fl Hp) as [(x & -> & _ & Es & Ep & Eh & Et & W)|[No ->]]; cbn [rbind].
  { split; cbn; discriminate. }
  - cbn in Ep. specialize (W s). rewrite Ep in W. destruct (W eq_refl) as (r & Er & Hr). unfold finds in Hr. cbn in Hr. rewrite Hht in Hr.
    exists r. split; [auto|]. unfold xfnm_subst.
    assert (HEADONLY (xflags x) && TAILONLY (xflags x) = false) as ->.
    { destruct (HEADONLY (xflags x)), (TAILONLY (xflags x)); auto. cbn in *. rewrite (Eh eq_refl), (Et eq_refl) in Hht. discriminate. }
    assert ((if HEADONLY (xflags x) then false else false) = false) as -> by (destruct (HEADONLY (xflags x)); auto).
    cbn [subst_loop]. rewrite Er. cbn [rbind]. destruct r as [[i j]|]; [|reflexivity].
    destruct (Nat.leb_spec j i); destruct (Nat.ltb_spec i j); try lia; [reflexivity|].
    destruct Hr as [(_ & Hj & _) _]. destruct (Nat.ltb_spec (length s) j); [lia|]. cbn [app]. now rewrite <- app_assoc.
  - exists None. split; [|reflexivity]. intros i j (_ & _ & (l & Hl & _) & _). eapply No; eauto.
Qed.

Lemma subst_all_ok pat repl s : clear_pattern pat ->
  exists out, subst_each C false false true pat repl s = Ok out /\ replaces_all (pmatch C false pat) false repl s out.
Proof.
  intros Hp. unfold subst_each. set (fl := mkFl false false false false false false false).
  destruct (compile_ok C HC pat fl Hp) as [(x & -> & _ & Es & Ep & Eh & Et & W)|[No ->]]; cbn [rbind].
  { split; cbn; discriminate. }
  - unfold xfnm_subst. destruct (HEADONLY (xflags x)) eqn:Ex; [specialize (Eh eq_refl); discriminate|]. cbn [andb].
    assert (G : forall f s buf, length s < f ->
      exists out, subst_loop C f x s repl true buf = Ok (buf ++ out) /\ replaces_all (pmatch C false pat) false repl s out).
    { induction f as [|f IH]; intros t buf Hf; [lia|]. cbn [subst_loop].
      cbn in Ep. destruct (W t ltac:(rewrite Ep; reflexivity)) as (r & Er & Hr). unfold finds in Hr. cbn [fl HEADONLY TAILONLY SHORTEST andb] in Hr.
      rewrite Er. cbn [rbind]. destruct r as [[i j]|].
      - destruct (Nat.leb_spec j i).
        + exists t. split; [auto|]. econstructor; [exact Hr|]. intros ? ? [= <- <-]. lia.
        + pose proof Hr as [(_ & Hj & _) _]. destruct (Nat.ltb_spec (length t) j); [lia|].
          destruct (IH (skipn j t) (buf ++ firstn i t ++ repl)) as (out & -> & Ho); [rewrite skipn_length; lia|].
          exists (firstn i t ++ repl ++ out). split; [now rewrite <- !app_assoc|]. eapply ra_next; eauto.
      - exists t. split; [auto|]. econstructor; [exact Hr|]. discriminate. }
    apply (G (S (length s)) s []). lia.
  - exists s. split; [auto|]. apply (ra_stop _ _ _ _ None); [|discriminate].
    intros i j (_ & _ & (l & Hl & _) & _). eapply No; eauto.
Qed.

Lemma subst_whole_ok pat repl s : clear_pattern pat -> s <> [] ->
  exists out, subst_each C true true false pat repl s = Ok out /\
    (pmatch C false pat s -> out = repl) /\ (~ pmatch C false pat s -> out = s).
Proof.
  intros Hp Hs. unfold subst_each, xfnm_compile. cbn [SHORTEST HEADONLY TAILONLY PERIOD CASEFOLD andb negb xorb].
  set (fl := mkFl false true true _ false _ _).
  destruct (try_compile_literal pat fl) as [x|] eqn:El; cbn [rbind].
  - apply (try_literal_ok C) in El as (hs & lit & ts & G & EP & ->).
    match goal with |- context [mkX ?f (Literal lit)] => change f with (mkFl false (negb hs) (negb ts) false false hs ts) end.
    unfold xfnm_subst. cbn [xflags xval HEADONLY TAILONLY].
    assert (W : forall t, exists r, wmatch_literal (mkFl false (negb hs) (negb ts) false false hs ts) lit t = Ok r /\
       wanted (pmatch C false pat) false true true t r).
    { intros t. destruct (wmatch_literal_ok fl hs lit ts t) as (r & E1 & E2); [discriminate|]. exists r. split; [exact E1|].
      eapply wanted_ext; [|exact E2]. intros u. symmetry. apply EP. }
    destruct (W s) as (r & Er & Wr). pose proof (wanted_headtail _ _ _ _ Wr) as Hr.
    destruct (negb hs && negb ts) eqn:Eb.
    + rewrite Er. cbn [rbind]. eexists. split; [reflexivity|]. rewrite <- Hr. destruct r; split; intros; try congruence.
      exfalso. apply H. discriminate.
    + assert ((if negb hs then false else false) = false) as -> by (destruct hs; auto). cbn [subst_loop].
      unfold xfnm_wmatch. cbn [xflags xval PERIOD andb]. rewrite Er. cbn [rbind].
      destruct r as [[i j]|].
      * destruct Wr as [(_ & _ & _ & H1 & H2) _]. rewrite (H1 eq_refl), (H2 eq_refl).
        assert (length s <> 0) by (destruct s; [congruence|discriminate]).
        destruct (Nat.leb_spec (length s) 0); [lia|]. rewrite Nat.ltb_irrefl. rewrite skipn_all. cbn [firstn app].
        eexists. split; [reflexivity|]. rewrite app_nil_r. split; [auto|]. intros Hn. exfalso. apply Hn, Hr. discriminate.
      * eexists. split; [reflexivity|]. cbn [app]. rewrite <- Hr. split; congruence.
  - destruct (try_regex_ok C HC pat fl Hp) as [(re & -> & G & Eh & Et & EP)|[No ->]]; cbn [rbind].
    + unfold xfnm_subst. cbn [xflags xval HEADONLY TAILONLY fl andb]. cbn [rbind]. unfold wmatch_headtail.
      pose proof (regexec_wanted C re s) as W. apply (wanted_ext _ _ _ _ _ _ _ EP) in W. rewrite Eh, Et in W.
      apply wanted_headtail in W. cbn [CASEFOLD fl] in W. eexists. split; [reflexivity|]. rewrite <- W.
      destruct (regexec C re s); split; intros; try congruence. exfalso. apply H. discriminate.
    + eexists. split; [reflexivity|]. split; [|auto]. intros (l & Hl & _). exfalso. eapply No; eauto.
Qed.
End Subst.

Lemma xfnm_match_wmatch C x s : SHORTEST (xflags x) = false ->
  xfnm_match C x s = let! r := xfnm_wmatch C x s in Ok match r with Some _ => true | None => false end.
Proof.
  intros Hs. unfold xfnm_match, xfnm_wmatch. rewrite Hs.
  destruct (PERIOD (xflags x) && match s with c :: _ => (c =? dot)%N | [] => false end); [reflexivity|].
  destruct (xval x) as [re|lit]; [|reflexivity].
  destruct (HEADONLY (xflags x) && TAILONLY (xflags x)); cbn [rbind]; [|reflexivity].
  unfold wmatch_headtail. destruct (regexec C re s); reflexivity.
Qed.
