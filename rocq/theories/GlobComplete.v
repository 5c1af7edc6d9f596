(** The search finds everything it can reach. *)
From Coq Require Import Ascii String.
From Coq Require Import List NArith Bool Arith Lia Permutation.
From Verif Require Import Common GlobModel GlobSpec GlobProofs GlobSound.
Import ListNotations.
Local Open Scope res_scope.

Lemma scan_inv f : forall l st st' rs, scan f l st = Ok (st', rs) -> forall name only, In (name, only) l ->
  exists s s' r, f name only s = Ok (s', r) /\ incl r rs.
Proof.
  induction l as [|[nm on] l IH]; intros st st' rs H name only I; [destruct I|]. cbn [scan] in H.
  apply bind_ok in H as ([s1 r1] & E1 & H). apply bind_ok in H as ([s2 r2] & E2 & H). injection H as <- <-.
  destruct I as [X|I].
  - injection X as -> ->. exists st, s1, r1. split; auto. apply incl_appl, incl_refl.
  - destruct (IH _ _ _ E2 name only I) as (s & s' & r & E & IN). exists s, s', r. split; auto. apply incl_appr, IN.
Qed.

Lemma skip_cons {A} (l : list A) i x r : skipn i l = x :: r ->
  nth_error l i = Some x /\ skipn (S i) l = r /\ (r <> [] -> S i < length l) /\ (r = [] -> S i = length l /\ forall d, last l d = x).
Proof.
  revert l. induction i as [|i IH]; intros [|y l] E; try discriminate.
  - cbn in E. injection E as -> ->. split; [reflexivity|]. split; [reflexivity|]. split.
    + intros NE. destruct r; [congruence|cbn; lia].
    + intros ->. auto.
  - cbn in E. destruct (IH _ E) as (H1 & H2 & H3 & H4). split; [exact H1|]. split; [exact H2|]. split.
    + intros NE. specialize (H3 NE). cbn. lia.
    + intros X. destruct (H4 X) as (Y & Z). split; [cbn; lia|]. intros d. destruct l as [|z l]; [destruct i; discriminate|]. apply Z.
Qed.

Section Complete.
Context (V : files) (order : list (list N) -> list (list N)) (cs : list comp) (mark : bool).
Hypothesis PROPER : proper cs.
Hypothesis ORDER : forall l, Permutation (order l) l.
Hypothesis CONS : consistent V.
Hypothesis NOSLASH : forall l, In (Lit l) cs -> ~ In slash l.
Context (all : list (list N)).
Hypothesis CYCLE : no_cycle V all.
Hypothesis SHORT : length all < 255.
Hypothesis EXISTS : stat V (names_text all) <> None.

Notation search := (search V order cs mark).
Notation level := (level V order cs mark).
Notation J := (J V cs false).
Let NOSTRICT : false = true -> forall f g, uses cs f -> uses cs g -> f = g.
Proof. discriminate. Qed.

Definition closed (act : list N) : Prop :=
  forall j fl ap, nth_error cs j = Some (Rec fl ap) -> active act j -> active act (S j).

Lemma names_text_split dirs n ns : exists r, names_text (rev dirs ++ n :: ns) = dir_path dirs ++ n ++ r /\
  (r = [] \/ exists r', r = slash :: r').
Proof.
  destruct ns as [|m ns].
  - exists []. split; [|auto]. rewrite app_nil_r. symmetry. apply path_text.
  - exists (slash :: names_text (m :: ns)). split; [|eauto].
    clear. rewrite dir_path_concat. induction (rev dirs) as [|x l IH]; [reflexivity|].
    cbn [app]. destruct (l ++ n :: m :: ns) as [|y k] eqn:E; [destruct l; discriminate|].
    change (names_text (x :: y :: k)) with (x ++ slash :: names_text (y :: k)). rewrite IH. cbn [map concat].
    rewrite <- !app_assoc. reflexivity.
Qed.

(** The result for the last name. *)
Lemma results_in dirs name only c : rev dirs ++ [name] = all -> last cs (Lit []) = c -> step c name ->
  In (shown V cs mark all) (results V mark name (dir_path dirs ++ name) only c).
Proof.
  intros E LC ST. unfold shown. rewrite LC, <- E.
  assert (PT : names_text (rev dirs ++ [name]) = dir_path dirs ++ name) by (symmetry; apply path_text).
  rewrite PT. unfold results, add_result. rewrite <- E, PT in EXISTS.
  destruct (stat V (dir_path dirs ++ name)) as [[ino d]|] eqn:S; [|destruct EXISTS; reflexivity]. cbn [negb].
  rewrite andb_false_r. destruct c as [l|f|]; cbn [marked negb orb andb] in *; [|destruct only, mark, d; cbn; auto|destruct ST].
  destruct only; cbn; auto.
Qed.

Definition goal (i : nat) (dirs : list (list N)) : Prop :=
  forall n prev act st rs, level n (dir_path dirs) prev act st = Ok rs -> J dirs (st :: prev) act -> closed act ->
    active act i -> In (shown V cs mark all) rs.

(** A name that is met. *)
Lemma entry_in i c dirs n prev act st name only s s' r ns :
  entry V order cs mark n (dir_path dirs) prev act st name only s = Ok (s', r) -> J dirs (st :: prev) act ->
  rev dirs ++ name :: ns = all -> nth_error cs i = Some c -> active act i ->
  (step c name /\ (S i = length cs /\ ns = [] \/ S i < length cs /\ goal (S i) (name :: dirs)) \/
   (forall a, nth_error act i = Some a -> a <> 0%N -> goes V (st :: prev) name (dir_path dirs ++ name) c a) /\
     goal i (name :: dirs)) ->
  In (shown V cs mark all) r.
Proof.
  intros E HJ ALL C AC H. unfold entry in E. destruct HJ as [L HI].
  destruct (entry_ok V mark (uses cs) name (dir_path dirs ++ name) only (st :: prev) cs act 0%N s)
    as (act2 & st2 & r1 & E1 & L2 & _ & _ & _ & N2 & G2 & _ & RB); auto.
  { intros fl ap I. exists ap. exact I. }
  { intros j a k A Hk _. destruct (N.eq_dec a 0) as [->|NZ]; [cbn in Hk; lia|].
    destruct (HI j a A NZ) as [_ _ _ IS _]. destruct (IS k Hk) as (q & f & X & _). exists q. exact X. }
  destruct (entry_J V cs mark PROPER false NOSTRICT (fun _ => True) dirs prev st act name only s (conj L HI)) as (a2 & s2 & r2 & E2 & J2 & _).
  rewrite E1 in E2. injection E2 as <- <- <-. rewrite E1 in E. cbn [rbind] in E.
  apply bind_ok in E as (rs & ES & E). injection E as _ <-. apply in_or_app.
  assert (DOWN : forall k, active act2 k -> goal k (name :: dirs) -> In (shown V cs mark all) rs).
  { intros k AK G.
    destruct n as [|n']; [discriminate ES|]. rewrite search_level in ES.
    destruct (carry_J V cs PROPER false _ _ _ J2) as (act' & EC & J' & M & CL). rewrite EC in ES. cbn [rbind] in ES.
    eapply G; [exact ES|exact J'|exact CL|]. apply M. exact AK. }
  destruct H as [(ST & [(LE & ->)|(LT & G)])|(GO & G)].
  - left. assert (LC : last cs (Lit []) = c).
    { assert (SK : skipn i cs = [c]). { rewrite (skip_nth _ _ _ C). rewrite skipn_all2 by lia. reflexivity. }
      destruct (skip_cons _ _ _ _ SK) as (_ & _ & _ & X). apply X. reflexivity. }
    rewrite RB; rewrite ?LC; auto.
    + apply results_in; auto.
    + destruct cs; [destruct PROPER|discriminate].
    + replace (length cs - 1) with i by lia. exact AC.
  - right. apply (DOWN (S i)); auto. eapply N2; eauto.
  - right. destruct AC as (a & A & NZ). apply (DOWN i); auto. eapply G2; eauto.
    destruct (HI i a A NZ) as [_ _ ID _ _]. assert (LA : length dirs < length all).
    { rewrite <- ALL, app_length, rev_length. cbn. lia. }
    lia.
Qed.

Lemma nth_lit i l : nth_error cs i = Some (Lit l) -> ~ In slash l.
Proof. intros E. apply NOSLASH. eapply nth_error_In; eauto. Qed.

(** Scanning a directory. *)
Lemma scan_in i c dirs n prev act st rs name only l ns :
  (let! (_, rs) := scan (entry V order cs mark n (dir_path dirs) prev act st) l None in Ok rs) = Ok rs ->
  In (name, only) l -> J dirs (st :: prev) act ->
  rev dirs ++ name :: ns = all -> nth_error cs i = Some c -> active act i ->
  (step c name /\ (S i = length cs /\ ns = [] \/ S i < length cs /\ goal (S i) (name :: dirs)) \/
   (forall a, nth_error act i = Some a -> a <> 0%N -> goes V (st :: prev) name (dir_path dirs ++ name) c a) /\
     goal i (name :: dirs)) ->
  In (shown V cs mark all) rs.
Proof.
  intros E I HJ ALL C AC H. apply bind_ok in E as ([st' rs'] & E & X). injection X as <-.
  destruct (scan_inv _ _ _ _ _ E _ _ I) as (s & s' & r & EE & IN). apply IN. eapply entry_in; eauto.
Qed.

Lemma lit_case i l dirs ns : rev dirs ++ l :: ns = all -> nth_error cs i = Some (Lit l) ->
  (S i = length cs /\ ns = [] \/ S i < length cs /\ goal (S i) (l :: dirs)) -> goal i dirs.
Proof.
  intros ALL C H n prev act st rs E HJ CL AC.
  assert (LITS : literals V order cs mark n (dir_path dirs) prev act st = Ok rs -> In (shown V cs mark all) rs).
  { unfold literals. intros E'. assert (IN := lits_in cs act i l C AC).
    destruct (active_literals cs act) as [|l1 [|l2 ls]] eqn:AL; [destruct IN| |].
    - destruct IN as [->|[]]. destruct HJ as [L HI].
      destruct (single_ok cs act l L AL) as (i' & o & C' & AC' & SI & (O1 & O2) & U).
      assert (i = i') by (eapply U; eauto). subst i'. rewrite SI in E'.
      destruct H as [(LE & ->)|(LT & G)].
      + rewrite (O1 LE) in E'. injection E' as <-. apply (results_in dirs l true (Lit l)); auto; [|reflexivity].
        assert (SK : skipn i cs = [Lit l]). { rewrite (skip_nth _ _ _ C). rewrite skipn_all2 by lia. reflexivity. }
        destruct (skip_cons _ _ _ _ SK) as (_ & _ & _ & X). apply X. reflexivity.
      + destruct (O2 LT) as (act2 & -> & L2 & A2 & O3). destruct AC as (a & A & NA).
        assert (J2 : J (l :: dirs) (None :: st :: prev) act2).
        { split; [exact L2|]. intros j b B NB. destruct (O3 j b B NB) as (-> & ->).
          destruct (HI i a A NA) as [I1 I2 I3 I4 (run & I5 & I6)]. constructor; cbn [length]; change (N.to_nat 1) with 1; try lia.
          exists 0. split; [lia|]. intros ms M. cbn [rev]. rewrite <- app_assoc. cbn [app]. apply I6.
          rewrite (skip_nth _ _ _ C). destruct (skipn (S i) cs) as [|c' rest]; [inversion M|]. apply step_goes; auto. reflexivity. }
        destruct n as [|n']; [discriminate E'|]. rewrite search_level in E'.
        destruct (carry_J V cs PROPER false _ _ _ J2) as (act' & EC & J' & M & CL'). rewrite EC in E'. cbn [rbind] in E'.
        eapply G; [exact E'|exact J'|exact CL'|]. apply M. exact A2.
    - rewrite <- AL in *.
      eapply scan_in with (name := l) (only := true) (c := Lit l); eauto.
      + apply in_map_iff. exists l. split; auto. eapply Permutation_in; [symmetry; apply ORDER|]. apply dedup_in. exact IN.
      + left. split; [reflexivity|]. exact H. }
  unfold GlobSound.level in E. destruct (active_matchers cs act) eqn:AM; [|auto].
  destruct (opendir V (match dir_path dirs with [] => str "." | p => p end)) as [names|] eqn:OD.
  2:{ destruct (dir_path dirs); rewrite OD in E; auto. }
  assert (E2 : (let! (_, rs) := scan (entry V order cs mark n (dir_path dirs) prev act st)
                 (([], true) :: map (fun l => (l, false)) names) None in Ok rs) = Ok rs).
  { destruct (dir_path dirs); rewrite OD in E; exact E. }
  assert (IN : exists only, In (l, only) (([], true) :: map (fun l => (l, false)) names)).
  { destruct l as [|x l]; [exists true; now left|]. exists false. right. apply in_map_iff. eexists. split; [reflexivity|].
    destruct (names_text_split dirs (x :: l) ns) as (r & ER & RR). rewrite ALL in ER.
    eapply CONS; [discriminate|eapply nth_lit; exact C|rewrite <- ER; exact EXISTS|exact RR|exact OD]. }
  destruct IN as (only & IN). eapply scan_in with (c := Lit l); eauto. left. split; [reflexivity|exact H].
Qed.

(** Patterns and recursive components, in a readable directory. *)
Lemma match_case i c dirs name ns : is_lit c = false -> listed V dirs name ->
  rev dirs ++ name :: ns = all -> nth_error cs i = Some c ->
  (forall prev act st, J dirs (st :: prev) act ->
   step c name /\ (S i = length cs /\ ns = [] \/ S i < length cs /\ goal (S i) (name :: dirs)) \/
   (forall a, nth_error act i = Some a -> a <> 0%N -> goes V (st :: prev) name (dir_path dirs ++ name) c a) /\
     goal i (name :: dirs)) -> goal i dirs.
Proof.
  intros NL (names & OD & IN) ALL C H n prev act st rs E HJ CL AC.
  unfold GlobSound.level in E. rewrite (matchers_in cs act i c C NL AC) in E.
  assert (E2 : (let! (_, rs) := scan (entry V order cs mark n (dir_path dirs) prev act st)
                 (([], true) :: map (fun l => (l, false)) names) None in Ok rs) = Ok rs).
  { destruct (dir_path dirs); rewrite OD in E; exact E. }
  eapply scan_in with (name := name) (only := false) (c := c); eauto.
  right. apply in_map_iff. exists name. auto.
Qed.

Lemma complete cs' dirs ns : reachable V cs' dirs ns -> forall i, cs' = skipn i cs -> rev dirs ++ ns = all -> goal i dirs.
Proof.
  induction 1 as [l dirs|l cs' dirs ns NE R IH|f n dirs NE F LI|f n cs' dirs ns NE F LI NC R IH|fl ap cs' dirs ns R IH
    |fl ap cs' n ino dirs ns NE HI IF LI R IH]; intros i E ALL; symmetry in E;
    destruct (skip_cons _ _ _ _ E) as (C & SK & LT & LE).
  - eapply lit_case; eauto. left. split; [apply LE; reflexivity|reflexivity].
  - eapply lit_case; eauto. right. split; [auto|]. apply IH; auto. cbn [rev]. rewrite <- app_assoc. exact ALL.
  - apply (match_case i (Pat f) dirs n []); auto. intros prev act st _. left. split; [split; auto|]. left.
    split; [apply LE; reflexivity|reflexivity].
  - apply (match_case i (Pat f) dirs n ns); auto. intros prev act st _. left. split; [split; auto|]. right. split; [auto|].
    apply IH; auto. cbn [rev]. rewrite <- app_assoc. exact ALL.
  - intros n prev act st rs EL HJ CL AC. eapply (IH (S i)); eauto.
  - apply (match_case i (Rec fl ap) dirs n ns); auto. intros prev act st HJ. right. split.
    + intros a A NZ. split; [exact NE|]. split; [exact HI|]. exists ino. split; [exact IF|].
      intros k q Hk NK EQ. subst q. destruct HJ as [_ HJ]. destruct (HJ i a A NZ) as [_ _ ID IS _].
      destruct (IS k Hk) as (q & f & X & _ & LF). rewrite NK in X. injection X as <-.
      assert (Y := CYCLE (length dirs - k) (S (length dirs)) f fl ino).
      assert (LA : length all = length dirs + S (length ns)) by (rewrite <- ALL, app_length, rev_length; reflexivity).
      apply Y; [lia|lia| |].
      * rewrite <- ALL, firstn_app, rev_length.
        replace (length dirs - k - length dirs) with 0 by lia. rewrite firstn_O, app_nil_r.
        rewrite firstn_rev, rev_involutive. replace (length dirs - (length dirs - k)) with k by lia. exact LF.
      * rewrite <- ALL, firstn_app, rev_length. replace (S (length dirs) - length dirs) with 1 by lia.
        rewrite firstn_all2 by (rewrite rev_length; lia). cbn [firstn]. rewrite rev_app_distr, rev_involutive.
        cbn. unfold file. rewrite IF. reflexivity.
    + apply IH; auto. cbn [rev]. rewrite <- app_assoc. exact ALL.
Qed.

Theorem wglob_complete rs : reachable V cs [] all ->
  wglob_components V order cs mark (256 * S (length cs)) = Ok rs -> In (shown V cs mark all) rs.
Proof.
  intros R E. unfold wglob_components in E.
  remember (256 * S (length cs)) as fuel eqn:FU. destruct fuel as [|n]; [lia|]. rewrite search_level in E.
  destruct (carry_J V cs PROPER false _ _ _ (start_J V cs PROPER false)) as (act' & EC & J' & M & CL).
  rewrite EC in E. cbn [rbind] in E.
  eapply (complete cs [] all R 0); eauto. apply M. exists 1%N. split; [reflexivity|discriminate].
Qed.
End Complete.
