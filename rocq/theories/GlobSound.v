(** The search ends, is safe and finds only what matches. *)
From Coq Require Import Ascii String.
From Coq Require Import List NArith Bool Arith Lia Permutation.
From Verif Require Import Common GlobModel GlobSpec GlobProofs.
Import ListNotations.
Local Open Scope res_scope.

Lemma names_text_app ns n : names_text (ns ++ [n]) = concat (map (fun x => x ++ [slash]) ns) ++ n.
Proof.
  induction ns as [|x ns IH]; [reflexivity|]. cbn [app]. destruct (ns ++ [n]) as [|y l] eqn:E.
  - destruct ns; discriminate.
  - change (names_text (x :: y :: l)) with (x ++ slash :: names_text (y :: l)). rewrite IH. cbn [map concat].
    rewrite <- !app_assoc. reflexivity.
Qed.
Lemma dir_path_concat dirs : dir_path dirs = concat (map (fun x => x ++ [slash]) (rev dirs)).
Proof.
  induction dirs as [|d dirs IH]; [reflexivity|]. cbn [dir_path rev]. rewrite map_app, concat_app, IH. cbn.
  rewrite app_nil_r. reflexivity.
Qed.
Lemma path_text dirs n : dir_path dirs ++ n = names_text (rev (n :: dirs)).
Proof. cbn [rev]. rewrite names_text_app, dir_path_concat. reflexivity. Qed.

Lemma scan_ok (Pr : list N -> Prop) f : forall l st,
  (forall name only st, In (name, only) l -> exists st' r, f name only st = Ok (st', r) /\ Forall Pr r) ->
  exists st' rs, scan f l st = Ok (st', rs) /\ Forall Pr rs.
Proof.
  induction l as [|[name only] l IH]; intros st H; cbn [scan]; [eauto|].
  destruct (H name only st) as (st1 & r & E & F); [now left|]. rewrite E. cbn [rbind].
  destruct (IH st1) as (st2 & rs & E2 & F2); [intros; apply H; now right|]. rewrite E2. cbn [rbind].
  do 2 eexists. split; [reflexivity|]. apply Forall_app. auto.
Qed.

(** Literal components. *)
Lemma lits_in : forall cs act j l, nth_error cs j = Some (Lit l) -> active act j -> In l (active_literals cs act).
Proof.
  induction cs as [|c cs IH]; intros act j l E (a & A & NZ); [destruct j; discriminate|].
  destruct act as [|b act]; [destruct j; discriminate|]. destruct j as [|j]; cbn in E, A.
  - injection E as ->. injection A as ->. cbn. destruct (N.eqb_spec a 0); [congruence|]. now left.
  - cbn. assert (X : In l (active_literals cs act)) by (eapply IH; eauto; exists a; auto).
    destruct (b =? 0)%N; auto. destruct c; auto. now right.
Qed.
Lemma lits_from : forall cs act l, In l (active_literals cs act) ->
  exists j, nth_error cs j = Some (Lit l) /\ active act j.
Proof.
  induction cs as [|c cs IH]; intros act l H; [destruct H|]. destruct act as [|b act]; [destruct H|]. cbn in H.
  assert (R : In l (active_literals cs act) -> exists j, nth_error (c :: cs) j = Some (Lit l) /\ active (b :: act) j).
  { intros X. destruct (IH _ _ X) as (j & E & a & A & NZ). exists (S j). split; auto. exists a. auto. }
  destruct (N.eqb_spec b 0) as [->|NZ]; auto. destruct c as [l'|f|fl ap]; auto. destruct H as [->|H]; auto.
  exists 0. split; auto. exists b. auto.
Qed.
Lemma matchers_in : forall cs act j c, nth_error cs j = Some c -> is_lit c = false -> active act j ->
  active_matchers cs act = true.
Proof.
  induction cs as [|c cs IH]; intros act j c0 E L (a & A & NZ); [destruct j; discriminate|].
  destruct act as [|b act]; [destruct j; discriminate|]. destruct j as [|j]; cbn in E, A.
  - injection E as ->. injection A as ->. cbn. rewrite L. destruct (N.eqb_spec a 0); [congruence|]. reflexivity.
  - cbn. rewrite (IH act j c0 E L); [apply orb_true_r|]. exists a. auto.
Qed.
Lemma matchers_active : forall cs act, active_matchers cs act = true -> exists j, active act j.
Proof.
  induction cs as [|c cs IH]; intros act H; [discriminate|]. destruct act as [|b act]; [discriminate|]. cbn in H.
  destruct (N.eqb_spec b 0) as [->|NZ].
  - cbn in H. destruct (IH _ H) as (j & a & A & NZ). exists (S j), a. auto.
  - exists 0, b. auto.
Qed.

Definition only_next (cs : list comp) (i : nat) (o : option (list N)) : Prop :=
  (S i = length cs -> o = None) /\
  (S i < length cs -> exists act2, o = Some act2 /\ length act2 = length cs /\ active act2 (S i) /\
     forall j b, nth_error act2 j = Some b -> b <> 0%N -> j = S i /\ b = 1%N).
Lemma zeros_inactive {A} (l : list A) j b : nth_error (map (fun _ => 0%N) l) j = Some b -> b = 0%N.
Proof. revert j. induction l; intros [|j] E; cbn in E; try discriminate; [injection E as <-; auto|eauto]. Qed.
Lemma single_ok : forall cs act x, length act = length cs -> active_literals cs act = [x] ->
  exists i o, nth_error cs i = Some (Lit x) /\ active act i /\ single cs act = Some (x, o) /\ only_next cs i o /\
    forall j l, nth_error cs j = Some (Lit l) -> active act j -> j = i.
Proof.
  induction cs as [|c cs IH]; intros act x L H; [discriminate H|]. destruct act as [|b act]; [discriminate L|].
  cbn in L. injection L as L. cbn [active_literals] in H.
  assert (R : active_literals cs act = [x] -> (b <> 0%N -> is_lit c = false) ->
    exists i o, nth_error (c :: cs) i = Some (Lit x) /\ active (b :: act) i /\
      match single cs act with Some (l, Some y) => Some (l, Some (0%N :: y)) | r => r end = Some (x, o) /\
      only_next (c :: cs) i o /\
      forall j l, nth_error (c :: cs) j = Some (Lit l) -> active (b :: act) j -> j = i).
  { intros X NB. destruct (IH _ _ L X) as (i & o & E & (a & A & NZ) & S1 & (O1 & O2) & U).
    rewrite S1. exists (S i), (option_map (cons 0%N) o). split; [exact E|]. split; [exists a; auto|].
    split; [destruct o; reflexivity|]. split; [split|].
    - cbn. intros Y. rewrite O1 by lia. reflexivity.
    - cbn. intros Y. destruct O2 as (act2 & -> & L2 & (d & D1 & D2) & O2); [lia|]. exists (0%N :: act2).
      split; [reflexivity|]. split; [cbn; lia|]. split; [exists d; auto|].
      intros [|j] z Z NZ'; cbn in Z; [congruence|]. destruct (O2 j z Z NZ') as (-> & ->). auto.
    - intros [|j] l Z (w & W & NW); cbn in Z, W.
      + injection Z as ->. injection W as <-. specialize (NB NW). discriminate NB.
      + f_equal. eapply U; eauto. exists w. auto. }
  cbn [single]. destruct (N.eqb_spec b 0) as [->|NZ]; [apply R; [exact H|congruence]|].
  destruct c as [l|f|fl ap]; [|apply R; auto..].
  injection H as -> H. exists 0. eexists. split; [reflexivity|]. split; [exists b; auto|]. split; [reflexivity|].
  split; [split|].
  - cbn. intros Y. destruct cs; [reflexivity|discriminate Y].
  - cbn. intros Y. destruct cs as [|d cs]; [cbn in Y; lia|]. eexists. split; [reflexivity|]. split; [cbn; rewrite map_length; reflexivity|].
    split; [exists 1%N; split; [reflexivity|discriminate]|]. intros [|[|j]] z Z NZ'; cbn in Z; try congruence.
    + injection Z as <-. auto.
    + apply zeros_inactive in Z. congruence.
  - intros [|j] l Z (w & W & NW); [reflexivity|]. cbn in Z, W.
    assert (X : In l (active_literals cs act)) by (eapply lits_in; [exact Z|exists w; auto]). rewrite H in X. destruct X.
Qed.

Lemma dedup_in x l : In x (dedup l) <-> In x l.
Proof.
  induction l as [|y l IH]; cbn; [tauto|]. destruct (existsb (list_N_eqb y) l) eqn:E.
  - rewrite IH. split; [auto|]. intros [<-|H]; auto. apply existsb_exists in E as (z & Z & EQ).
    apply list_N_eqb_eq in EQ. subst. exact Z.
  - cbn. rewrite IH. tauto.
Qed.
Lemma dedup_nodup l : NoDup (dedup l).
Proof.
  induction l as [|y l IH]; cbn; [constructor|]. destruct (existsb (list_N_eqb y) l) eqn:E; auto. constructor; auto.
  rewrite dedup_in. intros X. assert (Y : existsb (list_N_eqb y) l = true)
    by (apply existsb_exists; exists y; split; auto; apply list_N_eqb_refl). congruence.
Qed.

Section Sound.
Context (V : files) (order : list (list N) -> list (list N)) (cs : list comp) (mark : bool).
Hypothesis PROPER : proper cs.

(** [search] after the first loop. *)
Definition entry (n : nat) (path : list N) (prev : list (option N)) (act : list N) (st : option N)
    (name : list N) (only : bool) (st2 : option N) : res (option N * list (list N)) :=
  let! (act2, st2, r) := entry_loop V mark name (path ++ name) only (st :: prev) cs act 0%N st2 in
  let! rs := search V order cs mark n (path ++ name ++ [slash]) (st :: prev) act2 st2 in
  Ok (st2, r ++ rs).
Definition literals (n : nat) (path : list N) (prev : list (option N)) (act : list N) (st : option N)
    : res (list (list N)) :=
  match active_literals cs act with
  | [] => Ok []
  | [_] =>
    match single cs act with
    | Some (l, None) => Ok (add_result V (path ++ l) true false)
    | Some (l, Some act2) => search V order cs mark n (path ++ l ++ [slash]) (st :: prev) act2 None
    | None => Ok []
    end
  | _ =>
    let! (_, rs) := scan (entry n path prev act st)
      (map (fun l => (l, true)) (order (dedup (active_literals cs act)))) None in Ok rs
  end.
Definition level (n : nat) (path : list N) (prev : list (option N)) (act : list N) (st : option N)
    : res (list (list N)) :=
  if active_matchers cs act then
    match opendir V (match path with [] => str "." | _ => path end) with
    | Some names =>
      let! (_, rs) := scan (entry n path prev act st) (([], true) :: map (fun l => (l, false)) names) None in Ok rs
    | None => literals n path prev act st
    end
  else literals n path prev act st.
Lemma search_level n path prev act st :
  search V order cs mark (S n) path prev act st = let! act := carry cs act in level n path prev act st.
Proof. reflexivity. Qed.

Definition uses (f : bool) : Prop := exists ap, In (Rec f ap) cs.
Context (strict : bool).
Hypothesis STRICT : strict = true -> forall f g, uses f -> uses g -> f = g.

Record Inv (dirs : list (list N)) (stk : list (option N)) (i : nat) (a : N) : Prop := {
  inv_small : (a < 256)%N;
  inv_time : length dirs + 255 < 256 * S i + N.to_nat a;
  inv_depth : N.to_nat a <= S (length dirs);
  inv_stk : forall k, k < N.to_nat (a - 1) -> exists q f, nth_error stk k = Some (Some q) /\ uses f /\
              last_file V f (skipn k dirs) = Some q;
  inv_match : exists run, run <= N.to_nat (a - 1) /\ forall ns, matches V strict (skipn i cs) dirs run ns ->
                matches V strict cs [] 0 (rev dirs ++ ns)
}.
Definition J (dirs : list (list N)) (stk : list (option N)) (act : list N) : Prop :=
  length act = length cs /\ forall i a, nth_error act i = Some a -> a <> 0%N -> Inv dirs stk i a.

Lemma skip_nth i c : nth_error cs i = Some c -> skipn i cs = c :: skipn (S i) cs.
Proof using Type.
  clear. revert cs. induction i as [|i IH]; intros [|x l] E; try discriminate.
  - injection E as ->. reflexivity.
  - cbn in E. exact (IH _ E).
Qed.

Lemma carry_J dirs stk act : J dirs stk act ->
  exists act', carry cs act = Ok act' /\ J dirs stk act' /\ (forall j, active act j -> active act' j) /\
    (forall j fl ap, nth_error cs j = Some (Rec fl ap) -> active act' j -> active act' (S j)).
Proof using PROPER.
  clear STRICT order mark.
  intros [L H]. destruct (carry_ok (fun i a => Inv dirs stk i a) cs act 0 L) as (act' & E & L' & H' & M & C).
  - auto.
  - exact H.
  - cbn. intros j a fl ap E NZ [I1 I2 I3 I4 (run & I5 & I6)]. constructor; auto; [lia|].
    exists 0. split; [lia|]. intros ns M. apply I6. rewrite (skip_nth _ _ E). apply m_none. exact M.
  - exists act'. split; [exact E|]. split; [split; auto|]. auto.
Qed.

Context (good : list N -> Prop).
Definition found (dirs : list (list N)) (r : list N) : Prop :=
  exists ns, ns <> [] /\ matches V strict cs [] 0 (rev dirs ++ ns) /\ r = shown V cs mark (rev dirs ++ ns) /\
    is_file V (rev dirs ++ ns) /\ Forall good ns.

Lemma found_deeper n dirs r : good n -> found (n :: dirs) r -> found dirs r.
Proof using Type.
  intros G (ns & NE & M & R & F & A). cbn [rev] in *. rewrite <- app_assoc in *. exists (n :: ns). split; [discriminate|]. auto.
Qed.

Lemma step_matches c name dirs run : step c name -> matches V strict [c] dirs run [name].
Proof using Type.
  destruct c as [l|f|]; cbn; [intros ->; constructor|intros [X Y]; constructor; auto|intros []].
Qed.
Lemma step_goes c c' rest name dirs run ns : step c name -> matches V strict (c' :: rest) (name :: dirs) 0 ns ->
  matches V strict (c :: c' :: rest) dirs run (name :: ns).
Proof using Type.
  destruct c as [l|f|]; cbn; [intros -> M|intros [X Y] M|intros []]; constructor; auto; discriminate.
Qed.

Lemma results_found dirs name only c a stk : Inv dirs stk (length cs - 1) a -> last cs (Lit []) = c ->
  step c name -> (only = false -> listed V dirs name) -> good name ->
  Forall (found dirs) (results V mark name (dir_path dirs ++ name) only c).
Proof using PROPER.
  clear STRICT order.
  intros I LC ST LI GO. apply Forall_forall. intros r R.
  assert (SK : skipn (length cs - 1) cs = [c]).
  { clear - LC PROPER. destruct cs as [|x l]; [destruct PROPER|]. clear PROPER. subst c. revert x.
    induction l as [|y l IH]; intros x; [reflexivity|]. cbn [length]. replace (S (S (length l)) - 1) with (S (length (y :: l) - 1)) by (cbn; lia).
    exact (IH y). }
  destruct I as [_ _ _ _ (run & _ & IM)]. rewrite SK in IM. specialize (IM _ (step_matches _ _ _ _ ST)).
  exists [name]. split; [discriminate|]. split; [exact IM|].
  assert (PT : names_text (rev dirs ++ [name]) = dir_path dirs ++ name) by (symmetry; apply path_text).
  unfold shown. rewrite LC, PT. unfold results, add_result in R.
  assert (EX : only = true -> stat V (dir_path dirs ++ name) <> None).
  { intros ->. cbn in R. destruct (stat V (dir_path dirs ++ name)); [discriminate|]. destruct R. }
  split.
  - destruct only; cbn [negb andb] in R.
    + destruct (stat V (dir_path dirs ++ name)) as [[ino d]|] eqn:S; cbn [negb andb orb] in R; [|destruct R].
      destruct c as [l|f|]; cbn [marked negb orb] in R; try (destruct R as [<-|[]]; reflexivity).
      destruct mark, d; cbn [negb orb andb] in *; destruct R as [<-|[]]; reflexivity.
    + destruct c as [l|f|]; cbn [marked negb orb] in R; try (destruct R as [<-|[]]; reflexivity).
      destruct mark; cbn [negb] in R; [|destruct R as [<-|[]]; reflexivity].
      destruct (stat V (dir_path dirs ++ name)) as [[ino [|]]|]; cbn [negb orb andb] in *; destruct R as [<-|[]]; reflexivity.
  - split; [|constructor; [exact GO|constructor]]. unfold is_file. rewrite PT. destruct only.
    + left. auto.
    + right. exists dirs, name. split; [reflexivity|auto].
Qed.

(** One name. *)
Lemma entry_J dirs prev st act name only st2 : J dirs (st :: prev) act ->
  exists act2 st2' r, entry_loop V mark name (dir_path dirs ++ name) only (st :: prev) cs act 0%N st2 = Ok (act2, st2', r) /\
    J (name :: dirs) (st2' :: st :: prev) act2 /\
    ((only = false -> listed V dirs name) -> good name -> Forall (found dirs) r).
Proof using PROPER STRICT.
  clear order.
  intros [L H].
  destruct (entry_ok V mark uses name (dir_path dirs ++ name) only (st :: prev) cs act 0%N st2)
    as (act2 & st2' & r & E & L2 & F2 & _ & W & _ & _ & RA & _); auto.
  { intros fl ap I. exists ap. exact I. }
  { intros j a k A Hk _. destruct (N.eq_dec a 0) as [->|NZ]; [cbn in Hk; lia|].
    destruct (H j a A NZ) as [_ _ _ IS _]. destruct (IS k Hk) as (q & f & X & _). exists q. exact X. }
  exists act2, st2', r. split; [exact E|]. split.
  - split; [exact L2|]. intros i b B NZ.
    destruct (W i b B NZ) as [(_ & X)|[(-> & j0 & c & -> & C & ST & (a & A & NA))|(c & a & C & A & NA & G & -> & FR)]].
    + congruence.
    + destruct (H j0 a A NA) as [I1 I2 I3 I4 (run & I5 & I6)]. constructor.
      * lia.
      * cbn [length]. change (N.to_nat 1) with 1. lia.
      * cbn [length]. change (N.to_nat 1) with 1. lia.
      * intros k Hk. change (N.to_nat (1 - 1)) with 0 in Hk. lia.
      * exists 0. split; [lia|]. intros ns M. cbn [rev]. rewrite <- app_assoc. cbn [app]. apply I6.
        rewrite (skip_nth _ _ C). destruct (skipn (S j0) cs) as [|c' rest]; [inversion M|]. apply step_goes; auto.
    + destruct (H i a A NA) as [I1 I2 I3 I4 (run & I5 & I6)].
      destruct (N.eq_dec a 255) as [->|N5]; [cbn in NZ; congruence|]. rewrite N.mod_small in * by lia. constructor.
      * lia.
      * cbn [length]. lia.
      * cbn [length]. lia.
      * intros [|k] Hk.
        -- destruct FR as (q & f & -> & U & FI). exists q, f. split; [reflexivity|]. split; [exact U|]. exact FI.
        -- destruct (I4 k) as (q & f & X & Y); [lia|]. exists q, f. split; [exact X|]. exact Y.
      * destruct c as [|f|fl ap]; [destruct G|destruct G|]. destruct G as (G1 & G2 & ino & G3 & G4).
        exists (S run). split; [lia|]. intros ns M. cbn [rev]. rewrite <- app_assoc. cbn [app]. apply I6.
        rewrite (skip_nth _ _ C) in *. eapply m_dir; eauto. intros SS k Hk LF.
        destruct (I4 k) as (q & f & X & Y & Z); [lia|].
        assert (f = fl). { apply STRICT; auto. exists ap. eapply nth_error_In. exact C. } subst f.
        apply (G4 k q); [lia|exact X|congruence].
  - intros LI. destruct RA as [->|(c & _ & LC & ST & (a & A & NA) & ->)]; [constructor|].
    eapply results_found; eauto.
Qed.

Hypothesis ORDER : forall l, Permutation (order l) l.
Hypothesis GOODNIL : good [].
Hypothesis GOODLIT : forall l, In (Lit l) cs -> good l.
Hypothesis GOODDIR : forall d names, opendir V d = Some names -> Forall good names.
Theorem search_ok : forall n dirs prev act st, J dirs (st :: prev) act ->
  length dirs <= 256 * length cs -> 256 * S (length cs) <= n + length dirs ->
  exists rs, search V order cs mark n (dir_path dirs) prev act st = Ok rs /\ Forall (found dirs) rs.
Proof.
  induction n as [|n IH]; intros dirs prev act st HJ LD FU; [lia|].
  rewrite search_level. destruct (carry_J _ _ _ HJ) as (act' & E & HJ' & _ & _). rewrite E. cbn [rbind]. clear act E HJ.
  rename act' into act, HJ' into HJ.
  assert (DEEP : (exists i, active act i) -> S (length dirs) <= 256 * length cs).
  { intros (i & a & A & NZ). destruct HJ as [L H]. destruct (H i a A NZ) as [I1 I2 _ _ _].
    assert (i < length cs) by (rewrite <- L; apply nth_error_Some; congruence). lia. }
  assert (ENT : (exists i, active act i) -> forall name only st2, (only = false -> listed V dirs name) -> good name ->
    exists st2' r, entry n (dir_path dirs) prev act st name only st2 = Ok (st2', r) /\ Forall (found dirs) r).
  { intros AC name only st2 LI GO. unfold entry.
    destruct (entry_J dirs prev st act name only st2 HJ) as (act2 & st2' & r & E & J2 & R). rewrite E. cbn [rbind].
    destruct (IH (name :: dirs) (st :: prev) act2 st2' J2) as (rs & E2 & R2).
    { cbn [length]. auto. } { cbn [length]. lia. }
    change (dir_path (name :: dirs)) with (dir_path dirs ++ name ++ [slash]) in E2. rewrite E2. cbn [rbind].
    do 2 eexists. split; [reflexivity|]. apply Forall_app. split; auto.
    eapply Forall_impl; [|exact R2]. intros. eapply found_deeper; eauto. }
  assert (LITS : exists rs, literals n (dir_path dirs) prev act st = Ok rs /\ Forall (found dirs) rs).
  { unfold literals. destruct (active_literals cs act) as [|l1 [|l2 ls]] eqn:AL; [eauto| |].
    - destruct HJ as [L H]. destruct (single_ok cs act l1 L AL) as (i & o & C & (a & A & NA) & SI & (O1 & O2) & _).
      assert (LI : i < length cs) by (rewrite <- L; apply nth_error_Some; congruence).
      rewrite SI. destruct o as [act2|].
      + assert (LT : S i < length cs). { destruct (Nat.eq_dec (S i) (length cs)) as [X|X]; [specialize (O1 X); discriminate|lia]. }
        destruct (O2 LT) as (act3 & X & L3 & _ & O3). injection X as <-.
        destruct (IH (l1 :: dirs) (st :: prev) act2 None) as (rs & E2 & R2).
        * split; [exact L3|]. intros j b B NB. destruct (O3 j b B NB) as (-> & ->).
          destruct (H i a A NA) as [I1 I2 I3 I4 (run & I5 & I6)]. constructor; cbn [length]; change (N.to_nat 1) with 1; try lia.
          exists 0. split; [lia|]. intros ns M. cbn [rev]. rewrite <- app_assoc. cbn [app]. apply I6.
             rewrite (skip_nth _ _ C). destruct (skipn (S i) cs) as [|c' rest]; [inversion M|]. apply step_goes; auto. reflexivity.
        * cbn [length]. apply DEEP. exists i, a. auto.
        * cbn [length]. lia.
        * assert (GO : good l1) by (apply GOODLIT; eapply nth_error_In; eauto).
          change (dir_path (l1 :: dirs)) with (dir_path dirs ++ l1 ++ [slash]) in E2. rewrite E2.
          eexists. split; [reflexivity|]. eapply Forall_impl; [|exact R2]. intros. eapply found_deeper; eauto.
      + assert (LE : S i = length cs).
        { destruct (Nat.eq_dec (S i) (length cs)) as [X|X]; [exact X|]. destruct O2 as (? & X2 & _); [lia|discriminate]. }
        eexists. split; [reflexivity|].
        assert (LC : last cs (Lit []) = Lit l1).
        { clear - C LE. revert i C LE. induction cs as [|x l IHl]; intros i C LE; [discriminate|].
          destruct i as [|i]; cbn in C, LE.
          - injection C as ->. destruct l; [reflexivity|discriminate].
          - destruct l as [|y l]; [cbn in LE; lia|]. apply (IHl i); auto. }
        apply (results_found dirs l1 true (Lit l1) a (st :: prev)); auto; [|reflexivity|discriminate|apply GOODLIT; eapply nth_error_In; eauto].
        replace (length cs - 1) with i by lia. apply H; auto.
    - rewrite <- AL. assert (AC : exists i, active act i).
      { destruct (lits_from cs act l1) as (j & _ & X); [rewrite AL; now left|]. exists j. exact X. }
      destruct (scan_ok (found dirs) (entry n (dir_path dirs) prev act st)
        (map (fun l => (l, true)) (order (dedup (active_literals cs act)))) None) as (st' & rs & E & F).
      { intros name only st2 I. apply in_map_iff in I as (x & X & I). injection X as -> <-. apply ENT; auto; [discriminate|].
        apply (Permutation_in _ (ORDER _)) in I. apply (proj1 (dedup_in _ _)) in I.
        destruct (lits_from _ _ _ I) as (j & Z & _). apply GOODLIT. eapply nth_error_In; eauto. }
      rewrite E. cbn [rbind]. eauto. }
  unfold level. destruct (active_matchers cs act) eqn:AM; [|exact LITS].
  destruct (opendir V (match dir_path dirs with [] => str "." | p => p end)) as [names|] eqn:OD.
  2:{ destruct (dir_path dirs); rewrite OD; exact LITS. }
  assert (AC := matchers_active _ _ AM).
  destruct (scan_ok (found dirs) (entry n (dir_path dirs) prev act st)
    (([], true) :: map (fun l => (l, false)) names) None) as (st' & rs & E & F).
  { intros name only st2 [X|I]; [injection X as <- <-; apply ENT; auto; discriminate|].
    apply in_map_iff in I as (x & X & I). injection X as -> <-. apply ENT; auto; [intros _; exists names; auto|].
    assert (GD := GOODDIR _ _ OD). rewrite Forall_forall in GD. auto. }
  exists rs. split; [|exact F]. destruct (dir_path dirs); rewrite OD; rewrite E; reflexivity.
Qed.

Lemma start_J : J [] [None] (1%N :: map (fun _ => 0%N) (tl cs)).
Proof using PROPER.
  clear GOODNIL GOODLIT GOODDIR good ORDER STRICT order mark.
  split.
  - destruct cs as [|c l]; [destruct PROPER|]. cbn. now rewrite map_length.
  - intros [|i] a A NZ; cbn in A.
    + injection A as <-. constructor; cbn; try lia. exists 0. split; [lia|]. auto.
    + apply zeros_inactive in A. congruence.
Qed.
Theorem wglob_sound : exists rs, wglob_components V order cs mark (256 * S (length cs)) = Ok rs /\ Forall (found []) rs.
Proof. apply search_ok with (dirs := []); [apply start_J|cbn; lia|cbn; lia]. Qed.
End Sound.
