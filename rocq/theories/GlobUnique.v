(** No pathname is found twice. *)
From Coq Require Import Ascii String.
From Coq Require Import List NArith Bool Arith Lia Permutation.
From Verif Require Import Common GlobModel GlobSpec GlobProofs GlobSound.
Import ListNotations.
Local Open Scope res_scope.

Definition tail_ok (t : list N) : Prop := t = [] \/ exists u, t = slash :: u.

Lemma split_unique n n' t t' : ~ In slash n -> ~ In slash n' -> tail_ok t -> tail_ok t' -> n ++ t = n' ++ t' -> n = n'.
Proof.
  revert n'. induction n as [|x n IH]; intros [|y n'] S S' T T' E; [reflexivity| | |].
  - exfalso. cbn in E. destruct T as [->|(u & ->)]; [discriminate|]. injection E as <- _. apply S'. now left.
  - exfalso. cbn in E. destruct T' as [->|(u & ->)]; [discriminate|]. injection E as -> _. apply S. now left.
  - cbn in E. injection E as <- E. f_equal. apply IH; auto; intros X; [apply S|apply S']; now right.
Qed.

Lemma nodup_app {A} (l m : list A) : NoDup l -> NoDup m -> (forall x, In x l -> ~ In x m) -> NoDup (l ++ m).
Proof.
  intros HL HM D. induction HL as [|x l NI HL IH]; [exact HM|]. cbn. constructor.
  - rewrite in_app_iff. intros [X|X]; [auto|]. apply (D x); [now left|exact X].
  - apply IH. intros y Y. apply D. now right.
Qed.

Lemma scan_nodup path f : forall l st st' rs, scan f l st = Ok (st', rs) ->
  NoDup (map fst l) -> Forall (fun p => ~ In slash (fst p)) l ->
  (forall name only s s' r, In (name, only) l -> f name only s = Ok (s', r) ->
     NoDup r /\ Forall (fun x => exists t, x = path ++ name ++ t /\ tail_ok t) r) ->
  NoDup rs /\ Forall (fun x => exists name t, In name (map fst l) /\ x = path ++ name ++ t /\ tail_ok t) rs.
Proof.
  induction l as [|[nm on] l IH]; intros st st' rs H ND NS F; cbn [scan] in H.
  { injection H as <- <-. split; constructor. }
  apply bind_ok in H as ([s1 r1] & E1 & H). apply bind_ok in H as ([s2 r2] & E2 & H). injection H as <- <-.
  cbn [map fst] in ND. inversion_clear ND as [|? ? NI ND']. inversion_clear NS as [|? ? NS1 NS']. cbn [fst] in *.
  destruct (F nm on _ _ _ (or_introl eq_refl) E1) as (N1 & F1).
  destruct (IH _ _ _ E2 ND' NS') as (N2 & F2); [intros; eapply F; eauto; now right|].
  split.
  - apply nodup_app; auto. intros x X1 X2.
    rewrite Forall_forall in F1, F2, NS'. destruct (F1 _ X1) as (t & -> & T).
    destruct (F2 _ X2) as (nm' & t' & I & EQ & T'). apply app_inv_head in EQ.
    assert (nm = nm').
    { eapply split_unique; [exact NS1| |exact T|exact T'|exact EQ].
      apply in_map_iff in I as ([n b] & <- & I). exact (NS' _ I). }
    congruence.
  - apply Forall_app. split.
    + eapply Forall_impl; [|exact F1]. intros x (t & -> & T). exists nm, t. split; [now left|auto].
    + eapply Forall_impl; [|exact F2]. intros x (n & t & I & R). exists n, t. split; [now right|auto].
Qed.

Section Unique.
Context (V : files) (order : list (list N) -> list (list N)) (cs : list comp) (mark : bool).
Hypothesis PROPER : proper cs.
Hypothesis ORDER : forall l, Permutation (order l) l.
Hypothesis LISTED : well_listed V.
Hypothesis NOSLASH : forall l, In (Lit l) cs -> ~ In slash l.

Notation J := (J V cs false).
Let NOSTRICT : false = true -> forall f g, uses cs f -> uses cs g -> f = g.
Proof. discriminate. Qed.

(** Results found from [path]. *)
Definition below (path : list N) (x : list N) : Prop :=
  exists t, x = path ++ t /\ (forall f, last cs (Lit []) = Pat f -> t <> []).

Lemma results_small name path only c : last cs (Lit []) = c -> step c name ->
  results V mark name path only c = [] \/ results V mark name path only c = [path] \/
  (results V mark name path only c = [path ++ [slash]] /\ exists f, last cs (Lit []) = Pat f).
Proof.
  intros L ST. unfold results, add_result. destruct (_ && _); [auto|].
  destruct (_ && _); [auto|]. destruct (_ || _) eqn:E; [auto|]. right. right. split; [reflexivity|].
  destruct c as [l|f|]; [discriminate E|eauto|destruct ST].
Qed.

Lemma unique : forall n dirs prev act st rs, J dirs (st :: prev) act ->
  search V order cs mark n (dir_path dirs) prev act st = Ok rs -> NoDup rs /\ Forall (below (dir_path dirs)) rs.
Proof.
  induction n as [|n IH]; intros dirs prev act st rs HJ E; [discriminate E|].
  rewrite search_level in E. destruct (carry_J V cs PROPER false _ _ _ HJ) as (act' & EC & HJ' & _ & _).
  rewrite EC in E. cbn [rbind] in E. clear act EC HJ. rename act' into act, HJ' into HJ.
  (* one name *)
  assert (ENTRY : forall name only s s' r, entry V order cs mark n (dir_path dirs) prev act st name only s = Ok (s', r) ->
    NoDup r /\ Forall (below (dir_path dirs)) r /\
    Forall (fun x => exists t, x = dir_path dirs ++ name ++ t /\ tail_ok t) r).
  { intros name only s s' r H. unfold entry in H. assert (HJ0 := HJ). destruct HJ as [L HI].
    destruct (entry_ok V mark (uses cs) name (dir_path dirs ++ name) only (st :: prev) cs act 0%N s)
      as (act2 & st2 & r1 & E1 & L2 & _ & _ & _ & _ & _ & RA & _); auto.
    { intros fl ap I. exists ap. exact I. }
    { intros j a k A Hk _. destruct (N.eq_dec a 0) as [->|NZ]; [cbn in Hk; lia|].
      destruct (HI j a A NZ) as [_ _ _ IS _]. destruct (IS k Hk) as (q & f & X & _). exists q. exact X. }
    destruct (entry_J V cs mark PROPER false NOSTRICT (fun _ => True) dirs prev st act name only s HJ0) as (a2 & s2 & r2 & E2 & J2 & _).
    rewrite E1 in E2. injection E2 as <- <- <-. rewrite E1 in H. cbn [rbind] in H.
    apply bind_ok in H as (rs2 & ES & H). injection H as _ <-.
    destruct (IH (name :: dirs) (st :: prev) act2 st2 rs2 J2 ES) as (N2 & B2).
    assert (D2 : Forall (fun x => exists t, x = dir_path dirs ++ name ++ slash :: t /\
                   forall f, last cs (Lit []) = Pat f -> t <> []) rs2).
    { eapply Forall_impl; [|exact B2]. intros x (t & -> & T). exists t. split; [|exact T].
      cbn [dir_path]. rewrite <- !app_assoc. reflexivity. }
    assert (R1 : r1 = [] \/ (r1 = [dir_path dirs ++ name] /\ forall f, last cs (Lit []) = Pat f -> name <> []) \/
               (r1 = [dir_path dirs ++ name ++ [slash]] /\ exists f, last cs (Lit []) = Pat f)).
    { destruct RA as [->|(c & _ & LC & ST & _ & ->)]; [auto|].
      destruct (results_small name (dir_path dirs ++ name) only c LC ST) as [-> | [-> | (-> & F)]]; [auto| |].
      - right. left. split; [reflexivity|]. intros f Y. rewrite <- LC, Y in ST. destruct ST. auto.
      - right. right. rewrite <- app_assoc. auto. }
    rewrite Forall_forall in D2. split; [|split].
    - apply nodup_app; auto.
      + destruct R1 as [-> | [(-> & _) | (-> & _)]]; repeat constructor; intros [].
      + intros x X1 X2. destruct (D2 _ X2) as (t & EQ & T). destruct R1 as [-> | [(-> & _) | (-> & f & F)]]; [destruct X1| |]; destruct X1 as [<-|[]];
          apply app_inv_head in EQ.
        * rewrite <- (app_nil_r name) in EQ at 1. apply app_inv_head in EQ. discriminate.
        * apply app_inv_head in EQ. injection EQ as <-. apply (T f F). reflexivity.
    - apply Forall_app. split.
      + destruct R1 as [-> | [(-> & X) | (-> & f & F)]]; [constructor| |]; repeat constructor.
        * exists name. auto.
        * exists (name ++ [slash]). split; [reflexivity|]. intros _ _ Y. destruct name; discriminate.
      + apply Forall_forall. intros x X. destruct (D2 _ X) as (t & -> & T). exists (name ++ slash :: t).
        split; [reflexivity|]. intros _ _ Y. destruct name; discriminate.
    - apply Forall_app. split.
      + destruct R1 as [-> | [(-> & _) | (-> & f & F)]]; [constructor| |]; repeat constructor.
        * exists []. rewrite app_nil_r. split; [reflexivity|now left].
        * exists [slash]. split; [reflexivity|]. right. eauto.
      + apply Forall_forall. intros x X. destruct (D2 _ X) as (t & -> & T). exists (slash :: t).
        split; [reflexivity|]. right. eauto. }
  assert (SCAN : forall l, (let! (_, rs) := scan (entry V order cs mark n (dir_path dirs) prev act st) l None in Ok rs) = Ok rs ->
    NoDup (map fst l) -> Forall (fun p => ~ In slash (fst p)) l -> NoDup rs /\ Forall (below (dir_path dirs)) rs).
  { intros l H ND NS. apply bind_ok in H as ([st' rs'] & H & X). injection X as ->. split.
    - eapply (scan_nodup (dir_path dirs)); eauto. intros name only s s' r _ X. destruct (ENTRY _ _ _ _ _ X) as (A & _ & B). auto.
    - clear ND NS E. revert H. generalize (@None N). revert rs st'. clear - ENTRY. induction l as [|[nm on] l IHl]; intros rs st' s0 H; cbn [scan] in H.
      + injection H as _ <-. constructor.
      + apply bind_ok in H as ([s1 r1] & E1 & H). apply bind_ok in H as ([s2 r2] & E2 & H). injection H as _ <-.
        apply Forall_app. split; [eapply ENTRY; eauto|]. eapply IHl; eauto. }
  assert (LITS : literals V order cs mark n (dir_path dirs) prev act st = Ok rs -> NoDup rs /\ Forall (below (dir_path dirs)) rs).
  { unfold literals. intros H. destruct (active_literals cs act) as [|l1 [|l2 ls]] eqn:AL.
    - injection H as <-. split; constructor.
    - destruct HJ as [L HI]. destruct (single_ok cs act l1 L AL) as (i & o & C & AC & SI & (O1 & O2) & _). rewrite SI in H.
      assert (LT : i < length cs) by (apply nth_error_Some; congruence).
      destruct (Nat.eq_dec (S i) (length cs)) as [LE|NE].
      + rewrite (O1 LE) in H. injection H as <-.
        assert (LC : last cs (Lit []) = Lit l1).
        { clear - C LE. revert i C LE. induction cs as [|x l IHl]; intros [|i] C LE; try discriminate.
          - cbn in LE, C. destruct l; [injection C as ->; reflexivity|discriminate].
          - destruct l as [|y l]; [destruct i; discriminate|]. apply (IHl i); [exact C|]. cbn in *. lia. }
        unfold add_result. cbn. destruct (stat V (dir_path dirs ++ l1)); cbn; split; repeat constructor; try (intros []).
        exists l1. split; [reflexivity|]. intros f F. congruence.
      + destruct (O2 ltac:(lia)) as (act2 & -> & L2 & A2 & O3). destruct AC as (a & A & NA).
        assert (J2 : J (l1 :: dirs) (None :: st :: prev) act2).
        { split; [exact L2|]. intros j b B NB. destruct (O3 j b B NB) as (-> & ->).
          destruct (HI i a A NA) as [I1 I2 I3 I4 (run & I5 & I6)]. constructor; cbn [length]; change (N.to_nat 1) with 1; try lia.
          exists 0. split; [lia|]. intros ms M. cbn [rev]. rewrite <- app_assoc. cbn [app]. apply I6.
          rewrite (skip_nth _ _ _ C). destruct (skipn (S i) cs) as [|c' rest]; [inversion M|]. apply step_goes; auto. reflexivity. }
        destruct (IH (l1 :: dirs) (st :: prev) act2 None rs J2 H) as (N2 & B2). split; [exact N2|].
        eapply Forall_impl; [|exact B2]. intros x (t & -> & T). exists (l1 ++ slash :: t). split.
        * cbn [dir_path]. rewrite <- !app_assoc. reflexivity.
        * intros _ _ Y. destruct l1; discriminate.
    - rewrite <- AL in H. apply (SCAN _ H).
      + rewrite map_map. cbn [fst]. rewrite map_id. eapply Permutation_NoDup; [symmetry; apply ORDER|]. apply dedup_nodup.
      + apply Forall_forall. intros [x b] X. apply in_map_iff in X as (y & X & I). injection X as <- <-. cbn [fst].
        apply NOSLASH. assert (I2 : In y (active_literals cs act)).
        { apply dedup_in. eapply Permutation_in; [apply ORDER|exact I]. }
        destruct (lits_from _ _ _ I2) as (j & Z & _). eapply nth_error_In; eauto. }
  unfold level in E. destruct (active_matchers cs act); [|auto].
  destruct (opendir V (match dir_path dirs with [] => str "." | _ => dir_path dirs end)) as [names|] eqn:OD; [|auto].
  destruct (LISTED _ _ OD) as (ND & NS). apply (SCAN _ E).
  - cbn [map fst]. rewrite map_map. cbn [fst]. rewrite map_id. constructor; [|exact ND].
    intros X. rewrite Forall_forall in NS. destruct (NS _ X). congruence.
  - constructor; [intros []|]. apply Forall_forall. intros [x b] X. apply in_map_iff in X as (y & X & I). injection X as <- <-.
    rewrite Forall_forall in NS. apply (NS _ I).
Qed.

Theorem wglob_unique fuel rs : wglob_components V order cs mark fuel = Ok rs -> NoDup rs.
Proof. intros E. apply (unique fuel [] [] _ None rs (start_J V cs PROPER false) E). Qed.
End Unique.
