(** The history list is kept in order; searches find the entries. *)
From Coq Require Import List NArith ZArith Bool Arith Lia Sorted.
From Verif Require Import Common HistModel HistSpec.
Import ListNotations.
Local Open Scope N_scope.

(** ** Sublists *)
Lemma without_refl : forall {A} (l : list A), without l l.
Proof. induction l; constructor; assumption. Qed.
Lemma without_nil : forall {A} (l : list A), without [] l.
Proof. induction l; constructor; assumption. Qed.
Lemma without_app : forall {A} (a a' b b' : list A), without a' a -> without b' b -> without (a' ++ b') (a ++ b).
Proof. intros A a a' b b' H. induction H; intro Hb; cbn [app]; [assumption| |]; constructor; auto. Qed.
Lemma without_split : forall {A} (a b r : list A), without r (a ++ b) ->
  exists a' b', r = a' ++ b' /\ without a' a /\ without b' b.
Proof.
  intros A a. induction a as [|x a IH]; cbn [app]; intros b r H.
  - exists [], r. repeat split; [constructor|assumption].
  - inversion H; subst.
    + destruct (IH _ _ H2) as (a' & b' & -> & W1 & W2). exists (x :: a'), b'. repeat split; [constructor|]; assumption.
    + destruct (IH _ _ H2) as (a' & b' & -> & W1 & W2). exists a', b'. repeat split; [constructor|]; assumption.
Qed.
Lemma without_in : forall {A} (r l : list A) x, without r l -> In x r -> In x l.
Proof. intros A r l x H. induction H; cbn [In]; [tauto| |]; intuition. Qed.
Lemma without_length : forall {A} (r l : list A), without r l -> (length r <= length l)%nat.
Proof. intros A r l H. induction H; cbn [length]; lia. Qed.
Lemma without_rev : forall {A} (r l : list A), without r l -> without (rev r) (rev l).
Proof.
  intros A r l H. induction H; cbn [rev]; [constructor| |].
  - apply without_app; [assumption|apply without_refl].
  - rewrite <- (app_nil_r (rev r)). apply without_app; [assumption|apply without_nil].
Qed.
Lemma without_trans : forall {A} (a b c : list A), without a b -> without b c -> without a c.
Proof.
  intros A a b c H1 H2. revert a H1. induction H2; intros a' H1; [assumption| |].
  - inversion H1; subst; constructor; auto.
  - constructor; auto.
Qed.
Lemma without_sorted : forall r l, without r l -> StronglySorted N.lt (map e_num l) -> StronglySorted N.lt (map e_num r).
Proof.
  intros r l H. induction H; cbn [map]; intro S; [constructor| |].
  - apply StronglySorted_inv in S. destruct S as [S F]. constructor; [auto|].
    rewrite Forall_forall in F |- *. intros n Hn. apply F. rewrite in_map_iff in Hn |- *.
    destruct Hn as (e & E & He). exists e. split; [assumption|]. eapply without_in; eassumption.
  - apply StronglySorted_inv in S. tauto.
Qed.
Lemma ordered_without : forall r l, without r l -> ordered l -> ordered r.
Proof.
  intros r l H (a & b & -> & S). destruct (without_split _ _ _ H) as (a' & b' & -> & Ha & Hb).
  exists a', b'. split; [reflexivity|]. eapply without_sorted; [|exact S]. apply without_app; assumption.
Qed.
Lemma wf_without : forall size max r l, without r l -> well_formed size max l -> well_formed size max r.
Proof.
  intros size max r l H (C & F & O). pose proof (without_length _ _ H). split; [lia|split].
  - rewrite Forall_forall in F |- *. intros e He. apply F. eapply without_in; eassumption.
  - eapply ordered_without; eassumption.
Qed.

(** ** Numbers by index *)
Lemma num_at_nth : forall l i e, nth_error l i = Some e -> num_at l i = e_num e.
Proof. intros l i e H. unfold num_at. rewrite H. reflexivity. Qed.
Lemma num_at_app1 : forall a b i, (i < length a)%nat -> num_at (a ++ b) i = num_at a i.
Proof. intros. unfold num_at. rewrite nth_error_app1 by assumption. reflexivity. Qed.
Lemma num_at_app2 : forall a b i, (length a <= i)%nat -> num_at (a ++ b) i = num_at b (i - length a).
Proof. intros. unfold num_at. rewrite nth_error_app2 by assumption. reflexivity. Qed.
Lemma nth_error_rev : forall {A} (l : list A) i, (i < length l)%nat -> nth_error (rev l) i = nth_error l (length l - 1 - i).
Proof.
  intros A l. induction l as [|x l IH]; cbn [rev length]; intros i H; [lia|].
  destruct (Nat.eq_dec i (length l)) as [->|N].
  - rewrite nth_error_app2 by (rewrite rev_length; lia). rewrite rev_length.
    replace (length l - length l)%nat with O by lia. replace (S (length l) - 1 - length l)%nat with O by lia. reflexivity.
  - rewrite nth_error_app1 by (rewrite rev_length; lia). rewrite IH by lia.
    replace (S (length l) - 1 - i)%nat with (S (length l - 1 - i)) by lia. reflexivity.
Qed.
Lemma num_at_rev : forall l i, (i < length l)%nat -> num_at (rev l) i = num_at l (length l - 1 - i).
Proof. intros. unfold num_at. rewrite nth_error_rev by assumption. reflexivity. Qed.
Lemma nth_error_skip : forall {A} i (l : list A) k, nth_error (skipn i l) k = nth_error l (i + k).
Proof. intros A i. induction i; destruct l; cbn; intros; auto. destruct k; reflexivity. Qed.
Lemma num_at_skipn : forall i l k, num_at (skipn i l) k = num_at l (i + k).
Proof. intros. unfold num_at. rewrite nth_error_skip. reflexivity. Qed.
Lemma oldest_at : forall l, oldest l = num_at l 0.
Proof. destruct l; reflexivity. Qed.
Lemma newest_at : forall l, newest l = num_at l (length l - 1).
Proof.
  intros l. unfold newest. rewrite oldest_at. destruct l as [|e l]; [reflexivity|].
  rewrite num_at_rev by (cbn; lia). f_equal. lia.
Qed.
Lemma first_num_at : forall l, first_num l = num_at l 0.
Proof. destruct l; reflexivity. Qed.
Lemma last_num_at : forall l, last_num l = num_at l (length l - 1).
Proof.
  intros l. unfold last_num. induction l as [|x l IH]; [reflexivity|]. cbn [map]. destruct l as [|y l]; [reflexivity|].
  transitivity (last (map e_num (y :: l)) 0); [reflexivity|]. rewrite IH. cbn [length].
  replace (S (S (length l)) - 1)%nat with (S (S (length l) - 1)) by lia. reflexivity.
Qed.
Lemma in_num_at : forall l e, In e l -> exists i, (i < length l)%nat /\ num_at l i = e_num e /\ nth_error l i = Some e.
Proof.
  intros l e H. apply In_nth_error in H. destruct H as [i H]. exists i. split.
  - apply nth_error_Some. congruence.
  - split; [apply num_at_nth|]; assumption.
Qed.
Lemma at_in : forall l i, (i < length l)%nat -> exists e, In e l /\ e_num e = num_at l i /\ nth_error l i = Some e.
Proof.
  intros l i H. destruct (nth_error l i) as [e|] eqn:E; [|apply nth_error_None in E; lia].
  exists e. repeat split; [eapply nth_error_In; eassumption|]. symmetry. apply num_at_nth. assumption.
Qed.

Lemma sorted_at : forall l, StronglySorted N.lt (map e_num l) ->
  forall i j, (i < j < length l)%nat -> num_at l i < num_at l j.
Proof.
  induction l as [|x l IH]; cbn [map length]; intros S i j H; [lia|].
  apply StronglySorted_inv in S. destruct S as [S F]. destruct j as [|j]; [lia|].
  destruct i as [|i].
  - change (num_at (x :: l) 0) with (e_num x). change (num_at (x :: l) (Datatypes.S j)) with (num_at l j).
    destruct (at_in l j ltac:(lia)) as (e & I & E & _). rewrite <- E. rewrite Forall_forall in F. apply F.
    apply in_map. assumption.
  - apply (IH S i j). lia.
Qed.
(** The order by index: [c] is where the numbers start again *)
Definition turn (l : hist) (c : nat) : Prop :=
  (1 <= c <= length l)%nat /\
  (forall i j, (i < j < c)%nat -> num_at l i < num_at l j) /\
  (forall i j, (c <= i < j)%nat -> (j < length l)%nat -> num_at l i < num_at l j) /\
  (forall i j, (i < c <= j)%nat -> (j < length l)%nat -> num_at l j < num_at l i).
Lemma ordered_turn : forall l, ordered l -> l <> [] -> exists c, turn l c.
Proof.
  intros l (a & b & E & S) N.
  assert (G : forall a b : hist, a <> [] -> StronglySorted N.lt (map e_num (b ++ a)) -> turn (a ++ b) (length a)).
  { clear. intros a b N S. unfold turn. rewrite app_length. pose proof (sorted_at _ S) as T. rewrite app_length in T.
    assert (length a <> 0)%nat by (destruct a; [congruence|cbn; lia]).
    repeat split; try lia; intros i j H1; [|intro H2|intro H2].
    - rewrite !num_at_app1 by lia. specialize (T (length b + i) (length b + j))%nat.
      rewrite !num_at_app2 in T by lia. replace (length b + i - length b)%nat with i in T by lia.
      replace (length b + j - length b)%nat with j in T by lia. apply T. lia.
    - rewrite !num_at_app2 by lia. specialize (T (i - length a) (j - length a))%nat.
      rewrite !num_at_app1 in T by lia. apply T. lia.
    - rewrite (num_at_app1 a b i) by lia. rewrite (num_at_app2 a b j) by lia. specialize (T (j - length a) (length b + i))%nat.
      rewrite (num_at_app1 b a (j - length a)) in T by lia. rewrite (num_at_app2 b a (length b + i)) in T by lia.
      replace (length b + i - length b)%nat with i in T by lia. apply T. lia. }
  subst l. destruct a as [|x a].
  - rewrite app_nil_r in S. exists (length b). cbn [app] in *.
    rewrite <- (app_nil_r b) at 1. apply (G b []); [assumption|]. assumption.
  - exists (length (x :: a)). apply G; [discriminate|assumption].
Qed.

(** ** Operations keep the list in order *)
Section Keep.
Variable size max : N.
Hypothesis size_pos : 1 <= size.
Notation wf := (well_formed size max).

Lemma evict_suffix : forall number l, exists d, l = d ++ evict size number l.
Proof.
  intros number l. induction l as [|e l IH]; [exists []; reflexivity|]. cbn [evict].
  destruct (need_remove size (e :: l) number); [|exists []; reflexivity].
  destruct IH as [d IH]. exists (e :: d). cbn [app]. f_equal. exact IH.
Qed.
Lemma evict_done : forall number l, need_remove size (evict size number l) number = false.
Proof.
  intros number l. induction l as [|e l IH]; [reflexivity|]. cbn [evict].
  destruct (need_remove size (e :: l) number) eqn:E; assumption.
Qed.
Lemma without_suffix : forall {A} (d l : list A), without l (d ++ l).
Proof. intros A d l. induction d; cbn [app]; [apply without_refl|constructor; assumption]. Qed.
Lemma sorted_snoc : forall l e, StronglySorted N.lt (map e_num l) -> (forall x, In x l -> e_num x < e_num e) ->
  StronglySorted N.lt (map e_num (l ++ [e])).
Proof.
  induction l as [|x l IH]; cbn [app map]; intros e S H; [repeat constructor|].
  apply StronglySorted_inv in S. destruct S as [S F]. constructor.
  - apply IH; [assumption|]. intros y Hy. apply H. right. assumption.
  - rewrite Forall_forall in F |- *. intros n Hn. rewrite map_app, in_app_iff in Hn. destruct Hn as [Hn|[<-|[]]]; [auto|].
    apply H. left. reflexivity.
Qed.
Lemma sorted_insert : forall b a e, StronglySorted N.lt (map e_num (b ++ a)) ->
  (forall x, In x b -> e_num x < e_num e) -> (forall x, In x a -> e_num e < e_num x) ->
  StronglySorted N.lt (map e_num ((b ++ [e]) ++ a)).
Proof.
  induction b as [|y b IH]; cbn [app map]; intros a e S Hb Ha.
  - constructor; [assumption|]. rewrite Forall_forall. intros n Hn. apply in_map_iff in Hn. destruct Hn as (x & <- & Hx). auto.
  - apply StronglySorted_inv in S. destruct S as [S F]. constructor.
    + apply IH; [assumption| |assumption]. intros x Hx. apply Hb. right. assumption.
    + rewrite Forall_forall in F |- *. intros n Hn. rewrite !map_app, !in_app_iff in Hn. rewrite map_app in F.
      destruct Hn as [[Hn|[<-|[]]]|Hn].
      * apply F. apply in_app_iff. tauto.
      * apply Hb. left. reflexivity.
      * apply F. apply in_app_iff. tauto.
Qed.
Lemma new_ordered : forall l e, ordered l -> (l = [] \/
   (oldest l <= newest l /\ (e_num e < oldest l \/ newest l < e_num e)) \/
   (newest l < oldest l /\ newest l < e_num e < oldest l)) -> ordered (l ++ [e]).
Proof.
  intros l e O H0. destruct l as [|e0 l0] eqn:El.
  - exists [e], []. split; [reflexivity|]. repeat constructor.
  - destruct H0 as [H0|H]; [discriminate|].
    assert (N : l <> []) by (rewrite El; discriminate). rewrite <- El in *. clear El e0 l0.
    destruct (ordered_turn _ O N) as (c & Tc & T1 & T2 & T3).
    rewrite oldest_at, newest_at in H. set (n := length l) in *.
    (* the two parts *)
    assert (Sp : forall i, (i <= n)%nat -> l = firstn i l ++ skipn i l) by (intros; symmetry; apply firstn_skipn).
    destruct O as (a & b & -> & S). unfold n in *. rewrite app_length in *.
    assert (B : forall x, In x b -> exists i, (length a <= i < length a + length b)%nat /\ num_at (a ++ b) i = e_num x).
    { intros x Hx. destruct (in_num_at _ _ Hx) as (i & Hi & E & _). exists (length a + i)%nat. split; [lia|].
      rewrite num_at_app2 by lia. rewrite <- E. f_equal. lia. }
    assert (A : forall x, In x a -> exists i, (i < length a)%nat /\ num_at (a ++ b) i = e_num x).
    { intros x Hx. destruct (in_num_at _ _ Hx) as (i & Hi & E & _). exists i. split; [lia|].
      rewrite num_at_app1 by lia. assumption. }
    pose proof (sorted_at _ S) as T. rewrite app_length in T.
    assert (Ta : forall i j, (i < j < length a)%nat -> num_at (a ++ b) i < num_at (a ++ b) j).
    { intros i j Hij. rewrite !num_at_app1 by lia. specialize (T (length b + i) (length b + j))%nat.
      rewrite !num_at_app2 in T by lia. replace (length b + i - length b)%nat with i in T by lia.
      replace (length b + j - length b)%nat with j in T by lia. apply T. lia. }
    assert (Tb : forall i j, (length a <= i < j)%nat -> (j < length a + length b)%nat -> num_at (a ++ b) i < num_at (a ++ b) j).
    { intros i j Hij Hj. rewrite !num_at_app2 by lia. specialize (T (i - length a) (j - length a))%nat.
      rewrite !num_at_app1 in T by lia. apply T. lia. }
    destruct (Nat.eq_dec (length a) 0) as [La|La]; [|destruct (Nat.eq_dec (length b) 0) as [Lb|Lb]].
    + destruct a; [|discriminate]. cbn [app length Nat.add] in *. rewrite app_nil_r in S.
      destruct H as [[H1 [H2|H2]]|[H1 H2]].
      * exists b, [e]. split; [reflexivity|]. cbn [app map]. constructor; [assumption|]. rewrite Forall_forall.
        intros m Hm. apply in_map_iff in Hm. destruct Hm as (x & <- & Hx). destruct (B _ Hx) as (i & Hi & <-).
        destruct i as [|i]; [lia|]. specialize (Tb 0 (Datatypes.S i))%nat. lia.
      * exists [], (b ++ [e]). split; [reflexivity|]. rewrite app_nil_r. apply sorted_snoc; [assumption|].
        intros x Hx. destruct (B _ Hx) as (i & Hi & <-). destruct (Nat.eq_dec i (length b - 1)) as [->|Ni]; [lia|].
        specialize (Tb i (length b - 1))%nat. lia.
      * destruct (Nat.eq_dec (length b) 1) as [E1|E1]; [rewrite E1 in *; cbn in *; lia|].
        specialize (Tb 0 (length b - 1))%nat. lia.
    + destruct b; [|discriminate]. rewrite app_nil_r in *. cbn [app length] in *. rewrite Nat.add_0_r in *.
      destruct H as [[H1 [H2|H2]]|[H1 H2]].
      * exists a, [e]. split; [reflexivity|]. cbn [app map]. constructor; [assumption|]. rewrite Forall_forall.
        intros m Hm. apply in_map_iff in Hm. destruct Hm as (x & <- & Hx). destruct (A _ Hx) as (i & Hi & <-).
        destruct i as [|i]; [lia|]. specialize (Ta 0 (Datatypes.S i))%nat. lia.
      * exists (a ++ [e]), []. split; [rewrite app_nil_r; reflexivity|]. cbn [app]. apply sorted_snoc; [assumption|].
        intros x Hx. destruct (A _ Hx) as (i & Hi & <-). destruct (Nat.eq_dec i (length a - 1)) as [->|Ni]; [lia|].
        specialize (Ta i (length a - 1))%nat. lia.
      * destruct (Nat.eq_dec (length a) 1) as [E1|E1]; [rewrite E1 in *; cbn in *; lia|].
        specialize (Ta 0 (length a - 1))%nat. lia.
    + assert (W : num_at (a ++ b) (length a + length b - 1) < num_at (a ++ b) 0).
      { rewrite (num_at_app1 a b 0) by lia. rewrite (num_at_app2 a b (length a + length b - 1)) by lia.
        specialize (T (length b - 1) (length b + 0))%nat. rewrite (num_at_app1 b a (length b - 1)) in T by lia. rewrite (num_at_app2 b a (length b + 0)) in T by lia.
        replace (length b + 0 - length b)%nat with O in T by lia.
        replace (length a + length b - 1 - length a)%nat with (length b - 1)%nat by lia. apply T. lia. }
      exists a, (b ++ [e]). split; [rewrite app_assoc; reflexivity|]. apply sorted_insert; [assumption| |].
      * intros x Hx. destruct (B _ Hx) as (i & Hi & <-).
        destruct (Nat.eq_dec i (length a + length b - 1)) as [->|Ni]; [lia|].
        specialize (Tb i (length a + length b - 1))%nat. lia.
      * intros x Hx. destruct (A _ Hx) as (i & Hi & <-). destruct i as [|i]; [lia|].
        specialize (Ta 0 (Datatypes.S i))%nat. lia.
Qed.

Lemma new_entry_wf : forall number time line l, wf l -> 1 <= number <= max ->
  new_entry size max number time line l = Some (evict size number l ++ [mkEntry number time line]) /\
  wf (evict size number l ++ [mkEntry number time line]).
Proof.
  intros number time line l W Hn. set (l' := evict size number l).
  assert (W' : wf l'). { destruct (evict_suffix number l) as [d E]. fold l' in E. eapply wf_without; [|exact W]. rewrite E. apply without_suffix. }
  pose proof (evict_done number l) as D. fold l' in D.
  assert (C : count (l' ++ [mkEntry number time line]) <= size).
  { unfold count. rewrite app_length. cbn [length]. destruct l' as [|x r] eqn:E; [cbn; lia|].
    cbn [need_remove] in D. destruct (size <=? count (x :: r)) eqn:C; [discriminate|]. apply N.leb_gt in C. unfold count in C. lia. }
  split.
  - unfold new_entry. fold l'. rewrite (proj2 (N.ltb_lt 0 number)) by lia. rewrite (proj2 (N.leb_le number max)) by lia.
    cbn [andb]. rewrite (proj2 (N.leb_le _ _) C). reflexivity.
  - destruct W' as (C' & F & O). split; [assumption|split].
    + apply Forall_app. split; [assumption|]. repeat constructor; cbn [e_num]; lia.
    + apply new_ordered; [assumption|]. cbn [e_num]. destruct l' as [|x r]; [left; reflexivity|right].
      cbn [need_remove] in D. destruct (size <=? count (x :: r)); [discriminate|].
      destruct (oldest (x :: r) <=? newest (x :: r)) eqn:E.
      * apply N.leb_le in E. left. split; [assumption|]. apply andb_false_iff in D. destruct D as [D|D]; apply N.leb_gt in D; lia.
      * apply N.leb_gt in E. right. split; [assumption|]. apply orb_false_iff in D. destruct D as [D1 D2]. apply N.leb_gt in D1, D2. lia.
Qed.

Lemma rmdup_without : forall k line r, without (rmdup k line r) r.
Proof.
  induction k as [|k IH]; intros line [|e r]; cbn [rmdup]; try apply without_refl.
  destruct (list_N_eqb (e_val e) line); constructor; apply IH.
Qed.
Lemma next_range : forall l, 1 <= max -> Forall (fun e => 1 <= e_num e <= max) l -> 1 <= next_number max l <= max.
Proof.
  intros l M F. unfold next_number. destruct l as [|x r] eqn:E; [lia|]. rewrite <- E in *.
  destruct (max <? newest l + 1) eqn:L; [lia|]. apply N.ltb_ge in L. lia.
Qed.
Lemma remove_at_without : forall i (l : hist), without (remove_at i l) l.
Proof.
  intros i l. unfold remove_at. rewrite <- (firstn_skipn i l) at 3. apply without_app; [apply without_refl|].
  destruct (skipn i l) as [|x r] eqn:E.
  - replace (skipn (S i) l) with (@nil entry); [constructor|]. symmetry. apply skipn_all2.
    assert (L : length (skipn i l) = O) by (rewrite E; reflexivity). rewrite skipn_length in L. lia.
  - replace (skipn (S i) l) with r; [constructor; apply without_refl|].
    revert l E. clear. induction i as [|i IH]; intros [|y l] E; cbn [skipn] in *; try discriminate; [congruence|].
    rewrite <- (IH _ E). reflexivity.
Qed.
Lemma removelast_without : forall (l : hist), without (removelast l) l.
Proof.
  induction l as [|x l IH]; [constructor|]. cbn [removelast]. destruct l; [apply without_nil|constructor; assumption].
Qed.
Lemma renumber_wf : forall l, size <= max -> wf l -> wf (renumber 0 l).
Proof.
  intros l M (C & F & _).
  assert (G : forall l k, length (renumber k l) = length l /\
     Forall (fun e => k + 1 <= e_num e <= k + N.of_nat (length l)) (renumber k l) /\ StronglySorted N.lt (map e_num (renumber k l))).
  { clear. induction l as [|e l IH]; intro k; cbn [renumber length map]; [repeat constructor|].
    destruct (IH (k + 1)) as (L & F & S). split; [lia|split].
    - constructor; [cbn [e_num]; lia|]. eapply Forall_impl; [|exact F]. cbn. lia.
    - cbn [e_num]. constructor; [assumption|]. rewrite Forall_forall in F |- *. intros n Hn. apply in_map_iff in Hn.
      destruct Hn as (x & <- & Hx). specialize (F _ Hx). cbn in F. lia. }
  destruct (G l 0) as (L & F' & S). split; [rewrite L; assumption|split].
  - eapply Forall_impl; [|exact F']. cbn. lia.
  - exists (renumber 0 l), []. split; [rewrite app_nil_r; reflexivity|exact S].
Qed.
End Keep.

(** ** The search *)
Lemma seek_spec : forall p l i,
  match seek p i l with
  | Some j => (i <= j < i + length l)%nat /\ p (num_at l (j - i)) = false /\ (forall k, (k < j - i)%nat -> p (num_at l k) = true)
  | None => forall k, (k < length l)%nat -> p (num_at l k) = true
  end.
Proof.
  intros p l. induction l as [|e l IH]; intro i; cbn [seek length]; [intros k H; lia|].
  destruct (p (e_num e)) eqn:E.
  - specialize (IH (S i)). destruct (seek p (S i) l) as [j|].
    + destruct IH as (H1 & H2 & H3). split; [lia|]. replace (j - i)%nat with (S (j - S i)) by lia.
      split; [exact H2|]. intros [|k] Hk; [exact E|]. apply (H3 k). lia.
    + intros [|k] Hk; [exact E|]. apply (IH k). lia.
  - split; [lia|]. replace (i - i)%nat with O by lia. split; [exact E|]. intros k Hk. lia.
Qed.

Section Search.
Variable max : N.
Variable l : hist.
Hypothesis ne : l <> [].
Variable c : nat.
Hypothesis T : turn l c.
Hypothesis bnd : forall i, (i < length l)%nat -> 1 <= num_at l i <= max.
Notation n := (length l).
Notation x := (num_at l).
Lemma n_pos : (0 < n)%nat. Proof. destruct l; [congruence|cbn; lia]. Qed.

Lemma wrapped_iff : (x (n - 1) < x 0 <-> (c < n)%nat).
Proof.
  pose proof n_pos. destruct T as (T0 & T1 & T2 & T3). split; intro H0.
  - destruct (Nat.eq_dec c n) as [E|Nq]; [|lia]. destruct (Nat.eq_dec n 1) as [E1|E1].
    + rewrite E1 in H0. cbn in H0. lia.
    + specialize (T1 0 (n - 1))%nat. lia.
  - apply T3; lia.
Qed.
(** Keys by index *)
Definition kx (i : nat) : N := if (i <? c)%nat then x i else x i + max.
Lemma key_at : forall i, (i < n)%nat -> key max l (x i) = kx i.
Proof.
  intros i Hi. pose proof n_pos. unfold key, kx. rewrite first_num_at, last_num_at.
  destruct T as (T0 & T1 & T2 & T3).
  destruct (Nat.ltb_spec i c).
  - destruct (N.ltb_spec (x (n - 1)) (x 0)) as [W|W]; [|reflexivity]. cbn [andb].
    apply wrapped_iff in W. rewrite (proj2 (N.leb_gt _ _)); [reflexivity|]. apply T3; lia.
  - assert (W : x (n - 1) < x 0) by (apply wrapped_iff; lia).
    rewrite (proj2 (N.ltb_lt _ _) W). cbn [andb]. rewrite (proj2 (N.leb_le _ _)); [reflexivity|].
    destruct (Nat.eq_dec i (n - 1)) as [->|Nq]; [lia|]. specialize (T2 i (n - 1))%nat. lia.
Qed.
Lemma kx_mono : forall i j, (i < j < n)%nat -> kx i < kx j.
Proof.
  intros i j H. pose proof n_pos. unfold kx. destruct T as (T0 & T1 & T2 & T3).
  pose proof (bnd i ltac:(lia)). pose proof (bnd j ltac:(lia)).
  destruct (Nat.ltb_spec i c), (Nat.ltb_spec j c); try lia.
  - apply T1. lia.
  - specialize (T2 i j). lia.
Qed.
Lemma kx_le : forall i j, (i < n)%nat -> (j < n)%nat -> (kx i <= kx j <-> (i <= j)%nat).
Proof.
  intros i j Hi Hj. split; intro H.
  - destruct (Nat.le_gt_cases i j); [assumption|]. pose proof (kx_mono j i). lia.
  - destruct (Nat.eq_dec i j) as [->|Nq]; [lia|]. pose proof (kx_mono i j). lia.
Qed.
Lemma newer_at : forall i j, (i < n)%nat -> (j < n)%nat -> entry_newer l (x i) (x j) = (j <=? i)%nat.
Proof.
  intros i j Hi Hj. pose proof n_pos. unfold entry_newer. rewrite oldest_at, newest_at.
  pose proof T as (T0 & T1 & T2 & T3). pose proof wrapped_iff as W.
  assert (F : forall k, (k < c)%nat -> x 0 <= x k). { intros k Hk. destruct k; [lia|]. specialize (T1 0 (S k))%nat. lia. }
  assert (G : forall k, (c <= k < n)%nat -> x k <= x (n - 1)). { intros k Hk. destruct (Nat.eq_dec k (n - 1)) as [->|Nq]; [lia|]. specialize (T2 k (n - 1))%nat. lia. }
  assert (M : forall p q, (p < n)%nat -> (q < n)%nat -> ((p < c)%nat <-> (q < c)%nat) -> (x q <= x p <-> (q <= p)%nat)).
  { intros p q Hp Hq Hpq. destruct (Nat.lt_trichotomy p q) as [L|[->|L]]; [| lia|].
    - destruct (Nat.lt_ge_cases q c); [specialize (T1 p q); lia|specialize (T2 p q); lia].
    - destruct (Nat.lt_ge_cases p c); [specialize (T1 q p); lia|specialize (T2 q p); lia]. }
  destruct (Nat.lt_ge_cases i c) as [Ic|Ic], (Nat.lt_ge_cases j c) as [Jc|Jc].
  - specialize (M i j Hi Hj ltac:(lia)). pose proof (F j Jc). pose proof (F i Ic).
    destruct (Nat.leb_spec j i); destruct (N.leb_spec (x i) (x (n-1))), (N.ltb_spec (x (n-1)) (x 0)), (N.leb_spec (x 0) (x j)), (N.leb_spec (x j) (x i)); cbn; try reflexivity; lia.
  - pose proof (F i Ic). pose proof (G j ltac:(lia)). specialize (T3 i j ltac:(lia) Hj). assert (x (n - 1) < x 0) by (apply W; lia).
    destruct (Nat.leb_spec j i); [lia|]. destruct (N.leb_spec (x i) (x (n-1))), (N.ltb_spec (x (n-1)) (x 0)), (N.leb_spec (x 0) (x j)), (N.leb_spec (x j) (x i)); cbn; try reflexivity; lia.
  - pose proof (F j Jc). pose proof (G i ltac:(lia)). assert (x (n - 1) < x 0) by (apply W; lia).
    destruct (Nat.leb_spec j i); [|lia]. destruct (N.leb_spec (x i) (x (n-1))), (N.ltb_spec (x (n-1)) (x 0)), (N.leb_spec (x 0) (x j)), (N.leb_spec (x j) (x i)); cbn; try reflexivity; lia.
  - specialize (M i j Hi Hj ltac:(lia)). pose proof (G j ltac:(lia)). pose proof (G i ltac:(lia)). assert (x (n - 1) < x 0) by (apply W; lia).
    destruct (Nat.leb_spec j i); destruct (N.leb_spec (x i) (x (n-1))), (N.ltb_spec (x (n-1)) (x 0)), (N.leb_spec (x 0) (x j)), (N.leb_spec (x j) (x i)); cbn; try reflexivity; lia.
Qed.

(** A place: every entry up to [p] is not newer than [k], every entry from [q] is
    not older *)
Definition place (k : N) (p q : option nat) : Prop :=
  (match p with Some p => (p < n)%nat | None => True end) /\ (match q with Some q => (q < n)%nat | None => True end) /\
  forall i, (i < n)%nat ->
    (kx i <= k <-> match p with Some p => (i <= p)%nat | None => False end) /\
    (k <= kx i <-> match q with Some q => (q <= i)%nat | None => False end).
Lemma place_exact : forall k j, (j < n)%nat -> k = kx j -> place k (Some j) (Some j).
Proof. intros k j Hj ->. split; [assumption|split; [assumption|]]. intros i Hi. rewrite !kx_le by assumption. tauto. Qed.
Lemma place_gap : forall k j, (S j < n)%nat -> kx j < k -> k < kx (S j) -> place k (Some j) (Some (S j)).
Proof.
  intros k j Hj H1 H2. split; [lia|split; [assumption|]]. intros i Hi.
  pose proof (kx_le i j Hi ltac:(lia)). pose proof (kx_le (S j) i Hj Hi). destruct (Nat.le_gt_cases i j); split; split; intros; try lia.
Qed.
Lemma place_low : forall k, k < kx 0 -> place k None (Some O).
Proof.
  intros k H. pose proof n_pos. split; [exact I|split; [lia|]]. intros i Hi. pose proof (kx_le 0 i ltac:(lia) Hi). split; split; intros; lia.
Qed.
Lemma place_high : forall k, kx (n - 1) < k -> place k (Some (n - 1)%nat) None.
Proof.
  intros k H. pose proof n_pos. split; [lia|split; [exact I|]]. intros i Hi. pose proof (kx_le i (n - 1) Hi ltac:(lia)). split; split; intros; lia.
Qed.

Definition seam (number : N) : Prop :=
  (c < n)%nat /\ ((number <= x (n - 1) /\ number < x c) \/ (x 0 <= number <= x (n - 1) + max /\ x (c - 1) < number)).
Lemma seam_iff : forall number, at_the_seam max l number <-> seam number.
Proof.
  intro number. unfold at_the_seam, seam. rewrite first_num_at, last_num_at. rewrite wrapped_iff.
  pose proof T as (T0 & T1 & T2 & T3).
  split; intros [Hc H]; (split; [assumption|]).
  - destruct H as [[H1 H2]|[H1 H2]]; [left|right]; (split; [assumption|]).
    + destruct (at_in l c Hc) as (e & I & E & _). rewrite <- E. apply H2; [assumption|]. rewrite E.
      destruct (Nat.eq_dec c (n - 1)) as [->|Nq]; [lia|]. specialize (T2 c (n - 1))%nat. lia.
    + destruct (at_in l (c - 1) ltac:(lia)) as (e & I & E & _). rewrite <- E. apply H2; [assumption|]. rewrite E.
      destruct (Nat.eq_dec (c - 1) 0) as [->|Nq]; [lia|]. specialize (T1 0 (c - 1))%nat. lia.
  - destruct H as [[H1 H2]|[H1 H2]]; [left|right]; (split; [assumption|]); intros e I Le;
      destruct (in_num_at _ _ I) as (i & Hi & E & _); rewrite <- E in *.
    + destruct (Nat.lt_ge_cases i c).
      * specialize (T3 i (n - 1))%nat. lia.
      * destruct (Nat.eq_dec i c) as [->|Nq]; [lia|]. specialize (T2 c i). lia.
    + destruct (Nat.lt_ge_cases i c).
      * destruct (Nat.eq_dec i (c - 1)) as [->|Nq]; [lia|]. specialize (T1 i (c - 1))%nat. lia.
      * specialize (T3 O i). lia.
Qed.

Lemma search_ok : forall number,
  match search max number l with
  | SCrash => seam number
  | SRes p q => ~ seam number /\ place (key max l number) p q
  end.
Proof.
  intro number. pose proof n_pos as Np. pose proof T as (T0 & T1 & T2 & T3). pose proof wrapped_iff as W.
  assert (F : forall k, (k < c)%nat -> x 0 <= x k). { intros k Hk. destruct k; [lia|]. specialize (T1 0 (S k))%nat. lia. }
  assert (G : forall k, (c <= k < n)%nat -> x k <= x (n - 1)). { intros k Hk. destruct (Nat.eq_dec k (n - 1)) as [->|Nq]; [lia|]. specialize (T2 k (n - 1))%nat. lia. }
  assert (F' : forall k, (k < c)%nat -> x k <= x (c - 1)). { intros k Hk. destruct (Nat.eq_dec k (c - 1)) as [->|Nq]; [lia|]. specialize (T1 k (c - 1))%nat. lia. }
  assert (G' : forall k, (c <= k < n)%nat -> x c <= x k). { intros k Hk. destruct (Nat.eq_dec k c) as [->|Nq]; [lia|]. specialize (T2 c k)%nat. lia. }
  assert (B : forall k, (k < n)%nat -> 1 <= x k <= max) by (intros; apply bnd; assumption).
  assert (K0 : kx 0 = x 0). { unfold kx. destruct (Nat.ltb_spec 0 c); [reflexivity|lia]. }
  assert (Kn : kx (n - 1) = if (x (n - 1) <? x 0) then x (n - 1) + max else x (n - 1)).
  { unfold kx. destruct (Nat.ltb_spec (n - 1) c), (N.ltb_spec (x (n - 1)) (x 0)); try reflexivity; lia. }
  assert (Kc : forall i, (i < n)%nat -> (i < c)%nat /\ kx i = x i \/ (c <= i)%nat /\ kx i = x i + max).
  { intros i Hi. unfold kx. destruct (Nat.ltb_spec i c); [left|right]; split; auto. }
  unfold search. destruct l as [|e0 l0] eqn:El; [congruence|]. rewrite <- El in *. clear El e0 l0.
  rewrite !oldest_at, !newest_at.
  unfold key. rewrite first_num_at, last_num_at.
  set (nn := if (x (n - 1) <? x 0) && (number <=? x (n - 1)) then number + max else number).
  rewrite <- Kn. rewrite <- K0.
  assert (Hnn : (c < n)%nat /\ number <= x (n - 1) /\ nn = number + max \/ ((c < n)%nat /\ x (n - 1) < number) /\ nn = number \/ c = n /\ nn = number).
  { unfold nn. destruct (N.ltb_spec (x (n - 1)) (x 0)), (N.leb_spec number (x (n - 1))); cbn [andb]; lia. }
  assert (Seam : seam number -> kx 0 <= nn <= kx (n - 1)).
  { clearbody nn. unfold seam. rewrite Kn, K0. intros [Hc H]. assert (Hw : x (n - 1) < x 0) by (apply W; lia).
    rewrite (proj2 (N.ltb_lt _ _) Hw). pose proof (B O ltac:(lia)). destruct H as [H|H]; lia. }
  clearbody nn.
  destruct (N.ltb_spec nn (kx 0)) as [L|L]. { split; [intro Q; apply Seam in Q; lia|]. apply place_low. assumption. }
  destruct (N.ltb_spec (kx (n - 1)) nn) as [M|M]. { split; [intro Q; apply Seam in Q; lia|]. apply place_high. assumption. }
  clear Seam.
  assert (Wm : (c < n)%nat -> kx (n - 1) = x (n - 1) + max). { intro. rewrite Kn. rewrite (proj2 (N.ltb_lt _ _)) by (apply W; lia). reflexivity. }
  assert (Wn : (c = n)%nat -> kx (n - 1) = x (n - 1)). { intro. rewrite Kn. rewrite (proj2 (N.ltb_ge _ _)) by lia. reflexivity. }
  destruct (2 * (nn - kx 0) <? kx (n - 1) - kx 0).
  - pose proof (seek_spec (fun m => number <? m) l O) as S1. destruct (seek (fun m => number <? m) 0 l) as [i|].
    2: { assert (A : forall k, (k < n)%nat -> number < x k). { intros k Hk. apply N.ltb_lt. apply S1. exact Hk. }
         pose proof (A O ltac:(lia)). pose proof (A (n - 1)%nat ltac:(lia)). unfold seam.
         destruct Hnn as [H2|[H2|H2]]; [|lia|lia]. split; [lia|]. left. split; [lia|]. apply A. lia. }
    rewrite Nat.sub_0_r in S1. destruct S1 as (I1 & I2 & I3). apply N.ltb_ge in I2.
    assert (I4 : forall k, (k < i)%nat -> number < x k). { intros k Hk. apply N.ltb_lt. apply I3. exact Hk. } clear I3.
    pose proof (seek_spec (fun m => m <? number) (skipn i l) i) as S2.
    rewrite skipn_length in S2.
    destruct (seek (fun m => m <? number) i (skipn i l)) as [j|].
    2: { assert (A : forall k, (i <= k < n)%nat -> x k < number).
         { intros k Hk. apply N.ltb_lt. specialize (S2 (k - i)%nat ltac:(lia)). rewrite num_at_skipn in S2.
           replace (i + (k - i))%nat with k in S2 by lia. exact S2. }
         unfold seam. pose proof (A (n - 1)%nat ltac:(lia)).
         destruct Hnn as [H2|[H2|H2]]; [lia| |lia].
         split; [lia|]. right. split; [lia|].
         assert (i = O). { destruct i; [reflexivity|]. specialize (I4 O ltac:(lia)). lia. } subst i. apply A. lia. }
    destruct S2 as (J1 & J2 & J3). rewrite num_at_skipn in J2. replace (i + (j - i))%nat with j in J2 by lia.
    apply N.ltb_ge in J2.
    assert (J4 : forall k, (i <= k < j)%nat -> x k < number).
    { intros k Hk. apply N.ltb_lt. specialize (J3 (k - i)%nat ltac:(lia)). rewrite num_at_skipn in J3.
      replace (i + (k - i))%nat with k in J3 by lia. exact J3. }
    clear J3. assert (Jn : (j < n)%nat) by lia.
    assert (Q : nn <= kx j /\ (number = x j -> nn = kx j) /\ (number <> x j -> (0 < j)%nat /\ nn < kx j /\ kx (j - 1) < nn) /\ ~ seam number).
    { destruct Hnn as [(H1 & H2 & H3)|[((H1 & H2) & H3)|(H1 & H3)]].
      - (* in the second part *)
        assert (Ci : i = c).
        { destruct (Nat.lt_trichotomy i c) as [Q|[Q|Q]]; [|assumption|].
          - specialize (T3 i (n - 1)%nat). specialize (F i Q). lia.
          - specialize (I4 c Q). specialize (G' i ltac:(lia)). lia. }
        subst i. destruct (Kc j Jn) as [Kj|[Kj1 Kj2]]; [lia|]. split; [lia|split; [lia|split]].
        + intro Ne. assert (j <> c). { intros ->. lia. } split; [lia|split; [lia|]].
          destruct (Kc (j - 1)%nat ltac:(lia)) as [Kk|[Kk1 Kk2]]; [lia|]. specialize (J4 (j - 1)%nat ltac:(lia)). lia.
        + unfold seam. intros [_ [?|[? ?]]]; [lia|]. specialize (T3 (c - 1)%nat (n - 1)%nat). lia.
      - assert (i = O). { destruct i; [reflexivity|]. specialize (I4 O ltac:(lia)). lia. } subst i.
        assert (Jc : (j < c)%nat). { destruct (Nat.lt_ge_cases j c); [assumption|]. specialize (G j ltac:(lia)). lia. }
        destruct (Kc j Jn) as [[Kj1 Kj2]|Kj]; [|lia]. split; [lia|split; [lia|split]].
        + intro Ne. assert (j <> 0)%nat. { intros ->. lia. } split; [lia|split; [lia|]].
          destruct (Kc (j - 1)%nat ltac:(lia)) as [[Kk1 Kk2]|Kk]; [|lia]. specialize (J4 (j - 1)%nat ltac:(lia)). lia.
        + unfold seam. intros [_ [?|[? ?]]]; [lia|]. specialize (F' j Jc). lia.
      - assert (i = O). { destruct i; [reflexivity|]. specialize (I4 O ltac:(lia)). lia. } subst i.
        destruct (Kc j Jn) as [[Kj1 Kj2]|Kj]; [|lia]. split; [lia|split; [lia|split]].
        + intro Ne. assert (j <> 0)%nat. { intros ->. lia. } split; [lia|split; [lia|]].
          destruct (Kc (j - 1)%nat ltac:(lia)) as [[Kk1 Kk2]|Kk]; [|lia]. specialize (J4 (j - 1)%nat ltac:(lia)). lia.
        + unfold seam. lia. }
    destruct Q as (_ & Q1 & Q2 & Q3). split; [assumption|].
    destruct (N.eqb_spec number (x j)) as [E|E]; [apply place_exact; auto|].
    destruct (Q2 E) as (Q4 & Q5 & Q6). destruct j as [|j]; [lia|]. cbn [before].
    replace (S j - 1)%nat with j in Q6 by lia. apply place_gap; assumption.
  - pose proof (seek_spec (fun m => m <? number) (rev l) O) as S1. rewrite rev_length in S1.
    destruct (seek (fun m => m <? number) 0 (rev l)) as [i'|].
    2: { assert (A : forall k, (k < n)%nat -> x k < number).
         { intros k Hk. apply N.ltb_lt. specialize (S1 (n - 1 - k)%nat ltac:(lia)). rewrite num_at_rev in S1 by (lia).
           replace (n - 1 - (n - 1 - k))%nat with k in S1 by lia. exact S1. }
         pose proof (A O ltac:(lia)). pose proof (A (n - 1)%nat ltac:(lia)). unfold seam.
         destruct Hnn as [H2|[H2|H2]]; [lia| |lia]. split; [lia|]. right. split; [lia|]. apply A. lia. }
    rewrite Nat.sub_0_r in S1. destruct S1 as (I1 & I2 & I3). rewrite num_at_rev in I2 by (lia).
    apply N.ltb_ge in I2. set (i := (n - 1 - i')%nat) in *.
    assert (I4 : forall k, (i < k < n)%nat -> x k < number).
    { intros k Hk. apply N.ltb_lt. specialize (I3 (n - 1 - k)%nat ltac:(lia)). rewrite num_at_rev in I3 by (lia).
      replace (n - 1 - (n - 1 - k))%nat with k in I3 by lia. exact I3. }
    clear I3.
    pose proof (seek_spec (fun m => number <? m) (skipn i' (rev l)) i') as S2.
    rewrite skipn_length, rev_length in S2.
    destruct (seek (fun m => number <? m) i' (skipn i' (rev l))) as [j'|].
    2: { assert (A : forall k, (k <= i)%nat -> number < x k).
         { intros k Hk. apply N.ltb_lt. specialize (S2 (n - 1 - k - i')%nat ltac:(lia)). rewrite num_at_skipn in S2.
           rewrite num_at_rev in S2 by (lia).
           replace (n - 1 - (i' + (n - 1 - k - i')))%nat with k in S2 by lia. exact S2. }
         unfold seam. pose proof (A O ltac:(lia)).
         destruct Hnn as [H2|[H2|H2]]; [|lia|lia].
         split; [lia|]. left. split; [lia|].
         destruct (Nat.le_gt_cases c i); [apply A; assumption|]. specialize (I4 (n - 1)%nat ltac:(lia)). lia. }
    destruct S2 as (J1 & J2 & J3). rewrite num_at_skipn in J2. rewrite num_at_rev in J2 by (lia).
    set (j := (n - 1 - j')%nat) in *. replace (n - 1 - (i' + (j' - i')))%nat with j in J2 by lia.
    apply N.ltb_ge in J2.
    assert (J4 : forall k, (j < k <= i)%nat -> number < x k).
    { intros k Hk. apply N.ltb_lt. specialize (J3 (n - 1 - k - i')%nat ltac:(lia)). rewrite num_at_skipn in J3.
      rewrite num_at_rev in J3 by (lia).
      replace (n - 1 - (i' + (n - 1 - k - i')))%nat with k in J3 by lia. exact J3. }
    clear J3. assert (Jn : (j <= i)%nat) by lia. assert (In : (i < n)%nat) by lia.
    assert (Q : (number = x j -> nn = kx j) /\ (number <> x j -> (S j < n)%nat /\ nn < kx (S j) /\ kx j < nn) /\ ~ seam number).
    { destruct Hnn as [(H1 & H2 & H3)|[((H1 & H2) & H3)|(H1 & H3)]].
      - assert (Ei : i = (n - 1)%nat). { destruct (Nat.eq_dec i (n - 1)) as [Eq|Nq]; [assumption|]. specialize (I4 (n - 1)%nat ltac:(lia)). lia. }
        assert (Jc : (c <= j)%nat). { destruct (Nat.lt_ge_cases j c); [|assumption]. specialize (F j ltac:(assumption)). assert (x (n - 1) < x 0) by (apply W; lia). lia. }
        destruct (Kc j ltac:(lia)) as [Kj|[Kj1 Kj2]]; [lia|]. split; [lia|split].
        + intro Ne. assert (j <> n - 1)%nat. { intros E. rewrite E in *. lia. } split; [lia|].
          destruct (Kc (S j)%nat ltac:(lia)) as [Kk|[Kk1 Kk2]]; [lia|]. specialize (J4 (S j)%nat ltac:(lia)). lia.
        + unfold seam. specialize (G' j ltac:(lia)). intros [_ [?|[? ?]]]; [lia|]. specialize (T3 (c - 1)%nat (n - 1)%nat). lia.
      - assert (Ei : i = (c - 1)%nat).
        { destruct (Nat.lt_trichotomy i (c - 1)) as [Q|[Q|Q]]; [|assumption|].
          - specialize (I4 (c - 1)%nat ltac:(lia)). specialize (F' i ltac:(lia)). lia.
          - specialize (G i ltac:(lia)). lia. }
        destruct (Kc j ltac:(lia)) as [[Kj1 Kj2]|Kj]; [|lia]. split; [lia|split].
        + intro Ne. assert (j <> c - 1)%nat. { intros E. rewrite <- E in Ei. rewrite Ei in *. lia. } split; [lia|].
          destruct (Kc (S j)%nat ltac:(lia)) as [[Kk1 Kk2]|Kk]; [|lia]. specialize (J4 (S j)%nat ltac:(lia)). lia.
        + unfold seam. rewrite Ei in *. lia.
      - assert (Ei : i = (n - 1)%nat). { destruct (Nat.eq_dec i (n - 1)) as [Eq|Nq]; [assumption|]. specialize (I4 (n - 1)%nat ltac:(lia)). lia. }
        destruct (Kc j ltac:(lia)) as [[Kj1 Kj2]|Kj]; [|lia]. split; [lia|split].
        + intro Ne. assert (j <> n - 1)%nat. { intros E. rewrite E in *. rewrite Ei in *. lia. } split; [lia|].
          destruct (Kc (S j)%nat ltac:(lia)) as [[Kk1 Kk2]|Kk]; [|lia]. specialize (J4 (S j)%nat ltac:(lia)). lia.
        + unfold seam. lia. }
    destruct Q as (Q1 & Q2 & Q3). split; [assumption|].
    destruct (N.eqb_spec number (x j)) as [E|E]; [apply place_exact; [lia|auto]|].
    destruct (Q2 E) as (Q4 & Q5 & Q6). unfold after. rewrite (proj2 (Nat.ltb_lt _ _) Q4). apply place_gap; assumption.
Qed.
End Search.
