(** Array built-ins *)
From Coq Require Import Ascii String.
From Coq Require Import List NArith ZArith Bool Arith Lia Permutation Sorted.
From Verif Require Import Common Locale NumModel BraceSpec BraceModel BraceNum VarModel VarSpec VarProofs.
Import ListNotations.
Open Scope res_scope.

Section L.
Variable L : locale.
Hypothesis HL : locale_ok L.

Definition int_of (x : list N) (i : Z) : Prop := exists sg ds, integer L x sg ds i.
Lemma xwcstol_int : forall x i, xwcstol L 10 x = Some i <-> int_of x i.
Proof.
  intros x i. split.
  - intro H. unfold xwcstol in H. destruct x as [|c x]; [discriminate|]. destruct (wcstol L 10 (c :: x)) as [[v|] [|d r]] eqn:E; try discriminate.
    destruct (in_long v) eqn:El; [|discriminate]. injection H as ->.
    assert (Hn : number L (c :: x) = Some (i, [])) by (unfold number; rewrite E, El; reflexivity).
    apply (number_bwd L) in Hn. destruct Hn as [a [sg [ds [-> [I _]]]]]. rewrite app_nil_r. exists sg, ds. exact I.
  - intros [sg [ds I]]. pose proof (number_fwd L HL x sg ds i [] I Logic.I) as H. rewrite app_nil_r in H. unfold number in H.
    destruct (wcstol L 10 x) as [[v|] r] eqn:E; [|discriminate]. destruct (in_long v) eqn:El; [|discriminate]. injection H as -> ->.
    unfold xwcstol. destruct x; [|rewrite E, El; reflexivity]. destruct I as [sp [E1 [_ [E2 _]]]]. exfalso.
    symmetry in E1. apply app_eq_nil in E1. destruct E1 as [_ E1]. apply app_eq_nil in E1. apply E2, E1.
Qed.

(** Sorting *)
Lemma insert_perm : forall x l, Permutation (insert_desc x l) (x :: l).
Proof.
  induction l as [|y l IH]; cbn [insert_desc]; [reflexivity|]. destruct (y <=? x)%Z; [reflexivity|].
  rewrite IH. apply perm_swap.
Qed.
Lemma sort_perm : forall l, Permutation (sort_desc l) l.
Proof. induction l as [|x l IH]; cbn; [reflexivity|]. change (Permutation (insert_desc x (sort_desc l)) (x :: l)). rewrite insert_perm, IH. reflexivity. Qed.
Lemma insert_sorted : forall x l, StronglySorted (fun a b => b <= a)%Z l -> StronglySorted (fun a b => b <= a)%Z (insert_desc x l).
Proof.
  induction l as [|y l IH]; intro H; cbn [insert_desc]; [repeat constructor|]. inversion H as [|? ? H1 H2]; subst. destruct (Z.leb_spec y x) as [B|B].
  - constructor; [exact H|]. constructor; [exact B|]. eapply Forall_impl; [|exact H2]. cbn. intros. lia.
  - constructor; [apply IH, H1|]. eapply (Permutation_Forall (Permutation_sym (insert_perm x l))). constructor; [lia|exact H2].
Qed.
Lemma sort_sorted : forall l, StronglySorted (fun a b => b <= a)%Z (sort_desc l).
Proof. induction l as [|x l IH]; [constructor|]. apply insert_sorted, IH. Qed.

(** Removing *)
Lemma without_ext : forall l k p q, (forall j, (k <= j)%nat -> p j = q j) -> without k p l = without k q l.
Proof.
  induction l as [|x l IH]; intros k p q H; [reflexivity|]. cbn [without]. rewrite (H k) by lia. rewrite (IH (S k) p q) by (intros; apply H; lia). reflexivity.
Qed.
Lemma without_none : forall l k p, (forall j, (k <= j)%nat -> p j = false) -> without k p l = l.
Proof. induction l as [|x l IH]; intros k p H; [reflexivity|]. cbn [without]. rewrite (H k) by lia. f_equal. apply IH. intros. apply H. lia. Qed.
Lemma without_at : forall l i k p, (i < length l)%nat -> (forall j, (k + i <= j)%nat -> p j = false) ->
  without k p (remove_at i l) = without k (fun j => (j =? k + i)%nat || p j) l.
Proof.
  induction l as [|x l IH]; intros i k p B H; cbn [length] in B; [lia|]. destruct i as [|i].
  - change (remove_at 0 (x :: l)) with l. cbn [without]. rewrite Nat.add_0_r, Nat.eqb_refl. cbn [orb].
    rewrite !without_none; [reflexivity| |]; intros j Hj; [destruct (Nat.eqb_spec j k); [lia|]; cbn|]; apply H; lia.
  - change (remove_at (S i) (x :: l)) with (x :: remove_at i l). cbn [without].
    replace (k =? k + S i)%nat with false by (symmetry; apply Nat.eqb_neq; lia). cbn [orb].
    rewrite (IH i (S k) p) by (try lia; intros; apply H; lia).
    replace (without (S k) (fun j => (j =? S k + i)%nat || p j) l) with (without (S k) (fun j => (j =? k + S i)%nat || p j) l); [reflexivity|].
    apply without_ext. intros j _. rewrite Nat.add_succ_r. reflexivity.
Qed.
Definition among (idx : list Z) (k : nat) : bool := existsb (Z.eqb (Z.of_nat k)) idx.
Lemma among_in : forall idx k, among idx k = true <-> In (Z.of_nat k) idx.
Proof.
  intros idx k. unfold among. rewrite existsb_exists. split.
  - intros [x [H1 H2]]. apply Z.eqb_eq in H2. subst x. exact H1.
  - intro H. exists (Z.of_nat k). split; [exact H|apply Z.eqb_refl].
Qed.
Lemma bool_iff : forall a b : bool, (a = true <-> b = true) -> a = b.
Proof. intros [|] [|] H; try reflexivity; [symmetry|]; apply H; reflexivity. Qed.
Lemma remove_indices_ok : forall idx last l, StronglySorted (fun a b => b <= a)%Z idx -> Forall (fun i => i <= last)%Z idx ->
  remove_indices idx last l = without 0 (fun k => among idx k && negb (Z.of_nat k =? last)%Z) l.
Proof.
  induction idx as [|i idx IH]; intros last l Hs Hl; cbn [remove_indices].
  - symmetry. apply without_none. reflexivity.
  - inversion Hs as [|? ? S1 S2]; subst. inversion Hl as [|? ? L1 L2]; subst. destruct (Z.eqb_spec i last) as [->|D].
    + rewrite IH by assumption. apply without_ext. intros k _. unfold among. cbn [existsb].
      destruct (Z.of_nat k =? last)%Z; cbn [negb andb orb]; [rewrite !andb_false_r; reflexivity|reflexivity].
    + rewrite IH by assumption. destruct ((0 <=? i)%Z && (i <? Z.of_nat (length l))%Z) eqn:B.
      * apply andb_prop in B. destruct B as [B1 B2]. apply Z.leb_le in B1. apply Z.ltb_lt in B2.
        rewrite without_at.
        -- apply without_ext. intros k _. apply bool_iff. cbn [Nat.add].
           rewrite orb_true_iff, !andb_true_iff, !negb_true_iff, !among_in, Nat.eqb_eq, !Z.eqb_neq. cbn [In]. rewrite Forall_forall in S2. split.
           ++ intros [->|[H1 H2]]; [rewrite Z2Nat.id by lia; split; [left; reflexivity|exact D]|]. split; [right; exact H1|]. specialize (S2 _ H1). lia.
           ++ intros [[H|H] H2]; [left; lia|]. specialize (S2 _ H). destruct (Z.eq_dec (Z.of_nat k) i) as [E|E]; [left; lia|right; auto].
        -- lia.
        -- intros j Hj. apply not_true_is_false. rewrite andb_true_iff, among_in, negb_true_iff, Z.eqb_neq. intros [H1 H2].
           rewrite Forall_forall in S2. specialize (S2 _ H1). lia.
      * assert (Hx : forall k, (k < length l)%nat -> Z.of_nat k <> i).
        { intros k Hk E. apply andb_false_iff in B. rewrite Z.leb_gt, Z.ltb_ge in B. lia. }
        assert (G : forall l' k0 p q, (forall k, (k0 <= k < k0 + length l')%nat -> p k = q k) -> without k0 p l' = without k0 q l').
        { clear. induction l' as [|x l' IH]; intros k0 p q H; [reflexivity|]. cbn [without]. cbn [length] in H.
          rewrite (H k0) by lia. rewrite (IH (S k0) p q) by (intros; apply H; lia). reflexivity. }
        apply G. intros k Hk. specialize (Hx k ltac:(lia)). apply bool_iff.
        rewrite !andb_true_iff, !negb_true_iff, !among_in, !Z.eqb_neq. cbn [In]. rewrite Forall_forall in S2. split.
        -- intros [H1 _]. split; [right; exact H1|]. specialize (S2 _ H1). lia.
        -- intros [[H|H] _]; [congruence|]. split; [exact H|exact Hx].
Qed.
Lemma remove_start : forall idx l, StronglySorted (fun a b => b <= a)%Z idx -> Forall (fun i => LONG_MIN <= i)%Z idx ->
  remove_indices idx LONG_MIN l = without 0 (among idx) l.
Proof.
  intros idx l Hs Hm. destruct idx as [|i idx]; [symmetry; apply without_none; reflexivity|]. inversion Hs as [|? ? S1 S2]; subst.
  destruct (Z.eq_dec i LONG_MIN) as [E|D].
  - rewrite remove_indices_ok; [|exact Hs|].
    + apply without_ext. intros k _. replace (Z.of_nat k =? LONG_MIN)%Z with false; [cbn; rewrite andb_true_r; reflexivity|].
      symmetry. apply Z.eqb_neq. unfold LONG_MIN. lia.
    + constructor; [lia|]. subst i. exact S2.
  - assert (E : remove_indices (i :: idx) LONG_MIN l = remove_indices (i :: idx) (Z.max i 0 + 1 + Z.of_nat (length l)) l).
    { cbn [remove_indices]. destruct (Z.eqb_spec i LONG_MIN); [contradiction|]. destruct (Z.eqb_spec i (Z.max i 0 + 1 + Z.of_nat (length l))); [lia|]. reflexivity. }
    rewrite E. rewrite remove_indices_ok; [|exact Hs|].
    + apply without_ext. intros k _. apply bool_iff. rewrite andb_true_iff, negb_true_iff, !among_in, Z.eqb_neq. split; [tauto|]. intro H. split; [exact H|].
      cbn [In] in H. rewrite Forall_forall in S2. destruct H as [H|H]; [|specialize (S2 _ H)]; lia.
    + constructor; [lia|]. eapply Forall_impl; [|exact S2]. cbn. intros. lia.
Qed.
Definition adjust (count i : Z) : Z := if (0 <=? i)%Z then (i - 1)%Z else (i + count)%Z.
Lemma parse_indices_ok : forall idx is count, Forall2 int_of idx is -> parse_indices L idx count = Some (map (adjust count) is).
Proof.
  intros idx is count H. induction H as [|x i idx is H1 H2 IH]; cbn [parse_indices map]; [reflexivity|].
  apply xwcstol_int in H1. rewrite H1, IH. reflexivity.
Qed.
Lemma parse_indices_none : forall idx count, ~ (exists is, Forall2 int_of idx is) -> parse_indices L idx count = None.
Proof.
  induction idx as [|x idx IH]; intros count H; [exfalso; apply H; exists []; constructor|]. cbn [parse_indices].
  destruct (xwcstol L 10 x) as [i|] eqn:E; [|reflexivity]. rewrite IH; [reflexivity|].
  intros [is F]. apply H. exists (i :: is). constructor; [apply xwcstol_int, E|exact F].
Qed.
Lemma denotes_adjust : forall len i k, (denotes len i k <-> (k < len)%nat /\ adjust (Z.of_nat len) i = Z.of_nat k).
Proof.
  intros len i k. unfold denotes, adjust. destruct (Z.leb_spec 0 i); split; intros [A B]; (split; [exact A|]); lia.
Qed.
Lemma without_in : forall l k0 p q, (forall k, (k0 <= k < k0 + length l)%nat -> p k = q k) -> without k0 p l = without k0 q l.
Proof.
  induction l as [|x l IH]; intros k0 p q H; [reflexivity|]. cbn [without]. cbn [length] in H.
  rewrite (H k0) by lia. rewrite (IH (S k0) p q) by (intros; apply H; lia). reflexivity.
Qed.
Lemma remove_elements_ok : forall idx is l p, Forall2 int_of idx is -> (forall k, p k = true <-> exists i, In i is /\ denotes (length l) i k) ->
  array_remove_elements L idx l = Some (without 0 p l).
Proof.
  intros idx is l p H Hp. unfold array_remove_elements. rewrite (parse_indices_ok _ _ _ H). f_equal.
  rewrite remove_start.
  - apply without_in. intros k Hk. apply bool_iff. rewrite among_in, Hp. split.
    + intro X. apply (Permutation_in _ (sort_perm _)) in X. apply in_map_iff in X. destruct X as [i [E I]].
      exists i. split; [exact I|]. apply denotes_adjust. split; [lia|exact E].
    + intros [i [I D]]. apply (Permutation_in _ (Permutation_sym (sort_perm _))). apply in_map_iff. exists i. split; [|exact I].
      apply denotes_adjust in D. apply D.
  - apply sort_sorted.
  - eapply (Permutation_Forall (Permutation_sym (sort_perm _))). rewrite Forall_map. rewrite Forall_forall. intros i Hi.
    assert (R : exists x, int_of x i).
    { clear - H Hi. induction H as [|x j idx is H1 H2 IH]; [destruct Hi|]. destruct Hi as [<-|Hi]; [eauto|apply IH, Hi]. }
    destruct R as [x [sg [ds [sp [_ [_ [_ [_ [R _]]]]]]]]]. unfold adjust, LONG_MIN. destruct (Z.leb_spec 0 i); lia.
Qed.
Lemma remove_elements_none : forall idx l, ~ (exists is, Forall2 int_of idx is) -> array_remove_elements L idx l = None.
Proof. intros idx l H. unfold array_remove_elements. rewrite parse_indices_none by exact H. reflexivity. Qed.
(** Inserting: after the element with the number, counted from either end *)
Lemma insert_elements_ok : forall x i new l u, int_of x i -> (u <= length l)%nat ->
  ((0 <= i)%Z -> u = Nat.min (Z.to_nat i) (length l)) ->
  ((i < 0)%Z -> u = Z.to_nat (Z.of_nat (length l) + 1 + i)) ->
  array_insert_elements L x new l = Some (firstn u l ++ new ++ skipn u l).
Proof.
  intros x i new l u H B H1 H2. apply xwcstol_int in H. unfold array_insert_elements. rewrite H.
  destruct (Z.ltb_spec i 0) as [N1|N1].
  - specialize (H2 N1). destruct (Z.ltb_spec (Z.max 0 (i + (Z.of_nat (length l) + 1))) (Z.of_nat (length l))) as [C|C].
    + replace (Z.to_nat (Z.max 0 (i + (Z.of_nat (length l) + 1)))) with u by lia. reflexivity.
    + replace (length l) with u by lia. reflexivity.
  - specialize (H1 N1). destruct (Z.ltb_spec i (Z.of_nat (length l))) as [C|C].
    + replace (Z.to_nat i) with u by lia. reflexivity.
    + replace (length l) with u by lia. reflexivity.
Qed.
Lemma set_element_ok : forall x i y l, int_of x i ->
  (forall k, denotes (length l) i k -> array_set_element L x y l = Some (upd l k y)) /\
  ((forall k, ~ denotes (length l) i k) -> array_set_element L x y l = None).
Proof.
  intros x i y l H. apply xwcstol_int in H. unfold array_set_element. rewrite H. unfold denotes. split.
  - intros k [B D]. destruct (Z.ltb_spec i 0) as [N1|N1].
    + destruct (Z.ltb_spec (i + Z.of_nat (length l)) 0); [lia|]. f_equal. f_equal. lia.
    + destruct (Z.ltb_spec 0 i); [|lia]. destruct (Z.ltb_spec (i - 1) (Z.of_nat (length l))); [|lia]. f_equal. f_equal. lia.
  - intros D. destruct (Z.ltb_spec i 0) as [N1|N1].
    + destruct (Z.ltb_spec (i + Z.of_nat (length l)) 0); [reflexivity|]. exfalso. apply (D (Z.to_nat (i + Z.of_nat (length l)))). lia.
    + destruct (Z.ltb_spec 0 i); [|reflexivity]. destruct (Z.ltb_spec (i - 1) (Z.of_nat (length l))); [|reflexivity].
      exfalso. apply (D (Z.to_nat i - 1)%nat). lia.
Qed.
Lemma not_int_none : forall x new y l, ~ (exists i, int_of x i) -> array_insert_elements L x new l = None /\ array_set_element L x y l = None.
Proof.
  intros x new y l H. unfold array_insert_elements, array_set_element. destruct (xwcstol L 10 x) as [i|] eqn:E; [|auto].
  exfalso. apply H. exists i. apply xwcstol_int, E.
Qed.
End L.
