(** Proofs about tries. *)
From Coq Require Import List ZArith Bool Arith Lia Sorted.
From Verif Require Import Common TrieModel TrieSpec.
Import ListNotations.
Open Scope res_scope.

(** ** RAISE_COUNT *)
Lemma raise_eq : forall n, RAISE_COUNT n = 4 * (n / 4) + 3.
Proof.
  intros n. unfold RAISE_COUNT. apply Nat.bits_inj. intros i.
  rewrite Nat.lor_spec.
  replace (4 * (n / 4) + 3) with (2 * (2 * (n / 4) + 1) + 1) by lia.
  destruct i as [|[|i]].
  - rewrite Nat.testbit_odd_0. apply orb_true_r.
  - rewrite Nat.testbit_odd_succ by lia. rewrite Nat.testbit_odd_0. apply orb_true_r.
  - rewrite Nat.testbit_odd_succ by lia. rewrite Nat.testbit_odd_succ by lia.
    replace (n / 4) with (n / 2 ^ 2) by reflexivity. rewrite Nat.div_pow2_bits.
    replace (i + 2) with (S (S i)) by lia.
    replace (Nat.testbit 3 (S (S i))) with false; [apply orb_false_r|].
    symmetry. exact (Nat.bits_0 i).
Qed.

Lemma raise_ge n : n <= RAISE_COUNT n.
Proof. rewrite raise_eq. pose proof (Nat.div_mod n 4). pose proof (Nat.mod_upper_bound n 4). lia. Qed.
Lemma raise_mono n m : n <= m -> RAISE_COUNT n <= RAISE_COUNT m.
Proof. intros. rewrite !raise_eq. pose proof (Nat.div_le_mono n m 4). lia. Qed.

Section P.
Variable V : Type.
Notation trie := (trie V).
Implicit Types (t : trie) (es l : list (Z * trie)).

(** ** Sorted entries *)
Definition sortedk es := StronglySorted (fun x y => (fst x < fst y)%Z) es.

Lemma sortedk_app l r :
  sortedk (l ++ r) <-> sortedk l /\ sortedk r /\ Forall (fun x => Forall (fun y => (fst x < fst y)%Z) r) l.
Proof.
  unfold sortedk. induction l as [|x l IH]; cbn.
  - split; intros; [repeat split; auto; constructor|tauto].
  - split.
    + intros H. inversion H; subst. apply IH in H2 as (A & B & C).
      apply Forall_app in H3 as [D E]. repeat split; auto; constructor; auto.
    + intros (A & B & C). inversion A; subst. inversion C; subst. constructor.
      * apply IH; auto.
      * apply Forall_app; auto.
Qed.

Lemma sortedk_nth es : sortedk es -> forall i j x y, i < j ->
  nth_error es i = Some x -> nth_error es j = Some y -> (fst x < fst y)%Z.
Proof.
  induction 1 as [|a es S IH F]; intros i j x y L A B.
  - destruct i; discriminate.
  - destruct j; [lia|]. cbn in B. destruct i.
    + cbn in A. injection A as <-. rewrite Forall_forall in F. apply F.
      eapply nth_error_In; eauto.
    + eapply (IH i j); eauto. lia.
Qed.

Lemma sortedk_mid l c n r : sortedk (l ++ (c, n) :: r) ->
  Forall (fun e => (fst e < c)%Z) l /\ Forall (fun e => (c < fst e)%Z) r.
Proof.
  intros H. apply sortedk_app in H as (A & B & C). inversion B; subst. split; [|auto].
  rewrite Forall_forall in C |- *. intros x I. specialize (C x I). inversion C; subst; auto.
Qed.

Lemma sortedk_ins l c n r : sortedk (l ++ r) ->
  Forall (fun e => (fst e < c)%Z) l -> Forall (fun e => (c < fst e)%Z) r ->
  sortedk (l ++ (c, n) :: r).
Proof.
  intros H Fl Fr. apply sortedk_app in H as (A & B & C). apply sortedk_app. split; [auto|split].
  - constructor; auto.
  - rewrite Forall_forall in *. intros x I. constructor; [cbn; apply Fl; auto|apply C; auto].
Qed.

Lemma sortedk_del l e r : sortedk (l ++ e :: r) -> sortedk (l ++ r).
Proof.
  intros H. apply sortedk_app in H as (A & B & C). apply sortedk_app. inversion B; subst.
  split; [auto|split; [auto|]]. rewrite Forall_forall in *. intros x I. specialize (C x I).
  inversion C; auto.
Qed.

(** ** Binary search *)
Lemma binarysearch_ok es key : sortedk es -> forall fuel offset count,
  count <= fuel -> offset + count <= length es ->
  (forall j x, j < offset -> nth_error es j = Some x -> (fst x < key)%Z) ->
  (forall j x, offset + count <= j -> nth_error es j = Some x -> (key < fst x)%Z) ->
  (exists i n, binarysearch fuel es offset count key = Ok (Z.of_nat i) /\ nth_error es i = Some (key, n)) \/
  (exists i, binarysearch fuel es offset count key = Ok (- Z.of_nat i - 1)%Z /\ i <= length es /\
    (forall j x, j < i -> nth_error es j = Some x -> (fst x < key)%Z) /\
    (forall j x, i <= j -> nth_error es j = Some x -> (key < fst x)%Z)).
Proof.
  intros So. induction fuel as [|fuel IH]; intros offset count L1 L2 A B.
  - assert (count = 0) by lia. subst. right. exists offset. cbn.
    rewrite Nat.add_0_r in *. auto.
  - cbn [binarysearch]. destruct (Nat.eqb_spec count 0) as [->|N0].
    + right. exists offset. rewrite Nat.add_0_r in *. auto.
    + assert (HD : count / 2 < count) by (apply Nat.div_lt; lia).
      set (i := count / 2) in *.
      unfold rget. destruct (nth_error es (offset + i)) as [[k n]|] eqn:E.
      2:{ apply nth_error_None in E. lia. }
      cbn [rbind fst]. destruct (Z.eqb_spec key k) as [<-|Nk].
      * left. eauto.
      * destruct (Z.ltb_spec key k) as [Lt|Ge].
        -- apply IH; auto; try lia. intros j x Hj Ej.
           destruct (Nat.eq_dec j (offset + i)) as [->|].
           ++ rewrite E in Ej. injection Ej as <-. auto.
           ++ assert (offset + i < j) by lia.
              pose proof (sortedk_nth es So _ _ _ _ H E Ej). cbn in H0. lia.
        -- apply IH; try lia.
           ++ intros j x Hj Ej. destruct (Nat.eq_dec j (offset + i)) as [->|].
              ** rewrite E in Ej. injection Ej as <-. cbn. lia.
              ** assert (j < offset + i) by lia.
                 pose proof (sortedk_nth es So _ _ _ _ H Ej E). cbn in H0. lia.
           ++ intros j x Hj Ej. apply (B j x); auto. lia.
Qed.

Lemma search_ok t key : sortedk (entries t) ->
  (exists l n r, search t key = Ok (Z.of_nat (length l)) /\ entries t = l ++ (key, n) :: r) \/
  (exists l r, search t key = Ok (- Z.of_nat (length l) - 1)%Z /\ entries t = l ++ r /\
     Forall (fun e => (fst e < key)%Z) l /\ Forall (fun e => (key < fst e)%Z) r).
Proof.
  intros S. unfold search.
  destruct (binarysearch_ok (entries t) key S (count t) 0 (count t)) as [(i & n & E & N)|(i & E & L & A & B)].
  - lia.
  - unfold count. lia.
  - intros; lia.
  - intros j x Hj Ej. assert (H : nth_error (entries t) j <> None) by congruence.
    apply nth_error_Some in H. unfold count in *. lia.
  - left. apply nth_error_split in N as (l & r & Es & <-). rewrite E. eauto.
  - right. exists (firstn i (entries t)), (skipn i (entries t)).
    rewrite firstn_length, Nat.min_l by lia. split; [auto|]. split; [symmetry; apply firstn_skipn|].
    split; apply Forall_forall; intros x I; apply In_nth_error in I as [j J].
    + assert (j < i).
      { assert (nth_error (firstn i (entries t)) j <> None) by congruence.
        apply nth_error_Some in H. rewrite firstn_length in H. lia. }
      apply (A j x); auto. rewrite <- J. clear -H.
      revert j H. generalize (entries t). induction i; intros es j H; [lia|].
      destruct es; [now destruct j|]. destruct j; cbn; auto. apply IHi. lia.
    + apply (B (i + j) x); [lia|]. rewrite <- J. clear.
      generalize (entries t). induction i; intros es; cbn; auto.
      destruct es; cbn; auto. now destruct j.
Qed.

(** ** Well-formed tries *)
Section Wf.
Variable Q : trie -> Prop.
Inductive wf : trie -> Prop :=
| wf_node v es : sortedk es -> Forall (fun e => wf (snd e)) es -> Forall (fun e => Q (snd e)) es ->
    wf (Node v (RAISE_COUNT (length es)) es).
End Wf.

Definition nonempty t : Prop := isempty t = false.
Definition valued t : Prop := value t <> None.

Fixpoint assoc (c : Z) es : option trie :=
  match es with
  | [] => None
  | (d, n) :: es' => if (c =? d)%Z then Some n else assoc c es'
  end.
Fixpoint walk t (k : list Z) : option trie :=
  match k with
  | [] => Some t
  | c :: k' => match assoc c (entries t) with Some n => walk n k' | None => None end
  end.
Definition lookup t k : option V := match walk t k with Some n => value n | None => None end.

Lemma lookup_nil t : lookup t [] = value t.
Proof. reflexivity. Qed.
Lemma lookup_cons t c k :
  lookup t (c :: k) = match assoc c (entries t) with Some n => lookup n k | None => None end.
Proof. unfold lookup. cbn. destruct (assoc c (entries t)); reflexivity. Qed.

Lemma assoc_lt c l r : Forall (fun e => (fst e < c)%Z) l -> assoc c (l ++ r) = assoc c r.
Proof.
  induction 1 as [|[d n] l H F IH]; cbn; auto. cbn in H.
  destruct (Z.eqb_spec c d); [lia|auto].
Qed.
Lemma assoc_gt c r : Forall (fun e => (c < fst e)%Z) r -> assoc c r = None.
Proof.
  induction 1 as [|[d n] l H F IH]; cbn; auto. cbn in H.
  destruct (Z.eqb_spec c d); [lia|auto].
Qed.
Lemma assoc_other c d n l r : c <> d -> assoc c (l ++ (d, n) :: r) = assoc c (l ++ r).
Proof.
  intros N. induction l as [|[e m] l IH]; cbn.
  - destruct (Z.eqb_spec c d); congruence.
  - rewrite IH; auto.
Qed.
Lemma assoc_here c n l r : sortedk (l ++ (c, n) :: r) -> assoc c (l ++ (c, n) :: r) = Some n.
Proof.
  intros H. apply sortedk_mid in H as [A B]. rewrite assoc_lt by auto. cbn. now rewrite Z.eqb_refl.
Qed.
Lemma assoc_In c n es : assoc c es = Some n -> In (c, n) es.
Proof.
  induction es as [|[d m] es IH]; cbn; [discriminate|].
  destruct (Z.eqb_spec c d); [intros [= ->]; subst; auto|auto].
Qed.
Lemma In_assoc c n es : sortedk es -> In (c, n) es -> assoc c es = Some n.
Proof. intros S I. apply in_split in I as (l & r & ->). apply assoc_here; auto. Qed.

Lemma rget_mid' {A} (l : list A) (x : A) (r : list A) : rget (l ++ x :: r) (length l) = Ok x.
Proof. unfold rget. rewrite nth_error_app2, Nat.sub_diag by lia. reflexivity. Qed.
Lemma rset_mid' {A} (l : list A) (x y : A) (r : list A) : rset (l ++ x :: r) (length l) y = Ok (l ++ y :: r).
Proof.
  unfold rset. rewrite app_length. cbn [length].
  replace (length l <? length l + S (length r)) with true by (symmetry; apply Nat.ltb_lt; lia).
  f_equal. induction l; cbn; [reflexivity|now rewrite IHl].
Qed.

Section Ops.
Variable Q : trie -> Prop.
Notation wf := (wf Q).

Lemma wf_sorted t : wf t -> sortedk (entries t).
Proof. destruct 1; auto. Qed.
Lemma wf_child t c n : wf t -> assoc c (entries t) = Some n -> wf n /\ Q n.
Proof.
  destruct 1 as [v es S F G]. cbn. intros A%assoc_In. rewrite Forall_forall in *.
  split; [apply (F _ A)|apply (G _ A)].
Qed.
Lemma wf_value t v : wf t -> wf (Node v (cap t) (entries t)).
Proof. destruct 1. cbn. constructor; auto. Qed.
Lemma wf_create : wf trie_create.
Proof. apply (wf_node Q None []); constructor. Qed.

Lemma insert_ok t l r c : wf t -> entries t = l ++ r ->
  insert_entry t (length l) c = Ok (Node (value t) (RAISE_COUNT (length l + S (length r))) (l ++ (c, trie_create) :: r)).
Proof.
  intros W E. destruct W as [v es S F G]. cbn in E. subst es.
  unfold insert_entry, ensure_size, count. cbn [entries cap value].
  rewrite app_length.
  replace (length l + length r <? length l) with false by (symmetry; apply Nat.ltb_ge; lia).
  set (n := length l + length r).
  assert (HC : (if RAISE_COUNT (n + 1) <=? RAISE_COUNT n
          then Node v (RAISE_COUNT n) (l ++ r)
          else Node v (RAISE_COUNT (n + 1)) (l ++ r)) = Node v (RAISE_COUNT (n + 1)) (l ++ r)).
  { destruct (Nat.leb_spec (RAISE_COUNT (n + 1)) (RAISE_COUNT n)); auto.
    pose proof (raise_mono n (n + 1)). f_equal. lia. }
  rewrite HC. cbn [entries cap value]. rewrite app_length. fold n.
  pose proof (raise_ge (n + 1)).
  replace (length l + 1 + (n - length l) <=? RAISE_COUNT (n + 1)) with true
    by (symmetry; apply Nat.leb_le; unfold n in *; lia).
  replace (length l <? RAISE_COUNT (n + 1)) with true by (symmetry; apply Nat.ltb_lt; unfold n in *; lia).
  rewrite andb_false_r. cbn [negb]. rewrite firstn_app, firstn_all, Nat.sub_diag, skipn_app, skipn_all, Nat.sub_diag.
  cbn [firstn skipn app]. rewrite app_nil_r. do 2 f_equal. f_equal. unfold n. lia.
Qed.

(** Finding or adding an entry: afterwards it is in the middle of a sorted list. *)
Lemma find_or_insert_ok t c : wf t ->
  exists l n r, find_or_insert t c = Ok (Node (value t) (RAISE_COUNT (length (l ++ (c, n) :: r))) (l ++ (c, n) :: r), length l)
    /\ sortedk (l ++ (c, n) :: r)
    /\ wf n
    /\ Forall (fun e => wf (snd e)) (l ++ r) /\ Forall (fun e => Q (snd e)) (l ++ r)
    /\ (forall d, d <> c -> assoc d (l ++ r) = assoc d (entries t))
    /\ match assoc c (entries t) with Some n' => n = n' | None => n = trie_create end.
Proof.
  intros W. unfold find_or_insert.
  destruct (search_ok t c (wf_sorted t W)) as [(l & n & r & E & En)|(l & r & E & En & Fl & Fr)]; rewrite E; cbn [rbind].
  - replace (Z.of_nat (length l) <? 0)%Z with false by (symmetry; apply Z.ltb_ge; lia).
    rewrite Nat2Z.id. exists l, n, r.
    destruct W as [v es S F G]. cbn in En. subst es. cbn [value entries].
    split; [reflexivity|]. split; [auto|].
    apply Forall_app in F as [F1 F2]. apply Forall_app in G as [G1 G2].
    inversion F2; subst. inversion G2; subst.
    split; [auto|]. split; [apply Forall_app; auto|]. split; [apply Forall_app; auto|].
    split.
    + intros d N. now rewrite assoc_other.
    + now rewrite assoc_here.
  - replace (- Z.of_nat (length l) - 1 <? 0)%Z with true by (symmetry; apply Z.ltb_lt; lia).
    replace (Z.to_nat (- (- Z.of_nat (length l) - 1 + 1))) with (length l) by lia.
    rewrite (insert_ok t l r c W En). cbn [rbind].
    exists l, trie_create, r. rewrite app_length. cbn [length].
    split; [reflexivity|].
    destruct W as [v es S F G]. cbn in En. subst es. cbn [value entries].
    split; [apply sortedk_ins; auto|]. split; [apply wf_create|].
    split; [auto|]. split; [auto|]. split; [auto|].
    now rewrite assoc_lt, assoc_gt.
Qed.

Lemma set_child_ok v l c n r m x : 
  set_child (Node v m (l ++ (c, n) :: r)) (length l) x = Ok (Node v m (l ++ (c, x) :: r)).
Proof. unfold set_child. cbn [entries value cap]. rewrite rget_mid'. cbn [rbind]. rewrite rset_mid'. reflexivity. Qed.

Lemma sortedk_repl l c n r x : sortedk (l ++ (c, n) :: r) -> sortedk (l ++ (c, x) :: r).
Proof.
  intros H. pose proof (sortedk_mid _ _ _ _ H) as [A B]. apply sortedk_ins; auto.
  eapply sortedk_del; eauto.
Qed.

Lemma wf_repl v l c n r x : sortedk (l ++ (c, n) :: r) -> wf x -> Q x ->
  Forall (fun e => wf (snd e)) (l ++ r) -> Forall (fun e => Q (snd e)) (l ++ r) ->
  wf (Node v (RAISE_COUNT (length (l ++ (c, n) :: r))) (l ++ (c, x) :: r)).
Proof.
  intros S W q F G.
  replace (length (l ++ (c, n) :: r)) with (length (l ++ (c, x) :: r)) by (rewrite !app_length; reflexivity).
  apply Forall_app in F as [? ?]. apply Forall_app in G as [? ?].
  constructor; [eapply sortedk_repl; eauto|apply Forall_app; auto|apply Forall_app; auto].
Qed.
End Ops.

(** ** Set *)
Lemma lookup_create k : lookup trie_create k = None.
Proof. destruct k; reflexivity. Qed.

Lemma trie_set_ok k v : forall t, wf nonempty t ->
  exists t', trie_set t k v = Ok t' /\ wf nonempty t' /\ nonempty t' /\
    forall k', lookup t' k' = if list_eq_dec Z.eq_dec k k' then Some v else lookup t k'.
Proof.
  induction k as [|c k IH]; intros t W; cbn [trie_set].
  - eexists. split; [reflexivity|]. split; [apply wf_value; auto|]. split.
    + unfold nonempty, isempty. cbn. apply andb_false_r.
    + intros [|d k']; cbn [list_eq_dec]; [reflexivity|].
      destruct (list_eq_dec Z.eq_dec [] (d :: k')); [discriminate|].
      rewrite !lookup_cons. reflexivity.
  - destruct (find_or_insert_ok nonempty t c W) as (l & n & r & E & S & Wn & F & G & O & M).
    rewrite E. cbn [rbind entries]. rewrite rget_mid'. cbn [rbind snd].
    destruct (IH n Wn) as (n' & E' & W' & N' & L'). rewrite E'. cbn [rbind].
    rewrite set_child_ok. eexists. split; [reflexivity|].
    split; [apply wf_repl; auto|]. split.
    { unfold nonempty, isempty, count. cbn. rewrite app_length. cbn.
      destruct (Nat.eqb_spec (length l + Datatypes.S (length r)) 0); [lia|reflexivity]. }
    intros [|d k'].
    + cbn. destruct (list_eq_dec Z.eq_dec (c :: k) []); [discriminate|reflexivity].
    + rewrite !lookup_cons. cbn [entries]. destruct (Z.eq_dec d c) as [->|Nd].
      * rewrite assoc_here by (eapply sortedk_repl; eauto). rewrite L'.
        destruct (list_eq_dec Z.eq_dec k k') as [Ek0|Nk];
          destruct (list_eq_dec Z.eq_dec (c :: k) (c :: k')) as [Ek|Ek]; try congruence.
        destruct (assoc c (entries t)); subst n; [reflexivity|apply lookup_create].
      * rewrite assoc_other by auto. rewrite O by auto.
        destruct (list_eq_dec Z.eq_dec (c :: k) (d :: k')); [congruence|reflexivity].
Qed.

Lemma trie_set_null_eq t v : trie_set_null t v = trie_set t [0%Z] v.
Proof. reflexivity. Qed.

(** ** Remove *)
Lemma lookup_empty t k : isempty t = true -> lookup t k = None.
Proof.
  unfold isempty. intros [A B]%andb_true_iff. apply Nat.eqb_eq in A.
  destruct t as [v m es]. unfold count in A. cbn in A, B. destruct es; [|discriminate].
  destruct v; [discriminate|]. destruct k; reflexivity.
Qed.

Lemma shrink_cap l e r v c : 
  (if RAISE_COUNT (count (Node v (RAISE_COUNT (length (l ++ e :: r))) (l ++ (c : Z * trie) :: r))) =? 
      RAISE_COUNT (count (Node v (RAISE_COUNT (length (l ++ (e : Z * trie) :: r))) (l ++ c :: r)) - 1)
   then RAISE_COUNT (length (l ++ e :: r))
   else RAISE_COUNT (count (Node v (RAISE_COUNT (length (l ++ e :: r))) (l ++ c :: r)) - 1))
  = RAISE_COUNT (length (l ++ r)).
Proof.
  unfold count. cbn [entries]. rewrite !app_length. cbn [length].
  replace (length l + S (length r) - 1) with (length l + length r) by lia.
  destruct (Nat.eqb_spec (RAISE_COUNT (length l + S (length r))) (RAISE_COUNT (length l + length r))) as [A|A]; auto.
Qed.

Lemma trie_remove_ok k : forall t, wf nonempty t ->
  exists t', trie_remove t k = Ok t' /\ wf nonempty t' /\
    forall k', lookup t' k' = if list_eq_dec Z.eq_dec k k' then None else lookup t k'.
Proof.
  induction k as [|c k IH]; intros t W; cbn [trie_remove].
  - eexists. split; [reflexivity|]. split; [apply wf_value; auto|].
    intros [|d k']; [reflexivity|].
    destruct (list_eq_dec Z.eq_dec [] (d :: k')); [discriminate|].
    rewrite !lookup_cons. reflexivity.
  - destruct (search_ok t c (wf_sorted _ t W)) as [(l & n & r & E & En)|(l & r & E & En & Fl & Fr)]; rewrite E; cbn [rbind].
    + replace (Z.of_nat (length l) <? 0)%Z with false by (symmetry; apply Z.ltb_ge; lia).
      rewrite Nat2Z.id.
      destruct W as [v es S F G]. cbn [entries] in En. subst es. cbn [entries].
      rewrite rget_mid'. cbn [rbind snd].
      apply Forall_app in F as [F1 F2]. apply Forall_app in G as [G1 G2].
      inversion F2 as [|? ? Fn F3]; subst. inversion G2 as [|? ? Gn G3]; subst. cbn [snd] in *.
      destruct (IH n Fn) as (n' & E' & W' & L'). rewrite E'. cbn [rbind].
      rewrite set_child_ok. cbn [rbind].
      assert (LK : forall d k', 
         match assoc d (l ++ (c, n') :: r) with Some m => lookup m k' | None => None end =
         if list_eq_dec Z.eq_dec (c :: k) (d :: k') then None
         else match assoc d (l ++ (c, n) :: r) with Some m => lookup m k' | None => None end).
      { intros d k'. destruct (Z.eq_dec d c) as [->|Nd].
        - rewrite !assoc_here by (eauto using sortedk_repl). rewrite L'.
          destruct (list_eq_dec Z.eq_dec k k') as [Ek0|Nk];
            destruct (list_eq_dec Z.eq_dec (c :: k) (c :: k')) as [Ek|Ek]; try congruence.
        - rewrite !assoc_other by auto.
          destruct (list_eq_dec Z.eq_dec (c :: k) (d :: k')); [congruence|reflexivity]. }
      destruct (isempty n') eqn:Em.
      * unfold count at 1. cbn [entries]. rewrite app_length. cbn [length].
        replace (length l + Datatypes.S (length r) <? length l + 1) with false by (symmetry; apply Nat.ltb_ge; lia).
        eexists. split; [reflexivity|].
        unfold shrink. cbn [value cap]. rewrite shrink_cap.
        replace (firstn (length l) (l ++ (c, n') :: r)) with l
          by (rewrite firstn_app, firstn_all, Nat.sub_diag; cbn; now rewrite app_nil_r).
        replace (skipn (length l + 1) (l ++ (c, n') :: r)) with r
          by (rewrite skipn_app, skipn_all2 by lia; replace (length l + 1 - length l) with 1 by lia; reflexivity).
        split.
        -- constructor; [eapply sortedk_del; eauto|apply Forall_app; auto|apply Forall_app; auto].
        -- intros [|d k']; [cbn; destruct (list_eq_dec Z.eq_dec (c :: k) []); [discriminate|reflexivity]|].
           rewrite !lookup_cons. cbn [entries]. rewrite <- LK.
           destruct (Z.eq_dec d c) as [->|Nd].
           ++ rewrite assoc_here by (eauto using sortedk_repl). rewrite lookup_empty by auto.
              apply sortedk_mid in S as [A B]. rewrite assoc_lt, assoc_gt by auto. reflexivity.
           ++ rewrite (assoc_other d c n') by auto. reflexivity.
      * eexists. split; [reflexivity|]. split.
        -- apply wf_repl; auto; apply Forall_app; auto.
        -- intros [|d k']; [cbn; destruct (list_eq_dec Z.eq_dec (c :: k) []); [discriminate|reflexivity]|].
           rewrite !lookup_cons. cbn [entries]. apply LK.
    + replace (- Z.of_nat (length l) - 1 <? 0)%Z with true by (symmetry; apply Z.ltb_lt; lia).
      eexists. split; [reflexivity|]. split; [auto|].
      intros k'. destruct (list_eq_dec Z.eq_dec (c :: k) k') as [<-|]; [|reflexivity].
      rewrite lookup_cons, En, assoc_lt, assoc_gt by auto. reflexivity.
Qed.

(** ** Induction over tries *)
Lemma trie_ind2 (R : trie -> Prop) :
  (forall v m es, Forall (fun e => R (snd e)) es -> R (Node v m es)) -> forall t, R t.
Proof.
  intros H. fix IH 1. intros [v m es]. apply H.
  induction es as [|[c n] es IHes]; constructor; [apply IH|apply IHes].
Qed.

Lemma nonempty_key t : wf nonempty t -> nonempty t -> exists k, lookup t k <> None.
Proof.
  induction t as [v m es IH] using trie_ind2. intros W N. inversion W as [? ? So F G]; subst.
  destruct es as [|[c n] es].
  - unfold nonempty, isempty in N. cbn in N. destruct v; [|discriminate].
    exists []. cbn. discriminate.
  - inversion IH as [|? ? IHn]; subst. inversion F as [|? ? Fn]; subst. inversion G as [|? ? Gn]; subst. cbn in *.
    destruct (IHn Fn Gn) as [k K]. exists (c :: k). rewrite lookup_cons. cbn.
    now rewrite Z.eqb_refl.
Qed.

Lemma count_keys t : wf nonempty t ->
  negb (count t =? 0) = true <-> exists c ext, lookup t (c :: ext) <> None.
Proof.
  intros W. rewrite negb_true_iff, Nat.eqb_neq. split.
  - intros N. destruct W as [v es S F G]. unfold count in N. cbn in N.
    destruct es as [|[c n] es]; [cbn in N; lia|]. inversion F; subst. inversion G; subst. cbn in *.
    destruct (nonempty_key n) as [k K]; auto. exists c, k. rewrite lookup_cons. cbn.
    now rewrite Z.eqb_refl.
  - intros (c & ext & L) E. unfold count in E. rewrite lookup_cons in L.
    destruct (entries t); [cbn in L; congruence|discriminate].
Qed.

(** ** Get *)
Lemma hpk_nil (m : kmap V) : has_prefix_key V m [] <-> m [] <> None.
Proof.
  split.
  - intros (k & (r & E) & N). symmetry in E. apply app_eq_nil in E as [-> _]. auto.
  - intros N. exists []. split; [now exists []|auto].
Qed.
Lemma hpk_cons (m : kmap V) c k :
  has_prefix_key V m (c :: k) <-> m [] <> None \/ has_prefix_key V (fun k' => m (c :: k')) k.
Proof.
  split.
  - intros ([|d k'] & (r & E) & N); [auto|]. right. injection E as <- ->.
    exists k'. split; [now exists r|auto].
  - intros [N|(k' & (r & ->) & N)].
    + exists []. split; [now eexists|auto].
    + exists (c :: k'). split; [now exists r|auto].
Qed.

Lemma lpk_nil (m : kmap V) v : m [] = Some v -> longest_prefix_key V m [] [] v.
Proof.
  intros E. split; [now exists []|]. split; [auto|].
  intros k' (r & X) _. symmetry in X. apply app_eq_nil in X as [-> _]. auto.
Qed.
Lemma lpk_root (m : kmap V) c k v : m [] = Some v ->
  ~ has_prefix_key V (fun k' => m (c :: k')) k -> longest_prefix_key V m (c :: k) [] v.
Proof.
  intros E N. split; [now eexists|]. split; [auto|].
  intros [|d k'] (r & X) Y; [auto|]. injection X as <- ->. exfalso. apply N.
  exists k'. split; [now exists r|auto].
Qed.
Lemma lpk_cons (m : kmap V) c k k1 v : longest_prefix_key V (fun k' => m (c :: k')) k k1 v ->
  longest_prefix_key V m (c :: k) (c :: k1) v.
Proof.
  intros ((r & ->) & E & M). split; [now exists r|]. split; [auto|].
  intros [|d k'] (r' & X) Y; [cbn; lia|]. injection X as <- X. cbn.
  specialize (M k' (ex_intro _ r' X) Y). lia.
Qed.

Lemma la_ext (m m' : kmap V) k (g : trieget V) : (forall x, m x = m' x) ->
  lookup_answer m k g -> lookup_answer m' k g.
Proof.
  intros E [A B C]. split.
  - rewrite A. unfold has_prefix_key. split; intros (x & P & N); exists x; split; auto; congruence.
  - intros X. destruct (B X) as (k1 & v & (P & M & L) & ?). exists k1, v. split; [|auto].
    split; [auto|]. rewrite <- E. split; [auto|]. intros k' P' N. apply L; auto. now rewrite E.
  - rewrite C. unfold proper_prefix_of_key. split; intros (c & x & N); exists c, x; congruence.
Qed.

Lemma trie_get_ok k : forall t, wf nonempty t ->
  exists (r : trieget V), trie_get t k = Ok r /\ lookup_answer (lookup t) k r /\ (tg_exact r = false -> tg_value r = None).
Proof.
  induction k as [|c k IH]; intros t W; cbn [trie_get].
  - eexists. split; [reflexivity|]. split; [split; cbn|].
    + rewrite hpk_nil, lookup_nil. destruct (value t); split; congruence.
    + intros X. destruct (value t) as [v|] eqn:Ev; [|discriminate].
      exists [], v. split; [apply lpk_nil; auto|auto].
    + rewrite count_keys by auto. reflexivity.
    + cbn. destruct (value t); congruence.
  - destruct (search_ok t c (wf_sorted _ t W)) as [(l & n & r & E & En)|(l & r & E & En & Fl & Fr)]; rewrite E; cbn [rbind].
    + replace (Z.of_nat (length l) <? 0)%Z with false by (symmetry; apply Z.ltb_ge; lia).
      rewrite Nat2Z.id. rewrite En, rget_mid'. cbn [rbind snd].
      assert (As : assoc c (entries t) = Some n).
      { pose proof (wf_sorted _ t W) as S. rewrite En in *. apply assoc_here; auto. }
      destruct (wf_child _ t c n W As) as [Wn Qn].
      destruct (IH n Wn) as (g & Eg & [Ga Gb Gc] & Gd). rewrite Eg. cbn [rbind].
      assert (LE : forall x, lookup n x = (fun k' => lookup t (c :: k')) x)
        by (intros x; rewrite lookup_cons, As; reflexivity).
      assert (Ga' : tg_exact g = true <-> has_prefix_key V (fun k' => lookup t (c :: k')) k).
      { rewrite Ga. unfold has_prefix_key. split; intros (x & P & N); exists x; split; auto.
        - now rewrite <- LE.
        - now rewrite LE. }
      assert (Gc' : tg_prefix g = true <-> proper_prefix_of_key V (lookup t) (c :: k)).
      { rewrite Gc. unfold proper_prefix_of_key. cbn [app]. split; intros (d & x & N); exists d, x.
        - rewrite LE in N. auto.
        - rewrite LE. auto. }
      destruct (tg_exact g) eqn:X.
      * eexists. split; [reflexivity|]. split; [split; cbn|cbn; discriminate].
        -- rewrite hpk_cons. tauto.
        -- intros _. destruct (Gb eq_refl) as (k1 & v & (P & M & L) & Ml & Vl).
           exists (c :: k1), v. split; [|split; [cbn; lia|auto]].
           apply lpk_cons. split; [auto|]. rewrite LE in M. split; [auto|].
           intros k' P' N. apply L; auto. now rewrite LE.
        -- auto.
      * assert (NH : ~ has_prefix_key V (fun k' => lookup t (c :: k')) k)
          by (intros Y; apply Ga' in Y; discriminate).
        destruct (value t) as [v|] eqn:Ev.
        -- eexists. split; [reflexivity|]. split; [split; cbn|cbn; discriminate].
           ++ rewrite hpk_cons, lookup_nil, Ev. split; [left; discriminate|auto].
           ++ intros _. exists [], v. split; [apply lpk_root; auto|auto].
           ++ auto.
        -- eexists. split; [reflexivity|]. split; [split|auto].
           ++ rewrite X, hpk_cons, lookup_nil, Ev. split; [discriminate|].
              intros [?|?]; [congruence|tauto].
           ++ rewrite X. discriminate.
           ++ auto.
    + replace (- Z.of_nat (length l) - 1 <? 0)%Z with true by (symmetry; apply Z.ltb_lt; lia).
      assert (As : assoc c (entries t) = None) by (rewrite En, assoc_lt, assoc_gt by auto; reflexivity).
      assert (LE : forall x, lookup t (c :: x) = None) by (intros x; rewrite lookup_cons, As; reflexivity).
      assert (NH : ~ has_prefix_key V (fun k' => lookup t (c :: k')) k).
      { intros (x & _ & N). apply N, LE. }
      eexists. split; [reflexivity|]. split; [split; cbn|].
      * rewrite hpk_cons, lookup_nil. destruct (value t).
        -- split; [left; discriminate|auto].
        -- split; [discriminate|]. intros [?|?]; [congruence|tauto].
      * destruct (value t) as [v|] eqn:Ev; [|discriminate]. intros _. exists [], v.
        split; [apply lpk_root; auto|auto].
      * split; [discriminate|]. intros (d & x & N). exfalso. apply N. cbn. apply LE.
      * cbn. destruct (value t); congruence.
Qed.

(** ** Histories *)
Lemma op_map_ext (o : op V) (m m' : kmap V) : (forall k, m k = m' k) -> forall k, op_map m o k = op_map m' o k.
Proof. intros E k. destruct o; cbn; unfold kput, kdel; destruct list_eq_dec; auto. Qed.
Lemma fold_map_ext (ops : list (op V)) : forall (m m' : kmap V), (forall k, m k = m' k) ->
  forall k, fold_left op_map ops m k = fold_left op_map ops m' k.
Proof. induction ops as [|o ops IH]; cbn; auto. intros. apply IH. intros. apply op_map_ext; auto. Qed.

Lemma run_ok ops : forall t, wf nonempty t ->
  exists t', run ops t = Ok t' /\ wf nonempty t' /\
    forall k, lookup t' k = fold_left op_map ops (lookup t) k.
Proof.
  induction ops as [|o ops IH]; intros t W; cbn [run].
  - exists t. auto.
  - assert (S : exists t', exec o t = Ok t' /\ wf nonempty t' /\ forall k, lookup t' k = op_map (lookup t) o k).
    { destruct o as [k v|v|k]; cbn [exec op_map].
      - destruct (trie_set_ok k v t W) as (t' & ? & ? & ? & ?). eauto.
      - rewrite trie_set_null_eq. destruct (trie_set_ok [0%Z] v t W) as (t' & ? & ? & ? & ?). eauto.
      - destruct (trie_remove_ok k t W) as (t' & ? & ? & ?). eauto. }
    destruct S as (t' & E & W' & L). rewrite E. cbn [rbind].
    destruct (IH t' W') as (t'' & E' & W'' & L'). exists t''. split; [auto|]. split; [auto|].
    intros k. rewrite L'. cbn. apply fold_map_ext. auto.
Qed.

Lemma history_ok ops : exists t, run ops trie_create = Ok t /\ wf nonempty t /\
  forall k, lookup t k = history_map ops k.
Proof.
  destruct (run_ok ops trie_create (wf_create _)) as (t & E & W & L).
  exists t. split; [auto|]. split; [auto|]. intros k. rewrite L. unfold history_map.
  apply fold_map_ext. intros. apply lookup_create.
Qed.

(** ** Enumeration *)
Fixpoint bindings t : list (list Z * V) :=
  match t with
  | Node v _ es =>
      match v with Some x => [([], x)] | None => [] end ++
      (fix go es := match es with
       | [] => []
       | (c, n) :: es' => map (fun b => (c :: fst b, snd b)) (bindings n) ++ go es'
       end) es
  end.
Fixpoint ebindings es : list (list Z * V) :=
  match es with
  | [] => []
  | (c, n) :: es' => map (fun b => (c :: fst b, snd b)) (bindings n) ++ ebindings es'
  end.
Lemma bindings_eq v m es :
  bindings (Node v m es) = match v with Some x => [([], x)] | None => [] end ++ ebindings es.
Proof. cbn. f_equal. Qed.

Lemma In_ebindings es k v : In (k, v) (ebindings es) <->
  exists c n k', In (c, n) es /\ k = c :: k' /\ In (k', v) (bindings n).
Proof.
  induction es as [|[c n] es IH]; cbn [ebindings].
  - split; [intros []|intros (? & ? & ? & [] & _)].
  - rewrite in_app_iff, IH, in_map_iff. split.
    + intros [((k' & v') & [= <- <-] & I)|(c' & n' & k' & I & ? & ?)].
      * exists c, n, k'. cbn. auto.
      * exists c', n', k'. cbn. auto.
    + intros (c' & n' & k' & [[= -> ->]|I] & -> & J).
      * left. exists (k', v). auto.
      * right. eauto 10.
Qed.

Lemma In_bindings Q t : wf Q t -> forall k v, In (k, v) (bindings t) <-> lookup t k = Some v.
Proof.
  induction t as [x m es IH] using trie_ind2. intros W k v. inversion W as [? ? H1 H2 H3]; subst.
  rewrite bindings_eq, in_app_iff, In_ebindings.
  rewrite Forall_forall in IH, H2.
  destruct k as [|c k].
  - rewrite lookup_nil. cbn. split.
    + intros [I|(c & n & k' & _ & [=] & _)]. destruct x; [|destruct I].
      destruct I as [[= <-]|[]]. auto.
    + intros ->. left. cbn. auto.
  - rewrite lookup_cons. cbn [entries]. split.
    + intros [I|(c' & n & k' & I & [= <- <-] & J)].
      * destruct x; [destruct I as [[=]|[]]|destruct I].
      * rewrite (In_assoc c n es) by auto.
        apply (IH (c, n) I); [apply (H2 (c, n) I)|auto].
    + destruct (assoc c es) as [n|] eqn:A; [|discriminate]. intros L. right.
      apply assoc_In in A. exists c, n, k. split; [auto|]. split; [auto|].
      apply (IH (c, n) A); [apply (H2 (c, n) A)|auto].
Qed.

Lemma SSorted_app {A} (R : A -> A -> Prop) (l1 l2 : list A) :
  StronglySorted R l1 -> StronglySorted R l2 -> (forall x y, In x l1 -> In y l2 -> R x y) ->
  StronglySorted R (l1 ++ l2).
Proof.
  induction 1 as [|a l1 S IH F]; intros S2 H; cbn; auto.
  constructor.
  - apply IH; auto. intros; apply H; cbn; auto.
  - apply Forall_app. split; auto. apply Forall_forall. intros; apply H; cbn; auto.
Qed.

Definition blt (a b : list Z * V) := lexlt (fst a) (fst b).

Lemma bindings_sorted Q t : wf Q t -> StronglySorted blt (bindings t).
Proof.
  induction t as [x m es IH] using trie_ind2. intros W. inversion W as [? ? H1 H2 H3]; subst.
  rewrite bindings_eq. clear H3 W. revert IH H1 H2. intros IH So We.
  assert (SE : StronglySorted blt (ebindings es)).
  { induction So as [|[c n] es S IHs F]; cbn [ebindings]; [constructor|].
    inversion IH; subst. inversion We; subst. apply SSorted_app.
    - cbn in *. specialize (H1 H3). clear -H1.
      induction H1 as [|b bs S I F]; cbn; constructor; auto.
      apply Forall_forall. intros y Iy. apply in_map_iff in Iy as (b' & <- & Ib).
      rewrite Forall_forall in F. apply lex_eq, F, Ib.
    - auto.
    - intros a [k v] Ia Ib. apply in_map_iff in Ia as (b' & <- & _).
      apply In_ebindings in Ib as (c' & n' & k' & I & -> & _).
      rewrite Forall_forall in F. specialize (F _ I). apply lex_lt. apply F. }
  destruct x; cbn [app]; [|auto]. constructor; auto.
  apply Forall_forall. intros [k v'] I. apply In_ebindings in I as (c & n & k' & _ & -> & _).
  constructor.
Qed.

Lemma lexlt_irr k : ~ lexlt k k.
Proof. induction k; intros H; inversion H; subst; [lia|auto]. Qed.

Lemma sorted_nodup (l : list (list Z * V)) : StronglySorted blt l -> NoDup (map fst l).
Proof.
  induction 1 as [|a l S IH F]; cbn; constructor; auto.
  intros I. apply in_map_iff in I as (b & E & I). rewrite Forall_forall in F.
  specialize (F b I). unfold blt in F. rewrite E in F. eapply lexlt_irr; eauto.
Qed.

Section Visit.
Variable S : Type.
Variable func : S -> list Z -> V -> S * Z.

Definition foreach_loop := fix loop es (s : S) (buf : list Z) : res (S * Z * list Z) :=
  match es with
  | [] => Ok (s, 0%Z, buf)
  | (c, child) :: es' =>
      let! (p, buf1) := foreachw V S func child s (buf ++ [c]) in
      let (s2, r2) := p in
      if negb (r2 =? 0)%Z then Ok (s2, r2, buf1)
      else if length buf1 =? 0 then UB
      else loop es' s2 (firstn (length buf1 - 1) buf1)
  end.

Lemma foreachw_eq v m es s buf : foreachw V S func (Node v m es) s buf =
  (let (s1, r1) := match v with Some x => func s buf x | None => (s, 0%Z) end in
   if negb (r1 =? 0)%Z then Ok (s1, r1, buf) else foreach_loop es s1 buf).
Proof. reflexivity. Qed.

Definition pre (p : list Z) (bs : list (list Z * V)) := map (fun b => (p ++ fst b, snd b)) bs.

Lemma pre_app p a b : pre p (a ++ b) = pre p a ++ pre p b.
Proof. apply map_app. Qed.
Lemma pre_cons p c bs : pre p (map (fun b => (c :: fst b, snd b)) bs) = pre (p ++ [c]) bs.
Proof. unfold pre. rewrite map_map. apply map_ext. intros [k x]. cbn. now rewrite <- app_assoc. Qed.

Lemma visit_app (l1 l2 : list (list Z * V)) (s : S) : visit func (l1 ++ l2) s =
  let (s1, r) := visit func l1 s in if (r =? 0)%Z then visit func l2 s1 else (s1, r).
Proof.
  revert s. induction l1 as [|[k v] l1 IH]; intros s; cbn; [reflexivity|].
  destruct (func s k v) as [s1 r]. destruct (r =? 0)%Z eqn:E; auto. now rewrite E.
Qed.

Lemma foreachw_ok t : forall s p, exists buf,
  foreachw V S func t s p = Ok (visit func (pre p (bindings t)) s, buf) /\
  (snd (visit func (pre p (bindings t)) s) = 0%Z -> buf = p).
Proof.
  induction t as [v m es IH] using trie_ind2. intros s p.
  rewrite foreachw_eq, bindings_eq. rewrite pre_app, visit_app.
  assert (LO : forall s, exists buf,
     foreach_loop es s p = Ok (visit func (pre p (ebindings es)) s, buf) /\
     (snd (visit func (pre p (ebindings es)) s) = 0%Z -> buf = p)).
  { clear v s. induction es as [|[c n] es IHes]; intros s; cbn [foreach_loop ebindings].
    - exists p. cbn. auto.
    - inversion IH as [|? ? Hn Hes]; subst. cbn [snd] in Hn.
      destruct (Hn s (p ++ [c])) as (b & E & Z0). rewrite E. cbn [rbind].
      rewrite pre_app, pre_cons, visit_app.
      destruct (visit func (pre (p ++ [c]) (bindings n)) s) as [s2 r2] eqn:Ev. cbn [snd] in Z0.
      destruct (Z.eqb_spec r2 0) as [->|Nr]; cbn [negb].
      + rewrite (Z0 eq_refl). rewrite app_length. cbn [length].
        destruct (Nat.eqb_spec (length p + 1) 0); [lia|].
        replace (firstn (length p + 1 - 1) (p ++ [c])) with p
          by (rewrite firstn_app; replace (length p + 1 - 1) with (length p) by lia;
              rewrite firstn_all, Nat.sub_diag; cbn; now rewrite app_nil_r).
        apply (IHes Hes).
      + exists b. split; [reflexivity|]. cbn. lia. }
  destruct v as [x|]; unfold pre at 1 3; cbn [map visit fst snd].
  - rewrite app_nil_r. destruct (func s p x) as [s1 r1].
    destruct (Z.eqb_spec r1 0) as [->|Nr]; cbn [negb].
    + rewrite Z.eqb_refl. apply LO.
    + destruct (Z.eqb_spec r1 0); [lia|]. exists p. cbn. auto.
  - rewrite Z.eqb_refl. cbn [negb]. apply LO.
Qed.
End Visit.

(** ** Prediction *)
Section Predict.
Variable padd : V -> V -> V.
Variable pgt pge : V -> V -> bool.
Variable phalf : V -> V.
Variable neg : V.
Variable iswblank : Z -> bool.

Notation addp := (trie_add_probability V padd).

Lemma add_ok k p : forall t, wf valued t ->
  exists t', addp t k p = Ok t' /\ wf valued t' /\ valued t' /\
    forall k', lookup t' k' =
      if starts_with k' k then Some match lookup t k' with Some q => padd q p | None => p end
      else lookup t k'.
Proof.
  induction k as [|c k IH]; intros t W; cbn [trie_add_probability].
  - eexists. split; [reflexivity|]. split; [apply wf_value; auto|].
    split; [unfold valued; cbn; discriminate|].
    intros [|d k']; cbn [starts_with]; [reflexivity|]. rewrite !lookup_cons. reflexivity.
  - set (t0 := Node _ (cap t) (entries t)).
    assert (W0 : wf valued t0) by (apply wf_value; auto).
    destruct (find_or_insert_ok valued t0 c W0) as (l & n & r & E & S & Wn & F & G & O & M).
    rewrite E. cbn [rbind entries]. rewrite rget_mid'. cbn [rbind snd].
    destruct (IH n Wn) as (n' & E' & W' & N' & L'). rewrite E'. cbn [rbind].
    rewrite set_child_ok. eexists. split; [reflexivity|].
    split; [apply wf_repl; auto|]. split; [unfold valued; cbn; discriminate|].
    intros [|d k']; cbn [starts_with]; [reflexivity|].
    rewrite !lookup_cons. cbn [entries]. destruct (Z.eqb_spec d c) as [->|Nd]; cbn [andb].
    + rewrite assoc_here by (eapply sortedk_repl; eauto). rewrite L'.
      change (entries t0) with (entries t) in M.
      destruct (assoc c (entries t)); subst n; [reflexivity|]. rewrite !lookup_create. reflexivity.
    + rewrite assoc_other by auto. rewrite O by auto. reflexivity.
Qed.

Lemma addall_ok hist : forall t, wf valued t ->
  exists t', addall padd hist t = Ok t' /\ wf valued t' /\
    forall pre, lookup t' pre = fold_left (fun acc (e : list Z * V) =>
               if starts_with pre (fst e)
               then Some match acc with Some q => padd q (snd e) | None => snd e end
               else acc) hist (lookup t pre).
Proof.
  induction hist as [|[k p] h IH]; intros t W; cbn [addall].
  - exists t. auto.
  - destruct (add_ok k p t W) as (t1 & E & W1 & _ & L1). rewrite E. cbn [rbind].
    destruct (IH t1 W1) as (t2 & E2 & W2 & L2). exists t2. split; [auto|]. split; [auto|].
    intros pre. rewrite L2, L1. reflexivity.
Qed.

Lemma addall_weight hist : exists t, addall padd hist trie_create = Ok t /\ wf valued t /\
  forall pre, lookup t pre = weight padd hist pre.
Proof.
  destruct (addall_ok hist trie_create (wf_create _)) as (t & E & W & L).
  exists t. split; [auto|]. split; [auto|]. intros pre. rewrite L, lookup_create. reflexivity.
Qed.

Variable ok : V -> Prop.
Hypothesis HW : weights_ok padd pgt neg ok.

Definition allok t := forall k w, lookup t k = Some w -> ok w.

Lemma weight_ok hist : Forall (fun e => ok (snd e)) hist -> forall pre w, weight padd hist pre = Some w -> ok w.
Proof.
  intros F pre. unfold weight.
  assert (G : forall acc, (forall w, acc = Some w -> ok w) -> forall w,
    fold_left (fun acc (e : list Z * V) =>
               if starts_with pre (fst e)
               then Some match acc with Some q => padd q (snd e) | None => snd e end
               else acc) hist acc = Some w -> ok w).
  { induction F as [|[k p] h H F IH]; cbn; auto. intros acc A. apply IH.
    intros w. destruct (starts_with pre k); auto. intros [= <-].
    destruct acc; auto. apply HW; auto. }
  apply G. discriminate.
Qed.

(** The child chosen is the first of the heaviest. *)
Definition beste es (c : Z) (n : trie) (w : V) :=
  In (c, n) es /\ value n = Some w /\
  forall c' n' w', In (c', n') es -> value n' = Some w' ->
    pgt w' w = false /\ ((c' < c)%Z -> pgt w w' = true).

Lemma most_probable_ok : forall es seen c n w,
  sortedk (seen ++ es) -> beste seen c n w ->
  Forall (fun e => valued (snd e)) es ->
  (forall e x, In e (seen ++ es) -> value (snd e) = Some x -> ok x) ->
  exists c' n' w', most_probable V pgt es w (Some (c, n)) = Ok (Some (c', n')) /\ beste (seen ++ es) c' n' w'.
Proof using HW.
  induction es as [|[d m] es IH]; intros seen c n w S B Fv OK; cbn [most_probable].
  - exists c, n, w. rewrite app_nil_r. auto.
  - inversion Fv as [|? ? Vm Fv']; subst. cbn [snd] in *. unfold valued in Vm.
    destruct (value m) as [p|] eqn:Ep; [|congruence].
    assert (okp : ok p) by (apply (OK (d, m) p); auto; apply in_or_app; right; left; auto).
    destruct B as (I & Ev & Mx).
    assert (okw : ok w) by (apply (OK (c, n) w); auto; apply in_or_app; auto).
    replace (seen ++ (d, m) :: es) with ((seen ++ [(d, m)]) ++ es) in * by (rewrite <- app_assoc; reflexivity).
    pose proof S as S'. apply sortedk_app in S' as (S1 & _ & _). 
    apply sortedk_mid in S1 as [Lt _].
    rewrite Forall_forall in Lt.
    destruct (pgt p w) eqn:G.
    + apply IH; auto. split; [apply in_or_app; cbn; auto|]. split; [auto|].
      intros c' n' w' I' E'. apply in_app_or in I' as [I'|[[= -> ->]|[]]].
      * assert (okw' : ok w') by (apply (OK (c', n') w'); auto; rewrite !in_app_iff; auto).
        destruct (Mx _ _ _ I' E') as [A1 A2].
        assert (X : pgt p w' = true).
        { destruct (pgt p w') eqn:Y; auto.
          rewrite (w_ntrans _ _ _ _ _ HW p w' w) in G; auto. }
        split; [|auto]. destruct (pgt w' p) eqn:Y; auto.
        rewrite <- (w_irr _ _ _ _ _ HW p okp).
        symmetry. apply (w_trans _ _ _ _ _ HW p w' p); auto.
      * rewrite Ep in E'. injection E' as <-. split; [apply (w_irr _ _ _ _ _ HW); auto|lia].
    + apply IH; auto. split; [apply in_or_app; auto|]. split; [auto|].
      intros c' n' w' I' E'. apply in_app_or in I' as [I'|[[= -> ->]|[]]].
      * apply (Mx _ _ _ I' E').
      * rewrite Ep in E'. injection E' as <-. split; [auto|]. intros L.
        specialize (Lt _ I). cbn in Lt. lia.
Qed.

Lemma most_probable_child_ok t : wf valued t -> allok t ->
  (entries t = [] /\ most_probable_child V pgt neg t = Ok None) \/
  exists c n w, most_probable_child V pgt neg t = Ok (Some (c, n)) /\ beste (entries t) c n w.
Proof using HW.
  intros W A. unfold most_probable_child.
  pose proof (wf_sorted _ t W) as S.
  assert (OK : forall e x, In e (entries t) -> value (snd e) = Some x -> ok x).
  { intros [c n] x I E. apply (A [c] x). rewrite lookup_cons, (In_assoc c n) by auto. auto. }
  destruct W as [v es So F G]. cbn [entries] in *. destruct es as [|[c n] es]; [left; auto|].
  right. cbn [most_probable snd]. inversion G as [|? ? Gn Ges]; subst. cbn [snd] in Gn. unfold valued in Gn.
  destruct (value n) as [p|] eqn:Ep; [|congruence].
  rewrite (w_neg _ _ _ _ _ HW) by (apply (OK (c, n)); cbn; auto).
  destruct (most_probable_ok es [(c, n)] c n p) as (c' & n' & w' & E & B); auto.
  - split; [cbn; auto|]. split; [auto|]. intros c' n' w' [[= <- <-]|[]] E'.
    rewrite Ep in E'. injection E' as <-. split; [|lia].
    apply (w_irr _ _ _ _ _ HW). apply (OK (c, n)); cbn; auto.
  - exists c', n', w'. auto.
Qed.

(** A subtree describes the weights of the examples that continue a prefix. *)
Section Hist.
Variable hist : list (list Z * V).
Notation wt := (weight padd hist).

Definition at_prefix t p := forall k, k <> [] -> lookup t k = wt (p ++ k).

Lemma beste_best t p c n w : wf valued t -> at_prefix t p -> beste (entries t) c n w ->
  best padd pgt hist p c w.
Proof.
  intros W A (I & E & M). split.
  - rewrite <- (A [c]) by discriminate. rewrite lookup_cons, (In_assoc c n) by (eauto using wf_sorted). auto.
  - intros c' w' E'. rewrite <- (A [c']) in E' by discriminate. rewrite lookup_cons in E'.
    destruct (assoc c' (entries t)) as [n'|] eqn:As; [|discriminate].
    apply (M c' n' w'); auto. apply assoc_In; auto.
Qed.

Lemma at_prefix_child t p c n : at_prefix t p -> assoc c (entries t) = Some n -> at_prefix n (p ++ [c]).
Proof.
  intros A E k N. rewrite <- app_assoc. cbn. rewrite <- (A (c :: k)) by discriminate.
  rewrite lookup_cons, E. auto.
Qed.
Lemma allok_child t c n : allok t -> assoc c (entries t) = Some n -> allok n.
Proof. intros A E k w L. apply (A (c :: k) w). now rewrite lookup_cons, E. Qed.

Lemma height_child t c n : In (c, n) (entries t) -> height n < height t.
Proof.
  destruct t as [v m es]. cbn [entries height]. intros I. apply Nat.lt_succ_r.
  induction es as [|e es IH]; [destruct I|]. cbn. destruct I as [->|I]; [cbn; lia|].
  specialize (IH I). lia.
Qed.

Notation loop := (probable_loop V pgt pge neg iswblank).

Lemma loop_ok thr : forall fuel t p, height t < fuel -> wf valued t -> allok t -> at_prefix t p ->
  exists e r, most_probable_child V pgt neg t = Ok e /\ loop fuel thr e = Ok r /\
    continues padd pgt pge iswblank hist thr p r.
Proof using HW.
  induction fuel as [|fuel IH]; intros t p Hf W A P; [lia|].
  destruct (most_probable_child_ok t W A) as [[En E]|(c & n & w & E & B)].
  - exists None, []. split; [auto|]. split; [reflexivity|]. apply cont_end.
    intros c. rewrite <- (P [c]) by discriminate. rewrite lookup_cons, En. reflexivity.
  - assert (As : assoc c (entries t) = Some n)
      by (apply In_assoc; [eauto using wf_sorted|apply B]).
    pose proof (beste_best t p c n w W P B) as BB.
    destruct (wf_child _ t c n W As) as [Wn Vn].
    cbn [probable_loop]. unfold probability. 
    assert (Ew : value n = Some w) by apply B.
    destruct (pge w thr || iswblank c) eqn:G.
    + destruct (IH n (p ++ [c])) as (e' & r & E1 & E2 & C); eauto using allok_child, at_prefix_child.
      { pose proof (height_child t c n (proj1 B)). lia. }
      exists (Some (c, n)), (c :: r). split; [auto|]. cbn [snd fst]. rewrite Ew. cbn [rbind].
      rewrite G, E1. cbn [rbind]. rewrite E2. cbn [rbind]. split; [auto|].
      eapply cont_go; eauto. apply orb_true_iff in G. auto.
    + exists (Some (c, n)), []. split; [auto|]. cbn [snd fst]. rewrite Ew. cbn [rbind].
      rewrite G. split; [auto|]. apply orb_false_iff in G as [G1 G2]. eapply cont_stop; eauto.
Qed.

Lemma probable_ok : forall skip t p, wf valued t -> allok t -> at_prefix t p ->
  exists r, trie_probable_key V pgt pge phalf neg iswblank t skip = Ok r /\
    predicts padd pgt pge phalf iswblank hist (p ++ skip) r.
Proof using HW.
  induction skip as [|c skip IH]; intros t p W A P; cbn [trie_probable_key].
  - rewrite app_nil_r. 
    destruct (most_probable_child_ok t W A) as [[En E]|(c & n & w & E & B)]; rewrite E; cbn [rbind].
    + exists []. split; [auto|]. left. split; [|auto].
      intros c. rewrite <- (P [c]) by discriminate. rewrite lookup_cons, En. reflexivity.
    + unfold probability. cbn [snd]. replace (value n) with (Some w) by (symmetry; apply B). cbn [rbind].
      destruct (loop_ok (phalf w) (S (height t)) t p) as (e & r & E1 & E2 & C); auto.
      rewrite E in E1. injection E1 as <-. exists r. split; [auto|].
      right. exists c, w. split; [eapply beste_best; eauto|auto].
  - destruct (search_ok t c (wf_sorted _ t W)) as [(l & n & r & E & En)|(l & r & E & En & Fl & Fr)]; rewrite E; cbn [rbind].
    + replace (Z.of_nat (length l) <? 0)%Z with false by (symmetry; apply Z.ltb_ge; lia).
      rewrite Nat2Z.id, En, rget_mid'. cbn [rbind snd].
      assert (As : assoc c (entries t) = Some n).
      { pose proof (wf_sorted _ t W) as S. rewrite En in *. apply assoc_here; auto. }
      destruct (wf_child _ t c n W As) as [Wn Vn].
      destruct (IH n (p ++ [c])) as (x & ? & ?); eauto using allok_child, at_prefix_child.
      rewrite <- app_assoc in *. eauto.
    + replace (- Z.of_nat (length l) - 1 <? 0)%Z with true by (symmetry; apply Z.ltb_lt; lia).
      exists []. split; [auto|]. left. split; [|auto]. intros d.
      rewrite <- app_assoc. cbn. rewrite <- (P (c :: skip ++ [d])) by discriminate.
      rewrite lookup_cons, En, assoc_lt, assoc_gt by auto. reflexivity.
Qed.
End Hist.
End Predict.
End P.
Arguments wf {V} Q t.
Arguments nonempty {V} t.
Arguments lookup {V} t k.
Arguments bindings {V} t.
