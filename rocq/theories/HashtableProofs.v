(** Proofs about the hash table model: representation invariant and
    refinement to the map specification. *)
From Coq Require Import List NArith Bool Arith Lia Permutation.
From Verif Require Import Common HashtableModel HashtableSpec.
Import ListNotations.
Local Open Scope res_scope.

Section Proofs.
Context {K V : Type}.
Variable hashfunc : K -> N.
Variable keyeq : K -> K -> bool.
Hypothesis keyeq_refl : forall k, keyeq k k = true.
Hypothesis keyeq_sym : forall a b, keyeq a b = keyeq b a.
Hypothesis keyeq_trans : forall a b c, keyeq a b = true -> keyeq b c = true -> keyeq a c = true.
Hypothesis hash_ok : forall a b, keyeq a b = true -> hashfunc a = hashfunc b.

Notation entry := (@entry K V).
Notation ht := (@ht K V).

Definition olist (o : option (K * V)) : list (K * V) :=
  match o with Some p => [p] | None => [] end.
Definition live (es : list entry) : list (K * V) := flat_map (fun e => olist (kv e)) es.

Fixpoint chain (es : list entry) (lk : link) (l : list nat) : Prop :=
  match l with
  | [] => lk = Nothing
  | i :: l' => lk = Idx i /\ exists e, nth_error es i = Some e /\ chain es (next e) l'
  end.

Definition occ (es : list entry) (i : nat) : Prop :=
  exists e p, nth_error es i = Some e /\ kv e = Some p.

Definition Inv0 (cap : nat) (idx : list link) (es : list entry) : Prop :=
  0 < cap /\ length idx = cap /\ length es = cap /\
  (exists ch : nat -> list nat,
    (forall b, b < cap -> exists lk, nth_error idx b = Some lk /\ chain es lk (ch b) /\ NoDup (ch b)) /\
    (forall i b, b < cap ->
       (In i (ch b) <-> exists e p, nth_error es i = Some e /\ kv e = Some p /\ bucket (ehash e) cap = b))) /\
  (forall i e k v, nth_error es i = Some e -> kv e = Some (k, v) -> ehash e = hashfunc k).

Definition Inv1 (es : list entry) (emp : link) (tail : nat) : Prop :=
  exists fl, chain es emp fl /\ NoDup fl /\
    (forall i, In i fl <-> i < tail /\ exists e, nth_error es i = Some e /\ kv e = None) /\
    (forall i, occ es i -> i < tail) /\
    length (live es) + length fl = tail /\ tail <= length es.

Definition Inv (t : ht) : Prop :=
  Inv0 (capacity t) (indices t) (entries t) /\
  Inv1 (entries t) (emptyindex t) (tailindex t) /\
  count t = length (live (entries t)).

Definition distinct (m : list (K * V)) : Prop :=
  ForallOrdPairs (fun p q => keyeq (fst p) (fst q) = false) m.

Definition R (t : ht) (m : list (K * V)) : Prop :=
  Inv t /\ Permutation (live (entries t)) m /\ distinct m.

(** ** Basic facts *)

Lemma bucket_lt : forall h cap, 0 < cap -> bucket h cap < cap.
Proof.
  intros h cap H. unfold bucket.
  assert (h mod N.of_nat cap < N.of_nat cap)%N by (apply N.mod_lt; lia). lia.
Qed.

Lemma nth_error_lt : forall A (l : list A) i a, nth_error l i = Some a -> i < length l.
Proof. intros A l i a H. apply nth_error_Some. congruence. Qed.

Lemma lt_nth_error : forall A (l : list A) i, i < length l -> exists a, nth_error l i = Some a.
Proof. intros A l i H. destruct (nth_error l i) eqn:E; eauto. apply nth_error_None in E. lia. Qed.

Lemma live_upd : forall es i e e', nth_error es i = Some e ->
  Permutation (olist (kv e') ++ live es) (olist (kv e) ++ live (upd es i e')).
Proof.
  induction es as [|x es IH]; intros [|i] e e' H; cbn in H; try discriminate.
  - injection H as ->. cbn [upd live flat_map]. fold (live es).
    rewrite !app_assoc. apply Permutation_app_tail. apply Permutation_app_comm.
  - cbn [upd live flat_map]. fold (live es) (live (upd es i e')).
    rewrite !app_assoc.
    rewrite (Permutation_app_comm (olist (kv e'))), (Permutation_app_comm (olist (kv e))).
    rewrite <- !app_assoc. apply Permutation_app_head. auto.
Qed.

Lemma live_In : forall es p, In p (live es) <-> exists i e, nth_error es i = Some e /\ kv e = Some p.
Proof.
  intros es p. unfold live. rewrite in_flat_map. split.
  - intros (e & Hin & Hp). apply In_nth_error in Hin as [i Hi]. exists i, e. split; auto.
    destruct (kv e); cbn in Hp; [destruct Hp as [->|[]]; reflexivity | destruct Hp].
  - intros (i & e & Hi & Hp). exists e. split; [eapply nth_error_In; eauto|]. rewrite Hp. now left.
Qed.

Lemma live_blank : forall n, live (repeat blank n) = [].
Proof. induction n; cbn; auto. Qed.

Lemma chain_upd : forall es l lk i e, ~ In i l -> chain es lk l -> chain (upd es i e) lk l.
Proof.
  intros es l. induction l as [|j l IH]; intros lk i e Hni Hc; cbn in *; auto.
  destruct Hc as [-> (x & Hx & Hc)]. split; auto. exists x. split.
  - rewrite nth_error_upd_neq; auto.
  - apply IH; auto.
Qed.

Lemma chain_upd_next : forall es l lk i e e', nth_error es i = Some e -> next e' = next e ->
  chain es lk l -> chain (upd es i e') lk l.
Proof.
  intros es l. induction l as [|j l IH]; intros lk i e e' Hi Hn Hc; cbn in *; auto.
  destruct Hc as [-> (x & Hx & Hc)]. split; auto.
  destruct (Nat.eq_dec i j) as [->|Hij].
  - exists e'. split; [apply nth_error_upd_eq; eapply nth_error_lt; eauto|].
    rewrite Hi in Hx. injection Hx as ->. rewrite Hn. eapply IH; eauto.
  - exists x. split; [rewrite nth_error_upd_neq; auto | eapply IH; eauto].
Qed.

Lemma NoDup_bounded : forall l n, NoDup l -> (forall i, In i l -> i < n) -> length l <= n.
Proof.
  intros l n Hnd Hb. rewrite <- (seq_length n 0). apply NoDup_incl_length; auto.
  intros i Hi. apply in_seq. specialize (Hb i Hi). lia.
Qed.

(** ** distinct-key association lists *)

Lemma distinct_perm : forall m m', Permutation m m' -> distinct m -> distinct m'.
Proof.
  intros m m' HP. unfold distinct. induction HP; intros H; auto.
  - inversion H; subst. constructor; auto. eapply Permutation_Forall; eauto.
  - inversion H as [|? ? Hy Hrest]; subst. inversion Hrest as [|? ? Hx Hr]; subst.
    inversion Hy; subst. constructor.
    + constructor; auto. rewrite keyeq_sym; auto.
    + constructor; auto.
Qed.

Lemma lookup_None : forall (m : list (K * V)) k, (forall p, In p m -> keyeq (fst p) k = false) ->
  m_lookup keyeq m k = None /\ m_delete keyeq m k = m.
Proof.
  induction m as [|p m IH]; intros k H; cbn; auto.
  rewrite (H p (or_introl eq_refl)). cbn. destruct (IH k) as [H1 H2].
  - intros q Hq. apply H. now right.
  - unfold m_lookup, m_delete in *. rewrite H1, H2. auto.
Qed.

Lemma lookup_Some : forall m k p, distinct m -> In p m -> keyeq (fst p) k = true ->
  m_lookup keyeq m k = Some p /\ Permutation m (p :: m_delete keyeq m k).
Proof.
  induction m as [|q m IH]; intros k p Hd Hin Hk; [destruct Hin|].
  inversion Hd as [|? ? Hq Hd']; subst. destruct Hin as [->|Hin].
  - cbn. rewrite Hk. cbn. split; auto.
    assert (Hno : forall r, In r m -> keyeq (fst r) k = false).
    { intros r Hr. rewrite Forall_forall in Hq. specialize (Hq r Hr).
      destruct (keyeq (fst r) k) eqn:E; auto.
      rewrite <- Hq. symmetry. apply (keyeq_trans _ k); auto. rewrite keyeq_sym. auto. }
    destruct (lookup_None m k Hno) as [_ H2]. unfold m_delete in H2. rewrite H2. reflexivity.
  - destruct (IH k p Hd' Hin Hk) as [H1 H2].
    assert (Hqk : keyeq (fst q) k = false).
    { rewrite Forall_forall in Hq. specialize (Hq p Hin). destruct (keyeq (fst q) k) eqn:E; auto.
      rewrite <- Hq. symmetry. apply (keyeq_trans _ k); auto. rewrite keyeq_sym. auto. }
    cbn. rewrite Hqk. cbn. unfold m_lookup in H1. split; auto.
    rewrite perm_swap. apply perm_skip. exact H2.
Qed.

Lemma delete_In : forall (m : list (K * V)) k p, In p (m_delete keyeq m k) -> keyeq (fst p) k = false.
Proof. intros m k p H. unfold m_delete in H. apply filter_In in H as [_ H]. now destruct (keyeq _ _). Qed.

Lemma delete_distinct : forall m k, distinct m -> distinct (m_delete keyeq m k).
Proof.
  induction m as [|q m IH]; intros k Hd; cbn; auto. inversion Hd as [|? ? Hq Hd']; subst.
  destruct (keyeq (fst q) k); cbn; [apply IH; auto|]. constructor; [|apply IH; auto].
  apply Forall_forall. intros x Hx. apply filter_In in Hx as [Hx _].
  rewrite Forall_forall in Hq. auto.
Qed.

Lemma set_distinct : forall m k v, distinct m -> distinct (m_set keyeq m k v).
Proof.
  intros m k v Hd. constructor; [|apply delete_distinct; auto].
  apply Forall_forall. intros x Hx. cbn. rewrite keyeq_sym. eapply delete_In; eauto.
Qed.

(** ** Search along a chain *)

Lemma find_chain_spec : forall es h k l lk fuel,
  chain es lk l -> (forall i, In i l -> occ es i) -> length l < fuel ->
  exists r, find_chain keyeq fuel es h k lk = Ok r /\
    match r with
    | Some i => In i l /\ exists e k' v, nth_error es i = Some e /\ kv e = Some (k', v)
                  /\ keyeq k' k = true /\ ehash e = h
    | None => forall i e k' v, In i l -> nth_error es i = Some e -> kv e = Some (k', v) ->
                ehash e = h -> keyeq k' k = false
    end.
Proof.
  intros es h k l. induction l as [|i l IH]; intros lk fuel Hc Hocc Hf; cbn in Hc.
  - subst. exists None. split; [destruct fuel; reflexivity|]. intros i e k' v [].
  - destruct Hc as [-> (e & He & Hc)]. destruct fuel as [|fuel]; [cbn in Hf; lia|].
    cbn [find_chain]. rewrite (rget_Ok _ _ _ _ He). cbn [rbind].
    destruct (IH (next e) fuel Hc) as (r & Hr & HR); [intros; apply Hocc; now right | cbn in Hf; lia |].
    destruct (Hocc i (or_introl eq_refl)) as (e0 & [k0 v0] & He0 & Hkv).
    rewrite He in He0. injection He0 as <-. rewrite Hkv.
    destruct (N.eqb_spec (ehash e) h) as [Hh|Hh].
    + destruct (keyeq k0 k) eqn:Ek.
      * exists (Some i). split; auto. split; [now left|]. exists e, k0, v0. auto.
      * exists r. split; auto. destruct r as [j|].
        -- destruct HR as [Hj HR]. split; auto. now right.
        -- intros j e' k' v' [<-|Hj] He' Hkv' Hh'; [|eauto].
           rewrite He in He'. injection He' as <-. congruence.
    + exists r. split; auto. destruct r as [j|].
      * destruct HR as [Hj HR]. split; auto. now right.
      * intros j e' k' v' [<-|Hj] He' Hkv' Hh'; [|eauto].
        rewrite He in He'. injection He' as <-. congruence.
Qed.

(** Searching a table satisfying the invariant. *)
Lemma search_spec : forall cap idx es k, Inv0 cap idx es ->
  exists lk r, nth_error idx (bucket (hashfunc k) cap) = Some lk /\
    find_chain keyeq (S cap) es (hashfunc k) k lk = Ok r /\
    match r with
    | Some i => exists e k' v, nth_error es i = Some e /\ kv e = Some (k', v)
                 /\ keyeq k' k = true
    | None => forall p, In p (live es) -> keyeq (fst p) k = false
    end.
Proof.
  intros cap idx es k (Hcap & Hli & Hle & (chs & Hch & Hmem) & Hhash).
  set (b := bucket (hashfunc k) cap).
  assert (Hb : b < cap) by (apply bucket_lt; auto).
  destruct (Hch b Hb) as (lk & Hlk & Hc & Hnd).
  assert (Hocc : forall i, In i (chs b) -> occ es i).
  { intros i Hi. apply Hmem in Hi; auto. destruct Hi as (e & p & H1 & H2 & _). exists e, p. auto. }
  assert (Hlen : length (chs b) < S cap).
  { apply Nat.lt_succ_r. apply NoDup_bounded; auto. intros i Hi. destruct (Hocc i Hi) as (e & p & H & _).
    apply nth_error_lt in H. lia. }
  destruct (find_chain_spec es (hashfunc k) k (chs b) lk (S cap) Hc Hocc Hlen) as (r & Hr & HR).
  exists lk, r. split; auto. split; auto. destruct r as [i|].
  - destruct HR as [_ (e & k' & v & H1 & H2 & H3 & _)]. eauto 10.
  - intros [k' v'] Hin. cbn. apply live_In in Hin as (i & e & Hi & Hkv).
    destruct (keyeq k' k) eqn:E; auto.
    assert (Hh : ehash e = hashfunc k) by (rewrite (Hhash _ _ _ _ Hi Hkv); apply hash_ok; auto).
    rewrite <- E. eapply HR; eauto. apply Hmem; auto. exists e, (k', v'). subst b. rewrite Hh. auto.
Qed.

Lemma get_spec : forall t m k, R t m -> ht_get hashfunc keyeq t k = Ok (m_lookup keyeq m k).
Proof.
  intros t m k ((H0 & H1 & Hcnt) & HP & Hd). unfold ht_get.
  destruct (search_spec _ _ _ k H0) as (lk & r & Hlk & Hf & Hr).
  rewrite (rget_Ok _ _ _ _ Hlk). cbn [rbind]. rewrite Hf. cbn [rbind]. destruct r as [i|].
  - destruct Hr as (e & k' & v & He & Hkv & Hk). rewrite (rget_Ok _ _ _ _ He). cbn [rbind].
    rewrite Hkv. f_equal. symmetry. apply lookup_Some; auto.
    rewrite <- HP. apply live_In. eauto.
  - f_equal. symmetry. apply lookup_None. intros p Hp. apply Hr. rewrite HP. auto.
Qed.

(** ** Inserting an entry into an unoccupied slot *)

Lemma insert_Inv0 : forall cap idx es i e0 h k v lk,
  Inv0 cap idx es -> nth_error es i = Some e0 -> kv e0 = None ->
  nth_error idx (bucket h cap) = Some lk -> h = hashfunc k ->
  Inv0 cap (upd idx (bucket h cap) (Idx i)) (upd es i (mkEntry lk h (Some (k, v)))).
Proof.
  intros cap idx es i e0 h k v lk (Hcap & Hli & Hle & (chs & Hch & Hmem) & Hhash) Hi Hkv Hlk Hh.
  set (b := bucket h cap) in *.
  assert (Hb : b < cap) by (apply bucket_lt; auto).
  assert (Hni : forall b', b' < cap -> ~ In i (chs b')).
  { intros b' Hb' Hin. apply Hmem in Hin; auto. destruct Hin as (e & p & H1 & H2 & _). congruence. }
  assert (Hilt : i < length es) by (eapply nth_error_lt; eauto).
  unfold Inv0. rewrite !length_upd. repeat split; auto.
  - exists (fun b' => if Nat.eqb b' b then i :: chs b' else chs b'). split.
    + intros b' Hb'. destruct (Nat.eqb_spec b' b) as [->|Hne].
      * exists (Idx i). split; [apply nth_error_upd_eq; lia|]. split.
        -- cbn. split; auto. eexists. split; [apply nth_error_upd_eq; auto|]. cbn.
           apply chain_upd; auto. destruct (Hch b Hb) as (lk' & Hlk' & Hc & _). congruence.
        -- constructor; [apply Hni; auto|]. destruct (Hch b Hb) as (? & ? & ? & ?); auto.
      * destruct (Hch b' Hb') as (lk' & Hlk' & Hc & Hnd). exists lk'. split.
        -- rewrite nth_error_upd_neq; auto.
        -- split; auto. apply chain_upd; auto.
    + intros j b' Hb'. destruct (Nat.eq_dec j i) as [->|Hji].
      * rewrite nth_error_upd_eq by auto. split.
        -- intro Hin. destruct (Nat.eqb_spec b' b) as [->|Hne].
           ++ eexists. eexists. split; [reflexivity|]. split; reflexivity.
           ++ exfalso. eapply Hni; eauto.
        -- intros (e & p & He & _ & Hbk). injection He as <-. cbn in Hbk.
           fold b in Hbk. subst b'. rewrite Nat.eqb_refl. now left.
      * rewrite nth_error_upd_neq by auto. rewrite <- Hmem by auto.
        destruct (Nat.eqb_spec b' b) as [->|Hne]; [|reflexivity]. cbn. split; [intros [?|?]; congruence|auto].
  - intros j e k' v' Hj Hk'. destruct (Nat.eq_dec j i) as [->|Hji].
    + rewrite nth_error_upd_eq in Hj by auto. injection Hj as <-. cbn in *. congruence.
    + rewrite nth_error_upd_neq in Hj by auto. eauto.
Qed.

Lemma insert_live : forall es i e0 e' p, nth_error es i = Some e0 -> kv e0 = None -> kv e' = Some p ->
  Permutation (live (upd es i e')) (p :: live es).
Proof.
  intros es i e0 e' p Hi H0 Hp. pose proof (live_upd es i e0 e' Hi) as HP.
  rewrite H0, Hp in HP. cbn in HP. symmetry. exact HP.
Qed.

Lemma occ_upd : forall es i e j, i < length es -> j <> i -> (occ (upd es i e) j <-> occ es j).
Proof. intros. unfold occ. rewrite nth_error_upd_neq by auto. reflexivity. Qed.

(** Inserting at the head of the free list. *)
Lemma insert_Inv1_free : forall es i e0 e' p tail,
  Inv1 es (Idx i) tail -> nth_error es i = Some e0 -> kv e' = Some p ->
  kv e0 = None /\ Inv1 (upd es i e') (next e0) tail.
Proof.
  intros es i e0 e' p tail (fl & Hc & Hnd & Hin & Hocc & Hlen & Htl) Hi Hp.
  destruct fl as [|j fl]; cbn in Hc; [discriminate|]. destruct Hc as [Hij (e & He & Hc)].
  injection Hij as <-. rewrite Hi in He. injection He as <-.
  pose proof (proj1 (Hin i) (or_introl eq_refl)) as [Hit (e1 & He1 & Hk1)].
  rewrite Hi in He1. injection He1 as <-. split; auto.
  inversion Hnd as [|? ? Hni Hnd']; subst.
  assert (Hilt : i < length es) by (eapply nth_error_lt; eauto).
  exists fl. repeat split; auto.
  - apply chain_upd; auto.
  - destruct (Hin i0) as [H1 _]. apply H1. now right.
  - destruct (Hin i0) as [H1 _]. destruct (H1 (or_intror H)) as [_ (e & He & Hk)].
    exists e. rewrite nth_error_upd_neq; auto. intros ->. auto.
  - intros [Hlt (e & He & Hk)]. destruct (Nat.eq_dec i0 i) as [->|Hne].
    + rewrite nth_error_upd_eq in He by auto. injection He as <-. congruence.
    + rewrite nth_error_upd_neq in He by auto.
      destruct (proj2 (Hin i0)) as [->|?]; eauto. congruence.
  - intros j Hj. destruct (Nat.eq_dec j i) as [->|Hne]; auto. apply Hocc. eapply occ_upd; eauto.
  - rewrite (Permutation_length (insert_live es i e0 e' p Hi Hk1 Hp)). cbn in *. lia.
  - rewrite length_upd. auto.
Qed.

(** Inserting at the tail, when the free list is empty. *)
Lemma insert_Inv1_tail : forall es e' p tail,
  Inv1 es Nothing tail -> tail < length es -> kv e' = Some p ->
  (exists e0, nth_error es tail = Some e0 /\ kv e0 = None) /\ Inv1 (upd es tail e') Nothing (S tail).
Proof.
  intros es e' p tail (fl & Hc & Hnd & Hin & Hocc & Hlen & Htl) Hlt Hp.
  destruct fl as [|j fl]; cbn in Hc; [|destruct Hc; discriminate].
  destruct (lt_nth_error _ es tail Hlt) as [e0 He0].
  assert (Hk0 : kv e0 = None).
  { destruct (kv e0) eqn:E; auto. specialize (Hocc tail). exfalso.
    assert (tail < tail) by (apply Hocc; exists e0; eauto). lia. }
  split; [eauto|]. exists []. split; [reflexivity|]. split; [constructor|].
  split; [|split; [|split]].
  - intros i. split; [intros []|].
    intros [Hi (e & He & Hk)]. destruct (Nat.eq_dec i tail) as [->|Hne].
    + rewrite nth_error_upd_eq in He by auto. injection He as <-. congruence.
    + rewrite nth_error_upd_neq in He by auto. apply (Hin i). split; [lia|eauto].
  - intros j Hj. destruct (Nat.eq_dec j tail) as [->|Hne]; [lia|].
    apply occ_upd in Hj; auto. specialize (Hocc j Hj). lia.
  - rewrite (Permutation_length (insert_live es tail e0 e' p He0 Hk0 Hp)). cbn in *. lia.
  - rewrite length_upd. lia.
Qed.

(** ** Empty tables and rehashing *)

Lemma nth_error_repeat : forall A (a : A) n i, i < n -> nth_error (repeat a n) i = Some a.
Proof. induction n; intros [|i] H; cbn; try lia; auto. apply IHn. lia. Qed.

Lemma nth_error_repeat_inv : forall A (a b : A) n i, nth_error (repeat a n) i = Some b -> b = a.
Proof. intros A a b n i H. apply nth_error_In in H. apply repeat_spec in H. auto. Qed.

Lemma empty_Inv0 : forall cap, 0 < cap -> Inv0 cap (repeat Nothing cap) (repeat blank cap).
Proof.
  intros cap H. unfold Inv0. rewrite !repeat_length. repeat split; auto.
  - exists (fun _ => []). split.
    + intros b Hb. exists Nothing. split; [apply nth_error_repeat; auto|]. split; [reflexivity|constructor].
    + intros i b Hb. split; [intros []|]. intros (e & p & He & Hk & _).
      apply nth_error_repeat_inv in He. subst. discriminate.
  - intros i e k v He Hk. apply nth_error_repeat_inv in He. subst. discriminate.
Qed.

Lemma empty_Inv1 : forall cap, Inv1 (repeat blank cap) Nothing 0.
Proof.
  intros cap. exists []. rewrite live_blank. split; [reflexivity|]. split; [constructor|].
  split; [|split; [|split]]; [intros i; cbn; split; [tauto|lia] | |cbn; lia|cbn; lia].
  - intros i (e & p & He & Hk). apply nth_error_repeat_inv in He. subst. discriminate.
Qed.

Lemma move_entries_spec : forall newcap es nidx nent tail,
  Inv0 newcap nidx nent -> Inv1 nent Nothing tail -> tail + length (live es) <= newcap ->
  (forall i e k v, nth_error es i = Some e -> kv e = Some (k, v) -> ehash e = hashfunc k) ->
  exists nidx' nent',
    move_entries newcap es (nidx, nent, tail) = Ok (nidx', nent', tail + length (live es)) /\
    Inv0 newcap nidx' nent' /\ Inv1 nent' Nothing (tail + length (live es)) /\
    Permutation (live nent') (live nent ++ live es).
Proof.
  intros newcap es. induction es as [|e es IH]; intros nidx nent tail H0 H1 Hfit Hh.
  - exists nidx, nent. cbn. rewrite Nat.add_0_r, app_nil_r. auto.
  - cbn [move_entries]. unfold move_entry at 1.
    assert (Hh' : forall i e k v, nth_error es i = Some e -> kv e = Some (k, v) -> ehash e = hashfunc k)
      by (intros i; apply (Hh (S i))).
    destruct (kv e) as [[k v]|] eqn:Hk.
    + cbn [live flat_map] in *. rewrite Hk in *. cbn [olist app length] in *. fold (live es) in *.
      pose proof H0 as (Hcap & Hli & Hle & (chs & Hch & _) & _).
      pose proof (bucket_lt (ehash e) newcap Hcap) as Hb.
      destruct (Hch _ Hb) as (lk & Hlk & _ & _).
      rewrite (rget_Ok _ _ _ _ Hlk). cbn [rbind]. rewrite rset_Ok by lia. cbn [rbind].
      rewrite rset_Ok by lia. cbn [rbind].
      destruct (insert_Inv1_tail nent (mkEntry lk (ehash e) (Some (k, v))) (k, v) tail H1) as [(e0 & He0 & Hk0) HI1];
        [lia|reflexivity|].
      assert (Heh : ehash e = hashfunc k) by (apply (Hh 0 e k v); auto).
      pose proof (insert_Inv0 newcap nidx nent tail e0 (ehash e) k v lk H0 He0 Hk0 Hlk Heh) as HI0.
      destruct (IH _ _ (S tail) HI0 HI1) as (nidx' & nent' & Hm & HA & HB & HP); [lia|auto|].
      exists nidx', nent'. rewrite Hm. replace (tail + S (length (live es))) with (S tail + length (live es)) by lia.
      split; [reflexivity|]. split; [exact HA|]. split; [exact HB|]. rewrite HP.
      rewrite (insert_live nent tail e0 (mkEntry lk (ehash e) (Some (k, v))) (k, v) He0 Hk0 eq_refl). cbn. apply Permutation_middle.
    + cbn [rbind]. cbn [live flat_map] in *. rewrite Hk in *. cbn [olist app] in *.
      apply IH; auto.
Qed.

Lemma setcapacity_spec : forall t m n, R t m ->
  exists t', ht_setcapacity t n = Ok t' /\ R t' m /\
    (n <= capacity t' /\ emptyindex t' = Nothing /\ tailindex t' = count t' /\ count t' = count t).
Proof.
  intros t m n ((H0 & H1 & Hcnt) & HP & Hd). unfold ht_setcapacity.
  set (n1 := if Nat.eqb n 0 then 1 else n).
  set (nc := if Nat.ltb n1 (count t) then count t else n1).
  pose proof H0 as (Hcap & Hli & Hle & _ & Hh).
  assert (Hltb : Nat.ltb (length (entries t)) (capacity t) = false) by (apply Nat.ltb_ge; lia).
  rewrite Hltb. rewrite <- Hle, firstn_all.
  assert (Hn1 : 0 < n1 /\ n <= n1) by (subst n1; destruct (Nat.eqb_spec n 0); lia).
  assert (Hnc : 0 < nc /\ n1 <= nc /\ count t <= nc)
    by (subst nc; destruct (Nat.ltb_spec n1 (count t)); lia).
  destruct (move_entries_spec nc (entries t) (repeat Nothing nc) (repeat blank nc) 0)
    as (nidx & nent & Hm & HA & HB & HC).
  - apply empty_Inv0; lia.
  - apply empty_Inv1.
  - lia.
  - auto.
  - rewrite Hm. cbn [rbind]. eexists. split; [reflexivity|]. rewrite live_blank in HC. cbn in HC.
    split; [|cbn; repeat split; auto; lia].
    split; [|split; [cbn [entries]; rewrite HC; auto|auto]].
    split; [exact HA|]. split; [exact HB|]. cbn [count entries]. rewrite (Permutation_length HC). auto.
Qed.

Lemma ensurecapacity_spec : forall t m n, R t m ->
  exists t', ht_ensurecapacity t n = Ok t' /\ R t' m /\ n <= capacity t' /\ count t' = count t /\
    (emptyindex t = Nothing -> emptyindex t' = Nothing /\ tailindex t' = count t').
Proof.
  intros t m n HR. unfold ht_ensurecapacity. destruct (Nat.leb_spec n (capacity t)).
  - exists t. split; [reflexivity|]. split; [exact HR|]. split; [auto|]. split; [auto|]. intros H0. split; [auto|].
    destruct HR as ((_ & (fl & Hc & _ & _ & _ & Hlen & _) & Hcnt) & _).
    rewrite H0 in Hc. destruct fl; cbn in Hc; [|destruct Hc; discriminate]. cbn in Hlen. lia.
  - set (c1 := if Nat.ltb n _ then _ else n). set (c2 := if Nat.ltb c1 _ then _ else c1).
    assert (n <= c1) by (subst c1; destruct (Nat.ltb_spec n (capacity t + Nat.div2 (capacity t))); lia).
    assert (c1 <= c2) by (subst c2; destruct (Nat.ltb_spec c1 (capacity t + 6)); lia).
    destruct (setcapacity_spec t m c2 HR) as (t' & Ht & HR' & Hc & He & Htl & Hcnt).
    exists t'. split; auto. split; [exact HR'|]. repeat split; auto. lia.
Qed.

(** ** ht_set *)

Lemma set_spec : forall t m k v, R t m ->
  exists t', ht_set hashfunc keyeq t k v = Ok (t', m_lookup keyeq m k) /\ R t' (m_set keyeq m k v).
Proof.
  intros t m k v HR. pose proof HR as ((H0 & H1 & Hcnt) & HP & Hd). unfold ht_set.
  destruct (search_spec _ _ _ k H0) as (lk & r & Hlk & Hf & Hr).
  rewrite (rget_Ok _ _ _ _ Hlk). cbn [rbind]. rewrite Hf. cbn [rbind]. destruct r as [i|].
  - destruct Hr as (e & k' & v' & He & Hkv & Hk). rewrite (rget_Ok _ _ _ _ He). cbn [rbind].
    assert (Hi : i < length (entries t)) by (eapply nth_error_lt; eauto).
    rewrite rset_Ok by auto. cbn [rbind].
    destruct (lookup_Some m k (k', v') Hd) as [Hl HPd]; auto.
    { rewrite <- HP. apply live_In. eauto. }
    eexists. rewrite Hl, Hkv. split; [reflexivity|].
    set (e' := mkEntry (next e) (ehash e) (Some (k, v))).
    pose proof (live_upd _ i e e' He) as HL. rewrite Hkv in HL. change (kv e') with (Some (k, v)) in HL. cbn [olist app] in HL.
    destruct H0 as (Hcap & Hli & Hle & (chs & Hch & Hmem) & Hh).
    destruct H1 as (fl & Hc & Hnd & Hin & Hocc & Hlen & Htl).
    assert (HPnew : Permutation (live (upd (entries t) i e')) (m_set keyeq m k v)).
    { apply (Permutation_cons_inv (a := (k', v'))).
      rewrite <- HL. rewrite HP. unfold m_set. rewrite perm_swap. apply perm_skip. auto. }
    assert (Hkocc : forall j, (exists e0, nth_error (upd (entries t) i e') j = Some e0 /\ kv e0 = None) <->
                     (exists e0, nth_error (entries t) j = Some e0 /\ kv e0 = None)).
    { intros j. destruct (Nat.eq_dec i j) as [<-|Hne].
      - rewrite nth_error_upd_eq by auto. rewrite He. split; intros (e0 & Hx & Hy); injection Hx as <-;
          cbn in *; congruence.
      - rewrite nth_error_upd_neq by auto. reflexivity. }
    split; [|split; [exact HPnew | apply set_distinct; auto]].
    split; [|split]; cbn [capacity indices entries emptyindex tailindex count].
    + unfold Inv0. rewrite length_upd. repeat split; auto.
      * exists chs. split.
        -- intros b Hb. destruct (Hch b Hb) as (lk' & H1' & H2 & H3). exists lk'. split; auto. split; auto.
           eapply chain_upd_next; eauto.
        -- intros j b Hb. rewrite Hmem by auto. destruct (Nat.eq_dec i j) as [<-|Hne].
           ++ rewrite nth_error_upd_eq by auto. rewrite He. split; intros (e0 & p & Hx & Hy & Hz);
                injection Hx as Hx; rewrite <- Hx in Hz; [exists e', (k, v)|exists e, (k', v')]; auto.
           ++ rewrite nth_error_upd_neq by auto. reflexivity.
      * intros j e0 k0 v0 Hj Hk0. destruct (Nat.eq_dec i j) as [<-|Hne].
        -- rewrite nth_error_upd_eq in Hj by auto. injection Hj as <-. cbn in *. injection Hk0 as <- <-.
           rewrite (Hh _ _ _ _ He Hkv). apply hash_ok. auto.
        -- rewrite nth_error_upd_neq in Hj by auto. eauto.
    + exists fl. repeat split; auto.
      * eapply chain_upd_next; eauto.
      * apply Hin; auto.
      * apply Hkocc. apply Hin; auto.
      * intros [Hlt Hx]. apply Hin. split; auto. apply Hkocc; auto.
      * intros j (e0 & p & Hj & Hp). apply Hocc. destruct (Nat.eq_dec i j) as [<-|Hne].
        -- exists e, (k', v'). auto.
        -- rewrite nth_error_upd_neq in Hj by auto. exists e0, p; auto.
      * apply Permutation_length in HL. cbn [length] in HL. lia.
      * rewrite length_upd. auto.
    + apply Permutation_length in HL. cbn [length] in HL. lia.
  - destruct (lookup_None m k) as [Hl Hdel]; [intros p Hp; apply Hr; rewrite HP; auto|].
    unfold m_set. rewrite Hl, Hdel.
    assert (Hfinal : forall idx es i e0 emp' tl' cap,
      Inv0 cap idx es -> nth_error es i = Some e0 -> kv e0 = None ->
      Permutation (live es) m ->
      (forall lk', nth_error idx (bucket (hashfunc k) cap) = Some lk' ->
         Inv1 (upd es i (mkEntry lk' (hashfunc k) (Some (k, v)))) emp' tl') ->
      exists t',
      (let! nx := rget idx (bucket (hashfunc k) cap) in
       let! es' := rset es i (mkEntry nx (hashfunc k) (Some (k, v))) in
       let! idx' := rset idx (bucket (hashfunc k) cap) (Idx i) in
       Ok (mkHt cap (S (count t)) emp' tl' idx' es', @None (K * V))) = Ok (t', None) /\
       R t' ((k, v) :: m)).
    { clear H0 H1 Hlk Hf Hr. intros idx es i e0 emp' tl' cap H0 Hi Hk0 HPes H1.
      pose proof H0 as (Hcap & Hli & Hle & (chs & Hch & _) & _).
      pose proof (bucket_lt (hashfunc k) cap Hcap) as Hb.
      destruct (Hch _ Hb) as (lk' & Hlk' & _).
      rewrite (rget_Ok _ _ _ _ Hlk'). cbn [rbind].
      assert (Hilt : i < length es) by (eapply nth_error_lt; eauto).
      rewrite rset_Ok by auto. cbn [rbind]. rewrite rset_Ok by lia. cbn [rbind].
      eexists. split; [reflexivity|]. split; [split; [|split]|split]; cbn [capacity indices entries emptyindex tailindex count].
      - eapply insert_Inv0; eauto.
      - apply H1; auto.
      - rewrite (Permutation_length (insert_live es i e0 (mkEntry lk' (hashfunc k) (Some (k, v))) (k, v) Hi Hk0 eq_refl)). cbn [length].
        rewrite (Permutation_length HPes), <- (Permutation_length HP). congruence.
      - rewrite (insert_live es i e0 (mkEntry lk' (hashfunc k) (Some (k, v))) (k, v) Hi Hk0 eq_refl). apply perm_skip. auto.
      - rewrite <- Hdel. apply set_distinct; auto. }
    destruct (emptyindex t) as [|i|] eqn:Eemp.
    + destruct (ensurecapacity_spec t m (count t + 1) HR) as (t' & Ht' & HR' & Hge & Hc' & Hem).
      rewrite Ht'. cbn [rbind]. cbn [capacity indices entries emptyindex tailindex count].
      destruct (Hem Eemp) as [He' Htl']. rewrite He', Hc'.
      destruct HR' as ((H0' & H1' & Hcnt') & HP' & Hd').
      pose proof H0' as (_ & _ & Hle' & _). rewrite He' in H1'.
      destruct (insert_Inv1_tail (entries t') (mkEntry Nothing 0%N (Some (k, v))) (k, v) (tailindex t') H1')
        as [(e0 & He0 & Hk0) _]; [lia|reflexivity|].
      apply (Hfinal _ _ _ e0); auto.
      intros lk' _. apply insert_Inv1_tail with (p := (k, v)); auto. lia.
    + pose proof H1 as (fl & Hc & _).
      destruct fl as [|j fl]; [discriminate|]. pose proof Hc as [Hij (e0 & He0 & _)]. injection Hij as <-.
      rewrite (rget_Ok _ _ _ _ He0). cbn [rbind]. cbn [capacity indices entries emptyindex tailindex count].
      destruct (insert_Inv1_free (entries t) i e0 (mkEntry Nothing 0%N (Some (k, v))) (k, v) (tailindex t) H1 He0)
        as [Hk0 _]; [reflexivity|].
      apply (Hfinal _ _ _ e0); auto.
      intros lk' _. eapply (insert_Inv1_free (entries t) i e0 _ (k, v)); eauto.
    + exfalso. destruct H1 as (fl & Hc & _). destruct fl; cbn in Hc; [discriminate | destruct Hc; discriminate].
Qed.

(** ** ht_remove *)

(** The list of indices reached from pointer [p]. *)
Lemma remove_loop_spec : forall k l fuel (t : ht) p lk,
  deref t p = Ok lk -> chain (entries t) lk l -> NoDup l ->
  (forall i, In i l -> occ (entries t) i) -> length l < fuel ->
  (match p with PBucket b => b < length (indices t)
   | PNext j => j < length (entries t) /\ ~ In j l end) ->
  ((forall i e k' v, In i l -> nth_error (entries t) i = Some e -> kv e = Some (k', v) ->
      ehash e = hashfunc k -> keyeq k' k = false) /\
   remove_loop keyeq fuel t (hashfunc k) k p = Ok (t, None)) \/
  (exists l1 i l2 e k' v t1,
     l = l1 ++ i :: l2 /\ nth_error (entries t) i = Some e /\ kv e = Some (k', v) /\
     keyeq k' k = true /\
     assign t (match l1 with [] => p | _ => PNext (last l1 0) end) (next e) = Ok t1 /\
     nth_error (entries t1) i = Some e /\
     remove_loop keyeq fuel t (hashfunc k) k p =
       Ok (mkHt (capacity t1) (count t1 - 1) (Idx i) (tailindex t1) (indices t1)
             (upd (entries t1) i (mkEntry (emptyindex t1) (ehash e) None)), Some (k', v))).
Proof.
  intros k l. induction l as [|i l IH]; intros fuel t p lk Hp Hc Hnd Hocc Hf Hpok.
  - cbn in Hc. subst. left. split; [intros ? ? ? ? []|]. destruct fuel; cbn; rewrite Hp; reflexivity.
  - cbn in Hc. destruct Hc as [-> (e & He & Hc)].
    destruct fuel as [|fuel]; [cbn in Hf; lia|].
    cbn [remove_loop]. rewrite Hp. cbn [rbind]. rewrite (rget_Ok _ _ _ _ He). cbn [rbind].
    destruct (Hocc i (or_introl eq_refl)) as (e0 & [k0 v0] & He0 & Hkv).
    rewrite He in He0. injection He0 as <-. rewrite Hkv.
    inversion Hnd as [|? ? Hni Hnd']; subst.
    assert (Hilt : i < length (entries t)) by (eapply nth_error_lt; eauto).
    assert (Hrec : (keyeq k0 k = false \/ ehash e <> hashfunc k) ->
      ((forall i0 e0 k' v, In i0 (i :: l) -> nth_error (entries t) i0 = Some e0 -> kv e0 = Some (k', v) ->
          ehash e0 = hashfunc k -> keyeq k' k = false) /\
       remove_loop keyeq fuel t (hashfunc k) k (PNext i) = Ok (t, None)) \/
      (exists l1 i0 l2 e0 k' v t1,
        i :: l = l1 ++ i0 :: l2 /\ nth_error (entries t) i0 = Some e0 /\ kv e0 = Some (k', v) /\
        keyeq k' k = true /\
        assign t (match l1 with [] => p | _ => PNext (last l1 0) end) (next e0) = Ok t1 /\
        nth_error (entries t1) i0 = Some e0 /\
        remove_loop keyeq fuel t (hashfunc k) k (PNext i) =
          Ok (mkHt (capacity t1) (count t1 - 1) (Idx i0) (tailindex t1) (indices t1)
                (upd (entries t1) i0 (mkEntry (emptyindex t1) (ehash e0) None)), Some (k', v)))).
    { intros Hno. destruct (IH fuel t (PNext i) (next e)) as [[Hn Hr]|HS]; auto.
      - cbn. rewrite (rget_Ok _ _ _ _ He). reflexivity.
      - intros; apply Hocc; now right.
      - cbn in Hf; lia.
      - left. split; auto. intros j e' k' v' [<-|Hj] He' Hkv' Hh'; [|eauto].
        rewrite He in He'. injection He' as <-. rewrite Hkv in Hkv'. injection Hkv' as <- <-.
        destruct Hno; congruence.
      - right. destruct HS as (l1 & j & l2 & e' & k' & v' & t1 & Hl & Hj & Hkv' & Hk' & Ha & Ht1 & Hr).
        exists (i :: l1), j, l2, e', k', v', t1. split; [rewrite Hl; reflexivity|].
        repeat split; auto. destruct l1 as [|x l1]; cbn [last]; auto. }
    destruct (N.eqb_spec (ehash e) (hashfunc k)) as [Hh|Hh]; cbn [rbind]; [|apply Hrec; auto].
    destruct (keyeq k0 k) eqn:Ek; [|apply Hrec; auto]. clear Hrec IH.
    right.
    assert (Has : exists t1, assign t p (next e) = Ok t1 /\ nth_error (entries t1) i = Some e).
    { destruct p as [b|j]; cbn.
      - rewrite rset_Ok by auto. cbn. eauto.
      - destruct Hpok as [Hj Hnj]. destruct (lt_nth_error _ _ _ Hj) as [ej Hej].
        rewrite (rget_Ok _ _ _ _ Hej). cbn. rewrite rset_Ok by auto. cbn. eexists. split; [reflexivity|].
        cbn. rewrite nth_error_upd_neq; auto. intros ->. apply Hnj. now left. }
    destruct Has as (t1 & Ha & Ht1).
    exists [], i, l, e, k0, v0, t1. rewrite Ha. cbn [rbind].
    rewrite (rget_Ok _ _ _ _ Ht1). cbn [rbind].
    rewrite rset_Ok by (eapply nth_error_lt; eauto). cbn [rbind]. repeat split; auto.
Qed.

(** Unlinking an element from a chain. *)
Lemma chain_split : forall es l1 lk i l2, chain es lk (l1 ++ i :: l2) ->
  exists e, nth_error es i = Some e /\ chain es (next e) l2.
Proof.
  intros es l1. induction l1 as [|j l1 IH]; intros lk i l2 H; cbn in H.
  - destruct H as [_ H]. exact H.
  - destruct H as [_ (e & _ & H)]. eauto.
Qed.

Lemma chain_unlink : forall es l1 lk j i l2 e ej,
  chain es lk (l1 ++ j :: i :: l2) -> NoDup (l1 ++ j :: i :: l2) ->
  nth_error es i = Some e -> nth_error es j = Some ej ->
  chain (upd es j (mkEntry (next e) (ehash ej) (kv ej))) lk (l1 ++ j :: l2).
Proof.
  intros es l1. induction l1 as [|x l1 IH]; intros lk j i l2 e ej Hc Hnd Hi Hj.
  - cbn in *. destruct Hc as [-> (ej' & Hj' & Hn & (e' & Hi' & Hc))]. split; auto.
    rewrite Hi in Hi'. injection Hi' as <-.
    eexists. split; [apply nth_error_upd_eq; eapply nth_error_lt; eauto|]. cbn.
    inversion Hnd as [|? ? H1 H2]; subst. inversion H2; subst.
    apply chain_upd; auto. cbn in H1. tauto.
  - cbn in *. destruct Hc as [-> (ex & Hx & Hc)]. split; auto.
    inversion Hnd as [|? ? H1 H2]; subst.
    assert (Hxj : j <> x). { intros ->. apply H1. apply in_or_app. right. now left. }
    exists ex. split; [rewrite nth_error_upd_neq; auto|]. eapply IH; eauto.
Qed.

Lemma last_split : forall (l : list nat), l <> [] -> exists l', l = l' ++ [last l 0].
Proof. intros l H. exists (removelast l). apply app_removelast_last; auto. Qed.

(** The effect of [assign] on the observable parts. *)
Lemma assign_fields : forall (t : ht) p lk t1, assign t p lk = Ok t1 ->
  capacity t1 = capacity t /\ count t1 = count t /\ emptyindex t1 = emptyindex t /\
  tailindex t1 = tailindex t.
Proof.
  intros t p lk t1 H. destruct p; cbn in H.
  - destruct (rset _ _ _); cbn in H; try discriminate. injection H as <-. auto.
  - destruct (rget _ _); cbn in H; try discriminate. destruct (rset _ _ _); cbn in H; try discriminate.
    injection H as <-. auto.
Qed.

Lemma live_upd_same : forall es i e e', nth_error es i = Some e -> kv e' = kv e ->
  live (upd es i e') = live es.
Proof.
  induction es as [|x es IH]; intros [|i] e e' H Hk; cbn in H; try discriminate.
  - injection H as ->. cbn. rewrite Hk. reflexivity.
  - cbn [upd live flat_map]. f_equal. eapply IH; eauto.
Qed.

Lemma NoDup_remove_mid : forall A (l1 l2 : list A) a, NoDup (l1 ++ a :: l2) -> NoDup (l1 ++ l2) /\ ~ In a (l1 ++ l2).
Proof. intros. split; [eapply NoDup_remove_1 | eapply NoDup_remove_2]; eauto. Qed.

Lemma remove_spec : forall t m k, R t m ->
  exists t', ht_remove hashfunc keyeq t k = Ok (t', m_lookup keyeq m k) /\ R t' (m_delete keyeq m k).
Proof.
  intros t m k HR. pose proof HR as ((H0 & H1 & Hcnt) & HP & Hd). unfold ht_remove.
  destruct H0 as (Hcap & Hli & Hle & (chs & Hch & Hmem) & Hh).
  set (b := bucket (hashfunc k) (capacity t)).
  assert (Hb : b < capacity t) by (apply bucket_lt; auto).
  destruct (Hch b Hb) as (lk & Hlk & Hc & Hnd).
  assert (Hocc : forall i, In i (chs b) -> occ (entries t) i).
  { intros i Hi. apply Hmem in Hi; auto. destruct Hi as (e & p & X1 & X2 & _). exists e, p. auto. }
  assert (Hlen : length (chs b) < S (capacity t)).
  { apply Nat.lt_succ_r. apply NoDup_bounded; auto. intros i Hi. destruct (Hocc i Hi) as (e & p & H & _).
    apply nth_error_lt in H. lia. }
  destruct (remove_loop_spec k (chs b) (S (capacity t)) t (PBucket b) lk) as [[Hno Hr]|HS]; auto.
  - cbn. apply rget_Ok; auto.
  - lia.
  - rewrite Hr. destruct (lookup_None m k) as [Hl Hdel].
    + intros [k' v'] Hin. cbn. rewrite <- HP in Hin. apply live_In in Hin as (i & e & Hi & Hkv).
      destruct (keyeq k' k) eqn:E; auto.
      assert (Heh : ehash e = hashfunc k) by (rewrite (Hh _ _ _ _ Hi Hkv); apply hash_ok; auto).
      rewrite <- E. eapply Hno; eauto. apply Hmem; auto. exists e, (k', v'). subst b. rewrite Heh. auto.
    + exists t. rewrite Hl, Hdel. auto.
  - destruct HS as (l1 & i & l2 & e & k' & v & t1 & Hl & Hi & Hkv & Hk & Ha & Ht1 & Hr).
    rewrite Hr. clear Hr.
    destruct (lookup_Some m k (k', v) Hd) as [Hlu HPd]; auto.
    { rewrite <- HP. apply live_In. eauto. }
    rewrite Hlu. eexists. split; [reflexivity|].
    destruct (assign_fields _ _ _ _ Ha) as (Fc & Fn & Fe & Ft). rewrite Fc, Fn, Fe, Ft.
    assert (Hilt : i < length (entries t)) by (eapply nth_error_lt; eauto).
    rewrite Hl in Hnd, Hc. destruct (NoDup_remove_mid _ _ _ _ Hnd) as [Hnd' Hni].
    destruct (chain_split _ _ _ _ _ Hc) as (e' & Hi' & Hc2). rewrite Hi in Hi'. injection Hi' as <-.
    (* description of t1 *)
    assert (HT1 : length (indices t1) = capacity t /\ length (entries t1) = capacity t /\
      (forall b', b' < capacity t -> b' <> b -> nth_error (indices t1) b' = nth_error (indices t) b') /\
      (exists lk1, nth_error (indices t1) b = Some lk1 /\ chain (entries t1) lk1 (l1 ++ l2)) /\
      (forall j l lkx, (forall x, In x l -> ~ In x (chs b)) -> j = 0 -> chain (entries t) lkx l -> chain (entries t1) lkx l) /\
      (forall j ej, nth_error (entries t1) j = Some ej -> exists ej0, nth_error (entries t) j = Some ej0 /\ kv ej = kv ej0 /\ ehash ej = ehash ej0) /\
      (forall j ej0, nth_error (entries t) j = Some ej0 -> exists ej, nth_error (entries t1) j = Some ej /\ kv ej = kv ej0 /\ ehash ej = ehash ej0) /\
      live (entries t1) = live (entries t)).
    { destruct l1 as [|x l1'].
      - cbn in Ha. rewrite rset_Ok in Ha by lia. cbn in Ha. injection Ha as <-. cbn [indices entries].
        rewrite length_upd. repeat split; auto.
        + intros b' Hb' Hne. apply nth_error_upd_neq; auto.
        + exists (next e). split; [apply nth_error_upd_eq; lia|]. exact Hc2.
        + intros j ej Hj. eauto.
        + intros j ej Hj. eauto.
      - destruct (last_split (x :: l1')) as [l1'' Hl1]; [discriminate|].
        set (j := last (x :: l1') 0) in *.
        cbn [assign] in Ha. destruct (rget (entries t) j) as [ej| |] eqn:Ej; try discriminate.
        unfold rget in Ej. destruct (nth_error (entries t) j) as [ej'|] eqn:Hj; [|discriminate]. injection Ej as <-.
        cbn in Ha. rewrite rset_Ok in Ha by (eapply nth_error_lt; eauto). cbn in Ha. injection Ha as <-.
        cbn [indices entries]. rewrite length_upd.
        assert (Hjin : In j (chs b)). { rewrite Hl, Hl1. apply in_or_app. left. apply in_or_app. right. now left. }
        assert (Hjlt : j < length (entries t)) by (eapply nth_error_lt; eauto).
        repeat split; auto.
        + exists lk. split; auto. rewrite Hl1. rewrite <- app_assoc. cbn.
          eapply chain_unlink; eauto; rewrite Hl1 in Hc, Hnd; rewrite <- app_assoc in Hc, Hnd; cbn in Hc, Hnd; eauto.
        + intros _ l lkx Hdis _ Hcl. apply chain_upd; auto. intro Hin. eapply Hdis; eauto.
        + intros y ey Hy. destruct (Nat.eq_dec j y) as [<-|Hne].
          * rewrite nth_error_upd_eq in Hy by auto. injection Hy as <-. eauto.
          * rewrite nth_error_upd_neq in Hy by auto. eauto.
        + intros y ey Hy. destruct (Nat.eq_dec j y) as [<-|Hne].
          * rewrite nth_error_upd_eq by auto. rewrite Hj in Hy. injection Hy as <-. eauto.
          * rewrite nth_error_upd_neq by auto. eauto.
        + eapply live_upd_same; eauto. }
    destruct HT1 as (L1 & L2 & Hidx & (lk1 & Hlk1 & Hc1) & Hother & Hback & Hfwd & Hlive).
    set (e1 := mkEntry (emptyindex t) (ehash e) None).
    assert (Hi1lt : i < length (entries t1)) by lia.
    assert (HPl : Permutation (live (entries t)) ((k', v) :: live (upd (entries t1) i e1))).
    { pose proof (live_upd (entries t1) i e e1 Ht1) as HL. rewrite Hkv in HL. cbn [kv e1 olist app] in HL.
      change (kv e1) with (@None (K * V)) in HL. cbn [olist app] in HL. rewrite Hlive in HL. auto. }
    assert (Hibk : forall b', b' < capacity t -> b' <> b -> ~ In i (chs b')).
    { intros b' Hb' Hne Hin. apply Hne. assert (Hib : In i (chs b)) by (rewrite Hl; apply in_or_app; right; now left).
      apply Hmem in Hin; auto. apply Hmem in Hib; auto.
      destruct Hin as (ea & pa & A1 & _ & A2). destruct Hib as (eb & pb & B1 & _ & B2). congruence. }
    assert (Hdisj : forall b', b' < capacity t -> b' <> b -> forall x, In x (chs b') -> ~ In x (chs b)).
    { intros b' Hb' Hne x Hin Hxb. apply Hne. apply Hmem in Hin; auto. apply Hmem in Hxb; auto.
      destruct Hin as (ea & pa & A1 & _ & A2). destruct Hxb as (eb & pb & B1 & _ & B2). congruence. }
    assert (Hnth : forall j ej, j <> i -> nth_error (upd (entries t1) i e1) j = Some ej ->
               exists ej0, nth_error (entries t) j = Some ej0 /\ kv ej = kv ej0 /\ ehash ej = ehash ej0).
    { intros j ej Hj He. rewrite nth_error_upd_neq in He by auto. apply Hback. auto. }
    assert (Hnth' : forall j ej0, j <> i -> nth_error (entries t) j = Some ej0 ->
               exists ej, nth_error (upd (entries t1) i e1) j = Some ej /\ kv ej = kv ej0 /\ ehash ej = ehash ej0).
    { intros j ej Hj He. rewrite nth_error_upd_neq by auto. apply Hfwd. auto. }
    split; [|split].
    + split; [|split]; cbn [capacity indices entries emptyindex tailindex count].
      * unfold Inv0. rewrite length_upd. repeat split; auto.
        -- exists (fun b' => if Nat.eqb b' b then l1 ++ l2 else chs b'). split.
           ++ intros b' Hb'. destruct (Nat.eqb_spec b' b) as [->|Hne].
              ** exists lk1. split; auto. split; auto. apply chain_upd; auto.
              ** destruct (Hch b' Hb') as (lk' & Hlk' & Hc' & Hnd''). exists lk'. rewrite Hidx by auto.
                 split; auto. split; auto. apply chain_upd; auto.
                 apply (Hother 0); auto. apply Hdisj; auto.
           ++ intros j b' Hb'. destruct (Nat.eq_dec j i) as [->|Hji].
              ** rewrite nth_error_upd_eq by auto. split.
                 --- intro Hin. exfalso. destruct (Nat.eqb_spec b' b) as [->|Hne]; [auto|]. eapply Hibk; eauto.
                 --- intros (e0 & p & He0 & Hp & _). injection He0 as <-. discriminate.
              ** assert (Hiff : In j (if Nat.eqb b' b then l1 ++ l2 else chs b') <-> In j (chs b')).
                 { destruct (Nat.eqb_spec b' b) as [->|Hne]; [|reflexivity]. rewrite Hl. rewrite !in_app_iff. cbn. 
                   split; [tauto|]. intros [?|[?|?]]; auto. congruence. }
                 rewrite Hiff, Hmem by auto. split; intros (e0 & p & He0 & Hp & Hbk).
                 --- destruct (Hnth' j e0 Hji He0) as (ej & X1 & X2 & X3). exists ej, p. rewrite X2, X3. auto.
                 --- destruct (Hnth j e0 Hji He0) as (ej & X1 & X2 & X3). exists ej, p. rewrite <- X2, <- X3. auto.
        -- intros j ej k0 v0 Hj Hk0. destruct (Nat.eq_dec j i) as [->|Hji].
           ++ rewrite nth_error_upd_eq in Hj by auto. injection Hj as <-. discriminate.
           ++ destruct (Hnth j ej Hji Hj) as (ej0 & X1 & X2 & X3). rewrite X3. apply (Hh j ej0 k0 v0); [auto|congruence].
      * destruct H1 as (fl & Hcf & Hndf & Hin & Hoccf & Hlenf & Htl).
        assert (Hifl : ~ In i fl). { intro Hx. apply Hin in Hx as [_ (e0 & He0 & Hk0)]. congruence. }
        exists (i :: fl). split; [|split; [|split; [|split; [|split]]]].
        -- cbn [chain]. split; auto. exists e1. split; [apply nth_error_upd_eq; auto|]. cbn [next e1].
           apply chain_upd; auto. apply (Hother 0); auto.
           intros x Hx Hxb. apply Hin in Hx as [_ (e0 & He0 & Hk0)].
           destruct (Hocc x Hxb) as (e2 & p2 & He2 & Hp2). congruence.
        -- constructor; auto.
        -- intros j. destruct (Nat.eq_dec j i) as [->|Hji].
           ++ split; [|intros _; now left]. intros _. split.
              ** apply Hoccf. exists e, (k', v). auto.
              ** exists e1. split; [apply nth_error_upd_eq; auto|reflexivity].
           ++ cbn [In]. split.
              ** intros [?|Hx]; [congruence|]. apply Hin in Hx as [Hlt (e0 & He0 & Hk0)]. split; auto.
                 destruct (Hnth' j e0 Hji He0) as (ej & X1 & X2 & X3). exists ej. split; congruence.
              ** intros [Hlt (e0 & He0 & Hk0)]. right. apply Hin. split; auto.
                 destruct (Hnth j e0 Hji He0) as (ej & X1 & X2 & X3). exists ej. split; congruence.
        -- intros j (e0 & p & He0 & Hp). apply Hoccf. destruct (Nat.eq_dec j i) as [->|Hji].
           ++ exists e, (k', v). auto.
           ++ destruct (Hnth j e0 Hji He0) as (ej & X1 & X2 & X3). exists ej, p. split; congruence.
        -- apply Permutation_length in HPl. cbn [length] in *. lia.
        -- rewrite length_upd. lia.
      * apply Permutation_length in HPl. cbn [length] in *. lia.
    + cbn [entries]. apply (Permutation_cons_inv (a := (k', v))). rewrite <- HPl, HP. auto.
    + apply delete_distinct; auto.
Qed.

(** ** ht_clear, iteration *)

Lemma live_clear : forall es : list entry, live (map clear_entry es) = [].
Proof. induction es; cbn; auto. Qed.

Lemma clear_spec : forall t m, R t m -> exists t', ht_clear t = Ok t' /\ R t' [].
Proof.
  intros t m ((H0 & H1 & Hcnt) & HP & Hd). unfold ht_clear.
  destruct (Nat.eqb_spec (count t) 0) as [Hz|Hz].
  - exists t. split; auto. split; [split; [exact H0|split; [exact H1|exact Hcnt]]|].
    destruct (live (entries t)); [split; [constructor|constructor]|]. cbn in Hcnt. lia.
  - destruct H0 as (Hcap & Hli & Hle & _ & Hh).
    rewrite Hle, Hli, !Nat.ltb_irrefl. cbn [orb].
    rewrite !skipn_all2 by lia. rewrite firstn_all2 by lia. rewrite !app_nil_r.
    eexists. split; [reflexivity|].
    assert (Hcl : forall i e, nth_error (map clear_entry (entries t)) i = Some e -> kv e = None).
    { intros i e Hi. apply nth_error_In in Hi. apply in_map_iff in Hi as (x & <- & _). reflexivity. }
    split; [split; [|split]|]; cbn [capacity indices entries emptyindex tailindex count].
    + unfold Inv0. rewrite repeat_length, map_length. repeat split; auto.
      * exists (fun _ => []). split.
        -- intros b Hb. exists Nothing. split; [apply nth_error_repeat; auto|]. split; [reflexivity|constructor].
        -- intros i b Hb. split; [intros []|]. intros (e & p & He & Hk & _). apply Hcl in He. congruence.
      * intros i e k v He Hk. apply Hcl in He. congruence.
    + exists []. rewrite live_clear. split; [reflexivity|]. split; [constructor|].
      split; [|split; [|split]]; [intros i; cbn; split; [tauto|lia] | |cbn; lia|lia].
      intros i (e & p & He & Hk). apply Hcl in He. congruence.
    + rewrite live_clear. reflexivity.
    + rewrite live_clear. split; constructor.
Qed.

Lemma skipn_nth : forall A (l : list A) i a, nth_error l i = Some a -> skipn i l = a :: skipn (S i) l.
Proof.
  induction l as [|x l IH]; intros [|i] a H; cbn in H; try discriminate.
  - injection H as ->. reflexivity.
  - cbn [skipn]. rewrite (IH i a H). reflexivity.
Qed.

Lemma next_spec : forall (t : ht) fuel i, length (entries t) = capacity t -> capacity t - i < fuel ->
  exists r, ht_next_loop fuel t i = Ok r /\
    match r with
    | (None, _) => live (skipn i (entries t)) = []
    | (Some p, j) => i < j /\ j <= capacity t /\ live (skipn i (entries t)) = p :: live (skipn j (entries t))
    end.
Proof.
  intros t fuel. induction fuel as [|fuel IH]; intros i Hl Hf; [lia|].
  cbn [ht_next_loop]. destruct (Nat.ltb_spec i (capacity t)) as [Hlt|Hge].
  - destruct (lt_nth_error _ (entries t) i) as [e He]; [lia|].
    rewrite (rget_Ok _ _ _ _ He). cbn [rbind].
    rewrite (skipn_nth _ _ _ _ He). cbn [live flat_map]. fold (live (skipn (S i) (entries t))).
    destruct (kv e) as [p|].
    + exists (Some p, S i). split; auto.
    + destruct (IH (S i) Hl) as (r & Hr & HR); [lia|]. exists r. split; auto.
      destruct r as [[p|] j]; auto. destruct HR as (A & B & C). repeat split; auto. lia.
  - exists (None, i). split; auto. rewrite skipn_all2 by lia. reflexivity.
Qed.

Lemma iterate_spec : forall (t : ht) fuel i, length (entries t) = capacity t -> capacity t - i + 1 < fuel ->
  iterate fuel t i = Ok (live (skipn i (entries t))).
Proof.
  intros t fuel. induction fuel as [|fuel IH]; intros i Hl Hf; [lia|].
  cbn [iterate]. unfold ht_next.
  destruct (next_spec t (S (capacity t)) i Hl) as (r & Hr & HR); [lia|].
  rewrite Hr. cbn [rbind]. destruct r as [[p|] j].
  - destruct HR as (A & B & C). rewrite IH by lia. cbn [rbind]. rewrite C. reflexivity.
  - rewrite HR. reflexivity.
Qed.

Lemma tokv_spec : forall (t : ht) n i room, i + n = length (entries t) ->
  room = S (length (live (skipn i (entries t)))) ->
  tokv_loop t i n room = Ok (live (skipn i (entries t))).
Proof.
  intros t n. induction n as [|n IH]; intros i room Hl Hr; cbn [tokv_loop].
  - rewrite skipn_all2 in * by lia. cbn in Hr. subst. reflexivity.
  - destruct (lt_nth_error _ (entries t) i) as [e He]; [lia|].
    rewrite (rget_Ok _ _ _ _ He). cbn [rbind].
    rewrite (skipn_nth _ _ _ _ He) in *. cbn [live flat_map] in *. fold (live (skipn (S i) (entries t))) in *.
    destruct (kv e) as [p|]; cbn [olist app length] in *.
    + subst room. rewrite (IH (S i)) by (auto; lia). reflexivity.
    + rewrite (IH (S i)) by (auto; lia). reflexivity.
Qed.

(** ** Refinement *)

Lemma step_spec : forall t m o, R t m ->
  exists t' r, step hashfunc keyeq t o = Ok (t', r) /\ R t' (fst (spec_step keyeq m o)) /\
    out_equiv r (snd (spec_step keyeq m o)).
Proof.
  intros t m o HR. pose proof HR as ((H0 & H1 & Hcnt) & HP & Hd).
  pose proof H0 as (Hcap & Hli & Hle & _).
  destruct o as [k|k v|k| |n|n| | |]; cbn [step spec_step fst snd].
  - rewrite (get_spec _ _ _ HR). cbn [rbind]. exists t, (RKv (m_lookup keyeq m k)).
    split; [reflexivity|split; [exact HR|constructor]].
  - destruct (set_spec _ _ k v HR) as (t' & -> & HR'). cbn [rbind]. exists t', (RKv (m_lookup keyeq m k)).
    split; [reflexivity|split; [exact HR'|constructor]].
  - destruct (remove_spec _ _ k HR) as (t' & -> & HR'). cbn [rbind]. exists t', (RKv (m_lookup keyeq m k)).
    split; [reflexivity|split; [exact HR'|constructor]].
  - destruct (clear_spec _ _ HR) as (t' & -> & HR'). cbn [rbind]. exists t', RNone.
    split; [reflexivity|split; [exact HR'|constructor]].
  - destruct (setcapacity_spec _ _ n HR) as (t' & -> & HR' & _). cbn [rbind]. exists t', RNone.
    split; [reflexivity|split; [exact HR'|constructor]].
  - destruct (ensurecapacity_spec _ _ n HR) as (t' & -> & HR' & _). cbn [rbind]. exists t', RNone.
    split; [reflexivity|split; [exact HR'|constructor]].
  - exists t, (RNum (count t)). split; [reflexivity|split; [exact HR|]].
    rewrite Hcnt, (Permutation_length HP). constructor.
  - rewrite iterate_spec by lia. cbn [rbind skipn]. exists t, (RList (live (entries t))).
    split; [reflexivity|split; [exact HR|constructor; auto]].
  - unfold ht_tokvarray. rewrite tokv_spec by (cbn [skipn]; lia). cbn [rbind skipn].
    exists t, (RList (live (entries t))).
    split; [reflexivity|split; [exact HR|constructor; auto]].
Qed.

Lemma run_spec : forall os t m, R t m ->
  exists rs, run hashfunc keyeq t os = Ok rs /\ Forall2 out_equiv rs (spec_run keyeq m os).
Proof.
  induction os as [|o os IH]; intros t m HR; cbn [run spec_run].
  - exists []. split; auto.
  - destruct (step_spec t m o HR) as (t' & r & Hs & HR' & Ho). rewrite Hs. cbn [rbind].
    destruct (spec_step keyeq m o) as [m' r'] eqn:E. cbn [fst snd] in *.
    destruct (IH t' m' HR') as (rs & Hrs & HF). rewrite Hrs. cbn [rbind]. exists (r :: rs). auto.
Qed.

Lemma init_R : forall cap, R (ht_initwithcapacity cap) [].
Proof.
  intros cap. unfold ht_initwithcapacity.
  set (c := if Nat.eqb cap 0 then 1 else cap). assert (0 < c) by (subst c; destruct (Nat.eqb_spec cap 0); lia).
  split; [split; [|split]|]; cbn [capacity indices entries emptyindex tailindex count].
  - apply empty_Inv0; auto.
  - apply empty_Inv1.
  - rewrite live_blank. reflexivity.
  - rewrite live_blank. split; constructor.
Qed.

Lemma hashtable_refines_map_proof : forall cap (os : list (@op K V)),
  exists rs, run hashfunc keyeq (ht_initwithcapacity cap) os = Ok rs /\
    Forall2 out_equiv rs (spec_run keyeq [] os).
Proof. intros. apply run_spec. apply init_R. Qed.
End Proofs.
