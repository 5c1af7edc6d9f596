(** C14 and C37: tries of key sequences and command line prediction. *)
From Coq Require Import List ZArith Bool Arith Lia Sorted QArith.
From Verif Require Import Common TrieModel TrieSpec TrieProofs.
Import ListNotations.
Open Scope res_scope.
Open Scope nat_scope.

(** C14: after any history of operations, a look-up finds the longest stored key
    that is a prefix of the input, and tells whether longer keys are possible. *)
Theorem trie_longest_prefix : forall V (ops : list (op V)),
  exists t, run ops trie_create = Ok t /\
    forall input, exists r, trie_get t input = Ok r /\ lookup_answer (history_map ops) input r.
Proof.
  intros V ops. destruct (history_ok V ops) as (t & E & W & L). exists t. split; [auto|].
  intros input. destruct (trie_get_ok V input t W) as (r & Er & A & _). exists r. split; [auto|].
  eapply la_ext; eauto.
Qed.
Print Assumptions trie_longest_prefix.

(** C14: a key is stored with a value exactly if looking it up matches all of it
    and yields the value. *)
Theorem trie_stored_iff : forall V (ops : list (op V)) t, run ops trie_create = Ok t ->
  forall k v, history_map ops k = Some v <->
    exists p, trie_get t k = Ok (mkTG true p (length k) (Some v)).
Proof.
  intros V ops t E k v. destruct (trie_longest_prefix V ops) as (t' & E' & G).
  rewrite E in E'. injection E' as <-. destruct (G k) as (r & Er & [A B C]). rewrite Er.
  destruct r as [ex p ml va]. cbn in *. split.
  - intros M. assert (X : ex = true).
    { apply A. exists k. split; [exists []; now rewrite app_nil_r|congruence]. }
    destruct (B X) as (k1 & v1 & ((rest & Ek) & M1 & Lg) & -> & ->).
    assert (length k <= length k1) by (apply Lg; [exists []; now rewrite app_nil_r|congruence]).
    assert (rest = []).
    { apply (f_equal (@length Z)) in Ek. rewrite app_length in Ek. destruct rest; [auto|cbn in *; lia]. }
    subst rest. rewrite app_nil_r in Ek. subst k1. exists p. rewrite X. congruence.
  - intros (p' & [= -> -> -> ->]). destruct (B eq_refl) as (k1 & v1 & ((rest & Ek) & M1 & Lg) & El & Ev).
    assert (rest = []).
    { apply (f_equal (@length Z)) in Ek. rewrite app_length in Ek. destruct rest; [auto|cbn in *; lia]. }
    subst rest. rewrite app_nil_r in Ek. subst k1. congruence.
Qed.
Print Assumptions trie_stored_iff.

(** C14: enumeration calls the function for every stored key exactly once, in
    lexicographic order, until it asks to stop. *)
Theorem trie_foreach_enumerates : forall V (ops : list (op V)) t, run ops trie_create = Ok t ->
  exists l, (forall k v, In (k, v) l <-> history_map ops k = Some v) /\
    NoDup (map fst l) /\ StronglySorted (fun a b => lexlt (fst a) (fst b)) l /\
    forall S (func : S -> list Z -> V -> S * Z) s, trie_foreachw V S func t s = Ok (visit func l s).
Proof.
  intros V ops t E. destruct (history_ok V ops) as (t' & E' & W & L).
  rewrite E in E'. injection E' as <-. exists (bindings t).
  split; [intros k v; rewrite (In_bindings V nonempty t W), L; reflexivity|].
  assert (SS : StronglySorted (blt V) (bindings t)) by (eapply bindings_sorted; eauto).
  split; [apply sorted_nodup; auto|]. split; [exact SS|].
  intros S func s. unfold trie_foreachw.
  destruct (foreachw_ok V S func t s []) as (buf & F & _). rewrite F. cbn [rbind]. do 2 f_equal.
  unfold pre. rewrite <- map_id. apply map_ext. now intros [k v].
Qed.
Print Assumptions trie_foreach_enumerates.

(** A history with shared prefixes, overwriting and pruning. *)
Definition ex_ops : list (op nat) :=
  [OSet [27; 91; 65]%Z 1; OSet [27]%Z 2; OSet [27; 91; 66]%Z 3; OSetNull 4; OSet [-5]%Z 5;
   ORemove [27; 91; 65]%Z; OSet [27]%Z 6; ORemove [99]%Z; OSet [27;91;66;67]%Z 7; ORemove [27;91;66;67]%Z].
Example ex_trie : exists t, run ex_ops trie_create = Ok t /\
  trie_get t [27; 91; 65]%Z = Ok (mkTG true false 1 (Some 6)) /\
  trie_get t [27; 91]%Z = Ok (mkTG true true 1 (Some 6)) /\
  trie_get t [27; 91; 66; 67]%Z = Ok (mkTG true false 3 (Some 3)) /\
  trie_get t [0]%Z = Ok (mkTG true false 1 (Some 4)) /\
  trie_get t [28]%Z = Ok (mkTG false false 0 None) /\
  trie_foreachw nat (list (list Z * nat)) (fun s k v => (s ++ [(k, v)], 0%Z)) t []
    = Ok ([([-5]%Z, 5); ([0]%Z, 4); ([27]%Z, 6); ([27; 91; 66]%Z, 3)], 0%Z).
Proof.
  eexists. split; [vm_compute; reflexivity|]. repeat (split; [vm_compute; reflexivity|]). vm_compute; reflexivity.
Qed.

(** C37: the predicted continuation of a command line is the greedy most
    probable one. *)
Theorem prediction_greedy : forall P padd pgt pge phalf neg iswblank ok (hist : list (list Z * P)),
  weights_ok padd pgt neg ok -> Forall (fun e => ok (snd e)) hist ->
  exists t, addall padd hist trie_create = Ok t /\
    forall skip, exists r, trie_probable_key P pgt pge phalf neg iswblank t skip = Ok r /\
      predicts padd pgt pge phalf iswblank hist skip r.
Proof.
  intros P padd pgt pge phalf neg iswblank ok hist HW F.
  destruct (addall_weight P padd hist) as (t & E & W & L). exists t. split; [auto|].
  intros skip.
  apply (probable_ok P padd pgt pge phalf neg iswblank ok HW hist skip t []); auto.
  - intros k w. rewrite L. eapply weight_ok; eauto.
  - intros k _. apply L.
Qed.
Print Assumptions prediction_greedy.

Lemma weight_In P (padd : P -> P -> P) hist pre w : weight padd hist pre = Some w ->
  exists k p, In (k, p) hist /\ starts_with pre k = true.
Proof.
  unfold weight. 
  assert (G : forall acc, fold_left (fun acc (e : list Z * P) =>
               if starts_with pre (fst e)
               then Some match acc with Some q => padd q (snd e) | None => snd e end
               else acc) hist acc = Some w -> acc = Some w \/ exists k p, In (k, p) hist /\ starts_with pre k = true).
  { induction hist as [|[k p] h IH]; cbn; [auto|]. intros acc H.
    destruct (starts_with pre k) eqn:E; [right; exists k, p; auto|].
    destruct (IH acc H) as [|(k' & p' & ? & ?)]; [auto|]. right. exists k', p'. auto. }
  intros H. destruct (G None H); [discriminate|auto].
Qed.

Lemma weight_None P (padd : P -> P -> P) hist pre : weight padd hist pre = None ->
  forall k p, In (k, p) hist -> starts_with pre k = false.
Proof.
  unfold weight. intros H k p I. destruct (starts_with pre k) eqn:E; auto. exfalso.
  assert (G : forall h acc, acc <> None -> fold_left (fun acc (e : list Z * P) =>
               if starts_with pre (fst e)
               then Some match acc with Some q => padd q (snd e) | None => snd e end
               else acc) h acc <> None).
  { induction h as [|[k' p'] h IH]; cbn; auto. intros acc A. apply IH. destruct (starts_with pre k'); [discriminate|auto]. }
  apply in_split in I as (h1 & h2 & ->). rewrite fold_left_app in H. cbn in H. rewrite E in H.
  eapply G; [|exact H]. discriminate.
Qed.

Lemma starts_with_app a b k : starts_with (a ++ b) k = true -> starts_with a k = true.
Proof.
  revert k. induction a as [|c a IH]; intros k; cbn; auto. destruct k; auto.
  intros [-> H]%andb_true_iff. cbn. eauto.
Qed.

(** C37: whatever is predicted completes the input to a prefix of a recorded
    command line: the prediction never makes commands up. *)
Theorem prediction_recorded : forall P padd pgt pge phalf iswblank (hist : list (list Z * P)) skip r,
  predicts padd pgt pge phalf iswblank hist skip r -> r <> [] ->
  exists k p, In (k, p) hist /\ starts_with (skip ++ r) k = true.
Proof.
  intros P padd pgt pge phalf iswblank hist skip r [[_ ->]|(c & w & _ & C)] N; [congruence|].
  induction C as [| |pre c' w' r B G C IH]; try congruence.
  destruct r as [|d r].
  - destruct B as [B _]. eapply weight_In; eauto.
  - destruct IH as (k & p & I & S); [discriminate|]. exists k, p. split; [auto|].
    rewrite <- app_assoc in S. exact S.
Qed.
Print Assumptions prediction_recorded.

(** C37: something is predicted whenever some recorded line continues the
    input, provided no weight is below its half. *)
Theorem prediction_nonempty : forall P padd pgt pge phalf neg iswblank ok (hist : list (list Z * P)) skip r,
  weights_ok padd pgt neg ok -> Forall (fun e => ok (snd e)) hist ->
  (forall w, ok w -> pge w (phalf w) = true) ->
  predicts padd pgt pge phalf iswblank hist skip r ->
  (exists k p c, In (k, p) hist /\ starts_with (skip ++ [c]) k = true) -> r <> [].
Proof.
  intros P padd pgt pge phalf neg iswblank ok hist skip r HW F Hh [[N ->]|(c & w & [B1 B2] & C)] (k & p & d & I & S) E.
  - pose proof (weight_None P padd hist _ (N d) k p I). congruence.
  - subst r. inversion C as [? N|? c' w' [B1' B2'] G1 G2|]; subst.
    + pose proof (weight_None P padd hist _ (N d) k p I). congruence.
    + assert (c' = c).
      { destruct (B2 _ _ B1') as [X1 X2]. destruct (B2' _ _ B1) as [Y1 Y2].
        destruct (Z.lt_trichotomy c c') as [L|[?|L]]; [|auto|].
        - rewrite (Y2 L) in X1. discriminate.
        - rewrite (X2 L) in Y1. discriminate. }
      subst c'. rewrite B1 in B1'. injection B1' as <-.
      rewrite Hh in G1; [discriminate|]. eapply weight_ok; eauto.
Qed.
Print Assumptions prediction_nonempty.

(** Rational weights satisfy the hypotheses. *)
Definition q_gt (a b : Q) : bool := negb (Qle_bool a b).
Definition q_ge (a b : Q) : bool := Qle_bool b a.
Definition q_half (a : Q) : Q := (a * (1 # 2))%Q.
Lemma q_gt_iff a b : q_gt a b = true <-> (b < a)%Q.
Proof.
  unfold q_gt. rewrite negb_true_iff. split.
  - intros H. apply Qnot_le_lt. intros L. apply Qle_bool_iff in L. congruence.
  - intros H. destruct (Qle_bool a b) eqn:E; auto. apply Qle_bool_iff in E.
    exfalso. apply (Qlt_not_le _ _ H E).
Qed.
Lemma q_gt_false a b : q_gt a b = false <-> (a <= b)%Q.
Proof. unfold q_gt. rewrite negb_false_iff, Qle_bool_iff. reflexivity. Qed.
Example q_weights_ok : weights_ok Qplus q_gt (-1)%Q (fun q => (0 < q)%Q).
Proof.
  constructor; intros *; rewrite ?q_gt_iff, ?q_gt_false.
  - intros A B. rewrite <- (Qplus_0_l 0). apply Qplus_lt_le_compat; auto. apply Qlt_le_weak; auto.
  - intros A. apply (Qlt_trans _ 0); [reflexivity|auto].
  - intros A. apply Qle_refl.
  - intros _ _ _ A B. apply (Qlt_trans _ b); auto.
  - intros _ _ _ A B. apply (Qle_trans _ b); auto.
Qed.
Definition ex_hist : list (list Z * Q) :=
  [([103; 105; 116; 32; 97], 1%Q); ([103; 105; 116; 32; 98], 1%Q); ([103; 112], (1#2)%Q); ([108; 115], 2%Q)]%Z.
Example ex_predict : exists t, addall Qplus ex_hist trie_create = Ok t /\
  trie_probable_key Q q_gt q_ge q_half (-1)%Q (fun c => (c =? 32)%Z) t [103]%Z = Ok [105; 116; 32; 97]%Z /\
  trie_probable_key Q q_gt q_ge q_half (-1)%Q (fun c => (c =? 32)%Z) t [108]%Z = Ok [115]%Z /\
  trie_probable_key Q q_gt q_ge q_half (-1)%Q (fun c => (c =? 32)%Z) t [109]%Z = Ok [].
Proof.
  eexists. split; [vm_compute; reflexivity|]. repeat (split; [vm_compute; reflexivity|]). vm_compute; reflexivity.
Qed.
