(** Proofs about the shell options. *)
From Coq Require Import Ascii String.
From Coq Require Import List NArith Bool Arith Lia.
From Verif Require Import Common OptModel OptSpec.
Import ListNotations.
Local Open Scope nat_scope.

Lemma after_prefix_some p : forall s r, after_prefix p s = Some r <-> s = p ++ r.
Proof.
  induction p as [|a p IH]; intros s r; cbn [after_prefix app].
  - split; intro H; [inversion H|subst]; reflexivity.
  - destruct s as [|b s]; [split; intro H; discriminate|].
    destruct (N.eqb_spec a b) as [->|N]; [rewrite IH; split; intro H; [subst|inversion H]; reflexivity|].
    split; intro H; [discriminate|inversion H; congruence].
Qed.
Lemma after_prefix_none p s : after_prefix p s = None -> forall r, s <> p ++ r.
Proof. intros H r E. apply after_prefix_some in E. congruence. Qed.

(** * Searching *)
Fixpoint exact_idx (n : list N) (t : list entry) (i : nat) : option nat :=
  match t with
  | [] => None
  | e :: t => if list_N_eqb n (o_name e) then Some i else exact_idx n t (S i)
  end.
Fixpoint partials (n : list N) (t : list entry) (i : nat) : list nat :=
  match t with
  | [] => []
  | e :: t => match after_prefix n (o_name e) with Some _ => [i] | None => [] end ++ partials n t (S i)
  end.
Lemma search_eq n : forall t i acc,
  search n t i acc = match exact_idx n t i with Some k => [k] | None => acc ++ partials n t i end.
Proof.
  induction t as [|e t IH]; intros i acc; cbn [search exact_idx partials]; [rewrite app_nil_r; reflexivity|].
  destruct (after_prefix n (o_name e)) as [[|c r]|] eqn:A.
  - apply after_prefix_some in A. rewrite app_nil_r in A. rewrite A, list_N_eqb_refl. reflexivity.
  - apply after_prefix_some in A. destruct (list_N_eqb n (o_name e)) eqn:Q.
    + apply list_N_eqb_eq in Q. rewrite <- Q in A. apply (f_equal (@length _)) in A. rewrite app_length in A. cbn in A. lia.
    + rewrite IH, <- app_assoc. reflexivity.
  - destruct (list_N_eqb n (o_name e)) eqn:Q.
    + apply list_N_eqb_eq in Q. exfalso. apply (after_prefix_none _ _ A []). rewrite app_nil_r. auto.
    + rewrite IH. reflexivity.
Qed.
Lemma exact_idx_some n : forall t i k, exact_idx n t i = Some k -> exists e, i <= k /\ nth_error t (k - i) = Some e /\ n = o_name e.
Proof.
  induction t as [|e t IH]; intros i k H; cbn [exact_idx] in H; [discriminate|].
  destruct (list_N_eqb n (o_name e)) eqn:Q.
  - inversion H; subst. exists e. rewrite Nat.sub_diag. split; [lia|]. split; [reflexivity|]. apply list_N_eqb_eq, Q.
  - destruct (IH (S i) k H) as (e' & A & B & C). exists e'. split; [lia|]. split; [|exact C].
    replace (k - i) with (S (k - S i)) by lia. exact B.
Qed.
Lemma exact_idx_none n : forall t i, exact_idx n t i = None -> forall e, In e t -> n <> o_name e.
Proof.
  induction t as [|e t IH]; intros i H e' E; [destruct E|]; destruct E as [E|E]; cbn [exact_idx] in H.
  - subst e'. destruct (list_N_eqb n (o_name e)) eqn:Q; [discriminate|]. apply list_N_eqb_neq, Q.
  - destruct (list_N_eqb n (o_name e)); [discriminate|]. apply (IH (S i) H e' E).
Qed.
Lemma partials_in n : forall t i k, In k (partials n t i) <-> exists e r, i <= k /\ nth_error t (k - i) = Some e /\ o_name e = n ++ r.
Proof.
  induction t as [|e t IH]; intros i k; cbn [partials].
  - split; [intros []|]. intros (e & r & _ & H & _). destruct (k - i); discriminate.
  - rewrite in_app_iff, IH. split.
    + intros [H|(e' & r & A & B & C)].
      * destruct (after_prefix n (o_name e)) as [r|] eqn:Q; [|destruct H]. destruct H as [<-|[]].
        apply after_prefix_some in Q. exists e, r. rewrite Nat.sub_diag. auto.
      * exists e', r. split; [lia|]. split; [|exact C]. replace (k - i) with (S (k - S i)) by lia. exact B.
    + intros (e' & r & A & B & C). destruct (Nat.eq_dec k i) as [->|N].
      * left. rewrite Nat.sub_diag in B. cbn in B. inversion B; subst e'. apply after_prefix_some in C. rewrite C. left. reflexivity.
      * right. exists e', r. split; [lia|]. split; [|exact C]. replace (k - i) with (S (k - S i)) in B by lia. exact B.
Qed.
Lemma partials_nodup n : forall t i, NoDup (partials n t i).
Proof.
  induction t as [|e t IH]; intros i; cbn [partials]; [constructor|].
  destruct (after_prefix n (o_name e)); cbn [app]; [|apply IH]. constructor; [|apply IH].
  intro H. apply partials_in in H. destruct H as (_ & _ & H & _). lia.
Qed.

(** [collect] on a normalized name *)
Definition collect_n (n : list N) : list nat * nat :=
  let a := search n table 0 [] in
  (match after_prefix (str "no") n with Some m => search m table 0 a | None => a end, length a).
Lemma collect_norm L n : collect L n = collect_n (normalize L n).
Proof. reflexivity. Qed.

(** Facts of the table *)
Definition each (f : nat -> entry -> bool) : bool :=
  forallb (fun i => match nth_error table i with Some e => f i e | None => true end) (seq 0 (length table)).
Lemma each_ok f : each f = true -> forall i e, nth_error table i = Some e -> f i e = true.
Proof.
  intros H i e E. unfold each in H. rewrite forallb_forall in H.
  specialize (H i). rewrite E in H. apply H. apply in_seq. assert (i < length table) by (apply nth_error_Some; congruence). lia.
Qed.
Definition pair_eqb (a b : list nat * nat) : bool :=
  match a, b with ([x], k), ([y], l) => (x =? y) && (k =? l) | _, _ => false end.
Lemma pair_eqb_eq a b : pair_eqb a b = true -> a = b.
Proof.
  destruct a as [[|x [|x' xs]] k], b as [[|y [|y' ys]] m]; cbn; try discriminate.
  intro H. apply andb_true_iff in H. destruct H as (A & B). apply Nat.eqb_eq in A, B. congruence.
Qed.
Lemma exact_plain o e : nth_error table o = Some e -> collect_n (o_name e) = ([o], 1).
Proof. intro E. apply pair_eqb_eq. revert o e E. apply (each_ok (fun o e => pair_eqb (collect_n (o_name e)) ([o], 1))). vm_compute. reflexivity. Qed.
Lemma exact_no o e : nth_error table o = Some e -> collect_n (str "no" ++ o_name e) = ([o], 0).
Proof. intro E. apply pair_eqb_eq. revert o e E. apply (each_ok (fun o e => pair_eqb (collect_n (str "no" ++ o_name e)) ([o], 0))). vm_compute. reflexivity. Qed.

Definition cands (n : list N) : list (nat * bool) :=
  map (fun o => (o, false)) (partials n table 0)
  ++ match after_prefix (str "no") n with Some m => map (fun o => (o, true)) (partials m table 0) | None => [] end.
Lemma cands_in n o neg : In (o, neg) (cands n) <-> abbreviates n o neg.
Proof.
  unfold cands, abbreviates, full_name. rewrite in_app_iff, in_map_iff. split.
  - intros [(x & E & H)|H].
    + inversion E; subst. apply partials_in in H. destruct H as (e & r & _ & B & C). rewrite Nat.sub_0_r in B.
      exists r. split; [exists e; split; [exact B|symmetry; exact C]|discriminate].
    + destruct (after_prefix (str "no") n) as [m|] eqn:Q; [|destruct H]. apply after_prefix_some in Q.
      apply in_map_iff in H. destruct H as (x & E & H). inversion E; subst o neg. apply partials_in in H. destruct H as (e & r & _ & B & C). rewrite Nat.sub_0_r in B.
      exists r. split; [exists e; split; [exact B|rewrite Q, C, <- app_assoc; reflexivity]|intros _; eauto].
  - intros (r & (e & B & C) & D). destruct neg.
    + right. destruct (D eq_refl) as (m & Q). subst n. rewrite (proj2 (after_prefix_some _ _ m) eq_refl).
      apply in_map_iff. exists o. split; [reflexivity|]. apply partials_in. exists e, r. split; [lia|]. rewrite Nat.sub_0_r. split; [exact B|].
      rewrite <- app_assoc in C. apply app_inv_head in C. symmetry. exact C.
    + left. exists o. split; [reflexivity|]. apply partials_in. exists e, r. split; [lia|]. rewrite Nat.sub_0_r. split; [exact B|symmetry; exact C].
Qed.
Lemma NoDup_map_inj {A B} (f : A -> B) l : (forall x y, f x = f y -> x = y) -> NoDup l -> NoDup (map f l).
Proof.
  intros I H. induction H as [|x l N H IH]; cbn; constructor; auto. intro Q. apply in_map_iff in Q. destruct Q as (y & E & Y). apply I in E. congruence.
Qed.
Lemma NoDup_app_disj {A} (l m : list A) : NoDup l -> NoDup m -> (forall x, In x l -> In x m -> False) -> NoDup (l ++ m).
Proof.
  intros H. induction H as [|x l N H IH]; intros M D; cbn; [exact M|]. constructor.
  - rewrite in_app_iff. intros [Q|Q]; [contradiction|]. apply (D x); [left; reflexivity|exact Q].
  - apply IH; [exact M|]. intros y Y1 Y2. apply (D y); [right; exact Y1|exact Y2].
Qed.
Lemma cands_nodup n : NoDup (cands n).
Proof.
  unfold cands. apply NoDup_app_disj.
  - apply NoDup_map_inj; [congruence|apply partials_nodup].
  - destruct (after_prefix (str "no") n) as [m|]; [|constructor]. apply NoDup_map_inj; [congruence|apply partials_nodup].
  - intros [o b] A B. apply in_map_iff in A. destruct A as (x & E & _). inversion E; subst.
    destruct (after_prefix (str "no") n) as [m|]; [|destruct B]. apply in_map_iff in B. destruct B as (y & F & _). discriminate.
Qed.

(** The name is not a full name. *)
Lemma collect_abbr n : (~ exists o neg, full_name o neg n) ->
  collect_n n = (map fst (cands n), length (partials n table 0)).
Proof.
  intro NF. unfold collect_n, cands.
  assert (E1 : exact_idx n table 0 = None).
  { destruct (exact_idx n table 0) as [k|] eqn:Q; [|reflexivity]. exfalso. apply NF.
    destruct (exact_idx_some _ _ _ _ Q) as (e & _ & A & B). rewrite Nat.sub_0_r in A. exists k, false, e. auto. }
  rewrite search_eq, E1. cbn [app]. f_equal.
  rewrite map_app, map_map. cbn [fst]. rewrite map_id.
  destruct (after_prefix (str "no") n) as [m|] eqn:P; [|rewrite app_nil_r; reflexivity].
  apply after_prefix_some in P.
  assert (E2 : exact_idx m table 0 = None).
  { destruct (exact_idx m table 0) as [k|] eqn:Q; [|reflexivity]. exfalso. apply NF.
    destruct (exact_idx_some _ _ _ _ Q) as (e & _ & A & B). rewrite Nat.sub_0_r in A. exists k, true, e. split; [exact A|]. rewrite P, B. reflexivity. }
  rewrite search_eq, E2, map_map. cbn [fst]. rewrite map_id. reflexivity.
Qed.
Lemma full_name_dec n : (exists o neg, full_name o neg n) \/ ~ exists o neg, full_name o neg n.
Proof.
  destruct (exact_idx n table 0) as [k|] eqn:Q.
  - left. destruct (exact_idx_some _ _ _ _ Q) as (e & _ & A & B). rewrite Nat.sub_0_r in A. exists k, false, e. auto.
  - pose proof (exact_idx_none _ _ _ Q) as X.
    destruct (after_prefix (str "no") n) as [m|] eqn:P.
    + apply after_prefix_some in P. destruct (exact_idx m table 0) as [k|] eqn:Q2.
      * left. destruct (exact_idx_some _ _ _ _ Q2) as (e & _ & A & B). rewrite Nat.sub_0_r in A. exists k, true, e. split; [exact A|]. rewrite P, B. reflexivity.
      * right. intros (o & [|] & e & A & B).
        -- rewrite P in B. apply app_inv_head in B. apply (exact_idx_none _ _ _ Q2 e); [eapply nth_error_In; eauto|exact B].
        -- apply (X e); [eapply nth_error_In; eauto|exact B].
    + right. intros (o & [|] & e & A & B).
      * apply (after_prefix_none _ _ P _ B).
      * apply (X e); [eapply nth_error_In; eauto|exact B].
Qed.
(** What [collect] gives *)
Lemma collect_full o neg n : full_name o neg n -> collect_n n = ([o], if neg then 0 else 1).
Proof. intros (e & A & ->). destruct neg; [apply exact_no, A|apply exact_plain, A]. Qed.
Lemma collect_meaning n o neg : meaning n o neg -> collect_n n = ([o], if neg then 0 else 1).
Proof.
  intros [F|(NF & A & U)]; [apply collect_full, F|]. rewrite (collect_abbr n NF).
  apply cands_in in A. assert (C : cands n = [(o, neg)]).
  { pose proof (cands_nodup n) as ND. destruct (cands n) as [|[o1 b1] l] eqn:E; [destruct A|].
    assert (o1 = o /\ b1 = neg) by (apply U, cands_in; rewrite E; left; reflexivity). destruct H; subst.
    destruct l as [|[o2 b2] l]; [reflexivity|]. exfalso.
    assert (o2 = o /\ b2 = neg) by (apply U, cands_in; rewrite E; right; left; reflexivity). destruct H; subst.
    inversion ND as [|? ? N _]. apply N. left. reflexivity. }
  rewrite C. cbn [map fst]. f_equal. unfold cands in C. destruct (partials n table 0) as [|x [|y l]] eqn:P.
  - cbn [map app] in C. destruct neg; [reflexivity|]. destruct (after_prefix (str "no") n) as [m|]; [|discriminate C].
    destruct (partials m table 0); discriminate C.
  - cbn [map app] in C. injection C as _ C1 _. subst neg. reflexivity.
  - cbn [map app] in C. discriminate C.
Qed.
Lemma collect_single n o k : collect_n n = ([o], k) -> exists neg, meaning n o neg /\ k = (if neg then 0 else 1).
Proof.
  intro E. destruct (full_name_dec n) as [(o' & neg & F)|NF].
  - pose proof (collect_full _ _ _ F) as E'. rewrite E in E'. inversion E'; subst. exists neg. split; [left; exact F|reflexivity].
  - rewrite (collect_abbr n NF) in E. inversion E as [[E1 E2]]. destruct (cands n) as [|[x neg] [|y l]] eqn:C; try discriminate. cbn in E1. inversion E1; subst x.
    assert (M : meaning n o neg).
    { right. split; [exact NF|]. split; [apply cands_in; rewrite C; left; reflexivity|].
      intros o' neg' H. apply cands_in in H. rewrite C in H. destruct H as [H|[]]. inversion H. auto. }
    exists neg. split; [exact M|]. pose proof (collect_meaning _ _ _ M) as X. rewrite (collect_abbr n NF) in X. congruence.
Qed.
Lemma collect_index n : snd (collect_n n) <= length (fst (collect_n n)).
Proof.
  destruct (full_name_dec n) as [(o & neg & F)|NF].
  - rewrite (collect_full _ _ _ F). destruct neg; cbn; lia.
  - rewrite (collect_abbr n NF). cbn [fst snd]. unfold cands. rewrite map_app, app_length, !map_length. lia.
Qed.

(** * Setting a named option *)
Lemma set_named_meaning L tty n o neg en st : meaning (normalize L n) o neg ->
  set_named L tty n en st = Some (set_option tty o (xorb neg en) st).
Proof.
  intro M. unfold set_named. rewrite collect_norm, (collect_meaning _ _ _ M). unfold handle. cbn [length Nat.add].
  destruct neg, en; reflexivity.
Qed.
Lemma set_named_invalid L tty n en st : (forall o neg, ~ meaning (normalize L n) o neg) -> set_named L tty n en st = Some (false, st).
Proof.
  intro NM. unfold set_named. rewrite collect_norm. pose proof (collect_index (normalize L n)) as LE.
  destruct (collect_n (normalize L n)) as [opts k] eqn:E. cbn [fst snd] in LE. unfold handle. rewrite Nat.add_0_r, Nat.leb_refl.
  destruct (Nat.leb_spec k (length opts)); [|lia]. cbn [andb]. destruct opts as [|o [|o' l]]; cbn [length]; try reflexivity.
  exfalso. destruct (collect_single _ _ _ E) as (neg & M & _). apply (NM _ _ M).
Qed.
Lemma meaning_dec n : (exists o neg, meaning n o neg) \/ forall o neg, ~ meaning n o neg.
Proof.
  destruct (collect_n n) as [[|o [|o' l]] k] eqn:E.
  - right. intros o neg M. apply collect_meaning in M. congruence.
  - left. destruct (collect_single _ _ _ E) as (neg & M & _). eauto.
  - right. intros x neg M. apply collect_meaning in M. congruence.
Qed.
Lemma meaning_table n o neg : meaning n o neg -> exists e, nth_error table o = Some e.
Proof. intros [(e & A & _)|(_ & (r & (e & A & _) & _) & _)]; eauto. Qed.

(** * The effect of setting an option *)
Definition partner (o : nat) : option nat :=
  if o =? i_vi then Some i_emacs else if o =? i_emacs then Some i_vi
  else if o =? i_yesconv then Some i_noconv else if o =? i_noconv then Some i_yesconv else None.
Definition blocked (tty : bool) (o : nat) (en : bool) : bool := (o =? i_monitor) && en && negb tty.
(** The value of an option afterwards *)
Definition new_val (tty : bool) (o : nat) (en : bool) (st : ost) (j : nat) : bool :=
  if j =? o then en && negb (blocked tty o en)
  else match partner o with Some p => if en && (j =? p) then false else val st j | None => val st j end.
Lemma set_option_val tty o en st e : nth_error table o = Some e -> o_reset e = true ->
  (forall j, val (snd (set_option tty o en st)) j = new_val tty o en st j)
  /\ params (snd (set_option tty o en st)) = params st
  /\ fst (set_option tty o en st) = negb (blocked tty o en).
Proof.
  intros E R. unfold set_option. rewrite E, R. cbn [negb snd fst].
  fold (blocked tty o en). unfold new_val, partner.
  assert (D : i_vi <> i_emacs /\ i_yesconv <> i_noconv /\ i_vi <> i_monitor /\ i_emacs <> i_monitor /\ i_yesconv <> i_monitor /\ i_noconv <> i_monitor)
    by (vm_compute; repeat split; discriminate).
  destruct D as (D1 & D2 & D3 & D4 & D5 & D6).
  assert (BL : blocked tty o en = true -> o = i_monitor /\ en = true).
  { unfold blocked. destruct (Nat.eqb_spec o i_monitor), en; cbn; auto; discriminate. }
  assert (NB : o <> i_monitor -> blocked tty o en = false).
  { unfold blocked. destruct (Nat.eqb_spec o i_monitor); [congruence|reflexivity]. }
  destruct (Nat.eqb_spec o i_vi) as [V|NV]; [|destruct (Nat.eqb_spec o i_emacs) as [M|NM]; [|destruct (Nat.eqb_spec o i_yesconv) as [Y|NY]; [|destruct (Nat.eqb_spec o i_noconv) as [C|NC]]]].
  1-4: rewrite NB by congruence.
  1-4: repeat split; [intro j| |]; destruct en; cbn [val set_val update_lineedit update_convmeta params andb negb]; try reflexivity;
       repeat match goal with |- context [?a =? ?b] => destruct (Nat.eqb_spec a b) end; cbn; congruence.
  repeat split; [intro j| |]; destruct (blocked tty o en) eqn:B; cbn [val set_val params andb negb]; try reflexivity.
  - destruct (BL eq_refl) as [_ ->]. destruct (Nat.eqb_spec j o); reflexivity.
  - destruct (Nat.eqb_spec j o); [destruct en|]; reflexivity.
  - destruct (BL eq_refl) as [_ ->]. rewrite Nat.eqb_refl. reflexivity.
  - rewrite Nat.eqb_refl. destruct en; reflexivity.
Qed.

(** A state is consistent if what is derived from the options is. *)
Lemma set_option_wf tty o en st : wf st -> wf (snd (set_option tty o en st)).
Proof.
  intros W. destruct (nth_error table o) as [e|] eqn:E; [|unfold set_option; rewrite E; exact W].
  destruct (o_reset e) eqn:R; [|unfold set_option; rewrite E, R; exact W].
  destruct (set_option_val tty o en st e E R) as (V & _ & _).
  destruct W as [W1 W2 W3 W4].
  assert (D : i_vi <> i_emacs /\ i_yesconv <> i_noconv /\ i_vi <> i_monitor /\ i_emacs <> i_monitor /\ i_yesconv <> i_monitor /\ i_noconv <> i_monitor
     /\ i_vi <> i_yesconv /\ i_vi <> i_noconv /\ i_emacs <> i_yesconv /\ i_emacs <> i_noconv)
    by (vm_compute; repeat split; discriminate).
  destruct D as (D1 & D2 & D3 & D4 & D5 & D6 & D7 & D8 & D9 & D10).
  unfold new_val, partner in V.
  assert (NB : o <> i_monitor -> blocked tty o en = false).
  { unfold blocked. destruct (Nat.eqb_spec o i_monitor); [congruence|reflexivity]. }
  constructor; rewrite ?V; clear V.
  - unfold set_option. rewrite E, R. cbn [negb snd]. fold (blocked tty o en).
    destruct (Nat.eqb_spec o i_vi) as [H|N]; [subst o|destruct (Nat.eqb_spec o i_emacs) as [H|N2]; [subst o|]].
    + rewrite NB by auto. destruct en; cbn [update_lineedit lineedit val set_val andb]; rewrite ?Nat.eqb_refl;
      repeat match goal with |- context [?a =? ?b] => destruct (Nat.eqb_spec a b); try congruence end; cbn [andb negb]; reflexivity.
    + rewrite NB by auto. destruct en; cbn [update_lineedit lineedit val set_val andb]; rewrite ?Nat.eqb_refl;
      repeat match goal with |- context [?a =? ?b] => destruct (Nat.eqb_spec a b); try congruence end; cbn [andb negb]; try reflexivity.
    + destruct (Nat.eqb_spec i_vi o); [congruence|]. destruct (Nat.eqb_spec i_emacs o); [congruence|].
      destruct (blocked tty o en), (Nat.eqb_spec o i_yesconv), (Nat.eqb_spec o i_noconv), en; cbn [update_convmeta lineedit set_val andb];
      repeat match goal with |- context [?a =? ?b] => destruct (Nat.eqb_spec a b); try congruence end; exact W1.
  - destruct (Nat.eqb_spec o i_vi) as [H|N]; [subst o|destruct (Nat.eqb_spec o i_emacs) as [H|N2]; [subst o|]].
    + rewrite Nat.eqb_refl. destruct (Nat.eqb_spec i_emacs i_vi); [congruence|]. rewrite Nat.eqb_refl. destruct en; cbn [andb]; [apply andb_false_r|reflexivity].
    + rewrite Nat.eqb_refl. destruct (Nat.eqb_spec i_vi i_emacs); [congruence|]. rewrite Nat.eqb_refl. destruct en; cbn [andb]; [reflexivity|apply andb_false_r].
    + destruct (Nat.eqb_spec i_vi o); [congruence|]. destruct (Nat.eqb_spec i_emacs o); [congruence|].
      destruct (Nat.eqb_spec o i_yesconv), (Nat.eqb_spec o i_noconv), en; cbn [andb];
      repeat match goal with |- context [?a =? ?b] => destruct (Nat.eqb_spec a b); try congruence end; exact W2.
  - unfold set_option. rewrite E, R. cbn [negb snd]. fold (blocked tty o en).
    destruct (Nat.eqb_spec o i_yesconv) as [H|N]; [subst o|destruct (Nat.eqb_spec o i_noconv) as [H|N2]; [subst o|]].
    + rewrite NB by auto. destruct (Nat.eqb_spec i_yesconv i_vi); [congruence|]. destruct (Nat.eqb_spec i_yesconv i_emacs); [congruence|].
      destruct en; cbn [update_convmeta convmeta val set_val andb]; rewrite ?Nat.eqb_refl;
      repeat match goal with |- context [?a =? ?b] => destruct (Nat.eqb_spec a b); try congruence end; cbn [andb negb]; reflexivity.
    + rewrite NB by auto. destruct (Nat.eqb_spec i_noconv i_vi); [congruence|]. destruct (Nat.eqb_spec i_noconv i_emacs); [congruence|].
      destruct (Nat.eqb_spec i_noconv i_yesconv); [congruence|].
      destruct en; cbn [update_convmeta convmeta val set_val andb]; rewrite ?Nat.eqb_refl;
      repeat match goal with |- context [?a =? ?b] => destruct (Nat.eqb_spec a b); try congruence end; cbn [andb negb]; try reflexivity.
    + destruct (Nat.eqb_spec i_yesconv o); [congruence|]. destruct (Nat.eqb_spec i_noconv o); [congruence|].
      destruct (blocked tty o en), (Nat.eqb_spec o i_vi), (Nat.eqb_spec o i_emacs), en; cbn [update_lineedit convmeta set_val andb];
      repeat match goal with |- context [?a =? ?b] => destruct (Nat.eqb_spec a b); try congruence end; exact W3.
  - destruct (Nat.eqb_spec o i_yesconv) as [H|N]; [subst o|destruct (Nat.eqb_spec o i_noconv) as [H|N2]; [subst o|]].
    + rewrite NB by auto. rewrite Nat.eqb_refl. destruct (Nat.eqb_spec i_yesconv i_vi); [congruence|]. destruct (Nat.eqb_spec i_yesconv i_emacs); [congruence|].
      destruct (Nat.eqb_spec i_noconv i_yesconv); [congruence|]. rewrite Nat.eqb_refl. destruct en; cbn [andb]; [apply andb_false_r|reflexivity].
    + rewrite NB by auto. rewrite Nat.eqb_refl. destruct (Nat.eqb_spec i_noconv i_vi); [congruence|]. destruct (Nat.eqb_spec i_noconv i_emacs); [congruence|].
      destruct (Nat.eqb_spec i_noconv i_yesconv); [congruence|]. destruct (Nat.eqb_spec i_yesconv i_noconv); [congruence|].
      rewrite Nat.eqb_refl. destruct en; cbn [andb]; [reflexivity|apply andb_false_r].
    + destruct (Nat.eqb_spec i_yesconv o); [congruence|]. destruct (Nat.eqb_spec i_noconv o); [congruence|].
      destruct (Nat.eqb_spec o i_vi), (Nat.eqb_spec o i_emacs), en; cbn [andb];
      repeat match goal with |- context [?a =? ?b] => destruct (Nat.eqb_spec a b); try congruence end; exact W4.
Qed.
Lemma set_option_params tty o en st : params (snd (set_option tty o en st)) = params st.
Proof.
  destruct (nth_error table o) as [e|] eqn:E; [|unfold set_option; rewrite E; reflexivity].
  destruct (o_reset e) eqn:R; [|unfold set_option; rewrite E, R; reflexivity].
  apply (set_option_val tty o en st e E R).
Qed.

(** * Restoring the options *)
Lemma set_cmd_o L tty n (en : bool) st : set_cmd L tty [if en then str "-o" else str "+o"; n] st = set_named L tty n en st.
Proof.
  unfold set_cmd. destruct en.
  - cbn -[set_named]. destruct (set_named L tty n true st) as [[[|] st']|]; reflexivity.
  - cbn -[set_named]. destruct (set_named L tty n false st) as [[[|] st']|]; reflexivity.
Qed.
Lemma normalize_lower L n : nl_ok L -> forallb ascii_lowercase n = true -> normalize L n = n.
Proof.
  intros OK. induction n as [|c n IH]; intro H; [reflexivity|]. cbn in H. apply andb_true_iff in H. destruct H as (A & B).
  destruct (nl_lower L OK c A) as (C & D). unfold normalize in *. cbn [filter]. rewrite C. cbn [map]. rewrite D, IH; auto.
Qed.
Lemma names_lower o e : nth_error table o = Some e -> forallb ascii_lowercase (o_name e) = true.
Proof. apply (each_ok (fun o e => forallb ascii_lowercase (o_name e))). vm_compute. reflexivity. Qed.
Lemma set_named_full L tty o e en st : nl_ok L -> nth_error table o = Some e -> set_named L tty (o_name e) en st = Some (set_option tty o en st).
Proof.
  intros OK E. rewrite (set_named_meaning L tty (o_name e) o false en st).
  - destruct en; reflexivity.
  - rewrite normalize_lower; [|exact OK|apply (names_lower _ _ E)]. left. exists e. auto.
Qed.

Lemma nth_skipn {A} (l : list A) : forall i x r, skipn i l = x :: r -> nth_error l i = Some x /\ skipn (S i) l = r.
Proof.
  induction l as [|a l IH]; intros [|i] x r H; cbn in H; try discriminate.
  - inversion H. auto.
  - apply IH in H. exact H.
Qed.
Definition args_of (st : ost) (i : nat) (e : entry) : list (list N) := [if val st i then str "-o" else str "+o"; o_name e].
Lemma partner_excl S o p : wf S -> partner o = Some p -> val S o = true -> val S p = false.
Proof.
  intros [_ W2 _ W4] H V. unfold partner in H.
  destruct (Nat.eqb_spec o i_vi); [subst; inversion H; subst; rewrite V in W2; exact W2|].
  destruct (Nat.eqb_spec o i_emacs); [subst; inversion H; subst; rewrite V, andb_true_r in W2; exact W2|].
  destruct (Nat.eqb_spec o i_yesconv); [subst; inversion H; subst; rewrite V in W4; exact W4|].
  destruct (Nat.eqb_spec o i_noconv); [subst; inversion H; subst; rewrite V, andb_true_r in W4; exact W4|discriminate].
Qed.
Lemma partner_resettable o p : partner o = Some p -> resettable p.
Proof.
  assert (A : forallb (fun o => match nth_error table o with Some e => o_reset e | None => false end) [i_vi; i_emacs; i_yesconv; i_noconv] = true) by (vm_compute; reflexivity).
  rewrite forallb_forall in A.
  assert (B : forall x, In x [i_vi; i_emacs; i_yesconv; i_noconv] -> resettable x).
  { intros x X. specialize (A x X). destruct (nth_error table x) as [e|] eqn:E; [exists e; auto|discriminate]. }
  unfold partner. intro H.
  destruct (o =? i_vi); [inversion H; subst; apply B; cbn [In]; tauto|].
  destruct (o =? i_emacs); [inversion H; subst; apply B; cbn [In]; tauto|].
  destruct (o =? i_yesconv); [inversion H; subst; apply B; cbn [In]; tauto|].
  destruct (o =? i_noconv); [inversion H; subst; apply B; cbn [In]; tauto|discriminate].
Qed.
Lemma restoring_ok L tty S : nl_ok L -> wf S -> (tty = true \/ val S i_monitor = false) ->
  forall t i T, skipn i table = t -> wf T ->
  (forall j, j < i -> resettable j -> val T j = val S j) ->
  exists T', run_script L tty (map (cons (str "set")) (restoring t i S)) T = Some (true, T')
    /\ wf T' /\ params T' = params T
    /\ (forall j, resettable j -> val T' j = val S j)
    /\ (forall j, ~ resettable j -> val T' j = val T j).
Proof.
  intros OK WS MO. induction t as [|e t IH]; intros i T SK WT INV.
  - exists T. cbn. split; [reflexivity|]. split; [exact WT|]. split; [reflexivity|]. split; [|auto].
    intros j R. apply INV; [|exact R]. destruct R as (e & E & _). assert (j < length table) by (apply nth_error_Some; congruence).
    apply (f_equal (@length _)) in SK. rewrite skipn_length in SK. change (length (@nil entry)) with 0 in SK. lia.
  - destruct (nth_skipn _ _ _ _ SK) as (E & SK'). cbn [restoring]. destruct (o_reset e) eqn:R; cbn [app map].
    + cbn [run_script]. rewrite list_N_eqb_refl, set_cmd_o, (set_named_full _ _ i) by assumption.
      destruct (set_option_val tty i (val S i) T e E R) as (V & P & F).
      pose proof (set_option_wf tty i (val S i) T WT) as W1.
      assert (B : blocked tty i (val S i) = false).
      { unfold blocked. destruct (Nat.eqb_spec i i_monitor) as [->|]; [|reflexivity]. destruct MO as [->| ->]; [apply andb_false_r|reflexivity]. }
      rewrite B in F. destruct (set_option tty i (val S i) T) as [b T1]. cbn [fst snd] in *. subst b. cbn [negb].
      destruct (IH (Datatypes.S i) T1 SK' W1) as (T' & A1 & A2 & A3 & A4 & A5).
      { intros j J RJ. rewrite V. unfold new_val. rewrite B. destruct (Nat.eqb_spec j i) as [->|NJ]; [apply andb_true_r|].
        assert (J' : j < i) by lia. destruct (partner i) as [p|] eqn:PA; [|apply INV; assumption].
        destruct (val S i) eqn:VI; cbn [andb]; [|apply INV; assumption].
        destruct (Nat.eqb_spec j p) as [->|]; [|apply INV; assumption]. symmetry. apply (partner_excl S i p WS PA VI). }
      exists T'. split; [exact A1|]. split; [exact A2|]. split; [congruence|]. split; [exact A4|].
      intros j NR. rewrite A5 by exact NR. rewrite V. unfold new_val.
      destruct (Nat.eqb_spec j i) as [->|]; [exfalso; apply NR; exists e; auto|].
      destruct (partner i) as [p|] eqn:PA; [|reflexivity]. destruct (val S i && (j =? p)) eqn:Q; [|reflexivity].
      apply andb_true_iff in Q. destruct Q as (_ & Q). apply Nat.eqb_eq in Q. subst. exfalso. apply NR, (partner_resettable _ _ PA).
    + apply (IH (Datatypes.S i) T SK' WT). intros j J RJ. destruct (Nat.eq_dec j i) as [->|]; [|apply INV; [lia|exact RJ]].
      destruct RJ as (e' & E' & R'). congruence.
Qed.

Lemma split_on_app c a : ~ In c a -> forall b, split_on c (a ++ c :: b) = a :: split_on c b.
Proof.
  induction a as [|d a IH]; intros N b; cbn [app split_on]; [rewrite N.eqb_refl; reflexivity|].
  destruct (N.eqb_spec d c) as [->|]; [exfalso; apply N; left; reflexivity|]. rewrite IH; [reflexivity|].
  intro H. apply N. right. exact H.
Qed.
Lemma split_on_none c a : ~ In c a -> split_on c a = [a].
Proof.
  induction a as [|d a IH]; intros N; cbn [split_on]; [reflexivity|].
  destruct (N.eqb_spec d c) as [->|]; [exfalso; apply N; left; reflexivity|]. rewrite IH; [reflexivity|].
  intro H. apply N. right. exact H.
Qed.
Lemma split_on_ne c s : split_on c s <> [].
Proof. destruct s as [|d s]; cbn; [discriminate|]. destruct (d =? c)%N; [discriminate|]. destruct (split_on c s); discriminate. Qed.
Lemma lower_notin c n : ascii_lowercase c = false -> forallb ascii_lowercase n = true -> ~ In c n.
Proof. intros A B H. rewrite forallb_forall in B. specialize (B c H). congruence. Qed.
Lemma restoring_words S : forall t i, skipn i table = t ->
  script_cmds (concat (map (fun a => str "set" ++ concat (map (fun w => ch " " :: w) a) ++ [10%N]) (restoring t i S)))
  = map (cons (str "set")) (restoring t i S).
Proof.
  induction t as [|e t IH]; intros i SK; [reflexivity|].
  destruct (nth_skipn _ _ _ _ SK) as (E & SK'). cbn [restoring]. destruct (o_reset e); cbn [app]; [|apply (IH (Datatypes.S i) SK')].
  cbn [map concat]. rewrite app_nil_r. unfold script_cmds in *.
  pose proof (names_lower _ _ E) as NL.
  set (sg := if val S i then str "-o" else str "+o").
  assert (SG : ~ In (ch " ") sg /\ ~ In 10%N sg) by (subst sg; destruct (val S i); split; intro H; vm_compute in H; intuition discriminate).
  destruct SG as (SG1 & SG2).
  assert (N1 : ~ In (ch " ") (o_name e)) by (apply lower_notin; [reflexivity|exact NL]).
  assert (N2 : ~ In 10%N (o_name e)) by (apply lower_notin; [reflexivity|exact NL]).
  match goal with |- context [split_on 10%N ((str "set" ++ ?x ++ [10%N]) ++ ?y)] =>
    replace ((str "set" ++ x ++ [10%N]) ++ y) with ((str "set" ++ ch " " :: sg ++ ch " " :: o_name e) ++ 10%N :: y) by (do 4 (rewrite <- ?app_assoc; cbn [app]); reflexivity) end.
  rewrite split_on_app.
  - match goal with |- context [removelast (?w :: split_on 10%N ?y)] => destruct (split_on 10%N y) as [|w' ws] eqn:Q; [exfalso; apply (split_on_ne _ _ Q)|] end.
    change (removelast ((str "set" ++ ch " " :: sg ++ ch " " :: o_name e) :: w' :: ws)) with ((str "set" ++ ch " " :: sg ++ ch " " :: o_name e) :: removelast (w' :: ws)).
    cbn [map]. rewrite <- Q, (IH (Datatypes.S i) SK'). f_equal.
    rewrite split_on_app by (intro H; vm_compute in H; intuition discriminate).
    rewrite split_on_app by exact SG1. rewrite split_on_none by exact N1. reflexivity.
  - rewrite in_app_iff. intros [H|[H|H]]; [vm_compute in H; intuition discriminate|discriminate|].
    apply in_app_iff in H. destruct H as [H|[H|H]]; [contradiction|discriminate|contradiction].
Qed.

(** * Letters *)
Fixpoint find_char (c : N) (t : list entry) (i : nat) : option (nat * bool) :=
  match t with
  | [] => None
  | e :: t => if (c =? o_en e)%N then Some (i, true) else if (c =? o_dis e)%N then Some (i, false) else find_char c t (S i)
  end.
Lemma parse_char_find tty c en st : forall t i,
  parse_char tty c en t i st = match find_char c t i with Some (o, p) => set_option tty o (if p then en else negb en) st | None => (false, st) end.
Proof.
  induction t as [|e t IH]; intro i; cbn [parse_char find_char]; [reflexivity|].
  destruct (c =? o_en e)%N; [reflexivity|]. destruct (c =? o_dis e)%N; [reflexivity|]. apply IH.
Qed.
Definition letter_ok (c : N) (o : nat) (p : bool) : bool :=
  (c =? 0)%N || (negb (c =? ch "o")%N && negb (c =? ch "-")%N && negb (c =? ch "+")%N
    && match find_char c table 0 with Some (o', p') => (o =? o')%nat && Bool.eqb p p' | None => false end
    && match partner o with None => true | Some _ => false end).
Lemma letters_table o e : nth_error table o = Some e -> letter_ok (o_en e) o true && letter_ok (o_dis e) o false = true.
Proof. apply (each_ok (fun o e => letter_ok (o_en e) o true && letter_ok (o_dis e) o false)). vm_compute. reflexivity. Qed.
Lemma letter_facts c o p : letter_of c o p ->
  c <> ch "o" /\ c <> ch "-" /\ c <> ch "+" /\ find_char c table 0 = Some (o, p) /\ partner o = None.
Proof.
  intros (e & E & NZ & C). pose proof (letters_table o e E) as H. apply andb_true_iff in H. destruct H as (H1 & H2).
  assert (H : letter_ok c o p = true) by (destruct p; subst c; assumption). clear H1 H2. unfold letter_ok in H.
  destruct (N.eqb_spec c 0) as [->|_]; [congruence|]. cbn [orb] in H.
  repeat (apply andb_true_iff in H; destruct H as (H & ?)).
  repeat match goal with X : negb (?a =? ?b)%N = true |- _ => apply negb_true_iff, N.eqb_neq in X end.
  destruct (find_char c table 0) as [[o' p']|]; [|discriminate].
  match goal with X : (o =? o') && _ = true |- _ => apply andb_true_iff in X; destruct X as (X1 & X2); apply Nat.eqb_eq in X1; apply eqb_prop in X2 end. subst.
  destruct (partner o'); [discriminate|]. auto.
Qed.
Lemma letter_unique c o p o' p' : letter_of c o p -> letter_of c o' p' -> o = o' /\ p = p'.
Proof.
  intros A B. apply letter_facts in A, B. destruct A as (_ & _ & _ & A & _), B as (_ & _ & _ & B & _). rewrite A in B. inversion B. auto.
Qed.
Lemma hyphen_in c st : forall t i, In c (hyphen t i st) <->
  exists (k : nat) (e : entry) (p : bool), nth_error t k = Some e /\ c <> 0%N /\ c = (if p then o_en e else o_dis e) /\ val st (i + k) = p.
Proof.
  induction t as [|e t IH]; intro i; cbn [hyphen].
  - split; [intros []|]. intros (k & e & p & H & _). destruct k; discriminate.
  - rewrite !in_app_iff, IH. split.
    + intros [H|[H|(k & e' & p & A & B)]].
      * destruct (N.eqb_spec (o_en e) 0), (val st i) eqn:V; cbn in H; try contradiction. destruct H as [<-|[]].
        exists 0, e, true. rewrite Nat.add_0_r. auto.
      * destruct (N.eqb_spec (o_dis e) 0), (val st i) eqn:V; cbn in H; try contradiction. destruct H as [<-|[]].
        exists 0, e, false. rewrite Nat.add_0_r. auto.
      * exists (S k), e', p. rewrite <- Nat.add_succ_comm. auto.
    + intros (k & e' & p & A & B & C & D). destruct k as [|k].
      * cbn in A. inversion A; subst e'. rewrite Nat.add_0_r in D. destruct p; rewrite D.
        -- left. rewrite <- C. destruct (N.eqb_spec c 0); [contradiction|]. left. auto.
        -- right. left. rewrite <- C. destruct (N.eqb_spec c 0); [contradiction|]. left. auto.
      * right. right. exists k, e', p. rewrite Nat.add_succ_comm. auto.
Qed.
Lemma hyphen_param_in c st : In c (hyphen_param st) <-> exists o p, letter_of c o p /\ val st o = p.
Proof.
  unfold hyphen_param. rewrite hyphen_in. cbn [Nat.add]. split.
  - intros (k & e & p & A & B & C & D). exists k, p. split; [exists e; auto|exact D].
  - intros (o & p & (e & A & B & C) & D). exists o, e, p. auto.
Qed.
Lemma parse_char_letter tty c en st : settable tty c ->
  exists st', parse_char tty c en table 0 st = (true, st') /\ (wf st -> wf st') /\ params st' = params st
   /\ forall c', In c' (hyphen_param st') <-> if en then c' = c \/ In c' (hyphen_param st) else c' <> c /\ In c' (hyphen_param st).
Proof.
  intros (o & p & LO & (e & E & R) & M). destruct (letter_facts _ _ _ LO) as (_ & _ & _ & F & P).
  rewrite parse_char_find, F. destruct (set_option_val tty o (if p then en else negb en) st e E R) as (V & PA & FS).
  pose proof (set_option_wf tty o (if p then en else negb en) st) as W.
  assert (B : blocked tty o (if p then en else negb en) = false).
  { unfold blocked. destruct (Nat.eqb_spec o i_monitor) as [->|]; [|reflexivity]. rewrite (M eq_refl). apply andb_false_r. }
  rewrite B in FS. destruct (set_option tty o (if p then en else negb en) st) as [b st']. cbn [fst snd negb] in *. subst b.
  exists st'. split; [reflexivity|]. split; [exact W|]. split; [exact PA|]. intro c'.
  unfold new_val in V. rewrite P, B in V. cbn [negb] in V. rewrite andb_true_r in V.
  rewrite (hyphen_param_in c' st'). setoid_rewrite V. split.
  - intros (o' & p' & LO' & V'). destruct (Nat.eqb_spec o' o) as [->|N].
    + destruct (N.eq_dec c' c) as [->|NC].
      * destruct (letter_unique _ _ _ _ _ LO LO') as (_ & <-). destruct en; [left; reflexivity|]. destruct p; discriminate.
      * exfalso. destruct LO as (e1 & E1 & Z1 & C1), LO' as (e2 & E2 & Z2 & C2).
        assert (e2 = e1) by congruence. subst e2.
        pose proof (each_ok (fun _ e => (o_en e =? 0)%N || (o_dis e =? 0)%N) ltac:(vm_compute; reflexivity) _ _ E1) as Q. cbn in Q.
        apply orb_true_iff in Q. rewrite !N.eqb_eq in Q. destruct p, p', Q; congruence.
    + assert (c' <> c). { intros ->. destruct (letter_unique _ _ _ _ _ LO LO'). congruence. }
      destruct en; [right|split; [assumption|]]; apply hyphen_param_in; exists o', p'; auto.
  - destruct en.
    + intros [->|HI]; [|apply hyphen_param_in in HI; destruct HI as (o' & p' & LO' & V')].
      * exists o, p. split; [exact LO|]. rewrite Nat.eqb_refl. destruct p; reflexivity.
      * exists o', p'. split; [exact LO'|]. destruct (Nat.eqb_spec o' o) as [->|]; [|exact V'].
        destruct LO as (e1 & E1 & Z1 & C1), LO' as (e2 & E2 & Z2 & C2).
        assert (e2 = e1) by congruence. subst e2.
        pose proof (each_ok (fun _ e => (o_en e =? 0)%N || (o_dis e =? 0)%N) ltac:(vm_compute; reflexivity) _ _ E1) as Q. cbn in Q.
        apply orb_true_iff in Q. rewrite !N.eqb_eq in Q. destruct p, p', Q; try congruence; reflexivity.
    + intros (NC & HI). apply hyphen_param_in in HI. destruct HI as (o' & p' & LO' & V'). exists o', p'. split; [exact LO'|]. destruct (Nat.eqb_spec o' o) as [->|]; [|exact V']. exfalso.
      destruct LO as (e1 & E1 & Z1 & C1), LO' as (e2 & E2 & Z2 & C2).
      assert (e2 = e1) by congruence. subst e2.
      pose proof (each_ok (fun _ e => (o_en e =? 0)%N || (o_dis e =? 0)%N) ltac:(vm_compute; reflexivity) _ _ E1) as Q. cbn in Q.
      apply orb_true_iff in Q. rewrite !N.eqb_eq in Q. destruct p, p', Q; congruence.
Qed.
Lemma parse_short_letters L tty en rest : forall cs st, Forall (settable tty) cs ->
  exists st', parse_short L tty cs en rest st = Some (true, rest, st') /\ (wf st -> wf st') /\ params st' = params st
   /\ forall c', In c' (hyphen_param st') <-> if en then In c' cs \/ In c' (hyphen_param st) else ~ In c' cs /\ In c' (hyphen_param st).
Proof.
  induction cs as [|c cs IH]; intros st F.
  - exists st. split; [reflexivity|]. split; [auto|]. split; [reflexivity|]. intro c'. destruct en; cbn [In]; tauto.
  - inversion F as [|? ? S1 F1]; subst. cbn [parse_short].
    assert (NO : (c =? ch "o")%N = false). { destruct S1 as (o & p & LO & _). apply letter_facts in LO. apply N.eqb_neq. tauto. }
    rewrite NO. destruct (parse_char_letter tty c en st S1) as (st1 & P & W & PA & H). rewrite P.
    destruct (IH st1 F1) as (st2 & P2 & W2 & PA2 & H2). exists st2. split; [exact P2|]. split; [auto|]. split; [congruence|].
    intro c'. rewrite H2. destruct en; rewrite H; cbn [In]; split; intros; intuition (subst; tauto || auto).
Qed.

(** * Parsing never fails an assertion *)
(** What an option may change: consistent options stay consistent, the parameters are kept,
    and so are the options that cannot be reset. *)
Definition keeps (st st' : ost) : Prop :=
  (wf st -> wf st') /\ params st' = params st /\ forall j, ~ resettable j -> val st' j = val st j.
Lemma keeps_refl st : keeps st st. Proof. split; [auto|]. split; auto. Qed.
Lemma keeps_trans a b c : keeps a b -> keeps b c -> keeps a c.
Proof. intros (A1 & A2 & A3) (B1 & B2 & B3). split; [auto|]. split; [congruence|]. intros j J. rewrite B3, A3; auto. Qed.
Lemma set_option_keeps tty o en st : keeps st (snd (set_option tty o en st)).
Proof.
  split; [apply set_option_wf|]. split; [apply set_option_params|]. intros j NR.
  destruct (nth_error table o) as [e|] eqn:E; [|unfold set_option; rewrite E; reflexivity].
  destruct (o_reset e) eqn:R; [|unfold set_option; rewrite E, R; reflexivity].
  destruct (set_option_val tty o en st e E R) as (V & _). rewrite V. unfold new_val.
  destruct (Nat.eqb_spec j o) as [->|]; [exfalso; apply NR; exists e; auto|].
  destruct (partner o) as [p|] eqn:PA; [|reflexivity]. destruct (en && (j =? p)) eqn:Q; [|reflexivity].
  apply andb_true_iff in Q. destruct Q as (_ & Q). apply Nat.eqb_eq in Q. subst. exfalso. apply NR, (partner_resettable _ _ PA).
Qed.
Lemma set_named_total L tty n en st : exists b st', set_named L tty n en st = Some (b, st') /\ keeps st st'.
Proof.
  destruct (meaning_dec (normalize L n)) as [(o & neg & M)|NM].
  - rewrite (set_named_meaning _ _ _ _ _ _ _ M). pose proof (set_option_keeps tty o (xorb neg en) st) as K.
    destruct (set_option tty o (xorb neg en) st) as [b st']. eauto.
  - rewrite (set_named_invalid _ _ _ _ _ NM). exists false, st. split; [reflexivity|apply keeps_refl].
Qed.
Lemma parse_char_keeps tty c en st : keeps st (snd (parse_char tty c en table 0 st)).
Proof. rewrite parse_char_find. destruct (find_char c table 0) as [[o p]|]; [apply set_option_keeps|apply keeps_refl]. Qed.
Lemma parse_short_total L tty en : forall cs rest st,
  exists b pre rest' st', parse_short L tty cs en rest st = Some (b, rest', st') /\ keeps st st' /\ rest = pre ++ rest'.
Proof.
  induction cs as [|c cs IH]; intros rest st; cbn [parse_short].
  - exists true, [], rest, st. split; [reflexivity|]. split; [apply keeps_refl|reflexivity].
  - destruct (c =? ch "o")%N.
    + destruct cs as [|d cs].
      * destruct rest as [|n rest]; [exists false, [], [], st; split; [reflexivity|]; split; [apply keeps_refl|reflexivity]|].
        destruct (set_named_total L tty n en st) as (b & st' & -> & K). exists b, [n], rest, st'. auto.
      * destruct (set_named_total L tty (d :: cs) en st) as (b & st' & -> & K). exists b, [], rest, st'. auto.
    + pose proof (parse_char_keeps tty c en st) as K. destruct (parse_char tty c en table 0 st) as [[|] st1]; cbn [snd] in K.
      * destruct (IH rest st1) as (b & pre & rest' & st' & E & K' & P). exists b, pre, rest', st'. split; [exact E|]. split; [eapply keeps_trans; eauto|exact P].
      * exists false, [], rest, st1. auto.
Qed.
Lemma no_help n : exact_idx (str "help" ++ n) table 0 = None /\ partials (str "help" ++ n) table 0 = [].
Proof.
  assert (F : forall i e r, nth_error table i = Some e -> o_name e <> str "help" ++ r).
  { intros i e r E Q. pose proof (each_ok (fun _ e => match after_prefix (str "help") (o_name e) with None => true | _ => false end) ltac:(vm_compute; reflexivity) _ _ E) as H.
    cbv beta in H. rewrite (proj2 (after_prefix_some _ _ _) Q) in H. discriminate. }
  split.
  - destruct (exact_idx (str "help" ++ n) table 0) as [k|] eqn:Q; [|reflexivity]. exfalso.
    destruct (exact_idx_some _ _ _ _ Q) as (e & _ & A & B). apply (F _ _ n A). auto.
  - destruct (partials (str "help" ++ n) table 0) as [|k l] eqn:Q; [reflexivity|]. exfalso.
    assert (I : In k (partials (str "help" ++ n) table 0)) by (rewrite Q; left; reflexivity).
    apply partials_in in I. destruct I as (e & r & _ & A & B). rewrite <- app_assoc in B. apply (F _ _ _ A B).
Qed.
Lemma upto_eq_prefix s : exists r, s = upto_eq s ++ r.
Proof.
  induction s as [|c s (r & IH)]; cbn [upto_eq]; [exists []; reflexivity|].
  destruct (c =? ch "=")%N; [exists (c :: s); reflexivity|]. exists r. cbn [app]. congruence.
Qed.
Lemma normalize_app L a b : normalize L (a ++ b) = normalize L a ++ normalize L b.
Proof.
  unfold normalize. rewrite <- map_app. f_equal. induction a as [|c a IH]; cbn [filter app]; [reflexivity|].
  destruct (alnum L c); cbn [app]; rewrite IH; reflexivity.
Qed.
Lemma help_collect L s : nl_ok L -> search_help false s = Exact -> collect L (str "--" ++ s) = ([], 0).
Proof.
  intros OK H. unfold search_help in H. destruct (after_prefix (upto_eq s) (str "help")) as [[|]|] eqn:Q; try discriminate.
  apply after_prefix_some in Q. rewrite app_nil_r in Q. destruct (upto_eq_prefix s) as (r & R). rewrite <- Q in R. subst s.
  rewrite collect_norm, !normalize_app. rewrite (normalize_lower L (str "help") OK) by reflexivity.
  replace (normalize L (str "--")) with (@nil N).
  2: { unfold normalize. change (str "--") with [ch "-"; ch "-"]. cbn [filter]. rewrite (nl_sign L OK). reflexivity. }
  cbn [app]. destruct (no_help (normalize L r)) as (A & B).
  unfold collect_n. rewrite search_eq, A, B. reflexivity.
Qed.
Lemma parse_long_total L tty arg en st : nl_ok L -> (en = true -> exists s, arg = str "--" ++ s) ->
  exists b st', parse_long L tty arg en st = Some (b, st') /\ keeps st st'.
Proof.
  intros OK EN. unfold parse_long. destruct (val st i_posix); [exists false, st; split; [reflexivity|apply keeps_refl]|].
  destruct (collect L arg) as [opts k] eqn:E. pose proof (collect_index (normalize L arg)) as LE. rewrite <- collect_norm, E in LE. cbn [fst snd] in LE.
  set (h := if en then search_help false (skipn 2 arg) else NotFound). set (eq := existsb _ arg).
  assert (X : h = Exact -> opts = []).
  { subst h. intro H. destruct en; [|discriminate]. destruct (EN eq_refl) as (s & ->). cbn [skipn app] in H.
    change (skipn 2 (str "--" ++ s)) with s in H. rewrite (help_collect L s OK H) in E. congruence. }
  unfold handle. assert (O1 : match h with Exact => [] | _ => opts end = opts) by (destruct h; auto; symmetry; auto). rewrite O1.
  destruct (Nat.leb_spec k (length opts)); [|lia]. destruct (Nat.leb_spec (length opts) (length opts + match h with NotFound => 0 | _ => 1 end)); [|lia].
  cbn [andb]. destruct opts as [|o opts].
  - destruct h; cbn [length Nat.add Nat.ltb Nat.leb]; eexists; exists st; (split; [reflexivity|apply keeps_refl]).
  - cbn [length Nat.add].
    destruct (length opts + match h with NotFound => 0 | _ => 1 end) as [|n].
    + cbn [Nat.ltb Nat.leb]. pose proof (set_option_keeps tty o (if k =? 0 then negb en else en) st) as K.
      destruct (set_option tty o (if k =? 0 then negb en else en) st) as [b st']. exists b, st'. auto.
    + exists false, st. split; [reflexivity|apply keeps_refl].
Qed.
Lemma parse_args_total L tty : nl_ok L -> forall fuel args st, length args < fuel ->
  exists b st', parse_args L tty fuel args st = Some (b, st')
   /\ (wf st -> wf st') /\ (forall j, ~ resettable j -> val st' j = val st j)
   /\ (params st' = params st \/ b = true /\ exists pre, args = pre ++ params st').
Proof.
  intro OK. induction fuel as [|fuel IH]; intros args st LT; [lia|]. cbn [parse_args].
  destruct args as [|arg rest]; [exists true, st; auto|]. cbn [length] in LT.
  assert (OP : exists b st', Some (true, set_params (arg :: rest) st) = Some (b, st')
    /\ (wf st -> wf st') /\ (forall j, ~ resettable j -> val st' j = val st j)
    /\ (params st' = params st \/ b = true /\ exists pre, arg :: rest = pre ++ params st')).
  { exists true, (set_params (arg :: rest) st). split; [reflexivity|]. split; [intros []; constructor; assumption|]. split; [reflexivity|].
    right. split; [reflexivity|]. exists []. reflexivity. }
  destruct arg as [|c arg']; [exact OP|].
  destruct ((c =? ch "-")%N || (c =? ch "+")%N) eqn:SG; [|exact OP].
  destruct arg' as [|d arg'']; [exact OP|].
  destruct (N.eqb_spec c d) as [<-|ND].
  - destruct arg'' as [|x arg3].
    + destruct (c =? ch "-")%N; [|exact OP].
      exists true, (set_params rest st). split; [reflexivity|]. split; [intros []; constructor; assumption|]. split; [reflexivity|].
      right. split; [reflexivity|]. exists [[c; c]]. reflexivity.
    + destruct (parse_long_total L tty (c :: c :: x :: arg3) (c =? ch "-")%N st OK) as (b & st1 & -> & K1 & K2 & K3).
      { intro H. apply N.eqb_eq in H. subst c. exists (x :: arg3). reflexivity. }
      destruct b; [|exists false, st1; auto].
      destruct (IH rest st1 ltac:(lia)) as (b & st2 & E & A & B & C). exists b, st2. split; [exact E|]. split; [auto|].
      split; [intros j J; rewrite B, K3; auto|]. destruct C as [C|(C & pre & D)]; [left; congruence|right]. split; [exact C|].
      exists ((c :: c :: x :: arg3) :: pre). cbn [app]. congruence.
  - destruct (parse_short_total L tty (c =? ch "-")%N (d :: arg'') rest st) as (b & pre & rest' & st1 & -> & (K1 & K2 & K3) & PR).
    destruct b; [|exists false, st1; auto].
    assert (length rest' <= length rest) by (rewrite PR, app_length; lia).
    destruct (IH rest' st1 ltac:(lia)) as (b & st2 & E & A & B & C). exists b, st2. split; [exact E|]. split; [auto|].
    split; [intros j J; rewrite B, K3; auto|]. destruct C as [C|(C & pre' & D)]; [left; congruence|right]. split; [exact C|].
    exists ((c :: d :: arg'') :: pre ++ pre'). cbn [app]. rewrite <- app_assoc. congruence.
Qed.

Lemma excludes_partner o p : excludes o p <-> partner o = Some p.
Proof.
  assert (D : i_vi <> i_emacs /\ i_yesconv <> i_noconv /\ i_vi <> i_yesconv /\ i_vi <> i_noconv /\ i_emacs <> i_yesconv /\ i_emacs <> i_noconv)
    by (vm_compute; repeat split; discriminate).
  destruct D as (D1 & D2 & D3 & D4 & D5 & D6). unfold excludes, partner. split.
  - intros [(-> & ->)|[(-> & ->)|[(-> & ->)|(-> & ->)]]]; repeat match goal with |- context [?a =? ?b] => destruct (Nat.eqb_spec a b); try congruence end.
  - repeat match goal with |- context [?a =? ?b] => destruct (Nat.eqb_spec a b) end; intro H; inversion H; subst; tauto.
Qed.
Lemma set_option_effect tty o v st : let '(ok, st') := set_option tty o v st in set_effect tty o v st ok st'.
Proof.
  destruct (set_option tty o v st) as [ok st'] eqn:Q.
  pose proof (set_option_params tty o v st) as P. rewrite Q in P. cbn [snd] in P. split; [exact P|]. split.
  - intro NR. unfold set_option in Q. destruct (nth_error table o) as [e|] eqn:E; [|inversion Q; auto].
    destruct (o_reset e) eqn:R; [exfalso; apply NR; exists e; auto|]. cbn [negb] in Q. inversion Q. auto.
  - intros (e & E & R). destruct (set_option_val tty o v st e E R) as (V & _ & F). rewrite Q in V, F. cbn [fst snd] in V, F.
    unfold new_val in V. split; [exact F|]. split; [rewrite V, Nat.eqb_refl, F; apply andb_comm|]. split.
    + intros p NP X. apply excludes_partner in X. rewrite V, X. destruct (Nat.eqb_spec p o); [congruence|]. rewrite Nat.eqb_refl, andb_true_r.
      destruct v; reflexivity.
    + intros j NJ NX. rewrite V. destruct (Nat.eqb_spec j o); [congruence|]. destruct (partner o) as [p|] eqn:PA; [|reflexivity].
      destruct (Nat.eqb_spec j p) as [->|]; [exfalso; apply NX, excludes_partner, PA|]. rewrite andb_false_r. reflexivity.
Qed.
