(** Properties of the command history. *)
From Coq Require Import Ascii String.
From Coq Require Import List NArith ZArith Bool Arith Lia Sorted Permutation.
From Verif Require Import Common HistModel HistSpec HistProof HistFc.
Import ListNotations.
Local Open Scope N_scope.

Lemma params_ok : forall s, let '(size, max) := hist_params s in 1 <= size /\ 2 * size <= max.
Proof.
  intro s. unfold hist_params. destruct (N.ltb_spec 1000000 s); [cbn; lia|].
  destruct (N.eqb_spec s 0); [cbn; lia|].
  destruct (N.ltb_spec 100000 (2 * s)); [|lia]. destruct (N.ltb_spec 1000000 (2 * s)); lia.
Qed.
Lemma wf_bnd : forall size max l, well_formed size max l -> forall i, (i < length l)%nat -> 1 <= num_at l i <= max.
Proof.
  intros size max l (_ & F & _) i Hi. destruct (at_in l i Hi) as (e & I & <- & _). rewrite Forall_forall in F. auto.
Qed.

Section Steps.
Variable size max : N.
Variable rmdups : nat.
Variable graph : N -> bool.
Hypothesis size_pos : 1 <= size.
Hypothesis max_big : 2 * size <= max.
Notation wf := (well_formed size max).
Notation add1 := (add_line size max rmdups graph).

Lemma add_line_some : forall now line l, wf l -> exists l', add1 now line l = Some l' /\ wf l'.
Proof.
  intros now line l W. unfold add_line. destruct (existsb graph line); [|exists l; split; [reflexivity|assumption]].
  set (l1 := rev (rmdup rmdups line (rev l))).
  assert (W1 : wf l1). { eapply wf_without; [|exact W]. unfold l1. rewrite <- (rev_involutive l) at 2. apply without_rev. apply rmdup_without. }
  pose proof (next_range size max ltac:(lia) l1 ltac:(lia) (proj1 (proj2 W1))) as N.
  destruct (new_entry_wf size max size_pos (next_number max l1) now line l1 W1 N) as [E W2].
  eexists. split; [exact E|exact W2].
Qed.
Lemma add_lines_some : forall s now cur l, wf l -> exists l', add_lines size max rmdups graph now cur s l = Some l' /\ wf l'.
Proof.
  induction s as [|c s IH]; intros now cur l W; cbn [add_lines]; [apply add_line_some; assumption|].
  destruct (c =? 10); [|apply IH; assumption].
  destruct (add_line_some now cur l W) as (l' & -> & W'). apply IH. assumption.
Qed.
Lemma delete_wf : forall o l l', wf l -> history_delete max o l = Some l' -> wf l'.
Proof.
  intros o l l' W H. unfold history_delete in H. destruct (delete_target max o l) as [|[p|] [q|]]; try discriminate; [|inversion H; subst; assumption..].
  destruct (p =? q)%nat; inversion H; subst; [|assumption]. eapply wf_without; [apply (remove_at_without size); assumption|exact W].
Qed.
Lemma step_wf : forall o l l', wf l -> step size max rmdups graph o l = Some l' -> wf l'.
Proof.
  intros o l l' W H. destruct o as [now s|o| | |num time val| |num]; cbn [step] in H.
  - destruct (add_lines_some s now [] l W) as (l2 & E & W2). rewrite E in H. inversion H; subst. assumption.
  - eapply delete_wf; eassumption.
  - inversion H; subst. split; [cbn; lia|split; [constructor|]]. exists [], []. split; [reflexivity|constructor].
  - inversion H; subst. apply renumber_wf; [assumption|lia|assumption].
  - destruct (N.ltb_spec max num); [inversion H; subst; assumption|].
    assert (0 < num). { unfold new_entry in H. destruct (N.ltb_spec 0 num); [assumption|discriminate]. }
    destruct (new_entry_wf size max size_pos num time val l W ltac:(lia)) as [E W2]. rewrite E in H. inversion H; subst. assumption.
  - inversion H; subst. eapply wf_without; [apply removelast_without|exact W].
  - destruct (max <? num); [inversion H; subst; assumption|].
    destruct (search max num l) as [|[p|] [q|]]; try discriminate; [|inversion H; subst; assumption..].
    destruct (p =? q)%nat; inversion H; subst; [|assumption]. eapply wf_without; [apply (remove_at_without size); assumption|exact W].
Qed.
Lemma steps_wf : forall os l l', wf l -> steps size max rmdups graph os l = Some l' -> wf l'.
Proof.
  induction os as [|o os IH]; cbn [steps]; intros l l' W H; [inversion H; subst; assumption|].
  destruct (step size max rmdups graph o l) as [l1|] eqn:E; [|discriminate]. eapply IH; [|exact H]. eapply step_wf; eassumption.
Qed.
End Steps.

Lemma wf_nil : forall size max, well_formed size max [].
Proof. intros. split; [cbn; lia|split; [constructor|]]. exists [], []. split; [reflexivity|constructor]. Qed.
Lemma ordered_nodup : forall l, ordered l -> NoDup (map e_num l).
Proof.
  intros l (a & b & -> & S).
  assert (N : NoDup (map e_num (b ++ a))).
  { clear - S. induction (map e_num (b ++ a)) as [|x m IH]; [constructor|]. apply StronglySorted_inv in S. destruct S as [S F].
    constructor; [|auto]. intro I. rewrite Forall_forall in F. specialize (F x I). lia. }
  rewrite map_app in *.
  revert N. generalize (map e_num a) as u, (map e_num b) as v. clear. intros u v N.
  apply (Permutation_NoDup (Permutation_app_comm v u) N).
Qed.

(** ** C99: the list is always in order *)
Theorem history_in_order : forall newsize rmdups graph os l,
  let '(size, max) := hist_params newsize in
  steps size max rmdups graph os [] = Some l ->
  N.of_nat (length l) <= size /\ (forall e, In e l -> 1 <= e_num e <= max) /\ NoDup (map e_num l) /\ ordered l.
Proof.
  intros newsize rmdups graph os l. pose proof (params_ok newsize) as P. destruct (hist_params newsize) as [size max].
  destruct P as [P1 P2]. intro H. pose proof (steps_wf size max rmdups graph P1 P2 os [] l (wf_nil _ _) H) as (C & F & O).
  rewrite Forall_forall in F. split; [assumption|split; [assumption|split; [apply ordered_nodup|]; assumption]].
Qed.
Print Assumptions history_in_order.

Definition any_graph (c : N) : bool := 32 <? c.
(** Not vacuous: an old entry, the end of the numbers, and two more lines *)
Example history_in_order_ex :
  option_map (map e_num)
    (steps 5 100000 0 any_graph [FileEntry 99999 0 (str "a"); Add 1 (str "b"); Add 2 (str "c
d")] []) = Some [99999; 100000; 1; 2].
Proof. vm_compute. reflexivity. Qed.

(** ** C100: what the shell survives *)
Theorem history_aborts_only_partial : forall size max rmdups graph l o,
  1 <= size -> 2 * size <= max -> well_formed size max l ->
  (step size max rmdups graph o l = None <->
   (exists t v, o = FileEntry 0 t v) \/
   (exists n, (o = Delete (ONum (Z.of_N n)) \/ n <= max /\ o = FileDelete n) /\ at_the_seam max l n)).
Proof.
  intros size max rmdups graph l o P1 P2 W.
  assert (SC : forall n, search max n l = SCrash <-> at_the_seam max l n).
  { intro n. destruct (list_eq_dec (fun a b : entry => ltac:(decide equality; [apply (list_eq_dec N.eq_dec)|apply Z.eq_dec|apply N.eq_dec])) l []) as [->|Ne].
    - split; [discriminate|]. intros [H _]. cbn in H. lia.
    - destruct (ordered_turn l (proj2 (proj2 W)) Ne) as [c T].
      pose proof (search_ok max l Ne c T (wf_bnd _ _ _ W) n) as S. rewrite (seam_iff max l Ne c T (wf_bnd _ _ _ W)).
      destruct (search max n l); [tauto|]. split; [discriminate|tauto]. }
  destruct o as [now s|o| | |num time val| |num]; cbn [step].
  - destruct (add_lines_some size max rmdups graph P1 P2 s now [] l W) as (l2 & E & _). rewrite E. split; [discriminate|].
    intros [(t & v & H)|(n & [H|[_ H]] & _)]; discriminate.
  - unfold history_delete, delete_target. destruct o as [z|p].
    + destruct (Z.geb_spec z 0) as [G|G].
      * specialize (SC (Z.to_N z)). split.
        -- intro H. right. exists (Z.to_N z). split; [left; rewrite Z2N.id by lia; reflexivity|]. apply SC.
           destruct (search max (Z.to_N z) l) as [|[p|] [q|]]; try discriminate; [reflexivity|]. destruct (p =? q)%nat; discriminate.
        -- intros [(t & v & H)|(n & [H|[_ H]] & S)]; try discriminate. injection H as H. rewrite H, N2Z.id in SC.
           rewrite H, N2Z.id. rewrite (proj2 SC S). reflexivity.
      * split.
        -- set (i := nth_newest _ l). destruct i as [i|]; [rewrite Nat.eqb_refl|]; discriminate.
        -- intros [(t & v & H)|(n & [H|[_ H]] & S)]; try discriminate. injection H as H. lia.
    + split.
      * set (i := search_prefix p l). destruct i as [i|]; [rewrite Nat.eqb_refl|]; discriminate.
      * intros [(t & v & H)|(n & [H|[_ H]] & S)]; discriminate.
  - split; [discriminate|]. intros [(t & v & H)|(n & [H|[_ H]] & _)]; discriminate.
  - split; [discriminate|]. intros [(t & v & H)|(n & [H|[_ H]] & _)]; discriminate.
  - split.
    + intro H. left. destruct (N.ltb_spec max num); [discriminate|]. destruct (N.eq_dec num 0) as [->|N0]; [eauto|].
      destruct (new_entry_wf size max P1 num time val l W ltac:(lia)) as [E _]. rewrite E in H. discriminate.
    + intros [(t & v & H)|(n & [H|[_ H]] & _)]; try discriminate. injection H as -> _ _.
      destruct (N.ltb_spec max 0); [lia|reflexivity].
  - split; [discriminate|]. intros [(t & v & H)|(n & [H|[_ H]] & _)]; discriminate.
  - specialize (SC num). split.
    + destruct (N.ltb_spec max num); [discriminate|]. intro H0. right. exists num. split; [right; split; [assumption|reflexivity]|].
      apply SC. destruct (search max num l) as [|[p|] [q|]]; try discriminate; [reflexivity|]. destruct (p =? q)%nat; discriminate.
    + intros [(t & v & H)|(n & [H|[Hn H]] & S)]; try discriminate. injection H as <-.
      destruct (N.ltb_spec max num); [lia|]. rewrite (proj2 SC S). reflexivity.
Qed.
Print Assumptions history_aborts_only_partial.

(** A line "0 a" in the history file stops the shell. *)
Theorem history_file_zero_refuted : exists val,
  steps 500 100000 0 any_graph [FileEntry 0 0 val] [] = None.
Proof. exists (str "a"). vm_compute. reflexivity. Qed.
Print Assumptions history_file_zero_refuted.

(** After the numbers have started again from 1, [history -d 1] twice stops the
    shell: the second one should report that there is no such entry. *)
Theorem history_delete_twice_refuted : exists os l,
  steps 500 100000 0 any_graph os [] = Some l /\
  well_formed 500 100000 l /\ ~ In 1 (map e_num l) /\
  step 500 100000 0 any_graph (Delete (ONum 1)) l = None.
Proof.
  exists [FileEntry 99999 0 (str "a"); Add 1 (str "b"); Add 1 (str "c"); Add 1 (str "d"); Delete (ONum 1)].
  eexists. split; [vm_compute; reflexivity|]. split; [|split].
  - eapply (steps_wf 500 100000 0 any_graph); [lia|lia|apply wf_nil|].
    instantiate (1 := [FileEntry 99999 0 (str "a"); Add 1 (str "b"); Add 1 (str "c"); Add 1 (str "d"); Delete (ONum 1)]).
    vm_compute. reflexivity.
  - cbn. intros [H|[H|[H|[]]]]; discriminate.
  - vm_compute. reflexivity.
Qed.
Print Assumptions history_delete_twice_refuted.

(** ** C101: deletion *)
Lemma place_at : forall max l c, l <> [] -> turn l c -> (forall i, (i < length l)%nat -> 1 <= num_at l i <= max) ->
  forall j p q, (j < length l)%nat -> place max l c (kx max l c j) p q -> p = Some j /\ q = Some j.
Proof.
  intros max l c Ne T B j p q Hj (Hp & Hq & H). pose proof (kx_le max l Ne c T B) as Kle.
  destruct (H j Hj) as [H1 H2].
  destruct p as [p|]; [|exfalso; apply H1; lia]. destruct q as [q|]; [|exfalso; apply H2; lia].
  destruct (H p Hp) as [H3 _]. destruct (H q Hq) as [_ H4]. rewrite Kle in * by assumption.
  assert (p = j) by lia. assert (q = j) by lia. subst. split; reflexivity.
Qed.
Theorem history_delete_exact : forall size max l, well_formed size max l -> forall o l1 e l2,
  l = l1 ++ e :: l2 -> means max l o (key max l (e_num e)) -> history_delete max o l = Some (l1 ++ l2).
Proof.
  intros size max l W o l1 e l2 E M.
  assert (Ne : l <> []) by (rewrite E; destruct l1; discriminate).
  destruct (ordered_turn l (proj2 (proj2 W)) Ne) as [c T]. pose proof (wf_bnd _ _ _ W) as B.
  destruct (at_app l l1 e l2 E) as [A1 A2].
  destruct (means_place max l Ne c T B o _ M) as (p & q & Sr & P).
  rewrite <- A1 in P. rewrite (key_at max l Ne c T B _ A2) in P.
  destruct (place_at max l c Ne T B _ _ _ A2 P) as [-> ->].
  assert (R : remove_at (length l1) l = l1 ++ l2).
  { unfold remove_at. rewrite E. rewrite firstn_app, Nat.sub_diag, firstn_all. cbn [firstn]. rewrite app_nil_r. f_equal.
    rewrite skipn_app. rewrite skipn_all2 by lia. replace (S (length l1) - length l1)%nat with 1%nat by lia. reflexivity. }
  unfold history_delete.
  assert (D : delete_target max o l = SRes (Some (length l1)) (Some (length l1))).
  { unfold delete_target. destruct o as [z|pr]; [|exact Sr]. cbn [fc_search] in Sr.
    destruct (Z.geb_spec z 0), (Z.gtb_spec z 0); try lia; [exact Sr| |].
    - assert (z = 0%Z) by lia. subst z. inversion M; lia.
    - destruct (Z.eqb_spec z INT_MIN); [discriminate|]. inversion Sr as [[S1 S2]]. congruence. }
  rewrite D, Nat.eqb_refl, R. reflexivity.
Qed.
Print Assumptions history_delete_exact.
Theorem history_delete_missing : forall size max l n, well_formed size max l -> 1 <= n ->
  ~ In n (map e_num l) -> ~ at_the_seam max l n -> history_delete max (ONum (Z.of_N n)) l = Some l.
Proof.
  intros size max l n W Hn Ni Ns. unfold history_delete, delete_target. destruct (Z.geb_spec (Z.of_N n) 0); [|lia]. rewrite N2Z.id.
  destruct l as [|e0 l0] eqn:El; [reflexivity|]. rewrite <- El in *.
  assert (Ne : l <> []) by (rewrite El; discriminate). clear El.
  destruct (ordered_turn l (proj2 (proj2 W)) Ne) as [c T]. pose proof (wf_bnd _ _ _ W) as B.
  pose proof (search_ok max l Ne c T B n) as S. rewrite (seam_iff max l Ne c T B) in Ns.
  destruct (search max n l) as [|p q]; [tauto|]. destruct S as [_ P].
  destruct p as [p|]; [|reflexivity]. destruct q as [q|]; [|reflexivity].
  destruct (Nat.eqb_spec p q) as [->|]; [|reflexivity]. exfalso.
  destruct P as (Hp & _ & P). destruct (P q Hp) as [P1 P2].
  assert (K : kx max l c q = key max l n) by lia.
  rewrite <- (key_at max l Ne c T B q Hp) in K. apply Ni. destruct (at_in l q Hp) as (e & I & E & _).
  apply in_map_iff. exists e. split; [|assumption]. rewrite E. revert K. unfold key.
  pose proof (B q Hp). pose proof (B O ltac:(destruct l; [congruence|cbn; lia])) as B0. rewrite !first_num_at, !last_num_at.
  set (a := num_at l 0) in *. set (z := num_at l (length l - 1)).
  assert (Zb : 1 <= z <= max). { apply B. destruct l; [congruence|cbn; lia]. }
  destruct (N.ltb_spec z a); cbn [andb]; [|lia].
  destruct (N.leb_spec (num_at l q) z), (N.leb_spec n z); try lia.
  intro K. exfalso. apply Ns. unfold seam. split; [apply (wrapped_iff max l Ne c T B); assumption|]. right.
  pose proof T as (T0 & T1 & T2 & T3). fold a z. split; [lia|].
  pose proof (B (c - 1)%nat ltac:(lia)). lia.
Qed.
Print Assumptions history_delete_missing.

(** Five entries with a gap, and the numbers have started again *)
Definition ex_l : hist := map (fun n => mkEntry n 0 (str "echo")) [99990; 99993; 99994; 3; 4].
Lemma ex_wf : well_formed 500 100000 ex_l.
Proof.
  split; [cbn; lia|split].
  - repeat (constructor; [cbn; lia|]). constructor.
  - exists (firstn 3 ex_l), (skipn 3 ex_l). split; [reflexivity|]. cbn.
    repeat (constructor; [|repeat (constructor; [lia|]); constructor]). constructor.
Qed.
Example history_delete_ex1 : history_delete 100000 (ONum 99993) ex_l = Some (map (fun n => mkEntry n 0 (str "echo")) [99990; 99994; 3; 4]).
Proof.
  apply (history_delete_exact 500 100000 ex_l ex_wf _ [mkEntry 99990 0 (str "echo")] (mkEntry 99993 0 (str "echo"))
    (map (fun n => mkEntry n 0 (str "echo")) [99994; 3; 4])); [reflexivity|].
  apply (means_number 100000 ex_l 99993); [lia|]. cbn. intros [_ [[H _]|[_ H]]]; [cbn in H; lia|].
  specialize (H (mkEntry 99993 0 (str "echo"))). cbn in H. assert (99993 < 99993); [|lia]. apply H; [tauto|lia].
Qed.
Example history_delete_ex2 : history_delete 100000 (ONum 99992) ex_l = Some ex_l.
Proof.
  apply (history_delete_missing 500 100000 ex_l 99992 ex_wf); [lia| |].
  - cbn. intros [H|[H|[H|[H|[H|[]]]]]]; discriminate.
  - intros [_ [[H _]|[_ H]]]; [cbn in H; lia|]. specialize (H (mkEntry 99993 0 (str "echo"))).
    cbn in H. assert (99993 < 99992); [|lia]. apply H; [tauto|lia].
Qed.

(** ** C102: the range of fc *)
Definition fc_first (listing : bool) (first : option operand) : operand :=
  match first with Some o => o | None => ONum (if listing then -16 else -1) end.
Definition fc_last (listing : bool) (first last : option operand) : operand :=
  match last with Some o => o | None => if listing then ONum (-1) else fc_first listing first end.
Lemma fc_default : forall max lm rv first last l,
  fc max lm rv first last l = fc max lm rv (Some (fc_first lm first)) (Some (fc_last lm first last)) l.
Proof.
  intros max lm rv first last l. destruct l as [|e l0]; [reflexivity|]. set (l := e :: l0).
  unfold fc. fold l. change (match l with [] => _ | _ => ?x end) with x.
  change (match first with Some o => o | None => ONum (if lm then -16 else -1) end) with (fc_first lm first).
  destruct last as [o2|]; [reflexivity|]. cbn [fc_last].
  destruct lm; [reflexivity|].
  change (fc_last false first None) with (fc_first false first).
  destruct (fc_search max (fc_first false first) l) as [|[p|] [q|]]; reflexivity.
Qed.
Theorem fc_range_partial : forall size max l listing rv first last k1 k2,
  well_formed size max l -> l <> [] ->
  means max l (fc_first listing first) k1 -> means max l (fc_last listing first last) k2 ->
  ~ touching max l k1 k2 ->
  fc max listing rv first last l = FcEntries (selection max rv l k1 k2).
Proof.
  intros size max l lm rv first last k1 k2 W Ne M1 M2 NT. rewrite fc_default.
  destruct (ordered_turn l (proj2 (proj2 W)) Ne) as [c T].
  apply (fc_ok max l Ne c T (wf_bnd _ _ _ W) lm rv _ _ k1 k2 M1 M2). assumption.
Qed.
Print Assumptions fc_range_partial.
(** Otherwise the shell is stopped by a failed assertion. *)
Theorem fc_range_aborts : forall size max l listing rv first last k1 k2,
  well_formed size max l -> l <> [] ->
  means max l (fc_first listing first) k1 -> means max l (fc_last listing first last) k2 ->
  touching max l k1 k2 ->
  fc max listing rv first last l = FcCrash.
Proof.
  intros size max l lm rv first last k1 k2 W Ne M1 M2 NT. rewrite fc_default.
  destruct (ordered_turn l (proj2 (proj2 W)) Ne) as [c T].
  apply (fc_ok max l Ne c T (wf_bnd _ _ _ W) lm rv _ _ k1 k2 M1 M2). assumption.
Qed.
Print Assumptions fc_range_aborts.
(** Three lines, the second is deleted: [fc -l 1 2] should print the first. *)
Theorem fc_range_refuted : exists os l,
  steps 500 100000 0 any_graph os [] = Some l /\ map e_num l = [1; 3] /\
  fc 100000 true false (Some (ONum 1)) (Some (ONum 2)) l = FcCrash /\
  fc 100000 false false (Some (ONum 2)) None l = FcCrash.
Proof.
  exists [Add 1 (str "a"); Add 1 (str "b"); Add 1 (str "c"); Delete (ONum 2)]. eexists.
  split; [vm_compute; reflexivity|]. repeat split; vm_compute; reflexivity.
Qed.
Print Assumptions fc_range_refuted.
(** Not vacuous: from the missing 99991 up to 3, and back *)
Lemma ex_means1 : means 100000 ex_l (ONum 99991) 99991.
Proof.
  apply (means_number 100000 ex_l 99991); [lia|]. intros [_ [[H _]|[_ H]]]; [cbn in H; lia|].
  specialize (H (mkEntry 99993 0 (str "echo"))). cbn in H. assert (99993 < 99991); [|lia]. apply H; [tauto|lia].
Qed.
Lemma ex_means2 : means 100000 ex_l (ONum 3) 100003.
Proof.
  apply (means_number 100000 ex_l 3); [lia|]. intros [_ [[_ H]|[H _]]]; [|cbn in H; lia].
  specialize (H (mkEntry 3 0 (str "echo"))). cbn in H. assert (3 < 3); [|lia]. apply H; [tauto|lia].
Qed.
Lemma ex_apart : forall k1 k2, (k1, k2) = (99991, 100003) \/ (k1, k2) = (100003, 99991) -> ~ touching 100000 ex_l k1 k2.
Proof.
  intros k1 k2 Hk [H _]. specialize (H (mkEntry 99994 0 (str "echo")) ltac:(cbn; tauto)).
  change (key 100000 ex_l (e_num (mkEntry 99994 0 (str "echo")))) with 99994 in H.
  destruct Hk as [Hk|Hk]; injection Hk as -> ->; lia.
Qed.
Example fc_range_ex : fc 100000 true false (Some (ONum 3)) (Some (ONum 99991)) ex_l =
  FcEntries (map (fun n => mkEntry n 0 (str "echo")) [3; 99994; 99993]).
Proof.
  rewrite (fc_range_partial 500 100000 ex_l true false _ _ 100003 99991 ex_wf); [vm_compute; reflexivity|discriminate|exact ex_means2|exact ex_means1|].
  apply ex_apart. right. reflexivity.
Qed.
Example fc_range_ex2 : fc 100000 true false (Some (ONum 99991)) (Some (ONum 3)) ex_l =
  FcEntries (map (fun n => mkEntry n 0 (str "echo")) [99993; 99994; 3]).
Proof.
  rewrite (fc_range_partial 500 100000 ex_l true false _ _ 99991 100003 ex_wf); [vm_compute; reflexivity|discriminate|exact ex_means1|exact ex_means2|].
  apply ex_apart. left. reflexivity.
Qed.
(** Without operands, fc -l prints the last 16 entries, or all if there are fewer. *)
Theorem fc_lists_last_sixteen : forall size max l, well_formed size max l ->
  fc max true false None None l = FcEntries (skipn (length l - 16) l).
Proof.
  intros size max l W. destruct (list_eq_dec (fun a b : entry => ltac:(decide equality; [apply (list_eq_dec N.eq_dec)|apply Z.eq_dec|apply N.eq_dec])) l []) as [->|Ne]; [reflexivity|].
  destruct (ordered_turn l (proj2 (proj2 W)) Ne) as [c T]. pose proof (wf_bnd _ _ _ W) as B.
  pose proof (n_pos max l Ne c T B) as Np. pose proof (kx_le max l Ne c T B) as Kle.
  assert (Split : forall j, (j < length l)%nat -> exists l1 e l2, l = l1 ++ e :: l2 /\ length l1 = j).
  { intros j Hj. destruct (at_in l j Hj) as (e & _ & _ & E). apply nth_error_split in E. destruct E as (l1 & l2 & E & L). eauto. }
  assert (L1 : forall z j, (INT_MIN < z < 0)%Z -> (j < length l)%nat -> Z.of_nat (length l - j) = (- z)%Z -> means max l (ONum z) (kx max l c j)).
  { intros z j Hz Hj E. destruct (Split j Hj) as (l1 & e & l2 & El & Lj). destruct (at_app l l1 e l2 El) as [A1 A2].
    rewrite <- (key_at max l Ne c T B j Hj). rewrite <- Lj, A1. eapply means_last; [exact Hz|exact El|].
    rewrite <- E. f_equal. rewrite El, app_length. lia. }
  assert (M2 : means max l (ONum (-1)) (kx max l c (length l - 1))) by (apply L1; unfold INT_MIN; lia).
  set (k1 := if (16 <=? length l)%nat then kx max l c (length l - 16) else 0).
  assert (M1 : means max l (ONum (-16)) k1).
  { unfold k1. destruct (Nat.leb_spec 16 (length l)); [apply L1; unfold INT_MIN; lia|]. apply means_all; unfold INT_MIN; lia. }
  assert (K0 : first_num l = kx max l c 0) by (apply K0 with (c := c); assumption).
  assert (NT : ~ touching max l k1 (kx max l c (length l - 1))).
  { intros [_ H]. assert (X : ~ missing max l (kx max l c (length l - 1))).
    { intros [M _]. rewrite (Kn max l Ne c T B) in M. lia. }
    assert (Y : ~ missing max l k1).
    { unfold k1. destruct (Nat.leb_spec 16 (length l)); intros [M1' M2']; [|lia].
      destruct (at_in l (length l - 16) ltac:(lia)) as (e & I & E & _). apply (M2' e I). rewrite E. apply (key_at max l Ne c T B). lia. }
    tauto. }
  rewrite (fc_range_partial size max l true false None None k1 (kx max l c (length l - 1)) W Ne M1 M2 NT).
  assert (P1 : exists p q, form max l c k1 p q (length l - 16) (length l - 16)).
  { unfold k1. destruct (Nat.leb_spec 16 (length l)).
    - eexists _, _. apply f_exact; [lia|reflexivity].
    - replace (length l - 16)%nat with O by lia. eexists _, _. apply f_low. pose proof (B O Np). unfold kx. destruct (0 <? c)%nat; lia. }
  destruct P1 as (p & q & P1).
  assert (P2 : form max l c (kx max l c (length l - 1)) (Some (length l - 1)%nat) (Some (length l - 1)%nat) (length l - 1) (length l - 1)) by (apply f_exact; [lia|reflexivity]).
  unfold selection. rewrite (between_segment max l Ne c T B _ _ _ _ _ _ _ _ _ _ P1 P2) by lia.
  assert (Hk : k1 <= kx max l c (length l - 1)). { unfold k1. destruct (Nat.leb_spec 16 (length l)); [apply Kle; lia|lia]. }
  destruct (N.ltb_spec (kx max l c (length l - 1)) k1); [lia|]. cbn [xorb].
  f_equal. unfold segment. rewrite Nat.min_l, Nat.max_r by lia. apply firstn_all2. rewrite skipn_length. lia.
Qed.
Print Assumptions fc_lists_last_sixteen.

(** ** C103: adding lines *)
Lemma rmdup_spec : forall k line r,
  rmdup k line r = filter (fun e => negb (list_N_eqb (e_val e) line)) (firstn k r) ++ skipn k r.
Proof.
  induction k as [|k IH]; intros line [|e r]; cbn [rmdup firstn skipn filter app]; try reflexivity.
  rewrite IH. destruct (list_N_eqb (e_val e) line); reflexivity.
Qed.
Lemma filter_rev : forall (P : entry -> bool) r, filter P (rev r) = rev (filter P r).
Proof.
  intros P r. induction r as [|x r IH]; [reflexivity|]. cbn [rev filter]. rewrite filter_app, IH. cbn [filter].
  destruct (P x); cbn [rev]; [reflexivity|apply app_nil_r].
Qed.
(** The next number conflicts only with the oldest entry. *)
Lemma need_next : forall size max l c, l <> [] -> turn l c -> (forall i, (i < length l)%nat -> 1 <= num_at l i <= max) ->
  forall m, (forall x, newest x = newest l -> x <> [] -> next_number max x = m) ->
  need_remove size l m = (size <=? count l) || (oldest l =? m).
Proof.
  intros size max l c Ne T B m Hm. pose proof (Hm l eq_refl Ne) as Em. unfold next_number in Em.
  pose proof (wrapped_iff max l Ne c T B) as W. pose proof (n_pos max l Ne c T B) as Np.
  unfold need_remove. destruct l as [|e0 l0] eqn:El; [congruence|]. rewrite <- El in *. clear El e0 l0.
  destruct (size <=? count l); [reflexivity|]. cbn [orb]. rewrite oldest_at, newest_at in *.
  pose proof (B O Np) as B0. pose proof (B (length l - 1)%nat ltac:(lia)) as B1.
  set (a := num_at l 0) in *. set (z := num_at l (length l - 1)) in *.
  destruct (N.ltb_spec max (z + 1)); subst m;
    destruct (N.leb_spec a z); apply eq_true_iff_eq; rewrite ?andb_true_iff, ?orb_true_iff, !N.leb_le, N.eqb_eq; lia.
Qed.
Theorem history_add_line : forall size max rmdups graph now line l,
  1 <= size -> 2 * size <= max -> well_formed size max l -> existsb graph line = true ->
  exists older recent dropped kept num,
    (* of the newest [rmdups] entries, those with the same text are removed *)
    l = older ++ recent /\ length recent = Nat.min rmdups (length l) /\
    older ++ filter (fun e => negb (list_N_eqb (e_val e) line)) recent = dropped ++ kept /\
    (* the number follows that of the newest entry left *)
    num = (match rev (dropped ++ kept) with [] => 1 | e :: _ => if e_num e =? max then 1 else e_num e + 1 end) /\
    (* only the oldest entry may be dropped, if the list is full or it has that number *)
    (dropped = [] \/ exists e, dropped = [e] /\ (N.of_nat (length (dropped ++ kept)) = size \/ e_num e = num)) /\
    add_line size max rmdups graph now line l = Some (kept ++ [mkEntry num now line]).
Proof.
  intros size max rmdups graph now line l P1 P2 W G.
  set (older := rev (skipn rmdups (rev l))). set (recent := rev (firstn rmdups (rev l))).
  assert (El : l = older ++ recent). { unfold older, recent. rewrite <- rev_app_distr, firstn_skipn, rev_involutive. reflexivity. }
  set (l1 := older ++ filter (fun e => negb (list_N_eqb (e_val e) line)) recent).
  assert (E1 : rev (rmdup rmdups line (rev l)) = l1).
  { rewrite rmdup_spec, rev_app_distr. unfold l1, older, recent. rewrite filter_rev. reflexivity. }
  assert (W1 : well_formed size max l1).
  { eapply wf_without; [|exact W]. rewrite <- E1. rewrite <- (rev_involutive l) at 2. apply without_rev. apply rmdup_without. }
  set (num := next_number max l1).
  pose proof (next_range size max ltac:(lia) l1 ltac:(lia) (proj1 (proj2 W1))) as Nr. fold num in Nr.
  destruct (new_entry_wf size max P1 num now line l1 W1 Nr) as [En _].
  destruct (evict_suffix size num l1) as [d Ed].
  exists older, recent, d, (evict size num l1), num. rewrite <- Ed.
  split; [exact El|]. split; [unfold recent; rewrite rev_length, firstn_length, rev_length; reflexivity|]. split; [reflexivity|].
  split; [|split].
  - unfold num, next_number, newest, oldest. destruct l1 as [|x r] eqn:Ex; [reflexivity|]. rewrite <- Ex in *.
    destruct (rev l1) as [|y s] eqn:Er; [apply (f_equal (@length entry)) in Er; rewrite rev_length, Ex in Er; discriminate|].
    assert (Iy : In y l1) by (apply in_rev; rewrite Er; left; reflexivity).
    destruct W1 as (_ & F & _). rewrite Forall_forall in F. specialize (F y Iy). cbn in F.
    destruct (N.ltb_spec max (e_num y + 1)), (N.eqb_spec (e_num y) max); try reflexivity; lia.
  - destruct l1 as [|x r] eqn:Ex.
    { left. cbn [evict] in Ed. destruct d; [reflexivity|discriminate]. }
    assert (NN : forall m : hist, newest m = newest (x :: r) -> m <> [] -> next_number max m = num).
    { intros m Hm Nm. unfold num, next_number. destruct m; [congruence|]. rewrite Hm. reflexivity. }
    assert (Ne1 : x :: r <> []) by discriminate.
    destruct (ordered_turn (x :: r) (proj2 (proj2 W1)) Ne1) as [c T]. pose proof (wf_bnd _ _ _ W1) as B.
    assert (Nd := need_next size max (x :: r) c Ne1 T B num NN).
    cbn [evict] in Ed. rewrite Nd in Ed.
    destruct ((size <=? count (x :: r)) || (oldest (x :: r) =? num)) eqn:Eq.
    2: { left. destruct d as [|y d]; [reflexivity|]. apply (f_equal (@length entry)) in Ed. cbn [app] in Ed. cbn [length] in Ed. rewrite app_length in Ed. cbn [length] in Ed. lia. }
    right. exists x.
    assert (Er : evict size num r = r).
    { destruct r as [|y r]; [reflexivity|]. cbn [evict].
      assert (Wr : well_formed size max (y :: r)) by (eapply wf_without; [constructor; apply without_refl|exact W1]).
      assert (Ner : y :: r <> []) by discriminate.
      destruct (ordered_turn (y :: r) (proj2 (proj2 Wr)) Ner) as [c' T'].
      assert (Nw : newest (y :: r) = newest (x :: y :: r)).
      { rewrite !newest_at. cbn [length]. replace (S (S (length r)) - 1)%nat with (S (S (length r) - 1)) by lia. reflexivity. }
      rewrite (need_next size max (y :: r) c' Ner T' (wf_bnd _ _ _ Wr) num); [|intros m Hm; apply NN; congruence].
      destruct W1 as (C1 & _ & _). unfold count. cbn [length] in *.
      destruct (N.leb_spec size (N.of_nat (S (length r)))); [lia|]. cbn [orb].
      destruct (N.eqb_spec (oldest (y :: r)) num) as [Ey|Ey]; [|reflexivity]. exfalso.
      (* the second entry cannot have the next number *)
      cbn [oldest] in Ey. pose proof (NN _ eq_refl Ne1) as Nx. unfold next_number in Nx.
      rewrite newest_at in Nx. cbn [length] in Nx. replace (S (S (length r)) - 1)%nat with (S (length r)) in Nx by lia.
      pose proof (B O ltac:(cbn; lia)) as B0. pose proof (B 1%nat ltac:(cbn; lia)) as B1. pose proof (B (S (length r)) ltac:(cbn; lia)) as B2.
      destruct T as (T0 & T1 & T2 & T3). cbn [length] in *.
      change (num_at (x :: y :: r) 1) with (e_num y) in *.
      pose proof (T1 1 (S (length r)))%nat as T1a. specialize (T1 0 1)%nat. specialize (T2 1 (S (length r)))%nat. specialize (T3 0 (S (length r)))%nat.
      change (num_at (x :: y :: r) 1) with (e_num y) in *. change (num_at (x :: y :: r) 0) with (e_num x) in *.
      destruct (N.ltb_spec max (num_at (x :: y :: r) (S (length r)) + 1)).
      - destruct (Nat.lt_ge_cases 1 c); [lia|]. assert (c = 1)%nat by lia. subst c. lia.
      - destruct (Nat.lt_ge_cases 1 c).
        + destruct (Nat.lt_ge_cases (S (length r)) c) as [L|L]; [|lia].
          assert (e_num y <= num_at (x :: y :: r) (S (length r))); [|lia].
          destruct r as [|y' r]; [cbn; lia|]. cbn [length] in *. lia.
        + assert (c = 1)%nat by lia. subst c. destruct r as [|y' r]; [cbn in *; lia|]. cbn [length] in *. lia. }
    rewrite Er in Ed. assert (d = [x]). { change (x :: r) with ([x] ++ r) in Ed. apply app_inv_tail in Ed. congruence. }
    split; [assumption|]. apply orb_true_iff in Eq. destruct Eq as [Eq|Eq].
    + apply N.leb_le in Eq. left. destruct W1 as (C1 & _ & _). unfold count in Eq. lia.
    + apply N.eqb_eq in Eq. right. exact Eq.
  - unfold add_line. rewrite G, E1. exact En.
Qed.
Print Assumptions history_add_line.
(** The lines of a text are added one after another. *)
Fixpoint add_each (size max : N) (rmdups : nat) (graph : N -> bool) (now : Z) (ls : list (list N)) (l : hist) : option hist :=
  match ls with
  | [] => Some l
  | x :: ls' => match add_line size max rmdups graph now x l with Some l' => add_each size max rmdups graph now ls' l' | None => None end
  end.
Theorem history_add_text : forall size max rmdups graph now s l,
  add_lines size max rmdups graph now [] s l = add_each size max rmdups graph now (lines_of s) l.
Proof.
  intros size max rmdups graph now s l.
  assert (Ne : forall s, lines_of s <> []).
  { clear. induction s as [|c s IH]; cbn [lines_of]; [discriminate|]. destruct (c =? 10); [discriminate|]. destruct (lines_of s); [congruence|discriminate]. }
  assert (G : forall s cur l, add_lines size max rmdups graph now cur s l =
    add_each size max rmdups graph now (match lines_of s with x :: xs => (cur ++ x) :: xs | [] => [] end) l).
  { clear - Ne. induction s as [|c s IH]; intros cur l; cbn [add_lines lines_of].
    - cbn [add_each]. rewrite app_nil_r. destruct (add_line size max rmdups graph now cur l); reflexivity.
    - destruct (c =? 10).
      + cbn [add_each]. rewrite app_nil_r. destruct (add_line size max rmdups graph now cur l) as [l'|]; [|reflexivity].
        rewrite IH. specialize (Ne s). destruct (lines_of s); [congruence|reflexivity].
      + rewrite IH. specialize (Ne s). destruct (lines_of s) as [|x xs]; [congruence|]. rewrite <- app_assoc. reflexivity. }
  rewrite G. specialize (Ne s). destruct (lines_of s); [congruence|reflexivity].
Qed.
Print Assumptions history_add_text.
(** A line without a visible character is not added. *)
Theorem history_add_blank : forall size max rmdups graph now line l,
  (forall c, In c line -> graph c = false) -> add_line size max rmdups graph now line l = Some l.
Proof.
  intros size max rmdups graph now line l H. unfold add_line. destruct (existsb graph line) eqn:E; [|reflexivity].
  apply existsb_exists in E. destruct E as (c & I & G). rewrite (H c I) in G. discriminate.
Qed.
Print Assumptions history_add_blank.
(** Not vacuous: in a full list of three, a line equal to the second newest; another
    line *)
Example history_add_ex1 :
  option_map (map (fun e => (e_num e, e_val e)))
    (add_line 3 100000 2 any_graph 0 (str "ls") [mkEntry 5 0 (str "ls"); mkEntry 6 0 (str "ls"); mkEntry 7 0 (str "cd")]) =
  Some [(5, str "ls"); (7, str "cd"); (8, str "ls")].
Proof. vm_compute. reflexivity. Qed.
Example history_add_ex2 :
  option_map (map (fun e => (e_num e, e_val e)))
    (add_line 3 100000 2 any_graph 0 (str "vi") [mkEntry 5 0 (str "ls"); mkEntry 6 0 (str "ls"); mkEntry 7 0 (str "cd")]) =
  Some [(6, str "ls"); (7, str "cd"); (8, str "vi")].
Proof. vm_compute. reflexivity. Qed.
