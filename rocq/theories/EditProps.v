(** Theorems about editing a line. *)
From Coq Require Import Ascii String.
From Coq Require Import List NArith ZArith Bool Arith Lia.
From Verif Require Import Common EditModel EditSpec Edit.
Import ListNotations.
Local Open Scope nat_scope.

(** * C106: commands do not fail and keep the cursor in the line *)
(** In all states and for all commands: a command fails an assertion exactly if it puts no
    copies of a killed text at the beginning of a line; otherwise the cursor is in the line
    afterwards, in vi command mode on a character. *)
Theorem edit_commands_safe : forall v s log c,
  reach v s log -> cmd_ok s c ->
  (invoke v c s = None <-> bad_put s log c)
  /\ (forall s', invoke v c s = Some s' ->
      idx (ln s') <= length (buf (ln s'))
      /\ (vicmd s' = true -> buf (ln s') <> [] -> idx (ln s') < length (buf (ln s')))).
Proof.
  intros v s log c R OK. pose proof (reach_inv _ _ _ R) as I.
  destruct (invoke_ok v s log c I OK) as [(A & E)|(A & s1 & E & J & _ & _ & _ & V)]; rewrite E.
  - split; [tauto|discriminate].
  - split; [split; [discriminate|contradiction]|]. intros s' Q. injection Q as <-. split; [apply (n_idx _ _ _ J)|exact V].
Qed.
Print Assumptions edit_commands_safe.

Definition v0 : nat -> list N := fun n => match n with O => str "ls -l" | _ => str "cd /" end.
Definition s0 : est := start_edit (mkRing (repeat None KILL_RING_SIZE) 0 0 0 0) false.
Definition plain (del copy : bool) : mec := mkMec copy None Move del false.
Definition type (t : list N) : list cmd := map (CInsert 1) t.
Definition text (o : option est) : option (list N * nat) := match o with Some s => Some (buf (ln s), idx (ln s)) | None => None end.
Lemma run_reach v s cs s' : run v s cs s' -> forall log, reach v s log -> exists log', reach v s' log'.
Proof. induction 1; intros log R; [eauto|]. eapply IHrun. eapply reach_cmd; eauto. Qed.

(** The defect: with the text [ab] killed (C-u), [ESC 0 C-y] on the empty line fails the
    assertion (lineedit/editing.c 2174). *)
Theorem edit_put_zero_refuted : exists v s log, reach v s log /\ invoke v (CPut false false 0) s = None.
Proof.
  assert (X : exists s, invokes v0 (type (str "ab") ++ [CMotion (plain true true) 0 false false]) s0 = Some s
    /\ run v0 s0 (type (str "ab") ++ [CMotion (plain true true) 0 false false]) s /\ invoke v0 (CPut false false 0) s = None).
  { eexists. split; [vm_compute; reflexivity|]. split; [|vm_compute; reflexivity].
    eapply run_cons; [exact I|vm_compute; reflexivity|]. eapply run_cons; [exact I|vm_compute; reflexivity|].
    eapply run_cons; [cbn; lia|vm_compute; reflexivity|]. apply run_nil. }
  destruct X as (s & _ & RN & E). destruct (run_reach _ _ _ _ RN [] (reach_init v0)) as (log & R).
  exists v0, s, log. split; assumption.
Qed.
Print Assumptions edit_put_zero_refuted.
(** A count of one is fine. *)
Example edit_put_one :
  text (invokes v0 (type (str "ab") ++ [CMotion (plain true true) 0 false false; CPut false false 1]) s0) = Some (str "ab", 2).
Proof. vm_compute. reflexivity. Qed.

(** * C107: undoing *)
(** After [k] commands each of which saves and changes the line, undoing [k] times restores
    the text and the cursor. *)
Theorem undo_restores : forall v s log cs s1,
  reach v s log -> changes v s cs s1 -> cs <> [] ->
  exists s2, invoke v (CUndo (- Z.of_nat (length cs))) s1 = Some s2
    /\ buf (ln s2) = buf (ln s) /\ ((vicmd s1 = true -> vicmd s = true) -> idx (ln s2) = idx (ln s)).
Proof. exact undo_changes_ok. Qed.
Print Assumptions undo_restores.

(** Undoing and cancelling that is no change: after undoing [n] times, cancelling as many
    ([m] = [n], fewer only if the original line was reached) restores the line. *)
Theorem undo_cancel_undo : forall v s log n s1,
  reach v s log -> 1 <= n -> invoke v (CUndo (- Z.of_nat n)) s = Some s1 ->
  exists m s2, m <= n /\ (m < n -> buf (ln s1) = val_of v (ment s))
    /\ invoke v (CUndo (Z.of_nat m)) s1 = Some s2 /\ buf (ln s2) = buf (ln s) /\ idx (ln s2) = idx (ln s).
Proof. exact undo_redo_ok. Qed.
Print Assumptions undo_cancel_undo.

(** Undoing all gives the line with which editing began: the value of the entry of the
    history being edited, or the empty line. *)
Theorem undo_all_original : forall v vb sb log cs s n,
  reach vb sb log -> run v (start_edit (kr sb) (popok sb)) cs s -> length cs < n ->
  exists s', invoke v (CUndo (- Z.of_nat n)) s = Some s' /\ buf (ln s') = val_of v (ment s).
Proof. exact undo_all_ok. Qed.
Print Assumptions undo_all_original.

(** After a change nothing that was undone before can come back. *)
Theorem undo_change_drops : forall v s log cs s1 n,
  reach v s log -> changes v s cs s1 -> cs <> [] ->
  exists s2, invoke v (CUndo (Z.of_nat n)) s1 = Some s2 /\ buf (ln s2) = buf (ln s1).
Proof. intros v s log cs s1 n R. apply (redo_after_change v s log). apply reach_inv, R. Qed.
Print Assumptions undo_change_drops.

(** The [r] command of vi does not save the line: [rx], [ry] and [u] give the line before
    both. *)
Theorem undo_replace_refuted : exists v s log c s1 s2,
  reach v s log /\ invoke v (CReplace 1 c) s = Some s1 /\ buf (ln s1) <> buf (ln s)
  /\ invoke v (CUndo (-1)) s1 = Some s2 /\ buf (ln s2) <> buf (ln s).
Proof.
  assert (X : exists s s1 s2, run v0 s0 (type (str "ab") ++ [CMode true false true; CReplace 1 (ch "x")]) s
    /\ invoke v0 (CReplace 1 (ch "y")) s = Some s1 /\ buf (ln s1) <> buf (ln s)
    /\ invoke v0 (CUndo (-1)) s1 = Some s2 /\ buf (ln s2) <> buf (ln s)).
  { eexists _, _, _. split.
    - eapply run_cons; [exact I|vm_compute; reflexivity|]. eapply run_cons; [exact I|vm_compute; reflexivity|].
      eapply run_cons; [exact I|vm_compute; reflexivity|]. eapply run_cons; [exact I|vm_compute; reflexivity|]. apply run_nil.
    - split; [vm_compute; reflexivity|]. split; [vm_compute; discriminate|]. split; [vm_compute; reflexivity|vm_compute; discriminate]. }
  destruct X as (s & s1 & s2 & RN & E & N & E2 & N2). destruct (run_reach _ _ _ _ RN [] (reach_init v0)) as (log & R).
  exists v0, s, log, (ch "y"), s1, s2. auto 6.
Qed.
Print Assumptions undo_replace_refuted.

(** Two words are typed and killed one after the other; undoing twice gives them back. *)
Example undo_restores_case :
  exists s1, changes v0 (match invokes v0 (type (str "ab cd")) s0 with Some s => s | None => s0 end)
    [CMotion (plain true true) 3 false false; CMotion (plain true true) 0 false false] s1
    /\ buf (ln s1) = [] /\ text (invoke v0 (CUndo (-2)) s1) = Some (str "ab cd", 5).
Proof.
  eexists. split; [|split].
  - eapply changes_cons; [vm_compute; intros (_ & Q & _); discriminate|vm_compute; lia|vm_compute; reflexivity|vm_compute; discriminate|].
    eapply changes_cons; [vm_compute; intros (_ & Q & _); discriminate|vm_compute; lia|vm_compute; reflexivity|vm_compute; discriminate|].
    apply changes_nil.
  - reflexivity.
  - vm_compute. reflexivity.
Qed.
(** Undoing five times where two changes are there, then cancelling two *)
Example undo_cancel_case :
  text (invokes v0 (type (str "ab cd") ++ [CMotion (plain true true) 3 false false; CUndo (-5)]) s0) = Some ([], 0)
  /\ text (invokes v0 (type (str "ab cd") ++ [CMotion (plain true true) 3 false false; CUndo (-5); CUndo 2]) s0) = Some (str "ab ", 3).
Proof. vm_compute. split; reflexivity. Qed.
(** Editing an entry of the history *)
Example undo_all_case :
  text (invokes v0 ([CGo (Some 0) SEmacs] ++ type (str "xy") ++ [CMotion (plain true true) 2 false false; CUndo (-9)]) s0) = Some (str "ls -l", 5).
Proof. vm_compute. reflexivity. Qed.

(** * C108: killed texts can be put back *)
(** Killing a text and putting it back at once gives the line again. *)
Theorem kill_then_put : forall v s log m new incl back s1,
  reach v s log -> new <= length (buf (ln s)) ->
  m_copy m = true -> m_del m = true -> m_case m = None -> ow s = None -> vicmd s = false ->
  kills s (CMotion m new incl back) <> [] ->
  invoke v (CMotion m new incl back) s = Some s1 ->
  exists s2, invoke v (CPut false false 1) s1 = Some s2 /\ buf (ln s2) = buf (ln s).
Proof. exact kill_put_ok. Qed.
Print Assumptions kill_then_put.

(** Putting and then replacing what was put [j] times gives the text killed [j] kills ago,
    going round the last 32 killed texts; nothing else in the line changes. *)
Theorem put_pop_cycles : forall v s log after on_last j,
  reach v s log -> log <> [] ->
  exists s', invokes v (CPut after on_last 1 :: repeat (CPop 1) j) s = Some s'
    /\ let p := put_place after (ln s) in
       buf (ln s') = firstn p (buf (ln s)) ++ nth (j mod min 32 (length log)) log [] ++ skipn p (buf (ln s)).
Proof.
  intros v s log after on_last j R NE. destruct (put_pops_ok v s log after on_last j R NE) as (s' & E & P).
  exists s'. split; [exact E|]. apply (q_buf _ _ _ _ _ _ P).
Qed.
Print Assumptions put_pop_cycles.
Example put_pop_case :
  let kills := type (str "ab cd") ++ [CMotion (plain true true) 3 false false; CMotion (plain true true) 2 false false; CMotion (plain true true) 0 false false] in
  text (invokes v0 (kills ++ [CPut false false 1]) s0) = Some (str "ab", 2)
  /\ text (invokes v0 (kills ++ [CPut false false 1; CPop 1; CPop 1]) s0) = Some (str "cd", 2)
  /\ text (invokes v0 (kills ++ [CPut false false 1; CPop 1; CPop 1; CPop 1]) s0) = Some (str "ab", 2).
Proof. vm_compute. auto. Qed.

(** * C109: looking at the history does not lose the line *)
(** Moving to any entries and back to the line that was edited gives its text. *)
Theorem history_moves_keep : forall v s log es c,
  reach v s log ->
  exists s', invokes v (moves (es ++ [(ment s, c)])) s = Some s' /\ buf (ln s') = buf (ln s) /\ ment s' = ment s.
Proof. exact moves_keep_ok. Qed.
Print Assumptions history_moves_keep.
Example history_moves_case :
  text (invokes v0 (type (str "ab") ++ moves [(Some 0, SEmacs); (Some 1, SVi)]) s0) = Some (str "cd /", 0)
  /\ text (invokes v0 (type (str "ab") ++ moves [(Some 0, SEmacs); (Some 1, SVi); (None, SVi)]) s0) = Some (str "ab", 2).
Proof. vm_compute. auto. Qed.
(** But an edit of another entry on the way loses it: the undo history is for one entry. *)
Theorem history_edit_loses_refuted : exists v s log cs s',
  reach v s log /\ run v s cs s' /\ ment s' = ment s /\ buf (ln s') <> buf (ln s)
  /\ Forall (fun c => match c with CGo _ _ | CInsert _ _ => True | _ => False end) cs
  /\ (exists c1 k c2 c3, cs = [CGo (Some 0) c1; CInsert 1 k; CGo (Some 1) c2; CGo None c3]).
Proof.
  assert (X : exists s s', run v0 s0 (type (str "ab")) s
    /\ run v0 s [CGo (Some 0) SEmacs; CInsert 1 (ch "x"); CGo (Some 1) SEmacs; CGo None SEmacs] s' /\ ment s' = ment s /\ buf (ln s') <> buf (ln s)).
  { eexists _, _. split; [|split].
    - eapply run_cons; [exact I|vm_compute; reflexivity|]. eapply run_cons; [exact I|vm_compute; reflexivity|]. apply run_nil.
    - eapply run_cons; [exact I|vm_compute; reflexivity|]. eapply run_cons; [exact I|vm_compute; reflexivity|].
      eapply run_cons; [exact I|vm_compute; reflexivity|]. eapply run_cons; [exact I|vm_compute; reflexivity|]. apply run_nil.
    - split; [vm_compute; reflexivity|vm_compute; discriminate]. }
  destruct X as (s & s' & RN & RN2 & E & N). destruct (run_reach _ _ _ _ RN [] (reach_init v0)) as (log & R).
  exists v0, s, log, [CGo (Some 0) SEmacs; CInsert 1 (ch "x"); CGo (Some 1) SEmacs; CGo None SEmacs], s'.
  split; [exact R|]. split; [exact RN2|]. split; [exact E|]. split; [exact N|]. split; [repeat constructor|]. eauto 6.
Qed.
Print Assumptions history_edit_loses_refuted.
