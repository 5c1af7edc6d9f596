(** Properties of the history file. *)
From Coq Require Import Ascii String.
From Coq Require Import List NArith ZArith Bool Arith Lia.
From Verif Require Import Common Locale NumModel HistModel HistSpec HistProof HistProps HistFileModel HistFile.
Import ListNotations.
Local Open Scope N_scope.

Lemma params_max : forall s, let '(size, max) := hist_params s in max < 2 ^ 64.
Proof.
  intro s. unfold hist_params. change (2 ^ 64) with 18446744073709551616.
  set (s2 := if _ =? 0 then _ else _). destruct (100000 <? 2 * s2), (1000000 <? 2 * s2); lia.
Qed.

(** ** C104: shells that share the history file share one history *)
(** Whatever the shells do in whatever order, the history that any shell sees next, an
    old shell or a new one, is that of a single shell that did all of it in that order.
    The clock must not go back and lines must be shorter than LINE_MAX bytes. *)
Theorem shared_history : forall newsize rmdups graph L bytes evs,
  let '(size, max) := hist_params newsize in
  locale_ok L -> clock 0 evs -> Forall (short_event bytes) evs -> (2 * Z.of_nat (length evs) <= LONG_MAX)%Z ->
  match run L size max rmdups graph bytes evs (fun _ => new_shell) (mkFile 0 []) with
  | None => steps size max rmdups graph (flat_map meaning evs) [] = None
  | Some (shs, f) => exists l,
      steps size max rmdups graph (flat_map meaning evs) [] = Some l /\
      (forall i now, (last_time 0 evs <= now <= LONG_MAX)%Z -> update L size max rmdups graph now (shs i) f = Some l)
  end.
Proof.
  intros newsize rmdups graph L bytes evs. pose proof (params_ok newsize) as P. pose proof (params_max newsize) as M.
  destruct (hist_params newsize) as [size max]. destruct P as [P1 P2]. intros Lok Ck Sh Hl.
  pose proof (run_ok L Lok size max rmdups graph bytes P1 P2 M evs 0 [] _ _
    (inv_start L size max rmdups graph bytes P1 P2 M) ltac:(lia) Ck Sh Hl) as R.
  destruct (run L size max rmdups graph bytes evs (fun _ => new_shell) (mkFile 0 [])) as [[shs f]|]; [|exact R].
  destruct R as (l & R1 & R2). exists l. split; [exact R1|]. intros i now Hn. eapply inv_update; eassumption.
Qed.
Print Assumptions shared_history.

(** The shell that acted last has this history in memory already. *)
Theorem shared_history_memory : forall newsize rmdups graph L bytes evs ev shs f,
  let '(size, max) := hist_params newsize in
  locale_ok L -> clock 0 (evs ++ [ev]) -> Forall (short_event bytes) (evs ++ [ev]) ->
  (2 * Z.of_nat (length (evs ++ [ev])) <= LONG_MAX)%Z ->
  run L size max rmdups graph bytes (evs ++ [ev]) (fun _ => new_shell) (mkFile 0 []) = Some (shs, f) ->
  steps size max rmdups graph (flat_map meaning (evs ++ [ev])) [] = Some (s_mem (shs (ev_shell ev))).
Proof.
  intros newsize rmdups graph L bytes evs ev shs f. pose proof (params_ok newsize) as P. pose proof (params_max newsize) as M.
  destruct (hist_params newsize) as [size max]. destruct P as [P1 P2]. intros Lok Ck Sh Hl R.
  assert (G : forall evs t l shs0 f0, inv L size max rmdups graph bytes t l shs0 f0 -> (0 <= t)%Z -> clock t (evs ++ [ev]) ->
    Forall (short_event bytes) (evs ++ [ev]) -> (f_rev f0 + 2 * Z.of_nat (length (evs ++ [ev])) <= LONG_MAX)%Z ->
    run L size max rmdups graph bytes (evs ++ [ev]) shs0 f0 = Some (shs, f) ->
    steps size max rmdups graph (flat_map meaning (evs ++ [ev])) l = Some (s_mem (shs (ev_shell ev)))).
  { clear R Ck Sh Hl evs. induction evs as [|e evs IH]; intros t l shs0 f0 I Ht Ck Sh Hl R; cbn [app run flat_map] in *;
      destruct Ck as [Ck1 Ck2]; inversion Sh; subst; cbn [length] in Hl.
    - pose proof (exec_ok L Lok size max rmdups graph bytes P1 P2 M t l shs0 f0 ev I ltac:(lia) ltac:(lia) ltac:(assumption) ltac:(lia)) as E.
      destruct (exec L size max rmdups graph bytes ev shs0 f0) as [[shs1 f1]|]; [|discriminate].
      inversion R; subst. destruct E as (l1 & E1 & _ & _ & E4). rewrite app_nil_r, E4. exact E1.
    - pose proof (exec_ok L Lok size max rmdups graph bytes P1 P2 M t l shs0 f0 e I ltac:(lia) ltac:(lia) ltac:(assumption) ltac:(lia)) as E.
      destruct (exec L size max rmdups graph bytes e shs0 f0) as [[shs1 f1]|]; [|discriminate].
      destruct E as (l1 & E1 & E2 & E3 & _). rewrite steps_app, E1.
      apply (IH (ev_now e) l1 shs1 f1); [assumption|lia|assumption|assumption|lia|exact R]. }
  apply (G evs 0%Z [] _ _ (inv_start L size max rmdups graph bytes P1 P2 M)); [lia|assumption..].
Qed.
Print Assumptions shared_history_memory.

Definition len (s : list N) : N := N.of_nat (length s).
(** Not vacuous: three shells; the second refreshes the file, the third comes late *)
Definition ex_evs : list event := [
  mkEvent 0 1 false [] FRenumber; mkEvent 0 1 false [] (FPid (str "100"));
  mkEvent 0 2 false [] (FAdd (str "ls")); mkEvent 1 3 true [str "100"] (FPid (str "101"));
  mkEvent 1 4 false [] (FAdd (str "cd /
ls -l")); mkEvent 0 5 false [] (FAdd (str "make")); mkEvent 1 6 false [] (FDelete (ONum 2));
  mkEvent 0 7 false [] (FAdd (str "ls -l")); mkEvent 2 8 true [str "100"; str "101"] (FAdd (str "exit"));
  mkEvent 0 8 false [] FCancel ].
Example ex_evs_ok : clock 0 ex_evs /\ Forall (short_event len) ex_evs /\ (2 * Z.of_nat (length ex_evs) <= LONG_MAX)%Z.
Proof.
  split; [cbn; unfold LONG_MAX; lia|]. split; [|cbn; unfold LONG_MAX; lia].
  repeat (constructor; [cbn; try exact I; unfold short_lines, LINE_MAX; repeat (constructor; [cbn; lia|]); constructor|]). constructor.
Qed.
Example ex_evs_run :
  match run c_locale 500 100000 1 any_graph len ex_evs (fun _ => new_shell) (mkFile 0 []) with
  | Some (shs, f) =>
      update c_locale 500 100000 1 any_graph 9 (shs 1%nat) f =
        Some [mkEntry 1 2 (str "ls"); mkEntry 3 4 (str "ls -l"); mkEntry 4 5 (str "make"); mkEntry 5 7 (str "ls -l")] /\
      s_mem (shs 1%nat) = [mkEntry 1 2 (str "ls"); mkEntry 3 4 (str "ls -l"); mkEntry 4 5 (str "make")] /\
      f_lines f = [str "p100"; str "p101"; str "1:2 ls"; str "3:4 ls -l"; str "4:5 make"; str "5:7 ls -l"; str "6:8 exit"; str "c"]
  | None => False
  end.
Proof. vm_compute. repeat split. Qed.

(** A line of 2048 bytes is not written to the file: another shell does not see it, and
    gives its number to another line; then it is lost in the first shell, too. *)
Theorem shared_history_long_refuted : exists s evs shs f,
  ~ In 10 s /\ evs = [mkEvent 0 1 false [] (FAdd s); mkEvent 1 2 false [] (FAdd (str "b"))] /\
  run c_locale 500 100000 0 any_graph len evs (fun _ => new_shell) (mkFile 0 []) = Some (shs, f) /\
  steps 500 100000 0 any_graph (flat_map meaning evs) [] = Some [mkEntry 1 1 s; mkEntry 2 2 (str "b")] /\
  s_mem (shs 0%nat) = [mkEntry 1 1 s] /\
  update c_locale 500 100000 0 any_graph 3 (shs 0%nat) f = Some [mkEntry 1 2 (str "b")].
Proof.
  exists (repeat (ch "a") 2048). eexists _, _, _. split.
  - intro H. apply repeat_spec in H. discriminate.
  - split; [reflexivity|]. split; [vm_compute; reflexivity|]. repeat split; vm_compute; reflexivity.
Qed.
Print Assumptions shared_history_long_refuted.
(** When the clock goes back, the time of an entry depends on the shell. *)
Theorem shared_history_clock_refuted : exists evs shs f,
  run c_locale 500 100000 0 any_graph len evs (fun _ => new_shell) (mkFile 0 []) = Some (shs, f) /\
  s_mem (shs 0%nat) = [mkEntry 1 9 (str "a")] /\ s_mem (shs 1%nat) = [mkEntry 1 5 (str "a")].
Proof.
  exists [mkEvent 0 9 false [] (FAdd (str "a")); mkEvent 1 5 false [] FRead]. eexists _, _.
  split; [vm_compute; reflexivity|]. split; vm_compute; reflexivity.
Qed.
Print Assumptions shared_history_clock_refuted.

(** ** C101 again: a number that is there *)
Theorem history_delete_number : forall size max l1 e l2, 1 <= size -> 2 * size <= max -> max < 2 ^ 64 ->
  well_formed size max (l1 ++ e :: l2) ->
  history_delete max (ONum (Z.of_N (e_num e))) (l1 ++ e :: l2) = Some (l1 ++ l2).
Proof.
  intros size max l1 e l2 P1 P2 M W. unfold history_delete, delete_target.
  destruct (Z.geb_spec (Z.of_N (e_num e)) 0); [|lia]. rewrite N2Z.id.
  rewrite (search_present size max (fun _ => true)) by assumption. rewrite Nat.eqb_refl, (remove_at_app size max (fun _ => true)) by assumption. reflexivity.
Qed.
Print Assumptions history_delete_number.
Example history_delete_number_ex : history_delete 100000 (ONum 3) ex_l =
  Some (map (fun n => mkEntry n 0 (str "echo")) [99990; 99993; 99994; 4]).
Proof.
  apply (history_delete_number 500 100000 (map (fun n => mkEntry n 0 (str "echo")) [99990; 99993; 99994]) (mkEntry 3 0 (str "echo"))
    [mkEntry 4 0 (str "echo")]); [lia|lia|reflexivity|exact ex_wf].
Qed.

(** ** The file as a text *)
Definition single (x : list N) : Prop := ~ In 10 x.
Definition single_val (e : entry) : Prop := single (e_val e).
Lemma hex_single : forall n, single (hex n).
Proof.
  intros n H. destruct (hex_ok n) as (A & _ & _). apply NumProofs.numeral_iff in A; [|lia]. destruct A as (_ & A & _).
  revert A H. generalize (hex n). induction l as [|c l IH]; cbn; [tauto|]. intros [A1 A2] [->|H]; [vm_compute in A1; discriminate|auto].
Qed.
Lemma single_app : forall a b, single (a ++ b) <-> single a /\ single b.
Proof. intros. unfold single. rewrite in_app_iff. tauto. Qed.
Lemma single_cons : forall c a, c <> 10 -> single a -> single (c :: a).
Proof. intros c a N H [E|E]; [congruence|auto]. Qed.
Lemma write_single : forall bytes e, single_val e -> Forall single (write_entry bytes e).
Proof.
  intros bytes e H. unfold write_entry. destruct (LINE_MAX <=? bytes (e_val e)); [constructor|].
  destruct (e_time e >=? 0)%Z; (constructor; [|constructor]); apply single_app; split; try apply hex_single; apply single_cons; try discriminate; [|assumption].
  apply single_app. split; [apply hex_single|]. apply single_cons; [discriminate|assumption].
Qed.
Lemma rmdup_single : forall k line r, Forall single (rmdup_lines k line r).
Proof.
  induction k as [|k IH]; intros line [|e r]; cbn [rmdup_lines]; try constructor.
  destruct (list_N_eqb (e_val e) line); [|apply IH]. constructor; [|apply IH]. apply single_cons; [discriminate|apply hex_single].
Qed.
Lemma single_without : forall r l, without r l -> Forall single_val l -> Forall single_val r.
Proof. intros r l W F. rewrite Forall_forall in F |- *. intros e He. apply F. eapply without_in; eassumption. Qed.
Section Text.
Variable size max : N.
Variable rmdups : nat.
Variable graph : N -> bool.
Variable bytes : list N -> N.
Lemma add_line_single : forall now line l l' w, add_line_w size max rmdups graph bytes now line l = Some (l', w) ->
  single line -> Forall single_val l -> Forall single_val l' /\ Forall single w.
Proof.
  intros now line l l' w H S F. unfold add_line_w in H. destruct (existsb graph line); [|inversion H; subst; auto].
  set (l1 := rev (rmdup rmdups line (rev l))) in *.
  assert (Wo : without l1 l). { unfold l1. rewrite <- (rev_involutive l) at 2. apply without_rev. apply rmdup_without. }
  destruct (new_entry size max (next_number max l1) now line l1) as [l2|] eqn:E; [|discriminate]. inversion H; subst.
  split; [|apply Forall_app; split; [apply rmdup_single|apply write_single; exact S]].
  unfold new_entry in E. destruct ((0 <? next_number max l1) && (next_number max l1 <=? max)); [|discriminate].
  set (n := next_number max l1) in *. destruct (count _ <=? size); inversion E; subst. apply Forall_app. split; [|constructor; [exact S|constructor]].
  eapply single_without; [|exact F]. eapply without_trans; [|exact Wo]. destruct (evict_suffix size n l1) as [d Ed]. rewrite Ed at 2. apply without_suffix.
Qed.
Lemma add_lines_single : forall s now cur l l' w, add_lines_w size max rmdups graph bytes now cur s l = Some (l', w) ->
  single cur -> Forall single_val l -> Forall single_val l' /\ Forall single w.
Proof.
  induction s as [|c s IH]; intros now cur l l' w H S F; cbn [add_lines_w] in H; [eapply add_line_single; eassumption|].
  destruct (N.eqb_spec c 10) as [E|E].
  - destruct (add_line_w size max rmdups graph bytes now cur l) as [[l1 w1]|] eqn:A; [|discriminate].
    destruct (add_line_single _ _ _ _ _ A S F) as [A1 A2].
    destruct (add_lines_w size max rmdups graph bytes now [] s l1) as [[l2 w2]|] eqn:B; [|discriminate]. inversion H; subst.
    destruct (IH _ _ _ _ _ B (fun x => x) A1) as [B1 B2]. split; [assumption|]. apply Forall_app. split; assumption.
  - eapply IH; [exact H| |exact F]. apply single_app. split; [assumption|]. intros [X|[]]. congruence.
Qed.
Definition single_event (ev : event) : Prop :=
  Forall single (ev_pids ev) /\ match ev_op ev with FPid s => single s | _ => True end.
Lemma refresh_single : forall pids l f, Forall single pids -> Forall single_val l -> Forall single (f_lines (refresh bytes pids l f)).
Proof.
  intros pids l f P F. cbn [refresh f_lines]. apply Forall_app. split.
  - apply Forall_map. eapply Forall_impl; [|exact P]. intros x H. apply single_cons; [discriminate|assumption].
  - induction F; cbn [flat_map]; [constructor|]. apply Forall_app. split; [apply write_single|]; assumption.
Qed.
Lemma act_single : forall now o l l' c, act size max rmdups graph bytes now o l = Some (l', c) -> Forall single_val l ->
  match o with FPid s => single s | _ => True end ->
  Forall single_val l' /\ match c with Append ls => Forall single ls | Rewrite => True end.
Proof.
  intros now o l l' c H F Sg. destruct o as [s|o| | | | | |s]; cbn [act] in H.
  - destruct (add_lines_w size max rmdups graph bytes now [] s l) as [[l1 w]|] eqn:E; inversion H; subst.
    eapply add_lines_single; [exact E|intros []|assumption].
  - destruct (delete_target max o l) as [|[p|] [q|]]; try discriminate; try (inversion H; subst; split; [assumption|constructor]).
    destruct (p =? q)%nat; inversion H; subst; (split; [|repeat constructor]); [|apply single_cons; [discriminate|apply hex_single]|assumption].
    eapply single_without; [apply (remove_at_without 1 (N.le_refl 1))|exact F].
  - inversion H; subst. split; [eapply single_without; [apply removelast_without|exact F]|]. constructor; [|constructor]. intros [X|[]]. discriminate.
  - inversion H; subst. split; constructor.
  - inversion H; subst. split; [assumption|constructor].
  - inversion H; subst. split; [assumption|constructor].
  - inversion H; subst. split; [|constructor]. clear H. generalize 0. induction F; intro k; cbn [renumber]; [constructor|]. constructor; auto.
  - inversion H; subst. split; [assumption|]. constructor; [|constructor]. apply single_cons; [discriminate|assumption].
Qed.
End Text.
Lemma lines_of_app : forall x s, single x -> lines_of (x ++ 10 :: s) = x :: lines_of s.
Proof.
  induction x as [|c x IH]; intros s H; [reflexivity|]. cbn [app lines_of].
  destruct (N.eqb_spec c 10) as [->|N]; [exfalso; apply H; left; reflexivity|].
  rewrite IH; [reflexivity|]. intro I. apply H. right. assumption.
Qed.
Lemma single_lines : forall ls, Forall single ls -> lines_of (flat_map (fun x => x ++ [10]) ls) = ls ++ [[]].
Proof.
  intros ls F. induction F as [|x ls H F IH]; [reflexivity|]. cbn [flat_map app]. rewrite <- app_assoc. cbn [app].
  rewrite lines_of_app by assumption. rewrite IH. reflexivity.
Qed.
(** The file can be read line by line: no line of it contains a newline, whatever text
    was added. *)
Theorem history_file_text : forall newsize rmdups graph L bytes evs shs f,
  let '(size, max) := hist_params newsize in
  locale_ok L -> clock 0 evs -> Forall (short_event bytes) evs -> (2 * Z.of_nat (length evs) <= LONG_MAX)%Z ->
  Forall single_event evs ->
  run L size max rmdups graph bytes evs (fun _ => new_shell) (mkFile 0 []) = Some (shs, f) ->
  lines_of (flat_map (fun x => x ++ [10]) (f_lines f)) = f_lines f ++ [[]].
Proof.
  intros newsize rmdups graph L bytes evs shs f. pose proof (params_ok newsize) as P. pose proof (params_max newsize) as M.
  destruct (hist_params newsize) as [size max]. destruct P as [P1 P2]. intros Lok Ck Sh Hl Si R.
  apply single_lines.
  assert (G : forall evs t l shs0 f0, inv L size max rmdups graph bytes t l shs0 f0 -> (0 <= t)%Z -> clock t evs ->
    Forall (short_event bytes) evs -> (f_rev f0 + 2 * Z.of_nat (length evs) <= LONG_MAX)%Z -> Forall single_event evs ->
    Forall single_val l -> Forall single (f_lines f0) ->
    run L size max rmdups graph bytes evs shs0 f0 = Some (shs, f) -> Forall single (f_lines f)).
  { clear R Ck Sh Hl Si evs. induction evs as [|ev evs IH]; intros t l shs0 f0 I Ht Ck Sh Hl Si Sl Sf R; cbn [run] in R.
    - inversion R; subst. assumption.
    - destruct Ck as [Ck1 Ck2]. inversion Sh; subst. inversion Si as [|? ? S1 S2]; subst. cbn [length] in Hl.
      pose proof (exec_ok L Lok size max rmdups graph bytes P1 P2 M t l shs0 f0 ev I ltac:(lia) ltac:(lia) ltac:(assumption) ltac:(lia)) as E.
      destruct (exec L size max rmdups graph bytes ev shs0 f0) as [[shs1 f1]|] eqn:X; [|discriminate].
      destruct E as (l1 & E1 & E2 & E3 & E4).
      apply (IH (ev_now ev) l1 shs1 f1); [assumption|lia|assumption|assumption|lia|assumption| | |exact R].
      + unfold exec in X. rewrite (inv_update _ _ _ _ _ _ _ _ _ _ I) in X by lia.
        destruct (act size max rmdups graph bytes (ev_now ev) (ev_op ev) l) as [[l2 c]|] eqn:A; [|discriminate].
        apply act_single in A; [|assumption|apply S1]. inversion X; subst. rewrite Nat.eqb_refl. cbn [s_mem]. apply A.
      + unfold exec in X. rewrite (inv_update _ _ _ _ _ _ _ _ _ _ I) in X by lia.
        destruct (act size max rmdups graph bytes (ev_now ev) (ev_op ev) l) as [[l2 c]|] eqn:A; [|discriminate].
        apply act_single in A; [|assumption|apply S1]. inversion X; subst. destruct S1 as [S1 _].
        destruct c as [ls|]; cbn [store]; [|apply refresh_single; [assumption|apply A]].
        cbn [f_lines]. apply Forall_app. split; [|apply A]. destruct (ev_refresh ev); [apply refresh_single|]; assumption. }
  eapply (G evs 0%Z [] _ _ (inv_start L size max rmdups graph bytes P1 P2 M)); [lia|assumption..|constructor|constructor|exact R].
Qed.
Print Assumptions history_file_text.
Example history_file_text_ex : Forall single_event ex_evs.
Proof.
  assert (D : forall x, existsb (N.eqb 10) x = false -> single x).
  { intros x H I. apply Bool.not_true_iff_false in H. apply H. apply existsb_exists. exists 10. split; [assumption|reflexivity]. }
  unfold ex_evs. repeat (apply Forall_cons; [split; [cbn [ev_pids]; repeat (apply Forall_cons; [apply D; reflexivity|]); apply Forall_nil
    |cbn [ev_op]; first [exact I|apply D; reflexivity]]|]). apply Forall_nil.
Qed.
