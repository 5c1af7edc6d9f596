(** Properties of command execution. *)
From Coq Require Import List NArith Bool Arith Lia.
From Verif Require Import Common ExecModel ExecSpec ExecOk ExecSim ExecProofs ExecDet ExecFuel ExecQuiet
  ExecFrame ExecWorld.
Import ListNotations.

Ltac spl := repeat match goal with |- _ /\ _ => split end.

(** ** C64: a script does what the structured semantics says *)

(** A script, read line by line, that ends at all ends with the files and the
    exit status that the structured semantics gives it; it is the only result
    that semantics gives; and nothing undefined happens.  [eof] tells whether
    the end of the file is seen on reading the last line. *)
Theorem C64_script_runs_as_structured_partial {O : os} (m : bool) n prog (w : W O) oe orr pf eof :
  os_ok O -> ok_lines m prog = true -> (m = false -> orr = false) ->
  match exec n (TLines prog false true eof) (boot w oe orr pf) with
  | Ok (Dead v st) =>
    ev cx0 (JProc (JLines prog false)) (s_d (boot w oe orr pf)) (Stop v st) /\
    (forall r, ev cx0 (JProc (JLines prog false)) (s_d (boot w oe orr pf)) r -> r = Stop v st)
  | Ok (Cont _) | UB => False
  | Fuel => True
  end.
Proof.
  intros OK P R.
  assert (H := SIM_all OK m n _ _ (boot_pre m prog w oe orr pf eof P R)).
  destruct (exec n (TLines prog false true eof) (boot w oe orr pf)) as [[s'|v st]| |]; cbn in H; auto.
  - destruct H as [H _]. discriminate H.
  - destruct H as (f & E & C).
    assert (X : ev cx0 (JProc (JLines prog false)) (s_d (boot w oe orr pf)) (Stop v st))
      by (eapply proc_of; eauto).
    split; [exact X|]. intros r E2.
    assert (D := ev_det _ _ _ _ X _ _ (eqv_refl _) E2).
    destruct r; cbn in D; [destruct D|]. destruct D. congruence.
Qed.
Print Assumptions C64_script_runs_as_structured_partial.

(** How much fuel is given does not matter. *)
Theorem C64_fuel {O : os} n n' t (s : sh O) a b :
  exec n t s = Ok a -> exec n' t s = Ok b -> a = b.
Proof. apply fuel_irrelevant. Qed.
Print Assumptions C64_fuel.

(** Loops left by [break 2] in a function, a trap whose action calls the
    function, an and-or list with a negated pipeline, a subshell that exits, and
    a [return] from the script. *)
Definition ex_loops : list (list andor) :=
  [[cp (BFundef (Some 1%N) (cc (BGroup
      [cp (BWhile true [sp (KBasic 0)]
        [cp (BFor 1 3 [sp (KBasic 1);
                       cp (BIf [([sp (KBasic 101)], [sp (KBasic 3)]); ([], [sp (KBreak 2)])]);
                       sp (KBasic 2)])])])))];
   [sp (KTrap 15 (Some [[sp (KBasic 8); sp (KCall 1)]]));
    AndOr false [Pipe true false [sc (KBasic 77)];
                 Pipe true false [sc (KCall 1)];
                 Pipe true true [sc (KBasic 4); sc (KBasic 105)];
                 Pipe false false [sc (KBasic 6)]]];
   [cp (BSub [sp (KBasic 7); sp (KExit (Some 9%N))])];
   [sp (KRet false None)]; [sp (KBasic 8)]].
Example ex_loops_ok : ok_lines true ex_loops = true.
Proof. reflexivity. Qed.
Example ex_loops_ends :
  ends 100 ex_loops [77; 8; 0; 1; 1; 101; 0; 1; 1; 101; 4; 105; 7]%N 9.
Proof. vm_compute. reflexivity. Qed.
Lemma run_spec m n prog v st : ok_lines m prog = true -> ends n prog v st -> spec prog v st.
Proof.
  intros P E.
  assert (H := C64_script_runs_as_structured_partial m n prog (O := tw) [] false false false false
                 tw_ok P ltac:(reflexivity)).
  unfold ends, run in E. rewrite E in H. apply H.
Qed.
Example ex_loops_spec : spec ex_loops [77; 8; 0; 1; 1; 101; 0; 1; 1; 101; 4; 105; 7]%N 9.
Proof. apply (run_spec true 100). - reflexivity. - apply ex_loops_ends. Qed.

(** With [m = false]: an EXIT trap. *)
Definition ex_trap : list (list andor) :=
  [[sp (KTrap 0 (Some [[sp (KBasic 5)]])); sp (KSet OErrexit true)];
   [cp (BIf [([sp (KBasic 101)], [sp (KBasic 1)])]); sp (KBasic 106); sp (KBasic 2)]].
Example ex_trap_ok : ok_lines false ex_trap = true.
Proof. reflexivity. Qed.
Example ex_trap_ends : ends 40 ex_trap [101; 106; 5]%N 6.
Proof. vm_compute. reflexivity. Qed.

(** Where the code departs from the structured semantics (see DESIGN.md). *)
Definition departs (prog : list (list andor)) : Prop :=
  exists n v st v' st', ends n prog v st /\ spec prog v' st' /\ (v, st) <> (v', st').
Ltac depart n v st v' st' :=
  exists n, v, st, v', st'; split; [vm_compute; reflexivity|split; [|intros X; discriminate X]];
  unfold spec, cp, sp, sc, cc, one;
  match goal with |- context [JLines ?p] => unfold p end; go.

(** [f() { if return 3; then echo 1; fi; }; f]: the status is 0. *)
Definition return_in_condition : list (list andor) :=
  [[cp (BFundef (Some 1%N) (cc (BGroup [cp (BIf [([sp (KRet false (Some 3%N))], [sp (KBasic 1)])])])))];
   [sp (KCall 1)]].
Theorem C64_return_in_condition_refuted : departs return_in_condition.
Proof. depart 30 (@nil N) 0%N (@nil N) 3%N. Qed.
Print Assumptions C64_return_in_condition_refuted.

(** [trap 'echo 5' TERM; f() { return $(signal); echo 6; }; f]: the action is
    lost and [echo 6] is executed. *)
Definition return_with_signal : list (list andor) :=
  [[sp (KTrap 15 (Some [[sp (KBasic 5)]]));
    cp (BFundef (Some 1%N)
          (cc (BGroup [one (Cmd None (BSimple (Some 15%N) (KRet false (Some 3%N)))); sp (KBasic 6)])))];
   [sp (KCall 1)]].
Theorem C64_return_with_signal_refuted : departs return_with_signal.
Proof. depart 60 [6%N] 0%N [5%N] 3%N. Qed.
Print Assumptions C64_return_with_signal_refuted.

(** The same with [continue]: the action is lost. *)
Definition continue_with_signal : list (list andor) :=
  [[sp (KTrap 15 (Some [[sp (KBasic 5)]]))];
   [cp (BFor 1 2 [one (Cmd None (BSimple (Some 15%N) (KCont 1)))])]].
Theorem C64_continue_with_signal_refuted : departs continue_with_signal.
Proof. depart 60 [1%N; 2%N] 0%N [1%N; 5%N; 2%N; 5%N] 0%N. Qed.
Print Assumptions C64_continue_with_signal_refuted.

(** [( for i in 1; do echo 1 | break; done )]: [break] is not in a loop of its
    process, but if the process is the last one of the subshell it is not told
    so and the status is 0 instead of 2. *)
Definition break_in_last_pipeline : list (list andor) :=
  [[cp (BSub [cp (BFor 1 1 [AndOr false [Pipe true false [sc (KBasic 1); sc (KBreak 1)]]])])]].
Theorem C65_last_pipeline_refuted : departs break_in_last_pipeline.
Proof. depart 60 [1%N; 1%N] 0%N [1%N; 1%N] 2%N. Qed.
Print Assumptions C65_last_pipeline_refuted.

(** [trap 'echo 5' EXIT; return 3]: the EXIT trap is not executed. *)
Definition return_to_exit_trap : list (list andor) :=
  [[sp (KTrap 0 (Some [[sp (KBasic 5)]]))]; [sp (KRet false (Some 3%N))]].
Theorem C69_return_to_exit_trap_refuted : departs return_to_exit_trap.
Proof. depart 60 (@nil N) 3%N [5%N] 3%N. Qed.
Print Assumptions C69_return_to_exit_trap_refuted.

(** ** C65: that a command is known to be the last one makes no difference *)

Theorem C65_end_of_file_unobservable_partial {O : os} (m : bool) n n' prog (w : W O) oe orr pf r r' :
  os_ok O -> ok_lines m prog = true -> (m = false -> orr = false) ->
  exec n (TLines prog false true true) (boot w oe orr pf) = Ok r ->
  exec n' (TLines prog false true false) (boot w oe orr pf) = Ok r' -> r = r'.
Proof.
  intros OK P R E E'.
  assert (H := C64_script_runs_as_structured_partial m n prog w oe orr pf true OK P R).
  assert (H' := C64_script_runs_as_structured_partial m n' prog w oe orr pf false OK P R).
  rewrite E in H. rewrite E' in H'.
  destruct r as [|v st], r' as [|v' st']; try contradiction.
  destruct H as [H _], H' as [_ H']. specialize (H' _ H). congruence.
Qed.
Print Assumptions C65_end_of_file_unobservable_partial.

(** The same for commands in the middle of execution: executing a list as the
    last thing the process does is executing it and then exiting.  [base] says
    that no jump is pending and that functions and traps are among the
    commands considered; [calm] that no trap action is due. *)
Theorem C65_finally_exit_unobservable_partial {O : os} (m : bool) l (s : sh O) n n1 v st r :
  os_ok O -> base m s -> calm (s_d s) -> ok_list m l = true ->
  s_ser s = false -> d_ex (s_d s) = None -> e_it (s_e s) = false ->
  exec n (TList l true) s = Ok (Dead v st) ->
  exec n1 (TList l false) s = Ok r ->
  match r with
  | Dead v' st' => v' = v /\ st' = st
  | Cont s1 => forall n2 r2, exec n2 (TExit None) s1 = Ok r2 -> r2 = Dead v st
  end.
Proof.
  intros OK B C P SR EX IT E E1.
  assert (P1 : pre m (TList l true) s) by (constructor; auto; discriminate).
  assert (P2 : pre m (TList l false) s) by (constructor; auto; discriminate).
  assert (G := SIM_all OK m n _ _ P1). assert (G1 := SIM_all OK m n1 _ _ P2).
  rewrite E in G. rewrite E1 in G1. cbn in G, G1. destruct G as (f & EV & CL).
  destruct r as [s1|v' st'].
  - destruct G1 as (_ & o & EV1 & R). intros n2 r2 E2.
    assert (D := ev_det _ _ _ _ EV _ _ (eqv_refl _) EV1).
    destruct f as [o0 d0|]; [|destruct D]. destruct D as [-> D].
    destruct CL as [CL|(_ & o1 & d1 & F & C1 & X1 & EX1)]; [discriminate CL|].
    injection F as <- <-.
    assert (H := exit_ok m n2 (fun k _ => SIM_all OK m k) n2 None s1 (le_n _) (r_inv _ _ _ _ _ R)).
    assert (CC : calm (s_d s1)).
    { destruct (r_calm _ _ _ _ _ R) as [?|(H1 & _)]; auto. discriminate H1. }
    specialize (H CC). rewrite E2 in H.
    assert (X : m = false -> s_x s1 = XNone).
    { intros M. assert (A := r_m _ _ _ _ _ R M). assert (A2 := r_flow _ _ _ _ _ R).
      destruct o; try contradiction; apply A2. }
    specialize (H X). destruct r2 as [|v2 st2]; cbn in H; [contradiction|].
    assert (EX2 : ev (cxs s) (JExit None) (s_d s1) (Stop v2 st2)).
    { eapply exit_cx; eauto; unfold cxs; cbn; apply (r_keep _ _ _ _ _ R). }
    assert (D2 := ev_det _ _ _ _ EX1 _ _ D EX2). destruct D2. congruence.
  - destruct G1 as (f1 & EV1 & [-> |(A & _)]); [|discriminate A].
    assert (D := ev_det _ _ _ _ EV _ _ (eqv_refl _) EV1).
    destruct f; [destruct D|]. destruct CL as [CL|(_ & o1 & d1 & F & _)]; [|discriminate F].
    injection CL as <- <-. destruct D; auto.
Qed.
Print Assumptions C65_finally_exit_unobservable_partial.

Example C65_case :
  exists s v st, base true s /\ calm (s_d s) /\ d_fn (s_d s) <> [] /\
    exec 60 (TList [sp (KCall 1); one (sc (KExt 103))] true) s = Ok (@Dead tw v st) /\ st <> 0%N.
Proof.
  exists (ss_d (sd_fn [(1%N, cc (BGroup [sp (KBasic 4); sp (KRet false None)]))] (s_d (boot (O := tw) [] true false false)))
           (boot (O := tw) [] true false false)), [4%N; 103%N], 3%N.
  spl; try (vm_compute; reflexivity); try discriminate.
  - constructor; cbn; auto. constructor; cbn; auto; try discriminate.
  - left. reflexivity.
Qed.

(** ** C66: function calls and dot scripts contain jumps *)

(** After a call the loops of the caller are exactly as before and no [break],
    [continue] or [return] is pending; the one jump that passes through a call
    is that of [break -i] or [continue -i] to an iteration around the call.
    There is no restriction on the functions. *)
Theorem C66_call_contains_jumps {O : os} f (s : sh O) n s' :
  need_break s = false -> exec n (TKind (KCall f) false) s = Ok (Cont s') ->
  s_e s' = s_e s /\ s_see s' = s_see s /\ s_ser s' = s_ser s /\
  (need_break s' = false \/
   (s_x s' = XBreakIter \/ s_x s' = XContinueIter) /\ e_it (s_e s) = true).
Proof.
  intros B E. apply not_free in B. destruct (call_contained n f s s' B E) as (A1 & A2 & A3 & A4).
  spl; auto. destruct A4 as [A4|A4]; auto. left. apply flow_norm; auto. rewrite A1. apply B.
Qed.
Print Assumptions C66_call_contains_jumps.

Theorem C66_dot_contains_jumps {O : os} ls (s : sh O) n s' :
  need_break s = false -> exec n (TKind (KDot ls) false) s = Ok (Cont s') ->
  s_e s' = s_e s /\ s_see s' = s_see s /\ s_ser s' = s_ser s /\
  (need_break s' = false \/
   (s_x s' = XBreakIter \/ s_x s' = XContinueIter) /\ e_it (s_e s) = true).
Proof.
  intros B E. apply not_free in B. destruct (dot_contained n ls s s' B E) as (A1 & A2 & A3 & A4).
  spl; auto. destruct A4 as [A4|A4]; auto. left. apply flow_norm; auto. rewrite A1. apply B.
Qed.
Print Assumptions C66_dot_contains_jumps.

(** Every list of commands leaves the number of loops around it, the iteration
    and what is suppressed as they were, and if it leaves a [continue] pending,
    then it is for one of those loops. *)
Theorem C66_lists_balanced {O : os} l (s : sh O) n s' :
  need_break s = false -> exec n (TList l false) s = Ok (Cont s') ->
  e_ln (s_e s') = e_ln (s_e s) /\ e_it (s_e s') = e_it (s_e s) /\
  s_see s' = s_see s /\ s_ser s' = s_ser s /\
  (s_x s' = XContinue -> 0 < e_bn (s_e s') <= e_ln (s_e s)) /\
  (s_x s' = XBreakIter \/ s_x s' = XContinueIter -> e_it (s_e s) = true).
Proof.
  intros B E. assert (H := frames n (TList l false) s (free_possible _ (not_free _ B))).
  unfold frame in H. rewrite E in H. destruct H as [[A1 A2 A3 A4 A5 [A6 A7]] _]. cbn in A3.
  spl; auto.
  - intros X. specialize (A6 X). rewrite A3 in A6. exact A6.
  - intros X. specialize (A7 X). congruence.
Qed.
Print Assumptions C66_lists_balanced.

(** [for i in 1 2; do f; echo 9; done] where the function does [break] (an
    error there), [continue] and [return 3]. *)
Example C66_case :
  ends 60 [[cp (BFundef (Some 1%N) (cc (BGroup [sp (KBreak 1); sp (KBasic 4);
              cp (BFor 1 3 [sp (KBasic 5); sp (KRet false (Some 3%N))]); sp (KBasic 6)])))];
           [cp (BFor 1 2 [sp (KCall 1); sp (KDot [[sp (KRet false None); sp (KBasic 7)]]); sp (KBasic 109)])]]
    [1; 4; 1; 5; 109; 2; 4; 1; 5; 109]%N 9.
Proof. vm_compute. reflexivity. Qed.

(** ** C67: errexit and errreturn *)

(** The errexit option has no effect on commands whose failure is tested: with
    and without it the condition of an if or while command has the same
    outcome, the same effects and the same status; so have the pipelines before
    the last in an and-or list and pipelines with an exclamation mark.  The two
    resulting states differ in the option itself at most. *)
Definition same_result {O : os} (r r' : out O) : Prop :=
  match r, r' with
  | Dead v st, Dead v' st' => v = v' /\ st = st'
  | Cont s, Cont s' => exists b, s' = ss_d (sd_oe b (s_d s)) s
  | _, _ => False
  end.
Lemma alike_result {O : os} (x y : res (out O)) r : alike x y -> x = Ok r ->
  exists r', y = Ok r' /\ same_result r r'.
Proof.
  intros A ->. destruct r, y as [[]| |]; cbn in A; try contradiction; eexists; split; try reflexivity; exact A.
Qed.
Theorem C67_errexit_ignored_in_conditions {O : os} l (s : sh O) b n r :
  exec n (TCond l) s = Ok r ->
  exists r', exec n (TCond l) (ss_d (sd_oe b (s_d s)) s) = Ok r' /\ same_result r r'.
Proof. apply alike_result, condition_alike. Qed.
Print Assumptions C67_errexit_ignored_in_conditions.

Theorem C67_errexit_ignored_in_and_or {O : os} ps c cs (s : sh O) b n r :
  exec n (TPipes true (ps ++ [Pipe c true cs]) false) s = Ok r ->
  exists r', exec n (TPipes true (ps ++ [Pipe c true cs]) false) (ss_d (sd_oe b (s_d s)) s) = Ok r'
    /\ same_result r r'.
Proof. apply alike_result, pipelines_alike. Qed.
Print Assumptions C67_errexit_ignored_in_and_or.

(** Where nobody tests the status, the shell does not go on after a pipeline
    that failed (unless it is a group, an if, a for, a while or a case
    command, whose parts count); with errreturn it may return instead. *)
Theorem C67_failure_ends {O : os} cs (s : sh O) n s' :
  need_break s = false -> plain cs ->
  exec n (TComs cs TyNormal) s = Ok (Cont s') ->
  (d_oe (s_d s') = true -> s_see s = false -> d_last (s_d s') = 0%N) /\
  (d_orr (s_d s') = true -> s_ser s = false -> e_nr (s_e s) = false ->
   d_last (s_d s') = 0%N \/ s_x s' = XReturn).
Proof.
  intros B PL E. apply (failure_ends n cs s s'); auto using not_free.
  destruct cs as [|[r []] []]; cbn in *; auto; contradiction.
Qed.
Print Assumptions C67_failure_ends.

(** [set -e; if false; false; then :; fi; false || false; (false)] ends there. *)
Example C67_case :
  ends 60 [[sp (KSet OErrexit true)];
           [cp (BIf [([sp (KBasic 101); sp (KBasic 102)], [sp (KBasic 1)])]);
            AndOr false [Pipe true false [sc (KBasic 103)]; Pipe false true [sc (KBasic 104)]];
            AndOr false [Pipe true true [sc (KBasic 0)]];
            cp (BWhile false [sp (KBasic 5)] [sp (KBasic 2)]);
            cp (BSub [sp (KBasic 6); sp (KBasic 107); sp (KBasic 8)]); sp (KBasic 9)]]
    [101; 102; 103; 104; 0; 5; 6; 107]%N 7.
Proof. vm_compute. reflexivity. Qed.

(** ** C68: traps are transparent *)

(** Executing the actions of the signals that have been caught leaves the
    status, the pending jumps (there are none) and the loops as they were, and
    afterwards nothing is pending. *)
Theorem C68_traps_transparent_partial {O : os} (m : bool) (s : sh O) n :
  os_ok O -> base m s ->
  match exec n TSigs s with
  | Ok (Cont s') =>
    s_x s' = s_x s /\ s_e s' = s_e s /\ s_see s' = s_see s /\ s_ser s' = s_ser s
    /\ d_last (s_d s') = d_last (s_d s) /\ (d_hand (s_d s) = false -> d_pend (s_d s') = [])
    /\ ev (cxs s) JSigs (s_d s) (Go ONorm (s_d s'))
  | Ok (Dead v st) => ev (cxs s) JSigs (s_d s) (Stop v st)
  | UB => False
  | Fuel => True
  end.
Proof.
  intros OK B.
  assert (H := sigs_ok m n (fun k _ => SIM_all OK m k) n s (le_n _) (b_inv _ _ B)
                 (or_intror (b_x _ _ B))).
  destruct (exec n TSigs s) as [[s'|v st]| |]; auto. cbn in H.
  destruct H as (H1 & H2 & H3 & H4 & H5 & H6). rewrite H2. cbn. spl; auto.
  intros HD. assert (HF : d_hand (s_d s') = false).
  { clear H2 H3 H4 H5 H6. remember (s_d s') as d'. inversion H1; subst; auto. }
  destruct H5 as [H5|H5]; congruence.
Qed.
Print Assumptions C68_traps_transparent_partial.

(** A signal caught during a command in the middle of a loop of a function, the
    action of which fails, breaks and returns. *)
Example C68_case :
  ends 60 [[sp (KTrap 15 (Some [[cp (BFor 1 2 [sp (KBasic 103); sp (KBreak 1)]); sp (KRet false (Some 4%N))];
                                [sp (KBasic 1)]]))];
           [cp (BFundef (Some 1%N) (cc (BGroup [cp (BFor 1 2 [sp (KBasic 77); sp (KBasic 5)]); sp (KBasic 6)])))];
           [sp (KCall 1)]]
    [1; 77; 1; 103; 5; 2; 77; 1; 103; 5; 6]%N 0.
Proof. vm_compute. reflexivity. Qed.

(** ** C69: exit *)

(** Exiting ends the process.  The EXIT trap is executed if there is one and
    the shell is not exiting already; its action starts with the exit status as
    "$?", no loops and nothing pending, and unless the action itself exits, the
    exit status is not changed by it.  (No jump is pending: see the
    refutation above for [return].) *)
Theorem C69_exit_partial {O : os} (m : bool) st (s : sh O) n r :
  os_ok O -> base m s -> calm (s_d s) ->
  exec n (TExit st) s = Ok r ->
  let x := match st with Some v => v | None => d_last (s_d s) end in
  exists v z, r = Dead v z /\
  match d_ex (s_d s), action (s_d s) 0%N with
  | Some e, _ => v = o_vis O (d_w (s_d s)) /\ z = match st with Some v => v | None => e end
  | None, None => v = o_vis O (d_w (s_d s)) /\ z = x
  | None, Some ls =>
    ev (mkcx 0 (s_see s) (s_ser s) false) (JLines ls false)
       (sd_save (Some x) (sd_ex (Some x) (sd_last x (s_d s)))) (Stop v z) \/
    z = x /\ exists o d1, v = o_vis O (d_w d1) /\
      ev (mkcx 0 (s_see s) (s_ser s) false) (JLines ls false)
         (sd_save (Some x) (sd_ex (Some x) (sd_last x (s_d s)))) (Go o d1)
  end.
Proof.
  intros OK B C E x.
  assert (H := exit_ok m n (fun k _ => SIM_all OK m k) n st s (le_n _) (b_inv _ _ B) C
                 (fun _ => b_x _ _ B)).
  rewrite E in H. destruct r as [|v z]; [destruct H|]. exists v, z. split; [reflexivity|].
  cbn in H. inversion H; subst; repeat match goal with A : d_ex _ = _ |- _ => rewrite A end;
    repeat match goal with A : action _ _ = _ |- _ => rewrite A end; auto.
  right. split; [reflexivity|]. eauto.
Qed.
Print Assumptions C69_exit_partial.

(** The status in the action; [exit] in it; the exit of a subshell. *)
Example C69_case :
  ends 60 [[sp (KTrap 0 (Some [[sp (KBasic 5); cp (BSub [sp (KTrap 0 (Some [[sp (KBasic 6)]]))]);
                                sp (KExit None)]]))];
           [cp (BSub [sp (KBasic 7)])]; [sp (KExit (Some 3%N))]; [sp (KBasic 8)]]
    [7; 5; 6]%N 3.
Proof. vm_compute. reflexivity. Qed.
