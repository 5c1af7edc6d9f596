(** The start of a shell, and a small world with which examples of execution
    are computed, both by the model and by the structured semantics. *)
From Coq Require Import List NArith Bool Arith Lia.
From Verif Require Import Common ExecModel ExecSpec ExecOk ExecSim.
Import ListNotations.

(** The state in which a non-interactive shell starts to read its script. *)
Definition boot {O : os} (w : W O) (oe orr pf : bool) : sh O :=
  mks (mkd w 0%N oe orr pf [] [] false false [] false None None false)
      (mke 0 0 false false) XNone false false.
Definition cx0 : cx := mkcx 0 false false false.

Lemma boot_base {O : os} m w oe orr pf : (m = false -> orr = false) -> base m (@boot O w oe orr pf).
Proof.
  intros H. constructor; cbn; auto. constructor; cbn; auto; try discriminate; try constructor; congruence.
Qed.
Lemma boot_pre {O : os} m prog w oe orr pf eof : ok_lines m prog = true -> (m = false -> orr = false) ->
  pre m (TLines prog false true eof) (@boot O w oe orr pf).
Proof.
  intros A B. constructor; auto; try discriminate.
  - apply boot_base, B.
  - intros _. left. reflexivity.
Qed.

(** A world for examples: built-in [b] writes [b] and has status [b - 100] (at
    least 0); 77 causes signal 15; expanding word [x] causes signal [x]. *)
Definition tw : os := {|
  W := list N; V := list N; o_vis := fun w => w;
  o_expand := fun x w => (w, [x], XOk);
  o_basic := fun b w => (w ++ [b], if N.eqb b 77 then [15%N] else [], (b - 100)%N);
  o_ext := fun b w => (w ++ [b], [], (b - 100)%N);
  o_words := fun x w => (w, Some (map N.of_nat (seq 1 (N.to_nat x))));
  o_assign := fun v x w => Some (w ++ [x]);
  o_word := fun x w => (w, Some x);
  o_pat := fun p v w => (w, Some (N.eqb p v));
  o_redir := fun r w => (w ++ [r], N.eqb r 500);
  o_undo := fun r w => w ++ [501%N];
  o_fork := fun i w => w;
  o_join := fun w vs => match vs with [v] => v | _ => w ++ concat (map (skipn (length w)) vs) end;
  o_bg := fun ps w => w;
  o_sigtab := [2%N; 15%N];
  o_posix := false; o_jobctl := false |}.
Lemma tw_ok : os_ok tw.
Proof. split; [reflexivity|]. intros x w. exact I. Qed.

Definition sc (k : kind) : cmd := Cmd None (BSimple None k).
Definition cc (b : body) : cmd := Cmd None b.
Definition one (c : cmd) : andor := AndOr false [Pipe true false [c]].
Definition sp (k : kind) : andor := one (sc k).
Definition cp (b : body) : andor := one (cc b).
Definition run (n : nat) (prog : list (list andor)) : res (out tw) :=
  exec n (TLines prog false true false) (@boot tw [] false false false).
Definition spec (prog : list (list andor)) (v : list N) (st : N) : Prop :=
  ev cx0 (JProc (JLines prog false)) (s_d (@boot tw [] false false false)) (@Stop tw v st).

Definition ends (n : nat) (prog : list (list andor)) (v : list N) (st : N) : Prop :=
  run n prog = Ok (@Dead tw v st).

Lemma pl_false (x : N) l : pipeline_status false (x :: l) (last (x :: l) 0%N).
Proof.
  exists (removelast (x :: l)). apply app_removelast_last. discriminate.
Qed.

Ltac side := first
  [ exact I | reflexivity | discriminate | (left; reflexivity) | (right; reflexivity)
  | exact (fun H => match H with end)
  | (intros [? ?]; cbn in *; congruence)
  | (cbn; intros [? [? [[? ?]|[? ?]]]]; cbn in *; congruence)
  | (split; reflexivity)
  | apply set_trap_ok
  | (eexists; split; [apply deliver_catches|reflexivity]) 
  | (split; [apply deliver_catches|reflexivity]) 
  | (unfold fails; cbn; congruence)
  | (cbn; intuition discriminate) ].
Ltac child :=
  apply (starts_child_ok true); constructor;
  [ intros _ g; reflexivity | intros H; cbn in *; congruence | repeat constructor
  | repeat constructor | reflexivity | reflexivity ].

(** Rules for evaluating examples. *)
Lemma L_any k a l d r1 r : @ev tw k (JAndOr a) d r1 ->
  match r1 with Go ONorm d1 => ev k (JList l) d1 r | _ => r = r1 end -> ev k (JList (a :: l)) d r.
Proof.
  intros H A. destruct r1 as [[]|]; subst; try (apply L_stop; [assumption|exact I]).
  eapply L_go; eauto.
Qed.
Lemma P_any k f c (neg : bool) cs ps d r1 r : ~ skipped f c d ->
  @ev tw (quiet (neg || match ps with [] => false | _ => true end) k) (JComs cs) d r1 ->
  match r1 with
  | Go ONorm d1 => ev k (JPipes false ps) (if neg then negated d1 else d1) r
  | _ => r = r1
  end -> ev k (JPipes f (Pipe c neg cs :: ps)) d r.
Proof.
  intros S H A. destruct r1 as [[]|]; subst; try (apply P_stop; [assumption|assumption|exact I]).
  eapply P_go; eauto.
Qed.
Lemma C_any k c d r1 r : @ev tw k (JOne c) d r1 ->
  match r1 with Go o d1 => ev k (JSettle [c] o) d1 r | _ => r = r1 end -> ev k (JComs [c]) d r.
Proof.
  intros H A. destruct r1; subst; [eapply C_one; eauto|apply C_one_stop; auto].
Qed.
Lemma Pr_any k j d r1 r : @ev tw k j d r1 ->
  match r1 with Go o d1 => ev k (JExit None) d1 r | _ => r = r1 end -> ev k (JProc j) d r.
Proof.
  intros H A. destruct r1; subst; [eapply Pr_go; eauto|apply Pr_stop; auto].
Qed.
Lemma N_any k a l ls e d r1 r : @ev tw k (JList (a :: l)) d r1 ->
  match r1 with Go ONorm d1 => ev k (JLines ls true) d1 r | _ => r = r1 end ->
  ev k (JLines ((a :: l) :: ls) e) d r.
Proof.
  intros H A. destruct r1 as [[]|]; subst; try (apply N_stop; [assumption|exact I]).
  eapply N_go; eauto.
Qed.
Lemma I_any k a c l cls d r1 r : @ev tw (quiet true k) (JList (a :: c)) d r1 ->
  match r1 with
  | Go ONorm d1 => if N.eqb (d_last d1) 0 then ev k (JList l) d1 r else ev k (JIf cls) d1 r
  | _ => r = r1
  end -> ev k (JIf ((a :: c, l) :: cls)) d r.
Proof.
  intros H A. destruct r1 as [[]|]; subst; try (apply I_abrupt; [assumption|exact I]).
  destruct (N.eqb_spec (d_last d0) 0).
  - eapply I_yes; eauto.
  - eapply I_no; eauto.
Qed.
Lemma Call_any k f c d r1 r : assoc f (d_fn d) = Some c -> @ev tw (infunc k) (JComs [c]) d r1 ->
  r = match r1 with Go o d1 => Go (calls_off o) d1 | _ => r1 end ->
  ev k (JKind (KCall f)) d r.
Proof.
  intros E H ->. destruct r1; [eapply B_call; eauto|eapply B_call_stop; eauto].
Qed.
Lemma F_any k v x ws l d w r1 r : o_assign tw v x (d_w d) = Some w ->
  @ev tw k (JBlock l) (sd_w w d) r1 ->
  match r1 with
  | Go o d1 => match leave o with None => ev k (JFors v ws l) d1 r | Some o' => r = Go o' d1 end
  | _ => r = r1
  end -> ev k (JFors v (x :: ws) l) d r.
Proof.
  intros E H A. destruct r1 as [o d1|].
  - destruct (leave o) eqn:L; subst; [eapply F_leave; eauto|eapply F_next; eauto].
  - subst. eapply F_stop; eauto.
Qed.
Lemma B_break_err k n d : c_dep k = 0 ->
  @ev tw k (JKind (KBreak n)) d (Go ONorm (sd_last 2%N d)).
Proof. intros H. apply (B_loop_err k true); auto. Qed.
Lemma X_any k st d ls r1 r : d_ex d = None -> action d 0%N = Some ls ->
  let x := match st with Some v => v | None => d_last d end in
  @ev tw (intrap k) (JLines ls false) (sd_save (Some x) (sd_ex (Some x) (sd_last x d))) r1 ->
  r = match r1 with Go _ d1 => Stop (o_vis tw (d_w d1)) x | _ => r1 end ->
  ev k (JExit st) d r.
Proof.
  intros E A x H ->. destruct r1; [eapply X_trap; eauto|eapply X_trap_stop; eauto].
Qed.

Ltac go := lazymatch goal with
  | |- ev _ _ _ _ => lazymatch goal with
    | |- ev _ (JList (_ :: _)) _ _ => eapply L_any; [go | cbn; go]
    | |- ev _ (JPipes _ (_ :: _)) _ _ =>
      first [ eapply P_any; [solve [side] | go | cbn; go] | econstructor; [solve [side] | go] ]
    | |- ev _ (JComs [_]) _ _ => eapply C_any; [go | cbn; go]
    | |- ev _ (JProc _) _ _ => eapply Pr_any; [go | cbn; go]
    | |- ev _ (JLines ((_ :: _) :: _) _) _ _ => eapply N_any; [go | cbn; go]
    | |- ev _ (JIf ((_ :: _, _) :: _)) _ _ => eapply I_any; [go | cbn; go]
    | |- ev _ (JKind (KCall _)) _ _ => eapply Call_any; [reflexivity | go | cbn; go]
    | |- ev _ (JKind (KBreak _)) _ _ => first [ apply B_break_err; reflexivity | econstructor; go ]
    | |- ev _ (JExit _) _ _ =>
      first [ eapply X_any; [reflexivity | reflexivity | go | reflexivity] | econstructor; go ]
    | |- ev _ (JFors _ (_ :: _) _) _ _ => eapply F_any; [reflexivity | go | cbn; cbv [Pos.to_nat]; cbn; go]
    | |- _ => econstructor; go
    end
  | |- pipeline_status _ _ _ => exact (pl_false _ _)
  | |- starts_child _ _ => child
  | |- _ => solve [side]
  end.
