(** What every execution leaves as it was, and which jumps can be pending:
    without any assumption about the commands. *)
From Coq Require Import List NArith Bool Arith Lia.
From Verif Require Import Common ExecModel.
Import ListNotations.

Section Frame.
Context {O : os}.
Notation sh := (sh O).
Notation task := (@task O).

(** No jump is pending; a pending jump is a possible one. *)
Definition free (s : sh) : Prop := s_x s = XNone /\ e_ln (s_e s) <= e_bn (s_e s).
Definition possible (s : sh) : Prop :=
  (s_x s = XContinue -> 0 < e_bn (s_e s) <= e_ln (s_e s)) /\
  (s_x s = XBreakIter \/ s_x s = XContinueIter -> e_it (s_e s) = true).

Definition entry (t : task) (s : sh) : Prop :=
  match t with
  | TList _ _ | TLines _ _ _ _ | TIf _ _ | TSigs | TPass _ | TErr _ | TMaybeExit _ | TExit _ =>
    possible s
  | TEndLoop _ => possible s /\ (s_x s = XContinue -> e_bn (s_e s) < e_ln (s_e s))
  | _ => free s
  end.
Definition ends_loop (t : task) : bool :=
  match t with TFors _ _ _ _ | TWhile _ _ _ _ _ | TEndLoop _ => true | _ => false end.

Record kept (b : bool) (s s' : sh) : Prop := mkkept {
  f_see : s_see s' = s_see s;
  f_ser : s_ser s' = s_ser s;
  f_ln : e_ln (s_e s') = if b then pred (e_ln (s_e s)) else e_ln (s_e s);
  f_nr : e_nr (s_e s') = e_nr (s_e s);
  f_it : e_it (s_e s') = e_it (s_e s);
  f_pos : possible s'
}.
(** An iteration does not leave its own jumps pending. *)
Definition inner (t : task) (s : sh) : Prop :=
  match t with
  | TIter _ _ _ => s_x s <> XBreakIter /\ s_x s <> XContinueIter
  | _ => True
  end.
Definition frame (t : task) (s : sh) (r : res (out O)) : Prop :=
  match r with
  | Ok (Cont s') => kept (ends_loop t) s s' /\ inner t s'
  | _ => True
  end.

Lemma not_free s : need_break s = false -> free s.
Proof.
  unfold need_break, free. intros H. apply orb_false_iff in H. destruct H as [H1 H2].
  apply Nat.ltb_ge in H1. destruct (s_x s); try discriminate H2. auto.
Qed.
Lemma free_possible s : free s -> possible s.
Proof. intros [A B]. unfold possible. rewrite A. split; [discriminate|intros [H|H]; discriminate H]. Qed.

Lemma lines_blocked n ls e (s : sh) r : s_x s <> XNone ->
  exec n (TLines ls e false false) s = Ok (Cont r) -> r = s.
Proof.
  intros X E. destruct n; [discriminate E|]. cbn [exec] in E.
  assert (need_break s = true) as B.
  { unfold need_break. destruct (s_x s); try apply orb_true_r. congruence. }
  rewrite B in E. destruct n; [discriminate E|]. cbn in E. congruence.
Qed.

Lemma exit_never n st (s r : sh) : exec n (TExit st) s <> Ok (Cont r).
Proof.
  destruct n; [discriminate|]. cbn [exec].
  destruct (d_ex _); [discriminate|]. destruct (d_ph _); [discriminate|].
  destruct (assoc _ _); [|discriminate].
  destruct (exec n _ _) as [[s1|]| |]; try discriminate. destruct (d_ex (s_d s1)); discriminate.
Qed.

Lemma check_free (s s' : sh) : check_loop s = Some s' -> free s' /\ s_d s' = s_d s /\ s_e s' = s_e s
  /\ s_see s' = s_see s /\ s_ser s' = s_ser s.
Proof.
  unfold check_loop, free. destruct (Nat.ltb_spec (e_bn (s_e s)) (e_ln (s_e s))); [discriminate|].
  destruct (s_x s) eqn:X; intros E; try discriminate E; injection E as <-; cbn; auto.
Qed.
Lemma check_none (s : sh) : check_loop s = None -> s_x s = XContinue -> e_bn (s_e s) < e_ln (s_e s).
Proof.
  unfold check_loop. destruct (Nat.ltb_spec (e_bn (s_e s)) (e_ln (s_e s))); auto.
  destruct (s_x s); discriminate.
Qed.

Lemma bind_err n t s cs (s1 : sh) k :
  (forall s2, s2 = s1 \/ s2 = ss_x XReturn s1 -> frame t s (k s2)) ->
  frame t s (andthen (exec n (TErr cs) s1) k).
Proof.
  intros K. destruct n as [|n']; [exact I|]. cbn [exec].
  destruct (_ && _); [|destruct (_ && _); cbn [andthen]; auto].
  destruct (exec n' _ s1) as [[s'|]| |] eqn:Q; cbn; auto. apply exit_never in Q. contradiction.
Qed.

Section Step.
Context (n : nat) (IH : forall t (s : sh), entry t s -> frame t s (exec n t s)).

Lemma tail t s t1 (s1 : sh) : entry t1 s1 -> s_see s1 = s_see s -> s_ser s1 = s_ser s ->
  e_nr (s_e s1) = e_nr (s_e s) -> e_it (s_e s1) = e_it (s_e s) ->
  (if ends_loop t1 then pred (e_ln (s_e s1)) else e_ln (s_e s1))
  = (if ends_loop t then pred (e_ln (s_e s)) else e_ln (s_e s)) ->
  (forall s', inner t1 s' -> inner t s') ->
  frame t s (exec n t1 s1).
Proof.
  intros E A B C D F G. assert (H := IH t1 s1 E). unfold frame in *.
  destruct (exec n t1 s1) as [[s'|]| |]; auto. destruct H as [[] H]. split; auto.
  constructor; auto; congruence.
Qed.
Lemma bind t s t1 (s1 : sh) k : entry t1 s1 ->
  (forall s2, kept (ends_loop t1) s1 s2 -> inner t1 s2 -> frame t s (k s2)) ->
  frame t s (andthen (exec n t1 s1) k).
Proof.
  intros E K. assert (H := IH t1 s1 E). unfold frame in H.
  destruct (exec n t1 s1) as [[s'|]| |]; cbn; auto. destruct H; auto.
Qed.
Lemma done t s s' : kept (ends_loop t) s s' -> inner t s' -> frame t s (Ok (Cont s')).
Proof. cbn. auto. Qed.
Lemma leaves t s st (s1 : sh) : frame t s (exec n (TExit st) s1).
Proof.
  unfold frame. destruct (exec n (TExit st) s1) as [[s'|]| |] eqn:E; auto.
  apply exit_never in E. contradiction.
Qed.
End Step.

Ltac brk := repeat match goal with
  | H : kept _ _ _ |- _ => destruct H
  | H : free _ /\ _ |- _ => destruct H
  | H : _ /\ _ |- _ => destruct H
  | H : free _ |- _ => destruct H
  | H : _ = _ \/ _ = ss_x _ _ |- _ => destruct H; subst
  | H : Nat.ltb _ _ = false |- _ => apply Nat.ltb_ge in H
  | H : check_loop _ = Some _ |- _ => apply check_free in H
  | H : check_loop _ = None |- _ => pose proof (check_none _ H); clear H
  end.
Lemma list_never n l (s r : sh) : exec n (TList l true) s <> Ok (Cont r).
Proof.
  revert l s. induction n as [|n IH]; intros l s; [discriminate|].
  assert (M : exec n (TMaybeExit true) s <> Ok (Cont r)).
  { destruct n; [discriminate|]. cbn [exec]. apply exit_never. }
  cbn [exec]. destruct l as [|[async ps] l]; [exact M|].
  destruct (need_break s); [exact M|].
  destruct (if negb async then _ else _) as [[s1|]| |]; cbn [andthen]; try discriminate. apply IH.
Qed.

Ltac sv :=
  cbn [entry ends_loop] in *; unfold sets_last, upd_w, enter_loop, leave_loop in *;
  cbn [s_d s_e s_x s_see s_ser ss_d ss_e ss_x ss_sup e_ln e_bn e_nr e_it] in *;
  auto using free_possible, not_free;
  try (brk; cbn in *; unfold free, possible in *; cbn in *; intuition (congruence || lia)).

Lemma cancel_cases (s : sh) :
  s_x (cancel_return s) = match s_x s with XReturn => XNone | x => x end
  /\ s_e (cancel_return s) = s_e s /\ s_d (cancel_return s) = s_d s
  /\ s_see (cancel_return s) = s_see s /\ s_ser (cancel_return s) = s_ser s.
Proof. unfold cancel_return. destruct (s_x s) eqn:X; cbn; rewrite ?X; auto. Qed.

Lemma frame_step n : (forall t (s : sh), entry t s -> frame t s (exec n t s)) ->
  forall t s, entry t s -> frame t s (exec (S n) t s).
Proof.
  intros IH t s E. destruct t.
  20: { unfold frame. destruct (exec (S n) (TExit st) s) as [[s'|]| |] eqn:Q; auto.
        apply exit_never in Q. contradiction. }
  17: {
    cbn [exec]. cbn in E. destruct tab as [|sg tab].
    - destruct (d_pend (s_d s)).
      + apply done; [constructor|]; sv.
      + apply (tail n IH); sv.
    - destruct (existsb _ _); [|apply (tail n IH); solve [sv]].
      destruct (acting sg _) as [ls|]; [|apply (tail n IH); solve [sv]].
      set (s0 := ss_e (reset_execstate true (s_e s)) _).
      assert (X : s_x s0 = s_x s /\ s_see s0 = s_see s /\ s_ser s0 = s_ser s /\ e_ln (s_e s0) = 0
                  /\ e_it (s_e s0) = false) by (cbn; auto).
      destruct X as (X & X1 & X2 & X3 & X4).
      assert (D : s_x s = XNone \/ s_x s <> XNone) by (destruct (s_x s); auto; right; discriminate).
      destruct D as [D|D].
      + apply (bind n IH).
        { cbn. apply free_possible. split; [congruence|]. cbn. lia. }
        intros s1 [A1 A2 A3 A4 A5 A6] _. cbn in A3. destruct (cancel_cases s1) as (C1 & C2 & C3 & C4 & C5).
        assert (Y : s_x (cancel_return s1) = XNone).
        { rewrite C1. destruct A6 as [A6 A7].
          destruct (s_x s1); auto; exfalso; [specialize (A6 eq_refl); lia|..];
            rewrite A5, X4 in A7; discriminate (A7 ltac:(auto)). }
        apply (tail n IH); cbn; try congruence; auto.
        split; cbn; rewrite Y; [discriminate|intros [Q|Q]; discriminate Q].
      + destruct (exec n (TLines ls false false false) s0) as [[s1|]| |] eqn:Q; cbn [andthen]; try exact I.
        apply lines_blocked in Q; [|congruence]. subst s1.
        destruct (cancel_cases s0) as (C1 & C2 & C3 & C4 & C5).
        apply (tail n IH); cbn; try congruence; auto.
        unfold possible in *. cbn. rewrite C1, X. destruct (s_x s); auto; split; intros; try discriminate;
          destruct H; discriminate. }
  all: cbn [exec].
  all: repeat first
    [ apply (leaves n)
    | match goal with |- frame _ _ (exec _ (TList _ true) ?x) =>
        let Q := fresh in unfold frame; destruct (exec _ (TList _ true) x) as [[?|]| |] eqn:Q; auto;
        apply list_never in Q; contradiction end
    | apply (bind_err n); intros ? ?
    | apply (bind n IH); [sv|intros ? ? ?; cbn zeta]
    | apply (tail n IH); solve [sv]
    | apply done; [constructor|]; solve [sv]
    | exact I
    | match goal with
      | |- frame _ _ (let '(_, _) := ?x in _) => destruct x
      | |- frame _ _ (match ?x with _ => _ end) => let Q := fresh in destruct x eqn:Q
      | |- frame _ _ (andthen (match ?x with _ => _ end) _) => let Q := fresh in destruct x eqn:Q
      | |- frame _ _ (exec _ _ (match ?x with _ => _ end)) => destruct x
      | |- frame _ _ (andthen (Ok (Cont _)) _) => cbn [andthen]
      | |- frame _ _ (andthen UB _) => exact I
      end ].
  - apply (tail n IH); try solve [sv]. cbn. split; [intros _|intros [Q|Q]; discriminate Q].
    apply N.eqb_neq in H0. apply Nat.eqb_neq in H1. cbn. lia.
  - destruct (cancel_cases s2) as (C1 & C2 & C3 & C4 & C5). destruct H0 as [A1 A2 A3 A4 A5 [A6 A7]].
    cbn in A1, A2, A3, A4, A5.
    apply (tail n IH); cbn; auto. split; cbn; rewrite C1.
    + destruct (s_x s2); try discriminate. intros _. specialize (A6 eq_refl). lia.
    + destruct (s_x s2); try (intros [Q|Q]; discriminate Q); rewrite <- A5; auto.
  - destruct (cancel_cases s2) as (C1 & C2 & C3 & C4 & C5). destruct H as [A1 A2 A3 A4 A5 [A6 A7]].
    cbn in A1, A2, A3, A4, A5.
    apply done; [constructor|]; cbn; auto. split; cbn; rewrite C1.
    + destruct (s_x s2); try discriminate. intros _. specialize (A6 eq_refl). lia.
    + destruct (s_x s2); try (intros [Q|Q]; discriminate Q); rewrite <- A5; auto.
Qed.

Theorem frames n t (s : sh) : entry t s -> frame t s (exec n t s).
Proof.
  revert t s. induction n as [|n IH]; intros t s E; [exact I|]. apply frame_step; auto.
Qed.
(** After a call. *)
Definition contained (s s' : sh) : Prop :=
  s_e s' = s_e s /\ s_see s' = s_see s /\ s_ser s' = s_ser s /\
  (s_x s' = XNone \/ (s_x s' = XBreakIter \/ s_x s' = XContinueIter) /\ e_it (s_e s) = true).

Lemma contain (s s2 : sh) : kept false (ss_sup (s_see s) false (ss_e (reset_execstate false (s_e s)) s)) s2 ->
  contained s (ss_e (s_e s) (ss_sup (s_see s2) (s_ser s) (cancel_return s2))).
Proof.
  intros [A1 A2 A3 A4 A5 [A6 A7]]. cbn in *.
  destruct (cancel_cases s2) as (C1 & C2 & C3 & C4 & C5).
  unfold contained. cbn. repeat (split; [auto; fail|]). rewrite C1.
  destruct (s_x s2); auto; [specialize (A6 eq_refl); lia| |]; right; rewrite <- A5; auto.
Qed.

Theorem call_contained n f (s s' : sh) : free s ->
  exec n (TKind (KCall f) false) s = Ok (Cont s') -> contained s s'.
Proof.
  intros F E. destruct n as [|n]; [discriminate E|]. cbn [exec] in E.
  destruct (assoc f (d_fn (s_d s))) as [c|].
  - destruct n as [|n]; [discriminate E|]. cbn [exec] in E.
    set (s0 := ss_sup (s_see s) false _) in E.
    assert (H := frames n (TComs [c] TyNormal) s0). destruct (exec n (TComs [c] TyNormal) s0) as [[s2|]| |];
      cbn in E; try discriminate E.
    injection E as <-. apply contain. apply H. split; [apply F|]. cbn. lia.
  - destruct n as [|n]; [discriminate E|]. cbn in E. injection E as <-.
    destruct F as [F1 F2]. unfold contained. cbn. auto.
Qed.
Theorem dot_contained n ls (s s' : sh) : free s ->
  exec n (TKind (KDot ls) false) s = Ok (Cont s') -> contained s s'.
Proof.
  intros F E. destruct n as [|n]; [discriminate E|]. cbn [exec] in E.
  set (s0 := ss_sup (s_see s) false _) in E.
  assert (H := frames n (TLines ls false false false) s0).
  destruct (exec n (TLines ls false false false) s0) as [[s2|]| |]; cbn [andthen] in E; try discriminate E.
  destruct n as [|n]; [discriminate E|]. cbn [exec] in E.
  injection E as <-. apply contain. apply H. apply free_possible. split; [apply F|]. cbn. lia.
Qed.

(** After a pipeline. *)
Theorem failure_ends n cs (s s' : sh) : free s ->
  exec n (TComs cs TyNormal) s = Ok (Cont s') -> is_err_condition_for cs = true ->
  (d_oe (s_d s') = true -> s_see s = false -> d_last (s_d s') = 0%N) /\
  (d_orr (s_d s') = true -> s_ser s = false -> e_nr (s_e s) = false ->
   d_last (s_d s') = 0%N \/ s_x s' = XReturn).
Proof.
  intros F E C. destruct n as [|n]; [discriminate E|]. cbn [exec is_self is_async andb] in E.
  match type of E with andthen ?a _ = _ => set (r := a) in E end.
  assert (K : match r with Ok (Cont s1) => kept false s s1 | _ => True end).
  { unfold r. destruct cs as [|c [|c' cs]]; [exact I|..].
    - assert (H := frames n (TOne c false) s F). unfold frame in H.
      destruct (exec n (TOne c false) s) as [[]| |]; auto; apply H.
    - assert (H := frames n (TKids 0 (d_w (s_d s)) [] (c :: c' :: cs) false) s F). unfold frame in H.
      destruct (exec n _ s) as [[]| |]; auto; apply H. }
  clearbody r. destruct r as [[s1|]| |]; cbn [andthen] in E; try discriminate E.
  assert (H := frames n TSigs s1 (f_pos _ _ _ K)). unfold frame in H.
  destruct (exec n TSigs s1) as [[s2|]| |]; cbn [andthen] in E; try discriminate E.
  destruct H as [H _]. destruct n as [|n]; [discriminate E|]. cbn [exec] in E.
  rewrite C, !andb_true_r in E.
  assert (A1 : s_see s2 = s_see s) by (rewrite (f_see _ _ _ H); apply K).
  assert (A2 : s_ser s2 = s_ser s) by (rewrite (f_ser _ _ _ H); apply K).
  assert (A3 : e_nr (s_e s2) = e_nr (s_e s)) by (rewrite (f_nr _ _ _ H); apply K).
  destruct (is_errexit_condition s2) eqn:X.
  { destruct (exec n (TExit _) s2) as [[s3|]| |] eqn:Q; cbn in E; try discriminate E.
    apply exit_never in Q. contradiction. }
  unfold is_errexit_condition, is_errreturn_condition in *.
  match type of E with context [if ?c then _ else _] => destruct c eqn:Y end;
    cbn [andthen] in E; injection E as <-; cbn [s_d ss_x s_x].
  - split; auto. intros D1 D2. rewrite D1, A1, D2 in X. cbn in X.
    destruct (N.eqb_spec (d_last (s_d s2)) Exit_SUCCESS); auto. discriminate X.
  - split; intros D1 D2.
    + rewrite D1, A1, D2 in X. cbn in X.
      destruct (N.eqb_spec (d_last (s_d s2)) Exit_SUCCESS); auto. discriminate X.
    + intros D3. rewrite D1, A2, D2, A3, D3 in Y. cbn in Y.
      destruct (N.eqb_spec (d_last (s_d s2)) Exit_SUCCESS); auto. discriminate Y.
Qed.

End Frame.
