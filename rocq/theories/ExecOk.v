(** The commands for which exec.c follows the structured semantics, and a lemma
    about that semantics: commands that do not break out of more loops than
    they contain do not depend on the number of enclosing loops. *)
From Coq Require Import List NArith Bool Arith Lia.
From Verif Require Import Common ExecModel ExecSpec.
Import ListNotations.

(** ** Commands that leave at most [k] enclosing loops *)

Fixpoint nb_kind (k : nat) (kd : kind) {struct kd} : bool :=
  match kd with
  | KBreak n | KCont n => Nat.leb (N.to_nat n) k
  | KEval ls => forallb (forallb (nb_andor k)) ls
  | KEvalI lss => forallb (forallb (forallb (nb_andor k))) lss
  | _ => true
  end
with nb_body (k : nat) (b : body) {struct b} : bool :=
  match b with
  | BSimple _ kd => nb_kind k kd
  | BGroup l => forallb (nb_andor k) l
  | BIf cls =>
    forallb (fun p => match p with (c, l) => forallb (nb_andor k) c && forallb (nb_andor k) l end) cls
  | BFor _ _ l => forallb (nb_andor (S k)) l
  | BWhile _ cond l => forallb (nb_andor (S k)) cond && forallb (nb_andor (S k)) l
  | BCase _ its =>
    forallb (fun p => match p with (_, l) => forallb (nb_andor k) l end) its
  | BSub _ | BBracket _ | BFundef _ _ => true
  end
with nb_cmd (k : nat) (c : cmd) {struct c} : bool :=
  match c with Cmd _ b => nb_body k b end
with nb_pipe (k : nat) (p : pipe) {struct p} : bool :=
  match p with Pipe _ _ cs => forallb (nb_cmd k) cs end
with nb_andor (k : nat) (a : andor) {struct a} : bool :=
  match a with AndOr _ ps => forallb (nb_pipe k) ps end.

Definition nb_list k (l : list andor) := forallb (nb_andor k) l.
Definition nb_lines k (ls : list (list andor)) := forallb (nb_list k) ls.

Definition nb_last (cs : list cmd) : bool :=
  match rev cs with c :: _ => nb_cmd 0 c | [] => true end.

(** ** Commands that do not return (unless [r]) and do not end a step of an
    iteration (unless [i]) of what is around them *)

Fixpoint nj_kind (r i : bool) (kd : kind) {struct kd} : bool :=
  match kd with
  | KRet nr _ => nr || r
  | KBreakI | KContI => i
  | KEval ls => forallb (forallb (nj_andor r i)) ls
  | KEvalI lss => forallb (forallb (forallb (nj_andor r true))) lss
  | KDot ls => forallb (forallb (nj_andor true i)) ls
  | _ => true
  end
with nj_body (r i : bool) (b : body) {struct b} : bool :=
  match b with
  | BSimple _ kd => nj_kind r i kd
  | BGroup l => forallb (nj_andor r i) l
  | BIf cls =>
    forallb (fun p => match p with (c, l) => forallb (nj_andor r i) c && forallb (nj_andor r i) l end) cls
  | BFor _ _ l => forallb (nj_andor r i) l
  | BWhile _ cond l => forallb (nj_andor r i) cond && forallb (nj_andor r i) l
  | BCase _ its =>
    forallb (fun p => match p with (_, l) => forallb (nj_andor r i) l end) its
  | BSub _ | BBracket _ | BFundef _ _ => true
  end
with nj_cmd (r i : bool) (c : cmd) {struct c} : bool :=
  match c with Cmd _ b => nj_body r i b end
with nj_pipe (r i : bool) (p : pipe) {struct p} : bool :=
  match p with Pipe _ _ cs => forallb (nj_cmd r i) cs end
with nj_andor (r i : bool) (a : andor) {struct a} : bool :=
  match a with AndOr _ ps => forallb (nj_pipe r i) ps end.

Definition nj_list r i (l : list andor) := forallb (nj_andor r i) l.
Definition nj_lines r i (ls : list (list andor)) := forallb (nj_list r i) ls.

(** ** The commands considered

    [m] tells which of two families of programs is meant: with [m = true]
    there is no EXIT trap, with [m = false] there is no jump other than
    [break] and [exit] ([return], [continue], the options of the iterative
    [eval], [errreturn]).  In both, the words of a command that jumps or
    executes other commands are constant, the lists that the parser never
    makes empty are not empty, the last command of a pipeline does not break
    out of loops around the pipeline, the last condition of an if command does
    not return, and functions do not end steps of an iteration around the
    call. *)

Definition light (k : kind) : bool :=
  match k with KBasic _ | KExt _ => true | _ => false end.

Definition constant (x : option N) : bool := match x with None => true | _ => false end.

Fixpoint ok_kind (m : bool) (kd : kind) {struct kd} : bool :=
  match kd with
  | KBasic _ | KExt _ | KCall _ | KBreak _ | KExit _ => true
  | KCont _ | KBreakI | KContI => m
  | KRet nr _ => nr || m
  | KEval ls | KDot ls => forallb (forallb (ok_andor m)) ls
  | KEvalI lss => forallb (forallb (forallb (ok_andor m))) lss
  | KSet OErrreturn true => m
  | KSet _ _ => true
  | KTrap sg a =>
    match a with
    | None | Some [] => true
    | Some ls => (negb m || negb (N.eqb sg 0)) && forallb (forallb (ok_andor m)) ls
    end
  end
with ok_body (m : bool) (b : body) {struct b} : bool :=
  match b with
  | BSimple x kd => ok_kind m kd && (constant x || light kd)
  | BSub l | BGroup l => forallb (ok_andor m) l
  | BIf cls =>
    forallb (fun p => match p with (c, l) => forallb (ok_andor m) c && forallb (ok_andor m) l end) cls
    && nj_list false false (fst (last cls ([], [])))
  | BFor _ _ l => forallb (ok_andor m) l
  | BWhile _ cond l => forallb (ok_andor m) cond && forallb (ok_andor m) l
  | BCase _ its => forallb (fun p => match p with (_, l) => forallb (ok_andor m) l end) its
  | BBracket _ => true
  | BFundef _ c => ok_cmd m c && nj_cmd true false c
  end
with ok_cmd (m : bool) (c : cmd) {struct c} : bool :=
  match c with Cmd _ b => ok_body m b end
with ok_pipe (m : bool) (p : pipe) {struct p} : bool :=
  match p with
  | Pipe _ _ cs =>
    forallb (ok_cmd m) cs &&
    match cs with [] => false | [_] => true | _ => nb_last cs end
  end
with ok_andor (m : bool) (a : andor) {struct a} : bool :=
  match a with
  | AndOr async ps => forallb (ok_pipe m) ps && (negb async || match ps with [] => false | _ => true end)
  end.

Definition ok_list m (l : list andor) := forallb (ok_andor m) l.
Definition ok_lines m (ls : list (list andor)) := forallb (ok_list m) ls.

Section Depth.
Context {O : os}.

Definition setdep (k : nat) (c : cx) := mkcx k (c_see c) (c_ser c) (c_it c).

Definition boundo (k : nat) (o : outcome) : Prop :=
  match o with OBrk i | OCont i => i < k | _ => True end.
Definition bound (k : nat) (f : fin O) : Prop :=
  match f with Go o _ => boundo k o | Stop _ _ => True end.

Fixpoint nbj (k : nat) (j : @job O) : Prop :=
  match j with
  | JList l | JBlock l => nb_list k l = true
  | JAndOr a => nb_andor k a = true
  | JPipes _ ps => forallb (nb_pipe k) ps = true
  | JComs cs => forallb (nb_cmd k) cs = true
  | JProc j => nbj k j
  | JOne c => nb_cmd k c = true
  | JKind kd => nb_kind k kd = true
  | JBody b => nb_body k b = true
  | JIf cls =>
    forallb (fun p => match p with (c, l) => nb_list k c && nb_list k l end) cls = true
  | JFors _ _ l => k <> 0 /\ nb_list k l = true
  | JWhile _ cond l _ => k <> 0 /\ nb_list k cond = true /\ nb_list k l = true
  | JLines ls _ => nb_lines k ls = true
  | JIter lss _ _ => forallb (nb_lines k) lss = true
  | JSettle _ o | JErr _ o => boundo k o
  | JKids _ _ _ _ | JSigs | JExit _ => True
  | JPass _ _ => False
  end.

Definition outk (k : nat) (j : @job O) : nat :=
  match j with JFors _ _ _ | JWhile _ _ _ _ => pred k | _ => k end.

Lemma bound_calls_off k o : boundo 0 o -> boundo k (calls_off o).
Proof. destruct o; cbn; auto; lia. Qed.

Lemma bound_leave k o o' : k <> 0 -> boundo k o -> leave o = Some o' -> boundo (pred k) o'.
Proof.
  destruct o as [|[|i]|[|i]| | |]; cbn; intros K B E; inversion E; subst; cbn; auto; lia.
Qed.

Lemma chosen_nb k v its w w1 l :
  @chosen O v its w w1 (Some l) ->
  forallb (fun p => match p with (_, l) => nb_list k l end) its = true -> nb_list k l = true.
Proof.
  intros H. remember (Some l) as x eqn:E. induction H; inversion E; subst; cbn; auto;
  rewrite andb_true_iff; intuition.
Qed.

Lemma bound_0 k f : bound 0 f -> bound k f.
Proof. destruct f as [[]|]; cbn; auto; lia. Qed.

Ltac bsplit :=
  repeat match goal with
  | H : _ && _ = true |- _ => apply andb_true_iff in H; destruct H
  end.


Lemma exit_stop c st d f : @ev O c (JExit st) d f -> exists v x, f = Stop v x.
Proof. inversion 1; subst; eauto. Qed.
Lemma proc_stop c j d f : @ev O c (JProc j) d f -> exists v x, f = Stop v x.
Proof. inversion 1; subst; eauto using exit_stop. Qed.

(** An outcome does not concern more loops than there are. *)
Definition depj (k : nat) (j : @job O) : Prop :=
  match j with
  | JFors _ _ _ | JWhile _ _ _ _ => k <> 0
  | JSettle _ o | JErr _ o => boundo k o
  | JProc _ => False
  | _ => True
  end.

Lemma dep_bound c j d f : @ev O c j d f -> depj (c_dep c) j -> bound (outk (c_dep c) j) f.
Proof.
  induction 1; intros D; cbn [depj outk bound c_dep quiet inloop infunc intrap initer pred] in *;
    auto; try tauto.
  all: try (cbn [boundo]; lia).
  all: try (apply bound_0; tauto).
  all: try (apply bound_calls_off; tauto).
  all: try (eapply bound_leave; [| |eassumption]; tauto).
  all: try (destruct b; exact I).
  all: try (destruct nr; exact I).
  all: match goal with H : ev _ (JProc _) _ _ |- _ => apply proc_stop in H; destruct H as (? & ? & ->) end;
    exact I.
Qed.

(** Evaluation in a context with fewer loops around. *)
Lemma nb_first_list k a l : nb_list k (a :: l) = true -> nb_andor k a = true /\ nb_list k l = true.
Proof. apply andb_true_iff. Qed.

Lemma nb_list_cons k a l : nb_andor k a = true -> nb_list k l = true -> nb_list k (a :: l) = true.
Proof. intros A B. unfold nb_list. cbn. rewrite A. exact B. Qed.
Lemma bound_norm k : boundo k ONorm.
Proof. exact I. Qed.
Lemma le_loop k c : k <= c_dep c -> S k <= c_dep (inloop c).
Proof. cbn. lia. Qed.
Lemma nb_forsj k l : nb_list (S k) l = true -> S k <> 0 /\ nb_list (S k) l = true.
Proof. auto. Qed.
Lemma nb_whilej k c l : nb_list (S k) c = true -> nb_list (S k) l = true ->
  S k <> 0 /\ nb_list (S k) c = true /\ nb_list (S k) l = true.
Proof. auto. Qed.

Theorem depth_irrelevant c j d f : @ev O c j d f ->
  forall k, nbj k j -> k <= c_dep c -> ev (setdep k c) j d f.
Proof.
  Local Hint Resolve nb_list_cons bound_norm le_loop nb_forsj nb_whilej : nbdb.
  induction 1; intros kk NB LE;
    cbn [nbj] in *;
    cbn [nb_kind nb_body nb_cmd nb_pipe nb_andor forallb] in NB;
    fold (nb_list kk) in *; fold (nb_list (S kk)) in *;
    unfold nb_lines in *;
    repeat match goal with
    | H : nb_list _ (_ :: _) = true |- _ => apply nb_first_list in H
    | H : _ /\ _ |- _ => destruct H
    | H : _ && _ = true |- _ => apply andb_true_iff in H; destruct H
    end.
  all: try solve [econstructor; eauto with nbdb].
  - (* C_one *)
    apply (C_one (setdep kk k) c d o d1); auto. apply IHev2; auto.
    change (bound kk (Go o d1)).
    apply (dep_bound _ _ _ _ (IHev1 kk H1 LE)); exact I.
  - (* break *)
    apply Nat.leb_le in NB.
    replace (min (N.to_nat n) (c_dep k)) with (min (N.to_nat n) (c_dep (setdep kk k))) by (cbn; lia).
    constructor; auto. cbn. lia.
  - apply Nat.leb_le in NB.
    replace (min (N.to_nat n) (c_dep k)) with (min (N.to_nat n) (c_dep (setdep kk k))) by (cbn; lia).
    constructor; auto. cbn. lia.
  - apply B_loop_err; auto. cbn. destruct H; [auto|right; lia].
  - apply B_loop_die; auto. cbn. destruct H; [auto|right; lia].
  - eapply D_case; eauto. apply IHev; auto.
    exact (chosen_nb _ _ _ _ _ _ H0 NB).
  - apply andb_true_iff in NB. destruct NB. apply N_go with d1; auto.
  - apply andb_true_iff in NB. destruct NB. apply N_stop; auto.
Qed.
End Depth.
