(** Model of command execution and control flow: exec.c, with the parts of
    yash.c (reading and executing lines, exiting) and sig.c (traps) it needs.

    A command is a tree, as built by the parser.  What a command does apart
    from the control flow (what words expand to, what a program or an ordinary
    built-in does to files and variables, which signals arrive meanwhile) is
    given by the record [os] of arbitrary functions on an arbitrary world; the
    theorems hold for every choice.

    Not modelled: interruption by SIGINT of an interactive shell
    ([is_interrupted]), stopped jobs, failures of fork, syntax errors, the
    [noexec] option, the [command] and [exec] built-ins, $PROMPT_COMMAND and
    $COMMAND_NOT_FOUND_HANDLER, completion.  Temporary variables, positional
    parameters and local variables of a function belong to the world and are
    not opened and closed here (see VarModel). *)
From Coq Require Import List NArith Bool Arith.
From Verif Require Import Common.
Import ListNotations.
Local Open Scope res_scope.

(** Exit statuses (exec.h 34-42). *)
Definition Exit_SUCCESS : N := 0%N.
Definition Exit_FAILURE : N := 1%N.
Definition Exit_ERROR : N := 2%N.
Definition Exit_NOTFOUND : N := 127%N.
Definition Exit_EXPERROR : N := Exit_ERROR.
Definition Exit_ASSGNERR : N := Exit_ERROR.
Definition Exit_REDIRERR : N := Exit_ERROR.

(** The options that control flow depends on (option.c 95-105). *)
Inductive optname := OErrexit | OErrreturn | OPipefail.

(** Syntax trees (parser.h).  Words, redirections, programs, variables and
    functions are named by numbers.  A list of lists is a text read line by
    line, a line being what one call of the parser returns (yash.c 546-560).
    A simple command is its kind after expansion: [KBasic] stands for every
    built-in that neither changes the control flow nor executes other
    commands. *)
Inductive kind :=
  | KBasic (b : N)
  | KExt (b : N)
  | KCall (f : N)
  | KBreak (n : N)
  | KCont (n : N)
  | KBreakI
  | KContI
  | KRet (noreturn : bool) (st : option N)
  | KExit (st : option N)
  | KEval (ls : list (list andor))
  | KEvalI (lss : list (list (list andor)))
  | KDot (ls : list (list andor))
  | KSet (o : optname) (b : bool)
  | KTrap (sg : N) (a : option (list (list andor)))
with body :=
  | BSimple (x : option N) (k : kind)
  | BSub (l : list andor)
  | BGroup (l : list andor)
  | BIf (cls : list (list andor * list andor))
  | BFor (v x : N) (l : list andor)
  | BWhile (ty : bool) (cond l : list andor)
  | BCase (x : N) (items : list (list N * list andor))
  | BBracket (b : N)
  | BFundef (f : option N) (c : cmd)
with cmd := Cmd (r : option N) (b : body)
with pipe := Pipe (cond neg : bool) (cs : list cmd)
with andor := AndOr (async : bool) (ps : list pipe).

Notation line := (list andor) (only parsing).

(** Result of expanding the words of a simple command, opening nothing: an
    error has an exit status and may be one that ends a non-interactive
    shell (expand.c 1996-2001, exec.c 700-708, 773-780). *)
Inductive xres := XOk | XErr (st : N) (die : bool).

(** The world.  [o_expand] also tells which signals were caught; [o_redir]
    opens the redirections of a command ([None]: error) and [o_undo] closes
    them; [o_vis] is what remains of the world when a process ends (files,
    not variables); [o_fork] is what the [i]th process of a pipeline starts
    with and [o_join] what the shell has after waiting for its children, given
    what it had before and what they left; [o_bg] starts an asynchronous list; [o_sigtab] is the
    table of signals in the order in which traps are looked up (sig.c
    755-760). *)
Record os := mkos {
  W : Type;
  V : Type;
  o_vis : W -> V;
  o_expand : N -> W -> W * list N * xres;
  o_basic : N -> W -> W * list N * N;
  o_ext : N -> W -> W * list N * N;
  o_words : N -> W -> W * option (list N);
  o_assign : N -> N -> W -> option W;
  o_word : N -> W -> W * option N;
  o_pat : N -> N -> W -> W * option bool;
  o_redir : N -> W -> W * bool;
  o_undo : N -> W -> W;
  o_fork : nat -> W -> W;
  o_join : W -> list V -> W;
  o_bg : list pipe -> W -> W;
  o_sigtab : list N;
  o_posix : bool;      (* [posixly_correct] *)
  o_jobctl : bool      (* [doing_job_control_now] *)
}.

(** State of the shell other than the control flow variables. *)
Record dat (O : os) := mkd {
  d_w : (W O); (* the rest of the world: variables, files, descriptors, other processes *)
  d_last : N; (* [laststatus] (exec.c 216-217) *)
  d_oe : bool; (* [shopt_errexit] (option.c 95-105) *)
  d_orr : bool; (* [shopt_errreturn] (option.c 95-105) *)
  d_pf : bool; (* [shopt_pipefail] (option.c 95-105) *)
  d_fn : list (N * cmd); (* functions (variable.c 196-197), newest first *)
  d_tr : list (N * list (list andor)); (* [trap_command] (sig.c 245-249): signal number, 0 for EXIT, and action *)
  d_ph : bool; (* [is_phantom] (sig.c 260-265) *)
  d_any : bool; (* [any_trap_set] (sig.c 235-237) *)
  d_pend : list N; (* [signal_received] (sig.c 245-249), as a set *)
  d_hand : bool; (* [handled_signal] >= 0 (sig.c 242-243) *)
  d_save : option N; (* [savelaststatus], [None] for -1 (exec.c 218-219) *)
  d_ex : option N; (* [exitstatus], [None] for -1 (exec.c 222-223) *)
  d_inter : bool (* [is_interactive_now] (yash.c 219) *)
}.
Arguments mkd {O}.
Arguments d_w {O}.
Arguments d_last {O}.
Arguments d_oe {O}.
Arguments d_orr {O}.
Arguments d_pf {O}.
Arguments d_fn {O}.
Arguments d_tr {O}.
Arguments d_ph {O}.
Arguments d_any {O}.
Arguments d_pend {O}.
Arguments d_hand {O}.
Arguments d_save {O}.
Arguments d_ex {O}.
Arguments d_inter {O}.
Definition sd_w {O} (a : (W O)) (d : dat O) : dat O := mkd a (d_last d) (d_oe d) (d_orr d) (d_pf d) (d_fn d) (d_tr d) (d_ph d) (d_any d) (d_pend d) (d_hand d) (d_save d) (d_ex d) (d_inter d).
Definition sd_last {O} (a : N) (d : dat O) : dat O := mkd (d_w d) a (d_oe d) (d_orr d) (d_pf d) (d_fn d) (d_tr d) (d_ph d) (d_any d) (d_pend d) (d_hand d) (d_save d) (d_ex d) (d_inter d).
Definition sd_oe {O} (a : bool) (d : dat O) : dat O := mkd (d_w d) (d_last d) a (d_orr d) (d_pf d) (d_fn d) (d_tr d) (d_ph d) (d_any d) (d_pend d) (d_hand d) (d_save d) (d_ex d) (d_inter d).
Definition sd_orr {O} (a : bool) (d : dat O) : dat O := mkd (d_w d) (d_last d) (d_oe d) a (d_pf d) (d_fn d) (d_tr d) (d_ph d) (d_any d) (d_pend d) (d_hand d) (d_save d) (d_ex d) (d_inter d).
Definition sd_pf {O} (a : bool) (d : dat O) : dat O := mkd (d_w d) (d_last d) (d_oe d) (d_orr d) a (d_fn d) (d_tr d) (d_ph d) (d_any d) (d_pend d) (d_hand d) (d_save d) (d_ex d) (d_inter d).
Definition sd_fn {O} (a : list (N * cmd)) (d : dat O) : dat O := mkd (d_w d) (d_last d) (d_oe d) (d_orr d) (d_pf d) a (d_tr d) (d_ph d) (d_any d) (d_pend d) (d_hand d) (d_save d) (d_ex d) (d_inter d).
Definition sd_tr {O} (a : list (N * list (list andor))) (d : dat O) : dat O := mkd (d_w d) (d_last d) (d_oe d) (d_orr d) (d_pf d) (d_fn d) a (d_ph d) (d_any d) (d_pend d) (d_hand d) (d_save d) (d_ex d) (d_inter d).
Definition sd_ph {O} (a : bool) (d : dat O) : dat O := mkd (d_w d) (d_last d) (d_oe d) (d_orr d) (d_pf d) (d_fn d) (d_tr d) a (d_any d) (d_pend d) (d_hand d) (d_save d) (d_ex d) (d_inter d).
Definition sd_any {O} (a : bool) (d : dat O) : dat O := mkd (d_w d) (d_last d) (d_oe d) (d_orr d) (d_pf d) (d_fn d) (d_tr d) (d_ph d) a (d_pend d) (d_hand d) (d_save d) (d_ex d) (d_inter d).
Definition sd_pend {O} (a : list N) (d : dat O) : dat O := mkd (d_w d) (d_last d) (d_oe d) (d_orr d) (d_pf d) (d_fn d) (d_tr d) (d_ph d) (d_any d) a (d_hand d) (d_save d) (d_ex d) (d_inter d).
Definition sd_hand {O} (a : bool) (d : dat O) : dat O := mkd (d_w d) (d_last d) (d_oe d) (d_orr d) (d_pf d) (d_fn d) (d_tr d) (d_ph d) (d_any d) (d_pend d) a (d_save d) (d_ex d) (d_inter d).
Definition sd_save {O} (a : option N) (d : dat O) : dat O := mkd (d_w d) (d_last d) (d_oe d) (d_orr d) (d_pf d) (d_fn d) (d_tr d) (d_ph d) (d_any d) (d_pend d) (d_hand d) a (d_ex d) (d_inter d).
Definition sd_ex {O} (a : option N) (d : dat O) : dat O := mkd (d_w d) (d_last d) (d_oe d) (d_orr d) (d_pf d) (d_fn d) (d_tr d) (d_ph d) (d_any d) (d_pend d) (d_hand d) (d_save d) a (d_inter d).
Definition sd_inter {O} (a : bool) (d : dat O) : dat O := mkd (d_w d) (d_last d) (d_oe d) (d_orr d) (d_pf d) (d_fn d) (d_tr d) (d_ph d) (d_any d) (d_pend d) (d_hand d) (d_save d) (d_ex d) a.

(** [execstate] (exec.c 132-138) and [exception] (exec.c 124-130). *)
Inductive exn := XNone | XContinue | XReturn | XBreakIter | XContinueIter.
Record est := mke { e_ln : nat; e_bn : nat; e_nr : bool; e_it : bool }.

(** State of the shell: [see] and [ser] are [suppresserrexit] and
    [suppresserrreturn] (exec.c 227-230). *)
Record sh (O : os) := mks {
  s_d : dat O;
  s_e : est;
  s_x : exn;
  s_see : bool;
  s_ser : bool
}.
Arguments mks {O}.
Arguments s_d {O}.
Arguments s_e {O}.
Arguments s_x {O}.
Arguments s_see {O}.
Arguments s_ser {O}.
Definition ss_d {O} (a : dat O) (s : sh O) := mks a (s_e s) (s_x s) (s_see s) (s_ser s).
Definition ss_e {O} (a : est) (s : sh O) := mks (s_d s) a (s_x s) (s_see s) (s_ser s).
Definition ss_x {O} (a : exn) (s : sh O) := mks (s_d s) (s_e s) a (s_see s) (s_ser s).
Definition ss_sup {O} (a b : bool) (s : sh O) := mks (s_d s) (s_e s) (s_x s) a b.

(** The shell either goes on or has exited, leaving a world and a status. *)
Inductive out (O : os) :=
  | Cont (s : sh O)
  | Dead (v : V O) (st : N).
Arguments Cont {O}.
Arguments Dead {O}.

Definition andthen {O} (r : res (out O)) (k : sh O -> res (out O)) : res (out O) :=
  match r with
  | Ok (Cont s) => k s
  | Ok (Dead v st) => Ok (Dead v st)
  | UB => UB
  | Fuel => Fuel
  end.
Notation "'let?' s ':=' a 'in' b" := (andthen a (fun s => b))
  (at level 200, s name, a at level 100, b at level 200) : res_scope.

Section Model.
Context {O : os}.
Notation dat := (dat O).
Notation sh := (sh O).
Notation out := (out O).

(** [reset_execstate] (exec.c 257-265). *)
Definition reset_execstate (iter : bool) (e : est) : est :=
  mke 0 0 false (if iter then false else e_it e).

(** [cancel_return] (exec.c 290-295). *)
Definition cancel_return (s : sh) : sh :=
  match s_x s with XReturn => ss_x XNone s | _ => s end.

Definition exn_none (x : exn) : bool := match x with XNone => true | _ => false end.

(** [need_break] (exec.c 297-303), without interruption. *)
Definition need_break (s : sh) : bool :=
  Nat.ltb (e_bn (s_e s)) (e_ln (s_e s)) || negb (exn_none (s_x s)).

Definition sets_last (st : N) (s : sh) : sh := ss_d (sd_last st (s_d s)) s.

Fixpoint assoc {A} (k : N) (l : list (N * A)) : option A :=
  match l with
  | [] => None
  | (a, b) :: l' => if N.eqb k a then Some b else assoc k l'
  end.

(** The action of a trap that is in effect: [command != NULL && command[0] !=
    L'\0'] and not a phantom (sig.c 760-761). *)
Definition acting (sg : N) (d : dat) : option (list line) :=
  if d_ph d then None
  else match assoc sg (d_tr d) with
       | Some (l :: ls) => Some (l :: ls)
       | _ => None
       end.

(** [sig_handler] (sig.c 541-563): only trapped signals are recorded. *)
Definition deliver (sgs : list N) (d : dat) : dat :=
  sd_pend (d_pend d ++
           filter (fun sg => match acting sg d with Some _ => true | None => false end
                             && existsb (N.eqb sg) (o_sigtab O)) sgs) d.

(** [phantomize_traps] (sig.c 980-1010). *)
Definition phantomize (d : dat) : dat :=
  if negb (d_any d) && match d_pend d with [] => true | _ => false end then d
  else sd_pend [] (sd_any false (sd_ph true d)).

(** [become_child] (exec.c 1536-1565) in a process that does not exec. *)
Definition child_d (d : dat) : dat := sd_ex None (sd_inter false (phantomize d)).
Definition become_child (s : sh) : sh :=
  mks (child_d (s_d s)) (reset_execstate true (s_e s)) (s_x s) (s_see s) false.

(** [banish_phantoms] (sig.c 1012-1048) and [set_trap] (sig.c 834-890); an
    action without commands is the empty string.  Signals that cannot be
    trapped are not modelled. *)
Definition banish (d : dat) : dat :=
  if d_ph d then
    sd_ph false (sd_tr (filter (fun p => match snd p with [] => true | _ => false end)
                               (d_tr d)) d)
  else d.
Definition set_trap (sg : N) (a : option (list line)) (d : dat) : dat :=
  let tr' := filter (fun p => negb (N.eqb sg (fst p))) (d_tr d) in
  let d1 := sd_pend (filter (fun p => negb (N.eqb sg p)) (d_pend d)) d in
  match a with
  | None => sd_tr tr' d1
  | Some [] => sd_tr ((sg, []) :: tr') d1
  | Some ls => sd_any true (sd_tr ((sg, ls) :: tr') d1)
  end.

(** [define_function] (variable.c 1256-1272); read-only functions are not
    modelled. *)
Definition define_function (f : N) (c : cmd) (d : dat) : dat :=
  sd_fn ((f, c) :: d_fn d) d.

Definition set_opt (o : optname) (b : bool) (d : dat) : dat :=
  match o with
  | OErrexit => sd_oe b d
  | OErrreturn => sd_orr b d
  | OPipefail => sd_pf b d
  end.

(** [calc_status_of_job] (job.c 626-647) of a finished job. *)
Definition job_status (pf : bool) (sts : list N) : N :=
  if negb pf then List.last sts Exit_SUCCESS
  else match find (fun st => negb (N.eqb st Exit_SUCCESS)) (rev sts) with
       | Some st => st
       | None => Exit_SUCCESS
       end.

(** [is_errexit_condition], [is_errreturn_condition] and
    [is_err_condition_for] (exec.c 513-569). *)
Definition is_errexit_condition (s : sh) : bool :=
  d_oe (s_d s) && negb (s_see s) && negb (N.eqb (d_last (s_d s)) Exit_SUCCESS).
Definition is_errreturn_condition (s : sh) : bool :=
  d_orr (s_d s) && negb (s_ser s) && negb (e_nr (s_e s))
  && negb (N.eqb (d_last (s_d s)) Exit_SUCCESS).
Definition is_err_condition_for (cs : list cmd) : bool :=
  match cs with
  | [Cmd _ (BSimple _ _)] | [Cmd _ (BSub _)] | [Cmd _ (BBracket _)]
  | [Cmd _ (BFundef _ _)] => true
  | [_] => false
  | _ => true
  end.

(** Special built-ins (builtin.c), which matter in the POSIX mode. *)
Definition special (k : kind) : bool :=
  match k with
  | KBreak _ | KCont _ | KBreakI | KContI | KRet _ _ | KExit _ | KEval _
  | KEvalI _ | KDot _ | KSet _ _ | KTrap _ _ => true
  | _ => false
  end.

(** The matching item of a case command (exec.c 1393-1418). *)
Inductive found := FNone | FErr | FItem (l : list andor).
Fixpoint try_pats (v : N) (ps : list N) (w : W O) : W O * option bool :=
  match ps with
  | [] => (w, Some false)
  | p :: ps' =>
    match o_pat O p v w with
    | (w1, None) => (w1, None)
    | (w1, Some true) => (w1, Some true)
    | (w1, Some false) => try_pats v ps' w1
    end
  end.
Fixpoint find_item (v : N) (items : list (list N * list andor)) (w : W O) : W O * found :=
  match items with
  | [] => (w, FNone)
  | (ps, l) :: items' =>
    match try_pats v ps w with
    | (w1, None) => (w1, FErr)
    | (w1, Some true) => (w1, FItem l)
    | (w1, Some false) => find_item v items' w1
    end
  end.

(** [exec_T] (exec.c 68-74). *)
Inductive ety := TyNormal | TyAsync | TySelf.
Definition is_self (t : ety) : bool := match t with TySelf => true | _ => false end.
Definition is_async (t : ety) : bool := match t with TyAsync => true | _ => false end.

(** What there is to execute: one constructor for each function of exec.c, or
    for a loop in it. *)
Inductive task :=
  | TList (l : list andor) (fe : bool)
  | TPipes (first : bool) (ps : list pipe) (fe : bool)
  | TComs (cs : list cmd) (ty : ety)
  | TKids (i : nat) (w0 : W O) (acc : list (V O * N)) (cs : list cmd) (short : bool)
  | TOne (c : cmd) (fe : bool)
  | TKind (k : kind) (fe : bool)
  | TFunc (c : cmd) (fe : bool)
  | TBody (b : body) (fe : bool)
  | TIf (cls : list (list andor * list andor)) (fe : bool)
  | TCond (l : list andor)
  | TFors (v : N) (ws : list N) (l : list andor) (fe : bool)
  | TEndLoop (fe : bool)
  | TWhile (ty : bool) (cond l : list andor) (st : N) (fe : bool)
  | TLines (ls : list line) (executed fe eof : bool)
  | TIter (lss : list (list line)) (sv cst : N)
  | TSigs
  | TPass (tab : list N)
  | TErr (cs : option (list cmd))
  | TMaybeExit (fe : bool)
  | TExit (st : option N).

(** [CHECK_LOOP] (exec.c 1308-1319): [None] is [goto done]. *)
Definition check_loop (s : sh) : option sh :=
  if Nat.ltb (e_bn (s_e s)) (e_ln (s_e s)) then None
  else match s_x s with
       | XNone => Some s
       | XContinue => Some (ss_x XNone s)
       | _ => None
       end.

Definition enter_loop (s : sh) : sh :=
  let n := S (e_ln (s_e s)) in
  ss_e (mke n n (e_nr (s_e s)) (e_it (s_e s))) s.
Definition leave_loop (s : sh) : sh :=
  ss_e (mke (pred (e_ln (s_e s))) (e_bn (s_e s)) (e_nr (s_e s)) (e_it (s_e s))) s.

Definition upd_w (w : W O) (s : sh) : sh := ss_d (sd_w w (s_d s)) s.

(** Execution.  The fuel bounds the depth of calls and the number of
    iterations. *)
Fixpoint exec (n : nat) (t : task) (s : sh) {struct n} : res out :=
  match n with
  | 0 => Fuel
  | S n =>
    match t with
    (* [exec_and_or_lists] (exec.c 306-320) and [exec_pipelines_async]
       (exec.c 354-392) *)
    | TList [] fe => exec n (TMaybeExit fe) s
    | TList (AndOr async ps :: l) fe =>
      if need_break s then exec n (TMaybeExit fe) s
      else
        let? s1 :=
          if negb async then
            exec n (TPipes true ps (fe && match l with [] => true | _ => false end)) s
          else
            match ps with
            | [] => UB
            | [Pipe _ false cs] => exec n (TComs cs TyAsync) s
            | _ => Ok (Cont (sets_last Exit_SUCCESS (upd_w (o_bg O ps (d_w (s_d s))) s)))
            end
        in exec n (TList l fe) s1

    (* [exec_pipelines] (exec.c 322-351) *)
    | TPipes first [] fe => exec n (TMaybeExit fe) s
    | TPipes first (Pipe cond neg cs :: ps) fe =>
      if negb first
         && Bool.eqb cond (negb (N.eqb (d_last (s_d s)) Exit_SUCCESS))
      then exec n (TPipes false ps fe) s
      else
        let lst := match ps with [] => true | _ => false end in
        let suppress := neg || negb lst in
        let self := fe && lst && negb neg in
        let? s1 := exec n (TComs cs (if self then TySelf else TyNormal))
                     (ss_sup (s_see s || suppress) (s_ser s || suppress) s) in
        let s2 := ss_sup (s_see s) (s_ser s) s1 in
        if need_break s2 then exec n (TMaybeExit fe) s2
        else
          let s3 :=
            if neg then
              sets_last (if N.eqb (d_last (s_d s2)) Exit_SUCCESS
                         then Exit_FAILURE else Exit_SUCCESS) s2
            else s2 in
          exec n (TPipes false ps fe) s3

    (* [exec_commands] (exec.c 394-493) *)
    | TComs cs ty =>
      let short := is_self ty && negb (o_jobctl O) && negb (d_any (s_d s))
                   && (Nat.eqb (length cs) 1 || negb (d_pf (s_d s))) in
      let? s1 :=
        match cs with
        | [] => UB
        | [c] =>
          if is_async ty
          then Ok (Cont (sets_last Exit_SUCCESS
                           (upd_w (o_bg O [Pipe true false cs] (d_w (s_d s))) s)))
          else exec n (TOne c short) s
        | _ =>
          if is_async ty
          then Ok (Cont (sets_last Exit_SUCCESS
                           (upd_w (o_bg O [Pipe true false cs] (d_w (s_d s))) s)))
          else exec n (TKids 0 (d_w (s_d s)) [] cs short) s
        end in
      let? s2 := exec n TSigs s1 in
      let? s3 := exec n (TErr (Some cs)) s2 in
      exec n (TMaybeExit (is_self ty)) s3

    (* the child processes of a pipeline (exec.c 412-471) *)
    | TKids i w0 acc [] short =>
      Ok (Cont (sets_last (job_status (d_pf (s_d s)) (map snd acc))
                  (upd_w (o_join O w0 (map fst acc)) s)))
    | TKids i w0 acc (c :: cs) short =>
      if short && match cs with [] => true | _ => false end then
        match exec n (TOne c true) (upd_w (o_fork O i w0) s) with
        | Ok (Dead v st) => Ok (Dead (o_vis O (o_join O w0 (map fst acc ++ [v]))) st)
        | Ok (Cont _) => UB
        | UB => UB
        | Fuel => Fuel
        end
      else
        match exec n (TOne c true) (become_child (upd_w (o_fork O i w0) s)) with
        | Ok (Dead v st) => exec n (TKids (S i) w0 (acc ++ [(v, st)]) cs short) s
        | Ok (Cont _) => UB
        | UB => UB
        | Fuel => Fuel
        end

    (* [exec_one_command] (exec.c 631-660) and [exec_simple_command] (exec.c
       662-694) with [exec_simple_command_with_words] (exec.c 738-815) *)
    | TOne (Cmd r (BSimple x k)) fe =>
      let '(w1, sgs, xr) :=
        match x with
        | None => (d_w (s_d s), [], XOk)
        | Some x => o_expand O x (d_w (s_d s))
        end in
      let s1 := ss_d (deliver sgs (sd_w w1 (s_d s))) s in
      match xr with
      | XErr st die =>
        if fe || (die && negb (d_inter (s_d s1)))
        then exec n (TExit (Some st)) s1
        else Ok (Cont (sets_last st s1))
      | XOk =>
        match r with
        | None =>
          let? s2 := exec n (TKind k fe) s1 in
          if fe then exec n (TExit (Some (d_last (s_d s2)))) s2 else Ok (Cont s2)
        | Some r =>
          let '(w2, ok) := o_redir O r (d_w (s_d s1)) in
          if ok then
            let? s2 := exec n (TKind k false) (upd_w w2 s1) in
            let s3 := upd_w (o_undo O r (d_w (s_d s2))) s2 in
            if fe then exec n (TExit (Some (d_last (s_d s3)))) s3 else Ok (Cont s3)
          else
            let s2 := sets_last Exit_REDIRERR (upd_w (o_undo O r w2) s1) in
            if fe || (o_posix O && negb (d_inter (s_d s2)) && special k)
            then exec n (TExit (Some Exit_REDIRERR)) s2
            else Ok (Cont s2)
        end
      end
    | TOne (Cmd r b) fe =>
      match r with
      | None =>
        let? s1 := exec n (TBody b fe) s in
        exec n (TMaybeExit fe) s1
      | Some r =>
        let '(w1, ok) := o_redir O r (d_w (s_d s)) in
        if ok then
          let? s1 := exec n (TBody b false) (upd_w w1 s) in
          exec n (TMaybeExit fe) (upd_w (o_undo O r (d_w (s_d s1))) s1)
        else
          let? s1 := exec n (TErr None)
                       (sets_last Exit_REDIRERR (upd_w (o_undo O r w1) s)) in
          exec n (TMaybeExit fe) s1
      end

    (* [invoke_simple_command] (exec.c 1019-1074) and the built-ins *)
    | TKind k fe =>
      let err (st : N) : res out :=   (* [special_builtin_error] (builtin.c 299-312) *)
        if o_posix O && negb (d_inter (s_d s))
        then exec n (TExit (Some st)) s
        else exec n (TMaybeExit fe) (sets_last st s) in
      match k with
      | KBasic b =>
        let '(w1, sgs, st) := o_basic O b (d_w (s_d s)) in
        exec n (TMaybeExit fe)
          (ss_d (sd_last st (deliver sgs (sd_w w1 (s_d s)))) s)
      | KExt b =>
        let '(w1, sgs, st) := o_ext O b (d_w (s_d s)) in
        if fe then Ok (Dead (o_vis O w1) st)
        else Ok (Cont (ss_d (sd_last st (deliver sgs (sd_w w1 (s_d s)))) s))
      | KCall f =>
        match assoc f (d_fn (s_d s)) with
        | None => exec n (TMaybeExit fe) (sets_last Exit_NOTFOUND s)
        | Some c =>
          let? s1 := exec n (TFunc c fe) s in
          exec n (TMaybeExit fe) s1
        end
      (* [break_builtin] (exec.c 1914-1987) *)
      | KBreak c =>
        if N.eqb c 0 then err Exit_ERROR
        else if Nat.eqb (e_ln (s_e s)) 0 then err Exit_ERROR
        else
          let c := N.min c (N.of_nat (e_ln (s_e s))) in
          let e := s_e s in
          exec n (TMaybeExit fe)
            (sets_last Exit_SUCCESS
               (ss_e (mke (e_ln e) (e_ln e - N.to_nat c) (e_nr e) (e_it e)) s))
      | KCont c =>
        if N.eqb c 0 then err Exit_ERROR
        else if Nat.eqb (e_ln (s_e s)) 0 then err Exit_ERROR
        else
          let c := N.min c (N.of_nat (e_ln (s_e s))) in
          let e := s_e s in
          exec n (TMaybeExit fe)
            (sets_last Exit_SUCCESS
               (ss_x XContinue
                  (ss_e (mke (e_ln e) (e_ln e - N.to_nat c + 1) (e_nr e) (e_it e)) s)))
      | KBreakI =>
        if e_it (s_e s) then exec n (TMaybeExit fe) (ss_x XBreakIter s)
        else exec n (TMaybeExit fe) (sets_last Exit_ERROR s)
      | KContI =>
        if e_it (s_e s) then exec n (TMaybeExit fe) (ss_x XContinueIter s)
        else exec n (TMaybeExit fe) (sets_last Exit_ERROR s)
      (* [return_builtin] (exec.c 1859-1902), operands being valid *)
      | KRet nr st =>
        let status :=
          match st with
          | Some st => st
          | None => match d_save (s_d s) with Some v => v | None => d_last (s_d s) end
          end in
        if nr then exec n (TMaybeExit fe) (sets_last status s)
        else if e_nr (s_e s) && d_inter (s_d s)
        then exec n (TMaybeExit fe) (sets_last Exit_FAILURE s)
        else exec n (TMaybeExit fe) (sets_last status (ss_x XReturn s))
      (* [exit_builtin] (yash.c 612-660), operands being valid *)
      | KExit st => exec n (TExit st) s
      (* [eval_builtin] (exec.c 2010-2038) with [exec_iteration] (exec.c
         1694-1724), [exec_wcs] (yash.c 469-486) *)
      | KEval ls =>
        let? s1 := exec n (TLines ls false false false) s in
        exec n (TMaybeExit fe) s1
      | KEvalI lss =>
        let e := s_e s in
        let? s1 := exec n (TIter lss (d_last (s_d s)) Exit_SUCCESS)
                     (ss_e (mke (e_ln e) (e_bn e) (e_nr e) true) s) in
        let e1 := s_e s1 in
        exec n (TMaybeExit fe) (ss_e (mke (e_ln e1) (e_bn e1) (e_nr e1) (e_it e)) s1)
      (* [dot_builtin] (exec.c 2062-2161), the file being readable and there
         being no arguments *)
      | KDot ls =>
        let? s1 := exec n (TLines ls false false false)
                     (ss_sup (s_see s) false
                        (ss_e (reset_execstate false (s_e s)) s)) in
        exec n (TMaybeExit fe)
          (ss_e (s_e s) (ss_sup (s_see s1) (s_ser s) (cancel_return s1)))
      | KSet o b =>
        exec n (TMaybeExit fe) (sets_last Exit_SUCCESS (ss_d (set_opt o b (s_d s)) s))
      (* [trap_builtin] (sig.c 1173-1273) *)
      | KTrap sg a =>
        exec n (TMaybeExit fe)
          (sets_last Exit_SUCCESS (ss_d (set_trap sg a (banish (s_d s))) s))
      end

    (* [exec_function_body] (exec.c 1170-1194) *)
    | TFunc c fe =>
      let? s1 := exec n (TComs [c] (if fe then TySelf else TyNormal))
                   (ss_sup (s_see s) false (ss_e (reset_execstate false (s_e s)) s)) in
      Ok (Cont (ss_e (s_e s) (ss_sup (s_see s1) (s_ser s) (cancel_return s1))))

    (* [exec_nonsimple_command] (exec.c 1198-1246) *)
    | TBody (BSimple _ _) fe => UB
    | TBody (BSub l) fe =>
      if fe then exec n (TList l true) (become_child s)
      else
        match exec n (TList l true) (become_child s) with
        | Ok (Dead v st) => Ok (Cont (sets_last st (upd_w (o_join O (d_w (s_d s)) [v]) s)))
        | Ok (Cont _) => UB
        | UB => UB
        | Fuel => Fuel
        end
    | TBody (BGroup l) fe => exec n (TList l fe) s
    | TBody (BIf cls) fe => exec n (TIf cls fe) s
    (* [exec_for] (exec.c 1283-1349) *)
    | TBody (BFor v x l) fe =>
      let s0 := enter_loop s in
      match o_words O x (d_w (s_d s0)) with
      | (w1, None) =>
        let? s1 := exec n (TErr None) (sets_last Exit_EXPERROR (upd_w w1 s0)) in
        exec n (TEndLoop fe) s1
      | (w1, Some []) =>
        let s1 := upd_w w1 s0 in
        exec n (TEndLoop fe)
          (match l with [] => s1 | _ => sets_last Exit_SUCCESS s1 end)
      | (w1, Some ws) => exec n (TFors v ws l fe) (upd_w w1 s0)
      end
    | TBody (BWhile ty cond l) fe =>
      exec n (TWhile ty cond l Exit_SUCCESS fe) (enter_loop s)
    (* [exec_case] (exec.c 1388-1431) *)
    | TBody (BCase x items) fe =>
      let fail (w : W O) :=
        let? s1 := exec n (TErr None) (sets_last Exit_EXPERROR (upd_w w s)) in
        exec n (TMaybeExit fe) s1 in
      match o_word O x (d_w (s_d s)) with
      | (w1, None) => fail w1
      | (w1, Some v) =>
        match find_item v items w1 with
        | (w2, FErr) => fail w2
        | (w2, FNone) | (w2, FItem []) =>
          exec n (TMaybeExit fe) (sets_last Exit_SUCCESS (upd_w w2 s))
        | (w2, FItem l) =>
          let? s1 := exec n (TList l fe) (upd_w w2 s) in
          exec n (TMaybeExit fe) s1
        end
      end
    | TBody (BBracket b) fe =>
      let '(w1, sgs, st) := o_basic O b (d_w (s_d s)) in
      exec n (TMaybeExit fe) (ss_d (sd_last st (deliver sgs (sd_w w1 (s_d s)))) s)
    (* [exec_funcdef] (exec.c 1434-1452) *)
    | TBody (BFundef f c) fe =>
      exec n (TMaybeExit fe)
        (match f with
         | Some f => sets_last Exit_SUCCESS (ss_d (define_function f c (s_d s)) s)
         | None => sets_last Exit_EXPERROR s
         end)

    (* [exec_if] (exec.c 1248-1267) *)
    | TIf [] fe => exec n (TMaybeExit fe) (sets_last Exit_SUCCESS s)
    | TIf ((cond, l) :: cls) fe =>
      if need_break s then exec n (TMaybeExit fe) s
      else
        let? s1 := exec n (TCond cond) s in
        if match cond with [] => true | _ => N.eqb (d_last (s_d s1)) Exit_SUCCESS end
        then exec n (TList l fe) s1
        else exec n (TIf cls fe) s1

    (* [exec_condition] (exec.c 1270-1280) *)
    | TCond [] => Ok (Cont s)
    | TCond l =>
      let? s1 := exec n (TList l false) (ss_sup true true s) in
      Ok (Cont (ss_sup (s_see s) (s_ser s) s1))

    (* the loop of [exec_for] (exec.c 1321-1337) *)
    | TFors v [] l fe => exec n (TEndLoop fe) s
    | TFors v (x :: ws) l fe =>
      match o_assign O v x (d_w (s_d s)) with
      | None =>
        let? s1 := exec n (TErr None) (sets_last Exit_ASSGNERR s) in
        exec n (TEndLoop (fe || negb (d_inter (s_d s1)))) s1
      | Some w1 =>
        let? s1 := exec n (TList l (fe && match ws with [] => true | _ => false end))
                     (upd_w w1 s) in
        let? s2 := match l with [] => exec n TSigs s1 | _ => Ok (Cont s1) end in
        match check_loop s2 with
        | None => exec n (TEndLoop fe) s2
        | Some s3 => exec n (TFors v ws l fe) s3
        end
      end
    | TEndLoop fe => exec n (TMaybeExit fe) (leave_loop s)

    (* [exec_while] (exec.c 1355-1386) *)
    | TWhile ty cond l st fe =>
      let? s1 := exec n (TCond cond) s in
      let c := match cond with [] => true | _ => N.eqb (d_last (s_d s1)) Exit_SUCCESS end in
      let? s2 := match cond with [] => exec n TSigs s1 | _ => Ok (Cont s1) end in
      match check_loop s2 with
      | None => exec n (TEndLoop fe) s2
      | Some s3 =>
        match s_x s2 with
        | XContinue => exec n (TWhile ty cond l st fe) s3
        | _ =>
          if negb (Bool.eqb c ty)
          then exec n (TEndLoop fe) (sets_last st s3)
          else
            match l with
            | [] =>
              let? s4 := exec n TSigs s3 in
              match check_loop s4 with
              | None => exec n (TEndLoop fe) s4
              | Some s5 => exec n (TWhile ty cond l st fe) s5
              end
            | _ =>
              let? s4 := exec n (TList l false) s3 in
              match check_loop s4 with
              | None => exec n (TEndLoop fe) s4
              | Some s5 => exec n (TWhile ty cond l (d_last (s_d s4)) fe) s5
              end
            end
        end
      end

    (* [parse_and_exec] (yash.c 529-588) of input that is not interactive;
       [eof]: the end of the input was seen on reading the last line *)
    | TLines ls executed fe eof =>
      if need_break s then exec n (TMaybeExit fe) s
      else
        match ls with
        | [] =>
          exec n (TMaybeExit fe) (if executed then s else sets_last Exit_SUCCESS s)
        | [] :: ls' => exec n (TLines ls' executed fe eof) s
        | l :: ls' =>
          let? s1 := exec n (TList l (fe && eof && match ls' with [] => true | _ => false end)) s in
          exec n (TLines ls' true fe eof) s1
        end

    (* the loop of [exec_iteration] (exec.c 1700-1719); [sv] is
       [savelaststatus] there and [cst] is [commandstatus] *)
    | TIter [] sv cst => Ok (Cont (sets_last cst s))
    | TIter (ls :: lss) sv cst =>
      let? s1 := exec n (TLines ls false false false) s in
      let c := d_last (s_d s1) in
      let s2 := sets_last sv s1 in
      match s_x s2 with
      | XBreakIter => Ok (Cont (sets_last c (ss_x XNone s2)))
      | XContinueIter | XNone =>
        let s3 := ss_x XNone s2 in
        if Nat.ltb (e_bn (s_e s3)) (e_ln (s_e s3))
        then Ok (Cont (sets_last c s3))
        else exec n (TIter lss sv c) s3
      | _ => Ok (Cont (sets_last c s2))
      end

    (* [handle_traps] (sig.c 732-815) *)
    | TSigs =>
      let d := s_d s in
      if negb (d_any d) || match d_pend d with [] => true | _ => false end || d_hand d
      then Ok (Cont s)
      else
        let? s1 := exec n (TPass (o_sigtab O)) (ss_d (sd_save (Some (d_last d)) d) s) in
        Ok (Cont (ss_d (sd_hand false (sd_save None (s_d s1))) s1))
    | TPass [] =>
      match d_pend (s_d s) with
      | [] => Ok (Cont s)
      | _ => exec n (TPass (o_sigtab O)) s
      end
    | TPass (sg :: tab) =>
      let d := s_d s in
      if existsb (N.eqb sg) (d_pend d) then
        let d1 := sd_pend (filter (fun p => negb (N.eqb sg p)) (d_pend d)) d in
        match acting sg d1 with
        | None => exec n (TPass tab) (ss_d d1 s)
        | Some ls =>
          let? s1 := exec n (TLines ls false false false)
                       (ss_e (reset_execstate true (s_e s)) (ss_d (sd_hand true d1) s)) in
          let s2 := ss_e (s_e s) (cancel_return s1) in
          let last := match d_save (s_d s2) with Some v => v | None => d_last (s_d s2) end in
          exec n (TPass tab) (sets_last last s2)
        end
      else exec n (TPass tab) s

    (* [apply_errexit_errreturn] (exec.c 503-511) *)
    | TErr cs =>
      let for_c := match cs with None => true | Some cs => is_err_condition_for cs end in
      if is_errexit_condition s && for_c
      then exec n (TExit (Some (d_last (s_d s)))) s
      else if is_errreturn_condition s && for_c
      then Ok (Cont (ss_x XReturn s))
      else Ok (Cont s)

    | TMaybeExit fe => if fe then exec n (TExit None) s else Ok (Cont s)

    (* [exit_shell_with_status] (yash.c 377-393), [exit_shell] being the case
       without a status, and [execute_exit_trap] (sig.c 818-832) *)
    | TExit st =>
      let d := match st with Some v => sd_last v (s_d s) | None => s_d s end in
      match d_ex d with
      | None =>
        let d1 := sd_ex (Some (d_last d)) d in
        if d_ph d1 then Ok (Dead (o_vis O (d_w d1)) (d_last d))
        else
          match assoc 0%N (d_tr d1) with
          | None => Ok (Dead (o_vis O (d_w d1)) (d_last d))
          | Some ls =>
            match exec n (TLines ls false false false)
                    (ss_e (reset_execstate true (s_e s))
                       (ss_d (sd_save (Some (d_last d1)) d1) s)) with
            | Ok (Cont s1) =>
              match d_ex (s_d s1) with
              | Some v => Ok (Dead (o_vis O (d_w (s_d s1))) v)
              | None => UB
              end
            | r => r
            end
          end
      | Some v => Ok (Dead (o_vis O (d_w d)) (match st with Some v => v | None => v end))
      end
    end
  end.

End Model.
