(** Structured semantics of commands, against which exec.c is checked.

    There are no loop counters, no pending jumps and no flags that are saved
    and restored: a command has an outcome (it completes, or it breaks out of
    or continues the [k]th enclosing loop, or returns, ...) and is evaluated in
    a context that says how many loops can be left, whether failures are
    tested by somebody (so that they do not end the shell) and whether an
    iteration is going on.  Nothing depends on a command being the last one of
    its process.  The shell is not interactive. *)
From Coq Require Import List NArith Bool Arith.
From Verif Require Import Common ExecModel.
Import ListNotations.

Inductive outcome :=
  | ONorm
  | OBrk (k : nat)     (* leave the [k]th enclosing loop, counting from 0 *)
  | OCont (k : nat)    (* go on with the [k]th enclosing loop *)
  | ORet
  | OBrkI
  | OContI.

Inductive fin (O : os) :=
  | Go (o : outcome) (d : dat O)
  | Stop (v : V O) (st : N).
Arguments Go {O}.
Arguments Stop {O}.

Record cx := mkcx { c_dep : nat; c_see : bool; c_ser : bool; c_it : bool }.

(** Contexts of parts: a part whose failure is tested; a loop body; a function
    or a dot script; a trap action; a child process; an iteration. *)
Definition quiet (b : bool) (k : cx) := mkcx (c_dep k) (c_see k || b) (c_ser k || b) (c_it k).
Definition inloop (k : cx) := mkcx (S (c_dep k)) (c_see k) (c_ser k) (c_it k).
Definition infunc (k : cx) := mkcx 0 (c_see k) false (c_it k).
Definition intrap (k : cx) := mkcx 0 (c_see k) (c_ser k) false.
Definition inproc (k : cx) := mkcx 0 (c_see k) false false.
Definition initer (k : cx) := mkcx (c_dep k) (c_see k) (c_ser k) true.

(** What a loop makes of the outcome of its body or condition: [None], go on;
    [Some o], the loop ends with outcome [o]. *)
Definition leave (o : outcome) : option outcome :=
  match o with
  | ONorm | OCont 0 => None
  | OBrk 0 => Some ONorm
  | OBrk (S k) => Some (OBrk k)
  | OCont (S k) => Some (OCont k)
  | o => Some o
  end.

Definition calls_off (o : outcome) : outcome := match o with ORet => ONorm | o => o end.

(** A failure of the command may end the shell or the function: not so for a
    group, an if, a for, a while or a case command, whose parts count. *)
Definition plain (cs : list cmd) : Prop :=
  match cs with
  | [Cmd _ b] =>
    match b with
    | BGroup _ | BIf _ | BFor _ _ _ | BWhile _ _ _ | BCase _ _ => False
    | _ => True
    end
  | _ => True
  end.

Definition special_builtin (k : kind) : Prop :=
  match k with KBasic _ | KExt _ | KCall _ => False | _ => True end.

(** The status of a pipeline: that of the last command or, with pipefail, of
    the last one that failed. *)
Definition pipeline_status (pf : bool) (sts : list N) (st : N) : Prop :=
  if pf then
    (Forall (eq 0%N) sts /\ st = 0%N) \/
    exists a b, sts = a ++ st :: b /\ st <> 0%N /\ Forall (eq 0%N) b
  else exists a, sts = a ++ [st].

Section Spec.
Context {O : os}.
Notation dat := (dat O).
Notation fin := (fin O).

(** The action of a trap in effect. *)
Definition action (d : dat) (sg : N) : option (list (list andor)) :=
  if d_ph d then None
  else match assoc sg (d_tr d) with
       | None | Some [] => None
       | Some ls => Some ls
       end.

(** Everything but traps and pending signals is the same. *)
Definition same_but_traps (d d' : dat) : Prop :=
  d_w d' = d_w d /\ d_last d' = d_last d /\ d_oe d' = d_oe d /\ d_orr d' = d_orr d
  /\ d_pf d' = d_pf d /\ d_fn d' = d_fn d /\ d_hand d' = d_hand d
  /\ d_save d' = d_save d.

(** A child process has no traps and no pending signals, and has not begun to
    exit. *)
Definition starts_child (d d' : dat) : Prop :=
  same_but_traps d d' /\ d_ex d' = None /\ d_inter d' = false /\ d_pend d' = []
  /\ forall sg, action d' sg = None.

(** The trap built-in changes the action of one signal and forgets the signal
    if it is pending. *)
Definition sets_trap (sg : N) (a : option (list (list andor))) (d d' : dat) : Prop :=
  same_but_traps d d' /\ d_ex d' = d_ex d /\ d_inter d' = d_inter d
  /\ (forall g, In g (d_pend d') <-> In g (d_pend d) /\ g <> sg)
  /\ forall g, action d' g =
       if N.eq_dec g sg then match a with Some [] | None => None | Some ls => Some ls end
       else action d g.

(** Signals are caught if they have an action. *)
Definition catches (sgs : list N) (d d' : dat) : Prop :=
  exists p, d' = sd_pend p d /\
    forall g, In g p <->
      In g (d_pend d) \/ In g sgs /\ action d g <> None /\ In g (o_sigtab O).

Definition ran (x : W O * list N * N) (d d' : dat) : Prop :=
  exists d1, catches (snd (fst x)) (sd_w (fst (fst x)) d) d1 /\ d' = sd_last (snd x) d1.

Definition expands (x : option N) (d d' : dat) (xr : xres) : Prop :=
  match x with
  | None => d' = d /\ xr = XOk
  | Some x =>
    catches (snd (fst (o_expand O x (d_w d)))) (sd_w (fst (fst (o_expand O x (d_w d)))) d) d'
    /\ xr = snd (o_expand O x (d_w d))
  end.

Definition abrupt (r : fin) : Prop :=
  match r with Go ONorm _ => False | _ => True end.

Definition fails (d : dat) : Prop := d_last d <> 0%N.

(** A command of an and-or list is skipped after && if the previous one failed
    and after || if it succeeded. *)
Definition skipped (first cond : bool) (d : dat) : Prop :=
  first = false /\ (if cond then fails d else ~ fails d).

Definition negated (d : dat) : dat :=
  sd_last (if N.eq_dec (d_last d) 0 then 1%N else 0%N) d.

(** Which commands of a case command are executed: patterns are expanded and
    compared one after another. *)
Inductive pats (v : N) : list N -> W O -> W O -> option bool -> Prop :=
  | P_none w : pats v [] w w (Some false)
  | P_err p ps w w1 : o_pat O p v w = (w1, None) -> pats v (p :: ps) w w1 None
  | P_yes p ps w w1 : o_pat O p v w = (w1, Some true) -> pats v (p :: ps) w w1 (Some true)
  | P_no p ps w w1 w2 b :
      o_pat O p v w = (w1, Some false) -> pats v ps w1 w2 b -> pats v (p :: ps) w w2 b.
Inductive chosen (v : N) :
    list (list N * list andor) -> W O -> W O -> option (list andor) -> Prop :=
  | Ch_none w : chosen v [] w w (Some [])
  | Ch_err ps l its w w1 : pats v ps w w1 None -> chosen v ((ps, l) :: its) w w1 None
  | Ch_yes ps l its w w1 :
      pats v ps w w1 (Some true) -> chosen v ((ps, l) :: its) w w1 (Some l)
  | Ch_no ps l its w w1 w2 b :
      pats v ps w w1 (Some false) -> chosen v its w1 w2 b ->
      chosen v ((ps, l) :: its) w w2 b.

(** What is evaluated: commands of all kinds; [JProc], something as a whole
    process; [JSettle], what follows a command that had the given outcome;
    [JErr], the test for the errexit and errreturn options; [JSigs], the
    actions of pending signals; [JExit], the exit from the shell. *)
Inductive job :=
  | JList (l : list andor)
  | JAndOr (a : andor)
  | JPipes (first : bool) (ps : list pipe)
  | JComs (cs : list cmd)
  | JKids (i : nat) (w0 : W O) (acc : list (V O * N)) (cs : list cmd)
  | JProc (j : job)
  | JOne (c : cmd)
  | JKind (k : kind)
  | JBody (b : body)
  | JIf (cls : list (list andor * list andor))
  | JBlock (l : list andor)
  | JFors (v : N) (ws : list N) (l : list andor)
  | JWhile (ty : bool) (cond l : list andor) (st : N)
  | JLines (ls : list (list andor)) (executed : bool)
  | JIter (lss : list (list (list andor))) (sv cst : N)
  | JSettle (cs : list cmd) (o : outcome)
  | JErr (p : Prop) (o : outcome)
  | JSigs
  | JPass (tab : list N) (sv : N)
  | JExit (st : option N).

Inductive ev : cx -> job -> dat -> fin -> Prop :=

  (* lists: one after another *)
  | L_nil k d : ev k (JList []) d (Go ONorm d)
  | L_go k a l d d1 r :
      ev k (JAndOr a) d (Go ONorm d1) -> ev k (JList l) d1 r -> ev k (JList (a :: l)) d r
  | L_stop k a l d r :
      ev k (JAndOr a) d r -> abrupt r -> ev k (JList (a :: l)) d r

  (* and-or lists *)
  | A_sync k ps d r : ev k (JPipes true ps) d r -> ev k (JAndOr (AndOr false ps)) d r
  | A_async1 k c cs d r :
      ev k (JSettle cs ONorm) (sd_last 0%N (sd_w (o_bg O [Pipe true false cs] (d_w d)) d)) r ->
      ev k (JAndOr (AndOr true [Pipe c false cs])) d r
  | A_async k ps d :
      match ps with [] | [Pipe _ false _] => False | _ => True end ->
      ev k (JAndOr (AndOr true ps)) d (Go ONorm (sd_last 0%N (sd_w (o_bg O ps (d_w d)) d)))
  | P_nil k f d : ev k (JPipes f []) d (Go ONorm d)
  | P_skip k f c neg cs ps d r :
      skipped f c d -> ev k (JPipes false ps) d r ->
      ev k (JPipes f (Pipe c neg cs :: ps)) d r
  | P_stop k f c neg cs ps d r :
      ~ skipped f c d ->
      ev (quiet (neg || match ps with [] => false | _ => true end) k) (JComs cs) d r ->
      abrupt r ->
      ev k (JPipes f (Pipe c neg cs :: ps)) d r
  | P_go k f c (neg : bool) cs ps d d1 r :
      ~ skipped f c d ->
      ev (quiet (neg || match ps with [] => false | _ => true end) k) (JComs cs) d (Go ONorm d1) ->
      ev k (JPipes false ps) (if neg then negated d1 else d1) r ->
      ev k (JPipes f (Pipe c neg cs :: ps)) d r

  (* pipelines: a single command is executed by the shell itself, the commands
     of a longer one by child processes *)
  | C_one k c d o d1 r :
      ev k (JOne c) d (Go o d1) -> ev k (JSettle [c] o) d1 r -> ev k (JComs [c]) d r
  | C_one_stop k c d v st :
      ev k (JOne c) d (Stop v st) -> ev k (JComs [c]) d (Stop v st)
  | C_many k c1 c2 cs d d1 r :
      ev k (JKids 0 (d_w d) [] (c1 :: c2 :: cs)) d (Go ONorm d1) ->
      ev k (JSettle (c1 :: c2 :: cs) ONorm) d1 r ->
      ev k (JComs (c1 :: c2 :: cs)) d r
  | K_nil k i w0 acc d st :
      pipeline_status (d_pf d) (map snd acc) st ->
      ev k (JKids i w0 acc []) d (Go ONorm (sd_last st (sd_w (o_join O w0 (map fst acc)) d)))
  | K_cons k i w0 acc c cs d dc v st r :
      starts_child (sd_w (o_fork O i w0) d) dc ->
      ev (inproc k) (JProc (JOne c)) dc (Stop v st) ->
      ev k (JKids (S i) w0 (acc ++ [(v, st)]) cs) d r ->
      ev k (JKids i w0 acc (c :: cs)) d r

  (* a process exits when it has nothing more to do *)
  | Pr_go k j d o d1 r :
      ev k j d (Go o d1) -> ev k (JExit None) d1 r -> ev k (JProc j) d r
  | Pr_stop k j d v st :
      ev k j d (Stop v st) -> ev k (JProc j) d (Stop v st)

  (* simple commands *)
  | S_err k r x kd d d1 st die :
      expands x d d1 (XErr st die) -> die = false ->
      ev k (JOne (Cmd r (BSimple x kd))) d (Go ONorm (sd_last st d1))
  | S_die k r x kd d d1 st f :
      expands x d d1 (XErr st true) -> ev k (JExit (Some st)) d1 f ->
      ev k (JOne (Cmd r (BSimple x kd))) d f
  | S_plain k x kd d d1 f :
      expands x d d1 XOk -> ev k (JKind kd) d1 f ->
      ev k (JOne (Cmd None (BSimple x kd))) d f
  | S_redir_go k r x kd d d1 w o d2 :
      expands x d d1 XOk -> o_redir O r (d_w d1) = (w, true) ->
      ev k (JKind kd) (sd_w w d1) (Go o d2) ->
      ev k (JOne (Cmd (Some r) (BSimple x kd))) d (Go o (sd_w (o_undo O r (d_w d2)) d2))
  | S_redir_stop k r x kd d d1 w v st :
      expands x d d1 XOk -> o_redir O r (d_w d1) = (w, true) ->
      ev k (JKind kd) (sd_w w d1) (Stop v st) ->
      ev k (JOne (Cmd (Some r) (BSimple x kd))) d (Stop v st)
  | S_redir_err k r x kd d d1 w :
      expands x d d1 XOk -> o_redir O r (d_w d1) = (w, false) ->
      ~ (o_posix O = true /\ special_builtin kd) ->
      ev k (JOne (Cmd (Some r) (BSimple x kd))) d
        (Go ONorm (sd_last 2%N (sd_w (o_undo O r w) d1)))
  | S_redir_die k r x kd d d1 w f :
      expands x d d1 XOk -> o_redir O r (d_w d1) = (w, false) ->
      o_posix O = true -> special_builtin kd ->
      ev k (JExit (Some 2%N)) (sd_last 2%N (sd_w (o_undo O r w) d1)) f ->
      ev k (JOne (Cmd (Some r) (BSimple x kd))) d f

  (* compound commands and their redirections *)
  | O_plain k b d f :
      match b with BSimple _ _ => False | _ => True end ->
      ev k (JBody b) d f -> ev k (JOne (Cmd None b)) d f
  | O_redir_go k r b d w o d1 :
      match b with BSimple _ _ => False | _ => True end ->
      o_redir O r (d_w d) = (w, true) -> ev k (JBody b) (sd_w w d) (Go o d1) ->
      ev k (JOne (Cmd (Some r) b)) d (Go o (sd_w (o_undo O r (d_w d1)) d1))
  | O_redir_stop k r b d w v st :
      match b with BSimple _ _ => False | _ => True end ->
      o_redir O r (d_w d) = (w, true) -> ev k (JBody b) (sd_w w d) (Stop v st) ->
      ev k (JOne (Cmd (Some r) b)) d (Stop v st)
  | O_redir_err k r b d w f :
      match b with BSimple _ _ => False | _ => True end ->
      o_redir O r (d_w d) = (w, false) ->
      ev k (JErr True ONorm) (sd_last 2%N (sd_w (o_undo O r w) d)) f ->
      ev k (JOne (Cmd (Some r) b)) d f

  (* built-ins, programs and functions *)
  | B_basic k b d d1 : ran (o_basic O b (d_w d)) d d1 -> ev k (JKind (KBasic b)) d (Go ONorm d1)
  | B_ext k b d d1 : ran (o_ext O b (d_w d)) d d1 -> ev k (JKind (KExt b)) d (Go ONorm d1)
  | B_call_no k f d :
      assoc f (d_fn d) = None -> ev k (JKind (KCall f)) d (Go ONorm (sd_last 127%N d))
  | B_call k f c d o d1 :
      assoc f (d_fn d) = Some c -> ev (infunc k) (JComs [c]) d (Go o d1) ->
      ev k (JKind (KCall f)) d (Go (calls_off o) d1)
  | B_call_stop k f c d v st :
      assoc f (d_fn d) = Some c -> ev (infunc k) (JComs [c]) d (Stop v st) ->
      ev k (JKind (KCall f)) d (Stop v st)
  | B_break k n d :
      n <> 0%N -> c_dep k <> 0 ->
      ev k (JKind (KBreak n)) d (Go (OBrk (pred (min (N.to_nat n) (c_dep k)))) (sd_last 0%N d))
  | B_cont k n d :
      n <> 0%N -> c_dep k <> 0 ->
      ev k (JKind (KCont n)) d (Go (OCont (pred (min (N.to_nat n) (c_dep k)))) (sd_last 0%N d))
  | B_loop_err k (b : bool) n d :
      n = 0%N \/ c_dep k = 0 -> o_posix O = false ->
      ev k (JKind (if b then KBreak n else KCont n)) d (Go ONorm (sd_last 2%N d))
  | B_loop_die k (b : bool) n d f :
      n = 0%N \/ c_dep k = 0 -> o_posix O = true -> ev k (JExit (Some 2%N)) d f ->
      ev k (JKind (if b then KBreak n else KCont n)) d f
  | B_iter k (b : bool) d :
      c_it k = true ->
      ev k (JKind (if b then KBreakI else KContI)) d (Go (if b then OBrkI else OContI) d)
  | B_iter_err k (b : bool) d :
      c_it k = false ->
      ev k (JKind (if b then KBreakI else KContI)) d (Go ONorm (sd_last 2%N d))
  | B_ret k (nr : bool) st d :
      ev k (JKind (KRet nr st)) d
        (Go (if nr then ONorm else ORet)
            (sd_last (match st, d_save d with
                      | Some v, _ => v
                      | None, Some v => v
                      | None, None => d_last d
                      end) d))
  | B_exit k st d f : ev k (JExit st) d f -> ev k (JKind (KExit st)) d f
  | B_eval k ls d f : ev k (JLines ls false) d f -> ev k (JKind (KEval ls)) d f
  | B_evali k lss d f :
      ev (initer k) (JIter lss (d_last d) 0%N) d f -> ev k (JKind (KEvalI lss)) d f
  | B_dot k ls d o d1 :
      ev (infunc k) (JLines ls false) d (Go o d1) ->
      ev k (JKind (KDot ls)) d (Go (calls_off o) d1)
  | B_dot_stop k ls d v st :
      ev (infunc k) (JLines ls false) d (Stop v st) -> ev k (JKind (KDot ls)) d (Stop v st)
  | B_set k o (b : bool) d :
      ev k (JKind (KSet o b)) d
        (Go ONorm (sd_last 0%N (match o with
                                | OErrexit => sd_oe b d
                                | OErrreturn => sd_orr b d
                                | OPipefail => sd_pf b d
                                end)))
  | B_trap k sg a d d1 :
      sets_trap sg a d d1 -> ev k (JKind (KTrap sg a)) d (Go ONorm (sd_last 0%N d1))

  (* compound commands *)
  | D_sub k l d dc v st :
      starts_child d dc -> ev (inproc k) (JProc (JList l)) dc (Stop v st) ->
      ev k (JBody (BSub l)) d (Go ONorm (sd_last st (sd_w (o_join O (d_w d) [v]) d)))
  | D_group k l d f : ev k (JList l) d f -> ev k (JBody (BGroup l)) d f
  | D_if k cls d f : ev k (JIf cls) d f -> ev k (JBody (BIf cls)) d f
  | D_for_err k v x l d w f :
      o_words O x (d_w d) = (w, None) ->
      ev k (JErr True ONorm) (sd_last 2%N (sd_w w d)) f -> ev k (JBody (BFor v x l)) d f
  | D_for_none k v x l d w :
      o_words O x (d_w d) = (w, Some []) ->
      ev k (JBody (BFor v x l)) d
        (Go ONorm (match l with [] => sd_w w d | _ => sd_last 0%N (sd_w w d) end))
  | D_for k v x y ws l d w f :
      o_words O x (d_w d) = (w, Some (y :: ws)) ->
      ev (inloop k) (JFors v (y :: ws) l) (sd_w w d) f -> ev k (JBody (BFor v x l)) d f
  | D_while k ty cond l d f :
      ev (inloop k) (JWhile ty cond l 0%N) d f -> ev k (JBody (BWhile ty cond l)) d f
  | D_case_err0 k x its d w f :
      o_word O x (d_w d) = (w, None) ->
      ev k (JErr True ONorm) (sd_last 2%N (sd_w w d)) f -> ev k (JBody (BCase x its)) d f
  | D_case_err k x its d w v w1 f :
      o_word O x (d_w d) = (w, Some v) -> chosen v its w w1 None ->
      ev k (JErr True ONorm) (sd_last 2%N (sd_w w1 d)) f -> ev k (JBody (BCase x its)) d f
  | D_case_none k x its d w v w1 :
      o_word O x (d_w d) = (w, Some v) -> chosen v its w w1 (Some []) ->
      ev k (JBody (BCase x its)) d (Go ONorm (sd_last 0%N (sd_w w1 d)))
  | D_case k x its d w v w1 a l f :
      o_word O x (d_w d) = (w, Some v) -> chosen v its w w1 (Some (a :: l)) ->
      ev k (JList (a :: l)) (sd_w w1 d) f -> ev k (JBody (BCase x its)) d f
  | D_bracket k b d d1 :
      ran (o_basic O b (d_w d)) d d1 -> ev k (JBody (BBracket b)) d (Go ONorm d1)
  | D_fundef k f c d :
      ev k (JBody (BFundef (Some f) c)) d (Go ONorm (sd_last 0%N (sd_fn ((f, c) :: d_fn d) d)))
  | D_fundef_err k c d :
      ev k (JBody (BFundef None c)) d (Go ONorm (sd_last 2%N d))

  (* if: the commands after the first condition that succeeds; an empty
     condition is "else" *)
  | I_none k d : ev k (JIf []) d (Go ONorm (sd_last 0%N d))
  | I_else k l cls d f : ev k (JList l) d f -> ev k (JIf (([], l) :: cls)) d f
  | I_abrupt k a c l cls d f :
      ev (quiet true k) (JList (a :: c)) d f -> abrupt f -> ev k (JIf ((a :: c, l) :: cls)) d f
  | I_yes k a c l cls d d1 f :
      ev (quiet true k) (JList (a :: c)) d (Go ONorm d1) -> ~ fails d1 ->
      ev k (JList l) d1 f -> ev k (JIf ((a :: c, l) :: cls)) d f
  | I_no k a c l cls d d1 f :
      ev (quiet true k) (JList (a :: c)) d (Go ONorm d1) -> fails d1 ->
      ev k (JIf cls) d1 f -> ev k (JIf ((a :: c, l) :: cls)) d f

  (* loops; signals are served in an empty loop, too *)
  | Bl_sigs k d f : ev k JSigs d f -> ev k (JBlock []) d f
  | Bl_list k a l d f : ev k (JList (a :: l)) d f -> ev k (JBlock (a :: l)) d f
  | F_end k v l d : ev k (JFors v [] l) d (Go ONorm d)
  | F_die k v x ws l d f :
      o_assign O v x (d_w d) = None ->
      ev k (JProc (JErr True ONorm)) (sd_last 2%N d) f -> ev k (JFors v (x :: ws) l) d f
  | F_next k v x ws l d w o d1 f :
      o_assign O v x (d_w d) = Some w -> ev k (JBlock l) (sd_w w d) (Go o d1) ->
      leave o = None -> ev k (JFors v ws l) d1 f -> ev k (JFors v (x :: ws) l) d f
  | F_leave k v x ws l d w o d1 o' :
      o_assign O v x (d_w d) = Some w -> ev k (JBlock l) (sd_w w d) (Go o d1) ->
      leave o = Some o' -> ev k (JFors v (x :: ws) l) d (Go o' d1)
  | F_stop k v x ws l d w u st :
      o_assign O v x (d_w d) = Some w -> ev k (JBlock l) (sd_w w d) (Stop u st) ->
      ev k (JFors v (x :: ws) l) d (Stop u st)
  | W_leave k ty cond l st d o d1 o' :
      ev (quiet (match cond with [] => false | _ => true end) k) (JBlock cond) d (Go o d1) ->
      leave o = Some o' -> ev k (JWhile ty cond l st) d (Go o' d1)
  | W_again k ty cond l st d d1 f :
      ev (quiet (match cond with [] => false | _ => true end) k) (JBlock cond) d (Go (OCont 0) d1) ->
      ev k (JWhile ty cond l st) d1 f -> ev k (JWhile ty cond l st) d f
  | W_stop k ty cond l st d v x :
      ev (quiet (match cond with [] => false | _ => true end) k) (JBlock cond) d (Stop v x) ->
      ev k (JWhile ty cond l st) d (Stop v x)
  | W_end k (ty : bool) cond l st d d1 :
      ev (quiet (match cond with [] => false | _ => true end) k) (JBlock cond) d (Go ONorm d1) ->
      (if ty then cond <> [] /\ fails d1 else cond = [] \/ ~ fails d1) ->
      ev k (JWhile ty cond l st) d (Go ONorm (sd_last st d1))
  | W_body_leave k (ty : bool) cond l st d d1 o d2 o' :
      ev (quiet (match cond with [] => false | _ => true end) k) (JBlock cond) d (Go ONorm d1) ->
      (if ty then cond = [] \/ ~ fails d1 else cond <> [] /\ fails d1) ->
      ev k (JBlock l) d1 (Go o d2) -> leave o = Some o' ->
      ev k (JWhile ty cond l st) d (Go o' d2)
  | W_body_stop k (ty : bool) cond l st d d1 v x :
      ev (quiet (match cond with [] => false | _ => true end) k) (JBlock cond) d (Go ONorm d1) ->
      (if ty then cond = [] \/ ~ fails d1 else cond <> [] /\ fails d1) ->
      ev k (JBlock l) d1 (Stop v x) -> ev k (JWhile ty cond l st) d (Stop v x)
  | W_body_next k (ty : bool) cond l st d d1 o d2 f :
      ev (quiet (match cond with [] => false | _ => true end) k) (JBlock cond) d (Go ONorm d1) ->
      (if ty then cond = [] \/ ~ fails d1 else cond <> [] /\ fails d1) ->
      ev k (JBlock l) d1 (Go o d2) -> leave o = None ->
      ev k (JWhile ty cond l (match l with [] => st | _ => d_last d2 end)) d2 f ->
      ev k (JWhile ty cond l st) d f

  (* a text, read line by line *)
  | N_end k (e : bool) d : ev k (JLines [] e) d (Go ONorm (if e then d else sd_last 0%N d))
  | N_blank k ls e d f : ev k (JLines ls e) d f -> ev k (JLines ([] :: ls) e) d f
  | N_go k a l ls e d d1 f :
      ev k (JList (a :: l)) d (Go ONorm d1) -> ev k (JLines ls true) d1 f ->
      ev k (JLines ((a :: l) :: ls) e) d f
  | N_stop k a l ls e d f :
      ev k (JList (a :: l)) d f -> abrupt f -> ev k (JLines ((a :: l) :: ls) e) d f

  (* an iteration: each text starts with the status from before *)
  | T_end k sv cst d : ev k (JIter [] sv cst) d (Go ONorm (sd_last cst d))
  | T_next k ls lss sv cst d o d1 f :
      ev k (JLines ls false) d (Go o d1) -> o = ONorm \/ o = OContI ->
      ev k (JIter lss sv (d_last d1)) (sd_last sv d1) f ->
      ev k (JIter (ls :: lss) sv cst) d f
  | T_break k ls lss sv cst d d1 :
      ev k (JLines ls false) d (Go OBrkI d1) -> ev k (JIter (ls :: lss) sv cst) d (Go ONorm d1)
  | T_abrupt k ls lss sv cst d f :
      ev k (JLines ls false) d f ->
      match f with Go ONorm _ | Go OContI _ | Go OBrkI _ => False | _ => True end ->
      ev k (JIter (ls :: lss) sv cst) d f

  (* after a command: traps, then errexit and errreturn *)
  | Se_go k cs o d d1 f :
      ev k JSigs d (Go ONorm d1) -> ev k (JErr (plain cs) o) d1 f -> ev k (JSettle cs o) d f
  | Se_stop k cs o d v st : ev k JSigs d (Stop v st) -> ev k (JSettle cs o) d (Stop v st)
  | R_exit k (p : Prop) o d f :
      d_oe d = true -> c_see k = false -> fails d -> p ->
      ev k (JExit (Some (d_last d))) d f -> ev k (JErr p o) d f
  | R_ret k (p : Prop) o d :
      d_oe d = false \/ c_see k = true ->
      d_orr d = true -> c_ser k = false -> fails d -> p -> ev k (JErr p o) d (Go ORet d)
  | R_none k (p : Prop) o d :
      ~ (p /\ fails d /\ (d_oe d = true /\ c_see k = false \/ d_orr d = true /\ c_ser k = false)) ->
      ev k (JErr p o) d (Go o d)

  (* traps: the actions of the pending signals, one after another, unless an
     action is being executed; the status is that before the traps *)
  | G_none k d : d_pend d = [] \/ d_hand d = true -> ev k JSigs d (Go ONorm d)
  | G_run k d d1 :
      d_pend d <> [] -> d_hand d = false ->
      ev (intrap k) (JPass (o_sigtab O) (d_last d)) (sd_save (Some (d_last d)) d) (Go ONorm d1) ->
      ev k JSigs d (Go ONorm (sd_hand false (sd_save None d1)))
  | G_stop k d v st :
      d_pend d <> [] -> d_hand d = false ->
      ev (intrap k) (JPass (o_sigtab O) (d_last d)) (sd_save (Some (d_last d)) d) (Stop v st) ->
      ev k JSigs d (Stop v st)
  | Q_end k sv d : d_pend d = [] -> ev k (JPass [] sv) d (Go ONorm d)
  | Q_again k sv d f :
      d_pend d <> [] -> ev k (JPass (o_sigtab O) sv) d f -> ev k (JPass [] sv) d f
  | Q_skip k sg tab sv d f :
      ~ In sg (d_pend d) -> ev k (JPass tab sv) d f -> ev k (JPass (sg :: tab) sv) d f
  | Q_drop k sg tab sv d f :
      In sg (d_pend d) -> action d sg = None ->
      ev k (JPass tab sv) (sd_pend (remove N.eq_dec sg (d_pend d)) d) f ->
      ev k (JPass (sg :: tab) sv) d f
  | Q_act k sg tab sv d ls o d1 f :
      In sg (d_pend d) -> action d sg = Some ls ->
      ev k (JLines ls false) (sd_hand true (sd_pend (remove N.eq_dec sg (d_pend d)) d)) (Go o d1) ->
      ev k (JPass tab sv) (sd_last sv d1) f ->
      ev k (JPass (sg :: tab) sv) d f
  | Q_stop k sg tab sv d ls v st :
      In sg (d_pend d) -> action d sg = Some ls ->
      ev k (JLines ls false) (sd_hand true (sd_pend (remove N.eq_dec sg (d_pend d)) d)) (Stop v st) ->
      ev k (JPass (sg :: tab) sv) d (Stop v st)

  (* exit: the EXIT trap is executed once; the status is the one the shell
     exits with unless the action itself exits with another one *)
  | X_plain k st d :
      d_ex d = None -> action d 0%N = None ->
      ev k (JExit st) d (Stop (o_vis O (d_w d)) (match st with Some v => v | None => d_last d end))
  | X_trap k st x d ls o d1 :
      d_ex d = None -> action d 0%N = Some ls ->
      x = match st with Some v => v | None => d_last d end ->
      ev (intrap k) (JLines ls false) (sd_save (Some x) (sd_ex (Some x) (sd_last x d))) (Go o d1) ->
      ev k (JExit st) d (Stop (o_vis O (d_w d1)) x)
  | X_trap_stop k st x d ls v z :
      d_ex d = None -> action d 0%N = Some ls ->
      x = match st with Some v => v | None => d_last d end ->
      ev (intrap k) (JLines ls false) (sd_save (Some x) (sd_ex (Some x) (sd_last x d))) (Stop v z) ->
      ev k (JExit st) d (Stop v z)
  | X_again k st d v :
      d_ex d = Some v ->
      ev k (JExit st) d (Stop (o_vis O (d_w d)) (match st with Some x => x | None => v end)).

End Spec.
