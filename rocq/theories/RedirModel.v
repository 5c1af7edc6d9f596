(** Redirections (redir.c): the descriptor table of the shell process, the system calls on it
    and the functions that set up and undo redirections.

    System calls may fail or pick any free descriptor.  The outcomes are given by a list of
    answers in the state, one for each call; every finite list is a possible behaviour of the
    system. *)
From Coq Require Import Ascii String.
From Coq Require Import List NArith ZArith Bool Arith.
From Verif Require Import Common Locale NumModel.
Import ListNotations.
Open Scope res_scope.
Open Scope Z_scope.

Inductive errno := EBADF | EMFILE | EINTR | EINVAL | EEXIST | ENOENT | EOTHER.
Definition errno_eqb (a b : errno) : bool :=
  match a, b with
  | EBADF, EBADF | EMFILE, EMFILE | EINTR, EINTR | EINVAL, EINVAL | EEXIST, EEXIST | ENOENT, ENOENT | EOTHER, EOTHER => true
  | _, _ => false
  end.
(** An open file: an identity and the access mode *)
Inductive acc := RDONLY | WRONLY | RDWR.
Definition file := (N * acc)%type.

(** What a system call does: fail, use the descriptor [fd] for the file [f], use two (pipe),
    or answer a question *)
Inductive answer := Fail (e : errno) | Give (fd : Z) (f : file) | Give2 (fd1 : Z) (f1 : file) (fd2 : Z) (f2 : file) | Yes | No.

(** The process: the descriptor table (with the close-on-exec flag), shellfds, shellfdmax,
    dupfd_cloexec_ok (redir.c:119-127, 231), the answers to come.  [refused] is not in the
    program; it records that the system refused to duplicate an open descriptor. *)
Record st := mkSt {
  tbl : Z -> option (file * bool);
  shellfds : Z -> bool;
  shellfdmax : Z;
  dupfd_cloexec_ok : bool;
  answers : list answer;
  refused : bool
}.
Definition set {A} (f : Z -> A) (k : Z) (v : A) : Z -> A := fun n => if n =? k then v else f n.

Definition M (A : Type) : Type := st -> res (A * st).
Definition ret {A} (a : A) : M A := fun s => Ok (a, s).
Definition bind {A B} (m : M A) (k : A -> M B) : M B := fun s => let! (a, s') := m s in k a s'.
Notation "'do' x <- a ; b" := (bind a (fun x => b)) (at level 200, x pattern, a at level 100, b at level 200).
Definition ub {A} : M A := fun _ => UB.

Definition FD_SETSIZE : Z := 1024.

Section Redir.
Variable L : locale.
(** The number of descriptors a process may have, and shellfdmin *)
Variable open_max : Z.
Variable shellfdmin : Z.
(** Options: posixly_correct, shopt_clobber; whether sockets are configured, PIPE_BUF *)
Variable posixly_correct : bool.
Variable shopt_clobber : bool.
Variable enable_socket : bool.
Variable PIPE_BUF : Z.

(** ** System calls *)
Definition with_tbl (t : Z -> option (file * bool)) (s : st) : st := mkSt t (shellfds s) (shellfdmax s) (dupfd_cloexec_ok s) (answers s) (refused s).
Definition next : M (option answer) := fun s =>
  match answers s with
  | [] => Ok (None, s)
  | a :: l => Ok (Some a, mkSt (tbl s) (shellfds s) (shellfdmax s) (dupfd_cloexec_ok s) l (refused s))
  end.
Definition refuse : M unit := fun s => Ok (tt, mkSt (tbl s) (shellfds s) (shellfdmax s) (dupfd_cloexec_ok s) (answers s) true).
Definition free (s : st) (fd : Z) : bool := (0 <=? fd) && (fd <? open_max) && match tbl s fd with None => true | Some _ => false end.

(** xclose (redir.c:61-75): the descriptor is closed whether or not an error is reported. *)
Definition xclose (fd : Z) : M unit := fun s => Ok (tt, with_tbl (set (tbl s) fd None) s).
(** open(2), also socket(2) and mkstemp(3): any free descriptor *)
Definition sys_open : M (Z + errno) :=
  do a <- next;
  match a with
  | Some (Give fd f) => fun s => if free s fd then Ok (inl fd, with_tbl (set (tbl s) fd (Some (f, false))) s) else Ok (inr EMFILE, s)
  | Some (Fail e) => ret (inr e)
  | _ => ret (inr EMFILE)
  end.
(** pipe(2): input side first *)
Definition sys_pipe : M (option (Z * Z)) :=
  do a <- next;
  match a with
  | Some (Give2 fd1 f1 fd2 f2) => fun s =>
    if free s fd1 && free s fd2 && negb (fd1 =? fd2)
    then Ok (Some (fd1, fd2), with_tbl (set (set (tbl s) fd1 (Some (f1, false))) fd2 (Some (f2, false))) s) else Ok (None, s)
  | _ => ret None
  end.
(** fcntl(2) with F_DUPFD_CLOEXEC or F_DUPFD (then F_SETFD FD_CLOEXEC) and shellfdmin; and
    dup(2), with [cloexec] false and [min] 0 *)
Definition sys_dupfd (fd min : Z) (cloexec : bool) : M (Z + errno) :=
  do a <- next;
  match a with
  | Some (Fail EINVAL) => ret (inr EINVAL)
  | _ => fun s =>
    match tbl s fd with
    | None => Ok (inr EBADF, s)
    | Some (f, _) =>
      match a with
      | Some (Give n _) => if free s n && (min <=? n) then Ok (inl n, with_tbl (set (tbl s) n (Some (f, cloexec))) s) else Ok (inr EMFILE, s)
      | Some (Fail e) => Ok (inr (if errno_eqb e EBADF then EMFILE else e), s)
      | _ => Ok (inr EMFILE, s)
      end
    end
  end.
(** redir.c:81-97 [xdup2] with dup2(2); an interrupted call is repeated *)
Fixpoint dup2_loop (oldfd newfd : Z) (l : list answer) (s : st) : bool * st :=
  let at_ l := mkSt (tbl s) (shellfds s) (shellfdmax s) (dupfd_cloexec_ok s) l (refused s) in
  match l with
  | Fail EINTR :: l' => dup2_loop oldfd newfd l' s
  | _ =>
    let rest := tl l in
    match tbl s oldfd with
    | None => (false, at_ rest)
    | Some (f, _) =>
      if (newfd <? 0) || (open_max <=? newfd) then (false, at_ rest)
      else
        match l with
        | Fail _ :: _ => (false, mkSt (tbl s) (shellfds s) (shellfdmax s) (dupfd_cloexec_ok s) rest true)
        | _ => (true, if oldfd =? newfd then at_ rest else with_tbl (set (tbl s) newfd (Some (f, false))) (at_ rest))
        end
    end
  end.
Definition xdup2 (oldfd newfd : Z) : M bool :=
  do _ <- (if oldfd =? newfd then ret tt else xclose newfd);
  fun s => Ok (dup2_loop oldfd newfd (answers s) s).

(** ** Shell descriptors *)

(** redir.c:155-173 [reset_shellfdmin]; [None]: sysconf fails, with or without errno *)
Definition reset_shellfdmin (sysconf : option Z + unit) : Z :=
  match sysconf with
  | inr _ => 10
  | inl None => 100
  | inl (Some n) => let n := (if FD_SETSIZE <? n then FD_SETSIZE else n) / 2 in if 100 <? n then 100 else if n <? 10 then 10 else n
  end.
(** redir.c:176-183 [add_shellfd] *)
Definition add_shellfd (fd : Z) : M unit := fun s =>
  if fd <? shellfdmin then UB (* assertion *)
  else Ok (tt, mkSt (tbl s) (if fd <? FD_SETSIZE then set (shellfds s) fd true else shellfds s) (Z.max fd (shellfdmax s))
                    (dupfd_cloexec_ok s) (answers s) (refused s)).
(** The loop of redir.c:191-195: the highest member below [k] *)
Fixpoint below (f : Z -> bool) (k : nat) : Z :=
  match k with
  | O => -1
  | S k' => if f (Z.of_nat k') then Z.of_nat k' else below f k'
  end.
(** redir.c:187-196 [remove_shellfd]; FD_ISSET needs an argument less than FD_SETSIZE *)
Definition remove_shellfd (fd : Z) : M unit := fun s =>
  let f := if (0 <=? fd) && (fd <? FD_SETSIZE) then set (shellfds s) fd false else shellfds s in
  if fd =? shellfdmax s then
    if FD_SETSIZE <=? shellfdmax s - 1 then UB
    else Ok (tt, mkSt (tbl s) f (below f (Z.to_nat (shellfdmax s))) (dupfd_cloexec_ok s) (answers s) (refused s))
  else Ok (tt, mkSt (tbl s) f (shellfdmax s) (dupfd_cloexec_ok s) (answers s) (refused s)).
(** redir.c:201-204 [is_shellfd] *)
Definition is_shellfd (fd : Z) : M bool := fun s => Ok ((FD_SETSIZE <=? fd) || (0 <=? fd) && shellfds s fd, s).
(** redir.c:208-218 [clear_shellfds]; ttyfd is not modelled *)
Fixpoint close_members (k : nat) (s : st) : st :=
  match k with
  | O => s
  | S k' => let s := close_members k' s in if shellfds s (Z.of_nat k') then with_tbl (set (tbl s) (Z.of_nat k') None) s else s
  end.
Definition clear_shellfds (leavefds : bool) : M unit := fun s =>
  if leavefds then Ok (tt, s)
  else if FD_SETSIZE <=? shellfdmax s then UB
  else let s := close_members (Z.to_nat (shellfdmax s + 1)) s in
       Ok (tt, mkSt (tbl s) (fun _ => false) (-1) (dupfd_cloexec_ok s) (answers s) (refused s)).
(** redir.c:223-249 [copy_as_shellfd] *)
Definition copy_as_shellfd (fd : Z) : M (Z + errno) :=
  let finish r : M (Z + errno) :=
    match r with
    | inl newfd => do _ <- add_shellfd newfd; ret r
    | inr e => do _ <- (if errno_eqb e EBADF then ret tt else refuse); ret r
    end in
  let fallback := do r <- sys_dupfd fd shellfdmin true; finish r in
  fun s =>
    if dupfd_cloexec_ok s then
      (do r <- sys_dupfd fd shellfdmin true;
       match r with
       | inr EINVAL => fun s => fallback (mkSt (tbl s) (shellfds s) (shellfdmax s) false (answers s) (refused s))
       | _ => finish r
       end) s
    else fallback s.
(** redir.c:256-266 [move_to_shellfd] *)
Definition move_to_shellfd (fd : Z) : M (Z + errno) :=
  if fd <? 0 then ret (inl fd)
  else do r <- copy_as_shellfd fd; do _ <- xclose fd; ret r.

(** ** Redirections *)

(** parser.h:284-298 [redirtype_T] *)
Inductive rtype := RT_INPUT | RT_OUTPUT | RT_CLOBBER | RT_APPEND | RT_INOUT | RT_DUPIN | RT_DUPOUT | RT_PIPE
  | RT_HERE | RT_HERESTR | RT_PROCIN | RT_PROCOUT.
(** A redirection with the result of expanding its operand ([None] is an error); here-documents
    of both types have their contents in the operand; process redirections have none.  The
    expansion does not change the descriptor table. *)
Record redir := mkRedir { rd_fd : Z; rd_type : rtype; rd_arg : option (list N) }.
Definition operand (r : redir) : option (list N) := match rd_type r with RT_PROCIN | RT_PROCOUT => Some [] | _ => rd_arg r end.
(** redir.c:287-291 [savefd_T]: original and copy; -1 if the original was closed *)
Definition saved := list (Z * Z).

(** redir.c:455-472 [save_fd] *)
Definition save_fd (fd : Z) (save : saved) : M saved :=
  if fd <? 0 then ub (* assertion *)
  else
    do r <- copy_as_shellfd fd;
    match r with
    | inl copyfd => ret ((fd, copyfd) :: save)
    | inr EBADF => ret ((fd, -1) :: save)
    | inr _ => ret save
    end.

Definition prefix (p s : list N) : bool := list_N_eqb (firstn (length p) s) p.
(** redir.c:540-602 [open_socket]: name resolution may fail, socket(2) and connect(2) too *)
Definition open_socket : M (option Z) :=
  do a <- next;
  match a with
  | Some Yes =>
    do r <- sys_open;
    match r with
    | inl fd => do c <- next; match c with Some Yes => ret (Some fd) | _ => do _ <- xclose fd; ret None end
    | inr _ => ret None
    end
  | _ => ret None
  end.
(** redir.c:482-531 [open_file]; [excl]: O_EXCL is in the flags.  fstat(2) tells whether the file
    is a regular file. *)
Definition open_file (path : list N) (excl : bool) : M (option Z) :=
  do r <- sys_open;
  do r <- match r with
          | inl fd => ret (Some fd)
          | inr e =>
            if excl && errno_eqb e EEXIST then
              do r <- sys_open;
              match r with
              | inr _ => ret None
              | inl fd => do reg <- next; match reg with Some Yes => do _ <- xclose fd; ret None | _ => ret (Some fd) end
              end
            else ret None
          end;
  match r with
  | Some fd => ret (Some fd)
  | None =>
    if enable_socket then
      do r <- (if prefix (str "/dev/tcp/") path then open_socket else ret None);
      match r with
      | Some fd => ret (Some fd)
      | None => if prefix (str "/dev/udp/") path then open_socket else ret None
      end
    else ret None
  end.

(** The number in redir.c:622-630 and 691-700: it begins with a hexadecimal digit and is
    converted as decimal. *)
Definition isxdigit (c : N) : bool := ((48 <=? c) && (c <=? 57) || (97 <=? c) && (c <=? 102) || (65 <=? c) && (c <=? 70))%N.
Definition fd_number (num : list N) : option Z :=
  match num with
  | [] => None
  | c :: _ => if isxdigit c then match xwcstoi L 10 num with Some fd => if fd <? 0 then None else Some fd | None => None end else None
  end.
(** redir.c:613-674 [parse_and_check_dup]: -1 for -, -2 for an error *)
Definition parse_and_check_dup (num : list N) (output : bool) : M Z :=
  if list_N_eqb num (str "-") then ret (-1)
  else
    match fd_number num with
    | None => ret (-2)
    | Some fd =>
      do sh <- is_shellfd fd;
      if sh : bool then ret (-2)
      else if posixly_correct then fun s =>
        Ok (match tbl s fd with
            | None => -2
            | Some ((_, m), _) =>
              match output, m with
              | false, RDONLY | false, RDWR | true, WRONLY | true, RDWR => fd
              | _, _ => -2
              end
            end, s)
      else ret fd
    end.
(** redir.c:684-748 [parse_and_exec_pipe]: the descriptor of the output side, or failure *)
Definition parse_and_exec_pipe (outputfd : Z) (num : list N) (save : saved) : M (option Z * saved) :=
  if outputfd <? 0 then ub (* assertion *)
  else
    match fd_number num with
    | None => ret (None, save)
    | Some inputfd =>
      if outputfd =? inputfd then ret (None, save)
      else
        do sh <- is_shellfd inputfd;
        if sh : bool then ret (None, save)
        else
          do save <- save_fd inputfd save;
          do p <- sys_pipe;
          match p with
          | None => ret (None, save)
          | Some (pin, pout) =>
            let error2 pin pout : M (option Z * saved) := do _ <- xclose pin; do _ <- xclose pout; ret (None, save) in
            do r <- (if pout =? inputfd then
                       do r <- sys_dupfd pout 0 false;
                       match r with
                       | inl newfd => do _ <- xclose pout; ret (Some newfd)
                       | inr _ => ret None
                       end
                     else ret (Some pout));
            match r with
            | None => error2 pin pout
            | Some pout =>
              if pin =? inputfd then ret (Some pout, save)
              else
                do ok <- xdup2 pin inputfd;
                if ok : bool then do _ <- xclose pin; ret (Some pout, save) else error2 pin pout
            end
          end
    end.
(** redir.c:776-830 [open_herestring] and redir.c:754-768 [open_heredocument]: /dev/null, a pipe
    or a temporary file.  The writing and seeking has no effect on descriptors. *)
Definition open_herestring (s : list N) (appendnewline : bool) : M (option Z) :=
  let tempfile := do r <- sys_open; ret (match r with inl fd => Some fd | inr _ => None end) in
  let by_pipe :=
    let len := Z.of_nat (length s) + (if appendnewline then 1 else 0) in
    if len <=? PIPE_BUF then
      do p <- sys_pipe;
      match p with
      | Some (pin, pout) => do _ <- xclose pout; ret (Some pin)
      | None => tempfile
      end
    else tempfile in
  match s, appendnewline with
  | [], false => do r <- sys_open; match r with inl fd => ret (Some fd) | inr _ => by_pipe end
  | _, _ => by_pipe
  end.
(** redir.c:835-884 [open_process_redirection], the parent process *)
Definition open_process_redirection (input : bool) : M (option Z) :=
  do p <- sys_pipe;
  match p with
  | None => ret None
  | Some (pin, pout) =>
    do a <- next;
    match a with
    | Some Yes => if input then do _ <- xclose pout; ret (Some pin) else do _ <- xclose pin; ret (Some pout)
    | _ => do _ <- xclose pin; do _ <- xclose pout; ret None
    end
  end.

(** redir.c:349-418: the descriptor opened for a redirection, whether it is to be kept open,
    and the saved descriptors; failure is -2 and closing is -1. *)
Definition open_one (r : redir) (arg : list N) (save : saved) : M (Z * bool * saved) :=
  let give (m : M (option Z)) : M (Z * bool * saved) := do fd <- m; ret (match fd with Some fd => fd | None => -2 end, false, save) in
  match rd_type r with
  | RT_OUTPUT => give (open_file arg (negb shopt_clobber))
  | RT_INPUT | RT_CLOBBER | RT_APPEND | RT_INOUT => give (open_file arg false)
  | RT_DUPIN => do fd <- parse_and_check_dup arg false; ret (fd, true, save)
  | RT_DUPOUT => do fd <- parse_and_check_dup arg true; ret (fd, true, save)
  | RT_PIPE => do (fd, save) <- parse_and_exec_pipe (rd_fd r) arg save; ret (match fd with Some fd => fd | None => -2 end, false, save)
  | RT_HERE => give (open_herestring arg false)
  | RT_HERESTR => give (open_herestring arg true)
  | RT_PROCIN => give (open_process_redirection true)
  | RT_PROCOUT => give (open_process_redirection false)
  end.
(** redir.c:420-430 *)
Definition move_fd (fd rfd : Z) (keepopen : bool) : M bool :=
  if fd =? rfd then ret true
  else if 0 <=? fd then
    do ok <- xdup2 fd rfd;
    if ok : bool then do _ <- (if keepopen then ret tt else xclose fd); ret true else ret false
  else do _ <- xclose rfd; ret true.
Definition open_redirection (r : redir) (save : saved) : M (bool * saved) :=
  if rd_fd r <? 0 then ret (false, save)
  else
    do sh <- is_shellfd (rd_fd r);
    if sh : bool then ret (false, save)
    else
      match operand r with
      | None =>
        (* a here-document is expanded after saving (redir.c:396-402, 754) *)
        match rd_type r with
        | RT_HERE => do save <- save_fd (rd_fd r) save; ret (false, save)
        | _ => ret (false, save)
        end
      | Some arg =>
        do save <- save_fd (rd_fd r) save;
        do (fd, keepopen, save) <- open_one r arg save;
        if fd <? -1 then ret (false, save)
        else do ok <- move_fd fd (rd_fd r) keepopen; ret (ok, save)
      end.
(** redir.c:318-435 [open_redirections] *)
Fixpoint open_all (l : list redir) (save : saved) : M (bool * saved) :=
  match l with
  | [] => ret (true, save)
  | r :: l' => do (ok, save) <- open_redirection r save; if ok : bool then open_all l' save else ret (false, save)
  end.
Definition open_redirections (l : list redir) : M (bool * saved) := open_all l [].

(** redir.c:887-902 [undo_redirections] *)
Fixpoint undo_redirections (save : saved) : M unit :=
  match save with
  | [] => ret tt
  | (origfd, copyfd) :: save' =>
    do _ <- (if 0 <=? copyfd then
               do _ <- remove_shellfd copyfd; do _ <- xdup2 copyfd origfd; xclose copyfd
             else xclose origfd);
    undo_redirections save'
  end.
(** redir.c:906-918 [clear_savefd] *)
Fixpoint clear_savefd (save : saved) : M unit :=
  match save with
  | [] => ret tt
  | (_, copyfd) :: save' =>
    do _ <- (if 0 <=? copyfd then do _ <- remove_shellfd copyfd; xclose copyfd else ret tt);
    clear_savefd save'
  end.

(** ** Commands, as far as descriptors are concerned *)

(** A built-in that opens a file the shell keeps (exec.c:2062-2161 [dot_builtin], history.c:511-543
    [open_histfile]) and commands with redirections (exec.c:634-660 [exec_one_command]);
    [perm]: the exec built-in succeeds (exec.c:738-817 [exec_simple_command_with_words]).  What a command
    does to the descriptors apart from that is not modelled. *)
Inductive action :=
| Keep
| Dot (body : list action)
| Command (l : list redir) (body : list action) (perm : bool).
Definition open_kept : M (option Z) :=
  do r <- sys_open;
  match r with
  | inl fd => do k <- move_to_shellfd fd; ret (match k with inl n => Some n | inr _ => None end)
  | inr _ => ret None
  end.
Fixpoint run (a : action) : M unit :=
  let run_all := fix run_all (l : list action) : M unit :=
    match l with [] => ret tt | a :: l' => do _ <- run a; run_all l' end in
  match a with
  | Keep => do _ <- open_kept; ret tt
  | Dot body =>
    do k <- open_kept;
    match k with
    | None => ret tt
    | Some n => do _ <- run_all body; do _ <- remove_shellfd n; xclose n
    end
  | Command l body perm =>
    do (ok, save) <- open_redirections l;
    if ok : bool then do _ <- run_all body; if perm : bool then clear_savefd save else undo_redirections save
    else undo_redirections save
  end.
End Redir.
