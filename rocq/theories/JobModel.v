(** Jobs (job.c): the job list, the current and previous job, child status notifications,
    waiting and the job built-ins. *)
From Coq Require Import Ascii String.
From Coq Require Import List NArith ZArith Bool Arith.
From Verif Require Import Common Locale NumModel.
Import ListNotations.
Open Scope res_scope.

(** job.h:28-30: status of a job or process *)
Inductive jstatus := Running | Stopped | Done.
Definition jstatus_eqb (a b : jstatus) : bool :=
  match a, b with Running, Running | Stopped, Stopped | Done, Done => true | _, _ => false end.
(** A status code that waitpid stores, as decoded by WIFEXITED, WIFSIGNALED, WIFSTOPPED and
    WIFCONTINUED *)
Inductive wstatus := Exited (n : Z) | Signaled (sig : Z) | StopSig (sig : Z) | Continued.
(** pr_statuscode (job.h:33-42): not initialised, a plain exit status (pr_pid is 0), or a code from
    waitpid *)
Inductive code := Unset | Plain (n : Z) | Code (w : wstatus).
Record proc := mkProc { pr_pid : Z; pr_status : jstatus; pr_code : code; pr_name : list N }.
(** job.h:45-54; [j_id] is the address of the allocated structure *)
Record job := mkJob { j_id : nat; j_pgid : Z; j_status : jstatus; j_changed : bool; j_legacy : bool; j_nonotify : bool; j_procs : list proc }.

(** A line printed about a job: number, mark, status and name (job.c:757-826 [print_job_status]).  The wording is
    not modelled. *)
Inductive mark := Plus | Minus | Blank.
Record report := mkReport { r_number : nat; r_mark : mark; r_status : jstatus; r_job : nat }.

(** joblist with its capacity, current_jobnumber, previous_jobnumber (job.c:85-92); [next_id] is the
    address the next allocation gets and [out] what has been printed *)
Record st := mkSt { jobs : list (option job); cap : nat; cur : nat; prev : nat; next_id : nat; out : list report }.
(** job.c:99-104 [init_job], plist.h:82-101 *)
Definition init_job : st := mkSt [None] 7 0 0 0 [].

Definition with_jobs (l : list (option job)) (s : st) : st := mkSt l (cap s) (cur s) (prev s) (next_id s) (out s).
Definition with_numbers (c p : nat) (s : st) : st := mkSt (jobs s) (cap s) c p (next_id s) (out s).

(** job.c:146-149 [get_job] *)
Definition get_job (s : st) (n : nat) : option job := match nth_error (jobs s) n with Some o => o | None => None end.

(** job.c:107-112 [set_active_job] *)
Definition set_active_job (j : job) (s : st) : res st :=
  match jobs s with
  | None :: l => Ok (with_jobs (Some j :: l) s)
  | _ => UB
  end.

(** job.c:337-346 [stopped_job_count] *)
Definition is_stopped (o : option job) : bool := match o with Some j => jstatus_eqb (j_status j) Stopped | None => false end.
Definition stopped_job_count (s : st) : nat := length (filter is_stopped (jobs s)).
(** job.c:322-334 [job_count] *)
Definition job_count (s : st) : nat :=
  length (filter (fun o => match o with Some j => negb (jstatus_eqb (j_status j) Done && negb (j_changed j)) | None => false end) (jobs s)).

(** The loops of find_next_job: the highest number from [k] down to 1, other than [excl], of a job
    with the property *)
Fixpoint highest (s : st) (excl : nat) (p : option job -> bool) (k : nat) : option nat :=
  match k with
  | O => None
  | S k' => if negb (k =? excl) && p (get_job s k) then Some k else highest s excl p k'
  end.
Definition exists_job (o : option job) : bool := match o with Some _ => true | None => false end.
(** job.c:280-304 [find_next_job] *)
Definition find_next_job (excl : nat) (s : st) : nat :=
  if negb (prev s =? excl) && is_stopped (get_job s (prev s)) then prev s
  else match highest s excl is_stopped (length (jobs s) - 1) with
       | Some n => n
       | None => match highest s excl exists_job (length (jobs s) - 1) with Some n => n | None => 0 end
       end.
(** job.c:235-273 [set_current_jobnumber] *)
Definition set_current_jobnumber (n : nat) (s : st) : st :=
  let stopcount := stopped_job_count s in
  let bad k := match get_job s k with None => true | Some j => (0 <? stopcount) && negb (jstatus_eqb (j_status j) Stopped) end in
  let n := if bad n then if bad (cur s) then if bad (prev s) then find_next_job 0 s else prev s else cur s else n in
  let '(c, n) := if negb (n =? cur s) then (n, cur s) else (cur s, prev s) in
  let bad k := match get_job s k with None => true | Some j => (k =? c) || (1 <? stopcount) && negb (jstatus_eqb (j_status j) Stopped) end in
  let n := if bad n then if bad (prev s) then find_next_job c (with_numbers c (prev s) s) else prev s else n in
  with_numbers c n s.

(** job.c:118-143 [add_job] *)
Fixpoint first_empty (n : nat) (l : list (option job)) : option nat :=
  match l with
  | [] => None
  | None :: _ => Some n
  | Some _ :: l' => first_empty (S n) l'
  end.
(** plist.c:115-126 [pl_ensuremax] as pl_add calls it (plist.c:166-172) *)
Definition grow (cap len : nat) : nat := if S len <=? cap then cap else Nat.max (S len) (Nat.max (cap + cap / 2) (cap + 6)).
Definition add_job (current : bool) (s : st) : res st :=
  match jobs s with
  | Some j :: l =>
    let '(n, s) :=
      match first_empty 1 l with
      | Some n => (n, with_jobs (upd (None :: l) n (Some j)) s)
      | None => (length (jobs s), mkSt (None :: l ++ [Some j]) (grow (cap s) (length (jobs s))) (cur s) (prev s) (next_id s) (out s))
      end in
    if negb (match get_job s n with Some j' => j_id j' =? j_id j | None => false end) then UB
    else Ok (if jstatus_eqb (j_status j) Stopped || current then set_current_jobnumber n s else set_current_jobnumber (cur s) s)
  | _ => UB
  end.

(** job.c:184-196 [trim_joblist] *)
Fixpoint trim_tail (l : list (option job)) : list (option job) :=
  match l with
  | [] => []
  | o :: l' => match o, trim_tail l' with None, [] => [] | _, t => o :: t end
  end.
Definition trim_joblist (s : st) : res st :=
  if (20 <? cap s) && (length (jobs s) <? cap s / 2) then Ok (mkSt (jobs s) (length (jobs s) * 2) (cur s) (prev s) (next_id s) (out s))
  else match jobs s with
       | [] => UB
       | o :: l => Ok (with_jobs (o :: trim_tail l) s)
       end.
(** job.c:154-160 [remove_job]; a number beyond the length is taken to be out of bounds even if there
    is capacity for it *)
Definition remove_job (n : nat) (s : st) : res st :=
  let! l := rset (jobs s) n None in
  let! s := trim_joblist (with_jobs l s) in
  Ok (set_current_jobnumber (cur s) s).
(** job.c:163-171 [remove_all_jobs] *)
Definition remove_all_jobs (s : st) : res st :=
  let! s := trim_joblist (with_jobs (map (fun _ => None) (jobs s)) s) in
  Ok (with_numbers 0 0 s).
(** job.c:200-208 [neglect_all_jobs] *)
Definition with_legacy (j : job) : job := mkJob (j_id j) (j_pgid j) (j_status j) (j_changed j) true (j_nonotify j) (j_procs j).
Definition neglect_all_jobs (s : st) : st := with_numbers 0 0 (with_jobs (map (option_map with_legacy) (jobs s)) s).

(** job.c:308-319 [apply_curstop] *)
Definition newly_stopped (o : option job) : bool := match o with Some j => jstatus_eqb (j_status j) Stopped && j_changed j | None => false end.
Definition apply_curstop (curstop : bool) (s : st) : st :=
  let s := if curstop then fold_left (fun s i => if newly_stopped (get_job s i) then set_current_jobnumber i s else s) (seq 0 (length (jobs s))) s else s in
  set_current_jobnumber (cur s) s.

(** ** Notifications *)

(** What waitpid returns: interrupted (or an option rejected, which is not repeated), no
    children, another error, nothing to report, or a process with its status *)
Inductive wres := WIntr | WNoChild | WError | WNothing | WPid (pid : Z) (w : wstatus).
Definition pid_matches (pid : Z) (p : proc) : bool := (pr_pid p =? pid)%Z && negb (jstatus_eqb (pr_status p) Done).
(** The process status after a notification (job.c:400-412) *)
Definition notified (p : proc) (w : wstatus) : proc :=
  mkProc (pr_pid p) (match w with Exited _ | Signaled _ => Done | StopSig _ => Stopped | Continued => Running end) (Code w) (pr_name p).
(** The job status according to the processes (job.c:418-434) *)
Definition summary (ps : list proc) : jstatus :=
  if existsb (fun p => jstatus_eqb (pr_status p) Running) ps then Running
  else if existsb (fun p => jstatus_eqb (pr_status p) Stopped) ps then Stopped else Done.
Fixpoint notify_procs (pid : Z) (w : wstatus) (ps : list proc) : option (list proc) :=
  match ps with
  | [] => None
  | p :: ps' => if pid_matches pid p then Some (notified p w :: ps') else option_map (cons p) (notify_procs pid w ps')
  end.
Definition with_procs (ps : list proc) (j : job) : job :=
  mkJob (j_id j) (j_pgid j) (summary ps) (j_changed j || negb (jstatus_eqb (summary ps) (j_status j))) (j_legacy j) (j_nonotify j) ps.
Fixpoint notify_jobs (pid : Z) (w : wstatus) (l : list (option job)) : list (option job) :=
  match l with
  | [] => []
  | None :: l' => None :: notify_jobs pid w l'
  | Some j :: l' =>
    match notify_procs pid w (j_procs j) with
    | Some ps => Some (with_procs ps j) :: l'
    | None => Some j :: notify_jobs pid w l'
    end
  end.
(** job.c:351-438 [do_wait]; when the list ends there is nothing more to report *)
Fixpoint do_wait (evs : list wres) (s : st) : st :=
  match evs with
  | WIntr :: evs' => do_wait evs' s
  | WPid pid w :: evs' => do_wait evs' (with_jobs (notify_jobs pid w (jobs s)) s)
  | _ => s
  end.

(** ** Exit status *)

(** job.h:65-67 *)
Definition TERMSIGOFFSET : Z := 384.
(** job.c:599-614 [calc_status] *)
Definition calc_status (w : wstatus) : Z :=
  match w with Exited n => n | Continued => 0 | Signaled n | StopSig n => n + TERMSIGOFFSET end.
(** job.c:618-622 [calc_status_of_process]; reading an uninitialised code is undefined, and so is
    taken to be mistaking one kind of code for another *)
Definition calc_status_of_process (p : proc) : res Z :=
  match pr_code p with
  | Plain n => if (pr_pid p =? 0)%Z then Ok n else UB
  | Code w => if (pr_pid p =? 0)%Z then UB else Ok (calc_status w)
  | Unset => UB
  end.
(** job.c:626-647 [calc_status_of_job] *)
Fixpoint last_failure (ps : list proc) : res Z :=
  match ps with
  | [] => Ok 0%Z
  | p :: ps' => let! n := calc_status_of_process p in if (n =? 0)%Z then last_failure ps' else Ok n
  end.
Fixpoint last_stopped (ps : list proc) : res Z :=
  match ps with
  | [] => UB
  | p :: ps' => if jstatus_eqb (pr_status p) Stopped then match pr_code p with Code w => Ok (calc_status w) | _ => UB end else last_stopped ps'
  end.
Definition calc_status_of_job (pipefail : bool) (j : job) : res Z :=
  match j_status j with
  | Done => if pipefail then last_failure (rev (j_procs j))
            else match rev (j_procs j) with p :: _ => calc_status_of_process p | [] => UB end
  | Stopped => last_stopped (rev (j_procs j))
  | Running => UB
  end.

(** ** Reports *)

(** job.c:738-746 [any_job_status_has_changed] *)
Definition any_job_status_has_changed (s : st) : bool :=
  existsb (fun o => match o with Some j => negb (j_nonotify j) && j_changed j | None => false end) (tl (jobs s)).
Definition with_changed (b : bool) (j : job) : job := mkJob (j_id j) (j_pgid j) (j_status j) b (j_legacy j) (j_nonotify j) (j_procs j).
Definition mark_of (s : st) (n : nat) : mark := if n =? cur s then Plus else if n =? prev s then Minus else Blank.
(** job.c:757-826 [print_job_status]; output errors are not modelled *)
Definition print_job_status (n : nat) (changedonly remove_done : bool) (s : st) : res st :=
  match get_job s n with
  | None => Ok s
  | Some j =>
    if j_nonotify j then Ok s
    else if changedonly && negb (j_changed j) then Ok s
    else
      let s := mkSt (upd (jobs s) n (Some (with_changed false j))) (cap s) (cur s) (prev s) (next_id s)
                    (out s ++ [mkReport n (mark_of s n) (j_status j) (j_id j)]) in
      if remove_done && jstatus_eqb (j_status j) Done then remove_job n s else Ok s
  end.
(** The loop of job.c:829-834 [print_job_status_all] and of [jobs] *)
Fixpoint print_from (f : nat -> st -> res st) (i k : nat) (s : st) : res st :=
  match k with
  | O => Ok s
  | S k' => if i <? length (jobs s) then let! s := f i s in print_from f (S i) k' s else Ok s
  end.
Definition print_job_status_all (curstop : bool) (s : st) : res st :=
  let s := apply_curstop curstop s in print_from (fun i => print_job_status i true false) 1 (length (jobs s)) s.

(** sig.c:695-725 [handle_sigchld]: [evs], what waitpid reports if SIGCHLD has been caught; [notify], the
    notify option *)
Definition handle_sigchld (evs : option (list wres)) (notify curstop : bool) (s : st) : res st :=
  let s := match evs with Some l => do_wait l s | None => s end in
  if any_job_status_has_changed s && notify then print_job_status_all curstop s else Ok s.

(** ** What commands do to the job list *)

(** A new job as exec_commands (exec.c:396-493 [exec_commands]), exec_pipelines_async (exec.c:354-393
    [exec_pipelines_async]) and wait_for_child (job.c:491-517 [wait_for_child]) make it: for each command a
    process, or None where fork failed *)
Definition new_proc (p : option Z * list N) : proc :=
  match p with
  | (Some pid, name) => mkProc pid Running Unset name
  | (None, name) => mkProc 0 Done (Plain 126) name
  end.
Definition new_job (pgid : Z) (changed : bool) (ps : list (option Z * list N)) (s : st) : res st :=
  let! s := set_active_job (mkJob (next_id s) pgid Running changed false false (map new_proc ps)) s in
  Ok (mkSt (jobs s) (cap s) (cur s) (prev s) (S (next_id s)) (out s)).

Definition set_running (j : job) : job := mkJob (j_id j) (j_pgid j) Running (j_changed j) (j_legacy j) (j_nonotify j) (j_procs j).
Inductive op :=
| ONew (pgid : Z) (changed : bool) (ps : list (option Z * list N))
| OAdd (current : bool)
| ORemove (n : nat)
| ORemoveAll
| ONeglect
| OSigchld (evs : option (list wres)) (notify curstop : bool)
| OCurstop (curstop : bool)
| OPrint (n : nat) (changedonly remove_done : bool)
| OPrintAll (curstop : bool)
| OContinue (n : nat) (curbg : bool).
(** bg: job.c:1190-1255 [continue_job] with fg = false; sending the signal succeeds *)
Definition continue_bg (n : nat) (curbg : bool) (s : st) : res st :=
  match get_job s n with
  | None => UB
  | Some j =>
    if negb (0 <? j_pgid j)%Z || j_legacy j then UB
    else
      let s := if jstatus_eqb (j_status j) Done then s else with_jobs (upd (jobs s) n (Some (set_running j))) s in
      Ok (set_current_jobnumber (if curbg then n else cur s) s)
  end.
Definition do_op (o : op) (s : st) : res st :=
  match o with
  | ONew pgid changed ps => new_job pgid changed ps s
  | OAdd current => add_job current s
  | ORemove n => remove_job n s
  | ORemoveAll => remove_all_jobs s
  | ONeglect => Ok (neglect_all_jobs s)
  | OSigchld evs notify curstop => handle_sigchld evs notify curstop s
  | OCurstop curstop => Ok (apply_curstop curstop s)
  | OPrint n changedonly remove_done => print_job_status n changedonly remove_done s
  | OPrintAll curstop => print_job_status_all curstop s
  | OContinue n curbg => continue_bg n curbg s
  end.
Fixpoint do_ops (l : list op) (s : st) : res st :=
  match l with
  | [] => Ok s
  | o :: l' => let! s := do_op o s in do_ops l' s
  end.

(** ** Waiting *)

(** One return from wait_for_sigchld: the trap that has been executed (signal and what its
    commands did to the job list), whether SIGINT has been caught, what waitpid reports *)
Record round := mkRound { rd_trap : option (Z * list op); rd_int : bool; rd_events : option (list wres); rd_notify : bool; rd_curstop : bool }.
Definition SIGINT : Z := 2.
(** sig.c:587-615 [wait_for_sigchld] *)
Definition wait_for_sigchld (r : round) (interruptible return_on_trap : bool) (s : st) : res (Z * st) :=
  let! (result, s) :=
    match rd_trap r with
    | Some (sig, ops) => if return_on_trap then let! s := do_ops ops s in Ok (sig, s) else Ok (0%Z, s)
    | None => Ok (0%Z, s)
    end in
  let result := if interruptible && rd_int r then SIGINT else result in
  let! s := handle_sigchld (rd_events r) (rd_notify r) (rd_curstop r) s in
  Ok (result, s).

(** Access through a pointer to the job: undefined if it has been freed *)
Definition has_id (id : nat) (o : option job) : bool := match o with Some j => j_id j =? id | None => false end.
Definition deref (id : nat) (s : st) : res job :=
  match find (has_id id) (jobs s) with Some (Some j) => Ok j | _ => UB end.
Definition modify (id : nat) (f : job -> job) (s : st) : res st :=
  let! _ := deref id s in
  Ok (with_jobs (map (fun o => match o with Some j => Some (if j_id j =? id then f j else j) | None => None end) (jobs s)) s).
Definition with_nonotify (b : bool) (j : job) : job := mkJob (j_id j) (j_pgid j) (j_status j) (j_changed j) (j_legacy j) b (j_procs j).
(** job.c:453-474 [wait_for_job]; [Fuel]: the shell is still waiting after the given rounds *)
Fixpoint wait_loop (rs : list round) (id : nat) (return_on_stop interruptible return_on_trap : bool) (s : st) : res (Z * st) :=
  let! j := deref id s in
  if jstatus_eqb (j_status j) Done then Ok (0%Z, s)
  else if return_on_stop && jstatus_eqb (j_status j) Stopped then Ok (0%Z, s)
  else match rs with
       | [] => Fuel
       | r :: rs' =>
         let! (sig, s) := wait_for_sigchld r interruptible return_on_trap s in
         if negb (sig =? 0)%Z then Ok (sig, s) else wait_loop rs' id return_on_stop interruptible return_on_trap s
       end.
Definition wait_for_job (rs : list round) (n : nat) (return_on_stop interruptible return_on_trap : bool) (s : st) : res (Z * st) :=
  match get_job s n with
  | None => UB
  | Some j =>
    if j_legacy j then Ok (0%Z, s)
    else
      let! s := modify (j_id j) (with_nonotify true) s in
      let! (sig, s) := wait_loop rs (j_id j) return_on_stop interruptible return_on_trap s in
      let! s := modify (j_id j) (with_nonotify (j_nonotify j)) s in
      Ok (sig, s)
  end.

(** Running a pipeline (exec.c:396-493 [exec_commands]; wait_for_child does the same for one process):
    returns the exit status *)
Definition run_foreground (jobctl pipefail : bool) (pgid : Z) (ps : list (option Z * list N)) (rs : list round) (s : st) : res (Z * st) :=
  let! s := new_job (if jobctl then pgid else 0%Z) true ps s in
  let! (_, s) := wait_for_job rs 0 jobctl false false s in
  match get_job s 0 with
  | None => UB
  | Some j =>
    let! status := calc_status_of_job pipefail j in
    let! s := if jstatus_eqb (j_status j) Done then remove_job 0 s else add_job true s in
    Ok (status, s)
  end.
(** An asynchronous command *)
Definition run_async (jobctl curasync : bool) (pgid : Z) (ps : list (option Z * list N)) (s : st) : res st :=
  let! s := new_job (if jobctl then pgid else 0%Z) true ps s in add_job curasync s.

(** ** Job specifications *)

Fixpoint prefix (p s : list N) : bool :=
  match p, s with
  | [], _ => true
  | _, [] => false
  | a :: p', b :: s' => (a =? b)%N && prefix p' s'
  end.
(** wcsstr *)
Fixpoint contains (p s : list N) : bool := prefix p s || match s with [] => false | _ :: s' => contains p s' end.
(** job.c:653-666 [get_job_name] *)
Fixpoint join_names (ps : list proc) : list N :=
  match ps with
  | [] => []
  | [p] => pr_name p
  | p :: ps' => pr_name p ++ str " | " ++ join_names ps'
  end.
Definition get_job_name (j : job) : list N := join_names (j_procs j).
(** util.c:173-189 [xwcstoul], for a string that starts with a digit *)
Definition xwcstoul10 (L : locale) (s : list N) : option Z :=
  match wcstol L 10 s with
  | (Some v, []) => if (v <? ULONG_MOD)%Z then Some v else None
  | _ => None
  end.
(** The search of job.c:884-923 [get_jobnumber_from_name]: [n], the number found so far or 0 *)
Fixpoint search_name (p : list N -> bool) (len : nat) (i n : nat) (l : list (option job)) : nat :=
  match l with
  | [] => n
  | o :: l' =>
    match o with
    | Some j => if p (get_job_name j) then if negb (n =? 0) then len else search_name p len (S i) i l' else search_name p len (S i) n l'
    | None => search_name p len (S i) n l'
    end
  end.
Definition get_jobnumber_from_name (L : locale) (name : list N) (s : st) : nat :=
  if list_N_eqb name [] || list_N_eqb name (str "%") || list_N_eqb name (str "+") then cur s
  else if list_N_eqb name (str "-") then prev s
  else
    let by_name :=
      let p := match name with 63%N :: name' => contains name' | _ => prefix name end in
      search_name p (length (jobs s)) 1 0 (tl (jobs s)) in
    match name with
    | c :: _ =>
      if iswdigit c then
        match xwcstoul10 L name with
        | Some v => if (v <? Z.of_nat (length (jobs s)))%Z && exists_job (get_job s (Z.to_nat v)) then Z.to_nat v else 0
        | None => by_name
        end
      else by_name
    | [] => by_name
    end.
(** job.c:927-942 [get_jobnumber_from_pid] *)
Fixpoint number_of_pid (pid : Z) (s : st) (k : nat) : nat :=
  match k with
  | O => 0
  | S k' => match get_job s k with
            | Some j => if existsb (fun p => (pr_pid p =? pid)%Z) (j_procs j) then k else number_of_pid pid s k'
            | None => number_of_pid pid s k'
            end
  end.
Definition get_jobnumber_from_pid (pid : Z) (s : st) : nat := if (pid =? 0)%Z then 0 else number_of_pid pid s (length (jobs s) - 1).

(** ** Built-ins *)

(** What the common part of the built-ins finds for an operand *)
Inductive found := Ambiguous | NoSuch | Job (n : nat).
(** job.c:1396-1446 [disown_builtin], job.c:1011-1071 [jobs_builtin] *)
Definition find_operand (L : locale) (name : list N) (s : st) : found :=
  let n := get_jobnumber_from_name L name s in
  if length (jobs s) <=? n then Ambiguous
  else if (n =? 0) || negb (exists_job (get_job s n)) then NoSuch else Job n.
(** disown with an operand (without the percent sign): whether it succeeds *)
Definition disown_operand (L : locale) (name : list N) (s : st) : res (bool * st) :=
  match find_operand L name s with
  | Job n => let! s := remove_job n s in Ok (true, s)
  | _ => Ok (false, s)
  end.
(** disown without operands *)
Definition disown_current (s : st) : res (bool * st) :=
  if (cur s =? 0) || negb (exists_job (get_job s (cur s))) then Ok (false, s)
  else let! s := remove_job (cur s) s in Ok (true, s).
(** jobs without operands: job.c:1011-1071 [jobs_builtin], without options *)
Definition jobs_all (curstop : bool) (s : st) : res st :=
  let s := apply_curstop curstop s in print_from (fun i => print_job_status i false true) 1 (length (jobs s)) s.
(** fg: job.c:1190-1255 [continue_job] with fg = true; [kill_ok], whether the signal can be sent *)
Definition continue_fg (pipefail kill_ok : bool) (rs : list round) (n : nat) (s : st) : res (Z * st) :=
  match get_job s n with
  | None => UB
  | Some j =>
    if negb (0 <? j_pgid j)%Z || j_legacy j then UB
    else
      let s := if negb (jstatus_eqb (j_status j) Done) && kill_ok then with_jobs (upd (jobs s) n (Some (set_running j))) s else s in
      let! (_, s) := wait_for_job rs n true false false s in
      match get_job s n with
      | None => UB
      | Some j =>
        match j_status j with
        | Stopped => let! status := calc_status_of_job pipefail j in Ok (status, set_current_jobnumber n s)
        | Done => let! status := calc_status_of_job pipefail j in let! s := remove_job n s in Ok (status, s)
        | Running => UB
        end
      end
  end.
(** job.c:1116-1186 [fg_builtin] without operands, with job control; None: an error message *)
Definition fg_current (pipefail kill_ok : bool) (rs : list round) (s : st) : res (option Z * st) :=
  if cur s =? 0 then Ok (None, s)
  else match get_job s (cur s) with
       | None => UB
       | Some j => if j_legacy j || (j_pgid j =? 0)%Z then Ok (None, s)
                   else let! (status, s) := continue_fg pipefail kill_ok rs (cur s) s in Ok (Some status, s)
       end.
(** job.c:1323-1362 [wait_for_job_by_jobspec] after the job number has been found.  [verbose]: job control,
    interactive and not in the POSIX mode *)
Definition wait_for_number (pipefail jobctl verbose : bool) (rs : list round) (n : nat) (s : st) : res (Z * st) :=
  match get_job s n with
  | None => Ok (127%Z, s)
  | Some j =>
    if (n =? 0) || j_legacy j then Ok (127%Z, s)
    else
      let! (sig, s) := wait_for_job rs n jobctl jobctl true s in
      if negb (sig =? 0)%Z then Ok ((- (sig + TERMSIGOFFSET))%Z, s)
      else
        let! j := deref (j_id j) s in
        let! status := calc_status_of_job pipefail j in
        let! s := if verbose then print_job_status n false true s
                  else if jstatus_eqb (j_status j) Done then remove_job n s else Ok s in
        Ok (status, s)
  end.
(** job.c:1365-1383 [wait_builtin_has_job] *)
Fixpoint reap (verbose : bool) (i k : nat) (s : st) : res st :=
  match k with
  | O => Ok s
  | S k' =>
    if i <? length (jobs s) then
      let o := get_job s i in
      let! s := if verbose then print_job_status i true false s else Ok s in
      let! s := match o with Some j => if j_legacy j || jstatus_eqb (j_status j) Done then remove_job i s else Ok s | None => Ok s end in
      reap verbose (S i) k' s
    else Ok s
  end.
Definition has_job (jobctl verbose : bool) (s : st) : res (bool * st) :=
  let! s := reap verbose 1 (length (jobs s)) s in
  Ok (existsb (fun o => match o with Some j => negb jobctl || jstatus_eqb (j_status j) Running | None => false end) (tl (jobs s)), s).
(** job.c:1276-1319 [wait_builtin] without operands; [Fuel]: still waiting *)
Fixpoint wait_all (jobctl verbose : bool) (rs : list round) (s : st) : res (Z * st) :=
  let! (b, s) := has_job jobctl verbose s in
  if negb b then Ok (0%Z, s)
  else match rs with
       | [] => Fuel
       | r :: rs' =>
         let! (sig, s) := wait_for_sigchld r jobctl true s in
         if negb (sig =? 0)%Z then Ok ((sig + TERMSIGOFFSET)%Z, s) else wait_all jobctl verbose rs' s
       end.
