(** What one expects of the job list, independently of how job.c works *)
From Coq Require Import List NArith ZArith Bool Arith.
From Verif Require Import Common Locale JobModel.
Import ListNotations.

Definition job_at (s : st) (n : nat) (j : job) : Prop := nth_error (jobs s) n = Some (Some j).
(** Jobs the user sees are numbered from 1; number 0 is the pipeline in the foreground. *)
Definition listed (s : st) (n : nat) (j : job) : Prop := 1 <= n /\ job_at s n j.
Definition is_job (s : st) (n : nat) : Prop := exists j, listed s n j.
Definition stopped (s : st) (n : nat) : Prop := exists j, listed s n j /\ j_status j = Stopped.
Definition no_foreground (s : st) : Prop := forall j, ~ job_at s 0 j.

(** The rules of job.c:210-230 *)
Record disciplined (s : st) : Prop := {
  di_cur : cur s = 0 \/ is_job s (cur s);
  di_any : forall n, is_job s n -> cur s <> 0;
  di_prev : prev s = 0 \/ is_job s (prev s) /\ prev s <> cur s;
  di_two : forall n m, n <> m -> is_job s n -> is_job s m -> prev s <> 0;
  di_stopped : forall n, stopped s n -> stopped s (cur s);
  di_stopped2 : forall n m, n <> m -> stopped s n -> stopped s m -> stopped s (prev s)
}.

(** The status of a job made of processes *)
Definition runs (p : proc) : Prop := pr_status p = Running.
Definition stops (p : proc) : Prop := pr_status p = Stopped.
Definition ended (p : proc) : Prop := pr_status p = Done.
Definition status_of (ps : list proc) (x : jstatus) : Prop :=
  match x with
  | Running => Exists runs ps
  | Stopped => ~ Exists runs ps /\ Exists stops ps
  | Done => Forall ended ps
  end.

(** The exit status that a process ends with: the value it exits with, or the number of the
    signal that kills it plus 384 *)
Inductive exit_status : wstatus -> Z -> Prop :=
| ex_exited n : exit_status (Exited n) n
| ex_killed sig : exit_status (Signaled sig) (sig + 384).
(** The exit status of a pipeline: that of the last process or, with the pipefail option, of the
    last that failed *)
Inductive last_failing : list Z -> Z -> Prop :=
| lf_some l n m : n <> 0%Z -> Forall (eq 0%Z) m -> last_failing (l ++ n :: m) n
| lf_none l : Forall (eq 0%Z) l -> last_failing l 0.
Definition pipeline_status (pipefail : bool) (l : list Z) (x : Z) : Prop :=
  if pipefail then last_failing l x else exists l', l = l' ++ [x].

(** The end of a process among the notifications: the first that says it has exited or been
    killed *)
Inductive fate (pid : Z) : list (Z * wstatus) -> wstatus -> Prop :=
| fa_here w l : (exists n, w = Exited n) \/ (exists n, w = Signaled n) -> fate pid ((pid, w) :: l) w
| fa_later e l w : fst e <> pid \/ (exists n, snd e = StopSig n) \/ snd e = Continued -> fate pid l w -> fate pid (e :: l) w.
(** The notifications in a series of results of waitpid, which ends when there is nothing more
    to report *)
Fixpoint reported (evs : list wres) : list (Z * wstatus) :=
  match evs with
  | WIntr :: evs' => reported evs'
  | WPid pid w :: evs' => (pid, w) :: reported evs'
  | _ => []
  end.
Definition round_events (r : round) : list (Z * wstatus) := match rd_events r with Some l => reported l | None => [] end.
Definition all_events (rs : list round) : list (Z * wstatus) := flat_map round_events rs.

(** [s'] has the same jobs as [s] under the same numbers, apart from notifications *)
Definition same_jobs (s s' : st) : Prop :=
  forall n, 1 <= n -> option_map j_id (get_job s n) = option_map j_id (get_job s' n).

(** A live process has the number *)
Definition live (s : st) (pid : Z) : Prop := exists n j p, job_at s n j /\ In p (j_procs j) /\ pr_pid p = pid /\ ~ ended p.

(** ** Executions *)

(** Commands that work on jobs *)
Inductive cmd :=
| COp (o : op)
| CPipeline (jobctl pipefail : bool) (pgid : Z) (ps : list (option Z * list N)) (rs : list round)
| CFg (pipefail kill_ok : bool) (rs : list round) (n : nat)
| CWait (pipefail jobctl verbose : bool) (rs : list round) (n : nat)
| CWaitAll (jobctl verbose : bool) (rs : list round)
| CJobs (curstop : bool)
| CDisown (L : locale) (name : list N)
| CDisownCurrent.
Definition do_cmd (c : cmd) (s : st) : res st :=
  match c with
  | COp o => do_op o s
  | CPipeline jobctl pipefail pgid ps rs => let! (_, s) := run_foreground jobctl pipefail pgid ps rs s in Ok s
  | CFg pipefail kill_ok rs n => let! (_, s) := continue_fg pipefail kill_ok rs n s in Ok s
  | CWait pipefail jobctl verbose rs n => let! (_, s) := wait_for_number pipefail jobctl verbose rs n s in Ok s
  | CWaitAll jobctl verbose rs => let! (_, s) := wait_all jobctl verbose rs s in Ok s
  | CJobs curstop => jobs_all curstop s
  | CDisown L name => let! (_, s) := disown_operand L name s in Ok s
  | CDisownCurrent => let! (_, s) := disown_current s in Ok s
  end.
(** A job has at least one command, and no process has the number 0.  A strict command moreover
    creates at least one process and continues no job. *)
Definition ps_ok (strict : bool) (ps : list (option Z * list N)) : Prop :=
  ps <> [] /\ Forall (fun p => fst p <> Some 0%Z) ps /\ (strict = true -> Exists (fun p => fst p <> None) ps).
Definition op_fine (strict : bool) (o : op) : Prop :=
  match o with ONew _ _ ps => ps_ok strict ps | OContinue _ _ => strict = false | _ => True end.
Definition round_fine (strict : bool) (r : round) : Prop :=
  match rd_trap r with Some (_, ops) => Forall (op_fine strict) ops | None => True end.
Definition cmd_fine (strict : bool) (c : cmd) : Prop :=
  match c with
  | COp o => op_fine strict o
  | CPipeline _ _ _ ps rs => ps_ok strict ps /\ Forall (round_fine strict) rs
  | CFg _ _ rs _ => strict = false /\ Forall (round_fine strict) rs
  | CWait _ _ _ rs _ | CWaitAll _ _ rs => Forall (round_fine strict) rs
  | _ => True
  end.
Inductive reach (strict : bool) : st -> Prop :=
| re_init : reach strict init_job
| re_cmd c s s' : cmd_fine strict c -> reach strict s -> do_cmd c s = Ok s' -> reach strict s'.
(** What happens later *)
Inductive leads : st -> st -> Prop :=
| le_refl s : leads s s
| le_cmd c a b s : cmd_fine false c -> do_cmd c a = Ok b -> leads b s -> leads a s.

(** Processes that have not ended have different numbers.  The system guarantees it for children
    of the shell. *)
Definition separate (s : st) : Prop := forall n m j k a b p q,
  job_at s n j -> job_at s m k -> nth_error (j_procs j) a = Some p -> nth_error (j_procs k) b = Some q -> ~ ended p -> ~ ended q -> pr_pid p = pr_pid q -> n = m /\ a = b.

(** The exit status recorded for a process that has ended *)
Definition proc_exit (p : proc) (n : Z) : Prop :=
  pr_pid p = 0%Z /\ pr_code p = Plain n \/ pr_pid p <> 0%Z /\ exists w, pr_code p = Code w /\ exit_status w n.
(** The exit status of a process given the notifications to come *)
Definition ends_with (evs : list (Z * wstatus)) (p : proc) (n : Z) : Prop :=
  ended p /\ proc_exit p n \/ ~ ended p /\ exists w, fate (pr_pid p) evs w /\ exit_status w n.
Definition no_fate (pid : Z) (evs : list (Z * wstatus)) : Prop := forall w, ~ fate pid evs w.
(** The exit status of a command of a new pipeline: 126 if no process could be created *)
Definition command_ends (evs : list (Z * wstatus)) (p : option Z * list N) (n : Z) : Prop :=
  match fst p with Some pid => exists w, fate pid evs w /\ exit_status w n | None => n = 126%Z end.
Definition pids (ps : list (option Z * list N)) : list Z := flat_map (fun p => match fst p with Some pid => [pid] | None => [] end) ps.

(** ** Job specifications *)

(** The commands of the job, separated by vertical bars *)
Inductive name_of : list proc -> list N -> Prop :=
| no_one p : name_of [p] (pr_name p)
| no_more p q ps t : name_of (q :: ps) t -> name_of (p :: q :: ps) (pr_name p ++ [32; 124; 32]%N ++ t).
(** A name starting with a question mark is looked for anywhere, another one at the beginning. *)
Definition matches (name : list N) (j : job) : Prop :=
  exists t, name_of (j_procs j) t /\
  match name with
  | 63%N :: x => exists a b, t = a ++ x ++ b
  | _ => exists b, t = name ++ b
  end.

(** ** Reports *)
Definition to_report (s : st) (n : nat) (j : job) : Prop := listed s n j /\ j_changed j = true /\ j_nonotify j = false.
