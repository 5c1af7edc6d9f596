(** Model of xgetopt.c: the option parser used by the built-ins.

    The global variables of the file are the fields of [gst].  [argv] is the
    array without its terminating null pointer; reading one past the end gives
    NULL and anything further is undefined behaviour.  A table is the list of
    its entries before the sentinel, and a returned pointer into the table is
    the index of the entry.  Indices are natural numbers (the array has fewer
    than INT_MAX elements).  Error messages are represented by [gerror]. *)
From Coq Require Import List NArith Bool Arith.
From Verif Require Import Common Locale.
Import ListNotations.
Open Scope res_scope.

Notation hyphen := 45%N (only parsing).
Notation equals := 61%N (only parsing).

(** xgetopt.h:32-34 *)
Inductive optarg_T := OPTARG_NONE | OPTARG_REQUIRED | OPTARG_OPTIONAL.

(** xgetopt.h:35-41; the unused member ptr is left out. *)
Record xgetopt_T := mkOpt {
  shortopt : N;
  longopt : option (list N);
  optarg : optarg_T;
  posix : bool }.

(** The value returned by xgetopt: NULL, an entry, or the sentinel after an
    error message. *)
Inductive gerror :=
  | no_such_option (s : list N)
  | ambiguous_long_option (s : list N)
  | option_argument_is_missing (short : bool) (opt : nat)
  | unwanted_long_option_argument (s : list N) (opt : nat).
Inductive gresult :=
  | GDone
  | GOpt (opt : nat)
  | GError (e : gerror).

(** xgetopt.c:63-88 *)
Record gst := mkG {
  xoptarg : option (list N);
  argv : list (list N);
  xoptind : nat;
  argvindex : nat;
  charindex : nat }.

(** Flags: XGETOPT_POSIX and XGETOPT_DIGIT, xgetopt.h:28-31. *)
Record gflags := mkF { fl_posix : bool; fl_digit : bool }.

Definition set_xoptarg (p : option (list N)) (s : gst) :=
  mkG p (argv s) (xoptind s) (argvindex s) (charindex s).
Definition set_argvindex (i : nat) (s : gst) :=
  mkG (xoptarg s) (argv s) (xoptind s) i (charindex s).
Definition set_charindex (i : nat) (s : gst) :=
  mkG (xoptarg s) (argv s) (xoptind s) (argvindex s) i.

(** Reading argv[i] (NULL at the end). *)
Definition aget (a : list (list N)) (i : nat) : res (option (list N)) :=
  if i =? length a then Ok None else let! s := rget a i in Ok (Some s).
(** Reading argv[i] where the code assumes it is not NULL. *)
Definition aget' (a : list (list N)) (i : nat) : res (list N) := rget a i.
(** Reading s[i] of a null-terminated string. *)
Definition cget (s : list N) (i : nat) : res N :=
  if i =? length s then Ok 0%N else rget s i.
(** The pointer &s[i]. *)
Definition rtail (s : list N) (i : nat) : res (list N) :=
  if i <=? length s then Ok (skipn i s) else UB.

(** wcsncmp(s, t, n) == 0 for strings without null characters. *)
Fixpoint wcsncmp_eq (s t : list N) (n : nat) : bool :=
  match n with
  | O => true
  | S n' =>
      match s, t with
      | x :: s', y :: t' => N.eqb x y && wcsncmp_eq s' t' n'
      | [], [] => true
      | _, _ => false
      end
  end.

(** wcscspn(s, L"=") *)
Fixpoint wcscspn_eq (s : list N) : nat :=
  match s with
  | [] => O
  | c :: s' => if N.eqb c equals then O else S (wcscspn_eq s')
  end.

(** The loop of argshift, moving argv[i-1] to argv[i] for n steps,
    xgetopt.c:360-361. *)
Fixpoint shift_up (n : nat) (i : nat) (a : list (list N)) : res (list (list N)) :=
  match n with
  | O => Ok a
  | S n' =>
      let! x := rget a (i - 1) in
      let! a' := rset a i x in
      shift_up n' (i - 1) a'
  end.

(** xgetopt.c:355-365 [argshift] *)
Definition argshift (st : gst) : res gst :=
  let! s := aget' (argv st) (argvindex st) in
  if argvindex st <? xoptind st then UB
  else
    let! a := shift_up (argvindex st - xoptind st) (argvindex st) (argv st) in
    let! a' := rset a (xoptind st) s in
    Ok (mkG (xoptarg st) a' (S (xoptind st)) (S (argvindex st)) (charindex st)).

(** xgetopt.c:321-327 [finish_parsing_current_argument] *)
Definition finish_parsing_current_argument (opt : nat) (st : gst) : res (gresult * gst) :=
  let! st1 := argshift st in
  Ok (GOpt opt, set_charindex 1 st1).

(** xgetopt.c:338-348 [parse_separate_option_argument] *)
Definition parse_separate_option_argument (short : bool) (opt : nat) (st : gst)
  : res (gresult * gst) :=
  let! p := aget (argv st) (S (argvindex st)) in
  let st1 := set_xoptarg p st in
  match p with
  | None => Ok (GError (option_argument_is_missing short opt), st1)
  | Some _ =>
      let! st2 := argshift st1 in
      let! st3 := argshift st2 in
      Ok (GOpt opt, set_charindex 1 st3)
  end.

(** xgetopt.c:206-231 [found_short_option] *)
Definition found_short_option (opt : nat) (o : xgetopt_T) (st : gst) : res (gresult * gst) :=
  let! arg := aget' (argv st) (argvindex st) in
  match optarg o with
  | OPTARG_NONE =>
      let! c := cget arg (S (charindex st)) in
      if negb (N.eqb c 0) then Ok (GOpt opt, set_charindex (S (charindex st)) st)
      else finish_parsing_current_argument opt st
  | _ =>
      let! p := rtail arg (S (charindex st)) in
      let st1 := set_xoptarg (Some p) st in
      let! c := cget p 0 in
      if N.eqb c 0 && match optarg o with OPTARG_REQUIRED => true | _ => false end
      then parse_separate_option_argument true opt st1
      else finish_parsing_current_argument opt st1
  end.

(** The table search of parse_short_option, xgetopt.c:195-198. *)
Fixpoint search_short (posixly_correct : bool) (c : N) (i : nat) (t : list xgetopt_T)
  : option (nat * xgetopt_T) :=
  match t with
  | [] => None
  | o :: t' =>
      if (posix o || negb posixly_correct) && N.eqb (shortopt o) c then Some (i, o)
      else search_short posixly_correct c (S i) t'
  end.

(** xgetopt.c:183-201 [parse_short_option] *)
Definition parse_short_option (posixly_correct : bool) (opts : list xgetopt_T) (st : gst)
  : res (gresult * gst) :=
  let! arg := aget' (argv st) (argvindex st) in
  if negb (charindex st <? length arg) then UB
  else
    let! c := cget arg (charindex st) in
    if N.eqb c hyphen then Ok (GError (no_such_option arg), st)
    else
      match search_short posixly_correct c 0 opts with
      | Some (i, o) => found_short_option i o st
      | None => Ok (GError (no_such_option arg), st)
      end.

(** xgetopt.c:282-311 [found_long_option]; [eq] is the tail starting at the
    equal sign. *)
Definition found_long_option (eq : list N) (opt : nat) (o : xgetopt_T) (st : gst)
  : res (gresult * gst) :=
  let! c := cget eq 0 in
  match optarg o with
  | OPTARG_NONE =>
      if negb (N.eqb c 0) then
        let! arg := aget' (argv st) (argvindex st) in
        Ok (GError (unwanted_long_option_argument arg opt), st)
      else finish_parsing_current_argument opt st
  | k =>
      if negb (N.eqb c 0) then
        let! p := rtail eq 1 in
        finish_parsing_current_argument opt (set_xoptarg (Some p) st)
      else
        match k with
        | OPTARG_OPTIONAL => finish_parsing_current_argument opt st
        | OPTARG_REQUIRED => parse_separate_option_argument false opt st
        | OPTARG_NONE => UB
        end
  end.

(** The result of the table search of parse_long_option. *)
Inductive longmatch :=
  | LNone
  | LMatch (i : nat) (o : xgetopt_T)
  | LAmbiguous.

(** The loop of parse_long_option, xgetopt.c:249-270; [m] is the variable
    match and [body] is &arg[2]. *)
Fixpoint search_long (posixly_correct : bool) (body : list N) (namelen : nat) (i : nat)
    (m : longmatch) (t : list xgetopt_T) : res longmatch :=
  match t with
  | [] => Ok m
  | o :: t' =>
      if negb (posix o) && posixly_correct then
        search_long posixly_correct body namelen (S i) m t'
      else
        match longopt o with
        | None => search_long posixly_correct body namelen (S i) m t'
        | Some l =>
            if negb (wcsncmp_eq l body namelen) then
              search_long posixly_correct body namelen (S i) m t'
            else
              let! c := cget l namelen in
              if N.eqb c 0 then Ok (LMatch i o)
              else
                match m with
                | LNone => search_long posixly_correct body namelen (S i) (LMatch i o) t'
                | _ => Ok LAmbiguous
                end
        end
  end.

(** xgetopt.c:234-275 [parse_long_option] *)
Definition parse_long_option (posixly_correct : bool) (opts : list xgetopt_T) (st : gst)
  : res (gresult * gst) :=
  let! arg := aget' (argv st) (argvindex st) in
  let! c := cget arg 2 in
  if N.eqb c 0 then
    let! st1 := argshift st in
    Ok (GDone, st1)
  else if posixly_correct then Ok (GError (no_such_option arg), st)
  else
    let! body := rtail arg 2 in
    let namelen := wcscspn_eq body in
    let! m := search_long posixly_correct body namelen 0 LNone opts in
    match m with
    | LAmbiguous => Ok (GError (ambiguous_long_option arg), st)
    | LNone => Ok (GError (no_such_option arg), st)
    | LMatch i o =>
        let! eq := rtail arg (namelen + 2) in
        found_long_option eq i o st
    end.

(** xgetopt.c:159-180 [search_argv].  The fuel bounds the number of loop
    iterations. *)
Fixpoint search_argv (fuel : nat) (posixly_correct : bool) (fl : gflags)
    (opts : list xgetopt_T) (st : gst) : res (gresult * gst) :=
  match fuel with
  | O => Fuel
  | S fuel' =>
      let fl' := if posixly_correct then mkF true false else fl in
      let! a := aget (argv st) (argvindex st) in
      match a with
      | None => Ok (GDone, st)
      | Some arg =>
          let operand :=
            if fl_posix fl' then Ok (GDone, st)
            else search_argv fuel' posixly_correct fl opts
                   (set_argvindex (S (argvindex st)) st) in
          let! c0 := cget arg 0 in
          if N.eqb c0 hyphen then
            let! c1 := cget arg 1 in
            if N.eqb c1 hyphen then parse_long_option posixly_correct opts st
            else if negb (N.eqb c1 0) then
              if negb (fl_digit fl') || negb (iswdigit c1)
              then parse_short_option posixly_correct opts st
              else operand
            else operand
          else operand
      end
  end.

(** xgetopt.c:137-156 [xgetopt].  The assertions that the caller passes the
    same arguments again are not modelled. *)
Definition xgetopt (posixly_correct : bool) (fl : gflags) (opts : list xgetopt_T)
    (argv_ : list (list N)) (st : gst) : res (gresult * gst) :=
  let st1 := if xoptind st =? 0 then mkG (xoptarg st) argv_ 1 1 1 else st in
  if argvindex st1 <? xoptind st1 then UB
  else search_argv (S (length (argv st1))) posixly_correct fl opts st1.

(** How an option loop ends. *)
Inductive gending := EndDone | EndError (e : gerror).

(** The loop every built-in runs, e.g. job.c:1017-1038: call xgetopt until it
    returns NULL, looking at the option and xoptarg, and give up at the first
    error. *)
Fixpoint option_loop (fuel : nat) (posixly_correct : bool) (fl : gflags)
    (opts : list xgetopt_T) (argv_ : list (list N)) (st : gst)
  : res (list (nat * option (list N)) * gending * gst) :=
  match fuel with
  | O => Fuel
  | S fuel' =>
      let! (r, st1) := xgetopt posixly_correct fl opts argv_ st in
      match r with
      | GDone => Ok ([], EndDone, st1)
      | GError e => Ok ([], EndError e, st1)
      | GOpt i =>
          let! (p, st2) := option_loop fuel' posixly_correct fl opts argv_ st1 in
          let (evs, fin) := p in
          Ok ((i, xoptarg st1) :: evs, fin, st2)
      end
  end.
