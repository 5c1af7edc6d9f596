(** builtins/test.c: the "test" and "[" built-ins.

    Files, terminals, shell options, the locale's collation order, regular
    expressions and the conversion to multibyte strings are parameters (record
    [tenv]).  Error messages are not modelled; what the code observes of them,
    namely whether yash_error_message_count is positive, is the flag returned
    beside every result.  exec.c:1058 resets the count before the built-in runs,
    so the flag starts as false. *)
From Coq Require Import Ascii String.
From Coq Require Import List NArith ZArith Bool Arith.
From Verif Require Import Common Locale NumModel.
Import ListNotations.
Local Open Scope res_scope.

Notation word := (list N) (only parsing).

(** What stat(2) tells about a file, as far as compare_files looks at it. *)
Record tstat := mkStat { st_dev : N; st_ino : N; st_sec : Z; st_nsec : Z }.

Record tenv := mkTenv {
  t_loc : locale;
  t_coll : word -> word -> Z;            (* wcscoll *)
  t_mbs : word -> option (list N);       (* malloc_wcstombs, None: not convertible *)
  t_regcomp : list N -> bool;            (* regcomp succeeds *)
  t_regexec : list N -> list N -> bool;  (* regexec succeeds: pattern, string *)
  t_tty : Z -> bool;                     (* isatty *)
  t_optvalid : word -> bool;             (* is_valid_option_name *)
  t_opton : word -> bool;                (* option_is_enabled *)
  t_file : N -> list N -> bool;          (* test_file *)
  t_stat : list N -> option tstat }.     (* stat *)

Section Env.
Context (E : tenv).

(** A result and whether an error has been reported. *)
Definition tres : Type := (bool * bool)%type.
Definition val (b : bool) : res tres := Ok (b, false).
Definition fail : res tres := Ok (false, true).

(** w[i] == c and w[i] == L'\0' for a null-terminated string. *)
Definition is (w : word) (i : nat) (c : ascii) : bool :=
  match nth_error w i with Some x => (x =? ch c)%N | None => false end.
Definition ends (w : word) (i : nat) : bool :=
  match nth_error w i with Some _ => false | None => true end.
Definition at_ (w : word) (i : nat) : N := nth i w 0%N.

(** [test_single] (builtins/test.c 153-157) *)
Definition test_single (a : word) : bool := negb (ends a 0).

(** [is_unary_primary] (builtins/test.c 479-492) *)
Definition is_unary_primary (w : word) : bool :=
  if negb (is w 0 "-") || ends w 1 || negb (ends w 2) then false
  else existsb (fun c => (at_ w 1 =? c)%N) (str "bcdefGghkLNnOoprSstuwxz").

(** [is_binary_primary] (builtins/test.c 496-554) *)
Definition eq_tail (w : word) : bool :=
  if negb (is w 1 "=") then false
  else ends w 2 || (is w 2 "=" && ends w 3).
Definition is_binary_primary (w : word) : bool :=
  if is w 0 "=" then
    if ends w 1 || (is w 1 "~" && ends w 2) then true else eq_tail w
  else if is w 0 "!" then eq_tail w
  else if is w 0 "<" || is w 0 ">" then ends w 1 || (is w 1 "=" && ends w 2)
  else if is w 0 "-" then
    if is w 1 "e" then (is w 2 "f" || is w 2 "q") && ends w 3
    else if is w 1 "n" || is w 1 "g" || is w 1 "l" then (is w 2 "t" || is w 2 "e") && ends w 3
    else if is w 1 "o" then is w 2 "t" && ends w 3
    else if is w 1 "v" then
      if is w 2 "e" then is w 3 "q" && ends w 4
      else if is w 2 "n" then is w 3 "e" && ends w 4
      else if is w 2 "g" || is w 2 "l" then (is w 3 "t" || is w 3 "e") && ends w 4
      else false
    else false
  else false.

(** [is_term_delimiter] (builtins/test.c 558-572) *)
Definition is_term_delimiter (w : word) : bool :=
  if is w 0 ")" then ends w 1
  else if is w 0 "-" then (is w 1 "a" || is w 1 "o") && ends w 2
  else false.

(** wcstoimax with base 10, followed by the checks of compare_integers
    (builtins/test.c 581-586): the whole of a non-empty string, no ERANGE.
    intmax_t is 64 bits wide, as is long. *)
Definition integer_of (w : word) : option Z :=
  match wcstol (t_loc E) 10 w with
  | (Some v, []) => if ends w 0 then None else if in_long v then Some v else None
  | _ => None
  end.

(** [compare_integers] (builtins/test.c 577-600): the comparison result and
    whether an error was reported. *)
Definition compare_integers (l r : word) : Z * bool :=
  match integer_of l with
  | None => (0%Z, true)
  | Some il =>
      match integer_of r with
      | None => (0%Z, true)
      | Some ir => (if (il <? ir)%Z then (-1)%Z else if (ir <? il)%Z then 1%Z else 0%Z, false)
      end
  end.

(** uintmax_t is 64 bits wide; wcstoumax stops at the first non-digit and yields
    UINTMAX_MAX when the value is too large.  The string starts with a digit
    here, so that spaces and signs play no role. *)
Definition UINTMAX_MAX : Z := 18446744073709551615.
Definition wcstoumax (w : word) : Z * word :=
  let '(v, rest, _) := scan_digits 10 0 false w in (Z.min v UINTMAX_MAX, rest).

(** [compare_versions] (builtins/test.c 605-637).  The null character at the end
    of a string is neither a digit nor alphanumeric. *)
Definition digit0 (w : word) : bool :=
  match w with [] => false | c :: _ => iswdigit c end.
Definition alnum0 (w : word) : bool :=
  match w with [] => false | c :: _ => iswalnum (t_loc E) c end.

Fixpoint compare_versions (f : nat) (l r : word) : res Z :=
  match f with
  | O => Fuel
  | S f =>
      let ld := digit0 l in
      let rd := digit0 r in
      let after (l r : word) :=
        if alnum0 l && negb (alnum0 r) then Ok 1%Z
        else if negb (alnum0 l) && alnum0 r then Ok (-1)%Z
        else match l, r with
             | [], [] => Ok 0%Z
             | c :: l', d :: r' => if (c =? d)%N then compare_versions f l' r' else Ok (t_coll E l r)
             | _, _ => Ok (t_coll E l r)
             end in
      if ld && rd then
        let '(il, l1) := wcstoumax l in
        let '(ir, r1) := wcstoumax r in
        if (ir <? il)%Z then Ok 1%Z
        else if (il <? ir)%Z then Ok (-1)%Z
        else after l1 r1
      else if ld then Ok 1%Z
      else if rd then Ok (-1)%Z
      else after l r
  end.
Definition versions (l r : word) : res Z := compare_versions (S (length l)) l r.

(** [compare_files] (builtins/test.c 648-707), with HAVE_ST_MTIM. *)
Inductive filecmp := FC_ID | FC_SAME | FC_NEWER | FC_OLDER | FC_UNKNOWN.
Definition compare_files (l r : word) : filecmp * bool :=
  match t_mbs E l with
  | None => (FC_UNKNOWN, true)
  | Some ml =>
      match t_mbs E r with
      | None => (FC_UNKNOWN, true)
      | Some mr =>
          (match t_stat E ml, t_stat E mr with
           | None, None => FC_UNKNOWN
           | None, Some _ => FC_OLDER
           | Some _, None => FC_NEWER
           | Some sl, Some sr =>
               if (st_dev sl =? st_dev sr)%N && (st_ino sl =? st_ino sr)%N then FC_ID
               else if (st_sec sl <? st_sec sr)%Z then FC_OLDER
               else if (st_sec sr <? st_sec sl)%Z then FC_NEWER
               else if (st_nsec sl <? st_nsec sr)%Z then FC_OLDER
               else if (st_nsec sr <? st_nsec sl)%Z then FC_NEWER
               else FC_SAME
           end, false)
      end
  end.
Definition filecmp_eqb (a b : filecmp) : bool :=
  match a, b with
  | FC_ID, FC_ID | FC_SAME, FC_SAME | FC_NEWER, FC_NEWER | FC_OLDER, FC_OLDER
  | FC_UNKNOWN, FC_UNKNOWN => true
  | _, _ => false
  end.

(** [match_regex] (xfnmatch.c 749-766).  The results of malloc_wcstombs are not
    checked: passing a null pointer to regcomp or regexec is undefined. *)
Definition match_regex (s regex : word) : res tres :=
  match t_mbs E regex with
  | None => UB
  | Some mr =>
      if negb (t_regcomp E mr) then val false
      else
        match t_mbs E s with
        | None => UB
        | Some ms => val (t_regexec E mr ms)
        end
  end.

(** [test_double] (builtins/test.c 160-195) *)
Definition test_double (op arg : word) : res tres :=
  if list_N_eqb op (str "!") then val (negb (test_single arg))
  else if negb (is_unary_primary op) then fail
  else if is op 1 "n" then val (negb (ends arg 0))
  else if is op 1 "z" then val (ends arg 0)
  else if is op 1 "t" then
    val (match xwcstoi (t_loc E) 10 arg with Some fd => t_tty E fd | None => false end)
  else if is op 1 "o" then
    val (if is arg 0 "?" then t_optvalid E (tl arg) else t_opton E arg)
  else
    match t_mbs E arg with
    | None => fail
    | Some m => val (t_file E (at_ op 1) m)
    end.

(** The results of comparisons used as conditions (builtins/test.c 270-385). *)
Definition int_cond (f : Z -> bool) (l r : word) : res tres :=
  let '(c, e) := compare_integers l r in Ok (f c, e).
Definition ver_cond (f : Z -> bool) (l r : word) : res tres :=
  let! c := versions l r in val (f c).
Definition file_cond (k : filecmp) (l r : word) : res tres :=
  let '(c, e) := compare_files l r in Ok (filecmp_eqb c k, e).

(** [test_triple] (builtins/test.c 266-395) up to the label not_binary: the
    result of the binary operator, or None where the code goes to the label. *)
Definition binary_op (op l r : word) : option (res tres) :=
  if is op 0 "=" then
    if ends op 1 || (is op 1 "=" && ends op 2) then Some (val (list_N_eqb l r))
    else if is op 1 "=" && is op 2 "=" && ends op 3 then Some (val (t_coll E l r =? 0)%Z)
    else if is op 1 "~" && ends op 2 then Some (match_regex l r)
    else None
  else if is op 0 "!" then
    if is op 1 "=" && ends op 2 then Some (val (negb (list_N_eqb l r)))
    else if is op 1 "=" && is op 2 "=" && ends op 3 then Some (val (negb (t_coll E l r =? 0)%Z))
    else None
  else if is op 0 "<" then
    if ends op 1 then Some (val (t_coll E l r <? 0)%Z)
    else if is op 1 "=" && ends op 2 then Some (val (t_coll E l r <=? 0)%Z)
    else None
  else if is op 0 ">" then
    if ends op 1 then Some (val (0 <? t_coll E l r)%Z)
    else if is op 1 "=" && ends op 2 then Some (val (0 <=? t_coll E l r)%Z)
    else None
  else if is op 0 "-" then
    if is op 1 "a" then
      if ends op 2 then Some (val (test_single l && test_single r)) else None
    else if is op 1 "o" then
      if ends op 2 then Some (val (test_single l || test_single r))
      else if is op 2 "t" then if ends op 3 then Some (file_cond FC_OLDER l r) else None
      else None
    else if is op 1 "e" then
      if is op 2 "f" then if ends op 3 then Some (file_cond FC_ID l r) else None
      else if is op 2 "q" then if ends op 3 then Some (int_cond (fun c => c =? 0)%Z l r) else None
      else None
    else if is op 1 "n" then
      if is op 2 "e" then if ends op 3 then Some (int_cond (fun c => negb (c =? 0)%Z) l r) else None
      else if is op 2 "t" then if ends op 3 then Some (file_cond FC_NEWER l r) else None
      else None
    else if is op 1 "g" then
      if is op 2 "t" then if ends op 3 then Some (int_cond (fun c => 0 <? c)%Z l r) else None
      else if is op 2 "e" then if ends op 3 then Some (int_cond (fun c => 0 <=? c)%Z l r) else None
      else None
    else if is op 1 "l" then
      if is op 2 "t" then if ends op 3 then Some (int_cond (fun c => c <? 0)%Z l r) else None
      else if is op 2 "e" then if ends op 3 then Some (int_cond (fun c => c <=? 0)%Z l r) else None
      else None
    else if is op 1 "v" then
      if is op 2 "e" then
        if is op 3 "q" && ends op 4 then Some (ver_cond (fun c => c =? 0)%Z l r) else None
      else if is op 2 "n" then
        if is op 3 "e" && ends op 4 then Some (ver_cond (fun c => negb (c =? 0)%Z) l r) else None
      else if is op 2 "g" then
        if is op 3 "t" then if ends op 4 then Some (ver_cond (fun c => 0 <? c)%Z l r) else None
        else if is op 3 "e" then if ends op 4 then Some (ver_cond (fun c => 0 <=? c)%Z l r) else None
        else None
      else if is op 2 "l" then
        if is op 3 "t" then if ends op 4 then Some (ver_cond (fun c => c <? 0)%Z l r) else None
        else if is op 3 "e" then if ends op 4 then Some (ver_cond (fun c => c <=? 0)%Z l r) else None
        else None
      else None
    else None
  else None.

(** The operator ! of C applied to a result. *)
Definition tneg (x : res tres) : res tres := let! (b, e) := x in Ok (negb b, e).

(** [test_triple] (builtins/test.c 266-395) *)
Definition test_triple (l op r : word) : res tres :=
  match binary_op op l r with
  | Some x => x
  | None =>
      if list_N_eqb l (str "!") then tneg (test_double op r)
      else if list_N_eqb l (str "(") && list_N_eqb r (str ")") then val (test_single op)
      else fail
  end.

(** The long form.  The state (args, argc, index) is the list of the arguments
    from index on; the preceding argument, which only appears in an error message
    (builtins/test.c 445-446), is left out.  The three functions call each other
    and are given fuel; the loops are functions of their own. *)
Definition head_is (rest : list word) (w : string) : bool :=
  match rest with a :: _ => list_N_eqb a (str w) | [] => false end.
(** "the word after the operands ends the term" (builtins/test.c 459-460, 465-466) *)
Definition term_ends (rest : list word) : bool :=
  match rest with [] => true | a :: _ => is_term_delimiter a end.

Definition lres : Type := (bool * bool * list word)%type.

(** The primaries of [test_long_term] (builtins/test.c 457-473). *)
Definition long_prim (rest : list word) : res lres :=
  match rest with
  | [] => UB
  | a :: r1 =>
      let single := Ok (test_single a, false, r1) in
      let double :=
        match r1 with
        | b :: r2 =>
            if is_unary_primary a && term_ends r2
            then let! (v, e) := test_double a b in Ok (v, e, r2)
            else single
        | [] => single
        end in
      match r1 with
      | op :: c :: r3 =>
          if is_binary_primary op && term_ends r3
          then let! (v, e) := test_triple a op c in Ok (v, e, r3)
          else double
      | _ => double
      end
  end.

(** [test_long_or] (builtins/test.c 403-415) *)
Fixpoint long_or (f : nat) (rest : list word) {struct f} : res lres :=
  match f with
  | O => Fuel
  | S f => let! (v, e, r) := long_and f rest in or_loop f v e r
  end
(** its loop (builtins/test.c 408-413) *)
with or_loop (f : nat) (v e : bool) (rest : list word) {struct f} : res lres :=
  match f with
  | O => Fuel
  | S f =>
      if negb e && head_is rest "-o"
      then let! (v2, e2, r) := long_and f (tl rest) in or_loop f (v || v2) e2 r
      else Ok (v, e, rest)
  end
(** [test_long_and] (builtins/test.c 418-430) *)
with long_and (f : nat) (rest : list word) {struct f} : res lres :=
  match f with
  | O => Fuel
  | S f => let! (v, e, r) := long_term f rest in and_loop f v e r
  end
(** its loop (builtins/test.c 423-428) *)
with and_loop (f : nat) (v e : bool) (rest : list word) {struct f} : res lres :=
  match f with
  | O => Fuel
  | S f =>
      if negb e && head_is rest "-a"
      then let! (v2, e2, r) := long_term f (tl rest) in and_loop f (v && v2) e2 r
      else Ok (v, e, rest)
  end
(** [test_long_term] (builtins/test.c 433-475) *)
with long_term (f : nat) (rest : list word) {struct f} : res lres :=
  match f with
  | O => Fuel
  | S f =>
      let negate := head_is rest "!" in
      let rest := if negate then tl rest else rest in
      match rest with
      | [] => Ok (false, true, [])
      | _ =>
          if head_is rest "(" then
            let! (v, e, r) := long_or f (tl rest) in
            if head_is r ")" then Ok (xorb v negate, e, tl r)
            else Ok (false, true, r)
          else
            let! (v, e, r) := long_prim rest in Ok (xorb v negate, e, r)
      end
  end.

Definition test_long (args : list word) : res tres :=
  let! (v, e, r) := long_or (5 * length args + 3) args in
  Ok (v, e || match r with [] => false | _ => true end).

(** The dispatch on the number of arguments (builtins/test.c 121-145). *)
Definition test_eval (args : list word) : res tres :=
  match args with
  | [] => val false
  | [a] => val (test_single a)
  | [a; b] => test_double a b
  | [a; b; c] => test_triple a b c
  | [a; b; c; d] =>
      if list_N_eqb a (str "!") then tneg (test_triple b c d)
      else if list_N_eqb a (str "(") && list_N_eqb d (str ")") then test_double b c
      else test_long args
  | _ => test_long args
  end.

(** [test_builtin] (builtins/test.c 106-150); Exit_TRUE 0, Exit_FALSE 1,
    Exit_TESTERROR 2. *)
Definition test_status (args : list word) : res Z :=
  let! (v, e) := test_eval args in
  Ok (if e then 2 else if v then 0 else 1)%Z.

Definition test_builtin (argv : list word) : res Z :=
  match argv with
  | [] => UB
  | name :: args =>
      if list_N_eqb name (str "[") then
        if list_N_eqb (last argv []) (str "]")
        then test_status (removelast args)
        else Ok 2%Z
      else test_status args
  end.

End Env.
