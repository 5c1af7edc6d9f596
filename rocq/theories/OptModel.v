(** Shell options (option.c): the table, the names, the [set] built-in and [$-].

    Only the [set] built-in is modelled, not the options of the shell command line
    ([shell_invocation] is NULL).  All features are compiled in (YASH_ENABLE_LINEEDIT,
    YASH_ENABLE_HISTORY, YASH_ENABLE_HELP).  Messages are not modelled. *)
From Coq Require Import Ascii String.
From Coq Require Import List NArith Bool Arith.
From Verif Require Import Common.
Import ListNotations.

(** [struct option_T] (option.c 205-210); the option is its index in the table.  0 is no
    letter. *)
Record entry := mkEntry { o_en : N; o_dis : N; o_name : list N; o_reset : bool }.
Definition eR (c : ascii) (n : string) := mkEntry (ch c) 0 (str n) true.
Definition dR (c : ascii) (n : string) := mkEntry 0 (ch c) (str n) true.
Definition nR (n : string) := mkEntry 0 0 (str n) true.
Definition eF (c : ascii) (n : string) := mkEntry (ch c) 0 (str n) false.
(** [shell_options] (option.c 213-270) *)
Definition table : list entry :=
  [ eR "a" "allexport"; nR "braceexpand"; nR "caseglob"; dR "C" "clobber"; eF "c" "cmdline";
    nR "curasync"; nR "curbg"; nR "curstop"; nR "dotglob"; nR "emacs"; nR "emptylastfield";
    eR "e" "errexit"; nR "errreturn"; dR "n" "exec"; nR "extendedglob"; nR "forlocal";
    dR "f" "glob"; eR "h" "hashondef"; nR "histspace"; nR "ignoreeof"; eF "i" "interactive";
    nR "lealwaysrp"; nR "lecompdebug"; nR "leconvmeta"; nR "lenoconvmeta"; nR "lepredict";
    nR "lepredictempty"; nR "lepromptsp"; nR "letrimright"; nR "levisiblebell"; nR "log";
    eF "l" "login"; nR "markdirs"; eR "m" "monitor"; eR "b" "notify"; nR "notifyle";
    nR "nullglob"; nR "pipefail"; nR "posixlycorrect"; eF "s" "stdin"; nR "traceall";
    dR "u" "unset"; eR "v" "verbose"; nR "vi"; eR "x" "xtrace" ]%string%char.
Fixpoint index_from (i : nat) (n : list N) (t : list entry) : nat :=
  match t with
  | [] => i
  | e :: t => if list_N_eqb n (o_name e) then i else index_from (S i) n t
  end.
(** The options that other code names by their variables (option.c 224, 242-243, 253,
    260, 266) *)
Definition i_emacs := index_from 0 (str "emacs") table.
Definition i_yesconv := index_from 0 (str "leconvmeta") table.
Definition i_noconv := index_from 0 (str "lenoconvmeta") table.
Definition i_monitor := index_from 0 (str "monitor") table.
Definition i_posix := index_from 0 (str "posixlycorrect") table.
Definition i_vi := index_from 0 (str "vi") table.

(** The values of the options, [shopt_lineedit], [shopt_le_convmeta] (option.c 171-184)
    and the positional parameters *)
Inductive ledit := NoEdit | Vi | Emacs.
Inductive yna := Yes | No | Auto.
Record ost := mkO { val : nat -> bool; lineedit : ledit; convmeta : yna; params : list (list N) }.

(** How [iswalnum] and [towlower] classify *)
Record nlocale := mkNL { alnum : N -> bool; lower : N -> N }.
(** [normalize_option_name] (option.c 402-410) *)
Definition normalize (L : nlocale) (n : list N) : list N := map (lower L) (filter (alnum L) n).
(** [matchwcsprefix]: what follows the prefix [p] in [s] *)
Fixpoint after_prefix (p s : list N) : option (list N) :=
  match p, s with
  | [], _ => Some s
  | a :: p, b :: s => if (a =? b)%N then after_prefix p s else None
  | _ :: _, [] => None
  end.
(** [search_shell_options] (option.c 530-546), from the option [i] on *)
Fixpoint search (n : list N) (t : list entry) (i : nat) (acc : list nat) : list nat :=
  match t with
  | [] => acc
  | e :: t =>
      match after_prefix n (o_name e) with
      | Some [] => [i]
      | Some (_ :: _) => search n t (S i) (acc ++ [i])
      | None => search n t (S i) acc
      end
  end.
(** [collect_matching_shell_options] (option.c 513-524) *)
Definition collect (L : nlocale) (optname : list N) : list nat * nat :=
  let n := normalize L optname in
  let a := search n table 0 [] in
  (match after_prefix (str "no") n with Some m => search m table 0 a | None => a end, length a).

Definition set_val (i : nat) (b : bool) (st : ost) : ost :=
  mkO (fun j => if (j =? i)%nat then b else val st j) (lineedit st) (convmeta st) (params st).
(** [update_lineedit_option] (option.c 715-723) *)
Definition update_lineedit (st : ost) : ost :=
  mkO (val st) (if val st i_vi then Vi else if val st i_emacs then Emacs else NoEdit) (convmeta st) (params st).
(** [update_le_convmeta_option] (option.c 727-735) *)
Definition update_convmeta (st : ost) : ost :=
  mkO (val st) (lineedit st) (if val st i_yesconv then Yes else if val st i_noconv then No else Auto) (params st).
(** [set_shell_option] (option.c 658-709); [tty]: the terminal is open or can be opened
    (redir.c 271-281).  The result is whether it is successful. *)
Definition set_option (tty : bool) (i : nat) (enable : bool) (st : ost) : bool * ost :=
  match nth_error table i with
  | None => (false, st)
  | Some e =>
      if negb (o_reset e) then (false, st)
      else
        let st := set_val i enable st in
        let st := if ((i =? i_monitor)%nat && enable && negb tty) then set_val i false st else st in
        let st :=
          if (i =? i_vi)%nat then update_lineedit (if enable then set_val i_emacs false st else st)
          else if (i =? i_emacs)%nat then update_lineedit (if enable then set_val i_vi false st else st)
          else if (i =? i_yesconv)%nat then update_convmeta (if enable then set_val i_noconv false st else st)
          else if (i =? i_noconv)%nat then update_convmeta (if enable then set_val i_yesconv false st else st)
          else st in
        (Bool.eqb (val st i) enable, st)
  end.

(** The result of parsing an option: None if an assertion fails *)
Definition ores := option (bool * ost).
(** [search_normal_options] (option.c 552-572) for the [set] built-in, for which there is
    [--help] only: whether it is found, exactly or as an abbreviation *)
Inductive found := NotFound | Partial | Exact.
Fixpoint upto_eq (s : list N) : list N :=
  match s with [] => [] | c :: s => if (c =? ch "=")%N then [] else c :: upto_eq s end.
Definition search_help (posix : bool) (optname : list N) : found :=
  if posix then NotFound
  else match after_prefix (upto_eq optname) (str "help") with Some [] => Exact | Some (_ :: _) => Partial | None => NotFound end.
(** [handle_search_result] (option.c 581-654) where the options are [opts] and, after them,
    [help]; [eq] if there is an equal sign *)
Definition handle (tty : bool) (opts : list nat) (shellindex noshell : nat) (help : found) (eq enable : bool) (st : ost) : ores :=
  let opts := match help with Exact => [] | _ => opts end in
  let len := (length opts + match help with NotFound => 0 | _ => 1 end)%nat in
  if ((shellindex <=? noshell) && (noshell <=? len))%nat then
    match len with
    | O => Some (false, st)
    | S O =>
        if (0 <? noshell)%nat then
          match opts with
          | o :: _ => Some (set_option tty o (if (shellindex =? 0)%nat then negb enable else enable) st)
          | [] => None
          end
        else Some (negb eq, st)
    | _ => Some (false, st)
    end
  else None.
(** [parse_long_option] (option.c 481-505) *)
Definition parse_long (L : nlocale) (tty : bool) (arg : list N) (enable : bool) (st : ost) : ores :=
  if val st i_posix then handle tty [] 0 0 NotFound false enable st
  else
    let '(opts, k) := collect L arg in
    handle tty opts k (length opts) (if enable then search_help false (skipn 2 arg) else NotFound)
      (existsb (N.eqb (ch "=")) arg) enable st.
(** [parse_option_character] (option.c 453-476) *)
Fixpoint parse_char (tty : bool) (c : N) (enable : bool) (t : list entry) (i : nat) (st : ost) : bool * ost :=
  match t with
  | [] => (false, st)
  | e :: t =>
      if (c =? o_en e)%N then set_option tty i enable st
      else if (c =? o_dis e)%N then set_option tty i (negb enable) st
      else parse_char tty c enable t (S i) st
  end.
Definition set_named (L : nlocale) (tty : bool) (optname : list N) (enable : bool) (st : ost) : ores :=
  let '(opts, k) := collect L optname in handle tty opts k (length opts) NotFound false enable st.
(** [parse_short_option] (option.c 415-449) on the characters after the sign; the result
    also has the arguments that remain *)
Fixpoint parse_short (L : nlocale) (tty : bool) (cs : list N) (enable : bool) (rest : list (list N)) (st : ost)
  : option (bool * list (list N) * ost) :=
  match cs with
  | [] => Some (true, rest, st)
  | c :: cs =>
      if (c =? ch "o")%N then
        match cs, rest with
        | [], [] => Some (false, rest, st)
        | [], n :: rest => match set_named L tty n enable st with Some (b, st) => Some (b, rest, st) | None => None end
        | _, _ => match set_named L tty cs enable st with Some (b, st) => Some (b, rest, st) | None => None end
        end
      else
        let '(b, st) := parse_char tty c enable table 0 st in
        if b then parse_short L tty cs enable rest st else Some (false, rest, st)
  end.
Definition set_params (ps : list (list N)) (st : ost) : ost := mkO (val st) (lineedit st) (convmeta st) ps.
(** [parse_shell_options] (option.c 353-397); the fuel is more than the arguments *)
Fixpoint parse_args (L : nlocale) (tty : bool) (fuel : nat) (args : list (list N)) (st : ost) : ores :=
  match fuel with
  | O => None
  | S fuel =>
      match args with
      | [] => Some (true, st)
      | arg :: rest =>
          match arg with
          | [] => Some (true, set_params args st)
          | c :: arg' =>
              if (c =? ch "-")%N || (c =? ch "+")%N then
                let enable := (c =? ch "-")%N in
                match arg' with
                | [] => Some (true, set_params args st)
                | d :: arg'' =>
                    if (c =? d)%N then
                      match arg'' with
                      | [] => Some (true, set_params (if enable then rest else args) st)
                      | _ :: _ =>
                          match parse_long L tty arg enable st with
                          | Some (true, st) => parse_args L tty fuel rest st
                          | r => r
                          end
                      end
                    else
                      match parse_short L tty arg' enable rest st with
                      | Some (true, rest, st) => parse_args L tty fuel rest st
                      | Some (false, _, st) => Some (false, st)
                      | None => None
                      end
                end
              else Some (true, set_params args st)
          end
      end
  end.
(** [set_builtin] (option.c 911-923) with arguments other than a single [-o] or [+o] *)
Definition set_cmd (L : nlocale) (tty : bool) (args : list (list N)) (st : ost) : ores :=
  parse_args L tty (S (length args)) args st.
(** [set_builtin_print_restoring_commands] (option.c 940-949): the arguments of the commands
    and the text *)
Fixpoint restoring (t : list entry) (i : nat) (st : ost) : list (list (list N)) :=
  match t with
  | [] => []
  | e :: t =>
      (if o_reset e then [[if val st i then str "-o" else str "+o"; o_name e]] else []) ++ restoring t (S i) st
  end.
Definition restoring_text (t : list entry) (st : ost) : list N :=
  concat (map (fun a => str "set" ++ concat (map (fun w => ch " " :: w) a) ++ [10%N]) (restoring t 0 st)).
(** [get_hyphen_parameter] (option.c 845-858) *)
Fixpoint hyphen (t : list entry) (i : nat) (st : ost) : list N :=
  match t with
  | [] => []
  | e :: t =>
      (if negb (o_en e =? 0)%N && val st i then [o_en e] else [])
      ++ (if negb (o_dis e =? 0)%N && negb (val st i) then [o_dis e] else []) ++ hyphen t (S i) st
  end.
Definition hyphen_param (st : ost) : list N := hyphen table 0 st.
(** [test_option_unique] (option.c 823-839): None if the name is not valid *)
Definition test_option (L : nlocale) (n : list N) (st : ost) : option bool :=
  let '(opts, k) := collect L n in
  match opts with
  | [o] => Some (xorb (val st o) (k =? 0)%nat)
  | _ => None
  end.
