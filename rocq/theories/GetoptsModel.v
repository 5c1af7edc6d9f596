(** The getopts built-in (variable.c) *)
From Coq Require Import Ascii String.
From Coq Require Import List NArith ZArith Bool Arith.
From Verif Require Import Common Locale NumModel VarModel.
Import ListNotations.
Open Scope res_scope.

Section Getopts.
Variable L : locale.
Variable mbs : list N -> option (list N).
Variable seed_ok : list N -> bool.
(** the option posixly-correct *)
Variable posix : bool.

(** wcstoul(3), the value and the rest of the string: a minus sign negates modulo 2^64; None if there is no number or it is
    too large *)
Definition wcstoul (s : list N) : option Z * list N :=
  match wcstol L 10 s with
  | (Some v, rest) => (if (Z.abs v <? ULONG_MOD)%Z then Some (v mod ULONG_MOD)%Z else None, rest)
  | (None, rest) => (None, rest)
  end.
(** util.c:173-189 [xwcstoul] *)
Definition xwcstoul (s : list N) : option Z :=
  match s with
  | [] => None
  | _ => match wcstoul s with (Some v, []) => Some v | _ => None end
  end.

(** variable.c:2641-2662 [check_options] *)
Fixpoint check_from (options : list N) : bool :=
  match options with
  | [] => true
  | c :: r =>
    if (c =? ch ":")%N then false
    else if (c =? ch "?")%N && posix then false
    else if posix && negb (iswalnum L c) then false
    else match r with
         | d :: r' => if (d =? ch ":")%N then check_from r' else check_from r
         | [] => check_from r
         end
  end.
Definition check_options (options : list N) : bool :=
  match options with
  | c :: r => if (c =? ch ":")%N then check_from r else check_from options
  | [] => check_from options
  end.

(** variable.c:2503-2638 [getopts_builtin], parsing $OPTIND: the index of the argument and of the
    character in it; None: invalid *)
Definition parse_optind (v : option (list N)) : option (Z * Z) :=
  match v with
  | None | Some [] => None
  | Some x =>
    match wcstoul x with
    | (None, _) => None
    | (Some v, rest) =>
      let optind := ((v - 1) mod ULONG_MOD)%Z in
      match rest with
      | c :: rest' =>
        if (c =? ch ":")%N then
          match xwcstoul rest' with
          | Some sub => if (sub =? 0)%Z then None else Some (optind, sub)
          | None => None
          end
        else Some (optind, 1%Z)
      | [] => Some (optind, 1%Z)
      end
    end
  end.

(** wcschr(3): the string from the first occurrence on *)
Fixpoint from_char (c : N) (s : list N) : option (list N) :=
  match s with
  | [] => None
  | d :: s' => if (d =? c)%N then Some s else from_char c s'
  end.

(** variable.c:2503-2638 [getopts_builtin], the part from parse_arg: what has been found, and the new indices.
    [rest]: the arguments from number [optind] on *)
Inductive answer := AEnd | ABad (c : N) | AOpt (c : N) (arg : option (list N)) | AMissing (c : N).
Fixpoint parse_arg (options : list N) (rest : list (list N)) (optind sub : Z) : res (answer * Z * Z) :=
  match rest with
  | [] => Ok (AEnd, optind, 0%Z)
  | arg :: rest' =>
    match arg with
    | [] => Ok (AEnd, optind, 0%Z)
    | c0 :: r0 =>
      if negb (c0 =? ch "-")%N || (match r0 with [] => true | _ => false end) then Ok (AEnd, optind, 0%Z)
      else if list_N_eqb r0 (str "-") then Ok (AEnd, (optind + 1) mod ULONG_MOD, 0)%Z
      else if (Z.min (Z.of_nat (length arg)) ((sub + 1) mod ULONG_MOD) <=? sub)%Z then parse_arg options rest' ((optind + 1) mod ULONG_MOD)%Z 1
      else
        let! c := rget arg (Z.to_nat sub) in
        let sub := ((sub + 1) mod ULONG_MOD)%Z in
        let bad := Ok (ABad c, optind, sub) in
        if (c =? ch ":")%N then bad
        else
          match from_char c options with
          | None => bad
          | Some optp =>
            if match optp with _ :: d :: _ => (d =? ch ":")%N | _ => false end then
              let optind := ((optind + 1) mod ULONG_MOD)%Z in
              match skipn (Z.to_nat sub) arg with
              | [] => let optind := ((optind + 1) mod ULONG_MOD)%Z in
                      match rest' with
                      | a :: _ => Ok (AOpt c (Some a), optind, 1%Z)
                      | [] => Ok (AMissing c, optind, 1%Z)
                      end
              | a => Ok (AOpt c (Some a), optind, 1%Z)
              end
            else Ok (AOpt c None, optind, sub)
          end
    end
  end.

(** variable.c:2665-2671 [set_optind] *)
Definition optind_string (optind sub : Z) : list N :=
  dec_of_N (Z.to_N ((optind + 1) mod ULONG_MOD)) ++ (if (1 <? sub)%Z then ch ":" :: dec_of_N (Z.to_N sub) else []).
Definition set_optind (optind sub : Z) (s : st) : res (bool * st) := set_variable mbs seed_ok OPTIND (optind_string optind sub) GLOBAL false s.
(** variable.c:2674-2677 [set_optarg] *)
Definition set_optarg (value : list N) (s : st) : res (bool * st) := set_variable mbs seed_ok OPTARG value GLOBAL false s.
(** variable.c:2680-2686 [set_variable_single_char] *)
Definition set_variable_single_char (name : list N) (c : N) (s : st) : res (bool * st) := set_variable mbs seed_ok name [c] GLOBAL false s.

(** The macro TRY of variable.c:2503-2638 [getopts_builtin] *)
Definition try (a : st -> res (bool * st)) (b : st -> res (bool * st)) (s : st) : res (bool * st) :=
  let! (ok, s) := a s in if ok : bool then b s else Ok (false, s).
Definition unset_optarg (s : st) : res (bool * st) := let '(ok, s) := unset_variable mbs seed_ok OPTARG s in Ok (ok, s).
(** variable.c:2503-2638 [getopts_builtin]: whether the exit status is zero.  Messages are not modelled. *)
Definition getopts (options name : list N) (operands : list (list N)) (s : st) : res (bool * st) :=
  if has_eq name then Ok (false, s)
  else if negb (check_options options) then Ok (false, s)
  else
    let! (v, s) := getvar mbs OPTIND 0 s in
    match parse_optind v with
    | None => Ok (false, s)
    | Some (optind, sub) =>
      let! args := match operands with [] => positional_values s | _ => Ok operands end in
      let! (a, optind, sub) :=
        (if (Z.of_nat (length args) <=? optind)%Z then Ok (AEnd, optind, 0%Z)
         else parse_arg options (skipn (Z.to_nat optind) args) optind sub) in
      let silent := match options with c :: _ => (c =? ch ":")%N | [] => false end in
      let finish := set_optind optind sub in
      match a with
      | AEnd =>
        let! (_, s) := set_optind optind 0 s in
        let! (_, s) := set_variable_single_char name (ch "?") s in
        let! (_, s) := unset_optarg s in
        Ok (false, s)
      | ABad c =>
        try (set_variable_single_char name (ch "?"))
          (try (if silent then set_variable_single_char OPTARG c else unset_optarg) finish) s
      | AOpt c None => try unset_optarg (try (set_variable_single_char name c) finish) s
      | AOpt c (Some arg) => try (set_optarg arg) (try (set_variable_single_char name c) finish) s
      | AMissing c =>
        if silent then try (set_variable_single_char name (ch ":")) (try (set_variable_single_char OPTARG c) finish) s
        else try (set_variable_single_char name (ch "?")) (try unset_optarg finish) s
      end
    end.
End Getopts.
