(** The option tables of the built-ins, with all features enabled.

    Generated from the tables in the sources; a table is listed up to its
    sentinel.  Entries that only some configurations contain are included, and
    the theorems about the tables hold for every subsequence of them. *)
From Coq Require Import Ascii String.
From Coq Require Import List NArith Bool.
From Verif Require Import Common XgetoptModel.
Import ListNotations.

Definition e (c : ascii) (l : string) (k : optarg_T) (p : bool) : xgetopt_T :=
  mkOpt (ch c) (Some (str l)) k p.

(** yash.c:603-609 *)
Definition force_help_options : list xgetopt_T :=
  [ e "f" "force" OPTARG_NONE true;
    e "-" "help" OPTARG_NONE false ]%char.

(** lineedit/keymap.c:383-392 *)
Definition bindkey_options : list xgetopt_T :=
  [ e "v" "vi-insert" OPTARG_NONE false;
    e "a" "vi-command" OPTARG_NONE false;
    e "e" "emacs" OPTARG_NONE false;
    e "l" "list" OPTARG_NONE false;
    e "-" "help" OPTARG_NONE false ]%char.

(** lineedit/complete.c:1393-1436 *)
Definition complete_options : list xgetopt_T :=
  [ e "A" "accept" OPTARG_REQUIRED true;
    e "a" "alias" OPTARG_NONE true;
    e "-" "array-variable" OPTARG_NONE true;
    e "-" "bindkey" OPTARG_NONE true;
    e "b" "builtin-command" OPTARG_NONE true;
    e "c" "command" OPTARG_NONE true;
    e "D" "description" OPTARG_REQUIRED true;
    e "d" "directory" OPTARG_NONE true;
    e "-" "dirstack-index" OPTARG_NONE true;
    e "-" "elective-builtin" OPTARG_NONE true;
    e "-" "executable-file" OPTARG_NONE true;
    e "-" "extension-builtin" OPTARG_NONE true;
    e "-" "external-command" OPTARG_NONE true;
    e "f" "file" OPTARG_NONE true;
    e "-" "finished-job" OPTARG_NONE true;
    e "-" "function" OPTARG_NONE true;
    e "-" "global-alias" OPTARG_NONE true;
    e "g" "group" OPTARG_NONE true;
    e "-" "help" OPTARG_NONE false;
    e "h" "hostname" OPTARG_NONE true;
    e "j" "job" OPTARG_NONE true;
    e "k" "keyword" OPTARG_NONE true;
    e "-" "mandatory-builtin" OPTARG_NONE true;
    e "T" "no-termination" OPTARG_NONE true;
    e "-" "normal-alias" OPTARG_NONE true;
    e "O" "option" OPTARG_NONE true;
    e "P" "prefix" OPTARG_REQUIRED true;
    e "-" "regular-builtin" OPTARG_NONE true;
    e "R" "reject" OPTARG_REQUIRED true;
    e "-" "running-job" OPTARG_NONE true;
    e "-" "scalar-variable" OPTARG_NONE true;
    e "-" "semi-special-builtin" OPTARG_NONE true;
    e "-" "signal" OPTARG_NONE true;
    e "-" "special-builtin" OPTARG_NONE true;
    e "-" "stopped-job" OPTARG_NONE true;
    e "-" "substitutive-builtin" OPTARG_NONE true;
    e "S" "suffix" OPTARG_REQUIRED true;
    e "u" "username" OPTARG_NONE true;
    e "v" "variable" OPTARG_NONE true ]%char.

(** job.c:992-1002 *)
Definition jobs_options : list xgetopt_T :=
  [ e "l" "verbose" OPTARG_NONE true;
    e "n" "new" OPTARG_NONE false;
    e "p" "pgid-only" OPTARG_NONE true;
    e "r" "running-only" OPTARG_NONE false;
    e "s" "stopped-only" OPTARG_NONE false;
    e "-" "help" OPTARG_NONE false ]%char.

(** exec.c:1840-1846 *)
Definition iter_options : list xgetopt_T :=
  [ e "i" "iteration" OPTARG_NONE false;
    e "-" "help" OPTARG_NONE false ]%char.

(** exec.c:1849-1855 *)
Definition return_options : list xgetopt_T :=
  [ e "n" "no-return" OPTARG_NONE false;
    e "-" "help" OPTARG_NONE false ]%char.

(** exec.c:2050-2057 *)
Definition dot_options : list xgetopt_T :=
  [ e "A" "no-alias" OPTARG_NONE false;
    e "L" "autoload" OPTARG_NONE false;
    e "-" "help" OPTARG_NONE false ]%char.

(** exec.c:2173-2181 *)
Definition exec_options : list xgetopt_T :=
  [ e "a" "as" OPTARG_REQUIRED false;
    e "c" "clear" OPTARG_NONE false;
    e "f" "force" OPTARG_NONE false;
    e "-" "help" OPTARG_NONE false ]%char.

(** exec.c:2318-2331 *)
Definition command_options : list xgetopt_T :=
  [ e "a" "alias" OPTARG_NONE false;
    e "b" "builtin-command" OPTARG_NONE false;
    e "e" "external-command" OPTARG_NONE false;
    e "f" "function" OPTARG_NONE false;
    e "k" "keyword" OPTARG_NONE false;
    e "p" "standard-path" OPTARG_NONE true;
    e "v" "identify" OPTARG_NONE true;
    e "V" "verbose-identify" OPTARG_NONE true;
    e "-" "help" OPTARG_NONE false ]%char.

(** path.c:1562-1570 *)
Definition hash_options : list xgetopt_T :=
  [ e "a" "all" OPTARG_NONE false;
    e "d" "directory" OPTARG_NONE false;
    e "r" "remove" OPTARG_NONE true;
    e "-" "help" OPTARG_NONE false ]%char.

(** path.c:1704-1710 *)
Definition umask_options : list xgetopt_T :=
  [ e "S" "symbolic" OPTARG_NONE true;
    e "-" "help" OPTARG_NONE false ]%char.

(** variable.c:1625-1636 *)
Definition typeset_options : list xgetopt_T :=
  [ e "f" "functions" OPTARG_NONE false;
    e "g" "global" OPTARG_NONE false;
    e "p" "print" OPTARG_NONE true;
    e "r" "readonly" OPTARG_NONE false;
    e "x" "export" OPTARG_NONE false;
    e "X" "unexport" OPTARG_NONE false;
    e "-" "help" OPTARG_NONE false ]%char.

(** variable.c:2014-2022 *)
Definition array_options : list xgetopt_T :=
  [ e "d" "delete" OPTARG_NONE true;
    e "i" "insert" OPTARG_NONE true;
    e "s" "set" OPTARG_NONE true;
    e "-" "help" OPTARG_NONE false ]%char.

(** variable.c:2290-2297 *)
Definition unset_options : list xgetopt_T :=
  [ e "f" "functions" OPTARG_NONE true;
    e "v" "variables" OPTARG_NONE true;
    e "-" "help" OPTARG_NONE false ]%char.

(** variable.c:2394-2400 *)
Definition shift_options : list xgetopt_T :=
  [ e "A" "array" OPTARG_REQUIRED false;
    e "-" "help" OPTARG_NONE false ]%char.

(** variable.c:2698-2708 *)
Definition read_options : list xgetopt_T :=
  [ e "A" "array" OPTARG_NONE false;
    e "e" "line-editing" OPTARG_NONE false;
    e "P" "ps1" OPTARG_NONE false;
    e "p" "prompt" OPTARG_REQUIRED false;
    e "r" "raw-mode" OPTARG_NONE true;
    e "-" "help" OPTARG_NONE false ]%char.

(** variable.c:3010-3021 *)
Definition pushd_options : list xgetopt_T :=
  [ e "D" "remove-duplicates" OPTARG_NONE true;
    e "d" "default-directory" OPTARG_REQUIRED false;
    e "L" "logical" OPTARG_NONE true;
    e "P" "physical" OPTARG_NONE true;
    e "-" "help" OPTARG_NONE false ]%char.

(** variable.c:3265-3272 *)
Definition dirs_options : list xgetopt_T :=
  [ e "c" "clear" OPTARG_NONE true;
    e "v" "verbose" OPTARG_NONE true;
    e "-" "help" OPTARG_NONE false ]%char.

(** history.c:1207-1219 *)
Definition fc_options : list xgetopt_T :=
  [ e "e" "editor" OPTARG_REQUIRED true;
    e "l" "list" OPTARG_NONE true;
    e "n" "no-numbers" OPTARG_NONE true;
    e "q" "quiet" OPTARG_NONE false;
    e "r" "reverse" OPTARG_NONE true;
    e "s" "silent" OPTARG_NONE true;
    e "v" "verbose" OPTARG_NONE false;
    e "-" "help" OPTARG_NONE false ]%char.

(** history.c:1643-1654 *)
Definition history_options : list xgetopt_T :=
  [ e "c" "clear" OPTARG_NONE true;
    e "d" "delete" OPTARG_REQUIRED true;
    e "r" "read" OPTARG_REQUIRED true;
    e "s" "set" OPTARG_REQUIRED true;
    e "w" "write" OPTARG_REQUIRED true;
    e "F" "flush-file" OPTARG_NONE true;
    e "-" "help" OPTARG_NONE false ]%char.

(** option.c:289-300 *)
Definition normal_options : list xgetopt_T :=
  [ e "-" "help" OPTARG_NONE false;
    e "V" "version" OPTARG_NONE false;
    e "-" "noprofile" OPTARG_NONE false;
    e "-" "norcfile" OPTARG_NONE false;
    e "-" "profile" OPTARG_REQUIRED false;
    e "-" "rcfile" OPTARG_REQUIRED false ]%char.

(** option.c:897-903 *)
Definition all_help_options : list xgetopt_T :=
  [ e "a" "all" OPTARG_NONE true;
    e "-" "help" OPTARG_NONE false ]%char.

(** builtins/ulimit.c:68-123 *)
Definition ulimit_options : list xgetopt_T :=
  [ e "H" "hard" OPTARG_NONE true;
    e "S" "soft" OPTARG_NONE true;
    e "a" "all" OPTARG_NONE true;
    e "c" "core" OPTARG_NONE true;
    e "d" "data" OPTARG_NONE true;
    e "e" "nice" OPTARG_NONE true;
    e "f" "fsize" OPTARG_NONE true;
    e "i" "sigpending" OPTARG_NONE true;
    e "l" "memlock" OPTARG_NONE true;
    e "m" "rss" OPTARG_NONE true;
    e "n" "nofile" OPTARG_NONE true;
    e "q" "msgqueue" OPTARG_NONE true;
    e "r" "rtprio" OPTARG_NONE true;
    e "s" "stack" OPTARG_NONE true;
    e "t" "cpu" OPTARG_NONE true;
    e "u" "nproc" OPTARG_NONE true;
    e "v" "as" OPTARG_NONE true;
    e "x" "locks" OPTARG_NONE true;
    e "-" "help" OPTARG_NONE false ]%char.

(** sig.c:1164-1170 *)
Definition trap_options : list xgetopt_T :=
  [ e "p" "print" OPTARG_NONE false;
    e "-" "help" OPTARG_NONE false ]%char.

(** alias.c:443-450 *)
Definition alias_options : list xgetopt_T :=
  [ e "g" "global" OPTARG_NONE false;
    e "p" "prefix" OPTARG_NONE false;
    e "-" "help" OPTARG_NONE false ]%char.

Definition all_tables : list (list xgetopt_T) :=
  [ force_help_options;
    bindkey_options;
    complete_options;
    jobs_options;
    iter_options;
    return_options;
    dot_options;
    exec_options;
    command_options;
    hash_options;
    umask_options;
    typeset_options;
    array_options;
    unset_options;
    shift_options;
    read_options;
    pushd_options;
    dirs_options;
    fc_options;
    history_options;
    normal_options;
    all_help_options;
    ulimit_options;
    trap_options;
    alias_options ].
