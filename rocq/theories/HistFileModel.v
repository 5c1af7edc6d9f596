(** The history file (history.c) that several shells share.

    The file is its revision and the list of the lines after the signature: the
    lines that shells write are shorter than what [read_line] (history.c 583-637) reads
    at once, and they have no newlines.  The locks make the operations of the shells
    atomic; an operation that fails because of the system, process IDs and the time of
    a refresh are not modelled: which process IDs are written and when the file is
    refreshed are chosen by the event.  All shells have the same parameters. *)
From Coq Require Import Ascii String.
From Coq Require Import List NArith ZArith Bool Arith.
From Verif Require Import Common Locale NumModel PrintfModel HistModel.
Import ListNotations.
Local Open Scope N_scope.

Section HistFile.
Variable L : locale.
Variable histsize max_number : N.
Variable histrmdup : nat.
Variable graph : N -> bool.
(** The number of bytes of a value (xstrnlen) *)
Variable bytes : list N -> N.
Definition LINE_MAX : N := 2048.

(** ** Reading *)
(** wcstoul and wcstoull with base 16 (C11 7.29.4.1.2): None if the value is too
    large, and the rest *)
Definition wcstoul16 (s : list N) : option N * list N :=
  match wcstol L 16 s with
  | (Some v, r) => (if (Z.abs v <? ULONG_MOD)%Z then Some (Z.to_N (v mod ULONG_MOD)) else None, r)
  | (None, r) => (Some 0, r)
  end.
Definition xdigit (c : N) : bool := (digitval c <? 16)%Z.
(** [parse_history_entry] (history.c 730-766); None if an assertion fails *)
Definition entry_time (now : Z) (e : list N) : Z * list N :=
  match e with
  | c :: r =>
      if (c =? ch ":") && match r with d :: _ => xdigit d | [] => false end then
        match wcstoul16 r with
        | (None, e2) => ((-1)%Z, e2)
        | (Some _, []) => ((-1)%Z, [])
        | (Some t, e2) => (if (Z.of_N t >? now)%Z then now else Z.of_N t, e2)
        end
      else ((-1)%Z, e)
  | [] => ((-1)%Z, e)
  end.
Definition parse_entry (now : Z) (line : list N) (l : hist) : option hist :=
  match wcstoul16 line with
  | (None, _) | (Some _, []) => Some l
  | (Some num, e) =>
      if max_number <? num then Some l
      else
        let '(time, e2) := entry_time now e in
        match e2 with
        | c :: v => if iswspace L c then new_entry histsize max_number num time v l else Some l
        | [] => Some l
        end
  end.
(** [parse_removed_entry] (history.c 768-788) *)
Definition parse_removed (s : list N) (l : hist) : option hist :=
  match l, s with
  | [], _ | _, [] => Some l
  | _, _ =>
      match wcstoul16 s with
      | (None, _) => Some l
      | (Some num, e) =>
          if match e with [] => true | c :: _ => iswspace L c end
          then step histsize max_number histrmdup graph (FileDelete num) l
          else Some l
      end
  end.
(** The loop of [read_history] (history.c 701-728) *)
Definition read_one (now : Z) (line : list N) (l : hist) : option hist :=
  match line with
  | [] => Some l
  | c :: s =>
      if (ch "0" <=? c) && (c <=? ch "9") || (ch "A" <=? c) && (c <=? ch "F") then parse_entry now line l
      else if c =? ch "c" then Some (remove_last l)
      else if c =? ch "d" then parse_removed s l
      else Some l
  end.
Fixpoint read_lines (now : Z) (ls : list (list N)) (l : hist) : option hist :=
  match ls with
  | [] => Some l
  | x :: ls' => match read_one now x l with Some l' => read_lines now ls' l' | None => None end
  end.

(** ** Writing *)
(** %X and %lX *)
Definition hex (n : N) : list N := digits_of 16 (ch "A") n.
(** [write_history_entry] (history.c 911-926) *)
Definition write_entry (e : entry) : list (list N) :=
  if LINE_MAX <=? bytes (e_val e) then []
  else if (e_time e >=? 0)%Z then [hex (e_num e) ++ ch ":" :: hex (Z.to_N (e_time e)) ++ ch " " :: e_val e]
  else [hex (e_num e) ++ ch " " :: e_val e].
(** The line that [remove_duplicates] (history.c 1118-1133) and [history_delete]
    (history.c 1756-1797) write *)
Definition removed (n : N) : list N := ch "d" :: hex n.
(** [remove_duplicates] (history.c 1118-1133): the lines that are written *)
Fixpoint rmdup_lines (k : nat) (line : list N) (r : hist) : list (list N) :=
  match k, r with
  | S k, e :: r' => if list_N_eqb (e_val e) line then removed (e_num e) :: rmdup_lines k line r' else rmdup_lines k line r'
  | _, _ => []
  end.
(** [add_history_line] (history.c 1092-1113): the list and what is written *)
Definition add_line_w (now : Z) (line : list N) (l : hist) : option (hist * list (list N)) :=
  if existsb graph line then
    let l1 := rev (rmdup histrmdup line (rev l)) in
    let n := next_number max_number l1 in
    match new_entry histsize max_number n now line l1 with
    | Some l2 => Some (l2, rmdup_lines histrmdup line (rev l) ++ write_entry (mkEntry n now line))
    | None => None
    end
  else Some (l, []).
(** The loop of [add_history] (history.c 1058-1078) *)
Fixpoint add_lines_w (now : Z) (cur : list N) (s : list N) (l : hist) : option (hist * list (list N)) :=
  match s with
  | [] => add_line_w now cur l
  | c :: s' =>
      if c =? 10 then
        match add_line_w now cur l with
        | Some (l1, w1) => match add_lines_w now [] s' l1 with Some (l2, w2) => Some (l2, w1 ++ w2) | None => None end
        | None => None
        end
      else add_lines_w now (cur ++ [c]) s' l
  end.

(** ** Shells *)
(** The file: its revision and lines *)
Record file := mkFile { f_rev : Z; f_lines : list (list N) }.
(** [histlist], [histfilerev] and the position in [histfile] (history.c 84-122) *)
Record shell := mkShell { s_mem : hist; s_rev : Z; s_pos : nat }.
(** A shell that has not yet read the history *)
Definition new_shell : shell := mkShell [] (-1) 0.

(** [update_history] (history.c 821-861) without the refresh *)
Definition update (now : Z) (sh : shell) (f : file) : option hist :=
  if (s_rev sh =? f_rev f)%Z then read_lines now (skipn (s_pos sh) (f_lines f)) (s_mem sh)
  else read_lines now (f_lines f) [].
(** [write_signature] (history.c 891-905) *)
Definition next_rev (r : Z) : Z := if ((r <? 0) || (r =? LONG_MAX))%Z then 0%Z else (r + 1)%Z.
(** [refresh_file] (history.c 933-939): [pids] are the lines that [write_histfile_pids]
    writes, without the letter p *)
Definition refresh (pids : list (list N)) (l : hist) (f : file) : file :=
  mkFile (next_rev (f_rev f)) (map (cons (ch "p")) pids ++ flat_map write_entry l).

(** What a shell does to the file, after reading it *)
Inductive fop :=
  | FAdd (s : list N)
  | FDelete (o : operand)
  | FCancel
  | FClear
  | FRead
  | FRefresh
  | FRenumber
  | FPid (s : list N).
Inductive change := Append (ls : list (list N)) | Rewrite.
(** [add_history] (history.c 1058-1078), [history_delete] (1756-1797),
    [fc_remove_last_entry] (1400-1415), [history_clear_all] (1742-1753),
    [fc_update_history] (1389-1398), [history_refresh_file] (1867-1879),
    [maybe_init_history] (971-1001) *)
Definition act (now : Z) (o : fop) (l : hist) : option (hist * change) :=
  match o with
  | FAdd s => match add_lines_w now [] s l with Some (l', w) => Some (l', Append w) | None => None end
  | FDelete o =>
      match delete_target max_number o l with
      | SCrash => None
      | SRes (Some p) (Some n) =>
          if (p =? n)%nat then Some (remove_at p l, Append [removed (num_at l p)]) else Some (l, Append [])
      | SRes _ _ => Some (l, Append [])
      end
  | FCancel => Some (remove_last l, Append [[ch "c"]])
  | FClear => Some ([], Rewrite)
  | FRead => Some (l, Append [])
  | FRefresh => Some (l, Rewrite)
  | FRenumber => Some (renumber 0 l, Rewrite)
  | FPid s => Some (l, Append [ch "p" :: s])
  end.
Definition store (pids : list (list N)) (l : hist) (c : change) (f : file) : file :=
  match c with
  | Append ls => mkFile (f_rev f) (f_lines f ++ ls)
  | Rewrite => refresh pids l f
  end.
(** An event: a shell locks the file at some time, reads it, perhaps refreshes it
    ([maybe_refresh_file], history.c 865-873), acts and unlocks it *)
Record event := mkEvent {
  ev_shell : nat; ev_now : Z; ev_refresh : bool; ev_pids : list (list N); ev_op : fop }.
Definition exec (ev : event) (shs : nat -> shell) (f : file) : option ((nat -> shell) * file) :=
  match update (ev_now ev) (shs (ev_shell ev)) f with
  | None => None
  | Some l =>
      let f := if ev_refresh ev then refresh (ev_pids ev) l f else f in
      match act (ev_now ev) (ev_op ev) l with
      | None => None
      | Some (l', c) =>
          let f' := store (ev_pids ev) l' c f in
          Some (fun i => if (i =? ev_shell ev)%nat then mkShell l' (f_rev f') (length (f_lines f')) else shs i, f')
      end
  end.
Fixpoint run (evs : list event) (shs : nat -> shell) (f : file) : option ((nat -> shell) * file) :=
  match evs with
  | [] => Some (shs, f)
  | ev :: evs' => match exec ev shs f with Some (shs', f') => run evs' shs' f' | None => None end
  end.
End HistFile.
