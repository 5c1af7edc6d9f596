(** What a user expects of editing a line: undoing as a sequence of states, killed texts
    as a list, and what leads to a state. *)
From Coq Require Import Ascii String.
From Coq Require Import List NArith ZArith Bool Arith.
From Verif Require Import Common EditModel.
Import ListNotations.

(** The value of an entry of the command history; the new line is empty (lineedit/editing.c
    3536-3537) *)
Definition val_of (value : nat -> list N) (e : option nat) : list N :=
  match e with Some e => value e | None => [] end.
(** Arguments with which commands are called: a motion leads to a place in the line, any
    other command leaves the cursor in the line (lineedit/editing.c 570-571, 76-78) *)
Definition cmd_ok (s : est) (c : cmd) : Prop :=
  match c with
  | CMotion _ new _ _ => (new <= length (buf (ln s)))%nat
  | CEdit t i => (i <= length t)%nat
  | _ => True
  end.
(** The text that a command kills: that between the cursor and the place the motion leads
    to (lineedit/editing.c 573-580, 592-595) *)
Definition kills (s : est) (c : cmd) : list N :=
  match c with
  | CMotion m new inclusive _ =>
      if m_copy m then
        let a := min (idx (ln s)) new in
        let b := max (idx (ln s)) new in
        slice a ((if inclusive && (b <? length (buf (ln s)))%nat then S b else b) - a) (buf (ln s))
      else []
  | _ => []
  end.
Definition log_kill (t : list N) (log : list (list N)) : list (list N) :=
  match t with [] => log | _ :: _ => t :: log end.
(** States of a shell that edits one line after another.  [log] are the killed texts,
    the last first. *)
Inductive reach : (nat -> list N) -> est -> list (list N) -> Prop :=
  | reach_init v : reach v (start_edit (mkRing (repeat None KILL_RING_SIZE) 0 0 0 0) false) []
  | reach_line v v' s log : reach v s log -> reach v' (start_edit (kr s) (popok s)) log
  | reach_cmd v s log c s' : reach v s log -> cmd_ok s c -> invoke v c s = Some s' -> reach v s' (log_kill (kills s c) log).

(** The defect: putting a text no times, at the beginning of a line (lineedit/editing.c
    2172-2174) *)
Definition put_place (after : bool) (l : line) : nat :=
  if after && (idx l <? length (buf l))%nat then S (idx l) else idx l.
Definition bad_put (s : est) (log : list (list N)) (c : cmd) : Prop :=
  match c with
  | CPut after _ count => log <> [] /\ (count <= 0)%Z /\ put_place after (ln s) = O
  | CPop count =>
      log <> [] /\ (count <= 0)%Z /\ lps (kr s) = O
      /\ (lastc s = KPut \/ lastc s = KPop /\ popok s = true)
  | _ => False
  end.

(** A command that saves the line before it changes it: not typing a character, not a
    repeated backspace, not the [r] of vi; nor undoing and moving through the history *)
Definition saving (s : est) (c : cmd) : Prop :=
  match c with
  | CInsert _ _ | CReplace _ _ | CUndo _ | CGo _ _ => False
  | CMotion m new _ back => ~ (m_del m = true /\ back = true /\ (new + 1 = idx (ln s))%nat /\ lastc s = KBack)
  | _ => True
  end.
(** Commands each of which saves and changes the line *)
Inductive changes (v : nat -> list N) : est -> list cmd -> est -> Prop :=
  | changes_nil s : changes v s [] s
  | changes_cons s c s' cs s'' :
      saving s c -> cmd_ok s c -> invoke v c s = Some s' -> buf (ln s') <> buf (ln s) ->
      changes v s' cs s'' -> changes v s (c :: cs) s''.
(** Any commands on a line *)
Inductive run (v : nat -> list N) : est -> list cmd -> est -> Prop :=
  | run_nil s : run v s [] s
  | run_cons s c s' cs s'' : cmd_ok s c -> invoke v c s = Some s' -> run v s' cs s'' -> run v s (c :: cs) s''.
(** Moving to entries of the history *)
Definition moves (es : list (option nat * curpos)) : list cmd := map (fun e => CGo (fst e) (snd e)) es.
