(** What signal names and traps are. *)
From Coq Require Import Ascii String.
From Coq Require Import List NArith ZArith Bool Arith.
From Verif Require Import Common Locale NumModel NumProofs SigModel.
Import ListNotations.
Local Open Scope Z_scope.

Definition upper_or_digit (c : N) : Prop := (65 <= c <= 90)%N \/ (48 <= c <= 57)%N.
(** Names in the table: capital letters and digits, beginning with a letter *)
Definition name_ok (nm : list N) : Prop :=
  (exists c r, nm = c :: r /\ (65 <= c <= 90)%N) /\ Forall upper_or_digit nm
  /\ drop_prefix (str "SIG") nm = None /\ drop_prefix (str "RTM") nm = None /\ nm <> str "EXIT".
Record sigs_ok (G : sigs) : Prop := {
  ok_rt : 0 < rtmin G <= rtmax G /\ rtmax G <= INT_MAX;
  ok_size : rtmax G - rtmin G < rtsize G;
  ok_table : forall nm z, In (nm, z) (table G) -> name_ok nm /\ 0 < z <= INT_MAX /\ ~ (rtmin G <= z <= rtmax G);
  ok_names : NoDup (map fst (table G));
  ok_fixed : 0 < sigkill G /\ 0 < sigstop G }.
(** The signals of the system, and 0 for EXIT *)
Definition valid (G : sigs) (z : Z) : Prop := z = 0 \/ rtmin G <= z <= rtmax G \/ In z (map snd (table G)).
(** Capital letters, digits and signs have no other upper case. *)
Definition up_ok (H : shell) : Prop := forall c, upper_or_digit c \/ c = ch "+" \/ c = ch "-" -> up H c = c.

(** An operand that is an action: neither the reset action nor a number *)
Definition action (c : list N) : Prop := c <> str "-" /\ ~ (c <> [] /\ Forall (fun x => (48 <= x <= 57)%N) c).
(** The signals whose traps can be changed: not KILL and STOP, nor, if the shell is not
    interactive, those that were ignored when it was invoked *)
Definition trappable (G : sigs) (H : shell) (z : Z) : Prop :=
  valid G z /\ z <> sigkill G /\ z <> sigstop G /\ (interactive H = true \/ z = 0 \/ orig_ign H z = false).
(** The handler of a signal after its trap has been set, [old]: before. The shell keeps its own
    handler for SIGCHLD and, when it handles signals for interaction, for SIGINT and SIGWINCH; signals
    that would disturb interaction or job control are ignored instead of reset. *)
Definition shell_catches (H : shell) (k : skind) : bool :=
  match k with AlwaysCaught => true | CaughtIfInteractive => ihandlers H | _ => false end.
Definition shell_ignores (H : shell) (k : skind) : bool :=
  match k with IgnoredIfJobs => jhandlers H | IgnoredIfInteractive => ihandlers H | _ => false end.
Definition handled (H : shell) (k : skind) (c : option (list N)) (old : handler) : handler :=
  if shell_catches H k then old
  else match c with Some [] => Ign | Some _ => Caught | None => if shell_ignores H k then Ign else Dfl end.
(** Traps are set for such signals only. *)
Definition traps_ok (G : sigs) (H : shell) (s : st) : Prop :=
  (forall z c, cmd s z = Some c -> trappable G H z /\ action c)
  /\ (phantom s = false -> anyset s = false -> forall z, nonempty (cmd s z) = false).

(** Names of signals other than EXIT *)
Inductive sig_name (G : sigs) : list N -> Z -> Prop :=
| S_table nm z : In (nm, z) (table G) -> sig_name G nm z
| S_min : sig_name G (str "RTMIN") (rtmin G)
| S_max : sig_name G (str "RTMAX") (rtmax G)
| S_plus t n : numeral 10 t n -> n <= rtmax G - rtmin G -> sig_name G (str "RTMIN+" ++ t) (rtmin G + n)
| S_minus t n : numeral 10 t n -> n <= rtmax G - rtmin G -> 0 < n \/ debug G = false -> sig_name G (str "RTMAX-" ++ t) (rtmax G - n).
(** Words that stand for signals: EXIT, decimal numbers, names with or without SIG *)
Inductive sig_word (G : sigs) : list N -> Z -> Prop :=
| W_exit : sig_word G (str "EXIT") 0
| W_number t z : numeral 10 t z -> valid G z -> sig_word G t z
| W_name nm z : sig_name G nm z -> sig_word G nm z
| W_sig nm z : sig_name G nm z -> sig_word G (str "SIG" ++ nm) z.
(** Words after upcasing *)
Definition means (G : sigs) (H : shell) (nm : list N) (z : Z) : Prop := sig_word G (map (up H) nm) z.
(** The words on which the shell stops with a failed assertion if compiled with [--debug]: RTMAX-0 *)
Definition rtmax_minus_zero (nm : list N) : Prop :=
  exists zs, (nm = str "RTMAX-" ++ zs \/ nm = str "SIGRTMAX-" ++ zs) /\ zs <> [] /\ Forall (fun c => c = 48%N) zs.
(** The operands of [trap]: the action (none to reset) and the signals *)
Inductive operands : list (list N) -> option (list N) -> list (list N) -> Prop :=
| O_reset nm names : operands (str "-" :: nm :: names) None (nm :: names)
| O_action c nm names : action c -> operands (c :: nm :: names) (Some c) (nm :: names)
| O_number c names : c <> [] -> Forall (fun x => (48 <= x <= 57)%N) c -> operands (c :: names) None (c :: names).
