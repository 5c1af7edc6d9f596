(** What is expected of getopts *)
From Coq Require Import Ascii String.
From Coq Require Import List NArith ZArith Bool Arith.
From Verif Require Import Common Locale NumModel VarModel VarSpec GetoptsModel.
Import ListNotations.

(** ** Option specifications *)

(** A specification: option characters, each perhaps followed by a colon *)
Inductive items (ok : N -> Prop) : list N -> Prop :=
| items_nil : items ok []
| items_flag c r : ok c -> c <> ch ":" -> items ok r -> items ok (c :: r)
| items_arg c r : ok c -> c <> ch ":" -> items ok r -> items ok (c :: ch ":" :: r).
Definition option_char (L : locale) (posix : bool) (c : N) : Prop := posix = true -> iswalnum L c = true.
(** perhaps after a colon, which asks for silence *)
Inductive valid_options (L : locale) (posix : bool) : list N -> Prop :=
| valid_loud r : items (option_char L posix) r -> valid_options L posix r
| valid_silent r : items (option_char L posix) r -> valid_options L posix (ch ":" :: r).
Definition silent (options : list N) : Prop := exists r, options = ch ":" :: r.
(** The option [c] is specified, [arg]: it takes an argument *)
Inductive specified (c : N) (arg : bool) : list N -> Prop :=
| spec_arg r : arg = true -> specified c arg (c :: ch ":" :: r)
| spec_flag r : arg = false -> (forall r', r <> ch ":" :: r') -> specified c arg (c :: r)
| spec_later d r : d <> c -> specified c arg r -> specified c arg (d :: r).

(** ** Reading arguments *)

Inductive event :=
| Invalid (c : N)                       (* not an option *)
| Option (c : N) (arg : option (list N))
| Missing (c : N).                      (* an option whose argument is missing *)
Section Options.
Variable options : list N.
Definition flag (c : N) : Prop := c <> ch ":" /\ specified c false options.
Definition takes (c : N) : Prop := c <> ch ":" /\ specified c true options.
Definition unknown (c : N) : Prop := c = ch ":" \/ forall b, ~ specified c b options.
(** The characters of an argument after the hyphen: the events, and how many of the next arguments
    [l] are used *)
Inductive cluster : list N -> list (list N) -> list event -> nat -> Prop :=
| cl_end l : cluster [] l [] 0
| cl_bad c r l es n : unknown c -> cluster r l es n -> cluster (c :: r) l (Invalid c :: es) n
| cl_flag c r l es n : flag c -> cluster r l es n -> cluster (c :: r) l (Option c None :: es) n
| cl_attached c r l : takes c -> r <> [] -> cluster (c :: r) l [Option c (Some r)] 0
| cl_next c a l : takes c -> cluster [c] (a :: l) [Option c (Some a)] 1
| cl_missing c : takes c -> cluster [c] [] [Missing c] 0.
(** The arguments: the events, and the number of arguments before the first operand *)
Inductive reads : list (list N) -> list event -> nat -> Prop :=
| rd_end : reads [] [] 0
| rd_operand a l : (forall r, a <> ch "-" :: r) \/ a = str "-" -> reads (a :: l) [] 0
| rd_dashes l : reads (str "--" :: l) [] 1
| rd_options r l es n es' k : r <> [] -> r <> str "-" -> cluster r l es n -> reads (skipn n l) es' k ->
    reads ((ch "-" :: r) :: l) (es ++ es') (S n + k).
End Options.

(** ** What scripts see *)

Definition holds (n : list N) (s : st) (x : list N) : Prop := exists v, visible (bindings n s) v /\ v_val v = Scalar (Some x).
Definition no_variable (n : list N) (s : st) : Prop := forall v, ~ visible (bindings n s) v.
(** The variable [name] and OPTARG tell the event. *)
Inductive tells (options name : list N) (s : st) : event -> Prop :=
| tells_bad c : holds name s (str "?") -> (silent options -> holds OPTARG s [c]) -> (~ silent options -> no_variable OPTARG s) -> tells options name s (Invalid c)
| tells_flag c : holds name s [c] -> no_variable OPTARG s -> tells options name s (Option c None)
| tells_arg c a : holds name s [c] -> holds OPTARG s a -> tells options name s (Option c (Some a))
| tells_missing c : (silent options -> holds name s (str ":") /\ holds OPTARG s [c]) ->
    (~ silent options -> holds name s (str "?") /\ no_variable OPTARG s) -> tells options name s (Missing c).
(** The variables can be assigned and unset, and there is one OPTARG at most. *)
Definition writable (n : list N) (s : st) : Prop :=
  forall i v, nth_error (bindings n s) i = Some (Some v) -> v_readonly v = false /\ v_nodelete v = false.
Definition single (n : list N) (s : st) : Prop :=
  forall i j v w, nth_error (bindings n s) i = Some (Some v) -> nth_error (bindings n s) j = Some (Some w) -> i = j.
Definition usable (name : list N) (s : st) : Prop := writable OPTIND s /\ writable OPTARG s /\ writable name s /\ single OPTARG s.
(** The arguments that getopts with these operands reads *)
Definition reads_from (operands : list (list N)) (s : st) (args : list (list N)) : Prop :=
  operands <> [] /\ args = operands \/ operands = [] /\ has_params s args.

Section Calls.
Variable L : locale.
Variable mbs : list N -> option (list N).
Variable order : list (list N * var) -> list (list N * var).
Variable seed_ok : list N -> bool.
Variable posix : bool.
Variables options name : list N.
Variable operands : list (list N).
(** After a call of getopts the script may do anything that keeps OPTIND and the parameters. *)
Definition between (s s' : st) : Prop :=
  reachable L mbs order seed_ok s' /\ usable name s' /\ (forall x, holds OPTIND s x -> holds OPTIND s' x) /\ (forall l, has_params s l -> has_params s' l).
(** The state [s] after [n] successful calls of getopts *)
Inductive calls (s0 : st) : nat -> st -> Prop :=
| calls_none : calls s0 0 s0
| calls_more n s s1 s2 : calls s0 n s -> getopts L mbs seed_ok posix options name operands s = Ok (true, s1) -> between s1 s2 -> calls s0 (S n) s2.
End Calls.
