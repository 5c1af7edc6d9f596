(** What is expected of variables *)
From Coq Require Import Ascii String.
From Coq Require Import List NArith ZArith Bool Arith.
From Verif Require Import Common Locale NumModel BraceSpec VarModel.
Import ListNotations.

(** The variable of the name in each scope, innermost first *)
Definition bindings (n : list N) (s : st) : list (option var) := map (fun e => lookup n (vars e)) (envs s).
(** Which scopes belong to temporary assignments *)
Definition temps (s : st) : list bool := map temp (envs s).

Definition string_of (v : value) : option (list N) :=
  match v with Scalar x => x | Array l => Some (join (str ":") l) end.
(** The value a name should have in the process environment: that of the innermost exported
    variable that has a value *)
Inductive exports : list (option var) -> list N -> Prop :=
| exports_here v x c : v_export v = true -> string_of (v_val v) = Some x -> exports (Some v :: c) x
| exports_skip o x c : (forall v, o = Some v -> v_export v = true -> string_of (v_val v) = None) -> exports c x -> exports (o :: c) x.
(** The process environment agrees with the variables about a name. *)
Definition env_agrees (mbs : list N -> option (list N)) (n : list N) (s : st) : Prop :=
  forall m, mbs n = Some m -> m <> [] -> forall b, osenv s m = Some b <-> exists x, exports (bindings n s) x /\ mbs x = Some b.

(** The innermost variable of the name *)
Inductive visible : list (option var) -> var -> Prop :=
| visible_here v c : visible (Some v :: c) v
| visible_outer v c : visible c v -> visible (None :: c) v.

(** The parts of a string between colons *)
Inductive parts : list N -> list (list N) -> Prop :=
| parts_last x : ~ In (ch ":") x -> parts x [x]
| parts_more x s l : ~ In (ch ":") x -> parts s l -> parts (x ++ ch ":" :: s) (x :: l).
(** The value a list of assignments gives to a name: that of the last assignment to it *)
Inductive assigns (n : list N) : list (list N * value) -> value -> Prop :=
| assigns_here x l : ~ In n (map fst l) -> assigns n ((n, x) :: l) x
| assigns_later a l x : assigns n l x -> assigns n (a :: l) x.
(** First occurrences of the elements of a list *)
Fixpoint firsts (seen l : list (list N)) : list (list N) :=
  match l with
  | [] => []
  | x :: l' => if in_dec (list_eq_dec N.eq_dec) x seen then firsts seen l' else x :: firsts (x :: seen) l'
  end.
Fixpoint somes {A} (l : list (option A)) : list A :=
  match l with
  | [] => []
  | Some x :: l' => x :: somes l'
  | None :: l' => somes l'
  end.
(** The directories a path variable stands for *)
Inductive directories (mbs : list N -> option (list N)) : value -> list (list N) -> Prop :=
| dirs_scalar x l : parts x l -> directories mbs (Scalar (Some x)) (firsts [] (somes (map mbs l)))
| dirs_array l : directories mbs (Array l) (firsts [] (somes (map mbs l))).
(** The search path: the directories of the innermost variable that has a value *)
Inductive search_path (mbs : list N -> option (list N)) : list (option var) -> option (list (list N)) -> Prop :=
| sp_none : search_path mbs [] None
| sp_here v c l : directories mbs (v_val v) l -> search_path mbs (Some v :: c) (Some l)
| sp_outer o c r : (forall v, o = Some v -> v_val v = Scalar None) -> search_path mbs c r -> search_path mbs (o :: c) r.

(** ** Which names a command deals with *)

(** Assignments, for, etc. have names without an equal sign. *)
Definition name_ok (n : list N) : Prop := ~ In (ch "=") n.
Fixpoint op_ok (o : op) : Prop :=
  let all := fix all (l : list op) : Prop := match l with [] => True | o :: l' => op_ok o /\ all l' end in
  match o with
  | OAssign l _ => Forall (fun a => name_ok (fst a)) l
  | OSet n _ _ | OElement n _ _ => name_ok n
  | OTemp l body => Forall (fun a => name_ok (fst a)) l /\ all body
  | OCall _ body => all body
  | _ => True
  end.
(** The command does not change part of the array of this name in place.  [element]: ${n[i]:=x}
    counts too. *)
Fixpoint not_in_place (element : bool) (n : list N) (o : op) : Prop :=
  let all := fix all (l : list op) : Prop := match l with [] => True | o :: l' => not_in_place element n o /\ all l' end in
  match o with
  | OArray m (ASet _) => True
  | OArray m _ => m <> n
  | OShift (Some m) _ => m <> n
  | OElement m _ _ => if element then m <> n else True
  | OTemp _ body | OCall _ body => all body
  | _ => True
  end.
(** shift -A does not name the array *)
Fixpoint not_shifted (n : list N) (o : op) : Prop :=
  let all := fix all (l : list op) : Prop := match l with [] => True | o :: l' => not_shifted n o /\ all l' end in
  match o with
  | OShift (Some m) _ => m <> n
  | OTemp _ body | OCall _ body => all body
  | _ => True
  end.
(** unset does not name the variable.  (The positional parameters cannot be unset.) *)
Fixpoint not_unset (n : list N) (o : op) : Prop :=
  let all := fix all (l : list op) : Prop := match l with [] => True | o :: l' => not_unset n o /\ all l' end in
  match o with
  | OUnset m => n = positional \/ m <> n
  | OTemp _ body | OCall _ body => all body
  | _ => True
  end.
(** The command does not deal with the name at all. *)
Fixpoint not_about (n : list N) (o : op) : Prop :=
  let all := fix all (l : list op) : Prop := match l with [] => True | o :: l' => not_about n o /\ all l' end in
  match o with
  | OAssign l _ => Forall (fun a => fst a <> n) l
  | OSet m _ _ | OElement m _ _ | OUnset m | OArray m _ | OGet m _ => m <> n
  | OTypeset _ _ _ _ arg => fst (cut_eq [] arg) <> n
  | OShift (Some m) _ => m <> n
  | OShift None _ | OParams _ => n <> positional
  | OLineno _ => n <> LINENO
  | OAllexport _ => True
  | OTemp l body => Forall (fun a => fst a <> n) l /\ all body
  | OCall _ body => all body
  end.

(** Which scope an assignment changes: the innermost scope that has the variable and is not
    temporary, or else the outermost one *)
Inductive target : list bool -> list (option var) -> nat -> Prop :=
| target_here v ts c : target (false :: ts) (Some v :: c) 0
| target_last t o : target [t] [o] 0
| target_skip t o ts c k : t = true \/ o = None -> target ts c k -> target (t :: ts) (o :: c) (S k).
(** The scope of a declaration in a function: the innermost one that is not temporary *)
Inductive own : list bool -> nat -> Prop :=
| own_here ts : own (false :: ts) 0
| own_skip ts k : own ts k -> own (true :: ts) (S k).
(** Names that are not those of special or positional parameters *)
Definition plain (n : list N) : Prop :=
  match n with [] => False | c :: r => is_digit c = false /\ (r = [] -> ~ In c (str "*@#?-$!0")) end.

(** ** Sessions *)

(** The process environment [o] that the shell inherits has the variables [l]. *)
Definition inherits (mbs : list N -> option (list N)) (l : list (list N * list N)) (o : list N -> option (list N)) : Prop :=
  NoDup (map fst l) /\ Forall (fun kv => name_ok (fst kv)) l /\
  forall n m, mbs n = Some m -> m <> [] -> forall b, o m = Some b <-> exists x, In (n, x) l /\ mbs x = Some b.
Section Session.
Variable L : locale.
Variable mbs : list N -> option (list N).
Variable order : list (list N * var) -> list (list N * var).
Variable seed_ok : list N -> bool.
(** The shell has started with the variables [inherited] in its environment. *)
Inductive started (inherited : list (list N)) : st -> Prop :=
| start_here l o args s1 s2 : inherits mbs l o -> inherited = map fst l -> init_environment mbs seed_ok l o args = Ok s1 ->
    init_lineno mbs seed_ok s1 = Ok s2 -> started inherited s2
| start_random s2 s3 : started inherited s2 -> init_random mbs seed_ok s2 = Ok s3 -> started inherited s3.
(** The states between commands that satisfy [P], at the top level, in functions and in commands with
    temporary assignments *)
Inductive during (P : op -> Prop) (s0 : st) : st -> Prop :=
| during_start : during P s0 s0
| during_run o s s' : during P s0 s -> op_ok o -> P o -> run L mbs order seed_ok o s = Ok s' -> during P s0 s'
| during_call args s s' : during P s0 s -> set_positional_parameters mbs seed_ok args (open_new_environment false s) = Ok s' -> during P s0 s'
| during_temp l ok s s' : during P s0 s -> Forall (fun a => name_ok (fst a)) l ->
    do_assignments mbs seed_ok l TEMP true (open_new_environment true s) = Ok (ok, s') -> during P s0 s'.
Definition reachable (s : st) : Prop := exists inh s0, started inh s0 /\ during (fun _ => True) s0 s.
End Session.

(** The positional parameters are [l]. *)
Definition has_params (s : st) (l : list (list N)) : Prop := exists v, visible (bindings positional s) v /\ v_val v = Array l.

(** ** Arrays *)

(** The position (from 0) that a number denotes in an array: from 1 forwards, from -1 backwards *)
Definition denotes (len : nat) (i : Z) (k : nat) : Prop :=
  (k < len)%nat /\ (i = Z.of_nat k + 1 \/ i = Z.of_nat k - Z.of_nat len)%Z.
(** The innermost variable has got another value, nothing else has changed. *)
Inductive value_changed (x y : value) : list (option var) -> list (option var) -> Prop :=
| changed_here v w c : v_val v = x -> v_val w = y -> v_readonly v = false -> v_export w = v_export v -> v_readonly w = false -> v_nodelete w = v_nodelete v ->
    value_changed x y (Some v :: c) (Some w :: c)
| changed_outer c c' : value_changed x y c c' -> value_changed x y (None :: c) (None :: c').
(** What is left of [l] without the elements at the positions in [p] *)
Fixpoint without (k : nat) (p : nat -> bool) (l : list (list N)) : list (list N) :=
  match l with
  | [] => []
  | x :: l' => if p k then without (S k) p l' else x :: without (S k) p l'
  end.
(** Some number in the operands of the array built-in is none. *)
Definition bad_number (L : locale) (o : arrayop) : Prop :=
  let bad idx := forall sg ds i, ~ integer L idx sg ds i in
  match o with
  | ASet _ => False
  | ADelete l => Exists bad l
  | AInsert idx _ | AElement idx _ => bad idx
  end.
