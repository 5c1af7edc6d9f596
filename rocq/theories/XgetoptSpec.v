(** What option parsing should do, as a grammar of command lines. *)
From Coq Require Import List NArith Bool Arith.
From Verif Require Import Common Locale XgetoptModel.
Import ListNotations.

(** Strings of C have no null characters. *)
Definition nonull (s : list N) : Prop := ~ In 0%N s.
Record table_ok (t : list xgetopt_T) : Prop := {
  tk_short : forall o, In o t -> shortopt o <> 0%N;
  tk_long : forall o l, In o t -> longopt o = Some l -> nonull l }.

(** Is the argument of the form of an option?  "-" is not; with the digit flag
    negative numbers are not. *)
Inductive looks_like_option (digit : bool) : list N -> Prop :=
  | llo_short : forall c s, c <> hyphen -> (digit = true -> iswdigit c = false) ->
      looks_like_option digit (hyphen :: c :: s)
  | llo_long : forall s, looks_like_option digit (hyphen :: hyphen :: s).

(** The entry for a single-character option: the first one available. *)
Definition available (pc : bool) (o : xgetopt_T) : Prop := pc = true -> posix o = true.
Definition selects_short (pc : bool) (t : list xgetopt_T) (c : N) (i : nat) (o : xgetopt_T) : Prop :=
  c <> hyphen /\ nth_error t i = Some o /\ shortopt o = c /\ available pc o /\
  forall j o', j < i -> nth_error t j = Some o' -> shortopt o' = c -> ~ available pc o'.
Definition no_short (pc : bool) (t : list xgetopt_T) (c : N) : Prop :=
  c = hyphen \/ forall o, In o t -> shortopt o = c -> ~ available pc o.

(** A long option's text after the two hyphens: name, and value if there is
    an equal sign. *)
Inductive long_text : list N -> list N -> option (list N) -> Prop :=
  | lt_name : forall name, ~ In equals name -> long_text name name None
  | lt_value : forall name v, ~ In equals name ->
      long_text (name ++ equals :: v) name (Some v).

(** Entry [i] is called [name]; [name] abbreviates the name of entry [i]. *)
Definition named (t : list xgetopt_T) (name : list N) (i : nat) (o : xgetopt_T) : Prop :=
  nth_error t i = Some o /\ longopt o = Some name.
Definition abbreviates (t : list xgetopt_T) (name : list N) (i : nat) (o : xgetopt_T) : Prop :=
  nth_error t i = Some o /\ exists c s, longopt o = Some (name ++ c :: s).

(** What a user expects (C12): an exact name always wins, otherwise the
    abbreviation must be unique. *)
Inductive resolves_ideal (t : list xgetopt_T) (name : list N) : longmatch -> Prop :=
  | ri_exact : forall i o, named t name i o ->
      (forall j o', j < i -> ~ named t name j o') ->
      resolves_ideal t name (LMatch i o)
  | ri_unique : forall i o, abbreviates t name i o ->
      (forall j o', ~ named t name j o') ->
      (forall j o', abbreviates t name j o' -> j = i) ->
      resolves_ideal t name (LMatch i o)
  | ri_ambiguous : forall i j o o', abbreviates t name i o -> abbreviates t name j o' -> i <> j ->
      (forall k o', ~ named t name k o') ->
      resolves_ideal t name LAmbiguous
  | ri_none : (forall j o', ~ named t name j o') -> (forall j o', ~ abbreviates t name j o') ->
      resolves_ideal t name LNone.

(** What the shell does: the search stops at the first exact match or the
    second abbreviated entry, whichever comes first. *)
Inductive resolves (t : list xgetopt_T) (name : list N) : longmatch -> Prop :=
  | rs_exact : forall i o, named t name i o ->
      (forall j o', j < i -> ~ named t name j o') ->
      (forall j k o' o'', j < i -> k < i -> abbreviates t name j o' -> abbreviates t name k o'' -> j = k) ->
      resolves t name (LMatch i o)
  | rs_unique : forall i o, abbreviates t name i o ->
      (forall j o', ~ named t name j o') ->
      (forall j o', abbreviates t name j o' -> j = i) ->
      resolves t name (LMatch i o)
  | rs_ambiguous : forall i j o o', i < j -> abbreviates t name i o -> abbreviates t name j o' ->
      (forall k o', k < j -> ~ named t name k o') ->
      resolves t name LAmbiguous
  | rs_none : (forall j o', ~ named t name j o') -> (forall j o', ~ abbreviates t name j o') ->
      resolves t name LNone.

(** Tables in which no name comes after two names that extend it. *)
Definition well_ordered (t : list xgetopt_T) : Prop :=
  forall name i o j o' k o'', named t name i o -> j < i -> k < i ->
    abbreviates t name j o' -> abbreviates t name k o'' -> j = k.

(** The grammar.  [args pc fl t l evs os ops fin]: parsing the arguments [l]
    finds the options [evs] (entry and argument) and ends as [fin]; [os] are the
    arguments taken as options, option arguments and the "--", in order; [ops]
    are the others.  [cluster a s l ...] is the same with the characters [s] of
    the argument [a] still to be parsed as single-character options. *)
Inductive args (pc : bool) (fl : gflags) (t : list xgetopt_T)
  : list (list N) -> list (nat * option (list N)) -> list (list N) -> list (list N) -> gending -> Prop :=
  | ar_end : args pc fl t [] [] [] [] EndDone
  | ar_dashes : forall l, args pc fl t ([hyphen; hyphen] :: l) [] [[hyphen; hyphen]] l EndDone
  | ar_stop : forall a l,
      ~ looks_like_option (negb pc && fl_digit fl) a -> pc = true \/ fl_posix fl = true ->
      args pc fl t (a :: l) [] [] (a :: l) EndDone
  | ar_operand : forall a l evs os ops fin,
      ~ looks_like_option (negb pc && fl_digit fl) a -> pc = false -> fl_posix fl = false ->
      args pc fl t l evs os ops fin ->
      args pc fl t (a :: l) evs os (a :: ops) fin
  | ar_short : forall c s l evs os ops fin,
      looks_like_option (negb pc && fl_digit fl) (hyphen :: c :: s) -> c <> hyphen ->
      cluster pc fl t (hyphen :: c :: s) (c :: s) l evs os ops fin ->
      args pc fl t ((hyphen :: c :: s) :: l) evs os ops fin
  | ar_long_posix : forall s l, s <> [] -> pc = true ->
      args pc fl t ((hyphen :: hyphen :: s) :: l) [] [] ((hyphen :: hyphen :: s) :: l)
        (EndError (no_such_option (hyphen :: hyphen :: s)))
  | ar_long_invalid : forall s name v l, s <> [] -> pc = false ->
      long_text s name v -> resolves t name LNone ->
      args pc fl t ((hyphen :: hyphen :: s) :: l) [] [] ((hyphen :: hyphen :: s) :: l)
        (EndError (no_such_option (hyphen :: hyphen :: s)))
  | ar_long_ambiguous : forall s name v l, s <> [] -> pc = false ->
      long_text s name v -> resolves t name LAmbiguous ->
      args pc fl t ((hyphen :: hyphen :: s) :: l) [] [] ((hyphen :: hyphen :: s) :: l)
        (EndError (ambiguous_long_option (hyphen :: hyphen :: s)))
  | ar_long_flag : forall s l i o evs os ops fin, s <> [] -> pc = false ->
      long_text s s None -> resolves t s (LMatch i o) -> optarg o <> OPTARG_REQUIRED ->
      args pc fl t l evs os ops fin ->
      args pc fl t ((hyphen :: hyphen :: s) :: l) ((i, None) :: evs)
        ((hyphen :: hyphen :: s) :: os) ops fin
  | ar_long_unwanted : forall s name v l i o, s <> [] -> pc = false ->
      long_text s name (Some v) -> resolves t name (LMatch i o) -> optarg o = OPTARG_NONE ->
      args pc fl t ((hyphen :: hyphen :: s) :: l) [] [] ((hyphen :: hyphen :: s) :: l)
        (EndError (unwanted_long_option_argument (hyphen :: hyphen :: s) i))
  | ar_long_value : forall s name v l i o evs os ops fin, s <> [] -> pc = false ->
      long_text s name (Some v) -> resolves t name (LMatch i o) -> optarg o <> OPTARG_NONE ->
      args pc fl t l evs os ops fin ->
      args pc fl t ((hyphen :: hyphen :: s) :: l) ((i, Some v) :: evs)
        ((hyphen :: hyphen :: s) :: os) ops fin
  | ar_long_separate : forall s l b i o evs os ops fin, s <> [] -> pc = false ->
      long_text s s None -> resolves t s (LMatch i o) -> optarg o = OPTARG_REQUIRED ->
      args pc fl t l evs os ops fin ->
      args pc fl t ((hyphen :: hyphen :: s) :: b :: l) ((i, Some b) :: evs)
        ((hyphen :: hyphen :: s) :: b :: os) ops fin
  | ar_long_missing : forall s i o, s <> [] -> pc = false ->
      long_text s s None -> resolves t s (LMatch i o) -> optarg o = OPTARG_REQUIRED ->
      args pc fl t [hyphen :: hyphen :: s] [] [] [hyphen :: hyphen :: s]
        (EndError (option_argument_is_missing false i))
with cluster (pc : bool) (fl : gflags) (t : list xgetopt_T)
  : list N -> list N -> list (list N) ->
    list (nat * option (list N)) -> list (list N) -> list (list N) -> gending -> Prop :=
  | cl_invalid : forall a c s l, no_short pc t c ->
      cluster pc fl t a (c :: s) l [] [] (a :: l) (EndError (no_such_option a))
  | cl_flag : forall a c s l i o evs os ops fin,
      selects_short pc t c i o -> optarg o = OPTARG_NONE -> s <> [] ->
      cluster pc fl t a s l evs os ops fin ->
      cluster pc fl t a (c :: s) l ((i, None) :: evs) os ops fin
  | cl_last : forall a c l i o evs os ops fin,
      selects_short pc t c i o -> optarg o = OPTARG_NONE ->
      args pc fl t l evs os ops fin ->
      cluster pc fl t a [c] l ((i, None) :: evs) (a :: os) ops fin
  | cl_attached : forall a c s l i o evs os ops fin,
      selects_short pc t c i o ->
      optarg o = OPTARG_OPTIONAL \/ (optarg o = OPTARG_REQUIRED /\ s <> []) ->
      args pc fl t l evs os ops fin ->
      cluster pc fl t a (c :: s) l ((i, Some s) :: evs) (a :: os) ops fin
  | cl_separate : forall a c b l i o evs os ops fin,
      selects_short pc t c i o -> optarg o = OPTARG_REQUIRED ->
      args pc fl t l evs os ops fin ->
      cluster pc fl t a [c] (b :: l) ((i, Some b) :: evs) (a :: b :: os) ops fin
  | cl_missing : forall a c i o,
      selects_short pc t c i o -> optarg o = OPTARG_REQUIRED ->
      cluster pc fl t a [c] [] [] [] [a] (EndError (option_argument_is_missing true i)).

(** [l] is a merge of [a] and [b] keeping the order of both. *)
Inductive interleaving {A} : list A -> list A -> list A -> Prop :=
  | il_nil : interleaving [] [] []
  | il_left : forall x a b l, interleaving a b l -> interleaving (x :: a) b (x :: l)
  | il_right : forall x a b l, interleaving a b l -> interleaving a (x :: b) (x :: l).

(** What the caller sees of an option with an argument. *)
Definition reported (spec obs : nat * option (list N)) : Prop :=
  fst obs = fst spec /\ match snd spec with Some a => snd obs = Some a | None => True end.
(** What C13 asks for: xoptarg is NULL for an option without argument. *)
Definition reported_exactly (spec obs : nat * option (list N)) : Prop := obs = spec.
