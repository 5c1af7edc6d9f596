(** Field splitting and the "read" built-in as POSIX and the manual define them,
    without positions, loops or flags. *)
From Coq Require Import Ascii String.
From Coq Require Import List NArith Bool.
From Verif Require Import Common Locale CharcatModel.
Import ListNotations.

(** The separators: space, tab and newline when IFS is unset. *)
Definition ifs_of (v : option (list N)) : list N :=
  match v with Some s => s | None => [32; 9; 10]%N end.

(** ** Characters *)
Section Classes.
Variable L : locale.
Variable ifs : list N.

(** A separator: an unquoted character from an expansion that is in IFS. *)
Definition separator (x : cell) : Prop :=
  org (snd x) = Soft /\ quoted (snd x) = false /\ quotation (snd x) = false /\ In (fst x) ifs.
(** IFS white space *)
Definition white (x : cell) : Prop := separator x /\ iswspace L (fst x) = true.
(** a separator that is not white space *)
Definition delim (x : cell) : Prop := separator x /\ iswspace L (fst x) = false.
(** any other character *)
Definition plain (x : cell) : Prop := ~ separator x.

Definition starts_with (p : cell -> Prop) (t : list cell) : Prop :=
  match t with [] => False | x :: _ => p x end.

(** ** Fields *)

(** [peel t f r]: the first field of [t] is [f], followed by something that
    delimits it and then [r].  Either one non-white separator with all the white
    space around it delimits, or white space alone between two non-empty
    stretches of other characters. *)
Inductive peel : list cell -> list cell -> list cell -> Prop :=
| peel_delim f w1 d w2 r :
    Forall plain f -> Forall white w1 -> delim d -> Forall white w2 -> ~ starts_with white r ->
    peel (f ++ w1 ++ d :: w2 ++ r) f r
| peel_white f w r :
    Forall plain f -> f <> [] -> Forall white w -> w <> [] -> starts_with plain r ->
    peel (f ++ w ++ r) f r.

(** All the fields of a string that does not start with white space.  A
    delimiter at the end leaves an empty field after it. *)
Inductive splits : list cell -> list (list cell) -> Prop :=
| splits_last f w : Forall plain f -> Forall white w -> splits (f ++ w) [f]
| splits_more t f r fs : peel t f r -> splits r fs -> splits t (f :: fs).

(** The empty field after a delimiter at the end counts only when the option
    empty-last-field is on; a string of white space has no field at all. *)
Inductive final_fields (emptylastfield : bool) : list (list cell) -> list (list cell) -> Prop :=
| ff_only : final_fields emptylastfield [[]] []
| ff_drop fs : fs <> [] -> emptylastfield = false -> final_fields emptylastfield (fs ++ [[]]) fs
| ff_keep fs f : f <> [] -> final_fields emptylastfield (fs ++ [f]) (fs ++ [f])
| ff_empty fs : fs <> [] -> emptylastfield = true -> final_fields emptylastfield (fs ++ [[]]) (fs ++ [[]]).

(** The fields of any string: white space at the start is ignored. *)
Definition posix_fields (emptylastfield : bool) (s : list cell) (fs : list (list cell)) : Prop :=
  exists w r fs0, s = w ++ r /\ Forall white w /\ ~ starts_with white r /\
    splits r fs0 /\ final_fields emptylastfield fs0 fs.

(** What is left of [t] after its first [n] fields. *)
Inductive peels : nat -> list cell -> list (list cell) -> list cell -> Prop :=
| peels_0 t : peels 0 t [] t
| peels_S n t f r fs rest : peel t f r -> peels n r fs rest -> peels (S n) t (f :: fs) rest.
End Classes.

(** ** The input of "read" *)

(** [logical raw input line rest nl]: reading [input] gives the characters [line]
    and leaves [rest]; [nl] tells if a newline ended the line.  Unless in raw
    mode, a backslash quotes the next character and a backslash and a newline
    vanish. *)
Inductive logical : bool -> list N -> list cell -> list N -> bool -> Prop :=
| lg_end raw : logical raw [] [] [] false
| lg_newline raw r : logical raw (10%N :: r) [] r true
| lg_char raw c r line rest nl :
    c <> 10%N -> (c = ch "\" -> raw = true) ->
    logical raw r line rest nl -> logical raw (c :: r) ((c, mkCat Soft false false) :: line) rest nl
| lg_continue r line rest nl :
    logical false r line rest nl -> logical false (ch "\" :: 10%N :: r) line rest nl
| lg_quoted c r line rest nl :
    c <> 10%N -> logical false r line rest nl ->
    logical false (ch "\" :: c :: r) ((c, mkCat Soft true false) :: line) rest nl
| lg_trailing : logical false [ch "\"] [] [] false.

(** ** The assignments of "read"

    The fields beyond the last variable belong to that variable: either the rest
    of the line without trailing white space, or (for an array) one element per
    field. *)
Section Read.
Variable L : locale.
Variable ifs : list N.
Variable emptylastfield : bool.

(** [last_scalar n line v]: with [n] variables before it, the last one gets [v]. *)
Inductive last_scalar (n : nat) (line : list cell) : list N -> Prop :=
| ls_none fs : posix_fields L ifs emptylastfield line fs -> length fs <= n -> last_scalar n line []
| ls_one fs f : posix_fields L ifs emptylastfield line fs -> length fs = S n -> nth_error fs n = Some f ->
    last_scalar n line (text f)
| ls_rest fs w t firsts v w' :
    posix_fields L ifs emptylastfield line fs -> S n < length fs ->
    line = w ++ t -> Forall (white L ifs) w -> ~ starts_with (white L ifs) t ->
    peels L ifs n t firsts (v ++ w') -> Forall (white L ifs) w' ->
    ~ starts_with (white L ifs) (rev v) ->
    last_scalar n line (text v).

Definition last_array (n : nat) (line : list cell) (vs : list (list N)) : Prop :=
  exists fs, posix_fields L ifs emptylastfield line fs /\
    (skipn n fs = [[]] /\ vs = [] \/ skipn n fs <> [[]] /\ vs = map text (skipn n fs)).
End Read.
