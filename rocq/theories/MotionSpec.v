(** What words are, and where motions should lead. *)
From Coq Require Import Ascii String.
From Coq Require Import List NArith ZArith Bool Arith.
From Verif Require Import Common MotionModel.
Import ListNotations.
Local Open Scope nat_scope.

(** What the C standard says of the classes: the terminator is in none of them, and blanks
    are not alphanumeric. *)
Record w_ok (W : wclass) : Prop := {
  w_blank0 : blank W 0 = false;
  w_alnum0 : alnum W 0 = false;
  w_punct0 : punct W 0 = false;
  w_under : blank W (ch "_") = false;
  w_excl : forall c, blank W c = true -> alnum W c = false }.

(** The kind of a character: 0 if it belongs to no word; adjacent characters of the same
    kind belong to the same word. *)
Definition kind_big (W : wclass) (c : N) : nat := if blank W c then 0 else 1.
Definition kind_semi (W : wclass) (c : N) : nat := if blank W c || punct W c then 0 else 1.
Definition kind_vi (W : wclass) (c : N) : nat := if blank W c then 0 else if (c =? ch "_")%N || alnum W c then 1 else 2.
Definition kind_emacs (W : wclass) (c : N) : nat := if alnum W c then 1 else 0.
Definition kind_of (W : wclass) (k : wkind) : N -> nat :=
  match k with Big => kind_big W | Semi => kind_semi W | Viw => kind_vi W end.

Definition word_start (K : N -> nat) (s : list N) (i : nat) : Prop :=
  exists c, nth_error s i = Some c /\ K c <> 0
    /\ forall j d, i = S j -> nth_error s j = Some d -> K d <> K c.
Definition word_end (K : N -> nat) (s : list N) (i : nat) : Prop :=
  exists c, nth_error s i = Some c /\ K c <> 0
    /\ forall d, nth_error s (S i) = Some d -> K d <> K c.

(** [j] is the first index after [i] that has [P]; without any, it is [dflt]. *)
Definition first_after (P : nat -> Prop) (i dflt j : nat) : Prop :=
  (i < j /\ P j /\ forall k, i < k -> k < j -> ~ P k) \/ ((forall k, i < k -> ~ P k) /\ j = dflt).
(** [j] is the last index before [i] that has [P]; without any, it is 0. *)
Definition last_before (P : nat -> Prop) (i j : nat) : Prop :=
  (j < i /\ P j /\ forall k, j < k -> k < i -> ~ P k) \/ ((forall k, k < i -> ~ P k) /\ j = 0).
(** How many times [c] is in a text *)
Definition occurrences (c : N) (l : list N) : nat := length (filter (N.eqb c) l).
