(** What the growable containers are for: a container holds a finite sequence. *)
From Coq Require Import List NArith Bool.
From Verif Require Import Common BufModel.
Import ListNotations.
Local Open Scope N_scope.

(** The container [b] holds the sequence [l]: its array consists of exactly
    capacity+1 cells, of which the first ones are the elements of [l], followed by
    the terminating null; the rest is unspecified.  The array is no larger than an
    object can be. *)
Definition holds {A} (nul : A) (esz : N) (b : buf A) (l : list A) : Prop :=
  blen b = lenN l /\
  lenN (contents b) = bmax b + 1 /\
  (exists t, contents b = map Some l ++ Some nul :: t) /\
  (bmax b + 1) * esz < SIZE_MOD.

(** The memory of a null-terminated array whose elements before the first null are
    [l]. *)
Definition is_array {A} (isnul : A -> bool) (c : list (option A)) (l : list A) : Prop :=
  (exists z t, c = map Some l ++ Some z :: t /\ isnul z = true) /\
  Forall (fun x => isnul x = false) l.

(** Remove [n] elements from position [i] on and put [a] there instead. *)
Definition splice {A} (l : list A) (i n : N) (a : list A) : list A :=
  firstn (N.to_nat i) l ++ a ++ skipn (N.to_nat i + N.to_nat n) l.

(** The shell may abort for want of memory only when a container that cannot hold
    [need] elements has to grow, and what it asks for is refused or is more bytes
    than size_t can express.  It never asks for more than half as much again as it
    has, plus a constant. *)
Definition oom (esz step : N) (alloc : N -> bool) (have need : N) : Prop :=
  have < need /\
  exists k, need <= k /\ k <= N.max need (have + have / 2 + step) /\
    (SIZE_MOD <= (k + 1) * esz \/ alloc ((k + 1) * esz) = false).

(** Outcome of an operation on container [b] that should lead to sequence [l]. *)
Definition becomes {A} (nul : A) (esz step : N) (alloc : N -> bool) (b : buf A) (l : list A)
  (r : res (option (buf A))) : Prop :=
  match r with
  | Ok (Some b') => holds nul esz b' l /\ bmax b <= bmax b'
  | Ok None => oom esz step alloc (bmax b) (lenN l)
  | UB | Fuel => False
  end.
