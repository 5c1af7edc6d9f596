(** What ulimit should do. *)
From Coq Require Import Ascii String.
From Coq Require Import List NArith ZArith Bool Arith.
From Verif Require Import Common Locale NumModel NumProofs UlimitModel.
Import ListNotations.
Local Open Scope Z_scope.

(** The range of [rlim_t] is not empty and the special values are in it. *)
Definition sys_ok (Y : sys) : Prop :=
  0 < rmod Y /\ 0 <= rinf Y < rmod Y /\ 0 <= rsmax Y < rmod Y /\ 0 <= rscur Y < rmod Y.
(** A system without unrepresentable limits whose [rlim_t] is not wider than unsigned long
    and has infinity as its largest value *)
Definition sys_plain (Y : sys) : Prop := rsmax Y = rinf Y /\ rscur Y = rinf Y /\ rinf Y = rmod Y - 1 /\ rmod Y <= ULONG_MOD.
Definition special (Y : sys) (v : Z) : Prop := v = rinf Y \/ v = rsmax Y \/ v = rscur Y.
(** Limits are ordered with infinity at the top. *)
Definition lim_le (Y : sys) (a b : Z) : Prop := b = rinf Y \/ (a <> rinf Y /\ a <= b).
(** A soft limit that is known to exceed the hard one *)
Definition over (Y : sys) (soft hard : Z) : Prop :=
  ~ special Y hard /\ (soft = rinf Y \/ (~ special Y soft /\ hard < soft)).
(** The last of some options among the options given *)
Definition last_of (p : N -> bool) (os : list N) : option N := find p (rev os).
Definition is_type (c : N) : bool := (c =? ch "H")%N || (c =? ch "S")%N.
(** The letters of the manual *)
Definition letters : list N := str "cdefilmnqrstuvx".
Definition is_resource (c : N) : bool := existsb (N.eqb c) letters.
Definition sets_hard (os : list N) : bool := match last_of is_type os with Some c => (c =? ch "H")%N | None => true end.
Definition sets_soft (os : list N) : bool := match last_of is_type os with Some c => (c =? ch "S")%N | None => true end.
Definition resource (os : list N) : N := match last_of is_resource os with Some c => c | None => ch "f" end.
(** The units of the manual: blocks of 512 bytes, kilobytes or single ones *)
Definition unit_of (c : N) : Z :=
  if existsb (N.eqb c) (str "cf") then 512 else if existsb (N.eqb c) (str "dlmsv") then 1024 else 1.
(** Options for setting or printing one limit *)
Definition plain_options (os : list N) : Prop := Forall (fun c => is_type c = true \/ is_resource c = true) os.
(** What the kernel permits to every process: not to raise the hard limit *)
Definition kernel_ok (Y : sys) (allowed : N -> Z * Z -> Z * Z -> bool) : Prop :=
  forall r o n, lim_le Y (snd n) (snd o) -> lim_le Y (fst n) (snd n) -> allowed r o n = true.
Definition limits_ok (Y : sys) (st : limits) : Prop :=
  forall r a b, st r = Some (a, b) -> 0 <= a < rmod Y /\ 0 <= b < rmod Y /\ lim_le Y a b.
