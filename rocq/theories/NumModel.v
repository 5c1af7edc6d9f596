(** Number parsing (wcstol as specified by C11 7.29.4.1.2, and util.c's checked
    wrapper) and decimal printing (%ld). *)
From Coq Require Import List NArith ZArith Bool Lia.
From Verif Require Import Common Locale.
Import ListNotations.
Local Open Scope Z_scope.

(** [long] is 64 bits wide (LP64). *)
Definition LONG_MAX : Z := 9223372036854775807.
Definition LONG_MIN : Z := -9223372036854775808.
Definition ULONG_MOD : Z := 18446744073709551616.
Definition in_long (z : Z) : bool := (LONG_MIN <=? z) && (z <=? LONG_MAX).
Definition is_long (z : Z) : Prop := LONG_MIN <= z <= LONG_MAX.

(** Value of an alphanumeric digit, or 99. *)
Definition digitval (c : N) : Z :=
  if ((48 <=? c) && (c <=? 57))%N then Z.of_N c - 48
  else if ((97 <=? c) && (c <=? 122))%N then Z.of_N c - 87
  else if ((65 <=? c) && (c <=? 90))%N then Z.of_N c - 55
  else 99.

(** The longest run of digits of the base: value, rest, whether any digit. *)
Fixpoint scan_digits (base : Z) (acc : Z) (any : bool) (s : list N) : Z * list N * bool :=
  match s with
  | [] => (acc, [], any)
  | c :: s' =>
      if digitval c <? base then scan_digits base (acc * base + digitval c) true s'
      else (acc, s, any)
  end.

Fixpoint skip_space (L : locale) (s : list N) : list N :=
  match s with
  | c :: s' => if iswspace L c then skip_space L s' else s
  | [] => []
  end.

(** Base prefix handling: effective base and the subject after the prefix.
    "0x" counts as a prefix only when a hexadecimal digit follows. *)
Definition base_prefix (base : Z) (s : list N) : Z * list N :=
  match s with
  | 48%N :: x :: d :: s' =>
      if ((x =? 120) || (x =? 88))%N && (digitval d <? 16) && ((base =? 0) || (base =? 16))
      then (16, d :: s')
      else (if base =? 0 then 8 else base, s)
  | 48%N :: _ => (if base =? 0 then 8 else base, s)
  | _ => (if base =? 0 then 10 else base, s)
  end.

(** wcstol: exact value before range check (None = no conversion) and the rest
    of the string. *)
Definition wcstol (L : locale) (base : Z) (s : list N) : option Z * list N :=
  let s1 := skip_space L s in
  let '(neg, s2) :=
    match s1 with
    | 45%N :: s' => (true, s')
    | 43%N :: s' => (false, s')
    | _ => (false, s1)
    end in
  let '(b, s3) := base_prefix base s2 in
  match scan_digits b 0 false s3 with
  | (v, rest, true) => (Some (if neg then - v else v), rest)
  | (_, _, false) => (None, s)
  end.

(** util.c:154-170 [xwcstol] *)
Definition xwcstol (L : locale) (base : Z) (s : list N) : option Z :=
  match s with
  | [] => None
  | _ =>
      match wcstol L base s with
      | (Some v, []) => if in_long v then Some v else None
      | _ => None
      end
  end.

(** util.c:140-151 [xwcstoi] *)
Definition INT_MAX : Z := 2147483647.
Definition INT_MIN : Z := -2147483648.
Definition xwcstoi (L : locale) (base : Z) (s : list N) : option Z :=
  match xwcstol L base s with
  | Some v => if (v <? INT_MIN) || (INT_MAX <? v) then None else Some v
  | None => None
  end.

(** printf's %ld / %lu: decimal digits, most significant first, no leading
    zeros.  The fuel (number of digits) is the value's bit length. *)
Fixpoint dec_digits (fuel : nat) (n : N) (acc : list N) : list N :=
  match fuel with
  | O => acc
  | S f =>
      let acc' := (48 + n mod 10)%N :: acc in
      if (n / 10 =? 0)%N then acc' else dec_digits f (n / 10)%N acc'
  end.
Definition dec_of_N (n : N) : list N := dec_digits (S (N.to_nat (N.log2 n))) n [].
Definition dec_of_Z (z : Z) : list N :=
  if z <? 0 then 45%N :: dec_of_N (Z.to_N (- z)) else dec_of_N (Z.to_N z).
