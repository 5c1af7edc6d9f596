(** The umask built-in (path.c). *)
From Coq Require Import Ascii String.
From Coq Require Import List NArith Bool Arith.
From Verif Require Import Common.
Import ListNotations.
Local Open Scope N_scope.
Local Open Scope res_scope.

(** The bits of a file mode. *)
Definition S_IRUSR : N := 256. Definition S_IWUSR : N := 128. Definition S_IXUSR : N := 64.
Definition S_IRGRP : N := 32.  Definition S_IWGRP : N := 16.  Definition S_IXGRP : N := 8.
Definition S_IROTH : N := 4.   Definition S_IWOTH : N := 2.   Definition S_IXOTH : N := 1.
Definition S_IRWXU : N := 448. Definition S_IRWXG : N := 56.  Definition S_IRWXO : N := 7.
Definition S_ISUID : N := 2048. Definition S_ISGID : N := 1024.

(** mode_t is unsigned int; the system keeps only the permission bits of the
    argument of umask(2). *)
Definition mode_not (m : N) : N := N.lnot m 32.
Definition sys_umask (m : N) : N := N.land m 511.

(** [copy_user_mask], [copy_group_mask], [copy_other_mask] (path.c 1887-1906). *)
Definition copy_mask (r w x mode : N) : N :=
  N.lor (N.lor (if N.land mode r =? 0 then 0 else N.lor (N.lor S_IRUSR S_IRGRP) S_IROTH)
               (if N.land mode w =? 0 then 0 else N.lor (N.lor S_IWUSR S_IWGRP) S_IWOTH))
        (if N.land mode x =? 0 then 0 else N.lor (N.lor S_IXUSR S_IXGRP) S_IXOTH).
Definition copy_user_mask : N -> N := copy_mask S_IRUSR S_IWUSR S_IXUSR.
Definition copy_group_mask : N -> N := copy_mask S_IRGRP S_IWGRP S_IXGRP.
Definition copy_other_mask : N -> N := copy_mask S_IROTH S_IWOTH S_IXOTH.

(** The loop for "who" (path.c 1818-1824). *)
Fixpoint parse_who (who : N) (s : list N) : N * list N :=
  match s with
  | c :: s' =>
    if c =? ch "u" then parse_who (N.lor who S_IRWXU) s'
    else if c =? ch "g" then parse_who (N.lor who S_IRWXG) s'
    else if c =? ch "o" then parse_who (N.lor who S_IRWXO) s'
    else if c =? ch "a" then parse_who (N.lor (N.lor S_IRWXU S_IRWXG) S_IRWXO) s'
    else (who, s)
  | [] => (who, s)
  end.
Definition start_who (s : list N) : N * list N :=
  let '(who, s) := parse_who 0 s in
  (if who =? 0 then N.lor (N.lor S_IRWXU S_IRWXG) S_IRWXO else who, s).

(** The loop for "perm" (path.c 1846-1856). *)
Fixpoint parse_letters (orig perm : N) (s : list N) : N * list N :=
  let xs := N.lor (N.lor S_IXUSR S_IXGRP) S_IXOTH in
  match s with
  | c :: s' =>
    if c =? ch "r" then parse_letters orig (N.lor perm (N.lor (N.lor S_IRUSR S_IRGRP) S_IROTH)) s'
    else if c =? ch "w" then parse_letters orig (N.lor perm (N.lor (N.lor S_IWUSR S_IWGRP) S_IWOTH)) s'
    else if c =? ch "X" then
      if N.land orig xs =? 0 then parse_letters orig perm s' else parse_letters orig (N.lor perm xs) s'
    else if c =? ch "x" then parse_letters orig (N.lor perm xs) s'
    else if c =? ch "s" then parse_letters orig (N.lor perm (N.lor S_ISUID S_ISGID)) s'
    else (perm, s)
  | [] => (perm, s)
  end.
(** "perm" (path.c 1840-1859). *)
Definition parse_perm (orig : N) (s : list N) : N * list N :=
  match s with
  | c :: s' =>
    if c =? ch "u" then (copy_user_mask orig, s')
    else if c =? ch "g" then (copy_group_mask orig, s')
    else if c =? ch "o" then (copy_other_mask orig, s')
    else parse_letters orig 0 s
  | [] => (0, [])
  end.

(** The symbolic part of [set_umask] from [op_start] on (path.c 1828-1876);
    [None] stands for [goto err].  The character of the operator is
    converted to char, that is, cut off to 8 bits. *)
Fixpoint op_start (fuel : nat) (orig new who : N) (s : list N) : res (option N) :=
  match fuel with
  | O => Fuel
  | S n =>
    let op := match s with c :: _ => c mod 256 | [] => 0 end in
    if (op =? ch "+") || (op =? ch "-") || (op =? ch "=") then
      let '(perm, s) := parse_perm orig (tl s) in
      let new :=
        if op =? ch "+" then N.lor new (N.land who perm)
        else if op =? ch "-" then N.land new (mode_not (N.land who perm))
        else N.lor (N.land (mode_not who) new) (N.land who perm) in
      match s with
      | [] => Ok (Some new)
      | c :: s' =>
        if c =? ch "," then let '(who, s) := start_who s' in op_start n orig new who s
        else op_start n orig new who s
      end
    else Ok None
  end.

(** wcstoumax with base 8 for a string that begins with a digit: the value
    (without overflow) and the rest. *)
Fixpoint octal (v : N) (s : list N) : N * list N :=
  match s with
  | c :: s' => if (ch "0" <=? c) && (c <=? ch "7") then octal (8 * v + (c - ch "0")) s' else (v, s)
  | [] => (v, s)
  end.

Definition is_digit (c : N) : bool := (ch "0" <=? c) && (c <=? ch "9").

(** [set_umask] (path.c 1790-1885): the new mask and the exit status. *)
Definition set_umask (s : list N) (m : N) : res (N * N) :=
  if match s with c :: _ => is_digit c | [] => false end then
    let '(mask, e) := octal 0 s in
    if (2 ^ 64 <=? mask) || match e with [] => false | _ => true end then Ok (m, 2)
    else Ok (sys_umask (N.land mask (N.lor (N.lor S_IRWXU S_IRWXG) S_IRWXO)), 0)
  else
    let orig := mode_not m in
    let '(who, r) := start_who s in
    let! new := op_start (S (length s)) orig orig who r in
    match new with
    | Some new => Ok (sys_umask (mode_not new), 0)
    | None => Ok (sys_umask (mode_not orig), 2)
    end.

(** printf with %.3jo. *)
Fixpoint octal_digits (fuel : nat) (m : N) : list N :=
  match fuel with
  | O => []
  | S n => (if m <? 8 then [] else octal_digits n (m / 8)) ++ [ch "0" + m mod 8]
  end.
(** [print_umask_octal] (path.c 1757-1760), without the newline. *)
Definition print_umask_octal (m : N) : list N :=
  let d := octal_digits (S (N.to_nat (N.log2 m))) m in
  ch "0" :: repeat (ch "0") (3 - length d) ++ d.
(** [print_umask_symbolic] (path.c 1762-1788), without the newline. *)
Definition print_umask_symbolic (m : N) : list N :=
  let bit b (c : list N) := if N.land m b =? 0 then c else [] in
  str "u=" ++ bit S_IRUSR (str "r") ++ bit S_IWUSR (str "w") ++ bit S_IXUSR (str "x") ++
  str ",g=" ++ bit S_IRGRP (str "r") ++ bit S_IWGRP (str "w") ++ bit S_IXGRP (str "x") ++
  str ",o=" ++ bit S_IROTH (str "r") ++ bit S_IWOTH (str "w") ++ bit S_IXOTH (str "x").
