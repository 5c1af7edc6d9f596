(** Motion commands of line editing (lineedit/editing.c): which index they lead to. *)
From Coq Require Import Ascii String.
From Coq Require Import List NArith ZArith Bool Arith.
From Verif Require Import Common.
Import ListNotations.
Local Open Scope nat_scope.

(** [iswblank], [iswpunct] and [iswalnum] *)
Record wclass := mkW { blank : N -> bool; punct : N -> bool; alnum : N -> bool }.
(** [s[i]]; the terminator follows the line *)
Definition at_ (s : list N) (i : nat) : N := nth i s 0%N.

(** A loop that increments [i] while [p s[i]]; it stops at the terminator, for which the
    code tests or which belongs to no class *)
Fixpoint run (p : N -> bool) (l : list N) : nat :=
  match l with [] => 0 | c :: l => if p c then S (run p l) else 0 end.
Definition fwd (p : N -> bool) (s : list N) (i : nat) : nat := i + run p (skipn i s).
(** A loop that decrements [i] while [i > 0 && p s[i]] *)
Fixpoint back (p : N -> bool) (s : list N) (i : nat) : nat :=
  match i with O => O | S j => if p (at_ s i) then back p s j else i end.

(** The characters of a bigword and of a semiword, the alphanumeric ones of a viword *)
Definition bigchar (W : wclass) (c : N) : bool := negb (blank W c).
Definition semichar (W : wclass) (c : N) : bool := negb (blank W c) && negb (punct W c).
Definition vichar (W : wclass) (c : N) : bool := (c =? ch "_")%N || alnum W c.
Definition viother (W : wclass) (c : N) : bool := negb (c =? ch "_")%N && negb (blank W c) && negb (alnum W c).
Definition notp (p : N -> bool) (c : N) : bool := negb (p c).

(** [next_bigword_index] (lineedit/editing.c 1233-1240) *)
Definition next_bigword (W : wclass) (s : list N) (i : nat) : nat :=
  let i := fwd (bigchar W) s i in fwd (notp (bigchar W)) s i.
(** [next_end_of_bigword_index] (lineedit/editing.c 1246-1263), [w] the characters of words;
    a second round is enough, so that the fuel is two *)
Fixpoint end_loop (w : N -> bool) (progress : bool) (init : nat) (s : list N) (fuel i : nat) : nat :=
  match fuel with
  | O => i
  | S fuel =>
      if (length s <=? i) then i
      else
        let i := fwd (notp w) s i in
        let i := fwd w s i in
        let i := i - 1 in
        if (init <? i) || negb progress then i else end_loop w progress init s fuel (S i)
  end.
Definition next_end_bigword (W : wclass) (s : list N) (i : nat) (progress : bool) : nat :=
  end_loop (bigchar W) progress i s 3 i.
(** [previous_bigword_index] (lineedit/editing.c 1267-1284), likewise *)
Fixpoint prev_loop (w : N -> bool) (init : nat) (s : list N) (fuel i : nat) : nat :=
  match fuel with
  | O => i
  | S fuel =>
      let i := back (notp w) s i in
      let i := back w s i in
      if i =? 0 then 0 else if S i <? init then S i else prev_loop w init s fuel i
  end.
Definition prev_bigword (W : wclass) (s : list N) (i : nat) : nat := prev_loop (bigchar W) i s 3 i.
(** [next_semiword_index], [next_end_of_semiword_index], [previous_semiword_index]
    (lineedit/editing.c 1366-1417) *)
Definition next_semiword (W : wclass) (s : list N) (i : nat) : nat :=
  let i := fwd (semichar W) s i in fwd (notp (semichar W)) s i.
Definition next_end_semiword (W : wclass) (s : list N) (i : nat) (progress : bool) : nat :=
  end_loop (semichar W) progress i s 3 i.
Definition prev_semiword (W : wclass) (s : list N) (i : nat) : nat := prev_loop (semichar W) i s 3 i.
(** [next_emacsword_index], [previous_emacsword_index] (lineedit/editing.c 1644-1673) *)
Definition next_emacsword (W : wclass) (s : list N) (i : nat) : nat :=
  let i := fwd (notp (alnum W)) s i in fwd (alnum W) s i.
Definition prev_emacsword (W : wclass) (s : list N) (i : nat) : nat := prev_loop (alnum W) i s 3 i.

(** [next_viword_index] (lineedit/editing.c 1507-1530); the loop for other characters gives
    whether the function returns *)
Fixpoint vi_other (W : wclass) (l : list N) (i : nat) : nat * bool :=
  match l with
  | [] => (i, true)
  | c :: l =>
      if blank W c then (i, false)
      else match l with d :: _ => if vichar W d then (S i, true) else vi_other W l (S i) | [] => (S i, true) end
  end.
Definition next_viword (W : wclass) (s : list N) (i : nat) : nat :=
  let '(i, ret) :=
    if vichar W (at_ s i) then let i := fwd (vichar W) s (S i) in (i, negb (blank W (at_ s i)))
    else vi_other W (skipn i s) i in
  if ret then i else fwd (blank W) s (S i).
(** [next_end_of_viword_index] (lineedit/editing.c 1539-1564) *)
Fixpoint vi_end_loop (W : wclass) (progress : bool) (init : nat) (s : list N) (fuel i : nat) : nat :=
  match fuel with
  | O => i
  | S fuel =>
      let i := fwd (blank W) s i in
      if (length s <=? i) then i
      else
        let i := if vichar W (at_ s i) then fwd (vichar W) s (S i) else fwd (viother W) s (S i) in
        let i := i - 1 in
        if (init <? i) || negb progress then i else vi_end_loop W progress init s fuel (S i)
  end.
Definition next_end_viword (W : wclass) (s : list N) (i : nat) (progress : bool) : nat :=
  vi_end_loop W progress i s 3 i.
(** [previous_viword_index] (lineedit/editing.c 1568-1595); [vi_back] is a [do] loop, None if
    the function returns 0 *)
Fixpoint vi_back (p : N -> bool) (s : list N) (i : nat) : option nat :=
  match i with O => None | S j => if p (at_ s j) then vi_back p s j else Some j end.
Fixpoint vi_prev_loop (W : wclass) (init : nat) (s : list N) (fuel i : nat) : nat :=
  match fuel with
  | O => i
  | S fuel =>
      let i := back (blank W) s i in
      match vi_back (if vichar W (at_ s i) then vichar W else viother W) s i with
      | None => 0
      | Some i => if S i <? init then S i else vi_prev_loop W init s fuel i
      end
  end.
Definition prev_viword (W : wclass) (s : list N) (i : nat) : nat := vi_prev_loop W i s 3 i.

(** [move_cursor_forward_bigword] and the like (lineedit/editing.c 1194-1229, 1327-1362,
    1460-1481, 1492-1501, 1621-1638): [n] times, but not beyond the line *)
Fixpoint forward_n (next : list N -> nat -> nat) (s : list N) (n i : nat) : nat :=
  match n with O => i | S n => if i <? length s then forward_n next s n (next s i) else i end.
Fixpoint backward_n (prev : list N -> nat -> nat) (s : list N) (n i : nat) : nat :=
  match n with O => i | S n => if 0 <? i then backward_n prev s n (prev s i) else i end.
(** The second part of [move_cursor_forward_bigword] (lineedit/editing.c 1194-1215) *)
Definition cw_n (next : list N -> nat -> nat) (endx : list N -> nat -> bool -> nat) (s : list N) (n i : nat) : nat :=
  let j := forward_n next s (n - 1) i in
  if (0 <? n) && (j <? length s) then endx s j false else j.
(** [cmd_end_of_bigword] and the like (lineedit/editing.c 1168-1179, 1301-1312, 1434-1445) *)
Definition end_n (endx : list N -> nat -> bool -> nat) (s : list N) (n i : nat) : nat :=
  forward_n (fun s i => endx s i true) s n i.

(** [alert_if_last] (lineedit/editing.c 1075-1090); [vicmd]: in the vi command mode,
    [pending]: a command waits for the motion *)
Definition at_last (vicmd pending : bool) (s : list N) (i : nat) : bool :=
  if vicmd then if pending then false else length s - 1 <=? i else length s <=? i.

(** The motion commands *)
Inductive wkind := Big | Semi | Viw.
Inductive motion :=
| MChar | MCharBack | MWord (k : wkind) | MWordBack (k : wkind) | MEnd (k : wkind)
| MEmacs | MEmacsBack | MBol | MEol | MColumn | MNonblank | MFind (c : N) | MFindRev (c : N) | MTill (c : N) | MTillRev (c : N).
Definition next_of (W : wclass) (k : wkind) := match k with Big => next_bigword W | Semi => next_semiword W | Viw => next_viword W end.
Definition prev_of (W : wclass) (k : wkind) := match k with Big => prev_bigword W | Semi => prev_semiword W | Viw => prev_viword W end.
Definition end_of (W : wclass) (k : wkind) := match k with Big => next_end_bigword W | Semi => next_end_semiword W | Viw => next_end_viword W end.
(** [move_cursor_forward_char], [move_cursor_backward_char] (lineedit/editing.c 1115-1151) *)
Definition char_fwd (s : list N) (n i : nat) : nat := if length s - i <? n then length s else i + n.
Definition char_back (n i : nat) : nat := if i <=? n then 0 else i - n.
(** [find_nth_occurence] (lineedit/editing.c 1824-1848): forward over what follows the
    cursor, backward over what precedes it (nearest first) *)
Fixpoint find_fwd (c : N) (n : nat) (l : list N) (i : nat) : option nat :=
  match n with
  | O => Some i
  | S n' => match l with [] => None | d :: l => if (d =? c)%N then find_fwd c n' l (S i) else find_fwd c n l (S i) end
  end.
Fixpoint find_back (c : N) (s : list N) (n i : nat) : option nat :=
  match n with
  | O => Some i
  | S n' => match i with O => None | S j => if (at_ s j =? c)%N then find_back c s n' j else find_back c s n j end
  end.
Definition find_nth (c : N) (n : Z) (s : list N) (i : nat) : option nat :=
  if (n =? 0)%Z then Some i
  else if (c =? 0)%N then None
  else if (0 <=? n)%Z then find_fwd c (Z.to_nat n) (skipn (S i) s) i else find_back c s (Z.to_nat (- n)) i.
(** [exec_find] (lineedit/editing.c 1795-1820) *)
Definition exec_find (c : N) (n : Z) (till : bool) (s : list N) (i : nat) : option nat :=
  match find_nth c n s i with
  | None => None
  | Some j =>
      if till then
        if i <=? j then if j =? 0 then None else Some (j - 1)
        else if j =? length s then None else Some (S j)
      else Some j
  end.
(** [cmd_go_to_column] (lineedit/editing.c 1693-1717) *)
Definition column (n : Z) (s : list N) : nat :=
  if (0 <=? n)%Z then Nat.min (Z.to_nat n - 1) (length s)
  else if (Z.of_nat (length s) <? - n)%Z then 0 else length s - Z.to_nat (- n).
(** The index that a command leads to; None if it alerts (lineedit/editing.c 1094-1844).
    [count]: the count if it is set; [cw]: see [need_cw_treatment] (1484-1488). *)
Definition move (W : wclass) (vicmd pending cw : bool) (count : option Z) (m : motion) (s : list N) (i : nat) : option nat :=
  let n := match count with Some n => n | None => 1%Z end in
  let forward f b :=
    if (0 <=? n)%Z then if at_last vicmd pending s i then None else Some (f (Z.to_nat n))
    else if i =? 0 then None else Some (b (Z.to_nat (- n))) in
  let backward f b :=
    if (0 <=? n)%Z then if i =? 0 then None else Some (b (Z.to_nat n))
    else if at_last vicmd pending s i then None else Some (f (Z.to_nat (- n))) in
  let wf k n := if cw && negb (blank W (at_ s i)) then cw_n (next_of W k) (end_of W k) s n i else forward_n (next_of W k) s n i in
  let wb k n := backward_n (prev_of W k) s n i in
  let ef n := forward_n (next_emacsword W) s n i in
  let eb n := backward_n (prev_emacsword W) s n i in
  match m with
  | MChar => forward (fun n => char_fwd s n i) (fun n => char_back n i)
  | MCharBack => backward (fun n => char_fwd s n i) (fun n => char_back n i)
  | MWord k => forward (wf k) (wb k)
  | MWordBack k => backward (wf k) (wb k)
  | MEnd k => if at_last vicmd pending s i then None else Some (end_n (end_of W k) s (Z.to_nat n) i)
  | MEmacs => Some (if (0 <=? n)%Z then ef (Z.to_nat n) else eb (Z.to_nat (- n)))
  | MEmacsBack => Some (if (0 <=? n)%Z then eb (Z.to_nat n) else ef (Z.to_nat (- n)))
  | MBol => Some 0
  | MEol => Some (length s)
  | MColumn => Some (column (match count with Some n => n | None => 0%Z end) s)
  | MNonblank => Some (fwd (blank W) s 0)
  | MFind c => exec_find c n false s i
  | MFindRev c => exec_find c (- n) false s i
  | MTill c => exec_find c n true s i
  | MTillRev c => exec_find c (- n) true s i
  end.
