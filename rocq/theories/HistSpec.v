(** What the command history is expected to do.  Of the model, only the list of
    entries is used here. *)
From Coq Require Import List NArith ZArith Bool Arith Sorted.
From Verif Require Import Common HistModel.
Import ListNotations.
Local Open Scope N_scope.

(** The numbers along the list increase, and start again from the bottom at most once:
    turned around at that place, the list is increasing. *)
Definition ordered (l : list entry) : Prop :=
  exists a b, l = a ++ b /\ StronglySorted N.lt (map e_num (b ++ a)).

(** A history list of at most [size] entries with numbers up to [max] *)
Definition well_formed (size max : N) (l : list entry) : Prop :=
  N.of_nat (length l) <= size /\ Forall (fun e => 1 <= e_num e <= max) l /\ ordered l.

(** What a number means when the numbers have started again from 1: those up to the
    number of the newest entry continue after [max]. *)
Definition first_num (l : list entry) : N := hd 0 (map e_num l).
Definition last_num (l : list entry) : N := last (map e_num l) 0.
Definition key (max : N) (l : list entry) (n : N) : N :=
  if (last_num l <? first_num l) && (n <=? last_num l) then n + max else n.

(** The number lies where the numbers start again: after all the entries before that
    place, or before all the entries after it.  This is possible only if the numbers
    have started again. *)
Definition at_the_seam (max : N) (l : list entry) (n : N) : Prop :=
  last_num l < first_num l /\
  ((n <= last_num l /\ forall e, In e l -> e_num e <= last_num l -> n < e_num e) \/
   (first_num l <= n <= last_num l + max /\ forall e, In e l -> first_num l <= e_num e -> e_num e < n)).

(** What an operand of fc means: a place in the continued numbering.  [n] entries from
    the end; with too large an [n], a place before the oldest entry. *)
Definition has_prefix (p s : list N) : Prop := exists r, s = p ++ r.
Inductive means (max : N) (l : list entry) : operand -> N -> Prop :=
  | means_number z : (0 < z)%Z -> ~ at_the_seam max l (Z.to_N z) -> means max l (ONum z) (key max l (Z.to_N z))
  | means_last z l1 e l2 : (INT_MIN < z < 0)%Z -> l = l1 ++ e :: l2 -> Z.of_nat (length (e :: l2)) = (- z)%Z ->
      means max l (ONum z) (key max l (e_num e))
  | means_all z : (INT_MIN < z < 0)%Z -> (Z.of_nat (length l) < - z)%Z -> means max l (ONum z) 0
  | means_prefix p l1 e l2 : l = l1 ++ e :: l2 -> has_prefix p (e_val e) ->
      (forall e', In e' l2 -> ~ has_prefix p (e_val e')) -> means max l (OPre p) (key max l (e_num e)).

(** The entries between two places, in the order asked for.  A place before the
    oldest entry is the oldest entry, one after the newest is the newest. *)
Definition clamp (max : N) (l : list entry) (k : N) : N :=
  N.max (first_num l) (N.min (key max l (last_num l)) k).
Definition between (max : N) (l : list entry) (k1 k2 : N) : list entry :=
  let k1 := clamp max l k1 in
  let k2 := clamp max l k2 in
  filter (fun e => let k := key max l (e_num e) in (N.min k1 k2 <=? k) && (k <=? N.max k1 k2)) l.
Definition selection (max : N) (rev : bool) (l : list entry) (k1 k2 : N) : list entry :=
  if xorb rev (k2 <? k1) then List.rev (between max l k1 k2) else between max l k1 k2.

(** No entry is properly between the two places, and both are places where an entry is
    missing, or one of them is and the first place comes before the second *)
Definition missing (max : N) (l : list entry) (k : N) : Prop :=
  first_num l < k < key max l (last_num l) /\ forall e, In e l -> key max l (e_num e) <> k.
Definition touching (max : N) (l : list entry) (k1 k2 : N) : Prop :=
  (forall e, In e l -> ~ (k1 < key max l (e_num e) < k2) /\ ~ (k2 < key max l (e_num e) < k1)) /\
  (missing max l k1 /\ missing max l k2 \/ k1 < k2 /\ (missing max l k1 \/ missing max l k2)).

(** The lines of a text *)
Fixpoint lines_of (s : list N) : list (list N) :=
  match s with
  | [] => [[]]
  | c :: s' =>
      if c =? 10 then [] :: lines_of s'
      else match lines_of s' with x :: xs => (c :: x) :: xs | [] => [[c]] end
  end.

(** [r] is [l] without some entries *)
Inductive without {A} : list A -> list A -> Prop :=
  | wo_nil : without [] []
  | wo_keep x r l : without r l -> without (x :: r) (x :: l)
  | wo_drop x r l : without r l -> without r (x :: l).
