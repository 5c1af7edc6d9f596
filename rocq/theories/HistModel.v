(** The command history (history.c): the list of entries, their numbers, searches
    and the ranges of the fc built-in.

    Not modelled: the history file and its locks (the lines that are read from the
    file are operations here), process IDs, the editor and the execution of entries,
    the printing of numbers and times.  Values are wide strings here; the code keeps
    multibyte strings and ignores lines that it cannot convert. *)
From Coq Require Import Ascii String.
From Coq Require Import List NArith ZArith Bool Arith.
From Verif Require Import Common.
Import ListNotations.
Local Open Scope N_scope.

(** [histentry_T] (history.h 35-40) *)
Record entry := mkEntry { e_num : N; e_time : Z; e_val : list N }.
(** The list [histlist] (history.c 84-92) from the oldest entry to the newest; its
    length is [histlist.count] and an entry is named by its index.  None stands for
    [Histlist]. *)
Definition hist := list entry.
Definition count (l : hist) : N := N.of_nat (length l).
Definition oldest (l : hist) : N := match l with e :: _ => e_num e | [] => 0 end.
Definition newest (l : hist) : N := oldest (rev l).

(** [set_histsize] (history.c 192-205): the size and [max_number]; the loop
    multiplies by 10 at most twice since the size is at most 1000000 *)
Definition hist_params (newsize : N) : N * N :=
  let s := if 1000000 <? newsize then 1000000 else newsize in
  let s := if s =? 0 then 1 else s in
  (s, if 100000 <? 2 * s then if 1000000 <? 2 * s then 10000000 else 1000000 else 100000).

Section Hist.
(** [histsize], [max_number] and [histrmdup] (history.c 97-103) *)
Variable histsize max_number : N.
Variable histrmdup : nat.
(** iswgraph *)
Variable graph : N -> bool.

(** [need_remove_entry] (history.c 234-247) *)
Definition need_remove (l : hist) (number : N) : bool :=
  match l with
  | [] => false
  | _ :: _ =>
      if histsize <=? count l then true
      else if oldest l <=? newest l then (oldest l <=? number) && (number <=? newest l)
      else (oldest l <=? number) || (number <=? newest l)
  end.
(** The loop in [new_entry] (history.c 210-217) *)
Fixpoint evict (number : N) (l : hist) : hist :=
  match l with
  | [] => []
  | _ :: l' => if need_remove l number then evict number l' else l
  end.
(** [new_entry] (history.c 210-232); None if an assertion fails *)
Definition new_entry (number : N) (time : Z) (line : list N) (l : hist) : option hist :=
  if (0 <? number) && (number <=? max_number) then
    let l' := evict number l ++ [mkEntry number time line] in
    if count l' <=? histsize then Some l' else None
  else None.

(** [remove_entry] (history.c 250-258) *)
Definition remove_at (i : nat) (l : hist) : hist := firstn i l ++ skipn (S i) l.
(** [remove_last_entry] (history.c 261-265) *)
Definition remove_last (l : hist) : hist := removelast l.
(** [renumber_all_entries] (history.c 268-278) *)
Fixpoint renumber (num : N) (l : hist) : hist :=
  match l with
  | e :: l' => mkEntry (num + 1) (e_time e) (e_val e) :: renumber (num + 1) l'
  | [] => []
  end.

(** The outcome of a search: an assertion fails in [ashistentry] (history.h 64-70),
    or [search_result_T] *)
Inductive sres := SCrash | SRes (prev next : option nat).

(** A loop that follows the links while [p] holds of the number of the entry: the
    index where it stops, None if it comes to [Histlist] *)
Fixpoint seek (p : N -> bool) (i : nat) (l : hist) : option nat :=
  match l with
  | [] => None
  | e :: l' => if p (e_num e) then seek p (S i) l' else Some i
  end.
Definition num_at (l : hist) (i : nat) : N := match nth_error l i with Some e => e_num e | None => 0 end.
Definition before (i : nat) : option nat := match i with O => None | S i => Some i end.
Definition after (l : hist) (i : nat) : option nat := if (S i <? length l)%nat then Some (S i) else None.
(** [search_entry_by_number] (history.c 301-354) *)
Definition search (number : N) (l : hist) : sres :=
  match l with
  | [] => SRes None None
  | _ :: _ =>
      let wrapped := newest l <? oldest l in
      let nnumber := if wrapped && (number <=? newest l) then number + max_number else number in
      let nnewest := if wrapped then newest l + max_number else newest l in
      if nnumber <? oldest l then SRes None (Some O)
      else if nnewest <? nnumber then SRes (Some (length l - 1)%nat) None
      else if 2 * (nnumber - oldest l) <? nnewest - oldest l then
        match seek (fun m => number <? m) O l with
        | None => SCrash
        | Some i =>
            match seek (fun m => m <? number) i (skipn i l) with
            | None => SCrash
            | Some j => SRes (if number =? num_at l j then Some j else before j) (Some j)
            end
        end
      else
        match seek (fun m => m <? number) O (rev l) with
        | None => SCrash
        | Some i =>
            match seek (fun m => number <? m) i (skipn i (rev l)) with
            | None => SCrash
            | Some j' =>
                let j := (length l - 1 - j')%nat in
                SRes (Some j) (if number =? num_at l j then Some j else after l j)
            end
        end
  end.
(** [get_nth_newest_entry] (history.c 357-366) *)
Definition nth_newest (n : N) (l : hist) : option nat :=
  if count l <=? n then match l with [] => None | _ :: _ => Some O end
  else if n =? 0 then None else Some (length l - N.to_nat n)%nat.
(** [search_entry_by_prefix] (history.c 370-378) *)
Fixpoint prefixb (p s : list N) : bool :=
  match p, s with
  | [], _ => true
  | a :: p', b :: s' => (a =? b) && prefixb p' s'
  | _ :: _, [] => false
  end.
Fixpoint find_prefix (p : list N) (i : nat) (r : hist) : option nat :=
  match r with
  | [] => None
  | e :: r' => if prefixb p (e_val e) then Some i else find_prefix p (S i) r'
  end.
Definition search_prefix (p : list N) (l : hist) : option nat :=
  match find_prefix p O (rev l) with Some i => Some (length l - 1 - i)%nat | None => None end.
(** [entry_is_newer] (history.c 395-406) *)
Definition entry_newer (l : hist) (n1 n2 : N) : bool :=
  (n1 <=? newest l) && (newest l <? oldest l) && (oldest l <=? n2)
  || (n2 <=? n1) && ((oldest l <=? n2) || (n1 <=? newest l)).
(** [search_result_is_newer] (history.c 382-392) *)
Definition result_newer (l : hist) (p1 n1 p2 n2 : option nat) : bool :=
  match p1, n2 with
  | Some p1, Some n2 =>
      match n1, p2 with
      | Some n1, Some p2 => entry_newer l (num_at l p1) (num_at l p2) || entry_newer l (num_at l n1) (num_at l n2)
      | _, _ => true
      end
  | _, _ => false
  end.

(** [next_history_number] (history.c 1039-1050) *)
Definition next_number (l : hist) : N :=
  match l with
  | [] => 1
  | _ :: _ => let n := newest l + 1 in if max_number <? n then 1 else n
  end.
(** [remove_duplicates] (history.c 1118-1133) on the list from the newest entry *)
Fixpoint rmdup (k : nat) (line : list N) (r : hist) : hist :=
  match k, r with
  | S k, e :: r' => if list_N_eqb (e_val e) line then rmdup k line r' else e :: rmdup k line r'
  | _, _ => r
  end.
(** [add_history_line] (history.c 1092-1113) at a time *)
Definition add_line (now : Z) (line : list N) (l : hist) : option hist :=
  if existsb graph line then
    let l1 := rev (rmdup histrmdup line (rev l)) in
    new_entry (next_number l1) now line l1
  else Some l.
(** The loop of [add_history] (history.c 1058-1078) *)
Fixpoint add_lines (now : Z) (cur : list N) (s : list N) (l : hist) : option hist :=
  match s with
  | [] => add_line now cur l
  | c :: s' =>
      if c =? 10 then match add_line now cur l with Some l' => add_lines now [] s' l' | None => None end
      else add_lines now (cur ++ [c]) s' l
  end.

(** ** The fc and history built-ins *)
(** An operand: an integer other than 0, or anything else, which is a prefix *)
Inductive operand := ONum (z : Z) | OPre (p : list N).
Definition INT_MIN : Z := (-2147483648)%Z.
(** [fc_search_entry] (history.c 1368-1387): the negation of INT_MIN is undefined *)
Definition fc_search (o : operand) (l : hist) : sres :=
  match o with
  | OPre p => let i := search_prefix p l in SRes i i
  | ONum z =>
      if (z >? 0)%Z then search (Z.to_N z) l
      else if (z =? INT_MIN)%Z then SCrash
      else let n := Z.to_N (- z) in
           let i := nth_newest n l in
           SRes (if count l <? n then None else i) i
  end.
(** The loop of [fc_print_entries] (history.c 1435-1473) along the list [l] from
    the entry [i]: the entries up to [j]; None if an assertion fails *)
Fixpoint walk (i j : nat) (l : hist) : option hist :=
  match l with
  | [] => None
  | e :: l' => if (i =? j)%nat then Some [e] else option_map (cons e) (walk (S i) j l')
  end.
Definition walk_entries (first last : nat) (reverse : bool) (l : hist) : option hist :=
  if reverse then let k := (length l - 1)%nat in walk (k - last) (k - first) (skipn (k - last) (rev l))
  else walk first last (skipn first l).
(** The outcome of fc: an assertion fails, an error, or the entries in the order in
    which they are printed or edited *)
Inductive fcres := FcCrash | FcFail | FcEntries (l : hist).
(** [fc_builtin] (history.c 1228-1360) after the search *)
Definition fc_range (rev : bool) (p1 n1 p2 n2 : option nat) (l : hist) : fcres :=
  let swap := result_newer l p1 n1 p2 n2 in
  let rev := if swap then negb rev else rev in
  let '(p1, n1, p2, n2) := if swap then (p2, n2, p1, n1) else (p1, n1, p2, n2) in
  match (match n1 with Some n => Some n | None => p1 end), (match p2 with Some p => Some p | None => n2 end) with
  | Some f, Some t => match walk_entries f t rev l with Some r => FcEntries r | None => FcCrash end
  | _, _ => FcCrash
  end.
(** [fc_builtin] (history.c 1228-1360) with -l or for editing; the caller has removed
    the entry of the fc command itself in the latter case *)
Definition fc (list_mode rev : bool) (first last : option operand) (l : hist) : fcres :=
  match l with
  | [] => if list_mode then FcEntries [] else FcFail
  | _ :: _ =>
      match fc_search (match first with Some o => o | None => ONum (if list_mode then -16 else -1) end) l with
      | SCrash => FcCrash
      | SRes None None => FcFail
      | SRes p1 n1 =>
          match last, list_mode with
          | None, false => fc_range rev p1 n1 p1 n1 l
          | _, _ =>
              match fc_search (match last with Some o => o | None => ONum (-1) end) l with
              | SCrash => FcCrash
              | SRes None None => FcFail
              | SRes p2 n2 => fc_range rev p1 n1 p2 n2 l
              end
          end
      end
  end.
(** [history_delete] (history.c 1756-1797): the entry that is removed *)
Definition delete_target (o : operand) (l : hist) : sres :=
  match o with
  | OPre p => let i := search_prefix p l in SRes i i
  | ONum z =>
      if (z >=? 0)%Z then search (Z.to_N z) l
      else let n := Z.to_N (if (z =? INT_MIN)%Z then 2147483647 else - z) in
           let i := nth_newest n l in SRes i i
  end.
Definition history_delete (o : operand) (l : hist) : option hist :=
  match delete_target o l with
  | SCrash => None
  | SRes (Some p) (Some n) => if (p =? n)%nat then Some (remove_at p l) else Some l
  | SRes _ _ => Some l
  end.

(** What changes the history.  The last three are the lines of the history file
    that are read by [read_history] (history.c 701-728), written by this shell or
    another one: [parse_history_entry] (history.c 730-766) after the conversion of
    the number, and [parse_removed_entry] (history.c 768-788). *)
Inductive op :=
  | Add (now : Z) (s : list N)
  | Delete (o : operand)
  | Clear
  | Renumber
  | FileEntry (num : N) (time : Z) (val : list N)
  | FileCancel
  | FileDelete (num : N).
Definition step (o : op) (l : hist) : option hist :=
  match o with
  | Add now s => add_lines now [] s l
  | Delete o => history_delete o l
  | Clear => Some []
  | Renumber => Some (renumber 0 l)
  | FileEntry num time val => if max_number <? num then Some l else new_entry num time val l
  | FileCancel => Some (remove_last l)
  | FileDelete num =>
      if max_number <? num then Some l
      else match search num l with
           | SCrash => None
           | SRes (Some p) (Some n) => if (p =? n)%nat then Some (remove_at p l) else Some l
           | SRes _ _ => Some l
           end
  end.
Fixpoint steps (os : list op) (l : hist) : option hist :=
  match os with
  | [] => Some l
  | o :: os' => match step o l with Some l' => steps os' l' | None => None end
  end.
End Hist.
