(** Model of alias.c: alias definitions and alias substitution, and of the part
    of parser.c that edits the source buffer together with the alias list.

    The source buffer is the list of its characters (the operations on it are
    those proved about wide string buffers in BufProps); reading the element
    past the end yields the terminating null.  An alias has an identity [aid]
    standing for its address.  The alias hash table is an association list (see
    HtProps for hash tables); reference counts are not modelled. *)
From Coq Require Import Ascii String.
From Coq Require Import List NArith ZArith Bool Arith.
From Verif Require Import Common Locale.
Import ListNotations.
Open Scope res_scope.

(** alias.c:49-54 [alias_T] *)
Record alias := mkAlias { aid : nat; isglobal : bool; avalue : list N }.
Definition table := list (list N * alias).
(** alias.c:56-60 [aliaslist_T] *)
Definition aliaslist := list (alias * nat).

(** Reading a null-terminated buffer. *)
Definition bget (s : list N) (i : nat) : res N :=
  if length s <? i then UB else Ok (nth i s 0%N).

Section Alias.
Variable L : locale.

(** alias.c:110-113 [is_alias_name_char]; wcschr also finds the null. *)
Definition is_alias_name_char (c : N) : bool :=
  negb (existsb (N.eqb c) (0%N :: [32; 9; 10]%N ++ str "=$<>\'" ++ [34%N] ++ str "`;&|()#")) &&
  negb (iswblank L c).

(** parser.c:1762-1771 [is_token_delimiter_char] *)
Definition is_token_delimiter_char (c : N) : bool :=
  existsb (N.eqb c) (0%N :: 10%N :: str ";&|<>()") || iswblank L c.

(** The hash table functions ht_get, ht_set and ht_remove. *)
Fixpoint tget (t : table) (k : list N) : option alias :=
  match t with
  | [] => None
  | (n, a) :: t' => if list_N_eqb n k then Some a else tget t' k
  end.
Definition tdel (t : table) (k : list N) : table := filter (fun e => negb (list_N_eqb (fst e) k)) t.
Definition tset (t : table) (k : list N) (a : alias) : table := (k, a) :: tdel t k.

(** alias.c:134-153 [define_alias]; [id] is the address of the new alias. *)
Definition define_alias (t : table) (nameandvalue : list N) (equal : nat) (global : bool) (id : nat) : table :=
  tset t (firstn equal nameandvalue) (mkAlias id global (skipn (equal + 1) nameandvalue)).

(** alias.c:158-168 [remove_alias] *)
Definition remove_alias (t : table) (name : list N) : table * bool :=
  match tget t name with
  | Some _ => (tdel t name, true)
  | None => (t, false)
  end.

(** alias.c:200-208 [contained_in_list] *)
Fixpoint contained_in_list (l : aliaslist) (a : alias) (i : nat) : bool :=
  match l with
  | [] => false
  | (b, limit) :: l' => (i <=? limit) && (aid b =? aid a) || contained_in_list l' a i
  end.

(** alias.c:211-224 [add_to_aliaslist] *)
Fixpoint add_to_aliaslist (l : aliaslist) (a : alias) (limit : nat) : aliaslist :=
  match l with
  | (b, m) :: l' => if m <? limit then (b, m) :: add_to_aliaslist l' a limit else (a, limit) :: l
  | [] => [(a, limit)]
  end.

(** alias.c:258-261 [ends_with_blank] *)
Definition ends_with_blank (a : alias) : bool :=
  (0 <? length (avalue a)) && iswblank L (nth (length (avalue a) - 1) (avalue a) 0%N).

(** alias.c:264-271 [is_blank_range]; [n] counts the remaining characters. *)
Fixpoint blank_range_loop (buf : list N) (i n : nat) : bool :=
  match n with
  | O => true
  | S n' => iswblank L (nth i buf 0%N) && blank_range_loop buf (S i) n'
  end.
Definition is_blank_range (buf : list N) (from to : nat) : res bool :=
  if negb ((to <=? from) || (to <=? length buf)) then UB (* assertion *)
  else Ok (blank_range_loop buf from (to - from)).

(** alias.c:234-255 [remove_expired_aliases] *)
Fixpoint remove_expired_aliases (l : aliaslist) (index : nat) (buf : list N) : res (aliaslist * bool) :=
  match l with
  | [] => Ok ([], false)
  | (a, limit) :: l' =>
      if limit <=? index then
        let! keep :=
          (if negb (isglobal a) && ends_with_blank a then is_blank_range buf limit index else Ok false) in
        if keep then Ok (l, true) else remove_expired_aliases l' index buf
      else Ok (l, false)
  end.

(** alias.c:275-284 [shift_aliaslist_index] *)
Fixpoint shift_aliaslist_index (l : aliaslist) (i : nat) (inc : Z) : res aliaslist :=
  match l with
  | [] => Ok []
  | (a, limit) :: l' =>
      let! limit' :=
        (if i <? limit then
           if (0 <=? inc)%Z || (- inc <=? Z.of_nat limit)%Z
           then Ok (Z.to_nat (Z.of_nat limit + inc)) else UB (* assertion *)
         else Ok limit) in
      let! l'' := shift_aliaslist_index l' i inc in
      Ok ((a, limit') :: l'')
  end.

(** wb_replace_force (see BufProps) *)
Definition breplace (buf : list N) (i n : nat) (s : list N) : list N :=
  firstn i buf ++ s ++ skipn (i + n) buf.

(** alias.c:309-352 [substitute_alias_range].  [nonglobal] and [noeof] are the
    flags. *)
Definition substitute_alias_range (posix : bool) (t : table) (buf : list N) (i j : nat)
    (l : aliaslist) (nonglobal noeof : bool) : res (list N * aliaslist * bool) :=
  if length t =? 0 then Ok (buf, l, false)
  else
    let! (l, afterblank) := remove_expired_aliases l i buf in
    let nonglobal := nonglobal || afterblank in
    if negb nonglobal && posix then Ok (buf, l, false)
    else if j <=? i then Ok (buf, l, false)
    else if noeof && (j =? length buf) then Ok (buf, l, false)
    else if length buf <? j then UB (* contents[j] *)
    else
      match tget t (firstn (j - i) (skipn i buf)) with
      | None => Ok (buf, l, false)
      | Some a =>
          if negb nonglobal && negb (isglobal a) then Ok (buf, l, false)
          else if contained_in_list l a i then Ok (buf, l, false)
          else
            let buf' := breplace buf i (j - i) (avalue a) in
            let valuelen := length (avalue a) in
            let! l := shift_aliaslist_index l i (Z.of_nat valuelen - Z.of_nat (j - i))%Z in
            Ok (buf', add_to_aliaslist l a (i + valuelen), true)
      end.

(** alias.c:359-364 [is_redir_fd]; [s] is the rest of the buffer. *)
Fixpoint is_redir_fd (s : list N) : bool :=
  match s with
  | [] => false
  | c :: s' => if iswdigit c then is_redir_fd s' else (c =? 60)%N || (c =? 62)%N
  end.

(** alias.c:294-297, the loop over name characters; it stops at the null at the
    latest. *)
Fixpoint name_end (s : list N) : nat :=
  match s with
  | [] => 0
  | c :: s' => if is_alias_name_char c then S (name_end s') else 0
  end.

(** alias.c:288-300 [substitute_alias] *)
Definition substitute_alias (posix : bool) (t : table) (buf : list N) (i : nat)
    (l : aliaslist) (nonglobal noeof : bool) : res (list N * aliaslist * bool) :=
  if length buf <? i then UB
  else if is_redir_fd (skipn i buf) then Ok (buf, l, false)
  else
    let j := i + name_end (skipn i buf) in
    let! c := bget buf j in
    if negb (is_token_delimiter_char c) then Ok (buf, l, false)
    else substitute_alias_range posix t buf i j l nonglobal noeof.

(** parser.c:953-962 [line_continuation], without the line number and the
    reading of more input. *)
Definition line_continuation (buf : list N) (l : aliaslist) (index : nat) : res (list N * aliaslist) :=
  let! c0 := bget buf index in
  let! c1 := bget buf (index + 1) in
  if negb ((c0 =? 92)%N && (c1 =? 10)%N) then UB (* assertion *)
  else
    let buf' := firstn index buf ++ skipn (index + 2) buf in
    let! l' := shift_aliaslist_index l (index + 1) (-2)%Z in
    Ok (buf', l').

(** What an operand of the alias built-in does: alias.c:486-508. *)
Inductive operand := ODefine (name value : list N) | OPrint (name : list N) | OInvalid.
Definition alias_operand (arg : list N) : operand :=
  let nameend := name_end arg in
  let c := nth nameend arg 0%N in
  if negb (nameend =? 0) && (c =? 61)%N then ODefine (firstn nameend arg) (skipn (nameend + 1) arg)
  else if negb (nameend =? 0) && (c =? 0)%N then OPrint arg
  else OInvalid.

(** The effect of the alias and unalias built-ins on the table, an operand at a
    time: alias.c:486-508 and alias.c:542-555. *)
Inductive tcmd := CDefine (arg : list N) (global : bool) | CRemove (name : list N) | CClear.
Definition tstep (st : table * nat) (c : tcmd) : table * nat :=
  let (t, next) := st in
  match c with
  | CDefine arg global =>
      match alias_operand arg with
      | ODefine _ _ => (define_alias t arg (name_end arg) global next, S next)
      | _ => st
      end
  | CRemove name => (fst (remove_alias t name), next)
  | CClear => ([], next)
  end.
Definition table_of (cs : list tcmd) : table := fst (fold_left tstep cs ([], 0)).
End Alias.
