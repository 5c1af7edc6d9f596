(** Model of field splitting (expand.c) and of the "read" built-in
    (variable.c), which uses it.

    The string [s] and the category string [cc] are one list of cells; a
    position is the cells from there on together with the index.  The character
    at the end is the terminating null; its category is read by the code but
    irrelevant because every predicate tests the character as well. *)
From Coq Require Import Ascii String.
From Coq Require Import List NArith Bool Arith.
From Verif Require Import Common Locale CharcatModel.
Import ListNotations.
Open Scope res_scope.

Definition newline : N := 10%N.
Definition backslash : N := ch "\".

(** expand.h:25-25 [DEFAULT_IFS]; the value of $IFS or, when unset, the default
    (expand.c:1532-1534, variable.c:2789-2791) *)
Definition default_ifs : list N := (str " " ++ [9; 10])%N.
Definition ifs_value (v : option (list N)) : list N := match v with Some s => s | None => default_ifs end.

Section Split.
Variable L : locale.
Variable ifs : list N.

(** expand.c:1655-1658 [is_ifs_char] *)
Definition is_ifs_char (x : cell) : bool :=
  cat_eqb (snd x) cc_soft && negb (fst x =? 0)%N && existsb (N.eqb (fst x)) ifs.
(** expand.c:1661-1664 [is_ifs_whitespace] *)
Definition is_ifs_whitespace (x : cell) : bool := is_ifs_char x && iswspace L (fst x).
(** expand.c:1667-1670 [is_non_ifs_char] *)
Definition is_non_ifs_char (x : cell) : bool := negb (fst x =? 0)%N && negb (is_ifs_char x).

(** The character at a position (s[index] and cc[index]). *)
Definition cur (t : list cell) : cell := match t with [] => (0%N, cc_lit) | x :: _ => x end.

(** while (p(s[index], cc[index], ifs)) index++; (expand.c:1615-1616, 1620-1621) *)
Fixpoint skip_while (p : cell -> bool) (t : list cell) (index : nat) : list cell * nat :=
  match t with
  | [] => ([], index)
  | x :: t' => if p x then skip_while p t' (S index) else (t, index)
  end.

(** The main loop of extract_fields (expand.c:1613-1641).  [dest] is the list of
    the start and end indices added so far.  The result has the value of
    ifswhitestartindex at the end. *)
Fixpoint extract_loop (fuel : nat) (t : list cell) (index : nat) (afterfield : bool)
    (dest : list (nat * nat)) {struct fuel} : res (list (nat * nat) * nat) :=
  match fuel with
  | O => Fuel
  | S fuel' =>
    let ifswhitestartindex := index in
    let (t, index) := skip_while is_ifs_whitespace t index in
    let fieldstartindex := index in
    let (t, index) := skip_while is_non_ifs_char t index in
    if negb (index =? fieldstartindex) then
      extract_loop fuel' t index true (dest ++ [(fieldstartindex, index)])
    else
      let dest := if negb afterfield then dest ++ [(index, index)] else dest in
      match t with
      | [] => Ok (dest, ifswhitestartindex)
      | x :: t' =>
        if (fst x =? 0)%N then Ok (dest, ifswhitestartindex)
        else if negb (is_ifs_char x) then UB
        else if is_ifs_whitespace x then UB
        else extract_loop fuel' t' (S index) false dest
      end
  end.

(** expand.c:1602-1652 [extract_fields]; both callers pass an empty list.
    [emptylastfield] is the shell option of that name. *)
Definition extract_fields (emptylastfield : bool) (s : list cell) : res (list (nat * nat) * nat) :=
  let! (dest, ifswhitestartindex) := extract_loop (S (length s)) s 0 false [] in
  let newlen := length dest in
  match rev dest with
  | [] => UB
  | (a, b) :: _ =>
    if negb emptylastfield || (newlen =? 1) then
      if a =? b then Ok (firstn (newlen - 1) dest, ifswhitestartindex)
      else Ok (dest, ifswhitestartindex)
    else Ok (dest, ifswhitestartindex)
  end.

(** The characters from index [a] to index [b]. *)
Definition slice {A} (s : list A) (a b : nat) : list A := firstn (b - a) (skipn a s).

(** expand.c:1529-1568 [fieldsplit]; [IFS] has been read from the variable *)
Fixpoint fieldsplit (emptylastfield : bool) (words : list (list cell)) : res (list (list cell)) :=
  match words with
  | [] => Ok []
  | s :: words' =>
    let! (fields, _) := extract_fields emptylastfield s in
    let out :=
      match fields with
      | [(0, b)] => if b =? length s then [s] else [slice s 0 b]
      | _ => map (fun r => slice s (fst r) (snd r)) fields
      end in
    let! rest := fieldsplit emptylastfield words' in
    Ok (out ++ rest)
  end.
End Split.

(** ** The "read" built-in *)

(** variable.c:2932-2940 [read_one_line]: one line of the standard input, with its
    newline if there is one.  Reading errors are not modelled, nor is input
    containing a null character. *)
Fixpoint read_one_line (input : list N) : list N * list N :=
  match input with
  | [] => ([], [])
  | c :: r => if (c =? newline)%N then ([c], r) else let (l, r') := read_one_line r in (c :: l, r')
  end.

(** variable.c:2947-2973 [unescape_line]; [buf] and [cc] are one list of cells.  The
    result is false iff the line ends with a line continuation. *)
Fixpoint unescape_line (line : list N) (buf : list cell) : bool * list cell :=
  match line with
  | [] => (true, buf)
  | c :: line' =>
    if (c =? backslash)%N then
      match line' with
      | [] => (true, buf)
      | d :: line'' =>
        if (d =? newline)%N then (false, buf)
        else unescape_line line'' (buf ++ [(d, mkCat Soft true false)])
      end
    else unescape_line line' (buf ++ [(c, cc_soft)])
  end.

(** variable.c:2843-2874 [read_with_prompt] without the prompts *)
Fixpoint read_with_prompt (fuel : nat) (raw : bool) (input : list N) (buf : list cell) : res (list cell * list N) :=
  match fuel with
  | O => Fuel
  | S fuel' =>
    let (line, input') := read_one_line input in
    if raw then Ok (buf ++ cells cc_soft line, input')
    else
      let (completed, buf') := unescape_line line buf in
      if completed then Ok (buf', input') else read_with_prompt fuel' raw input' buf'
  end.

(** What is assigned to a variable. *)
Inductive rvalue := Scalar (s : list N) | Array (ss : list (list N)).

(** variable.c:2977-2998 [assign_array]: the array built from the fields [ranges] *)
Definition assign_array (s : list cell) (ranges : list (nat * nat)) : rvalue :=
  let fields := map (fun r => text (slice s (fst r) (snd r))) ranges in
  match fields with
  | [[]] => Array []
  | _ => Array fields
  end.

(** The assignments made by the loop over all but the last variable
    (variable.c:2806-2812). *)
Fixpoint assign_scalars (s : list cell) (names : list (list N)) (ranges : list (nat * nat))
    : res (list (list N * rvalue)) :=
  match names with
  | [] => Ok []
  | name :: names' =>
    match ranges with
    | [] => UB
    | (a, b) :: ranges' =>
      let! rest := assign_scalars s names' ranges' in
      Ok ((name, Scalar (text (slice s a b))) :: rest)
    end
  end.

(** variable.c:2722-2833 [read_builtin] after parsing the options: [names] are the
    operands, none of which contains an equal sign.  The result is the sequence
    of assignments, the rest of the input and whether a newline was read.
    Assigning to a read-only variable is not modelled. *)
Definition read_builtin (L : locale) (ifs : option (list N)) (emptylastfield raw array : bool)
    (names : list (list N)) (input : list N)
    : res (list (list N * rvalue) * list N * bool) :=
  match rev names with
  | [] => UB
  | lastname :: _ =>
    let! (buf, input') := read_with_prompt (S (length input)) raw input [] in
    let (buf, eof) :=
      match rev buf with
      | (c, _) :: _ => if (c =? newline)%N then (firstn (length buf - 1) buf, false) else (buf, true)
      | [] => (buf, true)
      end in
    let! (list, tail) := extract_fields L (ifs_value ifs) emptylastfield buf in
    let count := length names in
    let list := list ++ repeat (0, 0) (count - length list) in
    let! scalars := assign_scalars buf (firstn (count - 1) names) list in
    let! lastvalue :=
      if array then Ok (assign_array buf (skipn (count - 1) list))
      else
        let! (start, end_) := rget list (count - 1) in
        let end_ := if count <? length list then tail else end_ in
        if end_ <? start then UB else Ok (Scalar (text (slice buf start end_))) in
    Ok (scalars ++ [(lastname, lastvalue)], input', negb eof)
  end.
