(** Model of lineedit/trie.c: the tries that map key sequences to editing
    commands and that predict command lines.

    Keys are integers: char for the byte-string functions and wchar_t for the
    wide-string functions, which are otherwise identical, so both are modelled
    by the same definitions.  A node keeps the number of entries allocated for
    it; accesses beyond it are undefined behaviour.  Allocation always
    succeeds and sizes do not overflow. *)
From Coq Require Import List ZArith Bool Arith.
From Verif Require Import Common.
Import ListNotations.
Open Scope res_scope.

Section Trie.
Variable V : Type.

(** lineedit/trie.c:36-45; the value is [None] if valuevalid is false, [count]
    is the length of the list, and [cap] the number of entries allocated. *)
Inductive trie := Node (value : option V) (cap : nat) (entries : list (Z * trie)).
Definition value (t : trie) := match t with Node v _ _ => v end.
Definition cap (t : trie) := match t with Node _ c _ => c end.
Definition entries (t : trie) := match t with Node _ _ e => e end.
Definition count (t : trie) := length (entries t).

(** lineedit/trie.c:48-48 [RAISE_COUNT] *)
Definition RAISE_COUNT (n : nat) : nat := Nat.lor n 3.

(** lineedit/trie.c:76-83 [trie_create] *)
Definition trie_create : trie := Node None (RAISE_COUNT 0) [].

(** lineedit/trie.c:87-90 [isempty] *)
Definition isempty (t : trie) : bool :=
  (count t =? 0) && match value t with None => true | Some _ => false end.

(** lineedit/trie.c:94-101 [ensure_size] *)
Definition ensure_size (t : trie) (n : nat) : trie :=
  let n := RAISE_COUNT n in
  if n <=? RAISE_COUNT (count t) then t
  else Node (value t) n (entries t).

(** lineedit/trie.c:112-128 [binarysearch], lineedit/trie.c:139-155
    [binarysearchw].  The fuel bounds the loop. *)
Fixpoint binarysearch (fuel : nat) (e : list (Z * trie)) (offset count : nat) (key : Z) : res Z :=
  if count =? 0 then Ok (- Z.of_nat offset - 1)%Z
  else
    match fuel with
    | O => Fuel
    | S fuel' =>
        let i := count / 2 in
        let! x := rget e (offset + i) in
        let ekey := fst x in
        if (key =? ekey)%Z then Ok (Z.of_nat (offset + i))
        else if (key <? ekey)%Z then binarysearch fuel' e offset i key
        else binarysearch fuel' e (offset + (i + 1)) (count - (i + 1)) key
    end.

(** lineedit/trie.c:107-110 [search], lineedit/trie.c:134-137 [searchw] *)
Definition search (t : trie) (key : Z) : res Z :=
  binarysearch (count t) (entries t) 0 (count t) key.

(** lineedit/trie.c:158-169 [insert_entry] *)
Definition insert_entry (t : trie) (index : nat) (key : Z) : res trie :=
  if count t <? index then UB
  else
    let t' := ensure_size t (count t + 1) in
    let n := count t' in
    if (index <? n) && negb (index + 1 + (n - index) <=? cap t') then UB (* memmove *)
    else if negb (index <? cap t') then UB
    else Ok (Node (value t') (cap t')
               (firstn index (entries t') ++ (key, trie_create) :: skipn index (entries t'))).

(** The index of the entry for [key], adding an entry if there is none:
    lineedit/trie.c:179-185, 196-202, 216-222, 428-433. *)
Definition find_or_insert (t : trie) (key : Z) : res (trie * nat) :=
  let! index := search t key in
  if (index <? 0)%Z then
    let i := Z.to_nat (- (index + 1)) in
    let! t' := insert_entry t i key in
    Ok (t', i)
  else Ok (t, Z.to_nat index).

(** Replacing the child of an entry. *)
Definition set_child (t : trie) (i : nat) (c : trie) : res trie :=
  let! e := rget (entries t) i in
  let! es := rset (entries t) i (fst e, c) in
  Ok (Node (value t) (cap t) es).

(** lineedit/trie.c:173-190 [trie_set], lineedit/trie.c:210-227 [trie_setw] *)
Fixpoint trie_set (t : trie) (k : list Z) (v : V) : res trie :=
  match k with
  | [] => Ok (Node (Some v) (cap t) (entries t))
  | c :: k' =>
      let! (t1, i) := find_or_insert t c in
      let! e := rget (entries t1) i in
      let! child := trie_set (snd e) k' v in
      set_child t1 i child
  end.

(** lineedit/trie.c:194-206 [trie_set_null] *)
Definition trie_set_null (t : trie) (v : V) : res trie :=
  let! (t1, i) := find_or_insert t 0%Z in
  let! e := rget (entries t1) i in
  let! child := trie_set (snd e) [] v in
  set_child t1 i child.

(** lineedit/trie.c:230-240 [shrink], with the entries already moved. *)
Definition shrink (t : trie) (es : list (Z * trie)) : trie :=
  let oldcount := RAISE_COUNT (count t) in
  let newcount := RAISE_COUNT (count t - 1) in
  Node (value t) (if oldcount =? newcount then cap t else newcount) es.

(** lineedit/trie.c:243-262 [trie_remove], lineedit/trie.c:265-284
    [trie_removew] *)
Fixpoint trie_remove (t : trie) (k : list Z) : res trie :=
  match k with
  | [] => Ok (Node None (cap t) (entries t))
  | c :: k' =>
      let! index := search t c in
      if (index <? 0)%Z then Ok t
      else
        let i := Z.to_nat index in
        let! e := rget (entries t) i in
        let! child := trie_remove (snd e) k' in
        let! t1 := set_child t i child in
        if isempty child then
          (* memmove of the count - index - 1 entries behind *)
          if count t1 <? i + 1 then UB
          else Ok (shrink t1 (firstn i (entries t1) ++ skipn (i + 1) (entries t1)))
        else Ok t1
  end.

(** lineedit/trie.h:32-41 *)
Record trieget := mkTG { tg_exact : bool; tg_prefix : bool; matchlength : nat; tg_value : option V }.

(** lineedit/trie.c:291-319 [trie_get], lineedit/trie.c:324-352 [trie_getw] *)
Fixpoint trie_get (t : trie) (k : list Z) : res trieget :=
  let valid := match value t with Some _ => true | None => false end in
  match k with
  | [] => Ok (mkTG valid (negb (count t =? 0)) 0 (value t))
  | c :: k' =>
      let! index := search t c in
      if (index <? 0)%Z then Ok (mkTG valid false 0 (value t))
      else
        let! e := rget (entries t) (Z.to_nat index) in
        let! r := trie_get (snd e) k' in
        if tg_exact r then Ok (mkTG true (tg_prefix r) (S (matchlength r)) (tg_value r))
        else if valid then Ok (mkTG true (tg_prefix r) 0 (value t))
        else Ok r
  end.

(** lineedit/trie.c:372-397 [foreachw]: the callback works on a state [S] and
    returns an exit value; [buf] is the text of the buffer.  The recursion is on
    the tree; the result is the state, the returned value and the buffer. *)
Section Foreach.
Variable S : Type.
Variable func : S -> list Z -> V -> S * Z.

Fixpoint foreachw (t : trie) (s : S) (buf : list Z) {struct t} : res (S * Z * list Z) :=
  match t with
  | Node v _ es =>
      let (s1, r1) := match v with Some x => func s buf x | None => (s, 0%Z) end in
      if negb (r1 =? 0)%Z then Ok (s1, r1, buf)
      else
        (fix loop (es : list (Z * trie)) (s : S) (buf : list Z) : res (S * Z * list Z) :=
           match es with
           | [] => Ok (s, 0%Z, buf)
           | (c, child) :: es' =>
               let! (p, buf1) := foreachw child s (buf ++ [c]) in
               let (s2, r2) := p in
               if negb (r2 =? 0)%Z then Ok (s2, r2, buf1)
               else if length buf1 =? 0 then UB (* assertion *)
               else loop es' s2 (firstn (length buf1 - 1) buf1)
           end) es s1 buf
  end.

(** lineedit/trie.c:359-370 [trie_foreachw] *)
Definition trie_foreachw (t : trie) (s : S) : res (S * Z) :=
  let! (p, _) := foreachw t s [] in Ok p.
End Foreach.

(** Prediction.  [V] is now the probability type; double arithmetic is given by
    operations. *)
Section Predict.
Variable padd : V -> V -> V.            (* + *)
Variable pgt : V -> V -> bool.          (* > *)
Variable pge : V -> V -> bool.          (* >= *)
Variable phalf : V -> V.                (* / 2 *)
Variable neg_huge_val : V.              (* -HUGE_VAL *)
Variable iswblank : Z -> bool.

(** lineedit/trie.c:415-437 [trie_add_probability] *)
Fixpoint trie_add_probability (t : trie) (k : list Z) (p : V) : res trie :=
  let t := Node (Some match value t with Some q => padd q p | None => p end) (cap t) (entries t) in
  match k with
  | [] => Ok t
  | c :: k' =>
      let! (t1, i) := find_or_insert t c in
      let! e := rget (entries t1) i in
      let! child := trie_add_probability (snd e) k' p in
      set_child t1 i child
  end.

(** lineedit/trie.c:481-494 [most_probable_child] *)
Fixpoint most_probable (es : list (Z * trie)) (max : V) (best : option (Z * trie)) : res (option (Z * trie)) :=
  match es with
  | [] => Ok best
  | e :: es' =>
      match value (snd e) with
      | None => UB (* assertion *)
      | Some p => if pgt p max then most_probable es' p (Some e) else most_probable es' max best
      end
  end.
Definition most_probable_child (t : trie) := most_probable (entries t) neg_huge_val None.

(** Reading entry->child->value.probability (the value is valid after
    most_probable_child). *)
Definition probability (e : Z * trie) : res V :=
  match value (snd e) with Some p => Ok p | None => UB end.

(** lineedit/trie.c:469-474, the traversal *)
Fixpoint probable_loop (fuel : nat) (threshold : V) (entry : option (Z * trie)) : res (list Z) :=
  match fuel with
  | O => Fuel
  | S fuel' =>
      match entry with
      | None => Ok []
      | Some e =>
          let! p := probability e in
          if pge p threshold || iswblank (fst e) then
            let! next := most_probable_child (snd e) in
            let! r := probable_loop fuel' threshold next in
            Ok (fst e :: r)
          else Ok []
      end
  end.

(** The height of a trie bounds the traversal. *)
Fixpoint height (t : trie) : nat :=
  match t with Node _ _ es => S (fold_right (fun e n => Nat.max (height (snd e)) n) 0 es) end.

(** lineedit/trie.c:443-477 [trie_probable_key] *)
Fixpoint trie_probable_key (t : trie) (skipkey : list Z) : res (list Z) :=
  match skipkey with
  | c :: k' =>
      let! index := search t c in
      if (index <? 0)%Z then Ok []
      else
        let! e := rget (entries t) (Z.to_nat index) in
        trie_probable_key (snd e) k'
  | [] =>
      let! entry := most_probable_child t in
      match entry with
      | None => Ok []
      | Some e =>
          let! p := probability e in
          probable_loop (S (height t)) (phalf p) entry
      end
  end.
End Predict.
End Trie.
Arguments Node {V} value cap entries.
Arguments value {V} t.
Arguments cap {V} t.
Arguments entries {V} t.
Arguments count {V} t.
Arguments trie_create {V}.
Arguments isempty {V} t.
Arguments ensure_size {V} t n.
Arguments binarysearch {V} fuel e offset count key.
Arguments search {V} t key.
Arguments insert_entry {V} t index key.
Arguments find_or_insert {V} t key.
Arguments set_child {V} t i c.
Arguments trie_set {V} t k v.
Arguments trie_set_null {V} t v.
Arguments shrink {V} t es.
Arguments trie_remove {V} t k.
Arguments trie_get {V} t k.
Arguments mkTG {V} tg_exact tg_prefix matchlength tg_value.
Arguments tg_exact {V} t.
Arguments tg_prefix {V} t.
Arguments matchlength {V} t.
Arguments tg_value {V} t.
Arguments height {V} t.
