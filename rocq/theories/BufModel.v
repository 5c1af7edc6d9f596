(** Model of the growable pointer list (plist.c, plist.h) and of the growable byte
    and wide-character buffers (strbuf.c, strbuf.h), with util.h's checked size_t
    arithmetic.

    The three containers have the same code up to the element type, the element
    size and the growth step, so they are modelled once, parametrised by
    - [esz]: 8 for plist_T, 1 for xstrbuf_T, 4 for xwcsbuf_T,
    - [step]: 6 (plist.c:123), 10 (strbuf.c:92), 8 (strbuf.c:361).
    size_t is 64 bits wide and wraps around.  An array is a list of cells, a cell
    being [None] while it is uninitialised; reading or writing outside the list is
    [UB].  [None] as a result means that alloc_failed() aborted the shell. *)
From Coq Require Import List NArith ZArith Bool Lia.
From Verif Require Import Common.
Import ListNotations.
Local Open Scope N_scope.
Local Open Scope res_scope.

Definition SIZE_MOD : N := 18446744073709551616.
Definition SIZE_MAX : N := 18446744073709551615.
Definition wadd (a b : N) : N := (a + b) mod SIZE_MOD.
Definition wsub (a b : N) : N := (a + SIZE_MOD - b) mod SIZE_MOD.
Definition wmul (a b : N) : N := (a * b) mod SIZE_MOD.

(** Sequencing of steps that may abort. *)
Definition abind {A B} (x : res (option A)) (f : A -> res (option B)) : res (option B) :=
  let! o := x in match o with Some a => f a | None => Ok None end.
Notation "'let?' x ':=' a 'in' b" := (abind a (fun x => b))
  (at level 200, x pattern, a at level 100, b at level 200) : res_scope.

(** util.h:78-84 [add] *)
Definition add (a b : N) : res (option N) :=
  let sum := wadd a b in if sum <? a then Ok None else Ok (Some sum).
(** util.h:88-94 [mul] *)
Definition mul (a b : N) : res (option N) :=
  let product := wmul a b in
  if negb (b =? 0) && negb (product / b =? a) then Ok None else Ok (Some product).

Definition lenN {A} (l : list A) : N := N.of_nat (length l).
Definition takeN {A} (n : N) (l : list A) : list A := firstn (N.to_nat n) l.
Definition dropN {A} (n : N) (l : list A) : list A := skipn (N.to_nat n) l.

Section Buf.
Variable A : Type.
(** NULL or the null character *)
Variable nul : A.
Variable isnul : A -> bool.
Variable esz step : N.
(** Whether malloc/realloc of this many bytes succeeds. *)
Variable alloc : N -> bool.

(** plist.h:34-38 [plist_T], strbuf.h:36-43 [xstrbuf_T], [xwcsbuf_T] *)
Record buf := mkBuf { contents : list (option A); blen : N; bmax : N }.

(** C11 7.24.2.2 memmove / wmemmove, in elements *)
Definition memmove (c : list (option A)) (dst src n : N) : res (list (option A)) :=
  if (dst + n <=? lenN c) && (src + n <=? lenN c)
  then Ok (takeN dst c ++ takeN n (dropN src c) ++ dropN (dst + n) c)
  else UB.
(** memcpy / wmemcpy from another array *)
Definition memcpy (c : list (option A)) (dst : N) (a : list (option A)) (n : N)
  : res (list (option A)) :=
  if (dst + n <=? lenN c) && (n <=? lenN a)
  then Ok (takeN dst c ++ takeN n a ++ dropN (dst + n) c)
  else UB.
(** Assignment to one element *)
Definition put (c : list (option A)) (i : N) (x : A) : res (list (option A)) :=
  if i <? lenN c then Ok (takeN i c ++ Some x :: dropN (i + 1) c) else UB.
Definition get (c : list (option A)) (i : N) : res A :=
  match nth_error c (N.to_nat i) with Some (Some x) => Ok x | _ => UB end.

(** util.h:123-126 [xmalloce](count, 1, size), strbuf.c:50 *)
Definition xmalloce (n : N) : res (option (list (option A))) :=
  let? k := add n 1 in
  let? b := mul k esz in
  if alloc b then Ok (Some (repeat None (N.to_nat k))) else Ok None.
(** util.h:136-168 [xrealloce](ptr, count, 1, size), strbuf.c:74: the common prefix
    is kept, the rest is uninitialised.  (The size is never zero.) *)
Definition xrealloce (c : list (option A)) (n : N) : res (option (list (option A))) :=
  let? k := add n 1 in
  let? b := mul k esz in
  if alloc b
  then Ok (Some (takeN k c ++ repeat None (N.to_nat k - length c)%nat)) else Ok None.

(** plist.c:91-98 [pl_initwithmax], strbuf.c:47-55 [sb_initwithmax],
    strbuf.c:318-325 [wb_initwithmax] *)
Definition b_initwithmax (max : N) : res (option buf) :=
  let? c := xmalloce max in
  let! c := put c 0 nul in
  Ok (Some (mkBuf c 0 max)).

(** plist.h:108-116 [pl_initwith]: the array must hold [len] elements and NULL. *)
Definition b_initwith (c : list (option A)) (len : N) : res (option buf) :=
  let! x := get c len in
  if isnul x then Ok (Some (mkBuf c len len)) else UB (* assertion *).

(** plist.c:103-111 [pl_setmax], strbuf.c:71-80 [sb_setmax], strbuf.c:341-349
    [wb_setmax] *)
Definition b_setmax (b : buf) (newmax : N) : res (option buf) :=
  let? c := xrealloce (contents b) newmax in
  let! c := put c newmax nul in
  Ok (Some (mkBuf c (if newmax <? blen b then newmax else blen b) newmax)).

(** plist.c:115-126 [pl_ensuremax], strbuf.c:84-95 [sb_ensuremax], strbuf.c:353-364
    [wb_ensuremax] *)
Definition b_ensuremax (b : buf) (max : N) : res (option buf) :=
  if max <=? bmax b then Ok (Some b) else
  let len15 := wadd (bmax b) (N.shiftr (bmax b) 1) in
  let max := if max <? len15 then len15 else max in
  let max := if max <? wadd (bmax b) step then wadd (bmax b) step else max in
  b_setmax b max.

(** plist.h:144-151 [pl_truncate], strbuf.h:236-243 [sb_truncate], strbuf.h:358-365
    [wb_truncate] *)
Definition b_truncate (b : buf) (n : N) : res (option buf) :=
  if n <=? blen b then
    let! c := put (contents b) n nul in Ok (Some (mkBuf c n (bmax b)))
  else UB (* assertion *).

(** plist.c:130-136 [pl_clear] (the calls of freer are not modelled), strbuf.h:247-250
    [sb_clear], strbuf.h:369-372 [wb_clear] *)
Definition b_clear (b : buf) : res (option buf) :=
  let! c := put (contents b) 0 nul in Ok (Some (mkBuf c 0 (bmax b))).

(** strbuf.c:102-113 [sb_replace_force], strbuf.c:371-382 [wb_replace_force]; also
    plist.c:155-161, the end of [pl_replace] *)
Definition b_replace_force (b : buf) (i bn : N) (s : list (option A)) (sn : N)
  : res (option buf) :=
  let? newlength := add (wsub (blen b) bn) sn in
  let? b := b_ensuremax b newlength in
  let! c := memmove (contents b) (wadd i sn) (wadd i bn)
              (wadd (wsub (blen b) (wadd i bn)) 1) in
  let! c := memcpy c i s sn in
  Ok (Some (mkBuf c newlength (bmax b))).

(** plist.c:146-162 [pl_replace] *)
Definition pl_replace (b : buf) (i ln : N) (a : list (option A)) (an : N)
  : res (option buf) :=
  let i := if blen b <? i then blen b else i in
  let ln := if wsub (blen b) i <? ln then wsub (blen b) i else ln in
  b_replace_force b i ln a an.

(** plist.c:31-37 [plcount], strlen, wcslen: index of the first null element *)
Fixpoint plcount (a : list (option A)) : res N :=
  match a with
  | Some x :: a' => if isnul x then Ok 0 else let! n := plcount a' in Ok (1 + n)
  | _ => UB
  end.
(** util.c:54-60 [xstrnlen], util.c:78-84 [xwcsnlen] *)
Fixpoint xnlen (fuel : nat) (a : list (option A)) (max : N) : res N :=
  if max =? 0 then Ok 0 else
  match a, fuel with
  | Some x :: a', S f => if isnul x then Ok 0 else let! n := xnlen f a' (max - 1) in Ok (1 + n)
  | Some _ :: _, O => Fuel
  | _, _ => UB
  end.

(** strbuf.c:122-132 [sb_replace], strbuf.c:391-401 [wb_replace] *)
Definition b_replace (b : buf) (i bn : N) (s : list (option A)) (sn : N)
  : res (option buf) :=
  let! sn := xnlen (length s) s sn in
  let i := if blen b <? i then blen b else i in
  let bn := if wsub (blen b) i <? bn then wsub (blen b) i else bn in
  b_replace_force b i bn s sn.

(** plist.h:158-195 [pl_ninsert], [pl_insert], [pl_ncat], [pl_cat], [pl_remove] *)
Definition pl_ninsert (b : buf) (i : N) (a : list (option A)) (n : N) := pl_replace b i 0 a n.
Definition pl_insert (b : buf) (i : N) (a : list (option A)) :=
  let! n := plcount a in pl_replace b i 0 a n.
Definition pl_ncat (b : buf) (a : list (option A)) (n : N) := pl_replace b SIZE_MAX 0 a n.
Definition pl_cat (b : buf) (a : list (option A)) :=
  let! n := plcount a in pl_replace b SIZE_MAX 0 a n.
Definition pl_remove (b : buf) (i n : N) := pl_replace b i n [Some nul] 0.

(** strbuf.h:256-320 and 378-443: [sb_ninsert], [sb_insert], [sb_ncat_force],
    [sb_ncat], [sb_cat], [sb_remove] and their wb_ twins *)
Definition b_ninsert (b : buf) (i : N) s n := b_replace b i 0 s n.
Definition b_insert (b : buf) (i : N) s := b_replace b i 0 s SIZE_MAX.
Definition b_ncat_force (b : buf) s n := b_replace_force b (blen b) 0 s n.
Definition b_ncat (b : buf) s n := b_replace b SIZE_MAX 0 s n.
Definition b_cat (b : buf) s := b_replace b SIZE_MAX 0 s SIZE_MAX.
Definition b_remove (b : buf) (i n : N) := b_replace b i n [Some nul] 0.

(** plist.c:166-172 [pl_add], strbuf.c:136-142 [sb_ccat], strbuf.c:405-411 [wb_wccat] *)
Definition b_add (b : buf) (x : A) : res (option buf) :=
  let? n := add (blen b) 1 in
  let? b := b_ensuremax b n in
  let! c := put (contents b) (blen b) x in
  let l := wadd (blen b) 1 in
  let! c := put c l nul in
  Ok (Some (mkBuf c l (bmax b))).

(** memset *)
Definition memset (c : list (option A)) (dst : N) (x : A) (n : N) : res (list (option A)) :=
  if dst + n <=? lenN c
  then Ok (takeN dst c ++ repeat (Some x) (N.to_nat n) ++ dropN (dst + n) c) else UB.
(** strbuf.c:146-153 [sb_ccat_repeat] *)
Definition b_ccat_repeat (b : buf) (x : A) (n : N) : res (option buf) :=
  let? k := add (blen b) n in
  let? b := b_ensuremax b k in
  let! c := memset (contents b) (blen b) x n in
  let l := wadd (blen b) n in
  let! c := put c l nul in
  Ok (Some (mkBuf c l (bmax b))).

(** plist.c:53-54 the loop of [plndup] *)
Fixpoint ndup_count (fuel : nat) (a : list (option A)) (count : N) : res N :=
  match a with
  | Some x :: a' =>
      if isnul x then Ok 0
      else if count =? 0 then Ok 0
      else match fuel with
           | O => Fuel
           | S f => let! n := ndup_count f a' (count - 1) in Ok (1 + n)
           end
  | _ => UB
  end.
(** plist.c:57-58: result[i] = copy(array[i]), from index [i] on *)
Fixpoint ndup_loop (copy : A -> A) (k : nat) (c a : list (option A)) (i : N)
  : res (list (option A)) :=
  match k with
  | O => Ok c
  | S k' =>
      let! x := get a i in
      let! c := put c i (copy x) in
      ndup_loop copy k' c a (i + 1)
  end.
(** plist.c:47-61 [plndup] for a non-NULL array *)
Definition plndup (copy : A -> A) (a : list (option A)) (count : N)
  : res (option (list (option A))) :=
  let! n := ndup_count (length a) a count in
  let? c := xmalloce n in
  let! c := ndup_loop copy (N.to_nat n) c a 0 in
  let! c := put c n nul in
  Ok (Some c).

End Buf.
Arguments contents {A} b.
Arguments blen {A} b.
Arguments bmax {A} b.
Arguments mkBuf {A} contents blen bmax.
