(** Model of hashtable.c (the array-backed chained hash table). *)
From Coq Require Import List NArith Bool Arith.
From Verif Require Import Common.
Import ListNotations.
Local Open Scope res_scope.

(** hashtable.c:73 ([NOTHING]) and the [next]/[indices] values: an index, the
    null index, or the indeterminate contents of freshly malloced memory. *)
Inductive link := Nothing | Idx (i : nat) | Undef.

Section Hashtable.
Context {K V : Type}.
(** hashtable.h: [hashfunc_T], [keycmp_T] (true = keys compare equal). *)
Variable hashfunc : K -> N.
Variable keyeq : K -> K -> bool.

(** hashtable.c:76-80 [struct hash_entry].  [kv = None] is a NULL key. *)
Record entry := mkEntry { next : link; ehash : N; kv : option (K * V) }.

(** hashtable.h:45-52 [hashtable_T].  The capacity is kept explicitly, as in C,
    separately from the lengths of the two arrays. *)
Record ht := mkHt {
  capacity : nat; count : nat; emptyindex : link; tailindex : nat;
  indices : list link; entries : list entry }.

Definition blank : entry := mkEntry Undef 0%N None.

(** [hash % capacity] *)
Definition bucket (h : N) (cap : nat) : nat := N.to_nat (h mod N.of_nat cap).

(** hashtable.c:89-111 [ht_initwithcapacity].  Memory exhaustion (xmallocn
    aborting the process) is not modelled. *)
Definition ht_initwithcapacity (cap0 : nat) : ht :=
  let cap := if Nat.eqb cap0 0 then 1 else cap0 in
  mkHt cap 0 Nothing 0 (repeat Nothing cap) (repeat blank cap).

(** hashtable.c:139-152: body of the loop moving one entry. State: (newindices,
    newentries, tail). *)
Definition move_entry (newcap : nat) (st : list link * list entry * nat) (e : entry)
  : res (list link * list entry * nat) :=
  let '(nidx, nent, tail) := st in
  match kv e with
  | None => Ok st
  | Some _ =>
      let newindex := bucket (ehash e) newcap in
      let! old := rget nidx newindex in
      let! nent' := rset nent tail (mkEntry old (ehash e) (kv e)) in
      let! nidx' := rset nidx newindex (Idx tail) in
      Ok (nidx', nent', S tail)
  end.

Fixpoint move_entries (newcap : nat) (es : list entry) (st : list link * list entry * nat)
  : res (list link * list entry * nat) :=
  match es with
  | [] => Ok st
  | e :: es' => let! st' := move_entry newcap st e in move_entries newcap es' st'
  end.

(** hashtable.c:119-162 [ht_setcapacity].  The loop visits [oldcapacity]
    elements of [oldentries]. *)
Definition ht_setcapacity (h : ht) (newcap0 : nat) : res ht :=
  let newcap1 := if Nat.eqb newcap0 0 then 1 else newcap0 in
  let newcap := if Nat.ltb newcap1 (count h) then count h else newcap1 in
  if Nat.ltb (length (entries h)) (capacity h) then UB else
  let! (nidx, nent, tail) :=
    move_entries newcap (firstn (capacity h) (entries h))
      (repeat Nothing newcap, repeat blank newcap, 0) in
  Ok (mkHt newcap (count h) Nothing tail nidx nent).

(** hashtable.c:166-177 [ht_ensurecapacity]. *)
Definition ht_ensurecapacity (h : ht) (cap : nat) : res ht :=
  if Nat.leb cap (capacity h) then Ok h else
  let cap15 := capacity h + Nat.div2 (capacity h) in
  let cap1 := if Nat.ltb cap cap15 then cap15 else cap in
  let cap2 := if Nat.ltb cap1 (capacity h + 6) then capacity h + 6 else cap1 in
  ht_setcapacity h cap2.

(** hashtable.c:183-204 [ht_clear] (the [freer] callback has no effect on the
    table and is not modelled). *)
Definition clear_entry (e : entry) : entry := mkEntry (next e) (ehash e) None.
Definition ht_clear (h : ht) : res ht :=
  if Nat.eqb (count h) 0 then Ok h else
  if Nat.ltb (length (entries h)) (capacity h) || Nat.ltb (length (indices h)) (capacity h)
  then UB else
  Ok (mkHt (capacity h) 0 Nothing 0
        (repeat Nothing (capacity h) ++ skipn (capacity h) (indices h))
        (map clear_entry (firstn (capacity h) (entries h))
           ++ skipn (capacity h) (entries h))).

(** hashtable.c:213-218, 236-245: the search loop along a chain; returns the
    index of the entry found.  Comparing the key of an unoccupied entry is
    undefined behaviour. *)
Fixpoint find_chain (fuel : nat) (es : list entry) (h : N) (k : K) (lk : link)
  : res (option nat) :=
  match lk with
  | Nothing => Ok None
  | Undef => UB
  | Idx i =>
      match fuel with
      | O => Fuel
      | S fuel' =>
          let! e := rget es i in
          if N.eqb (ehash e) h then
            match kv e with
            | None => UB
            | Some (k', _) =>
                if keyeq k' k then Ok (Some i) else find_chain fuel' es h k (next e)
            end
          else find_chain fuel' es h k (next e)
      end
  end.

(** hashtable.c:208-221 [ht_get] with a non-NULL key. *)
Definition ht_get (t : ht) (k : K) : res (option (K * V)) :=
  let h := hashfunc k in
  let! lk := rget (indices t) (bucket h (capacity t)) in
  let! oi := find_chain (S (capacity t)) (entries t) h k lk in
  match oi with
  | None => Ok None
  | Some i => let! e := rget (entries t) i in Ok (kv e)
  end.

(** hashtable.c:227-269 [ht_set]. *)
Definition ht_set (t : ht) (k : K) (v : V) : res (ht * option (K * V)) :=
  let h := hashfunc k in
  let mhash := bucket h (capacity t) in
  let! lk := rget (indices t) mhash in
  let! oi := find_chain (S (capacity t)) (entries t) h k lk in
  match oi with
  | Some i =>
      let! e := rget (entries t) i in
      let! es' := rset (entries t) i (mkEntry (next e) (ehash e) (Some (k, v))) in
      Ok (mkHt (capacity t) (count t) (emptyindex t) (tailindex t) (indices t) es', kv e)
  | None =>
      let! (t1, mhash1, index) :=
        match emptyindex t with
        | Idx i =>
            let! e := rget (entries t) i in
            Ok (mkHt (capacity t) (count t) (next e) (tailindex t) (indices t) (entries t),
                mhash, i)
        | Undef => UB
        | Nothing =>
            let! t' := ht_ensurecapacity t (count t + 1) in
            Ok (mkHt (capacity t') (count t') (emptyindex t') (S (tailindex t'))
                  (indices t') (entries t'),
                bucket h (capacity t'), tailindex t')
        end in
      let! nx := rget (indices t1) mhash1 in
      let! es' := rset (entries t1) index (mkEntry nx h (Some (k, v))) in
      let! idx' := rset (indices t1) mhash1 (Idx index) in
      Ok (mkHt (capacity t1) (S (count t1)) (emptyindex t1) (tailindex t1) idx' es', None)
  end.

(** hashtable.c:278-291: the removal loop.  [indexp] points either at a bucket
    head ([PBucket b]) or at the [next] member of entry [i] ([PNext i]). *)
Inductive linkptr := PBucket (b : nat) | PNext (i : nat).

Definition deref (t : ht) (p : linkptr) : res link :=
  match p with
  | PBucket b => rget (indices t) b
  | PNext i => let! e := rget (entries t) i in Ok (next e)
  end.

Definition assign (t : ht) (p : linkptr) (l : link) : res ht :=
  match p with
  | PBucket b =>
      let! idx := rset (indices t) b l in
      Ok (mkHt (capacity t) (count t) (emptyindex t) (tailindex t) idx (entries t))
  | PNext i =>
      let! e := rget (entries t) i in
      let! es := rset (entries t) i (mkEntry l (ehash e) (kv e)) in
      Ok (mkHt (capacity t) (count t) (emptyindex t) (tailindex t) (indices t) es)
  end.

Fixpoint remove_loop (fuel : nat) (t : ht) (h : N) (k : K) (p : linkptr)
  : res (ht * option (K * V)) :=
  let! lk := deref t p in
  match lk with
  | Nothing => Ok (t, None)
  | Undef => UB
  | Idx i =>
      match fuel with
      | O => Fuel
      | S fuel' =>
          let! e := rget (entries t) i in
          let! hit :=
            (if N.eqb (ehash e) h then
               match kv e with
               | None => UB
               | Some (k', _) => Ok (keyeq k' k)
               end
             else Ok false) in
          if hit : bool then
            let! t1 := assign t p (next e) in
            let! e1 := rget (entries t1) i in
            let! es := rset (entries t1) i (mkEntry (emptyindex t1) (ehash e1) None) in
            Ok (mkHt (capacity t1) (count t1 - 1) (Idx i) (tailindex t1) (indices t1) es,
                kv e)
          else remove_loop fuel' t h k (PNext i)
      end
  end.

(** hashtable.c:273-294 [ht_remove] with a non-NULL key. *)
Definition ht_remove (t : ht) (k : K) : res (ht * option (K * V)) :=
  let h := hashfunc k in
  remove_loop (S (capacity t)) t h k (PBucket (bucket h (capacity t))).

(** hashtable.c:329-338 [ht_next]: result and new index. *)
Fixpoint ht_next_loop (fuel : nat) (t : ht) (i : nat) : res (option (K * V) * nat) :=
  if Nat.ltb i (capacity t) then
    match fuel with
    | O => Fuel
    | S fuel' =>
        let! e := rget (entries t) i in
        match kv e with
        | Some p => Ok (Some p, S i)
        | None => ht_next_loop fuel' t (S i)
        end
    end
  else Ok (None, i).
Definition ht_next (t : ht) (i : nat) : res (option (K * V) * nat) :=
  ht_next_loop (S (capacity t)) t i.

(** A caller's full iteration: call [ht_next] from index zero until it returns
    NULL (the idiom of every caller, e.g. alias.c:427). *)
Fixpoint iterate (fuel : nat) (t : ht) (i : nat) : res (list (K * V)) :=
  match fuel with
  | O => Fuel
  | S fuel' =>
      let! (o, j) := ht_next t i in
      match o with
      | None => Ok []
      | Some p => let! r := iterate fuel' t j in Ok (p :: r)
      end
  end.

(** hashtable.c:343-356 [ht_tokvarray].  The destination has [count + 1] cells;
    writing beyond them and the failing assertion are undefined behaviour.
    Returns the cells before the terminator. *)
Fixpoint tokv_loop (t : ht) (i n : nat) (room : nat) : res (list (K * V)) :=
  match n with
  | O => if Nat.eqb room 1 then Ok [] else UB (* assert(index == ht->count) *)
  | S n' =>
      let! e := rget (entries t) i in
      match kv e with
      | None => tokv_loop t (S i) n' room
      | Some p =>
          match room with
          | O => UB
          | S room' => let! r := tokv_loop t (S i) n' room' in Ok (p :: r)
          end
      end
  end.
Definition ht_tokvarray (t : ht) : res (list (K * V)) :=
  tokv_loop t 0 (capacity t) (count t + 1).

(** A client: the sequence of API calls applied to a table. *)
Inductive op :=
  | OGet (k : K) | OSet (k : K) (v : V) | ORemove (k : K) | OClear
  | OSetCapacity (n : nat) | OEnsureCapacity (n : nat)
  | OCount | OIterate | OToArray.

Inductive out :=
  | RNone | RKv (o : option (K * V)) | RNum (n : nat) | RList (l : list (K * V)).

Definition step (t : ht) (o : op) : res (ht * out) :=
  match o with
  | OGet k => let! r := ht_get t k in Ok (t, RKv r)
  | OSet k v => let! (t', r) := ht_set t k v in Ok (t', RKv r)
  | ORemove k => let! (t', r) := ht_remove t k in Ok (t', RKv r)
  | OClear => let! t' := ht_clear t in Ok (t', RNone)
  | OSetCapacity n => let! t' := ht_setcapacity t n in Ok (t', RNone)
  | OEnsureCapacity n => let! t' := ht_ensurecapacity t n in Ok (t', RNone)
  | OCount => Ok (t, RNum (count t))
  | OIterate => let! l := iterate (S (S (capacity t))) t 0 in Ok (t, RList l)
  | OToArray => let! l := ht_tokvarray t in Ok (t, RList l)
  end.

Fixpoint run (t : ht) (os : list op) : res (list out) :=
  match os with
  | [] => Ok []
  | o :: os' =>
      let! (t', r) := step t o in
      let! rs := run t' os' in
      Ok (r :: rs)
  end.
End Hashtable.

(** hashtable.c:362-371 [hashstr] and hashtable.c:376-385 [hashwcs]: 32-bit FNV variant
    (hashtable.h selects the type; the 32-bit default case is modelled). *)
Definition fnvprime : N := 16777619.
Definition hashwcs (s : list N) : N :=
  fold_left (fun h c => ((N.lxor h (c mod 4294967296)) * fnvprime) mod 4294967296)%N s 0%N.
