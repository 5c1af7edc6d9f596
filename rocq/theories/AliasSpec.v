(** What alias substitution does, in terms of where the text comes from.

    Every character of the source carries the set of the aliases from whose
    expansion it comes (none for characters read from the input).  An alias is
    never substituted for a word whose first character comes from its own
    expansion; the inserted text comes from the expansion of the alias and of
    everything the replaced word came from.  No index is stored for that. *)
From Coq Require Import Ascii String.
From Coq Require Import List NArith Bool Arith.
From Verif Require Import Common Locale AliasModel.
Import ListNotations.

Record sstate := mkS {
  stext : list (N * list nat);   (* characters with their origins *)
  spos : nat;                    (* where parsing has got to *)
  sends : list nat;              (* ends of non-global expansions that end with a blank *)
  seof : bool                    (* whether a word at the end of the input was replaced *)
}.
Definition chars (s : sstate) : list N := map fst (stext s).

(** What can happen to the source while it is parsed. *)
Inductive event :=
| EAdvance (i : nat)                          (* parsing proceeds to index i *)
| ESubst (j : nat) (nonglobal noeof : bool)   (* the word up to j is tried for aliases *)
| ELineCont (k : nat)                         (* a backslash-newline at k is removed *)
| ERead (s : list N).                         (* a line is appended *)

Section Spec.
Variable L : locale.
Variable posix : bool.
Variable t : table.

Definition shift_end (pos j len e : nat) : nat := if pos <? e then e - (j - pos) + len else e.
Definition origins (s : sstate) (p : nat) : list nat := snd (nth p (stext s) (0%N, [])).

(** The word follows, with only blanks in between, an expansion that ended with a
    blank. *)
Definition after_blank_expansion (s : sstate) : Prop :=
  exists e, In e (sends s) /\ e <= spos s /\
    forall p, e <= p -> p < spos s -> iswblank L (nth p (chars s) 0%N) = true.

(** Alias [a] replaces the word from the current position to [j]. *)
Definition replaces (s : sstate) (j : nat) (nonglobal noeof : bool) (a : alias) : Prop :=
  spos s < j /\ (noeof = true -> j < length (stext s)) /\
  In (firstn (j - spos s) (skipn (spos s) (chars s)), a) t /\
  (nonglobal = true \/ after_blank_expansion s \/ (isglobal a = true /\ posix = false)) /\
  ~ In (aid a) (origins s (spos s)).

Definition blank_ending (a : alias) : Prop :=
  isglobal a = false /\ exists v c, avalue a = v ++ [c] /\ iswblank L c = true.

Inductive sstep : sstate -> event -> sstate -> bool -> Prop :=
| st_advance s i : spos s <= i -> i <= length (stext s) ->
    sstep s (EAdvance i) (mkS (stext s) i (sends s) (seof s)) false
| st_replace s j ng ne a ends' : spos s <= j -> j <= length (stext s) ->
    is_token_delimiter_char L (nth j (chars s) 0%N) = true ->
    replaces s j ng ne a ->
    (forall e, In e ends' <-> 
       (exists e0, In e0 (sends s) /\ e = shift_end (spos s) j (length (avalue a)) e0) \/
       (blank_ending a /\ e = spos s + length (avalue a))) ->
    sstep s (ESubst j ng ne)
      (mkS (firstn (spos s) (stext s) ++
            map (fun c => (c, aid a :: origins s (spos s))) (avalue a) ++
            skipn j (stext s))
           (spos s) ends' (seof s || (j =? length (stext s)))) true
| st_keep s j ng ne : spos s <= j -> j <= length (stext s) ->
    is_token_delimiter_char L (nth j (chars s) 0%N) = true ->
    (forall a, ~ replaces s j ng ne a) ->
    sstep s (ESubst j ng ne) s false
| st_linecont s k : spos s <= k -> k + 2 <= length (stext s) ->
    nth k (chars s) 0%N = 92%N -> nth (k + 1) (chars s) 0%N = 10%N ->
    incl (origins s k) (origins s (k + 1)) ->
    sstep s (ELineCont k)
      (mkS (firstn k (stext s) ++ skipn (k + 2) (stext s)) (spos s)
           (map (fun e => if k + 1 <? e then e - 2 else e) (sends s)) (seof s)) false
| st_read s l : seof s = false ->
    sstep s (ERead l) (mkS (stext s ++ map (fun c => (c, [])) l) (spos s) (sends s) (seof s)) false.

Inductive sruns : sstate -> list event -> sstate -> list bool -> Prop :=
| sr_nil s : sruns s [] s []
| sr_cons s e s' b es s'' bs : sstep s e s' b -> sruns s' es s'' bs -> sruns s (e :: es) s'' (b :: bs).

Definition sinit : sstate := mkS [] 0 [] false.

(** The same events carried out by the code on the buffer and the alias list. *)
Open Scope res_scope.
Definition cstep (st : list N * nat * aliaslist) (e : event) : res (list N * nat * aliaslist * bool) :=
  let '(buf, i, l) := st in
  match e with
  | EAdvance i' => Ok (buf, i', l, false)
  | ESubst j ng ne =>
      let! (r, b) := substitute_alias_range L posix t buf i j l ng ne in
      let (buf', l') := r in Ok (buf', i, l', b)
  | ELineCont k => let! (buf', l') := line_continuation buf l k in Ok (buf', i, l', false)
  | ERead s => Ok (buf ++ s, i, l, false)
  end.
Fixpoint cruns (st : list N * nat * aliaslist) (es : list event) : res (list N * nat * aliaslist * list bool) :=
  match es with
  | [] => Ok (st, [])
  | e :: es' =>
      let! (st', b) := cstep st e in
      let! (st'', bs) := cruns st' es' in
      Ok (st'', b :: bs)
  end.

(** Tables made by the alias built-in. *)
Record table_ok : Prop := {
  tk_names : NoDup (map fst t);
  tk_ids : NoDup (map (fun e => aid (snd e)) t);
  tk_valid : forall n a, In (n, a) t -> n <> [] /\ Forall (fun c => is_alias_name_char L c = true) n
}.
End Spec.
Arguments table_ok L t : clear implicits.

(** The text read in a sequence of events. *)
Fixpoint text_read (es : list event) : nat :=
  match es with
  | [] => 0
  | ERead s :: es' => length s + text_read es'
  | _ :: es' => text_read es'
  end.
Definition max_value (t : table) : nat := fold_right (fun e m => Nat.max (length (avalue (snd e))) m) 0 t.

(** What the alias and unalias commands define: a name, made of name
    characters, maps to the text after the first equal sign. *)
Fixpoint split_equal (arg : list N) : option (list N * list N) :=
  match arg with
  | [] => None
  | c :: arg' =>
      if (c =? 61)%N then Some ([], arg')
      else match split_equal arg' with Some (n, v) => Some (c :: n, v) | None => None end
  end.
Definition defs := list N -> option (bool * list N).
Definition defs_step (L : locale) (m : defs) (c : tcmd) : defs :=
  match c with
  | CDefine arg g =>
      match split_equal arg with
      | Some (c :: n, v) =>
          if forallb (is_alias_name_char L) (c :: n)
          then fun k => if list_N_eqb (c :: n) k then Some (g, v) else m k
          else m
      | _ => m
      end
  | CRemove name => fun k => if list_N_eqb name k then None else m k
  | CClear => fun _ => None
  end.
Definition defs_of (L : locale) (cs : list tcmd) : defs := fold_left (defs_step L) cs (fun _ => None).
