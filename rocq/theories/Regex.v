(** The part of the C library that xfnmatch.c relies on: POSIX basic regular
    expressions, XBD 9.3, as compiled by regcomp and matched by regexec.  This is
    a specification of the library, not a model of code in the repository.

    Only what xfnmatch.c emits is covered: ordinary characters, escaped special
    characters, [.], [.*], bracket expressions, [^] at the beginning and [$] at
    the end.  A construct whose meaning POSIX leaves undefined is [UB].
    Characters are wide: the conversions to and from multibyte strings are
    those of StrbufModel and are not repeated here. *)
From Coq Require Import Ascii String.
From Coq Require Import List NArith Bool Arith.
From Verif Require Import Common.
Import ListNotations.
Open Scope res_scope.

(** What a locale says about characters: character classes, collation, case.
    [coll_symbol] resolves the name in [.name.]; collating elements of more than
    one character are not modelled. *)
Record ctype := mkCtype {
  class_of : list N -> option (N -> bool);
  range_of : N -> N -> option (N -> bool);   (* None: invalid range *)
  equiv_of : list N -> option (N -> bool);
  coll_symbol : list N -> option N;
  tolower : N -> N;
  toupper : N -> N }.

(** A single character is a collating symbol for itself. *)
Definition ctype_ok (C : ctype) : Prop := forall c, coll_symbol C [c] = Some c.

(** ** Bracket expressions *)

(** A token in a bracket expression: a character that may be a range operator
    (if it is a hyphen), a character that stands for itself, or a symbol in
    [[. .]], [[: :]] or [[= =]]. *)
Inductive token := TkChar (c : N) | TkLit (c : N) | TkSym (d : N) (name : list N).

Definition dot : N := 46. Definition colon : N := 58. Definition equal : N := 61.
Definition lbr : N := 91. Definition rbr : N := 93. Definition hyphen : N := 45.
Definition caret : N := 94. Definition bslash : N := 92. Definition aster : N := 42.
Definition quest : N := 63. Definition dollar : N := 36. Definition excl : N := 33.

Definition is_symd (c : N) : bool := (c =? dot)%N || (c =? colon)%N || (c =? equal)%N.

Inductive item := IChar (c : N) | IRange (a b : N) | IClass (name : list N) | IEquiv (name : list N).

Section Ctype.
Variable C : ctype.

(** The single character a token stands for, if it is one. *)
Definition tok_point (t : token) : option N :=
  match t with
  | TkChar c | TkLit c => Some c
  | TkSym d name => if (d =? dot)%N then coll_symbol C name else None
  end.
Definition is_hyphen (t : token) : bool := match t with TkChar c => (c =? hyphen)%N | _ => false end.

(** The item a token stands for outside a range; [None] is an error of
    regcomp. *)
Definition tok_item (t : token) : option item :=
  match t with
  | TkSym d name =>
      if (d =? dot)%N then match coll_symbol C name with Some c => Some (IChar c) | None => None end
      else if (d =? colon)%N then match class_of C name with Some _ => Some (IClass name) | None => None end
      else match equiv_of C name with Some _ => Some (IEquiv name) | None => None end
  | TkChar c | TkLit c => Some (IChar c)
  end.

(** XBD 9.3.5: a hyphen stands for itself if it is first, last or the end of a
    range; elsewhere it makes a range.  Any other hyphen is an error. *)
Fixpoint items (first : bool) (l : list token) : option (list item) :=
  match l with
  | [] => Some []
  | t :: l' =>
      match l' with
      | h :: ((e :: l'') as l1) =>
          if is_hyphen t && negb first then None
          else if is_hyphen h then
            match tok_point t, tok_point e with
            | Some a, Some b =>
                match range_of C a b, items false l'' with
                | Some _, Some r => Some (IRange a b :: r)
                | _, _ => None
                end
            | _, _ => None
            end
          else
            match tok_item t, items false l' with
            | Some i, Some r => Some (i :: r)
            | _, _ => None
            end
      | [h] =>
          if is_hyphen t && negb first then None
          else match tok_item t, items false l' with
               | Some i, Some r => Some (i :: r)
               | _, _ => None
               end
      | [] => match tok_item t with Some i => Some [i] | None => None end
      end
  end.

Definition opt_mem (f : option (N -> bool)) (x : N) : bool := match f with Some g => g x | None => false end.
Definition item_mem (i : item) (x : N) : bool :=
  match i with
  | IChar c => (x =? c)%N
  | IRange a b => opt_mem (range_of C a b) x
  | IClass n => opt_mem (class_of C n) x
  | IEquiv n => opt_mem (equiv_of C n) x
  end.
Definition set_mem (neg : bool) (its : list item) (x : N) : bool :=
  xorb neg (existsb (fun i => item_mem i x) its).

(** Splitting the text of a bracket expression, after the opening bracket and
    the caret, into tokens.  [Mid] and [Start] tell whether a token has been
    seen; [Sym] is used inside a symbol, with its name so far reversed. *)
Inductive mode := Start | Mid | Sym (d : N) (acc : list N).
Fixpoint re_tokens (m : mode) (s : list N) : option (list token * list N) :=
  let cons t o := match o with Some (l, r) => Some (t :: l, r) | None => None end in
  match m, s with
  | _, [] => None
  | Sym d acc, c :: s' =>
      match s' with
      | c2 :: s'' =>
          if (c =? d)%N && (c2 =? rbr)%N then cons (TkSym d (rev acc)) (re_tokens Mid s'')
          else re_tokens (Sym d (c :: acc)) s'
      | [] => None
      end
  | _, c :: s' =>
      if (c =? rbr)%N && match m with Mid => true | _ => false end then Some ([], s')
      else
        match s' with
        | c2 :: s'' =>
            if (c =? lbr)%N && is_symd c2 then re_tokens (Sym c2 []) s''
            else cons (TkChar c) (re_tokens Mid s')
        | [] => None
        end
  end.

(** ** Regular expressions *)
Inductive ratom := RAny | RChar (c : N) | RSet (neg : bool) (its : list item) | RStar (a : ratom).
Record regex := mkRe { rhead : bool; ratoms : list ratom; rtail : bool; ricase : bool }.

Definition special (c : N) : bool :=
  existsb (N.eqb c) [dot; lbr; bslash; aster; caret; dollar].

(** One atom without a following asterisk: the atom and the rest; [Ok None] is a
    compile error. *)
Definition re_atom (s : list N) : res (option (ratom * list N)) :=
  match s with
  | [] => Ok None
  | c :: s' =>
      if (c =? dot)%N then Ok (Some (RAny, s'))
      else if (c =? lbr)%N then
        let (neg, s1) := match s' with
                         | c1 :: s1 => if (c1 =? caret)%N then (true, s1) else (false, s')
                         | [] => (false, s')
                         end in
        match re_tokens Start s1 with
        | Some (toks, r) =>
            match items true toks with
            | Some its => Ok (Some (RSet neg its, r))
            | None => Ok None
            end
        | None => Ok None
        end
      else if (c =? bslash)%N then
        match s' with
        | c1 :: s1 => if special c1 then Ok (Some (RChar c1, s1)) else UB
        | [] => UB
        end
      else Ok (Some (RChar c, s'))
  end.

(** The atoms up to the end and whether a tail anchor ends them. *)
Fixpoint re_atoms (fuel : nat) (s : list N) : res (option (list ratom * bool)) :=
  match fuel with
  | O => Fuel
  | S fuel' =>
      match s with
      | [] => Ok (Some ([], false))
      | c :: s' =>
          if (c =? dollar)%N && match s' with [] => true | _ => false end then Ok (Some ([], true))
          else
            let! r := re_atom s in
            match r with
            | None => Ok None
            | Some (a, s1) =>
                let (a1, s2) := match s1 with
                                | c1 :: s2 => if (c1 =? aster)%N then (RStar a, s2) else (a, s1)
                                | [] => (a, s1)
                                end in
                let! r2 := re_atoms fuel' s2 in
                match r2 with
                | Some (l, tl) => Ok (Some (a1 :: l, tl))
                | None => Ok None
                end
            end
      end
  end.

(** regcomp with flags 0 or REG_ICASE (REG_NOSUB only affects what is
    reported). *)
Definition regcomp (s : list N) (icase : bool) : res (option regex) :=
  let (h, s1) := match s with
                 | c :: s1 => if (c =? caret)%N then (true, s1) else (false, s)
                 | [] => (false, s)
                 end in
  match s1 with
  | c :: _ =>
      if (c =? aster)%N then UB (* a literal asterisk; never emitted *)
      else let! r := re_atoms (S (length s1)) s1 in
           Ok match r with Some (l, tl) => Some (mkRe h l tl icase) | None => None end
  | [] => Ok (Some (mkRe h [] false icase))
  end.

(** ** Matching *)
Section Match.
Variable icase : bool.

Definition char_match (c x : N) : bool :=
  if icase then (tolower C c =? tolower C x)%N else (c =? x)%N.
Definition set_match (neg : bool) (its : list item) (x : N) : bool :=
  if icase then set_mem neg its (tolower C x) || set_mem neg its (toupper C x)
  else set_mem neg its x.

(** Whether a single-character atom matches a character. *)
Definition one_match (a : ratom) (x : N) : bool :=
  match a with
  | RAny => true
  | RChar c => char_match c x
  | RSet neg its => set_match neg its x
  | RStar _ => false
  end.

(** Whether the atoms match all of [s].  A star under a star is not emitted. *)
Fixpoint re_match (l : list ratom) (s : list N) : bool :=
  match l with
  | [] => match s with [] => true | _ => false end
  | RStar a :: l' =>
      (fix star (s : list N) : bool :=
         re_match l' s ||
         match s with
         | x :: s' => one_match a x && star s'
         | [] => false
         end) s
  | a :: l' =>
      match s with
      | x :: s' => one_match a x && re_match l' s'
      | [] => false
      end
  end.
End Match.

Definition substr (s : list N) (i j : nat) : list N := firstn (j - i) (skipn i s).

(** The largest [j] in [lo .. lo + n] for which [f j]. *)
Fixpoint find_last (f : nat -> bool) (lo n : nat) : option nat :=
  if f (lo + n) then Some (lo + n)
  else match n with O => None | S n' => find_last f lo n' end.
(** The first [i] in [lo .. lo + n] for which [f i] is defined. *)
Fixpoint find_first {A} (f : nat -> option A) (lo n : nat) : option (nat * A) :=
  match f lo with
  | Some a => Some (lo, a)
  | None => match n with O => None | S n' => find_first f (S lo) n' end
  end.

(** regexec: the leftmost of the matches, and the longest among those. *)
Definition regexec (re : regex) (s : list N) : option (nat * nat) :=
  let ends i :=
    if rhead re && negb (i =? 0) then None
    else find_last (fun j => (negb (rtail re) || (j =? length s)) &&
                             re_match (ricase re) (ratoms re) (substr s i j)) i (length s - i) in
  find_first ends 0 (length s).
End Ctype.
