(** Specification of shell pattern matching (POSIX XCU 2.13), independent of
    xfnmatch.c.  A pattern is first read as characters marked with whether they
    are quoted by a backslash; the marked text is then parsed into atoms. *)
From Coq Require Import Ascii String.
From Coq Require Import List NArith Bool Arith.
From Verif Require Import Common Regex.
Import ListNotations.

Definition mark := (N * bool)%type.

(** Quoting: a backslash quotes the next character; at the end of the pattern
    it is ignored. *)
Fixpoint marks (pat : list N) : list mark :=
  match pat with
  | [] => []
  | c :: pat' =>
      if (c =? bslash)%N then
        match pat' with
        | [] => []
        | c1 :: pat'' => (c1, true) :: marks pat''
        end
      else (c, false) :: marks pat'
  end.

(** The tokens of a bracket expression, after the opening bracket and the
    exclamation mark, and the text after the closing bracket.  A quoted
    character stands for itself. *)
Fixpoint gtok (md : mode) (m : list mark) : option (list token * list mark) :=
  let cons t o := match o with Some (l, r) => Some (t :: l, r) | None => None end in
  match md, m with
  | _, [] => None
  | Sym d acc, (c, q) :: m' =>
      match m' with
      | (c2, q2) :: m'' =>
          if (c =? d)%N && negb q && (c2 =? rbr)%N && negb q2
          then cons (TkSym d (rev acc)) (gtok Mid m'')
          else gtok (Sym d (c :: acc)) m'
      | [] => None
      end
  | _, (c, true) :: m' => cons (TkLit c) (gtok Mid m')
  | _, (c, false) :: m' =>
      if (c =? rbr)%N && match md with Mid => true | _ => false end then Some ([], m')
      else
        match m' with
        | (c2, q2) :: m'' =>
            if (c =? lbr)%N && is_symd c2 && negb q2 then gtok (Sym c2 []) m''
            else cons (TkChar c) (gtok Mid m')
        | [] => None
        end
  end.

(** A bracket expression after its opening bracket: whether it is negated, its
    tokens and the text after it. *)
Definition gbracket (m : list mark) : option (bool * list token * list mark) :=
  let (neg, m1) := match m with
                   | (c, false) :: m1 =>
                       if (c =? excl)%N || (c =? caret)%N then (true, m1) else (false, m)
                   | _ => (false, m)
                   end in
  match gtok Start m1 with Some (toks, r) => Some (neg, toks, r) | None => None end.

Inductive gatom := GAny | GStar | GChar (c : N) | GSet (neg : bool) (its : list item).

Section Ctype.
Variable C : ctype.

(** The atoms of a pattern.  An opening bracket that does not begin a bracket
    expression is an ordinary character.  A pattern with an invalid bracket
    expression has no atoms. *)
Inductive gparses : list mark -> list gatom -> Prop :=
| gp_nil : gparses [] []
| gp_any m l : gparses m l -> gparses ((quest, false) :: m) (GAny :: l)
| gp_star m l : gparses m l -> gparses ((aster, false) :: m) (GStar :: l)
| gp_set m neg toks r its l : gbracket m = Some (neg, toks, r) -> items C true toks = Some its ->
    gparses r l -> gparses ((lbr, false) :: m) (GSet neg its :: l)
| gp_open m l : gbracket m = None -> gparses m l -> gparses ((lbr, false) :: m) (GChar lbr :: l)
| gp_char c q m l : q = true \/ (c <> quest /\ c <> aster /\ c <> lbr) ->
    gparses m l -> gparses ((c, q) :: m) (GChar c :: l).

(** What the atoms match; [icase] ignores case. *)
Inductive gmatch (icase : bool) : list gatom -> list N -> Prop :=
| gm_nil : gmatch icase [] []
| gm_any l x s : gmatch icase l s -> gmatch icase (GAny :: l) (x :: s)
| gm_star l t s : gmatch icase l s -> gmatch icase (GStar :: l) (t ++ s)
| gm_char c l x s : char_match C icase c x = true -> gmatch icase l s -> gmatch icase (GChar c :: l) (x :: s)
| gm_set neg its l x s : set_match C icase neg its x = true -> gmatch icase l s ->
    gmatch icase (GSet neg its :: l) (x :: s).

(** The pattern [pat] matches [s]. *)
Definition pmatch (icase : bool) (pat s : list N) : Prop :=
  exists l, gparses (marks pat) l /\ gmatch icase l s.
End Ctype.

(** Patterns that avoid quoting the delimiters of a symbol in a bracket
    expression: after an unquoted [[] that another one precedes there is no quoted
    [.], [:] or [=], and a symbol contains no quoted character. *)
Fixpoint symbol_plain (seen : bool) (d : N) (m : list mark) : bool :=
  match m with
  | (c, q) :: m' =>
      match m' with
      | (c2, q2) :: _ =>
          if (c =? d)%N && (c2 =? rbr)%N then negb (seen || q || q2)
          else symbol_plain (seen || q) d m'
      | [] => true
      end
  | [] => true
  end.
Fixpoint clear_marks (inb : bool) (m : list mark) : bool :=
  match m with
  | [] => true
  | (c, q) :: m' =>
      if (c =? lbr)%N && negb q then
        match m' with
        | (d, qd) :: m'' =>
            negb inb || negb (is_symd d) || (negb qd && symbol_plain false d m'')
        | [] => true
        end && clear_marks true m'
      else clear_marks inb m'
  end.
Definition clear_pattern (pat : list N) : Prop := clear_marks false (marks pat) = true.

(** ** Which part of the subject is matched *)
Section Wanted.
Variable P : list N -> Prop.    (* the language of the pattern *)
Variables (short head tail : bool).
Variable s : list N.

Definition is_match (i j : nat) : Prop :=
  i <= j /\ j <= length s /\ P (substr s i j) /\ (head = true -> i = 0) /\ (tail = true -> j = length s).

(** The leftmost match, and the longest there; or, if [short], the match of
    least length. *)
Definition better (i j i' j' : nat) : Prop :=
  if short then j - i <= j' - i' else i < i' \/ i = i' /\ j' <= j.

Definition wanted (r : option (nat * nat)) : Prop :=
  match r with
  | Some (i, j) => is_match i j /\ forall i' j', is_match i' j' -> better i j i' j'
  | None => forall i j, ~ is_match i j
  end.
End Wanted.

(** Replacing all non-overlapping matches from left to right, until there is no
    match or the match is empty. *)
Inductive replaces_all (P : list N -> Prop) (tail : bool) (repl : list N) : list N -> list N -> Prop :=
| ra_stop s r : wanted P false false tail s r ->
    (forall i j, r = Some (i, j) -> j <= i) -> replaces_all P tail repl s s
| ra_next s i j out : wanted P false false tail s (Some (i, j)) -> i < j ->
    replaces_all P tail repl (skipn j s) out ->
    replaces_all P tail repl s (firstn i s ++ repl ++ out).

(** [out] is [s] without its shortest or longest prefix (suffix) in [P], or [s]
    itself if there is none. *)
Definition cut_prefix (P : list N -> Prop) (longest : bool) (s out : list N) : Prop :=
  (exists p, s = p ++ out /\ P p /\
     forall p' r', s = p' ++ r' -> P p' ->
       if longest then length p' <= length p else length p <= length p') \/
  (out = s /\ forall p' r', s = p' ++ r' -> ~ P p').
Definition cut_suffix (P : list N -> Prop) (longest : bool) (s out : list N) : Prop :=
  (exists p, s = out ++ p /\ P p /\
     forall p' r', s = r' ++ p' -> P p' ->
       if longest then length p' <= length p else length p <= length p') \/
  (out = s /\ forall p' r', s = r' ++ p' -> ~ P p').

(** [out] is [s] with the leftmost longest substring in [P] replaced, among those
    at the beginning if [head] and at the end if [tail]; [s] is unchanged if
    there is none or that substring is empty. *)
Definition replaces_once (P : list N -> Prop) (head tail : bool) (repl s out : list N) : Prop :=
  (exists a m b, s = a ++ m ++ b /\ P m /\ (head = true -> a = []) /\ (tail = true -> b = []) /\
     (forall a' m' b', s = a' ++ m' ++ b' -> P m' -> (head = true -> a' = []) -> (tail = true -> b' = []) ->
        length a < length a' \/ length a = length a' /\ length m' <= length m) /\
     out = if (0 <? length m) then a ++ repl ++ b else s) \/
  (out = s /\ forall a m b, s = a ++ m ++ b -> P m -> (head = true -> a = []) -> (tail = true -> b = []) -> False).

(** The pattern begins with an explicit period. *)
Definition leading_dot (pat : list N) : Prop := exists q m, marks pat = (dot, q) :: m.
