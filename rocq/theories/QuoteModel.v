(** Model of the escaping functions of expand.c: escape, unescape,
    quote_as_word, unquote and quote removal.  String buffers are lists; their
    operations are proved correct in BufProps.v. *)
From Coq Require Import Ascii String.
From Coq Require Import List NArith Bool Arith.
From Verif Require Import Common Locale CharcatModel.
Import ListNotations.
Open Scope res_scope.

Definition bs : N := ch "\".
Definition sq : N := 39%N.
Definition dq : N := 34%N.

(** expand.h:28-28 [CHARS_ESCAPABLE] *)
Definition chars_escapable : list N := [ch "$"; 96%N; dq; bs].
Definition mem (c : N) (t : list N) : bool := existsb (N.eqb c) t.

(** expand.c:1687-1703 [add_sq] with [escape] false; [s] is the text after the opening
    quote.  The result is the text added to the buffer and the text from the
    closing quote on (empty if there is none). *)
Fixpoint add_sq (s : list N) (buf : list N) : list N * list N :=
  match s with
  | [] => (buf, [])
  | c :: s' => if (c =? sq)%N then (buf, s) else add_sq s' (buf ++ [c])
  end.

(** expand.c:1708-1718 [escape]; [t] is NULL if [None] *)
Fixpoint escape_loop (s : list N) (t : option (list N)) (buf : list N) : list N :=
  match s with
  | [] => buf
  | c :: s' =>
    let buf := if match t with None => true | Some t => mem c t end then buf ++ [bs] else buf in
    escape_loop s' t (buf ++ [c])
  end.
Definition escape (s : list N) (t : option (list N)) : list N := escape_loop s t [].

(** expand.c:1721-1729 [escapefree] *)
Definition escapefree (s : list N) (t : option (list N)) : list N :=
  match t with
  | Some t' => if negb (existsb (fun c => mem c t') s) then s else escape s t
  | None => escape s t
  end.

(** expand.c:1734-1747 [unescape] *)
Fixpoint unescape_loop (s : list N) (buf : list N) : list N :=
  match s with
  | [] => buf
  | c :: s' =>
    if (c =? bs)%N then match s' with [] => buf | d :: s'' => unescape_loop s'' (buf ++ [d]) end
    else unescape_loop s' (buf ++ [c])
  end.
Definition unescape (s : list N) : list N := unescape_loop s [].

(** The characters wb_quote_as_word leaves unquoted (expand.c:1793-1794). *)
Definition bare (L : locale) (c : N) : bool :=
  (c =? ch ".")%N || (c =? ch "-")%N || (c =? ch "_")%N || (c =? ch "/")%N || iswalnum L c.

(** while (p( *end )) end++; the text passed and the rest *)
Fixpoint span (p : N -> bool) (s : list N) : list N * list N :=
  match s with
  | [] => ([], [])
  | c :: s' => if p c then let (a, r) := span p s' in (c :: a, r) else ([], s)
  end.

(** expand.c:1777-1815 [wb_quote_as_word] *)
Fixpoint quote_loop (L : locale) (fuel : nat) (s : list N) (buf : list N) : res (list N) :=
  match fuel with
  | O => Fuel
  | S fuel' =>
    match s with
    | [] => Ok buf
    | c :: s' =>
      if (c =? sq)%N then quote_loop L fuel' s' (buf ++ [bs; sq])
      else
        let (a, r) := span (bare L) s in
        if match r with [] => true | d :: _ => (d =? sq)%N end then quote_loop L fuel' r (buf ++ a)
        else
          let (a, r) := span (fun d => negb (d =? sq)%N) s in
          quote_loop L fuel' r (buf ++ [sq] ++ a ++ [sq])
    end
  end.
Definition wb_quote_as_word (L : locale) (buf s : list N) : res (list N) :=
  match s with
  | [] => Ok (buf ++ [sq; sq])
  | _ => quote_loop L (S (length s)) s buf
  end.
(** expand.c:1765-1771 [quote_as_word] *)
Definition quote_as_word (L : locale) (s : list N) : res (list N) := wb_quote_as_word L [] s.

(** expand.c:1820-1859 [unquote]; [None] is NULL (an unclosed quote) *)
Fixpoint unquote_loop (fuel : nat) (s : list N) (indq : bool) (buf : list N) : res (option (list N)) :=
  match fuel with
  | O => Fuel
  | S fuel' =>
    match s with
    | [] => Ok (if indq then None else Some buf)
    | c :: s' =>
      if (c =? sq)%N && negb indq then
        match add_sq s' buf with
        | (_, []) => Ok None
        | (buf, d :: r) => if (d =? sq)%N then unquote_loop fuel' r indq buf else UB
        end
      else if (c =? dq)%N then unquote_loop fuel' s' (negb indq) buf
      else if (c =? bs)%N then
        match s' with
        | d :: s'' =>
          if negb indq || mem d chars_escapable then unquote_loop fuel' s'' indq (buf ++ [d])
          else unquote_loop fuel' s' indq (buf ++ [c])
        | [] => unquote_loop fuel' s' indq (buf ++ [c])
        end
      else unquote_loop fuel' s' indq (buf ++ [c])
    end
  end.
Definition unquote (s : list N) : res (option (list N)) := unquote_loop (S (length s)) s false [].

(** expand.h:67-73 [escaping_T] *)
Inductive escaping := ES_NONE | ES_QUOTED | ES_QUOTED_HARD.

(** expand.c:1862-1875 [should_escape] *)
Definition should_escape (cc : cat) (e : escaping) : bool :=
  match e with
  | ES_NONE => false
  | ES_QUOTED_HARD => match org cc with Hard => true | _ => quoted cc end
  | ES_QUOTED => quoted cc
  end.

(** expand.c:1880-1893 [quote_removal] *)
Fixpoint quote_removal_loop (w : list cell) (e : escaping) (result : list N) : list N :=
  match w with
  | [] => result
  | (c, cc) :: w' =>
    if quotation cc then quote_removal_loop w' e result
    else
      let result := if should_escape cc e then result ++ [bs] else result in
      quote_removal_loop w' e (result ++ [c])
  end.
Definition quote_removal (w : list cell) (e : escaping) : list N := quote_removal_loop w e [].
