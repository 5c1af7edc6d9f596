(** The tokens of a text: gaps, comments, operators by the longest match, and words
    delimited by unquoted blanks and operator characters. *)
From Coq Require Import Ascii String.
From Coq Require Import List NArith Bool Arith.
From Verif Require Import Common Locale ParseModel.
Import ListNotations.
Local Open Scope N_scope.

(** A sequence of line continuations *)
Inductive conts : list N -> Prop :=
  | conts_nil : conts []
  | conts_cons : forall k, conts k -> conts (ch "\" :: 10 :: k).

(** The operators and their spelling *)
Definition spellings : list (list N * tt) :=
  [([10], TT_NEWLINE); (str "(", TT_LPAREN); (str ")", TT_RPAREN); (str ";", TT_SEMICOLON); (str ";;", TT_DOUBLE_SEMICOLON);
   (str "&", TT_AMP); (str "&&", TT_AMPAMP); (str "|", TT_PIPE); (str "||", TT_PIPEPIPE);
   (str "<", TT_LESS); (str "<>", TT_LESSGREATER); (str "<&", TT_LESSAMP); (str "<(", TT_LESSLPAREN);
   (str "<<", TT_LESSLESS); (str "<<-", TT_LESSLESSDASH); (str "<<<", TT_LESSLESSLESS);
   (str ">", TT_GREATER); (str ">&", TT_GREATERAMP); (str ">|", TT_GREATERPIPE); (str ">(", TT_GREATERLPAREN);
   (str ">>", TT_GREATERGREATER); (str ">>|", TT_GREATERGREATERPIPE)].
(** The text starts with the operator; line continuations may come between its
    characters. *)
Inductive spells : list N -> list N -> list N -> Prop :=
  | spells_last : forall c r, spells [c] (c :: r) r
  | spells_cons : forall c d o k s r, conts k -> spells (d :: o) s r -> spells (c :: d :: o) (c :: k ++ s) r.
Definition extensible (o : list N) : Prop := exists c o' k, In (o ++ c :: o', k) spellings.
(** The longest operator at the head of the text, and the text after it: the line
    continuations after an operator that could have been longer are taken, too. *)
Definition longest (s : list N) (k : tt) (r : list N) : Prop :=
  exists o r0, In (o, k) spellings /\ spells o s r0 /\
  (forall o' k' r', In (o', k') spellings -> spells o' s r' -> (List.length o' <= List.length o)%nat) /\
  (extensible o -> exists j, conts j /\ r0 = j ++ r /\ forall r', r <> ch "\" :: 10 :: r') /\
  (~ extensible o -> r = r0).
Definition no_operator (s : list N) : Prop := forall o k r, In (o, k) spellings -> ~ spells o s r.

(** The end of the text *)
Definition ends (s : list N) : Prop := s = [] \/ exists s', s = 0 :: s'.

(** The reserved words *)
Definition reserved_words : list (list N * tt) :=
  [(str "!", TT_BANG); (str "{", TT_LBRACE); (str "}", TT_RBRACE); (str "[[", TT_DOUBLE_LBRACKET); (str "if", TT_IF);
   (str "then", TT_THEN); (str "elif", TT_ELIF); (str "else", TT_ELSE); (str "fi", TT_FI); (str "for", TT_FOR); (str "in", TT_IN);
   (str "while", TT_WHILE); (str "until", TT_UNTIL); (str "do", TT_DO); (str "done", TT_DONE); (str "case", TT_CASE);
   (str "esac", TT_ESAC); (str "function", TT_FUNCTION)].

Section Tokens.
Variable L : locale.
Variable X : Type.
(** The parser of expansions is a parameter, as in the model. *)
Variable sp_parse : bool -> list N -> spres X.
Notation word := (word X).

(** Blanks and line continuations *)
Inductive gap : list N -> Prop :=
  | gap_nil : gap []
  | gap_blank : forall b g, iswblank L b = true -> gap g -> gap (b :: g)
  | gap_cont : forall g, gap g -> gap (ch "\" :: 10 :: g).
Definition no_gap (s : list N) : Prop :=
  (forall b s', s = b :: s' -> iswblank L b = false) /\ (forall s', s <> ch "\" :: 10 :: s').
(** [c] is the comment before [s]; empty if there is none. *)
Definition comment (c s : list N) : Prop :=
  c = [] /\ (forall s', s <> ch "#" :: s') \/
  exists b, c = ch "#" :: b /\ ~ In 10 b /\ (s = [] \/ exists s', s = 10 :: s').

(** The parts of a word: text that is kept as it is (with its quotation), a dollar
    sign or backquote that starts no expansion, an expansion *)
Inductive part : Type := PText (s : list N) | PSign (c : N) | PExp (x : X).
(** The characters that end a word unless they are quoted *)
Definition delimiter (c : N) : Prop := In c (str ";&|<>()") \/ c = 10 \/ c = 0 \/ iswblank L c = true.
Definition sign (c : N) : Prop := c = ch "$" \/ c = ch "`".
(** The characters that are special between double quotes *)
Definition special (c : N) : Prop := c = ch "\" \/ sign c \/ c = 34.
(** The word at the head of a text, and the text after it; the flag tells whether the
    text starts between double quotes. *)
Inductive parts : bool -> list N -> list part -> list N -> Prop :=
  | w_end : parts false [] [] []
  | w_delim : forall c s, delimiter c -> parts false (c :: s) [] (c :: s)
  | w_cont : forall q s ps r, parts q s ps r -> parts q (ch "\" :: 10 :: s) ps r
  | w_escape : forall q c s ps r, c <> 10 -> parts q s ps r -> parts q (ch "\" :: c :: s) (PText [ch "\"; c] :: ps) r
  | w_backslash : parts false [ch "\"] [PText [ch "\"]] []
  | w_expansion : forall q c s x s' ps r, sign c -> sp_parse q (c :: s) = SpSome x s' -> parts q s' ps r -> parts q (c :: s) (PExp x :: ps) r
  | w_sign : forall q c s ps r, sign c -> sp_parse q (c :: s) = SpNone -> parts q s ps r -> parts q (c :: s) (PSign c :: ps) r
  | w_single : forall b s ps r, ~ In (ch "'") b -> parts false s ps r ->
      parts false (ch "'" :: b ++ ch "'" :: s) (PText (ch "'" :: b ++ [ch "'"]) :: ps) r
  | w_open : forall s ps r, parts true s ps r -> parts false (34 :: s) (PText [34] :: ps) r
  | w_close : forall s ps r, parts false s ps r -> parts true (34 :: s) (PText [34] :: ps) r
  | w_char : forall q c s ps r, ~ special c -> (q = true \/ c <> ch "'" /\ ~ delimiter c) -> parts q s ps r -> parts q (c :: s) (PText [c] :: ps) r.

(** The units of a word: neighbouring pieces of text are one unit, and a sign that
    starts no expansion starts a unit of text. *)
Definition no_text (ps : list part) : Prop := forall s ps', ps <> PText s :: ps'.
Inductive units : list part -> word -> Prop :=
  | u_nil : units [] []
  | u_text : forall s ts ps w, no_text ps -> units ps w -> units (map PText (s :: ts) ++ ps) (UStr (s ++ concat ts) :: w)
  | u_sign : forall c ts ps w, no_text ps -> units ps w -> units (PSign c :: map PText ts ++ ps) (UStr (c :: concat ts) :: w)
  | u_exp : forall x ps w, units ps w -> units (PExp x :: ps) (USpec x :: w).

(** The type of the word [w] before the text [r]: digits before a redirection operator
    are a file descriptor, and only an unquoted word can be reserved. *)
Definition digits (s : list N) : Prop := s <> [] /\ Forall (fun c => In c (str "0123456789")) s.
Definition descriptor_word (w : word) (r : list N) : Prop :=
  exists s c r', w = [UStr s] /\ digits s /\ r = c :: r' /\ In c (str "<>").
Inductive word_kind (w : word) (r : list N) : tt -> Prop :=
  | k_descriptor : descriptor_word w r -> word_kind w r TT_IO_NUMBER
  | k_reserved : forall s k, ~ descriptor_word w r -> w = [UStr s] -> In (s, k) reserved_words -> word_kind w r k
  | k_word : ~ descriptor_word w r -> (forall s k, w = [UStr s] -> ~ In (s, k) reserved_words) -> word_kind w r TT_WORD.

(** The first token of a text: its type, its word if it is one, and the text after it *)
Inductive token (s : list N) : tt -> option word -> list N -> Prop :=
  | token_end : forall g c s1, s = g ++ c ++ s1 -> gap g -> no_gap (c ++ s1) -> comment c s1 -> ends s1 -> token s TT_END_OF_INPUT None s1
  | token_operator : forall g c s1 k r, s = g ++ c ++ s1 -> gap g -> no_gap (c ++ s1) -> comment c s1 -> longest s1 k r -> token s k None r
  | token_word : forall g c s1 ps w k r, s = g ++ c ++ s1 -> gap g -> no_gap (c ++ s1) -> comment c s1 ->
      ~ ends s1 -> no_operator s1 -> parts false s1 ps r -> units ps w -> word_kind w r k -> token s k (Some w) r.
End Tokens.
