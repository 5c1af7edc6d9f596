(** The command parser and the functions that convert parse trees into text
    (parser.c).

    Modelled: the tokenizer, the grammar of commands (simple commands with
    assignments and redirections, groups, subshells, if, for, while/until, case,
    [[ ]] and function definitions) and the printing of those commands on one
    line and on many lines.

    Not modelled: alias substitution, here-documents, process redirections and
    the right-hand side of =~ (the outcome is [PUnmod] when one is met), the
    POSIXly-correct mode and line numbers.  The text is given as a whole, not
    line by line.  The expansions inside words (those that start with a dollar
    sign or a backquote) are a parameter: a function that parses one expansion
    at the head of a text and a function that prints it. *)
From Coq Require Import Ascii String.
From Coq Require Import List NArith ZArith Bool Arith.
From Verif Require Import Common Locale NumModel.
From Verif Require TestModel.
Import ListNotations.
Local Open Scope N_scope.


(** Outcome of a parsing function.  [PErr]: an error message has been printed and
    [ps->error] set (parser.c 847-864), so that the caller gets PR_SYNTAX_ERROR;
    the code goes on parsing after an error only to find more of them. *)
Inductive pres (A : Type) : Type := POk (a : A) | PErr | PUnmod | PFuel.
Arguments POk {A} a.
Arguments PErr {A}.
Arguments PUnmod {A}.
Arguments PFuel {A}.

Definition pbind {A B} (x : pres A) (f : A -> pres B) : pres B :=
  match x with
  | POk a => f a
  | PErr => PErr
  | PUnmod => PUnmod
  | PFuel => PFuel
  end.
Declare Scope pres_scope.
Delimit Scope pres_scope with pres.
Notation "'let!' x ':=' a 'in' b" := (pbind a (fun x => b))
  (at level 200, x pattern, a at level 100, b at level 200) : pres_scope.
Local Open Scope pres_scope.

(** What parsing an expansion gives: an expansion and the text after it, nothing
    (a dollar sign that stands for itself) or an error. *)
Inductive spres (X : Type) : Type := SpSome (x : X) (rest : list N) | SpNone | SpErr.
Arguments SpSome {X} x rest.
Arguments SpNone {X}.
Arguments SpErr {X}.

(** ** Parse trees (parser.h 30-280) *)

(** [wordunit_T]: WT_STRING, or one of WT_PARAM, WT_CMDSUB and WT_ARITH *)
Inductive wunit (X : Type) : Type := UStr (s : list N) | USpec (x : X).
Arguments UStr {X} s.
Arguments USpec {X} x.

(** [redirtype_T] (parser.h 285-299) without RT_HERE, RT_HERERT, RT_PROCIN and
    RT_PROCOUT *)
Inductive rdtype : Set :=
  RT_INPUT | RT_OUTPUT | RT_CLOBBER | RT_APPEND | RT_INOUT | RT_DUPIN | RT_DUPOUT
  | RT_PIPE | RT_HERESTR.

Section Trees.
Variable X : Type.
Definition word := list (wunit X).
(** [redir_T] (parser.h 302-314) *)
Record redir := mkRedir { rd_fd : Z; rd_type : rdtype; rd_file : word }.
(** [assign_T] (parser.h 269-277) *)
Inductive assign := AScalar (name : list N) (v : word) | AArray (name : list N) (vs : list word).
(** [dbexp_T] (parser.h 143-164) *)
Inductive dbexp :=
  | DOr (a b : dbexp) | DAnd (a b : dbexp) | DNot (a : dbexp)
  | DUn (op : list N) (w : word) | DBin (l : word) (op : list N) (r : word) | DStr (w : word).
(** [command_T], [pipeline_T], [and_or_T], [ifcommand_T] and [caseitem_T]
    (parser.h 33-133): linked lists, as in the code.  [CFunc] has no
    redirections: parser.c 3559 asserts it. *)
Inductive cmd :=
  | CSimple (a : list assign) (ws : list word) (r : list redir)
  | CGroup (l : aos) (r : list redir)
  | CSubshell (l : aos) (r : list redir)
  | CIf (l : ifcs) (r : list redir)
  | CFor (name : list N) (ws : option (list word)) (l : aos) (r : list redir)
  | CWhile (whl : bool) (cond body : aos) (r : list redir)
  | CCase (w : word) (l : cis) (r : list redir)
  | CBracket (e : dbexp) (r : list redir)
  | CFunc (name : word) (body : cmd)
with cmds := CNil | CCons (c : cmd) (l : cmds)
with pls := PNil | PCons (cs : cmds) (neg cond : bool) (l : pls)
with aos := ANil | ACons (p : pls) (async : bool) (l : aos)
with ifcs := INil | ICons (cond body : aos) (l : ifcs)
with cis := CINil | CICons (pats : list word) (body : aos) (l : cis).
End Trees.
Arguments mkRedir {X}. Arguments rd_fd {X}. Arguments rd_type {X}. Arguments rd_file {X}.
Arguments AScalar {X}. Arguments AArray {X}.
Arguments DOr {X}. Arguments DAnd {X}. Arguments DNot {X}. Arguments DUn {X}.
Arguments DBin {X}. Arguments DStr {X}.
Arguments CSimple {X}. Arguments CGroup {X}. Arguments CSubshell {X}. Arguments CIf {X}.
Arguments CFor {X}. Arguments CWhile {X}. Arguments CCase {X}. Arguments CBracket {X}.
Arguments CFunc {X}. Arguments CNil {X}. Arguments CCons {X}. Arguments PNil {X}.
Arguments PCons {X}. Arguments ANil {X}. Arguments ACons {X}. Arguments INil {X}.
Arguments ICons {X}. Arguments CINil {X}. Arguments CICons {X}.

(** ** Tokens *)

(** [tokentype_T] (parser.c 288-307).  TT_UNKNOWN (no token read yet) is not
    needed: the model reads a token where the code would find it. *)
Inductive tt : Set :=
  | TT_END_OF_INPUT | TT_WORD | TT_IO_NUMBER
  | TT_NEWLINE | TT_AMP | TT_AMPAMP | TT_LPAREN | TT_RPAREN | TT_SEMICOLON
  | TT_DOUBLE_SEMICOLON | TT_PIPE | TT_PIPEPIPE | TT_LESS | TT_LESSLESS | TT_LESSAMP
  | TT_LESSLESSDASH | TT_LESSLESSLESS | TT_LESSGREATER | TT_LESSLPAREN | TT_GREATER
  | TT_GREATERGREATER | TT_GREATERGREATERPIPE | TT_GREATERPIPE | TT_GREATERAMP
  | TT_GREATERLPAREN
  | TT_IF | TT_THEN | TT_ELSE | TT_ELIF | TT_FI | TT_DO | TT_DONE | TT_CASE | TT_ESAC
  | TT_WHILE | TT_UNTIL | TT_FOR | TT_LBRACE | TT_RBRACE | TT_BANG | TT_IN
  | TT_FUNCTION | TT_DOUBLE_LBRACKET.

Definition tt_eqb (a b : tt) : bool.
Proof. refine (if (_ : {a = b} + {a <> b}) then true else false). decide equality. Defined.

(** [identify_reserved_word_string] (parser.c 392-472) *)
Definition keywords : list (list N * tt) :=
  [(str "case", TT_CASE); (str "do", TT_DO); (str "done", TT_DONE); (str "elif", TT_ELIF);
   (str "else", TT_ELSE); (str "esac", TT_ESAC); (str "fi", TT_FI); (str "for", TT_FOR);
   (str "function", TT_FUNCTION); (str "if", TT_IF); (str "in", TT_IN); (str "then", TT_THEN);
   (str "until", TT_UNTIL); (str "while", TT_WHILE); (str "{", TT_LBRACE); (str "}", TT_RBRACE);
   (str "[[", TT_DOUBLE_LBRACKET); (str "!", TT_BANG)].
Definition identify_reserved_word_string (s : list N) : tt :=
  match find (fun p => list_N_eqb (fst p) s) keywords with
  | Some (_, t) => t
  | None => TT_WORD
  end.
(** [is_keyword] (parser.c 475-478) *)
Definition is_keyword (s : list N) : bool := negb (tt_eqb (identify_reserved_word_string s) TT_WORD).

(** [is_closing_tokentype] (parser.c 517-534) *)
Definition is_closing_tokentype (t : tt) : bool :=
  match t with
  | TT_RPAREN | TT_RBRACE | TT_THEN | TT_ELIF | TT_ELSE | TT_FI | TT_DO | TT_DONE
  | TT_DOUBLE_SEMICOLON | TT_ESAC => true
  | _ => false
  end.

Section Parser.
Variable L : locale.
Variable X : Type.
(** [parse_special_word_unit] (parser.c 1261-1286): the text starts with a dollar
    sign or a backquote; the flag tells whether it is between double quotes. *)
Variable sp_parse : bool -> list N -> spres X.
(** The cases WT_PARAM, WT_CMDSUB and WT_ARITH of [print_word] (parser.c 3882-3910) *)
Variable sp_print : X -> list N.

Notation word := (word X).
Notation redir := (redir X).
Notation assign := (assign X).
Notation dbexp := (dbexp X).
Notation cmd := (cmd X).
Notation cmds := (cmds X).
Notation pls := (pls X).
Notation aos := (aos X).
Notation ifcs := (ifcs X).
Notation cis := (cis X).

(** [is_name_char] (parser.c 354-357), [skip_name] (parser.c 363-369): the name
    and the text after it *)
Definition is_name_char (c : N) : bool := (c =? ch "_") || iswalnum L c.
Fixpoint take_name (s : list N) : list N * list N :=
  match s with
  | c :: s' => if is_name_char c then let (n, r) := take_name s' in (c :: n, r) else ([], s)
  | [] => ([], [])
  end.
Definition skip_name (s : list N) : list N * list N :=
  match s with
  | c :: _ => if iswdigit c then ([], s) else take_name s
  | [] => ([], [])
  end.
(** [is_name] (parser.c 371-376, 385-388) *)
Definition is_name (s : list N) : bool :=
  match s, snd (skip_name s) with
  | _ :: _, [] => true
  | _, _ => false
  end.

(** [is_single_string_word] (parser.c 480-483): the string *)
Definition single_string (w : word) : option (list N) :=
  match w with [UStr s] => Some s | _ => None end.
(** [is_digits_only] (parser.c 486-496) *)
Definition is_digits_only (w : word) : bool :=
  match single_string w with Some s => forallb iswdigit s | None => false end.
(** [is_name_word] (parser.c 498-504) outside the POSIXly-correct mode *)
Definition is_name_word (w : word) : bool :=
  match single_string w with Some s => is_name s | None => false end.
(** [identify_reserved_word] (parser.c 508-513) *)
Definition identify_reserved_word (w : word) : tt :=
  match single_string w with Some s => identify_reserved_word_string s | None => TT_WORD end.

(** [is_token_delimiter_char] (parser.c 1762-1771) *)
Definition is_delim (c : N) : bool :=
  existsb (N.eqb c) (0 :: 10 :: str ";&|<>()") || iswblank L c.

(** [maybe_line_continuations] (parser.c 967-975) at the head of the text *)
Fixpoint lc (s : list N) : list N :=
  match s with
  | c :: ((d :: s') as r) => if (c =? ch "\") && (d =? 10) then lc s' else s
  | _ => s
  end.

(** [skip_to_next_single_quote] (parser.c 1231-1251): the text before the quote
    and the text after it *)
Fixpoint to_quote (s : list N) : option (list N * list N) :=
  match s with
  | [] => None
  | c :: s' =>
      if c =? ch "'" then Some ([], s')
      else match to_quote s' with Some (q, r) => Some (c :: q, r) | None => None end
  end.

(** [MAKE_WORDUNIT_STRING] (parser.c 1159-1170): [acc] is the string since
    startindex *)
Definition flush (acc : list N) (us : word) : word :=
  match acc with [] => us | _ :: _ => UStr acc :: us end.

(** [parse_word] (parser.c 1151-1225) with [is_token_delimiter_char].  The word
    units and the text after the word. *)
Fixpoint parse_word (n : nat) (indq : bool) (s acc : list N) : pres (word * list N) :=
  match n with
  | O => PFuel
  | S n =>
      match lc s with
      | [] => if indq then PErr else POk (flush acc [], [])
      | c :: s' =>
          if negb indq && is_delim c then POk (flush acc [], c :: s')
          else if c =? ch "\" then
            match s' with
            | d :: s'' => parse_word n indq s'' (acc ++ [c; d])
            | [] => parse_word n indq [] (acc ++ [c])
            end
          else if (c =? ch "$") || (c =? ch "`") then
            match sp_parse indq (c :: s') with
            | SpSome x r =>
                let! (us, r') := parse_word n indq r [] in
                POk (flush acc (USpec x :: us), r')
            | SpNone =>
                let! (us, r') := parse_word n indq s' [c] in
                POk (flush acc us, r')
            | SpErr => PErr
            end
          else if (c =? ch "'") && negb indq then
            match to_quote s' with
            | Some (q, r) => parse_word n indq r (acc ++ c :: q ++ [c])
            | None => PErr
            end
          else if c =? 34 then parse_word n (negb indq) s' (acc ++ [c])
          else parse_word n indq s' (acc ++ [c])
      end
  end.

(** A token: [tokentype], [token] (None for NULL) and the text after it (from
    [next_index]). *)
Record tok := mkTok { tk_type : tt; tk_word : option word; tk_rest : list N }.

(** The loop at skip_blanks in [next_token] (parser.c 1021-1038) *)
Fixpoint skip_blanks (s : list N) : list N :=
  match s with
  | c :: r =>
      if iswblank L c then skip_blanks r
      else match r with
           | d :: s' => if (c =? ch "\") && (d =? 10) then skip_blanks s' else s
           | [] => s
           end
  | [] => []
  end.
(** The comment (parser.c 1040-1042) *)
Fixpoint to_newline (s : list N) : list N :=
  match s with
  | c :: s' => if c =? 10 then s else to_newline s'
  | [] => []
  end.
Definition skip_comment (s : list N) : list N :=
  match s with
  | c :: s' => if c =? ch "#" then to_newline s' else s
  | [] => []
  end.

(** The operator at the head of the text (parser.c 1046-1111), and the text after
    it; None in the default case of the switch *)
Definition operator (s : list N) : option (tt * list N) :=
  match s with
  | [] => Some (TT_END_OF_INPUT, [])
  | c :: s1 =>
      let s' := lc s1 in
      let next a := match s' with d :: r => if d =? a then Some r else None | [] => None end in
      if c =? 0 then Some (TT_END_OF_INPUT, c :: s1)
      else if c =? 10 then Some (TT_NEWLINE, s1)
      else if c =? ch "(" then Some (TT_LPAREN, s1)
      else if c =? ch ")" then Some (TT_RPAREN, s1)
      else if c =? ch ";" then
        match next (ch ";") with Some r => Some (TT_DOUBLE_SEMICOLON, r) | None => Some (TT_SEMICOLON, s') end
      else if c =? ch "&" then
        match next (ch "&") with Some r => Some (TT_AMPAMP, r) | None => Some (TT_AMP, s') end
      else if c =? ch "|" then
        match next (ch "|") with Some r => Some (TT_PIPEPIPE, r) | None => Some (TT_PIPE, s') end
      else if c =? ch "<" then
        match next (ch ">"), next (ch "("), next (ch "&"), next (ch "<") with
        | Some r, _, _, _ => Some (TT_LESSGREATER, r)
        | _, Some r, _, _ => Some (TT_LESSLPAREN, r)
        | _, _, Some r, _ => Some (TT_LESSAMP, r)
        | _, _, _, Some r =>
            match lc r with
            | d :: r' =>
                if d =? ch "-" then Some (TT_LESSLESSDASH, r')
                else if d =? ch "<" then Some (TT_LESSLESSLESS, r')
                else Some (TT_LESSLESS, d :: r')
            | [] => Some (TT_LESSLESS, [])
            end
        | _, _, _, _ => Some (TT_LESS, s')
        end
      else if c =? ch ">" then
        match next (ch "("), next (ch "&"), next (ch "|"), next (ch ">") with
        | Some r, _, _, _ => Some (TT_GREATERLPAREN, r)
        | _, Some r, _, _ => Some (TT_GREATERAMP, r)
        | _, _, Some r, _ => Some (TT_GREATERPIPE, r)
        | _, _, _, Some r =>
            match lc r with
            | d :: r' => if d =? ch "|" then Some (TT_GREATERGREATERPIPE, r') else Some (TT_GREATERGREATER, d :: r')
            | [] => Some (TT_GREATERGREATER, [])
            end
        | _, _, _, _ => Some (TT_GREATER, s')
        end
      else None
  end.

(** The type of a word token followed by a text (parser.c 1123-1136) *)
Definition word_type (w : word) (r : list N) : tt :=
  if match r with c :: _ => (c =? ch "<") || (c =? ch ">") | [] => false end && is_digits_only w
  then TT_IO_NUMBER
  else identify_reserved_word w.

(** [next_token] (parser.c 1021-1143).  Each step of [parse_word] takes a
    character, so that the length of the text is fuel enough. *)
Definition next_token (s : list N) : pres tok :=
  let s2 := skip_comment (skip_blanks s) in
  match operator s2 with
  | Some (t, r) => POk (mkTok t None r)
  | None =>
      let! (w, r) := parse_word (S (length s2)) false s2 [] in
      POk (mkTok (word_type w r) (Some w) r)
  end.

(** [next_token] when [t] is the current token *)
Definition nt (t : tok) : pres tok := next_token (tk_rest t).

Notation is t k := (tt_eqb (tk_type t) k).

(** [parse_newline_list] (parser.c 1748-1757) and [next_line] (parser.c 1730-1744)
    without pending here-documents *)
Fixpoint p_newlines (n : nat) (t : tok) : pres (bool * tok) :=
  match n with
  | O => PFuel
  | S n =>
      if is t TT_NEWLINE then
        let! t1 := nt t in
        let! (_, t2) := p_newlines n t1 in
        POk (true, t2)
      else POk (false, t)
  end.

(** [parse_words] (parser.c 2131-2146) *)
Fixpoint p_words (n : nat) (skip_newlines : bool) (t : tok) : pres (list word * tok) :=
  match n with
  | O => PFuel
  | S n =>
      if skip_newlines && is t TT_NEWLINE then
        let! (_, t1) := p_newlines n t in
        p_words n skip_newlines t1
      else
        match tk_word t with
        | None => POk ([], t)
        | Some w =>
            let! t1 := nt t in
            let! (ws, t2) := p_words n skip_newlines t1 in
            POk (w :: ws, t2)
        end
  end.

(** wcstoul and the range check in [tryparse_redirect] (parser.c 2218-2234) *)
Definition fd_of (s : list N) : Z :=
  let '(z, _, _) := scan_digits 10 0 false s in
  if (z >? INT_MAX)%Z then (-1)%Z else z.

(** The type of a redirection operator (parser.c 2247-2296); here-documents and
    process redirections are not modelled *)
Definition redir_type (t : tt) : pres rdtype :=
  match t with
  | TT_LESS => POk RT_INPUT
  | TT_LESSGREATER => POk RT_INOUT
  | TT_LESSAMP => POk RT_DUPIN
  | TT_GREATER => POk RT_OUTPUT
  | TT_GREATERGREATER => POk RT_APPEND
  | TT_GREATERPIPE => POk RT_CLOBBER
  | TT_GREATERAMP => POk RT_DUPOUT
  | TT_GREATERGREATERPIPE => POk RT_PIPE
  | TT_LESSLESSLESS => POk RT_HERESTR
  | _ => PUnmod
  end.
(** Whether the token starts with a less-than or a greater-than sign
    (parser.c 2237-2243), and the default file descriptor *)
Definition default_fd (t : tt) : option Z :=
  match t with
  | TT_LESS | TT_LESSLESS | TT_LESSAMP | TT_LESSLESSDASH | TT_LESSLESSLESS | TT_LESSGREATER
  | TT_LESSLPAREN => Some 0%Z
  | TT_GREATER | TT_GREATERGREATER | TT_GREATERGREATERPIPE | TT_GREATERPIPE | TT_GREATERAMP
  | TT_GREATERLPAREN => Some 1%Z
  | _ => None
  end.
(** [tryparse_redirect] (parser.c 2218-2332) *)
Definition p_redir (t : tok) : pres (option (redir * tok)) :=
  let body fd t :=
    let! ty := redir_type (tk_type t) in
    let! t1 := nt t in
    match tk_word t1 with
    | None => PErr
    | Some w => let! t2 := nt t1 in POk (Some (mkRedir fd ty w, t2))
    end in
  if is t TT_IO_NUMBER then
    let fd := match tk_word t with
              | Some w => match single_string w with Some s => fd_of s | None => (-1)%Z end
              | None => (-1)%Z
              end in
    let! t1 := nt t in body fd t1
  else
    match default_fd (tk_type t) with
    | Some fd => body fd t
    | None => POk None
    end.

(** [parse_redirect_list] (parser.c 2151-2162) *)
Fixpoint p_redirs (n : nat) (t : tok) : pres (list redir * tok) :=
  match n with
  | O => PFuel
  | S n =>
      let! o := p_redir t in
      match o with
      | None => POk ([], t)
      | Some (r, t1) => let! (rs, t2) := p_redirs n t1 in POk (r :: rs, t2)
      end
  end.

(** [tryparse_assignment] (parser.c 2168-2214).  The next token is a parenthesis
    that starts where the word ended exactly if the text after the word starts
    with one. *)
Definition split_assign (w : word) : option (list N * word) :=
  match w with
  | UStr s :: us =>
      match skip_name s with
      | (c :: nm, e :: v) => if e =? ch "=" then Some (c :: nm, flush v us) else None
      | _ => None
      end
  | _ => None
  end.
Definition p_assign (n : nat) (t : tok) : pres (option (assign * tok)) :=
  match tk_word t with
  | None => POk None
  | Some w =>
      match split_assign w with
      | None => POk None
      | Some (name, v) =>
          let! t1 := nt t in
          match v with
          | [] =>
              if match tk_rest t with c :: _ => c =? ch "(" | [] => false end then
                let! t2 := nt t1 in
                let! (vs, t3) := p_words n true t2 in
                if is t3 TT_RPAREN then let! t4 := nt t3 in POk (Some (AArray name vs, t4)) else PErr
              else POk (Some (AScalar name v, t1))
          | _ :: _ => POk (Some (AScalar name v, t1))
          end
      end
  end.

(** [parse_simple_command_tokens] (parser.c 2087-2123).  [first]: no word has
    been parsed yet. *)
Fixpoint p_simple (n : nat) (first : bool) (t : tok) : pres (list assign * list word * list redir * tok) :=
  match n with
  | O => PFuel
  | S n =>
      let! o := p_redir t in
      match o with
      | Some (r, t1) => let! (a, w, rs, t2) := p_simple n first t1 in POk (a, w, r :: rs, t2)
      | None =>
          let! o := (if first then p_assign n t else POk None) in
          match o with
          | Some (a1, t1) => let! (a, w, rs, t2) := p_simple n first t1 in POk (a1 :: a, w, rs, t2)
          | None =>
              match tk_word t with
              | Some w1 =>
                  let! t1 := nt t in
                  let! (a, w, rs, t2) := p_simple n false t1 in POk (a, w1 :: w, rs, t2)
              | None => POk ([], [], [], t)
              end
          end
      end
  end.

(** [parse_case_patterns] (parser.c 2687-2733) after the optional parenthesis;
    the token after the closing parenthesis *)
Fixpoint p_patterns (n : nat) (t : tok) : pres (list word * tok) :=
  match n with
  | O => PFuel
  | S n =>
      match tk_word t with
      | None => PErr
      | Some w =>
          let! t1 := nt t in
          if is t1 TT_PIPE then
            let! t2 := nt t1 in
            let! (ws, t3) := p_patterns n t2 in
            POk (w :: ws, t3)
          else if is t1 TT_RPAREN then let! t2 := nt t1 in POk ([w], t2)
          else PErr
      end
  end.

(** Whether the token is the word ]] (parser.c 2760-2761) *)
Definition is_close (t : tok) : bool :=
  match tk_word t with
  | Some w => match single_string w with Some s => list_N_eqb s (str "]]") | None => false end
  | None => false
  end.
(** [parse_double_bracket_operand] (parser.c 2903-2926) *)
Definition p_operand (t : tok) : pres (word * tok) :=
  if is_close t then PErr
  else match tk_word t with
       | None => PErr
       | Some w => let! t1 := nt t in POk (w, t1)
       end.
(** [parse_double_bracket_primary] (parser.c 2829-2899) except for parentheses *)
Definition p_primary (t : tok) : pres (dbexp * tok) :=
  let unary := match tk_word t with
               | Some w => match single_string w with
                           | Some s => if TestModel.is_unary_primary s then Some s else None
                           | None => None end
               | None => None end in
  match unary with
  | Some op => let! t1 := nt t in let! (w, t2) := p_operand t1 in POk (DUn op w, t2)
  | None =>
      let! (l, t1) := p_operand t in
      let binary := if is t1 TT_LESS then Some (str "<")
                    else if is t1 TT_GREATER then Some (str ">")
                    else match tk_word t1 with
                         | Some w => match single_string w with
                                     | Some s => if TestModel.is_binary_primary s then Some s else None
                                     | None => None end
                         | None => None end in
      match binary with
      | Some op =>
          if list_N_eqb op (str "=~") then PUnmod
          else let! t2 := nt t1 in let! (r, t3) := p_operand t2 in POk (DBin l op r, t3)
      | None => POk (DStr l, t1)
      end
  end.
(** [parse_double_bracket_ors], [_ands], [_nots] and [_primary]
    (parser.c 2776-2899) *)
Fixpoint p_ors (n : nat) (t : tok) : pres (dbexp * tok) :=
  match n with
  | O => PFuel
  | S n =>
      let! (l, t1) := p_ands n t in
      if is t1 TT_PIPEPIPE then
        let! t2 := nt t1 in let! (r, t3) := p_ors n t2 in POk (DOr l r, t3)
      else POk (l, t1)
  end
with p_ands (n : nat) (t : tok) : pres (dbexp * tok) :=
  match n with
  | O => PFuel
  | S n =>
      let! (l, t1) := p_nots n t in
      if is t1 TT_AMPAMP then
        let! t2 := nt t1 in let! (r, t3) := p_ands n t2 in POk (DAnd l r, t3)
      else POk (l, t1)
  end
with p_nots (n : nat) (t : tok) : pres (dbexp * tok) :=
  match n with
  | O => PFuel
  | S n =>
      if is t TT_BANG then
        let! t1 := nt t in let! (e, t2) := p_nots n t1 in POk (DNot e, t2)
      else if is t TT_LPAREN then
        let! t1 := nt t in
        let! (e, t2) := p_ors n t1 in
        if is t2 TT_RPAREN then let! t3 := nt t2 in POk (e, t3) else PErr
      else p_primary t
  end.

(** The keyword [k] must be the current token; the token after it *)
Definition expect (k : tt) (t : tok) : pres tok := if is t k then nt t else PErr.

(** The part between the name and "do" of [parse_for] (parser.c 2506-2546).  A
    semicolon on a line of its own is an error. *)
Definition p_for_words (n : nat) (t : tok) : pres (option (list word) * tok) :=
  let! (nl, t1) := p_newlines n t in
  if is t1 TT_IN then
    let! t2 := nt t1 in
    let! (ws, t3) := p_words n false t2 in
    let! t4 := (if is t3 TT_SEMICOLON then nt t3 else POk t3) in
    POk (Some ws, t4)
  else if is t1 TT_SEMICOLON then
    if nl then PErr else let! t2 := nt t1 in POk (None, t2)
  else POk (None, t1).

(** [parse_function] (parser.c 3038-3091) between the name and the body: the
    parentheses are optional *)
Definition p_func_paren (t : tok) : pres tok :=
  if is t TT_LPAREN then
    let! t1 := nt t in
    if is t1 TT_RPAREN then nt t1 else POk t
  else POk t.

(** [parse_command_list] up to a closing token (parser.c 1825-1890) with
    [parse_and_or_list] (parser.c 1903-1916), [parse_pipelines_in_and_or]
    (parser.c 1921-1954) with [parse_pipeline] (parser.c 1959-1993),
    [parse_commands_in_pipeline] (parser.c 1998-2026), [parse_command]
    (parser.c 2031-2076) with [try_reparse_as_function] (parser.c 3099-3145),
    [parse_compound_command] (parser.c 2352-2402) with [parse_group]
    (parser.c 2406-2447), [parse_for] (parser.c 2506-2570), [parse_while]
    (parser.c 2575-2614), [parse_case] (parser.c 2618-2655), [parse_double_bracket]
    (parser.c 2741-2772) and [parse_function]; [parse_if] (parser.c 2451-2502);
    [parse_case_list] (parser.c 2658-2682).

    [need]: need_separator.  [p_compound] gives None where the code gives NULL.
    The redirections after a function definition belong to its body, so that
    none is left for the definition itself. *)
Fixpoint p_list (n : nat) (need : bool) (t : tok) : pres (aos * tok) :=
  match n with
  | O => PFuel
  | S n =>
      let! (nl, t1) := p_newlines n t in
      if (negb nl && need) || is t1 TT_END_OF_INPUT || is_closing_tokentype (tk_type t1)
      then POk (ANil, t1)
      else
        let! (p, t2) := p_pipelines n false t1 in
        if is t2 TT_AMP || is t2 TT_SEMICOLON then
          let! t3 := nt t2 in
          let! (l, t4) := p_list n false t3 in
          POk (ACons p (is t2 TT_AMP) l, t4)
        else
          let! (l, t4) := p_list n true t2 in
          POk (ACons p false l, t4)
  end
with p_pipelines (n : nat) (cond : bool) (t : tok) : pres (pls * tok) :=
  match n with
  | O => PFuel
  | S n =>
      let neg := is t TT_BANG in
      let! t0 := (if neg then nt t else POk t) in
      let! (cs, t1) := p_commands n t0 in
      if is t1 TT_AMPAMP || is t1 TT_PIPEPIPE then
        let! t2 := nt t1 in
        let! (_, t3) := p_newlines n t2 in
        let! (p, t4) := p_pipelines n (is t1 TT_AMPAMP) t3 in
        POk (PCons cs neg cond p, t4)
      else POk (PCons cs neg cond PNil, t1)
  end
with p_commands (n : nat) (t : tok) : pres (cmds * tok) :=
  match n with
  | O => PFuel
  | S n =>
      let! (c, t1) := p_command n t in
      if is t1 TT_PIPE then
        let! t2 := nt t1 in
        let! (_, t3) := p_newlines n t2 in
        let! (cs, t4) := p_commands n t3 in
        POk (CCons c cs, t4)
      else POk (CCons c CNil, t1)
  end
with p_command (n : nat) (t : tok) : pres (cmd * tok) :=
  match n with
  | O => PFuel
  | S n =>
      if is t TT_BANG || is t TT_IN || is_closing_tokentype (tk_type t) then PErr
      else
        let! (o, t1) := p_compound n t in
        match o with
        | Some c => POk (c, t1)
        | None =>
            let! (a, w, r, t2) := p_simple n true t in
            match a, w, r with
            | [], [], [] => PErr
            | _, _, _ =>
                if is t2 TT_LPAREN then
                  match a, w, r with
                  | [], [name], [] =>
                      if is_name_word name then
                        let! t3 := nt t2 in
                        let! t4 := expect TT_RPAREN t3 in
                        let! (_, t5) := p_newlines n t4 in
                        let! (o, t6) := p_compound n t5 in
                        match o with
                        | Some body => POk (CFunc name body, t6)
                        | None => PErr
                        end
                      else PErr
                  | _, _, _ => PErr
                  end
                else POk (CSimple a w r, t2)
            end
        end
  end
with p_compound (n : nat) (t : tok) : pres (option cmd * tok) :=
  match n with
  | O => PFuel
  | S n =>
      let finish (k : list redir -> cmd) (t : tok) :=
        let! (r, t') := p_redirs n t in POk (Some (k r), t') in
      match tk_type t with
      | TT_LPAREN =>
          let! t1 := nt t in
          let! (l, t2) := p_list n false t1 in
          let! t3 := expect TT_RPAREN t2 in
          finish (CSubshell l) t3
      | TT_LBRACE =>
          let! t1 := nt t in
          let! (l, t2) := p_list n false t1 in
          let! t3 := expect TT_RBRACE t2 in
          finish (CGroup l) t3
      | TT_IF =>
          let! t1 := nt t in
          let! (l, t2) := p_if n false t1 in
          finish (CIf l) t2
      | TT_FOR =>
          let! t1 := nt t in
          match tk_word t1 with
          | Some [UStr name] =>
              if is_name name then
                let! t2 := nt t1 in
                let! (ws, t3) := p_for_words n t2 in
                let! (_, t4) := p_newlines n t3 in
                let! t5 := expect TT_DO t4 in
                let! (l, t6) := p_list n false t5 in
                let! t7 := expect TT_DONE t6 in
                finish (CFor name ws l) t7
              else PErr
          | _ => PErr
          end
      | TT_FUNCTION =>
          let! t1 := nt t in
          match tk_word t1 with
          | Some name =>
              let! t2 := nt t1 in
              let! t3 := p_func_paren t2 in
              let! (_, t4) := p_newlines n t3 in
              let! (o, t5) := p_compound n t4 in
              match o with
              | Some body => POk (Some (CFunc name body), t5)
              | None => PErr
              end
          | None => PErr
          end
      | TT_WHILE | TT_UNTIL =>
          let! t1 := nt t in
          let! (cond, t2) := p_list n false t1 in
          let! t3 := expect TT_DO t2 in
          let! (body, t4) := p_list n false t3 in
          let! t5 := expect TT_DONE t4 in
          finish (CWhile (is t TT_WHILE) cond body) t5
      | TT_CASE =>
          let! t1 := nt t in
          match tk_word t1 with
          | Some w =>
              let! t2 := nt t1 in
              let! (_, t3) := p_newlines n t2 in
              let! t4 := expect TT_IN t3 in
              let! (l, t5) := p_cases n t4 in
              let! t6 := expect TT_ESAC t5 in
              finish (CCase w l) t6
          | None => PErr
          end
      | TT_DOUBLE_LBRACKET =>
          let! t1 := nt t in
          let! (e, t2) := p_ors n t1 in
          if is_close t2 then let! t3 := nt t2 in finish (CBracket e) t3 else PErr
      | _ => POk (None, t)
      end
  end
with p_if (n : nat) (after_else : bool) (t : tok) : pres (ifcs * tok) :=
  match n with
  | O => PFuel
  | S n =>
      let! (cond, t2) :=
        (if after_else then POk (ANil, t)
         else let! (c, t1) := p_list n false t in
              let! t2 := expect TT_THEN t1 in POk (c, t2)) in
      let! (body, t3) := p_list n false t2 in
      if negb after_else && is t3 TT_ELSE then
        let! t4 := nt t3 in let! (l, t5) := p_if n true t4 in POk (ICons cond body l, t5)
      else if negb after_else && is t3 TT_ELIF then
        let! t4 := nt t3 in let! (l, t5) := p_if n false t4 in POk (ICons cond body l, t5)
      else
        let! t4 := expect TT_FI t3 in POk (ICons cond body INil, t4)
  end
with p_cases (n : nat) (t : tok) : pres (cis * tok) :=
  match n with
  | O => PFuel
  | S n =>
      let! (_, t1) := p_newlines n t in
      if is t1 TT_ESAC then POk (CINil, t1)
      else
        let! t2 := (if is t1 TT_LPAREN then nt t1 else POk t1) in
        let! (pats, t3) := p_patterns n t2 in
        let! (body, t4) := p_list n false t3 in
        if is t4 TT_DOUBLE_SEMICOLON then
          let! t5 := nt t4 in let! (l, t6) := p_cases n t5 in POk (CICons pats body l, t6)
        else POk (CICons pats body CINil, t4)
  end.

(** [parse_command_list] up to the end of a line (parser.c 1825-1890).  The code
    reads its input line by line, so that the newline token is the end of what
    has been read.  The text left after the newline. *)
Fixpoint p_line (n : nat) (need : bool) (t : tok) : pres (aos * list N) :=
  match n with
  | O => PFuel
  | S n =>
      if is t TT_NEWLINE || is t TT_END_OF_INPUT then POk (ANil, tk_rest t)
      else if need then PErr
      else
        let! (p, t2) := p_pipelines n false t in
        if is t2 TT_AMP || is t2 TT_SEMICOLON then
          let! t3 := nt t2 in
          let! (l, r) := p_line n false t3 in
          POk (ACons p (is t2 TT_AMP) l, r)
        else
          let! (l, r) := p_line n true t2 in
          POk (ACons p false l, r)
  end.

(** [read_and_parse] (parser.c 738-794): the commands of the first line, and the
    text left *)
Definition read_and_parse (n : nat) (s : list N) : pres (aos * list N) :=
  let! t := next_token s in p_line n false t.

(** ** Printing *)

(** [trim_end_of_buffer] (parser.c 4042-4048) *)
Fixpoint drop_spaces (s : list N) : list N :=
  match s with
  | c :: s' => if c =? 32 then drop_spaces s' else s
  | [] => []
  end.
Definition trim (b : list N) : list N := rev (drop_spaces (rev b)).

(** [print_word] (parser.c 3882-3910) *)
Fixpoint print_word (w : word) : list N :=
  match w with
  | [] => []
  | UStr s :: w' => s ++ print_word w'
  | USpec x :: w' => sp_print x ++ print_word w'
  end.

(** [print_redirections] (parser.c 3836-3880) *)
Definition rd_text (t : rdtype) : list N :=
  match t with
  | RT_INPUT => str "<" | RT_OUTPUT => str ">" | RT_CLOBBER => str ">|" | RT_APPEND => str ">>"
  | RT_INOUT => str "<>" | RT_DUPIN => str "<&" | RT_DUPOUT => str ">&" | RT_PIPE => str ">>|"
  | RT_HERESTR => str "<<<"
  end.
Fixpoint print_redirs (b : list N) (r : list redir) : list N :=
  match r with
  | [] => b
  | x :: r' => print_redirs (b ++ dec_of_Z (rd_fd x) ++ rd_text (rd_type x) ++ print_word (rd_file x) ++ [32]) r'
  end.

(** [print_assignments] (parser.c 3810-3834) *)
Fixpoint print_spaced (b : list N) (ws : list word) : list N :=
  match ws with
  | [] => b
  | w :: ws' => print_spaced (b ++ print_word w ++ [32]) ws'
  end.
Fixpoint print_assigns (b : list N) (a : list assign) : list N :=
  match a with
  | [] => b
  | AScalar name v :: a' => print_assigns (b ++ name ++ [ch "="] ++ print_word v ++ [32]) a'
  | AArray name vs :: a' =>
      print_assigns (trim (print_spaced (b ++ name ++ [ch "="; ch "("]) vs) ++ [ch ")"; 32]) a'
  end.

(** [print_simple_command] (parser.c 3565-3585) *)
Definition quote_keyword (a : list assign) (ws : list word) : list N :=
  match a, ws with
  | [], w :: _ =>
      match single_string w with
      | Some s => if is_keyword s then [ch "\"] else []
      | None => []
      end
  | _, _ => []
  end.
Definition print_simple (b : list N) (a : list assign) (ws : list word) : list N :=
  print_spaced (print_assigns b a ++ quote_keyword a ws) ws.

(** [print_double_bracket_expression] (parser.c 3748-3790).  The context is a
    number: 0 for DBE_OR, 1 for DBE_AND, 2 for DBE_NOT. *)
Fixpoint print_dbexp (b : list N) (e : dbexp) (ctx : nat) : list N :=
  match e with
  | DOr l r =>
      let b := if Nat.eqb ctx 0 then b else b ++ str "( " in
      let b := print_dbexp b l 0 in
      let b := print_dbexp (b ++ str "|| ") r 0 in
      if Nat.eqb ctx 0 then b else b ++ str ") "
  | DAnd l r =>
      let b := if Nat.eqb ctx 2 then b ++ str "( " else b in
      let b := print_dbexp b l 1 in
      let b := print_dbexp (b ++ str "&& ") r 1 in
      if Nat.eqb ctx 2 then b ++ str ") " else b
  | DNot e => print_dbexp (b ++ str "! ") e 2
  | DBin l op r => b ++ print_word l ++ [32] ++ op ++ [32] ++ print_word r ++ [32]
  | DUn op r => b ++ op ++ [32] ++ print_word r ++ [32]
  | DStr r => b ++ print_word r ++ [32]
  end.

(** The patterns of a case item (parser.c 3713-3719) *)
Fixpoint print_patterns (ws : list word) : list N :=
  match ws with
  | [] => []
  | [w] => print_word w
  | w :: ws' => print_word w ++ str " | " ++ print_patterns ws'
  end.

Section Print.
(** [pr->multiline] *)
Variable ml : bool.

(** [print_space_or_newline] (parser.c 4021-4029) *)
Definition snl (b : list N) : list N := b ++ [if ml then 10 else 32].
(** [print_indent] (parser.c 4001-4019) *)
Definition indent (b : list N) (k : nat) : list N :=
  if ml && match rev b with [] => true | c :: _ => c =? 10 end then b ++ repeat 32 (3 * k) else b.

(** [print_one_command] (parser.c 3527-3563) with [print_group] (parser.c 3587-3597),
    [print_subshell] (parser.c 3599-3608), [print_for] (parser.c 3644-3671),
    [print_while] (parser.c 3673-3689), [print_case] (parser.c 3691-3705),
    [print_double_bracket] (parser.c 3738-3746) and [print_function_definition]
    (parser.c 3794-3808); [print_commands] (parser.c 3511-3525); [print_pipelines]
    (parser.c 3491-3509); [print_and_or_lists] (parser.c 3474-3489);
    [print_if] (parser.c 3610-3642); [print_caseitems] (parser.c 3707-3734) *)
Fixpoint print_cmd (b : list N) (c : cmd) (k : nat) {struct c} : list N :=
  match c with
  | CSimple a ws r => print_redirs (print_simple b a ws) r
  | CGroup l r =>
      let b := print_aos (snl (b ++ str "{")) l (S k) false in
      print_redirs (indent b k ++ str "} ") r
  | CSubshell l r =>
      let b := print_aos (b ++ str "(") l (S k) true in
      print_redirs (trim b ++ str ") ") r
  | CIf l r =>
      let b := print_ifs (b ++ str "if ") l k true in
      print_redirs (indent b k ++ str "fi ") r
  | CFor name ws l r =>
      let b := b ++ str "for " ++ name in
      let b := match ws with
               | Some ws =>
                   let b := b ++ str " in" ++ flat_map (fun w => 32 :: print_word w) ws in
                   snl (if ml then b else b ++ str ";")
               | None => b ++ [32]
               end in
      let b := snl (indent b k ++ str "do") in
      let b := print_aos b l (S k) false in
      print_redirs (indent b k ++ str "done ") r
  | CWhile whl cond body r =>
      let b := b ++ str (if whl then "while " else "until ") in
      let b := print_aos b cond (S k) false in
      let b := snl (indent b k ++ str "do") in
      let b := print_aos b body (S k) false in
      print_redirs (indent b k ++ str "done ") r
  | CCase w l r =>
      let b := snl (b ++ str "case " ++ print_word w ++ str " in") in
      let b := print_cis b l (S k) in
      print_redirs (indent b k ++ str "esac ") r
  | CBracket e r => print_redirs (print_dbexp (b ++ str "[[ ") e 0 ++ str "]] ") r
  | CFunc name body =>
      let b := if is_name_word name then b else b ++ str "function " in
      let b := snl (b ++ print_word name ++ str "()") in
      print_cmd (indent b k) body k
  end
with print_cmds (b : list N) (cs : cmds) (k : nat) {struct cs} : list N :=
  match cs with
  | CNil => b
  | CCons c cs' =>
      let b := print_cmd b c k in
      match cs' with
      | CNil => b
      | CCons _ _ => print_cmds (b ++ str "| ") cs' k
      end
  end
with print_pls (b : list N) (p : pls) (k : nat) {struct p} : list N :=
  match p with
  | PNil => b
  | PCons cs neg _ p' =>
      let b := indent b k in
      let b := print_cmds (if neg then b ++ str "! " else b) cs k in
      match p' with
      | PNil => b
      | PCons _ _ cond _ => print_pls (snl (b ++ str (if cond then "&&" else "||"))) p' k
      end
  end
with print_aos (b : list N) (l : aos) (k : nat) (omit : bool) {struct l} : list N :=
  match l with
  | ANil => b
  | ACons p async l' =>
      let more := match l' with ANil => negb omit | ACons _ _ _ => true end in
      let b := trim (print_pls b p k) in
      let b := if async then b ++ str "&" else if negb ml && more then b ++ str ";" else b in
      print_aos (if more then snl b else b) l' k omit
  end
with print_ifs (b : list N) (l : ifcs) (k : nat) (first : bool) {struct l} : list N :=
  match l with
  | INil => b
  | ICons cond body l' =>
      let last := match l' with INil => true | ICons _ _ _ => false end in
      let b :=
        if first then b
        else indent b k ++ str (if match cond with ANil => last | ACons _ _ _ => false end then "else" else "elif ") in
      if negb first && match cond with ANil => last | ACons _ _ _ => false end
      then print_aos (snl b) body (S k) false
      else
        let b := print_aos b cond (S k) false in
        let b := snl (indent b k ++ str "then") in
        print_ifs (print_aos b body (S k) false) l' k false
  end
with print_cis (b : list N) (l : cis) (k : nat) {struct l} : list N :=
  match l with
  | CINil => b
  | CICons pats body l' =>
      let b := snl (indent b k ++ str "(" ++ print_patterns pats ++ str ")") in
      let b := match body with
               | ANil => b
               | ACons _ _ _ => snl (print_aos b body (S k) true)
               end in
      print_cis (snl (indent b (S k) ++ str ";;")) l' k
  end.

(** [command_to_wcs] (parser.c 3456-3472) *)
Definition command_to_wcs (c : cmd) : list N :=
  let b := trim (print_cmd [] c 0) in
  if ml then snl b else b.
(** [pipelines_to_wcs] (parser.c 3438-3451): [ml] is false in the code *)
Definition pipelines_to_wcs (p : pls) : list N := trim (print_pls [] p 0).
End Print.

(** [print_function] (variable.c 1932-1948) for a function whose name is a valid
    variable name: what typeset -fp prints *)
Definition print_function (name : list N) (body : cmd) : list N :=
  name ++ str "()" ++ [10] ++ command_to_wcs true body.
End Parser.
