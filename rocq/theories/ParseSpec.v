(** What printing a command and reading it back may change, and which commands
    the printed form is faithful for.  Stated on parse trees only. *)
From Coq Require Import Ascii String.
From Coq Require Import List NArith ZArith Bool Arith.
From Verif Require Import Common Locale NumModel ParseModel.
Import ListNotations.
Local Open Scope N_scope.

(** ** Quotes in a word, character by character *)
Inductive mode : Set := MPlain | MDouble | MSingle.
(** [esc]: the next character is escaped; [dol]: the last character was an
    unquoted dollar sign that stands for itself. *)
Record qstate := mkQ { q_mode : mode; q_esc : bool; q_dol : bool }.
Definition q0 : qstate := mkQ MPlain false false.
Definition qstep (st : qstate) (c : N) : qstate :=
  match q_mode st with
  | MSingle => mkQ (if c =? ch "'" then MPlain else MSingle) false false
  | m =>
      if q_esc st then mkQ m false false
      else if c =? ch "\" then mkQ m true false
      else if c =? 34 then mkQ (match m with MPlain => MDouble | _ => MPlain end) false false
      else if c =? ch "'" then mkQ (match m with MPlain => MSingle | _ => m end) false false
      else mkQ m false (c =? ch "$")
  end.

Section Spec.
Variable L : locale.
Variable X : Type.
Variable sp_print : X -> list N.
Notation word := (word X).
Notation redir := (redir X).
Notation assign := (assign X).
Notation dbexp := (dbexp X).
Notation cmd := (cmd X).
Notation cmds := (cmds X).
Notation pls := (pls X).
Notation aos := (aos X).
Notation ifcs := (ifcs X).
Notation cis := (cis X).

(** No dollar sign that stands for itself comes right before an expansion, and
    the word does not end in a backslash that escapes nothing. *)
Fixpoint clean (st : qstate) (w : word) : Prop :=
  match w with
  | [] => q_esc st = false
  | UStr s :: w' => clean (fold_left qstep s st) w'
  | USpec _ :: w' => q_dol st = false /\ clean (mkQ (q_mode st) false false) w'
  end.

(** The text of the word does not end in the character. *)
Definition not_last (c : N) (s : list N) : Prop := forall s', s <> s' ++ [c].

Definition word_ok (w : word) : Prop := clean q0 w /\ not_last 32 (print_word X sp_print w).
Definition redir_ok (r : redir) : Prop := (0 <= rd_fd r)%Z /\ word_ok (rd_file r).
Definition assign_ok (a : assign) : Prop :=
  match a with
  | AScalar _ v => word_ok v
  | AArray _ vs => Forall word_ok vs
  end.
Fixpoint dbexp_ok (e : dbexp) : Prop :=
  match e with
  | DOr a b | DAnd a b => dbexp_ok a /\ dbexp_ok b
  | DNot a => dbexp_ok a
  | DUn _ w | DStr w => word_ok w
  | DBin l _ r => word_ok l /\ word_ok r
  end.

(** A function name that is a variable name must not be a reserved word; another
    function name must not end in a dollar sign. *)
Definition funcname_ok (w : word) : Prop :=
  match single_string X w with
  | Some s => if is_name L s then is_keyword s = false else not_last (ch "$") s
  | None => not_last (ch "$") (print_word X sp_print w)
  end.
(** The body of a function must not be a definition of a function whose name is a
    variable name. *)
Definition funcbody_ok (c : cmd) : Prop :=
  match c with CFunc name _ => is_name_word L X name = false | _ => True end.

(** The commands whose printed form is claimed to be faithful *)
Fixpoint cmd_ok (c : cmd) : Prop :=
  match c with
  | CSimple a ws r => Forall assign_ok a /\ Forall word_ok ws /\ Forall redir_ok r
  | CGroup l r | CSubshell l r => aos_ok l /\ Forall redir_ok r
  | CIf l r => ifcs_ok l /\ Forall redir_ok r
  | CFor _ ws l r =>
      match ws with Some ws => Forall word_ok ws | None => True end /\ aos_ok l /\ Forall redir_ok r
  | CWhile _ cond body r => aos_ok cond /\ aos_ok body /\ Forall redir_ok r
  | CCase w l r => word_ok w /\ cis_ok l /\ Forall redir_ok r
  | CBracket e r => dbexp_ok e /\ Forall redir_ok r
  | CFunc name body => word_ok name /\ funcname_ok name /\ funcbody_ok body /\ cmd_ok body
  end
with cmds_ok (cs : cmds) : Prop :=
  match cs with CNil => True | CCons c cs' => cmd_ok c /\ cmds_ok cs' end
with pls_ok (p : pls) : Prop :=
  match p with PNil => True | PCons cs _ _ p' => cmds_ok cs /\ pls_ok p' end
with aos_ok (l : aos) : Prop :=
  match l with ANil => True | ACons p _ l' => pls_ok p /\ aos_ok l' end
with ifcs_ok (l : ifcs) : Prop :=
  match l with INil => True | ICons a b l' => aos_ok a /\ aos_ok b /\ ifcs_ok l' end
with cis_ok (l : cis) : Prop :=
  match l with CINil => True | CICons ps b l' => Forall word_ok ps /\ aos_ok b /\ cis_ok l' end.

(** ** What reading back changes *)

(** A reserved word that is the first word of a simple command without
    assignments gets a backslash. *)
Definition quote_first (a : list assign) (ws : list word) : list word :=
  match a, ws with
  | [], [UStr s] :: ws' => (if is_keyword s then [UStr (ch "\" :: s)] else [UStr s]) :: ws'
  | _, _ => ws
  end.

(** Chains of || and of && in [[ ]] are grouped to the right. *)
Fixpoint or_app (x y : dbexp) : dbexp :=
  match x with DOr p q => DOr p (or_app q y) | _ => DOr x y end.
Fixpoint and_app (x y : dbexp) : dbexp :=
  match x with DAnd p q => DAnd p (and_app q y) | _ => DAnd x y end.
Fixpoint dnorm (e : dbexp) : dbexp :=
  match e with
  | DOr a b => or_app (dnorm a) (dnorm b)
  | DAnd a b => and_app (dnorm a) (dnorm b)
  | DNot a => DNot (dnorm a)
  | _ => e
  end.

Fixpoint norm (c : cmd) : cmd :=
  match c with
  | CSimple a ws r => CSimple a (quote_first a ws) r
  | CGroup l r => CGroup (norm_aos l) r
  | CSubshell l r => CSubshell (norm_aos l) r
  | CIf l r => CIf (norm_ifcs l) r
  | CFor name ws l r => CFor name ws (norm_aos l) r
  | CWhile whl cond body r => CWhile whl (norm_aos cond) (norm_aos body) r
  | CCase w l r => CCase w (norm_cis l) r
  | CBracket e r => CBracket (dnorm e) r
  | CFunc name body => CFunc name (norm body)
  end
with norm_cmds (cs : cmds) : cmds :=
  match cs with CNil => CNil | CCons c cs' => CCons (norm c) (norm_cmds cs') end
with norm_pls (p : pls) : pls :=
  match p with PNil => PNil | PCons cs neg cond p' => PCons (norm_cmds cs) neg cond (norm_pls p') end
with norm_aos (l : aos) : aos :=
  match l with ANil => ANil | ACons p async l' => ACons (norm_pls p) async (norm_aos l') end
with norm_ifcs (l : ifcs) : ifcs :=
  match l with INil => INil | ICons a b l' => ICons (norm_aos a) (norm_aos b) (norm_ifcs l') end
with norm_cis (l : cis) : cis :=
  match l with CINil => CINil | CICons ps b l' => CICons ps (norm_aos b) (norm_cis l') end.

(** The meaning of an expression of [[ ]] from that of its primaries: a truth
    value, or None for an error, which ends the evaluation. *)
Inductive primary := PrUn (op : list N) (w : word) | PrBin (l : word) (op : list N) (r : word) | PrStr (w : word).
Fixpoint dval (v : primary -> option bool) (e : dbexp) : option bool :=
  match e with
  | DOr a b => match dval v a with Some false => dval v b | x => x end
  | DAnd a b => match dval v a with Some true => dval v b | x => x end
  | DNot a => option_map negb (dval v a)
  | DUn op w => v (PrUn op w)
  | DBin l op r => v (PrBin l op r)
  | DStr w => v (PrStr w)
  end.

(** ** The commands that occur in a program *)
Fixpoint sub (x c : cmd) : Prop :=
  x = c \/
  match c with
  | CSimple _ _ _ | CBracket _ _ => False
  | CGroup l _ | CSubshell l _ | CFor _ _ l _ => sub_aos x l
  | CIf l _ => sub_ifcs x l
  | CWhile _ a b _ => sub_aos x a \/ sub_aos x b
  | CCase _ l _ => sub_cis x l
  | CFunc _ body => sub x body
  end
with sub_cmds (x : cmd) (cs : cmds) : Prop :=
  match cs with CNil => False | CCons c cs' => sub x c \/ sub_cmds x cs' end
with sub_pls (x : cmd) (p : pls) : Prop :=
  match p with PNil => False | PCons cs _ _ p' => sub_cmds x cs \/ sub_pls x p' end
with sub_aos (x : cmd) (l : aos) : Prop :=
  match l with ANil => False | ACons p _ l' => sub_pls x p \/ sub_aos x l' end
with sub_ifcs (x : cmd) (l : ifcs) : Prop :=
  match l with INil => False | ICons a b l' => sub_aos x a \/ sub_aos x b \/ sub_ifcs x l' end
with sub_cis (x : cmd) (l : cis) : Prop :=
  match l with CINil => False | CICons _ b l' => sub_aos x b \/ sub_cis x l' end.

(** The and-or lists that occur in a program *)
Fixpoint psub (x : pls) (c : cmd) : Prop :=
  match c with
  | CSimple _ _ _ | CBracket _ _ => False
  | CGroup l _ | CSubshell l _ | CFor _ _ l _ => psub_aos x l
  | CIf l _ => psub_ifcs x l
  | CWhile _ a b _ => psub_aos x a \/ psub_aos x b
  | CCase _ l _ => psub_cis x l
  | CFunc _ body => psub x body
  end
with psub_cmds (x : pls) (cs : cmds) : Prop :=
  match cs with CNil => False | CCons c cs' => psub x c \/ psub_cmds x cs' end
with psub_pls (x : pls) (p : pls) : Prop :=
  match p with PNil => False | PCons cs _ _ p' => psub_cmds x cs \/ psub_pls x p' end
with psub_aos (x : pls) (l : aos) : Prop :=
  match l with ANil => False | ACons p _ l' => x = p \/ psub_pls x p \/ psub_aos x l' end
with psub_ifcs (x : pls) (l : ifcs) : Prop :=
  match l with INil => False | ICons a b l' => psub_aos x a \/ psub_aos x b \/ psub_ifcs x l' end
with psub_cis (x : pls) (l : cis) : Prop :=
  match l with CINil => False | CICons _ b l' => psub_aos x b \/ psub_cis x l' end.

(** ** Reading a text *)
Definition reads (sp_parse : bool -> list N -> spres X) (s : list N) (l : aos) (r : list N) : Prop :=
  exists n, forall m, (n <= m)%nat -> read_and_parse L X sp_parse m s = POk (l, r).
(** A program of one command *)
Definition single (c : cmd) : aos := ACons (PCons (CCons c CNil) false false PNil) false ANil.

(** ** Expansions *)

(** What is assumed of the parsing and printing of expansions: an expansion that
    was read can be printed and read back anywhere; its text starts with a dollar
    sign; whether a dollar sign stands for itself depends on the next character
    only, and it does before an operator (other than a parenthesis), a blank or
    the end; a backquote always starts an expansion. *)
Record expansions_ok (sp_parse : bool -> list N -> spres X) : Prop := {
  ex_back : forall q s x r, sp_parse q s = SpSome x r ->
    forall q' r', sp_parse q' (sp_print x ++ r') = SpSome x r';
  ex_dollar : forall x, exists s, sp_print x = ch "$" :: s;
  ex_none : forall q s, sp_parse q (ch "$" :: s) = SpNone ->
    forall q' s', hd_error (lc s') = hd_error (lc s) -> sp_parse q' (ch "$" :: s') = SpNone;
  ex_delim : forall q s, match s with [] => True | c :: _ => is_delim L c = true /\ c <> ch "(" end ->
    sp_parse q (ch "$" :: s) = SpNone;
  ex_backquote : forall q s, sp_parse q (ch "`" :: s) <> SpNone }.
End Spec.
