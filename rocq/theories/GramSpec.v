(** The grammar of the shell language, as rules that derive sequences of tokens
    from parse trees. *)
From Coq Require Import Ascii String.
From Coq Require Import List NArith ZArith Bool Arith.
From Verif Require Import Common Locale NumModel ParseModel.
From Verif Require TestSpec.
Import ListNotations.
Local Open Scope N_scope.

Section Grammar.
Variable L : locale.
Variable X : Type.
Notation word := (word X).
Notation redir := (redir X).
Notation assign := (assign X).
Notation dbexp := (dbexp X).
Notation cmd := (cmd X).
Notation cmds := (cmds X).
Notation pls := (pls X).
Notation aos := (aos X).
Notation ifcs := (ifcs X).
Notation cis := (cis X).
Notation tok := (tok X).

(** Tokens *)
Definition ty (t : tok) : tt := tk_type X t.
Definition wd (t : tok) (w : word) : Prop := tk_word X t = Some w.
(** A parenthesis comes right after the token. *)
Definition paren_next (t : tok) : Prop := exists r, tk_rest X t = ch "(" :: r.
Definition newline (t : tok) : Prop := ty t = TT_NEWLINE.
Definition newlines : list tok -> Prop := Forall newline.
Definition reserved (k : tt) : Prop := exists s, In (s, k) keywords.

(** A name: letters, digits and underscores, not starting with a digit *)
Definition name_char (c : N) : Prop := c = ch "_" \/ iswalnum L c = true.
Definition name (s : list N) : Prop :=
  match s with
  | [] => False
  | c :: _ => ~ In c (str "0123456789") /\ Forall name_char s
  end.

(** Redirections *)
Inductive redir_op : tt -> Z -> rdtype -> Prop :=
  | ro_in : redir_op TT_LESS 0 RT_INPUT
  | ro_inout : redir_op TT_LESSGREATER 0 RT_INOUT
  | ro_dupin : redir_op TT_LESSAMP 0 RT_DUPIN
  | ro_herestr : redir_op TT_LESSLESSLESS 0 RT_HERESTR
  | ro_out : redir_op TT_GREATER 1 RT_OUTPUT
  | ro_append : redir_op TT_GREATERGREATER 1 RT_APPEND
  | ro_clobber : redir_op TT_GREATERPIPE 1 RT_CLOBBER
  | ro_dupout : redir_op TT_GREATERAMP 1 RT_DUPOUT
  | ro_pipe : redir_op TT_GREATERGREATERPIPE 1 RT_PIPE.
(** The value of a decimal numeral; -1 if it is out of range *)
Definition decimal (s : list N) : Z := fold_left (fun z c => (10 * z + (Z.of_N c - 48))%Z) s 0%Z.
Definition descriptor (s : list N) (fd : Z) : Prop :=
  (decimal s <= 2147483647 /\ fd = decimal s \/ decimal s > 2147483647 /\ fd = -1)%Z.
Inductive T_redir : redir -> list tok -> Prop :=
  | t_redir : forall o f fd k w, redir_op (ty o) fd k -> wd f w -> T_redir (mkRedir fd k w) [o; f]
  | t_redir_fd : forall n o f s fd fd' k w, ty n = TT_IO_NUMBER -> wd n [UStr s] -> descriptor s fd ->
      redir_op (ty o) fd' k -> wd f w -> T_redir (mkRedir fd k w) [n; o; f].
Inductive T_redirs : list redir -> list tok -> Prop :=
  | t_redirs_nil : T_redirs [] []
  | t_redirs_cons : forall r rs ts ts', T_redir r ts -> T_redirs rs ts' -> T_redirs (r :: rs) (ts ++ ts').

(** Assignments: the word starts with a name and an equal sign *)
Definition assigns (w : word) (n : list N) (v : word) : Prop :=
  name n /\ exists s us, w = UStr (n ++ ch "=" :: s) :: us /\ v = match s with [] => us | _ => UStr s :: us end.
(** The values of an array may be on several lines. *)
Inductive T_values : list word -> list tok -> Prop :=
  | t_val_nil : T_values [] []
  | t_val_nl : forall t ws ts, newline t -> T_values ws ts -> T_values ws (t :: ts)
  | t_val_word : forall t w ws ts, wd t w -> T_values ws ts -> T_values (w :: ws) (t :: ts).
Inductive T_assign : assign -> list tok -> Prop :=
  | t_scalar : forall t w n v, wd t w -> assigns w n v -> (v = [] -> ~ paren_next t) -> T_assign (AScalar n v) [t]
  | t_array : forall t w n vs o ts c, wd t w -> assigns w n [] -> paren_next t -> ty o = TT_LPAREN ->
      T_values vs ts -> ty c = TT_RPAREN -> T_assign (AArray n vs) (t :: o :: ts ++ [c]).

(** Assignments, words and redirections of a simple command: redirections
    anywhere, assignments before the first word.  [b]: no word so far. *)
Inductive T_simple : bool -> list assign -> list word -> list redir -> list tok -> Prop :=
  | t_sim_nil : forall b, T_simple b [] [] [] []
  | t_sim_redir : forall b r ts a ws rs ts', T_redir r ts -> T_simple b a ws rs ts' ->
      T_simple b a ws (r :: rs) (ts ++ ts')
  | t_sim_assign : forall x ts a ws rs ts', T_assign x ts -> T_simple true a ws rs ts' ->
      T_simple true (x :: a) ws rs (ts ++ ts')
  | t_sim_word : forall b t w ws rs ts', wd t w -> ty t <> TT_IO_NUMBER ->
      (b = true -> ~ exists n v, assigns w n v) -> T_simple false [] ws rs ts' ->
      T_simple b [] (w :: ws) rs (t :: ts').

(** Expressions between [[ and ]] *)
Definition operand (t : tok) (w : word) : Prop := wd t w /\ w <> [UStr (str "]]")].
Definition unary (w : word) : Prop := exists o, In o TestSpec.unary_ops /\ w = [UStr (str o)].
Inductive binary (t : tok) : list N -> Prop :=
  | bin_less : ty t = TT_LESS -> binary t (str "<")
  | bin_greater : ty t = TT_GREATER -> binary t (str ">")
  | bin_word : forall o, In o TestSpec.binary_ops -> wd t [UStr (str o)] -> binary t (str o).
Inductive T_or : dbexp -> list tok -> Prop :=
  | t_or_one : forall e ts, T_and e ts -> T_or e ts
  | t_or : forall l ts o r ts', T_and l ts -> ty o = TT_PIPEPIPE -> T_or r ts' -> T_or (DOr l r) (ts ++ o :: ts')
with T_and : dbexp -> list tok -> Prop :=
  | t_and_one : forall e ts, T_not e ts -> T_and e ts
  | t_and : forall l ts o r ts', T_not l ts -> ty o = TT_AMPAMP -> T_and r ts' -> T_and (DAnd l r) (ts ++ o :: ts')
with T_not : dbexp -> list tok -> Prop :=
  | t_not : forall o e ts, ty o = TT_BANG -> T_not e ts -> T_not (DNot e) (o :: ts)
  | t_paren : forall o e ts c, ty o = TT_LPAREN -> T_or e ts -> ty c = TT_RPAREN -> T_not e (o :: ts ++ [c])
  | t_unary : forall t o f w, wd t [UStr o] -> unary [UStr o] -> operand f w -> T_not (DUn o w) [t; f]
  | t_binary : forall t l o op f r, operand t l -> ~ unary l -> ty t <> TT_BANG -> binary o op -> op <> str "=~" ->
      operand f r -> T_not (DBin l op r) [t; o; f]
  | t_str : forall t l, operand t l -> ~ unary l -> ty t <> TT_BANG -> T_not (DStr l) [t].

(** The patterns of a case item *)
Inductive T_patterns : list word -> list tok -> Prop :=
  | t_pat_one : forall t w, wd t w -> T_patterns [w] [t]
  | t_pat_cons : forall t w o ws ts, wd t w -> ty o = TT_PIPE -> T_patterns ws ts -> T_patterns (w :: ws) (t :: o :: ts).
(** The parenthesis before the patterns is optional unless the first is "esac". *)
Inductive T_open : list tok -> list tok -> Prop :=
  | t_open_paren : forall o ts, ty o = TT_LPAREN -> T_open [o] ts
  | t_open_none : forall t ts, ty t <> TT_ESAC -> T_open [] (t :: ts).
(** What may be between the name and "do" of a for loop *)
Inductive T_for : option (list word) -> list tok -> Prop :=
  | t_for_none : T_for None []
  | t_for_semi : forall t, ty t = TT_SEMICOLON -> T_for None [t]
  | t_for_in : forall ns i ws ts s, newlines ns -> ty i = TT_IN -> Forall2 wd ts ws ->
      ty s = TT_SEMICOLON \/ newline s -> T_for (Some ws) (ns ++ i :: ts ++ [s]).

(** A command list is open if a reserved word after it would be an operand: its
    last command is a simple command without a separator after it. *)
Definition simple (c : cmd) : bool := match c with CSimple _ _ _ => true | _ => false end.
Fixpoint cmds_open (cs : cmds) : bool :=
  match cs with CNil => false | CCons c CNil => simple c | CCons _ cs' => cmds_open cs' end.
Fixpoint pls_open (p : pls) : bool :=
  match p with PNil => false | PCons cs _ _ PNil => cmds_open cs | PCons _ _ _ p' => pls_open p' end.

Inductive T_cmd : cmd -> list tok -> Prop :=
  | t_simple : forall a ws r t ts, T_simple true a ws r (t :: ts) -> ~ reserved (ty t) -> T_cmd (CSimple a ws r) (t :: ts)
  | t_compound : forall c ts, T_comp c ts -> T_cmd c ts
  | t_func : forall t n o c ns body ts, wd t [UStr n] -> name n -> ~ reserved (ty t) -> ty o = TT_LPAREN -> ty c = TT_RPAREN ->
      newlines ns -> T_comp body ts -> T_cmd (CFunc [UStr n] body) (t :: o :: c :: ns ++ ts)
with T_comp : cmd -> list tok -> Prop :=
  | t_subshell : forall o l ts b c r rs, ty o = TT_LPAREN -> T_list l ts b -> ty c = TT_RPAREN -> T_redirs r rs ->
      T_comp (CSubshell l r) (o :: ts ++ c :: rs)
  | t_group : forall o l ts c r rs, ty o = TT_LBRACE -> T_list l ts false -> ty c = TT_RBRACE -> T_redirs r rs ->
      T_comp (CGroup l r) (o :: ts ++ c :: rs)
  | t_if : forall o l ts r rs, ty o = TT_IF -> T_ifs l ts -> T_redirs r rs -> T_comp (CIf l r) (o :: ts ++ rs)
  | t_for : forall o t n ws ts ns d l ls e r rs, ty o = TT_FOR -> wd t [UStr n] -> name n -> T_for ws ts -> newlines ns ->
      ty d = TT_DO -> T_list l ls false -> ty e = TT_DONE -> T_redirs r rs ->
      T_comp (CFor n ws l r) (o :: t :: ts ++ ns ++ d :: ls ++ e :: rs)
  | t_while : forall o (whl : bool) l ts d l' ts' e r rs, ty o = (if whl then TT_WHILE else TT_UNTIL) -> T_list l ts false ->
      ty d = TT_DO -> T_list l' ts' false -> ty e = TT_DONE -> T_redirs r rs ->
      T_comp (CWhile whl l l' r) (o :: ts ++ d :: ts' ++ e :: rs)
  | t_case : forall o t w ns i l ts e r rs, ty o = TT_CASE -> wd t w -> newlines ns -> ty i = TT_IN -> T_items l ts ->
      ty e = TT_ESAC -> T_redirs r rs -> T_comp (CCase w l r) (o :: t :: ns ++ i :: ts ++ e :: rs)
  | t_bracket : forall o e ts c r rs, ty o = TT_DOUBLE_LBRACKET -> T_or e ts -> wd c [UStr (str "]]")] -> T_redirs r rs ->
      T_comp (CBracket e r) (o :: ts ++ c :: rs)
  | t_function : forall o t w ps ns body ts, ty o = TT_FUNCTION -> wd t w ->
      map ty ps = [TT_LPAREN; TT_RPAREN] \/
        ps = [] /\ (forall a b ts', ns ++ ts = a :: b :: ts' -> ~ (ty a = TT_LPAREN /\ ty b = TT_RPAREN)) ->
      newlines ns -> T_comp body ts -> T_comp (CFunc w body) (o :: t :: ps ++ ns ++ ts)
(** Lists of commands; the flag tells whether the list is open. *)
with T_list : aos -> list tok -> bool -> Prop :=
  | t_list_nil : forall ns, newlines ns -> T_list ANil ns false
  | t_list_last : forall ns p ts, newlines ns -> T_pls p false ts -> T_list (ACons p false ANil) (ns ++ ts) (pls_open p)
  | t_list_newline : forall ns (p : pls) ts s l ts' b, newlines ns -> T_pls p false ts -> newline s -> T_list l ts' b ->
      T_list (ACons p false l) (ns ++ ts ++ s :: ts') b
  | t_list_sep : forall ns (p : pls) ts s (a : bool) l ts' b, newlines ns -> T_pls p false ts ->
      ty s = (if a then TT_AMP else TT_SEMICOLON) -> T_list l ts' b -> T_list (ACons p a l) (ns ++ ts ++ s :: ts') b
(** Pipelines; the flag tells whether the first one comes after &&. *)
with T_pls : pls -> bool -> list tok -> Prop :=
  | t_pls_last : forall (cond neg : bool) ns cs ts, map ty ns = (if neg then [TT_BANG] else []) -> T_cmds cs ts ->
      T_pls (PCons cs neg cond PNil) cond (ns ++ ts)
  | t_pls_cons : forall (cond neg : bool) ns cs ts o (and : bool) ns' p ts', map ty ns = (if neg then [TT_BANG] else []) -> T_cmds cs ts ->
      ty o = (if and then TT_AMPAMP else TT_PIPEPIPE) -> newlines ns' -> T_pls p and ts' ->
      T_pls (PCons cs neg cond p) cond (ns ++ ts ++ o :: ns' ++ ts')
with T_cmds : cmds -> list tok -> Prop :=
  | t_cmds_last : forall c ts, T_cmd c ts -> T_cmds (CCons c CNil) ts
  | t_cmds_cons : forall c ts o ns cs ts', T_cmd c ts -> ty o = TT_PIPE -> newlines ns -> T_cmds cs ts' ->
      T_cmds (CCons c cs) (ts ++ o :: ns ++ ts')
with T_ifs : ifcs -> list tok -> Prop :=
  | t_if_fi : forall c ts h b ts' e, T_list c ts false -> ty h = TT_THEN -> T_list b ts' false -> ty e = TT_FI ->
      T_ifs (ICons c b INil) (ts ++ h :: ts' ++ [e])
  | t_if_else : forall c ts h b ts' e b' ts'' f, T_list c ts false -> ty h = TT_THEN -> T_list b ts' false -> ty e = TT_ELSE ->
      T_list b' ts'' false -> ty f = TT_FI ->
      T_ifs (ICons c b (ICons ANil b' INil)) (ts ++ h :: ts' ++ e :: ts'' ++ [f])
  | t_if_elif : forall c ts h b ts' e l ts'', T_list c ts false -> ty h = TT_THEN -> T_list b ts' false -> ty e = TT_ELIF ->
      T_ifs l ts'' -> T_ifs (ICons c b l) (ts ++ h :: ts' ++ e :: ts'')
(** Case items: only the last may lack the double semicolon. *)
with T_items : cis -> list tok -> Prop :=
  | t_items_nil : forall ns, newlines ns -> T_items CINil ns
  | t_items_last : forall ns o ps ts c b ts', newlines ns -> T_open o ts -> T_patterns ps ts -> ty c = TT_RPAREN ->
      T_list b ts' false -> T_items (CICons ps b CINil) (ns ++ o ++ ts ++ c :: ts')
  | t_items_cons : forall ns o ps ts c b ts' op s l ts'', newlines ns -> T_open o ts -> T_patterns ps ts -> ty c = TT_RPAREN ->
      T_list b ts' op -> ty s = TT_DOUBLE_SEMICOLON -> T_items l ts'' ->
      T_items (CICons ps b l) (ns ++ o ++ ts ++ c :: ts' ++ s :: ts'').


(** The commands of a line *)
Inductive T_line : aos -> list tok -> Prop :=
  | t_line_nil : T_line ANil []
  | t_line_last : forall p ts, T_pls p false ts -> T_line (ACons p false ANil) ts
  | t_line_sep : forall (p : pls) ts s (a : bool) l ts', T_pls p false ts -> ty s = (if a then TT_AMP else TT_SEMICOLON) ->
      T_line l ts' -> T_line (ACons p a l) (ts ++ s :: ts').

Variable sp_parse : bool -> list N -> spres X.
(** The tokens of a text: those before the last, and the last one *)
Fixpoint tokens (s : list N) (ts : list tok) (e : tok) : Prop :=
  match ts with
  | [] => next_token L X sp_parse s = POk e
  | t :: ts' => next_token L X sp_parse s = POk t /\ tokens (tk_rest X t) ts' e
  end.
End Grammar.
