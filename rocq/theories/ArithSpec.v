(** Specification of arithmetic expansion: exact integer operators, the
    expression grammar, and evaluation of expression trees. *)
From Coq Require Import Ascii String.
From Coq Require Import List NArith ZArith Bool.
From Verif Require Import Common Locale NumModel ArithModel.
Import ListNotations.
Local Open Scope Z_scope.

(** ** Operators on integers *)
Inductive iop := IMul | IDiv | IRem | IAdd | ISub | IShl | IShr | IAnd | IXor | IOr.

(** The mathematical result; [None] where there is none: division by zero, a
    remainder whose quotient is not a long, shifting a negative number to the
    left, a shift width outside 0..63. *)
Definition exact_op (o : iop) (a b : Z) : option Z :=
  match o with
  | IMul => Some (a * b)
  | IDiv => if b =? 0 then None else Some (Z.quot a b)
  | IRem => if (b =? 0) || negb (in_long (Z.quot a b)) then None else Some (Z.rem a b)
  | IAdd => Some (a + b)
  | ISub => Some (a - b)
  | IShl => if (a <? 0) || (b <? 0) || (64 <=? b) then None else Some (a * 2 ^ b)
  | IShr => if (b <? 0) || (64 <=? b) then None else Some (a / 2 ^ b)
  | IAnd => Some (Z.land a b)
  | IXor => Some (Z.lxor a b)
  | IOr => Some (Z.lor a b)
  end.

(** Exact result if it is a long, otherwise an error. *)
Definition long_op (o : iop) (a b : Z) : option Z :=
  match exact_op o a b with
  | Some r => if in_long r then Some r else None
  | None => None
  end.

(** ** Lexical structure: longest match over a table of operators, numbers and
    identifiers; white space separates. *)
Definition op_table : list (list N * tok) :=
  [ (str "(", TLparen); (str ")", TRparen); (str "~", TTilde);
    (str "!", TExcl); (str "!=", TExclequal); (str "%", TPercent); (str "%=", TPercentequal);
    (str "+", TPlus); (str "++", TPlusplus); (str "+=", TPlusequal);
    (str "-", TMinus); (str "--", TMinusminus); (str "-=", TMinusequal);
    (str "*", TAster); (str "*=", TAsterequal); (str "/", TSlash); (str "/=", TSlashequal);
    (str "<", TLess); (str "<=", TLessequal); (str "<<", TLessless); (str "<<=", TLesslessequal);
    (str ">", TGreater); (str ">=", TGreaterequal); (str ">>", TGreatergreater);
    (str ">>=", TGreatergreaterequal);
    (str "=", TEqual); (str "==", TEqualequal);
    (str "&", TAmp); (str "&&", TAmpamp); (str "&=", TAmpequal);
    (str "|", TPipe); (str "||", TPipepipe); (str "|=", TPipeequal);
    (str "^", THat); (str "^=", THatequal); (str "?", TQuestion); (str ":", TColon) ].

Section Lex.
Variable L : locale.

(** A number word: a digit or period, then letters, digits and periods; a sign
    is included after an [e] or [E] (the preprocessing numbers of C). *)
Definition numchar (prev c : N) : bool :=
  (c =? ch ".")%N || iswalnum L c
  || (((c =? ch "+") || (c =? ch "-")) && ((prev =? ch "e") || (prev =? ch "E")))%N.
Fixpoint numtail (prev : N) (w : list N) : Prop :=
  match w with [] => True | c :: w' => numchar prev c = true /\ numtail c w' end.

Inductive tokword : list N -> tok -> Prop :=
  | tw_op : forall w t, In (w, t) op_table -> tokword w t
  | tw_num : forall c w, (iswdigit c || (c =? ch ".")%N) = true -> numtail c w ->
      tokword (c :: w) (TNumber (c :: w))
  | tw_id : forall c w, (iswalpha L c || (c =? ch "_")%N) = true ->
      Forall (fun x => (iswalnum L x || (x =? ch "_")%N) = true) w ->
      tokword (c :: w) (TIdent (c :: w)).

Definition longest (w u : list N) : Prop :=
  forall w' t' u', u = w' ++ u' -> tokword w' t' -> (length w' <= length w)%nat.

Inductive lexes : list N -> list tok -> Prop :=
  | lex_nil : lexes [] []
  | lex_space : forall c s ts, iswspace L c = true -> lexes s ts -> lexes (c :: s) ts
  | lex_tok : forall w t s ts, tokword w t -> longest w (w ++ s) -> lexes s ts ->
      lexes (w ++ s) (t :: ts).
End Lex.

(** ** Grammar *)
Inductive cmpop := CLt | CLe | CGt | CGe | CEq | CNe.
Inductive bop := BInt (o : iop) | BCmp (c : cmpop).
Inductive uop := UPlus | UMinus | UCompl | UNot.

Inductive expr :=
  | ENum (w : list N)
  | EVar (x : list N)
  | EUn (o : uop) (e : expr)
  | EIncr (prefix up : bool) (e : expr)
  | EBin (o : bop) (a b : expr)
  | EAnd (a b : expr)
  | EOr (a b : expr)
  | ECond (c a b : expr)
  | EAsg (o : option iop) (l r : expr).

(** Binary operators with their precedence, 1 binding tightest. *)
Definition binop (t : tok) : option (nat * bop) :=
  match t with
  | TAster => Some (1%nat, BInt IMul) | TSlash => Some (1%nat, BInt IDiv)
  | TPercent => Some (1%nat, BInt IRem)
  | TPlus => Some (2%nat, BInt IAdd) | TMinus => Some (2%nat, BInt ISub)
  | TLessless => Some (3%nat, BInt IShl) | TGreatergreater => Some (3%nat, BInt IShr)
  | TLess => Some (4%nat, BCmp CLt) | TLessequal => Some (4%nat, BCmp CLe)
  | TGreater => Some (4%nat, BCmp CGt) | TGreaterequal => Some (4%nat, BCmp CGe)
  | TEqualequal => Some (5%nat, BCmp CEq) | TExclequal => Some (5%nat, BCmp CNe)
  | TAmp => Some (6%nat, BInt IAnd) | THat => Some (7%nat, BInt IXor)
  | TPipe => Some (8%nat, BInt IOr)
  | _ => None
  end.
Definition unop (t : tok) : option uop :=
  match t with
  | TPlus => Some UPlus | TMinus => Some UMinus | TTilde => Some UCompl | TExcl => Some UNot
  | _ => None
  end.
Definition incop (t : tok) : option bool :=
  match t with TPlusplus => Some true | TMinusminus => Some false | _ => None end.
Definition asgop (t : tok) : option (option iop) :=
  match t with
  | TEqual => Some None
  | TAsterequal => Some (Some IMul) | TSlashequal => Some (Some IDiv)
  | TPercentequal => Some (Some IRem) | TPlusequal => Some (Some IAdd)
  | TMinusequal => Some (Some ISub) | TLesslessequal => Some (Some IShl)
  | TGreatergreaterequal => Some (Some IShr) | TAmpequal => Some (Some IAnd)
  | THatequal => Some (Some IXor) | TPipeequal => Some (Some IOr)
  | _ => None
  end.

(** The grammar of the comments above the parse_* functions of arith.c (the
    C grammar without comma, cast and sizeof; the left side of an assignment
    may be any conditional expression). *)
Inductive level := LPrimary | LPostfix | LPrefix | LBin (k : nat) | LAnd | LOr | LCond | LAsg.

Inductive derives : level -> list tok -> expr -> Prop :=
  | d_num : forall w, derives LPrimary [TNumber w] (ENum w)
  | d_var : forall x, derives LPrimary [TIdent x] (EVar x)
  | d_paren : forall ts e, derives LAsg ts e ->
      derives LPrimary (TLparen :: ts ++ [TRparen]) e
  | d_postfix0 : forall ts e, derives LPrimary ts e -> derives LPostfix ts e
  | d_postfix : forall ts e t up, derives LPostfix ts e -> incop t = Some up ->
      derives LPostfix (ts ++ [t]) (EIncr false up e)
  | d_prefix0 : forall ts e, derives LPostfix ts e -> derives LPrefix ts e
  | d_prefix : forall ts e t up, incop t = Some up -> derives LPrefix ts e ->
      derives LPrefix (t :: ts) (EIncr true up e)
  | d_unary : forall ts e t o, unop t = Some o -> derives LPrefix ts e ->
      derives LPrefix (t :: ts) (EUn o e)
  | d_bin_base : forall ts e, derives LPrefix ts e -> derives (LBin 0) ts e
  | d_bin0 : forall k ts e, derives (LBin k) ts e -> derives (LBin (S k)) ts e
  | d_bin : forall k t o ts1 a ts2 b, binop t = Some (S k, o) ->
      derives (LBin (S k)) ts1 a -> derives (LBin k) ts2 b ->
      derives (LBin (S k)) (ts1 ++ t :: ts2) (EBin o a b)
  | d_and0 : forall ts e, derives (LBin 8) ts e -> derives LAnd ts e
  | d_and : forall ts1 a ts2 b, derives LAnd ts1 a -> derives (LBin 8) ts2 b ->
      derives LAnd (ts1 ++ TAmpamp :: ts2) (EAnd a b)
  | d_or0 : forall ts e, derives LAnd ts e -> derives LOr ts e
  | d_or : forall ts1 a ts2 b, derives LOr ts1 a -> derives LAnd ts2 b ->
      derives LOr (ts1 ++ TPipepipe :: ts2) (EOr a b)
  | d_cond0 : forall ts e, derives LOr ts e -> derives LCond ts e
  | d_cond : forall ts1 c ts2 a ts3 b, derives LOr ts1 c -> derives LAsg ts2 a ->
      derives LCond ts3 b ->
      derives LCond (ts1 ++ TQuestion :: ts2 ++ TColon :: ts3) (ECond c a b)
  | d_asg0 : forall ts e, derives LCond ts e -> derives LAsg ts e
  | d_asg : forall ts1 l t o ts2 r, derives LCond ts1 l -> asgop t = Some o ->
      derives LAsg ts2 r -> derives LAsg (ts1 ++ t :: ts2) (EAsg o l r).

(** ** Evaluation of expression trees *)
Section Eval.
Variable L : locale.
Variable D : dops.
Variable posix unset_ok : bool.

Inductive num := NInt (z : Z) | NDbl (d : dbl D).
(** The result of an expression: a number, or a variable not read yet (which
    can be assigned to). *)
Inductive rv := RNum (n : num) | RVar (x : list N).

Definition read_num (t : list N) : option num :=
  match xwcstol L 0 t with
  | Some z => Some (NInt z)
  | None => if posix then None else option_map NDbl (d_parse D t)
  end.

Definition read_var (e : env) (x : list N) : option num :=
  match vget e x with
  | None => if unset_ok then Some (NInt 0) else None
  | Some t => if list_N_eqb t [] then Some (NInt 0) else read_num t
  end.

Definition to_num (e : env) (r : rv) : option num :=
  match r with RNum n => Some n | RVar x => read_var e x end.

Definition to_int (n : num) : option Z :=
  match n with NInt z => Some z | NDbl d => d_trunc D d end.
Definition to_dbl (n : num) : dbl D :=
  match n with NInt z => d_of_long D z | NDbl d => d end.
Definition truthy (n : num) : bool :=
  match n with NInt z => negb (z =? 0) | NDbl d => d_true D d end.

Definition bool_num (b : bool) : num := NInt (if b then 1 else 0).

Definition dbl_op (o : iop) (a b : dbl D) : option (dbl D) :=
  match o with
  | IMul => Some (d_mul D a b) | IDiv => Some (d_div D a b) | IRem => Some (d_mod D a b)
  | IAdd => Some (d_add D a b) | ISub => Some (d_sub D a b)
  | _ => None
  end.

(** Integers are combined exactly; otherwise + - * / % work on doubles, and
    the bitwise operators on truncated operands. *)
Definition apply_op (o : iop) (a b : num) : option num :=
  match o with
  | IMul | IDiv | IRem | IAdd | ISub =>
      match a, b with
      | NInt x, NInt y => option_map NInt (long_op o x y)
      | _, _ => option_map NDbl (dbl_op o (to_dbl a) (to_dbl b))
      end
  | _ =>
      match to_int a, to_int b with
      | Some x, Some y => option_map NInt (long_op o x y)
      | _, _ => None
      end
  end.

Definition apply_cmp (c : cmpop) (a b : num) : bool :=
  match a, b with
  | NInt x, NInt y =>
      match c with
      | CLt => x <? y | CLe => x <=? y | CGt => y <? x | CGe => y <=? x
      | CEq => x =? y | CNe => negb (x =? y)
      end
  | _, _ =>
      let x := to_dbl a in let y := to_dbl b in
      match c with
      | CLt => d_lt D x y | CLe => d_le D x y | CGt => d_lt D y x | CGe => d_le D y x
      | CEq => d_eq D x y | CNe => negb (d_eq D x y)
      end
  end.

Definition apply_bop (o : bop) (a b : num) : option num :=
  match o with
  | BInt o => apply_op o a b
  | BCmp c => Some (bool_num (apply_cmp c a b))
  end.

Definition apply_uop (o : uop) (a : num) : option num :=
  match o with
  | UPlus => Some a
  | UMinus => match a with
              | NInt z => if in_long (- z) then Some (NInt (- z)) else None
              | NDbl d => Some (NDbl (d_neg D d))
              end
  | UCompl => option_map (fun z => NInt (- z - 1)) (to_int a)
  | UNot => Some (bool_num (negb (truthy a)))
  end.

Definition step_num (up : bool) (a : num) : option num :=
  match a with
  | NInt z => let r := if up then z + 1 else z - 1 in if in_long r then Some (NInt r) else None
  | NDbl d => Some (NDbl (if up then d_incr D d else d_decr D d))
  end.

(** The text stored by an assignment, which is also the text the expansion
    produces.  A variable's own text is copied as it is. *)
Definition num_text (n : num) : list N :=
  match n with NInt z => dec_of_Z z | NDbl d => d_print D d end.
Definition rv_text (e : env) (r : rv) : option (list N) :=
  match r with
  | RNum n => Some (num_text n)
  | RVar x => match vget e x with
              | Some t => Some t
              | None => if unset_ok then Some (str "0") else None
              end
  end.

Definition assign (e : env) (x t : list N) : option env :=
  if vro e x then None
  else Some (mkEnv (fun y => if list_N_eqb y x then Some t else vget e y) (vro e)).

Notation "'do' x '<-' a ; b" := (match a with Some x => b | None => None end)
  (at level 200, x pattern, a at level 100, b at level 200).

(** [None] is an error. *)
Fixpoint eval (x : expr) (e : env) : option (env * rv) :=
  match x with
  | ENum w => do n <- read_num w; Some (e, RNum n)
  | EVar x => Some (e, RVar x)
  | EUn o a =>
      do (e, r) <- eval a e;
      do n <- to_num e r;
      do m <- apply_uop o n; Some (e, RNum m)
  | EIncr prefix up a =>
      do (e, r) <- eval a e;
      match r with
      | RVar x =>
          do n <- read_var e x;
          do m <- step_num up n;
          do e <- assign e x (num_text m);
          Some (e, RNum (if prefix then m else n))
      | RNum _ => None
      end
  | EBin o a b =>
      do (e, r1) <- eval a e;
      do (e, r2) <- eval b e;
      do n1 <- to_num e r1;
      do n2 <- to_num e r2;
      do m <- apply_bop o n1 n2; Some (e, RNum m)
  | EAnd a b =>
      do (e, r1) <- eval a e;
      do n1 <- to_num e r1;
      if truthy n1 then
        do (e, r2) <- eval b e;
        do n2 <- to_num e r2; Some (e, RNum (bool_num (truthy n2)))
      else Some (e, RNum (bool_num false))
  | EOr a b =>
      do (e, r1) <- eval a e;
      do n1 <- to_num e r1;
      if truthy n1 then Some (e, RNum (bool_num true))
      else
        do (e, r2) <- eval b e;
        do n2 <- to_num e r2; Some (e, RNum (bool_num (truthy n2)))
  | ECond c a b =>
      do (e, r) <- eval c e;
      do n <- to_num e r;
      if truthy n then eval a e else eval b e
  | EAsg o l r =>
      do (e, r1) <- eval l e;
      do (e, r2) <- eval r e;
      match r1 with
      | RNum _ => None
      | RVar x =>
          match o with
          | None =>
              do t <- rv_text e r2;
              do e <- assign e x t; Some (e, r2)
          | Some o =>
              do n1 <- read_var e x;
              do n2 <- to_num e r2;
              do m <- apply_op o n1 n2;
              do e <- assign e x (num_text m); Some (e, RNum m)
          end
      end
  end.

(** Errors found even in operands that are not evaluated: malformed numbers,
    and ++ and -- in POSIXly-correct mode. *)
Fixpoint well_formed (x : expr) : bool :=
  match x with
  | ENum w => match read_num w with Some _ => true | None => false end
  | EVar _ => true
  | EUn _ a => well_formed a
  | EIncr _ _ a => negb posix && well_formed a
  | EBin _ a b | EAnd a b | EOr a b | EAsg _ a b => well_formed a && well_formed b
  | ECond a b c => well_formed a && well_formed b && well_formed c
  end.

(** The whole expansion: new variables and the resulting text. *)
Definition expand_expr (x : expr) (e : env) : option (env * list N) :=
  if well_formed x then
    do (e, r) <- eval x e;
    if posix then do n <- to_num e r; Some (e, num_text n)
    else do t <- rv_text e r; Some (e, t)
  else None.

(** An array index: the result must be an integer; the least long is clamped. *)
Definition expand_index (x : expr) (e : env) : option (env * Z) :=
  if well_formed x then
    do (e, r) <- eval x e;
    match to_num e r with Some (NInt z) => Some (e, Z.max z (- LONG_MAX)) | _ => None end
  else None.
End Eval.
