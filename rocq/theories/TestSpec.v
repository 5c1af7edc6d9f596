(** What the "test" built-in is expected to do: expressions, their grammar as
    lists of words, and their truth values.  Independent of TestModel's
    functions; only the environment record is shared. *)
From Coq Require Import Ascii String.
From Coq Require Import List NArith ZArith Bool.
From Verif Require Import Common Locale NumModel NumProofs TestModel.
Import ListNotations.

(** ** Expressions *)
Inductive expr :=
  | XWord (w : list N)
  | XUnary (op : string) (w : list N)
  | XBinary (op : string) (l r : list N)
  | XNot (e : expr)
  | XParen (e : expr)
  | XAnd (e1 e2 : expr)
  | XOr (e1 e2 : expr).

Definition unary_ops : list string :=
  ["-b"; "-c"; "-d"; "-e"; "-f"; "-G"; "-g"; "-h"; "-k"; "-L"; "-N"; "-n"; "-O"; "-o"; "-p"; "-r";
   "-S"; "-s"; "-t"; "-u"; "-w"; "-x"; "-z"]%string.
Definition binary_ops : list string :=
  ["="; "=="; "==="; "!="; "!=="; "=~"; "<"; "<="; ">"; ">="; "-eq"; "-ne"; "-gt"; "-ge"; "-lt"; "-le";
   "-nt"; "-ot"; "-ef"; "-veq"; "-vne"; "-vgt"; "-vge"; "-vlt"; "-vle"]%string.

(** The grammar: "-o" binds weakest, then "-a", then "!". *)
Inductive g_or : expr -> list (list N) -> Prop :=
  | g_or_one : forall e ws, g_and e ws -> g_or e ws
  | g_or_more : forall e1 e2 ws1 ws2, g_or e1 ws1 -> g_and e2 ws2 ->
      g_or (XOr e1 e2) (ws1 ++ str "-o" :: ws2)
with g_and : expr -> list (list N) -> Prop :=
  | g_and_one : forall e ws, g_term e ws -> g_and e ws
  | g_and_more : forall e1 e2 ws1 ws2, g_and e1 ws1 -> g_term e2 ws2 ->
      g_and (XAnd e1 e2) (ws1 ++ str "-a" :: ws2)
with g_term : expr -> list (list N) -> Prop :=
  | g_word : forall w, g_term (XWord w) [w]
  | g_unary : forall op w, In op unary_ops -> g_term (XUnary op w) [str op; w]
  | g_binary : forall op l r, In op binary_ops -> g_term (XBinary op l r) [l; str op; r]
  | g_not : forall e ws, g_term e ws -> g_term (XNot e) (str "!" :: ws)
  | g_paren : forall e ws, g_or e ws -> g_term (XParen e) (str "(" :: ws ++ [str ")"]).

(** ** Values of the primaries *)
Section Env.
Context (E : tenv).

(** A decimal integer with an optional sign, after optional spaces. *)
Inductive dec_text : list N -> Z -> Prop :=
  | dt_plain : forall w z, numeral 10 w z -> dec_text w z
  | dt_plus : forall w z, numeral 10 w z -> dec_text (ch "+" :: w) z
  | dt_minus : forall w z, numeral 10 w z -> dec_text (ch "-" :: w) (- z)
  | dt_space : forall c w z, iswspace (t_loc E) c = true -> dec_text w z -> dec_text (c :: w) z.
(** ... that fits into 64 bits. *)
Definition integer (w : list N) (z : Z) : Prop := dec_text w z /\ is_long z.

(** [int_holds R l r x]: the comparison [R] of two integers has the value [x];
    None if an operand is not an integer. *)
Definition int_holds (R : Z -> Z -> bool) (l r : list N) (x : option bool) : Prop :=
  (exists i j, integer l i /\ integer r j /\ x = Some (R i j)) \/
  ((~ exists i, integer l i) \/ (~ exists j, integer r j)) /\ x = None.

(** Modification time order; a file that exists is newer than one that does not. *)
Definition before (a b : option tstat) : bool :=
  match a, b with
  | None, Some _ => true
  | Some s, Some t =>
      negb ((st_dev s =? st_dev t)%N && (st_ino s =? st_ino t)%N) &&
      ((st_sec s <? st_sec t)%Z || ((st_sec s =? st_sec t)%Z && (st_nsec s <? st_nsec t)%Z))
  | _, None => false
  end.
Definition same_file (a b : option tstat) : bool :=
  match a, b with
  | Some s, Some t => (st_dev s =? st_dev t)%N && (st_ino s =? st_ino t)%N
  | _, _ => false
  end.
Definition on_files (R : option tstat -> option tstat -> bool) (l r : list N) : option bool :=
  match t_mbs E l, t_mbs E r with
  | Some a, Some b => Some (R (t_stat E a) (t_stat E b))
  | _, _ => None
  end.

(** ** Version numbers: a sequence of numbers and other characters. *)
Inductive token := TNum (n : Z) | TChr (c : N).
(** the number [n] written by the digits [d] *)
Inductive tokens : list N -> list token -> Prop :=
  | tk_nil : tokens [] []
  | tk_chr : forall c w ts, iswdigit c = false -> tokens w ts -> tokens (c :: w) (TChr c :: ts)
  | tk_num : forall d n w ts, numeral 10 d n ->
      match w with c :: _ => iswdigit c = false | [] => True end ->
      tokens w ts -> tokens (d ++ w) (TNum n :: ts).

(** Order of tokens: numbers by value and above all other characters; letters
    above the remaining characters; otherwise by code. *)
Definition tk_compare (a b : token) : comparison :=
  match a, b with
  | TNum n, TNum m => (n ?= m)%Z
  | TNum _, TChr _ => Gt
  | TChr _, TNum _ => Lt
  | TChr c, TChr d =>
      match iswalpha (t_loc E) c, iswalpha (t_loc E) d with
      | true, false => Gt
      | false, true => Lt
      | _, _ => (c ?= d)%N
      end
  end.
(** Lexicographic order of sequences. *)
Fixpoint lex {A} (cmp : A -> A -> comparison) (l r : list A) : comparison :=
  match l, r with
  | [], [] => Eq
  | [], _ :: _ => Lt
  | _ :: _, [] => Gt
  | a :: l', b :: r' => match cmp a b with Eq => lex cmp l' r' | c => c end
  end.
Definition ver_compare (l r : list N) (c : comparison) : Prop :=
  exists a b, tokens l a /\ tokens r b /\ c = lex tk_compare a b.

(** ** Meaning of expressions: a truth value, or None for an error *)
Definition truth (P : Prop) (b : bool) : Prop := b = true <-> P.

Definition coll_table : list (string * (Z -> bool)) :=
  [("===", fun c => c =? 0); ("!==", fun c => negb (c =? 0)); ("<", fun c => c <? 0);
   ("<=", fun c => c <=? 0); (">", fun c => c >? 0); (">=", fun c => c >=? 0)]%Z%string.
Definition int_table : list (string * (Z -> Z -> bool)) :=
  [("-eq", fun i j => i =? j); ("-ne", fun i j => negb (i =? j)); ("-gt", fun i j => i >? j);
   ("-ge", fun i j => i >=? j); ("-lt", fun i j => i <? j); ("-le", fun i j => i <=? j)]%Z%string.
(** The version operators are conditions on the sign of the comparison, which is
    specified by [ver_compare]. *)
Definition ver_table : list (string * (Z -> bool)) :=
  [("-veq", fun c => c =? 0); ("-vne", fun c => negb (c =? 0)); ("-vgt", fun c => c >? 0);
   ("-vge", fun c => c >=? 0); ("-vlt", fun c => c <? 0); ("-vle", fun c => c <=? 0)]%Z%string.
Definition file_table : list (string * (option tstat -> option tstat -> bool)) :=
  [("-nt", fun a b => before b a); ("-ot", before); ("-ef", same_file)]%string.

Inductive means1 : string -> list N -> option bool -> Prop :=
  | m1_n : forall w b, truth (w <> []) b -> means1 "-n" w (Some b)
  | m1_z : forall w b, truth (w = []) b -> means1 "-z" w (Some b)
  | m1_t : forall w b,
      truth (exists fd, integer w fd /\ (INT_MIN <= fd <= INT_MAX)%Z /\ t_tty E fd = true) b ->
      means1 "-t" w (Some b)
  | m1_o : forall w, (forall w', w <> ch "?" :: w') -> means1 "-o" w (Some (t_opton E w))
  | m1_oq : forall w, means1 "-o" (ch "?" :: w) (Some (t_optvalid E w))
  | m1_file : forall c w,
      ~ In (String c "") ["n"; "z"; "t"; "o"]%string ->
      means1 (String "-" (String c "")) w
        (match t_mbs E w with Some m => Some (t_file E (ch c) m) | None => None end).

Inductive means2 : string -> list N -> list N -> option bool -> Prop :=
  | m2_eq : forall op l r b, In op ["="; "=="]%string -> truth (l = r) b -> means2 op l r (Some b)
  | m2_ne : forall l r b, truth (l <> r) b -> means2 "!=" l r (Some b)
  | m2_coll : forall op R l r, In (op, R) coll_table -> means2 op l r (Some (R (t_coll E l r)))
  | m2_regex : forall l r a b, t_mbs E r = Some a -> t_mbs E l = Some b ->
      means2 "=~" l r (Some (t_regcomp E a && t_regexec E a b))
  | m2_badregex : forall l r a, t_mbs E r = Some a -> t_regcomp E a = false -> means2 "=~" l r (Some false)
  | m2_int : forall op R l r x, In (op, R) int_table -> int_holds R l r x -> means2 op l r x
  | m2_ver : forall op R l r c, In (op, R) ver_table -> versions E l r = Ok c -> means2 op l r (Some (R c))
  | m2_file : forall op R l r, In (op, R) file_table -> means2 op l r (on_files R l r).

(** Operands are evaluated from left to right until an error occurs. *)
Inductive means : expr -> option bool -> Prop :=
  | m_word : forall w b, truth (w <> []) b -> means (XWord w) (Some b)
  | m_unary : forall op w x, means1 op w x -> means (XUnary op w) x
  | m_binary : forall op l r x, means2 op l r x -> means (XBinary op l r) x
  | m_not : forall e x, means e x -> means (XNot e) (option_map negb x)
  | m_paren : forall e x, means e x -> means (XParen e) x
  | m_and : forall e1 e2 a b, means e1 (Some a) -> means e2 (Some b) -> means (XAnd e1 e2) (Some (a && b))
  | m_and1 : forall e1 e2, means e1 None -> means (XAnd e1 e2) None
  | m_and2 : forall e1 e2 a, means e1 (Some a) -> means e2 None -> means (XAnd e1 e2) None
  | m_or : forall e1 e2 a b, means e1 (Some a) -> means e2 (Some b) -> means (XOr e1 e2) (Some (a || b))
  | m_or1 : forall e1 e2, means e1 None -> means (XOr e1 e2) None
  | m_or2 : forall e1 e2 a, means e1 (Some a) -> means e2 None -> means (XOr e1 e2) None.

End Env.

(** Exit status for a value: true, false, error. *)
Definition status_of (x : option bool) : Z :=
  match x with Some true => 0 | Some false => 1 | None => 2 end.

(** Expressions whose operands cannot be confused with operators, in the sense
    the documentation warns about. *)
Definition opens (w : list N) : Prop := w = str "!" \/ w = str "(".
Definition one_of (ops : list string) (w : list N) : Prop := exists op, In op ops /\ w = str op.
Fixpoint plain (e : expr) : Prop :=
  match e with
  | XWord w => ~ opens w /\ ~ one_of unary_ops w /\ ~ one_of binary_ops w
  | XUnary op w => ~ one_of binary_ops w
  | XBinary op l r => ~ opens l
  | XNot (XNot _) => False
  | XNot e | XParen e => plain e
  | XAnd e1 e2 | XOr e1 e2 => plain e1 /\ plain e2
  end.

(** Argument lists that POSIX gives another meaning than the grammar: with four
    arguments, "!" negates all of the rest; with three, "-o" in the middle is the
    binary operator. *)
Definition posix_case (args : list (list N)) : Prop :=
  (exists a b, args = [str "!"; a; str "-a"; b] \/ args = [str "!"; a; str "-o"; b]) \/
  (exists w, args = [str "!"; str "-o"; w]).
