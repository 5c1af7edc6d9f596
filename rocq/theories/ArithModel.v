(** Model of arith.c: arithmetic expansion. *)
From Coq Require Import Ascii String.
From Coq Require Import List NArith ZArith Bool.
From Verif Require Import Common Locale NumModel.
Import ListNotations.
Local Open Scope Z_scope.
Local Open Scope res_scope.

(** Floating-point operations are a parameter: [d_trunc] is the C conversion
    [(long) d], [None] where the C standard leaves it undefined (NaN or out of
    range); [d_parse] is wcstod succeeding on the whole string; [d_print] is
    printf's "%.15g". *)
Record dops := mkDops {
  dbl : Type;
  d_of_long : Z -> dbl;
  d_trunc : dbl -> option Z;
  d_true : dbl -> bool;
  d_neg : dbl -> dbl; d_incr : dbl -> dbl; d_decr : dbl -> dbl;
  d_add : dbl -> dbl -> dbl; d_sub : dbl -> dbl -> dbl; d_mul : dbl -> dbl -> dbl;
  d_div : dbl -> dbl -> dbl; d_mod : dbl -> dbl -> dbl;
  d_lt : dbl -> dbl -> bool; d_le : dbl -> dbl -> bool; d_eq : dbl -> dbl -> bool;
  d_parse : list N -> option dbl;
  d_print : dbl -> list N }.

(** arith.c:59-78 [atokentype_T] together with the word of the token. *)
Inductive tok :=
  | TNull | TInvalid
  | TLparen | TRparen | TTilde | TExcl | TPercent
  | TPlus | TMinus | TPlusplus | TMinusminus | TAster | TSlash
  | TLess | TGreater | TLessless | TGreatergreater
  | TLessequal | TGreaterequal | TEqualequal | TExclequal
  | TAmp | TAmpamp | THat | TPipe | TPipepipe | TQuestion | TColon
  | TEqual | TPlusequal | TMinusequal | TAsterequal | TSlashequal
  | TPercentequal | TLesslessequal | TGreatergreaterequal
  | TAmpequal | THatequal | TPipeequal
  | TNumber (w : list N)
  | TIdent (w : list N).

(** The error messages (xerror calls) of arith.c, plus the message printed by
    set_variable for a read-only variable. *)
Inductive amsg :=
  | MOverflow | MDivZero | MNegShift | MShiftWidth
  | MAssignNumber | MUnset (w : list N) | MMissing (w : list N) | MUnsupported
  | MNeedVar | MNoValue | MBadNumber (w : list N) | MBadChar (c : N) | MSyntax
  | MReadonly (w : list N) | MNotInteger.

(** Variables: what getvar returns, and which are read-only.  Variables with
    side-effecting getters (RANDOM, LINENO) and the locale change caused by
    assigning LC_* are not modelled. *)
Record env := mkEnv { vget : list N -> option (list N); vro : list N -> bool }.
Definition env_set (e : env) (x v : list N) : env :=
  mkEnv (fun y => if list_N_eqb y x then Some v else vget e y) (vro e).

(** Checked C signed arithmetic: out of range is undefined behaviour. *)
Definition cl (z : Z) : res Z := if in_long z then Ok z else UB.

(** Conversion to unsigned long. *)
Definition to_ulong (z : Z) : Z := z mod ULONG_MOD.
Definition LONG_BIT : Z := 64.

(** arith.c:1456-1471 [long_mul_will_overflow].  The division by [u2] is checked. *)
Definition udiv (a b : Z) : res Z := if b =? 0 then UB else Ok (a / b).
Definition labs (z : Z) : res Z := if z <? 0 then cl (- z) else Ok z.
Definition long_mul_will_overflow (v1 v2 : Z) : res bool :=
  if (v1 =? 0) || (v1 =? 1) || (v2 =? 0) || (v2 =? 1) then Ok false else
  if (v1 =? LONG_MIN) || (v2 =? LONG_MIN) then Ok true else
  let! u1 := labs v1 in
  let! u2 := labs v2 in
  let prod := to_ulong (u1 * u2) in
  if prod =? to_ulong LONG_MIN then
    if Bool.eqb (0 <=? v1) (0 <=? v2) then Ok true else
    let! q := udiv prod u2 in Ok (negb (q =? u1))
  else
    let! q := udiv (Z.land prod LONG_MAX) u2 in Ok (negb (q =? u1)).

(** arith.c:395-437 [do_long_calculation1] *)
Definition do_long_calculation1 (t : tok) (v1 v2 : Z) : res (Z + amsg) :=
  match t with
  | TPlus | TPlusequal =>
      let! o := (if 0 <=? v2 then let! x := cl (LONG_MAX - v2) in Ok (x <? v1)
                 else let! x := cl (LONG_MIN - v2) in Ok (v1 <? x)) in
      if o : bool then Ok (inr MOverflow) else let! r := cl (v1 + v2) in Ok (inl r)
  | TMinus | TMinusequal =>
      let! o := (if v2 <? 0 then let! x := cl (LONG_MAX + v2) in Ok (x <? v1)
                 else let! x := cl (LONG_MIN + v2) in Ok (v1 <? x)) in
      if o : bool then Ok (inr MOverflow) else let! r := cl (v1 - v2) in Ok (inl r)
  | TAster | TAsterequal =>
      let! o := long_mul_will_overflow v1 v2 in
      if o : bool then Ok (inr MOverflow) else let! r := cl (v1 * v2) in Ok (inl r)
  | TSlash | TSlashequal =>
      if v2 =? 0 then Ok (inr MDivZero)
      else if (v1 =? LONG_MIN) && (v2 =? -1) then Ok (inr MOverflow)
      else let! r := cl (Z.quot v1 v2) in Ok (inl r)
  | TPercent | TPercentequal =>
      if v2 =? 0 then Ok (inr MDivZero)
      else if (v1 =? LONG_MIN) && (v2 =? -1) then Ok (inr MOverflow)
      else let! _ := cl (Z.quot v1 v2) in let! r := cl (Z.rem v1 v2) in Ok (inl r)
  | _ => UB (* assert(false) *)
  end.

(** arith.c:442-482 [do_long_calculation2].  [>>] of a negative value is
    implementation-defined; modelled as the arithmetic shift. *)
Definition do_long_calculation2 (t : tok) (v1 v2 : Z) : res (Z + amsg) :=
  match t with
  | TLessless | TLesslessequal =>
      if v1 <? 0 then Ok (inr MNegShift)
      else if (v2 <? 0) || (LONG_BIT <=? v2) then Ok (inr MShiftWidth)
      else
        let u1 := to_ulong v1 in
        if negb (Z.shiftr (Z.land (to_ulong (Z.shiftl u1 v2)) LONG_MAX) v2 =? u1)
        then Ok (inr MOverflow)
        else let! r := cl (Z.shiftl v1 v2) in Ok (inl r)
  | TGreatergreater | TGreatergreaterequal =>
      if (v2 <? 0) || (LONG_BIT <=? v2) then Ok (inr MShiftWidth)
      else Ok (inl (Z.shiftr v1 v2))
  | TAmp | TAmpequal => Ok (inl (Z.land v1 v2))
  | THat | THatequal => Ok (inl (Z.lxor v1 v2))
  | TPipe | TPipeequal => Ok (inl (Z.lor v1 v2))
  | _ => UB (* assert(false) *)
  end.

Definition b2z (b : bool) : Z := if b then 1 else 0.

(** arith.c:485-503 [do_long_comparison] *)
Definition do_long_comparison (t : tok) (v1 v2 : Z) : res Z :=
  match t with
  | TLess => Ok (b2z (v1 <? v2))
  | TLessequal => Ok (b2z (v1 <=? v2))
  | TGreater => Ok (b2z (v2 <? v1))
  | TGreaterequal => Ok (b2z (v2 <=? v1))
  | TEqualequal => Ok (b2z (v1 =? v2))
  | TExclequal => Ok (b2z (negb (v1 =? v2)))
  | _ => UB
  end.

Section Arith.
Variable L : locale.
Variable D : dops.
(** [posixly_correct] and [shopt_unset] *)
Variable posix : bool.
Variable unset_ok : bool.
(** [info->exp] *)
Variable exp : list N.

(** arith.c:44-54 [valuetype_T] *)
Inductive value :=
  | VInvalid | VLong (z : Z) | VDouble (d : dbl D) | VVar (x : list N).

(** arith.c:80-87 [evalinfo_T] plus the shell variables and the messages printed
    so far (latest first). *)
Record st := mkSt {
  idx : nat; tk : tok; po : bool; er : bool; en : env; msgs : list amsg }.

Definition set_idx (s : st) i := mkSt i (tk s) (po s) (er s) (en s) (msgs s).
Definition set_tk (s : st) t := mkSt (idx s) t (po s) (er s) (en s) (msgs s).
Definition set_po (s : st) b := mkSt (idx s) (tk s) b (er s) (en s) (msgs s).
Definition set_en (s : st) e := mkSt (idx s) (tk s) (po s) (er s) e (msgs s).
(** xerror *)
Definition msg (s : st) m := mkSt (idx s) (tk s) (po s) (er s) (en s) (m :: msgs s).
(** info->error = true *)
Definition set_er (s : st) := mkSt (idx s) (tk s) (po s) true (en s) (msgs s).
(** xerror followed by info->error = true *)
Definition fail (s : st) m := set_er (msg s m).

(** [exp[i]]: the terminating null is readable, nothing beyond. *)
Definition getc (i : nat) : res N :=
  match nth_error exp i with
  | Some c => Ok c
  | None => if Nat.eqb i (length exp) then Ok 0%N else UB
  end.

(** arith.c:1224-1225 *)
Fixpoint skip_spaces (fuel : nat) (i : nat) : res nat :=
  let! c := getc i in
  if iswspace L c then
    match fuel with O => Fuel | S f => skip_spaces f (S i) end
  else Ok i.

(** arith.c:1424-1426: do c = exp[++index]; while (c == '.' || iswalnum(c)) *)
Fixpoint scan_alnum (extra : N) (fuel : nat) (i : nat) : res nat :=
  let i := S i in
  let! c := getc i in
  if N.eqb c extra || iswalnum L c then
    match fuel with O => Fuel | S f => scan_alnum extra f i end
  else Ok i.

(** arith.c:1423-1431: the number loop with exponent signs. *)
Fixpoint scan_number (fuel : nat) (i : nat) : res nat :=
  let! i := scan_alnum 46 (S (length exp)) i in
  let! c := getc i in
  if N.eqb c 43 || N.eqb c 45 then
    let! c' := getc (Nat.pred i) in
    if N.eqb c' 69 || N.eqb c' 101 then
      match fuel with O => Fuel | S f => scan_number f i end
    else Ok i
  else Ok i.

Definition slice (i j : nat) : list N := firstn (j - i) (skipn i exp).

(** arith.c:1221-1452 [next_token] *)
Definition next_token (s : st) : res st :=
  let! i := skip_spaces (S (length exp)) (idx s) in
  let s := set_idx s i in
  let! c := getc i in
  let one t := Ok (set_tk (set_idx s (S i)) t) in
  (* switch (exp[index + 1]) { case '=': ...; default: ... } *)
  let opt_eq te t :=
    let! d := getc (S i) in
    if N.eqb d 61 then Ok (set_tk (set_idx s (S (S i))) te) else one t in
  let opt_twin_eq tt te t :=
    let! d := getc (S i) in
    if N.eqb d c then Ok (set_tk (set_idx s (S (S i))) tt)
    else if N.eqb d 61 then Ok (set_tk (set_idx s (S (S i))) te) else one t in
  (* the '<' and '>' cases *)
  let angle t te tt tte :=
    let i1 := S i in
    let! d := getc i1 in
    let twin := N.eqb d c in
    let i2 := if twin then S i1 else i1 in
    let! e := getc i2 in
    let equal := N.eqb e 61 in
    let i3 := if equal then S i2 else i2 in
    Ok (set_tk (set_idx s i3)
          (if twin then (if equal then tte else tt) else (if equal then te else t))) in
  let ident :=
    let! j := scan_alnum 95 (S (length exp)) i in
    Ok (set_tk (set_idx s j) (TIdent (slice i j))) in
  if N.eqb c 0 then Ok (set_tk s TNull)
  else if N.eqb c (ch "(") then one TLparen
  else if N.eqb c (ch ")") then one TRparen
  else if N.eqb c (ch "~") then one TTilde
  else if N.eqb c (ch "!") then opt_eq TExclequal TExcl
  else if N.eqb c (ch "%") then opt_eq TPercentequal TPercent
  else if N.eqb c (ch "+") then opt_twin_eq TPlusplus TPlusequal TPlus
  else if N.eqb c (ch "-") then opt_twin_eq TMinusminus TMinusequal TMinus
  else if N.eqb c (ch "*") then opt_eq TAsterequal TAster
  else if N.eqb c (ch "/") then opt_eq TSlashequal TSlash
  else if N.eqb c (ch "<") then angle TLess TLessequal TLessless TLesslessequal
  else if N.eqb c (ch ">") then angle TGreater TGreaterequal TGreatergreater TGreatergreaterequal
  else if N.eqb c (ch "=") then opt_eq TEqualequal TEqual
  else if N.eqb c (ch "&") then opt_twin_eq TAmpamp TAmpequal TAmp
  else if N.eqb c (ch "|") then opt_twin_eq TPipepipe TPipeequal TPipe
  else if N.eqb c (ch "^") then opt_eq THatequal THat
  else if N.eqb c (ch "?") then one TQuestion
  else if N.eqb c (ch ":") then one TColon
  else if N.eqb c (ch "_") then ident
  else if N.eqb c (ch ".") || iswdigit c then
    let! j := scan_number (S (length exp)) i in
    Ok (set_tk (set_idx s j) (TNumber (slice i j)))
  else if iswalpha L c then ident
  else Ok (set_tk (fail s (MBadChar c)) TInvalid).

(** arith.c:298-322 [value_to_string]: the string, or NULL possibly with a message. *)
Definition value_to_string (s : st) (v : value) : st * option (list N) :=
  match v with
  | VInvalid => (s, None)
  | VLong z => (s, Some (dec_of_Z z))
  | VDouble d => (s, Some (d_print D d))
  | VVar x =>
      match vget (en s) x with
      | Some t => (s, Some t)
      | None => if unset_ok then (s, Some (dec_of_Z 0)) else (msg s (MUnset x), None)
      end
  end.

(** arith.c:284-294 [do_assignment] with variable.c:624-646 [set_variable], which
    fails (with a message) exactly for read-only variables. *)
Definition do_assignment (s : st) (x : list N) (v : value) : st * bool :=
  match value_to_string s v with
  | (s, None) => (s, false)
  | (s, Some t) =>
      if vro (en s) x then (msg s (MReadonly x), false)
      else (set_en s (env_set (en s) x t), true)
  end.

(** arith.c:1132-1179 [coerce_number] *)
Definition coerce_number (s : st) (v : value) : st * value :=
  match v with
  | VVar x =>
      match vget (en s) x with
      | None => if unset_ok then (s, VLong 0) else (fail s (MUnset x), VInvalid)
      | Some [] => (s, VLong 0)
      | Some t =>
          match xwcstol L 0 t with
          | Some z => (s, VLong z)
          | None =>
              match (if posix then None else d_parse D t) with
              | Some d => (s, VDouble d)
              | None => (fail s (MBadNumber t), VInvalid)
              end
          end
      end
  | _ => (s, v)
  end.

(** arith.c:1183-1190 [coerce_integer]: the conversion of an out-of-range double is
    undefined behaviour. *)
Definition coerce_integer (s : st) (v : value) : res (st * value) :=
  match coerce_number s v with
  | (s, VDouble d) =>
      match d_trunc D d with Some z => Ok (s, VLong z) | None => UB end
  | r => Ok r
  end.

(** arith.c:1200-1215 [coerce_type]: the two coerced values and the common type. *)
Inductive vtype := YInvalid | YLong (a b : Z) | YDouble (a b : dbl D).
Definition coerce_type (s : st) (v1 v2 : value) : res (st * vtype) :=
  let '(s, v1) := coerce_number s v1 in
  let '(s, v2) := coerce_number s v2 in
  match v1, v2 with
  | VLong a, VLong b => Ok (s, YLong a b)
  | VDouble a, VDouble b => Ok (s, YDouble a b)
  | VInvalid, _ | _, VInvalid => Ok (s, YInvalid)
  | VLong a, VDouble b => Ok (s, YDouble (d_of_long D a) b)
  | VDouble a, VLong b => Ok (s, YDouble a (d_of_long D b))
  | VVar _, _ | _, VVar _ => UB (* assertion *)
  end.

(** arith.c:508-544 [do_double_calculation] (DOUBLE_DIVISION_BY_ZERO_ERROR unset) *)
Definition do_double_calculation (t : tok) (a b : dbl D) : res (dbl D) :=
  match t with
  | TPlus | TPlusequal => Ok (d_add D a b)
  | TMinus | TMinusequal => Ok (d_sub D a b)
  | TAster | TAsterequal => Ok (d_mul D a b)
  | TSlash | TSlashequal => Ok (d_div D a b)
  | TPercent | TPercentequal => Ok (d_mod D a b)
  | _ => UB
  end.

(** arith.c:547-565 [do_double_comparison] *)
Definition do_double_comparison (t : tok) (a b : dbl D) : res Z :=
  match t with
  | TLess => Ok (b2z (d_lt D a b))
  | TLessequal => Ok (b2z (d_le D a b))
  | TGreater => Ok (b2z (d_lt D b a))
  | TGreaterequal => Ok (b2z (d_le D b a))
  | TEqualequal => Ok (b2z (d_eq D a b))
  | TExclequal => Ok (b2z (negb (d_eq D a b)))
  | _ => UB
  end.

(** arith.c:328-390 [do_binary_calculation]: state, result value, returned flag. *)
Definition do_binary_calculation (s : st) (t : tok) (lhs rhs : value)
  : res (st * value * bool) :=
  match t with
  | TAster | TAsterequal | TSlash | TSlashequal | TPercent | TPercentequal
  | TPlus | TPlusequal | TMinus | TMinusequal =>
      let! (s, y) := coerce_type s lhs rhs in
      match y with
      | YLong a b =>
          let! r := do_long_calculation1 t a b in
          match r with
          | inl z => Ok (s, VLong z, true)
          | inr m => Ok (fail s m, VInvalid, false)
          end
      | YDouble a b =>
          let! d := do_double_calculation t a b in Ok (s, VDouble d, true)
      | YInvalid => Ok (s, VInvalid, true)
      end
  | TLessless | TLesslessequal | TGreatergreater | TGreatergreaterequal
  | TAmp | TAmpequal | THat | THatequal | TPipe | TPipeequal =>
      let! (s, l) := coerce_integer s lhs in
      let! (s, r) := coerce_integer s rhs in
      match l, r with
      | VLong a, VLong b =>
          let! x := do_long_calculation2 t a b in
          match x with
          | inl z => Ok (s, VLong z, true)
          | inr m => Ok (fail s m, VInvalid, false)
          end
      | _, _ => Ok (s, VInvalid, false)
      end
  | TEqual => Ok (s, rhs, true)
  | _ => UB
  end.

(** Truth of a coerced value; [None] is VT_INVALID. *)
Definition truth (v : value) : res (option bool) :=
  match v with
  | VInvalid => Ok None
  | VLong z => Ok (Some (negb (z =? 0)))
  | VDouble d => Ok (Some (d_true D d))
  | VVar _ => UB
  end.

(** arith.c:1097-1127 [parse_as_number] *)
Definition parse_as_number (s : st) (w : list N) : st * value :=
  match xwcstol L 0 w with
  | Some z => (s, VLong z)
  | None =>
      match (if posix then None else d_parse D w) with
      | Some d => (s, VDouble d)
      | None => (fail s (MBadNumber w), VInvalid)
      end
  end.

(** arith.c:1029-1059 [do_increment_or_decrement] *)
Definition do_increment_or_decrement (s : st) (t : tok) (v : value)
  : res (st * value * bool) :=
  match t with
  | TPlusplus =>
      match v with
      | VLong z => if z =? LONG_MAX then Ok (msg s MOverflow, v, false)
                   else let! r := cl (z + 1) in Ok (s, VLong r, true)
      | VDouble d => Ok (s, VDouble (d_incr D d), true)
      | VInvalid => Ok (s, v, true)
      | VVar _ => UB
      end
  | _ =>
      match v with
      | VLong z => if z =? LONG_MIN then Ok (msg s MOverflow, v, false)
                   else let! r := cl (z - 1) in Ok (s, VLong r, true)
      | VDouble d => Ok (s, VDouble (d_decr D d), true)
      | VInvalid => Ok (s, v, true)
      | VVar _ => UB
      end
  end.

Section Levels.
(** The recursive call to parse_assignment, and fuel for loops. *)
Variable PA : st -> res (st * value).
Variable fuel : nat.

(** arith.c:1063-1094 [parse_primary] *)
Definition parse_primary (s : st) : res (st * value) :=
  let! (s, v) :=
    match tk s with
    | TLparen =>
        let! s := next_token s in
        let! (s, v) := PA s in
        match tk s with
        | TRparen => let! s := next_token s in Ok (s, v)
        | _ => Ok (fail s (MMissing (str ")")), VInvalid)
        end
    | TNumber w =>
        let '(s, v) := parse_as_number s w in
        let! s := next_token s in Ok (s, v)
    | TIdent w =>
        let! s := next_token s in Ok (s, VVar w)
    | _ => Ok (fail s MNoValue, VInvalid)
    end in
  if po s then Ok (s, VInvalid) else Ok (s, v).

(** arith.c:991-1022: the loop of [parse_postfix] *)
Fixpoint postfix_loop (n : nat) (s : st) (v : value) : res (st * value) :=
  match tk s with
  | TPlusplus | TMinusminus =>
      match n with
      | O => Fuel
      | S n' =>
          let! (s, v) :=
            (if posix then Ok (fail s MUnsupported, VInvalid)
             else match v with
             | VVar x =>
                 let '(s, v) := coerce_number s v in
                 let! (s, v', ok) := do_increment_or_decrement s (tk s) v in
                 if negb ok then Ok (set_er s, VInvalid) else
                 let '(s, ok) := do_assignment s x v' in
                 if negb ok then Ok (set_er s, VInvalid) else Ok (s, v)
             | VInvalid => Ok (s, v)
             | _ => Ok (fail s MNeedVar, VInvalid)
             end) in
          let! s := next_token s in
          postfix_loop n' s v
      end
  | _ => Ok (s, v)
  end.

(** arith.c:988-1023 [parse_postfix] *)
Definition parse_postfix (s : st) : res (st * value) :=
  let! (s, v) := parse_primary s in postfix_loop fuel s v.

(** arith.c:902-983 [parse_prefix] *)
Fixpoint parse_prefix (n : nat) (s : st) : res (st * value) :=
  let t := tk s in
  match t with
  | TPlusplus | TMinusminus =>
      match n with
      | O => Fuel
      | S n' =>
          let! s := next_token s in
          let! (s, v) := parse_prefix n' s in
          if posix then Ok (fail s MUnsupported, VInvalid)
          else match v with
          | VVar x =>
              let '(s, v) := coerce_number s v in
              let! (s, v, ok) := do_increment_or_decrement s t v in
              if negb ok then Ok (set_er s, VInvalid) else
              let '(s, ok) := do_assignment s x v in
              if negb ok then Ok (set_er s, VInvalid) else Ok (s, v)
          | VInvalid => Ok (s, v)
          | _ => Ok (fail s MNeedVar, VInvalid)
          end
      end
  | TPlus | TMinus =>
      match n with
      | O => Fuel
      | S n' =>
          let! s := next_token s in
          let! (s, v) := parse_prefix n' s in
          let '(s, v) := coerce_number s v in
          match t with
          | TMinus =>
              match v with
              | VLong z =>
                  if z =? LONG_MIN then Ok (fail s MOverflow, VInvalid)
                  else let! r := cl (- z) in Ok (s, VLong r)
              | VDouble d => Ok (s, VDouble (d_neg D d))
              | VInvalid => Ok (s, v)
              | VVar _ => UB
              end
          | _ => Ok (s, v)
          end
      end
  | TTilde =>
      match n with
      | O => Fuel
      | S n' =>
          let! s := next_token s in
          let! (s, v) := parse_prefix n' s in
          let! (s, v) := coerce_integer s v in
          match v with
          | VLong z => Ok (s, VLong (Z.lnot z))
          | _ => Ok (s, v)
          end
      end
  | TExcl =>
      match n with
      | O => Fuel
      | S n' =>
          let! s := next_token s in
          let! (s, v) := parse_prefix n' s in
          let '(s, v) := coerce_number s v in
          match v with
          | VLong z => Ok (s, VLong (b2z (z =? 0)))
          | VDouble d => Ok (s, VLong (b2z (negb (d_true D d))))
          | VInvalid => Ok (s, v)
          | VVar _ => UB
          end
      end
  | _ => parse_postfix s
  end.

(** The common shape of parse_multiplicative, parse_additive, parse_shift,
    parse_relational, parse_equality, parse_and, parse_exclusive_or and
    parse_inclusive_or: parse one operand, then while the current token is one
    of the level's operators, parse another operand and combine. *)
Section BinLevel.
Variable sub : st -> res (st * value).
Variable isop : tok -> bool.
Variable act : st -> tok -> value -> value -> res (st * value).
Fixpoint bin_loop (n : nat) (s : st) (v : value) : res (st * value) :=
  if isop (tk s) then
    match n with
    | O => Fuel
    | S n' =>
        let t := tk s in
        let! s := next_token s in
        let! (s, rhs) := sub s in
        let! (s, v) := act s t v rhs in
        bin_loop n' s v
    end
  else Ok (s, v).
Definition bin_level (s : st) : res (st * value) :=
  let! (s, v) := sub s in bin_loop fuel s v.
End BinLevel.

(** [do_binary_calculation(info, ttype, result, &rhs, result)], flag ignored *)
Definition act_calc (s : st) (t : tok) (l r : value) : res (st * value) :=
  let! (s, v, _) := do_binary_calculation s t l r in Ok (s, v).

(** arith.c:762-777, 804-819: comparison of coerced operands *)
Definition act_cmp (s : st) (t : tok) (l r : value) : res (st * value) :=
  let! (s, y) := coerce_type s l r in
  match y with
  | YLong a b => let! z := do_long_comparison t a b in Ok (s, VLong z)
  | YDouble a b => let! z := do_double_comparison t a b in Ok (s, VLong z)
  | YInvalid => Ok (s, VInvalid)
  end.

(** arith.c:877-895 [parse_multiplicative] *)
Definition is_mul (t : tok) := match t with TAster | TSlash | TPercent => true | _ => false end.
Definition parse_multiplicative := bin_level (parse_prefix fuel) is_mul act_calc.
(** arith.c:853-870 [parse_additive] *)
Definition is_add (t : tok) := match t with TPlus | TMinus => true | _ => false end.
Definition parse_additive := bin_level parse_multiplicative is_add act_calc.
(** arith.c:830-847 [parse_shift] *)
Definition is_shift (t : tok) := match t with TLessless | TGreatergreater => true | _ => false end.
Definition parse_shift := bin_level parse_additive is_shift act_calc.
(** arith.c:791-825 [parse_relational] *)
Definition is_rel (t : tok) :=
  match t with TLess | TLessequal | TGreater | TGreaterequal => true | _ => false end.
Definition parse_relational := bin_level parse_shift is_rel act_cmp.
(** arith.c:751-783 [parse_equality] *)
Definition is_equ (t : tok) := match t with TEqualequal | TExclequal => true | _ => false end.
Definition parse_equality := bin_level parse_relational is_equ act_cmp.
(** arith.c:729-745 [parse_and] *)
Definition is_band (t : tok) := match t with TAmp => true | _ => false end.
Definition parse_and := bin_level parse_equality is_band act_calc.
(** arith.c:709-725 [parse_exclusive_or] *)
Definition is_bxor (t : tok) := match t with THat => true | _ => false end.
Definition parse_exclusive_or := bin_level parse_and is_bxor act_calc.
(** arith.c:689-705 [parse_inclusive_or] *)
Definition is_bor (t : tok) := match t with TPipe => true | _ => false end.
Definition parse_inclusive_or := bin_level parse_exclusive_or is_bor act_calc.

(** arith.c:658-683: the loop of [parse_logical_and] *)
Fixpoint land_loop (n : nat) (s : st) (v : value) : res (st * value) :=
  match tk s with
  | TAmpamp =>
      match n with
      | O => Fuel
      | S n' =>
          let '(s, v) := coerce_number s v in
          let! s := next_token s in
          let! tr := truth v in
          let '(valid, value) := match tr with None => (false, false) | Some b => (true, b) end in
          let s := set_po s (po s || negb value) in
          let! (s, v) := parse_inclusive_or s in
          let '(s, v) := coerce_number s v in
          let! (valid, value) :=
            (if value : bool then
               let! tr := truth v in
               match tr with None => Ok (false, value) | Some b => Ok (valid, b) end
             else Ok (valid, value)) in
          land_loop n' s (if valid : bool then VLong (b2z value) else VInvalid)
      end
  | _ => Ok (s, v)
  end.
(** arith.c:653-685 [parse_logical_and] *)
Definition parse_logical_and (s : st) : res (st * value) :=
  let save := po s in
  let! (s, v) := parse_inclusive_or s in
  let! (s, v) := land_loop fuel s v in
  Ok (set_po s save, v).

(** arith.c:622-647: the loop of [parse_logical_or] *)
Fixpoint lor_loop (n : nat) (s : st) (v : value) : res (st * value) :=
  match tk s with
  | TPipepipe =>
      match n with
      | O => Fuel
      | S n' =>
          let '(s, v) := coerce_number s v in
          let! s := next_token s in
          let! tr := truth v in
          let '(valid, value) := match tr with None => (false, true) | Some b => (true, b) end in
          let s := set_po s (po s || value) in
          let! (s, v) := parse_logical_and s in
          let '(s, v) := coerce_number s v in
          let! (valid, value) :=
            (if negb value then
               let! tr := truth v in
               match tr with None => Ok (false, value) | Some b => Ok (valid, b) end
             else Ok (valid, value)) in
          lor_loop n' s (if valid : bool then VLong (b2z value) else VInvalid)
      end
  | _ => Ok (s, v)
  end.
(** arith.c:617-649 [parse_logical_or] *)
Definition parse_logical_or (s : st) : res (st * value) :=
  let save := po s in
  let! (s, v) := parse_logical_and s in
  let! (s, v) := lor_loop fuel s v in
  Ok (set_po s save, v).

(** arith.c:574-608: the loop of [parse_conditional].  [res] is the content of
    [*result], [None] while uninitialised. *)
Fixpoint cond_loop (n : nat) (s : st) (result : option value) : res (st * option value) :=
  let dummy1 := po s in
  let! (s, v) := parse_logical_or s in
  let result := if dummy1 : bool then result else Some v in
  match tk s with
  | TQuestion =>
      match n with
      | O => Fuel
      | S n' =>
          let '(s, v) := coerce_number s v in
          let result := if dummy1 : bool then result else Some v in
          let! s := next_token s in
          let! tr := truth v in
          let '(valid, cond) := match tr with None => (false, true) | Some b => (true, b) end in
          let save2 := po s || negb valid in
          let s := set_po s (save2 || negb cond) in
          let dummy2 := po s in
          let! (s, v) := PA s in
          let result := if dummy2 : bool then result else Some v in
          match tk s with
          | TColon =>
              let! s := next_token s in
              let s := set_po s (save2 || cond) in
              cond_loop n' s result
          | _ => Ok (fail s (MMissing (str ":")), Some VInvalid)
          end
      end
  | _ => Ok (s, result)
  end.
(** arith.c:570-613 [parse_conditional] *)
Definition parse_conditional (s : st) : res (st * value) :=
  let save := po s in
  let! (s, r) := cond_loop fuel s None in
  let s := set_po s save in
  if save then Ok (s, VInvalid)
  else match r with Some v => Ok (s, v) | None => UB end.
End Levels.

Definition is_assign (t : tok) : bool :=
  match t with
  | TEqual | TPlusequal | TMinusequal | TAsterequal | TSlashequal | TPercentequal
  | TLesslessequal | TGreatergreaterequal | TAmpequal | THatequal | TPipeequal => true
  | _ => false
  end.

(** arith.c:247-280 [parse_assignment] *)
Fixpoint parse_assignment (fuel : nat) (s : st) : res (st * value) :=
  match fuel with
  | O => Fuel
  | S f =>
      let! (s, v) := parse_conditional (parse_assignment f) f s in
      let t := tk s in
      if is_assign t then
        let! s := next_token s in
        let! (s, rhs) := parse_assignment f s in
        match v with
        | VVar x =>
            let! (s, v, ok) := do_binary_calculation s t v rhs in
            if negb ok then Ok (s, v) else
            let '(s, ok) := do_assignment s x v in
            if negb ok then Ok (set_er s, VInvalid) else Ok (s, v)
        | VInvalid => Ok (s, v)
        | _ => Ok (fail s MAssignNumber, VInvalid)
        end
      else Ok (s, v)
  end.

Definition the_fuel : nat := S (S (S (length exp))).

(** arith.c:227-242 [evaluate] *)
Definition evaluate (e : env) (coerce : bool) : res (st * value) :=
  let s := mkSt 0 TNull false false e [] in
  let! s := next_token s in
  let! (s, v) := parse_assignment the_fuel s in
  if coerce then Ok (coerce_number s v) else Ok (s, v).

(** arith.c:164-183 [evaluate_arithmetic]: new variables, messages printed, result
    string (None = NULL). *)
Definition evaluate_arithmetic (e : env) : res (env * list amsg * option (list N)) :=
  let! (s, v) := evaluate e posix in
  if er s then Ok (en s, msgs s, None)
  else match tk s with
  | TNull => let '(s, r) := value_to_string s v in Ok (en s, msgs s, r)
  | TInvalid => Ok (en s, msgs s, None)
  | _ => Ok (en s, MSyntax :: msgs s, None)
  end.

(** arith.c:190-225 [evaluate_index] (SSIZE_MAX = LONG_MAX; the clamp of LONG_MIN to
    -SSIZE_MAX is the second #if). *)
Definition evaluate_index (e : env) : res (env * list amsg * option Z) :=
  let! (s, v) := evaluate e true in
  if er s then Ok (en s, msgs s, None)
  else match tk s with
  | TNull =>
      match v with
      | VLong z => Ok (en s, msgs s, Some (if z <? - LONG_MAX then - LONG_MAX else z))
      | _ => Ok (en s, MNotInteger :: msgs s, None)
      end
  | TInvalid => Ok (en s, msgs s, None)
  | _ => Ok (en s, MSyntax :: msgs s, None)
  end.
End Arith.
