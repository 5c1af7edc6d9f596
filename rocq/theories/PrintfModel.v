(** Model of builtins/printf.c: the echo and printf built-ins.

    Wide characters are converted to bytes by the parameter [enc] (wcrtomb in a
    stateless encoding; shift states are not modelled).  A string buffer (xstrbuf_T) is
    the list of its bytes; memory is unlimited.  The built-ins are modelled from their
    operands on: the options of printf are removed by xgetopt (XgetoptModel), and
    "printf --help" is not modelled.  An error message is counted, its text is not
    modelled.  Writing to the standard output is the parameter [out_ok]. *)
From Coq Require Import Ascii String.
From Coq Require Import List NArith ZArith Bool.
From Verif Require Import Common Locale NumModel.
Import ListNotations.
Local Open Scope Z_scope.
Local Open Scope res_scope.

Section Printf.
(** wcrtomb for a non-null character: its bytes, or [None] (EILSEQ) *)
Variable enc : N -> option (list N).
Variable L : locale.
(** What vsnprintf prints for a conversion specification with a long double, and
    whether wcstold accepts the whole operand; see builtins/printf.c 643-663.  Floating
    point is not modelled. *)
Variable flt_print : list N -> list N -> option (list N).
Variable flt_valid : list N -> bool.

(** ** The C library's formatted output (C11 7.21.6.1) *)
(** The longest prefix whose characters satisfy [p], and the rest *)
Fixpoint span (p : N -> bool) (s : list N) : list N * list N :=
  match s with
  | [] => ([], [])
  | c :: s' => if p c then let '(a, b) := span p s' in (c :: a, b) else ([], s)
  end.

Definition is_flag (c : N) : bool :=
  ((c =? ch "-") || (c =? ch "+") || (c =? ch " ") || (c =? ch "#") || (c =? ch "0"))%N.
Definition memc (c : N) (s : list N) : bool := existsb (N.eqb c) s.

(** The value of a digit string as strtoul reads it, without the limit *)
Definition decval (ds : list N) : N := fold_left (fun a c => (a * 10 + (c - 48))%N) ds 0%N.

(** A conversion specification: flags, minimum width, precision, conversion *)
Record spec := mkSpec { sp_fl : list N; sp_width : N; sp_prec : option N; sp_conv : N }.
(** Reading "%", flags, width, precision, one length modifier and the conversion *)
Definition parse_spec (s : list N) : option spec :=
  match s with
  | pc :: s =>
      let '(fl, s) := span is_flag s in
      let '(w, s) := span iswdigit s in
      let '(p, s) := match s with
                     | 46%N :: s' => let '(d, s) := span iswdigit s' in (Some (decval d), s)
                     | _ => (None, s)
                     end in
      match s with
      | [_; c] => Some (mkSpec fl (decval w) p c)
      | _ => None
      end
  | [] => None
  end.

Inductive value := VInt (z : Z) | VUint (z : Z) | VChr (c : N) | VStr (s : list N) | VFlt (s : list N).

Definition spaces (n : N) : list N := repeat (ch " ") (N.to_nat n).
Definition zeros (n : N) : list N := repeat (ch "0") (N.to_nat n).
Definition lenN (s : list N) : N := N.of_nat (length s).
(** Padding with spaces to the field width *)
Definition pad (left : bool) (w : N) (s : list N) : list N :=
  if left then s ++ spaces (w - lenN s) else spaces (w - lenN s) ++ s.

(** Digits in base [b], most significant first; [a] is the letter for ten *)
Definition digit_char (a d : N) : N := if (d <? 10)%N then (48 + d)%N else (a + (d - 10))%N.
Fixpoint digits (fuel : nat) (b a n : N) (acc : list N) : list N :=
  match fuel with
  | O => acc
  | S f =>
      let acc := digit_char a (n mod b) :: acc in
      if (n / b =? 0)%N then acc else digits f b a (n / b)%N acc
  end.
Definition digits_of (b a n : N) : list N := digits (S (N.to_nat (N.log2 n))) b a n [].

(** Integer conversions, after the sign or prefix has been found *)
Definition fmt_int (sp : spec) (sign : list N) (n b a : N) : list N :=
  let ds := match sp_prec sp with
            | Some 0%N => if (n =? 0)%N then [] else digits_of b a n
            | _ => digits_of b a n
            end in
  let ds := match sp_prec sp with Some p => zeros (p - lenN ds) ++ ds | None => ds end in
  let ds := if (sp_conv sp =? ch "o")%N && memc (ch "#") (sp_fl sp) then
              match ds with
              | 48%N :: _ => ds
              | _ => ch "0" :: ds
              end
            else ds in
  let left := memc (ch "-") (sp_fl sp) in
  if memc (ch "0") (sp_fl sp) && negb left && match sp_prec sp with None => true | _ => false end
  then sign ++ zeros (sp_width sp - lenN sign - lenN ds) ++ ds
  else pad left (sp_width sp) (sign ++ ds).

(** "%ls": characters are converted while they fit in the precision *)
Fixpoint conv_str (lim : option N) (s : list N) : option (list N) :=
  match s with
  | [] => Some []
  | c :: s' =>
      match lim with
      | Some 0%N => Some []
      | _ =>
          match enc c with
          | None => None
          | Some bs =>
              match lim with
              | None => option_map (app bs) (conv_str None s')
              | Some k =>
                  if (k <? lenN bs)%N then Some []
                  else option_map (app bs) (conv_str (Some (k - lenN bs)%N) s')
              end
          end
      end
  end.

Definition format_value (sp : spec) (v : value) : option (list N) :=
  let c := sp_conv sp in
  let left := memc (ch "-") (sp_fl sp) in
  match v with
  | VInt z =>
      let sign := if z <? 0 then [ch "-"]
                  else if memc (ch "+") (sp_fl sp) then [ch "+"]
                  else if memc (ch " ") (sp_fl sp) then [ch " "] else [] in
      Some (fmt_int sp sign (Z.to_N (Z.abs z)) 10 (ch "a"))
  | VUint z =>
      let n := Z.to_N z in
      let prefix := if memc (ch "#") (sp_fl sp) && negb (n =? 0)%N then
                      if (c =? ch "x")%N then [ch "0"; ch "x"]
                      else if (c =? ch "X")%N then [ch "0"; ch "X"] else []
                    else [] in
      let b := if (c =? ch "o")%N then 8%N
               else if (c =? ch "x")%N || (c =? ch "X")%N then 16%N else 10%N in
      let a := if (c =? ch "X")%N then ch "A" else ch "a" in
      Some (fmt_int sp prefix n b a)
  | VChr c => option_map (pad left (sp_width sp)) (enc c)
  | VStr s => option_map (pad left (sp_width sp)) (conv_str (sp_prec sp) s)
  | VFlt _ => None
  end.

(** vsnprintf for one conversion specification; [None] is a negative result.  Widths,
    precisions and results above INT_MAX are an error (EOVERFLOW). *)
Definition vsnprintf (convspec : list N) (v : value) : option (list N) :=
  match v with
  | VFlt arg => flt_print convspec arg
  | _ =>
      match parse_spec convspec with
      | None => None
      | Some sp =>
          if (INT_MAX <? Z.of_N (sp_width sp)) ||
             match sp_prec sp with Some p => INT_MAX <? Z.of_N p | None => false end
          then None
          else
            match format_value sp v with
            | Some o => if INT_MAX <? Z.of_N (lenN o) then None else Some o
            | None => None
            end
      end
  end.

(** ** Escape sequences *)
(** builtins/printf.c:77 [printf_result_T] *)
Inductive printf_result := PR_OK | PR_OK_END | PR_ERROR.

Definition is_octal (c : N) : bool := ((48 <=? c) && (c <=? 55))%N.
(** At most [n] octal digits: the value and the rest; builtins/printf.c 246-256, 393-404 *)
Fixpoint scan_octal (n : nat) (value : N) (s : list N) : N * list N :=
  match n, s with
  | S n', c :: s' => if is_octal c then scan_octal n' (value * 8 + (c - 48))%N s' else (value, s)
  | _, _ => (value, s)
  end.
(** util.h:267-269 [TO_CHAR], the byte as a number from 0 to 255 *)
Definition to_char (value : N) : N := (value mod 256)%N.

(** builtins/printf.c:226-239 *)
Definition echo_char (c : N) : option N :=
  if (c =? ch "a")%N then Some 7%N
  else if (c =? ch "b")%N then Some 8%N
  else if (c =? ch "e")%N then Some 27%N
  else if (c =? ch "f")%N then Some 12%N
  else if (c =? ch "n")%N then Some 10%N
  else if (c =? ch "r")%N then Some 13%N
  else if (c =? ch "t")%N then Some 9%N
  else if (c =? ch "v")%N then Some 11%N
  else if (c =? ch "\")%N then Some (ch "\")
  else None.

(** builtins/printf.c:216-264 [echo_parse_escape] *)
Fixpoint echo_parse_escape (fuel : nat) (s : list N) (buf : list N)
  : res (printf_result * list N) :=
  match s with
  | [] => Ok (PR_OK, buf)
  | c :: s' =>
      match fuel with
      | O => Fuel
      | S f =>
          let normal :=
            match enc c with
            | None => Ok (PR_ERROR, buf)
            | Some bs => echo_parse_escape f s' (buf ++ bs)
            end in
          if negb (c =? ch "\")%N then normal
          else
            match s' with
            | [] => normal
            | e :: s2 =>
                if (e =? ch "c")%N then Ok (PR_OK_END, buf)
                else if (e =? ch "0")%N then
                  let '(v, s3) := scan_octal 3 0%N s2 in
                  echo_parse_escape f s3 (buf ++ [to_char v])
                else
                  match echo_char e with
                  | Some x =>
                      match enc x with
                      | None => Ok (PR_ERROR, buf)
                      | Some bs => echo_parse_escape f s2 (buf ++ bs)
                      end
                  | None => normal
                  end
            end
      end
  end.

(** strbuf.c:234-253 [sb_wcscat]: the bytes of the whole string *)
Fixpoint encode_all (s : list N) : option (list N) :=
  match s with
  | [] => Some []
  | c :: s' =>
      match enc c, encode_all s' with
      | Some bs, Some o => Some (bs ++ o)
      | _, _ => None
      end
  end.

(** What a built-in does: the bytes written to the standard output, the number of error
    messages, the exit status *)
Record outcome := mkOut { o_bytes : list N; o_msgs : nat; o_status : Z }.
Definition Exit_SUCCESS : Z := 0.
Definition Exit_FAILURE : Z := 1.

(** ** echo *)
Record echo_opts := mkEO { eo_escape : bool; eo_n : bool; eo_e : bool }.
(** builtins/printf.c:109-130; [None]: the variable is not set *)
Definition echo_style (v : option (list N)) : echo_opts :=
  let c := match v with Some (c :: _) => c | _ => 0%N end in
  if ((c =? ch "B") || (c =? ch "b"))%N then mkEO false true false
  else if ((c =? ch "G") || (c =? ch "g"))%N then mkEO false true true
  else if ((c =? ch "Z") || (c =? ch "z"))%N then mkEO true true true
  else if ((c =? ch "D") || (c =? ch "d"))%N then mkEO true true false
  else if ((c =? ch "R") || (c =? ch "r"))%N then mkEO false false false
  else mkEO true false false.

(** builtins/printf.c:141-148; the characters are among n, e and E *)
Fixpoint echo_opt_chars (s : list N) (nonewline escape : bool) : bool * bool :=
  match s with
  | [] => (nonewline, escape)
  | c :: s' =>
      if (c =? ch "n")%N then echo_opt_chars s' true escape
      else if (c =? ch "e")%N then echo_opt_chars s' nonewline true
      else echo_opt_chars s' nonewline false
  end.
(** builtins/printf.c:136-149 *)
Fixpoint echo_options (args : list (list N)) (nonewline escape : bool)
  : bool * bool * list (list N) :=
  match args with
  | [] => (nonewline, escape, [])
  | a :: args' =>
      match a with
      | 45%N :: (_ :: _) as o =>
          if forallb (fun c => (c =? ch "n") || (c =? ch "e") || (c =? ch "E"))%N o then
            let '(nn, es) := echo_opt_chars o nonewline escape in echo_options args' nn es
          else (nonewline, escape, args)
      | _ => (nonewline, escape, args)
      end
  end.

(** builtins/printf.c:164-186: the operands and the spaces between them.  [None] in the
    first component: an error; otherwise whether "\c" was met *)
Fixpoint echo_args (escape : bool) (args : list (list N)) (buf : list N)
  : res (option bool * list N) :=
  match args with
  | [] => Ok (Some false, buf)
  | a :: args' =>
      let! (r, buf) :=
        if escape then echo_parse_escape (length a) a buf
        else match encode_all a with
             | Some bs => Ok (PR_OK, buf ++ bs)
             | None => Ok (PR_ERROR, buf)
             end in
      match r with
      | PR_OK_END => Ok (Some true, buf)
      | PR_ERROR => Ok (None, buf)
      | PR_OK =>
          match args' with
          | [] => Ok (Some false, buf)
          | _ =>
              match enc (ch " ") with
              | None => Ok (None, buf)
              | Some bs => echo_args escape args' (buf ++ bs)
              end
          end
      end
  end.

(** builtins/printf.c:193-203, 320-330: writing the buffer *)
Definition write_out (out_ok : bool) (bytes : list N) (msgs : nat) : outcome :=
  if out_ok then mkOut bytes msgs (if Nat.eqb msgs 0 then Exit_SUCCESS else Exit_FAILURE)
  else mkOut [] (S msgs) Exit_FAILURE.

(** builtins/printf.c:100-209 [echo_builtin]; [args] are the arguments after the name *)
Definition echo_builtin (out_ok : bool) (style : option (list N)) (args : list (list N))
  : res outcome :=
  let o := echo_style style in
  let '(nonewline, escape, ops) :=
    if eo_e o then echo_options args false (eo_escape o)
    else if eo_n o then
      match args with
      | a :: args' => if list_N_eqb a (str "-n") then (true, eo_escape o, args')
                      else (false, eo_escape o, args)
      | [] => (false, eo_escape o, args)
      end
    else (false, eo_escape o, args) in
  let! (r, buf) := echo_args escape ops [] in
  match r with
  | None => Ok (mkOut [] 1 Exit_FAILURE)
  | Some stop =>
      if nonewline || stop then Ok (write_out out_ok buf 0)
      else
        match enc 10%N with
        | None => Ok (mkOut [] 1 Exit_FAILURE)
        | Some bs => Ok (write_out out_ok (buf ++ bs) 0)
        end
  end.

(** ** printf *)
(** builtins/printf.c:46-64 [format_T] *)
Inductive formattype := FT_STRING | FT_CHAR | FT_INT | FT_UINT | FT_FLOAT.
Inductive format_T :=
  | F_NONE
  | F_RAW (bs : list N)
  | F_CONV (ty : formattype) (convspec : list N)
  | F_ECHO (left : bool) (width max : N).

Definition ULONG_MAX : N := 18446744073709551615.
(** strtoul in base 10 where a digit or no digit follows: the value and the rest *)
Definition strtoul10 (s : list N) : N * list N :=
  let '(ds, r) := span iswdigit s in (N.min (decval ds) ULONG_MAX, r).

(** builtins/printf.c:563-603 [printf_parse_percent_b] *)
Definition printf_parse_percent_b (convspec : list N) : res format_T :=
  match convspec with
  | 37%N :: s =>
      let '(fl, s) := span is_flag s in
      let '(w, s) := strtoul10 s in
      let '(m, s) := match s with
                     | 46%N :: s' => strtoul10 s'
                     | _ => (ULONG_MAX, s)
                     end in
      match s with
      | [] => Ok (F_ECHO (memc (ch "-") fl) w m)
      | _ => UB
      end
  | _ => UB
  end.

(** builtins/printf.c:434-558 [printf_parse_percent], from the character after the
    percent sign; [None] after an error message.  The loops that copy flags and digits
    into the buffer are [span]. *)
Definition printf_parse_percent (s : list N) : res (option (format_T * list N)) :=
  let '(fl, s) := span is_flag s in
  let hashflag := memc (ch "#") fl in
  let zeroflag := memc (ch "0") fl in
  let '(w, s) := span iswdigit s in
  let '(p, s) := match s with
                 | 46%N :: s' => let '(d, s) := span iswdigit s' in (ch "." :: d, s)
                 | _ => ([], s)
                 end in
  let buf := ch "%" :: fl ++ w ++ p in
  match s with
  | [] => Ok None
  | c :: s' =>
      let conv ty l := Ok (Some (F_CONV ty (buf ++ [l; c]), s')) in
      if ((c =? ch "d") || (c =? ch "i"))%N then
        if hashflag then Ok None else conv FT_INT (ch "j")
      else if (c =? ch "u")%N then
        if hashflag then Ok None else conv FT_UINT (ch "j")
      else if ((c =? ch "o") || (c =? ch "x") || (c =? ch "X"))%N then conv FT_UINT (ch "j")
      else if ((c =? ch "f") || (c =? ch "F") || (c =? ch "e") || (c =? ch "E") ||
               (c =? ch "g") || (c =? ch "G"))%N then conv FT_FLOAT (ch "L")
      else if (c =? ch "c")%N then
        if hashflag || zeroflag then Ok None else conv FT_CHAR (ch "l")
      else if (c =? ch "s")%N then
        if hashflag || zeroflag then Ok None else conv FT_STRING (ch "l")
      else if (c =? ch "b")%N then
        if hashflag || zeroflag then Ok None
        else let! f := printf_parse_percent_b buf in Ok (Some (f, s'))
      else if (c =? ch "%")%N then
        if negb (Nat.eqb (length buf) 1) then Ok None else Ok (Some (F_NONE, s'))
      else Ok None
  end.

(** builtins/printf.c:375-390 *)
Definition printf_char (c : N) : option N :=
  if (c =? ch "a")%N then Some 7%N
  else if (c =? ch "b")%N then Some 8%N
  else if (c =? ch "f")%N then Some 12%N
  else if (c =? ch "n")%N then Some 10%N
  else if (c =? ch "r")%N then Some 13%N
  else if (c =? ch "t")%N then Some 9%N
  else if (c =? ch "v")%N then Some 11%N
  else if (c =? ch "\")%N then Some (ch "\")
  else if (c =? 34)%N then Some 34%N
  else if (c =? ch "'")%N then Some (ch "'")
  else None.

(** builtins/printf.c:345-358 [MAKE_STRING] *)
Definition make_string (buf : list N) (l : list format_T) : list format_T :=
  match buf with [] => l | _ => F_RAW buf :: l end.

(** builtins/printf.c:343-425 [printf_parse_format]; [None] after an error message *)
Fixpoint printf_parse_format (fuel : nat) (s : list N) (buf : list N)
  : res (option (list format_T)) :=
  match s with
  | [] => Ok (Some (make_string buf []))
  | c :: s' =>
      match fuel with
      | O => Fuel
      | S f =>
          let normal :=
            match enc c with
            | None => Ok None
            | Some bs => printf_parse_format f s' (buf ++ bs)
            end in
          if (c =? ch "%")%N then
            let! r := printf_parse_percent s' in
            match r with
            | None => Ok None
            | Some (x, s2) =>
                let! r := printf_parse_format f s2 [] in
                match r with
                | None => Ok None
                | Some l => Ok (Some (make_string buf (x :: l)))
                end
            end
          else if (c =? ch "\")%N then
            match s' with
            | [] => normal
            | e :: s2 =>
                match printf_char e with
                | Some x => printf_parse_format f s2 (buf ++ [x])
                | None =>
                    if is_octal e then
                      let '(v, s3) := scan_octal 3 0%N s' in
                      printf_parse_format f s3 (buf ++ [to_char v])
                    else normal
                end
            end
          else normal
      end
  end.

(** (u)intmax_t is 64 bits wide *)
Definition UINTMAX_MOD : Z := 18446744073709551616.
Definition to_intmax (u : Z) : Z := if LONG_MAX <? u then u - UINTMAX_MOD else u.

(** wcstoimax and wcstoumax in base 0 (C11 7.8.2.4): the value, whether errno was set, the
    rest of the string *)
Definition wcstoimax (s : list N) : Z * bool * list N :=
  match wcstol L 0 s with
  | (None, r) => (0, false, r)
  | (Some v, r) => if v <? LONG_MIN then (LONG_MIN, true, r)
                   else if LONG_MAX <? v then (LONG_MAX, true, r) else (v, false, r)
  end.
Definition wcstoumax (s : list N) : Z * bool * list N :=
  match wcstol L 0 s with
  | (None, r) => (0, false, r)
  | (Some v, r) => if UINTMAX_MOD <=? Z.abs v then (UINTMAX_MOD - 1, true, r)
                   else (v mod UINTMAX_MOD, false, r)
  end.

(** builtins/printf.c:676-697 [printf_parse_integer]: the value as uintmax_t and the number
    of error messages.  The increment of xoptind is in [next]. *)
Definition printf_parse_integer (arg : option (list N)) (is_signed : bool) : Z * nat :=
  let arg := match arg with Some a => a | None => str "0" end in
  let c := match arg with c :: _ => c | [] => 0%N end in
  if ((c =? 34) || (c =? ch "'"))%N then
    (match arg with _ :: x :: _ => Z.of_N x | _ => 0 end, O)
  else
    let '(v, err, rest) := if is_signed then wcstoimax arg else wcstoumax arg in
    (v mod UINTMAX_MOD,
     if err || match arg with [] => true | _ => false end ||
        match rest with [] => false | _ => true end then 1%nat else O).

(** builtins/printf.c:701-733 [printf_print_escape] *)
Definition printf_print_escape (left : bool) (width max : N) (s : list N)
  : res (printf_result * list N) :=
  let! (r, sub) := echo_parse_escape (length s) s [] in
  let sub := if (max <? lenN sub)%N then firstn (N.to_nat max) sub else sub in
  if (width <=? lenN sub)%N then Ok (r, sub)
  else
    let increment := (width - lenN sub)%N in
    Ok (r, if left then sub ++ spaces increment else spaces increment ++ sub).

(** ARGV(xoptind): the next operand or NULL *)
Definition next (args : list (list N)) : option (list N) * list (list N) :=
  match args with
  | [] => (None, [])
  | a :: args' => (Some a, args')
  end.

(** builtins/printf.c:607-673 [printf_printf]: the result, the bytes appended, the operands
    left, the number of error messages *)
Definition printf_printf (f : format_T) (args : list (list N))
  : res (printf_result * list N * list (list N) * nat) :=
  let '(arg, args') := next args in
  let text := match arg with Some a => a | None => [] end in
  let done o rest m :=
    match o with
    | Some o => Ok (PR_OK, o, rest, m)
    | None => Ok (PR_ERROR, [], rest, m)
    end in
  match f with
  | F_NONE => Ok (PR_OK, [ch "%"], args, O)
  | F_RAW bs => Ok (PR_OK, bs, args, O)
  | F_CONV FT_STRING cs => done (vsnprintf cs (VStr text)) args' O
  | F_CONV FT_CHAR cs =>
      match text with
      | c :: _ => done (vsnprintf cs (VChr c)) args' O
      | [] => Ok (PR_OK, [], args, O)
      end
  | F_CONV FT_INT cs =>
      let '(v, m) := printf_parse_integer arg true in
      done (vsnprintf cs (VInt (to_intmax v))) args' m
  | F_CONV FT_UINT cs =>
      let '(v, m) := printf_parse_integer arg false in
      done (vsnprintf cs (VUint v)) args' m
  | F_CONV FT_FLOAT cs =>
      let arg := match arg with Some a => a | None => str "0" end in
      done (vsnprintf cs (VFlt arg)) args' (if flt_valid arg then O else 1%nat)
  | F_ECHO lf width max =>
      let! (r, o) := printf_print_escape lf width max text in
      Ok (r, o, args', O)
  end.

(** builtins/printf.c:308-314: the format once *)
Fixpoint printf_once (fs : list format_T) (args : list (list N)) (buf : list N) (m : nat)
  : res (printf_result * list N * list (list N) * nat) :=
  match fs with
  | [] => Ok (PR_OK, buf, args, m)
  | f :: fs' =>
      let! (r, o, args', m') := printf_printf f args in
      match r with
      | PR_OK => printf_once fs' args' (buf ++ o) (m + m')
      | _ => Ok (r, buf ++ o, args', m + m')%nat
      end
  end.

(** builtins/printf.c:306-315: until the operands are used up *)
Fixpoint printf_loop (fuel : nat) (fs : list format_T) (args : list (list N)) (buf : list N)
  (m : nat) : res (printf_result * list N * nat) :=
  match fuel with
  | O => Fuel
  | S f =>
      let! (r, buf, args', m) := printf_once fs args buf m in
      match r with
      | PR_OK =>
          if negb (Nat.eqb (length args') 0) && negb (Nat.eqb (length args') (length args))
          then printf_loop f fs args' buf m
          else Ok (PR_OK, buf, m)
      | _ => Ok (r, buf, m)
      end
  end.

(** builtins/printf.c:277-336 [printf_builtin]; [ops] are the operands.
    yash_error_message_count is zero when a built-in starts (exec.c 1058). *)
Definition printf_builtin (out_ok : bool) (ops : list (list N)) : res outcome :=
  match ops with
  | [] => Ok (mkOut [] 1 2)
  | fmt :: args =>
      let! p := printf_parse_format (length fmt) fmt [] in
      match p with
      | None => Ok (mkOut [] 1 Exit_FAILURE)
      | Some fs =>
          let! (r, buf, m) := printf_loop (S (length args)) fs args [] O in
          match r with
          | PR_ERROR => Ok (mkOut [] (S m) Exit_FAILURE)
          | _ => Ok (write_out out_ok buf m)
          end
      end
  end.
End Printf.
