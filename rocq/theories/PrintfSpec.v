(** Independent specification of the echo and printf built-ins. *)
From Coq Require Import Ascii String.
From Coq Require Import List NArith ZArith Bool.
From Verif Require Import Common Locale NumModel NumProofs.
Import ListNotations.
Local Open Scope Z_scope.

Section Spec.
(** The bytes of a character, if the locale's encoding has it *)
Variable enc : N -> option (list N).
Variable L : locale.
Variable flt_print : list N -> list N -> option (list N).
Variable flt_valid : list N -> bool.

(** ASCII characters are encoded as themselves. *)
Definition ascii_enc : Prop := forall c, (0 < c < 128)%N -> enc c = Some [c].

(** [o] is the encoding of the text [s]. *)
Inductive encodes : list N -> list N -> Prop :=
  | en_nil : encodes [] []
  | en_cons : forall c s bs o, enc c = Some bs -> encodes s o -> encodes (c :: s) (bs ++ o).
Definition encodable (s : list N) : Prop := forall c, In c s -> exists bs, enc c = Some bs.

(** ** Escape sequences *)
(** [ds] are octal digits of value [v]. *)
Inductive oct : list N -> N -> Prop :=
  | oct_nil : oct [] 0
  | oct_snoc : forall ds v d, oct ds v -> (d < 8)%N -> oct (ds ++ [48 + d])%N (v * 8 + d)%N.
Definition octdigit (c : N) : Prop := exists d, (d < 8)%N /\ c = (48 + d)%N.
(** An escape takes up to three octal digits, as many as there are. *)
Definition oct3 (ds : list N) (v : N) (s : list N) : Prop :=
  oct ds v /\ (length ds <= 3)%nat /\
  (length ds = 3%nat \/ forall c, hd_error s = Some c -> ~ octdigit c).

Definition common_table : list (N * N) :=
  [(ch "a", 7); (ch "b", 8); (ch "f", 12); (ch "n", 10); (ch "r", 13); (ch "t", 9);
   (ch "v", 11); (ch "\", ch "\")]%N.
Definition echo_table : list (N * N) := (ch "e", 27%N) :: common_table.
Definition printf_table : list (N * N) := (34%N, 34%N) :: (ch "'", ch "'") :: common_table.

(** [unescape s o e]: the text [s] of echo or %b stands for the bytes [o]; [e]: it has a \c,
    where everything ends *)
Inductive unescape : list N -> list N -> bool -> Prop :=
  | ue_nil : unescape [] [] false
  | ue_char : forall c s bs o e, c <> ch "\" -> enc c = Some bs -> unescape s o e ->
      unescape (c :: s) (bs ++ o) e
  | ue_esc : forall x b s o e, In (x, b) echo_table -> unescape s o e ->
      unescape (ch "\" :: x :: s) (b :: o) e
  | ue_stop : forall s, unescape (ch "\" :: ch "c" :: s) [] true
  | ue_oct : forall ds v s o e, oct3 ds v s -> unescape s o e ->
      unescape (ch "\" :: ch "0" :: ds ++ s) ((v mod 256)%N :: o) e
  | ue_other : forall s o e,
      (forall x, hd_error s = Some x ->
         x <> ch "c" /\ x <> ch "0" /\ forall b, ~ In (x, b) echo_table) ->
      unescape s o e -> unescape (ch "\" :: s) (ch "\" :: o) e.

(** ** echo *)
Inductive style := SYSV | BSD | GNU | ZSH | DASH | RAW.
Definition letters (st : style) : list N :=
  match st with
  | SYSV => [] | BSD => str "Bb" | GNU => str "Gg" | ZSH => str "Zz" | DASH => str "Dd"
  | RAW => str "Rr"
  end.
(** The first character of $ECHO_STYLE selects the style; SYSV is the default. *)
Definition has_style (v : option (list N)) (st : style) : Prop :=
  match st with
  | SYSV => forall s c v', v = Some (c :: v') -> ~ In c (letters s)
  | _ => exists c v', v = Some (c :: v') /\ In c (letters st)
  end.

(** A GNU option word: a hyphen and one or more of n, e and E *)
Definition opt_word (w : list N) : Prop :=
  exists o, w = ch "-" :: o /\ o <> [] /\ Forall (fun c => In c (str "neE")) o.
(** The last e or E decides. *)
Inductive decides (d : bool) : list N -> bool -> Prop :=
  | de_none : forall s, ~ In (ch "e") s -> ~ In (ch "E") s -> decides d s d
  | de_e : forall s t, ~ In (ch "e") t -> ~ In (ch "E") t -> decides d (s ++ ch "e" :: t) true
  | de_E : forall s t, ~ In (ch "e") t -> ~ In (ch "E") t -> decides d (s ++ ch "E" :: t) false.
Definition gnu_options (d : bool) (args : list (list N)) (esc nonl : bool) (ops : list (list N)) : Prop :=
  exists ws, args = ws ++ ops /\ Forall opt_word ws /\
    (forall w, hd_error ops = Some w -> ~ opt_word w) /\
    decides d (concat ws) esc /\ (nonl = true <-> In (ch "n") (concat ws)).
Definition n_option (args : list (list N)) (nonl : bool) (ops : list (list N)) : Prop :=
  if nonl then args = str "-n" :: ops else ops = args /\ hd_error args <> Some (str "-n").
(** [echo_opts st args esc nonl ops]: with these arguments, escapes are ([esc]) interpreted,
    no newline is added ([nonl]), and [ops] are printed. *)
Definition echo_opts (st : style) (args : list (list N)) (esc nonl : bool) (ops : list (list N)) : Prop :=
  match st with
  | SYSV => esc = true /\ nonl = false /\ ops = args
  | RAW => esc = false /\ nonl = false /\ ops = args
  | BSD => esc = false /\ n_option args nonl ops
  | DASH => esc = true /\ n_option args nonl ops
  | GNU => gnu_options false args esc nonl ops
  | ZSH => gnu_options true args esc nonl ops
  end.

Fixpoint spaced (l : list (list N)) : list N :=
  match l with
  | [] => []
  | [a] => a
  | a :: l' => a ++ ch " " :: spaced l'
  end.
(** The operands, joined by spaces, are printed as they are or with escapes interpreted;
    then a newline. *)
Definition echo_says (esc nonl : bool) (ops : list (list N)) (o : list N) : Prop :=
  if esc then exists b e, unescape (spaced ops) b e /\ o = b ++ (if nonl || e then [] else [10%N])
  else exists b, encodes (spaced ops) b /\ o = b ++ (if nonl then [] else [10%N]).

(** ** The format of printf *)
(** A conversion specification: %, flags, width, precision, conversion *)
Record conv := mkConv { cv_fl : list N; cv_w : list N; cv_p : option (list N); cv_c : N }.
Definition digit10 (c : N) : Prop := (48 <= c <= 57)%N.
Definition conv_text (cv : conv) : list N :=
  ch "%" :: cv_fl cv ++ cv_w cv ++ (match cv_p cv with Some d => ch "." :: d | None => [] end) ++ [cv_c cv].
Record conv_ok (cv : conv) : Prop := {
  ck_fl : Forall (fun c => In c (str "-+ #0")) (cv_fl cv);
  ck_w : Forall digit10 (cv_w cv);
  ck_w0 : hd_error (cv_w cv) <> Some (ch "0");
  ck_p : forall d, cv_p cv = Some d -> Forall digit10 d;
  ck_c : In (cv_c cv) (str "diuoxXfFeEgGcsb");
  ck_hash : In (cv_c cv) (str "diucsb") -> ~ In (ch "#") (cv_fl cv);
  ck_zero : In (cv_c cv) (str "csb") -> ~ In (ch "0") (cv_fl cv) }.

Inductive unit_ := ULit (bs : list N) | UConv (cv : conv).
Inductive is_format : list N -> list unit_ -> Prop :=
  | if_nil : is_format [] []
  | if_char : forall c s bs us, c <> ch "%" -> c <> ch "\" -> enc c = Some bs ->
      is_format s us -> is_format (c :: s) (ULit bs :: us)
  | if_esc : forall x b s us, In (x, b) printf_table -> is_format s us ->
      is_format (ch "\" :: x :: s) (ULit [b] :: us)
  | if_oct : forall ds v s us, oct3 ds v s -> ds <> [] -> is_format s us ->
      is_format (ch "\" :: ds ++ s) (ULit [(v mod 256)%N] :: us)
  | if_other : forall s us,
      (forall x, hd_error s = Some x -> ~ octdigit x /\ forall b, ~ In (x, b) printf_table) ->
      is_format s us -> is_format (ch "\" :: s) (ULit [ch "\"] :: us)
  | if_percent : forall s us, is_format s us ->
      is_format (ch "%" :: ch "%" :: s) (ULit [ch "%"] :: us)
  | if_conv : forall cv s us, conv_ok cv -> is_format s us ->
      is_format (conv_text cv ++ s) (UConv cv :: us).

(** ** Conversions *)
Definition flag (cv : conv) (f : N) : Prop := In f (cv_fl cv).
(** A number in the format; nothing is zero *)
Definition dec_value (ds : list N) (n : N) : Prop := (ds = [] /\ n = 0%N) \/ numeral 10 ds (Z.of_N n).
Definition width (cv : conv) (n : N) : Prop := dec_value (cv_w cv) n.
Definition prec (cv : conv) (p : option N) : Prop :=
  match cv_p cv, p with
  | None, None => True
  | Some ds, Some n => dec_value ds n
  | _, _ => False
  end.
Definition len (s : list N) : N := N.of_nat (length s).

(** [o] is [body] in a field of width [w]. *)
Definition justified (cv : conv) (w : N) (body o : list N) : Prop :=
  exists k, N.of_nat k = (w - len body)%N /\
    (flag cv (ch "-") /\ o = body ++ repeat (ch " ") k \/
     ~ flag cv (ch "-") /\ o = repeat (ch " ") k ++ body).

(** The shortest numeral of [n] in base [b]; letters are capital only if [up] *)
Definition canonical (b : Z) (up : bool) (ds : list N) (n : N) : Prop :=
  numeral b ds (Z.of_N n) /\ (hd_error ds = Some (ch "0") -> ds = [ch "0"]) /\
  Forall (fun c => if up then ascii_lower c = false else ascii_upper c = false) ds.
(** Sign or prefix, zeros, digits *)
Definition sign_of (cv : conv) (neg : bool) (n : N) (sg : list N) : Prop :=
  if existsb (N.eqb (cv_c cv)) (str "di") then
    (neg = true /\ sg = [ch "-"]) \/
    (neg = false /\ flag cv (ch "+") /\ sg = [ch "+"]) \/
    (neg = false /\ ~ flag cv (ch "+") /\ flag cv (ch " ") /\ sg = [ch " "]) \/
    (neg = false /\ ~ flag cv (ch "+") /\ ~ flag cv (ch " ") /\ sg = [])
  else
    ((cv_c cv = ch "x" \/ cv_c cv = ch "X") /\ flag cv (ch "#") /\ n <> 0%N /\ sg = [ch "0"; cv_c cv]) \/
    (~ ((cv_c cv = ch "x" \/ cv_c cv = ch "X") /\ flag cv (ch "#") /\ n <> 0%N) /\ sg = []).
Definition base_of (cv : conv) (b : Z) : Prop :=
  (cv_c cv = ch "o" /\ b = 8) \/ ((cv_c cv = ch "x" \/ cv_c cv = ch "X") /\ b = 16) \/
  (In (cv_c cv) (str "diu") /\ b = 10).
(** The digits: shortest, or none for zero with precision zero; at least as many as the
    precision says; beginning with a zero for %#o *)
Definition digits_out (cv : conv) (n : N) (zs ds : list N) : Prop :=
  exists b p, base_of cv b /\ prec cv p /\
    (if (n =? 0)%N && match p with Some 0%N => true | _ => false end then ds = []
     else canonical b (N.eqb (cv_c cv) (ch "X")) ds n) /\
    exists k, N.of_nat k = match p with Some p => (p - len ds)%N | None => 0%N end /\
      (cv_c cv = ch "o" /\ flag cv (ch "#") /\ k = O /\ hd_error ds <> Some (ch "0") /\ zs = [ch "0"] \/
       ~ (cv_c cv = ch "o" /\ flag cv (ch "#") /\ k = O /\ hd_error ds <> Some (ch "0")) /\
       zs = repeat (ch "0") k).
Definition int_field (cv : conv) (neg : bool) (n : N) (o : list N) : Prop :=
  exists w sg zs ds, width cv w /\ sign_of cv neg n sg /\ digits_out cv n zs ds /\
    (flag cv (ch "0") /\ ~ flag cv (ch "-") /\ cv_p cv = None /\
       (exists k, N.of_nat k = (w - len (sg ++ zs ++ ds))%N /\ o = sg ++ repeat (ch "0") k ++ zs ++ ds) \/
     ~ (flag cv (ch "0") /\ ~ flag cv (ch "-") /\ cv_p cv = None) /\ justified cv w (sg ++ zs ++ ds) o).

(** The value of an operand of an integer conversion, and the number of error messages *)
Definition in_range (signed : bool) (v : Z) : Prop :=
  if signed then is_long v else Z.abs v < 2 ^ 64.
Definition quote_char (c : N) : Prop := c = 34%N \/ c = ch "'".
Inductive int_arg (signed : bool) : option (list N) -> Z -> nat -> Prop :=
  | ia_none : int_arg signed None 0 0
  | ia_char : forall q x s, quote_char q -> int_arg signed (Some (q :: x :: s)) (Z.of_N x) 0
  | ia_quote : forall q, quote_char q -> int_arg signed (Some [q]) 0 0
  | ia_good : forall a v, int_text L a v -> in_range signed v ->
      int_arg signed (Some a) (if signed then v else v mod 2 ^ 64) 0
  | ia_over : forall a v, int_text L a v -> ~ in_range signed v ->
      int_arg signed (Some a)
        (if signed then if v <? 0 then LONG_MIN else LONG_MAX else 2 ^ 64 - 1) 1
  | ia_bad : forall a z, (forall v, ~ int_text L a v) ->
      (forall q, hd_error a = Some q -> ~ quote_char q) ->
      (if signed then is_long z else 0 <= z < 2 ^ 64) -> int_arg signed (Some a) z 1.

(** The longest beginning of [s] whose encoding has at most [p] bytes *)
Definition str_prefix (p : option N) (s o : list N) : Prop :=
  match p with
  | None => encodes s o
  | Some p => exists s1 s2, s = s1 ++ s2 /\ encodes s1 o /\ (len o <= p)%N /\
      (len o = p \/ s2 = [] \/ exists c bs s3, s2 = c :: s3 /\ enc c = Some bs /\ (p < len (o ++ bs))%N)
  end.
(** The first [p] bytes *)
Definition bytes_prefix (p : N) (s o : list N) : Prop :=
  exists t, s = o ++ t /\ len o = N.min p (len s).
(** Numbers above the largest unsigned long count as that, and so does no precision. *)
Definition ulong (n : N) : N := N.min n (2 ^ 64 - 1).
Definition ulong_prec (p : option N) : N := match p with Some n => ulong n | None => (2 ^ 64 - 1)%N end.

(** [shows cv arg o used m stop]: the conversion prints [o] for the operand [arg] (or none),
    [used]: it takes the operand, with [m] error messages; [stop]: it had a \c *)
Definition given (arg : option (list N)) : list N := match arg with Some a => a | None => [] end.
Inductive shows (cv : conv) (arg : option (list N)) : list N -> bool -> nat -> bool -> Prop :=
  | sh_str : forall w p t o, cv_c cv = ch "s" -> width cv w -> prec cv p ->
      str_prefix p (given arg) t -> justified cv w t o -> shows cv arg o true 0 false
  | sh_chr : forall w c s bs o, cv_c cv = ch "c" -> arg = Some (c :: s) -> enc c = Some bs ->
      width cv w -> justified cv w bs o -> shows cv arg o true 0 false
  | sh_nochr : cv_c cv = ch "c" -> given arg = [] -> shows cv arg [] false 0 false
  | sh_int : forall z o m, In (cv_c cv) (str "di") -> int_arg true arg z m ->
      int_field cv (z <? 0) (Z.to_N (Z.abs z)) o -> shows cv arg o true m false
  | sh_uint : forall z o m, In (cv_c cv) (str "uoxX") -> int_arg false arg z m ->
      int_field cv false (Z.to_N z) o -> shows cv arg o true m false
  | sh_flt : forall a o, In (cv_c cv) (str "fFeEgG") ->
      a = match arg with Some a => a | None => str "0" end ->
      flt_print (removelast (conv_text cv) ++ [ch "L"; cv_c cv]) a = Some o ->
      shows cv arg o true (if flt_valid a then 0%nat else 1%nat) false
  | sh_echo : forall w p b t o e, cv_c cv = ch "b" -> width cv w -> prec cv p ->
      unescape (given arg) b e -> bytes_prefix (ulong_prec p) b t -> justified cv (ulong w) t o ->
      shows cv arg o true 0 e.

(** The format used once: bytes, operands left, messages, whether a \c ended it *)
Inductive once : list unit_ -> list (list N) -> list N -> list (list N) -> nat -> bool -> Prop :=
  | on_nil : forall args, once [] args [] args 0 false
  | on_lit : forall bs us args o rest m e, once us args o rest m e ->
      once (ULit bs :: us) args (bs ++ o) rest m e
  | on_conv : forall cv us args o used m o' rest m' e,
      shows cv (hd_error args) o used m false ->
      once us (if used then tl args else args) o' rest m' e ->
      once (UConv cv :: us) args (o ++ o') rest (m + m') e
  | on_stop : forall cv us args o used m, shows cv (hd_error args) o used m true ->
      once (UConv cv :: us) args o (if used then tl args else args) m true.
(** The format is used again while there are operands and it takes some. *)
Inductive says (us : list unit_) : list (list N) -> list N -> nat -> Prop :=
  | sy_last : forall args o rest m e, once us args o rest m e ->
      e = true \/ rest = [] \/ rest = args -> says us args o m
  | sy_more : forall args o rest m o' m', once us args o rest m false ->
      rest <> [] -> rest <> args -> says us rest o' m' -> says us args (o ++ o') (m + m').

(** Conditions under which the C library can print a conversion: fields and texts of at
    most 10^9 bytes, characters the encoding has *)
Definition billion : N := 1000000000.
Definition arg_fits (a : list N) : Prop := exists bs, encodes a bs /\ (len bs <= billion)%N.
Definition conv_fits (cv : conv) : Prop :=
  ~ In (cv_c cv) (str "fFeEgG") /\
  (forall w, width cv w -> (w <= billion)%N) /\ (forall p, prec cv (Some p) -> (p <= billion)%N).
(** Number of conversions *)
Fixpoint convs (us : list unit_) : list conv :=
  match us with
  | [] => []
  | ULit _ :: us => convs us
  | UConv cv :: us => cv :: convs us
  end.
Definition fits (us : list unit_) (args : list (list N)) : Prop :=
  (forall cv, In cv (convs us) -> conv_fits cv) /\ forall a, In a args -> arg_fits a.

(** Formats that take the operands in groups: those without %b, whose \c would end the
    output, and without %c if there are empty operands, which it does not take *)
Definition grouping (us : list unit_) (args : list (list N)) : Prop :=
  forall cv, In cv (convs us) -> cv_c cv <> ch "b" /\ (cv_c cv = ch "c" -> ~ In [] args).
(** [gs] divides [args] into groups of [k], the last one perhaps smaller. *)
Inductive in_groups (k : nat) : list (list N) -> list (list (list N)) -> Prop :=
  | ig_last : forall args, (length args <= k)%nat -> in_groups k args [args]
  | ig_more : forall g rest gs, length g = k -> rest <> [] -> in_groups k rest gs ->
      in_groups k (g ++ rest) (g :: gs).

(** The text with every backslash doubled *)
Fixpoint doubled (s : list N) : list N :=
  match s with
  | [] => []
  | c :: s => if (c =? ch "\")%N then c :: c :: doubled s else c :: doubled s
  end.
End Spec.
