(** Specification of quoting (POSIX XCU 2.2), independent of expand.c. *)
From Coq Require Import Ascii String.
From Coq Require Import List NArith Bool Arith.
From Verif Require Import Common Locale CharcatModel.
Import ListNotations.

Definition backslash : N := 92%N.
Definition squote : N := 39%N.
Definition dquote : N := 34%N.

(** What a backslash quotes between double quotes *)
Definition dq_special (c : N) : Prop := In c [36%N (* $ *); 96%N (* ` *); dquote; backslash].

(** [dquoted w s]: the text [w] between double quotes stands for [s]. *)
Inductive dquoted : list N -> list N -> Prop :=
| dq_nil : dquoted [] []
| dq_char c w s : c <> dquote -> c <> backslash -> dquoted w s -> dquoted (c :: w) (c :: s)
| dq_esc c w s : dq_special c -> dquoted w s -> dquoted (backslash :: c :: w) (c :: s)
| dq_bs c w s : ~ dq_special c -> dquoted (c :: w) s -> dquoted (backslash :: c :: w) (backslash :: s).

(** [quoting w s]: the text [w] stands for [s] once its quotes are removed. *)
Inductive quoting : list N -> list N -> Prop :=
| q_nil : quoting [] []
| q_char c w s : c <> squote -> c <> dquote -> c <> backslash -> quoting w s -> quoting (c :: w) (c :: s)
| q_esc c w s : quoting w s -> quoting (backslash :: c :: w) (c :: s)
| q_last : quoting [backslash] [backslash]
| q_single t w s : ~ In squote t -> quoting w s -> quoting (squote :: t ++ squote :: w) (t ++ s)
| q_double t u w s : dquoted t u -> quoting w s -> quoting (dquote :: t ++ dquote :: w) (u ++ s).

(** The characters that mean something to the shell when they are not quoted,
    besides the blanks of the locale *)
Definition shell_special : list N :=
  str "|&;<>()$\ *?[]#~=%!{},:^+@" ++ [96; dquote; squote; 9; 10]%N.

(** [plain_word L w s]: [w] is a word that stands for [s] and in which every
    special character is quoted by single quotes or a backslash. *)
Inductive plain_word (L : locale) : list N -> list N -> Prop :=
| pw_nil : plain_word L [] []
| pw_char c w s : ~ In c shell_special -> iswblank L c = false -> plain_word L w s -> plain_word L (c :: w) (c :: s)
| pw_esc c w s : c <> 10%N -> plain_word L w s -> plain_word L (backslash :: c :: w) (c :: s)
| pw_single t w s : ~ In squote t -> plain_word L w s -> plain_word L (squote :: t ++ squote :: w) (t ++ s).

(** [escaped t r s]: [r] is [s] with a backslash before exactly the characters in [t]. *)
Inductive escaped (t : N -> Prop) : list N -> list N -> Prop :=
| es_nil : escaped t [] []
| es_plain c r s : ~ t c -> escaped t r s -> escaped t (c :: r) (c :: s)
| es_bs c r s : t c -> escaped t r s -> escaped t (backslash :: c :: r) (c :: s).

(** [reads lit w m]: the marked text [w], without its quotation marks, is read
    as the pattern characters [m]; the cells in [lit] are literal.  A backslash
    that is not literal makes the next character literal, so it must not stand
    before one that is literal already. *)
Definition mark := (N * bool)%type.
Inductive reads (lit : cat -> bool) : list cell -> list mark -> Prop :=
| r_nil : reads lit [] []
| r_quotation c k w m : quotation k = true -> reads lit w m -> reads lit ((c, k) :: w) m
| r_lit c k w m : quotation k = false -> lit k = true -> reads lit w m -> reads lit ((c, k) :: w) ((c, true) :: m)
| r_active c k w m : quotation k = false -> lit k = false -> c <> backslash -> reads lit w m ->
    reads lit ((c, k) :: w) ((c, false) :: m)
| r_bs k w qs c k' m : quotation k = false -> lit k = false ->
    Forall (fun x => quotation (snd x) = true) qs -> quotation k' = false -> lit k' = false ->
    reads lit w m -> reads lit ((backslash, k) :: qs ++ (c, k') :: w) ((c, true) :: m)
| r_bs_end k qs : quotation k = false -> lit k = false ->
    Forall (fun x => quotation (snd x) = true) qs -> reads lit ((backslash, k) :: qs) [].
