(** What option names mean, and which states of the options are consistent. *)
From Coq Require Import Ascii String.
From Coq Require Import List NArith Bool Arith.
From Verif Require Import Common OptModel.
Import ListNotations.

(** What every locale guarantees for ASCII characters (POSIX portable character set) *)
Definition ascii_lowercase (c : N) : bool := (97 <=? c)%N && (c <=? 122)%N.
Record nl_ok (L : nlocale) : Prop := {
  nl_lower : forall c, ascii_lowercase c = true -> alnum L c = true /\ lower L c = c;
  nl_sign : alnum L (ch "-") = false }.
Definition c_nl : nlocale :=
  mkNL (fun c => ascii_lowercase c || ((65 <=? c)%N && (c <=? 90)%N) || ((48 <=? c)%N && (c <=? 57)%N))
    (fun c => if (65 <=? c)%N && (c <=? 90)%N then (c + 32)%N else c).

(** The full names: that of the option, and with [no] before it for the opposite *)
Definition full_name (o : nat) (neg : bool) (n : list N) : Prop :=
  exists e, nth_error table o = Some e /\ n = (if neg then str "no" else []) ++ o_name e.
(** A name may be abbreviated; that of an opposite keeps at least [no]. *)
Definition abbreviates (n : list N) (o : nat) (neg : bool) : Prop :=
  exists rest, full_name o neg (n ++ rest) /\ (neg = true -> exists m, n = str "no" ++ m).
(** A full name means its option, even if it abbreviates others; else the abbreviation must
    be unique. *)
Definition meaning (n : list N) (o : nat) (neg : bool) : Prop :=
  full_name o neg n
  \/ (~ exists o' neg', full_name o' neg' n)
     /\ abbreviates n o neg /\ forall o' neg', abbreviates n o' neg' -> o' = o /\ neg' = neg.

(** The states of the options: [vi] and [emacs] exclude each other and say what line
    editing is used, likewise for the meta key. *)
Record wf (st : ost) : Prop := {
  wf_edit : lineedit st = match val st i_vi, val st i_emacs with true, _ => Vi | false, true => Emacs | false, false => NoEdit end;
  wf_excl : val st i_vi && val st i_emacs = false;
  wf_conv : convmeta st = match val st i_yesconv, val st i_noconv with true, _ => Yes | false, true => No | false, false => Auto end;
  wf_excl2 : val st i_yesconv && val st i_noconv = false }.

(** The letter of an option, and the value of the option that it stands for *)
Definition letter_of (c : N) (o : nat) (p : bool) : Prop :=
  exists e, nth_error table o = Some e /\ c <> 0%N /\ c = (if p then o_en e else o_dis e).
Definition resettable (o : nat) : Prop := exists e, nth_error table o = Some e /\ o_reset e = true.

(** Options of which one at most can be enabled *)
Definition excludes (o p : nat) : Prop :=
  (o = i_vi /\ p = i_emacs) \/ (o = i_emacs /\ p = i_vi) \/ (o = i_yesconv /\ p = i_noconv) \/ (o = i_noconv /\ p = i_yesconv).
(** The result of setting the option [o] to [v]: an option that cannot be set is not; job
    control cannot be enabled without a terminal; else the option has the value, those that
    it excludes are disabled if it is enabled, and all others are kept. *)
Definition set_effect (tty : bool) (o : nat) (v : bool) (st : ost) (ok : bool) (st' : ost) : Prop :=
  params st' = params st
  /\ (~ resettable o -> ok = false /\ st' = st)
  /\ (resettable o ->
        ok = negb ((o =? i_monitor)%nat && v && negb tty)
        /\ val st' o = ok && v
        /\ (forall p, p <> o -> excludes o p -> val st' p = negb v && val st p)
        /\ (forall j, j <> o -> ~ excludes o j -> val st' j = val st j)).

(** A letter that [set] can set *)
Definition settable (tty : bool) (c : N) : Prop := exists o p, letter_of c o p /\ resettable o /\ (o = i_monitor -> tty = true).

(** A script is lines of words. *)
Fixpoint split_on (c : N) (s : list N) : list (list N) :=
  match s with
  | [] => [[]]
  | d :: s =>
      if (d =? c)%N then [] :: split_on c s
      else match split_on c s with [] => [[d]] | w :: ws => (d :: w) :: ws end
  end.
Definition script_cmds (text : list N) : list (list (list N)) := map (split_on (ch " ")) (removelast (split_on 10%N text)).
(** Running a script all of whose commands are [set] commands *)
Fixpoint run_script (L : nlocale) (tty : bool) (cmds : list (list (list N))) (st : ost) : ores :=
  match cmds with
  | [] => Some (true, st)
  | (name :: args) :: cmds =>
      if list_N_eqb name (str "set") then
        match set_cmd L tty args st with Some (true, st) => run_script L tty cmds st | r => r end
      else None
  | [] :: _ => None
  end.
