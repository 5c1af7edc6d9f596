(** The ulimit built-in (builtins/ulimit.c). *)
From Coq Require Import Ascii String.
From Coq Require Import List NArith ZArith Bool Arith.
From Verif Require Import Common Locale NumModel GetoptsModel.
Import ListNotations.
Local Open Scope Z_scope.

(** [rlim_t] is unsigned with [rmod] values; RLIM_INFINITY, RLIM_SAVED_MAX and RLIM_SAVED_CUR
    (builtins/ulimit.c 42-47) *)
Record sys := mkSys { rmod : Z; rinf : Z; rsmax : Z; rscur : Z }.
(** The resources by the letters of their options, with their factors (builtins/ulimit.c 50-123);
    the letter stands for the [type], too. All resources are available. *)
Definition resources : list (N * Z) :=
  [ (ch "c", 512); (ch "d", 1024); (ch "e", 1); (ch "f", 512); (ch "i", 1); (ch "l", 1024); (ch "m", 1024); (ch "n", 1);
    (ch "q", 1); (ch "r", 1); (ch "s", 1024); (ch "t", 1); (ch "u", 1); (ch "v", 1024); (ch "x", 1) ].
(** [opt->ptr] (builtins/ulimit.c 68-123, 144-148) *)
Definition resource_of (c : N) : option Z :=
  option_map snd (find (fun p => (fst p =? c)%N) resources).

(** The limits of the process: soft and hard; None if [getrlimit] fails *)
Definition limits := N -> option (Z * Z).
Definition set_limits (st : limits) (r : N) (v : Z * Z) : limits := fun x => if (x =? r)%N then Some v else st x.

Inductive outcome :=
| Printed (t : list N)            (* exit status 0 *)
| PrintedAll (l : list (N * list N))
| Set_                            (* exit status 0 *)
| Failure                         (* exit status 1 *)
| Usage.                          (* exit status 2 *)

Section U.
Variable L : locale.
Variable Y : sys.
(** Whether [setrlimit] lets the process change the limits of a resource from the first pair
    to the second *)
Variable allowed : N -> Z * Z -> Z * Z -> bool.

(** [print_limit_value] (builtins/ulimit.c 258-266); the message is not translated *)
Definition print_value (soft : bool) (l : Z * Z) (factor : Z) : list N :=
  let v := if soft then fst l else snd l in
  if v =? rinf Y then str "unlimited" else dec_of_Z (v / factor).
(** [print_all_limits] (builtins/ulimit.c 233-256), without the descriptions; failure if
    any limit is not available *)
Definition print_all (soft : bool) (st : limits) : outcome :=
  if existsb (fun p => match st (fst p) with None => true | Some _ => false end) resources then Failure
  else PrintedAll (flat_map (fun p => match st (fst p) with None => [] | Some l => [(fst p, print_value soft l (snd p))] end) resources).
Definition is_special (v : Z) : bool := (v =? rinf Y) || (v =? rsmax Y) || (v =? rscur Y).
(** The operand (builtins/ulimit.c 181-202): the error or the value *)
Definition operand (t : list N) (l : Z * Z) (factor : Z) : outcome + Z :=
  if list_N_eqb t (str "hard") then inr (snd l)
  else if list_N_eqb t (str "soft") then inr (fst l)
  else if list_N_eqb t (str "unlimited") then inr (rinf Y)
  else if match t with c :: _ => (48 <=? c)%N && (c <=? 57)%N | [] => false end then
    match xwcstoul L t with
    | None => inl Usage
    | Some v =>
        let value := ((v mod rmod Y) * factor) mod rmod Y in
        if negb (value / factor =? v) || is_special value then inl Failure else inr value
    end
  else inl Usage.
(** Does the soft limit exceed the hard limit? (builtins/ulimit.c 209-219) *)
Definition exceeds (l : Z * Z) : bool :=
  negb (is_special (snd l))
  && ((fst l =? rinf Y) || (negb (fst l =? rsmax Y) && negb (fst l =? rscur Y) && (snd l <? fst l))).
(** The loop over the options (builtins/ulimit.c 135-153), after [xgetopt] has accepted
    them (XgetoptModel.v); without [--help]. [hard] and [soft] are the bits of [type]. *)
Record opts := mkO { hard : bool; soft : bool; res : option (N * Z); all : bool }.
Fixpoint options (os : list N) (o : opts) : option opts :=
  match os with
  | [] => Some o
  | c :: os =>
      if (c =? ch "H")%N then options os (mkO true false (res o) (all o))
      else if (c =? ch "S")%N then options os (mkO false true (res o) (all o))
      else if (c =? ch "a")%N then options os (mkO (hard o) (soft o) (res o) true)
      else match resource_of c with
           | Some f => options os (mkO (hard o) (soft o) (Some (c, f)) (all o))
           | None => None
           end
  end.
(** [ulimit_builtin] (builtins/ulimit.c 125-231) *)
Definition ulimit (os : list N) (args : list (list N)) (st : limits) : outcome * limits :=
  match options os (mkO true true None false) with
  | None => (Usage, st)
  | Some o =>
      if all o then
        match res o, args with
        | Some _, _ => (Usage, st)
        | None, _ :: _ => (Usage, st)
        | None, [] => (print_all (soft o) st, st)
        end
      else
        let '(r, f) := match res o with Some p => p | None => (ch "f", 512) end in
        match args with
        | _ :: _ :: _ => (Usage, st)
        | _ =>
            match st r with
            | None => (Failure, st)
            | Some l =>
                match args with
                | [] => (Printed (print_value (soft o) l f), st)
                | t :: _ =>
                    match operand t l f with
                    | inl e => (e, st)
                    | inr v =>
                        let l' := (if soft o then v else fst l, if hard o then v else snd l) in
                        if exceeds l' then (Failure, st)
                        else if allowed r l l' then (Set_, set_limits st r l') else (Failure, st)
                    end
                end
            end
        end
  end.
End U.
