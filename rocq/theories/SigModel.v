(** Signal names and the trap built-in (sig.c, siglist.h). *)
From Coq Require Import Ascii String.
From Coq Require Import List NArith ZArith Bool Arith.
From Verif Require Import Common Locale NumModel.
Import ListNotations.
Local Open Scope Z_scope.

(** What the shell does with a signal by itself, see the cases at the end of the function for traps (sig.c 916-945):
    SIGCHLD; SIGINT, SIGWINCH; SIGTTIN, SIGTTOU, SIGTSTP; SIGTERM, SIGQUIT *)
Inductive skind := Plain | AlwaysCaught | CaughtIfInteractive | IgnoredIfJobs | IgnoredIfInteractive.
(** [signals] (siglist.h 33-170) and other constants of the system; [RTSIZE] is computed when
    the shell is built (makesignum.c 82-89). [debug]: assertions are compiled in; by default they
    are not (configure 398-401). *)
Record sigs := mkSigs { table : list (list N * Z); rtmin : Z; rtmax : Z; rtsize : Z; sigkill : Z; sigstop : Z; kind : Z -> skind; debug : bool }.
(** The shell: [is_interactive], the signals ignored when it was invoked,
    [interactive_handlers_set], [job_handlers_set]; [towupper] *)
Record shell := mkShell { interactive : bool; orig_ign : Z -> bool; ihandlers : bool; jhandlers : bool; up : N -> N }.

Fixpoint drop_prefix (p s : list N) : option (list N) :=
  match p, s with
  | [], _ => Some s
  | a :: p, b :: s => if (a =? b)%N then drop_prefix p s else None
  | _, _ => None
  end.
Definition isdigit (c : N) : bool := (48 <=? c)%N && (c <=? 57)%N.
(** The outcome of [get_signal_number]: a failed assertion, -1, or a number *)
Inductive gres := GAbort | GNone | GNum (z : Z).

Section S.
Variable L : locale.
Variable G : sigs.
Variable H : shell.

Definition is_rt (z : Z) : bool := (rtmin G <=? z) && (z <=? rtmax G).
Definition in_table (z : Z) : bool := existsb (fun p => snd p =? z) (table G).
(** [get_signal_name] (sig.c 116-145); an empty string for unknown signals *)
Definition signal_name (z : Z) : list N :=
  if z =? 0 then str "EXIT"
  else if is_rt z then
    if z =? rtmin G then str "RTMIN"
    else if z =? rtmax G then str "RTMAX"
    else
      let range := rtmax G - rtmin G in
      let diff := z - rtmin G in
      if diff <=? range / 2 then str "RTMIN+" ++ dec_of_Z diff else str "RTMAX-" ++ dec_of_Z (rtmax G - z)
  else match find (fun p => snd p =? z) (table G) with Some p => fst p | None => [] end.
(** [parse_signal_number] (sig.c 197-218) *)
Definition parse_number (t : list N) : gres :=
  match xwcstoi L 10 t with
  | None => GNone
  | Some z =>
      if z <? 0 then GNone
      else if z =? 0 then GNum 0
      else if is_rt z then GNum z
      else if in_table z then GNum z else GNone
  end.
(** [get_signal_number] (sig.c 147-195) *)
Definition signal_number (name : list N) : gres :=
  if match name with c :: _ => isdigit c | [] => false end then parse_number name
  else if list_N_eqb name (str "EXIT") then GNum 0
  else
    let name := match drop_prefix (str "SIG") name with Some r => r | None => name end in
    match find (fun p => list_N_eqb name (fst p)) (table G) with
    | Some p => GNum (snd p)
    | None =>
        match drop_prefix (str "RTMIN") name with
        | Some [] => GNum (rtmin G)
        | Some (c :: r) =>
            if (c =? ch "+")%N then
              match xwcstoi L 10 (c :: r) with
              | Some n => if debug G && (n <? 0) then GAbort else if n <=? rtmax G - rtmin G then GNum (rtmin G + n) else GNone
              | None => GNone
              end
            else GNone
        | None =>
            match drop_prefix (str "RTMAX") name with
            | Some [] => GNum (rtmax G)
            | Some (c :: r) =>
                if (c =? ch "-")%N then
                  match xwcstoi L 10 (c :: r) with
                  | Some n => if debug G && (0 <=? n) then GAbort else if rtmin G - rtmax G <=? n then GNum (rtmax G + n) else GNone
                  | None => GNone
                  end
                else GNone
            | None => GNone
            end
        end
    end.

(** How signals are handled: SIG_DFL, SIG_IGN, [sig_handler] *)
Inductive handler := Dfl | Ign | Caught.
(** [trap_command] and [rttrap_command], indexed by signal numbers (numbers with the same
    [sigindex] are equal), the handlers, [is_phantom], [any_trap_set] (sig.c 236-262) *)
Record st := mkSt { cmd : Z -> option (list N); act : Z -> handler; phantom : bool; anyset : bool }.
Definition upd {A} (f : Z -> A) (z : Z) (v : A) : Z -> A := fun x => if x =? z then v else f x.
Definition nonempty (c : option (list N)) : bool := match c with Some (_ :: _) => true | _ => false end.
(** [set_trap] (sig.c 832-953): the state and whether there is an error. Signal masks,
    pending signals and errors of [sigaction] are left out. *)
Definition set_trap (z : Z) (c : option (list N)) (s : st) : st * bool :=
  if (z =? sigkill G) || (z =? sigstop G) then (s, true)
  else if is_rt z && (rtsize G <=? z - rtmin G) then (s, true)
  else if negb (interactive H) && (match cmd s z with None => true | Some _ => false end) && negb (z =? 0) && orig_ign H z then (s, false)
  else
    let s := if phantom s then s else mkSt (upd (cmd s) z c) (act s) (phantom s) (anyset s || nonempty c) in
    if z =? 0 then (s, false)
    else
      let h := match c with None => Dfl | Some [] => Ign | Some _ => Caught end in
      let install h := (mkSt (cmd s) (upd (act s) z h) (phantom s) (anyset s), false) in
      let default_ignore := match h with Dfl => Ign | _ => h end in
      match kind G z with
      | AlwaysCaught => (s, false)
      | CaughtIfInteractive => if ihandlers H then (s, false) else install h
      | IgnoredIfJobs => install (if jhandlers H then default_ignore else h)
      | IgnoredIfInteractive => install (if ihandlers H then default_ignore else h)
      | Plain => install h
      end.
(** The signals in the order of the loops: EXIT, the table, the real-time signals that the
    shell supports *)
Definition rt_signals : list Z := map (fun i => rtmin G + Z.of_nat i) (seq 0 (Z.to_nat (rtsize G))).
Definition all_signals : list Z := 0 :: map snd (table G) ++ rt_signals.
(** [phantomize_traps] (sig.c 979-1010); [received]: [any_signal_received] *)
Definition phantomize (received : bool) (s : st) : st :=
  if negb (anyset s) && negb received then s
  else
    let s := mkSt (cmd s) (act s) true (anyset s) in
    let s := fold_left (fun s z => if nonempty (cmd s z) then fst (set_trap z None s) else s) all_signals s in
    mkSt (cmd s) (act s) (phantom s) false.
(** [banish_phantoms] (sig.c 1012-1043) *)
Definition banish (s : st) : st :=
  if phantom s then
    fold_left (fun s z => if nonempty (cmd s z) then mkSt (upd (cmd s) z None) (act s) (phantom s) (anyset s) else s) all_signals
      (mkSt (cmd s) (act s) false (anyset s))
  else s.

(** A printed line [trap -- command name] ([print_trap], sig.c 1275-1290), the command before
    it is quoted *)
Definition line := (list N * list N)%type.
Definition print_trap (name : list N) (c : option (list N)) : list line := match c with Some c => [(c, name)] | None => [] end.
Inductive outcome :=
| Abort                                          (* a failed assertion *)
| Done (lines : list line) (error : bool) (s : st).
(** Printing all traps (sig.c 1195-1216) *)
Fixpoint print_table (t : list (list N * Z)) (printed : list Z) (s : st) : list line :=
  match t with
  | [] => []
  | (name, z) :: t =>
      if existsb (Z.eqb z) printed then print_table t printed s
      else print_trap name (cmd s z) ++ print_table t (z :: printed) s
  end.
Definition print_all (s : st) : list line :=
  print_trap (str "EXIT") (cmd s 0) ++ print_table (table G) [] s
  ++ flat_map (fun z => if rtmax G <? z then [] else print_trap (signal_name z) (cmd s z)) rt_signals.
(** Printing some traps (sig.c 1217-1242) *)
Fixpoint print_some (names : list (list N)) (s : st) : outcome :=
  match names with
  | [] => Done [] false s
  | name :: names =>
      let name := map (up H) name in
      match signal_number name with
      | GAbort => Abort
      | GNone => match print_some names s with Done l _ s => Done l true s | Abort => Abort end
      | GNum z =>
          let l1 := if is_rt z && (rtsize G <=? z - rtmin G) then [] else print_trap name (cmd s z) in
          match print_some names s with Done l e s => Done (l1 ++ l) e s | Abort => Abort end
      end
  end.
(** Setting traps (sig.c 1263-1274) *)
Fixpoint set_all (c : option (list N)) (names : list (list N)) (s : st) : outcome :=
  match names with
  | [] => Done [] false s
  | name :: names =>
      match signal_number (map (up H) name) with
      | GAbort => Abort
      | GNone => match set_all c names s with Done l _ s => Done l true s | Abort => Abort end
      | GNum z =>
          let '(s, e) := set_trap z c s in
          match set_all c names s with Done l e' s => Done l (e || e') s | Abort => Abort end
      end
  end.
(** [trap_builtin] (sig.c 1172-1274) after its options; [p]: the option [-p] *)
Definition trap (p : bool) (args : list (list N)) (s : st) : outcome :=
  match args with
  | [] => Done (print_all s) false s
  | a :: rest =>
      if p then print_some args s
      else if negb (match a with [] => true | _ => false end) && forallb isdigit a then set_all None args (banish s)
      else
        match rest with
        | [] => Done [] true s
        | _ => set_all (if list_N_eqb a (str "-") then None else Some a) rest (banish s)
        end
  end.
End S.
