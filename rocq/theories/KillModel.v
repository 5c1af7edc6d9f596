(** The kill built-in (sig.c): its options and the list of signals. *)
From Coq Require Import Ascii String.
From Coq Require Import List NArith ZArith Bool Arith.
From Verif Require Import Common Locale NumModel SigModel.
Import ListNotations.
Local Open Scope Z_scope.

(** What the built-in does: a failed assertion, an option error, an unknown signal, help, sending a
    signal to the operands, listing signals (verbosely or not) *)
Inductive kres := KAbort | KError | KNoSignal | KHelp | KSend (z : Z) (ops : list (list N)) | KList (verbose : bool) (ops : list (list N)).

Section S.
Variable L : locale.
Variable G : sigs.
Variable H : shell.
(** SIGTERM; [posixly_correct] *)
Variable sigterm : Z.
Variable posix : bool.

(** After the label [parse_signal_name] (sig.c 1335-1350) *)
Definition with_signal (a : list N) (rest : list (list N)) : kres :=
  if posix && (match drop_prefix (str "SIG") a with Some _ => true | None => false end) then KError
  else match signal_number L G (map (up H) a) with
       | GAbort => KAbort
       | GNone => KNoSignal
       | GNum z =>
           if (z =? 0) && negb (match map (up H) a with c :: _ => isdigit c | [] => false end) then KNoSignal
           else KSend z (match rest with d :: r => if list_N_eqb d (str "--") then r else rest | [] => [] end)
       end.
(** After the label [main] (sig.c 1377-1380) *)
Definition main (lst verbose : bool) (rest : list (list N)) : kres := if lst then KList verbose rest else KSend sigterm rest.
(** The characters of an argument after the hyphen (sig.c 1319-1374); [first]: [i == 1], [lst]: [list] *)
Fixpoint letters (arg : list N) (first : bool) (cs : list N) (rest : list (list N)) (lst verbose : bool) : kres + (bool * bool) :=
  match cs with
  | [] => inr (lst, verbose)
  | c :: cs' =>
      if (c =? ch "n")%N || (c =? ch "s")%N then
        inl (if lst then KError
             else match cs' with
                  | [] => match rest with a :: rest => with_signal a rest | [] => KError end
                  | _ => with_signal cs' rest
                  end)
      else if (c =? ch "l")%N then letters arg false cs' rest true verbose
      else if (c =? ch "v")%N then letters arg false cs' rest true true
      else if (c =? ch "-")%N && first && (match cs' with [] => true | _ => false end) then inl (main lst verbose rest)
      else if (c =? ch "-")%N && first && negb posix && (match drop_prefix arg (str "--help") with Some _ => true | None => false end) then inl KHelp
      else if first && negb lst then inl (with_signal cs rest)
      else inl KError
  end.
(** The options (sig.c 1314-1375) *)
Fixpoint options (args : list (list N)) (lst verbose : bool) : kres :=
  match args with
  | (h :: c :: cs) :: rest =>
      if (h =? ch "-")%N then
        match letters (h :: c :: cs) true (c :: cs) rest lst verbose with
        | inl r => r
        | inr (lst, verbose) => options rest lst verbose
        end
      else main lst verbose args
  | _ => main lst verbose args
  end.
Definition kill (args : list (list N)) : kres := options args false false.

(** Listing all signals (sig.c 1379-1389): numbers and names. [print_signal] prints the name, or the
    number, the name and a description. *)
Definition list_all : list (Z * list N) :=
  map (fun p => (snd p, fst p)) (table G)
  ++ map (fun i => let z := rtmin G + Z.of_nat i in (z, signal_name G z)) (seq 0 (Z.to_nat (rtmax G - rtmin G + 1))).
(** [TERMSIGOFFSET] (job.h 67) *)
Definition offset : Z := 384.
(** Listing the operands (sig.c 1391-1413): [None] for a failed assertion, else what is printed and whether
    there is an error *)
Fixpoint list_some (ops : list (list N)) : option (list (Z * list N) * bool) :=
  match ops with
  | [] => Some ([], false)
  | a :: ops =>
      let num := match xwcstoi L 10 a with
                 | Some z => if 0 <=? z then
                               GNum (if offset <=? z then z - offset else if Z.land offset 255 <=? z then z - Z.land offset 255 else z)
                             else signal_number L G (map (up H) a)
                 | None => signal_number L G (map (up H) a)
                 end in
      match num with
      | GAbort => None
      | GNone => match list_some ops with Some (l, _) => Some (l, true) | None => None end
      | GNum z =>
          if (z <=? 0) || (match signal_name G z with [] => true | _ => false end) then
            match list_some ops with Some (l, _) => Some (l, true) | None => None end
          else match list_some ops with Some (l, e) => Some ((z, signal_name G z) :: l, e) | None => None end
      end
  end.
End S.
