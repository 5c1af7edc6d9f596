(** Specification of brace expansion, independent of expand.c: a word is read as
    nested groups of braces, and a group denotes a list of alternatives. *)
From Coq Require Import Ascii String.
From Coq Require Import List NArith ZArith Bool Arith.
From Verif Require Import Common Locale CharcatModel.
Import ListNotations.

(** Only unquoted literal characters act as braces and commas. *)
Definition openb : cell := (123%N, cc_lit).
Definition closeb : cell := (125%N, cc_lit).
Definition commab : cell := (44%N, cc_lit).

(** A group has one or more segments, separated by commas. *)
Inductive item := IChar (x : cell) | IGroup (segs : list (list item)).

Fixpoint sep (ls : list (list cell)) : list cell :=
  match ls with
  | [] => []
  | [l] => l
  | l :: ls' => l ++ commab :: sep ls'
  end.
Fixpoint unparse_item (i : item) : list cell :=
  match i with
  | IChar x => [x]
  | IGroup segs => openb :: sep (map (fun s => concat (map unparse_item s)) segs) ++ [closeb]
  end.
Definition unparse (l : list item) : list cell := concat (map unparse_item l).

(** Inside a group all the active braces and commas are accounted for. *)
Inductive wf_item : item -> Prop :=
| wf_char x : x <> openb -> x <> closeb -> x <> commab -> wf_item (IChar x)
| wf_group segs : segs <> [] -> Forall (Forall wf_item) segs -> wf_item (IGroup segs).
(** Outside, a brace may be unmatched: no opening brace is followed by a closing one. *)
Inductive wf_word : list item -> Prop :=
| ww_nil : wf_word []
| ww_item i l : wf_item i -> wf_word l -> wf_word (i :: l)
| ww_comma l : wf_word l -> wf_word (IChar commab :: l)
| ww_close l : wf_word l -> wf_word (IChar closeb :: l)
| ww_open l : wf_word l -> ~ In (IChar closeb) l -> wf_word (IChar openb :: l).

(** ** Numbers *)
Definition is_digit (c : N) : bool := ((48 <=? c) && (c <=? 57))%N.
Fixpoint digits_value (acc : Z) (ds : list N) : Z :=
  match ds with [] => acc | d :: ds' => digits_value (acc * 10 + (Z.of_N d - 48)) ds' end.
(** [integer L s sg ds v]: [s] is white space, a sign [sg] and digits [ds], of value [v]. *)
Definition integer (L : locale) (s sg ds : list N) (v : Z) : Prop :=
  exists sp, s = sp ++ sg ++ ds /\ Forall (fun c => iswspace L c = true) sp /\
    ds <> [] /\ Forall (fun c => is_digit c = true) ds /\ (- 2 ^ 63 <= v < 2 ^ 63)%Z /\
    ((sg = [] \/ sg = [43%N]) /\ v = digits_value 0 ds \/ sg = [45%N] /\ v = (- digits_value 0 ds)%Z).

(** A numeric range: where it starts and ends, its step, whether plus signs are
    shown, and the least width of the numbers. *)
Record range := mkRange { r_start : Z; r_end : Z; r_step : Z; r_plus : bool; r_width : nat }.
Definition width (s ds : list N) : nat := if (hd 0 ds =? 48)%N then length s else 0.
Definition dots : list N := [46; 46]%N.
Inductive range_of (L : locale) : list N -> range -> Prop :=
| ro_default a b sga dsa va sgb dsb vb plus :
    integer L a sga dsa va -> integer L b sgb dsb vb ->
    (plus = true <-> sga = [43%N] \/ sgb = [43%N]) ->
    range_of L (a ++ dots ++ b)
      (mkRange va vb (if va <=? vb then 1 else -1)%Z plus (Nat.max (width a dsa) (width b dsb)))
| ro_step a b c sga dsa va sgb dsb vb sgc dsc vc plus :
    integer L a sga dsa va -> integer L b sgb dsb vb -> integer L c sgc dsc vc -> vc <> 0%Z ->
    (plus = true <-> sga = [43%N] \/ sgb = [43%N]) ->
    range_of L (a ++ dots ++ b ++ dots ++ c)
      (mkRange va vb vc plus (Nat.max (width a dsa) (width b dsb))).

(** Start, start + step, ... as far as the end; at least the start. *)
Definition range_values (r : range) : list Z :=
  map (fun k => r_start r + Z.of_nat k * r_step r)%Z (seq 0 (S (Z.to_nat ((r_end r - r_start r) / r_step r)))).

(** [shown r v t]: [t] is the decimal numeral of [v], padded with zeros to the width. *)
Definition shown (r : range) (v : Z) (t : list N) : Prop :=
  exists sg zs ds, t = sg ++ zs ++ ds /\
    sg = (if v <? 0 then [45%N] else if r_plus r then [43%N] else [])%Z /\
    Forall (eq 48%N) zs /\ (zs = [] \/ length t = r_width r) /\ r_width r <= length t /\
    ds <> [] /\ Forall (fun c => is_digit c = true) ds /\ digits_value 0 ds = Z.abs v /\ (hd 0%N ds = 48%N -> ds = [48%N]).

(** [sequence_ok L f]: [f] gives the numbers of the range that the text between two
    braces is, if it is one and no character is quoted. *)
Definition is_range (L : locale) (w : list cell) (r : range) : Prop :=
  range_of L (text w) r /\ Forall (fun x => quoted (snd x) = false) w.
Definition sequence_ok (L : locale) (f : list cell -> option (list (list N))) : Prop :=
  forall w, match f w with
            | Some ts => exists r, is_range L w r /\ Forall2 (shown r) (range_values r) ts
            | None => forall r, ~ is_range L w r
            end.

(** ** Expansion *)
Section Expansion.
Variable f : list cell -> option (list (list N)).

(** All combinations, the leftmost alternatives varying slowest *)
Fixpoint product (ls : list (list (list cell))) : list (list cell) :=
  match ls with
  | [] => [[]]
  | l :: ls' => flat_map (fun a => map (app a) (product ls')) l
  end.
Fixpoint expansions_item (i : item) : list (list cell) :=
  match i with
  | IChar x => [[x]]
  | IGroup segs =>
    match segs with
    | [s] =>
      match f (concat (map unparse_item s)) with
      | Some ts => map (cells cc_hard) ts
      | None => product ([[openb]] :: map expansions_item s ++ [[[closeb]]])
      end
    | _ => concat (map (fun s => product (map expansions_item s)) segs)
    end
  end.
Definition expansions (l : list item) : list (list cell) := product (map expansions_item l).
End Expansion.
