(** Model of brace expansion in expand.c. *)
From Coq Require Import Ascii String.
From Coq Require Import List NArith ZArith Bool Arith.
From Verif Require Import Common Locale NumModel CharcatModel.
Import ListNotations.
Open Scope res_scope.

Definition lbrace : N := 123%N.
Definition rbrace : N := 125%N.
Definition comma : N := 44%N.
Definition period : N := 46%N.

(** The word being expanded; the null terminator is the end of the list. *)
Section Word.
Variable L : locale.
Variable word : list cell.

Definition graph_T := list (option nat).

(** The scan of expand.c:1259-1291: [i] is graph.length, and also the index of
    the character at the head of [rest].  Pointers into the word are indices;
    the top of the stack is the head of the list. *)
Fixpoint scan (rest : list cell) (i : nat) (graph : graph_T) (stack : list nat) (pairfound : bool)
  : res (graph_T * list nat * bool) :=
  match rest with
  | [] => Ok (graph, stack, pairfound)
  | (c, k) :: rest' =>
    let next graph stack pairfound := scan rest' (S i) graph stack pairfound in
    if cat_eqb k cc_lit then
      if (c =? lbrace)%N then next (graph ++ [None]) (i :: i :: stack) pairfound
      else if (c =? comma)%N then
        match stack with
        | ci :: stack' =>
          let! graph := rset graph ci (Some i) in
          next (graph ++ [None]) (i :: stack') pairfound
        | [] => next (graph ++ [None]) stack pairfound
        end
      else if (c =? rbrace)%N then
        match stack with
        | ci :: _ :: stack' =>
          let! graph := rset graph ci (Some i) in
          let! x := rget word ci in
          next (graph ++ [if (fst x =? comma)%N then Some i else None]) stack' true
        | [_] => UB
        | [] => next (graph ++ [None]) stack pairfound
        end
      else next (graph ++ [None]) stack pairfound
    else next (graph ++ [None]) stack pairfound
  end.

(** expand.c:1305-1310: removes the chain that starts at [ci] from the graph *)
Fixpoint unchain (fuel : nat) (graph : graph_T) (ci : nat) : res graph_T :=
  match fuel with
  | O => Fuel
  | S fuel' =>
    let! cnext := rget graph ci in
    match cnext with
    | None => Ok graph
    | Some n => let! graph := rset graph ci None in unchain fuel' graph n
    end
  end.
(** expand.c:1303-1312 *)
Fixpoint cleanup (graph : graph_T) (stack : list nat) : res graph_T :=
  match stack with
  | [] => Ok graph
  | [_] => UB
  | _ :: oi :: stack' => let! graph := unchain (S (length graph)) graph oi in cleanup graph stack'
  end.

(** expand.c:1508-1519 [has_leading_zero]; the second result is the new value of [sign] *)
Definition has_leading_zero (s : list N) (sign : bool) : bool * bool :=
  let s := skip_space L s in
  let '(s, sign) := match s with
                    | 43%N :: s' => (s', true)
                    | 45%N :: s' => (s', sign)
                    | _ => (s, sign)
                    end in
  (match s with 48%N :: _ => true | _ => false end, sign).

(** The output of wprintf with %0*ld, or with %0+*ld if [sign] (C11 7.29.2.1). *)
Definition format_ld (sign : bool) (len : nat) (value : Z) : list N :=
  let sg := if (value <? 0)%Z then [45%N] else if sign then [43%N] else [] in
  let ds := dec_of_N (Z.abs_N value) in
  sg ++ repeat 48%N (len - length sg - length ds) ++ ds.

(** wcstol with base 10 that converts something without a range error
    (c != cp && errno == 0), and what follows *)
Definition number (s : list N) : option (Z * list N) :=
  match wcstol L 10 s with
  | (Some v, cp) => if in_long v then Some (v, cp) else None
  | (None, _) => None
  end.

(** The values of the loop of expand.c:1472-1497. *)
Fixpoint seq_values (fuel : nat) (value end_ delta : Z) : res (list Z) :=
  match fuel with
  | O => Fuel
  | S fuel' =>
    let stop := if (0 <=? delta)%Z then (LONG_MAX - delta <? value)%Z else (LONG_MIN - delta >? value)%Z in
    if stop then Ok [value]
    else
      let value' := (value + delta)%Z in
      if negb (in_long value') then UB
      else if if (0 <=? delta)%Z then (value' <=? end_)%Z else (end_ <=? value')%Z then
        let! l := seq_values fuel' value' end_ delta in Ok (value :: l)
      else Ok [value]
  end.

(** The parsing part of try_expand_brace_sequence (expand.c:1416-1466): start,
    end, delta, sign flag, width, index of the closing brace.  [int] is wide
    enough for the lengths. *)
Definition parse_sequence (ci : nat) : option (Z * Z * Z * bool * nat * nat) :=
  let txt := text word in
  let starti := S ci in
  let c := skipn starti txt in
  match number c with
  | Some (start, cp) =>
    match cp with
    | d1 :: d2 :: cp2 =>
      if (d1 =? period)%N && (d2 =? period)%N then
        let (lz, sign) := has_leading_zero c false in
        let startlen := if lz then length c - length cp else 0 in
        let c := cp2 in
        match number c with
        | Some (end_, cp) =>
          let (lz, sign) := has_leading_zero c sign in
          let endlen := if lz then length c - length cp else 0 in
          let fin delta (cp : list N) :=
            let bracei := length txt - length cp in
            match nth_error word bracei with
            | Some (_, k) =>
              if cat_eqb k cc_lit &&
                 forallb (fun x => negb (quoted (snd x))) (firstn (bracei - starti) (skipn starti word))
              then Some (start, end_, delta, sign, Nat.max startlen endlen, bracei)
              else None
            | None => None
            end in
          match cp with
          | e1 :: cp3 =>
            if (e1 =? period)%N then
              match cp3 with
              | e2 :: c =>
                if (e2 =? period)%N then
                  match number c with
                  | Some (delta, f :: cp4) =>
                    if (delta =? 0)%Z then None
                    else if (f =? rbrace)%N then fin delta (f :: cp4) else None
                  | _ => None
                  end
                else None
              | [] => None
              end
            else if (e1 =? rbrace)%N then fin (if (start <=? end_)%Z then 1 else -1)%Z cp
            else None
          | [] => None
          end
        | None => None
        end
      else None
    | _ => None
    end
  | None => None
  end.

Fixpoint mapM {A B} (f : A -> res B) (l : list A) : res (list B) :=
  match l with
  | [] => Ok []
  | a :: l' => let! b := f a in let! bs := mapM f l' in Ok (b :: bs)
  end.

Section Graph.
Variable graph : graph_T.

(** expand.c:1361-1365: from a comma to the index of the closing brace *)
Fixpoint to_close (fuel : nat) (ci : nat) : res nat :=
  match fuel with
  | O => Fuel
  | S fuel' =>
    let! nd := rget graph ci in
    match nd with
    | None => UB
    | Some n =>
      let! x := rget word n in
      if (fst x =? comma)%N then to_close fuel' n
      else if (fst x =? rbrace)%N then Ok n else UB
    end
  end.

(** expand.c:1387-1402: the indices at which the alternatives start.  The code
    generates the results of each as it reaches it. *)
Fixpoint alternatives (fuel : nat) (ci nextdelimiter : nat) : res (list nat) :=
  match fuel with
  | O => Fuel
  | S fuel' =>
    let! x := rget word nextdelimiter in
    if (fst x =? comma)%N then
      let! nd := rget graph nextdelimiter in
      match nd with
      | None => UB
      | Some n => let! l := alternatives fuel' nextdelimiter n in Ok (S ci :: l)
      end
    else if (fst x =? rbrace)%N then Ok [S ci] else UB
  end.

(** expand.c:1340-1404 [generate_brace_expand_results], with the loop of
    [try_expand_brace_sequence] (expand.c:1468-1501).  The results are those added
    to the lists, in order. *)
Fixpoint generate (fuel : nat) (ci : nat) (buf : list cell) : res (list (list cell)) :=
  match fuel with
  | O => Fuel
  | S fuel' =>
    match nth_error word ci with
    | None => if ci =? length word then Ok [buf] else UB
    | Some (c, k) =>
      let! g := rget graph ci in
      match g with
      | None => generate fuel' (S ci) (buf ++ [(c, k)])
      | Some nd =>
        if (c =? comma)%N then
          let! e := to_close (S (length word)) ci in generate fuel' (S e) buf
        else if (c =? rbrace)%N then generate fuel' (S ci) buf
        else if (c =? lbrace)%N then
          let! x := rget word nd in
          if (fst x =? rbrace)%N then
            match parse_sequence ci with
            | None => generate fuel' (S ci) (buf ++ [(c, k)])
            | Some (start, end_, delta, sign, len, bracei) =>
              let! vs := seq_values (S (Z.to_nat ((end_ - start) / delta))) start end_ delta in
              let! rs := mapM (fun v => generate fuel' (S bracei) (buf ++ cells cc_hard (format_ld sign len v))) vs in
              Ok (concat rs)
            end
          else if (fst x =? comma)%N then
            let! starts := alternatives (S (length word)) ci nd in
            let! rs := mapM (fun i => generate fuel' i buf) starts in
            Ok (concat rs)
          else UB
        else UB
      end
    end
  end.
End Graph.

(** expand.c:1231-1238: the quick check *)
Fixpoint after (c : N) (s : list N) : option (list N) :=
  match s with [] => None | x :: s' => if (x =? c)%N then Some s' else after c s' end.
Definition maybe_braces : bool :=
  match after lbrace (text word) with
  | None => false
  | Some s => match after rbrace s with None => false | Some _ => true end
  end.

(** expand.c:1225-1332 [expand_brace] *)
Definition expand_brace : res (list (list cell)) :=
  if negb maybe_braces then Ok [word]
  else
    let! r := scan word 0 [] [] false in
    let '(graph, stack, pairfound) := r in
    if negb pairfound then Ok [word]
    else
      let! graph := cleanup graph stack in
      generate graph (S (length word)) 0 [].
End Word.

(** expand.c:1211-1219 [expand_brace_each] *)
Definition expand_brace_each (L : locale) (values : list (list cell)) : res (list (list cell)) :=
  let! rs := mapM (expand_brace L) values in Ok (concat rs).
