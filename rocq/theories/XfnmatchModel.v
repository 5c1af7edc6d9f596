(** Model of xfnmatch.c: matching of shell patterns.

    Strings are wide throughout: the multibyte buffers the code passes to
    regcomp and regexec hold the converted text, and the offsets regexec reports
    are converted back, so every character is assumed to be convertible (see
    StrbufModel for the conversions).  A pointer into a string is the list of
    the characters from there on. *)
From Coq Require Import Ascii String.
From Coq Require Import List NArith Bool Arith.
From Verif Require Import Common Regex.
Import ListNotations.
Open Scope res_scope.

(** ** C library string functions *)
Fixpoint starts (s p : list N) {struct p} : bool :=
  match p, s with
  | [], _ => true
  | c :: p', x :: s' => (c =? x)%N && starts s' p'
  | _ :: _, [] => false
  end.
(** wcsstr: the suffix that starts with [p], leftmost. *)
Fixpoint wcsstr (s p : list N) : option (list N) :=
  if starts s p then Some s else match s with [] => None | _ :: s' => wcsstr s' p end.
Definition wcschr (s : list N) (c : N) : bool := existsb (N.eqb c) s.

(** xfnmatch.h:26-35; XFNM_compiled is the constructor of [xvalue] *)
Record flags := mkFl {
  SHORTEST : bool; HEADONLY : bool; TAILONLY : bool; PERIOD : bool; CASEFOLD : bool;
  headstar : bool; tailstar : bool }.

(** xfnmatch.c:31-37 [xfnmatch_T] *)
Inductive xvalue := Compiled (re : regex) | Literal (lit : list N).
Record xfnmatch := mkX { xflags : flags; xval : xvalue }.

(** ** Is it a pattern? *)

(** xfnmatch.c:120-156 [is_matching_pattern_bracket]; the opening bracket has been
    skipped, [n] is the length of the text there (for comparing pointers). *)
Fixpoint bracket_loop (fuel : nat) (n : nat) (pat : list N) : res bool :=
  match fuel with
  | O => Fuel
  | S f =>
      match pat with
      | [] => Ok false
      | c :: pat' =>
          if (c =? lbr)%N then
            match pat' with
            | d :: pat'' =>
                if is_symd d then
                  match wcsstr pat'' [d; rbr] with
                  | None => Ok false
                  | Some p => bracket_loop f n (skipn 2 p)
                  end
                else bracket_loop f n pat'
            | [] => bracket_loop f n pat'
            end
          else if (c =? rbr)%N then
            if length pat <? n then Ok true else bracket_loop f n pat'
          else if (c =? bslash)%N then
            match pat' with
            | [] => Ok false
            | _ :: pat'' => bracket_loop f n pat''
            end
          else bracket_loop f n pat'
      end
  end.
Definition is_matching_pattern_bracket (pat : list N) : res bool :=
  match pat with
  | c :: pat' => if (c =? lbr)%N then bracket_loop (S (length pat')) (length pat') pat' else UB
  | [] => UB
  end.

(** xfnmatch.c:92-115 [is_matching_pattern] *)
Fixpoint is_matching_loop (fuel : nat) (pat : list N) : res bool :=
  match fuel with
  | O => Fuel
  | S f =>
      match pat with
      | [] => Ok false
      | c :: pat' =>
          if (c =? bslash)%N then
            match pat' with
            | [] => Ok false
            | _ :: pat'' => is_matching_loop f pat''
            end
          else if (c =? aster)%N || (c =? quest)%N then Ok true
          else if (c =? lbr)%N then
            let! b := is_matching_pattern_bracket pat in
            if b then Ok true else is_matching_loop f pat'
          else is_matching_loop f pat'
      end
  end.
Definition is_matching_pattern (pat : list N) : res bool := is_matching_loop (S (length pat)) pat.

(** xfnmatch.c:162-175 [is_pathname_matching_pattern]; [comp] is the component
    being read, reversed. *)
Fixpoint pathname_loop (comp pat : list N) : res bool :=
  match pat with
  | [] => is_matching_pattern (rev comp)
  | c :: pat' =>
      if (c =? 47)%N then
        let! b := is_matching_pattern (rev comp) in
        if b then Ok true else pathname_loop [] pat'
      else pathname_loop (c :: comp) pat'
  end.
Definition is_pathname_matching_pattern (pat : list N) : res bool := pathname_loop [] pat.

(** ** Compilation *)

(** xfnmatch.c:215-272 [try_compile_literal], the loop over leading asterisks. *)
Fixpoint skip_stars (pat : list N) : bool * list N :=
  match pat with
  | c :: pat' => if (c =? aster)%N then (true, snd (skip_stars pat')) else (false, pat)
  | [] => (false, [])
  end.
(** The main loop: the literal text and whether asterisks end the pattern;
    [None] is a jump to fail. *)
Fixpoint literal_loop (pat : list N) : option (list N * bool) :=
  let cons c o := match o with Some (l, b) => Some (c :: l, b) | None => None end in
  match pat with
  | [] => Some ([], false)
  | c :: pat' =>
      if (c =? quest)%N then None
      else if (c =? aster)%N then
        match snd (skip_stars pat') with
        | [] => Some ([], true)
        | _ => None
        end
      else if (c =? lbr)%N then
        if wcschr pat' rbr then None else cons c (literal_loop pat')
      else if (c =? bslash)%N then
        match pat' with
        | [] => Some ([], false)
        | c1 :: pat'' => cons c1 (literal_loop pat'')
        end
      else cons c (literal_loop pat')
  end.
(** xfnmatch.c:215-272 [try_compile_literal] *)
Definition try_compile_literal (pat : list N) (fl : flags) : option xfnmatch :=
  let (hs, pat1) := skip_stars pat in
  match literal_loop pat1 with
  | None => None
  | Some (lit, ts) =>
      let headonly := HEADONLY fl && negb hs in
      let tailonly := TAILONLY fl && negb ts in
      let hs' := if SHORTEST fl && negb (HEADONLY fl) then false else hs in
      let ts' := if SHORTEST fl && HEADONLY fl then false else ts in
      Some (mkX (mkFl (SHORTEST fl) headonly tailonly (PERIOD fl) (CASEFOLD fl) hs' ts') (Literal lit))
  end.

(** xfnmatch.c:421-447 [encode_pattern_bracket2]: the pointer to the closing
    bracket and the text appended.  The loop of the copy, with [n] the distance
    to [p]; it ends when [pat > p]. *)
Fixpoint bracket2_copy (fuel : nat) (pat p : list N) (buf : list N) : res (list N * list N) :=
  match fuel with
  | O => Fuel
  | S f =>
      let! pat1 := match pat with
                   | c :: r => if (c =? bslash)%N then Ok r else Ok pat
                   | [] => Ok pat
                   end in
      match pat1 with
      | [] => UB
      | c :: r =>
          let buf := buf ++ [c] in
          if length pat1 <? length p then
            if (c =? rbr)%N then Ok (pat1, buf) else UB (* assertion *)
          else bracket2_copy f r p buf
      end
  end.
Definition encode_pattern_bracket2 (pat buf : list N) : res (option (list N * list N)) :=
  match pat with
  | c :: pat' =>
      if negb (c =? lbr)%N then UB (* assertion *)
      else
        match pat' with
        | d :: pat'' =>
            if is_symd d then
              match wcsstr pat'' [d; rbr] with
              | None => Ok None
              | Some p =>
                  let! r := bracket2_copy (S (length pat)) pat p buf in
                  Ok (Some r)
              end
            else Ok (Some (pat, buf ++ [lbr]))
        | [] => Ok (Some (pat, buf ++ [lbr]))
        end
  | [] => UB
  end.

(** xfnmatch.c:449-457 [append_as_collating_symbol] *)
Definition append_as_collating_symbol (c : N) (buf : list N) : list N :=
  buf ++ [lbr; dot; c; dot; rbr].

(** xfnmatch.c:358-413 [encode_pattern_bracket], the loop: [Some] is the pointer to
    the closing bracket and the buffer, [None] a jump to fail. *)
Fixpoint encode_bracket_loop (fuel : nat) (pat buf : list N) : res (option (list N * list N)) :=
  match fuel with
  | O => Fuel
  | S f =>
      match pat with
      | [] => Ok None
      | c :: pat' =>
          if (c =? lbr)%N then
            let! r := encode_pattern_bracket2 pat buf in
            match r with
            | None => Ok None
            | Some (p, buf) =>
                match p with
                | _ :: p' => encode_bracket_loop f p' buf
                | [] => UB
                end
            end
          else if (c =? bslash)%N then
            match pat' with
            | [] => Ok None
            | c1 :: pat'' =>
                encode_bracket_loop f pat''
                  (if (c1 =? lbr)%N || (c1 =? caret)%N || (c1 =? hyphen)%N || (c1 =? rbr)%N
                   then append_as_collating_symbol c1 buf else buf ++ [c1])
            end
          else if (c =? rbr)%N then Ok (Some (pat, buf ++ [c]))
          else encode_bracket_loop f pat' (buf ++ [c])
      end
  end.
(** xfnmatch.c:358-413 [encode_pattern_bracket] *)
Definition encode_pattern_bracket (pat buf : list N) : res (list N * list N) :=
  match pat with
  | c :: pat1 =>
      if negb (c =? lbr)%N then UB
      else
        let buf1 := buf ++ [lbr] in
        let (pat2, buf2) :=
          match pat1 with
          | c1 :: r => if (c1 =? excl)%N || (c1 =? caret)%N then (r, buf1 ++ [caret]) else (pat1, buf1)
          | [] => (pat1, buf1)
          end in
        let (pat3, buf3) :=
          match pat2 with
          | c2 :: r => if (c2 =? rbr)%N then (r, buf2 ++ [rbr]) else (pat2, buf2)
          | [] => (pat2, buf2)
          end in
        let! r := encode_bracket_loop (S (length pat3)) pat3 buf3 in
        match r with
        | Some x => Ok x
        | None => Ok (pat, buf ++ [bslash; lbr])
        end
  | [] => UB
  end.

(** xfnmatch.c:313-349 [encode_pattern] *)
Fixpoint encode_pattern (fuel : nat) (pat buf : list N) : res (list N) :=
  match fuel with
  | O => Fuel
  | S f =>
      match pat with
      | [] => Ok buf
      | c :: pat' =>
          if (c =? quest)%N then encode_pattern f pat' (buf ++ [dot])
          else if (c =? aster)%N then encode_pattern f pat' (buf ++ [dot; aster])
          else if (c =? lbr)%N then
            let! (p, buf) := encode_pattern_bracket pat buf in
            match p with
            | _ :: p' => encode_pattern f p' buf
            | [] => UB
            end
          else if (c =? bslash)%N then
            match pat' with
            | [] => Ok buf (* appends the null and returns *)
            | c1 :: pat'' =>
                encode_pattern f pat''
                  (buf ++ (if existsb (N.eqb c1) [dot; aster; lbr; caret; dollar; bslash]
                           then [bslash; c1] else [c1]))
            end
          else if (c =? dot)%N || (c =? caret)%N || (c =? dollar)%N
          then encode_pattern f pat' (buf ++ [bslash; c])
          else encode_pattern f pat' (buf ++ [c])
      end
  end.

Section Ctype.
Variable C : ctype.

(** xfnmatch.c:276-304 [try_compile_regex] *)
Definition try_compile_regex (pat : list N) (fl : flags) : res (option xfnmatch) :=
  let buf := if HEADONLY fl then [caret] else [] in
  let! buf := encode_pattern (S (length pat)) pat buf in
  let buf := if TAILONLY fl then buf ++ [dollar] else buf in
  let! re := regcomp C buf (CASEFOLD fl) in
  Ok match re with Some re => Some (mkX fl (Compiled re)) | None => None end.

(** xfnmatch.c:190-211 [xfnm_compile] *)
Definition xfnm_compile (pat : list N) (fl : flags) : res (option xfnmatch) :=
  if SHORTEST fl && negb (xorb (HEADONLY fl) (TAILONLY fl)) then UB (* assertions *)
  else if PERIOD fl && negb (HEADONLY fl) then UB
  else
    let explicit := match pat with c :: _ => (c =? dot)%N || (c =? bslash)%N | [] => false end in
    let fl := mkFl (SHORTEST fl) (HEADONLY fl) (TAILONLY fl) (PERIOD fl && negb explicit)
                (CASEFOLD fl) (headstar fl) (tailstar fl) in
    match (if CASEFOLD fl then None else try_compile_literal pat fl) with
    | Some x => Ok (Some x)
    | None => try_compile_regex pat fl
    end.

(** ** Matching.  [None] is MISMATCH. *)

(** util.c:207-215 [matchwcsprefix] *)
Definition matchwcsprefix (s prefix : list N) : option (list N) :=
  if starts s prefix then Some (skipn (length prefix) s) else None.

(** xfnmatch.c:572-586 [last_wcsstr]; the position in [s], [off] characters having
    been skipped. *)
Fixpoint last_wcsstr_loop (fuel : nat) (s sub : list N) (off : nat) (last : option nat) : res (option nat) :=
  match fuel with
  | O => Fuel
  | S f =>
      match wcsstr s sub with
      | None => Ok last
      | Some r =>
          let at_ := off + (length s - length r) in
          match r with
          | _ :: r' => last_wcsstr_loop f r' sub (S at_) (Some at_)
          | [] => UB
          end
      end
  end.
Definition last_wcsstr (s sub : list N) : res (option nat) :=
  match sub with
  | [] => Ok (Some (length s))
  | _ => last_wcsstr_loop (S (length s)) s sub 0 None
  end.

(** xfnmatch.c:521-569 [wmatch_literal] *)
Definition wmatch_literal (fl : flags) (lit s : list N) : res (option (nat * nat)) :=
  if HEADONLY fl then
    match matchwcsprefix s lit with
    | None => Ok None
    | Some r =>
        if TAILONLY fl && match r with [] => false | _ => true end then Ok None
        else
          let slen := length lit + (if negb (SHORTEST fl) && tailstar fl then length r else 0) in
          Ok (Some (0, slen))
    end
  else if TAILONLY fl then
    let slen := length s in
    if slen <? length lit then Ok None
    else
      let index := slen - length lit in
      if negb (list_N_eqb (skipn index s) lit) then Ok None
      else
        let index := if negb (SHORTEST fl) && headstar fl then 0 else index in
        Ok (Some (index, slen))
  else
    let use_last :=
      (negb (SHORTEST fl) && headstar fl && negb (tailstar fl)) ||
      (SHORTEST fl && negb (headstar fl) && tailstar fl) in
    let! ss :=
      (if use_last then last_wcsstr s lit
       else Ok match wcsstr s lit with Some r => Some (length s - length r) | None => None end) in
    match ss with
    | None => Ok None
    | Some k =>
        Ok (Some ((if headstar fl then 0 else k),
                  (if tailstar fl then length s else k + length lit)))
    end.

(** xfnmatch.c:588-597 [wmatch_headtail]; the end is unspecified and is given as 0. *)
Definition wmatch_headtail (re : regex) (s : list N) : option (nat * nat) :=
  match regexec C re s with Some _ => Some (0, 0) | None => None end.

(** xfnmatch.c:599-631 [wmatch_shortest_head]; [buf] holds the first [i]
    characters, [s] is the rest. *)
Fixpoint shortest_head_loop (re : regex) (buf : list N) (i : nat) (s : list N) : option (nat * nat) :=
  match regexec C re buf with
  | Some _ => Some (0, i)
  | None =>
      match s with
      | [] => None
      | c :: s' => shortest_head_loop re (buf ++ [c]) (S i) s'
      end
  end.
Definition wmatch_shortest_head (re : regex) (s : list N) : option (nat * nat) :=
  shortest_head_loop re [] 0 s.

(** xfnmatch.c:653-686 [wmatch_longest] *)
Definition wmatch_longest (re : regex) (s : list N) : option (nat * nat) := regexec C re s.

(** xfnmatch.c:633-651 [wmatch_shortest_tail] *)
Fixpoint shortest_tail_loop (fuel : nat) (re : regex) (s : list N) (i : nat)
    (result : option (nat * nat)) : res (option (nat * nat)) :=
  match fuel with
  | O => Fuel
  | S f =>
      match wmatch_longest re (skipn i s) with
      | None => Ok result
      | Some (st, en) =>
          let st := st + i in
          let en := en + i in
          if length s <? st then UB (* s[newresult.start] *)
          else if length s =? st then Ok (Some (st, en))
          else shortest_tail_loop f re s (st + 1) (Some (st, en))
      end
  end.
Definition wmatch_shortest_tail (re : regex) (s : list N) : res (option (nat * nat)) :=
  shortest_tail_loop (S (length s)) re s 0 None.

(** xfnmatch.c:492-517 [xfnm_wmatch] *)
Definition xfnm_wmatch (x : xfnmatch) (s : list N) : res (option (nat * nat)) :=
  let fl := xflags x in
  if PERIOD fl && match s with c :: _ => (c =? dot)%N | [] => false end then Ok None
  else
    match xval x with
    | Literal lit => wmatch_literal fl lit s
    | Compiled re =>
        if HEADONLY fl && TAILONLY fl then Ok (wmatch_headtail re s)
        else if SHORTEST fl then
          if HEADONLY fl then Ok (wmatch_shortest_head re s)
          else if TAILONLY fl then wmatch_shortest_tail re s
          else UB (* assertion *)
        else Ok (wmatch_longest re s)
    end.

(** xfnmatch.c:464-484 [xfnm_match] *)
Definition xfnm_match (x : xfnmatch) (s : list N) : res bool :=
  if SHORTEST (xflags x) then UB (* assertion *)
  else if PERIOD (xflags x) && match s with c :: _ => (c =? dot)%N | [] => false end then Ok false
  else
    match xval x with
    | Compiled re => Ok match regexec C re s with Some _ => true | None => false end
    | Literal _ =>
        let! r := xfnm_wmatch x s in
        Ok match r with Some _ => true | None => false end
    end.

(** xfnmatch.c:692-721 [xfnm_subst], the loop; [s] is the text from [i] on. *)
Fixpoint subst_loop (fuel : nat) (x : xfnmatch) (s repl : list N) (substall : bool) (buf : list N)
    : res (list N) :=
  match fuel with
  | O => Fuel
  | S f =>
      let! r := xfnm_wmatch x s in
      match r with
      | None => Ok (buf ++ s)
      | Some (st, en) =>
          if en <=? st then Ok (buf ++ s)
          else if length s <? en then UB
          else
            let buf := buf ++ firstn st s ++ repl in
            let s := skipn en s in
            if substall then subst_loop f x s repl substall buf else Ok (buf ++ s)
      end
  end.
(** xfnmatch.c:692-721 [xfnm_subst] *)
Definition xfnm_subst (x : xfnmatch) (s repl : list N) (substall : bool) : res (list N) :=
  let fl := xflags x in
  if HEADONLY fl && TAILONLY fl then
    let! r := match xval x with
              | Compiled re => Ok (wmatch_headtail re s)
              | Literal lit => wmatch_literal fl lit s
              end in
    Ok match r with Some _ => repl | None => s end
  else
    let substall := if HEADONLY fl then false else substall in
    subst_loop (S (length s)) x s repl substall [].

(** xfnmatch.c:736-744 [match_pattern] *)
Definition match_pattern (s pattern : list N) : res bool :=
  let! x := xfnm_compile pattern (mkFl false true true false false false false) in
  match x with
  | None => Ok false
  | Some x => let! r := xfnm_wmatch x s in
              Ok match r with Some _ => true | None => false end
  end.

(** ** Users in expand.c *)

(** expand.c:1052-1079 [match_each], for one string; [head], [tail] and [longest] are
    PT_MATCHHEAD, PT_MATCHTAIL and PT_MATCHLONGEST. *)
Definition match_each (head tail longest : bool) (pattern s : list N) : res (list N) :=
  if negb (head || tail || longest) then UB (* assertion *)
  else
    let! x := xfnm_compile pattern (mkFl (negb longest) head tail false false false false) in
    match x with
    | None => Ok s
    | Some x =>
        let! r := xfnm_wmatch x s in
        match r with
        | None => Ok s
        | Some (st, en) => Ok (firstn st s ++ skipn (st + (en - st)) s)
        end
    end.

(** expand.c:1087-1106 [subst_each], for one string; [all] is PT_SUBSTALL. *)
Definition subst_each (head tail all : bool) (pattern subst s : list N) : res (list N) :=
  let! x := xfnm_compile pattern (mkFl false head tail false false false false) in
  match x with
  | None => Ok s
  | Some x => xfnm_subst x s subst all
  end.
End Ctype.
