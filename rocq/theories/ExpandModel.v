(** Model of word expansion in expand.c: the four expansions (tilde, parameter,
    command substitution, arithmetic) and the functions that combine them with
    brace expansion, field splitting, pathname expansion and quote removal.

    Lists of strings with their category strings are lists of lists of cells;
    string buffers are lists.  Error messages are not modelled: an error is [None]. *)
From Coq Require Import Ascii String.
From Coq Require Import List NArith ZArith Bool Arith.
From Verif Require Import Common Locale NumModel CharcatModel Regex XfnmatchModel QuoteModel SplitModel BraceModel.
Import ListNotations.
Open Scope res_scope.

(** expand.h:31-31 [tildetype_T] *)
Inductive tildetype := TT_NONE | TT_SINGLE | TT_MULTI.
(** expand.h:38-46 [quoting_T] *)
Inductive quoting := Q_WORD | Q_DQPARAM | Q_INDQ | Q_LITERAL.

(** parser.h:134-160: the kind of a parameter expansion (PT_MASK and the match flags) *)
Inductive pexp :=
| PT_NONE | PT_MINUS | PT_PLUS | PT_ASSIGN | PT_ERROR
| PT_MATCH (head tail longest : bool)
| PT_SUBST (head tail all : bool).

(** parser.h:110-131 [wordunit_T], with [paramexp_T] (parser.h:163-172) in place.  A word is
    a list of units, NULL being the empty list.  A command substitution is just a
    number that the environment interprets.  [number] and [colon] are PT_NUMBER and PT_COLON;
    the parameter is a name or, for PT_NEST, a word. *)
Inductive wunit :=
| WString (s : list N)
| WParam (number colon : bool) (ty : pexp) (param : list N + list wunit) (start end_ match_ subst : list wunit)
| WCmdsub (k : nat)
| WArith (w : list wunit).

(** variable.h:112-117 [get_variable_T]; GV_NOTFOUND, ... with the values *)
Inductive gv := GVNot | GVScalar (s : list N) | GVArray (l : list (list N)) | GVConcat (l : list (list N)).

(** variable.h:112-117 without GV_NOTFOUND: what [v.type] can be after expand.c:695-721 *)
Inductive gvtype := TScalar | TArray | TConcat.

(** The rest of the shell, as far as word expansion uses it: [E] is the state.
    [set_variable] and [set_array_element] report success.  [evaluate_index]
    yields a [ssize_t].  [tilde_home] is the directory that expand_tilde finds for a user
    name (expand.c:610-638).  [wglob] is pathname expansion proper (path.c). *)
Record world := mkWorld {
  E : Type;
  get_variable : E -> list N -> gv;
  getifs : E -> option (list N);
  set_variable : E -> list N -> list N -> bool * E;
  set_array_element : E -> list N -> Z -> list N -> bool * E;
  exec_cmdsub : E -> nat -> option (list N) * E;
  evaluate_arithmetic : E -> list N -> option (list N) * E;
  evaluate_index : E -> list N -> option Z * E;
  tilde_home : E -> list N -> option (list N);
  wglob : list N -> list (list N)
}.

(** Shell options (option.c): shopt_unset, shopt_braceexpand, shopt_emptylastfield,
    shopt_glob, shopt_nullglob *)
Record opts := mkOpts { o_unset : bool; o_braceexpand : bool; o_emptylastfield : bool; o_glob : bool; o_nullglob : bool }.

(** limits of ssize_t *)
Definition SSIZE_MAX : Z := (2 ^ 63 - 1)%Z.
Definition in_ssize (z : Z) : bool := ((- 2 ^ 63 <=? z) && (z <=? SSIZE_MAX))%Z.

Section Expand.
Variable L : locale.
Variable C : ctype.
Variable W : world.
Variable OP : opts.

(** A computation on the state; [None] is failure. *)
Definition M (A : Type) : Type := E W -> res (option A * E W).
Definition ret {A} (a : A) : M A := fun e => Ok (Some a, e).
Definition fail {A} : M A := fun e => Ok (None, e).
Definition bind {A B} (m : M A) (f : A -> M B) : M B :=
  fun e => match m e with Ok (Some a, e') => f a e' | Ok (None, e') => Ok (None, e') | UB => UB | Fuel => Fuel end.
Definition lift {A} (x : res A) : M A := fun e => match x with Ok a => Ok (Some a, e) | UB => UB | Fuel => Fuel end.
Definition gets {A} (f : E W -> A) : M A := fun e => Ok (Some (f e), e).

(** ** Tilde expansion *)

(** wcspbrk(s, t): the text before and from the first character in [t] *)
Fixpoint wcspbrk (t s : list N) : option (list N * list N) :=
  match s with
  | [] => None
  | c :: s' => if mem c t then Some ([], s)
               else match wcspbrk t s' with Some (a, b) => Some (c :: a, b) | None => None end
  end.

(** expand.c:591-644 [expand_tilde]: the home directory and the rest of the string *)
Definition expand_tilde (e : E W) (ss : list N) (hasnext : bool) (tt : tildetype) : option (list N * list N) :=
  match ss with
  | c :: s =>
    if negb (c =? ch "~")%N then None
    else
      let t := match tt with TT_SINGLE => [ch "/"] | _ => [ch "/"; ch ":"] end in
      let cut := match wcspbrk t s with
                 | Some r => Some r
                 | None => if hasnext then None else Some (s, [])
                 end in
      match cut with
      | None => None
      | Some (username, rest) =>
        if match username with [] => false | _ => match wcspbrk [dq; sq; bs] username with Some _ => true | None => false end end
        then None
        else match tilde_home W e username with None => None | Some home => Some (home, rest) end
      end
  | [] => None
  end.

(** ** The loop of expand_four over a string *)

(** The local variables of expand_four: [e], [valuebuf]/[ccbuf], and the flags *)
Record four := mkFour { fe : list (list cell); fbuf : list cell; findq : bool; fremovedq : bool; fremoveempty : bool }.
Definition put (st : four) (x : list cell) : four :=
  mkFour (fe st) (fbuf st ++ x) (findq st) (fremovedq st) (fremoveempty st).

(** [defaultcc | (b * CC_QUOTED)] *)
Definition or_quoted (cc : cat) (b : bool) : cat := mkCat (org cc) (quoted cc || b) (quotation cc).

(** wcschr(t, ss[1]) != NULL; true for the null character at the end *)
Definition next_in (t : list N) (s' : list N) : bool := match s' with [] => true | d :: _ => mem d t end.

Section Four.
Variable tilde : tildetype.
Variable quot : quoting.
Variable defaultcc : cat.

(** expand.c:441-522; [hasnext] tells if another word unit follows *)
Fixpoint four_string (fuel : nat) (e : E W) (hasnext : bool) (ss : list N) (st : four) : res four :=
  match fuel with
  | O => Fuel
  | S fuel' =>
    match ss with
    | [] => Ok st
    | c :: s' =>
      let default_ := four_string fuel' e hasnext s' (put st [(c, or_quoted defaultcc (findq st))]) in
      if (c =? dq)%N then
        match quot with
        | Q_INDQ | Q_LITERAL => default_
        | _ =>
          let mark := [(dq, set_quotation defaultcc)] in
          if negb (findq st) then
            four_string fuel' e hasnext s' (put (mkFour (fe st) (fbuf st) true false (fremoveempty st)) mark)
          else
            let st' := mkFour (fe st) (fbuf st) false (fremovedq st) (fremoveempty st) in
            match fremovedq st, fe st, fbuf st with
            | true, [], [(d, k)] =>
              if (d =? dq)%N && quotation k then four_string fuel' e hasnext s' (mkFour [] [] false true true)
              else four_string fuel' e hasnext s' (put st' mark)
            | _, _, _ => four_string fuel' e hasnext s' (put st' mark)
            end
        end
      else if (c =? sq)%N then
        match quot with
        | Q_WORD =>
          if findq st then default_
          else
            match add_sq s' [] with
            | (t, d :: r) =>
              if (d =? sq)%N then
                four_string fuel' e hasnext r
                  (put st ((sq, set_quotation defaultcc) :: cells (set_quoted defaultcc) t ++ [(sq, set_quotation defaultcc)]))
              else UB
            | (_, []) => UB (* assertion *)
            end
        | _ => default_
        end
      else if (c =? bs)%N then
        let special := match quot with
                       | Q_WORD => negb (findq st) || next_in chars_escapable s'
                       | Q_DQPARAM => next_in (chars_escapable ++ [ch "}"]) s'
                       | Q_INDQ => next_in [ch "$"; 96%N; bs] s'
                       | Q_LITERAL => false
                       end in
        if special then
          match s' with
          | [] => four_string fuel' e hasnext [] (put st [(bs, set_quotation defaultcc)])
          | d :: s'' => four_string fuel' e hasnext s'' (put st [(bs, set_quotation defaultcc); (d, set_quoted defaultcc)])
          end
        else default_
      else if (c =? ch ":")%N then
        match tilde with
        | TT_MULTI =>
          if findq st then default_
          else
            let st := put st [(c, defaultcc)] in
            match expand_tilde e s' hasnext tilde with
            | Some (home, rest) => four_string fuel' e hasnext rest (put st (cells cc_hard home))
            | None => four_string fuel' e hasnext s' st
            end
        | _ => default_
        end
      else default_
    end
  end.

(** expand.c:1162-1199 [merge_expand_four] *)
Definition merge (from : list (list cell)) (st : four) : four :=
  match from with
  | [] => st
  | [x] => put st x
  | x :: r => mkFour (fe st ++ (fbuf st ++ x) :: removelast r) (last r []) (findq st) (fremovedq st) (fremoveempty st)
  end.

(** What a word unit other than a string expands to: the result of expand_param, or a text *)
Inductive special := SFields (l : list (list cell)) | SText (s : list N).
Variable eu : wunit -> bool -> M special.

(** expand.c:424-555, the loop over the word units *)
Fixpoint four_loop (w : list wunit) (first : bool) (st : four) : M four :=
  match w with
  | [] => ret st
  | u :: w' =>
    let hasnext := match w' with [] => false | _ => true end in
    match u with
    | WString s =>
      bind (fun e =>
        let '(st, s) :=
          match tilde with
          | TT_NONE => (st, s)
          | _ => if first then
                   match expand_tilde e s hasnext tilde with
                   | Some (home, rest) => (put st (cells (mkCat Hard (quoted defaultcc) false) home), rest)
                   | None => (st, s)
                   end
                 else (st, s)
          end in
        lift (four_string (S (length s)) e hasnext s st) e)
      (fun st => four_loop w' false st)
    | _ =>
      bind (eu u (findq st || match quot with Q_LITERAL => true | _ => false end || quoted defaultcc))
      (fun r =>
        match r with
        | SFields l =>
          let st := match l with
                    | [] => if findq st then mkFour (fe st) (fbuf st) true true (fremoveempty st)
                            else mkFour (fe st) (fbuf st) false (fremovedq st) true
                    | _ => st
                    end in
          four_loop w' false (merge l st)
        | SText s => four_loop w' false (put st (cells (mkCat Soft (findq st || quoted defaultcc) false) s))
        end)
    end
  end.
End Four.

(** expand.c:394-577 [expand_four] *)
Definition expand_four (eu : wunit -> bool -> M special) (w : list wunit) (tilde : tildetype) (quot : quoting) (defaultcc : cat)
  : M (list (list cell)) :=
  bind (four_loop tilde quot defaultcc eu w true (mkFour [] [] false false false))
  (fun st =>
    match fremoveempty st, fe st, fbuf st with
    | true, [], [] => ret []
    | _, _, _ => ret (fe st ++ [fbuf st])
    end).

(** The separator of expand_single_cc and concatenate_values (expand.c:245-246, 1124-1125);
    empty if $IFS is empty *)
Definition ifs_separator (v : option (list N)) : list N :=
  match v with None => [ch " "] | Some [] => [] | Some (c :: _) => [c] end.

(** The loop of expand.c:261-269 *)
Fixpoint join_cells (sep : list cell) (l : list (list cell)) : list cell :=
  match l with
  | [] => []
  | [x] => x
  | x :: l' => x ++ sep ++ join_cells sep l'
  end.

(** expand.c:232-273 [expand_single_cc] *)
Definition expand_single_cc eu (w : list wunit) (tilde : tildetype) (quot : quoting) : M (list cell) :=
  bind (expand_four eu w tilde quot cc_lit)
  (fun l => bind (gets (getifs W)) (fun ifs => ret (join_cells (cells cc_soft (ifs_separator ifs)) l))).

(** expand.c:302-309 [expand_single] *)
Definition expand_single eu (w : list wunit) (tilde : tildetype) (quot : quoting) (esc : escaping) : M (list N) :=
  bind (expand_single_cc eu w tilde quot) (fun x => ret (quote_removal x esc)).

(** expand.c:280-294 [expand_word] *)
Definition expand_word eu (w : list wunit) : M (list (list N)) :=
  bind (expand_four eu w TT_NONE Q_WORD cc_lit) (fun l => ret (map (fun x => quote_removal x ES_NONE) l)).

(** ** Parameter expansion *)

(** expand.c:70-70 [indextype_T] *)
Inductive indextype := IDX_NONE | IDX_ALL | IDX_CONCAT | IDX_NUMBER.

(** expand.c:932-942 [parse_indextype] *)
Definition parse_indextype (s : list N) : indextype :=
  match s with
  | [c] => if (c =? ch "@")%N then IDX_ALL
           else if (c =? ch "*")%N then IDX_CONCAT
           else if (c =? ch "#")%N then IDX_NUMBER
           else IDX_NONE
  | _ => IDX_NONE
  end.

(** The loop of trim_wstring (expand.c:979-982) and plndup (plist.c): the [n] elements from the [k]th, as far as
    there are any *)
Fixpoint segment {A} (k n : Z) (l : list A) : list A :=
  match l with
  | [] => []
  | x :: l' => if (0 <? k)%Z then segment (k - 1) n l' else if (0 <? n)%Z then x :: segment 0 (n - 1) l' else []
  end.
(** expand.c:947-987 [trim_wstring].  The loops copy at most the characters there are. *)
Definition trim_wstring (s : list N) (startindex endindex : Z) : res (list N) :=
  let len := Z.of_nat (length s) in
  if ((startindex =? 0) && (endindex =? SSIZE_MAX))%Z then Ok s
  else
    let startindex := if (startindex <? 0)%Z then Z.max 0 (startindex + len) else startindex in
    let fin endindex :=
      if (startindex <? 0)%Z || (endindex <? 0)%Z then UB (* assertion *)
      else if (endindex <=? startindex)%Z then Ok []
      else Ok (segment startindex (endindex - startindex) s) in
    if (endindex <? 0)%Z then
      let endindex := (endindex + len + 1)%Z in
      if (endindex <=? startindex)%Z then Ok [] else fin endindex
    else fin endindex.

(** expand.c:751-777, the elements of an array; trim_array (expand.c:997-1018) and plndup copy
    at most the elements there are.  The result is the elements and the final indices. *)
Definition trim_values (values : list (list N)) (startindex endindex : Z) : res (list (list N) * Z * Z) :=
  let count := Z.of_nat (length values) in
  let startindex := if (0 <=? startindex)%Z then Z.min startindex count else Z.max 0 (startindex + count) in
  let endindex := if (endindex <? 0)%Z then (endindex + count + 1)%Z else endindex in
  let endindex := Z.max endindex startindex in
  Ok (segment startindex (endindex - startindex) values, startindex, endindex).

(** expand.c:1115-1130 [concatenate_values] with [escape] false *)
Fixpoint join (sep : list N) (l : list (list N)) : list N :=
  match l with
  | [] => []
  | [x] => x
  | x :: l' => x ++ sep ++ join sep l'
  end.

(** malloc_wprintf("%zu", n) *)
Definition dec_of_nat (n : nat) : list N := dec_of_N (N.of_nat n).

(** The indices of expand.c:657-690: start, end and type *)
Definition expand_index eu (start end_ : list wunit) : M (Z * Z * indextype) :=
  match start with
  | [] => ret (0%Z, SSIZE_MAX, IDX_NONE)
  | _ =>
    bind (expand_single eu start TT_NONE Q_WORD ES_NONE) (fun s =>
    match parse_indextype s with
    | IDX_NONE =>
      bind (fun e => Ok (evaluate_index W e s)) (fun startindex =>
      bind (match end_ with
            | [] => ret (if (startindex =? -1)%Z then SSIZE_MAX else startindex)
            | _ => bind (expand_single eu end_ TT_NONE Q_WORD ES_NONE) (fun s => fun e => Ok (evaluate_index W e s))
            end) (fun endindex =>
      let startindex := if (startindex =? 0)%Z then SSIZE_MAX
                        else if (0 <=? startindex)%Z then (startindex - 1)%Z else startindex in
      ret (startindex, endindex, IDX_NONE)))
    | t => match end_ with [] => ret (0%Z, SSIZE_MAX, t) | _ => fail end
    end)
  end.

(** The value of the parameter (expand.c:695-721): type, values and whether it is unset *)
Definition expand_value eu (param : list N + list wunit) : M (gvtype * list (list N) * bool) :=
  match param with
  | inr w =>
    bind (expand_word eu w) (fun l => ret (match l with [_] => TScalar | _ => TArray end, l, false))
  | inl name =>
    bind (gets (fun e => get_variable W e name)) (fun v =>
    ret match v with
        | GVNot => (TScalar, [[]], true)
        | GVScalar s => (TScalar, [s], false)
        | GVArray l => (TArray, l, false)
        | GVConcat l => (TConcat, l, false)
        end)
  end.

(** expand.c:727-793: the values selected by the index, whether they are to be
    concatenated, and the final indices *)
Definition select_values (t : gvtype) (values : list (list N)) (startindex endindex : Z) (it : indextype)
  : res (list (list N) * bool * Z * Z) :=
  match t with
  | TScalar =>
    match values with
    | [s] =>
      match it with
      | IDX_NUMBER => Ok ([dec_of_nat (length s)], false, startindex, endindex)
      | _ => let! s := trim_wstring s startindex endindex in Ok ([s], false, startindex, endindex)
      end
    | _ => UB (* assertion *)
    end
  | _ =>
    let concat := match t with TConcat => true | _ => false end in
    match it with
    | IDX_NUMBER => Ok ([dec_of_nat (length values)], false, startindex, endindex)
    | _ =>
      let! (l, s, e) := trim_values values startindex endindex in
      Ok (l, concat || match it with IDX_CONCAT => true | _ => false end, s, e)
    end
  end.

(** expand.c:906-928: the result with categories; a dummy quote keeps each of several
    quoted values from empty field removal *)
Definition value_cells (indq : bool) (values : list (list N)) : list (list cell) :=
  let dummy := if indq && (1 <? length values) then [(dq, mkCat Soft true true)] else [] in
  map (fun v => cells (mkCat Soft indq false) v ++ dummy) values.

(** is_name (variable.c:312-322, variable.h): a letter or underscore, then those and digits *)
Definition is_name (s : list N) : bool :=
  let name_char c := (c =? ch "_")%N || iswalnum L c in
  match s with
  | [] => false
  | c :: _ => negb (iswdigit c) && forallb name_char s
  end.

Definition mapM' {A B} (f : A -> res B) (l : list A) : res (list B) := mapM f l.

(** expand.c:898-930, the end of expand_param *)
Definition finish_param (number indq concat : bool) (values : list (list N)) : M special :=
  bind (gets (getifs W)) (fun ifs =>
  let values := if concat && indq then
                  match values with [_] => values | _ => [join (ifs_separator ifs) values] end
                else values in
  let values := if number then map (fun v => dec_of_nat (length v)) values else values in
  ret (SFields (value_cells indq values))).

(** expand.c:795-897, the middle of expand_param *)
Definition modify_param eu (colon : bool) (ty : pexp) (param : list N + list wunit) (match_ subst : list wunit)
    (number indq : bool) (t : gvtype) (startindex endindex : Z) (concat : bool) (values : list (list N)) (unset : bool) : M special :=
  let unset := unset || colon && match values with [] | [[]] => true | _ => false end in
  let substq := if indq then Q_DQPARAM else Q_WORD in
  let do_subst :=
    bind (expand_four eu subst TT_SINGLE substq (mkCat Soft indq false)) (fun l => ret (SFields l)) in
  let unset_check (k : M special) := if unset && negb (o_unset OP) then fail else k in
  match ty with
  | PT_NONE => unset_check (finish_param number indq concat values)
  | PT_PLUS => if unset then finish_param number indq concat values else do_subst
  | PT_MINUS => if unset then do_subst else finish_param number indq concat values
  | PT_ASSIGN =>
    if unset then
      match param with
      | inr _ => fail
      | inl name =>
        if negb (is_name name) then fail
        else if match t with TConcat => true | TArray => negb (startindex + 1 =? endindex)%Z | TScalar => false end then fail
        else
          bind (expand_single eu subst TT_SINGLE substq ES_NONE) (fun s =>
          bind (fun e =>
                  let (ok, e) := match t with
                                 | TArray => set_array_element W e name startindex s
                                 | _ => set_variable W e name s
                                 end in
                  Ok (if ok then Some tt else None, e))
          (fun _ => finish_param number indq concat [s]))
      end
    else finish_param number indq concat values
  | PT_ERROR =>
    if unset then
      match subst with
      | [] => fail
      | _ => bind (expand_single eu subst TT_SINGLE substq ES_NONE) (fun _ => fail)
      end
    else finish_param number indq concat values
  | PT_MATCH head tail longest =>
    unset_check (
      bind (expand_single eu match_ TT_SINGLE Q_WORD ES_QUOTED) (fun m =>
      bind (lift (mapM' (match_each C head tail longest m) values)) (fun values =>
      finish_param number indq concat values)))
  | PT_SUBST head tail all =>
    unset_check (
      bind (expand_single eu match_ TT_SINGLE Q_WORD ES_QUOTED) (fun m =>
      bind (expand_single eu subst TT_SINGLE Q_WORD ES_NONE) (fun s =>
      bind (lift (mapM' (subst_each C head tail all m s) values)) (fun values =>
      finish_param number indq concat values))))
  end.

(** expand.c:655-938 [expand_param]; and the word units WT_CMDSUB and WT_ARITH
    (expand.c:541-555) *)
Fixpoint expand_unit (u : wunit) (indq : bool) {struct u} : M special :=
  match u with
  | WString _ => fun _ => UB
  | WCmdsub k => bind (fun e => Ok (exec_cmdsub W e k)) (fun s => ret (SText s))
  | WArith w =>
    bind (expand_single expand_unit w TT_NONE Q_INDQ ES_NONE) (fun s =>
    bind (fun e => Ok (evaluate_arithmetic W e s)) (fun s => ret (SText s)))
  | WParam number colon ty param start end_ match_ subst =>
    bind (expand_index expand_unit start end_) (fun '(startindex, endindex, it) =>
    bind (expand_value expand_unit param) (fun '(t, values, unset) =>
    bind (lift (select_values t values startindex endindex it)) (fun '(values, concat, startindex, endindex) =>
    modify_param expand_unit colon ty param match_ subst number indq t startindex endindex concat values unset)))
  end.

(** ** Entry points *)

(** expand.c:1924-1957 [glob_all] *)
Fixpoint glob_all (fields : list (list cell)) : res (list (list N)) :=
  match fields with
  | [] => Ok []
  | f :: fields' =>
    let pattern := quote_removal f ES_QUOTED_HARD in
    let! b := is_pathname_matching_pattern pattern in
    let plain := [quote_removal f ES_NONE] in
    let r := if o_glob OP && b then
               match wglob W pattern with
               | [] => if negb (o_nullglob OP) then plain else []
               | l => l
               end
             else plain in
    let! rest := glob_all fields' in
    Ok (r ++ rest)
  end.

(** expand.c:185-224 [expand_multiple].  The shell exits on an error if it is not
    interactive; here that is the result [None]. *)
Definition expand_multiple (w : list wunit) : M (list (list N)) :=
  bind (expand_four expand_unit w TT_SINGLE Q_WORD cc_lit) (fun l =>
  bind (lift (if o_braceexpand OP then expand_brace_each L l else Ok l)) (fun l =>
  bind (gets (getifs W)) (fun ifs =>
  bind (lift (fieldsplit L (ifs_value ifs) (o_emptylastfield OP) l)) (fun l =>
  lift (glob_all l))))).

(** expand.c:163-181 [expand_line] *)
Fixpoint expand_line (args : list (list wunit)) : M (list (list N)) :=
  match args with
  | [] => ret []
  | w :: args' => bind (expand_multiple w) (fun l => bind (expand_line args') (fun r => ret (l ++ r)))
  end.
End Expand.
