(** Pathname expansion (path.c, wglob). *)
From Coq Require Import Ascii String.
From Coq Require Import List NArith Bool Arith.
From Verif Require Import Common.
From Verif Require Regex XfnmatchModel QuoteModel.
Import ListNotations.
Local Open Scope res_scope.

Definition slash : N := ch "/".
Definition dot : N := ch ".".

(** The file system: the names in a directory (including "." and ".."), and
    for a path, following links at its end or not, the file (device and
    serial number) and whether it is a directory.  It does not change during
    the search. *)
Record files := {
  opendir : list N -> option (list (list N));
  stat : list N -> option (N * bool);
  lstat : list N -> option (N * bool)
}.

(** [struct wglob_pattern] (path.c 555-571).  The compiled pattern of a
    [WGLOB_MATCH] component is represented by what it matches.  Strings are
    wide; their conversion to multibyte strings always succeeds. *)
Inductive comp :=
  | Lit (name : list N)
  | Pat (matching : list N -> bool)
  | Rec (followlink allowperiod : bool).
Definition is_lit (c : comp) : bool := match c with Lit _ => true | _ => false end.

(** What the parser of patterns uses of xfnmatch.c and expand.c:
    [is_matching_pattern], [xfnm_compile] with [xfnm_match], and [unescape]. *)
Record matcher := {
  matching_pattern : list N -> bool;
  compile : list N -> option (list N -> bool);
  unescape : list N -> list N
}.
(** [wglob_parse_component] (path.c 746-787). *)
Definition parse_component (M : matcher) (recdir : bool) (p : list N) (has_next : bool) : option comp :=
  if has_next && recdir && list_N_eqb p (str "**") then Some (Rec false false)
  else if has_next && recdir && list_N_eqb p (str "***") then Some (Rec true false)
  else if has_next && recdir && list_N_eqb p (str ".**") then Some (Rec false true)
  else if has_next && recdir && list_N_eqb p (str ".***") then Some (Rec true true)
  else if matching_pattern M p
  then match compile M p with Some f => Some (Pat f) | None => None end
  else Some (Lit (unescape M p)).
(** The text up to the next slash, and what is after it. *)
Fixpoint upto_slash (p : list N) : list N * option (list N) :=
  match p with
  | [] => ([], None)
  | c :: p' =>
    if (c =? slash)%N then ([], Some p')
    else let '(a, r) := upto_slash p' in (c :: a, r)
  end.
(** [wglob_parse_pattern] (path.c 715-742): no components if one of them is
    invalid. *)
Fixpoint parse_pattern (fuel : nat) (M : matcher) (recdir : bool) (p : list N) : res (list comp) :=
  match fuel with
  | 0 => Fuel
  | S n =>
    let '(c, r) := upto_slash p in
    match parse_component M recdir c (match r with Some _ => true | None => false end) with
    | None => Ok []
    | Some x =>
      match r with
      | None => Ok [x]
      | Some p' => let! l := parse_pattern n M recdir p' in Ok (match l with [] => [] | _ => x :: l end)
      end
    end
  end.

Section Glob.
Variable V : files.
Variable order : list (list N) -> list (list N).
Variable cs : list comp.
Variable mark : bool.

(** The first loop of [wglob_search] (path.c 853-863). *)
Fixpoint carry (cs : list comp) (act : list N) : res (list N) :=
  match cs, act with
  | c :: cs', a :: act' =>
    if (a =? 0)%N then let! r := carry cs' act' in Ok (a :: r)
    else
      match c with
      | Rec _ _ =>
        match act' with
        | [] => UB
        | _ :: act'' => let! r := carry cs' (a :: act'') in Ok (a :: r)
        end
      | _ => let! r := carry cs' act' in Ok (a :: r)
      end
  | _, _ => Ok []
  end.
(** The second loop (path.c 866-876). *)
Fixpoint active_literals (cs : list comp) (act : list N) : list (list N) :=
  match cs, act with
  | c :: cs', a :: act' =>
    if (a =? 0)%N then active_literals cs' act'
    else match c with Lit l => l :: active_literals cs' act' | _ => active_literals cs' act' end
  | _, _ => []
  end.
Fixpoint active_matchers (cs : list comp) (act : list N) : bool :=
  match cs, act with
  | c :: cs', a :: act' => (negb (a =? 0)%N && negb (is_lit c)) || active_matchers cs' act'
  | _, _ => false
  end.

(** [wglob_add_result] (path.c 932-955). *)
Definition add_result (path : list N) (only_if_existing markdir : bool) : list (list N) :=
  if negb only_if_existing && negb markdir then [path]
  else
    let st := stat V path in
    let existing := match st with Some _ => true | None => false end in
    if only_if_existing && negb existing then []
    else if negb markdir || negb existing || negb (match st with Some (_, d) => d | None => false end)
    then [path]
    else [path ++ [slash]].

(** [wglob_is_reentry] (path.c 1117-1125).  The member [st] of a stack entry is
    [None] as long as it is uninitialised; reading it then is UB. *)
Fixpoint is_reentry (st : N) (prev : list (option N)) (count : nat) : res bool :=
  match count, prev with
  | S n, p :: prev' =>
    match p with
    | None => UB
    | Some q => if (st =? q)%N then Ok true else is_reentry st prev' n
    end
  | _, _ => Ok false
  end.
Definition starts_dot (name : list N) : bool := match name with c :: _ => (c =? dot)%N | [] => false end.
Definition hidden (allowperiod : bool) (name : list N) : bool :=
  if allowperiod then list_N_eqb name (str ".") || list_N_eqb name (str "..") else starts_dot name.
(** [wglob_should_recurse] (path.c 1091-1113): also the new value of [st], which is
    not changed when [stat] or [lstat] fails. *)
Definition should_recurse (name path : list N) (followlink allowperiod : bool)
    (st : option N) (prev : list (option N)) (count : nat) : res (bool * option N) :=
  if hidden allowperiod name then Ok (false, st)
  else
    match (if followlink then stat V path else lstat V path) with
    | None => Ok (false, st)
    | Some (ino, dir) =>
      if dir then let! r := is_reentry ino prev count in Ok (negb r, Some ino)
      else Ok (false, Some ino)
    end.

(** The loop of [wglob_scandir_entry] (path.c 1039-1075): [cur] is
    [t2->active_components[i]] as the previous component left it, [st] is
    [t2->st]. *)
Fixpoint entry_loop (name path : list N) (only : bool) (prev : list (option N))
    (cs : list comp) (act : list N) (cur : N) (st : option N)
    : res (list N * option N * list (list N)) :=
  match cs, act with
  | c :: cs', a :: act' =>
    let has_next := match cs' with [] => false | _ => true end in
    let next (own cur : N) (st : option N) (r : list (list N)) :=
      let! (l, st, rs) := entry_loop name path only prev cs' act' cur st in
      Ok (own :: l, st, r ++ rs) in
    if (a =? 0)%N then next cur 0%N st []
    else
      match c with
      | Lit l =>
        if negb (list_N_eqb l name) then next cur 0%N st []
        else if has_next then next cur 1%N st []
        else next cur 0%N st (add_result path only false)
      | Pat f =>
        if match name with [] => true | _ => false end then next cur 0%N st []
        else if negb (f name) then next cur 0%N st []
        else if has_next then next cur 1%N st []
        else next cur 0%N st (add_result path only mark)
      | Rec fl ap =>
        if negb has_next then UB
        else if match name with [] => true | _ => false end then next cur 0%N st []
        else if (cur =? 0)%N then
          let! (b, st) := should_recurse name path fl ap st prev (N.to_nat (a - 1)) in
          next (if b then ((a + 1) mod 256)%N else cur) 0%N st []
        else next cur 0%N st []
      end
  | _, _ => Ok ([], st, [])
  end.

(** A loop over names, passing on [t2->st]. *)
Fixpoint scan (f : list N -> bool -> option N -> res (option N * list (list N)))
    (l : list (list N * bool)) (st : option N) : res (option N * list (list N)) :=
  match l with
  | [] => Ok (st, [])
  | (name, only) :: l' =>
    let! (st, r) := f name only st in
    let! (st, rs) := scan f l' st in
    Ok (st, r ++ rs)
  end.

(** The active literal component, of which there is only one, and the
    components that are active after it. *)
Fixpoint single (cs : list comp) (act : list N) : option (list N * option (list N)) :=
  match cs, act with
  | c :: cs', a :: act' =>
    let later :=
      match single cs' act' with
      | Some (l, Some x) => Some (l, Some (0%N :: x))
      | r => r
      end in
    if (a =? 0)%N then later
    else
      match c with
      | Lit l =>
        Some (l, match cs' with [] => None | _ :: cs'' => Some (0%N :: 1%N :: map (fun _ => 0%N) cs'') end)
      | _ => later
      end
  | _, _ => None
  end.

Fixpoint dedup (l : list (list N)) : list (list N) :=
  match l with
  | [] => []
  | x :: l' => if existsb (list_N_eqb x) l' then dedup l' else x :: dedup l'
  end.

(** [wglob_search] (path.c 841-886) with [wglob_scandir] (path.c 995-1017),
    [wglob_scandir_entry] (path.c 1027-1086), [wglob_search_literal_each] (path.c
    894-929) and [wglob_search_literal_uniq] (path.c 960-990).  [path] ends with a
    slash or is empty; [act] and [st] are those of [t], [prev] the values of
    [st] in the entries [t->prev] and so on.  The hash table of names in
    [wglob_search_literal_uniq] gives them in an arbitrary [order]. *)
Fixpoint search (fuel : nat) (path : list N) (prev : list (option N)) (act : list N) (st : option N)
    : res (list (list N)) :=
  match fuel with
  | 0 => Fuel
  | S n =>
    let! act := carry cs act in
    let entry (name : list N) (only : bool) (st2 : option N) : res (option N * list (list N)) :=
      let! (act2, st2, r) := entry_loop name (path ++ name) only (st :: prev) cs act 0%N st2 in
      let! rs := search n (path ++ name ++ [slash]) (st :: prev) act2 st2 in
      Ok (st2, r ++ rs) in
    let lits := active_literals cs act in
    let literals :=
      match lits with
      | [] => Ok []
      | [_] =>
        match single cs act with
        | Some (l, None) => Ok (add_result (path ++ l) true false)
        | Some (l, Some act2) => search n (path ++ l ++ [slash]) (st :: prev) act2 None
        | None => Ok []
        end
      | _ =>
        let! (_, rs) := scan entry (map (fun l => (l, true)) (order (dedup lits))) None in Ok rs
      end in
    if active_matchers cs act then
      match opendir V (match path with [] => str "." | _ => path end) with
      | Some names =>
        let! (_, rs) := scan entry (([], true) :: map (fun l => (l, false)) names) None in Ok rs
      | None => literals
      end
    else literals
  end.

(** [wglob] (path.c 677-710) without sorting. *)
Definition wglob_components (fuel : nat) : res (list (list N)) :=
  search fuel [] [] (1%N :: map (fun _ => 0%N) (tl cs)) None.
End Glob.

(** The flags of [wglob] (path.h 92-98). *)
Record wflags := { wglb_mark : bool; wglb_casefold : bool; wglb_period : bool; wglb_recdir : bool }.
(** The functions used for pattern components (path.c 762-771, 1053); the model
    of pattern matching is in XfnmatchModel.v, that of [unescape] in
    QuoteModel.v.  A pattern for which those models go wrong would be taken
    for an invalid one; see [piece_ok] in GlobText.v. *)
Definition shell_matcher (C : Regex.ctype) (fl : wflags) : matcher := {|
  matching_pattern p := match XfnmatchModel.is_matching_pattern p with Ok b => b | _ => false end;
  compile p :=
    match XfnmatchModel.xfnm_compile C p
      (XfnmatchModel.mkFl false true true (negb (wglb_period fl)) (wglb_casefold fl) false false) with
    | Ok (Some x) => Some (fun s => match XfnmatchModel.xfnm_match C x s with Ok b => b | _ => false end)
    | _ => None
    end;
  unescape := QuoteModel.unescape
|}.
(** [wglob] (path.c 677-710).  [None] is failure because of an invalid pattern.
    [sort] stands for [qsort] with [wglob_sortcmp] (path.c 1127-1130), or for no
    sorting. *)
Definition wglob (V : files) (order sort : list (list N) -> list (list N)) (M : matcher)
    (fl : wflags) (p : list N) : res (option (list (list N))) :=
  let! cs := parse_pattern (S (length p)) M (wglb_recdir fl) p in
  match cs with
  | [] => Ok None
  | _ => let! r := wglob_components V order cs (wglb_mark fl) (256 * S (length cs)) in Ok (Some (sort r))
  end.
