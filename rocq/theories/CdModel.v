(** Model of the working directory: [cd], [pwd], canonicalization of paths and
    searches along lists of directories (path.c). *)
From Coq Require Import Ascii String.
From Coq Require Import List NArith Bool Arith.
From Verif Require Import Common.
Import ListNotations.
Local Open Scope res_scope.

Notation slash := 47%N (only parsing).
Notation dot := 46%N (only parsing).

(** The file system, as far as directories matter.  [walk d n] is the
    directory that the entry [n] of the directory [d] is or links to, if the
    entry exists, is a directory and [d] may be searched; [n] may be "." or
    "..".  [enter d]: the process may make [d] its working directory.
    [cwdname d] is the result of [getcwd] in [d]. *)
Record fs := {
  D : Type;
  same : D -> D -> bool;
  root : D;
  walk : D -> list N -> option D;
  enter : D -> bool;
  cwdname : D -> option (list N)
}.

Fixpoint drop_slashes (p : list N) : list N :=
  match p with
  | c :: p' => if (c =? slash)%N then drop_slashes p' else p
  | [] => []
  end.
(** The text before the first slash, and the rest, which begins with it. *)
Fixpoint component (p : list N) : list N * list N :=
  match p with
  | c :: p' => if (c =? slash)%N then ([], p) else let '(a, b) := component p' in (c :: a, b)
  | [] => ([], [])
  end.
Definition starts_slash (p : list N) : bool :=
  match p with c :: _ => (c =? slash)%N | [] => false end.
Definition ends_here (p : list N) : bool :=
  match p with c :: _ => (c =? slash)%N | [] => true end.

(** [not_dotdot] (path.c 1463-1468). *)
Definition not_dotdot (p : list N) : bool :=
  let p := match p with c :: p' => if (c =? slash)%N then p' else p | [] => [] end in
  negb (list_N_eqb p [dot; dot]).

(** The loop of [canonicalize_path] (path.c 1416-1457).  [out] is the text
    from [result] to [rp], [cl] the list [clist], last element first, with
    offsets for pointers, and [cap] the size of the array [result]. *)
Fixpoint canon (fuel : nat) (isdir : list N -> bool) (cap : nat)
    (path out : list N) (cl : list nat) : res (option (list N)) :=
  match fuel with
  | 0 => Fuel
  | S n =>
    if Nat.leb cap (length out) then UB
    else
      let path := drop_slashes path in
      let others :=
        let out1 := match cl with [] => out | _ => out ++ [slash] end in
        let '(comp, rest) := component path in
        canon n isdir cap rest (out1 ++ comp) (length out :: cl) in
      match path with
      | [] => Ok (Some out)
      | c :: p1 =>
        if (c =? dot)%N then
          match p1 with
          | [] => Ok (Some out)
          | c1 :: p2 =>
            if (c1 =? slash)%N then canon n isdir cap p2 out cl
            else if (c1 =? dot)%N && ends_here p2 then
              match cl with
              | prev :: cl' =>
                if not_dotdot (skipn prev out) then
                  if isdir out then canon n isdir cap p2 (firstn prev out) cl'
                  else Ok None
                else others
              | [] => others
              end
            else others
          end
        else others
      end
  end.

(** [canonicalize_path] (path.c 1396-1461). *)
Definition canonicalize_path (isdir : list N -> bool) (path : list N) : res (option (list N)) :=
  let '(p, out) :=
    match path with
    | a :: p1 =>
      if (a =? slash)%N then
        match p1 with
        | b :: p2 =>
          if (b =? slash)%N
          then (p2, if starts_slash p2 then [slash] else [slash; slash])
          else (p1, [slash])
        | [] => (p1, [slash])
        end
      else (path, [])
    | [] => (path, [])
    end in
  canon (S (S (length path))) isdir (S (length path)) p out [].

(** [starts_with_root_parent] (path.c 1485-1489). *)
Definition starts_with_root_parent (p : list N) : bool :=
  match p with
  | a :: b :: c :: p' => (a =? slash)%N && (b =? dot)%N && (c =? dot)%N && ends_here p'
  | _ => false
  end.
(** The loop of [canonicalize_path_ex] (path.c 1475-1477). *)
Fixpoint drop_parents (fuel : nat) (p : list N) : list N :=
  match fuel with
  | 0 => p
  | S n => if starts_with_root_parent p then drop_parents n (skipn 3 p) else p
  end.

(** [is_normalized_path] (path.c 213-226). *)
Fixpoint after_slash (p : list N) : option (list N) :=
  match p with
  | c :: p' => if (c =? slash)%N then Some p' else after_slash p'
  | [] => None
  end.
Definition starts_dots (p : list N) : bool :=
  match p with
  | a :: p1 =>
    (a =? dot)%N &&
    (ends_here p1 || match p1 with b :: p2 => (b =? dot)%N && ends_here p2 | [] => false end)
  | [] => false
  end.
Fixpoint is_normalized (fuel : nat) (p : list N) : res bool :=
  match fuel with
  | 0 => Fuel
  | S n =>
    match p with
    | [] => Ok true
    | _ =>
      if starts_dots p then Ok false
      else match after_slash p with
           | None => Ok true
           | Some p' => is_normalized n p'
           end
    end
  end.
Definition is_normalized_path (p : list N) : res bool := is_normalized (S (length p)) p.

(** [which] (path.c 273-307). *)
Fixpoint which_dirs (name : list N) (dirs : list (list N)) (cond : list N -> bool) :
    option (list N) :=
  match dirs with
  | [] => None
  | dir :: dirs' =>
    let path :=
      match dir with
      | [] => name
      | _ => dir ++ (if (last dir 0 =? slash)%N then [] else [slash]) ++ name
      end in
    if cond path then Some path else which_dirs name dirs' cond
  end.
Definition which (name : list N) (dirs : option (list (list N))) (cond : list N -> bool) :
    option (list N) :=
  match name with
  | [] => None
  | c :: _ =>
    if (c =? slash)%N then Some name
    else match dirs with None => None | Some dirs => which_dirs name dirs cond end
  end.

(** [matchwcsprefix] (util.c 207-215). *)
Fixpoint match_prefix (s prefix : list N) : option (list N) :=
  match prefix, s with
  | [], _ => Some s
  | a :: prefix', b :: s' => if (a =? b)%N then match_prefix s' prefix' else None
  | _, [] => None
  end.

Section Cd.
Variable F : fs.

(** Pathname resolution by the system, one component after another. *)
Fixpoint walks (d : D F) (cs : list (list N)) : option (D F) :=
  match cs with
  | [] => Some d
  | c :: cs' => match walk F d c with Some d' => walks d' cs' | None => None end
  end.
Fixpoint comps_from (cur p : list N) : list (list N) :=
  match p with
  | [] => match cur with [] => [] | _ => [cur] end
  | c :: p' =>
    if (c =? slash)%N
    then match cur with [] => comps_from [] p' | _ => cur :: comps_from [] p' end
    else comps_from (cur ++ [c]) p'
  end.
Definition comps (p : list N) : list (list N) := comps_from [] p.
Definition resolve (cwd : D F) (p : list N) : option (D F) :=
  match p with
  | [] => None
  | c :: _ => walks (if (c =? slash)%N then root F else cwd) (comps p)
  end.

(** Working directory, variables and what has been printed.  The variables
    PWD and OLDPWD are assumed not to be read-only, and conversions between
    wide and multibyte strings to succeed. *)
Record st := mkst {
  c_cwd : D F;
  c_pwd : option (list N);
  c_old : option (list N);
  c_home : option (list N);
  c_cdpath : option (list (list N));
  c_out : list (list N)
}.
Definition set_pwd (p : list N) (s : st) : st :=
  mkst (c_cwd s) (Some p) (c_old s) (c_home s) (c_cdpath s) (c_out s).
Definition set_old (p : list N) (s : st) : st :=
  mkst (c_cwd s) (c_pwd s) (Some p) (c_home s) (c_cdpath s) (c_out s).
Definition set_cwd (d : D F) (s : st) : st :=
  mkst d (c_pwd s) (c_old s) (c_home s) (c_cdpath s) (c_out s).
Definition print (p : list N) (s : st) : st :=
  mkst (c_cwd s) (c_pwd s) (c_old s) (c_home s) (c_cdpath s) (c_out s ++ [p]).

Definition Exit_SUCCESS : N := 0.
Definition Exit_FAILURE : N := 1.
Definition Exit_ERROR : N := 2.

(** [is_directory] (path.c 188-192). *)
Definition is_directory (s : st) (p : list N) : bool :=
  match resolve (c_cwd s) p with Some _ => true | None => false end.

Definition chdir (p : list N) (s : st) : option st :=
  match resolve (c_cwd s) p with
  | Some d => if enter F d then Some (set_cwd d s) else None
  | None => None
  end.

(** [canonicalize_path_ex] (path.c 1472-1482): the root directory and its
    parent are compared with [is_same_file] (path.c 203-208). *)
Definition canonicalize_path_ex (p : list N) : list N :=
  if starts_with_root_parent p
     && match resolve (root F) [slash; dot; dot] with
        | Some d => same F (root F) d
        | None => false
        end
  then match drop_parents (length p) p with [] => [slash] | q => q end
  else p.

(** Steps 3 to 6 of [change_directory] (path.c 1252-1294): the path, and
    whether it was found in $CDPATH. *)
Definition search (s : st) (newpwd : list N) : list N * bool :=
  if starts_slash newpwd then (newpwd, false)
  else if starts_dots newpwd then (newpwd, false)
  else
    match which newpwd (Some (match c_cdpath s with Some l => l | None => [[]] end))
            (is_directory s) with
    | Some path => (path, negb (list_N_eqb newpwd path))
    | None => (newpwd, false)
    end.

(** Steps 7 and 9 of [change_directory] (path.c 1296-1306, 1320-1335). *)
Definition absolute (orig p : list N) : list N :=
  if starts_slash p then p
  else orig ++ (match orig with
                | [] => [slash]
                | _ => if (last orig 0 =? slash)%N then [] else [slash]
                end) ++ p.
Definition relative (orig p : list N) : res (list N) :=
  match drop_slashes orig with
  | [] => Ok p
  | _ =>
    match match_prefix p orig with
    | None => Ok p
    | Some q =>
      if starts_slash q then
        let q := tl q in
        if starts_slash q then UB else Ok q
      else if (last orig 0 =? slash)%N then Ok q
      else Ok p
    end
  end.

(** [change_directory] (path.c 1218-1386), [origpwd == newpwd] being false (as
    it is when called by [cd_builtin]); [$YASH_AFTER_CD] is not executed. *)
Definition change_directory (posix : bool) (s : st) (newpwd : list N)
    (printnewdir logical : bool) : res (st * N) :=
  let go (s : st) (orig : option (list N)) : res (st * N) :=
    if logical && match orig with None => true | _ => false end then UB
    else if match orig with Some p => negb (starts_slash p) | None => false end then UB
    else
      let '(p, found) := search s newpwd in
      let printnewdir := printnewdir || found in
      let finish (s : st) : st :=
        match orig with Some o => set_old o s | None => s end in
      if logical then
        match orig with
        | None => UB
        | Some o =>
          let! canon := canonicalize_path (is_directory s) (absolute o p) in
          match canon with
          | None => Ok (s, Exit_FAILURE)
          | Some q =>
            let! r := relative o q in
            match chdir r s with
            | None => Ok (s, Exit_FAILURE)
            | Some s1 =>
              let q := if posix then q else canonicalize_path_ex q in
              let s2 := finish s1 in
              Ok (set_pwd q (if printnewdir then print q s2 else s2), Exit_SUCCESS)
            end
          end
        end
      else
        match chdir p s with
        | None => Ok (s, Exit_FAILURE)
        | Some s1 =>
          let s2 := finish s1 in
          match cwdname F (c_cwd s2) with
          | None => Ok (s2, Exit_SUCCESS)
          | Some q => Ok (set_pwd q (if printnewdir then print q s2 else s2), Exit_SUCCESS)
          end
        end in
  match c_pwd s with
  | Some p =>
    if starts_slash p then go s (Some p)
    else
      match cwdname F (c_cwd s) with
      | None => if logical then Ok (s, Exit_FAILURE) else go s (Some p)
      | Some w => go (set_pwd w s) (Some w)
      end
  | None =>
    match cwdname F (c_cwd s) with
    | None => if logical then Ok (s, Exit_FAILURE) else go s None
    | Some w => go (set_pwd w s) (Some w)
    end
  end.

(** [cd_builtin] (path.c 1162-1209), options having been parsed. *)
Definition cd_builtin (posix logical : bool) (operand : option (list N)) (s : st) : res (st * N) :=
  match operand with
  | None =>
    match c_home s with
    | Some (c :: h) => change_directory posix s (c :: h) false logical
    | _ => Ok (s, Exit_FAILURE)
    end
  | Some o =>
    if list_N_eqb o (str "-") then
      match c_old s with
      | Some (c :: h) => change_directory posix s (c :: h) true logical
      | _ => Ok (s, Exit_FAILURE)
      end
    else change_directory posix s o false logical
  end.

(** [pwd_builtin] (path.c 1504-1548), options having been parsed. *)
Definition pwd_builtin (logical : bool) (s : st) : res (st * N) :=
  let physical :=
    match cwdname F (c_cwd s) with
    | None => Ok (s, Exit_FAILURE)
    | Some p => Ok (print p s, Exit_SUCCESS)
    end in
  if logical then
    match c_pwd s with
    | Some p =>
      if starts_slash p then
        let! b := is_normalized_path p in
        if b && match resolve (c_cwd s) p, resolve (c_cwd s) [dot] with
                | Some d, Some d' => same F d d'
                | _, _ => false
                end
        then Ok (print p s, Exit_SUCCESS)
        else physical
      else physical
    | None => physical
    end
  else physical.

End Cd.
Arguments c_cwd {F}.
Arguments c_pwd {F}.
Arguments c_old {F}.
Arguments c_home {F}.
Arguments c_cdpath {F}.
Arguments c_out {F}.
Arguments set_pwd {F}.
Arguments set_old {F}.
Arguments set_cwd {F}.
Arguments print {F}.
Arguments walks {F}.
Arguments resolve {F}.
Arguments mkst {F}.
Arguments is_directory {F}.
Arguments chdir {F}.
Arguments search {F}.
Arguments change_directory {F}.
Arguments cd_builtin {F}.
Arguments pwd_builtin {F}.
