(** Which pathnames a pattern denotes. *)
From Coq Require Import Ascii String.
From Coq Require Import List NArith Bool Arith.
From Verif Require Import Common GlobModel.
From Verif Require Regex XfnmatchSpec.
Import ListNotations.

(** Directories on the way, the last first; the path of a directory ends with
    a slash. *)
Fixpoint dir_path (dirs : list (list N)) : list N :=
  match dirs with
  | [] => []
  | d :: dirs' => dir_path dirs' ++ d ++ [slash]
  end.
Fixpoint names_text (ns : list (list N)) : list N :=
  match ns with
  | [] => []
  | [n] => n
  | n :: ns' => n ++ slash :: names_text ns'
  end.

Section Glob.
Variable V : files.

Definition info (follow : bool) (p : list N) : option (N * bool) := if follow then stat V p else lstat V p.
Definition file (follow : bool) (p : list N) : option N := option_map fst (info follow p).
(** The file of the directory last entered. *)
Definition last_file (follow : bool) (dirs : list (list N)) : option N :=
  match dirs with [] => None | d :: dirs' => file follow (dir_path dirs' ++ d) end.

(** Names a recursive component passes over: dot and dot-dot and, unless it begins with
    a period itself, all names that do. *)
Definition unseen (period : bool) (n : list N) : bool :=
  match n with
  | [46%N] | [46%N; 46%N] => true
  | 46%N :: _ => negb period
  | _ => false
  end.

(** [matches strict cs dirs run ns]: the names [ns] match the components [cs] in
    the directory [dirs], into whose last [run] directories the first of the
    components, a recursive one, has led.  A recursive component matches any
    number of directories, which have names that are not hidden and, if
    [strict], are all different. *)
Inductive matches (strict : bool) : list comp -> list (list N) -> nat -> list (list N) -> Prop :=
  | m_lit_last l dirs run : matches strict [Lit l] dirs run [l]
  | m_lit l cs dirs run ns : cs <> [] -> matches strict cs (l :: dirs) 0 ns ->
      matches strict (Lit l :: cs) dirs run (l :: ns)
  | m_pat_last f n dirs run : n <> [] -> f n = true -> matches strict [Pat f] dirs run [n]
  | m_pat f n cs dirs run ns : n <> [] -> f n = true -> cs <> [] ->
      matches strict cs (n :: dirs) 0 ns -> matches strict (Pat f :: cs) dirs run (n :: ns)
  | m_none fl ap cs dirs run ns : matches strict cs dirs 0 ns -> matches strict (Rec fl ap :: cs) dirs run ns
  | m_dir fl ap cs n ino dirs run ns :
      n <> [] -> unseen ap n = false -> info fl (dir_path dirs ++ n) = Some (ino, true) ->
      (strict = true -> forall k, k < run -> last_file fl (skipn k dirs) <> Some ino) ->
      matches strict (Rec fl ap :: cs) (n :: dirs) (S run) ns ->
      matches strict (Rec fl ap :: cs) dirs run (n :: ns).

(** A name that can be seen. *)
Definition listed (dirs : list (list N)) (n : list N) : Prop :=
  exists names, opendir V (match dir_path dirs with [] => str "." | p => p end) = Some names /\ In n names.

(** [reachable cs dirs ns]: the names [ns] match and a search would come upon
    them, directories being readable where patterns have to be matched. *)
Inductive reachable : list comp -> list (list N) -> list (list N) -> Prop :=
  | r_lit_last l dirs : reachable [Lit l] dirs [l]
  | r_lit l cs dirs ns : cs <> [] -> reachable cs (l :: dirs) ns -> reachable (Lit l :: cs) dirs (l :: ns)
  | r_pat_last f n dirs : n <> [] -> f n = true -> listed dirs n -> reachable [Pat f] dirs [n]
  | r_pat f n cs dirs ns : n <> [] -> f n = true -> listed dirs n -> cs <> [] ->
      reachable cs (n :: dirs) ns -> reachable (Pat f :: cs) dirs (n :: ns)
  | r_none fl ap cs dirs ns : reachable cs dirs ns -> reachable (Rec fl ap :: cs) dirs ns
  | r_dir fl ap cs n ino dirs ns :
      n <> [] -> unseen ap n = false -> info fl (dir_path dirs ++ n) = Some (ino, true) -> listed dirs n ->
      reachable (Rec fl ap :: cs) (n :: dirs) ns -> reachable (Rec fl ap :: cs) dirs (n :: ns).

(** How a result is written: with MARK, a directory found by a pattern gets a
    slash. *)
Definition shown (cs : list comp) (mark : bool) (ns : list (list N)) : list N :=
  let p := names_text ns in
  match last cs (Lit []) with
  | Pat _ => if mark && match stat V p with Some (_, d) => d | None => false end then p ++ [slash] else p
  | _ => p
  end.

(** A result names a file: it exists, or a directory lists it (such as a
    dangling symbolic link). *)
Definition is_file (ns : list (list N)) : Prop :=
  stat V (names_text ns) <> None \/
  exists dirs n, ns = rev (n :: dirs) /\ listed dirs n.

(** What exists is listed in the directory it is in, if that is readable. *)
Definition consistent : Prop :=
  forall dirs n r names, n <> [] -> ~ In slash n ->
    stat V (dir_path dirs ++ n ++ r) <> None -> (r = [] \/ exists r', r = slash :: r') ->
    opendir V (match dir_path dirs with [] => str "." | p => p end) = Some names -> In n names.
(** No directory is met twice on the way [ns]. *)
Definition no_cycle (ns : list (list N)) : Prop :=
  forall i j f g a, i < j -> j <= length ns ->
    last_file f (rev (firstn i ns)) = Some a -> last_file g (rev (firstn j ns)) <> Some a.
(** The names in a directory are different; they are not empty and do not
    contain slashes. *)
Definition well_listed : Prop :=
  forall d names, opendir V d = Some names -> NoDup names /\ Forall (fun n => n <> [] /\ ~ In slash n) names.
End Glob.

(** A recursive component is followed by another component. *)
Fixpoint proper (cs : list comp) : Prop :=
  match cs with
  | [] => False
  | [Rec _ _] => False
  | [_] => True
  | _ :: cs' => proper cs'
  end.
Definition same_links (b : bool) (cs : list comp) : Prop :=
  Forall (fun c => match c with Rec fl _ => fl = b | _ => True end) cs.

(** The text of a pattern: pieces separated by slashes. *)
Definition pieces (p : list N) (ps : list (list N)) : Prop :=
  ps <> [] /\ names_text ps = p /\ Forall (fun x => ~ In slash x) ps.
(** The pieces that search recursively: following symbolic links, and entering
    directories whose names begin with a period. *)
Definition recursive (p : list N) (follow dots : bool) : Prop :=
  p = (if dots then str "." else []) ++ str "**" ++ (if follow then str "*" else []).
Definition opens_dot (s : list N) : Prop := exists s', s = dot :: s'.

(** [means C fl ps cs]: the components [cs] are what the pieces [ps] mean.  The
    languages of patterns are defined in XfnmatchSpec.v. *)
Inductive means (C : Regex.ctype) (fl : wflags) : list (list N) -> list comp -> Prop :=
  | mn_nil : means C fl [] []
  | mn_rec p ps cs follow dots : wglb_recdir fl = true -> ps <> [] -> recursive p follow dots ->
      means C fl ps cs -> means C fl (p :: ps) (Rec follow dots :: cs)
  | mn_lit p ps cs l : (wglb_recdir fl = true -> ps <> [] -> forall a b, ~ recursive p a b) ->
      (forall s, XfnmatchSpec.pmatch C false p s <-> s = l) ->
      means C fl ps cs -> means C fl (p :: ps) (Lit l :: cs)
  | mn_pat p ps cs f : (wglb_recdir fl = true -> ps <> [] -> forall a b, ~ recursive p a b) ->
      (forall s, f s = true <-> XfnmatchSpec.pmatch C (wglb_casefold fl) p s /\
                                (wglb_period fl = false -> opens_dot s -> XfnmatchSpec.leading_dot p)) ->
      means C fl ps cs -> means C fl (p :: ps) (Pat f :: cs).
