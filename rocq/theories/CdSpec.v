(** What canonicalization of a path means, component by component. *)
From Coq Require Import Ascii String.
From Coq Require Import List NArith Bool Arith.
From Verif Require Import Common CdModel.
Import ListNotations.

(** A name of a directory entry: not empty and without slashes. *)
Definition name (c : list N) : Prop := c <> [] /\ ~ In slash c.

Fixpoint join (cs : list (list N)) : list N :=
  match cs with
  | [] => []
  | [c] => c
  | c :: cs' => c ++ slash :: join cs'
  end.

Definition is_dot (c : list N) : bool := list_N_eqb c (str ".").
Definition is_dotdot (c : list N) : bool := list_N_eqb c (str "..").

(** "." is dropped; ".." takes away the component before it, which must be a
    directory, unless there is none or it is ".." itself. *)
Inductive collapse (isdir : list (list N) -> bool) : list (list N) -> list (list N) -> option (list (list N)) -> Prop :=
  | col_nil st : collapse isdir st [] (Some st)
  | col_dot st cs r : collapse isdir st cs r -> collapse isdir st (str "." :: cs) r
  | col_pop st c cs r : c <> str ".." -> isdir (st ++ [c]) = true ->
      collapse isdir st cs r -> collapse isdir (st ++ [c]) (str ".." :: cs) r
  | col_fail st c cs : c <> str ".." -> isdir (st ++ [c]) = false ->
      collapse isdir (st ++ [c]) (str ".." :: cs) None
  | col_up st cs r : (forall st' c, st = st' ++ [c] -> c = str "..") ->
      collapse isdir (st ++ [str ".."]) cs r -> collapse isdir st (str ".." :: cs) r
  | col_push st c cs r : c <> str "." -> c <> str ".." ->
      collapse isdir (st ++ [c]) cs r -> collapse isdir st (c :: cs) r.

(** The slashes a path begins with: two are kept, three or more count as one. *)
Fixpoint slashes (p : list N) : nat :=
  match p with c :: p' => if (c =? slash)%N then S (slashes p') else 0 | [] => 0 end.
Definition lead (p : list N) : list N :=
  match slashes p with 0 => [] | 2 => str "//" | _ => str "/" end.

(** A normal path: no empty, "." or ".." components. *)
Definition normal (p : list N) : Prop :=
  exists l cs, (l = str "/" \/ l = str "//") /\ p = l ++ join cs /\
    Forall (fun c => name c /\ c <> str "." /\ c <> str "..") cs.

(** Facts about file systems that some theorems need. *)
Record fs_ok (F : fs) : Prop := {
  ok_same : forall d d', same F d d' = true -> d = d';
  ok_refl : forall d, same F d d = true;
  ok_cwdname : forall d p, cwdname F d = Some p -> normal p /\ resolve d p = Some d;
  ok_dot : forall d d', walk F d (str ".") = Some d' -> d' = d
}.
(** Without symbolic links: the parent of a subdirectory is the directory it
    is in. *)
Definition tree (F : fs) : Prop :=
  forall d c d' d'', c <> str "." -> c <> str ".." ->
    walk F d c = Some d' -> walk F d' (str "..") = Some d'' -> d'' = d.

(** $PWD names the working directory. *)
Definition names {F} (s : st F) : Prop :=
  exists p, c_pwd s = Some p /\ starts_slash p = true /\ resolve (c_cwd s) p = Some (c_cwd s).
