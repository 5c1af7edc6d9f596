(** Specification of redirections on descriptor tables. *)
From Coq Require Import Ascii String.
From Coq Require Import List NArith ZArith Bool.
From Verif Require Import Common Locale NumModel RedirModel.
Import ListNotations.
Open Scope Z_scope.

(** Which open file a descriptor refers to, if any *)
Definition file_at (s : st) (fd : Z) : option file := option_map fst (tbl s fd).
(** The descriptors the user sees: those the shell keeps for itself count as closed. *)
Definition visible (s : st) (fd : Z) : option file := if shellfds s fd then None else file_at s fd.
Definition same {A} (t t' : Z -> A) : Prop := forall fd, t fd = t' fd.
Definition change {A} (t : Z -> A) (k : Z) (v : A) (t' : Z -> A) : Prop := t' k = v /\ forall fd, fd <> k -> t' fd = t fd.

Section Spec.
(** The number a text stands for *)
Variable number : list N -> option Z.

(** What one redirection does to the table *)
Inductive effect (r : redir) (t t' : Z -> option file) : Prop :=
| eff_file f : In (rd_type r) [RT_INPUT; RT_OUTPUT; RT_CLOBBER; RT_APPEND; RT_INOUT; RT_HERE; RT_HERESTR; RT_PROCIN; RT_PROCOUT] ->
    change t (rd_fd r) (Some f) t' -> effect r t t'
| eff_close : In (rd_type r) [RT_DUPIN; RT_DUPOUT] -> rd_arg r = Some (str "-") ->
    change t (rd_fd r) None t' -> effect r t t'
| eff_copy text m f : In (rd_type r) [RT_DUPIN; RT_DUPOUT] -> rd_arg r = Some text -> number text = Some m -> t m = Some f ->
    change t (rd_fd r) (Some f) t' -> effect r t t'
(* copying a closed descriptor to itself is accepted *)
| eff_self text : In (rd_type r) [RT_DUPIN; RT_DUPOUT] -> rd_arg r = Some text -> number text = Some (rd_fd r) -> t (rd_fd r) = None ->
    same t t' -> effect r t t'
| eff_pipe text m u f1 f2 : rd_type r = RT_PIPE -> rd_arg r = Some text -> number text = Some m -> m <> rd_fd r ->
    change t m (Some f1) u -> change u (rd_fd r) (Some f2) t' -> effect r t t'.
(** Redirections take effect from left to right. *)
Inductive effects : list redir -> (Z -> option file) -> (Z -> option file) -> Prop :=
| effs_nil t t' : same t t' -> effects [] t t'
| effs_cons r l t u t' : effect r t u -> effects l u t' -> effects (r :: l) t t'.
(** The descriptors that a redirection is about *)
Definition targets (r : redir) : list Z :=
  rd_fd r :: match rd_type r, rd_arg r with RT_PIPE, Some text => match number text with Some m => [m] | None => [] end | _, _ => [] end.
(** and the one it copies *)
Definition source (r : redir) : option Z :=
  match rd_type r, rd_arg r with (RT_DUPIN | RT_DUPOUT), Some text => number text | _, _ => None end.
End Spec.

(** A consistent process: descriptors are in range; those of the shell are open, closed on
    exec, at least [min], and shellfdmax is the highest. *)
Definition consistent (open_max min : Z) (s : st) : Prop :=
  (forall fd, tbl s fd <> None -> 0 <= fd < open_max) /\
  (forall fd, shellfds s fd = true -> min <= fd <= shellfdmax s /\ exists f, tbl s fd = Some (f, true)) /\
  (shellfdmax s = -1 \/ shellfds s (shellfdmax s) = true).
