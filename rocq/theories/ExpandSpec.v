(** Specification of words and their expansion, by the structure of the quoting. *)
From Coq Require Import Ascii String.
From Coq Require Import List NArith ZArith Bool Arith.
From Verif Require Import Common Locale CharcatModel ExpandModel.
Import ListNotations.

(** ** Words *)

(** What may stand between double quotes: a character, an escaped character, a
    backslash that does not escape the character after it, an expansion *)
Inductive dpart := DChar (c : N) | DEsc (c : N) | DBack (c : N) | DUnit (u : wunit).
(** The parts of a word: an unquoted character, an escaped one, a single-quoted text, a
    double-quoted list of parts, an unquoted expansion *)
Inductive part := PBare (c : N) | PEsc (c : N) | PSingle (s : list N) | PDouble (l : list dpart) | PUnit (u : wunit).

Definition dquote : N := 34%N.
Definition squote : N := 39%N.
Definition bslash : N := 92%N.
(** The characters that a backslash escapes between double quotes: dollar, backquote,
    double quote, backslash *)
Definition dq_escapable (c : N) : Prop := In c [36; 96; 34; 92]%N.
Definition expansion (u : wunit) : Prop := match u with WString _ => False | _ => True end.

Definition wf_dpart (d : dpart) : Prop :=
  match d with
  | DChar c => c <> dquote /\ c <> bslash
  | DEsc c => dq_escapable c
  | DBack c => ~ dq_escapable c
  | DUnit u => expansion u
  end.
Definition wf_part (p : part) : Prop :=
  match p with
  | PBare c => c <> dquote /\ c <> squote /\ c <> bslash
  | PEsc _ => True
  | PSingle s => ~ In squote s
  | PDouble l => Forall wf_dpart l
  | PUnit u => expansion u
  end.

(** How parts are written: characters and expansions *)
Definition tok := (N + wunit)%type.
Definition chars (s : list N) : list tok := map inl s.
Definition dtoks (d : dpart) : list tok :=
  match d with
  | DChar c => chars [c]
  | DEsc c | DBack c => chars [bslash; c]
  | DUnit u => [inr u]
  end.
Definition toks (p : part) : list tok :=
  match p with
  | PBare c => chars [c]
  | PEsc c => chars [bslash; c]
  | PSingle s => chars (squote :: s ++ [squote])
  | PDouble l => chars [dquote] ++ flat_map dtoks l ++ chars [dquote]
  | PUnit u => [inr u]
  end.
(** The word units the parser makes: maximal runs of characters *)
Definition add_char (c : N) (w : list wunit) : list wunit :=
  match w with WString s :: w' => WString (c :: s) :: w' | _ => WString [c] :: w end.
Fixpoint build (ts : list tok) : list wunit :=
  match ts with
  | [] => []
  | inl c :: ts' => add_char c (build ts')
  | inr u :: ts' => u :: build ts'
  end.
Definition word (ps : list part) : list wunit := build (flat_map toks ps).

(** ** Fields *)

(** Juxtaposition: the last field of the first list and the first of the second become
    one.  No fields at all is neutral. *)
Definition glue {A} (a b : list (list A)) : list (list A) :=
  match a, b with
  | [], _ => b
  | _, [] => a
  | _, x :: b' => removelast a ++ (last a [] ++ x) :: b'
  end.
Definition glue_all {A} (l : list (list (list A))) : list (list A) := fold_right glue [] l.

(** Expansions between double quotes that amount to nothing at all: one of them
    has no fields and the others are empty. *)
Definition null {A} (l : list A) : bool := match l with [] => true | _ => false end.
Definition vanishes {A} (cs : list (list (list A))) : bool :=
  existsb null cs && match glue_all cs with [] | [[]] => true | _ => false end.

(** Categories: unquoted literal, quoted literal, quotation mark *)
Definition qlit : cat := mkCat Literal true false.
Definition qmark : cat := mkCat Literal false true.

(** A character that is neither split, nor brace-expanded, nor a pattern *)
Definition protected (x : cell) : Prop := quoted (snd x) = true \/ quotation (snd x) = true.
(** What is left after quote removal *)
Definition visible (f : list cell) : list N := map fst (filter (fun x => negb (quotation (snd x))) f).

(** ** The fields of a word before splitting, given those of its expansions *)
Section Fields.
Variable W : world.
(** The fields of an expansion, outside (false) and inside (true) double quotes *)
Variable unit_fields : wunit -> bool -> M W (list (list cell)).
(** The category of the unquoted characters of the word *)
Variable dc : cat.

Definition dpart_fields (d : dpart) : M W (list (list cell)) :=
  match d with
  | DChar c => ret W [[(c, set_quoted dc)]]
  | DEsc c => ret W [[(bslash, set_quotation dc); (c, set_quoted dc)]]
  | DBack c => ret W [[(bslash, set_quoted dc); (c, set_quoted dc)]]
  | DUnit u => unit_fields u true
  end.
Fixpoint dparts_fields (l : list dpart) : M W (list (list (list cell))) :=
  match l with
  | [] => ret W []
  | d :: l' => bind W (dpart_fields d) (fun c => bind W (dparts_fields l') (fun cs => ret W (c :: cs)))
  end.
Definition in_quotes (q : N) (fields : list (list cell)) : list (list cell) :=
  glue [[(q, set_quotation dc)]] (glue fields [[(q, set_quotation dc)]]).

(** [acc]: the fields of the parts before; [zero]: one of them expanded to no fields *)
Fixpoint parts_fields (ps : list part) (acc : list (list cell)) (zero : bool) : M W (list (list cell)) :=
  match ps with
  | [] => ret W (match zero, acc with true, [[]] => [] | _, _ => acc end)
  | p :: ps' =>
    match p with
    | PBare c => parts_fields ps' (glue acc [[(c, dc)]]) zero
    | PEsc c => parts_fields ps' (glue acc [[(bslash, set_quotation dc); (c, set_quoted dc)]]) zero
    | PSingle s => parts_fields ps' (glue acc (in_quotes squote [cells (set_quoted dc) s])) zero
    | PDouble l =>
      bind W (dparts_fields l) (fun cs =>
      match vanishes cs, acc with
      | true, [[]] => parts_fields ps' [[]] true
      | _, _ => parts_fields ps' (glue acc (in_quotes dquote (glue_all cs))) zero
      end)
    | PUnit u => bind W (unit_fields u false) (fun c => parts_fields ps' (glue acc c) (zero || null c))
    end
  end.
(** The user name after an unquoted tilde at the start of a word: up to a slash or the
    end of the word, without quotes or expansions *)
Fixpoint bare_prefix (ps : list part) : list N * list part :=
  match ps with
  | PBare c :: ps' => if (c =? 47)%N then ([], ps) else let (u, r) := bare_prefix ps' in (c :: u, r)
  | _ => ([], ps)
  end.
Definition tilde_prefix (ps : list part) : option (list N * list part) :=
  match ps with
  | PBare c :: ps' =>
    if (c =? 126)%N then
      let (u, r) := bare_prefix ps' in
      match r with [] | PBare _ :: _ => Some (u, r) | _ => None end
    else None
  | _ => None
  end.
Definition word_fields (tilde : bool) (ps : list part) : M W (list (list cell)) := fun e =>
  match (if tilde then tilde_prefix ps else None) with
  | Some (user, rest) =>
    match tilde_home W e user with
    | Some home => parts_fields rest [cells cc_hard home] false e
    | None => parts_fields ps [[]] false e
    end
  | None => parts_fields ps [[]] false e
  end.
End Fields.

(** ** The texts of a word without unquoted expansions *)
Section Texts.
Variable W : world.
(** The values of an expansion between double quotes *)
Variable values : wunit -> M W (list (list N)).

Definition dpart_texts (d : dpart) : M W (list (list N)) :=
  match d with
  | DChar c | DEsc c => ret W [[c]]
  | DBack c => ret W [[bslash; c]]
  | DUnit u => values u
  end.
Fixpoint dparts_texts (l : list dpart) : M W (list (list N) * bool) :=
  match l with
  | [] => ret W ([], false)
  | d :: l' => bind W (dpart_texts d) (fun c => bind W (dparts_texts l') (fun '(t, z) => ret W (glue c t, null c || z)))
  end.
(** The values in the order they are written, the last of each glued to the first of
    the next, and whether an expansion had no value at all *)
Definition part_texts (p : part) : M W (list (list N) * bool) :=
  match p with
  | PBare c | PEsc c => ret W ([[c]], false)
  | PSingle s => ret W ([s], false)
  | PDouble l => bind W (dparts_texts l) (fun '(t, z) => ret W (glue [[]] t, z))
  | PUnit u => fail W
  end.
Fixpoint parts_texts (ps : list part) : M W (list (list N) * bool) :=
  match ps with
  | [] => ret W ([], false)
  | p :: ps' => bind W (part_texts p) (fun '(t, z) => bind W (parts_texts ps') (fun '(t', z') => ret W (glue t t', z || z')))
  end.
(** A tilde prefix is replaced by the home directory. *)
Definition word_texts (ps : list part) : M W (list (list N) * bool) := fun e =>
  match tilde_prefix ps with
  | Some (user, rest) =>
    match tilde_home W e user with
    | Some home => bind W (parts_texts rest) (fun '(t, z) => ret W (glue [home] t, z)) e
    | None => parts_texts ps e
    end
  | None => parts_texts ps e
  end.
End Texts.

(** ** Well-formed expansions

    The words inside are well formed too; those of an arithmetic expansion may have any
    characters.  Expansions with patterns are left out. *)
Definition no_pattern (ty : pexp) : Prop := match ty with PT_MATCH _ _ _ | PT_SUBST _ _ _ => False | _ => True end.
Inductive good : wunit -> Prop :=
| good_cmdsub k : good (WCmdsub k)
| good_arith w : (forall u, In u w -> expansion u -> good u) -> good (WArith w)
| good_name number colon ty name start end_ match_ subst : no_pattern ty ->
    good_word start -> good_word end_ -> good_word match_ -> good_word subst ->
    good (WParam number colon ty (inl name) start end_ match_ subst)
| good_nest number colon ty w start end_ match_ subst : no_pattern ty ->
    good_word w -> good_word start -> good_word end_ -> good_word match_ -> good_word subst ->
    good (WParam number colon ty (inr w) start end_ match_ subst)
with good_word : list wunit -> Prop :=
| good_parts ps : Forall wf_part ps -> (forall u, In u (word ps) -> expansion u -> good u) -> good_word (word ps).

(** ** Strings in C contain no null characters. *)
Definition nonzero (s : list N) : Prop := Forall (fun c => c <> 0%N) s.
Definition clean_world (W : world) : Prop := forall e,
  (forall n, match get_variable W e n with GVNot => True | GVScalar s => nonzero s | GVArray l | GVConcat l => Forall nonzero l end) /\
  (forall s, getifs W e = Some s -> nonzero s) /\
  (forall k s e', exec_cmdsub W e k = (Some s, e') -> nonzero s) /\
  (forall x s e', evaluate_arithmetic W e x = (Some s, e') -> nonzero s) /\
  (forall u s, tilde_home W e u = Some s -> nonzero s).
Fixpoint clean (u : wunit) : Prop :=
  let all w := fold_right and True (map clean w) in
  match u with
  | WString s => nonzero s
  | WCmdsub _ => True
  | WArith w => all w
  | WParam _ _ _ param start end_ match_ subst => match param with inl _ => True | inr w => all w end /\ all start /\ all end_ /\ all match_ /\ all subst
  end.
