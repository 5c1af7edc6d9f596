(** Characters with their categories: the strings that word expansion passes
    from one step to the next. *)
From Coq Require Import List NArith Bool.
From Verif Require Import Common.
Import ListNotations.

(** expand.h:53-62 [charcategory_T]: an origin and two modifier flags. *)
Inductive origin := Literal | Hard | Soft.
Record cat := mkCat { org : origin; quoted : bool; quotation : bool }.

Definition cc_lit := mkCat Literal false false.
Definition cc_hard := mkCat Hard false false.
Definition cc_soft := mkCat Soft false false.
Definition set_quoted (c : cat) : cat := mkCat (org c) true (quotation c).
Definition set_quotation (c : cat) : cat := mkCat (org c) (quoted c) true.

Definition origin_eqb (a b : origin) : bool :=
  match a, b with Literal, Literal | Hard, Hard | Soft, Soft => true | _, _ => false end.
Definition cat_eqb (a b : cat) : bool :=
  origin_eqb (org a) (org b) && Bool.eqb (quoted a) (quoted b) && Bool.eqb (quotation a) (quotation b).

Lemma cat_eqb_eq a b : cat_eqb a b = true <-> a = b.
Proof.
  destruct a as [o q r], b as [o' q' r']. unfold cat_eqb. cbn [org quoted quotation].
  destruct o, o', q, q', r, r'; cbn; split; intros H; try reflexivity; try discriminate; try congruence.
Qed.

(** A string and its category string, which the code keeps as two arrays of the
    same length (struct cc_word_T, expand.h:80-83), as one list of cells. *)
Notation cell := (N * cat)%type (only parsing).
Definition text (w : list cell) : list N := map fst w.
Definition cells (c : cat) (s : list N) : list cell := map (fun x => (x, c)) s.
(** No character is the null character (it would end the string). *)
Definition nonull (w : list cell) : Prop := Forall (fun x => fst x <> 0%N) w.

Lemma text_cells c s : text (cells c s) = s.
Proof. unfold text, cells. rewrite map_map. cbn. apply map_id. Qed.
Lemma text_app a b : text (a ++ b) = text a ++ text b.
Proof. apply map_app. Qed.
Lemma cells_app c a b : cells c (a ++ b) = cells c a ++ cells c b.
Proof. apply map_app. Qed.
