(** Character classification (the <wctype.h> functions the shell uses) as a
    parameter of the models.  [iswdigit] is fixed by the C standard to the ten
    ASCII digits; the other classes are locale-dependent and only constrained by
    [locale_ok]. *)
From Coq Require Import List NArith Bool Lia.
From Coq Require Import ZifyBool ZifyN.
From Verif Require Import Common.
Import ListNotations.
Local Open Scope N_scope.

Definition iswdigit (c : N) : bool := (48 <=? c) && (c <=? 57).
Definition ascii_lower (c : N) : bool := (97 <=? c) && (c <=? 122).
Definition ascii_upper (c : N) : bool := (65 <=? c) && (c <=? 90).
Definition ascii_alpha (c : N) : bool := ascii_lower c || ascii_upper c.

Record locale := mkLocale {
  iswspace : N -> bool;
  iswblank : N -> bool;
  iswalpha : N -> bool }.

(** C11 7.30.2.1.1: iswalnum is the union of iswalpha and iswdigit. *)
Definition iswalnum (L : locale) (c : N) : bool := iswalpha L c || iswdigit c.

(** What every locale guarantees: for the ASCII range the classes are those of
    the C locale (POSIX portable character set), blanks are spaces, and spaces
    and alphanumerics are disjoint. *)
Definition c_space (c : N) : bool := (c =? 32) || ((9 <=? c) && (c <=? 13)).
Definition c_blank (c : N) : bool := (c =? 32) || (c =? 9).

Record locale_ok (L : locale) : Prop := {
  lk_space : forall c, c < 128 -> iswspace L c = c_space c;
  lk_blank : forall c, c < 128 -> iswblank L c = c_blank c;
  lk_alpha : forall c, c < 128 -> iswalpha L c = ascii_alpha c;
  lk_blank_space : forall c, iswblank L c = true -> iswspace L c = true;
  lk_disjoint : forall c, iswspace L c = true -> iswalpha L c = false }.

Definition c_locale : locale := mkLocale c_space c_blank ascii_alpha.

Lemma c_locale_ok : locale_ok c_locale.
Proof.
  constructor; cbn; auto; intros c; unfold c_blank, c_space, ascii_alpha, ascii_lower, ascii_upper; lia.
Qed.

(** A locale with a non-ASCII letter and a non-ASCII space. *)
Definition wide_locale : locale :=
  mkLocale (fun c => c_space c || (c =? 12288)) c_blank (fun c => ascii_alpha c || (c =? 12354)).
Lemma wide_locale_ok : locale_ok wide_locale.
Proof.
  constructor; cbn; intros c; unfold c_blank, c_space, ascii_alpha, ascii_lower, ascii_upper; lia.
Qed.
