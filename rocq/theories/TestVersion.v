(** Comparison of version numbers. *)
From Coq Require Import Ascii String.
From Coq Require Import List NArith ZArith Bool Lia Arith.
From Coq Require Import ZifyBool ZifyN.
From Verif Require Import Common Locale NumModel NumProofs TestModel TestSpec TestPrim.
Import ListNotations.
Local Open Scope Z_scope.

(** The sign of a comparison result. *)
Definition sign (c : Z) : comparison := (c ?= 0).

(** A collation order in which the first character decides: that of the POSIX
    locale, where strings are compared by the codes of their characters. *)
Definition coll_first (coll : list N -> list N -> Z) : Prop :=
  (forall d r, coll [] (d :: r) < 0) /\
  (forall c l, coll (c :: l) [] > 0) /\
  (forall c l d r, c <> d -> sign (coll (c :: l) (d :: r)) = (c ?= d)%N).

(** Numbers are compared up to the largest value of uintmax_t. *)
Definition sat (t : token) : token :=
  match t with TNum n => TNum (Z.min n UINTMAX_MAX) | TChr c => TChr c end.

Lemma digit10 : forall c, (digitval c <? 10) = iswdigit c.
Proof.
  intros c. unfold digitval, iswdigit. destruct ((48 <=? c) && (c <=? 57))%N eqn:Q; [lia|].
  destruct ((97 <=? c) && (c <=? 122))%N eqn:Q2; [lia|]. destruct ((65 <=? c) && (c <=? 90))%N eqn:Q3; lia.
Qed.

Definition nodigit (w : list N) : Prop := match w with c :: _ => iswdigit c = false | [] => True end.

Lemma scan_app : forall d acc any w, all_digits 10 d -> nodigit w ->
  exists any', scan_digits 10 acc any (d ++ w) = (horner 10 acc d, w, any').
Proof.
  induction d as [|c d IH]; intros acc any w H K; cbn [app horner scan_digits].
  - destruct w as [|c w]; cbn [scan_digits]; [eauto|]. rewrite digit10. cbn in K. rewrite K. eauto.
  - cbn [all_digits] in H. destruct H as [H1 H2]. replace (digitval c <? 10) with true by lia. apply IH; auto.
Qed.

Lemma wcstoumax_num : forall d n w, numeral 10 d n -> nodigit w -> wcstoumax (d ++ w) = (Z.min n UINTMAX_MAX, w).
Proof.
  intros d n w H K. apply numeral_iff in H; [|lia]. destruct H as (_ & H & ->).
  unfold wcstoumax. destruct (scan_app d 0 false w H K) as (any' & ->). reflexivity.
Qed.

Lemma num_digit0 : forall d n w, numeral 10 d n -> digit0 (d ++ w) = true.
Proof. intros d n w H. apply num_head in H. destruct H as (c & d' & -> & H). cbn. unfold iswdigit. lia. Qed.

Lemma nodigit0 : forall w, nodigit w -> digit0 w = false.
Proof. intros [|c w] H; cbn; auto. Qed.

Lemma tokens_nodigit : forall w ts, tokens w ts -> nodigit w ->
  (w = [] /\ ts = []) \/ exists c w' ts', w = c :: w' /\ ts = TChr c :: ts' /\ iswdigit c = false /\ tokens w' ts'.
Proof.
  intros w ts H K. destruct H as [|c w ts D T|d n w ts Nd Hw T]; auto.
  - right. eauto 10.
  - apply num_digit0 with (w := w) in Nd. rewrite nodigit0 in Nd by auto. discriminate.
Qed.

Section Env.
Context (E : tenv) (CF : coll_first (t_coll E)).

Lemma alnum_alpha : forall c w, iswdigit c = false -> alnum0 E (c :: w) = iswalpha (t_loc E) c.
Proof. intros c w H. cbn. unfold iswalnum. rewrite H, orb_false_r. auto. Qed.

Lemma versions_lex : forall f l r a b, (length l < f)%nat -> tokens l a -> tokens r b ->
  exists c, compare_versions E f l r = Ok c /\ sign c = lex (tk_compare E) (map sat a) (map sat b).
Proof.
  destruct CF as (C1 & C2 & C3).
  induction f as [|f IH]; intros l r a b Hf Ha Hb; [lia|]. cbn [compare_versions].
  assert (A : forall l1 r1 a1 b1, (length l1 <= length l)%nat -> tokens l1 a1 -> tokens r1 b1 -> nodigit l1 -> nodigit r1 ->
    exists c,
    (if alnum0 E l1 && negb (alnum0 E r1) then Ok 1
        else if negb (alnum0 E l1) && alnum0 E r1 then Ok (-1)
        else match l1, r1 with
             | [], [] => Ok 0
             | c :: l', d :: r' => if (c =? d)%N then compare_versions E f l' r' else Ok (t_coll E l1 r1)
             | _, _ => Ok (t_coll E l1 r1)
             end) = Ok c /\ sign c = lex (tk_compare E) (map sat a1) (map sat b1)).
  { intros l1 r1 a1 b1 Hl Ta Tb Na Nb.
    destruct (tokens_nodigit _ _ Ta Na) as [(-> & ->)|(c & w & ts & -> & -> & Dc & Tw)];
    destruct (tokens_nodigit _ _ Tb Nb) as [(-> & ->)|(d & u & us & -> & -> & Dd & Tu)].
    - exists 0. auto.
    - rewrite (alnum_alpha d u Dd). cbn [alnum0 andb negb map lex sat].
      destruct (iswalpha (t_loc E) d); eexists; (split; [reflexivity|]); [reflexivity|].
      specialize (C1 d u). unfold sign. apply Z.compare_lt_iff. lia.
    - rewrite (alnum_alpha c w Dc). cbn [alnum0 andb negb map lex sat].
      destruct (iswalpha (t_loc E) c); cbn [andb negb]; eexists; (split; [reflexivity|]); [reflexivity|].
      specialize (C2 c w). unfold sign. apply Z.compare_gt_iff. lia.
    - rewrite (alnum_alpha c w Dc), (alnum_alpha d u Dd). cbn [map lex sat tk_compare].
      destruct (N.eqb_spec c d) as [->|Ne].
      + destruct (IH w u ts us) as (z & H1 & H2); auto; [cbn in Hl; lia|].
        exists z. rewrite N.compare_refl. destruct (iswalpha (t_loc E) d); cbn [andb negb]; auto.
      + specialize (C3 c w d u Ne).
        assert (K : (c ?= d)%N <> Eq) by (rewrite N.compare_eq_iff; auto).
        destruct (iswalpha (t_loc E) c), (iswalpha (t_loc E) d); cbn [andb negb];
          eexists; (split; [reflexivity|]); try reflexivity; rewrite C3; destruct (c ?= d)%N; congruence. }
  inversion Ha as [|c w ts Dc Tw|d n w ts Nd Hw Tw]; inversion Hb as [|c' w' ts' Dc' Tw'|d' n' w' ts' Nd' Hw' Tw']; subst.
  1,2,4,5: rewrite !nodigit0 by (cbn; auto); cbn [andb]; refine (A _ _ _ _ _ Ha Hb _ _); cbn [nodigit]; auto.
  - rewrite (nodigit0 []) by (cbn; auto). rewrite (num_digit0 d' n' w' Nd'). cbn [andb]. exists (-1). auto.
  - rewrite (nodigit0 (c :: w)) by (cbn; auto). rewrite (num_digit0 d' n' w' Nd'). cbn [andb]. exists (-1). auto.
  - rewrite (nodigit0 []) by (cbn; auto). rewrite (num_digit0 d n w Nd). cbn [andb]. exists 1. auto.
  - rewrite (nodigit0 (c' :: w')) by (cbn; auto). rewrite (num_digit0 d n w Nd). cbn [andb]. exists 1. auto.
  - rewrite (num_digit0 d n w Nd), (num_digit0 d' n' w' Nd'). cbn [andb].
    rewrite (wcstoumax_num d n w Nd Hw), (wcstoumax_num d' n' w' Nd' Hw').
    cbn [map sat lex tk_compare].
    destruct (Z.compare_spec (Z.min n UINTMAX_MAX) (Z.min n' UINTMAX_MAX)) as [Q|Q|Q].
    + replace (Z.min n' UINTMAX_MAX <? Z.min n UINTMAX_MAX) with false by lia.
      replace (Z.min n UINTMAX_MAX <? Z.min n' UINTMAX_MAX) with false by lia.
      refine (A _ _ _ _ _ Tw Tw' Hw Hw'). rewrite app_length. lia.
    + replace (Z.min n' UINTMAX_MAX <? Z.min n UINTMAX_MAX) with false by lia.
      replace (Z.min n UINTMAX_MAX <? Z.min n' UINTMAX_MAX) with true by lia. exists (-1). auto.
    + replace (Z.min n' UINTMAX_MAX <? Z.min n UINTMAX_MAX) with true by lia. exists 1. auto.
Qed.

Lemma versions_spec : forall l r a b, tokens l a -> tokens r b ->
  exists c, versions E l r = Ok c /\ sign c = lex (tk_compare E) (map sat a) (map sat b).
Proof. intros l r a b Ha Hb. apply versions_lex; auto. Qed.

(** ** Laws of the order of tokens *)
Lemma tk_sym : forall a b, tk_compare E b a = CompOpp (tk_compare E a b).
Proof.
  intros [n|c] [m|d]; cbn; auto; [apply Z.compare_antisym|].
  destruct (iswalpha (t_loc E) c), (iswalpha (t_loc E) d); auto; apply N.compare_antisym.
Qed.
Lemma tk_eq : forall a b, tk_compare E a b = Eq <-> a = b.
Proof.
  intros [n|c] [m|d]; cbn; split; intros H; try discriminate.
  - apply Z.compare_eq in H. congruence.
  - injection H as ->. apply Z.compare_refl.
  - destruct (iswalpha (t_loc E) c), (iswalpha (t_loc E) d); try discriminate; apply N.compare_eq in H; congruence.
  - injection H as ->. rewrite N.compare_refl. destruct (iswalpha (t_loc E) d); auto.
Qed.
Lemma tk_trans : forall a b c, tk_compare E a b = Lt -> tk_compare E b c = Lt -> tk_compare E a c = Lt.
Proof.
  intros [n|x] [m|y] [k|z]; cbn; try discriminate; auto.
  - rewrite !Z.compare_lt_iff. lia.
  - destruct (iswalpha (t_loc E) x), (iswalpha (t_loc E) y), (iswalpha (t_loc E) z);
      try discriminate; auto; rewrite !N.compare_lt_iff; lia.
Qed.

Lemma lex_sym : forall l r, lex (tk_compare E) r l = CompOpp (lex (tk_compare E) l r).
Proof.
  induction l as [|a l IH]; intros [|b r]; cbn; auto.
  rewrite (tk_sym a b). destruct (tk_compare E a b); cbn; auto.
Qed.
Lemma lex_eq : forall l r, lex (tk_compare E) l r = Eq <-> l = r.
Proof.
  induction l as [|a l IH]; intros [|b r]; cbn; split; intros H; try discriminate; auto.
  - destruct (tk_compare E a b) eqn:Q; try discriminate. apply tk_eq in Q. apply IH in H. congruence.
  - injection H as -> ->. assert (Q : tk_compare E b b = Eq) by (apply tk_eq; auto). rewrite Q. apply IH. auto.
Qed.
Lemma lex_trans : forall a b c, lex (tk_compare E) a b = Lt -> lex (tk_compare E) b c = Lt -> lex (tk_compare E) a c = Lt.
Proof.
  induction a as [|x a IH]; intros [|y b] [|z c]; cbn; intros H K; try discriminate; auto.
  destruct (tk_compare E x y) eqn:Q1; try discriminate; destruct (tk_compare E y z) eqn:Q2; try discriminate.
  - apply tk_eq in Q1. apply tk_eq in Q2. subst. assert (Q : tk_compare E z z = Eq) by (apply tk_eq; auto). rewrite Q. eauto.
  - apply tk_eq in Q1. subst. rewrite Q2. auto.
  - apply tk_eq in Q2. subst. rewrite Q1. auto.
  - rewrite (tk_trans _ _ _ Q1 Q2). auto.
Qed.
End Env.

Lemma tokens_total : forall w, exists ts, tokens w ts.
Proof.
  assert (K : forall n w, (length w <= n)%nat -> exists ts, tokens w ts).
  { induction n as [|n IH]; intros w H; [destruct w; [exists []; constructor|cbn in H; lia]|].
    destruct w as [|c w]; [exists []; constructor|].
    destruct (iswdigit c) eqn:D.
    - assert (S : exists d u, w = d ++ u /\ all_digits 10 d /\ nodigit u).
      { clear - w. induction w as [|x w (d & u & -> & Hd & Hu)]; [exists [], []; cbn; auto|].
        destruct (iswdigit x) eqn:Dx.
        - exists (x :: d), u. split; auto. split; auto. cbn. split; auto. pose proof (digit10 x). lia.
        - exists [], (x :: d ++ u). cbn. auto. }
      destruct S as (d & u & -> & Hd & Hu). destruct (IH u) as (ts & T).
      { cbn in H. rewrite app_length in H. lia. }
      exists (TNum (horner 10 0 (c :: d)) :: ts). change (c :: d ++ u) with ((c :: d) ++ u). apply tk_num; auto.
      apply numeral_iff; [lia|]. split; [discriminate|]. split; auto. cbn. split; auto. pose proof (digit10 c). lia.
    - destruct (IH w) as (ts & T); [cbn in H; lia|]. exists (TChr c :: ts). constructor; auto. }
  intros w. eapply K. apply le_n.
Qed.
