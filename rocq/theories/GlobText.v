(** The components of a pattern are what its text means. *)
From Coq Require Import Ascii String.
From Coq Require Import List NArith Bool Arith Lia.
From Verif Require Import Common GlobModel GlobSpec.
From Verif Require Regex XfnmatchModel XfnmatchSpec XfnmatchMatch XfnmatchProps QuoteModel QuoteProofs.
Import ListNotations.
Local Open Scope res_scope.

Notation marks := XfnmatchSpec.marks.
Notation pmatch := XfnmatchSpec.pmatch.
Notation ctype_ok := Regex.ctype_ok.

Lemma unescape_marks : forall n p, length p <= n -> QuoteModel.unescape p = map fst (marks p).
Proof.
  induction n as [|n IH]; intros p L; [destruct p; [reflexivity|cbn in L; lia]|].
  destruct p as [|c p]; [reflexivity|]. cbn [XfnmatchSpec.marks length] in *.
  destruct (N.eqb_spec c Regex.bslash) as [->|NE].
  - destruct p as [|d p]; [reflexivity|]. cbn [length map fst] in *.
    change Regex.bslash with QuoteModel.bs. rewrite QuoteProofs.unescape_bs, IH by lia. reflexivity.
  - cbn [map fst]. rewrite QuoteProofs.unescape_cons, IH by (auto; lia). reflexivity.
Qed.
Lemma marks_sub : forall n p x, length p <= n -> In x (map fst (marks p)) -> In x p.
Proof.
  induction n as [|n IH]; intros p x L I; [destruct p; [destruct I|cbn in L; lia]|].
  destruct p as [|c p]; [destruct I|]. cbn [XfnmatchSpec.marks length] in *.
  destruct (N.eqb_spec c Regex.bslash) as [->|NE].
  - destruct p as [|d p]; [destruct I|]. cbn in *. destruct I as [<-|I]; [auto|]. right. right. eapply IH; eauto. lia.
  - destruct I as [<-|I]; [now left|]. right. eapply IH; eauto. lia.
Qed.

(** What a valid piece that is not recursive becomes. *)
Lemma piece_ok C fl p : ctype_ok C -> (forall c, Regex.tolower C c = Regex.tolower C Regex.dot -> c = Regex.dot) ->
  XfnmatchSpec.clear_pattern p ->
  (XfnmatchModel.is_matching_pattern p = Ok false /\ forall s, pmatch C false p s <-> s = unescape (shell_matcher C fl) p) \/
  (XfnmatchModel.is_matching_pattern p = Ok true /\ exists l, XfnmatchSpec.gparses C (marks p) l) /\
    (exists f, compile (shell_matcher C fl) p = Some f /\
       forall s, f s = true <-> pmatch C (wglb_casefold fl) p s /\
                                (wglb_period fl = false -> opens_dot s -> XfnmatchSpec.leading_dot p)) \/
  (XfnmatchModel.is_matching_pattern p = Ok true /\ ~ (exists l, XfnmatchSpec.gparses C (marks p) l) /\
    compile (shell_matcher C fl) p = None).
Proof.
  intros HC DOT CL. destruct (XfnmatchProps.not_a_pattern C HC p) as (b & B & NP). destruct b.
  - assert (D : (exists l, XfnmatchSpec.gparses C (marks p) l) \/ ~ (exists l, XfnmatchSpec.gparses C (marks p) l)).
    { destruct (XfnmatchMatch.compile_ok C HC p (XfnmatchModel.mkFl false true true true false false false) CL)
        as [(x & _ & G & _)|[G _]]; [split; cbn; [discriminate|auto]|left; exact G|right]. intros (l & X). eapply G; eauto. }
    destruct D as [G|G].
    + right. left. split; [auto|]. destruct (wglb_period fl) eqn:PE.
      * unfold shell_matcher, compile. rewrite PE. cbn [negb].
        set (xfl := XfnmatchModel.mkFl false true true false (wglb_casefold fl) false false).
        destruct (XfnmatchMatch.compile_ok C HC p xfl CL) as [(x & E & _ & Es & Ep & _ & _ & W)|[No _]];
          [split; cbn; discriminate| |destruct G as (l & G); exfalso; eapply No; eauto].
        rewrite E. eexists. split; [reflexivity|]. intros s. cbv beta. cbn in Es, Ep.
        rewrite XfnmatchMatch.xfnm_match_wmatch by exact Es.
        destruct (W s) as (r & -> & Hr); [rewrite Ep; reflexivity|]. cbn [rbind]. unfold XfnmatchMatch.finds in Hr. cbn in Hr.
        rewrite <- Hr. destruct r; split; try discriminate; try tauto; intros _; split; [discriminate|discriminate].
      * unfold shell_matcher, compile. rewrite PE. cbn [negb].
        destruct (XfnmatchProps.period_explicit_partial C HC DOT p (wglb_casefold fl) [] CL G) as (x & _ & E & _).
        rewrite E. eexists. split; [reflexivity|]. intros s. cbv beta.
        destruct (XfnmatchProps.period_explicit_partial C HC DOT p (wglb_casefold fl) s CL G) as (x' & b & E' & M & I).
        rewrite E in E'. injection E' as <-. rewrite M, I.
        assert (O : opens_dot s <-> XfnmatchMatch.dot_first s = true).
        { unfold opens_dot. destruct s as [|c s]; cbn; [split; [intros (? & ?); discriminate|discriminate]|]. split.
          - intros (s' & X). injection X as -> _. reflexivity.
          - intros X. apply N.eqb_eq in X. exists s. subst. reflexivity. }
        rewrite O. tauto.
    + right. right. split; [auto|]. split; [auto|]. unfold shell_matcher, compile.
      destruct (XfnmatchMatch.compile_ok C HC p (XfnmatchModel.mkFl false true true (negb (wglb_period fl)) (wglb_casefold fl) false false) CL)
        as [(x & _ & X & _)|[_ ->]]; [split; cbn; [discriminate|auto]|tauto|reflexivity].
  - left. split; [auto|]. intros s. destruct (NP eq_refl s) as (b & M & I). cbn [unescape shell_matcher].
    rewrite (unescape_marks (length p)) by auto. rewrite <- I.
    destruct (XfnmatchProps.pattern_language_partial C HC p s CL) as (b' & M' & I'). rewrite M in M'. injection M' as <-. now rewrite I'.
Qed.

Lemma upto_ok p : let '(a, r) := upto_slash p in ~ In slash a /\
  match r with None => p = a | Some q => p = a ++ slash :: q /\ length q < length p end.
Proof.
  induction p as [|c p IH]; cbn [upto_slash]; [split; [intros []|reflexivity]|].
  destruct (N.eqb_spec c slash) as [->|NE]; [cbn; split; [intros []|split; [reflexivity|lia]]|].
  destruct (upto_slash p) as [a [q|]]; destruct IH as [NS IH].
  - split; [intros [X|X]; auto|]. destruct IH as [-> L]. split; [reflexivity|cbn [length]; lia].
  - split; [intros [X|X]; auto|]. subst. reflexivity.
Qed.

Lemma rec_dec p : (exists a b, recursive p a b) \/ forall a b, ~ recursive p a b.
Proof.
  unfold recursive.
  destruct (list_eq_dec N.eq_dec p (str "**")) as [->|N1]; [left; exists false, false; reflexivity|].
  destruct (list_eq_dec N.eq_dec p (str "***")) as [->|N2]; [left; exists true, false; reflexivity|].
  destruct (list_eq_dec N.eq_dec p (str ".**")) as [->|N3]; [left; exists false, true; reflexivity|].
  destruct (list_eq_dec N.eq_dec p (str ".***")) as [->|N4]; [left; exists true, true; reflexivity|].
  right. intros [] []; cbn; auto.
Qed.
Lemma component_rec M p a b : recursive p a b -> parse_component M true p true = Some (Rec a b).
Proof. intros ->. destruct a, b; reflexivity. Qed.
Lemma component_other M recdir next p : (recdir = true -> next = true -> forall a b, ~ recursive p a b) ->
  parse_component M recdir p next =
    if matching_pattern M p then match compile M p with Some f => Some (Pat f) | None => None end else Some (Lit (unescape M p)).
Proof.
  intros H. unfold parse_component. destruct next, recdir; cbn [andb]; try reflexivity.
  assert (K : forall q (a b : bool), q = (if b then str "." else []) ++ str "**" ++ (if a then str "*" else []) -> list_N_eqb p q = false).
  { intros q a b ->. destruct (list_N_eqb p _) eqn:E; [|reflexivity]. apply list_N_eqb_eq in E.
    exfalso. apply (H eq_refl eq_refl a b). exact E. }
  rewrite (K (str "**") false false eq_refl), (K (str "***") true false eq_refl), (K (str ".**") false true eq_refl),
    (K (str ".***") true true eq_refl). reflexivity.
Qed.

Section Text.
Context (C : Regex.ctype) (fl : wflags).
Hypothesis HC : ctype_ok C.
Hypothesis DOT : forall c, Regex.tolower C c = Regex.tolower C Regex.dot -> c = Regex.dot.
Notation M := (shell_matcher C fl).

Definition valid (ps : list (list N)) : Prop := Forall (fun p => exists l, XfnmatchSpec.gparses C (marks p) l) ps.

Lemma parse_ok : forall n p, length p < n -> exists ps, pieces p ps /\
  (Forall XfnmatchSpec.clear_pattern ps ->
   exists cs, parse_pattern n M (wglb_recdir fl) p = Ok cs /\
     (cs <> [] -> means C fl ps cs /\ proper cs /\ forall l, In (Lit l) cs -> ~ In slash l) /\
     (valid ps -> cs <> [])).
Proof.
  induction n as [|n IH]; intros p L; [lia|]. cbn [parse_pattern]. assert (U := upto_ok p).
  destruct (upto_slash p) as [a r]. destruct U as [NS U].
  (* one piece *)
  assert (ONE : forall ps, Forall XfnmatchSpec.clear_pattern (a :: ps) -> (ps <> [] <-> r <> None) ->
    (exists c, parse_component M (wglb_recdir fl) a (match r with Some _ => true | None => false end) = Some c /\
       (forall cs, means C fl ps cs -> means C fl (a :: ps) (c :: cs)) /\ (forall l, c = Lit l -> ~ In slash l) /\
       (r = None -> is_lit c = true \/ exists f, c = Pat f)) \/
    (parse_component M (wglb_recdir fl) a (match r with Some _ => true | None => false end) = None /\
       ~ exists l, XfnmatchSpec.gparses C (marks a) l)).
  { intros ps CL HR. inversion_clear CL as [|? ? CLA _].
    assert (DEC : (wglb_recdir fl = true /\ r <> None /\ exists x y, recursive a x y) \/
                  (wglb_recdir fl = true -> r <> None -> forall x y, ~ recursive a x y)).
    { destruct (wglb_recdir fl); [|right; discriminate]. destruct r; [|right; congruence].
      destruct (rec_dec a) as [X|X]; [left|right; auto]. split; [auto|]. split; [discriminate|auto]. }
    destruct DEC as [(RD & RN & x & y & RE)|NR].
    - left. exists (Rec x y). destruct r as [q|]; [|congruence]. rewrite RD, (component_rec M a x y RE). split; [reflexivity|]. split.
      + intros cs ME. apply mn_rec; auto. apply HR. discriminate.
      + split; [discriminate|]. discriminate.
    - rewrite component_other.
      2:{ intros RD X. apply NR; auto. destruct r; congruence. }
      assert (NR' : wglb_recdir fl = true -> ps <> [] -> forall x y, ~ recursive a x y) by (intros RD X; apply NR; auto; now apply HR).
      destruct (piece_ok C fl a HC DOT CLA) as [(E & I) | [((E & G) & f & F & I) | (E & G & F)]];
        unfold matching_pattern at 1 2; cbn [shell_matcher]; rewrite E.
      + left. eexists. split; [reflexivity|]. split; [|split].
        * intros cs ME. apply mn_lit; auto.
        * intros l X. injection X as <-. cbn [unescape shell_matcher]. rewrite (unescape_marks (length a)) by auto.
          intros X. apply NS. eapply marks_sub; eauto.
        * intros _. left. reflexivity.
      + left. change (compile (shell_matcher C fl) a) with (compile M a) in F. rewrite F. eexists. split; [reflexivity|]. split; [|split].
        * intros cs ME. apply mn_pat; auto.
        * discriminate.
        * intros _. right. eauto.
      + right. rewrite F. auto. }
  destruct r as [q|].
  - destruct U as [-> LQ]. rewrite app_length in *. cbn [length] in *. destruct (IH q ltac:(lia)) as (ps & (NE & PT & PN) & H).
    exists (a :: ps). split.
    { split; [discriminate|]. split; [|constructor; auto]. destruct ps as [|b ps]; [congruence|].
      change (names_text (a :: b :: ps)) with (a ++ slash :: names_text (b :: ps)). now rewrite PT. }
    intros CL. destruct (ONE ps CL) as [(c & -> & ME & LI & _)|(-> & NG)]; [split; [discriminate|auto]| |].
    + inversion_clear CL as [|? ? _ CL']. destruct (H CL') as (cs & -> & H1 & H2). cbn [rbind].
      destruct cs as [|c' cs]; eexists; (split; [reflexivity|]).
      * split; [congruence|]. intros V. inversion_clear V as [|? ? _ V']. exact (H2 V').
      * destruct (H1 ltac:(discriminate)) as (M1 & P1 & S1). split; [|discriminate]. intros _. split; [auto|]. split.
        { destruct c; exact P1. }
        intros l [X|X]; [eapply LI; eauto|eapply S1; eauto].
    + eexists. split; [reflexivity|]. split; [congruence|]. intros V. inversion_clear V as [|? ? V1 _]. tauto.
  - subst p. exists [a]. split.
    { split; [discriminate|]. split; [reflexivity|]. constructor; auto. }
    intros CL. destruct (ONE [] CL) as [(c & -> & ME & LI & PR)|(-> & NG)]; [split; congruence| |].
    + eexists. split; [reflexivity|]. split; [|discriminate]. intros _. split; [apply ME; constructor|]. split.
      { destruct (PR eq_refl) as [X|(f & ->)]; [destruct c; try discriminate; exact I|exact I]. }
      intros l [X|[]]. eapply LI; eauto.
    + eexists. split; [reflexivity|]. split; [congruence|]. intros V. inversion_clear V as [|? ? V1 _]. tauto.
Qed.
End Text.

Lemma pieces_det p ps ps' : pieces p ps -> pieces p ps' -> ps = ps'.
Proof.
  intros (NE & E & F) (NE' & E' & F'). subst p. revert ps' NE' F' E'. induction ps as [|a ps IH]; [congruence|].
  intros [|a' ps'] NE' F' E'; [congruence|]. clear NE NE'. inversion_clear F as [|? ? Fa Fp]. inversion_clear F' as [|? ? Fa' Fp'].
  assert (K : forall (a a' : list N) (t t' : list N), ~ In slash a -> ~ In slash a' ->
    (t = [] \/ exists u, t = slash :: u) -> (t' = [] \/ exists u, t' = slash :: u) -> a ++ t = a' ++ t' -> a = a' /\ t = t').
  { clear. induction a as [|x a IH]; intros [|y a'] t t' S S' T T' E; cbn in E.
    - auto.
    - exfalso. destruct T as [->|(u & ->)]; [discriminate|]. injection E as <- _. apply S'. now left.
    - exfalso. destruct T' as [->|(u & ->)]; [discriminate|]. injection E as -> _. apply S. now left.
    - injection E as <- E. destruct (IH a' t t') as [-> ->]; auto; intros X; [apply S|apply S']; now right. }
  assert (D : forall a ps, exists t, names_text (a :: ps) = a ++ t /\ ((ps = [] /\ t = []) \/ (ps <> [] /\ t = slash :: names_text ps))).
  { intros x [|b l]; [exists []; rewrite app_nil_r; auto|]. exists (slash :: names_text (b :: l)). split; [reflexivity|].
    right. split; [discriminate|reflexivity]. }
  destruct (D a ps) as (t & T1 & T2), (D a' ps') as (t' & T1' & T2'). rewrite T1, T1' in E'.
  destruct (K a' a t' t) as [-> ->]; auto.
  - destruct T2' as [[_ ->]|[_ ->]]; eauto.
  - destruct T2 as [[_ ->]|[_ ->]]; eauto.
  - f_equal. destruct T2 as [[-> E1]|[N1 E1]], T2' as [[-> E2]|[N2 E2]]; try congruence.
    apply IH; auto. congruence.
Qed.
