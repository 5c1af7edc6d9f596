(** The printf built-in as a whole. *)
From Coq Require Import Ascii String.
From Coq Require Import List NArith ZArith Bool Lia Arith.
From Coq Require Import ZifyBool ZifyN ZifyNat.
From Verif Require Import Common Locale NumModel NumProofs PrintfModel PrintfSpec PrintfEsc PrintfConv PrintfProofs.
Import ListNotations.
Local Open Scope N_scope.

Section Run.
Variable enc : N -> option (list N).
Hypothesis ascii : ascii_enc enc.
Variable L : locale.
Hypothesis Lok : locale_ok L.
Variable flt_print : list N -> list N -> option (list N).
Variable flt_valid : list N -> bool.
Notation shows := (shows enc L flt_print flt_valid).
Notation once := (once enc L flt_print flt_valid).
Notation says := (says enc L flt_print flt_valid).
Notation printf_printf := (printf_printf enc L flt_print flt_valid).
Notation printf_once := (printf_once enc L flt_print flt_valid).
Notation printf_loop := (printf_loop enc L flt_print flt_valid).
Notation printf_builtin := (printf_builtin enc L flt_print flt_valid).

Definition bad (us : list unit_) (args : list (list N)) : Prop := ~ fits enc us args.

Lemma once_lits : forall ls us args o rest m e, once us args o rest m e ->
  once (map ULit ls ++ us) args (concat ls ++ o) rest m e.
Proof.
  induction ls as [|l ls IH]; intros us args o rest m e H; [exact H|].
  cbn [map app concat]. rewrite <- app_assoc. constructor. apply IH. exact H.
Qed.
Lemma convs_lits : forall ls us, convs (map ULit ls ++ us) = convs us.
Proof. induction ls; intros; [reflexivity|]. cbn [map app convs]. apply IHls. Qed.

Lemma wide_suffix : forall u rest, wide_ok (u ++ rest) -> wide_ok rest.
Proof. intros u rest H. apply Forall_app in H. apply H. Qed.

Lemma once_ok : forall fs us, den fs us -> forall args buf m, wide_ok args ->
  exists r o rest m', printf_once fs args buf m = Ok (r, buf ++ o, rest, (m + m')%nat) /\
    match r with
    | PR_ERROR => bad us args
    | PR_OK => once us args o rest m' false
    | PR_OK_END => once us args o rest m' true
    end /\ exists u, args = u ++ rest.
Proof.
  intros fs us D. induction D as [| fs us D IH | fs us D IH | ls fs us D IH | cv fs us K D IH]; intros args buf m W.
  - exists PR_OK, [], args, 0%nat. cbn [printf_once]. rewrite app_nil_r, Nat.add_0_r. split; [reflexivity|].
    split; [constructor | exists []; reflexivity].
  - destruct (IH args buf m W) as (r & o & rest & m' & A & B & C). exists r, o, rest, m'. split; [exact A|]. split; [|exact C].
    destruct r; [apply (on_lit _ _ _ _ []); exact B | apply (on_lit _ _ _ _ []); exact B | exact B].
  - destruct (IH args (buf ++ [ch "%"]) m W) as (r & o & rest & m' & A & B & C).
    exists r, ([ch "%"] ++ o), rest, m'. cbn [printf_once]. unfold printf_printf. rewrite next_eq. cbn [rbind].
    rewrite Nat.add_0_r, A, <- app_assoc. split; [reflexivity|]. split; [|exact C].
    destruct r; [constructor; exact B | constructor; exact B | exact B].
  - destruct (IH args (buf ++ concat ls) m W) as (r & o & rest & m' & A & B & C).
    exists r, (concat ls ++ o), rest, m'. cbn [printf_once]. unfold printf_printf. rewrite next_eq. cbn [rbind].
    rewrite Nat.add_0_r, A, <- app_assoc. split; [reflexivity|]. split; [|exact C].
    unfold bad, fits in B |- *. rewrite convs_lits.
    destruct r; [apply once_lits; exact B | apply once_lits; exact B | exact B].
  - cbn [printf_once].
    destruct (printf_printf_ok enc ascii L Lok flt_print flt_valid cv args K W) as (r & o & rest & m1 & A & B & _).
    rewrite A. cbn [rbind].
    assert (Suf : forall used : bool, exists u, args = u ++ (if used then tl args else args)).
    { intros [|]; [|exists []; reflexivity]. destruct args as [|x args]; [exists []; reflexivity | exists [x]; reflexivity]. }
    destruct r.
    + destruct B as (used & S & -> & _).
      assert (W' : wide_ok (if used then tl args else args)).
      { destruct (Suf used) as [u Hu]. rewrite Hu in W. exact (wide_suffix _ _ W). }
      destruct (IH _ (buf ++ o) (m + m1)%nat W') as (r & o' & rest & m' & A' & B' & (u' & C')).
      exists r, (o ++ o'), rest, (m1 + m')%nat. rewrite A', <- app_assoc, Nat.add_assoc. split; [reflexivity|].
      destruct (Suf used) as [u Hu]. split.
      * destruct r; [econstructor; eassumption | econstructor; eassumption|].
        intros [F G]. apply B'. split; [intros c Hc; apply F; right; exact Hc|].
        intros a Ha. apply G. rewrite Hu. apply in_app_iff. right. exact Ha.
      * exists (u ++ u'). rewrite <- app_assoc, <- C'. exact Hu.
    + destruct B as (used & S & -> & _). exists PR_OK_END, o, (if used then tl args else args), m1. split; [reflexivity|].
      split; [constructor; exact S | apply Suf].
    + exists PR_ERROR, o, rest, m1. split; [reflexivity|]. split.
      * intros [F G]. apply B. split; [apply F; left; reflexivity | exact G].
      * unfold PrintfModel.printf_printf in A. rewrite next_eq in A. clear - A.
        assert (S1 : exists u, args = u ++ tl args) by (destruct args as [|x args]; [exists [] | exists [x]]; reflexivity).
        assert (S0 : exists u, args = u ++ args) by (exists []; reflexivity).
        destruct (fmt_of cv) as [ | | t cs | ]; [discriminate | discriminate | | ].
        -- destruct t.
           ++ destruct (vsnprintf _ _ _ _); [discriminate|]. injection A as _ <- _. exact S1.
           ++ destruct (match hd_error args with Some a => a | None => [] end); [discriminate|].
              destruct (vsnprintf _ _ _ _); [discriminate|]. injection A as _ <- _. exact S1.
           ++ destruct (printf_parse_integer _ _ _). destruct (vsnprintf _ _ _ _); [discriminate|]. injection A as _ <- _. exact S1.
           ++ destruct (printf_parse_integer _ _ _). destruct (vsnprintf _ _ _ _); [discriminate|]. injection A as _ <- _. exact S1.
           ++ destruct (vsnprintf _ _ _ _); [discriminate|]. injection A as _ <- _. exact S1.
        -- destruct (printf_print_escape _ _ _ _ _) as [[r b]| |]; try discriminate. cbn [rbind] in A. injection A as _ _ <- _. exact S1.
Qed.

Lemma loop_ok : forall us fs, den fs us -> forall fuel args buf m, wide_ok args -> (length args < fuel)%nat ->
  exists r o m', printf_loop fuel fs args buf m = Ok (r, buf ++ o, (m + m')%nat) /\
    match r with PR_ERROR => bad us args | _ => says us args o m' end.
Proof.
  intros us fs D. induction fuel as [|fuel IH]; intros args buf m W Hf; [lia|]. cbn [printf_loop].
  destruct (once_ok fs us D args buf m W) as (r & o & rest & m' & A & B & (u & C)). rewrite A. cbn [rbind].
  destruct r.
  - destruct (negb (Nat.eqb (length rest) 0) && negb (Nat.eqb (length rest) (length args))) eqn:E.
    + apply andb_true_iff in E as [E1 E2]. apply negb_true_iff, Nat.eqb_neq in E1, E2.
      pose proof (f_equal (@length _) C) as Cl. rewrite app_length in Cl.
      destruct (IH rest (buf ++ o) (m + m')%nat) as (r & o' & m'' & A' & B').
      { rewrite C in W. exact (wide_suffix _ _ W). }
      { lia. }
      exists r, (o ++ o'), (m' + m'')%nat. rewrite A', <- app_assoc, Nat.add_assoc. split; [reflexivity|].
      assert (N1 : rest <> []) by (intros ->; apply E1; reflexivity).
      assert (N2 : rest <> args) by (intros Q; apply E2; rewrite <- Q; reflexivity).
      destruct r; [eapply sy_more; eassumption | eapply sy_more; eassumption|].
      intros [F G]. apply B'. split; [exact F|]. intros a Ha. apply G. rewrite C. apply in_app_iff. right. exact Ha.
    + exists PR_OK, o, m'. split; [reflexivity|]. apply (sy_last _ _ _ _ _ _ _ rest _ false B). right.
      apply andb_false_iff in E as [E|E]; apply negb_false_iff, Nat.eqb_eq in E.
      * left. destruct rest; [reflexivity | discriminate].
      * right. pose proof (f_equal (@length _) C) as Cl. rewrite app_length in Cl.
        destruct u; [symmetry; exact C | cbn in Cl; lia].
  - exists PR_OK_END, o, m'. split; [reflexivity|]. apply (sy_last _ _ _ _ _ _ _ rest _ true B). left. reflexivity.
  - exists PR_ERROR, o, m'. split; [reflexivity | exact B].
Qed.

Lemma printf_run : forall fmt us args, is_format enc fmt us -> wide_ok args -> exists o m,
  (printf_builtin true (fmt :: args) = Ok (mkOut o m (if Nat.eqb m 0 then 0%Z else 1%Z)) /\ says us args o m) \/
  (printf_builtin true (fmt :: args) = Ok (mkOut [] (S m) 1%Z) /\ bad us args).
Proof.
  intros fmt us args F W. unfold PrintfModel.printf_builtin.
  destruct (format_complete enc ascii flt_print flt_valid fmt us F (length fmt) [] (le_n _)) as (fs & A & D). rewrite A. cbn [rbind].
  specialize (D [] eq_refl). cbn in D.
  destruct (loop_ok us fs D (S (length args)) args [] 0 W (le_n _)) as (r & o & m & B & C). rewrite B. cbn [rbind].
  destruct r; exists o, m; [left | left | right]; (split; [reflexivity | exact C]).
Qed.

Lemma printf_bad_format : forall b fmt args, (forall us, ~ is_format enc fmt us) ->
  printf_builtin b (fmt :: args) = Ok (mkOut [] 1 1%Z).
Proof.
  intros b fmt args F. unfold PrintfModel.printf_builtin.
  destruct (format_sound enc ascii flt_print flt_valid (length fmt) fmt [] (le_n _)) as (r & A & B). rewrite A. cbn [rbind].
  destruct r as [fs|]; [|reflexivity]. destruct B as [us Hu]; [discriminate|]. destruct (F us Hu).
Qed.

(** ** Groups of operands *)
Lemma shows_used : forall cv args o used m e, shows cv (hd_error args) o used m e -> cv_c cv <> ch "b" ->
  (cv_c cv = ch "c" -> ~ In [] args) -> (if used then tl args else args) = tl args /\ e = false.
Proof.
  intros cv args o used m e H Hb Hc. destruct H as [ | | H1 H2 | | | | ]; auto; [|contradiction].
  split; [|reflexivity]. destruct args as [|a args]; [reflexivity|]. cbn in H2. subst a. destruct (Hc H1). left. reflexivity.
Qed.

Lemma once_group : forall us args o rest m e, once us args o rest m e -> grouping us args ->
  e = false /\ exists g, args = g ++ rest /\ (length g <= length (convs us))%nat /\
    (rest <> [] -> length g = length (convs us)) /\ once us g o [] m false.
Proof.
  intros us args o rest m e H. induction H as [args | bs us args o rest m e H IH
    | cv us args o used m o' rest m' e S H IH | cv us args o used m S]; intros P.
  - split; [reflexivity|]. exists []. repeat split; auto. constructor.
  - destruct (IH P) as (-> & g & A & B & C & D). split; [reflexivity|]. exists g. repeat split; auto. constructor. exact D.
  - destruct (P cv) as [P1 P2]; [left; reflexivity|]. destruct (shows_used _ _ _ _ _ _ S P1 P2) as [E _]. rewrite E in *.
    destruct IH as (-> & g & A & B & C & D).
    { intros c Hc. destruct (P c) as [Q1 Q2]; [right; exact Hc|]. split; [exact Q1|]. intros Q Hi. apply (Q2 Q).
      destruct args; [exact Hi | right; exact Hi]. }
    split; [reflexivity|].
    assert (Go : forall x, once us (if used then tl x else x) o' [] m' false ->
      shows cv (hd_error x) o used m false -> once (UConv cv :: us) x (o ++ o') [] (m + m') false).
    { intros x G1 G2. econstructor; eassumption. }
    destruct args as [|a args].
    + cbn [tl] in A. symmetry in A. apply app_eq_nil in A as [-> ->]. exists []. split; [reflexivity|]. split; [cbn; lia|].
      split; [intros Q; destruct (Q eq_refl)|]. apply Go; [|exact S]. destruct used; exact D.
    + cbn [tl] in A. subst args. exists (a :: g). split; [reflexivity|]. cbn [length convs]. split; [lia|].
      split; [intros Q; rewrite (C Q); reflexivity|]. apply Go; [|exact S].
      destruct used; [exact D|]. apply (f_equal (@length _)) in E. cbn in E. lia.
  - destruct (P cv) as [P1 P2]; [left; reflexivity|]. destruct (shows_used _ _ _ _ _ _ S P1 P2) as [_ Q]. discriminate.
Qed.

Lemma says_groups : forall us args o m, says us args o m -> grouping us args -> convs us <> [] ->
  exists gs os, in_groups (length (convs us)) args gs /\
    Forall2 (fun g o => exists m, once us g o [] m false) gs os /\ o = concat os.
Proof.
  intros us args o m H P K. revert P. induction H as [args o rest m e H E | args o rest m o' m' H N1 N2 S IH]; intros P.
  - destruct (once_group _ _ _ _ _ _ H P) as (-> & g & A & B & C & D).
    destruct rest as [|x rest].
    + rewrite app_nil_r in A. subst g. exists [args], [o]. split; [constructor; exact B|].
      split; [constructor; [exists m; exact D | constructor]|]. cbn. rewrite app_nil_r. reflexivity.
    + exfalso. destruct E as [E|[E|E]]; try discriminate.
      specialize (C ltac:(discriminate)). rewrite <- E in A. apply (f_equal (@length _)) in A. rewrite app_length in A.
      destruct (convs us); [congruence|]. cbn in C, A. lia.
  - destruct (once_group _ _ _ _ _ _ H P) as (_ & g & A & B & C & D).
    destruct IH as (gs & os & I1 & I2 & ->).
    { intros cv Hc. destruct (P cv Hc) as [P1 P2]. split; [exact P1|]. intros Q Hi. apply (P2 Q). rewrite A.
      apply in_app_iff. right. exact Hi. }
    exists (g :: gs), (o :: os). subst args.
    split; [constructor; auto|]. split; [constructor; [exists m; exact D | exact I2]|]. reflexivity.
Qed.

Lemma says_literal : forall us args o m, says us args o m -> convs us = [] ->
  m = 0%nat /\ o = concat (map (fun u => match u with ULit b => b | _ => [] end) us).
Proof.
  assert (O : forall us args o rest m e, once us args o rest m e -> convs us = [] ->
    m = 0%nat /\ rest = args /\ o = concat (map (fun u => match u with ULit b => b | _ => [] end) us)).
  { intros us args o rest m e H. induction H as [args | bs us args o rest m e H IH
    | cv us args o used m o' rest m' e S H IH | cv us args o used m S]; intros E; try discriminate.
    - auto.
    - destruct (IH E) as (-> & -> & ->). auto. }
  intros us args o m H E. destruct H as [args o rest m e H _ | args o rest m o' m' H N1 N2 S].
  - destruct (O _ _ _ _ _ _ H E) as (A & _ & B). auto.
  - destruct (O _ _ _ _ _ _ H E) as (_ & A & _). contradiction.
Qed.
End Run.
