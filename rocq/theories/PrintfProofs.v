(** Formats and the printf built-in. *)
From Coq Require Import Ascii String.
From Coq Require Import List NArith ZArith Bool Lia Arith.
From Coq Require Import ZifyBool ZifyN ZifyNat.
From Verif Require Import Common Locale NumModel NumProofs PrintfModel PrintfSpec PrintfEsc PrintfConv.
Import ListNotations.
Local Open Scope N_scope.

Section Run.
Variable enc : N -> option (list N).
Hypothesis ascii : ascii_enc enc.
Variable L : locale.
Hypothesis Lok : locale_ok L.
Variable flt_print : list N -> list N -> option (list N).
Variable flt_valid : list N -> bool.

(** ** Conversion specifications *)
Definition fmt_of (cv : conv) : format_T :=
  if existsb (N.eqb (cv_c cv)) (str "di") then F_CONV FT_INT (convspec_of cv (ch "j"))
  else if existsb (N.eqb (cv_c cv)) (str "uoxX") then F_CONV FT_UINT (convspec_of cv (ch "j"))
  else if existsb (N.eqb (cv_c cv)) (str "fFeEgG") then F_CONV FT_FLOAT (convspec_of cv (ch "L"))
  else if cv_c cv =? ch "c" then F_CONV FT_CHAR (convspec_of cv (ch "l"))
  else if cv_c cv =? ch "s" then F_CONV FT_STRING (convspec_of cv (ch "l"))
  else F_ECHO (memc (ch "-") (cv_fl cv)) (N.min (decval (cv_w cv)) ULONG_MAX)
         (match cv_p cv with Some d => N.min (decval d) ULONG_MAX | None => ULONG_MAX end).

(** The parts of the text of a specification, and what the parser makes of them *)
Definition ptext (p : option (list N)) : list N := match p with Some d => ch "." :: d | None => [] end.
Definition parts (s : list N) : list N * list N * option (list N) * list N :=
  let '(fl, s) := span is_flag s in
  let '(w, s) := span iswdigit s in
  match s with
  | 46 :: s' => let '(d, s) := span iswdigit s' in (fl, w, Some d, s)
  | _ => (fl, w, None, s)
  end.
Definition finish (fl w : list N) (p : option (list N)) (s : list N) : option (format_T * list N) :=
  match s with
  | [] => None
  | c :: s' =>
      let cv := mkConv fl w p c in
      let hash := memc (ch "#") fl in
      let zero := memc (ch "0") fl in
      if existsb (N.eqb c) (str "diu") && hash then None
      else if existsb (N.eqb c) (str "csb") && (hash || zero) then None
      else if existsb (N.eqb c) (str "diuoxXfFeEgGcsb") then Some (fmt_of cv, s')
      else if c =? ch "%" then
        match fl, w, p with [], [], None => Some (F_NONE, s') | _, _, _ => None end
      else None
  end.

Lemma percent_b_ok : forall fl w p, Forall (fun c => is_flag c = true) fl ->
  Forall (fun c => iswdigit c = true) w -> (forall c, hd_error w = Some c -> is_flag c = false) ->
  (forall d, p = Some d -> Forall (fun c => iswdigit c = true) d) ->
  printf_parse_percent_b (ch "%" :: fl ++ w ++ ptext p) =
    Ok (F_ECHO (memc (ch "-") fl) (N.min (decval w) ULONG_MAX)
         (match p with Some d => N.min (decval d) ULONG_MAX | None => ULONG_MAX end)).
Proof.
  intros fl w p Hf Hw Hw0 Hp. unfold printf_parse_percent_b. change (ch "%") with 37. cbn iota.
  rewrite span_app; [|exact Hf|].
  2: { intros c Hc. destruct w as [|x w]; [|apply Hw0; exact Hc]. cbn [app] in Hc.
       destruct p as [d|]; cbn in Hc; [injection Hc as <-; reflexivity | discriminate]. }
  unfold strtoul10. rewrite span_app; [|exact Hw|].
  2: { intros c Hc. destruct p as [d|]; cbn in Hc; [injection Hc as <-; reflexivity | discriminate]. }
  destruct p as [d|]; cbn [ptext].
  - change (ch ".") with 46. cbn iota. replace (span iswdigit d) with (d, @nil N); [reflexivity|].
    symmetry. rewrite <- (app_nil_r d) at 1. apply span_app; [apply Hp; reflexivity | discriminate].
  - reflexivity.
Qed.

Ltac cases_c c :=
  repeat match goal with
  | |- context [if (c =? ?x) then _ else _] => let E := fresh in destruct (c =? x) eqn:E; [apply N.eqb_eq in E; subst c|]
  end.

Lemma percent_eq : forall s, printf_parse_percent s =
  (let '(fl, w, p, s') := parts s in Ok (finish fl w p s')).
Proof.
  intros s. unfold printf_parse_percent, parts.
  destruct (span is_flag s) as [fl s1] eqn:E1. destruct (span_split _ _ _ _ E1) as (-> & Hf & Hs1).
  destruct (span iswdigit s1) as [w s2] eqn:E2. destruct (span_split _ _ _ _ E2) as (-> & Hw & Hs2).
  assert (Hw0 : forall c, hd_error w = Some c -> is_flag c = false).
  { intros c Hc. apply Hs1. destruct w; [discriminate | exact Hc]. }
  assert (G : forall p s3, (forall d, p = Some d -> Forall (fun c => iswdigit c = true) d) ->
    match s3 with
    | [] => Ok None
    | c :: s' =>
        if ((c =? ch "d") || (c =? ch "i"))%N then
          if memc (ch "#") fl then Ok None else Ok (Some (F_CONV FT_INT ((ch "%" :: fl ++ w ++ ptext p) ++ [ch "j"; c]), s'))
        else if (c =? ch "u")%N then
          if memc (ch "#") fl then Ok None else Ok (Some (F_CONV FT_UINT ((ch "%" :: fl ++ w ++ ptext p) ++ [ch "j"; c]), s'))
        else if ((c =? ch "o") || (c =? ch "x") || (c =? ch "X"))%N then
          Ok (Some (F_CONV FT_UINT ((ch "%" :: fl ++ w ++ ptext p) ++ [ch "j"; c]), s'))
        else if ((c =? ch "f") || (c =? ch "F") || (c =? ch "e") || (c =? ch "E") ||
                 (c =? ch "g") || (c =? ch "G"))%N then
          Ok (Some (F_CONV FT_FLOAT ((ch "%" :: fl ++ w ++ ptext p) ++ [ch "L"; c]), s'))
        else if (c =? ch "c")%N then
          if memc (ch "#") fl || memc (ch "0") fl then Ok None
          else Ok (Some (F_CONV FT_CHAR ((ch "%" :: fl ++ w ++ ptext p) ++ [ch "l"; c]), s'))
        else if (c =? ch "s")%N then
          if memc (ch "#") fl || memc (ch "0") fl then Ok None
          else Ok (Some (F_CONV FT_STRING ((ch "%" :: fl ++ w ++ ptext p) ++ [ch "l"; c]), s'))
        else if (c =? ch "b")%N then
          if memc (ch "#") fl || memc (ch "0") fl then Ok None
          else rbind (printf_parse_percent_b (ch "%" :: fl ++ w ++ ptext p)) (fun f => Ok (Some (f, s')))
        else if (c =? ch "%")%N then
          if negb (Nat.eqb (length (ch "%" :: fl ++ w ++ ptext p)) 1) then Ok None else Ok (Some (F_NONE, s'))
        else Ok None
    end = Ok (finish fl w p s3)).
  { intros p s3 Hp. destruct s3 as [|c s3]; [reflexivity|]. unfold finish.
    assert (CS : forall l x, (ch "%" :: fl ++ w ++ ptext p) ++ [l; x] = convspec_of (mkConv fl w p x) l).
    { intros l x. unfold convspec_of, ptext. cbn [cv_fl cv_w cv_p cv_c app]. rewrite <- !app_assoc. reflexivity. }
    assert (Mem : forall x y, existsb (N.eqb x) (str y) = memc x (str y)) by reflexivity.
    rewrite !CS, percent_b_ok by assumption. unfold fmt_of. cbn [cv_c cv_fl cv_w cv_p rbind].
    destruct (N.eq_dec c (ch "d")) as [->|H1]; [cbn; destruct (memc 35 fl); reflexivity|].
    destruct (N.eq_dec c (ch "i")) as [->|H2]; [cbn; destruct (memc 35 fl); reflexivity|].
    destruct (N.eq_dec c (ch "u")) as [->|H3]; [cbn; destruct (memc 35 fl); reflexivity|].
    destruct (N.eq_dec c (ch "o")) as [->|H4]; [reflexivity|].
    destruct (N.eq_dec c (ch "x")) as [->|H5]; [reflexivity|].
    destruct (N.eq_dec c (ch "X")) as [->|H6]; [reflexivity|].
    destruct (N.eq_dec c (ch "f")) as [->|H7]; [reflexivity|].
    destruct (N.eq_dec c (ch "F")) as [->|H8]; [reflexivity|].
    destruct (N.eq_dec c (ch "e")) as [->|H9]; [reflexivity|].
    destruct (N.eq_dec c (ch "E")) as [->|H10]; [reflexivity|].
    destruct (N.eq_dec c (ch "g")) as [->|H11]; [reflexivity|].
    destruct (N.eq_dec c (ch "G")) as [->|H12]; [reflexivity|].
    destruct (N.eq_dec c (ch "c")) as [->|H13]; [cbn; destruct (memc 35 fl), (memc 48 fl); reflexivity|].
    destruct (N.eq_dec c (ch "s")) as [->|H14]; [cbn; destruct (memc 35 fl), (memc 48 fl); reflexivity|].
    destruct (N.eq_dec c (ch "b")) as [->|H15]; [cbn; destruct (memc 35 fl), (memc 48 fl); reflexivity|].
    apply N.eqb_neq in H1, H2, H3, H4, H5, H6, H7, H8, H9, H10, H11, H12, H13, H14, H15.
    cbn [existsb str]. fold (ch "d") (ch "i") (ch "u") (ch "o") (ch "x") (ch "X") (ch "f") (ch "F") (ch "e") (ch "E")
      (ch "g") (ch "G") (ch "c") (ch "s") (ch "b").
    rewrite H1, H2, H3, H4, H5, H6, H7, H8, H9, H10, H11, H12, H13, H14, H15. cbn [orb andb].
    destruct (c =? ch "%"); [|reflexivity].
    destruct fl as [|x fl]; [destruct w as [|x w]; [destruct p as [d|]|]|]; try reflexivity.
  }
  destruct s2 as [|c s2]; [apply (G None []); discriminate|].
  destruct (N.eq_dec c 46) as [->|Hc].
  - destruct (span iswdigit s2) as [d s3] eqn:E3. destruct (span_split _ _ _ _ E3) as (-> & Hd & Hs3).
    apply (G (Some d) s3). intros d' [= <-]. exact Hd.
  - specialize (G None (c :: s2)). destruct c as [|q]; [apply G; discriminate|].
    do 6 (destruct q as [q|q|]; try (apply G; discriminate)). exfalso. apply Hc. reflexivity.
Qed.

Lemma parts_sound : forall s fl w p s', parts s = (fl, w, p, s') ->
  s = fl ++ w ++ ptext p ++ s' /\ Forall (fun c => In c (str "-+ #0")) fl /\ Forall digit10 w /\
  hd_error w <> Some (ch "0") /\ (forall d, p = Some d -> Forall digit10 d).
Proof.
  intros s fl w p s' H. unfold parts in H.
  destruct (span is_flag s) as [fl' s1] eqn:E1. destruct (span_split _ _ _ _ E1) as (-> & Hf & Hs1).
  destruct (span iswdigit s1) as [w' s2] eqn:E2. destruct (span_split _ _ _ _ E2) as (-> & Hw & Hs2).
  assert (R : fl = fl' /\ w = w' /\ (ptext p ++ s' = s2) /\ (forall d, p = Some d -> Forall digit10 d)).
  { destruct s2 as [|c s2]; [injection H as <- <- <- <-; repeat split; auto; discriminate|].
    destruct (N.eq_dec c 46) as [->|Hc].
    - destruct (span iswdigit s2) as [d s3] eqn:E3. destruct (span_split _ _ _ _ E3) as (-> & Hd & Hs3).
      injection H as <- <- <- <-. repeat split; auto. intros d' [= <-].
      eapply Forall_impl; [|exact Hd]. intros c. apply iswdigit_iff.
    - assert (Q : (fl', w', @None (list N), c :: s2) = (fl, w, p, s')).
      { destruct c as [|q]; [exact H|].
        do 6 (destruct q as [q|q|]; try exact H). exfalso. apply Hc. reflexivity. }
      injection Q as <- <- <- <-. repeat split; auto. discriminate. }
  destruct R as (-> & -> & <- & Hp). split; [reflexivity|]. split; [|split; [|split; [|exact Hp]]].
  - eapply Forall_impl; [|exact Hf]. intros c. apply is_flag_iff.
  - eapply Forall_impl; [|exact Hw]. intros c. apply iswdigit_iff.
  - intros Q. destruct w' as [|x w']; [discriminate|]. injection Q as ->. specialize (Hs1 _ eq_refl). discriminate.
Qed.
Lemma in_existsb : forall c y, existsb (N.eqb c) y = true <-> In c y.
Proof. intros. apply memc_iff. Qed.
Lemma in_existsb_not : forall c y, existsb (N.eqb c) y = false <-> ~ In c y.
Proof. intros. apply memc_not. Qed.

Lemma conv_text_app : forall cv s, conv_text cv ++ s = ch "%" :: cv_fl cv ++ cv_w cv ++ ptext (cv_p cv) ++ cv_c cv :: s.
Proof. intros cv s. unfold conv_text, ptext. cbn [app]. rewrite <- !app_assoc. reflexivity. Qed.

Lemma percent_conv : forall cv s, conv_ok cv ->
  printf_parse_percent (tl (conv_text cv ++ s)) = Ok (Some (fmt_of cv, s)).
Proof.
  intros cv s K. rewrite conv_text_app. cbn [tl]. rewrite percent_eq. unfold parts.
  destruct (spans cv (cv_c cv :: s) K) as (A & B & C).
  { intros c [= <-]. pose proof (ck_c _ K) as Hc. cbn in Hc. unfold digit10. cbn.
    repeat (destruct Hc as [<-|Hc]; [repeat split; try lia; intuition discriminate|]). contradiction. }
  fold (ptext (cv_p cv)) in A, B. rewrite A, B.
  assert (F : finish (cv_fl cv) (cv_w cv) (cv_p cv) (cv_c cv :: s) = Some (fmt_of cv, s)).
  { unfold finish. destruct K as [K1 K2 K3 K4 K5 K6 K7].
    replace (existsb (N.eqb (cv_c cv)) (str "diu") && memc (ch "#") (cv_fl cv)) with false.
    2: { symmetry. destruct (existsb (N.eqb (cv_c cv)) (str "diu")) eqn:E; [|reflexivity].
         apply in_existsb in E. apply memc_not. apply K6. cbn in E |- *. tauto. }
    replace (existsb (N.eqb (cv_c cv)) (str "csb") && (memc (ch "#") (cv_fl cv) || memc (ch "0") (cv_fl cv))) with false.
    2: { symmetry. destruct (existsb (N.eqb (cv_c cv)) (str "csb")) eqn:E; [|reflexivity].
         apply in_existsb in E. cbn [andb]. apply orb_false_iff. split; apply memc_not; [apply K6 | apply K7; exact E].
         cbn in E |- *. tauto. }
    apply in_existsb in K5. rewrite K5. destruct cv; reflexivity. }
  destruct (cv_p cv) as [d|] eqn:Ep; cbn [ptext app].
  - change (ch ".") with 46. rewrite (C d eq_refl). cbn iota. rewrite F. reflexivity.
  - assert (X : cv_c cv <> 46).
    { pose proof (ck_c _ K) as Hc. intros Q. rewrite Q in Hc. cbn in Hc. intuition discriminate. }
    rewrite <- F. destruct (cv_c cv) as [|q]; [reflexivity|].
    do 6 (destruct q as [q|q|]; try reflexivity). exfalso. apply X. reflexivity.
Qed.
Lemma percent_percent : forall s, printf_parse_percent (ch "%" :: s) = Ok (Some (F_NONE, s)).
Proof. reflexivity. Qed.

Lemma percent_sound : forall s, exists r, printf_parse_percent s = Ok r /\
  match r with
  | None => True
  | Some (f, s') => (length s' < length s)%nat /\
      ((exists cv, conv_ok cv /\ ch "%" :: s = conv_text cv ++ s' /\ f = fmt_of cv) \/
       (s = ch "%" :: s' /\ f = F_NONE))
  end.
Proof.
  intros s. rewrite percent_eq. destruct (parts s) as [[[fl w] p] s1] eqn:E.
  exists (finish fl w p s1). split; [reflexivity|].
  destruct (parts_sound _ _ _ _ _ E) as (-> & A & B & C & D).
  destruct (finish fl w p s1) as [[f s']|] eqn:F; [|exact I].
  destruct s1 as [|c s1]; [discriminate|]. unfold finish in F.
  destruct (existsb (N.eqb c) (str "diu") && memc (ch "#") fl) eqn:E1; [discriminate|].
  destruct (existsb (N.eqb c) (str "csb") && (memc (ch "#") fl || memc (ch "0") fl)) eqn:E2; [discriminate|].
  destruct (existsb (N.eqb c) (str "diuoxXfFeEgGcsb")) eqn:E3.
  - injection F as <- <-. split; [rewrite !app_length; cbn; lia|]. left. exists (mkConv fl w p c).
    split; [|split; [rewrite conv_text_app; reflexivity | reflexivity]].
    constructor; cbn [cv_fl cv_w cv_p cv_c]; auto.
    + apply in_existsb. exact E3.
    + intros Hc. apply memc_not. destruct (memc (ch "#") fl) eqn:M; [|reflexivity].
      rewrite andb_true_r in E1. rewrite andb_comm in E2. cbn [orb andb] in E2.
      apply in_existsb_not in E1, E2. exfalso. cbn in Hc, E1, E2. tauto.
    + intros Hc. apply memc_not. apply in_existsb in Hc. rewrite Hc in E2. cbn [andb] in E2.
      apply orb_false_iff in E2 as [_ E2]. exact E2.
  - destruct (c =? ch "%") eqn:E4; [|discriminate]. apply N.eqb_eq in E4. subst c.
    destruct fl; [|discriminate]. destruct w; [|discriminate]. destruct p; [discriminate|].
    injection F as <- <-. split; [cbn; lia|]. right. auto.
Qed.

(** ** The format *)
Inductive den : list format_T -> list unit_ -> Prop :=
  | d_nil : den [] []
  | d_empty : forall fs us, den fs us -> den fs (ULit [] :: us)
  | d_none : forall fs us, den fs us -> den (F_NONE :: fs) (ULit [ch "%"] :: us)
  | d_raw : forall ls fs us, den fs us -> den (F_RAW (concat ls) :: fs) (map ULit ls ++ us)
  | d_conv : forall cv fs us, conv_ok cv -> den fs us -> den (fmt_of cv :: fs) (UConv cv :: us).

Lemma den_make : forall ls fs us, den fs us -> den (make_string (concat ls) fs) (map ULit ls ++ us).
Proof.
  intros ls fs us H. destruct (concat ls) as [|b bs] eqn:E.
  - cbn [make_string]. induction ls as [|l ls IH]; [exact H|]. cbn in E. apply app_eq_nil in E as [-> E].
    cbn [map app]. constructor. apply IH. exact E.
  - unfold make_string. rewrite <- E. constructor. exact H.
Qed.

Lemma printf_char_iff : forall x b, printf_char x = Some b <-> In (x, b) printf_table.
Proof.
  intros x b. split.
  - unfold printf_char. intros H.
    repeat match type of H with
    | (if ?t then _ else _) = _ => let E := fresh in destruct t eqn:E;
        [apply N.eqb_eq in E; subst x; injection H as <-; cbn; tauto|]
    end. discriminate.
  - intros H. cbn in H.
    repeat (destruct H as [H|H]; [injection H as <- <-; reflexivity|]). contradiction.
Qed.
Lemma printf_char_none : forall x, printf_char x = None <-> forall b, ~ In (x, b) printf_table.
Proof.
  intros x. split.
  - intros H b Hb. apply printf_char_iff in Hb. congruence.
  - intros H. destruct (printf_char x) as [b|] eqn:E; [|reflexivity].
    apply printf_char_iff in E. destruct (H b E).
Qed.
Lemma printf_char_oct : forall x, octdigit x -> printf_char x = None.
Proof.
  intros x (d & Hd & ->).
  assert (d = 0 \/ d = 1 \/ d = 2 \/ d = 3 \/ d = 4 \/ d = 5 \/ d = 6 \/ d = 7) as Q by lia.
  destruct Q as [->|[->|[->|[->|[->|[->|[->| ->]]]]]]]; reflexivity.
Qed.

Definition lits (ls : list (list N)) (us : list unit_) := map ULit ls ++ us.
Lemma format_complete : forall s us, is_format enc s us -> forall fuel buf, (length s <= fuel)%nat ->
  exists fs, printf_parse_format enc fuel s buf = Ok (Some fs) /\
    forall ls, concat ls = buf -> den fs (lits ls us).
Proof.
  assert (Snoc : forall ls bs us, lits (ls ++ [bs]) us = lits ls (ULit bs :: us)).
  { intros. unfold lits. rewrite map_app, <- app_assoc. reflexivity. }
  assert (Cat : forall (ls : list (list N)) (bs buf : list N), concat ls = buf -> concat (ls ++ [bs]) = buf ++ bs).
  { intros ls bs buf <-. rewrite concat_app. cbn. rewrite app_nil_r. reflexivity. }
  intros s us H. induction H as
    [| c s bs us Hc1 Hc2 He H IH | x b s us Hi H IH | ds v s us Ho Hn H IH | s us Hx H IH | s us H IH | cv s us K H IH];
    intros fuel buf Hf.
  - exists (make_string buf []). split; [destruct fuel; reflexivity|].
    intros ls <-. apply (den_make ls [] []). constructor.
  - cbn in Hf. destruct fuel as [|fuel]; [lia|]. cbn [printf_parse_format].
    replace (c =? ch "%") with false by (symmetry; apply N.eqb_neq; assumption).
    replace (c =? ch "\") with false by (symmetry; apply N.eqb_neq; assumption).
    rewrite He. destruct (IH fuel (buf ++ bs)) as (fs & A & B); [lia|]. exists fs. split; [exact A|].
    intros ls E. rewrite <- Snoc. apply B. apply Cat. exact E.
  - cbn in Hf. destruct fuel as [|fuel]; [lia|]. cbn [printf_parse_format].
    change (ch "\" =? ch "%") with false. rewrite N.eqb_refl. cbn iota.
    apply printf_char_iff in Hi. rewrite Hi.
    destruct (IH fuel (buf ++ [b])) as (fs & A & B); [lia|]. exists fs. split; [exact A|].
    intros ls E. rewrite <- Snoc. apply B. apply Cat. exact E.
  - cbn in Hf. rewrite app_length in Hf. destruct fuel as [|fuel]; [lia|]. cbn [printf_parse_format].
    change (ch "\" =? ch "%") with false. rewrite N.eqb_refl. cbn iota.
    pose proof (oct3_scan _ _ _ Ho) as Sc. destruct Ho as (O1 & O2 & O3). apply oct_iff in O1 as [O1 Ov].
    destruct ds as [|d ds]; [contradiction|]. inversion O1 as [|? ? Od _]; subst.
    cbn [app] in Sc |- *. rewrite (printf_char_oct d Od).
    replace (is_octal d) with true by (symmetry; apply is_octal_iff; exact Od). rewrite Sc.
    destruct (IH fuel (buf ++ [to_char (oval 0 (d :: ds))])) as (fs & A & B); [lia|]. exists fs. split; [exact A|].
    intros ls E. rewrite <- Snoc. apply B. apply Cat. exact E.
  - cbn in Hf. destruct fuel as [|fuel]; [lia|]. cbn [printf_parse_format].
    change (ch "\" =? ch "%") with false. rewrite N.eqb_refl. cbn iota.
    assert (En : enc (ch "\") = Some [ch "\"]) by (apply ascii; cbn; lia). rewrite En.
    destruct (IH fuel (buf ++ [ch "\"])) as (fs & A & B); [lia|]. exists fs. split.
    2: { intros ls E. rewrite <- Snoc. apply B. apply Cat. exact E. }
    destruct s as [|x s]; [exact A|]. destruct (Hx x eq_refl) as [X1 X2]. apply printf_char_none in X2. rewrite X2.
    replace (is_octal x) with false; [exact A|]. symmetry. destruct (is_octal x) eqn:E; [|reflexivity].
    apply is_octal_iff in E. contradiction.
  - cbn in Hf. destruct fuel as [|fuel]; [lia|]. cbn [printf_parse_format].
    rewrite N.eqb_refl, percent_percent. cbn [rbind].
    destruct (IH fuel []) as (fs & A & B); [lia|]. rewrite A. cbn [rbind].
    exists (make_string buf (F_NONE :: fs)). split; [reflexivity|]. intros ls <-. apply den_make.
    constructor. apply (B []). reflexivity.
  - destruct fuel as [|fuel]; [rewrite conv_text_app in Hf; cbn in Hf; lia|].
    pose proof (percent_conv cv s K) as P. rewrite conv_text_app in *. cbn [tl] in P.
    cbn [printf_parse_format]. rewrite N.eqb_refl, P. cbn [rbind].
    destruct (IH fuel []) as (fs & A & B).
    { cbn in Hf. rewrite !app_length in Hf. cbn in Hf. lia. }
    rewrite A. cbn [rbind]. exists (make_string buf (fmt_of cv :: fs)). split; [reflexivity|].
    intros ls <-. apply den_make. constructor; [exact K|]. apply (B []). reflexivity.
Qed.

Lemma format_sound : forall fuel s buf, (length s <= fuel)%nat -> exists r,
  printf_parse_format enc fuel s buf = Ok r /\ (r <> None -> exists us, is_format enc s us).
Proof.
  induction fuel as [|fuel IH]; intros s buf Hf.
  { destruct s; [|cbn in Hf; lia]. eexists. split; [reflexivity|]. intros _. exists []. constructor. }
  destruct s as [|c s].
  { eexists. split; [reflexivity|]. intros _. exists []. constructor. }
  cbn in Hf. cbn [printf_parse_format].
  destruct (c =? ch "%") eqn:Ep.
  { apply N.eqb_eq in Ep. subst c. destruct (percent_sound s) as (r & -> & R). cbn [rbind].
    destruct r as [[f s2]|]; [|exists None; split; [reflexivity | congruence]].
    destruct R as [Len R]. destruct (IH s2 []) as (r & -> & R2); [lia|]. cbn [rbind].
    destruct r as [fs|]; [|exists None; split; [reflexivity | congruence]].
    eexists. split; [reflexivity|]. intros _. destruct R2 as [us Hu]; [discriminate|].
    destruct R as [(cv & K & E & ->)|[-> ->]].
    - exists (UConv cv :: us). rewrite E. constructor; assumption.
    - exists (ULit [ch "%"] :: us). apply if_percent. exact Hu. }
  apply N.eqb_neq in Ep. destruct (c =? ch "\") eqn:Eb.
  2: { apply N.eqb_neq in Eb. destruct (enc c) as [bs|] eqn:E; [|exists None; split; [reflexivity | congruence]].
       destruct (IH s (buf ++ bs)) as (r & -> & R); [lia|]. exists r. split; [reflexivity|]. intros Q.
       destruct (R Q) as [us Hu]. exists (ULit bs :: us). constructor; assumption. }
  apply N.eqb_eq in Eb. subst c.
  assert (En : enc (ch "\") = Some [ch "\"]) by (apply ascii; cbn; lia). rewrite En.
  assert (Normal : (forall x, hd_error s = Some x -> ~ octdigit x /\ forall b, ~ In (x, b) printf_table) ->
    exists r, printf_parse_format enc fuel s (buf ++ [ch "\"]) = Ok r /\
      (r <> None -> exists us, is_format enc (ch "\" :: s) us)).
  { intros Hx. destruct (IH s (buf ++ [ch "\"])) as (r & -> & R); [lia|]. exists r. split; [reflexivity|]. intros Q.
    destruct (R Q) as [us Hu]. exists (ULit [ch "\"] :: us). apply if_other; assumption. }
  destruct s as [|x s]; [apply Normal; discriminate|].
  destruct (printf_char x) as [b|] eqn:E1.
  { cbn in Hf. destruct (IH s (buf ++ [b])) as (r & -> & R); [lia|]. exists r. split; [reflexivity|]. intros Q.
    destruct (R Q) as [us Hu]. exists (ULit [b] :: us). apply if_esc; [apply printf_char_iff; exact E1 | exact Hu]. }
  destruct (is_octal x) eqn:E2.
  { destruct (scan_octal 3 0 (x :: s)) as [v s3] eqn:E3.
    pose proof (scan_octal_len _ _ _ _ _ E3). cbn in Hf.
    assert (Hd : exists ds, x :: s = ds ++ s3 /\ oct3 ds v s3 /\ ds <> []).
    { destruct (scan_octal3 _ _ _ E3) as (ds & A & B). exists ds. repeat split; try apply B; auto.
      intros ->. cbn in A. subst s3. destruct B as (_ & _ & [B|B]); [discriminate|].
      apply (B x eq_refl). apply is_octal_iff. exact E2. }
    destruct Hd as (ds & A & B & C).
    assert (Len : (length s3 <= length s)%nat).
    { destruct ds; [contradiction|]. cbn in A. injection A as _ ->. rewrite app_length. lia. }
    destruct (IH s3 (buf ++ [to_char v])) as (r & -> & R); [cbn in *; lia|]. exists r. split; [reflexivity|]. intros Q.
    destruct (R Q) as [us Hu]. rewrite A. exists (ULit [v mod 256] :: us). apply if_oct; assumption. }
  apply Normal. intros y [= <-]. split.
  - intros O. apply is_octal_iff in O. congruence.
  - apply printf_char_none. exact E1.
Qed.

(** ** One conversion *)
Definition wide_ok (args : list (list N)) : Prop := Forall (Forall (fun c => c < 2 ^ 31)) args.
Notation shows := (shows enc L flt_print flt_valid).
Notation once := (once enc L flt_print flt_valid).
Notation says := (says enc L flt_print flt_valid).

Definition conv_bad (cv : conv) (args : list (list N)) : Prop :=
  ~ (conv_fits cv /\ forall a, In a args -> arg_fits enc a).

Lemma fits_spec : forall cv, conv_ok cv -> conv_fits cv ->
  sp_width (spec_of cv) <= billion /\ (forall p, sp_prec (spec_of cv) = Some p -> p <= billion).
Proof.
  intros cv K (_ & A & B). split; [apply A, spec_width; exact K|].
  intros p Hp. apply B. pose proof (spec_prec cv K) as Q. rewrite Hp in Q. exact Q.
Qed.
Lemma vsn_ok : forall cv l v, conv_ok cv -> In l (str "jlL") -> (forall a, v <> VFlt a) ->
  (forall o, vsnprintf enc flt_print (convspec_of cv l) v = Some o -> format_value enc (spec_of cv) v = Some o) /\
  (conv_fits cv -> forall o, format_value enc (spec_of cv) v = Some o -> len o <= 2 * billion ->
     vsnprintf enc flt_print (convspec_of cv l) v = Some o).
Proof.
  intros cv l v K Hl Hv. unfold vsnprintf. rewrite (parse_spec_ok cv l K Hl).
  assert (E : forall A (x : list N -> A) (y : A), match v with VFlt a => x a | _ => y end = y).
  { intros A x y. destruct v; try reflexivity. destruct (Hv s eq_refl). }
  rewrite E. split.
  - intros o. destruct (_ || _); [discriminate|]. destruct (format_value enc (spec_of cv) v) as [o'|]; [|discriminate].
    destruct (INT_MAX <? Z.of_N (lenN o'))%Z; [discriminate|]. auto.
  - intros F o Ho Hlen. destruct (fits_spec cv K F) as [Fw Fp]. unfold billion in *.
    replace (INT_MAX <? Z.of_N (sp_width (spec_of cv)))%Z with false by (unfold INT_MAX; lia).
    replace (match sp_prec (spec_of cv) with Some p => (INT_MAX <? Z.of_N p)%Z | None => false end) with false.
    2: { destruct (sp_prec (spec_of cv)) as [p|]; [|reflexivity]. specialize (Fp p eq_refl). unfold INT_MAX. lia. }
    cbn [orb]. rewrite Ho. change lenN with len.
    replace (INT_MAX <? Z.of_N (len o))%Z with false by (unfold INT_MAX; lia). reflexivity.
Qed.

Lemma convspec_text : forall cv l, convspec_of cv l = removelast (conv_text cv) ++ [l; cv_c cv].
Proof.
  intros cv l. unfold convspec_of, conv_text.
  change (ch "%" :: cv_fl cv ++ cv_w cv ++ (match cv_p cv with Some d => ch "." :: d | None => [] end) ++ [cv_c cv])
    with ((ch "%" :: cv_fl cv) ++ cv_w cv ++ (match cv_p cv with Some d => ch "." :: d | None => [] end) ++ [cv_c cv]).
  rewrite !(app_assoc _ _ [cv_c cv]), removelast_last. cbn [app]. rewrite <- !app_assoc. reflexivity.
Qed.

Lemma arg_wide : forall args, wide_ok args ->
  forall a, fst (next args) = Some a -> Forall (fun c => (c < 2 ^ 31)) a.
Proof. intros args H a Ha. destruct args as [|x args]; [discriminate|]. injection Ha as <-. inversion H; assumption. Qed.
Lemma next_eq : forall args, next args = (hd_error args, tl args).
Proof. destruct args; reflexivity. Qed.

Ltac in_cases H := cbn in H; repeat (destruct H as [H|H]; [|]); [..|contradiction].

Lemma printf_printf_ok : forall cv args, conv_ok cv -> wide_ok args -> exists r o rest m,
  printf_printf enc L flt_print flt_valid (fmt_of cv) args = Ok (r, o, rest, m) /\
  match r with
  | PR_ERROR => conv_bad cv args
  | _ => exists used, shows cv (hd_error args) o used m (match r with PR_OK => false | _ => true end) /\
      rest = (if used then tl args else args) /\
      (used = false -> cv_c cv = ch "c" /\ (args = [] \/ exists args', args = [] :: args'))
  end /\ (r = PR_OK_END -> cv_c cv = ch "b").
Proof.
  intros cv args K W. unfold printf_printf. rewrite next_eq.
  assert (Bad : forall x, hd_error args = Some x -> conv_fits cv -> (forall a, In a args -> arg_fits enc a) -> arg_fits enc x).
  { intros x Hx F A. apply A. destruct args; [discriminate|]. injection Hx as ->. left. reflexivity. }
  assert (Wa : forall a, hd_error args = Some a -> Forall (fun c => (c < 2 ^ 31)) a).
  { intros a Ha. apply (arg_wide args W). rewrite next_eq. exact Ha. }
  assert (Given : (forall a, In a args -> arg_fits enc a) ->
     arg_fits enc (match hd_error args with Some a => a | None => [] end)).
  { intros A. destruct args as [|x args]; [exists []; split; [constructor | cbn; unfold billion; lia]|]. apply A. left. reflexivity. }
  assert (Done : forall l v m, In l (str "jlL") -> (forall a, v <> VFlt a) ->
    (forall o, format_value enc (spec_of cv) v = Some o -> shows cv (hd_error args) o true m false) ->
    (conv_fits cv -> (forall a, In a args -> arg_fits enc a) ->
       exists o, format_value enc (spec_of cv) v = Some o /\ len o <= 2 * billion) ->
    exists r o rest m',
      match vsnprintf enc flt_print (convspec_of cv l) v with
      | Some o => Ok (PR_OK, o, tl args, m)
      | None => Ok (PR_ERROR, [], tl args, m)
      end = Ok (r, o, rest, m') /\
      match r with
      | PR_ERROR => conv_bad cv args
      | _ => exists used, shows cv (hd_error args) o used m' (match r with PR_OK => false | _ => true end) /\
          rest = (if used then tl args else args) /\
          (used = false -> cv_c cv = ch "c" /\ (args = [] \/ exists args', args = [] :: args'))
      end /\ (r = PR_OK_END -> cv_c cv = ch "b")).
  { intros l v m Hl Hv S1 S2. destruct (vsn_ok cv l v K Hl Hv) as [V1 V2].
    destruct (vsnprintf enc flt_print (convspec_of cv l) v) as [o|].
    - exists PR_OK, o, (tl args), m. split; [reflexivity|]. split; [|discriminate]. exists true.
      split; [apply S1, V1; reflexivity|]. split; [reflexivity | discriminate].
    - exists PR_ERROR, [], (tl args), m. split; [reflexivity|]. split; [|discriminate]. intros [F A].
      destruct (S2 F A) as (o & O1 & O2). pose proof (V2 F o O1 O2). discriminate. }
  unfold fmt_of.
  destruct (existsb (N.eqb (cv_c cv)) (str "di")) eqn:E1.
  { (* signed *)
    apply in_existsb in E1.
    assert (Base : conv_base (cv_c cv) = 10 /\ (if cv_c cv =? ch "X" then ch "A" else ch "a") = ch "a" /\ In (cv_c cv) (str "diuoxX")).
    { cbn in E1. destruct E1 as [<-|[<-|[]]]; cbn; tauto. }
    destruct Base as (B1 & B2 & B3).
    pose proof (parse_integer_ok L Lok (hd_error args) true Wa) as PI.
    pose proof (parse_int_range L Lok (hd_error args) true Wa) as PR. cbn iota in PR.
    unfold parse_int in PI, PR. destruct (printf_parse_integer L (hd_error args) true) as [v m]. cbn [fst snd] in PI, PR.
    apply Done; [cbn; tauto | discriminate | |].
    - intros o. cbn [format_value]. intros [= <-]. apply (sh_int _ _ _ _ _ _ (to_intmax v)); [exact E1 | exact PI|].
      rewrite <- B1. apply fmt_int_ok; [exact K | exact B3 | symmetry; exact B2|].
      unfold sign_of. rewrite (proj2 (in_existsb _ _) E1). unfold flag. cbn [spec_of sp_fl].
      change (memc 43) with (memc (ch "+")). change (memc 32) with (memc (ch " ")).
      destruct (to_intmax v <? 0)%Z; [left; auto|].
      destruct (memc (ch "+") (cv_fl cv)) eqn:M1; [right; left; apply memc_iff in M1; auto|]. apply memc_not in M1.
      destruct (memc (ch " ") (cv_fl cv)) eqn:M2.
      + apply memc_iff in M2. right. right. left. auto.
      + apply memc_not in M2. right. right. right. auto.
    - intros F _. cbn [format_value]. eexists. split; [reflexivity|]. destruct (fits_spec cv K F) as [Fw Fp].
      rewrite <- B1. apply fmt_int_len; auto.
      + unfold is_long, LONG_MIN, LONG_MAX in PR. change (2 ^ 64) with 18446744073709551616. lia.
      + cbn [spec_of sp_fl]. destruct (to_intmax v <? 0)%Z; [cbn; lia|].
        destruct (memc (ch "+") (cv_fl cv)); [cbn; lia|]. destruct (memc (ch " ") (cv_fl cv)); cbn; lia. }
  destruct (existsb (N.eqb (cv_c cv)) (str "uoxX")) eqn:E2.
  { apply in_existsb in E2.
    assert (B3 : In (cv_c cv) (str "diuoxX")) by (cbn in E2 |- *; tauto).
    pose proof (parse_integer_ok L Lok (hd_error args) false Wa) as PI.
    pose proof (parse_int_range L Lok (hd_error args) false Wa) as PR. cbn iota in PR.
    unfold parse_int in PI, PR. destruct (printf_parse_integer L (hd_error args) false) as [v m]. cbn [fst snd] in PI, PR.
    apply Done; [cbn; tauto | discriminate | |].
    - intros o. cbn [format_value]. change (sp_conv (spec_of cv)) with (cv_c cv). fold (conv_base (cv_c cv)). intros [= <-].
      apply (sh_uint _ _ _ _ _ _ v); [exact E2 | exact PI|].
      apply fmt_int_ok; [exact K | exact B3 | reflexivity|].
      unfold sign_of. rewrite E1. unfold flag. cbn [spec_of sp_fl].
      change 35 with (ch "#"). change 120 with (ch "x"). change 88 with (ch "X").
      destruct (memc (ch "#") (cv_fl cv)) eqn:M1; cbn [andb].
      2: { apply memc_not in M1. right. split; [tauto | reflexivity]. }
      apply memc_iff in M1. destruct (Z.to_N v =? 0) eqn:Z0; cbn [negb].
      { right. split; [|reflexivity]. intros (_ & _ & Q). lia. }
      destruct (cv_c cv =? ch "x") eqn:X1.
      { apply N.eqb_eq in X1. left. rewrite X1. repeat split; auto. lia. }
      destruct (cv_c cv =? ch "X") eqn:X2.
      { apply N.eqb_eq in X2. left. rewrite X2. repeat split; auto. lia. }
      right. split; [|reflexivity]. apply N.eqb_neq in X1, X2. tauto.
    - intros F _. cbn [format_value]. change (sp_conv (spec_of cv)) with (cv_c cv). fold (conv_base (cv_c cv)).
      eexists. split; [reflexivity|]. destruct (fits_spec cv K F) as [Fw Fp].
      apply fmt_int_len; auto.
      + change (2 ^ 64)%Z with 18446744073709551616%Z in PR. change (2 ^ 64) with 18446744073709551616. lia.
      + destruct (memc (ch "#") (sp_fl (spec_of cv)) && negb (Z.to_N v =? 0)); [|cbn; lia].
        destruct (cv_c cv =? ch "x"); [cbn; lia|]. destruct (cv_c cv =? ch "X"); cbn; lia. }
  destruct (existsb (N.eqb (cv_c cv)) (str "fFeEgG")) eqn:E3.
  { apply in_existsb in E3. cbn [vsnprintf].
    set (a := match hd_error args with Some a => a | None => str "0" end).
    destruct (flt_print (convspec_of cv (ch "L")) a) as [o|] eqn:E.
    - exists PR_OK, o, (tl args), (if flt_valid a then 0%nat else 1%nat). split; [reflexivity|]. split; [|discriminate].
      exists true. split; [|split; [reflexivity | discriminate]]. rewrite convspec_text in E.
      apply (sh_flt _ _ _ _ _ _ a o); auto.
    - exists PR_ERROR, [], (tl args), (if flt_valid a then 0%nat else 1%nat). split; [reflexivity|]. split; [|discriminate].
      intros [(F & _) _]. contradiction. }
  destruct (cv_c cv =? ch "c") eqn:E4.
  { apply N.eqb_eq in E4.
    assert (None_ : match hd_error args with Some a => a | None => [] end = [] ->
      exists r o rest m, Ok (PR_OK, [], args, 0%nat) = Ok (r, o, rest, m) /\
      match r with
      | PR_ERROR => conv_bad cv args
      | _ => exists used, shows cv (hd_error args) o used m (match r with PR_OK => false | _ => true end) /\
          rest = (if used then tl args else args) /\
          (used = false -> cv_c cv = ch "c" /\ (args = [] \/ exists args', args = [] :: args'))
      end /\ (r = PR_OK_END -> cv_c cv = ch "b")).
    { intros Q. exists PR_OK, [], args, 0%nat. split; [reflexivity|]. split; [|discriminate]. exists false.
      split; [apply sh_nochr; assumption|]. split; [reflexivity|]. intros _. split; [exact E4|].
      destruct args as [|[|c x] args]; [left; reflexivity | right; exists args; reflexivity | discriminate]. }
    destruct args as [|[|c x] args]; [apply None_; reflexivity | apply None_; reflexivity|].
    cbn [hd_error tl] in *. clear None_. apply Done; [cbn; tauto | discriminate | |].
    - intros o. cbn [format_value]. destruct (enc c) as [bs|] eqn:Ec; [|discriminate]. cbn [option_map]. intros [= <-].
      apply (sh_chr _ _ _ _ _ _ (sp_width (spec_of cv)) c x bs); auto; [apply spec_width; exact K | apply pad_ok].
    - intros F A. cbn [format_value]. destruct (A (c :: x)) as (bs & B1 & B2); [left; reflexivity|].
      inversion B1 as [|? ? b o Eb Ho]; subst. rewrite Eb. cbn [option_map]. eexists. split; [reflexivity|].
      destruct (fits_spec cv K F) as [Fw Fp]. rewrite pad_len. rewrite len_app in B2. unfold billion in *. lia. }
  destruct (cv_c cv =? ch "s") eqn:E5.
  { apply N.eqb_eq in E5. apply Done; [cbn; tauto | discriminate | |].
    - intros o. cbn [format_value].
      destruct (conv_str enc (sp_prec (spec_of cv)) _) as [t|] eqn:Ec; [|discriminate]. cbn [option_map]. intros [= <-].
      apply (sh_str _ _ _ _ _ _ (sp_width (spec_of cv)) (sp_prec (spec_of cv)) t); auto;
        [apply spec_width; exact K | apply spec_prec; exact K | apply conv_str_ok; exact Ec | apply pad_ok].
    - intros F A. cbn [format_value]. destruct (Given A) as (bs & B1 & B2).
      destruct (conv_str_some enc _ (sp_prec (spec_of cv)) _ B1) as (t & -> & Lt). cbn [option_map].
      eexists. split; [reflexivity|]. destruct (fits_spec cv K F) as [Fw Fp]. rewrite pad_len. unfold billion in *. lia. }
  assert (E6 : cv_c cv = ch "b").
  { pose proof (ck_c _ K) as Hc. apply in_existsb_not in E1, E2, E3. apply N.eqb_neq in E4, E5.
    cbn in Hc, E1, E2, E3. change (ch "c") with 99 in E4. change (ch "s") with 115 in E5. change (ch "b") with 98. lia. }
  set (a := match hd_error args with Some a => a | None => [] end).
  unfold printf_print_escape. destruct (escape_sound enc ascii (length a) a [] (le_n _)) as (r & b & Q & R).
  rewrite Q. cbn [rbind app].
  set (mx := match cv_p cv with Some d => N.min (decval d) ULONG_MAX | None => ULONG_MAX end).
  set (wd := N.min (decval (cv_w cv)) ULONG_MAX).
  set (sub := if mx <? lenN b then firstn (N.to_nat mx) b else b).
  assert (Sub : bytes_prefix mx b sub).
  { unfold sub. change lenN with len. destruct (mx <? len b) eqn:E.
    - exists (skipn (N.to_nat mx) b). split; [symmetry; apply firstn_skipn|]. unfold len in *. rewrite firstn_length. lia.
    - exists []. split; [rewrite app_nil_r; reflexivity | lia]. }
  assert (Just : justified cv wd sub (if wd <=? lenN sub then sub
      else if memc (ch "-") (cv_fl cv) then sub ++ spaces (wd - lenN sub) else spaces (wd - lenN sub) ++ sub)).
  { pose proof (pad_ok cv wd sub) as P. destruct (wd <=? lenN sub) eqn:E; [|exact P].
    replace sub with (pad (memc (ch "-") (cv_fl cv)) wd sub) at 2; [exact P|]. unfold pad, spaces.
    replace (wd - lenN sub) with 0 by lia. destruct (memc (ch "-") (cv_fl cv)); [apply app_nil_r | reflexivity]. }
  set (o := if wd <=? lenN sub then sub
      else if memc (ch "-") (cv_fl cv) then sub ++ spaces (wd - lenN sub) else spaces (wd - lenN sub) ++ sub) in *.
  assert (Fin : (if wd <=? lenN sub then Ok (r, sub) else
      Ok (r, if memc (ch "-") (cv_fl cv) then sub ++ spaces (wd - lenN sub) else spaces (wd - lenN sub) ++ sub)) = Ok (r, o)).
  { unfold o. destruct (wd <=? lenN sub); reflexivity. }
  rewrite Fin. cbn [rbind].
  exists r, o, (tl args), 0%nat. split; [reflexivity|]. split; [|auto].
  assert (Sh : forall e, unescape enc a b e -> shows cv (hd_error args) o true 0 e).
  { intros e U. apply (sh_echo _ _ _ _ _ _ (decval (cv_w cv)) (sp_prec (spec_of cv)) b sub o e); auto.
    - apply spec_width; exact K.
    - apply spec_prec; exact K.
    - cbn [spec_of sp_prec]. unfold mx in Sub. unfold ulong_prec, ulong.
      change (2 ^ 64 - 1) with ULONG_MAX. destruct (cv_p cv); exact Sub. }
  destruct r.
  - exists true. split; [apply Sh; exact R|]. split; [reflexivity | discriminate].
  - exists true. split; [apply Sh; exact R|]. split; [reflexivity | discriminate].
  - intros [_ A]. destruct R as (c & Hc & Ec). destruct (Given A) as (bs & B1 & _). fold a in B1.
    clear - B1 Hc Ec. induction B1 as [|x s b o E H IH]; [contradiction|].
    destruct Hc as [->|Hc]; [congruence | auto].
Qed.
End Run.
