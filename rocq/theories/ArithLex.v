(** The tokenizer of arith.c implements longest match. *)
From Coq Require Import Ascii String.
From Coq Require Import List NArith ZArith Bool Lia.
From Coq Require Import ZifyBool ZifyN ZifyNat.
From Verif Require Import Common Locale NumModel ArithModel ArithSpec.
Import ListNotations.
Local Open Scope nat_scope.

Section LexProofs.
Variable L : locale.
Hypothesis Lok : locale_ok L.
Variable D : dops.
Variable exp : list N.
Hypothesis Nonul : ~ In 0%N exp.

Notation "'rest' i" := (skipn i exp) (at level 10).

Lemma rest_cons : forall i c, nth_error exp i = Some c -> rest i = c :: rest (S i).
Proof.
  clear. induction exp as [|x l IH]; intros [|i] c H; cbn in *; try discriminate.
  - congruence.
  - apply IH. exact H.
Qed.

Lemma rest_nil : rest (length exp) = [].
Proof. apply skipn_all. Qed.

Lemma getc_le : forall i, i <= length exp -> exists c, getc exp i = Ok c.
Proof.
  intros i H. unfold getc. destruct (nth_error exp i) eqn:E; eauto.
  apply nth_error_None in E. assert (i = length exp) by lia. subst. rewrite Nat.eqb_refl. eauto.
Qed.

(** The character read, and the rest of the string. *)
Lemma getc_cases : forall i, i <= length exp ->
  (exists c, getc exp i = Ok c /\ c <> 0%N /\ rest i = c :: rest (S i) /\ i < length exp) \/
  (getc exp i = Ok 0%N /\ rest i = [] /\ i = length exp).
Proof.
  intros i H. unfold getc. destruct (nth_error exp i) eqn:E.
  - left. exists n. assert (i < length exp) by (apply nth_error_Some; congruence).
    repeat split; auto.
    + intros ->. apply Nonul. eapply nth_error_In; eauto.
    + apply rest_cons; auto.
  - right. apply nth_error_None in E. assert (i = length exp) by lia. subst.
    rewrite Nat.eqb_refl. repeat split. apply rest_nil.
Qed.

Lemma space0 : iswspace L 0 = false.
Proof. rewrite (lk_space _ Lok) by lia. reflexivity. Qed.
Lemma alpha0 : iswalpha L 0 = false.
Proof. rewrite (lk_alpha _ Lok) by lia. reflexivity. Qed.
Lemma alnum0 : iswalnum L 0 = false.
Proof. unfold iswalnum. rewrite alpha0. reflexivity. Qed.

Lemma skip_spaces_spec : forall f i, i <= length exp -> length exp - i < f ->
  exists j sp, skip_spaces L exp f i = Ok j /\ i <= j <= length exp /\
    rest i = sp ++ rest j /\ Forall (fun c => iswspace L c = true) sp /\
    (forall c r, rest j = c :: r -> iswspace L c = false).
Proof.
  induction f as [|f IH]; intros i Hi Hf; [lia|]. cbn [skip_spaces].
  destruct (getc_cases i Hi) as [(c & Hg & Hc & Hr & Hl)|(Hg & Hr & Hl)]; rewrite Hg; cbn [rbind].
  - destruct (iswspace L c) eqn:Es.
    + destruct (IH (S i)) as (j & sp & H1 & H2 & H3 & H4 & H5); [lia|lia|].
      exists j, (c :: sp). rewrite H1. repeat split; auto; try lia.
      rewrite Hr, H3. reflexivity.
    + exists i, []. repeat split; auto; try lia. intros c' r' E. congruence.
  - rewrite space0. exists i, []. repeat split; auto; try lia. intros c' r' E. congruence.
Qed.

Lemma scan_alnum_spec : forall extra f i, extra <> 0%N -> i < length exp -> length exp - i <= f ->
  exists j w, scan_alnum L exp extra f i = Ok j /\ i < j <= length exp /\
    rest (S i) = w ++ rest j /\
    Forall (fun c => (N.eqb c extra || iswalnum L c) = true) w /\
    (forall c r, rest j = c :: r -> (N.eqb c extra || iswalnum L c) = false).
Proof.
  intros extra f. induction f as [|f IH]; intros i He Hi Hf; [lia|]. cbn [scan_alnum].
  destruct (getc_cases (S i)) as [(c & Hg & Hc & Hr & Hl)|(Hg & Hr & Hl)]; [lia| |]; rewrite Hg; cbn [rbind].
  - destruct (N.eqb c extra || iswalnum L c) eqn:Es.
    + destruct (IH (S i)) as (j & w & H1 & H2 & H3 & H4 & H5); [auto|lia|lia|].
      exists j, (c :: w). rewrite H1. repeat split; auto; try lia.
      rewrite Hr, H3. reflexivity.
    + exists (S i), []. repeat split; auto; try lia. intros c' r' E. congruence.
  - rewrite alnum0. destruct (N.eqb_spec 0 extra); [congruence|]. cbn [orb].
    exists (S i), []. repeat split; auto; try lia. intros c' r' E. congruence.
Qed.

Lemma last_cons : forall (c : N) w p, last (c :: w) p = last w c.
Proof.
  intros c w. revert c. induction w as [|d w IH]; intros c p; [reflexivity|].
  change (last (c :: d :: w) p) with (last (d :: w) p). rewrite IH. 
  symmetry. apply IH.
Qed.

Lemma numtail_app : forall w1 p w2, numtail L p (w1 ++ w2) <->
  numtail L p w1 /\ numtail L (last w1 p) w2.
Proof.
  induction w1 as [|c w1 IH]; intros p w2.
  - cbn. tauto.
  - rewrite last_cons. cbn [app numtail]. rewrite IH. tauto.
Qed.

Lemma alnum_numtail : forall w p, Forall (fun c => (N.eqb c 46 || iswalnum L c) = true) w ->
  numtail L p w.
Proof.
  induction w as [|c w IH]; intros p H; cbn [numtail]; auto.
  inversion H; subst. split; auto. unfold numchar. change (ch ".") with 46%N. rewrite H2. reflexivity.
Qed.

(** position of the last character scanned *)
Lemma rest_last : forall i j w p, nth_error exp i = Some p -> rest (S i) = w ++ rest j ->
  i < j <= length exp -> nth_error exp (Nat.pred j) = Some (last w p).
Proof.
  intros i j w p Hp Hr Hj.
  assert (Hlen : length w = j - S i).
  { apply (f_equal (@length N)) in Hr. rewrite app_length, !skipn_length in Hr. lia. }
  assert (Hw : forall k, k < length w -> nth_error exp (S i + k) = nth_error w k).
  { intros k Hk. rewrite <- (nth_error_app1 w (rest j)) by auto. rewrite <- Hr.
    clear. revert k. generalize (S i) as a. intros a. revert exp.
    induction a; intros l k; [reflexivity|]. destruct l; [cbn; destruct k; reflexivity|]. cbn. apply IHa. }
  destruct (exists_last (l := p :: w) ltac:(discriminate)) as (w' & x & E).
  destruct w as [|c w0].
  - cbn in *. replace (Nat.pred j) with i by lia. exact Hp.
  - rewrite last_cons. rewrite <- (last_cons c w0 p).
    assert (length (c :: w0) > 0) by (cbn; lia).
    replace (Nat.pred j) with (S i + Nat.pred (length (c :: w0))) by lia.
    rewrite Hw by lia. clear -D. revert c. induction w0; intros c; [reflexivity|].
    change (Nat.pred (length (c :: a :: w0))) with (S (Nat.pred (length (a :: w0)))). cbn [nth_error].
    rewrite IHw0. reflexivity.
Qed.

Lemma scan_number_spec : forall f i p, nth_error exp i = Some p -> length exp - i <= f ->
  exists j w, scan_number L exp f i = Ok j /\ i < j <= length exp /\
    rest (S i) = w ++ rest j /\ numtail L p w /\
    (forall c r, rest j = c :: r -> numchar L (last w p) c = false).
Proof.
  induction f as [|f IH]; intros i p Hp Hf.
  { assert (i < length exp) by (apply nth_error_Some; congruence). lia. }
  assert (Hi : i < length exp) by (apply nth_error_Some; congruence).
  cbn [scan_number].
  destruct (scan_alnum_spec 46 (S (length exp)) i) as (j & w & H1 & H2 & H3 & H4 & H5); [lia|lia|lia|].
  rewrite H1. cbn [rbind].
  pose proof (rest_last _ _ _ _ Hp H3 H2) as Hlast.
  assert (Hgl : getc exp (Nat.pred j) = Ok (last w p)) by (unfold getc; rewrite Hlast; reflexivity).
  destruct (getc_cases j) as [(c & Hg & Hc & Hr & Hl)|(Hg & Hr & Hl)]; [lia| |]; rewrite Hg; cbn [rbind].
  2:{ exists j, w. cbn. repeat split; auto; try lia; try (apply alnum_numtail; auto).
      intros c r E. congruence. }
  pose proof (H5 _ _ Hr) as H6.
  destruct (N.eqb c 43 || N.eqb c 45) eqn:Esg.
  - rewrite Hgl. cbn [rbind].
    destruct (N.eqb (last w p) 69 || N.eqb (last w p) 101) eqn:Ee.
    + destruct (IH j c) as (j' & w' & G1 & G2 & G3 & G4 & G5).
      { unfold getc in Hg. destruct (nth_error exp j) eqn:E; [congruence|].
        destruct (Nat.eqb j (length exp)); congruence. }
      { lia. }
      exists j', (w ++ c :: w'). rewrite G1. repeat split; try lia.
      * rewrite H3, Hr, G3, <- app_assoc. reflexivity.
      * apply numtail_app. split; [apply alnum_numtail; auto|]. cbn [numtail]. split; auto.
        unfold numchar. change (ch "+") with 43%N. change (ch "-") with 45%N.
        change (ch "e") with 101%N. change (ch "E") with 69%N.
        apply orb_true_iff. right. lia.
      * intros c' r E. replace (last (w ++ c :: w') p) with (last w' c); [eauto|].
        clear -D. revert p. induction w; intros p; [cbn [app]; symmetry; apply last_cons|].
        cbn [app]. rewrite last_cons. apply IHw.
    + exists j, w. repeat split; auto; try lia; try (apply alnum_numtail; auto).
      intros c' r E. rewrite Hr in E. injection E as <- _. unfold numchar.
      change (ch "+") with 43%N. change (ch "-") with 45%N.
      change (ch "e") with 101%N. change (ch "E") with 69%N. change (ch ".") with 46%N.
      rewrite H6. cbn [orb]. lia.
  - exists j, w. repeat split; auto; try lia; try (apply alnum_numtail; auto).
    intros c' r E. rewrite Hr in E. injection E as <- _. unfold numchar.
    change (ch "+") with 43%N. change (ch "-") with 45%N.
    change (ch "e") with 101%N. change (ch "E") with 69%N. change (ch ".") with 46%N.
    rewrite H6. cbn [orb]. lia.
Qed.

(** ** Words *)
Definition opchar (c : N) : bool := existsb (fun p => N.eqb c (hd 0%N (fst p))) op_table.

Lemma op_table_hd : forall w t, In (w, t) op_table ->
  exists c w', w = c :: w' /\ opchar c = true /\ (c < 128)%N /\ iswalpha c_locale c = false
    /\ c_space c = false /\ iswdigit c = false /\ c <> 46%N /\ c <> 95%N.
Proof.
  assert (H : forall p, In p op_table ->
    match fst p with
    | [] => false
    | c :: _ => opchar c && (c <? 128)%N && negb (iswalpha c_locale c) && negb (c_space c) &&
                negb (iswdigit c) && negb (N.eqb c 46) && negb (N.eqb c 95)
    end = true).
  { apply forallb_forall. vm_compute. reflexivity. }
  intros w t Hi. specialize (H _ Hi). cbn [fst] in H. destruct w as [|c w']; [discriminate|].
  exists c, w'. rewrite !andb_true_iff, !negb_true_iff in H.
  destruct H as [[[[[[H1 H2] H3] H4] H5] H6] H7].
  apply N.ltb_lt in H2. apply N.eqb_neq in H6, H7. auto 10.
Qed.

Lemma op_table_fun : forall w t t', In (w, t) op_table -> In (w, t') op_table -> t = t'.
Proof.
  assert (H : NoDup (map fst op_table)).
  { cbv. repeat constructor; cbn; intuition discriminate. }
  intros w t t' H1 H2.
  assert (G : forall (l : list (list N * tok)), NoDup (map fst l) -> In (w, t) l -> In (w, t') l -> t = t').
  { clear. induction l as [|[a b] l IH]; cbn; intros Hn K1 K2; [contradiction|].
    inversion Hn; subst. destruct K1 as [K1|K1], K2 as [K2|K2]; try congruence; auto; exfalso; apply H1.
    - injection K1 as -> ->. exact (in_map fst _ _ K2).
    - injection K2 as -> ->. exact (in_map fst _ _ K1). }
  eapply G; eauto.
Qed.

Lemma opchar_ascii : forall c, opchar c = true ->
  (c < 128)%N /\ iswalpha L c = false /\ iswspace L c = false /\ iswdigit c = false /\ c <> 46%N /\ c <> 95%N.
Proof.
  intros c H. unfold opchar in H. apply existsb_exists in H as ([w t] & Hi & He).
  destruct (op_table_hd _ _ Hi) as (c' & w' & -> & _ & H1 & H2 & H3 & H4 & H5 & H6).
  cbn in He. apply N.eqb_eq in He. subst c'.
  rewrite (lk_alpha _ Lok) by auto. rewrite (lk_space _ Lok) by auto. auto 10.
Qed.

Lemma digit_ascii : forall c, iswdigit c = true -> iswalpha L c = false /\ iswspace L c = false /\ c <> 95%N.
Proof.
  intros c H. unfold iswdigit in H. assert (c < 128)%N by lia.
  rewrite (lk_alpha _ Lok), (lk_space _ Lok) by auto.
  unfold ascii_alpha, ascii_lower, ascii_upper, c_space. lia.
Qed.

Lemma tokword_cons : forall w t, tokword L w t -> exists c w', w = c :: w' /\
  (opchar c || iswdigit c || N.eqb c 46 || iswalpha L c || N.eqb c 95) = true.
Proof.
  intros w t H. destruct H as [w t H|c w H1 H2|c w H1 H2].
  - destruct (op_table_hd _ _ H) as (c & w' & -> & Ho & _). exists c, w'. rewrite Ho. auto.
  - exists c, w. split; auto. change (ch ".") with 46%N in H1.
    apply orb_true_iff in H1 as [H1|H1]; rewrite H1; rewrite ?orb_true_r; auto.
  - exists c, w. split; auto. change (ch "_") with 95%N in H1.
    apply orb_true_iff in H1 as [H1|H1]; rewrite H1; rewrite ?orb_true_r; auto.
Qed.

Lemma tokword_nospace : forall c w t, tokword L (c :: w) t -> iswspace L c = false.
Proof.
  intros c w t H. inversion H as [? ? H0|? ? H1 H2|? ? H1 H2]; subst.
  - destruct (op_table_hd _ _ H0) as (c' & w' & E & Ho & _). injection E as <- <-.
    apply opchar_ascii in Ho. tauto.
  - change (ch ".") with 46%N in H1. apply orb_true_iff in H1 as [H1|H1].
    + apply digit_ascii; auto.
    + apply N.eqb_eq in H1. subst. rewrite (lk_space _ Lok) by lia. reflexivity.
  - change (ch "_") with 95%N in H1. apply orb_true_iff in H1 as [H1|H1].
    + destruct (iswspace L c) eqn:E; auto. apply (lk_disjoint _ Lok) in E. congruence.
    + apply N.eqb_eq in H1. subst. rewrite (lk_space _ Lok) by lia. reflexivity.
Qed.

Lemma tokword_fun : forall w t t', tokword L w t -> tokword L w t' -> t = t'.
Proof.
  intros w t t' H1 H2.
  assert (Hx : forall c w t, In (c :: w, t) op_table ->
     (iswdigit c || (c =? ch ".")%N) = true \/ (iswalpha L c || (c =? ch "_")%N) = true -> False).
  { intros c w0 t0 Hi Ho. destruct (op_table_hd _ _ Hi) as (c' & w' & E & Hoc & _). injection E as <- <-.
    apply opchar_ascii in Hoc as (A1 & A2 & A3 & A4 & A5 & A6).
    change (ch ".") with 46%N in Ho. change (ch "_") with 95%N in Ho. rewrite A2, A4 in Ho. lia. }
  assert (Hy : forall c, (iswdigit c || (c =? ch ".")%N) = true -> (iswalpha L c || (c =? ch "_")%N) = true -> False).
  { intros c Ha Hb. change (ch ".") with 46%N in Ha. change (ch "_") with 95%N in Hb.
    apply orb_true_iff in Ha as [Ha|Ha].
    - apply digit_ascii in Ha as (A1 & A2 & A3). rewrite A1 in Hb. lia.
    - apply N.eqb_eq in Ha. subst. rewrite (lk_alpha _ Lok) in Hb by lia. discriminate. }
  inversion H1; subst; inversion H2; subst; try reflexivity; try (exfalso; eauto; fail).
  eapply op_table_fun; eauto.
Qed.

(** ** One token *)
Definition spaces (w : list N) : Prop := Forall (fun c => iswspace L c = true) w.

Definition munch (s : list N) (t : tok) (s' : list N) : Prop :=
  exists sp w, s = sp ++ w ++ s' /\ spaces sp /\ tokword L w t /\ longest L w (w ++ s').

Lemma munch_fun : forall s t1 s1 t2 s2, munch s t1 s1 -> munch s t2 s2 -> t1 = t2 /\ s1 = s2.
Proof.
  intros s t1 s1 t2 s2 (sp1 & w1 & E1 & P1 & T1 & M1) (sp2 & w2 & E2 & P2 & T2 & M2).
  assert (Hw : w1 ++ s1 = w2 ++ s2).
  { rewrite E1 in E2. clear E1 M1 M2.
    destruct (tokword_cons _ _ T1) as (c1 & w1' & -> & _).
    destruct (tokword_cons _ _ T2) as (c2 & w2' & -> & _).
    apply tokword_nospace in T1, T2.
    revert sp2 P2 E2. induction sp1 as [|x sp1 IH]; intros [|y sp2] P2 E2; cbn [app] in E2.
    - exact E2.
    - exfalso. injection E2 as -> _. inversion P2; congruence.
    - exfalso. injection E2 as -> _. inversion P1; congruence.
    - injection E2 as -> E2. inversion P1; inversion P2; subst. eapply IH; eauto. }
  assert (length w1 = length w2).
  { pose proof (M1 w2 t2 s2 Hw T2). pose proof (M2 w1 t1 s1 (eq_sym Hw) T1). lia. }
  assert (w1 = w2 /\ s1 = s2) as [-> ->].
  { clear -Hw H. revert w2 Hw H. induction w1; intros [|b w2] Hw H; cbn in *; try discriminate; auto.
    injection Hw as -> Hw. destruct (IHw1 w2) as [-> ->]; auto. }
  split; auto. eapply tokword_fun; eauto.
Qed.

Lemma lexes_spaces : forall sp s ts, spaces sp -> lexes L s ts -> lexes L (sp ++ s) ts.
Proof.
  induction sp as [|c sp IH]; intros s ts H1 H2; auto. inversion H1; subst. cbn [app].
  apply lex_space; auto.
Qed.

Lemma lexes_nil_inv : forall s, lexes L s [] -> spaces s.
Proof.
  intros s H. remember [] as ts eqn:E. induction H; try discriminate; subst.
  - constructor.
  - constructor; auto. apply IHlexes; auto.
Qed.

Lemma lexes_cons_inv : forall s t ts, lexes L s (t :: ts) -> exists s', munch s t s' /\ lexes L s' ts.
Proof.
  intros s t ts H. remember (t :: ts) as l eqn:E. induction H; try discriminate; subst.
  - destruct (IHlexes eq_refl) as (s' & (sp & w & E1 & P & T & M) & H').
    exists s'. split; auto. exists (c :: sp), w. subst s. repeat split; auto. constructor; auto.
  - injection E as -> ->. exists s. split; auto. exists [], w. repeat split; auto. constructor.
Qed.

Lemma munch_lexes : forall s t s' ts, munch s t s' -> lexes L s' ts -> lexes L s (t :: ts).
Proof.
  intros s t s' ts (sp & w & -> & P & T & M) H. apply lexes_spaces; auto. apply lex_tok; auto.
Qed.

(** ** Longest match of each kind of word *)
Lemma longest_num : forall c w s, (iswdigit c || N.eqb c 46) = true ->
  (forall x r, s = x :: r -> numchar L (last w c) x = false) -> longest L (c :: w) (c :: w ++ s).
Proof.
  intros c w s Hc Hs w' t' u' E T.
  destruct (tokword_cons _ _ T) as (c' & w'' & -> & _). cbn [app] in E. injection E as <- E.
  assert (Hn : numtail L c w'').
  { inversion T as [? ? H|? ? H0 H2|? ? H0 H2]; subst; auto.
    - exfalso. destruct (op_table_hd _ _ H) as (x & y & Exy & Ho & _). injection Exy as <- <-.
      apply opchar_ascii in Ho as (A1 & A2 & A3 & A4 & A5 & A6). rewrite A4 in Hc. lia.
    - exfalso. change (ch "_") with 95%N in H0. apply orb_true_iff in Hc as [Hc|Hc].
      + apply digit_ascii in Hc as (A1 & A2 & A3). rewrite A1 in H0. lia.
      + apply N.eqb_eq in Hc. subst. rewrite (lk_alpha _ Lok) in H0 by lia. discriminate. }
  cbn [length]. apply le_n_S. clear T Hc. revert c w'' Hs E Hn.
  induction w as [|x w IH]; intros c w'' Hs E Hn; cbn [app] in E.
  - destruct w'' as [|y w'']; [lia|]. exfalso. cbn [app] in E. specialize (Hs _ _ E). cbn in Hs.
    destruct Hn as [Hn _]. congruence.
  - destruct w'' as [|y w'']; [cbn; lia|]. cbn [app] in E. injection E as <- E. destruct Hn as [_ Hn].
    cbn [length]. apply le_n_S. eapply IH; eauto. intros z r Hz. rewrite <- (last_cons x w c). eauto.
Qed.

Lemma longest_id : forall c w s, (N.eqb c 95 || iswalpha L c) = true ->
  (forall x r, s = x :: r -> (N.eqb x 95 || iswalnum L x) = false) -> longest L (c :: w) (c :: w ++ s).
Proof.
  intros c w s Hc Hs w' t' u' E T.
  destruct (tokword_cons _ _ T) as (c' & w'' & -> & _). cbn [app] in E. injection E as <- E.
  assert (Hn : Forall (fun x => (iswalnum L x || N.eqb x 95) = true) w'').
  { inversion T as [? ? H|? ? H0 H2|? ? H0 H2]; subst; auto.
    - exfalso. destruct (op_table_hd _ _ H) as (x & y & Exy & Ho & _). injection Exy as <- <-.
      apply opchar_ascii in Ho as (A1 & A2 & A3 & A4 & A5 & A6). rewrite A2 in Hc. lia.
    - exfalso. change (ch ".") with 46%N in H0. apply orb_true_iff in H0 as [H0|H0].
      + apply digit_ascii in H0 as (A1 & A2 & A3). rewrite A1 in Hc. lia.
      + apply N.eqb_eq in H0. subst. rewrite (lk_alpha _ Lok) in Hc by lia. discriminate. }
  cbn [length]. apply le_n_S. clear T Hc. revert w'' E Hn.
  induction w as [|x w IH]; intros w'' E Hn; cbn [app] in E.
  - destruct w'' as [|y w'']; [lia|]. exfalso. cbn [app] in E. specialize (Hs _ _ E). cbn in Hs.
    inversion Hn; subst. rewrite orb_comm in Hs. congruence.
  - destruct w'' as [|y w'']; [cbn; lia|]. cbn [app] in E. injection E as <- E. inversion Hn; subst.
    cbn [length]. apply le_n_S. eapply IH; eauto.
Qed.

Fixpoint is_pref (w s : list N) : bool :=
  match w, s with
  | [], _ => true
  | _, [] => false
  | a :: w', b :: s' => N.eqb a b && is_pref w' s'
  end.
Lemma is_pref_app : forall w s, is_pref w (w ++ s) = true.
Proof. induction w; intros; cbn; auto. rewrite N.eqb_refl. cbn. auto. Qed.

Definition maxop (n : nat) (s : list N) : bool :=
  forallb (fun p => negb (is_pref (fst p) s) || Nat.leb (length (fst p)) n) op_table.

Lemma longest_op : forall c w s, opchar c = true -> maxop (length (c :: w)) (c :: w ++ s) = true ->
  longest L (c :: w) (c :: w ++ s).
Proof.
  intros c w s Hc Hm w' t' u' E T.
  assert (Hin : In (w', t') op_table).
  { destruct (opchar_ascii _ Hc) as (A1 & A2 & A3 & A4 & A5 & A6).
    inversion T as [? ? H|? ? H H2|? ? H H2]; subst; auto; exfalso; cbn [app] in E; injection E as <- E.
    - rewrite A4 in H. change (ch ".") with 46%N in H. lia.
    - rewrite A2 in H. change (ch "_") with 95%N in H. lia. }
  unfold maxop in Hm. rewrite forallb_forall in Hm. specialize (Hm _ Hin). cbn [fst] in Hm.
  rewrite E in Hm. rewrite is_pref_app in Hm. cbn in Hm. apply Nat.leb_le in Hm. exact Hm.
Qed.

(** ** next_token *)
Notation st := ArithModel.st.

Definition tok_end (t : tok) : bool := match t with TNull | TInvalid => true | _ => false end.

Definition next_post (s s' : st) : Prop :=
  (s' = set_tk (set_idx s (length exp)) TNull /\ spaces (rest (idx s))) \/
  (exists i t, s' = set_tk (set_idx s i) t /\ tok_end t = false /\ idx s < i <= length exp /\
     munch (rest (idx s)) t (rest i)) \/
  (exists i c r, s' = set_tk (fail (set_idx s i) (MBadChar c)) TInvalid /\ idx s <= i <= length exp /\
     (exists sp, rest (idx s) = sp ++ c :: r /\ spaces sp) /\ iswspace L c = false /\
     (forall w t u, c :: r = w ++ u -> ~ tokword L w t)).

Lemma munch_intro : forall i0 sp i j w t, rest i0 = sp ++ rest i -> spaces sp ->
  rest i = w ++ rest j -> tokword L w t -> longest L w (w ++ rest j) -> munch (rest i0) t (rest j).
Proof. intros. exists sp, w. rewrite H, H1. auto. Qed.

Ltac one_tok i c :=
  right; left; exists (S i); eexists; split; [reflexivity|]; split; [reflexivity|]; split; [lia|];
  eapply munch_intro with (w := [c]); eauto;
  [apply tw_op; cbv; tauto | apply longest_op; [reflexivity|]].

Lemma op1 : forall (s : st) i c sp t, rest (idx s) = sp ++ rest i -> spaces sp -> idx s <= i ->
  i < length exp -> rest i = c :: rest (S i) -> opchar c = true -> In ([c], t) op_table -> tok_end t = false ->
  maxop 1 (c :: rest (S i)) = true ->
  next_post s (set_tk (set_idx s (S i)) t).
Proof.
  intros s i c sp t H1 H2 H3 H4 H5 H6 H7 H8 H9. right. left. exists (S i), t.
  repeat split; auto; try lia.
  eapply munch_intro with (w := [c]); eauto; [apply tw_op; auto|]. apply longest_op; auto.
Qed.

Lemma op2 : forall (s : st) i c d sp t, rest (idx s) = sp ++ rest i -> spaces sp -> idx s <= i ->
  S i < length exp -> rest i = c :: rest (S i) -> rest (S i) = d :: rest (S (S i)) ->
  opchar c = true -> In ([c; d], t) op_table -> tok_end t = false ->
  maxop 2 (c :: d :: rest (S (S i))) = true ->
  next_post s (set_tk (set_idx s (S (S i))) t).
Proof.
  intros s i c d sp t H1 H2 H3 H4 H5 H5' H6 H7 H8 H9. right. left. exists (S (S i)), t.
  repeat split; auto; try lia.
  eapply munch_intro with (w := [c; d]); eauto; [rewrite H5, H5'; reflexivity|apply tw_op; auto|].
  apply longest_op; auto.
Qed.

Lemma op3 : forall (s : st) i c d x sp t, rest (idx s) = sp ++ rest i -> spaces sp -> idx s <= i ->
  S (S i) < length exp -> rest i = c :: rest (S i) -> rest (S i) = d :: rest (S (S i)) ->
  rest (S (S i)) = x :: rest (S (S (S i))) ->
  opchar c = true -> In ([c; d; x], t) op_table -> tok_end t = false ->
  maxop 3 (c :: d :: x :: rest (S (S (S i)))) = true ->
  next_post s (set_tk (set_idx s (S (S (S i)))) t).
Proof.
  intros s i c d x sp t H1 H2 H3 H4 H5 H5' H5'' H6 H7 H8 H9. right. left. exists (S (S (S i))), t.
  repeat split; auto; try lia.
  eapply munch_intro with (w := [c; d; x]); eauto; [rewrite H5, H5', H5''; reflexivity|apply tw_op; auto|].
  apply longest_op; auto.
Qed.

Ltac intable := cbv; repeat ((left; reflexivity) || right).
Ltac maxtac :=
  unfold maxop; cbn; rewrite ?N.eqb_refl;
  repeat match goal with
  | H : (_ =? _)%N = _ |- _ => rewrite ?H; clear H
  end; cbn; auto.

(** Keep only the inequalities on positions. *)
Ltac qlia := repeat match goal with
  | H : ?T |- _ => lazymatch T with
    | (_ <= _)%nat => fail | (_ < _)%nat => fail | (_ <= _ <= _)%nat => fail | (_ < _ <= _)%nat => fail
    | @eq nat _ _ => fail | nat => fail | list N => fail | _ => clear H end
  end; lia.

Lemma next_token_spec : forall s : st, idx s <= length exp ->
  exists s', next_token L exp s = Ok s' /\ next_post s s'.
Proof.
  intros s Hs. unfold next_token.
  destruct (skip_spaces_spec (S (length exp)) (idx s)) as (i & sp & H1 & H2 & H3 & H4 & H5); [lia|lia|].
  rewrite H1. cbn [rbind].
  destruct (getc_cases i) as [(c & Hg & Hc & Hr & Hl)|(Hg & Hr & Hl)]; [lia| |]; rewrite Hg; cbn [rbind].
  2:{ eexists; split; [reflexivity|]. left. split; [congruence|]. rewrite H3, Hr, app_nil_r. exact H4. }
  rewrite (proj2 (N.eqb_neq c 0)) by auto.
  pose proof (H5 _ _ Hr) as Hns.
  assert (Hid : (c =? 95)%N || iswalpha L c = true -> exists s',
     (let! j := scan_alnum L exp 95 (S (length exp)) i in
      Ok (set_tk (set_idx (set_idx s i) j) (TIdent (slice exp i j))))%res = Ok s' /\ next_post s s').
  { intros Hc1. destruct (scan_alnum_spec 95 (S (length exp)) i) as (j & w & G1 & G2 & G3 & G4 & G5); [lia|lia|lia|].
    rewrite G1. cbn [rbind]. eexists; split; [reflexivity|]. right. left. exists j, (TIdent (slice exp i j)).
    assert (Hsl : slice exp i j = c :: w).
    { unfold slice. assert (Hlen : length w = j - S i).
      { apply (f_equal (@length N)) in G3. rewrite app_length, !skipn_length in G3. lia. }
      rewrite Hr, G3. replace (j - i) with (S (length w)) by lia. cbn [firstn]. f_equal.
      rewrite firstn_app, Nat.sub_diag, firstn_all. cbn. apply app_nil_r. }
    rewrite Hsl. repeat split; auto; try lia.
    eapply munch_intro with (w := c :: w); eauto.
    - rewrite Hr, G3. reflexivity.
    - apply tw_id; [rewrite orb_comm; exact Hc1|]. eapply Forall_impl; [|exact G4].
      intros a Ha. rewrite orb_comm. exact Ha.
    - cbn [app]. apply longest_id; auto. }
  assert (Hnum : iswdigit c || (c =? 46)%N = true -> exists s',
     (let! j := scan_number L exp (S (length exp)) i in
      Ok (set_tk (set_idx (set_idx s i) j) (TNumber (slice exp i j))))%res = Ok s' /\ next_post s s').
  { intros Hc1. destruct (scan_number_spec (S (length exp)) i c) as (j & w & G1 & G2 & G3 & G4 & G5).
    { unfold getc in Hg. destruct (nth_error exp i); [congruence|]. destruct (Nat.eqb i (length exp)); congruence. }
    { lia. }
    rewrite G1. cbn [rbind]. eexists; split; [reflexivity|]. right. left. exists j, (TNumber (slice exp i j)).
    assert (Hsl : slice exp i j = c :: w).
    { unfold slice. assert (Hlen : length w = j - S i).
      { apply (f_equal (@length N)) in G3. rewrite app_length, !skipn_length in G3. lia. }
      rewrite Hr, G3. replace (j - i) with (S (length w)) by lia. cbn [firstn]. f_equal.
      rewrite firstn_app, Nat.sub_diag, firstn_all. cbn. apply app_nil_r. }
    rewrite Hsl. repeat split; auto; try lia.
    eapply munch_intro with (w := c :: w); eauto.
    - rewrite Hr, G3. reflexivity.
    - apply tw_num; auto.
    - cbn [app]. apply longest_num; auto. }
  assert (Hone : forall t, opchar c = true -> In ([c], t) op_table -> tok_end t = false ->
    maxop 1 (c :: rest (S i)) = true ->
    exists s', Ok (set_tk (set_idx (set_idx s i) (S i)) t) = Ok s' /\ next_post s s').
  { intros t K1 K2 K3 K4. eexists; split; [reflexivity|]. eapply (op1 s); eauto. qlia. }
  assert (Heq : forall te t, opchar c = true -> In ([c], t) op_table -> In ([c; 61%N], te) op_table ->
    tok_end t = false -> tok_end te = false ->
    maxop 1 [c] = true ->
    (forall d r, d <> 61%N -> maxop 1 (c :: d :: r) = true) ->
    (forall r, maxop 2 (c :: 61%N :: r) = true) ->
    exists s', (let! d := getc exp (S i) in
      if (d =? 61)%N then Ok (set_tk (set_idx (set_idx s i) (S (S i))) te)
      else Ok (set_tk (set_idx (set_idx s i) (S i)) t))%res = Ok s' /\ next_post s s').
  { intros te t K1 K2 K3 K4 K5 K6 K7 K8.
    destruct (getc_cases (S i)) as [(d & Gg & Gc & Gr & Gl)|(Gg & Gr & Gl)]; [qlia| |]; rewrite Gg; cbn [rbind].
    - destruct (N.eqb_spec d 61) as [->|Hd].
      + eexists; split; [reflexivity|]. eapply (op2 s) with (c := c) (d := 61%N); eauto. qlia.
      + apply Hone; auto. rewrite Gr. auto.
    - apply Hone; auto. rewrite Gr. auto. }
  assert (Htw : forall tt te t, opchar c = true -> c <> 61%N ->
    In ([c], t) op_table -> In ([c; 61%N], te) op_table -> In ([c; c], tt) op_table ->
    tok_end t = false -> tok_end te = false -> tok_end tt = false ->
    maxop 1 [c] = true ->
    (forall d r, d <> 61%N -> d <> c -> maxop 1 (c :: d :: r) = true) ->
    (forall r, maxop 2 (c :: 61%N :: r) = true) -> (forall r, maxop 2 (c :: c :: r) = true) ->
    exists s', (let! d := getc exp (S i) in
      if (d =? c)%N then Ok (set_tk (set_idx (set_idx s i) (S (S i))) tt)
      else if (d =? 61)%N then Ok (set_tk (set_idx (set_idx s i) (S (S i))) te)
      else Ok (set_tk (set_idx (set_idx s i) (S i)) t))%res = Ok s' /\ next_post s s').
  { intros tt te t K1 K1' K2 K3 K3' K4 K5 K5' K6 K7 K8 K8'.
    destruct (getc_cases (S i)) as [(d & Gg & Gc & Gr & Gl)|(Gg & Gr & Gl)]; [qlia| |]; rewrite Gg; cbn [rbind].
    - destruct (N.eqb_spec d c) as [->|Hdc].
      { eexists; split; [reflexivity|]. eapply (op2 s) with (c := c) (d := c); eauto. qlia. }
      destruct (N.eqb_spec d 61) as [->|Hd].
      + eexists; split; [reflexivity|]. eapply (op2 s) with (c := c) (d := 61%N); eauto. qlia.
      + apply Hone; auto. rewrite Gr. auto.
    - rewrite (proj2 (N.eqb_neq 0 c)) by auto. apply Hone; auto. rewrite Gr. auto. }
  assert (Hang : forall t te tt tte, opchar c = true -> c <> 61%N ->
    In ([c], t) op_table -> In ([c; 61%N], te) op_table -> In ([c; c], tt) op_table ->
    In ([c; c; 61%N], tte) op_table ->
    tok_end t = false -> tok_end te = false -> tok_end tt = false -> tok_end tte = false ->
    maxop 1 [c] = true -> maxop 2 [c; c] = true ->
    (forall d r, d <> 61%N -> d <> c -> maxop 1 (c :: d :: r) = true) ->
    (forall r, maxop 2 (c :: 61%N :: r) = true) ->
    (forall d r, d <> 61%N -> maxop 2 (c :: c :: d :: r) = true) ->
    (forall r, maxop 3 (c :: c :: 61%N :: r) = true) ->
    exists s', (let! d := getc exp (S i) in
      let! e := getc exp (if (d =? c)%N then S (S i) else S i) in
      Ok (set_tk (set_idx (set_idx s i)
             (if (e =? 61)%N then S (if (d =? c)%N then S (S i) else S i)
              else if (d =? c)%N then S (S i) else S i))
            (if (d =? c)%N then (if (e =? 61)%N then tte else tt)
             else (if (e =? 61)%N then te else t))))%res = Ok s' /\ next_post s s').
  { intros t te tt tte K1 K1' K2 K3 K4 K5 K6 K7 K8 K9 M1 M2 M3 M4 M5 M6.
    destruct (getc_cases (S i)) as [(d & Gg & Gc & Gr & Gl)|(Gg & Gr & Gl)]; [qlia| |]; rewrite Gg; cbn [rbind].
    - destruct (N.eqb_spec d c) as [->|Hdc].
      + destruct (getc_cases (S (S i))) as [(x & Xg & Xc & Xr & Xl)|(Xg & Xr & Xl)]; [qlia| |]; rewrite Xg; cbn [rbind].
        * destruct (N.eqb_spec x 61) as [->|Hx]; (eexists; split; [reflexivity|]).
          -- eapply (op3 s) with (c := c) (d := c) (x := 61%N); eauto. qlia.
          -- eapply (op2 s) with (c := c) (d := c); eauto 1; [qlia|]. rewrite Xr. auto.
        * eexists; split; [reflexivity|]. cbn [N.eqb].
          eapply (op2 s) with (c := c) (d := c); eauto 1; [qlia|]. rewrite Xr. auto.
      + rewrite Gg. cbn [rbind]. destruct (N.eqb_spec d 61) as [->|Hd]; (eexists; split; [reflexivity|]).
        * eapply (op2 s) with (c := c) (d := 61%N); eauto. qlia.
        * eapply (op1 s); eauto 1; [qlia|]. rewrite Gr. auto.
    - rewrite (proj2 (N.eqb_neq 0 c)) by auto. rewrite Gg. cbn [rbind].
      eexists; split; [reflexivity|]. cbn [N.eqb]. eapply (op1 s); eauto 1; [qlia|]. rewrite Gr. auto. }
  assert (Hmx : forall d, d <> 61%N -> (61 =? d)%N = false) by (intros d Hd; apply N.eqb_neq; auto).
  Ltac fin Hmx := try (reflexivity);
    try (cbv; repeat ((left; reflexivity) || right); fail);
    try discriminate;
    intros;
    repeat match goal with H : _ <> ch ?x |- _ => let v := eval vm_compute in (ch x) in change (ch x) with v in H end;
    unfold maxop; cbv -[N.eqb andb orb negb];
    repeat match goal with
    | |- context [N.eqb ?a ?b] =>
        let v := eval vm_compute in (N.eqb a b) in
        match v with true => change (N.eqb a b) with true | false => change (N.eqb a b) with false end
    | H : ?d <> ?k |- context [(?k =? ?d)%N] =>
        rewrite (proj2 (N.eqb_neq k d) (fun E => H (eq_sym E)))
    end; cbn [andb orb negb]; auto.
  cbn beta zeta.
  destruct (N.eqb_spec c (ch "(")) as [->|N1]; [apply Hone; fin Hmx|].
  destruct (N.eqb_spec c (ch ")")) as [->|N2]; [apply Hone; fin Hmx|].
  destruct (N.eqb_spec c (ch "~")) as [->|N3]; [apply Hone; solve [fin Hmx]|].
  destruct (N.eqb_spec c (ch "!")) as [->|N4]; [apply Heq; solve [fin Hmx]|].
  destruct (N.eqb_spec c (ch "%")) as [->|N5]; [apply Heq; solve [fin Hmx]|].
  destruct (N.eqb_spec c (ch "+")) as [->|N6]; [apply Htw; solve [fin Hmx]|].
  destruct (N.eqb_spec c (ch "-")) as [->|N7]; [apply Htw; solve [fin Hmx]|].
  destruct (N.eqb_spec c (ch "*")) as [->|N8]; [apply Heq; solve [fin Hmx]|].
  destruct (N.eqb_spec c (ch "/")) as [->|N9]; [apply Heq; solve [fin Hmx]|].
  destruct (N.eqb_spec c (ch "<")) as [->|N10]; [apply Hang; solve [fin Hmx]|].
  destruct (N.eqb_spec c (ch ">")) as [->|N11]; [apply Hang; solve [fin Hmx]|].
  destruct (N.eqb_spec c (ch "=")) as [->|N12]; [apply Heq; solve [fin Hmx]|].
  destruct (N.eqb_spec c (ch "&")) as [->|N13]; [apply Htw; solve [fin Hmx]|].
  destruct (N.eqb_spec c (ch "|")) as [->|N14]; [apply Htw; solve [fin Hmx]|].
  destruct (N.eqb_spec c (ch "^")) as [->|N15]; [apply Heq; solve [fin Hmx]|].
  destruct (N.eqb_spec c (ch "?")) as [->|N16]; [apply Hone; solve [fin Hmx]|].
  destruct (N.eqb_spec c (ch ":")) as [->|N17]; [apply Hone; solve [fin Hmx]|].
  destruct (N.eqb_spec c (ch "_")) as [->|N18]; [apply Hid; reflexivity|].
  change (ch ".") with 46%N. rewrite (orb_comm (N.eqb c 46)).
  destruct (iswdigit c || N.eqb c 46) eqn:Ed; [apply Hnum; reflexivity|].
  destruct (iswalpha L c) eqn:Ea; [apply Hid; apply orb_true_r|].
  eexists; split; [reflexivity|]. right. right. exists i, c, (rest (S i)).
  split; [reflexivity|]. split; [qlia|]. split; [|split; [exact Hns|]].
  - exists sp. rewrite H3, Hr. split; [reflexivity|exact H4].
  - intros w t u E T. destruct (tokword_cons _ _ T) as (c' & w' & -> & Hc').
    cbn [app] in E. injection E as <- E.
    change (ch "_") with 95%N in N18. rewrite Ea in Hc'.
    rewrite orb_false_r, (proj2 (N.eqb_neq c 95) N18), orb_false_r, <- orb_assoc, Ed, orb_false_r in Hc'.
    unfold opchar in Hc'. cbv -[N.eqb orb] in Hc'.
    rewrite (proj2 (N.eqb_neq c 40) N1), (proj2 (N.eqb_neq c 41) N2), (proj2 (N.eqb_neq c 126) N3),
      (proj2 (N.eqb_neq c 33) N4), (proj2 (N.eqb_neq c 37) N5), (proj2 (N.eqb_neq c 43) N6),
      (proj2 (N.eqb_neq c 45) N7), (proj2 (N.eqb_neq c 42) N8), (proj2 (N.eqb_neq c 47) N9),
      (proj2 (N.eqb_neq c 60) N10), (proj2 (N.eqb_neq c 62) N11), (proj2 (N.eqb_neq c 61) N12),
      (proj2 (N.eqb_neq c 38) N13), (proj2 (N.eqb_neq c 124) N14), (proj2 (N.eqb_neq c 94) N15),
      (proj2 (N.eqb_neq c 63) N16), (proj2 (N.eqb_neq c 58) N17) in Hc'.
    discriminate Hc'.
Qed.
End LexProofs.
