(** The primaries of the test built-in: the character switches recognise exactly
    the documented operators, and each has the documented value. *)
From Coq Require Import Ascii String.
From Coq Require Import List NArith ZArith Bool Lia.
From Coq Require Import ZifyBool ZifyN.
From Verif Require Import Common Locale NumModel NumProofs TestModel TestSpec.
Import ListNotations.

Ltac eqs H :=
  repeat match type of H with
  | context [(?a =? ?b)%N] =>
      first [is_var a; let Q := fresh "Q" in destruct (a =? b)%N eqn:Q; [apply N.eqb_eq in Q; subst a|clear Q]
            |let v := eval vm_compute in (a =? b)%N in change (a =? b)%N with v in H];
      cbn [andb orb negb] in H; try discriminate H
  end.

Lemma one_of_b : forall ops w, existsb (fun op => list_N_eqb w (str op)) ops = true <-> one_of ops w.
Proof.
  intros ops w. rewrite existsb_exists. unfold one_of. split; intros (op & H & K); exists op; split; auto;
    apply list_N_eqb_eq; auto.
Qed.

Lemma unary_iff : forall w, is_unary_primary w = true <-> one_of unary_ops w.
Proof.
  intros w. split.
  - unfold is_unary_primary, is, ends. destruct w as [|a [|b [|c w]]]; cbn [nth_error negb orb]; try discriminate.
    + destruct (a =? ch "-")%N; discriminate.
    + destruct (a =? ch "-")%N eqn:Q; [|discriminate]. apply N.eqb_eq in Q. subst a. cbn [negb orb at_ nth]. intros H.
      apply existsb_exists in H. destruct H as (c & Hc & Q). apply N.eqb_eq in Q. cbn [at_ nth] in Q. subst b.
      cbn [str In] in Hc.
      apply one_of_b. repeat destruct Hc as [<-|Hc]; try reflexivity. destruct Hc.
    + destruct (a =? ch "-")%N; discriminate.
  - intros (op & H & ->). cbn [unary_ops In] in H. repeat destruct H as [<-|H]; try reflexivity; destruct H.
Qed.

Lemma binary_iff : forall w, is_binary_primary w = true <-> one_of binary_ops w.
Proof.
  intros w. split.
  - intros H. unfold is_binary_primary, eq_tail, is, ends in H.
    destruct w as [|a [|b [|c [|d [|e w]]]]]; cbn [nth_error] in H; eqs H.
    all: try solve [apply one_of_b; reflexivity].
    discriminate H.
  - intros (op & H & ->). cbn [binary_ops In] in H. repeat destruct H as [<-|H]; try reflexivity; destruct H.
Qed.

Lemma binary_none : forall E w l r, binary_op E w l r = None <->
  is_binary_primary w = false /\ w <> str "-a" /\ w <> str "-o".
Proof.
  intros E w l r. split.
  - intros H. split; [|split; intros ->; discriminate].
    destruct (is_binary_primary w) eqn:B; [|reflexivity]. apply binary_iff in B.
    destruct B as (op & K & ->). cbn [binary_ops In] in K. repeat destruct K as [<-|K]; try discriminate; destruct K.
  - intros (H & Ha & Ho). destruct (binary_op E w l r) as [x|] eqn:B; [|reflexivity]. exfalso.
    assert (K : one_of ("-a" :: "-o" :: binary_ops)%string w).
    { clear H Ha Ho. unfold binary_op, is, ends in B.
      destruct w as [|a [|b [|c [|d [|e w]]]]]; cbn [nth_error] in B; eqs B.
      all: try solve [apply one_of_b; reflexivity].
      discriminate B. }
    destruct K as (op & [<-|[<-|K]] & ->); try congruence.
    assert (one_of binary_ops (str op)) by (exists op; auto). apply binary_iff in H0. congruence.
Qed.

Lemma delim_iff : forall w, is_term_delimiter w = true <-> w = str ")" \/ w = str "-a" \/ w = str "-o".
Proof.
  intros w. split.
  - intros H. unfold is_term_delimiter, is, ends in H.
    destruct w as [|a [|b [|c w]]]; cbn [nth_error] in H; eqs H; try discriminate H; auto.
  - intros [-> | [-> | ->]]; reflexivity.
Qed.

(** ** Integers *)
Section Env.
Context (E : tenv) (Lok : locale_ok (t_loc E)).
Local Open Scope Z_scope.

Lemma num_head : forall w z, numeral 10 w z -> exists c w', w = c :: w' /\ (48 <= c <= 57)%N.
Proof.
  intros w z H. apply numeral_iff in H; [|lia]. destruct H as (H1 & H2 & _). destruct w as [|c w]; [congruence|].
  exists c, w. split; auto. cbn [all_digits] in H2. destruct H2 as [H2 _]. unfold digitval in H2. 
  destruct ((48 <=? c) && (c <=? 57))%N eqn:Q; [lia|]. 
  destruct ((97 <=? c) && (c <=? 122))%N eqn:Q2; [lia|]. destruct ((65 <=? c) && (c <=? 90))%N eqn:Q3; lia.
Qed.

Lemma dec_spaces : forall sp r z, Forall (fun c => iswspace (t_loc E) c = true) sp ->
  dec_text E (sp ++ r) z <-> dec_text E r z.
Proof.
  intros sp r z H. induction H as [|c sp Hc H IH]; cbn [app]; [tauto|]. rewrite <- IH. split.
  - intros T. inversion T as [? ? Hi| ? ? Hi| ? ? Hi| ? ? ? Hs Hi]; subst; auto.
    + apply num_head in Hi. destruct Hi as (c' & w' & Q & Hd). injection Q as <- _.
      rewrite (nospace_ascii (t_loc E) Lok) in Hc by lia. discriminate.
    + rewrite (nospace_ascii (t_loc E) Lok) in Hc; [discriminate|cbn; lia].
    + rewrite (nospace_ascii (t_loc E) Lok) in Hc; [discriminate|cbn; lia].
  - intros T. apply dt_space; auto.
Qed.

Definition dbody (s : list N) : option Z :=
  match scan_digits 10 0 false s with (v, [], true) => Some v | _ => None end.
Lemma dbody_iff : forall s z, dbody s = Some z <-> numeral 10 s z.
Proof.
  intros s z. unfold dbody. rewrite numeral_iff by lia.
  destruct (scan_digits 10 0 false s) as [[v rest] any] eqn:Q. split.
  - destruct rest; [|discriminate]. destruct any; [|discriminate]. intros H. injection H as <-.
    apply scan_all in Q. destruct Q as (H1 & H2 & [H3|H3]); [discriminate|]. auto.
  - intros (H1 & H2 & ->). assert (K : scan_digits 10 0 false s = (horner 10 0 s, [], true)) by (apply scan_all; auto).
    rewrite K in Q. injection Q as <- <- <-. reflexivity.
Qed.

Definition dsigned (s : list N) : option Z :=
  match s with
  | 45%N :: s' => option_map Z.opp (dbody s')
  | 43%N :: s' => dbody s'
  | _ => dbody s
  end.
Lemma dsigned_iff : forall s z, match s with c :: _ => iswspace (t_loc E) c = false | [] => True end ->
  dsigned s = Some z <-> dec_text E s z.
Proof.
  intros s z Hs. destruct s as [|c w].
  { cbn. split; [discriminate|]. intros T. inversion T as [? ? Hi| | |]; subst. apply num_head in Hi.
    destruct Hi as (? & ? & ? & _); discriminate. }
  destruct (N.eq_dec c 45) as [->|H45]; [|destruct (N.eq_dec c 43) as [->|H43]].
  - cbn [dsigned]. split.
    + destruct (dbody w) as [v|] eqn:Q; [|discriminate]. cbn. intros H. injection H as <-.
      apply (dt_minus E). apply dbody_iff. auto.
    + intros T. inversion T as [? ? Hi| ? ? Hi| ? ? Hi| ? ? ? Hsp Hi]; subst; try congruence.
      * apply num_head in Hi. destruct Hi as (? & ? & Q & ?). injection Q as <- _. lia.
      * apply dbody_iff in Hi. rewrite Hi. reflexivity.
  - cbn [dsigned]. split.
    + intros H. apply (dt_plus E). apply dbody_iff. auto.
    + intros T. inversion T as [? ? Hi| ? ? Hi| ? ? Hi| ? ? ? Hsp Hi]; subst; try congruence.
      * apply num_head in Hi. destruct Hi as (? & ? & Q & ?). injection Q as <- _. lia.
      * apply dbody_iff in Hi. auto.
  - replace (dsigned (c :: w)) with (dbody (c :: w)).
    + rewrite dbody_iff. split.
      * intros H. apply dt_plain. auto.
      * intros T. inversion T as [? ? Hi| ? ? Hi| ? ? Hi| ? ? ? Hsp Hi]; subst; auto; congruence.
    + unfold dsigned. destruct c as [|p]; auto.
      do 6 (destruct p as [p|p|]; auto; try congruence).
Qed.

Lemma prefix10 : forall u, base_prefix 10 u = (10, u).
Proof.
  intros u. unfold base_prefix. destruct u as [|c [|x [|d w]]]; try reflexivity;
  (destruct c as [|p]; try reflexivity; do 6 (destruct p as [p|p|]; try reflexivity)).
  cbn [Z.eqb orb]. rewrite andb_false_r. reflexivity.
Qed.

Lemma integer_signed : forall s, integer_of E s =
  match dsigned (skip_space (t_loc E) s) with Some v => if in_long v then Some v else None | None => None end.
Proof.
  intros s. unfold integer_of.
  assert (Z0 : s = [] \/ ends s 0 = false) by (destruct s; cbn; auto).
  destruct Z0 as [->|Z0]; [reflexivity|]. rewrite Z0. clear Z0.
  unfold wcstol. generalize (skip_space (t_loc E) s). intros r.
  assert (B : forall u (neg : bool), match (let '(b, s3) := base_prefix 10 u in
      match scan_digits b 0 false s3 with
      | (v, rest, true) => (Some (if neg then - v else v), rest)
      | (_, _, false) => (None, s) end) with (Some v, []) => if in_long v then Some v else None | _ => None end =
      match (if neg then option_map Z.opp (dbody u) else dbody u) with Some v => if in_long v then Some v else None | None => None end).
  { intros u neg. unfold dbody. rewrite prefix10.
    destruct (scan_digits 10 0 false u) as [[v rest] [|]]; destruct rest; destruct neg; reflexivity. }
  unfold dsigned. destruct r as [|c w]; [apply (B [] false)|].
  destruct c as [|p]; [apply (B (_ :: w) false)|].
  do 6 (destruct p as [p|p|]; try apply (B (_ :: w) false)); first [apply (B w true)|apply (B w false)].
Qed.

Lemma integer_of_iff : forall s z, integer_of E s = Some z <-> integer E s z.
Proof.
  intros s z. unfold integer. rewrite integer_signed.
  destruct (skip_space_spec (t_loc E) s) as (sp & r & -> & H1 & -> & H2).
  rewrite dec_spaces by auto. rewrite <- (dsigned_iff r z H2).
  destruct (dsigned r) as [v|]; [|split; [discriminate|intros [? _]; discriminate]].
  destruct (in_long v) eqn:Q; unfold in_long in Q; unfold is_long.
  - split; [intros H|intros [H _]; exact H]. injection H as <-. split; [auto|lia].
  - split; [discriminate|]. intros [H K]. injection H as <-. lia.
Qed.

Lemma integer_none : forall s, integer_of E s = None <-> ~ exists z, integer E s z.
Proof.
  intros s. destruct (integer_of E s) as [v|] eqn:Q.
  - apply integer_of_iff in Q. split; [discriminate|]. intros H. exfalso. eauto.
  - split; auto. intros _ (z & H). apply integer_of_iff in H. congruence.
Qed.

Lemma xwcstoi_integer : forall w fd, xwcstoi (t_loc E) 10 w = Some fd <->
  integer E w fd /\ INT_MIN <= fd <= INT_MAX.
Proof.
  intros w fd. rewrite <- integer_of_iff. unfold xwcstoi.
  assert (K : xwcstol (t_loc E) 10 w = integer_of E w).
  { unfold xwcstol, integer_of. destruct w; [reflexivity|]. cbn [ends nth_error]. reflexivity. }
  rewrite K. destruct (integer_of E w) as [v|]; [|split; [discriminate|intros [? _]; discriminate]].
  destruct ((v <? INT_MIN) || (INT_MAX <? v)) eqn:Q.
  - split; [discriminate|]. intros [H ?]. injection H as <-. lia.
  - split; [intros H; injection H as <-; split; auto; lia|tauto].
Qed.

(** ** Values *)
(** The result and error flag agree with a value. *)
Definition agrees (x : option bool) (v e : bool) : Prop :=
  match x with Some b => v = b /\ e = false | None => e = true end.

Lemma int_ok : forall (R : Z -> Z -> bool) f l r x,
  (forall i j, f (if i <? j then -1 else if j <? i then 1 else 0) = R i j) ->
  int_holds E R l r x -> exists v e, int_cond E f l r = Ok (v, e) /\ agrees x v e.
Proof.
  intros R f l r x HR [(i & j & Hi & Hj & ->)|([H|H] & ->)]; unfold int_cond, compare_integers.
  - apply integer_of_iff in Hi, Hj. rewrite Hi, Hj. do 2 eexists. split; [reflexivity|]. cbn. auto.
  - apply integer_none in H. rewrite H. do 2 eexists. split; [reflexivity|]. reflexivity.
  - apply integer_none in H. rewrite H. destruct (integer_of E l); do 2 eexists; (split; [reflexivity|]; reflexivity).
Qed.
Lemma int_total : forall R l r, exists x, int_holds E R l r x.
Proof.
  intros R l r. destruct (integer_of E l) as [i|] eqn:Q1; [destruct (integer_of E r) as [j|] eqn:Q2|].
  - apply integer_of_iff in Q1, Q2. eexists. left. eauto 10.
  - apply integer_none in Q2. exists None. right. auto.
  - apply integer_none in Q1. exists None. right. auto.
Qed.

Lemma truth_eqb : forall l r b, truth (l = r) b -> list_N_eqb l r = b.
Proof.
  intros l r b [H1 H2]. destruct (list_N_eqb l r) eqn:Q.
  - apply list_N_eqb_eq in Q. symmetry. auto.
  - apply list_N_eqb_neq in Q. destruct b; [exfalso; apply Q; apply H1; auto|auto].
Qed.
Lemma truth_neqb : forall l r b, truth (l <> r) b -> negb (list_N_eqb l r) = b.
Proof.
  intros l r b [H1 H2]. destruct (list_N_eqb l r) eqn:Q; cbn.
  - apply list_N_eqb_eq in Q. destruct b; [exfalso; apply H1; auto|auto].
  - apply list_N_eqb_neq in Q. symmetry. auto.
Qed.
Lemma truth_single : forall w b, truth (w <> []) b -> test_single w = b.
Proof.
  intros w b [H1 H2]. destruct w as [|c w]; cbn.
  - destruct b; [exfalso; apply H1; auto|auto].
  - symmetry. apply H2. discriminate.
Qed.
Lemma single_truth : forall w, truth (w <> []) (test_single w).
Proof. intros [|c w]; cbn; split; intros; try congruence. Qed.

Lemma file_ok : forall R k l r,
  (forall a b, filecmp_eqb (match a, b with
           | None, None => FC_UNKNOWN
           | None, Some _ => FC_OLDER
           | Some _, None => FC_NEWER
           | Some sl, Some sr =>
               if (st_dev sl =? st_dev sr)%N && (st_ino sl =? st_ino sr)%N then FC_ID
               else if (st_sec sl <? st_sec sr)%Z then FC_OLDER
               else if (st_sec sr <? st_sec sl)%Z then FC_NEWER
               else if (st_nsec sl <? st_nsec sr)%Z then FC_OLDER
               else if (st_nsec sr <? st_nsec sl)%Z then FC_NEWER
               else FC_SAME
           end) k = R a b) ->
  exists v e, file_cond E k l r = Ok (v, e) /\ agrees (on_files E R l r) v e.
Proof.
  intros R k l r H. unfold file_cond, compare_files, on_files.
  destruct (t_mbs E l) as [a|]; [|do 2 eexists; split; reflexivity].
  destruct (t_mbs E r) as [b|]; [|do 2 eexists; split; reflexivity].
  do 2 eexists. split; [reflexivity|]. cbn. rewrite H. auto.
Qed.

Ltac cmpcases := 
  repeat match goal with |- context [(?a <? ?b)%Z] => destruct (Z.ltb_spec a b) end;
  repeat match goal with |- context [(?a =? ?b)%Z] => destruct (Z.eqb_spec a b) end;
  cbn [andb orb negb filecmp_eqb]; try reflexivity; try lia.

Lemma means2_ok : forall op l r x, means2 E op l r x -> 
  In op binary_ops /\ exists v e, binary_op E (str op) l r = Some (Ok (v, e)) /\ agrees x v e.
Proof.
  intros op l r x H. destruct H as [op l r b Ho Ht|l r b Ht|op R l r Ho|l r a b Ha Hb|l r a Ha Hb
    |op R l r x Ho Hi|op R l r c Ho Hv|op R l r Ho].
  - cbn in Ho. apply truth_eqb in Ht. destruct Ho as [<-|[<-|[]]]; (split; [cbn; tauto|]);
      do 2 eexists; (split; [reflexivity|]); cbn; auto.
  - apply truth_neqb in Ht. split; [cbn; tauto|]. do 2 eexists; (split; [reflexivity|]); cbn; auto.
  - cbn [coll_table In] in Ho.
    repeat destruct Ho as [Ho|Ho]; try (destruct Ho; fail); injection Ho as <- <-; (split; [cbn; tauto|]);
      do 2 eexists; (split; [reflexivity|]); cbn [agrees]; split; auto; lia.
  - split; [cbn; tauto|].
    change (binary_op E (str "=~") l r) with (Some (match_regex E l r)). unfold match_regex. rewrite Ha, Hb.
    destruct (t_regcomp E a); do 2 eexists; (split; [reflexivity|]); cbn; auto.
  - split; [cbn; tauto|]. 
    change (binary_op E (str "=~") l r) with (Some (match_regex E l r)). unfold match_regex. rewrite Ha, Hb.
    do 2 eexists; (split; [reflexivity|]); cbn; auto.
  - assert (K : forall f, binary_op E (str op) l r = Some (int_cond E f l r) ->
      (forall i j, f (if i <? j then -1 else if j <? i then 1 else 0) = R i j) ->
      exists v e, binary_op E (str op) l r = Some (Ok (v, e)) /\ agrees x v e).
    { intros f Q HR. destruct (int_ok R f l r x HR Hi) as (v & e & H1 & H2). exists v, e. rewrite Q, H1. auto. }
    cbn [int_table In] in Ho.
    repeat destruct Ho as [Ho|Ho]; try (destruct Ho; fail); injection Ho as <- <-; (split; [cbn; tauto|]);
      (eapply K; [reflexivity|]); intros i j; destruct (Z.ltb_spec i j); destruct (Z.ltb_spec j i); cbn; lia.
  - assert (K : forall f, binary_op E (str op) l r = Some (ver_cond E f l r) -> f c = R c ->
      exists v e, binary_op E (str op) l r = Some (Ok (v, e)) /\ agrees (Some (R c)) v e).
    { intros f Q HR. exists (R c), false. rewrite Q. unfold ver_cond. rewrite Hv. cbn [rbind val]. rewrite HR. split; auto. split; auto. }
    cbn [ver_table In] in Ho.
    repeat destruct Ho as [Ho|Ho]; try (destruct Ho; fail); injection Ho as <- <-; (split; [cbn; tauto|]);
      (eapply K; [reflexivity|]); cbn beta; lia.
  - assert (K : forall k, binary_op E (str op) l r = Some (file_cond E k l r) ->
      (exists v e, file_cond E k l r = Ok (v, e) /\ agrees (on_files E R l r) v e) ->
      exists v e, binary_op E (str op) l r = Some (Ok (v, e)) /\ agrees (on_files E R l r) v e).
    { intros k Q (v & e & H1 & H2). exists v, e. rewrite Q, H1. auto. }
    cbn [file_table In] in Ho.
    repeat destruct Ho as [Ho|Ho]; try (destruct Ho; fail); injection Ho as <- <-; (split; [cbn; tauto|]);
      (eapply K; [reflexivity|]); apply file_ok; intros [sl|] [sr|]; cbn [before same_file]; try reflexivity.
    + rewrite (N.eqb_sym (st_dev sr)), (N.eqb_sym (st_ino sr)).
      destruct ((st_dev sl =? st_dev sr)%N && (st_ino sl =? st_ino sr)%N); cbn [negb andb filecmp_eqb]; cmpcases.
    + destruct ((st_dev sl =? st_dev sr)%N && (st_ino sl =? st_ino sr)%N); cbn [negb andb filecmp_eqb]; cmpcases.
    + destruct ((st_dev sl =? st_dev sr)%N && (st_ino sl =? st_ino sr)%N); cbn [negb andb filecmp_eqb]; cmpcases.
Qed.

Lemma scan_len : forall s acc any v rest any', scan_digits 10 acc any s = (v, rest, any') -> (length rest <= length s)%nat.
Proof.
  induction s as [|c s IH]; intros acc any v rest any'; cbn [scan_digits]; intros H.
  - injection H as <- <- <-. auto.
  - destruct (digitval c <? 10); [apply IH in H; cbn; lia|]. injection H as <- <- <-. auto.
Qed.
Lemma versions_total : forall f l r, (length l < f)%nat -> exists c, compare_versions E f l r = Ok c.
Proof.
  clear Lok. induction f as [|f IH]; intros l r Hf; [lia|]. cbn [compare_versions].
  assert (A : forall l1 r1, (length l1 <= length l)%nat -> exists c,
    (if alnum0 E l1 && negb (alnum0 E r1) then Ok 1
        else if negb (alnum0 E l1) && alnum0 E r1 then Ok (-1)
        else match l1, r1 with
             | [], [] => Ok 0
             | c :: l', d :: r' => if (c =? d)%N then compare_versions E f l' r' else Ok (t_coll E l1 r1)
             | _, _ => Ok (t_coll E l1 r1)
             end) = Ok c).
  { intros l1 r1 Hl. destruct (alnum0 E l1 && negb (alnum0 E r1)); [eauto|].
    destruct (negb (alnum0 E l1) && alnum0 E r1); [eauto|].
    destruct l1 as [|c l1], r1 as [|d r1]; eauto. destruct (c =? d)%N; eauto. apply IH. cbn in Hl. lia. }
  destruct (digit0 l && digit0 r); [|destruct (digit0 l); [eauto|destruct (digit0 r); [eauto|apply (A l r); auto]]].
  unfold wcstoumax. destruct (scan_digits 10 0 false l) as [[vl rl] al] eqn:Ql.
  destruct (scan_digits 10 0 false r) as [[vr rr] ar] eqn:Qr. apply scan_len in Ql.
  destruct (Z.min vr UINTMAX_MAX <? Z.min vl UINTMAX_MAX); [eauto|].
  destruct (Z.min vl UINTMAX_MAX <? Z.min vr UINTMAX_MAX); [eauto|]. apply (A rl rr Ql).
Qed.

Lemma means2_total : forall op l r v e, In op binary_ops -> binary_op E (str op) l r = Some (Ok (v, e)) ->
  exists x, means2 E op l r x.
Proof.
  intros op l r v e Ho H.
  assert (KI : forall R, In (op, R) int_table -> exists x, means2 E op l r x).
  { intros R K. destruct (int_total R l r) as (x & Hx). exists x. eapply m2_int; eauto. }
  assert (KV : forall R, In (op, R) ver_table -> exists x, means2 E op l r x).
  { intros R K. destruct (versions_total (S (length l)) l r) as (c & Hc); [lia|]. eexists. eapply m2_ver; eauto. }
  assert (KC : forall R, In (op, R) coll_table -> exists x, means2 E op l r x).
  { intros R K. eexists. eapply m2_coll; eauto. }
  assert (KF : forall R, In (op, R) file_table -> exists x, means2 E op l r x).
  { intros R K. eexists. eapply m2_file; eauto. }
  cbn [binary_ops In] in Ho.
  repeat destruct Ho as [Ho|Ho]; try (destruct Ho; fail); subst op;
    try (eapply KI; cbn [int_table In]; tauto);
    try (eapply KV; cbn [ver_table In]; tauto);
    try (eapply KC; cbn [coll_table In]; tauto);
    try (eapply KF; cbn [file_table In]; tauto).
  - exists (Some (list_N_eqb l r)). apply m2_eq; [cbn; tauto|]. apply list_N_eqb_eq.
  - exists (Some (list_N_eqb l r)). apply m2_eq; [cbn; tauto|]. apply list_N_eqb_eq.
  - exists (Some (negb (list_N_eqb l r))). apply m2_ne. unfold truth. rewrite negb_true_iff. apply list_N_eqb_neq.
  - change (binary_op E (str "=~") l r) with (Some (match_regex E l r)) in H. unfold match_regex in H.
    destruct (t_mbs E r) as [a|] eqn:Ha; [|discriminate].
    destruct (t_regcomp E a) eqn:Hc; [|eexists; eapply m2_badregex; eauto].
    cbn [negb] in H. destruct (t_mbs E l) as [b|] eqn:Hb; [|discriminate]. eexists. eapply m2_regex; eauto.
Qed.

Lemma means1_ok : forall op w x, means1 E op w x -> In op unary_ops ->
  exists v e, test_double E (str op) w = Ok (v, e) /\ agrees x v e.
Proof.
  intros op w x H Ho. destruct H as [w b Ht|w b Ht|w b Ht|w Hw|w|c w Hc].
  - do 2 eexists. split; [reflexivity|]. apply truth_single in Ht. cbn [agrees]. auto.
  - do 2 eexists. split; [reflexivity|]. cbn [agrees]. split; auto. destruct Ht as [H1 H2]. destruct w; cbn.
    + symmetry; auto. + destruct b; auto. discriminate H1; auto.
  - do 2 eexists. split; [reflexivity|]. cbn [agrees]. split; auto. destruct Ht as [H1 H2].
    destruct (xwcstoi (t_loc E) 10 w) as [fd|] eqn:Q.
    + apply xwcstoi_integer in Q. destruct (t_tty E fd) eqn:T.
      * symmetry. apply H2. exists fd. tauto.
      * destruct b; auto. destruct (H1 eq_refl) as (fd' & K1 & K2 & K3).
        assert (xwcstoi (t_loc E) 10 w = Some fd') by (apply xwcstoi_integer; auto).
        apply xwcstoi_integer in Q. congruence.
    + destruct b; auto. destruct (H1 eq_refl) as (fd' & K1 & K2 & K3).
      assert (xwcstoi (t_loc E) 10 w = Some fd') by (apply xwcstoi_integer; auto). congruence.
  - change (test_double E (str "-o") w) with (val (if is w 0 "?" then t_optvalid E (tl w) else t_opton E w)).
    do 2 eexists. split; [reflexivity|]. cbn [agrees]. split; auto. unfold is.
    destruct w as [|a w]; cbn [nth_error]; auto. destruct (a =? ch "?")%N eqn:Q; auto.
    apply N.eqb_eq in Q. subst a. destruct (Hw w eq_refl).
  - do 2 eexists. split; [reflexivity|]. cbn. auto.
  - assert (K : test_double E (str (String "-" (String c ""))) w =
      match t_mbs E w with Some m => val (t_file E (ch c) m) | None => fail end).
    { cbn [unary_ops In] in Ho.
      repeat destruct Ho as [Ho|Ho]; try (destruct Ho; fail); injection Ho as <-; try reflexivity;
        destruct Hc; cbn; tauto. }
    rewrite K. destruct (t_mbs E w) as [m|]; do 2 eexists; (split; [reflexivity|]); cbn; auto.
Qed.

Lemma means1_total : forall op w, In op unary_ops -> exists x, means1 E op w x.
Proof.
  intros op w Ho. cbn [unary_ops In] in Ho.
  repeat destruct Ho as [Ho|Ho]; try (destruct Ho; fail); subst op;
    try (eexists; apply m1_file; cbn; intros K; repeat destruct K as [K|K]; try discriminate; destruct K; fail).
  - exists (Some (test_single w)). apply m1_n. apply single_truth.
  - destruct w as [|a w]; [eexists; apply m1_o; discriminate|].
    destruct (N.eq_dec a (ch "?")) as [->|Q]; [eexists; apply m1_oq|].
    eexists. apply m1_o. intros w' K. congruence.
  - exists (Some (match xwcstoi (t_loc E) 10 w with Some fd => t_tty E fd | None => false end)).
    apply m1_t. split.
    + destruct (xwcstoi (t_loc E) 10 w) as [fd|] eqn:Q; [|discriminate]. intros T. exists fd.
      apply xwcstoi_integer in Q. tauto.
    + intros (fd & H1 & H2 & H3). assert (Q : xwcstoi (t_loc E) 10 w = Some fd) by (apply xwcstoi_integer; auto).
      rewrite Q. auto.
  - exists (Some (negb (test_single w))). apply m1_z. unfold truth. destruct w; cbn; split; congruence.
Qed.
End Env.
