(** Lemmas about ulimit. *)
From Coq Require Import Ascii String.
From Coq Require Import List NArith ZArith Bool Arith Lia.
From Verif Require Import Common Locale NumModel NumProofs BraceSpec BraceNum GetoptsModel UlimitModel UlimitSpec.
Import ListNotations.
Local Open Scope Z_scope.

(** ** The options *)
Lemma resource_table : forall c, is_resource c = existsb (fun p => (fst p =? c)%N) resources.
Proof. intro c. unfold is_resource. change letters with (map fst resources). induction resources as [|p l IH]; [reflexivity|]. cbn [map existsb]. rewrite IH, N.eqb_sym. reflexivity. Qed.
Lemma resource_in : forall c, is_resource c = true -> In c letters.
Proof. intros c H. apply existsb_exists in H. destruct H as (x & I & E). apply N.eqb_eq in E. subst. exact I. Qed.
Lemma resource_units : forall c, is_resource c = true -> resource_of c = Some (unit_of c).
Proof. intros c H. apply resource_in in H. cbn in H. repeat (destruct H as [<-|H]; [vm_compute; reflexivity|]). contradiction. Qed.
Lemma resource_not_type : forall c, is_resource c = true -> is_type c = false /\ (c =? ch "a")%N = false.
Proof. intros c H. apply resource_in in H. cbn in H. repeat (destruct H as [<-|H]; [vm_compute; auto|]). contradiction. Qed.
Lemma not_resource : forall c, is_resource c = false -> resource_of c = None.
Proof.
  intros c H. rewrite resource_table in H. unfold resource_of. destruct (find _ resources) as [p|] eqn:F; [|reflexivity]. apply find_some in F.
  assert (existsb (fun p => (fst p =? c)%N) resources = true) by (apply existsb_exists; eauto). congruence.
Qed.
Lemma unit_pos c : 0 < unit_of c.
Proof. unfold unit_of. destruct (existsb _ _); [lia|]. destruct (existsb _ _); lia. Qed.
Lemma find_app_ {A} (p : A -> bool) l m : find p (l ++ m) = match find p l with Some x => Some x | None => find p m end.
Proof. induction l as [|a l IH]; [reflexivity|]. cbn. destruct (p a); auto. Qed.
Lemma last_of_cons p c os : last_of p (c :: os) = match last_of p os with Some x => Some x | None => if p c then Some c else None end.
Proof. unfold last_of. cbn [rev]. rewrite find_app_. destruct (find p (rev os)); reflexivity. Qed.
Definition valid_option (c : N) : bool := is_type c || is_resource c || (c =? ch "a")%N.
Lemma options_valid : forall os o, forallb valid_option os = true ->
  options os o = Some (mkO
    (match last_of is_type os with Some c => (c =? ch "H")%N | None => hard o end)
    (match last_of is_type os with Some c => (c =? ch "S")%N | None => soft o end)
    (match last_of is_resource os with Some c => Some (c, unit_of c) | None => res o end)
    (all o || existsb (N.eqb (ch "a")) os)).
Proof.
  induction os as [|c os IH]; intros o P; [destruct o; cbn; rewrite orb_false_r; reflexivity|].
  cbn [forallb] in P. apply andb_true_iff in P. destruct P as (V & P). rewrite !last_of_cons. cbn [options existsb].
  destruct (is_type c) eqn:T.
  - unfold is_type in T. destruct (N.eqb_spec c (ch "H")) as [->|NH].
    + rewrite IH by exact P. cbn [hard soft res all]. destruct (last_of is_type os), (last_of is_resource os); reflexivity.
    + destruct (N.eqb_spec c (ch "S")) as [->|NS]; [|discriminate].
      rewrite IH by exact P. cbn [hard soft res all]. destruct (last_of is_type os), (last_of is_resource os); reflexivity.
  - pose proof T as T'. unfold is_type in T'. apply orb_false_iff in T'. destruct T' as (T1 & T2). rewrite T1, T2.
    destruct (N.eqb_spec c (ch "a")) as [->|NA].
    + change (is_resource (ch "a")) with false. change (N.eqb (ch "a") (ch "a")) with true. rewrite IH by exact P. cbn [hard soft res all orb]. rewrite orb_true_r.
      destruct (last_of is_type os), (last_of is_resource os); reflexivity.
    + assert (R : is_resource c = true). { unfold valid_option in V. rewrite T in V. destruct (is_resource c); [reflexivity|]. destruct (N.eqb_spec c (ch "a")); [contradiction|discriminate]. }
      rewrite (resource_units c R), R, IH by exact P. cbn [hard soft res all]. replace (ch "a" =? c)%N with false by (symmetry; apply N.eqb_neq; congruence). cbn [orb].
      destruct (last_of is_type os), (last_of is_resource os); reflexivity.
Qed.
Lemma options_invalid : forall os o, forallb valid_option os = false -> options os o = None.
Proof.
  induction os as [|c os IH]; intros o P; [discriminate|]. cbn [forallb] in P. cbn [options].
  destruct (c =? ch "H")%N eqn:E1; [apply IH|destruct (c =? ch "S")%N eqn:E2; [apply IH|destruct (c =? ch "a")%N eqn:E3; [apply IH|]]].
  - unfold valid_option, is_type in P. rewrite E1 in P. exact P.
  - unfold valid_option, is_type in P. rewrite E1, E2 in P. exact P.
  - unfold valid_option in P. rewrite E3, orb_true_r in P. exact P.
  - destruct (is_resource c) eqn:R; [|rewrite (not_resource c R); reflexivity]. rewrite (resource_units c R). apply IH.
    unfold valid_option in P. rewrite R, orb_true_r in P. exact P.
Qed.
Lemma plain_valid os : plain_options os -> forallb valid_option os = true /\ existsb (N.eqb (ch "a")) os = false.
Proof.
  induction 1 as [|c os H _ (IH1 & IH2)]; [split; reflexivity|]. cbn [forallb existsb]. rewrite IH1, IH2, orb_false_r, andb_true_r. unfold valid_option. split.
  - destruct H as [->| ->]; [reflexivity|rewrite orb_true_r; reflexivity].
  - apply N.eqb_neq. intros <-. destruct H; discriminate.
Qed.
Lemma options_plain : forall os o, plain_options os ->
  options os o = Some (mkO
    (match last_of is_type os with Some c => (c =? ch "H")%N | None => hard o end)
    (match last_of is_type os with Some c => (c =? ch "S")%N | None => soft o end)
    (match last_of is_resource os with Some c => Some (c, unit_of c) | None => res o end)
    (all o)).
Proof. intros os o P. destruct (plain_valid os P) as (A & B). rewrite options_valid, B, orb_false_r by exact A. reflexivity. Qed.

(** ** Numbers *)
Section Num.
Variable L : locale.
Hypothesis HL : locale_ok L.
Definition startdigit (t : list N) : bool := match t with c :: _ => (48 <=? c)%N && (c <=? 57)%N | [] => false end.
Lemma startdigit_numeral t v : numeral 10 t v -> startdigit t = true.
Proof. intro H. destruct (numeral_value _ _ H) as (D & _ & E). destruct t as [|c t]; [congruence|]. inversion D; subst. assumption. Qed.
Lemma digitval_nonneg c : 0 <= digitval c.
Proof.
  unfold digitval. destruct ((48 <=? c) && (c <=? 57))%N eqn:A; [lia|]. destruct ((97 <=? c) && (c <=? 122))%N eqn:B; [lia|].
  destruct ((65 <=? c) && (c <=? 90))%N eqn:D; lia.
Qed.
Lemma numeral_nonneg t v : numeral 10 t v -> 0 <= v.
Proof.
  induction 1 as [c v D _|w z c v _ IH D _]; apply digit_val in D; destruct D as [D _]; pose proof (digitval_nonneg c); lia.
Qed.
Lemma xwcstoul_iff t v : startdigit t = true -> (xwcstoul L t = Some v <-> numeral 10 t v /\ v < ULONG_MOD).
Proof.
  intro S. destruct t as [|c t]; [discriminate|]. cbn in S.
  assert (W : wcstol L 10 (c :: t) = match scan_digits 10 0 false (c :: t) with (v, rest, true) => (Some v, rest) | (_, _, false) => (None, c :: t) end).
  { rewrite wcstol_unfold. cbn [skip_space]. rewrite (digit_nospace L HL c S). rewrite take_sign_other by lia. reflexivity. }
  unfold xwcstoul, wcstoul. rewrite W. pose proof (scan_opt 10 (c :: t) v) as SO. rewrite <- (numeral_iff 10) in SO by lia.
  destruct (scan_digits 10 0 false (c :: t)) as [[v' rest] k]. split.
  - intro H. destruct k; [|discriminate]. destruct (Z.ltb_spec (Z.abs v') ULONG_MOD); [|discriminate]. destruct rest; [|discriminate].
    assert (NV : numeral 10 (c :: t) v').
    { apply (numeral_iff 10); [lia|]. pose proof (scan_opt 10 (c :: t) v') as X.
      assert (SS : scan_digits 10 0 false (c :: t) = (v', [], true)).
      { destruct (scan_digits 10 0 false (c :: t)) as [[q r] u] eqn:Q in W. rewrite wcstol_unfold in W. cbn [skip_space] in W.
        rewrite (digit_nospace L HL c S) in W. rewrite take_sign_other in W by lia. rewrite Q in W. rewrite Q. destruct u; congruence. }
      rewrite SS in X. apply X. reflexivity. }
    pose proof (numeral_nonneg _ _ NV). rewrite Z.mod_small in H by lia. injection H as <-. split; [exact NV|lia].
  - intros (NV & LV). pose proof (numeral_nonneg _ _ NV). apply SO in NV. destruct rest; [|discriminate]. destruct k; [|discriminate]. injection NV as ->.
    rewrite Z.abs_eq by lia. destruct (Z.ltb_spec v ULONG_MOD); [|lia]. rewrite Z.mod_small by lia. reflexivity.
Qed.
End Num.
Lemma numeral_words t v : numeral 10 t v -> list_N_eqb t (str "hard") = false /\ list_N_eqb t (str "soft") = false /\ list_N_eqb t (str "unlimited") = false.
Proof.
  intro H. apply startdigit_numeral in H. destruct t as [|c t]; [discriminate|]. cbn in H.
  apply andb_true_iff in H. destruct H as (H1 & H2). apply N.leb_le in H1, H2.
  assert (X : forall d r, (57 < d)%N -> list_N_eqb (c :: t) (d :: r) = false).
  { intros d r D. cbn. replace (c =? d)%N with false by (symmetry; apply N.eqb_neq; lia). reflexivity. }
  repeat split; apply X; reflexivity.
Qed.
(** The check for overflow is exact. *)
Lemma overflow_check M f v : 0 < M -> 0 < f -> 0 <= v -> ((v mod M * f) mod M / f =? v) = (v * f <? M).
Proof.
  intros HM Hf Hv. rewrite Z.mul_mod_idemp_l by lia. destruct (Z.ltb_spec (v * f) M) as [H|H].
  - rewrite Z.mod_small by nia. rewrite Z.div_mul by lia. apply Z.eqb_refl.
  - apply Z.eqb_neq. intro E. assert (A : v * f = M * (v * f / M) + (v * f) mod M) by (apply Z.div_mod; lia).
    assert (B : 1 <= v * f / M) by (apply Z.div_le_lower_bound; lia).
    assert (C : f * ((v * f) mod M / f) <= (v * f) mod M) by (apply Z.mul_div_le; lia). rewrite E in C. nia.
Qed.
Lemma special_iff Y v : is_special Y v = true <-> special Y v.
Proof. unfold is_special, special. rewrite !orb_true_iff, !Z.eqb_eq. tauto. Qed.
Lemma exceeds_iff Y l : exceeds Y l = true <-> over Y (fst l) (snd l).
Proof.
  unfold exceeds, over. rewrite andb_true_iff, negb_true_iff, orb_true_iff, !andb_true_iff, !negb_true_iff, Z.eqb_eq, !Z.eqb_neq, Z.ltb_lt.
  rewrite <- not_true_iff_false, special_iff. unfold special. split; intros (A & B); (split; [exact A|]).
  - destruct B as [B|((B & C) & D)]; [auto|]. destruct (Z.eq_dec (fst l) (rinf Y)); [auto|]. right. split; [|exact D]. intros [E|[E|E]]; contradiction.
  - destruct B as [B|(B & C)]; [auto|]. right. split; [split|]; auto.
Qed.
