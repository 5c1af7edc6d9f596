(** Theorems about ulimit (C117-C119). *)
From Coq Require Import Ascii String.
From Coq Require Import List NArith ZArith Bool Arith Lia.
From Verif Require Import Common Locale NumModel NumProofs BraceSpec BraceNum GetoptsModel UlimitModel UlimitSpec Ulimit.
Import ListNotations.
Local Open Scope Z_scope.

Definition new_limits (os : list N) (w : Z) (a b : Z) : Z * Z := (if sets_soft os then w else a, if sets_hard os then w else b).
Lemma ulimit_plain L Y allowed os st : plain_options os ->
  ulimit L Y allowed os [] st = (match st (resource os) with None => Failure | Some l => Printed (print_value Y (sets_soft os) l (unit_of (resource os))) end, st)
  /\ forall t, ulimit L Y allowed os [t] st =
    match st (resource os) with
    | None => (Failure, st)
    | Some l =>
        match operand L Y t l (unit_of (resource os)) with
        | inl e => (e, st)
        | inr v =>
            let l' := new_limits os v (fst l) (snd l) in
            if exceeds Y l' then (Failure, st)
            else if allowed (resource os) l l' then (Set_, set_limits st (resource os) l') else (Failure, st)
        end
    end.
Proof.
  intro P. unfold ulimit, new_limits, sets_soft, sets_hard, resource. rewrite (options_plain os _ P). cbn [hard soft res all].
  destruct (last_of is_resource os) as [c|]; [|change (unit_of (ch "f")) with 512]; destruct (last_of is_type os); cbn [hard soft];
    (split; [destruct (st _); reflexivity|intro t; reflexivity]).
Qed.
Lemma operand_number L Y t v l u : locale_ok L -> sys_ok Y -> 0 < u -> numeral 10 t v ->
  operand L Y t l u = if v <? ULONG_MOD then if (v * u <? rmod Y) && negb (is_special Y (v * u)) then inr (v * u) else inl Failure else inl Usage.
Proof.
  intros HL (M & _) U NV. unfold operand. destruct (numeral_words t v NV) as (-> & -> & ->).
  pose proof (startdigit_numeral t v NV) as S. pose proof (numeral_nonneg t v NV) as V0. fold (startdigit t). rewrite S.
  destruct (xwcstoul L t) as [v'|] eqn:X.
  - apply (xwcstoul_iff L HL t v' S) in X. destruct X as (NV' & LV).
    assert (v' = v). { apply (numeral_iff 10) in NV; [|lia]. apply (numeral_iff 10) in NV'; [|lia]. destruct NV as (_ & _ & ->), NV' as (_ & _ & ->). reflexivity. }
    subst v'. destruct (Z.ltb_spec v ULONG_MOD); [|lia]. rewrite overflow_check by lia.
    destruct (Z.ltb_spec (v * u) (rmod Y)) as [H1|H1]; [|reflexivity].
    rewrite Z.mul_mod_idemp_l by lia. rewrite (Z.mod_small (v * u)) by nia. cbn [negb orb andb]. destruct (is_special Y (v * u)); reflexivity.
  - destruct (Z.ltb_spec v ULONG_MOD) as [H1|H1]; [|reflexivity].
    assert (X2 : xwcstoul L t = Some v) by (apply (xwcstoul_iff L HL t v S); auto). congruence.
Qed.
Lemma set_same st r v : set_limits st r v r = Some v.
Proof. unfold set_limits. rewrite N.eqb_refl. reflexivity. Qed.

(** A number is accepted exactly if its product with the unit is a limit, the soft limit would
    not exceed the hard one, and the kernel permits it; then the chosen limits have that
    value. *)
Theorem ulimit_number : forall L Y allowed os t v st a b, locale_ok L -> sys_ok Y -> plain_options os -> numeral 10 t v ->
  st (resource os) = Some (a, b) ->
  let w := v * unit_of (resource os) in
  let new := new_limits os w a b in
  let valid := v < ULONG_MOD /\ w < rmod Y /\ ~ special Y w /\ ~ over Y (fst new) (snd new) /\ allowed (resource os) (a, b) new = true in
  let '(o, st') := ulimit L Y allowed os [t] st in
  (o = Set_ <-> valid) /\ (o = Set_ -> st' (resource os) = Some new) /\ (~ v < ULONG_MOD -> o = Usage) /\ (v < ULONG_MOD -> ~ valid -> o = Failure).
Proof.
  intros L Y allowed os t v st a b HL SY P NV S. cbv zeta. rewrite (proj2 (ulimit_plain L Y allowed os st P) t), S.
  rewrite (operand_number L Y t v (a, b) _ HL SY (unit_pos _) NV). set (w := v * unit_of (resource os)). cbn [fst snd].
  set (new := new_limits os w a b).
  destruct (Z.ltb_spec v ULONG_MOD) as [H1|H1]; [|repeat split; try discriminate; try lia; auto].
  destruct (Z.ltb_spec w (rmod Y)) as [H2|H2]; [|cbn [andb]; repeat split; try discriminate; try lia; auto].
  destruct (is_special Y w) eqn:SP.
  { apply special_iff in SP. cbn [andb negb]. repeat split; try discriminate; try lia; auto; intros (_ & _ & X & _); contradiction. }
  assert (NS : ~ special Y w) by (rewrite <- special_iff; congruence). cbn [andb negb]. cbv zeta. fold new.
  destruct (exceeds Y new) eqn:EX.
  { apply exceeds_iff in EX. repeat split; try discriminate; try lia; auto; intros (_ & _ & _ & X & _); contradiction. }
  assert (NO : ~ over Y (fst new) (snd new)) by (rewrite <- exceeds_iff; congruence).
  destruct (allowed (resource os) (a, b) new) eqn:AL.
  - repeat split; auto; try tauto. intros _. apply set_same.
  - repeat split; auto; try discriminate; try lia.
Qed.
Print Assumptions ulimit_number.
(** What has been set is printed. *)
Theorem ulimit_then_print : forall L Y allowed os os' t v st st', locale_ok L -> sys_ok Y -> plain_options os -> plain_options os' -> numeral 10 t v ->
  ulimit L Y allowed os [t] st = (Set_, st') -> resource os' = resource os ->
  (sets_soft os' = true /\ sets_soft os = true \/ sets_soft os' = false /\ sets_hard os = true) ->
  ulimit L Y allowed os' [] st' = (Printed (dec_of_Z v), st').
Proof.
  intros L Y allowed os os' t v st st' HL SY P P' NV E R C.
  destruct (st (resource os)) as [[a b]|] eqn:S.
  - pose proof (ulimit_number L Y allowed os t v st a b HL SY P NV S) as H. cbv zeta in H. rewrite E in H. destruct H as (H & G & _).
    destruct (proj1 H eq_refl) as (_ & _ & NS & _). specialize (G eq_refl).
    rewrite (proj1 (ulimit_plain L Y allowed os' st' P')), R, G. unfold print_value, new_limits. cbn [fst snd].
    assert (X : (if sets_soft os' then if sets_soft os then v * unit_of (resource os) else a else if sets_hard os then v * unit_of (resource os) else b) = v * unit_of (resource os)).
    { destruct C as [(-> & ->)|(-> & ->)]; reflexivity. }
    rewrite X. destruct (Z.eqb_spec (v * unit_of (resource os)) (rinf Y)) as [I|I]; [exfalso; apply NS; left; exact I|].
    rewrite Z.div_mul by (pose proof (unit_pos (resource os)); lia). reflexivity.
  - rewrite (proj2 (ulimit_plain L Y allowed os st P) t), S in E. discriminate.
Qed.
Print Assumptions ulimit_then_print.
(** Anything but a number and the three words is rejected. *)
Theorem ulimit_rejects : forall L Y allowed os t st l, locale_ok L -> plain_options os -> st (resource os) = Some l ->
  (forall v, ~ numeral 10 t v) -> ~ In t [str "hard"; str "soft"; str "unlimited"] -> ulimit L Y allowed os [t] st = (Usage, st).
Proof.
  intros L Y allowed os t st l HL P S NN NI. rewrite (proj2 (ulimit_plain L Y allowed os st P) t), S.
  assert (W : forall x, In x [str "hard"; str "soft"; str "unlimited"] -> list_N_eqb t x = false).
  { intros x I. destruct (list_N_eqb t x) eqn:E; [|reflexivity]. apply list_N_eqb_eq in E. subst. contradiction. }
  unfold operand. rewrite !W by (cbn; auto). fold (startdigit t). destruct (startdigit t) eqn:SD; [|reflexivity].
  destruct (xwcstoul L t) as [v|] eqn:X; [|reflexivity]. apply (xwcstoul_iff L HL t v SD) in X. exfalso. apply (NN v), X.
Qed.
Print Assumptions ulimit_rejects.

(** * What ulimit leaves alone *)
Lemma options_all : forall os o o', options os o = Some o' -> all o' = false -> all o = false /\ plain_options os.
Proof.
  induction os as [|c os IH]; intros o o' H A; cbn [options] in H; [injection H as <-; split; [exact A|constructor]|].
  destruct (c =? ch "H")%N eqn:E1; [|destruct (c =? ch "S")%N eqn:E2; [|destruct (c =? ch "a")%N; [|destruct (resource_of c) eqn:E3; [|discriminate]]]].
  - destruct (IH _ _ H A) as (B & C). split; [exact B|]. constructor; [left; unfold is_type; rewrite E1; reflexivity|exact C].
  - destruct (IH _ _ H A) as (B & C). split; [exact B|]. constructor; [left; unfold is_type; rewrite E1, E2; reflexivity|exact C].
  - destruct (IH _ _ H A) as (B & C). discriminate.
  - destruct (IH _ _ H A) as (B & C). split; [exact B|]. constructor; [right|exact C].
    unfold resource_of in E3. destruct (find _ resources) as [p|] eqn:F; [|discriminate]. apply find_some in F. rewrite resource_table. apply existsb_exists. exists p. exact F.
Qed.
Lemma ulimit_set L Y allowed os args st st' : ulimit L Y allowed os args st = (Set_, st') -> plain_options os /\ exists t, args = [t].
Proof.
  intro H. unfold ulimit in H. destruct (options os (mkO true true None false)) as [o|] eqn:O; [|discriminate].
  destruct (all o) eqn:A.
  - destruct (res o); [discriminate|]. destruct args; [|discriminate]. unfold print_all in H. destruct (existsb _ _); discriminate.
  - destruct (options_all _ _ _ O A) as (_ & P). split; [exact P|].
    destruct (match res o with Some p => p | None => _ end) as (r & f). destruct args as [|t [|]]; [|eauto|discriminate].
    destruct (st r); discriminate.
Qed.
Lemma ulimit_unset L Y allowed os args st : fst (ulimit L Y allowed os args st) <> Set_ -> snd (ulimit L Y allowed os args st) = st.
Proof.
  unfold ulimit. destruct (options os (mkO true true None false)) as [o|]; [|reflexivity].
  destruct (all o); [destruct (res o); [reflexivity|destruct args; reflexivity]|].
  destruct (match res o with Some p => p | None => _ end) as (r & f).
  destruct args as [|t [|]]; [destruct (st r); reflexivity| |reflexivity].
  destruct (st r) as [l|]; [|reflexivity]. destruct (operand L Y t l f); [reflexivity|].
  cbv zeta. destruct (exceeds Y _); [reflexivity|]. destruct (allowed r l _); [|reflexivity]. intro H. exfalso. apply H. reflexivity.
Qed.
(** Whatever the arguments are: nothing changes unless ulimit succeeds in setting; then only the
    chosen limits of the chosen resource change, and the soft limit does not exceed the hard
    one. *)
Theorem ulimit_frame : forall L Y allowed os args st,
  let '(o, st') := ulimit L Y allowed os args st in
  (o <> Set_ -> st' = st)
  /\ (o = Set_ -> (forall r, r <> resource os -> st' r = st r)
       /\ exists a b a' b', st (resource os) = Some (a, b) /\ st' (resource os) = Some (a', b')
            /\ (sets_soft os = false -> a' = a) /\ (sets_hard os = false -> b' = b) /\ ~ over Y a' b'
            /\ allowed (resource os) (a, b) (a', b') = true).
Proof.
  intros L Y allowed os args st. destruct (ulimit L Y allowed os args st) as (o & st') eqn:E. split.
  - intro H. pose proof (ulimit_unset L Y allowed os args st) as X. rewrite E in X. cbn in X. auto.
  - intros ->. destruct (ulimit_set _ _ _ _ _ _ _ E) as (P & t & ->). rewrite (proj2 (ulimit_plain L Y allowed os st P) t) in E.
    destruct (st (resource os)) as [(a & b)|] eqn:S; [|discriminate]. destruct (operand L Y t (a, b) (unit_of (resource os))) as [|v] eqn:OP.
    { injection E as -> <-. exfalso. clear - OP. unfold operand in OP. repeat (destruct (list_N_eqb t _); [discriminate|]).
      destruct (match t with [] => _ | _ => _ end); [|discriminate]. destruct (xwcstoul L t); [|discriminate]. cbv zeta in OP. destruct (_ || _); discriminate. }
    cbv zeta in E. destruct (exceeds Y _) eqn:EX; [discriminate|]. destruct (allowed _ _ _) eqn:AL; [|discriminate]. injection E as <-.
    split.
    + intros r R. unfold set_limits. destruct (N.eqb_spec r (resource os)); [contradiction|reflexivity].
    + cbn [fst snd] in *. assert (NO : ~ over Y (fst (new_limits os v a b)) (snd (new_limits os v a b))) by (rewrite <- exceeds_iff; congruence). exists a, b, (fst (new_limits os v a b)), (snd (new_limits os v a b)). rewrite set_same.
      split; [reflexivity|]. split; [destruct (new_limits os v a b); reflexivity|]. unfold new_limits in *. cbn [fst snd].
      split; [intros ->; reflexivity|]. split; [intros ->; reflexivity|]. split; [exact NO|exact AL].
Qed.
Print Assumptions ulimit_frame.
(** The invariant of the limits *)
Lemma over_le Y a b : sys_plain Y -> 0 <= a < rmod Y -> 0 <= b < rmod Y -> (~ over Y a b <-> lim_le Y a b).
Proof.
  intros (E1 & E2 & E3 & _) A B. unfold over, lim_le, special. rewrite E1, E2. lia.
Qed.
Theorem ulimit_keeps_order : forall L Y allowed os args st, locale_ok L -> sys_ok Y -> sys_plain Y -> limits_ok Y st ->
  limits_ok Y (snd (ulimit L Y allowed os args st)).
Proof.
  intros L Y allowed os args st HL SY SP OK. destruct (ulimit L Y allowed os args st) as (o & st') eqn:E. cbn [snd].
  assert (D : o = Set_ \/ o <> Set_) by (destruct o; auto; right; discriminate).
  destruct D as [->|D]; [|pose proof (ulimit_unset L Y allowed os args st) as X; rewrite E in X; cbn in X; rewrite (X D); exact OK].
  destruct (ulimit_set _ _ _ _ _ _ _ E) as (P & t & ->). rewrite (proj2 (ulimit_plain L Y allowed os st P) t) in E.
  destruct (st (resource os)) as [(a & b)|] eqn:S; [|discriminate]. destruct (OK _ _ _ S) as (A & B & AB).
  destruct (operand L Y t (a, b) (unit_of (resource os))) as [e|v] eqn:OP.
  { injection E as -> <-. exact OK. }
  assert (V : 0 <= v < rmod Y).
  { unfold operand in OP. destruct SY as (M & I & _). destruct (list_N_eqb t (str "hard")); [injection OP as <-; exact B|].
    destruct (list_N_eqb t (str "soft")); [injection OP as <-; exact A|]. destruct (list_N_eqb t (str "unlimited")); [injection OP as <-; exact I|].
    destruct (match t with [] => _ | _ => _ end); [|discriminate]. destruct (xwcstoul L t); [|discriminate]. cbv zeta in OP. destruct (_ || _); [discriminate|].
    injection OP as <-. apply Z.mod_pos_bound. exact M. }
  cbv zeta in E. destruct (exceeds Y _) eqn:EX; [discriminate|]. destruct (allowed _ _ _); [|discriminate]. injection E as <-.
  intros r x y. unfold set_limits. destruct (N.eqb_spec r (resource os)); [|apply OK]. intro H. injection H as <- <-.
  assert (X : 0 <= (if sets_soft os then v else a) < rmod Y) by (destruct (sets_soft os); assumption).
  assert (Z : 0 <= (if sets_hard os then v else b) < rmod Y) by (destruct (sets_hard os); assumption).
  split; [exact X|]. split; [exact Z|]. apply over_le; [exact SP|exact X|exact Z|].
  intro O. apply (exceeds_iff Y (new_limits os v a b)) in O. cbn [fst snd] in EX. congruence.
Qed.
Print Assumptions ulimit_keeps_order.

(** Usage errors: unknown options, more than one operand, [-a] with an operand or a resource *)
Theorem ulimit_usage : forall L Y allowed os args st,
  (exists c, In c os /\ is_type c = false /\ is_resource c = false /\ c <> ch "a")
  \/ (1 < length args)%nat \/ (In (ch "a") os /\ (args <> [] \/ exists c, In c os /\ is_resource c = true)) ->
  ulimit L Y allowed os args st = (Usage, st).
Proof.
  intros L Y allowed os args st H. unfold ulimit. destruct (forallb valid_option os) eqn:V; [|rewrite options_invalid by exact V; reflexivity].
  rewrite options_valid by exact V. cbn [hard soft res all orb]. destruct H as [(c & I & A & B & C)|H].
  { rewrite forallb_forall in V. specialize (V c I). unfold valid_option in V. rewrite A, B in V. apply N.eqb_eq in V. contradiction. }
  destruct (existsb (N.eqb (ch "a")) os) eqn:EA.
  - destruct (last_of is_resource os) eqn:R; [reflexivity|]. destruct args as [|t args]; [|reflexivity]. exfalso.
    destruct H as [H|(_ & [H|(c & I & C)])]; [cbn in H; lia|congruence|]. unfold last_of in R.
    rewrite (find_none _ _ R c) in C; [discriminate|]. rewrite <- in_rev. exact I.
  - destruct H as [H|(I & _)].
    + destruct (match last_of is_resource os with Some c => Some (c, unit_of c) | None => None end) as [(r & f)|]; destruct args as [|t [|t' args]]; cbn in H; try lia; reflexivity.
    + assert (X : existsb (N.eqb (ch "a")) os = true) by (apply existsb_exists; exists (ch "a"); split; [exact I|reflexivity]). congruence.
Qed.
Print Assumptions ulimit_usage.

(** * Saving and restoring *)
Lemma dec_numeral n : 0 <= n -> numeral 10 (dec_of_Z n) n.
Proof.
  intro H. unfold dec_of_Z. destruct (Z.ltb_spec n 0); [lia|]. destruct (dec_of_N_ok (Z.to_N n)) as (c & w & -> & _ & X). rewrite Z2N.id in X by lia. exact X.
Qed.
Lemma soft_only os : sets_hard os = false -> sets_soft os = true.
Proof.
  unfold sets_hard, sets_soft, last_of. destruct (find is_type (rev os)) as [c|] eqn:F; [|discriminate]. intro H. apply find_some in F. destruct F as (_ & F).
  unfold is_type in F. rewrite H in F. exact F.
Qed.
(** What is printed for a soft limit can be given back: it is accepted, gives the limit rounded
    down to the unit and is printed again. *)
Theorem soft_restore : forall L Y allowed os st t, locale_ok L -> sys_ok Y -> sys_plain Y -> kernel_ok Y allowed -> limits_ok Y st ->
  plain_options os -> sets_hard os = false -> ulimit L Y allowed os [] st = (Printed t, st) ->
  exists a b a' st', st (resource os) = Some (a, b) /\ ulimit L Y allowed os [t] st = (Set_, st') /\ st' (resource os) = Some (a', b)
    /\ (a = rinf Y /\ a' = rinf Y \/ a <> rinf Y /\ a' <= a < a' + unit_of (resource os) /\ (unit_of (resource os) | a'))
    /\ ulimit L Y allowed os [] st' = (Printed t, st').
Proof.
  intros L Y allowed os st t HL SY SP K OK P NH E. pose proof (soft_only os NH) as SS. rewrite (proj1 (ulimit_plain L Y allowed os st P)) in E.
  destruct (st (resource os)) as [(a & b)|] eqn:S; [|discriminate]. injection E as T. rewrite SS in T.
  destruct (OK _ _ _ S) as (A & B & AB). pose proof SY as (M & _). pose proof SP as (E1 & E2 & E3 & E4). pose proof (unit_pos (resource os)) as U. set (u := unit_of (resource os)) in *.
  unfold print_value in T. cbn [fst snd] in T.
  destruct (Z.eqb_spec a (rinf Y)) as [I|I].
  - exists a, b, a, (set_limits st (resource os) (a, b)). split; [reflexivity|].
    assert (LB : b = rinf Y) by (destruct AB as [AB|(AB & _)]; [exact AB|contradiction]).
    rewrite (proj2 (ulimit_plain L Y allowed os st P) t), S.
    assert (OP : operand L Y t (a, b) (unit_of (resource os)) = inr (rinf Y)) by (rewrite <- T; reflexivity).
    rewrite OP. cbv zeta. unfold new_limits. rewrite SS, NH. cbn [fst snd]. rewrite <- I.
    assert (EX : exceeds Y (a, b) = false). { destruct (exceeds Y (a, b)) eqn:EX; [|reflexivity]. apply exceeds_iff in EX. apply over_le in AB; auto; contradiction. }
    rewrite EX, K by (cbn; solve [left; exact LB|exact AB]). split; [reflexivity|]. split; [apply set_same|]. split; [left; split; congruence|].
    rewrite (proj1 (ulimit_plain L Y allowed os _ P)), set_same, SS. unfold print_value. cbn [fst]. rewrite I, Z.eqb_refl. rewrite <- T. reflexivity.
  - set (q := a / u) in *. assert (Q0 : 0 <= q) by (apply Z.div_pos; lia).
    assert (QU : q * u <= a < q * u + u). { pose proof (Z.div_mod a u ltac:(lia)) as D. pose proof (Z.mod_pos_bound a u U) as D2. fold q in D. nia. }
    assert (NV : numeral 10 t q) by (rewrite <- T; apply dec_numeral; exact Q0).
    pose proof (ulimit_number L Y allowed os t q st a b HL SY P NV S) as H. cbv zeta in H. fold u in H.
    destruct (ulimit L Y allowed os [t] st) as (o & st') eqn:R. destruct H as (H & G & _).
    unfold new_limits in H, G. rewrite SS, NH in H, G. cbn [fst snd] in H, G.
    assert (LE : lim_le Y (q * u) b) by (destruct AB as [AB|(AB1 & AB2)]; [left; exact AB|right; lia]).
    assert (OS : o = Set_).
    { apply H. split; [nia|]. split; [lia|]. split; [unfold special; rewrite E1, E2; lia|]. split; [apply over_le; auto; nia|]. apply K; [|exact LE]. cbn. destruct (Z.eq_dec b (rinf Y)); [left; assumption|right; split; [assumption|lia]]. }
    subst o. exists a, b, (q * u), st'. split; [reflexivity|]. split; [reflexivity|]. split; [auto|]. split; [right; split; [exact I|]; split; [lia|exists q; reflexivity]|].
    rewrite <- T. apply (ulimit_then_print L Y allowed os os t q st st' HL SY P P NV R eq_refl). auto.
Qed.
Print Assumptions soft_restore.
(** The words [hard] and [soft] *)
Theorem limit_words : forall L Y allowed os st a b, sys_plain Y -> kernel_ok Y allowed -> limits_ok Y st -> plain_options os ->
  st (resource os) = Some (a, b) ->
  (sets_hard os = false -> exists st', ulimit L Y allowed os [str "hard"] st = (Set_, st') /\ st' (resource os) = Some (b, b))
  /\ (sets_soft os = false -> exists st', ulimit L Y allowed os [str "soft"] st = (Set_, st') /\ st' (resource os) = Some (a, a)).
Proof.
  intros L Y allowed os st a b SP K OK P S. destruct (OK _ _ _ S) as (A & B & AB).
  assert (RF : forall x, lim_le Y x x) by (intro x; destruct (Z.eq_dec x (rinf Y)); [left; assumption|right; split; [assumption|lia]]).
  assert (EX : forall x, 0 <= x < rmod Y -> exceeds Y (x, x) = false).
  { intros x X. destruct (exceeds Y (x, x)) eqn:EX; [|reflexivity]. apply exceeds_iff in EX. pose proof (RF x) as R. apply over_le in R; auto. contradiction. }
  split; intro H; rewrite (proj2 (ulimit_plain L Y allowed os st P)), S.
  - assert (SS := soft_only os H). assert (OP : operand L Y (str "hard") (a, b) (unit_of (resource os)) = inr b) by reflexivity. rewrite OP. cbv zeta. unfold new_limits. rewrite H, SS. cbn [fst snd].
    rewrite EX, K by (cbn; auto). eexists. split; [reflexivity|apply set_same].
  - assert (HH : sets_hard os = true) by (destruct (sets_hard os) eqn:Q; [reflexivity|]; apply soft_only in Q; congruence).
    assert (OP : operand L Y (str "soft") (a, b) (unit_of (resource os)) = inr a) by reflexivity. rewrite OP. cbv zeta. unfold new_limits. rewrite H, HH. cbn [fst snd].
    rewrite EX, K by (cbn; auto). eexists. split; [reflexivity|apply set_same].
Qed.
Print Assumptions limit_words.

(** * Printing all limits *)
Lemma options_types : forall os o, Forall (fun c => is_type c = true \/ c = ch "a") os ->
  options os o = Some (mkO (match last_of is_type os with Some c => (c =? ch "H")%N | None => hard o end)
    (match last_of is_type os with Some c => (c =? ch "S")%N | None => soft o end) (res o) (all o || existsb (N.eqb (ch "a")) os)).
Proof.
  intros os o F. assert (V : forallb valid_option os = true /\ last_of is_resource os = None).
  { induction F as [|c os H _ (I1 & I2)]; [split; reflexivity|]. cbn [forallb]. rewrite last_of_cons, I1, I2.
    destruct (is_resource c) eqn:R; [destruct (resource_not_type c R) as (T & A); destruct H as [H| ->]; [congruence|discriminate]|].
    split; [|reflexivity]. unfold valid_option. destruct H as [->| ->]; reflexivity. }
  destruct V as (V1 & V2). rewrite options_valid, V2 by exact V1. reflexivity.
Qed.
Lemma last_of_filter : forall os, last_of is_type (filter is_type os) = last_of is_type os.
Proof.
  induction os as [|c os IH]; [reflexivity|]. cbn [filter]. rewrite last_of_cons. destruct (is_type c) eqn:E; [rewrite last_of_cons, IH, E; reflexivity|].
  rewrite IH. destruct (last_of is_type os); reflexivity.
Qed.
Lemma last_of_snoc p os c : last_of p (os ++ [c]) = if p c then Some c else last_of p os.
Proof. unfold last_of. rewrite rev_app_distr. reflexivity. Qed.
(** [ulimit -a] lists for every resource what ulimit prints for it alone. *)
Theorem ulimit_all : forall L Y allowed os st, Forall (fun c => is_type c = true \/ c = ch "a") os -> In (ch "a") os ->
  (forall r, is_resource r = true -> st r <> None) ->
  exists l, ulimit L Y allowed os [] st = (PrintedAll l, st) /\ map fst l = letters
    /\ forall r t, In (r, t) l -> ulimit L Y allowed (filter is_type os ++ [r]) [] st = (Printed t, st).
Proof.
  intros L Y allowed os st F I ST. unfold ulimit at 1. rewrite (options_types os _ F). cbn [hard soft res all].
  assert (A : existsb (N.eqb (ch "a")) os = true) by (apply existsb_exists; exists (ch "a"); split; [exact I|reflexivity]). rewrite A. cbn [orb].
  set (sf := match last_of is_type os with Some c => (c =? ch "S")%N | None => true end). unfold print_all.
  assert (ST' : forall p, In p resources -> exists l, st (fst p) = Some l).
  { intros p IP. destruct (st (fst p)) eqn:E; [eauto|]. exfalso. apply (ST (fst p)); [|exact E]. rewrite resource_table. apply existsb_exists. exists p. split; [exact IP|apply N.eqb_refl]. }
  destruct (existsb _ resources) eqn:EX.
  { apply existsb_exists in EX. destruct EX as (p & IP & E). destruct (ST' p IP) as (l & Q). rewrite Q in E. discriminate. }
  eexists. split; [reflexivity|]. split.
  - change letters with (map fst resources). clear EX ST I F. revert ST'. generalize resources as rs. induction rs as [|p rs IH]; intro H; [reflexivity|]. cbn [flat_map map].
    destruct (H p (or_introl eq_refl)) as (l & E). rewrite E. cbn [app map fst]. f_equal. apply IH. intros q Q. apply H. right. exact Q.
  - intros r t IN. apply in_flat_map in IN. destruct IN as (p & IP & IN). destruct (ST' p IP) as (l & E). rewrite E in IN. cbn in IN. destruct IN as [IN|[]]. injection IN as <- <-.
    assert (R : is_resource (fst p) = true) by (rewrite resource_table; apply existsb_exists; exists p; split; [exact IP|apply N.eqb_refl]).
    assert (T : is_type (fst p) = false) by (apply resource_not_type; exact R).
    assert (P : plain_options (filter is_type os ++ [fst p])).
    { apply Forall_app. split; [|apply Forall_cons; [right; exact R|apply Forall_nil]]. apply Forall_forall. intros x X. apply filter_In in X. left. apply X. }
    rewrite (proj1 (ulimit_plain L Y allowed _ st P)). unfold resource, sets_soft. rewrite !last_of_snoc, R, T, last_of_filter, E. fold sf.
    pose proof (resource_units _ R) as U. assert (S : snd p = unit_of (fst p)).
    { clear - IP. cbn in IP. repeat (destruct IP as [IP|IP]; [subst p; vm_compute; reflexivity|]). contradiction. }
    rewrite S. reflexivity.
Qed.
Print Assumptions ulimit_all.

(** * Linux *)
Definition linux : sys := mkSys ULONG_MOD (ULONG_MOD - 1) (ULONG_MOD - 1) (ULONG_MOD - 1).
Lemma linux_ok : sys_ok linux /\ sys_plain linux.
Proof. unfold sys_ok, sys_plain, linux. cbn. unfold ULONG_MOD. lia. Qed.
Definition le_lim (Y : sys) (a b : Z) : bool := (b =? rinf Y) || (negb (a =? rinf Y) && (a <=? b)).
Definition user (r : N) (o n : Z * Z) : bool := le_lim linux (snd n) (snd o) && le_lim linux (fst n) (snd n).
Lemma user_ok : kernel_ok linux user.
Proof.
  intros r o n A B. unfold user, le_lim. unfold lim_le in *. apply andb_true_iff. split; apply orb_true_iff.
  - destruct A as [E|(A1 & A2)]; [left; lia|right]. apply andb_true_iff. split; [apply negb_true_iff; lia|lia].
  - destruct B as [E|(B1 & B2)]; [left; lia|right]. apply andb_true_iff. split; [apply negb_true_iff; lia|lia].
Qed.
Definition some_limits : limits := fun r => if (r =? ch "c")%N then Some (1000, 1000) else if (r =? ch "n")%N then Some (1024, 4096) else Some (ULONG_MOD - 1, ULONG_MOD - 1).
Lemma some_limits_ok : limits_ok linux some_limits.
Proof.
  intros r a b. unfold some_limits. destruct (r =? ch "c")%N; [|destruct (r =? ch "n")%N]; intro H; injection H as <- <-; unfold linux, lim_le, ULONG_MOD; cbn [rmod rinf]; lia.
Qed.
(** For hard limits that are not multiples of the unit, [ulimit -H $(ulimit -H)] may fail. *)
Theorem hard_restore_refuted : exists st os t, limits_ok linux st /\ plain_options os /\ sets_soft os = false
  /\ ulimit c_locale linux user os [] st = (Printed t, st) /\ fst (ulimit c_locale linux user os [t] st) = Failure.
Proof.
  exists some_limits, (str "Hc"), (str "1"). split; [apply some_limits_ok|]. split; [repeat (apply Forall_cons; [vm_compute; auto|]); apply Forall_nil|]. split; [reflexivity|]. split; vm_compute; reflexivity.
Qed.
Print Assumptions hard_restore_refuted.

(** * Examples *)
Example ex_set : fst (ulimit c_locale linux user (str "Sn") [str "512"] some_limits) = Set_
  /\ snd (ulimit c_locale linux user (str "Sn") [str "512"] some_limits) (ch "n") = Some (512, 4096).
Proof. vm_compute. auto. Qed.
Example ex_overflow : fst (ulimit c_locale linux user (str "d") [str "18014398509481984"] some_limits) = Failure
  /\ fst (ulimit c_locale linux user (str "d") [str "18014398509481983"] some_limits) = Set_
  /\ fst (ulimit c_locale linux user (str "t") [str "18446744073709551616"] some_limits) = Usage
  /\ fst (ulimit c_locale linux user (str "t") [str "18446744073709551615"] some_limits) = Failure.
Proof. vm_compute. auto. Qed.
Example ex_print : fst (ulimit c_locale linux user (str "n") [] some_limits) = Printed (str "1024")
  /\ fst (ulimit c_locale linux user (str "SnH") [] some_limits) = Printed (str "4096")
  /\ fst (ulimit c_locale linux user [] [] some_limits) = Printed (str "unlimited").
Proof. vm_compute. auto. Qed.
Example ex_order : fst (ulimit c_locale linux user (str "Hn") [str "100"] some_limits) = Failure
  /\ fst (ulimit c_locale linux user (str "n") [str "100"] some_limits) = Set_ /\ fst (ulimit c_locale linux user (str "an") [] some_limits) = Usage.
Proof. vm_compute. auto. Qed.
Example ex_all : exists l, ulimit c_locale linux user (str "aH") [] some_limits = (PrintedAll l, some_limits) /\ In (ch "n", str "4096") l /\ length l = 15%nat.
Proof. eexists. split; [vm_compute; reflexivity|]. split; [cbn; tauto|reflexivity]. Qed.
