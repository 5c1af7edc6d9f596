(** Lemmas about the trap built-in. *)
From Coq Require Import Ascii String.
From Coq Require Import List NArith ZArith Bool Arith Lia FinFun.
From Verif Require Import Common Locale NumModel NumProofs BraceSpec BraceNum SigModel SigSpec Sig.
Import ListNotations.
Local Open Scope Z_scope.

Section S.
Variable L : locale.
Hypothesis HL : locale_ok L.
Variable G : sigs.
Hypothesis HG : sigs_ok G.
Variable H : shell.
Hypothesis HU : up_ok H.

Lemma parse_valid t z : parse_number L G t = GNum z -> valid G z.
Proof.
  unfold parse_number, valid. destruct (xwcstoi L 10 t) as [y|]; [|discriminate]. destruct (y <? 0); [discriminate|].
  destruct (Z.eqb_spec y 0); [intro E; injection E as <-; auto|]. destruct (is_rt G y) eqn:R; [intro E; injection E as <-; apply rt_iff in R; auto|].
  destruct (in_table G y) eqn:T; [|discriminate]. intro E. injection E as <-. apply in_table_iff in T. auto.
Qed.
Lemma number_valid nm z : signal_number L G nm = GNum z -> valid G z.
Proof.
  pose proof (ok_rt G HG) as (R1 & R2). unfold signal_number. destruct (match nm with c :: _ => isdigit c | [] => false end); [apply parse_valid|].
  destruct (list_N_eqb nm (str "EXIT")); [intro E; injection E as <-; left; reflexivity|]. cbv zeta. set (n := match drop_prefix _ nm with Some r => r | None => nm end).
  destruct (find _ (table G)) as [p|] eqn:F; [intro E; injection E as <-; apply find_some in F; right; right; apply in_map; tauto|].
  destruct (drop_prefix (str "RTMIN") n) as [[|c r]|].
  - intro E. injection E as <-. right; left; lia.
  - destruct (N.eqb_spec c (ch "+")); [|discriminate]. subst c. destruct (xwcstoi L 10 (ch "+" :: r)) as [v|] eqn:X; [|discriminate]. destruct (xwcstoi_sign L HL false r v X) as (w & W & -> & _). destruct (debug G && (w <? 0)); [discriminate|].
    destruct (Z.leb_spec w (rtmax G - rtmin G)); [|discriminate]. intro E. injection E as <-. right; left; lia.
  - destruct (drop_prefix (str "RTMAX") n) as [[|c r]|]; [intro E; injection E as <-; right; left; lia| |discriminate].
    destruct (N.eqb_spec c (ch "-")); [|discriminate]. subst c. destruct (xwcstoi L 10 (ch "-" :: r)) as [v|] eqn:X; [|discriminate]. destruct (xwcstoi_sign L HL true r v X) as (w & W & -> & _). destruct (debug G && (0 <=? - w)); [discriminate|].
    destruct (Z.leb_spec (rtmin G - rtmax G) (- w)); [|discriminate]. intro E. injection E as <-. right; left; lia.
Qed.
Lemma number_abort nm : signal_number L G nm = GAbort -> debug G = true /\
  exists zs, (nm = str "RTMAX-" ++ zs \/ nm = str "SIGRTMAX-" ++ zs) /\ zs <> [] /\ Forall (fun c => c = 48%N) zs.
Proof.
  unfold signal_number, parse_number. destruct (match nm with c :: _ => isdigit c | [] => false end).
  { destruct (xwcstoi L 10 nm); [|discriminate]. destruct (z <? 0); [discriminate|]. destruct (z =? 0); [discriminate|]. destruct (is_rt G z); [discriminate|]. destruct (in_table G z); discriminate. }
  destruct (list_N_eqb nm (str "EXIT")); [discriminate|]. cbv zeta. set (n := match drop_prefix (str "SIG") nm with Some r => r | None => nm end).
  assert (NM : nm = n \/ nm = str "SIG" ++ n). { unfold n. destruct (drop_prefix (str "SIG") nm) eqn:D; [right; apply drop_inv; exact D|left; reflexivity]. }
  destruct (find _ (table G)); [discriminate|]. destruct (drop_prefix (str "RTMIN") n) as [[|c r]|].
  - discriminate.
  - destruct (N.eqb_spec c (ch "+")); [|discriminate]. destruct (xwcstoi L 10 (c :: r)) as [v|] eqn:X; [|discriminate]. subst c.
    destruct (xwcstoi_sign L HL false r v X) as (w & W & -> & _). destruct (Z.ltb_spec w 0); [lia|]. rewrite andb_false_r. destruct (w <=? _); discriminate.
  - destruct (drop_prefix (str "RTMAX") n) as [[|c r]|] eqn:D; [discriminate| |discriminate]. apply drop_inv in D.
    destruct (N.eqb_spec c (ch "-")); [|discriminate]. destruct (xwcstoi L 10 (c :: r)) as [v|] eqn:X; [|discriminate]. subst c.
    destruct (xwcstoi_sign L HL true r v X) as (w & W & -> & NE & Z0). destruct (debug G) eqn:DB; cbn [andb]; [|destruct (_ <=? _); discriminate].
    destruct (Z.leb_spec 0 (- w)); [|destruct (_ <=? _); discriminate].
    intros _. split; [reflexivity|]. exists r. split; [|split; [exact NE|apply Z0; lia]]. rewrite D in NM. exact NM.
Qed.
Lemma up_id nm : Forall (fun c => upper_or_digit c \/ c = ch "+" \/ c = ch "-") nm -> map (up H) nm = nm.
Proof. induction 1 as [|c r C _ IH]; [reflexivity|]. cbn [map]. rewrite (HU c C), IH. reflexivity. Qed.
Lemma table_up nm z : In (nm, z) (table G) -> map (up H) nm = nm.
Proof. intro I. apply up_id. destruct (ok_table G HG nm z I) as ((_ & F & _) & _). eapply Forall_impl; [|exact F]. auto. Qed.
Lemma dec_chars n : 0 <= n -> Forall (fun c => upper_or_digit c \/ c = ch "+" \/ c = ch "-") (dec_of_Z n).
Proof.
  intro P. destruct (numeral_digit (dec_of_Z n) n (dec_num n P)) as (_ & F). eapply Forall_impl; [|exact F]. intros c D. left. right. unfold isdigit in D. lia.
Qed.
Ltac chars := repeat (apply Forall_cons; [cbv; intuition congruence|]); try apply Forall_nil.
Lemma name_up z : valid G z -> map (up H) (signal_name G z) = signal_name G z.
Proof.
  intro V. unfold signal_name. pose proof (ok_rt G HG) as (R1 & R2).
  destruct (Z.eqb_spec z 0); [apply up_id; chars|]. destruct (is_rt G z) eqn:R.
  - apply rt_iff in R. destruct (z =? rtmin G); [apply up_id; chars|]. destruct (z =? rtmax G); [apply up_id; chars|]. cbv zeta.
    destruct (_ <=? _); apply up_id; apply Forall_app; (split; [chars|apply dec_chars; lia]).
  - destruct (find _ (table G)) as [(nm, y)|] eqn:F; [|reflexivity]. apply find_some in F. apply (table_up nm y). tauto.
Qed.

(** ** Setting traps *)
Lemma supported z : is_rt G z && (rtsize G <=? z - rtmin G) = false.
Proof.
  pose proof (ok_size G HG). destruct (is_rt G z) eqn:R; [|reflexivity]. apply rt_iff in R. cbn [andb]. apply Z.leb_gt. lia.
Qed.
Definition fixed (s : st) (z : Z) : Prop := interactive H = false /\ cmd s z = None /\ z <> 0 /\ orig_ign H z = true.
Lemma handled_twice k c o : handled H k c (handled H k c o) = handled H k c o.
Proof. unfold handled. destruct (shell_catches H k); reflexivity. Qed.
Lemma set_cases z c s s' e : set_trap G H z c s = (s', e) ->
  (s' = s /\ ((z = sigkill G \/ z = sigstop G) /\ e = true \/ fixed s z /\ e = false))
  \/ (z <> sigkill G /\ z <> sigstop G /\ ~ fixed s z /\ e = false
      /\ cmd s' = (if phantom s then cmd s else upd (cmd s) z c) /\ phantom s' = phantom s
      /\ anyset s' = (if phantom s then anyset s else anyset s || nonempty c)
      /\ (forall y, y <> z -> act s' y = act s y) /\ (z = 0 -> act s' z = act s z)
      /\ (z <> 0 -> act s' z = handled H (kind G z) c (act s z))).
Proof.
  unfold set_trap. rewrite supported. destruct ((z =? sigkill G) || (z =? sigstop G)) eqn:K.
  { intro E. injection E as <- <-. left. split; [reflexivity|]. left. apply orb_true_iff in K. rewrite !Z.eqb_eq in K. auto. }
  apply orb_false_iff in K. destruct K as (K1 & K2). apply Z.eqb_neq in K1. apply Z.eqb_neq in K2. cbv iota.
  destruct (negb (interactive H) && _ && _ && _) eqn:F.
  { intro E. injection E as <- <-. left. split; [reflexivity|]. right. split; [|reflexivity]. unfold fixed.
    destruct (interactive H), (cmd s z), (Z.eqb_spec z 0), (orig_ign H z); try discriminate; auto. }
  assert (NF : ~ fixed s z). { intros (A & B & C & D). rewrite A, B, D in F. destruct (Z.eqb_spec z 0); [contradiction|discriminate]. }
  cbv zeta. intro E. right. split; [exact K1|]. split; [exact K2|]. split; [exact NF|].
  destruct (Z.eqb_spec z 0) as [->|NZ].
  { injection E as <- <-. destruct (phantom s) eqn:P; cbn [cmd phantom anyset act]; rewrite ?P; intuition. }
  assert (U : forall h y, y <> z -> upd (act s) z h y = act s y) by (intros h y Y; unfold upd; destruct (Z.eqb_spec y z); congruence).
  assert (U2 : forall h, upd (act s) z h z = h) by (intro h; unfold upd; rewrite Z.eqb_refl; reflexivity).
  destruct (phantom s) eqn:P; cbn [cmd phantom anyset act] in E; unfold handled, shell_catches, shell_ignores; destruct (kind G z) eqn:KD; try destruct (ihandlers H); try destruct (jhandlers H);
    injection E as <- <-; cbn [cmd phantom anyset act]; rewrite ?P; (repeat split; try reflexivity; try (intros; congruence); try (intros; apply U; assumption); intros; rewrite U2; destruct c as [[|]|]; reflexivity).
Qed.
Lemma upd_same {A} (f : Z -> A) z v : upd f z v z = v.
Proof. unfold upd. rewrite Z.eqb_refl. reflexivity. Qed.
Lemma upd_other {A} (f : Z -> A) z v y : y <> z -> upd f z v y = f y.
Proof. intro N. unfold upd. destruct (Z.eqb_spec y z); congruence. Qed.
Lemma all_valid z : valid G z -> In z (all_signals G).
Proof.
  pose proof (ok_size G HG). intros [->|[V|V]]; [left; reflexivity| |right; apply in_or_app; left; exact V]. right. apply in_or_app. right. unfold rt_signals.
  apply in_map_iff. exists (Z.to_nat (z - rtmin G)). split; [lia|]. apply in_seq. lia.
Qed.

(** Banishing the phantoms *)
Lemma banish_loop : forall zs s, let s' := fold_left (fun s z => if nonempty (cmd s z) then mkSt (upd (cmd s) z None) (act s) (phantom s) (anyset s) else s) zs s in
  act s' = act s /\ phantom s' = phantom s /\ anyset s' = anyset s
  /\ (forall z, nonempty (cmd s z) = false -> cmd s' z = cmd s z)
  /\ (forall z, nonempty (cmd s z) = true -> cmd s' z = if in_dec Z.eq_dec z zs then None else cmd s z).
Proof.
  induction zs as [|a zs IH]; intros s; cbn [fold_left]; [cbn; auto 6|]. cbv zeta in IH |- *.
  destruct (nonempty (cmd s a)) eqn:N.
  - destruct (IH (mkSt (upd (cmd s) a None) (act s) (phantom s) (anyset s))) as (A & B & C & D & E). cbn [cmd act phantom anyset] in *.
    split; [exact A|]. split; [exact B|]. split; [exact C|]. split.
    + intros z NZ. assert (z <> a) by congruence. rewrite D; rewrite upd_other by assumption; auto.
    + intros z NZ. destruct (Z.eq_dec z a) as [->|Y].
      * rewrite D by (rewrite upd_same; reflexivity). rewrite upd_same. destruct (in_dec Z.eq_dec a (a :: zs)) as [|F]; [reflexivity|exfalso; apply F; left; reflexivity].
      * rewrite E by (rewrite upd_other by assumption; exact NZ). rewrite upd_other by assumption.
        destruct (in_dec Z.eq_dec z zs) as [I|I], (in_dec Z.eq_dec z (a :: zs)) as [J|J]; auto; [exfalso; apply J; right; exact I|destruct J; [congruence|contradiction]].
  - destruct (IH s) as (A & B & C & D & E). repeat (split; [assumption|]). intros z NZ. rewrite E by exact NZ. assert (z <> a) by congruence.
    destruct (in_dec Z.eq_dec z zs) as [I|I], (in_dec Z.eq_dec z (a :: zs)) as [J|J]; auto; [exfalso; apply J; right; exact I|destruct J; [congruence|contradiction]].
Qed.
Lemma banish_spec s : traps_ok G H s ->
  act (banish G s) = act s /\ phantom (banish G s) = false /\ anyset (banish G s) = anyset s
  /\ (forall z, cmd (banish G s) z = if phantom s && nonempty (cmd s z) then None else cmd s z).
Proof.
  intros (T & _). unfold banish. destruct (phantom s) eqn:P; [|cbn [andb]; auto].
  destruct (banish_loop (all_signals G) (mkSt (cmd s) (act s) false (anyset s))) as (A & B & C & D & E). cbn [cmd act phantom anyset] in *.
  split; [exact A|]. split; [exact B|]. split; [exact C|]. intro z. cbn [andb]. destruct (nonempty (cmd s z)) eqn:N; [|apply D; exact N].
  rewrite E by exact N. destruct (in_dec Z.eq_dec z (all_signals G)) as [|F]; [reflexivity|]. exfalso. apply F, all_valid.
  destruct (cmd s z) as [c|] eqn:Q; [|discriminate]. destruct (T z c Q) as ((V & _) & _). exact V.
Qed.
Lemma banish_ok s : traps_ok G H s -> traps_ok G H (banish G s).
Proof.
  intro T. pose proof (banish_spec s T) as (A & B & C & D). destruct T as (T1 & T2). split.
  - intros z c E. rewrite D in E. destruct (phantom s && nonempty (cmd s z)); [discriminate|eauto].
  - intros _ AS z. rewrite C in AS. rewrite D. destruct (phantom s) eqn:P; cbn [andb]; [destruct (nonempty (cmd s z)) eqn:N; [reflexivity|exact N]|auto].
Qed.
Lemma set_ok z c s s' e : set_trap G H z c s = (s', e) -> valid G z -> (forall x, c = Some x -> action x) -> phantom s = false -> traps_ok G H s -> traps_ok G H s' /\ phantom s' = false.
Proof.
  intros E V AC P (T1 & T2). destruct (set_cases _ _ _ _ _ E) as [(-> & _)|(K1 & K2 & NF & _ & C & PH & AS & _)]; [repeat split; auto; apply (T1 _ _ H0)|].
  rewrite P in *. split; [|exact PH]. split.
  - intros y x Y. rewrite C in Y. destruct (Z.eq_dec y z) as [->|N]; [|rewrite upd_other in Y by exact N; eauto]. rewrite upd_same in Y. split; [|auto].
    unfold trappable. repeat (split; [assumption|]). destruct (cmd s z) as [w|] eqn:CZ; [destruct (T1 z w CZ) as ((_ & _ & _ & X) & _); exact X|].
    destruct (interactive H) eqn:I; [auto|]. destruct (Z.eq_dec z 0); [auto|]. destruct (orig_ign H z) eqn:O; [|auto]. exfalso. apply NF. unfold fixed. auto.
  - intros _ A y. rewrite AS in A. apply orb_false_iff in A. destruct A as (A1 & A2). rewrite C. destruct (Z.eq_dec y z) as [->|N]; [rewrite upd_same; exact A2|rewrite upd_other by exact N; auto].
Qed.

(** Setting the traps of several signals *)
Definition named (names : list (list N)) (z : Z) : Prop := exists nm, In nm names /\ signal_number L G (map (up H) nm) = GNum z.
Lemma set_all_spec c : (forall x, c = Some x -> action x) -> forall names s l e s', phantom s = false -> traps_ok G H s -> set_all L G H c names s = Done l e s' ->
  l = [] /\ phantom s' = false /\ traps_ok G H s'
  /\ (forall z, ~ named names z -> cmd s' z = cmd s z /\ act s' z = act s z)
  /\ (forall z, z = sigkill G \/ z = sigstop G \/ fixed s z -> cmd s' z = cmd s z /\ act s' z = act s z)
  /\ (forall z, named names z -> z <> sigkill G -> z <> sigstop G -> ~ fixed s z ->
        cmd s' z = c /\ (z <> 0 -> act s' z = handled H (kind G z) c (act s z)))
  /\ (e = false <-> forall nm, In nm names -> exists z, signal_number L G (map (up H) nm) = GNum z /\ z <> sigkill G /\ z <> sigstop G).
Proof.
  intro AC. induction names as [|nm names IH]; intros s l e s' P T E; cbn [set_all] in E.
  { injection E as <- <- <-. repeat (split; [solve [auto | intros; auto]|]). split; [intros z (x & [] & _)|]. split; [intros _ x []|reflexivity]. }
  destruct (signal_number L G (map (up H) nm)) as [| |z0] eqn:N; [discriminate| |].
  - destruct (set_all L G H c names s) as [|l1 e1 s1] eqn:S; [discriminate|]. injection E as <- <- <-. destruct (IH _ _ _ _ P T S) as (A & B & C & D & F & I & J).
    split; [exact A|]. split; [exact B|]. split; [exact C|]. split; [|split; [exact F|split]].
    + intros z NN. apply D. intros (x & X & Y). apply NN. exists x. split; [right; exact X|exact Y].
    + intros z (x & [<-|X] & Y); [congruence|]. apply I. exists x. auto.
    + split; [discriminate|]. intro Q. destruct (Q nm (or_introl eq_refl)) as (z & Z1 & _). congruence.
  - destruct (set_trap G H z0 c s) as (s1, e1) eqn:ST. destruct (set_all L G H c names s1) as [|l2 e2 s2] eqn:S; [discriminate|]. injection E as <- <- <-.
    assert (V : valid G z0) by (eapply number_valid; eauto). destruct (set_ok _ _ _ _ _ ST V AC P T) as (T1 & P1).
    destruct (IH _ _ _ _ P1 T1 S) as (A & B & C & D & F & I & J). pose proof (set_cases _ _ _ _ _ ST) as SC. rewrite P in SC.
    assert (FX : forall z, fixed s z -> fixed s1 z /\ cmd s1 z = cmd s z /\ act s1 z = act s z).
    { intros z FZ. destruct SC as [(-> & _)|(_ & _ & NF & _ & C0 & _ & _ & O & _)]; [auto|]. assert (Y : z <> z0) by congruence.
      unfold fixed in *. rewrite C0, upd_other by exact Y. rewrite (O z Y). tauto. }
    assert (FX2 : forall z, fixed s1 z -> ~ fixed s z -> z = z0 /\ cmd s1 z = c /\ c = None).
    { intros z F1 NF1. destruct SC as [(-> & _)|(_ & _ & NF & _ & C0 & _)]; [contradiction|]. destruct (Z.eq_dec z z0) as [->|Y].
      - unfold fixed in F1. rewrite C0, upd_same in F1. rewrite C0, upd_same. tauto.
      - exfalso. apply NF1. unfold fixed in *. rewrite C0, upd_other in F1 by exact Y. exact F1. }
    split; [exact A|]. split; [exact B|]. split; [exact C|]. split; [|split; [|split]].
    + intros z NN. assert (Y : z <> z0) by (intros ->; apply NN; exists nm; split; [left; reflexivity|exact N]).
      destruct (D z) as (D1 & D2). { intros (x & X & W). apply NN. exists x. split; [right; exact X|exact W]. }
      rewrite D1, D2. destruct SC as [(-> & _)|(_ & _ & _ & _ & C0 & _ & _ & O & _)]; [auto|]. rewrite C0, upd_other by exact Y. auto.
    + intros z [K|[K|K]].
      * destruct (F z (or_introl K)) as (F1 & F2). rewrite F1, F2. destruct SC as [(-> & _)|(K1 & _ & _ & _ & C0 & _ & _ & O & _)]; [auto|]. assert (Y : z <> z0) by congruence. rewrite C0, upd_other by exact Y. auto.
      * destruct (F z (or_intror (or_introl K))) as (F1 & F2). rewrite F1, F2. destruct SC as [(-> & _)|(_ & K1 & _ & _ & C0 & _ & _ & O & _)]; [auto|]. assert (Y : z <> z0) by congruence. rewrite C0, upd_other by exact Y. auto.
      * destruct (FX z K) as (X1 & X2 & X3). destruct (F z (or_intror (or_intror X1))) as (F1 & F2). rewrite F1, F2. auto.
    + intros z NZ K1 K2 NF. assert (DN : named names z \/ ~ named names z).
      { unfold named. clear - names. induction names as [|x xs IHx]; [right; intros (y & [] & _)|].
        destruct IHx as [(y & Y1 & Y2)|Y]; [left; exists y; split; [right; exact Y1|exact Y2]|].
        destruct (signal_number L G (map (up H) x)) as [| |w] eqn:W.
        1,2: right; intros (y & [<-|Y1] & Y2); [congruence|apply Y; exists y; auto].
        destruct (Z.eq_dec w z) as [->|X]; [left; exists x; split; [left; reflexivity|exact W]|right; intros (y & [<-|Y1] & Y2); [congruence|apply Y; exists y; auto]]. }
      assert (FD : fixed s1 z \/ ~ fixed s1 z).
      { unfold fixed. destruct (interactive H), (cmd s1 z), (Z.eq_dec z 0), (orig_ign H z); try (right; intros (? & ? & ? & ?); congruence). left. auto. }
      destruct FD as [FD|FD].
      * destruct (FX2 z FD NF) as (-> & X2 & X3). destruct (F z0 (or_intror (or_intror FD))) as (F1 & F2). rewrite F1, F2, X2. split; [reflexivity|]. intros NZ0.
        destruct SC as [(-> & _)|(_ & _ & _ & _ & _ & _ & _ & _ & _ & AP)]; [contradiction|auto].
      * destruct DN as [DN|DN].
        { destruct (I z DN K1 K2 FD) as (I1 & I2). split; [exact I1|]. intro NZ0. rewrite (I2 NZ0). destruct SC as [(-> & _)|(_ & _ & _ & _ & _ & _ & _ & O & _ & AP)]; [reflexivity|].
          destruct (Z.eq_dec z z0) as [->|Y]; [rewrite (AP NZ0); apply handled_twice|rewrite (O z Y); reflexivity]. }
         assert (z = z0) as ->. { destruct NZ as (y & [<-|Y1] & Y2); [congruence|]. exfalso. apply DN. exists y. auto. }
        destruct (D z0 DN) as (D1 & D2). rewrite D1, D2. destruct SC as [(-> & [([K|K] & _)|(K & _)])|(_ & _ & _ & _ & C0 & _ & _ & _ & _ & AP)]; try contradiction.
        rewrite C0, upd_same. split; [reflexivity|]. intros NZ0. apply AP; assumption.
    + rewrite orb_false_iff, J. split.
      * intros (E1 & Q) x [<-|X]; [|auto]. exists z0. split; [exact N|]. destruct SC as [(_ & [(_ & ?)|((Z1 & Z2 & Z3 & Z4) & _)])|(K1 & K2 & _)]; [congruence| |auto].
        unfold set_trap in ST. destruct ((z0 =? sigkill G) || (z0 =? sigstop G)) eqn:K; [injection ST as _ <-; discriminate|]. apply orb_false_iff in K. rewrite !Z.eqb_neq in K. exact K.
      * intro Q. split; [|intros x X; apply Q; right; exact X]. destruct (Q nm (or_introl eq_refl)) as (z & Z1 & Z2 & Z3). assert (z = z0) by congruence. subst z.
        destruct SC as [(_ & [([K|K] & _)|(_ & K)])|(_ & _ & _ & K & _)]; congruence.
Qed.

(** Making phantoms *)
Lemma phantom_loop : forall zs s, phantom s = true -> traps_ok G H s ->
  let s' := fold_left (fun s z => if nonempty (cmd s z) then fst (set_trap G H z None s) else s) zs s in
  cmd s' = cmd s /\ phantom s' = true /\ (forall z, nonempty (cmd s z) = false -> act s' z = act s z)
  /\ (forall z, nonempty (cmd s z) = true -> z <> 0 -> In z zs \/ act s z = handled H (kind G z) None (act s z) -> act s' z = handled H (kind G z) None (act s z)).
Proof.
  induction zs as [|a zs IH]; intros s P T; cbn [fold_left]; cbv zeta in *; [cbn [In]; intuition|].
  destruct (nonempty (cmd s a)) eqn:N.
  - destruct (set_trap G H a None s) as (s1, e) eqn:ST. cbn [fst].
    destruct (cmd s a) as [c|] eqn:CA; [|discriminate]. destruct (proj1 T a c CA) as ((V & K1 & K2 & TR) & _).
    destruct (set_cases _ _ _ _ _ ST) as [(_ & [([K|K] & _)|((_ & K & _) & _)])|(_ & _ & _ & _ & C & PH & AS & O & OZ & AP)]; try congruence. rewrite P in *.
    assert (T1 : traps_ok G H s1). { split; [rewrite C; exact (proj1 T)|congruence]. }
    destruct (IH s1 PH T1) as (A & B & D & E). rewrite C in *. split; [exact A|]. split; [exact B|]. split.
    + intros z NZ. assert (z <> a) by (intros ->; rewrite CA in NZ; congruence). rewrite D, O; auto.
    + intros z NZ Z0 DF. destruct (Z.eq_dec z a) as [->|Y].
      * rewrite E; rewrite ?(AP Z0), ?handled_twice; auto.
      * rewrite <- (O z Y) in *. apply E; auto. destruct DF as [[X|X]|X]; [congruence|auto|auto].
  - destruct (IH s P T) as (A & B & D & E). repeat (split; [assumption|]). intros z NZ Z0 [[->|I]|DF]; [congruence|auto|auto].
Qed.
Lemma phantomize_spec r s : traps_ok G H s -> let s' := phantomize G H r s in
  cmd s' = cmd s /\ traps_ok G H s' /\ (phantom s' = true \/ phantom s' = phantom s /\ forall z, phantom s = false -> nonempty (cmd s z) = false)
  /\ (forall z, nonempty (cmd s z) = false -> act s' z = act s z)
  /\ (phantom s = false -> forall z, nonempty (cmd s z) = true -> z <> 0 -> act s' z = handled H (kind G z) None (act s z)).
Proof.
  intro T. cbv zeta. unfold phantomize. destruct (negb (anyset s) && negb r) eqn:Q.
  - apply andb_true_iff in Q. destruct Q as (Q & _). apply negb_true_iff in Q. split; [reflexivity|]. split; [exact T|].
    split; [right; split; [reflexivity|]; intros z P; apply (proj2 T P Q)|]. split; [auto|]. intros P z N. rewrite (proj2 T P Q z) in N. discriminate.
  - cbv zeta. assert (T0 : traps_ok G H (mkSt (cmd s) (act s) true (anyset s))) by (split; [exact (proj1 T)|discriminate]).
    destruct (phantom_loop (all_signals G) (mkSt (cmd s) (act s) true (anyset s)) eq_refl T0) as (A & B & D & E). cbn [cmd act phantom anyset] in *. rewrite A, B.
    split; [reflexivity|]. split; [split; [exact (proj1 T)|discriminate]|]. split; [auto|]. split; [exact D|].
    intros P z N Z0. apply E; auto. left. apply all_valid. destruct (cmd s z) as [c|] eqn:C; [|discriminate]. apply (proj1 T z c C).
Qed.

(** ** Printing *)
Lemma in_print nm c x : In x (print_trap nm c) <-> exists a, c = Some a /\ x = (a, nm).
Proof.
  destruct c as [a|]; cbn; split.
  - intros [<-|[]]. eauto.
  - intros (b & E & ->). injection E as ->. auto.
  - intros [].
  - intros (b & E & _). discriminate.
Qed.
Lemma print_table_sound s : forall t printed a nm, In (a, nm) (print_table t printed s) -> exists z, In (nm, z) t /\ cmd s z = Some a.
Proof.
  induction t as [|(n, z) t IH]; intros printed a nm I; [contradiction|]. cbn [print_table] in I. destruct (existsb _ _).
  - destruct (IH _ _ _ I) as (y & Y & C). exists y. split; [right; exact Y|exact C].
  - apply in_app_or in I. destruct I as [I|I].
    + apply in_print in I. destruct I as (b & C & E). injection E as -> ->. exists z. split; [left; reflexivity|exact C].
    + destruct (IH _ _ _ I) as (y & Y & C). exists y. split; [right; exact Y|exact C].
Qed.
Lemma print_table_complete s a z : cmd s z = Some a -> forall t printed, In z (map snd t) -> ~ In z printed -> exists nm, In (nm, z) t /\ In (a, nm) (print_table t printed s).
Proof.
  intro C. induction t as [|(n, y) t IH]; intros printed I NP; [contradiction|]. cbn [print_table]. destruct (Z.eq_dec y z) as [->|Y].
  - destruct (existsb (Z.eqb z) printed) eqn:X; [apply existsb_exists in X; destruct X as (w & W & E); apply Z.eqb_eq in E; subst; contradiction|].
    exists n. split; [left; reflexivity|]. apply in_or_app. left. apply in_print. eauto.
  - destruct I as [I|I]; [contradiction|]. destruct (existsb (Z.eqb y) printed).
    + destruct (IH printed I NP) as (nm & A & B). exists nm. split; [right; exact A|exact B].
    + destruct (IH (y :: printed) I) as (nm & A & B); [intros [W|W]; [contradiction|contradiction]|]. exists nm. split; [right; exact A|apply in_or_app; right; exact B].
Qed.
(** Which signals are printed *)
Fixpoint shown (t : list (list N * Z)) (printed : list Z) (s : st) : list Z :=
  match t with
  | [] => []
  | (_, z) :: t => if existsb (Z.eqb z) printed then shown t printed s
                   else (match cmd s z with Some _ => [z] | None => [] end) ++ shown t (z :: printed) s
  end.
Definition shows (R : list N -> Z -> Prop) (s : st) (z : Z) (l : line) : Prop := R (snd l) z /\ cmd s z = Some (fst l).
Lemma shown_spec s : forall t printed, NoDup (shown t printed s) /\ (forall z, In z (shown t printed s) -> ~ In z printed /\ In z (map snd t))
  /\ Forall2 (shows (fun nm z => In (nm, z) t) s) (shown t printed s) (print_table t printed s).
Proof.
  induction t as [|(nm, z) t IH]; intro pr; cbn [shown print_table map snd]; [split; [constructor|split; [intros z []|constructor]]|].
  assert (MONO : forall zs ls, Forall2 (shows (fun nm z => In (nm, z) t) s) zs ls -> Forall2 (shows (fun nm0 z0 => In (nm0, z0) ((nm, z) :: t)) s) zs ls).
  { intros zs ls F. induction F as [|x y zs ls (X1 & X2) _ IHF]; constructor; [split; [right; exact X1|exact X2]|exact IHF]. }
  destruct (existsb (Z.eqb z) pr) eqn:X.
  - destruct (IH pr) as (A & B & C). split; [exact A|]. split; [intros y Y; destruct (B y Y); split; [assumption|right; assumption]|apply MONO; exact C].
  - assert (NP : ~ In z pr). { intro I. assert (existsb (Z.eqb z) pr = true); [apply existsb_exists; exists z; split; [exact I|apply Z.eqb_refl]|congruence]. }
    destruct (IH (z :: pr)) as (A & B & C). unfold print_trap. destruct (cmd s z) as [c|] eqn:CZ; cbn [app].
    + split; [constructor; [intro I; apply (proj1 (B z I)); left; reflexivity|exact A]|]. split.
      * intros y [<-|Y]; [split; [exact NP|left; reflexivity]|]. destruct (B y Y) as (B1 & B2). split; [intro I; apply B1; right; exact I|right; exact B2].
      * constructor; [split; [left; reflexivity|exact CZ]|apply MONO; exact C].
    + split; [exact A|]. split; [|apply MONO; exact C]. intros y Y. destruct (B y Y) as (B1 & B2). split; [intro I; apply B1; right; exact I|right; exact B2].
Qed.
Lemma shown_rt s : forall zs, NoDup zs -> (forall z, In z zs -> rtmin G <= z) -> exists ys, NoDup ys /\ (forall z, In z ys -> In z zs /\ rtmin G <= z <= rtmax G)
  /\ Forall2 (shows (fun nm z => nm = signal_name G z /\ rtmin G <= z <= rtmax G) s) ys (flat_map (fun z => if rtmax G <? z then [] else print_trap (signal_name G z) (cmd s z)) zs).
Proof.
  induction zs as [|z zs IH]; intros ND R; cbn [flat_map]; [exists []; split; [constructor|split; [intros z []|constructor]]|].
  inversion ND as [|? ? N1 N2]; subst. destruct (IH N2) as (ys & A & B & C); [intros; apply R; right; assumption|].
  assert (RZ : rtmin G <= z) by (apply R; left; reflexivity). destruct (Z.ltb_spec (rtmax G) z).
  - exists ys. split; [exact A|]. split; [intros y Y; destruct (B y Y); split; [right; assumption|assumption]|exact C].
  - unfold print_trap at 1. destruct (cmd s z) as [c|] eqn:CZ; cbn [app].
    + exists (z :: ys). split; [constructor; [intro I; apply N1, B, I|exact A]|]. split; [intros y [<-|Y]; [split; [left; reflexivity|lia]|destruct (B y Y); split; [right; assumption|assumption]]|].
      constructor; [split; [split; [reflexivity|lia]|exact CZ]|exact C].
    + exists ys. split; [exact A|]. split; [intros y Y; destruct (B y Y); split; [right; assumption|assumption]|exact C].
Qed.
Definition denotes (nm : list N) (z : Z) : Prop := signal_number L G (map (up H) nm) = GNum z.
Lemma exit_denotes : denotes (str "EXIT") 0.
Proof. unfold denotes. rewrite up_id by chars. reflexivity. Qed.
Lemma name_denotes z : valid G z -> denotes (signal_name G z) z.
Proof.
  intro V. unfold denotes. rewrite name_up by exact V. destruct (Z.eq_dec z 0) as [->|N]; [reflexivity|]. apply (name_bare L HL G HG z V N).
Qed.
Lemma print_sound s a nm : In (a, nm) (print_all G s) -> exists z, denotes nm z /\ cmd s z = Some a.
Proof.
  unfold print_all. intro I. apply in_app_or in I. destruct I as [I|I]; [|apply in_app_or in I; destruct I as [I|I]].
  - apply in_print in I. destruct I as (b & C & E). injection E as -> ->. exists 0. split; [apply exit_denotes|exact C].
  - destruct (print_table_sound _ _ _ _ _ I) as (z & Z1 & C). exists z. split; [|exact C]. unfold denotes. rewrite (table_up nm z Z1). apply (bare_table L G HG nm z Z1).
  - apply in_flat_map in I. destruct I as (z & Z1 & I). destruct (Z.ltb_spec (rtmax G) z); [contradiction|]. apply in_print in I. destruct I as (b & C & E).
    injection E as -> ->. exists z. split; [|exact C]. apply name_denotes. right; left. unfold rt_signals in Z1. apply in_map_iff in Z1. destruct Z1 as (i & <- & _). lia.
Qed.
Lemma print_complete s a z : valid G z -> cmd s z = Some a -> exists nm, In (a, nm) (print_all G s) /\ denotes nm z.
Proof.
  intros V C. unfold print_all. pose proof (ok_size G HG) as SZ. destruct V as [->|[V|V]].
  - exists (str "EXIT"). split; [|apply exit_denotes]. apply in_or_app. left. apply in_print. eauto.
  - exists (signal_name G z). split; [|apply name_denotes; right; left; exact V]. apply in_or_app. right. apply in_or_app. right. apply in_flat_map. exists z. split.
    + unfold rt_signals. apply in_map_iff. exists (Z.to_nat (z - rtmin G)). split; [lia|]. apply in_seq. lia.
    + destruct (Z.ltb_spec (rtmax G) z); [lia|]. apply in_print. eauto.
  - destruct (print_table_complete s a z C (table G) [] V ltac:(auto)) as (nm & A & B). exists nm. split; [apply in_or_app; right; apply in_or_app; left; exact B|].
    unfold denotes. rewrite (table_up nm z A). apply (bare_table L G HG nm z A).
Qed.

Lemma print_once s : exists zs, NoDup zs /\ Forall2 (shows denotes s) zs (print_all G s).
Proof.
  destruct (shown_spec s (table G) []) as (A & B & C). destruct (shown_rt s (rt_signals G)) as (ys & A2 & B2 & C2).
  { unfold rt_signals. apply FinFun.Injective_map_NoDup; [intros i j E; lia|apply seq_NoDup]. }
  { unfold rt_signals. intros z I. apply in_map_iff in I. destruct I as (i & <- & _). lia. }
  pose proof (ok_rt G HG) as (R1 & R2).
  assert (TB : forall z, In z (map snd (table G)) -> 0 < z /\ ~ rtmin G <= z <= rtmax G).
  { intros z I. apply in_map_iff in I. destruct I as ((nm, y) & <- & I). destruct (ok_table G HG nm y I) as (_ & X & Y). cbn [snd]. lia. }
  assert (IMP : forall (P : list N -> Z -> Prop) zs ls, (forall nm z, P nm z -> denotes nm z) -> Forall2 (shows P s) zs ls -> Forall2 (shows denotes s) zs ls).
  { intros P zs ls I F. induction F as [|x y zs ls (X1 & X2) _ IHF]; constructor; [split; [apply I; exact X1|exact X2]|exact IHF]. }
  assert (REST : NoDup (shown (table G) [] s ++ ys) /\ Forall2 (shows denotes s) (shown (table G) [] s ++ ys) (print_table (table G) [] s ++ flat_map (fun z => if rtmax G <? z then [] else print_trap (signal_name G z) (cmd s z)) (rt_signals G)) /\ ~ In 0 (shown (table G) [] s ++ ys)).
  { split; [|split].
    - clear C C2. assert (D : forall z, In z (shown (table G) [] s) -> ~ In z ys) by (intros z I J; apply (TB z (proj2 (B z I))); apply (B2 z J)).
      revert A D. generalize (shown (table G) [] s) as xs. induction xs as [|x xs IH]; intros A D; cbn [app]; [exact A2|]. inversion A as [|? ? N1 N2]; subst.
      constructor; [intro I; apply in_app_or in I; destruct I as [I|I]; [contradiction|apply (D x (or_introl eq_refl) I)]|]. apply IH; [exact N2|]. intros z I. apply D. right. exact I.
    - apply Forall2_app.
      + eapply IMP; [|exact C]. cbv beta. intros nm z I. unfold denotes. rewrite (table_up nm z I). apply (bare_table L G HG nm z I).
      + eapply IMP; [|exact C2]. cbv beta. intros nm z (-> & I). apply name_denotes. right; left; exact I.
    - intro I. apply in_app_or in I. destruct I as [I|I]; [destruct (TB 0 (proj2 (B 0 I))); lia|destruct (B2 0 I); lia]. }
  destruct REST as (N & F & Z0). unfold print_all, print_trap at 1. destruct (cmd s 0) as [c|] eqn:C0; cbn [app].
  - eexists (0 :: _). split; [constructor; [exact Z0|exact N]|]. constructor; [split; [apply exit_denotes|exact C0]|exact F].
  - eexists. split; [exact N|exact F].
Qed.

(** Running the printed lines *)
Fixpoint run (ls : list line) (s : st) : outcome :=
  match ls with
  | [] => Done [] false s
  | (c, nm) :: ls =>
      match trap L G H false [c; nm] s with
      | Done _ e s => match run ls s with Done l e' s => Done l (e || e') s | Abort => Abort end
      | Abort => Abort
      end
  end.
Lemma trap_action c nm s : action c -> trap L G H false [c; nm] s = set_all L G H (Some c) [nm] (banish G s).
Proof.
  intros (A1 & A2). unfold trap. destruct (negb _ && forallb isdigit c) eqn:D.
  - exfalso. apply A2. apply andb_true_iff in D. destruct D as (D1 & D2). split; [destruct c; discriminate|]. apply Forall_forall. intros x X.
    rewrite forallb_forall in D2. specialize (D2 x X). unfold isdigit in D2. lia.
  - destruct (list_N_eqb c (str "-")) eqn:E; [apply list_N_eqb_eq in E; contradiction|reflexivity].
Qed.
Lemma banish_id s : phantom s = false -> banish G s = s.
Proof. unfold banish. intros ->. reflexivity. Qed.
Lemma run_spec s0 : traps_ok G H s0 -> forall ls s, (forall c nm, In (c, nm) ls -> exists z, denotes nm z /\ cmd s0 z = Some c) -> phantom s = false -> traps_ok G H s ->
  exists s', run ls s = Done [] false s' /\ phantom s' = false /\ traps_ok G H s'
  /\ (forall z, (exists c nm, In (c, nm) ls /\ denotes nm z) -> cmd s' z = cmd s0 z /\ (z <> 0 -> act s' z = handled H (kind G z) (cmd s0 z) (act s z)))
  /\ (forall z, ~ (exists c nm, In (c, nm) ls /\ denotes nm z) -> cmd s' z = cmd s z /\ act s' z = act s z).
Proof.
  intro T0. induction ls as [|(c, nm) ls IH]; intros s LS P T.
  { exists s. cbn [run]. repeat (split; [solve [auto]|]). split; [intros z (c & nm & [] & _)|auto]. }
  destruct (LS c nm (or_introl eq_refl)) as (z0 & DN & C0). destruct (proj1 T0 z0 c C0) as ((V & K1 & K2 & TR) & AC).
  cbn [run]. rewrite (trap_action c nm s AC), (banish_id s P).
  destruct (set_all L G H (Some c) [nm] s) as [|l1 e1 s1] eqn:S.
  { exfalso. cbn [set_all] in S. unfold denotes in DN. rewrite DN in S. destruct (set_trap G H z0 (Some c) s). discriminate. }
  destruct (set_all_spec (Some c) ltac:(intros x X; injection X as <-; exact AC) [nm] s l1 e1 s1 P T S) as (A & B & D & E & _ & F & J).
  assert (E1 : e1 = false). { apply J. intros x [<-|[]]. exists z0. auto. } subst e1.
  destruct (IH s1) as (s2 & R & P2 & T2 & Q1 & Q2); [intros; apply LS; right; assumption|exact B|exact D|].
  rewrite R. exists s2. split; [reflexivity|]. split; [exact P2|]. split; [exact T2|].
  assert (NM : forall z, named [nm] z <-> z = z0). { intro z. unfold named. split; [intros (x & [<-|[]] & X); unfold denotes in DN; congruence|intros ->; exists nm; split; [left; reflexivity|exact DN]]. }
  assert (DEC : forall z, (exists c nm, In (c, nm) ls /\ denotes nm z) \/ ~ (exists c nm, In (c, nm) ls /\ denotes nm z)).
  { intro z. clear. induction ls as [|(c, nm) ls IH]; [right; intros (c & nm & [] & _)|]. destruct IH as [(a & b & I & X)|IH]; [left; exists a, b; split; [right; exact I|exact X]|].
    unfold denotes at 1 2. destruct (signal_number L G (map (up H) nm)) as [| |w] eqn:W.
    1,2: right; intros (a & b & [I|I] & X); [injection I as -> ->; congruence|apply IH; exists a, b; auto].
    destruct (Z.eq_dec w z) as [->|Y]; [left; exists c, nm; split; [left; reflexivity|exact W]|]. right; intros (a & b & [I|I] & X); [injection I as -> ->; congruence|apply IH; exists a, b; auto]. }
  split.
  - intros z EX. assert (F0 : cmd s1 z0 = Some c /\ (z0 <> 0 -> act s1 z0 = handled H (kind G z0) (Some c) (act s z0))).
    { apply F; [apply NM; reflexivity|exact K1|exact K2|]. intros (X1 & X2 & X3 & X4). destruct TR as [W|[W|W]]; congruence. }
    destruct (DEC z) as [Y|Y].
    + destruct (Q1 z Y) as (Q3 & Q4). split; [exact Q3|]. intro Z0. rewrite (Q4 Z0). destruct (Z.eq_dec z z0) as [->|NZ].
      * rewrite (proj2 F0 Z0), C0. apply handled_twice.
      * destruct (E z) as (_ & ->); [rewrite NM; exact NZ|reflexivity].
    + assert (z = z0) as ->.
      { destruct EX as (a & b & [I|I] & X); [injection I as <- <-; unfold denotes in *; congruence|]. exfalso. apply Y. exists a, b. auto. }
      destruct (Q2 z0 Y) as (-> & ->). rewrite C0. exact F0.
  - intros z NE. destruct (Q2 z) as (X1 & X2); [intros (a & b & I & X); apply NE; exists a, b; split; [right; exact I|exact X]|].
    rewrite X1, X2. apply E. rewrite NM. intros ->. apply NE. exists c, nm. split; [left; reflexivity|exact DN].
Qed.
End S.
