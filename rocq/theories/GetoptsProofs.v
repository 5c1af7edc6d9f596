(** getopts: lemmas *)
From Coq Require Import Ascii String.
From Coq Require Import List NArith ZArith Bool Arith Lia Permutation.
From Verif Require Import Common Locale NumModel NumProofs BraceSpec BraceNum VarModel VarSpec VarProofs VarSet VarKeep VarRun VarMore VarUse GetoptsModel GetoptsSpec.
Import ListNotations.
Open Scope res_scope.

(** ** Specifications *)

Ltac ne := match goal with H : ?a <> ?b |- _ => exfalso; apply H; reflexivity end.

Section Options.
Variable L : locale.
Hypothesis HL : locale_ok L.
Variable posix : bool.
Lemma check_from_iff : forall o, check_from L posix o = true <-> items (option_char L posix) o.
Proof.
  assert (Q : iswalnum L (ch "?") = false).
  { unfold iswalnum. rewrite (lk_alpha L HL) by reflexivity. reflexivity. }
  assert (G : forall n o, (length o < n)%nat -> check_from L posix o = true <-> items (option_char L posix) o).
  { induction n as [|n IH]; intros o Ho; [lia|]. destruct o as [|c r]; [split; [constructor|reflexivity]|].
    cbn [check_from]. destruct (N.eqb_spec c (ch ":")) as [->|D]. { split; [discriminate|]. intro H. inversion H; ne. }
    assert (O : ((c =? ch "?")%N && posix || posix && negb (iswalnum L c))%bool = false <-> option_char L posix c).
    { unfold option_char. destruct posix; cbn [andb]; [|rewrite andb_false_r; split; auto; discriminate].
      rewrite andb_true_r. destruct (N.eqb_spec c (ch "?")) as [->|D2]; cbn [orb].
      - rewrite Q. split; [discriminate|]. intro H. specialize (H eq_refl). discriminate.
      - destruct (iswalnum L c); cbn; split; auto; intro H; try discriminate. specialize (H eq_refl). discriminate. }
    destruct ((c =? ch "?")%N && posix) eqn:E1; cbn [orb] in O.
    { split; [discriminate|]. intro H. assert (X : true = false) by (apply O; inversion H; assumption). discriminate. }
    destruct (posix && negb (iswalnum L c)) eqn:E2.
    { split; [discriminate|]. intro H. assert (X : true = false) by (apply O; inversion H; assumption). discriminate. }
    assert (Oc : option_char L posix c) by (apply O; reflexivity).
    destruct r as [|d r]. { cbn [check_from]. split; auto. intros _. constructor; auto. constructor. }
    destruct (N.eqb_spec d (ch ":")) as [->|D2].
    - cbn [length] in Ho. rewrite (IH r) by lia. split; [intro H; apply items_arg; auto|]. intro H. inversion H; subst; auto. exfalso.
      match goal with H : items _ (_ :: r) |- _ => inversion H; ne end.
    - cbn [length] in Ho. rewrite (IH (d :: r)) by (cbn [length]; lia). split; [intro H; apply items_flag; auto|]. intro H. inversion H; subst; auto. ne. }
  intro o. apply (G (S (length o))). lia.
Qed.
Lemma check_options_iff : forall o, check_options L posix o = true <-> valid_options L posix o.
Proof.
  intros [|c r]; cbn [check_options].
  - rewrite check_from_iff. split; [apply valid_loud|]. intro H. inversion H; auto.
  - destruct (N.eqb_spec c (ch ":")) as [->|D].
    + rewrite check_from_iff. split; [apply valid_silent|]. intro H. inversion H as [? X|? X]; auto. subst. inversion X; ne.
    + rewrite check_from_iff. split; [apply valid_loud|]. intro H. inversion H; subst; auto. ne.
Qed.
End Options.

Definition arg_follows (o : list N) : bool := match o with _ :: d :: _ => (d =? ch ":")%N | _ => false end.
Lemma from_char_some : forall c o r, from_char c o = Some r -> forall b, specified c b o <-> arg_follows r = b.
Proof.
  intros c o. induction o as [|d o IH]; intros r H b; cbn [from_char] in H; [discriminate|]. destruct (N.eqb_spec d c) as [->|D].
  - injection H as <-. destruct o as [|e o]; cbn [arg_follows].
    + split; intro H; [inversion H; subst; auto; congruence|]. apply spec_flag; [auto|discriminate].
    + destruct (N.eqb_spec e (ch ":")) as [->|D2].
      * split; intro H; [inversion H; subst; auto; try congruence|]; [exfalso; match goal with H : forall _, _ <> _ |- _ => eapply H; reflexivity end|]. apply spec_arg; auto.
      * split; intro H; [inversion H; subst; auto; congruence|]. apply spec_flag; [auto|congruence].
  - rewrite <- (IH r H b). split; intro X; [inversion X; subst; congruence|]. apply spec_later; auto.
Qed.
Lemma from_char_none : forall c o, from_char c o = None -> forall b, ~ specified c b o.
Proof.
  intros c o. induction o as [|d o IH]; intros H b X; [inversion X|]. cbn [from_char] in H. destruct (N.eqb_spec d c) as [->|D]; [discriminate|].
  inversion X; subst; try congruence. eapply IH; eauto.
Qed.

(** ** Reading arguments *)

Section Read.
Variable options : list N.
(** What the character [c] makes of the argument *)
Definition taken (c : N) (r : list N) (l : list (list N)) (i sub : Z) : answer * Z * Z :=
  if (c =? ch ":")%N then (ABad c, i, sub + 1)%Z
  else match from_char c options with
       | None => (ABad c, i, sub + 1)%Z
       | Some o => if arg_follows o then
                     match r with
                     | [] => match l with a :: _ => (AOpt c (Some a), i + 2, 1)%Z | [] => (AMissing c, i + 2, 1)%Z end
                     | _ => (AOpt c (Some r), i + 1, 1)%Z
                     end
                   else (AOpt c None, i, sub + 1)%Z
       end.
Lemma skipn_pre : forall {A} (p r : list A), skipn (length p) (p ++ r) = r.
Proof. induction p; cbn; auto. Qed.
Lemma parse_char : forall p c r l i, let arg := ch "-" :: p ++ c :: r in arg <> str "--" ->
  (0 <= i)%Z -> (i + 2 < ULONG_MOD)%Z -> (Z.of_nat (length arg) + 1 < ULONG_MOD)%Z ->
  parse_arg options (arg :: l) i (Z.of_nat (S (length p))) = Ok (taken c r l i (Z.of_nat (S (length p)))).
Proof.
  intros p c r l i arg Hd Hi Hb Hl. unfold arg in *. cbn [parse_arg]. rewrite N.eqb_refl. cbn [negb orb].
  destruct (p ++ c :: r) as [|c1 r1] eqn:E; [destruct p; discriminate|].
  destruct (list_N_eqb (c1 :: r1) (str "-")) eqn:E2. { apply list_N_eqb_eq in E2. exfalso. apply Hd. rewrite E2. reflexivity. }
  rewrite <- E in *. cbn [length] in Hl. rewrite app_length in Hl. cbn [length] in *.
  assert (Es : ((Z.of_nat (S (length p)) + 1) mod ULONG_MOD = Z.of_nat (S (length p)) + 1)%Z) by (apply Z.mod_small; lia).
  rewrite Es. rewrite app_length. cbn [length].
  destruct (Z.leb_spec (Z.min (Z.of_nat (S (length p + S (length r)))) (Z.of_nat (S (length p)) + 1)) (Z.of_nat (S (length p)))) as [B|B]; [lia|].
  unfold rget. rewrite Nat2Z.id. cbn [nth_error]. rewrite nth_error_app2 by lia. rewrite Nat.sub_diag. cbn [nth_error rbind].
  unfold taken. destruct (N.eqb_spec c (ch ":")) as [->|D]; [reflexivity|]. destruct (from_char c options) as [o|] eqn:Ef; [|reflexivity].
  fold (arg_follows o). destruct (arg_follows o); [|reflexivity].
  replace (Z.to_nat (Z.of_nat (S (length p)) + 1)) with (S (S (length p))) by lia.
  change (skipn (S (S (length p))) (ch "-" :: p ++ c :: r)) with (skipn (S (length p)) (p ++ c :: r)).
  assert (Er : skipn (S (length p)) (p ++ c :: r) = r).
  { pose proof (skipn_pre (p ++ [c]) r) as X. rewrite <- app_assoc, app_length in X. cbn [length app] in X. rewrite Nat.add_1_r in X. exact X. }
  rewrite Er. clear Er.
  rewrite (Z.mod_small (i + 1)) by lia. rewrite (Z.mod_small (i + 1 + 1)) by lia. replace (i + 1 + 1)%Z with (i + 2)%Z by lia.
  destruct r; [|reflexivity]. destruct l; reflexivity.
Qed.

Definition answer_of (e : event) : answer := match e with Invalid c => ABad c | Option c a => AOpt c a | Missing c => AMissing c end.
Definition is_missing (e : event) : bool := match e with Missing _ => true | _ => false end.
Definition final (es : list event) (k : nat) : nat := if existsb is_missing es then S k else k.
Lemma final_app : forall es es' k, final (es ++ es') k = if existsb is_missing es then S k else final es' k.
Proof. intros. unfold final. rewrite existsb_app. destruct (existsb is_missing es); reflexivity. Qed.

(** From the argument [i] and the character [sub] on: the events to come and the index in the end *)
Inductive pos (args : list (list N)) : nat -> nat -> list event -> nat -> Prop :=
| pos_start i es k : reads options (skipn i args) es k -> pos args i 1 es (final es (i + k))
| pos_within i p r l es n es' k : skipn i args = (ch "-" :: p ++ r) :: l -> p <> [] -> ch "-" :: p ++ r <> str "--" -> cluster options r l es n -> reads options (skipn n l) es' k ->
    pos args i (S (length p)) (es ++ es') (final (es ++ es') (i + S n + k)).

Lemma skipn_more : forall {A} i n (l : list A), skipn (n + i) l = skipn n (skipn i l).
Proof. induction i as [|i IH]; intros n l; [rewrite Nat.add_0_r; reflexivity|]. destruct l; [rewrite !skipn_nil; reflexivity|]. rewrite Nat.add_succ_r. cbn [skipn]. apply IH. Qed.
Lemma skipn_cons_next : forall {A} i (l : list A) a r, skipn i l = a :: r -> skipn (S i) l = r.
Proof. intros A i l a r H. change (S i) with (1 + i). rewrite skipn_more, H. reflexivity. Qed.
Lemma cluster_step : forall c r l es n, cluster options (c :: r) l es n ->
  exists e es', es = e :: es' /\ forall i sub,
  ((exists r', taken c r l i sub = (answer_of e, i, sub + 1)%Z /\ r' = r /\ cluster options r l es' n /\ is_missing e = false) \/
   (taken c r l i sub = (answer_of e, i + 1 + Z.of_nat n, 1)%Z /\ es' = [] /\ is_missing e = false) \/
   (taken c r l i sub = (answer_of e, i + 2, 1)%Z /\ es' = [] /\ n = 0 /\ r = [] /\ l = [] /\ is_missing e = true)).
Proof.
  intros c r l es n H. inversion H as [|? ? ? ? ? U C|? ? ? ? ? [D S] C|? ? ? [D S] R|? ? ? [D S]|? [D S]]; subst; unfold taken.
  - eexists _, _. split; [reflexivity|]. intros i sub. left. exists r. split; [|auto].
    destruct (N.eqb_spec c (ch ":")) as [->|D]; [reflexivity|]. destruct U as [U|U]; [contradiction|].
    destruct (from_char c options) as [o|] eqn:E; [|reflexivity]. exfalso. apply (U (arg_follows o)). apply (from_char_some _ _ _ E). reflexivity.
  - eexists _, _. split; [reflexivity|]. intros i sub. left. exists r. split; [|auto].
    destruct (N.eqb_spec c (ch ":")) as [->|_]; [contradiction|].
    destruct (from_char c options) as [o|] eqn:E; [|destruct (from_char_none _ _ E _ S)]. apply (from_char_some _ _ _ E) in S. rewrite S. reflexivity.
  - eexists _, _. split; [reflexivity|]. intros i sub. right. left. split; [|auto].
    destruct (N.eqb_spec c (ch ":")) as [->|_]; [contradiction|].
    destruct (from_char c options) as [o|] eqn:E; [|destruct (from_char_none _ _ E _ S)]. apply (from_char_some _ _ _ E) in S. rewrite S.
    destruct r; [congruence|]. cbn [answer_of]. do 2 f_equal. lia.
  - eexists _, _. split; [reflexivity|]. intros i sub. right. left. split; [|auto].
    destruct (N.eqb_spec c (ch ":")) as [->|_]; [contradiction|].
    destruct (from_char c options) as [o|] eqn:E; [|destruct (from_char_none _ _ E _ S)]. apply (from_char_some _ _ _ E) in S. rewrite S.
    cbn [answer_of]. do 2 f_equal. lia.
  - eexists _, _. split; [reflexivity|]. intros i sub. right. right. split; [|auto 6].
    destruct (N.eqb_spec c (ch ":")) as [->|_]; [contradiction|].
    destruct (from_char c options) as [o|] eqn:E; [|destruct (from_char_none _ _ E _ S)]. apply (from_char_some _ _ _ E) in S. rewrite S. reflexivity.
Qed.

Lemma cluster_used : forall r l es n, cluster options r l es n -> (n <= length l)%nat.
Proof. intros r l es n H. induction H; cbn [length]; lia. Qed.
Definition fits (args : list (list N)) (i : nat) : Prop :=
  (i <= S (length args))%nat /\ (Z.of_nat (length args) + 5 < ULONG_MOD)%Z /\ Forall (fun a => (Z.of_nat (length a) + 1 < ULONG_MOD)%Z) args.
(** The next answer *)
Lemma char_next : forall args i p c r l es n es' k, fits args i -> skipn i args = (ch "-" :: p ++ c :: r) :: l -> ch "-" :: p ++ c :: r <> str "--" ->
  cluster options (c :: r) l es n -> reads options (skipn n l) es' k ->
  exists e rest i' sub', es ++ es' = e :: rest /\
    parse_arg options (skipn i args) (Z.of_nat i) (Z.of_nat (S (length p))) = Ok (answer_of e, Z.of_nat i', Z.of_nat sub') /\
    pos args i' sub' rest (final (es ++ es') (i + S n + k)) /\ (i' <= S (length args))%nat.
Proof.
  intros args i p c r l es n es' k [F0 [F1 F2]] E D C R.
  assert (B : (i < length args)%nat). { apply Nat.nle_gt. intro X. rewrite skipn_all2 in E by exact X. discriminate. }
  assert (Fa : (Z.of_nat (length (ch "-" :: p ++ c :: r)) + 1 < ULONG_MOD)%Z).
  { rewrite Forall_forall in F2. apply F2. rewrite <- (firstn_skipn i args), E. apply in_or_app. right. left. reflexivity. }
  destruct (cluster_step c r l es n C) as [e [es1 [-> T]]]. specialize (T (Z.of_nat i) (Z.of_nat (S (length p)))).
  rewrite E, parse_char by (auto; lia). exists e, (es1 ++ es'). destruct T as [[r' [T [-> [C' M]]]]|[[T [-> M]]|[T [-> [-> [-> [-> M]]]]]]]; rewrite T.
  - exists i, (S (S (length p))). split; [reflexivity|]. split; [do 3 f_equal; lia|]. split; [|lia].
    replace (final ((e :: es1) ++ es') (i + S n + k)) with (final (es1 ++ es') (i + S n + k)) by (unfold final; cbn [app existsb]; rewrite M; reflexivity).
    replace (S (S (length p))) with (S (length (p ++ [c]))) by (rewrite app_length; cbn; lia).
    eapply pos_within; eauto; rewrite <- ?app_assoc; auto. destruct p; discriminate.
  - pose proof (cluster_used _ _ _ _ C) as U. rewrite <- (skipn_cons_next _ _ _ _ E), skipn_length in U.
    exists (i + S n), 1%nat. split; [reflexivity|]. split; [do 3 f_equal; lia|]. split; [|lia].
    replace (final ((e :: []) ++ es') (i + S n + k)) with (final es' (i + S n + k)) by (unfold final; cbn [app existsb]; rewrite M; reflexivity).
    cbn [app]. apply pos_start. replace (i + S n) with (n + S i) by lia. rewrite skipn_more, (skipn_cons_next _ _ _ _ E). exact R.
  - exists (S (S i)), 1%nat. split; [reflexivity|]. split; [do 3 f_equal; lia|]. split; [|lia].
    cbn [skipn] in R. inversion R; subst. cbn [app]. unfold final at 1. cbn [existsb]. rewrite M. cbn [orb].
    replace (S (i + 1 + 0)) with (final [] (S (S i) + 0)) by (unfold final; cbn; lia). apply pos_start.
    change (S (S i)) with (1 + S i). rewrite skipn_more, (skipn_cons_next _ _ _ _ E). cbn. constructor.
Qed.
Lemma start_next : forall args i es k, fits args i -> reads options (skipn i args) es k ->
  (es = [] /\ exists sub', parse_arg options (skipn i args) (Z.of_nat i) 1 = Ok (AEnd, Z.of_nat (i + k), sub')) \/
  exists e rest i' sub', es = e :: rest /\ parse_arg options (skipn i args) (Z.of_nat i) 1 = Ok (answer_of e, Z.of_nat i', Z.of_nat sub') /\
    pos args i' sub' rest (final es (i + k)) /\ (i' <= S (length args))%nat.
Proof.
  intros args i es k F R. destruct (skipn i args) as [|a0 l0] eqn:E.
  { inversion R; subst. left. split; [reflexivity|]. exists 0%Z. rewrite Nat.add_0_r. reflexivity. }
  inversion R as [|a l' H X|l' X|r l' es1 n es' k' H1 H2 C R' X]; subst.
  - left. split; [reflexivity|]. exists 0%Z. rewrite Nat.add_0_r. cbn [parse_arg]. destruct a0 as [|c r]; [reflexivity|].
    destruct (N.eqb_spec c (ch "-")) as [->|D]; [|reflexivity]. destruct H as [H|H]; [destruct (H r); reflexivity|]. injection H as ->. reflexivity.
  - left. split; [reflexivity|]. exists 0%Z. cbn [parse_arg str]. destruct F as [Fi [F _]].
    change (Ok (AEnd, (Z.of_nat i + 1) mod ULONG_MOD, 0)%Z = Ok (AEnd, Z.of_nat (i + 1), 0%Z)). rewrite Z.mod_small by lia. do 3 f_equal. lia.
  - right. destruct r as [|c r]; [congruence|].
    destruct (char_next args i [] c r l0 es1 n es' k' F E) as [e [rest [i' [sub' [A [B [X Y]]]]]]]; auto.
    { cbn [app]. intro X. injection X as -> ->. apply H2. reflexivity. }
    exists e, rest, i', sub'. split; [exact A|]. split; [rewrite <- E; exact B|]. split; [|exact Y]. rewrite Nat.add_assoc. exact X.
Qed.
Lemma pos_next : forall args i sub es K, fits args i -> pos args i sub es K ->
  (es = [] /\ exists sub', parse_arg options (skipn i args) (Z.of_nat i) (Z.of_nat sub) = Ok (AEnd, Z.of_nat K, sub')) \/
  exists e rest i' sub', es = e :: rest /\ parse_arg options (skipn i args) (Z.of_nat i) (Z.of_nat sub) = Ok (answer_of e, Z.of_nat i', Z.of_nat sub') /\
    pos args i' sub' rest K /\ fits args i'.
Proof.
  intros args i sub es K F P. assert (Ft : forall i', (i' <= S (length args))%nat -> fits args i') by (intros i' H; split; [exact H|apply F]).
  destruct P as [i es k R|i p r l es n es' k E Np D C R].
  - destruct (start_next args i es k F R) as [[-> H]|[e [rest [i' [sub' [A [B [X Y]]]]]]]]; [left; auto|right; exists e, rest, i', sub'; auto 6].
  - destruct r as [|c r].
    + inversion C; subst. cbn [app skipn] in *. rewrite app_nil_r in *.
      assert (E1 : skipn (S i) args = l) by exact (skipn_cons_next _ _ _ _ E).
      assert (S1 : parse_arg options (skipn i args) (Z.of_nat i) (Z.of_nat (S (length p))) = parse_arg options (skipn (S i) args) (Z.of_nat (S i)) 1).
      { rewrite E, E1. cbn [parse_arg]. rewrite N.eqb_refl. cbn [negb orb]. destruct p as [|c1 p]; [congruence|].
        destruct (list_N_eqb (c1 :: p) (str "-")) eqn:E2. { apply list_N_eqb_eq in E2. exfalso. apply D. rewrite E2. reflexivity. }
        cbn [length]. destruct (Z.leb_spec (Z.min (Z.of_nat (S (S (length p)))) ((Z.of_nat (S (S (length p))) + 1) mod ULONG_MOD)) (Z.of_nat (S (S (length p))))) as [B|B]; [|lia].
        destruct F as [Fi [F _]]. rewrite Z.mod_small by lia. do 2 f_equal. lia. }
      rewrite S1. rewrite <- E1 in R. assert (B0 : (i < length args)%nat) by (apply Nat.nle_gt; intro X; rewrite skipn_all2 in E by exact X; discriminate).
      destruct (start_next args (S i) es' k (Ft (S i) ltac:(lia)) R) as [[-> [sub' H]]|[e [rest [i' [sub' [A [B [X Y]]]]]]]].
      * left. split; [reflexivity|]. exists sub'. rewrite H. unfold final. cbn [existsb]. do 3 f_equal. lia.
      * right. exists e, rest, i', sub'. split; [exact A|]. split; [exact B|]. split; [|apply Ft, Y]. replace (i + 1 + k) with (S i + k) by lia. exact X.
    + right. destruct (char_next args i p c r l es n es' k F E D C R) as [e [rest [i' [sub' [A [B [X Y]]]]]]]. exists e, rest, i', sub'. auto 6.
Qed.
End Read.
