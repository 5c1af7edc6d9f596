(** Invariants of the evaluator of arith.c: termination, absence of undefined
    behaviour, errors and messages, skipped operands, read-only variables, and
    the grammar accepted. *)
From Coq Require Import Ascii String.
From Coq Require Import List NArith ZArith Bool Lia.
From Verif Require Import Common Locale NumModel ArithModel ArithSpec ArithOpsProofs ArithLex NumProofs.
Import ListNotations.
Local Open Scope nat_scope.

Definition dops_ok (D : dops) : Prop := forall d z, d_trunc D d = Some z -> is_long z.

Section Hoare.
Variable L : locale.
Hypothesis Lok : locale_ok L.
Variable D : dops.
Hypothesis Dok : dops_ok D.
Variable posix unset_ok : bool.
Variable exp : list N.
Hypothesis Nonul : ~ In 0%N exp.

Notation "'rest' i" := (skipn i exp) (at level 10).
Notation value := (ArithModel.value D).

Definition nexttok (i i' : nat) (t' : tok) : Prop :=
  munch L (rest i) t' (rest i') \/ (t' = TNull /\ spaces L (rest i)).
(** Positions between tokens, and [reach i t]: reading tokens from the beginning
    leads to token [t] ending at [i]. *)
Inductive rpos : nat -> Prop :=
  | rpos_start : rpos 0
  | rpos_next : forall i t i', rpos i -> munch L (rest i) t (rest i') -> rpos i'.
Definition reach (i : nat) (t : tok) : Prop :=
  t = TNull \/ exists i0, rpos i0 /\ munch L (rest i0) t (rest i).

(** Integer-only evaluation ([io]): no number in the text and no variable named
    in it is read as a double. *)
Definition nodbl (t : list N) : Prop := xwcstol L 0 t <> None \/ d_parse D t = None.
Definition used (x : list N) : Prop := exists i, reach i (TIdent x).
Definition ints (e : env) : Prop := forall x t, used x -> vget e x = Some t -> t = [] \/ nodbl t.
Variable io : bool.
Hypothesis Io : io = true -> forall i w, reach i (TNumber w) -> nodbl w.

(** Converting a double to long is always defined, or doubles do not occur. *)
Definition conv_defined : Prop :=
  posix = true \/ io = true \/ forall d, d_trunc D d <> None.

Definition wp {A} (r : res A) (Q : A -> Prop) : Prop :=
  match r with Ok a => Q a | UB => ~ conv_defined | Fuel => False end.

Lemma wp_bind : forall A B (a : res A) (f : A -> res B) Q,
  wp a (fun x => wp (f x) Q) -> wp (rbind a f) Q.
Proof. intros A B [a| |] f Q H; cbn in *; auto. Qed.

Lemma wp_mono : forall A (a : res A) (Q Q' : A -> Prop),
  wp a Q -> (forall x, Q x -> Q' x) -> wp a Q'.
Proof. intros A [a| |] Q Q' H H'; cbn in *; auto. Qed.

Lemma wp_seq : forall A B (a : res A) (f : A -> res B) (P : A -> Prop) Q,
  wp a P -> (forall x, P x -> wp (f x) Q) -> wp (rbind a f) Q.
Proof. intros. apply wp_bind. eapply wp_mono; eauto. Qed.

Lemma wp_eq : forall A B (a : res A) (f : A -> res B) (P : A -> Prop) Q,
  wp a P -> (forall x, a = Ok x -> P x -> wp (f x) Q) -> wp (rbind a f) Q.
Proof. intros A B [a| |] f P Q H K; cbn in *; auto. Qed.

Lemma wp_and : forall A (a : res A) (P Q : A -> Prop), wp a P -> wp a Q -> wp a (fun x => P x /\ Q x).
Proof. intros A [a| |] P Q H K; cbn in *; auto. Qed.

(** ** State predicates *)
Definition ionly (s : st) : Prop :=
  io = true -> ints (en s) /\ (tk s = TInvalid \/ reach (idx s) (tk s)).
Definition good (s : st) : Prop :=
  idx s <= length exp /\ (er s = true <-> msgs s <> []) /\ ionly s.

Definition need (s : st) : nat :=
  if tok_end (tk s) then 0 else S (length exp - idx s).

Definition env_ok (e e' : env) : Prop :=
  vro e' = vro e /\ forall x, vro e x = true -> vget e' x = vget e x.
Lemma env_ok_refl : forall e, env_ok e e.
Proof. split; auto. Qed.
Lemma env_ok_trans : forall a b c, env_ok a b -> env_ok b c -> env_ok a c.
Proof.
  intros a b c [H1 H2] [H3 H4]. split; [congruence|]. intros x Hx.
  rewrite H4 by congruence. auto.
Qed.

Definition vok (v : value) : Prop :=
  match v with VLong _ z => is_long z | VDouble _ _ => posix = false /\ io = false
  | VVar _ x => io = true -> used x | _ => True end.
Definition bad (s : st) (v : value) : Prop := v = VInvalid D -> er s = true.
Definition is_var (v : value) : bool := match v with VVar _ _ => true | _ => false end.

Inductive path : st -> list tok -> st -> Prop :=
  | path_nil : forall s s', idx s' = idx s -> tk s' = tk s -> path s [] s'
  | path_step : forall s s1 ts s', nexttok (idx s) (idx s1) (tk s1) -> path s1 ts s' ->
      path s (tk s :: ts) s'.

Lemma path_app : forall s ts1 s1 ts2 s2, path s ts1 s1 -> path s1 ts2 s2 -> path s (ts1 ++ ts2) s2.
Proof.
  intros s ts1 s1 ts2 s2 H. revert ts2 s2. induction H as [s s' Hi Ht|s s1 ts s' Hn Hp IH]; intros ts2 s2 H2.
  - cbn. inversion H2 as [? ? Hi' Ht'|? s3 ts ? Hn Hp]; subst.
    + apply path_nil; congruence.
    + rewrite Ht. eapply path_step; [|exact Hp]. congruence.
  - cbn. eapply path_step; eauto.
Qed.

(** Same position and token. *)
Definition here (s s' : st) : Prop := idx s' = idx s /\ tk s' = tk s.
Lemma path_here_r : forall s ts s1 s2, path s ts s1 -> here s1 s2 -> path s ts s2.
Proof.
  intros s ts s1 s2 H [H1 H2]. rewrite <- (app_nil_r ts). eapply path_app; eauto. apply path_nil; auto.
Qed.
Lemma path_here_l : forall s s1 ts s2, here s s1 -> path s1 ts s2 -> path s ts s2.
Proof.
  intros s s1 ts s2 [H1 H2] H. change ts with ([] ++ ts). eapply path_app; eauto. apply path_nil; auto.
Qed.

(** What holds between the states before and after any parse function. *)
Record frame (s s' : st) : Prop := {
  f_good : good s';
  f_need : need s' <= need s;
  f_er : er s = true -> er s' = true;
  f_env : env_ok (en s) (en s');
  f_skip : po s = true -> en s' = en s }.

Record post (lv : level) (s s' : st) (v : value) : Prop := {
  p_frame : frame s s';
  p_po : po s' = po s;
  p_val : po s = true -> v = VInvalid D;
  p_bad : po s = false -> bad s' v;
  p_vok : vok v;
  p_path : er s' = false -> exists ts e, path s ts s' /\ derives lv ts e }.

(** What holds for functions that do not move in the text. *)
Record local (s s' : st) : Prop := {
  l_good : good s';
  l_here : here s s';
  l_po : po s' = po s;
  l_er : er s = true -> er s' = true;
  l_env : env_ok (en s) (en s') }.

Lemma local_refl : forall s, good s -> local s s.
Proof. intros s H. constructor; auto; [split; auto|apply env_ok_refl]. Qed.

Lemma local_trans : forall a b c, local a b -> local b c -> local a c.
Proof.
  intros a b c [A1 [A2 A2'] A3 A4 A5] [B1 [B2 B2'] B3 B4 B5].
  constructor; auto; try congruence; [split; congruence|eapply env_ok_trans; eauto].
Qed.

Lemma need_here : forall s s', here s s' -> need s' = need s.
Proof. intros s s' [H1 H2]. unfold need. rewrite H1, H2. reflexivity. Qed.

Lemma frame_refl : forall s, good s -> frame s s.
Proof. intros s H. constructor; auto. apply env_ok_refl. Qed.

Lemma fail_local : forall s m, good s -> local s (fail s m).
Proof.
  intros s m (H1 & H2 & H3). constructor; auto; try (split; auto; fail); try apply env_ok_refl.
  split; cbn; auto. split; [split; [discriminate|auto]|exact H3].
Qed.

Lemma set_er_good : forall s, idx s <= length exp -> msgs s <> [] -> ionly s -> good (set_er s).
Proof. intros s H1 H2 H3. split; cbn; auto. split; [tauto|exact H3]. Qed.

(** ** next_token *)
Record nextp (s s' : st) : Prop := {
  n_good : good s';
  n_need : need s' < need s;
  n_er : er s = true -> er s' = true;
  n_en : en s' = en s;
  n_po : po s' = po s;
  n_path : er s' = false -> nexttok (idx s) (idx s') (tk s') }.

Lemma next_token_wp : forall s, good s -> tok_end (tk s) = false ->
  wp (next_token L exp s) (nextp s).
Proof.
  intros s (Hi & He & Hio) Ht. destruct (next_token_spec L Lok exp Nonul s Hi) as (s' & -> & Hp). cbn.
  assert (Hnx : forall i' t', nexttok (idx s) i' t' -> io = true -> ints (en s) /\ (t' = TInvalid \/ reach i' t')).
  { intros i' t' Hn K. destruct (Hio K) as [Ha [Hb|Hb]]; [rewrite Hb in Ht; discriminate|].
    split; auto. right. destruct Hb as [Hb|(i0 & Hb1 & Hb2)]; [rewrite Hb in Ht; discriminate|].
    destruct Hn as [Hn|[Hn _]]; [right|left; auto]. exists (idx s). split; [eapply rpos_next; eauto|auto]. }
  destruct Hp as [[-> Hsp]|[(i & t & -> & Hte & Hi' & Hm)|(i & c & r & -> & Hi' & Hsp & Hc & Hno)]].
  - constructor; auto.
    + split; cbn; auto. split; auto. exact (Hnx _ _ (or_intror (conj eq_refl Hsp))).
    + unfold need. rewrite Ht. cbn. lia.
    + intros _. right. split; [reflexivity|exact Hsp].
  - constructor; auto.
    + split; cbn; [lia|]. split; auto. exact (Hnx _ _ (or_introl Hm)).
    + unfold need. rewrite Ht. cbn. rewrite Hte. lia.
    + intros _. left. exact Hm.
  - constructor; auto.
    + split; cbn; [lia|]. split; [split; [discriminate|auto]|]. intro K. split; [apply Hio; auto|auto].
    + unfold need. rewrite Ht. cbn. lia.
    + cbn. discriminate.
Qed.

Lemma next_frame : forall s s', nextp s s' -> frame s s'.
Proof.
  intros s s' [A1 A2 A3 A4 A5 A6]. constructor; auto; [lia|rewrite A4; apply env_ok_refl].
Qed.

(** ** Coercions *)
Lemma xwcstol_long : forall b w z, xwcstol L b w = Some z -> is_long z.
Proof.
  intros b w z H. unfold xwcstol in H. destruct w; [discriminate|].
  destruct (wcstol L b (n :: w)) as [[v|] [|]]; try discriminate.
  destruct (in_long v) eqn:E; [|discriminate]. injection H as <-. apply in_long_iff. auto.
Qed.

Lemma coerce_number_spec : forall s v s' v', good s -> vok v ->
  coerce_number L D posix unset_ok s v = (s', v') ->
  local s s' /\ en s' = en s /\ vok v' /\ is_var v' = false /\
  (v = VInvalid D -> v' = VInvalid D) /\ (bad s v -> bad s' v').
Proof.
  intros s v s' v' Hg Hv E. destruct v as [|z|d|x]; cbn in E.
  1-3: injection E as <- <-; (split; [apply local_refl; auto|auto 10]).
  assert (Hk : forall z, is_long z -> (s, VLong D z) = (s', v') ->
    local s s' /\ en s' = en s /\ vok v' /\ is_var v' = false /\
    (VVar D x = VInvalid D -> v' = VInvalid D) /\ (bad s (VVar D x) -> bad s' v')).
  { intros z Hz E'. injection E' as <- <-. split; [apply local_refl; auto|].
    split; [reflexivity|split; [cbn; auto|split; [reflexivity|split; [discriminate|intros _ H; first [discriminate H | reflexivity]]]]]. }
  assert (Hf : forall m, (fail s m, VInvalid D) = (s', v') ->
    local s s' /\ en s' = en s /\ vok v' /\ is_var v' = false /\
    (VVar D x = VInvalid D -> v' = VInvalid D) /\ (bad s (VVar D x) -> bad s' v')).
  { intros m E'. injection E' as <- <-. split; [apply fail_local; auto|].
    split; [reflexivity|split; [cbn; auto|split; [reflexivity|split; [discriminate|intros _ H; first [discriminate H | reflexivity]]]]]. }
  assert (H0 : is_long 0) by (unfold is_long, LONG_MIN, LONG_MAX; lia).
  destruct (vget (en s) x) as [t|] eqn:Ev.
  - destruct t as [|c t]; [eapply Hk; eauto|].
    destruct (xwcstol L 0 (c :: t)) eqn:Ex; [exact (Hk _ (xwcstol_long _ _ _ Ex) E)|].
    destruct posix eqn:Ep; [eapply Hf; eauto|].
    destruct (d_parse D (c :: t)) as [d|] eqn:Ed; [|eapply Hf; eauto].
    assert (Hio : io = false).
    { destruct io eqn:Eio; auto. exfalso. destruct Hg as (_ & _ & Hg). destruct (Hg Eio) as [Hg1 _].
      destruct (Hg1 _ _ (Hv Eio) Ev) as [K|[K|K]]; congruence. }
    injection E as <- <-. split; [apply local_refl; auto|].
    split; [reflexivity|split; [cbn; auto|split; [reflexivity|split; [discriminate|intros _ H; first [discriminate H | reflexivity]]]]].
  - destruct unset_ok; [eapply Hk; eauto|eapply Hf; eauto].
Qed.

Lemma coerce_integer_wp : forall s v, good s -> vok v ->
  wp (coerce_integer L D posix unset_ok s v) (fun x =>
    local s (fst x) /\ en (fst x) = en s /\ vok (snd x) /\
    (exists z, snd x = VLong D z \/ snd x = VInvalid D) /\
    (v = VInvalid D -> snd x = VInvalid D) /\ (bad s v -> bad (fst x) (snd x))).
Proof.
  intros s v Hg Hv. unfold coerce_integer.
  destruct (coerce_number L D posix unset_ok s v) as [s' v'] eqn:E.
  destruct (coerce_number_spec _ _ _ _ Hg Hv E) as (H1 & H2 & H3 & H4 & H5 & H6).
  destruct v' as [|z|d|x]; cbn in *; try discriminate.
  - repeat (split; auto). exists 0%Z. auto.
  - repeat (split; auto). exists z. auto.
  - destruct (d_trunc D d) as [z|] eqn:Et; cbn.
    + split; auto. split; auto. split; [eapply Dok; eauto|]. split; [exists z; auto|].
      split; [intro; discriminate H5; auto|]. intros _ H; discriminate.
    + intros [Hp|[Hp|Hd]]; [destruct H3; congruence|destruct H3; congruence|]. exact (Hd d Et).
Qed.

Lemma coerce_type_wp : forall s v1 v2, good s -> vok v1 -> vok v2 ->
  wp (coerce_type L D posix unset_ok s v1 v2) (fun x =>
    local s (fst x) /\ en (fst x) = en s /\
    match snd x with
    | YInvalid _ => bad s v1 -> bad s v2 -> er (fst x) = true
    | YLong _ a b => is_long a /\ is_long b /\ v1 <> VInvalid D /\ v2 <> VInvalid D
    | YDouble _ a b => (posix = false /\ io = false) /\ v1 <> VInvalid D /\ v2 <> VInvalid D
    end).
Proof.
  intros s v1 v2 Hg H1 H2. unfold coerce_type.
  destruct (coerce_number L D posix unset_ok s v1) as [s1 w1] eqn:E1.
  destruct (coerce_number_spec _ _ _ _ Hg H1 E1) as (A1 & A2 & A3 & A4 & A5 & A6).
  destruct (coerce_number L D posix unset_ok s1 v2) as [s2 w2] eqn:E2.
  destruct (coerce_number_spec _ _ _ _ (l_good _ _ A1) H2 E2) as (B1 & B2 & B3 & B4 & B5 & B6).
  pose proof (local_trans _ _ _ A1 B1) as Hl.
  assert (B6' : bad s v2 -> bad s2 w2).
  { intros Hb. apply B6. intros Hv. apply (l_er _ _ A1). auto. }
  assert (A6' : bad s v1 -> bad s2 w1).
  { intros Hb Hv. apply (l_er _ _ B1). apply A6; auto. }
  destruct w1, w2; try discriminate; cbn in *; (split; [exact Hl|split; [congruence|]]);
    try (intros Hb1 Hb2; first [apply A6'; auto; fail | apply B6'; auto; fail]);
    try (split; [assumption|split; [assumption|split; intro K; [discriminate (A5 K)|discriminate (B5 K)]]]);
    try (split; [assumption|split; intro K; [discriminate (A5 K)|discriminate (B5 K)]]).
Qed.

(** ** Calculations *)
Definition calc_op (t : tok) : bool :=
  match t with
  | TAster | TAsterequal | TSlash | TSlashequal | TPercent | TPercentequal
  | TPlus | TPlusequal | TMinus | TMinusequal
  | TLessless | TLesslessequal | TGreatergreater | TGreatergreaterequal
  | TAmp | TAmpequal | THat | THatequal | TPipe | TPipeequal => true
  | _ => false
  end.

Record calcp (s : st) (l r : value) (s' : st) (v : value) : Prop := {
  c_local : local s s';
  c_en : en s' = en s;
  c_vok : vok v;
  c_inv : l = VInvalid D \/ r = VInvalid D -> v = VInvalid D;
  c_bad : bad s l -> bad s r -> bad s' v;
  c_var : is_var v = false }.

Lemma iop_of_calc : forall t, calc_op t = true ->
  exists o, t = iop_tok o \/ t = iop_asg o.
Proof.
  intros t H. destruct t; try discriminate;
  first [ exists IMul; cbn; tauto | exists IDiv; cbn; tauto | exists IRem; cbn; tauto
        | exists IAdd; cbn; tauto | exists ISub; cbn; tauto | exists IShl; cbn; tauto
        | exists IShr; cbn; tauto | exists IAnd; cbn; tauto | exists IXor; cbn; tauto
        | exists IOr; cbn; tauto ].
Qed.

Lemma dbc_wp : forall s t l r, good s -> calc_op t = true -> vok l -> vok r ->
  wp (do_binary_calculation L D posix unset_ok s t l r) (fun x =>
    calcp s l r (fst (fst x)) (snd (fst x)) /\    (snd x = false -> snd (fst x) = VInvalid D)).
Proof.
  intros s t l r Hg Ht Hl Hr.
  destruct (iop_of_calc t Ht) as (o & Ho).
  assert (H1 : iop_class1 o = true ->
    wp (let! (s, y) := coerce_type L D posix unset_ok s l r in
      match y with
      | YLong _ a b =>
          let! r := do_long_calculation1 t a b in
          match r with
          | inl z => Ok (s, VLong D z, true)
          | inr m => Ok (fail s m, VInvalid D, false)
          end
      | YDouble _ a b =>
          let! d := do_double_calculation D t a b in Ok (s, VDouble D d, true)
      | YInvalid _ => Ok (s, VInvalid D, true)
      end)%res (fun x =>
    calcp s l r (fst (fst x)) (snd (fst x)) /\
    (snd x = false -> snd (fst x) = VInvalid D))).
  { intros Hc. eapply wp_seq; [apply coerce_type_wp; auto|]. intros [s1 y] (A1 & A2 & A3). cbn [fst snd] in *.
    destruct y as [|a b|a b].
    - cbn. split; auto. constructor; cbn; auto; intros; intro; auto.
    - destruct A3 as (B1 & B2 & B3 & B4).
      destruct (calc1_spec o t a b Hc Ho B1 B2) as (x & -> & Hx). cbn [rbind].
      destruct x as [z|m]; cbn in *.
      + split; [|discriminate]. apply long_op_long in Hx. constructor; auto.
        * intros [K|K]; contradiction.
        * intros _ _ K. discriminate.
      + split; [|auto]. constructor; auto.
        * eapply local_trans; eauto. apply fail_local. apply (l_good _ _ A1).
        * cbn. auto.
        * intros _ _ _. reflexivity.
    - destruct A3 as (B1 & B2 & B3).
      assert (exists d, do_double_calculation D t a b = Ok d) as (d & ->).
      { destruct o; try discriminate; destruct Ho as [-> | ->]; cbn; eauto. }
      cbn. split; [|discriminate]. constructor; auto.
      * intros [K|K]; contradiction.
      * intros _ _ K. discriminate. }
  assert (H2 : iop_class1 o = false ->
    wp (let! (s, l) := coerce_integer L D posix unset_ok s l in
      let! (s, r) := coerce_integer L D posix unset_ok s r in
      match l, r with
      | VLong _ a, VLong _ b =>
          let! x := do_long_calculation2 t a b in
          match x with
          | inl z => Ok (s, VLong D z, true)
          | inr m => Ok (fail s m, VInvalid D, false)
          end
      | _, _ => Ok (s, VInvalid D, false)
      end)%res (fun x =>
    calcp s l r (fst (fst x)) (snd (fst x)) /\
    (snd x = false -> snd (fst x) = VInvalid D))).
  { intros Hc. eapply wp_seq; [apply coerce_integer_wp; auto|].
    intros [s1 l1] (A1 & A2 & A3 & (za & A4) & A5 & A6). cbn [fst snd] in *.
    eapply wp_seq; [apply coerce_integer_wp; auto; apply (l_good _ _ A1)|].
    intros [s2 r1] (B1 & B2 & B3 & (zb & B4) & B5 & B6). cbn [fst snd] in *.
    pose proof (local_trans _ _ _ A1 B1) as Hloc.
    assert (Hinv : l1 = VInvalid D \/ r1 = VInvalid D ->
      wp (Ok (s2, VInvalid D, false)) (fun x =>
        calcp s l r (fst (fst x)) (snd (fst x)) /\ (snd x = false -> snd (fst x) = VInvalid D))).
    { intros Hi. cbn. split; auto. constructor; cbn; auto; try congruence. 
      intros Hb1 Hb2 _. destruct Hi as [Hi|Hi].
      - apply (l_er _ _ B1). apply A6; auto.
      - apply B6; auto. intro K. apply (l_er _ _ A1). auto. }
    destruct A4 as [-> | ->]; [|apply Hinv; auto].
    destruct B4 as [-> | ->]; [|apply Hinv; auto].
    destruct (calc2_spec o t za zb Hc Ho A3 B3) as (x & -> & Hx). cbn [rbind].
    assert (Hnl : l <> VInvalid D) by (intro K; discriminate (A5 K)).
    assert (Hnr : r <> VInvalid D) by (intro K; discriminate (B5 K)).
    destruct x as [z|m]; cbn in *.
    + split; [|discriminate]. apply long_op_long in Hx. constructor; auto; try congruence;
        try (intros [K|K]; contradiction); try (intros _ _ K; discriminate).
    + split; [|auto]. constructor; auto; cbn; try congruence;
        try (intros _ _ _; reflexivity).
      eapply local_trans; eauto. apply fail_local. apply (l_good _ _ Hloc). all: auto. }
  destruct o; destruct Ho as [-> | ->]; cbn [iop_tok iop_asg do_binary_calculation] in *;
    first [apply H1; reflexivity | apply H2; reflexivity].
Qed.

Definition cmp_tok (t : tok) : bool :=
  match t with
  | TLess | TLessequal | TGreater | TGreaterequal | TEqualequal | TExclequal => true
  | _ => false end.

Lemma b2z_long : forall b, is_long (b2z b).
Proof. intros []; unfold is_long, LONG_MIN, LONG_MAX; cbn; lia. Qed.

Definition act_ok (isop : tok -> bool) (act : st -> tok -> value -> value -> res (st * value)) : Prop :=
  forall s t l r, good s -> isop t = true -> vok l -> vok r ->
    wp (act s t l r) (fun x => calcp s l r (fst x) (snd x)).

Lemma act_calc_ok : forall isop, (forall t, isop t = true -> calc_op t = true) ->
  act_ok isop (act_calc L D posix unset_ok).
Proof.
  intros isop Hi s t l r Hg Ht Hl Hr. unfold act_calc.
  eapply wp_seq; [apply dbc_wp; auto|]. intros [[s1 v1] ok] [H _]. exact H.
Qed.

Lemma act_cmp_ok : forall isop, (forall t, isop t = true -> cmp_tok t = true) ->
  act_ok isop (act_cmp L D posix unset_ok).
Proof.
  intros isop Hi s t l r Hg Ht Hl Hr. unfold act_cmp. apply Hi in Ht.
  eapply wp_seq; [apply coerce_type_wp; auto|]. intros [s1 y] (A1 & A2 & A3). cbn [fst snd] in *.
  assert (Hz : forall z, is_long z -> l <> VInvalid D -> r <> VInvalid D ->
     wp (Ok (s1, VLong D z)) (fun x => calcp s l r (fst x) (snd x))).
  { intros z Hz Hnl Hnr. cbn. constructor; auto; [intros [K|K]; contradiction|intros _ _ K; discriminate]. }
  destruct y as [|a b|a b].
  - cbn. constructor; cbn; auto; intros; intro; auto.
  - destruct A3 as (B1 & B2 & B3 & B4).
    destruct t; try discriminate; apply Hz; auto using b2z_long.
  - destruct A3 as (B1 & B2 & B3).
    destruct t; try discriminate; apply Hz; auto using b2z_long.
Qed.

(** ** Assignment, increment *)
Lemma set_er_local : forall s s0, here s s0 -> po s0 = po s -> env_ok (en s) (en s0) -> idx s <= length exp ->
  msgs s0 <> [] -> ionly s0 -> local s (set_er s0).
Proof.
  intros s s0 [H1 H2] H3 H4 H5 H6 H7. constructor; auto.
  - apply set_er_good; [congruence|auto|auto].
  - split; auto.
Qed.

Lemma do_assignment_spec : forall s x v, good s -> bad s v -> vok v -> forall s' ok,
  do_assignment D unset_ok s x v = (s', ok) ->
  if ok then local s s' /\ v <> VInvalid D else local s (set_er s').
Proof.
  intros s x v Hg Hb Hvk s' ok E. unfold do_assignment in E.
  assert (Hion : ionly s) by apply Hg.
  assert (Hok : forall t, (io = true -> t = [] \/ nodbl t) -> (if vro (en s) x then (msg s (MReadonly x), false)
      else (set_en s (env_set (en s) x t), true)) = (s', ok) -> v <> VInvalid D ->
      if ok then local s s' /\ v <> VInvalid D else local s (set_er s')).
  { intros t Ht E' Hv. destruct (vro (en s) x) eqn:Er; injection E' as <- <-.
    - apply set_er_local; auto; [split; auto|apply env_ok_refl|apply Hg|discriminate].
    - split; auto. destruct Hg as (G1 & G2 & G3). constructor; auto; try (split; auto; fail).
      + split; [exact G1|]. split; [exact G2|]. intros K. destruct (G3 K) as [G4 G5]. split; [|exact G5].
        intros y u Hy. cbn. destruct (list_N_eqb y x); [|apply G4; auto]. intros Hu. injection Hu as <-. auto.
      + split; [reflexivity|]. intros y Hy. cbn. destruct (list_N_eqb y x) eqn:Ey; auto.
        apply list_N_eqb_eq in Ey. congruence. }
  assert (Hz : forall z, is_long z -> nodbl (dec_of_Z z)).
  { intros z Hz. left. rewrite (dec_roundtrip L Lok z Hz). discriminate. }
  destruct v as [|z|d|y]; cbn in E.
  - injection E as <- <-. apply set_er_local; auto; [split; auto|apply env_ok_refl|apply Hg|].
    apply Hg. apply Hb. reflexivity.
  - refine (Hok _ _ E _); [auto|discriminate].
  - refine (Hok _ _ E _); [|discriminate]. intros K. destruct Hvk. congruence.
  - destruct (vget (en s) y) as [t|] eqn:Ey.
    { refine (Hok _ _ E _); [|discriminate]. intros K. destruct (Hion K) as [Hi _]. eapply Hi; eauto. }
    destruct unset_ok.
    { refine (Hok _ _ E _); [|discriminate]. intros K. right. apply (Hz 0%Z). unfold is_long, LONG_MIN, LONG_MAX; lia. }
    injection E as <- <-. apply set_er_local; auto; [split; auto|apply env_ok_refl|apply Hg|discriminate].
Qed.

Definition incr_block (pre : bool) (t : st -> tok) (s : st) (x : list N) (v : value) : res (st * value) :=
  (let '(s1, v) := coerce_number L D posix unset_ok s v in
   let! (s2, v', ok) := do_increment_or_decrement D s1 (t s1) v in
   if negb ok then Ok (set_er s2, VInvalid D) else
   let '(s3, ok) := do_assignment D unset_ok s2 x v' in
   if negb ok then Ok (set_er s3, VInvalid D) else Ok (s3, if pre then v' else v))%res.

Record stepp (s s' : st) (v : value) : Prop := {
  sp_local : local s s'; sp_vok : vok v; sp_bad : bad s' v }.

Lemma incr_block_wp : forall pre t s x, good s -> vok (VVar D x) ->
  wp (incr_block pre t s x (VVar D x)) (fun r => stepp s (fst r) (snd r)).
Proof.
  intros pre t s x Hg Hvx. unfold incr_block.
  destruct (coerce_number L D posix unset_ok s (VVar D x)) as [s1 v] eqn:E.
  destruct (coerce_number_spec s (VVar D x) _ _ Hg Hvx E) as (A1 & A2 & A3 & A4 & A5 & A6).
  assert (Hb : bad s1 v) by (apply A6; intro; discriminate).
  assert (Hd : wp (do_increment_or_decrement D s1 (t s1) v) (fun r =>
    if snd r : bool then fst (fst r) = s1 /\ vok (snd (fst r)) /\ (snd (fst r) = VInvalid D <-> v = VInvalid D)
    else fst (fst r) = msg s1 MOverflow)).
  { unfold do_increment_or_decrement.
    assert (K : forall z, is_long z -> wp (if (z =? LONG_MIN)%Z then Ok (msg s1 MOverflow, VLong D z, false)
                   else rbind (cl (z - 1)) (fun r => Ok (s1, VLong D r, true))) (fun r =>
      if snd r : bool then fst (fst r) = s1 /\ vok (snd (fst r)) /\ (snd (fst r) = VInvalid D <-> VLong D z = VInvalid D)
      else fst (fst r) = msg s1 MOverflow)).
    { intros z Hz. destruct (Z.eqb_spec z LONG_MIN); [reflexivity|].
      assert (is_long (z - 1)) by (unfold is_long, LONG_MIN, LONG_MAX in *; lia).
      rewrite cl_Ok by auto. cbn. split; [auto|]. split; [auto|]. split; discriminate. }
    assert (K' : forall z, is_long z -> wp (if (z =? LONG_MAX)%Z then Ok (msg s1 MOverflow, VLong D z, false)
                   else rbind (cl (z + 1)) (fun r => Ok (s1, VLong D r, true))) (fun r =>
      if snd r : bool then fst (fst r) = s1 /\ vok (snd (fst r)) /\ (snd (fst r) = VInvalid D <-> VLong D z = VInvalid D)
      else fst (fst r) = msg s1 MOverflow)).
    { intros z Hz. destruct (Z.eqb_spec z LONG_MAX); [reflexivity|].
      assert (is_long (z + 1)) by (unfold is_long, LONG_MIN, LONG_MAX in *; lia).
      rewrite cl_Ok by auto. cbn. split; [auto|]. split; [auto|]. split; discriminate. }
    destruct v as [|z|d|y]; try discriminate.
    - destruct (t s1); cbn; tauto.
    - destruct (t s1); first [apply K'; exact A3 | apply K; exact A3].
    - destruct (t s1); cbn; (split; [auto|split; [auto|split; discriminate]]). }
  eapply wp_seq; [exact Hd|]. intros [[s2 v'] ok] Hr. cbn [fst snd] in Hr.
  destruct ok; cbn [negb].
  2:{ subst s2. cbn. constructor; cbn; auto; [|intro; reflexivity].
      destruct A1 as [B1 B2 B3 B4 B5]. apply set_er_local; auto; [apply Hg|discriminate|apply B1]. }
  destruct Hr as (-> & Hv' & Hiff).
  destruct (do_assignment D unset_ok s1 x v') as [s3 ok] eqn:Ea.
  assert (Hb' : bad s1 v') by (intro K; apply Hb; apply Hiff; auto).
  pose proof (do_assignment_spec _ _ _ (l_good _ _ A1) Hb' Hv' _ _ Ea) as Hs.
  destruct ok; cbn.
  - destruct Hs as [Hs Hn]. constructor; cbn.
    + eapply local_trans; eauto.
    + destruct pre; auto.
    + destruct pre; intro K; [contradiction|]. exfalso. apply Hn, Hiff, K.
  - constructor; cbn; auto; [|intro; reflexivity]. eapply local_trans; eauto.
Qed.

(** ** Composition lemmas *)
Lemma frame_trans : forall a b c, frame a b -> frame b c ->
  (po a = true -> po b = true) -> frame a c.
Proof.
  intros a b c [A1 A2 A3 A4 A5] [B1 B2 B3 B4 B5] Hp. constructor; auto; [lia| |].
  - eapply env_ok_trans; eauto.
  - intro H. rewrite B5; auto.
Qed.

Lemma local_frame : forall a b, local a b -> (po a = true -> en b = en a) -> frame a b.
Proof.
  intros a b [A1 A2 A3 A4 A5] H. constructor; auto. rewrite (need_here _ _ A2). auto.
Qed.

Lemma er_back : forall a b, frame a b -> er b = false -> er a = false.
Proof. intros a b H Hb. destruct (er a) eqn:E; auto. apply (f_er _ _ H) in E. congruence. Qed.
Lemma er_back_n : forall a b, nextp a b -> er b = false -> er a = false.
Proof. intros a b H Hb. destruct (er a) eqn:E; auto. apply (n_er _ _ H) in E. congruence. Qed.
Lemma er_back_l : forall a b, local a b -> er b = false -> er a = false.
Proof. intros a b H Hb. destruct (er a) eqn:E; auto. apply (l_er _ _ H) in E. congruence. Qed.


(** ** Agreement with the specification: local steps *)
Notation rv := (ArithSpec.rv D).
Definition val (r : rv) : value :=
  match r with
  | RNum _ (NInt _ z) => VLong D z
  | RNum _ (NDbl _ d) => VDouble D d
  | RVar _ x => VVar D x
  end.
Definition nval (n : num D) : value := val (RNum D n).

Lemma val_valid : forall r, val r <> VInvalid D.
Proof. intros [[z|d]|x]; discriminate. Qed.
Lemma nval_inj : forall n m, nval n = nval m -> n = m.
Proof. intros [z|d] [z'|d']; cbn; congruence. Qed.

Lemma coerce_number_sem : forall s r, er s = false ->
  match to_num L D posix unset_ok (en s) r with
  | Some n => coerce_number L D posix unset_ok s (val r) = (s, nval n)
  | None => exists m, coerce_number L D posix unset_ok s (val r) = (fail s m, VInvalid D)
  end.
Proof.
  intros s r He. destruct r as [[z|d]|x]; try reflexivity. cbn [to_num val coerce_number]. unfold read_var, read_num.
  destruct (vget (en s) x) as [[|c t]|].
  - reflexivity.
  - cbn [list_N_eqb]. destruct (xwcstol L 0 (c :: t)); [reflexivity|].
    destruct posix; [eexists; reflexivity|]. destruct (d_parse D (c :: t)); cbn; [reflexivity|eexists; reflexivity].
  - destruct unset_ok; [reflexivity|eexists; reflexivity].
Qed.

Lemma coerce_invalid : forall s, coerce_number L D posix unset_ok s (VInvalid D) = (s, VInvalid D).
Proof. reflexivity. Qed.

Ltac fin := cbn; repeat match goal with |- _ /\ _ => split end; auto; try discriminate.

(** The result [o] of the specification matches the final state and value. *)
Definition agrees (e : env) (o : option rv) (s' : st) (v : value) : Prop :=
  match o with
  | Some r => er s' = false /\ en s' = e /\ v = val r
  | None => er s' = true
  end.

Definition both (e : env) (r1 r2 : rv) (f : num D -> num D -> option (num D)) : option rv :=
  match to_num L D posix unset_ok e r1 with
  | Some n1 => match to_num L D posix unset_ok e r2 with
    | Some n2 => option_map (RNum D) (f n1 n2)
    | None => None end
  | None => None end.

Lemma fail_er : forall s m, er (fail s m) = true.
Proof. reflexivity. Qed.

Lemma coerce_type_sem : forall s r1 r2, good s -> er s = false -> vok (val r1) -> vok (val r2) ->
  exists s' y, coerce_type L D posix unset_ok s (val r1) (val r2) = Ok (s', y) /\
  match to_num L D posix unset_ok (en s) r1, to_num L D posix unset_ok (en s) r2 with
  | Some n1, Some n2 => s' = s /\ y = match n1, n2 with
      | NInt _ a, NInt _ b => YLong D a b
      | _, _ => YDouble D (to_dbl D n1) (to_dbl D n2) end /\ vok (nval n1) /\ vok (nval n2)
  | _, _ => er s' = true
  end.
Proof.
  intros s r1 r2 Hg He H1 H2. unfold coerce_type.
  pose proof (coerce_number_sem s r1 He) as S1.
  destruct (coerce_number L D posix unset_ok s (val r1)) as [s1 w1] eqn:E1.
  destruct (coerce_number_spec _ _ _ _ Hg H1 E1) as (A1 & A2 & A3 & A4 & A5 & A6).
  destruct (to_num L D posix unset_ok (en s) r1) as [n1|].
  - injection S1 as -> ->. pose proof (coerce_number_sem s r2 He) as S2.
    destruct (coerce_number L D posix unset_ok s (val r2)) as [s2 w2] eqn:E2.
    destruct (coerce_number_spec _ _ _ _ Hg H2 E2) as (B1 & B2 & B3 & B4 & B5 & B6).
    destruct (to_num L D posix unset_ok (en s) r2) as [n2|].
    + injection S2 as -> ->. destruct n1, n2; cbn; do 2 eexists; (split; [reflexivity|]); auto.
    + destruct S2 as (m & S2). injection S2 as -> ->. destruct n1; cbn; do 2 eexists; (split; [reflexivity|]); reflexivity.
  - destruct S1 as (m & S1). injection S1 as -> ->.
    destruct (coerce_number L D posix unset_ok (fail s m) (val r2)) as [s2 w2] eqn:E2.
    destruct (coerce_number_spec _ _ _ _ (l_good _ _ A1) H2 E2) as (B1 & B2 & B3 & B4 & B5 & B6).
    assert (er s2 = true) by (apply (l_er _ _ B1); reflexivity).
    destruct w2; try discriminate; do 2 eexists; (split; [reflexivity|]); auto.
Qed.

Lemma coerce_integer_sem : forall s r, good s -> er s = false -> vok (val r) ->
  wp (coerce_integer L D posix unset_ok s (val r)) (fun x =>
    match match to_num L D posix unset_ok (en s) r with Some n => to_int D n | None => None end with
    | Some z => x = (s, VLong D z) /\ is_long z
    | None => er (fst x) = true /\ snd x = VInvalid D
    end).
Proof.
  intros s r Hg He Hv. unfold coerce_integer. pose proof (coerce_number_sem s r He) as S.
  destruct (coerce_number L D posix unset_ok s (val r)) as [s' v'] eqn:E.
  destruct (coerce_number_spec _ _ _ _ Hg Hv E) as (A1 & A2 & A3 & A4 & A5 & A6).
  destruct (to_num L D posix unset_ok (en s) r) as [n|].
  - injection S as -> ->. destruct n as [z|d]; cbn in *.
    + auto.
    + destruct (d_trunc D d) as [z|] eqn:Et; cbn.
      * split; auto. eapply Dok; eauto.
      * intros [Hp|[Hp|Hd]]; [destruct A3; congruence|destruct A3; congruence|]. exact (Hd d Et).
  - destruct S as (m & S). injection S as -> ->. cbn. auto.
Qed.

Lemma vok_num : forall s r n, good s -> er s = false -> vok (val r) ->
  to_num L D posix unset_ok (en s) r = Some n -> vok (nval n).
Proof.
  intros s r n Hg He Hv Hn. pose proof (coerce_number_sem s r He) as S. rewrite Hn in S.
  apply (coerce_number_spec _ _ _ _ Hg Hv S).
Qed.

Lemma dbc_sem : forall s t o r1 r2, good s -> er s = false -> t = iop_tok o \/ t = iop_asg o ->
  vok (val r1) -> vok (val r2) ->
  wp (do_binary_calculation L D posix unset_ok s t (val r1) (val r2)) (fun x =>
    agrees (en s) (both (en s) r1 r2 (apply_op D o)) (fst (fst x)) (snd (fst x)) /\
    (snd x = false -> er (fst (fst x)) = true)).
Proof.
  intros s t o r1 r2 Hg He Ht H1 H2.
  assert (K1 : iop_class1 o = true ->
    wp (let! (s, y) := coerce_type L D posix unset_ok s (val r1) (val r2) in
      match y with
      | YLong _ a b =>
          let! r := do_long_calculation1 t a b in
          match r with
          | inl z => Ok (s, VLong D z, true)
          | inr m => Ok (fail s m, VInvalid D, false)
          end
      | YDouble _ a b =>
          let! d := do_double_calculation D t a b in Ok (s, VDouble D d, true)
      | YInvalid _ => Ok (s, VInvalid D, true)
      end)%res (fun x =>
    agrees (en s) (both (en s) r1 r2 (apply_op D o)) (fst (fst x)) (snd (fst x)) /\
    (snd x = false -> er (fst (fst x)) = true))).
  { intros Hc. destruct (coerce_type_sem s r1 r2 Hg He H1 H2) as (s1 & y & Ey & Hy).
    pose proof (coerce_type_wp s (val r1) (val r2) Hg H1 H2) as W. rewrite Ey in W. cbn in W.
    destruct W as (W1 & W2 & W3).
    rewrite Ey. cbn [rbind]. unfold both.
    assert (Hfail : er s1 = true -> forall x, er (fst (fst x)) = true -> 
      agrees (en s) None (fst (fst x)) (snd (fst (x : st * value * bool))) /\ (snd x = false -> er (fst (fst x)) = true)).
    { intros _ x Hx. cbn. auto. }
    assert (Hgen : er s1 = true -> wp match y with
      | YLong _ a b =>
          let! r := do_long_calculation1 t a b in
          match r with
          | inl z => Ok (s1, VLong D z, true)
          | inr m => Ok (fail s1 m, VInvalid D, false)
          end
      | YDouble _ a b =>
          let! d := do_double_calculation D t a b in Ok (s1, VDouble D d, true)
      | YInvalid _ => Ok (s1, VInvalid D, true)
      end%res (fun x => agrees (en s) None (fst (fst x)) (snd (fst x)) /\ (snd x = false -> er (fst (fst x)) = true))).
    { intros Her. destruct y as [|a b|a b].
      - fin.
      - destruct W3 as (B1 & B2 & _). destruct (calc1_spec o t a b Hc Ht B1 B2) as (x & -> & Hx).
        cbn [rbind]. destruct x; fin.
      - assert (exists d, do_double_calculation D t a b = Ok d) as (d & ->).
        { destruct o; try discriminate; destruct Ht as [-> | ->]; cbn; eauto. }
        fin. }
    destruct (to_num L D posix unset_ok (en s) r1) as [n1|]; [|apply Hgen; auto].
    destruct (to_num L D posix unset_ok (en s) r2) as [n2|]; [|apply Hgen; auto].
    destruct Hy as (-> & -> & V1 & V2). clear Hgen Hfail.
    assert (Hdbl : forall a b, wp (let! d := do_double_calculation D t a b in Ok (s, VDouble D d, true))%res
       (fun x => agrees (en s) (option_map (RNum D) (option_map (NDbl D) (dbl_op D o a b))) (fst (fst x)) (snd (fst x)) /\
        (snd x = false -> er (fst (fst x)) = true))).
    { intros a b. destruct o; try discriminate; destruct Ht as [-> | ->]; fin. }
    destruct n1 as [a|a], n2 as [b|b].
    - destruct (calc1_spec o t a b Hc Ht V1 V2) as (x & -> & Hx). cbn [rbind].
      replace (apply_op D o (NInt D a) (NInt D b)) with (option_map (NInt D) (long_op o a b))
        by (destruct o; try discriminate; reflexivity).
      destruct x as [z|m]; cbn in *; rewrite Hx; fin.
    - replace (apply_op D o (NInt D a) (NDbl D b)) with (option_map (NDbl D) (dbl_op D o (d_of_long D a) b))
        by (destruct o; try discriminate; reflexivity). apply Hdbl.
    - replace (apply_op D o (NDbl D a) (NInt D b)) with (option_map (NDbl D) (dbl_op D o a (d_of_long D b)))
        by (destruct o; try discriminate; reflexivity). apply Hdbl.
    - replace (apply_op D o (NDbl D a) (NDbl D b)) with (option_map (NDbl D) (dbl_op D o a b))
        by (destruct o; try discriminate; reflexivity). apply Hdbl. }
  assert (K2 : iop_class1 o = false ->
    wp (let! (s, l) := coerce_integer L D posix unset_ok s (val r1) in
      let! (s, r) := coerce_integer L D posix unset_ok s (val r2) in
      match l, r with
      | VLong _ a, VLong _ b =>
          let! x := do_long_calculation2 t a b in
          match x with
          | inl z => Ok (s, VLong D z, true)
          | inr m => Ok (fail s m, VInvalid D, false)
          end
      | _, _ => Ok (s, VInvalid D, false)
      end)%res (fun x =>
    agrees (en s) (both (en s) r1 r2 (apply_op D o)) (fst (fst x)) (snd (fst x)) /\
    (snd x = false -> er (fst (fst x)) = true))).
  { intros Hc.
    assert (Hap : forall n1 n2, apply_op D o n1 n2 =
      match to_int D n1, to_int D n2 with Some x, Some y => option_map (NInt D) (long_op o x y) | _, _ => None end)
      by (intros; destruct o; try discriminate; reflexivity).
    eapply wp_seq; [apply wp_and; [apply (coerce_integer_wp s); auto|apply coerce_integer_sem; auto]|].
    intros [s1 l1] [(A1 & A2 & A3 & (za & A4) & A5 & A6) Hs1]. cbn [fst snd] in *. unfold both.
    destruct (match to_num L D posix unset_ok (en s) r1 with Some n => to_int D n | None => None end) as [z1|] eqn:E1.
    - destruct Hs1 as [Hs1 Hz1]. injection Hs1 as -> ->.
      destruct (to_num L D posix unset_ok (en s) r1) as [n1|]; [|discriminate].
      eapply wp_seq; [apply wp_and; [apply (coerce_integer_wp s); auto|apply coerce_integer_sem; auto]|].
      intros [s2 l2] [(B1 & B2 & B3 & (zb & B4) & B5 & B6) Hs2]. cbn [fst snd] in *.
      destruct (match to_num L D posix unset_ok (en s) r2 with Some n => to_int D n | None => None end) as [z2|] eqn:E2.
      + destruct Hs2 as [Hs2 Hz2]. injection Hs2 as -> ->.
        destruct (to_num L D posix unset_ok (en s) r2) as [n2|]; [|discriminate].
        rewrite Hap, E1, E2.
        destruct (calc2_spec o t z1 z2 Hc Ht Hz1 Hz2) as (x & -> & Hx). cbn [rbind].
        destruct x as [z|m]; cbn in *; rewrite Hx; fin.
      + destruct Hs2 as [Hs2 ->]. cbn.
        assert (Hn : match to_num L D posix unset_ok (en s) r2 with
           | Some n2 => option_map (RNum D) (apply_op D o n1 n2) | None => None end = None).
        { destruct (to_num L D posix unset_ok (en s) r2) as [n2|]; auto. rewrite Hap, E1, E2. reflexivity. }
        rewrite Hn. fin.
    - destruct Hs1 as [Hs1 ->].
      eapply wp_seq; [apply (coerce_integer_wp s1); auto; apply A1|].
      intros [s2 l2] (B1 & B2 & B3 & (zb & B4) & B5 & B6). cbn [fst snd] in *. cbn.
      assert (er s2 = true) by (apply (l_er _ _ B1); auto).
      assert (Hn : match to_num L D posix unset_ok (en s) r1 with
           | Some n1 => match to_num L D posix unset_ok (en s) r2 with
             | Some n2 => option_map (RNum D) (apply_op D o n1 n2) | None => None end | None => None end = None).
      { destruct (to_num L D posix unset_ok (en s) r1) as [n1|]; auto.
        destruct (to_num L D posix unset_ok (en s) r2) as [n2|]; auto. rewrite Hap, E1. reflexivity. }
      rewrite Hn. fin. }
  destruct o; destruct Ht as [-> | ->]; cbn [iop_tok iop_asg do_binary_calculation] in *;
    first [apply K1; reflexivity | apply K2; reflexivity].
Qed.

(** The code's operation for each binary operator token. *)
Definition bop_cmp (o : bop) : bool := match o with BCmp _ => true | _ => false end.

Lemma act_sem : forall s t k o r1 r2, good s -> er s = false -> binop t = Some (k, o) ->
  vok (val r1) -> vok (val r2) ->
  wp ((if bop_cmp o then act_cmp L D posix unset_ok else act_calc L D posix unset_ok) s t (val r1) (val r2))
     (fun x => agrees (en s) (both (en s) r1 r2 (apply_bop D o)) (fst x) (snd x)).
Proof.
  intros s t k o r1 r2 Hg He Hb H1 H2. destruct o as [o|c]; cbn [bop_cmp].
  - unfold act_calc. eapply wp_seq; [apply (dbc_sem s t o r1 r2); auto|].
    + left. destruct t; try discriminate; cbn in Hb; injection Hb as <- <-; reflexivity.
    + intros [[s1 v1] ok] [H _]. exact H.
  - unfold act_cmp. destruct (coerce_type_sem s r1 r2 Hg He H1 H2) as (s1 & y & Ey & Hy).
    pose proof (coerce_type_wp s (val r1) (val r2) Hg H1 H2) as W. rewrite Ey in W. cbn in W.
    destruct W as (W1 & W2 & W3). rewrite Ey. cbn [rbind]. unfold both.
    assert (Hgen : er s1 = true -> wp match y with
      | YLong _ a b => let! z := do_long_comparison t a b in Ok (s1, VLong D z)
      | YDouble _ a b => let! z := do_double_comparison D t a b in Ok (s1, VLong D z)
      | YInvalid _ => Ok (s1, VInvalid D)
      end%res (fun x => agrees (en s) None (fst x) (snd x))).
    { intros Her. destruct y; [cbn; auto| |]; destruct t; try discriminate; cbn; auto. }
    destruct (to_num L D posix unset_ok (en s) r1) as [n1|]; [|apply Hgen; auto].
    destruct (to_num L D posix unset_ok (en s) r2) as [n2|]; [|apply Hgen; auto].
    destruct Hy as (-> & -> & V1 & V2).
    destruct t; try discriminate; cbn in Hb; injection Hb as <- <-; destruct n1, n2; cbn; auto.
Qed.

Lemma act_invalid : forall (s : st) t k o, binop t = Some (k, o) ->
  (if bop_cmp o then act_cmp L D posix unset_ok else act_calc L D posix unset_ok) s t (VInvalid D) (VInvalid D)
  = Ok (s, VInvalid D).
Proof. intros s t k o H. destruct t; try discriminate; cbn in H; injection H as <- <-; reflexivity. Qed.

(** ** Assignment and increment *)
Lemma do_assignment_sem : forall s x r, er s = false ->
  let (s', ok) := do_assignment D unset_ok s x (val r) in
  match match rv_text D unset_ok (en s) r with Some t => assign (en s) x t | None => None end with
  | Some e => ok = true /\ er s' = false /\ en s' = e
  | None => ok = false
  end.
Proof.
  intros s x r He.
  assert (K : forall t, let (s', ok) := (if vro (en s) x then (msg s (MReadonly x), false)
      else (set_en s (env_set (en s) x t), true)) in
      match assign (en s) x t with
      | Some e => ok = true /\ er s' = false /\ en s' = e
      | None => ok = false end).
  { intros t. unfold assign. destruct (vro (en s) x); auto. }
  unfold do_assignment. destruct r as [[z|d]|y]; cbn; try apply K.
  destruct (vget (en s) y) as [t|]; [apply K|]. destruct unset_ok; [apply K|reflexivity].
Qed.

Lemma incr_block_sem : forall pre tf s x up, good s -> vok (VVar D x) -> er s = false ->
  (forall s', here s s' -> incop (tf s') = Some up) ->
  wp (incr_block pre tf s x (VVar D x)) (fun y =>
    match match read_var L D posix unset_ok (en s) x with
      | Some n => match step_num D up n with
        | Some m => match assign (en s) x (num_text D m) with
          | Some e => Some (e, RNum D (if pre then m else n)) | None => None end
        | None => None end
      | None => None end with
    | Some (e, r) => agrees e (Some r) (fst y) (snd y)
    | None => er (fst y) = true
    end).
Proof.
  intros pre tf s x up Hg Hvx He Htf. unfold incr_block.
  pose proof (coerce_number_sem s (RVar D x) He) as S. cbn [to_num val] in S.
  destruct (coerce_number L D posix unset_ok s (VVar D x)) as [s1 v] eqn:E.
  destruct (coerce_number_spec s (VVar D x) _ _ Hg Hvx E) as (A1 & A2 & A3 & A4 & A5 & A6).
  destruct (read_var L D posix unset_ok (en s) x) as [n|].
  - injection S as -> ->. specialize (Htf s (conj eq_refl eq_refl)).
    assert (Hasg : forall m, wp (let '(s3, ok) := do_assignment D unset_ok s x (nval m) in
        if negb ok then Ok (set_er s3, VInvalid D) else Ok (s3, if pre then nval m else nval n))
       (fun y => match match assign (en s) x (num_text D m) with
          | Some e => Some (e, RNum D (if pre then m else n)) | None => None end with
    | Some (e, r) => agrees e (Some r) (fst y) (snd y)
    | None => er (fst y) = true
    end)).
    { intros m. pose proof (do_assignment_sem s x (RNum D m) He) as Ha. change (nval m) with (val (RNum D m)).
      destruct (do_assignment D unset_ok s x (val (RNum D m))) as [s3 ok]. cbn [rv_text] in Ha.
      destruct (assign (en s) x (num_text D m)) as [e|].
      - destruct Ha as (-> & Ha1 & Ha2). cbn. split; auto. split; auto. destruct pre; reflexivity.
      - subst ok. reflexivity. }
    assert (Hup : tf s = if up then TPlusplus else TMinusminus)
      by (destruct (tf s); try discriminate; injection Htf as <-; reflexivity).
    rewrite Hup. destruct n as [z|d].
    + cbn [step_num nval val]. cbn in A3.
      destruct up; cbn [do_increment_or_decrement].
      * destruct (Z.eqb_spec z LONG_MAX).
        -- assert (in_long (z + 1) = false) by (apply not_true_is_false; rewrite in_long_iff; unfold is_long, LONG_MAX in *; lia).
           rewrite H. reflexivity.
        -- assert (Hl : is_long (z + 1)) by (unfold is_long, LONG_MIN, LONG_MAX in *; lia).
           rewrite cl_Ok by auto. cbn [rbind negb]. rewrite (proj2 (in_long_iff _) Hl). apply (Hasg (NInt D (z + 1))).
      * destruct (Z.eqb_spec z LONG_MIN).
        -- assert (in_long (z - 1) = false) by (apply not_true_is_false; rewrite in_long_iff; unfold is_long, LONG_MIN in *; lia).
           rewrite H. reflexivity.
        -- assert (Hl : is_long (z - 1)) by (unfold is_long, LONG_MIN, LONG_MAX in *; lia).
           rewrite cl_Ok by auto. cbn [rbind negb]. rewrite (proj2 (in_long_iff _) Hl). apply (Hasg (NInt D (z - 1))).
    + destruct up; cbn [do_increment_or_decrement nval val rbind negb step_num]; [apply (Hasg (NDbl D (d_incr D d)))|apply (Hasg (NDbl D (d_decr D d)))].
  - destruct S as (m & S). injection S as -> ->. destruct (tf (fail s m)); reflexivity.
Qed.
Section Levels.
Variable PA : st -> res (st * value).
Variable fuel : nat.
Hypothesis PAok : forall s, good s -> need s < fuel ->
  wp (PA s) (fun r => post LAsg s (fst r) (snd r)).

Definition lev (lv : level) (f : st -> res (st * value)) : Prop :=
  forall s, good s -> need s <= fuel -> wp (f s) (fun r => post lv s (fst r) (snd r)).

Lemma parse_as_number_spec : forall s w s' v, good s -> tk s = TNumber w -> parse_as_number L D posix s w = (s', v) ->
  local s s' /\ en s' = en s /\ vok v /\ bad s' v.
Proof.
  intros s w s' v Hg Htk E. unfold parse_as_number in E.
  destruct (xwcstol L 0 w) eqn:Ex.
  { injection E as <- <-. split; [apply local_refl; auto|]. split; auto.
    split; [eapply xwcstol_long; eauto|intro; discriminate]. }
  assert (Hf : (fail s (MBadNumber w), VInvalid D) = (s', v) -> local s s' /\ en s' = en s /\ vok v /\ bad s' v).
  { intros E'. injection E' as <- <-. split; [apply fail_local; auto|]. split; [auto|]. split; [exact I|intro; reflexivity]. }
  destruct posix eqn:Ep; auto. destruct (d_parse D w) eqn:Ed; auto.
  assert (Hio : io = false).
  { destruct io eqn:Eio; auto. exfalso. destruct Hg as (_ & _ & Hg). destruct (Hg Eio) as [_ [K|K]]; [congruence|].
    rewrite Htk in K. destruct (Io eq_refl _ _ K); congruence. }
  injection E as <- <-. split; [apply local_refl; auto|]. split; auto.
  split; [split; [exact Ep|exact Hio]|intro; discriminate].
Qed.

(** a value produced by a sub-step, masked in parse-only mode *)
Lemma parse_primary_ok : lev LPrimary (parse_primary L D posix exp PA).
Proof.
  intros s Hg Hn. unfold parse_primary.
  assert (Hmask : forall r, wp r (fun x => frame s (fst x) /\ po (fst x) = po s /\
      (po s = false -> bad (fst x) (snd x)) /\ vok (snd x) /\
      (er (fst x) = false -> exists ts e, path s ts (fst x) /\ derives LPrimary ts e)) ->
    wp (rbind r (fun x => let (s, v) := x in if po s then Ok (s, VInvalid D) else Ok (s, v)))
       (fun r => post LPrimary s (fst r) (snd r))).
  { intros r Hr. eapply wp_seq; [exact Hr|]. intros [s1 v1] (A1 & A2 & A3 & A4 & A5). cbn [fst snd] in *.
    rewrite A2. destruct (po s) eqn:Ep; cbn; constructor; auto; try congruence; try (intro; congruence). 
    exact I. }
  apply Hmask. clear Hmask.
  assert (Hbad : forall s0 m, frame s s0 -> po s0 = po s -> frame s (fail s0 m) /\ po (fail s0 m) = po s /\
      (po s = false -> bad (fail s0 m) (VInvalid D)) /\ True /\
      (er (fail s0 m) = false -> exists ts e, path s ts (fail s0 m) /\ derives LPrimary ts e)).
  { intros s0 m Hf Hp. split.
    - eapply frame_trans; [exact Hf| |congruence]. apply local_frame; [apply fail_local, Hf|auto].
    - split; auto. split; [intros _ _; reflexivity|]. split; [exact I|]. cbn. discriminate. }
  destruct (tk s) eqn:Et; try (cbn; apply Hbad; [apply frame_refl; auto|reflexivity]).
  - eapply wp_seq; [apply next_token_wp; auto; rewrite Et; reflexivity|]. intros s1 N1.
    eapply wp_seq; [apply PAok; [apply N1|pose proof (n_need _ _ N1); lia]|].
    intros [s2 v] P. cbn [fst snd] in P.
    assert (Hf2 : frame s s2).
    { eapply frame_trans; [apply next_frame; eauto|apply P|]. rewrite (n_po _ _ N1); auto. }
    assert (Hp2 : po s2 = po s) by (rewrite (p_po _ _ _ _ P); apply N1).
    destruct (tk s2) eqn:Et2; try (cbn; apply Hbad; auto).
    eapply wp_seq; [apply next_token_wp; [apply Hf2|rewrite Et2; reflexivity]|]. intros s3 N3. cbn.
    split; [|split; [|split; [|split]]].
    + eapply frame_trans; [eauto|apply next_frame; eauto|congruence].
    + rewrite (n_po _ _ N3). auto.
    + intros Hp Hv. apply (n_er _ _ N3). apply (p_bad _ _ _ _ P); auto. rewrite (n_po _ _ N1). auto.
    + apply P.
    + intros He3. pose proof (er_back_n _ _ N3 He3) as He2.
      destruct (p_path _ _ _ _ P He2) as (ts & e & Hpa & Hd).
      exists (TLparen :: ts ++ [TRparen]), e. split; [|apply d_paren; auto].
      rewrite <- Et. eapply path_step.
      * apply (n_path _ _ N1). eapply er_back; [apply P|auto].
      * eapply path_app; eauto. rewrite <- Et2. eapply path_step; [apply (n_path _ _ N3); auto|]. apply path_nil; auto.
  - destruct (parse_as_number L D posix s w) as [s1 v] eqn:Ep.
    destruct (parse_as_number_spec _ _ _ _ Hg Et Ep) as (A1 & A2 & A3 & A4).
    assert (Ht1 : tk s1 = tk s) by apply A1.
    eapply wp_seq; [apply next_token_wp; [apply A1|rewrite Ht1, Et; reflexivity]|]. intros s2 N2. cbn.
    split; [|split; [|split; [|split]]].
    + eapply frame_trans; [apply local_frame; eauto|apply next_frame; eauto|]. rewrite (l_po _ _ A1). auto.
    + rewrite (n_po _ _ N2). apply A1.
    + intros _ Hv. apply (n_er _ _ N2). auto.
    + auto.
    + intros He. exists [TNumber w], (ENum w). split; [|constructor]. rewrite <- Et.
      eapply path_step; [|apply path_nil; auto].
      replace (idx s) with (idx s1) by apply A1. apply (n_path _ _ N2); auto.
  - eapply wp_seq; [apply next_token_wp; [auto|rewrite Et; reflexivity]|]. intros s2 N2. cbn.
    split; [|split; [|split; [|split]]]; auto.
    + apply next_frame; auto.
    + apply N2.
    + intros _ K; discriminate.
    + intros K. destruct Hg as (_ & _ & Hg). destruct (Hg K) as [_ [Hr|Hr]]; [congruence|].
      rewrite Et in Hr. exists (idx s). exact Hr.
    + intros He. exists [TIdent w], (EVar w). split; [|constructor]. rewrite <- Et.
      eapply path_step; [|apply path_nil; auto]. apply (n_path _ _ N2); auto.
Qed.

(** Apply a local step and a token to a finished operand. *)
Lemma postfix_step_post : forall s0 s v s1 v1 s2 up, post LPostfix s0 s v -> incop (tk s) = Some up ->
  local s s1 -> vok v1 -> (po s = true -> en s1 = en s /\ v1 = VInvalid D) -> (po s = false -> bad s1 v1) ->
  nextp s1 s2 -> post LPostfix s0 s2 v1.
Proof.
  intros s0 s v s1 v1 s2 up P Hup A1 A2 A3 A4 N2.
      assert (Hp2 : po s2 = po s0) by (rewrite (n_po _ _ N2), (l_po _ _ A1); apply P).
      constructor; auto.
      + eapply frame_trans; [apply P| |rewrite (p_po _ _ _ _ P); auto].
        eapply frame_trans; [apply local_frame; eauto; apply A3|apply next_frame; eauto|].
        rewrite (l_po _ _ A1); auto.
      + intro K. apply A3. rewrite (p_po _ _ _ _ P). auto.
      + intros K Hv. apply (n_er _ _ N2). apply A4; auto. rewrite (p_po _ _ _ _ P). auto.
      + intros He. pose proof (er_back_n _ _ N2 He) as He1. pose proof (er_back_l _ _ A1 He1) as He0.
        destruct (p_path _ _ _ _ P He0) as (ts & e & Hpa & Hd).
        exists (ts ++ [tk s]), (EIncr false up e). split; [|apply d_postfix; auto].
        eapply path_app; eauto. eapply path_step; [|apply path_nil; eauto].
        replace (idx s) with (idx s1) by apply A1. apply (n_path _ _ N2); auto.
Qed.

Lemma postfix_loop_ok : forall n s0 s v, post LPostfix s0 s v -> need s <= n ->
  wp (postfix_loop L D posix unset_ok exp n s v) (fun r => post LPostfix s0 (fst r) (snd r)).
Proof.
  induction n as [|n IH]; intros s0 s v P Hn.
  { assert (Hte : tok_end (tk s) = true).
    { unfold need in Hn. destruct (tok_end (tk s)); [auto|lia]. }
    cbn [postfix_loop]. destruct (tk s); try discriminate; exact P. }
  assert (Hstep : forall up, incop (tk s) = Some up ->
    wp (let! (s, v) :=
          (if posix then Ok (fail s MUnsupported, VInvalid D)
           else match v with
           | VVar _ x => incr_block false (fun s => tk s) s x v
           | VInvalid _ => Ok (s, v)
           | _ => Ok (fail s MNeedVar, VInvalid D)
           end) in
        let! s := next_token L exp s in
        postfix_loop L D posix unset_ok exp n s v)%res (fun r => post LPostfix s0 (fst r) (snd r))).
  { intros up Hup. eapply wp_seq with (P := fun x => local s (fst x) /\ vok (snd x) /\
       (po s = true -> en (fst x) = en s /\ snd x = VInvalid D) /\ (po s = false -> bad (fst x) (snd x))).
    - assert (Hbad : forall m, wp (Ok (fail s m, VInvalid D)) (fun x => local s (fst x) /\ vok (snd x) /\
       (po s = true -> en (fst x) = en s /\ snd x = VInvalid D) /\ (po s = false -> bad (fst x) (snd x)))).
      { intros m. cbn. split; [apply fail_local, P|]. split; [exact I|]. split; [auto|intros _ _; reflexivity]. }
      destruct posix; [apply Hbad|].
      destruct v as [|z|d|x]; try apply Hbad.
      + cbn. split; [apply local_refl, P|]. split; [exact I|]. split; auto.
        intro K. apply P. rewrite <- (p_po _ _ _ _ P). auto.
      + eapply wp_mono; [apply incr_block_wp; apply P|]. intros [s1 v1] [S1 S2 S3]. cbn in *.
        split; auto. split; auto. split; auto. intro K. rewrite (p_po _ _ _ _ P) in K.
        pose proof (p_val _ _ _ _ P K). discriminate.
    - intros [s1 v1] (A1 & A2 & A3 & A4). cbn [fst snd] in *.
      assert (Ht1 : tk s1 = tk s) by apply A1.
      eapply wp_seq; [apply next_token_wp; [apply A1|rewrite Ht1; destruct (tk s); try discriminate; reflexivity]|].
      intros s2 N2. pose proof (n_need _ _ N2) as Hn2. rewrite (need_here _ _ (l_here _ _ A1)) in Hn2.
      apply IH; [|lia]. eapply postfix_step_post; eauto. }
  cbn [postfix_loop].
  destruct (tk s) eqn:Et; try exact P; [apply (Hstep true)|apply (Hstep false)]; reflexivity.
Qed.

Lemma post_up : forall lv lv' s s' v, (forall ts e, derives lv ts e -> derives lv' ts e) ->
  post lv s s' v -> post lv' s s' v.
Proof.
  intros lv lv' s s' v H [A1 A2 A3 A4 A5 A6]. constructor; auto.
  intros He. destruct (A6 He) as (ts & e & Hp & Hd). eauto.
Qed.

Lemma parse_postfix_ok : lev LPostfix (parse_postfix L D posix unset_ok exp PA fuel).
Proof.
  intros s Hg Hn. unfold parse_postfix. eapply wp_seq; [apply parse_primary_ok; auto|].
  intros [s1 v1] P. cbn [fst snd] in P. apply postfix_loop_ok.
  - eapply post_up; [|exact P]. intros. apply d_postfix0. auto.
  - pose proof (f_need _ _ (p_frame _ _ _ _ P)). lia.
Qed.

(** An operand preceded by a one-token prefix, then transformed. *)
Lemma prefix_step : forall (lv : level) s s1 s2 v (Q : res (st * value)) (g : expr -> expr),
  nextp s s1 -> post LPrefix s1 s2 v ->
  (forall ts e, derives LPrefix ts e -> derives LPrefix (tk s :: ts) (g e)) ->
  wp Q (fun x => local s2 (fst x) /\ vok (snd x) /\
    (po s2 = true -> en (fst x) = en s2 /\ snd x = VInvalid D) /\ (po s2 = false -> bad (fst x) (snd x))) ->
  wp Q (fun r => post LPrefix s (fst r) (snd r)).
Proof.
  intros lv s s1 s2 v Q g N1 P Hd HQ. eapply wp_mono; [exact HQ|].
  intros [s3 v3] (A1 & A2 & A3 & A4). cbn [fst snd] in *.
  assert (Hp2 : po s2 = po s) by (rewrite (p_po _ _ _ _ P); apply N1).
  constructor; auto.
  - eapply frame_trans; [|apply local_frame; eauto; apply A3|congruence].
    eapply frame_trans; [apply next_frame; eauto|apply P|]. rewrite (n_po _ _ N1). auto.
  - rewrite (l_po _ _ A1). auto.
  - intros K. apply A3. congruence.
  - intros K. apply A4. congruence.
  - intros He. pose proof (er_back_l _ _ A1 He) as He2.
    destruct (p_path _ _ _ _ P He2) as (ts & e & Hpa & Hde).
    exists (tk s :: ts), (g e). split; auto. eapply path_step.
    + apply (n_path _ _ N1). eapply er_back; [apply P|auto].
    + eapply path_here_r; eauto. apply A1.
Qed.

Lemma parse_prefix_ok : forall n s, good s -> need s <= n -> need s <= fuel ->
  wp (parse_prefix L D posix unset_ok exp PA fuel n s) (fun r => post LPrefix s (fst r) (snd r)).
Proof.
  induction n as [|n IH]; intros s Hg Hn Hf.
  { assert (Hte : tok_end (tk s) = true).
    { unfold need in Hn. destruct (tok_end (tk s)); [auto|lia]. }
    cbn [parse_prefix]. pose proof (parse_postfix_ok s Hg Hf) as HP.
    destruct (tk s); try discriminate; (eapply wp_mono; [exact HP|]);
      intros r P; (eapply post_up; [|exact P]); intros; apply d_prefix0; auto. }
  assert (Hbase : wp (parse_postfix L D posix unset_ok exp PA fuel s) (fun r => post LPrefix s (fst r) (snd r))).
  { eapply wp_mono; [apply parse_postfix_ok; auto|]. intros r P. eapply post_up; [|exact P].
    intros; apply d_prefix0; auto. }
  assert (Hop : forall (k : st -> value -> res (st * value)) (g : expr -> expr), tok_end (tk s) = false ->
    (forall ts e, derives LPrefix ts e -> derives LPrefix (tk s :: ts) (g e)) ->
    (forall s2 v, good s2 -> vok v -> (po s2 = true -> v = VInvalid D) -> (po s2 = false -> bad s2 v) ->
       wp (k s2 v) (fun x => local s2 (fst x) /\ vok (snd x) /\
       (po s2 = true -> en (fst x) = en s2 /\ snd x = VInvalid D) /\ (po s2 = false -> bad (fst x) (snd x)))) ->
    wp (let! s1 := next_token L exp s in
        let! (s2, v) := parse_prefix L D posix unset_ok exp PA fuel n s1 in k s2 v)%res
       (fun r => post LPrefix s (fst r) (snd r))).
  { intros k g Hte Hg' Hk. eapply wp_seq; [apply next_token_wp; auto|]. intros s1 N1.
    pose proof (n_need _ _ N1). eapply wp_seq; [apply IH; [apply N1|lia|lia]|].
    intros [s2 v] P. cbn [fst snd] in P. eapply prefix_step; eauto; [exact LPrefix|].
    apply Hk; [apply P|apply P| |].
    - intro K. apply P. rewrite <- (p_po _ _ _ _ P). auto.
    - intro K. apply P. rewrite <- (p_po _ _ _ _ P). auto. }
  assert (Hfail : forall s2 m, good s2 -> wp (Ok (fail s2 m, VInvalid D)) (fun x => local s2 (fst x) /\ vok (snd x) /\
       (po s2 = true -> en (fst x) = en s2 /\ snd x = VInvalid D) /\ (po s2 = false -> bad (fst x) (snd x)))).
  { intros s2 m Hg2. cbn. split; [apply fail_local; auto|]. split; [exact I|]. split; [auto|intros _ _; reflexivity]. }
  assert (Hinc : forall t, wp (let! s1 := next_token L exp s in
        let! (s2, v) := parse_prefix L D posix unset_ok exp PA fuel n s1 in
        if posix then Ok (fail s2 MUnsupported, VInvalid D)
          else match v with
          | VVar _ x => incr_block true (fun _ => t) s2 x v
          | VInvalid _ => Ok (s2, v)
          | _ => Ok (fail s2 MNeedVar, VInvalid D)
          end)%res (fun r => post LPrefix s (fst r) (snd r)) \/ incop (tk s) = None).
  { intros t. destruct (incop (tk s)) as [up|] eqn:Ei; [left|right; auto].
    apply Hop with (g := EIncr true up).
    - destruct (tk s); try discriminate; reflexivity.
    - intros. apply d_prefix; auto.
    - intros s2 v Hg2 Hv Hp Hb. destruct posix; [apply Hfail; auto|].
      destruct v as [|z|d|x]; try (apply Hfail; auto).
      + cbn. split; [apply local_refl; auto|]. split; [exact I|]. auto.
      + eapply wp_mono; [apply incr_block_wp; auto|]. intros [s3 v3] [S1 S2 S3]. cbn in *.
        split; auto. split; auto. split; auto. intro K. discriminate (Hp K). }
  assert (Hcn : forall s2 v, good s2 -> vok v -> (po s2 = true -> v = VInvalid D) -> (po s2 = false -> bad s2 v) ->
     forall s3 v3, coerce_number L D posix unset_ok s2 v = (s3, v3) ->
     local s2 s3 /\ en s3 = en s2 /\ vok v3 /\ is_var v3 = false /\ (po s2 = true -> v3 = VInvalid D) /\ (po s2 = false -> bad s3 v3)).
  { intros s2 v Hg2 Hv Hp Hb s3 v3 E. destruct (coerce_number_spec _ _ _ _ Hg2 Hv E) as (A1 & A2 & A3 & A4 & A5 & A6).
    repeat (split; [auto; fail|]). auto. }
  cbn [parse_prefix].
  destruct (tk s) eqn:Et; try exact Hbase.
  - (* ~ *) apply Hop with (g := EUn UCompl); [auto|intros; apply d_unary; auto|].
    intros s2 v Hg2 Hv Hp Hb. eapply wp_seq; [apply coerce_integer_wp; auto|].
    intros [s3 v3] (A1 & A2 & A3 & (z & A4) & A5 & A6). cbn [fst snd] in *.
    destruct A4 as [-> | ->]; cbn.
    + split; auto. split; [apply lnot_long; auto|]. split; [intro K; discriminate (A5 (Hp K))|intros _ K; discriminate].
    + split; auto.
  - (* ! *) apply Hop with (g := EUn UNot); [auto|intros; apply d_unary; auto|].
    intros s2 v Hg2 Hv Hp Hb. destruct (coerce_number L D posix unset_ok s2 v) as [s3 v3] eqn:E.
    destruct (Hcn _ _ Hg2 Hv Hp Hb _ _ E) as (A1 & A2 & A3 & A4 & A5 & A6).
    destruct v3; try discriminate; cbn; (split; [exact A1|]); (split; [auto using b2z_long|]);
      (split; [intro K; try discriminate (A5 K); auto|]); auto; intros _ K; discriminate.
  - (* + *) apply Hop with (g := EUn UPlus); [auto|intros; apply d_unary; auto|].
    intros s2 v Hg2 Hv Hp Hb. destruct (coerce_number L D posix unset_ok s2 v) as [s3 v3] eqn:E.
    destruct (Hcn _ _ Hg2 Hv Hp Hb _ _ E) as (A1 & A2 & A3 & A4 & A5 & A6). cbn. auto 8.
  - (* - *) apply Hop with (g := EUn UMinus); [auto|intros; apply d_unary; auto|].
    intros s2 v Hg2 Hv Hp Hb. destruct (coerce_number L D posix unset_ok s2 v) as [s3 v3] eqn:E.
    destruct (Hcn _ _ Hg2 Hv Hp Hb _ _ E) as (A1 & A2 & A3 & A4 & A5 & A6).
    destruct v3 as [|z|d|x]; try discriminate.
    + cbn. auto 8.
    + destruct (Z.eqb_spec z LONG_MIN).
      * cbn. split; [eapply local_trans; eauto; apply fail_local, A1|]. split; [exact I|].
        split; [intro K; discriminate (A5 K)|intros _ _; reflexivity].
      * cbn in A3. assert (is_long (- z)) by (unfold is_long, LONG_MIN, LONG_MAX in *; lia).
        rewrite cl_Ok by auto. cbn. split; auto. split; auto. split; [intro K; discriminate (A5 K)|intros _ K; discriminate].
    + cbn. split; auto. split; auto. split; [intro K; discriminate (A5 K)|intros _ K; discriminate].
  - destruct (Hinc TPlusplus) as [H|H]; [exact H|discriminate].
  - destruct (Hinc TMinusminus) as [H|H]; [exact H|discriminate].
Qed.

(** ** Binary levels *)
Section Bin.
Variable k : nat.
Variable sub : st -> res (st * value).
Variable isop : tok -> bool.
Variable act : st -> tok -> value -> value -> res (st * value).
Hypothesis Hsub : lev (LBin k) sub.
Hypothesis Hisop : forall t, isop t = true -> exists o, binop t = Some (S k, o).
Hypothesis Hact : act_ok isop act.

Lemma isop_noend : forall t, isop t = true -> tok_end t = false.
Proof. intros t H. destruct (Hisop _ H) as (o & E). destruct t; try discriminate; reflexivity. Qed.

Lemma bin_step_post : forall s0 s v s1 s2 rhs s3 v3, post (LBin (S k)) s0 s v -> isop (tk s) = true ->
  nextp s s1 -> post (LBin k) s1 s2 rhs -> calcp s2 v rhs s3 v3 -> post (LBin (S k)) s0 s3 v3.
Proof.
  intros s0 s v s1 s2 rhs s3 v3 P Ei N1 P2 C.
  assert (Hp1 : po s1 = po s0) by (rewrite (n_po _ _ N1); apply P).
  assert (Hp2 : po s2 = po s0) by (rewrite (p_po _ _ _ _ P2); auto).
  constructor.
  - eapply frame_trans; [apply P| |rewrite (p_po _ _ _ _ P); auto].
    eapply frame_trans; [apply next_frame; eauto| |rewrite (n_po _ _ N1); auto].
    eapply frame_trans; [apply P2| |rewrite (p_po _ _ _ _ P2); auto].
    apply local_frame; [apply C|intros _; apply C].
  - rewrite (l_po _ _ (c_local _ _ _ _ _ C)). auto.
  - intros K. apply (c_inv _ _ _ _ _ C). left. apply P. auto.
  - intros K. apply (c_bad _ _ _ _ _ C).
    + intro Hv. apply (f_er _ _ (p_frame _ _ _ _ P2)). apply (n_er _ _ N1). apply (p_bad _ _ _ _ P); auto.
    + apply P2. congruence.
  - apply C.
  - intros He. pose proof (er_back_l _ _ (c_local _ _ _ _ _ C) He) as He2.
    pose proof (er_back _ _ (p_frame _ _ _ _ P2) He2) as He1. pose proof (er_back_n _ _ N1 He1) as He0.
    destruct (p_path _ _ _ _ P He0) as (ts1 & e1 & Hp & Hd).
    destruct (p_path _ _ _ _ P2 He2) as (ts2 & e2 & Hp' & Hd').
    destruct (Hisop _ Ei) as (o & Ho).
    exists (ts1 ++ tk s :: ts2), (EBin o e1 e2). split; [|eapply d_bin; eauto].
    eapply path_app; eauto. eapply path_step; [apply (n_path _ _ N1); auto|].
    eapply path_here_r; eauto. apply C.
Qed.

Lemma bin_loop_ok : forall n s0 s v, post (LBin (S k)) s0 s v -> need s <= n -> need s <= fuel ->
  wp (bin_loop L D exp sub isop act n s v) (fun r => post (LBin (S k)) s0 (fst r) (snd r)).
Proof.
  induction n as [|n IH]; intros s0 s v P Hn Hf; cbn [bin_loop].
  { destruct (isop (tk s)) eqn:Ei; [|exact P]. apply isop_noend in Ei.
    unfold need in Hn. rewrite Ei in Hn. lia. }
  destruct (isop (tk s)) eqn:Ei; [|exact P].
  eapply wp_seq; [apply next_token_wp; [apply P|apply isop_noend; auto]|]. intros s1 N1.
  pose proof (n_need _ _ N1) as Hn1.
  eapply wp_seq; [apply Hsub; [apply N1|lia]|]. intros [s2 rhs] P2. cbn [fst snd] in P2.
  eapply wp_seq; [apply Hact; [apply P2|exact Ei|apply P|apply P2]|]. intros [s3 v3] C. cbn [fst snd] in C.
  pose proof (f_need _ _ (p_frame _ _ _ _ P2)) as Hn2.
  pose proof (need_here _ _ (l_here _ _ (c_local _ _ _ _ _ C))) as Hn3.
  apply IH; [|lia|lia]. eapply bin_step_post; eauto.
Qed.

Lemma bin_level_ok : lev (LBin (S k)) (bin_level L D exp fuel sub isop act).
Proof.
  intros s Hg Hn. unfold bin_level. eapply wp_seq; [apply Hsub; auto|].
  intros [s1 v1] P. cbn [fst snd] in P. pose proof (f_need _ _ (p_frame _ _ _ _ P)).
  apply bin_loop_ok; [|lia|lia]. eapply post_up; [|exact P]. intros. apply d_bin0. auto.
Qed.
End Bin.

Ltac lvl H := apply bin_level_ok; [exact H|intros []; try discriminate; eexists; reflexivity|].
Lemma inclusive_or_ok : lev (LBin 8) (parse_inclusive_or L D posix unset_ok exp PA fuel).
Proof.
  assert (H0 : lev (LBin 0) (parse_prefix L D posix unset_ok exp PA fuel fuel)).
  { intros s Hg Hn. eapply wp_mono; [apply parse_prefix_ok; auto|]. intros r P.
    eapply post_up; [|exact P]. intros; apply d_bin_base; auto. }
  assert (H1 : lev (LBin 1) (parse_multiplicative L D posix unset_ok exp PA fuel)).
  { lvl H0. apply act_calc_ok. intros []; try discriminate; reflexivity. }
  assert (H2 : lev (LBin 2) (parse_additive L D posix unset_ok exp PA fuel)).
  { lvl H1. apply act_calc_ok. intros []; try discriminate; reflexivity. }
  assert (H3 : lev (LBin 3) (parse_shift L D posix unset_ok exp PA fuel)).
  { lvl H2. apply act_calc_ok. intros []; try discriminate; reflexivity. }
  assert (H4 : lev (LBin 4) (parse_relational L D posix unset_ok exp PA fuel)).
  { lvl H3. apply act_cmp_ok. intros []; try discriminate; reflexivity. }
  assert (H5 : lev (LBin 5) (parse_equality L D posix unset_ok exp PA fuel)).
  { lvl H4. apply act_cmp_ok. intros []; try discriminate; reflexivity. }
  assert (H6 : lev (LBin 6) (parse_and L D posix unset_ok exp PA fuel)).
  { lvl H5. apply act_calc_ok. intros []; try discriminate; reflexivity. }
  assert (H7 : lev (LBin 7) (parse_exclusive_or L D posix unset_ok exp PA fuel)).
  { lvl H6. apply act_calc_ok. intros []; try discriminate; reflexivity. }
  lvl H7. apply act_calc_ok. intros []; try discriminate; reflexivity.
Qed.

(** ** && and || *)
Lemma truth_wp : forall v, is_var v = false ->
  exists tr, truth D v = Ok tr /\ (tr = None <-> v = VInvalid D).
Proof.
  intros v H. destruct v; try discriminate; cbn; eexists; (split; [reflexivity|]); split; congruence.
Qed.

(** Invariant of the && and || loops, [stop] being the truth value at which
    evaluation stops. *)
Record logp (lv : level) (stop : bool) (s0 s : st) (v : value) : Prop := {
  g_frame : frame s0 s;
  g_po : po s0 = true -> po s = true /\ v = VInvalid D;
  g_stop : po s0 = false -> po s = true -> v = VLong D (b2z stop) \/ v = VInvalid D;
  g_bad : po s0 = false -> bad s v;
  g_vok : vok v;
  g_path : er s = false -> exists ts e, path s0 ts s /\ derives lv ts e }.

Lemma set_po_frame : forall s b, good s -> (po s = true -> b = true) -> frame s (set_po s b).
Proof. intros s b [H1 H2] H. constructor; auto; [split; auto|apply env_ok_refl]. Qed.

Lemma logp_post : forall lv stop s0 s v, logp lv stop s0 s v -> post lv s0 (set_po s (po s0)) v.
Proof.
  intros lv stop s0 s v [A1 A2 A3 A4 A5 A6]. constructor; auto.
  - destruct A1 as [B1 B2 B3 B4 B5]. constructor; auto.
  - intro K. apply A2. auto.
  - intros He. destruct (A6 He) as (ts & e & Hp & Hd). exists ts, e. split; auto.
    eapply path_here_r; eauto. split; reflexivity.
Qed.

(** One iteration of the loops. *)
Lemma log_step : forall lv sublv stop (sub : st -> res (st * value)) s0 s v (mk : expr -> expr -> expr)
    (k : st -> value -> res (st * value)) Q,
  lev sublv sub -> logp lv stop s0 s v -> tok_end (tk s) = false -> need s <= fuel ->
  (forall ts1 e1 ts2 e2, derives lv ts1 e1 -> derives sublv ts2 e2 ->
     derives lv (ts1 ++ tk s :: ts2) (mk e1 e2)) ->
  (forall s1 v1 s2 tr valid value s4 v4 s' v5 v',
     coerce_number L D posix unset_ok s v = (s1, v1) -> next_token L exp s1 = Ok s2 -> truth D v1 = Ok tr ->
     match tr with None => (false, stop) | Some b => (true, b) end = (valid, value) ->
     sub (set_po s2 (po s2 || Bool.eqb value stop)) = Ok (s4, v4) ->
     coerce_number L D posix unset_ok s4 v4 = (s', v5) ->
     (value = stop /\ v' = (if valid : bool then VLong D (b2z value) else VInvalid D) \/
      value <> stop /\ po s = false /\ exists tr5, truth D v5 = Ok tr5 /\
        v' = match tr5 with Some b => VLong D (b2z b) | None => VInvalid D end) ->
     logp lv stop s0 s' v' -> need s' < need s -> wp (k s' v') Q) ->
  wp (let '(s, v) := coerce_number L D posix unset_ok s v in
      let! s := next_token L exp s in
      let! tr := truth D v in
      let '(valid, value) := match tr with None => (false, stop) | Some b => (true, b) end in
      let s := set_po s (po s || Bool.eqb value stop) in
      let! (s, v) := sub s in
      let '(s, v) := coerce_number L D posix unset_ok s v in
      let! (valid, value) :=
        (if negb (Bool.eqb value stop) then
           let! tr := truth D v in
           match tr with None => Ok (false, value) | Some b => Ok (valid, b) end
         else Ok (valid, value)) in
      k s (if valid : bool then VLong D (b2z value) else VInvalid D))%res Q.
Proof.
  intros lv sublv stop sub s0 s v mk k Q Hsub G Hte Hf Hmk Hk.
  destruct (coerce_number L D posix unset_ok s v) as [s1 v1] eqn:E1.
  destruct (coerce_number_spec _ _ _ _ (f_good _ _ (g_frame _ _ _ _ _ G)) (g_vok _ _ _ _ _ G) E1)
    as (A1 & A2 & A3 & A4 & A5 & A6).
  assert (Ht1 : tk s1 = tk s) by apply A1.
  eapply wp_eq; [apply next_token_wp; [apply A1|rewrite Ht1; auto]|]. intros s2 Ent N2.
  destruct (truth_wp v1 A4) as (tr & Htr & Hinv). rewrite Htr. cbn [rbind].
  assert (Hval : exists valid value, match tr with None => (false, stop) | Some b => (true, b) end = (valid, value)
     /\ (valid = false <-> v1 = VInvalid D) /\ (valid = false -> value = stop) /\ (valid = true -> tr = Some value)).
  { destruct tr as [b|]; do 2 eexists; (split; [reflexivity|]); (split; [|split; congruence]).
    - split; [discriminate|]. intro K. apply Hinv in K. discriminate.
    - tauto. }
  destruct Hval as (valid & value & Etr & Hvi & Hvs & Hvt). rewrite Etr.
  set (s3 := set_po s2 (po s2 || Bool.eqb value stop)).
  assert (Hfr12 : frame s s2).
  { eapply frame_trans; [apply local_frame; eauto|apply next_frame; eauto|]. rewrite (l_po _ _ A1); auto. }
  assert (Hfr3 : frame s s3).
  { eapply frame_trans; [exact Hfr12|apply set_po_frame; [apply Hfr12|]|].
    - intros K. rewrite K. reflexivity.
    - rewrite (n_po _ _ N2), (l_po _ _ A1). auto. }
  assert (Hn3 : need s3 < need s).
  { pose proof (n_need _ _ N2) as Hn. rewrite (need_here _ _ (l_here _ _ A1)) in Hn. exact Hn. }
  assert (Hpo2 : po s2 = po s) by (rewrite (n_po _ _ N2); apply A1).
  eapply wp_eq; [apply Hsub; [apply Hfr3|lia]|]. intros [s4 v4] Esub P4. cbn [fst snd] in P4.
  destruct (coerce_number L D posix unset_ok s4 v4) as [s5 v5] eqn:E5.
  destruct (coerce_number_spec _ _ _ _ (f_good _ _ (p_frame _ _ _ _ P4)) (p_vok _ _ _ _ P4) E5)
    as (B1 & B2 & B3 & B4 & B5 & B6).
  assert (Hfr5 : frame s3 s5).
  { eapply frame_trans; [apply P4|apply (local_frame _ _ B1); auto|]. rewrite (p_po _ _ _ _ P4); auto. }
  assert (Hpo5 : po s5 = po s || Bool.eqb value stop).
  { rewrite (l_po _ _ B1), (p_po _ _ _ _ P4). subst s3. cbn. rewrite Hpo2. auto. }
  assert (Hn5 : need s5 < need s) by (pose proof (f_need _ _ Hfr5); lia).
  assert (Hfr05 : frame s0 s5).
  { eapply frame_trans; [apply G| |intro K; apply G; auto].
    eapply frame_trans; [exact Hfr3|exact Hfr5|]. intro K. subst s3. cbn. rewrite Hpo2, K. reflexivity. }
  assert (Hpath : er s5 = false -> exists ts e, path s0 ts s5 /\ derives lv ts e).
  { intros He. pose proof (er_back_l _ _ B1 He) as He4. pose proof (er_back _ _ (p_frame _ _ _ _ P4) He4) as He3.
    assert (He2 : er s2 = false) by exact He3.
    pose proof (er_back_n _ _ N2 He2) as He1. pose proof (er_back_l _ _ A1 He1) as He0.
    destruct (g_path _ _ _ _ _ G He0) as (ts1 & e1 & Hp & Hd).
    destruct (p_path _ _ _ _ P4 He4) as (ts2 & e2 & Hp' & Hd').
    exists (ts1 ++ tk s :: ts2), (mk e1 e2). split; [|apply Hmk; auto].
    eapply path_app; eauto. eapply path_step with (s1 := s3).
    - replace (idx s) with (idx s1) by apply A1. apply (n_path _ _ N2); auto.
    - eapply path_here_r; eauto. apply B1. }
  assert (Her5 : er s1 = true -> er s5 = true).
  { intro K. apply (f_er _ _ Hfr5). apply (n_er _ _ N2). auto. }
  (* facts about the left operand *)
  assert (Hb1 : po s0 = false -> bad s1 v1).
  { intro K. apply A6. apply G. auto. }
  assert (Hstop1 : po s0 = false -> po s = true -> value = stop).
  { intros K1 K2. destruct (g_stop _ _ _ _ _ G K1 K2) as [Hv|Hv].
    - subst v. cbn in E1. injection E1 as <- <-. cbn in Htr. injection Htr as <-.
      destruct valid; [|auto]. specialize (Hvt eq_refl). injection Hvt as <-. destruct stop; reflexivity.
    - apply Hvs. apply Hvi. apply A5. auto. }
  assert (Hskip : po s0 = true -> valid = false).
  { intro K. apply Hvi. apply A5. apply G. auto. }
  destruct (Bool.eqb value stop) eqn:Eq; cbn [negb].
  - apply eqb_prop in Eq. subst value. rewrite orb_true_r in Hpo5. cbn [rbind].
    eapply Hk; eauto; [rewrite eqb_reflx; exact Esub|]. constructor; auto.
    + intro K. rewrite (Hskip K). auto.
    + intros _ _. destruct valid; auto.
    + intros K Hv. destruct valid; [discriminate|]. apply Her5. apply Hb1; auto. apply Hvi. reflexivity.
    + destruct valid; [apply b2z_long|exact I].
  - assert (Hne : value <> stop) by (intro K; rewrite K, eqb_reflx in Eq; discriminate).
    assert (Hvalid : valid = true) by (destruct valid; auto; exfalso; auto).
    assert (Hps0 : po s0 = false) by (destruct (po s0) eqn:K; auto; rewrite Hskip in Hvalid by auto; discriminate).
    assert (Hps : po s = false) by (destruct (po s) eqn:K; auto; exfalso; auto).
    assert (Hp3 : po s3 = false) by (subst s3; cbn; rewrite Hpo2, Hps; reflexivity).
    assert (Hb5 : bad s5 v5) by (apply B6; apply P4; exact Hp3).
    destruct (truth_wp v5 B4) as (tr5 & Etr5 & Hinv5). rewrite Etr5. cbn [rbind]. rewrite Hps in Hpo5. cbn in Hpo5.
    destruct tr5 as [b|]; cbn [rbind]; rewrite ?Hvalid;
      (eapply Hk; eauto; [rewrite Eq; exact Esub|right; eauto 6|]).
    + constructor; auto; try congruence; try (intros; congruence). apply b2z_long.
    + constructor; auto; try congruence; try (intros; congruence).
      * intros _ _. apply Hb5. apply Hinv5. reflexivity.
      * exact I.
Qed.

Lemma eqb_false_r : forall b, Bool.eqb b false = negb b.
Proof. intros []; reflexivity. Qed.
Lemma eqb_true_r : forall b, Bool.eqb b true = b.
Proof. intros []; reflexivity. Qed.

Lemma land_loop_ok : forall n s0 s v, logp LAnd false s0 s v -> need s <= n -> need s <= fuel ->
  wp (land_loop L D posix unset_ok exp PA fuel n s v) (fun r => logp LAnd false s0 (fst r) (snd r)).
Proof.
  induction n as [|n IH]; intros s0 s v G Hn Hf; cbn [land_loop].
  { destruct (tk s) eqn:Et; try exact G. unfold need in Hn. rewrite Et in Hn. cbn in Hn. lia. }
  destruct (tk s) eqn:Et; try exact G.
  pose proof (log_step LAnd (LBin 8) false (parse_inclusive_or L D posix unset_ok exp PA fuel) s0 s v EAnd
    (land_loop L D posix unset_ok exp PA fuel n) (fun r => logp LAnd false s0 (fst r) (snd r))
    inclusive_or_ok G) as H.
  rewrite Et in H. specialize (H eq_refl Hf d_and).
  specialize (H (fun _ _ _ _ _ _ _ _ s' _ v' _ _ _ _ _ _ _ G' Hn' =>
    IH s0 s' v' G' ltac:(lia) ltac:(lia))).
  destruct (coerce_number L D posix unset_ok s v) as [s1 v1]. 
  destruct (next_token L exp s1) as [s2| |]; cbn [rbind] in *; auto.
  destruct (truth D v1) as [tr| |]; cbn [rbind] in *; auto.
  destruct (match tr with Some b => (true, b) | None => (false, false) end) as [valid value].
  rewrite eqb_false_r in H.
  destruct (parse_inclusive_or L D posix unset_ok exp PA fuel (set_po s2 (po s2 || negb value))) as [[s3 v3]| |]; cbn [rbind] in *; auto.
  destruct (coerce_number L D posix unset_ok s3 v3) as [s4 v4].
  rewrite negb_involutive in H. exact H.
Qed.

Lemma logical_and_ok : lev LAnd (parse_logical_and L D posix unset_ok exp PA fuel).
Proof.
  intros s Hg Hn. unfold parse_logical_and. eapply wp_seq; [apply inclusive_or_ok; auto|].
  intros [s1 v1] P. cbn [fst snd] in P. pose proof (f_need _ _ (p_frame _ _ _ _ P)).
  eapply wp_seq; [apply land_loop_ok with (s0 := s); [|lia|lia]|].
  - destruct P as [A1 A2 A3 A4 A5 A6]. constructor; auto.
    + intro K. rewrite A2. auto.
    + intros K1 K2. congruence.
    + intros He. destruct (A6 He) as (ts & e & Hp & Hd). eauto using d_and0.
  - intros [s2 v2] G. cbn. eapply logp_post; eauto.
Qed.

Lemma lor_loop_ok : forall n s0 s v, logp LOr true s0 s v -> need s <= n -> need s <= fuel ->
  wp (lor_loop L D posix unset_ok exp PA fuel n s v) (fun r => logp LOr true s0 (fst r) (snd r)).
Proof.
  induction n as [|n IH]; intros s0 s v G Hn Hf; cbn [lor_loop].
  { destruct (tk s) eqn:Et; try exact G. unfold need in Hn. rewrite Et in Hn. cbn in Hn. lia. }
  destruct (tk s) eqn:Et; try exact G.
  pose proof (log_step LOr LAnd true (parse_logical_and L D posix unset_ok exp PA fuel) s0 s v EOr
    (lor_loop L D posix unset_ok exp PA fuel n) (fun r => logp LOr true s0 (fst r) (snd r))
    logical_and_ok G) as H.
  rewrite Et in H. specialize (H eq_refl Hf d_or).
  specialize (H (fun _ _ _ _ _ _ _ _ s' _ v' _ _ _ _ _ _ _ G' Hn' =>
    IH s0 s' v' G' ltac:(lia) ltac:(lia))).
  destruct (coerce_number L D posix unset_ok s v) as [s1 v1].
  destruct (next_token L exp s1) as [s2| |]; cbn [rbind] in *; auto.
  destruct (truth D v1) as [tr| |]; cbn [rbind] in *; auto.
  destruct (match tr with Some b => (true, b) | None => (false, true) end) as [valid value].
  rewrite eqb_true_r in H. exact H.
Qed.

Lemma logical_or_ok : lev LOr (parse_logical_or L D posix unset_ok exp PA fuel).
Proof.
  intros s Hg Hn. unfold parse_logical_or. eapply wp_seq; [apply logical_and_ok; auto|].
  intros [s1 v1] P. cbn [fst snd] in P. pose proof (f_need _ _ (p_frame _ _ _ _ P)).
  eapply wp_seq; [apply lor_loop_ok with (s0 := s); [|lia|lia]|].
  - destruct P as [A1 A2 A3 A4 A5 A6]. constructor; auto.
    + intro K. rewrite A2. auto.
    + intros K1 K2. congruence.
    + intros He. destruct (A6 He) as (ts & e & Hp & Hd). eauto using d_or0.
  - intros [s2 v2] G. cbn. eapply logp_post; eauto.
Qed.

(** ** ?: *)
Record condp (s s' : st) (r0 r : option value) : Prop := {
  k_frame : frame s s';
  k_po : po s = true -> po s' = true;
  k_skip : po s = true -> r = r0 \/ (r = Some (VInvalid D) /\ er s' = true);
  k_val : po s = false -> exists v, r = Some v /\ bad s' v;
  k_vok : (forall v, r0 = Some v -> vok v) -> forall v, r = Some v -> vok v;
  k_path : er s' = false -> exists ts e, path s ts s' /\ derives LCond ts e }.

Lemma cond_loop_ok : forall n s r0, good s -> need s <= n -> need s <= fuel ->
  wp (cond_loop L D posix unset_ok exp PA fuel n s r0) (fun x => condp s (fst x) r0 (snd x)).
Proof.
  induction n as [n IH] using lt_wf_ind. intros s r0 Hg Hn Hf.
  assert (E : cond_loop L D posix unset_ok exp PA fuel n s r0 =
    (let dummy1 := po s in
     let! (s, v) := parse_logical_or L D posix unset_ok exp PA fuel s in
     let result := if dummy1 : bool then r0 else Some v in
     match tk s with
     | TQuestion =>
      match n with
      | O => Fuel
      | S n' =>
          let '(s, v) := coerce_number L D posix unset_ok s v in
          let result := if dummy1 : bool then result else Some v in
          let! s := next_token L exp s in
          let! tr := truth D v in
          let '(valid, cond) := match tr with None => (false, true) | Some b => (true, b) end in
          let save2 := po s || negb valid in
          let s := set_po s (save2 || negb cond) in
          let dummy2 := po s in
          let! (s, v) := PA s in
          let result := if dummy2 : bool then result else Some v in
          match tk s with
          | TColon =>
              let! s := next_token L exp s in
              let s := set_po s (save2 || cond) in
              cond_loop L D posix unset_ok exp PA fuel n' s result
          | _ => Ok (fail s (MMissing (str ":")), Some (VInvalid D))
          end
      end
     | _ => Ok (s, result)
     end)%res) by (destruct n; reflexivity).
  rewrite E. clear E. cbn zeta.
  eapply wp_seq; [apply logical_or_ok; auto|]. intros [s1 v1] P1. cbn [fst snd] in P1.
  pose proof (f_need _ _ (p_frame _ _ _ _ P1)) as Hn1.
  destruct (tk s1) eqn:Et1;
    try (cbn; constructor;
      [apply P1
      |rewrite (p_po _ _ _ _ P1); auto
      |intros K; cbn; rewrite K; auto
      |intros K; rewrite K; exists v1; split; [auto|apply P1; auto]
      |intros Hr0 v; destruct (po s); [apply Hr0|intros Hv; injection Hv as <-; apply P1]
      |intros He; destruct (p_path _ _ _ _ P1 He) as (ts & e & Hp & Hd); eauto using d_cond0]).
  destruct n as [|n]; [unfold need in Hn1, Hn; rewrite Et1 in Hn1; cbn in Hn1; lia|].
  destruct (coerce_number L D posix unset_ok s1 v1) as [s2 v2] eqn:E2.
  destruct (coerce_number_spec _ _ _ _ (f_good _ _ (p_frame _ _ _ _ P1)) (p_vok _ _ _ _ P1) E2)
    as (A1 & A2 & A3 & A4 & A5 & A6).
  assert (Ht2 : tk s2 = tk s1) by apply A1.
  eapply wp_seq; [apply next_token_wp; [apply A1|rewrite Ht2, Et1; reflexivity]|]. intros s3 N3.
  destruct (truth_wp v2 A4) as (tr & Htr & Hinv). rewrite Htr. cbn [rbind].
  assert (Hval : exists valid cond, match tr with None => (false, true) | Some b => (true, b) end = (valid, cond)
     /\ (valid = false <-> v2 = VInvalid D) /\ (valid = false -> cond = true)).
  { destruct tr as [b|]; do 2 eexists; (split; [reflexivity|]); (split; [|congruence]).
    - split; [discriminate|]. intro K. apply Hinv in K. discriminate.
    - tauto. }
  destruct Hval as (valid & cond & -> & Hvi & Hvc).
  set (s4 := set_po s3 (po s3 || negb valid || negb cond)).
  assert (Hpo3 : po s3 = po s) by (rewrite (n_po _ _ N3), (l_po _ _ A1); apply P1).
  assert (Hn3 : need s3 < need s1).
  { pose proof (n_need _ _ N3) as H. rewrite (need_here _ _ (l_here _ _ A1)) in H. exact H. }
  assert (Hfr3 : frame s s3).
  { eapply frame_trans; [apply P1| |rewrite (p_po _ _ _ _ P1); auto].
    eapply frame_trans; [apply local_frame; eauto|apply next_frame; eauto|]. rewrite (l_po _ _ A1); auto. }
  assert (Hfr4 : frame s s4).
  { eapply frame_trans; [exact Hfr3|apply set_po_frame; [apply Hfr3|]|congruence]. intros ->. reflexivity. }
  assert (Hpo4 : po s = true -> po s4 = true) by (intro K; subst s4; cbn; rewrite Hpo3, K; reflexivity).
  assert (Hskipv : po s = true -> valid = false).
  { intro K. apply Hvi. apply A5. apply P1. auto. }
  assert (Hn4 : need s4 = need s3) by reflexivity.
  eapply wp_seq; [apply PAok; [apply Hfr4|lia]|]. intros [s5 v5] P5. cbn [fst snd] in P5.
  assert (Hfr5 : frame s s5) by (eapply frame_trans; [exact Hfr4|apply P5|exact Hpo4]).
  assert (Hpo5 : po s5 = po s4) by apply P5.
  assert (Hbad2 : po s = false -> bad s5 v2).
  { intros K Hv. apply (f_er _ _ (p_frame _ _ _ _ P5)). apply (n_er _ _ N3).
    apply A6; auto. apply P1. auto. }
  set (r1 := if po s4 then if po s then if po s then r0 else Some v1 else Some v2 else Some v5).
  assert (Hr1 : po s = true -> r1 = r0).
  { intro K. subst r1. rewrite (Hpo4 K), K. auto. }
  assert (Hr1v : (forall v, r0 = Some v -> vok v) -> forall v, r1 = Some v -> vok v).
  { intros Hr v. subst r1. destruct (po s4); [destruct (po s); [apply Hr|intro H; injection H as <-; auto]|].
    intro H; injection H as <-; apply P5. }
  destruct (tk s5) eqn:Et5; try (cbn; constructor;
    [eapply frame_trans; [exact Hfr5|apply local_frame; [apply fail_local, Hfr5|auto]|intro K; rewrite Hpo5; auto]
    |intro K; cbn; rewrite Hpo5; auto
    |intros _; right; split; reflexivity
    |intros _; exists (VInvalid D); split; [reflexivity|intros _; reflexivity]
    |intros _ v Hv; injection Hv as <-; exact I
    |cbn; discriminate]).
  eapply wp_seq; [apply next_token_wp; [apply Hfr5|rewrite Et5; reflexivity]|]. intros s6 N6.
  set (s7 := set_po s6 (po s3 || negb valid || cond)).
  pose proof (n_need _ _ N6) as Hn6. pose proof (f_need _ _ (p_frame _ _ _ _ P5)) as Hn5.
  assert (Hg7 : good s7) by (destruct (n_good _ _ N6); split; auto).
  assert (Hn7 : need s7 = need s6) by reflexivity.
  eapply wp_mono; [apply IH; [lia|exact Hg7|lia|lia]|]. intros [s8 r8] C. cbn [fst snd] in *.
  fold r1 in C.
  assert (Hfr7 : frame s s7).
  { pose proof (n_good _ _ N6). destruct Hfr5 as [F1 F2 F3 F4 F5]. constructor; auto.
    - lia.
    - intro K. cbn. apply (n_er _ _ N6). auto.
    - cbn. rewrite (n_en _ _ N6). auto.
    - intro K. cbn. rewrite (n_en _ _ N6). auto. }
  assert (Hpo7 : po s = true -> po s7 = true) by (intro K; subst s7; cbn; rewrite Hpo3, K; reflexivity).
  constructor.
  - eapply frame_trans; [exact Hfr7|apply C|exact Hpo7].
  - intro K. apply C. auto.
  - intro K. rewrite <- (Hr1 K). apply C. auto.
  - intro K. destruct (po s7) eqn:Ep7.
    + destruct (k_skip _ _ _ _ C Ep7) as [Hr|[Hr He]].
      * subst r8. subst r1. destruct (po s4) eqn:Ep4; rewrite ?K.
        -- exists v2. split; auto. intros Hv. apply (f_er _ _ (k_frame _ _ _ _ C)).
           apply (n_er _ _ N6). apply Hbad2; auto.
        -- exists v5. split; auto. intros Hv. apply (f_er _ _ (k_frame _ _ _ _ C)).
           apply (n_er _ _ N6). apply (p_bad _ _ _ _ P5); auto.
      * exists (VInvalid D). split; auto. intros _. auto.
    + apply C. auto.
  - intros Hr. apply (k_vok _ _ _ _ C). auto.
  - intros He. pose proof (er_back _ _ (k_frame _ _ _ _ C) He) as He7. change (er s6 = false) in He7.
    pose proof (er_back_n _ _ N6 He7) as He5. pose proof (er_back _ _ (p_frame _ _ _ _ P5) He5) as He4.
    change (er s3 = false) in He4. pose proof (er_back_n _ _ N3 He4) as He2.
    pose proof (er_back_l _ _ A1 He2) as He1.
    destruct (p_path _ _ _ _ P1 He1) as (ts1 & e1 & Hp1 & Hd1).
    destruct (p_path _ _ _ _ P5 He5) as (ts2 & e2 & Hp2 & Hd2).
    destruct (k_path _ _ _ _ C He) as (ts3 & e3 & Hp3 & Hd3).
    exists (ts1 ++ TQuestion :: ts2 ++ TColon :: ts3), (ECond e1 e2 e3).
    split; [|apply d_cond; auto].
    eapply path_app; eauto. rewrite <- Et1. eapply path_step with (s1 := s4).
    + replace (idx s1) with (idx s2) by apply A1. apply (n_path _ _ N3); auto.
    + eapply path_app; eauto. rewrite <- Et5. eapply path_step with (s1 := s7); auto.
      apply (n_path _ _ N6). auto.
Qed.

Lemma conditional_ok : lev LCond (parse_conditional L D posix unset_ok exp PA fuel).
Proof.
  intros s Hg Hn. unfold parse_conditional. eapply wp_seq; [apply cond_loop_ok; auto|].
  intros [s1 r] C. cbn [fst snd] in C.
  assert (Hf : frame s (set_po s1 (po s))).
  { destruct (k_frame _ _ _ _ C) as [B1 B2 B3 B4 B5]. constructor; auto. }
  assert (Hpath : er s1 = false -> forall b, exists ts e, path s ts (set_po s1 b) /\ derives LCond ts e).
  { intros He b. destruct (k_path _ _ _ _ C He) as (ts & e & Hp & Hd). exists ts, e. split; auto.
    eapply path_here_r; eauto. split; reflexivity. }
  destruct (po s) eqn:Ep.
  - cbn. constructor; auto; try congruence; try exact I.
  - destruct (k_val _ _ _ _ C Ep) as (v & -> & Hb). cbn. constructor; auto; try congruence.
    eapply (k_vok _ _ _ _ C); [discriminate|reflexivity].
Qed.

(** ** Agreement with the specification: tokens ahead *)
Definition at_ (s : st) (ts : list tok) : Prop :=
  match ts with
  | [] => tk s = TNull
  | t :: ts' => tk s = t /\ tok_end t = false /\ lexes L (rest (idx s)) ts'
  end.

Lemma at_here : forall s s' ts, here s s' -> at_ s ts -> at_ s' ts.
Proof. intros s s' [|t ts] [H1 H2] H; cbn in *; rewrite ?H1, ?H2; auto. Qed.

Lemma spaces_nomunch : forall u t u', spaces L u -> munch L u t u' -> False.
Proof.
  intros u t u' Hs (sp & w & -> & _ & T & _).
  destruct (tokword_cons L _ _ T) as (c & w' & -> & _).
  apply tokword_nospace in T; [|exact Lok].
  apply Forall_app in Hs as [_ Hs]. cbn in Hs. inversion Hs. congruence.
Qed.

Lemma next_at : forall s t ts, good s -> at_ s (t :: ts) ->
  exists s', next_token L exp s = Ok s' /\ nextp s s' /\ at_ s' ts /\ er s' = er s.
Proof.
  intros s t ts Hg (Ht & Hte & Hl). assert (Hg' := Hg). destruct Hg' as [Hi _].
  assert (Hn : wp (next_token L exp s) (nextp s)) by (apply next_token_wp; auto; rewrite Ht; auto).
  destruct (next_token_spec L Lok exp Nonul s Hi) as (s' & E & Hp). rewrite E in *. cbn in Hn.
  exists s'. split; auto. split; auto. destruct ts as [|t' ts].
  - apply lexes_nil_inv in Hl.
    destruct Hp as [[-> Hsp]|[(i & t0 & -> & Hte' & Hi' & Hm)|(i & c & r & -> & Hi' & (sp & Hr & Hsp) & Hc & Hno)]].
    + cbn. auto.
    + exfalso. eapply spaces_nomunch; eauto.
    + exfalso. rewrite Hr in Hl. apply Forall_app in Hl as [_ Hl]. inversion Hl. congruence.
  - apply lexes_cons_inv in Hl as (u & Hm' & Hl').
    destruct Hp as [[-> Hsp]|[(i & t0 & -> & Hte' & Hi' & Hm)|(i & c & r & -> & Hi' & (sp & Hr & Hsp) & Hc & Hno)]].
    + exfalso. eapply spaces_nomunch; eauto.
    + destruct (munch_fun L Lok _ _ _ _ _ Hm Hm') as [-> <-]. cbn. auto.
    + exfalso. destruct Hm' as (sp' & w & Hr' & Hsp' & T & _). rewrite Hr in Hr'.
      destruct (tokword_cons L _ _ T) as (c' & w' & Ew & _).
      assert (Hsc : iswspace L c' = false) by (subst w; eapply tokword_nospace; eauto).
      assert (c :: r = w ++ u).
      { subst w. clear - Hr' Hsp Hsp' Hc Hsc. revert sp' Hr' Hsp'.
        induction sp as [|a sp IH]; intros [|b sp'] H H'; cbn in *; auto.
        - injection H as -> _. inversion H'. congruence.
        - injection H as <- _. inversion Hsp. congruence.
        - injection H as -> H. inversion Hsp; inversion H'; subst. eapply IH; eauto. }
      eapply Hno; eauto.
Qed.

(** How tightly a following token binds: it ends every operand of lower rank. *)
Definition frank (t : tok) : nat :=
  match incop t with Some _ => 0 | None =>
  match binop t with Some (k, _) => k | None =>
  match asgop t with Some _ => 12 | None =>
  match t with TAmpamp => 9 | TPipepipe => 10 | TQuestion => 11 | _ => 100 end end end end.
Definition hdrank (ts : list tok) : nat := match ts with [] => 100 | t :: _ => frank t end.

Lemma at_tk : forall s ts, at_ s ts -> frank (tk s) = hdrank ts.
Proof. intros s [|t ts] H; cbn in *; [rewrite H; reflexivity|destruct H as [-> _]; reflexivity]. Qed.

(** ** Agreement with the specification: expressions *)
Definition wf (e : expr) : bool := well_formed L D posix e.
Definition sev (x : expr) (e : env) : option (env * rv) :=
  if wf x then eval L D posix unset_ok x e else None.

Definition result (o : option (env * rv)) (s' : st) (v : value) : Prop :=
  match o with Some (e, r) => agrees e (Some r) s' v | None => er s' = true end.
Definition sem (x : expr) (s s' : st) (v : value) : Prop :=
  er s = false -> if po s then er s' = negb (wf x) else result (sev x (en s)) s' v.

Definition Post (lv : level) (x : expr) (ts : list tok) (s s' : st) (v : value) : Prop :=
  post lv s s' v /\ at_ s' ts /\ sem x s s' v.

Definition comp (lv : level) (rk : nat) (f : st -> res (st * value)) : Prop :=
  forall s ts x more, good s -> need s <= fuel -> derives lv ts x -> at_ s (ts ++ more) ->
    rk < hdrank more -> wp (f s) (fun r => Post lv x more s (fst r) (snd r)).

Hypothesis PAsem : forall s ts x more, good s -> need s < fuel -> derives LAsg ts x ->
  at_ s (ts ++ more) -> 12 < hdrank more ->
  wp (PA s) (fun r => Post LAsg x more s (fst r) (snd r)).

Lemma primary_sem : forall s ts x more, good s -> need s <= fuel -> derives LPrimary ts x ->
  at_ s (ts ++ more) ->
  wp (parse_primary L D posix exp PA s) (fun r => Post LPrimary x more s (fst r) (snd r)).
Proof.
  intros s ts x more Hg Hn Hd Hat.
  eapply wp_mono; [apply (wp_and _ _ _ (fun r => at_ (fst r) more /\ sem x s (fst r) (snd r))
    (parse_primary_ok s Hg Hn))|intros r [K1 K2]; split; [exact K1|exact K2]].
  unfold parse_primary.
  inversion Hd as [w E1 E2|w E1 E2|ts' e' Hd' E1 E2| | | | | | | | | | | | | | | | ]; subst; cbn [app] in Hat.
  - destruct Hat as (Ht & Hte & Hl). rewrite Ht.
    assert (exists s1 v1, parse_as_number L D posix s w = (s1, v1) /\ here s s1 /\ po s1 = po s /\ en s1 = en s /\ good s1 /\
       match read_num L D posix w with
       | Some n => s1 = s /\ v1 = nval n | None => er s1 = true end) as (s1 & v1 & -> & Hh & Hpo & Hen & Hg1 & Hv).
    { unfold parse_as_number, read_num. destruct (xwcstol L 0 w); [do 2 eexists; split; [reflexivity|]; split; [split; reflexivity|auto]|].
      destruct posix; [do 2 eexists; split; [reflexivity|]; split; [split; reflexivity|]; repeat (split; [reflexivity|]); split; [apply fail_local; auto|reflexivity]|].
      destruct (d_parse D w); (do 2 eexists; split; [reflexivity|]; split; [split; reflexivity|]; repeat (split; [reflexivity|])); cbn; auto.
      split; [apply fail_local; auto|reflexivity]. }
    assert (Hat1 : at_ s1 (TNumber w :: more)) by (eapply at_here; [exact Hh|cbn; auto]).
    destruct (next_at s1 _ _ Hg1 Hat1) as (s2 & -> & N2 & Hat2 & He2). cbn [rbind].
    assert (Hpo2 : po s2 = po s) by (rewrite (n_po _ _ N2); auto). rewrite Hpo2.
    assert (Hen2 : en s2 = en s) by (rewrite (n_en _ _ N2); auto).
    assert (Hs : forall v', (po s = false -> v' = v1) -> sem (ENum w) s s2 v').
    { intros v' Hv' He. unfold sev, wf. cbn [well_formed eval]. destruct (read_num L D posix w) as [n|].
      - destruct Hv as [-> ->]. destruct (po s); cbn; [congruence|]. rewrite He2, Hen2, Hv'; auto.
      - destruct (po s); cbn; congruence. }
    destruct (po s); cbn; (split; [exact Hat2|apply Hs; congruence]).
  - assert (Ht := proj1 Hat). cbn in Ht. rewrite Ht.
    destruct (next_at s _ _ Hg Hat) as (s2 & -> & N2 & Hat2 & He2). cbn [rbind].
    assert (Hpo2 : po s2 = po s) by (apply N2). rewrite Hpo2.
    assert (Hen2 : en s2 = en s) by (apply N2).
    destruct (po s) eqn:Ep; cbn; (split; [exact Hat2|]); intros He; rewrite Ep; cbn; try congruence.
    split; [congruence|]. split; [congruence|reflexivity].
  - rewrite <- app_assoc in Hat. assert (Ht := proj1 Hat). cbn in Ht. rewrite Ht.
    destruct (next_at s _ _ Hg Hat) as (s1 & -> & N1 & Hat1 & He1). cbn [rbind].
    apply wp_bind. eapply wp_seq; [apply (PAsem s1 ts' x ([TRparen] ++ more)); auto; [apply N1|pose proof (n_need _ _ N1); lia|cbn; lia]|].
    intros [s2 v] (P & Hat2 & Hs2). cbn [fst snd] in *.
    assert (Ht2 := proj1 Hat2). rewrite Ht2.
    destruct (next_at s2 _ _ (f_good _ _ (p_frame _ _ _ _ P)) Hat2) as (s3 & -> & N3 & Hat3 & He3). cbn [rbind].
    assert (Hpo3 : po s3 = po s) by (rewrite (n_po _ _ N3), (p_po _ _ _ _ P); apply N1). unfold wp at 1. rewrite Hpo3.
    assert (Hs : forall v', (po s = false -> v' = v) -> sem x s s3 v').
    { intros v' Hv' He. specialize (Hs2 ltac:(congruence)). rewrite (n_po _ _ N1), (n_en _ _ N1) in Hs2.
      destruct (po s); [congruence|]. rewrite Hv' by auto. unfold result, agrees in *.
      destruct (sev x (en s)) as [[e' r]|]; [|congruence]. rewrite He3, (n_en _ _ N3). exact Hs2. }
    destruct (po s); cbn; (split; [exact Hat3|apply Hs; congruence]).
Qed.

Lemma need_pos : forall s t ts, at_ s (t :: ts) -> 0 < need s.
Proof. intros s t ts (H1 & H2 & _). unfold need. rewrite H1, H2. lia. Qed.

Lemma sev_incr : forall pre up a e, sev (EIncr pre up a) e =
  if posix then None else
  match sev a e with
  | Some (e, RVar _ x) =>
     match read_var L D posix unset_ok e x with
      | Some n => match step_num D up n with
        | Some m => match assign e x (num_text D m) with
          | Some e => Some (e, RNum D (if pre then m else n)) | None => None end
        | None => None end
      | None => None end
  | _ => None end.
Proof.
  intros. unfold sev, wf. cbn [well_formed eval]. destruct posix; auto. cbn [negb andb].
  destruct (well_formed L D false a); auto.
Qed.

(** The body shared by prefix and postfix ++ and --. *)
Definition incr_body (pre : bool) (tf : st -> tok) (s : st) (v : value) : res (st * value) :=
  if posix then Ok (fail s MUnsupported, VInvalid D)
  else match v with
  | VVar _ x => incr_block pre tf s x v
  | VInvalid _ => Ok (s, v)
  | _ => Ok (fail s MNeedVar, VInvalid D)
  end.

Lemma incr_body_sem : forall lv pre tf s0 s v x up, post lv s0 s v -> sem x s0 s v ->
  (forall s', here s s' -> incop (tf s') = Some up) ->
  wp (incr_body pre tf s v) (fun y =>
    local s (fst y) /\ sem (EIncr pre up x) s0 (fst y) (snd y)).
Proof.
  intros lv pre tf s0 s v x up P Hs Htf. unfold incr_body.
  assert (Hf : forall m, (posix = true \/ po s0 = false /\ (er s0 = false -> sev (EIncr pre up x) (en s0) = None)) ->
     wp (Ok (fail s m, VInvalid D)) (fun y => local s (fst y) /\ sem (EIncr pre up x) s0 (fst y) (snd y))).
  { intros m Hm. cbn. split; [apply fail_local, P|]. intros He. cbn.
    destruct Hm as [Hp|[Hp Hm]].
    - unfold result, sev, wf. cbn. rewrite Hp. cbn. destruct (po s0); reflexivity.
    - rewrite Hp, Hm by auto. reflexivity. }
  destruct posix eqn:Epx; [apply Hf; auto|].
  destruct v as [|z|d|y].
  - cbn. split; [apply local_refl, P|]. intros He. specialize (Hs He). destruct (po s0) eqn:Ep.
    + unfold wf in *. cbn [well_formed]. rewrite Epx in Hs |- *. exact Hs.
    + assert (Hb := p_bad _ _ _ _ P Ep eq_refl). rewrite sev_incr, Epx.
      destruct (sev x (en s0)) as [[e' r]|]; [cbn in Hs; destruct Hs; congruence|exact Hb].
  - apply Hf. right. split; [destruct (po s0) eqn:Ep; auto; discriminate (p_val _ _ _ _ P Ep)|].
    intros He. specialize (Hs He). rewrite sev_incr, Epx. destruct (po s0) eqn:Ep; [discriminate (p_val _ _ _ _ P Ep)|].
    destruct (sev x (en s0)) as [[e' [r|r]]|]; auto. destruct Hs as (_ & _ & Hs). discriminate.
  - apply Hf. right. split; [destruct (po s0) eqn:Ep; auto; discriminate (p_val _ _ _ _ P Ep)|].
    intros He. specialize (Hs He). rewrite sev_incr, Epx. destruct (po s0) eqn:Ep; [discriminate (p_val _ _ _ _ P Ep)|].
    destruct (sev x (en s0)) as [[e' [r|r]]|]; auto. destruct Hs as (_ & _ & Hs). discriminate.
  - destruct (po s0) eqn:Ep; [discriminate (p_val _ _ _ _ P Ep)|].
    assert (W : wp (incr_block pre tf s y (VVar D y)) (fun z => local s (fst z))).
    { eapply wp_mono; [apply incr_block_wp; apply P|]. intros z [Z1 Z2 Z3]. exact Z1. }
    destruct (er s0) eqn:Ee.
    { eapply wp_mono; [exact W|]. intros z Hz. split; auto. intro; congruence. }
    specialize (Hs Ee). rewrite Ep in Hs.
    destruct (er s) eqn:Ees.
    { eapply wp_mono; [exact W|]. intros z Hz. split; auto. intros _. rewrite Ep. rewrite sev_incr, Epx.
      destruct (sev x (en s0)) as [[e' r]|]; [cbn in Hs; destruct Hs; congruence|].
      apply (l_er _ _ Hz). auto. }
    destruct (sev x (en s0)) as [[e' r]|] eqn:Ev; [|cbn in Hs; congruence].
    destruct Hs as (_ & He' & Hr). destruct r as [[|]|y']; try discriminate. injection Hr as <-.
    eapply wp_mono; [apply wp_and; [exact W|apply (incr_block_sem pre tf s y up); auto; apply P]|].
    intros z [Hz1 Hz2]. split; auto. intros _. rewrite Ep, sev_incr, Ev. rewrite He' in Hz2. rewrite Epx in Hz2 |- *.
    destruct (read_var L D false unset_ok e' y) as [n|]; [|exact Hz2].
    destruct (step_num D up n) as [m|]; [|exact Hz2].
    destruct (assign e' y (num_text D m)) as [e2|]; exact Hz2.
Qed.

(** After the loop body and the operator token, the agreement carries over. *)
Lemma sem_next : forall x s0 s s' v, sem x s0 s v -> er s' = er s -> en s' = en s -> sem x s0 s' v.
Proof.
  intros x s0 s s' v H H1 H2 He. specialize (H He). destruct (po s0); [congruence|].
  unfold result, agrees in *. destruct (sev x (en s0)) as [[e r]|]; [|congruence]. rewrite H1, H2. exact H.
Qed.

Lemma postfix_sem : forall ts x, derives LPostfix ts x -> forall s more n Q,
  good s -> need s <= fuel -> need s <= n -> at_ s (ts ++ more) ->
  (forall s' v' n', Post LPostfix x more s s' v' -> need s' <= n' ->
     wp (postfix_loop L D posix unset_ok exp n' s' v') Q) ->
  wp (let! (s, v) := parse_primary L D posix exp PA s in postfix_loop L D posix unset_ok exp n s v)%res Q.
Proof.
  intros ts x Hd. remember LPostfix as lv eqn:El. revert El.
  induction Hd; intros El; try discriminate; intros s more n Q Hg Hn Hn' Hat HQ.
  - eapply wp_seq; [apply (primary_sem s ts e more); auto|]. intros [s1 v1] (P & A & S). cbn [fst snd] in *.
    apply HQ.
    + split; [|auto]. eapply post_up; [|exact P]. intros; apply d_postfix0; auto.
    + pose proof (f_need _ _ (p_frame _ _ _ _ P)). lia.
  - rewrite <- app_assoc in Hat. eapply (IHHd eq_refl s ([t] ++ more)); eauto.
    intros s1 v1 n1 (P & A & S) Hn1. cbn [app] in A. pose proof (need_pos _ _ _ A) as Hpos.
    destruct n1 as [|n1]; [lia|].
    assert (Ht := proj1 A). 
    assert (W : wp (let! (s2, v2) := incr_body false (fun s => tk s) s1 v1 in
                    let! s := next_token L exp s2 in postfix_loop L D posix unset_ok exp n1 s v2)%res Q).
    { eapply wp_seq; [apply wp_and; [eapply (incr_body_sem LPostfix false (fun s => tk s) s s1 v1 e up); eauto|]|].
      - intros s' [_ Hh]. rewrite Hh, Ht. auto.
      - instantiate (1 := fun x => vok (snd x) /\
          (po s1 = true -> en (fst x) = en s1 /\ snd x = VInvalid D) /\ (po s1 = false -> bad (fst x) (snd x))).
        assert (Hbad : forall m, wp (Ok (fail s1 m, VInvalid D)) (fun x => vok (snd x) /\
           (po s1 = true -> en (fst x) = en s1 /\ snd x = VInvalid D) /\ (po s1 = false -> bad (fst x) (snd x)))).
        { intros m. cbn. split; [exact I|]. split; [auto|intros _ _; reflexivity]. }
        unfold incr_body. destruct posix; [apply Hbad|].
        destruct v1 as [|z|d|y]; try apply Hbad.
        + cbn. split; [exact I|]. split; auto. intro K. apply P. rewrite <- (p_po _ _ _ _ P). auto.
        + eapply wp_mono; [apply incr_block_wp; apply P|]. intros [s2 v2] [S1 S2 S3]. cbn in *.
          split; auto. split; auto. intro K. rewrite (p_po _ _ _ _ P) in K.
          pose proof (p_val _ _ _ _ P K). discriminate.
      - intros [s2 v2] [[B1 B2] (B3 & B4 & B5)]. cbn [fst snd] in *.
        pose proof (at_here _ _ _ (l_here _ _ B1) A) as A2.
        destruct (next_at s2 _ _ (l_good _ _ B1) A2) as (s3 & -> & N3 & A3 & E3). cbn [rbind].
        assert (Ht2 : tk s1 = t) by auto.
        apply HQ.
        + split; [|split; [exact A3|eapply sem_next; eauto; apply N3]].
          eapply postfix_step_post; eauto. rewrite Ht2. eauto.
        + pose proof (n_need _ _ N3) as K. rewrite (need_here _ _ (l_here _ _ B1)) in K. lia. }
    cbn [postfix_loop]. destruct (tk s1); subst t; try discriminate; exact W.
Qed.

Lemma postfix_comp : comp LPostfix 0 (parse_postfix L D posix unset_ok exp PA fuel).
Proof.
  intros s ts x more Hg Hn Hd Hat Hr. unfold parse_postfix.
  apply (postfix_sem ts x Hd s more); auto. intros s' v' n' P Hn'.
  assert (Ht := at_tk _ _ (proj1 (proj2 P))).
  assert (E : postfix_loop L D posix unset_ok exp n' s' v' = Ok (s', v')).
  { destruct n'; cbn [postfix_loop]; destruct (tk s'); try reflexivity; cbn in Ht; lia. }
  rewrite E. exact P.
Qed.

Lemma postfix_first : forall ts x, derives LPostfix ts x -> exists t ts', ts = t :: ts' /\
  match t with TNumber _ | TIdent _ | TLparen => True | _ => False end.
Proof.
  intros ts x Hd. remember LPostfix as lv eqn:El. revert El.
  induction Hd; intros El; try discriminate.
  - inversion Hd; subst; do 2 eexists; (split; [reflexivity|exact I]).
  - destruct (IHHd El) as (t0 & ts' & -> & Ht). do 2 eexists; split; [reflexivity|exact Ht].
Qed.

Lemma sev_un : forall o a e, sev (EUn o a) e =
  match sev a e with
  | Some (e1, r) => match to_num L D posix unset_ok e1 r with
     | Some n => match apply_uop D o n with Some m => Some (e1, RNum D m) | None => None end
     | None => None end
  | None => None end.
Proof.
  intros. unfold sev, wf. cbn [well_formed eval].
  destruct (well_formed L D posix a); auto.
Qed.

(** The bodies of the unary operators. *)
Definition un_body (o : uop) (s : st) (v : value) : res (st * value) :=
  (match o with
  | UPlus => let '(s, v) := coerce_number L D posix unset_ok s v in Ok (s, v)
  | UMinus =>
      let '(s, v) := coerce_number L D posix unset_ok s v in
      match v with
      | VLong _ z =>
          if (z =? LONG_MIN)%Z then Ok (fail s MOverflow, VInvalid D)
          else let! r := cl (- z) in Ok (s, VLong D r)
      | VDouble _ d => Ok (s, VDouble D (d_neg D d))
      | VInvalid _ => Ok (s, v)
      | VVar _ _ => UB
      end
  | UCompl =>
      let! (s, v) := coerce_integer L D posix unset_ok s v in
      match v with VLong _ z => Ok (s, VLong D (Z.lnot z)) | _ => Ok (s, v) end
  | UNot =>
      let '(s, v) := coerce_number L D posix unset_ok s v in
      match v with
      | VLong _ z => Ok (s, VLong D (b2z (z =? 0)%Z))
      | VDouble _ d => Ok (s, VLong D (b2z (negb (d_true D d))))
      | VInvalid _ => Ok (s, v)
      | VVar _ _ => UB
      end
  end)%res.

Lemma un_body_local : forall o s v, good s -> vok v ->
  wp (un_body o s v) (fun y => local s (fst y)).
Proof.
  intros o s v Hg Hv. destruct (coerce_number L D posix unset_ok s v) as [s3 v3] eqn:E.
  destruct (coerce_number_spec _ _ _ _ Hg Hv E) as (A1 & A2 & A3 & A4 & A5 & A6).
  destruct o; unfold un_body; try rewrite E; try (cbn; exact A1).
  - destruct v3 as [|z|d|x]; try discriminate; try exact A1.
    cbn in A3. destruct (Z.eqb_spec z LONG_MIN).
    + cbn. eapply local_trans; eauto. apply fail_local, A1.
    + rewrite cl_Ok by (unfold is_long, LONG_MIN, LONG_MAX in *; lia). exact A1.
  - eapply wp_seq; [apply coerce_integer_wp; auto|]. intros [s4 v4] (B1 & _). cbn [fst snd] in *.
    destruct v4; exact B1.
  - destruct v3; try discriminate; exact A1.
Qed.

Lemma un_body_ok : forall o s0 s v x, post LPrefix s0 s v -> sem x s0 s v ->
  wp (un_body o s v) (fun y => local s (fst y) /\ sem (EUn o x) s0 (fst y) (snd y)).
Proof.
  intros o s0 s v x P Hs.
  assert (W : wp (un_body o s v) (fun y => local s (fst y))) by (apply un_body_local; apply P).
  destruct (er s0) eqn:Ee0.
  { eapply wp_mono; [exact W|]. intros y Hy. split; auto. intro; congruence. }
  specialize (Hs Ee0). destruct (po s0) eqn:Ep.
  { rewrite (p_val _ _ _ _ P Ep).
    assert (E : un_body o s (VInvalid D) = Ok (s, VInvalid D)) by (destruct o; reflexivity).
    rewrite E. cbn. split; [apply local_refl, P|]. intros _. rewrite Ep. exact Hs. }
  assert (Hgoal : wp (un_body o s v) (fun y => result (sev (EUn o x) (en s0)) (fst y) (snd y)) ->
    wp (un_body o s v) (fun y => local s (fst y) /\ sem (EUn o x) s0 (fst y) (snd y))).
  { intros H. eapply wp_mono; [apply wp_and; [exact W|exact H]|]. intros y [H1 H2]. split; auto.
    intros _. rewrite Ep. exact H2. }
  apply Hgoal. clear Hgoal. rewrite sev_un.
  destruct (sev x (en s0)) as [[e r]|].
  2:{ eapply wp_mono; [exact W|]. intros y Hy. cbn. apply (l_er _ _ Hy). exact Hs. }
  destruct Hs as (He & Hen & ->). assert (Hv : vok (val r)) by apply P. assert (Hg : good s) by apply P.
  rewrite <- Hen. pose proof (coerce_number_sem s r He) as Sn.
  pose proof (coerce_integer_sem s r Hg He Hv) as Si.
  pose proof (vok_num s r) as Vn.
  destruct o; cbn [un_body apply_uop].
  - destruct (to_num L D posix unset_ok (en s) r) as [n|]; [rewrite Sn|destruct Sn as (m & ->)]; cbn; auto.
  - destruct (to_num L D posix unset_ok (en s) r) as [n|]; [rewrite Sn|destruct Sn as (m & ->); cbn; auto].
    specialize (Vn n Hg He Hv eq_refl). destruct n as [z|d]; cbn [nval val].
    + cbn in Vn. destruct (Z.eqb_spec z LONG_MIN).
      * subst z. cbn. reflexivity.
      * assert (Hl : is_long (- z)) by (unfold is_long, LONG_MIN, LONG_MAX in *; lia).
        rewrite cl_Ok by auto. rewrite (proj2 (in_long_iff _) Hl). cbn. auto.
    + cbn. auto.
  - eapply wp_seq; [exact Si|]. intros [s2 v2] H. destruct (to_num L D posix unset_ok (en s) r) as [n|].
    + destruct (to_int D n) as [z|].
      * destruct H as [H Hz]. injection H as -> ->. cbn. unfold Z.lnot. rewrite Z.sub_1_r. auto.
      * cbn in H. destruct H as [H ->]. exact H.
    + cbn in H. destruct H as [H ->]. exact H.
  - destruct (to_num L D posix unset_ok (en s) r) as [n|]; [rewrite Sn|destruct Sn as (m & ->); cbn; auto].
    destruct n as [z|d]; cbn; rewrite ?negb_involutive; auto.
Qed.

Lemma prefix_sem : forall n s ts x more, good s -> need s <= fuel -> need s <= n -> derives LPrefix ts x ->
  at_ s (ts ++ more) -> 0 < hdrank more ->
  wp (parse_prefix L D posix unset_ok exp PA fuel n s) (fun r => Post LPrefix x more s (fst r) (snd r)).
Proof.
  induction n as [|n IH]; intros s ts x more Hg Hf Hn Hd Hat Hr.
  { assert (tok_end (tk s) = true).
    { unfold need in Hn. destruct (tok_end (tk s)); auto; lia. }
    assert (Hne : exists t ts', ts = t :: ts').
    { inversion Hd; subst; eauto. destruct (postfix_first _ _ H0) as (t & ts' & -> & _). eauto. }
    destruct Hne as (t & ts' & ->). cbn [app] in Hat. apply need_pos in Hat. lia. }
  pose proof (parse_prefix_ok (S n) s Hg Hn Hf) as Hok.
  assert (Hgoal : wp (parse_prefix L D posix unset_ok exp PA fuel (S n) s)
      (fun r => at_ (fst r) more /\ sem x s (fst r) (snd r)) ->
    wp (parse_prefix L D posix unset_ok exp PA fuel (S n) s) (fun r => Post LPrefix x more s (fst r) (snd r))).
  { intros H. eapply wp_mono; [apply wp_and; [exact Hok|exact H]|]. intros r [K1 K2]. split; auto. }
  apply Hgoal. clear Hgoal Hok.
  assert (Hstep : forall t ts' y (k : st -> value -> res (st * value)) z, derives LPrefix ts' y -> at_ s (t :: ts' ++ more) ->
     (forall s1 s2 v, sem y s1 s2 v -> po s1 = po s -> er s1 = er s -> en s1 = en s -> post LPrefix s1 s2 v ->
        wp (k s2 v) (fun r => local s2 (fst r) /\ sem z s1 (fst r) (snd r))) ->
     wp (let! s1 := next_token L exp s in
         let! (s2, v) := parse_prefix L D posix unset_ok exp PA fuel n s1 in k s2 v)%res
       (fun r => at_ (fst r) more /\ sem z s (fst r) (snd r))).
  { intros t ts' y k z Hd' Hat' Hk.
    destruct (next_at s t (ts' ++ more) Hg Hat') as (s1 & -> & N1 & A1 & E1). cbn [rbind].
    pose proof (n_need _ _ N1). eapply wp_seq; [apply (IH s1 ts' y more); auto; [apply N1|lia|lia]|].
    intros [s2 v2] (P & A & S). cbn [fst snd] in *.
    eapply wp_mono; [apply (Hk s1 s2 v2); auto; apply N1|]. intros [s3 v3] [K1 K2]. cbn [fst snd] in *.
    split; [eapply at_here; [apply K1|auto]|].
    intros He. rewrite <- (n_po _ _ N1), <- (n_en _ _ N1). apply K2. congruence. }
  inversion Hd; subst.
  - destruct (postfix_first _ _ H) as (t & ts' & -> & Ht). assert (Ht' := proj1 Hat). cbn [app] in Ht'.
    assert (E : parse_prefix L D posix unset_ok exp PA fuel (S n) s = parse_postfix L D posix unset_ok exp PA fuel s).
    { cbn [parse_prefix]. rewrite Ht'. destruct t; try contradiction; reflexivity. }
    rewrite E. eapply wp_mono; [apply (postfix_comp s (t :: ts') x more); auto|]. intros r (K1 & K2). exact K2.
  - cbn [app] in Hat. assert (Ht := proj1 Hat).
    pose proof (Hstep t ts0 e (incr_body true (fun _ => t)) (EIncr true up e) H0 Hat) as W.
    cbn [parse_prefix]. rewrite Ht.
    destruct t; try discriminate; (apply W; intros s1 s2 v Hs _ _ _ P; eapply incr_body_sem; eauto).
  - cbn [app] in Hat. assert (Ht := proj1 Hat).
    pose proof (Hstep t ts0 e (un_body o) (EUn o e) H0 Hat) as W.
    cbn [parse_prefix]. rewrite Ht.
    destruct t; try discriminate; injection H as <-; (apply W; intros s1 s2 v Hs _ _ _ P; apply un_body_ok; auto).
Qed.

(** ** Binary levels *)
Lemma sev_bin : forall o a b e, sev (EBin o a b) e =
  match sev a e with
  | Some (e1, r1) => match sev b e1 with
     | Some (e2, r2) => match both e2 r1 r2 (apply_bop D o) with Some r => Some (e2, r) | None => None end
     | None => None end
  | None => None end.
Proof.
  intros. unfold sev, wf, both. cbn [well_formed eval].
  destruct (well_formed L D posix a); auto. cbn [andb].
  destruct (well_formed L D posix b).
  - destruct (eval L D posix unset_ok a e) as [[e1 r1]|]; auto.
    destruct (eval L D posix unset_ok b e1) as [[e2 r2]|]; auto.
    destruct (to_num L D posix unset_ok e2 r1) as [n1|]; auto.
    destruct (to_num L D posix unset_ok e2 r2) as [n2|]; auto.
    destruct (apply_bop D o n1 n2); auto.
  - destruct (eval L D posix unset_ok a e) as [[e1 r1]|]; auto.
Qed.

Section BinSem.
Variable k : nat.
Variable sub : st -> res (st * value).
Variable isop : tok -> bool.
Variable act : st -> tok -> value -> value -> res (st * value).
Hypothesis Hsubc : comp (LBin k) k sub.
Hypothesis Hisop : forall t, isop t = true -> exists o, binop t = Some (S k, o).
Hypothesis Hisop' : forall t o, binop t = Some (S k, o) -> isop t = true.
Hypothesis Hact : act_ok isop act.
Hypothesis Hacts : forall t o, binop t = Some (S k, o) -> forall s l r,
  act s t l r = (if bop_cmp o then act_cmp L D posix unset_ok else act_calc L D posix unset_ok) s t l r.

Lemma bin_act_sem : forall s0 s v s1 s2 rhs o a b,
  post (LBin (S k)) s0 s v -> sem a s0 s v -> nextp s s1 -> er s1 = er s ->
  post (LBin k) s1 s2 rhs -> sem b s1 s2 rhs -> binop (tk s) = Some (S k, o) ->
  wp (act s2 (tk s) v rhs) (fun y => calcp s2 v rhs (fst y) (snd y) /\ sem (EBin o a b) s0 (fst y) (snd y)).
Proof.
  intros s0 s v s1 s2 rhs o a b P Sa N1 E1 P2 Sb Ho.
  assert (W : wp (act s2 (tk s) v rhs) (fun y => calcp s2 v rhs (fst y) (snd y))).
  { apply Hact; [apply P2|eauto|apply P|apply P2]. }
  destruct (er s0) eqn:Ee0.
  { eapply wp_mono; [exact W|]. intros y Hy. split; auto. intro; congruence. }
  specialize (Sa Ee0).
  assert (Hpo1 : po s1 = po s0) by (rewrite (n_po _ _ N1); apply P).
  assert (Herr : er s2 = true -> wp (act s2 (tk s) v rhs) (fun y => er (fst y) = true)).
  { intros He. eapply wp_mono; [exact W|]. intros y Hy. apply (l_er _ _ (c_local _ _ _ _ _ Hy)). auto. }
  destruct (po s0) eqn:Ep.
  - rewrite (p_val _ _ _ _ P Ep). rewrite (p_val _ _ _ _ P2 Hpo1).
    rewrite (Hacts _ _ Ho), (act_invalid _ _ _ _ Ho). cbn. split.
    + constructor; cbn; auto. apply local_refl, P2.
    + intros _. rewrite Ep. unfold wf in *. cbn [well_formed]. rewrite negb_andb.
      destruct (well_formed L D posix a); cbn in *.
      * rewrite <- E1 in Sa. specialize (Sb Sa). rewrite Hpo1 in Sb. exact Sb.
      * apply (f_er _ _ (p_frame _ _ _ _ P2)). congruence.
  - assert (Hgoal : wp (act s2 (tk s) v rhs) (fun y => result (sev (EBin o a b) (en s0)) (fst y) (snd y)) ->
      wp (act s2 (tk s) v rhs) (fun y => calcp s2 v rhs (fst y) (snd y) /\ sem (EBin o a b) s0 (fst y) (snd y))).
    { intros H. eapply wp_mono; [apply wp_and; [exact W|exact H]|]. intros y [H1 H2]. split; auto.
      intros _. rewrite Ep. exact H2. }
    apply Hgoal. clear Hgoal. rewrite sev_bin.
    destruct (sev a (en s0)) as [[e1 r1]|].
    2:{ apply Herr. apply (f_er _ _ (p_frame _ _ _ _ P2)). cbn in Sa. congruence. }
    destruct Sa as (He & Hen & Hv). rewrite <- E1 in He. specialize (Sb He). rewrite Hpo1, (n_en _ _ N1), Hen in Sb.
    destruct (sev b e1) as [[e2 r2]|].
    2:{ apply Herr. exact Sb. }
    destruct Sb as (He2 & Hen2 & Hv2). rewrite (Hacts _ _ Ho). subst v rhs.
    pose proof (act_sem s2 (tk s) (S k) o r1 r2) as H. rewrite Hen2 in H.
    eapply wp_mono; [apply H; auto; [apply P2|apply P|apply P2]|].
    intros y Hy. destruct (both e2 r1 r2 (apply_bop D o)); exact Hy.
Qed.

Lemma bin_sem : forall ts x, derives (LBin (S k)) ts x -> forall s more n Q,
  good s -> need s <= fuel -> need s <= n -> at_ s (ts ++ more) -> k < hdrank more ->
  (forall s' v' n', Post (LBin (S k)) x more s s' v' -> need s' <= n' ->
     wp (bin_loop L D exp sub isop act n' s' v') Q) ->
  wp (let! (s, v) := sub s in bin_loop L D exp sub isop act n s v)%res Q.
Proof.
  intros ts x Hd. remember (LBin (S k)) as lv eqn:El. revert El.
  induction Hd; intros El; try discriminate; intros s more n Q Hg Hn Hn' Hat Hr HQ.
  - injection El as ->. eapply wp_seq; [apply (Hsubc s ts e more); auto|].
    intros [s1 v1] (P & A & S). cbn [fst snd] in *. apply HQ.
    + split; [|auto]. eapply post_up; [|exact P]. intros; apply d_bin0; auto.
    + pose proof (f_need _ _ (p_frame _ _ _ _ P)). lia.
  - injection El as ->. rewrite <- app_assoc in Hat. cbn [app] in Hat.
    eapply (IHHd1 eq_refl s (t :: ts2 ++ more)); eauto.
    { cbn. unfold frank. replace (incop t) with (@None bool) by (destruct t; try discriminate; reflexivity).
      rewrite H. lia. }
    intros s1 v1 n1 (P & A & S) Hn1. pose proof (need_pos _ _ _ A) as Hpos.
    destruct n1 as [|n1]; [lia|]. assert (Ht := proj1 A). cbn [bin_loop].
    rewrite Ht at 1. rewrite (Hisop' _ _ H).
    destruct (next_at s1 _ _ (f_good _ _ (p_frame _ _ _ _ P)) A) as (s2 & -> & N2 & A2 & E2). cbn [rbind].
    pose proof (n_need _ _ N2). pose proof (f_need _ _ (p_frame _ _ _ _ P)).
    eapply wp_seq; [apply (Hsubc s2 ts2 b more); auto; [apply N2|lia]|].
    intros [s3 rhs] (P3 & A3 & S3). cbn [fst snd] in *.
    eapply wp_seq; [apply (bin_act_sem s s1 v1 s2 s3 rhs o a b); auto; rewrite Ht; auto|].
    intros [s4 v4] [C S4]. cbn [fst snd] in *. apply HQ.
    + split; [|split; [eapply at_here; [apply C|auto]|auto]].
      eapply bin_step_post; eauto. rewrite Ht. eauto.
    + pose proof (f_need _ _ (p_frame _ _ _ _ P3)).
      pose proof (need_here _ _ (l_here _ _ (c_local _ _ _ _ _ C))). lia.
Qed.

Lemma bin_comp : comp (LBin (S k)) (S k) (bin_level L D exp fuel sub isop act).
Proof.
  intros s ts x more Hg Hn Hd Hat Hr. unfold bin_level.
  apply (bin_sem ts x Hd s more); auto; [lia|]. intros s' v' n' P Hn'.
  assert (Ht := at_tk _ _ (proj1 (proj2 P))).
  assert (E : isop (tk s') = false).
  { destruct (isop (tk s')) eqn:E; auto. destruct (Hisop _ E) as (o & Ho).
    unfold frank in Ht. replace (incop (tk s')) with (@None bool) in Ht by (destruct (tk s'); try discriminate; reflexivity).
    rewrite Ho in Ht. lia. }
  assert (E' : bin_loop L D exp sub isop act n' s' v' = Ok (s', v')).
  { destruct n'; cbn [bin_loop]; rewrite E; reflexivity. }
  rewrite E'. exact P.
Qed.
End BinSem.

Ltac clvl H' := eapply bin_comp; [exact H'|intros []; try discriminate; eexists; reflexivity
  |intros [] o Ho; try discriminate; reflexivity| |intros [] o Ho; try discriminate; injection Ho as <-; reflexivity].
Lemma inclusive_or_comp : comp (LBin 8) 8 (parse_inclusive_or L D posix unset_ok exp PA fuel).
Proof.
  assert (C0 : comp (LBin 0) 0 (parse_prefix L D posix unset_ok exp PA fuel fuel)).
  { intros s ts x more Hg Hn Hd Hat Hr. inversion Hd; subst.
    eapply wp_mono; [apply (prefix_sem fuel s ts x more); auto|]. intros r (P & K). split; auto.
    eapply post_up; [|exact P]. intros; apply d_bin_base; auto. }
  assert (C1 : comp (LBin 1) 1 (parse_multiplicative L D posix unset_ok exp PA fuel)).
  { clvl C0. apply act_calc_ok. intros []; try discriminate; reflexivity. }
  assert (C2 : comp (LBin 2) 2 (parse_additive L D posix unset_ok exp PA fuel)).
  { clvl C1. apply act_calc_ok. intros []; try discriminate; reflexivity. }
  assert (C3 : comp (LBin 3) 3 (parse_shift L D posix unset_ok exp PA fuel)).
  { clvl C2. apply act_calc_ok. intros []; try discriminate; reflexivity. }
  assert (C4 : comp (LBin 4) 4 (parse_relational L D posix unset_ok exp PA fuel)).
  { clvl C3. apply act_cmp_ok. intros []; try discriminate; reflexivity. }
  assert (C5 : comp (LBin 5) 5 (parse_equality L D posix unset_ok exp PA fuel)).
  { clvl C4. apply act_cmp_ok. intros []; try discriminate; reflexivity. }
  assert (C6 : comp (LBin 6) 6 (parse_and L D posix unset_ok exp PA fuel)).
  { clvl C5. apply act_calc_ok. intros []; try discriminate; reflexivity. }
  assert (C7 : comp (LBin 7) 7 (parse_exclusive_or L D posix unset_ok exp PA fuel)).
  { clvl C6. apply act_calc_ok. intros []; try discriminate; reflexivity. }
  clvl C7. apply act_calc_ok. intros []; try discriminate; reflexivity.
Qed.

(** ** && and || *)
Definition logev (stop : bool) (a b : expr) (e : env) : option (env * rv) :=
  if wf b then
    match sev a e with
    | Some (e1, r1) => match to_num L D posix unset_ok e1 r1 with
      | Some n1 => if Bool.eqb (truthy D n1) stop then Some (e1, RNum D (bool_num D stop))
        else match sev b e1 with
          | Some (e2, r2) => match to_num L D posix unset_ok e2 r2 with
            | Some n2 => Some (e2, RNum D (bool_num D (truthy D n2)))
            | None => None end
          | None => None end
      | None => None end
    | None => None end
  else None.

Lemma sev_and : forall a b e, sev (EAnd a b) e = logev false a b e.
Proof.
  intros. unfold logev, sev, wf. cbn [well_formed eval].
  destruct (well_formed L D posix a); cbn [andb]; destruct (well_formed L D posix b); auto.
  destruct (eval L D posix unset_ok a e) as [[e1 r1]|]; auto.
  destruct (to_num L D posix unset_ok e1 r1) as [n1|]; auto.
  rewrite eqb_false_r. destruct (truthy D n1); auto.
Qed.
Lemma sev_or : forall a b e, sev (EOr a b) e = logev true a b e.
Proof.
  intros. unfold logev, sev, wf. cbn [well_formed eval].
  destruct (well_formed L D posix a); cbn [andb]; destruct (well_formed L D posix b); auto.
  destruct (eval L D posix unset_ok a e) as [[e1 r1]|]; auto.
  destruct (to_num L D posix unset_ok e1 r1) as [n1|]; auto.
  rewrite eqb_true_r. destruct (truthy D n1); auto.
Qed.

Lemma truth_nval : forall n, truth D (nval n) = Ok (Some (truthy D n)).
Proof. intros [z|d]; reflexivity. Qed.

Lemma bool_nval : forall b, VLong D (b2z b) = val (RNum D (bool_num D b)).
Proof. intros []; reflexivity. Qed.

Lemma log_sem_step : forall lv sublv rk stop sub s0 s v a b ab ts2 more t
  s1 v1 s2 tr valid value s4 v4 s' v5 v',
  comp sublv rk sub -> logp lv stop s0 s v -> sem a s0 s v -> need s <= fuel -> 
  derives sublv ts2 b -> at_ s (t :: ts2 ++ more) -> rk < hdrank more ->
  wf ab = wf a && wf b -> (forall e, sev ab e = logev stop a b e) ->
  coerce_number L D posix unset_ok s v = (s1, v1) -> next_token L exp s1 = Ok s2 -> truth D v1 = Ok tr ->
  match tr with None => (false, stop) | Some b => (true, b) end = (valid, value) ->
  sub (set_po s2 (po s2 || Bool.eqb value stop)) = Ok (s4, v4) ->
  coerce_number L D posix unset_ok s4 v4 = (s', v5) ->
  (value = stop /\ v' = (if valid : bool then VLong D (b2z value) else VInvalid D) \/
   value <> stop /\ po s = false /\ exists tr5, truth D v5 = Ok tr5 /\
     v' = match tr5 with Some b => VLong D (b2z b) | None => VInvalid D end) ->
  at_ s' more /\ sem ab s0 s' v'.
Proof.
  intros lv sublv rk stop sub s0 s v a b ab ts2 more t s1 v1 s2 tr valid value s4 v4 s' v5 v'
    Hsub G Sa Hf Hd Hat Hrk Hwf Hsev E1 E2 Etr Evv E4 E5 Hv'.
  assert (Hg : good s) by apply G.
  destruct (coerce_number_spec _ _ _ _ Hg (g_vok _ _ _ _ _ G) E1) as (A1 & A2 & A3 & A4 & A5 & A6).
  pose proof (at_here _ _ _ (l_here _ _ A1) Hat) as Hat1.
  destruct (next_at s1 _ _ (l_good _ _ A1) Hat1) as (s2' & E2' & N2 & Hat2 & Ee2).
  rewrite E2 in E2'. injection E2' as <-.
  set (s3 := set_po s2 (po s2 || Bool.eqb value stop)) in *.
  assert (Hg3 : good s3) by (destruct (n_good _ _ N2); split; auto).
  assert (Hn3 : need s3 <= fuel).
  { pose proof (n_need _ _ N2) as K. rewrite (need_here _ _ (l_here _ _ A1)) in K. change (need s2 <= fuel). lia. }
  assert (Hat3 : at_ s3 (ts2 ++ more)) by (eapply at_here; [|exact Hat2]; split; reflexivity).
  pose proof (Hsub s3 ts2 b more Hg3 Hn3 Hd Hat3 Hrk) as W. rewrite E4 in W. cbn in W.
  destruct W as (P4 & Hat4 & S4).
  destruct (coerce_number_spec _ _ _ _ (f_good _ _ (p_frame _ _ _ _ P4)) (p_vok _ _ _ _ P4) E5)
    as (B1 & B2 & B3 & B4 & B5 & B6).
  split; [eapply at_here; [apply B1|exact Hat4]|].
  intros He0. specialize (Sa He0).
  assert (Hpo2 : po s2 = po s) by (rewrite (n_po _ _ N2); apply A1).
  assert (Hpo3 : po s3 = po s || Bool.eqb value stop) by (unfold s3; cbn; rewrite Hpo2; reflexivity).
  assert (Herr4 : er s4 = true -> er s' = true) by apply (l_er _ _ B1).
  assert (Herr1 : er s1 = true -> er s' = true).
  { intro K. apply Herr4. apply (f_er _ _ (p_frame _ _ _ _ P4)). change (er s2 = true). congruence. }
  assert (Herr : er s = true -> er s' = true) by (intro K; apply Herr1; apply (l_er _ _ A1); auto).
  destruct (po s0) eqn:Ep.
  - (* skipped *)
    destruct (g_po _ _ _ _ _ G Ep) as [Hps Hvi]. rewrite Hwf, negb_andb. rewrite Hps in Hpo3. cbn [orb] in Hpo3.
    subst v. cbn in E1. injection E1 as <- <-.
    rewrite (p_val _ _ _ _ P4 Hpo3) in E5. cbn in E5. injection E5 as <- <-.
    destruct (wf a); cbn [negb orb andb] in *.
    + assert (He3 : er s3 = false) by (change (er s2 = false); congruence).
      specialize (S4 He3). rewrite Hpo3 in S4. exact S4.
    + auto.
  - rewrite Hsev. unfold logev.
    assert (Hwfb : wf b = false -> er s' = true).
    { intros K. destruct (er s3) eqn:Ee3; [apply Herr4; apply (f_er _ _ (p_frame _ _ _ _ P4)); auto|].
      specialize (S4 Ee3). destruct (po s3); [rewrite K in S4; cbn in S4; auto|].
      unfold sev in S4. rewrite K in S4. cbn in S4. auto. }
    destruct (wf b) eqn:Ewb; [|cbn; auto].
    destruct (sev a (en s0)) as [[e1 r1]|]; [|cbn in *; auto].
    destruct Sa as (He & Hen & ->).
    pose proof (coerce_number_sem s r1 He) as Sn. rewrite Hen in Sn. rewrite E1 in Sn.
    destruct (to_num L D posix unset_ok e1 r1) as [n1|].
    2:{ destruct Sn as (m & Sn). injection Sn as -> ->. cbn. apply Herr1. reflexivity. }
    injection Sn as -> ->. rewrite truth_nval in Etr. injection Etr as <-. injection Evv as <- <-.
    assert (He3 : er s3 = false) by (change (er s2 = false); congruence). specialize (S4 He3).
    assert (Hen3 : en s3 = e1) by (change (en s2 = e1); rewrite (n_en _ _ N2); auto).
    destruct (Bool.eqb (truthy D n1) stop) eqn:Eq.
    + apply eqb_prop in Eq. rewrite orb_true_r in Hpo3. rewrite Hpo3 in S4. rewrite Ewb in S4.
      destruct Hv' as [[_ ->]|[K _]]; [|contradiction]. rewrite Eq.
      rewrite (p_val _ _ _ _ P4 Hpo3) in E5. cbn in E5. injection E5 as <- <-. cbn.
      split; [exact S4|]. split; [|apply bool_nval]. rewrite (f_skip _ _ (p_frame _ _ _ _ P4) Hpo3). auto.
    + destruct Hv' as [[K _]|[_ [Hps (tr5 & Etr5 & ->)]]]; [rewrite K, eqb_reflx in Eq; discriminate|].
      rewrite Hps in Hpo3. cbn [orb] in Hpo3. rewrite Hpo3, Hen3 in S4.
      destruct (sev b e1) as [[e2 r2]|]; [|cbn in *; auto].
      destruct S4 as (He4 & Hen4 & ->).
      pose proof (coerce_number_sem s4 r2 He4) as Sn. rewrite Hen4 in Sn. rewrite E5 in Sn.
      destruct (to_num L D posix unset_ok e2 r2) as [n2|].
      2:{ destruct Sn as (m & Sn). injection Sn as -> ->. cbn. reflexivity. }
      injection Sn as -> ->. rewrite truth_nval in Etr5. injection Etr5 as <-. cbn.
      auto.
Qed.

Lemma post_logp : forall lv lv' stop s s' v, (forall ts e, derives lv ts e -> derives lv' ts e) ->
  post lv s s' v -> logp lv' stop s s' v.
Proof.
  intros lv lv' stop s s' v Hlv [A1 A2 A3 A4 A5 A6]. constructor; auto.
  - intro K. rewrite A2. auto.
  - intros K1 K2. congruence.
  - intros He. destruct (A6 He) as (ts & e & Hp & Hd). eauto.
Qed.

Definition LogPost (lv : level) (stop : bool) (x : expr) (ts : list tok) (s s' : st) (v : value) : Prop :=
  logp lv stop s s' v /\ at_ s' ts /\ sem x s s' v.

Lemma and_sem : forall ts x, derives LAnd ts x -> forall s more n Q,
  good s -> need s <= fuel -> need s <= n -> at_ s (ts ++ more) -> 8 < hdrank more ->
  (forall s' v' n', LogPost LAnd false x more s s' v' -> need s' <= n' ->
     wp (land_loop L D posix unset_ok exp PA fuel n' s' v') Q) ->
  wp (let! (s, v) := parse_inclusive_or L D posix unset_ok exp PA fuel s in
      land_loop L D posix unset_ok exp PA fuel n s v)%res Q.
Proof.
  intros ts x Hd. remember LAnd as lv eqn:El. revert El.
  induction Hd; intros El; try discriminate; intros s more n Q Hg Hn Hn' Hat Hr HQ.
  - eapply wp_seq; [apply (inclusive_or_comp s ts e more); auto|].
    intros [s1 v1] (P & A & S). cbn [fst snd] in *. apply HQ.
    + split; [|auto]. eapply post_logp; [|exact P]. intros; apply d_and0; auto.
    + pose proof (f_need _ _ (p_frame _ _ _ _ P)). lia.
  - rewrite <- app_assoc in Hat. cbn [app] in Hat.
    eapply (IHHd1 eq_refl s (TAmpamp :: ts2 ++ more)); eauto.
    intros s1 v1 n1 (G & A & S) Hn1. pose proof (need_pos _ _ _ A) as Hpos.
    destruct n1 as [|n1]; [lia|]. assert (Ht := proj1 A). cbn [land_loop]. rewrite Ht.
    pose proof (f_need _ _ (g_frame _ _ _ _ _ G)) as Hns.
    pose proof (log_step LAnd (LBin 8) false (parse_inclusive_or L D posix unset_ok exp PA fuel) s s1 v1 EAnd
      (land_loop L D posix unset_ok exp PA fuel n1) Q inclusive_or_ok G) as H.
    rewrite Ht in H. specialize (H eq_refl ltac:(lia) d_and).
    assert (H' := H). clear H. match type of H' with ?X -> _ => assert (HX : X) end.
    { intros s2 w2 s3 tr valid value s5 w5 s' w6 v' K1 K2 K3 K4 K5 K6 K7 G' Hn'2.
      apply HQ; [|lia]. split; auto.
      apply (log_sem_step LAnd (LBin 8) 8 false (parse_inclusive_or L D posix unset_ok exp PA fuel)
        s s1 v1 a b (EAnd a b) ts2 more TAmpamp s2 w2 s3 tr valid value s5 w5 s' w6 v'); auto.
      + apply inclusive_or_comp.
      + lia.
      + apply sev_and. }
    specialize (H' HX). clear HX.
    destruct (coerce_number L D posix unset_ok s1 v1) as [s2 w2]. 
    destruct (next_token L exp s2) as [s3| |]; cbn [rbind] in *; auto.
    destruct (truth D w2) as [tr| |]; cbn [rbind] in *; auto.
    destruct (match tr with Some b => (true, b) | None => (false, false) end) as [valid value].
    rewrite eqb_false_r in H'.
    destruct (parse_inclusive_or L D posix unset_ok exp PA fuel (set_po s3 (po s3 || negb value))) as [[s5 w5]| |]; cbn [rbind] in *; auto.
    destruct (coerce_number L D posix unset_ok s5 w5) as [s6 w6].
    rewrite negb_involutive in H'. exact H'.
Qed.

Lemma bind_assoc : forall A B C (a : res A) (f : A -> res B) (g : B -> res C),
  rbind (rbind a f) g = rbind a (fun x => rbind (f x) g).
Proof. intros A B C [a| |] f g; reflexivity. Qed.

Lemma sem_po : forall x s s' v b, sem x s s' v -> sem x s (set_po s' b) v.
Proof. intros. eapply sem_next; eauto. Qed.

Lemma logical_and_comp : comp LAnd 9 (parse_logical_and L D posix unset_ok exp PA fuel).
Proof.
  intros s ts x more Hg Hn Hd Hat Hr. unfold parse_logical_and.
  assert (W : wp (let! (s, v) := parse_inclusive_or L D posix unset_ok exp PA fuel s in
      land_loop L D posix unset_ok exp PA fuel fuel s v)%res (fun r => LogPost LAnd false x more s (fst r) (snd r))).
  { apply (and_sem ts x Hd s more); auto; [lia|]. intros s' v' n' P Hn'.
    assert (Ht := at_tk _ _ (proj1 (proj2 P))).
    assert (E : land_loop L D posix unset_ok exp PA fuel n' s' v' = Ok (s', v')).
    { destruct n'; cbn [land_loop]; destruct (tk s'); try reflexivity; cbn in Ht; lia. }
    rewrite E. exact P. }
  destruct (parse_inclusive_or L D posix unset_ok exp PA fuel s) as [[s1 v1]| |]; cbn [rbind] in *; auto.
  eapply wp_seq; [exact W|]. intros [s2 v2] (G & A & S). cbn [fst snd] in *. cbn. split; [|split].
  - eapply logp_post; eauto.
  - eapply at_here; [|exact A]. split; reflexivity.
  - apply sem_po. exact S.
Qed.

Lemma or_sem : forall ts x, derives LOr ts x -> forall s more n Q,
  good s -> need s <= fuel -> need s <= n -> at_ s (ts ++ more) -> 9 < hdrank more ->
  (forall s' v' n', LogPost LOr true x more s s' v' -> need s' <= n' ->
     wp (lor_loop L D posix unset_ok exp PA fuel n' s' v') Q) ->
  wp (let! (s, v) := parse_logical_and L D posix unset_ok exp PA fuel s in
      lor_loop L D posix unset_ok exp PA fuel n s v)%res Q.
Proof.
  intros ts x Hd. remember LOr as lv eqn:El. revert El.
  induction Hd; intros El; try discriminate; intros s more n Q Hg Hn Hn' Hat Hr HQ.
  - eapply wp_seq; [apply (logical_and_comp s ts e more); auto|].
    intros [s1 v1] (P & A & S). cbn [fst snd] in *. apply HQ.
    + split; [|auto]. eapply post_logp; [|exact P]. intros; apply d_or0; auto.
    + pose proof (f_need _ _ (p_frame _ _ _ _ P)). lia.
  - rewrite <- app_assoc in Hat. cbn [app] in Hat.
    eapply (IHHd1 eq_refl s (TPipepipe :: ts2 ++ more)); eauto.
    intros s1 v1 n1 (G & A & S) Hn1. pose proof (need_pos _ _ _ A) as Hpos.
    destruct n1 as [|n1]; [lia|]. assert (Ht := proj1 A). cbn [lor_loop]. rewrite Ht.
    pose proof (f_need _ _ (g_frame _ _ _ _ _ G)) as Hns.
    pose proof (log_step LOr LAnd true (parse_logical_and L D posix unset_ok exp PA fuel) s s1 v1 EOr
      (lor_loop L D posix unset_ok exp PA fuel n1) Q logical_and_ok G) as H.
    rewrite Ht in H. specialize (H eq_refl ltac:(lia) d_or).
    assert (H' := H). clear H. match type of H' with ?X -> _ => assert (HX : X) end.
    { intros s2 w2 s3 tr valid value s5 w5 s' w6 v' K1 K2 K3 K4 K5 K6 K7 G' Hn'2.
      apply HQ; [|lia]. split; auto.
      apply (log_sem_step LOr LAnd 9 true (parse_logical_and L D posix unset_ok exp PA fuel)
        s s1 v1 a b (EOr a b) ts2 more TPipepipe s2 w2 s3 tr valid value s5 w5 s' w6 v'); auto.
      + apply logical_and_comp.
      + lia.
      + apply sev_or. }
    specialize (H' HX). clear HX.
    destruct (coerce_number L D posix unset_ok s1 v1) as [s2 w2]. 
    destruct (next_token L exp s2) as [s3| |]; cbn [rbind] in *; auto.
    destruct (truth D w2) as [tr| |]; cbn [rbind] in *; auto.
    destruct (match tr with Some b => (true, b) | None => (false, true) end) as [valid value].
    rewrite eqb_true_r in H'. exact H'.
Qed.

Lemma logical_or_comp : comp LOr 10 (parse_logical_or L D posix unset_ok exp PA fuel).
Proof.
  intros s ts x more Hg Hn Hd Hat Hr. unfold parse_logical_or.
  assert (W : wp (let! (s, v) := parse_logical_and L D posix unset_ok exp PA fuel s in
      lor_loop L D posix unset_ok exp PA fuel fuel s v)%res (fun r => LogPost LOr true x more s (fst r) (snd r))).
  { apply (or_sem ts x Hd s more); auto; [lia|]. intros s' v' n' P Hn'.
    assert (Ht := at_tk _ _ (proj1 (proj2 P))).
    assert (E : lor_loop L D posix unset_ok exp PA fuel n' s' v' = Ok (s', v')).
    { destruct n'; cbn [lor_loop]; destruct (tk s'); try reflexivity; cbn in Ht; lia. }
    rewrite E. exact P. }
  destruct (parse_logical_and L D posix unset_ok exp PA fuel s) as [[s1 v1]| |]; cbn [rbind] in *; auto.
  eapply wp_seq; [exact W|]. intros [s2 v2] (G & A & S). cbn [fst snd] in *. cbn. split; [|split].
  - eapply logp_post; eauto.
  - eapply at_here; [|exact A]. split; reflexivity.
  - apply sem_po. exact S.
Qed.

(** ** ?: *)
Definition csem (x : expr) (s s' : st) (r : option value) : Prop :=
  er s = false -> if po s then er s' = negb (wf x) else
  match sev x (en s) with
  | Some (e, v) => er s' = false /\ en s' = e /\ r = Some (val v)
  | None => er s' = true
  end.

Lemma sev_cond : forall c a b e, sev (ECond c a b) e =
  if wf a && wf b then
    match sev c e with
    | Some (e1, r) => match to_num L D posix unset_ok e1 r with
      | Some n => if truthy D n then sev a e1 else sev b e1
      | None => None end
    | None => None end
  else None.
Proof.
  intros. unfold sev, wf. cbn [well_formed eval].
  destruct (well_formed L D posix c); cbn [andb]; destruct (well_formed L D posix a);
    destruct (well_formed L D posix b); auto.
Qed.

Lemma cond_sem : forall n s r0 ts x more, good s -> need s <= n -> need s <= fuel -> derives LCond ts x ->
  at_ s (ts ++ more) -> 11 < hdrank more ->
  wp (cond_loop L D posix unset_ok exp PA fuel n s r0)
     (fun y => condp s (fst y) r0 (snd y) /\ at_ (fst y) more /\ csem x s (fst y) (snd y)).
Proof.
  induction n as [n IH] using lt_wf_ind. intros s r0 ts x more Hg Hn Hf Hd Hat Hr.
  apply wp_and; [apply cond_loop_ok; auto|].
  assert (E : cond_loop L D posix unset_ok exp PA fuel n s r0 =
    (let dummy1 := po s in
     let! (s, v) := parse_logical_or L D posix unset_ok exp PA fuel s in
     let result := if dummy1 : bool then r0 else Some v in
     match tk s with
     | TQuestion =>
      match n with
      | O => Fuel
      | S n' =>
          let '(s, v) := coerce_number L D posix unset_ok s v in
          let result := if dummy1 : bool then result else Some v in
          let! s := next_token L exp s in
          let! tr := truth D v in
          let '(valid, cond) := match tr with None => (false, true) | Some b => (true, b) end in
          let save2 := po s || negb valid in
          let s := set_po s (save2 || negb cond) in
          let dummy2 := po s in
          let! (s, v) := PA s in
          let result := if dummy2 : bool then result else Some v in
          match tk s with
          | TColon =>
              let! s := next_token L exp s in
              let s := set_po s (save2 || cond) in
              cond_loop L D posix unset_ok exp PA fuel n' s result
          | _ => Ok (fail s (MMissing (str ":")), Some (VInvalid D))
          end
      end
     | _ => Ok (s, result)
     end)%res) by (destruct n; reflexivity).
  rewrite E. clear E. cbn zeta.
  inversion Hd as [| | | | | | | | | | | | | | |ts' e' Hd' E1 E2|ts1 c ts2 a ts3 b Hdc Hda Hdb E1 E2| |]; subst.
  { eapply wp_seq; [apply (logical_or_comp s ts x more); auto; lia|]. intros [s1 v1] (P & A & S). cbn [fst snd] in *.
    assert (Ht := at_tk _ _ A).
    assert (G : at_ s1 more /\ csem x s s1 (if po s then r0 else Some v1)).
    { split; auto. intros He. specialize (S He). destruct (po s); auto. 
      destruct (sev x (en s)) as [[e r]|]; [|exact S]. destruct S as (S1 & S2 & ->). auto. }
    destruct (tk s1) eqn:Et; try exact G. cbn in Ht. lia. }
  repeat (rewrite <- app_assoc in Hat; cbn [app] in Hat).
  eapply wp_seq; [apply (logical_or_comp s ts1 c (TQuestion :: ts2 ++ TColon :: ts3 ++ more)); auto; cbn; lia|].
  intros [s1 v1] (P1 & Hat1 & S1). cbn [fst snd] in *.
  assert (Et1 := proj1 Hat1). rewrite Et1.
  pose proof (f_need _ _ (p_frame _ _ _ _ P1)) as Hn1. pose proof (need_pos _ _ _ Hat1) as Hpos.
  destruct n as [|n]; [lia|].
  destruct (coerce_number L D posix unset_ok s1 v1) as [s2 v2] eqn:E2.
  destruct (coerce_number_spec _ _ _ _ (f_good _ _ (p_frame _ _ _ _ P1)) (p_vok _ _ _ _ P1) E2)
    as (A1 & A2 & A3 & A4 & A5 & A6).
  pose proof (at_here _ _ _ (l_here _ _ A1) Hat1) as Hat2.
  destruct (next_at s2 _ _ (l_good _ _ A1) Hat2) as (s3 & -> & N3 & Hat3 & Ee3). cbn [rbind].
  destruct (truth_wp v2 A4) as (tr & Htr & Hinv). rewrite Htr. cbn [rbind].
  assert (Hval : exists valid cond, match tr with None => (false, true) | Some b => (true, b) end = (valid, cond)
     /\ (valid = false <-> v2 = VInvalid D) /\ (valid = true -> tr = Some cond)).
  { destruct tr as [b'|]; do 2 eexists; (split; [reflexivity|]); (split; [|congruence]).
    - split; [discriminate|]. intro K. apply Hinv in K. discriminate.
    - tauto. }
  destruct Hval as (valid & cond & -> & Hvi & Hvt).
  set (s4 := set_po s3 (po s3 || negb valid || negb cond)).
  assert (Hg4 : good s4) by (destruct (n_good _ _ N3); split; auto).
  assert (Hn4 : need s4 < need s1).
  { pose proof (n_need _ _ N3) as H. rewrite (need_here _ _ (l_here _ _ A1)) in H. exact H. }
  assert (Hat4 : at_ s4 (ts2 ++ TColon :: ts3 ++ more)) by (eapply at_here; [|exact Hat3]; split; reflexivity).
  eapply wp_seq; [apply (PAsem s4 ts2 a (TColon :: ts3 ++ more)); auto; [lia|cbn; lia]|].
  intros [s5 v5] (P5 & Hat5 & S5). cbn [fst snd] in *.
  assert (Et5 := proj1 Hat5). rewrite Et5.
  destruct (next_at s5 _ _ (f_good _ _ (p_frame _ _ _ _ P5)) Hat5) as (s6 & -> & N6 & Hat6 & Ee6). cbn [rbind].
  set (s7 := set_po s6 (po s3 || negb valid || cond)).
  pose proof (n_need _ _ N6) as Hn6. pose proof (f_need _ _ (p_frame _ _ _ _ P5)) as Hn5.
  assert (Hg7 : good s7) by (destruct (n_good _ _ N6); split; auto).
  assert (Hn7 : need s7 = need s6) by reflexivity.
  assert (Hat7 : at_ s7 (ts3 ++ more)) by (eapply at_here; [|exact Hat6]; split; reflexivity).
  eapply wp_mono; [apply (IH n ltac:(lia) s7 _ ts3 b more); auto; lia|].
  intros [s8 r8] (C & Hat8 & S8). cbn [fst snd] in *. split; auto.
  assert (Hpo3 : po s3 = po s) by (rewrite (n_po _ _ N3), (l_po _ _ A1); apply P1).
  assert (Hpo4 : po s4 = po s || negb valid || negb cond) by (unfold s4; cbn; rewrite Hpo3; reflexivity).
  assert (Hpo7 : po s7 = po s || negb valid || cond) by (unfold s7; cbn; rewrite Hpo3; reflexivity).
  assert (Hen4 : en s4 = en s1) by (change (en s3 = en s1); rewrite (n_en _ _ N3); auto).
  assert (Hen7 : en s7 = en s5) by (change (en s6 = en s5); rewrite (n_en _ _ N6); auto).
  assert (Her4 : er s4 = er s2) by exact Ee3.
  assert (Her7 : er s7 = er s5) by exact Ee6.
  clearbody s4 s7.
  assert (X7 : er s7 = true -> er s8 = true) by apply (k_frame _ _ _ _ C).
  assert (X5 : er s5 = true -> er s8 = true) by (intro; apply X7; congruence).
  assert (X2 : er s2 = true -> er s8 = true).
  { intro K. apply X5. apply (f_er _ _ (p_frame _ _ _ _ P5)). congruence. }
  assert (X1 : er s1 = true -> er s8 = true) by (intro K; apply X2; apply (l_er _ _ A1); auto).
  assert (Xa : wf a = false -> er s8 = true).
  { intros K. destruct (er s4) eqn:Ee4; [apply X2; congruence|]. specialize (S5 Ee4). unfold sev in S5.
    rewrite K in S5. apply X5. destruct (po s4); exact S5. }
  assert (Xb : wf b = false -> er s8 = true).
  { intros K. destruct (er s7) eqn:Ee7; [auto|]. specialize (S8 Ee7). unfold sev in S8.
    rewrite K in S8. destruct (po s7); exact S8. }
  intros He. specialize (S1 He). destruct (po s) eqn:Ep.
  - (* skipped *)
    cbn [orb] in Hpo4, Hpo7.
    assert (Ewf : wf (ECond c a b) = wf c && wf a && wf b) by reflexivity. rewrite Ewf.
    rewrite (p_val _ _ _ _ P1 Ep) in E2. cbn in E2. injection E2 as <- <-.
    destruct (wf c) eqn:Ewc; cbn [negb andb] in *; [|auto].
    destruct (wf a) eqn:Ewa; cbn [negb andb] in *; [|auto].
    rewrite <- Her4 in S1. specialize (S5 S1). rewrite Hpo4, Ewa in S5. cbn [negb] in S5.
    rewrite <- Her7 in S5. specialize (S8 S5). rewrite Hpo7 in S8. exact S8.
  - rewrite sev_cond.
    destruct (wf a) eqn:Ewa; cbn [andb]; [|auto].
    destruct (wf b) eqn:Ewb; cbn [andb]; [|auto].
    destruct (sev c (en s)) as [[e1 r1]|]; [|auto].
    destruct S1 as (He1 & Hen1 & ->).
    pose proof (coerce_number_sem s1 r1 He1) as Sn. rewrite Hen1 in Sn. rewrite E2 in Sn.
    destruct (to_num L D posix unset_ok e1 r1) as [n1|].
    2:{ destruct Sn as (m & Sn). injection Sn as -> ->. apply X2. reflexivity. }
    injection Sn as -> ->. rewrite truth_nval in Htr. injection Htr as <-.
    assert (valid = true).
    { destruct valid; auto. exfalso. assert (K := proj1 Hvi eq_refl). destruct n1; discriminate. }
    subst valid. specialize (Hvt eq_refl). injection Hvt as <-. cbn [negb orb] in Hpo4, Hpo7.
    rewrite He1 in Her4. specialize (S5 Her4). rewrite Hpo4, Hen4, Hen1 in S5.
    destruct (truthy D n1) eqn:Etr; cbn [negb] in *.
    + destruct (sev a e1) as [[e2 r2]|]; [|auto]. destruct S5 as (He5 & Hen5 & ->).
      rewrite He5 in Her7. specialize (S8 Her7). rewrite Hpo7, Ewb in S8. cbn [negb] in S8.
      split; auto. split.
      * rewrite (f_skip _ _ (k_frame _ _ _ _ C) Hpo7). congruence.
      * destruct (k_skip _ _ _ _ C Hpo7) as [K|[_ K]]; [|congruence]. rewrite K, Hpo4. reflexivity.
    + rewrite Ewa in S5. cbn [negb] in S5. rewrite S5 in Her7. specialize (S8 Her7). rewrite Hpo7 in S8.
      assert (Hen7' : en s7 = e1).
      { rewrite Hen7. rewrite (f_skip _ _ (p_frame _ _ _ _ P5) Hpo4). congruence. }
      rewrite Hen7' in S8. exact S8.
Qed.

Lemma conditional_comp : comp LCond 11 (parse_conditional L D posix unset_ok exp PA fuel).
Proof.
  intros s ts x more Hg Hn Hd Hat Hr.
  apply wp_and; [apply conditional_ok; auto|]. unfold parse_conditional.
  eapply wp_seq; [apply (cond_sem fuel s None ts x more); auto|].
  intros [s1 r] (C & A & S). cbn [fst snd] in *.
  assert (A' : at_ (set_po s1 (po s)) more) by (eapply at_here; [|exact A]; split; reflexivity).
  destruct (po s) eqn:Ep.
  - cbn. split; auto. intros He. specialize (S He). rewrite Ep in S. rewrite Ep. exact S.
  - destruct (k_val _ _ _ _ C Ep) as (v & -> & Hb). cbn. split; auto.
    intros He. specialize (S He). rewrite Ep in *. destruct (sev x (en s)) as [[e r]|]; [|exact S].
    destruct S as (S1 & S2 & S3). injection S3 as ->. cbn. auto.
Qed.
End Levels.

(** ** Assignment level *)
Lemma asg_calc : forall t, is_assign t = true -> t = TEqual \/ calc_op t = true.
Proof. intros []; try discriminate; auto. Qed.
Lemma asg_asgop : forall t, is_assign t = true -> exists o, asgop t = Some o.
Proof. intros []; try discriminate; eexists; reflexivity. Qed.

Lemma assignment_ok : forall f s, good s -> need s < f ->
  wp (parse_assignment L D posix unset_ok exp f s) (fun r => post LAsg s (fst r) (snd r)).
Proof.
  induction f as [|f IH]; intros s Hg Hn; [lia|]. cbn [parse_assignment].
  eapply wp_seq; [apply (conditional_ok _ f IH); auto; lia|]. intros [s1 v] P. cbn [fst snd] in P.
  pose proof (f_need _ _ (p_frame _ _ _ _ P)) as Hn1.
  destruct (is_assign (tk s1)) eqn:Ea.
  2:{ cbn. eapply post_up; [|exact P]. intros; apply d_asg0; auto. }
  eapply wp_seq; [apply next_token_wp; [apply P|destruct (tk s1); try discriminate; reflexivity]|]. intros s2 N2.
  pose proof (n_need _ _ N2). eapply wp_seq; [apply IH; [apply N2|lia]|]. intros [s3 rhs] P3. cbn [fst snd] in P3.
  assert (Hpo1 : po s1 = po s) by apply P.
  assert (Hpo2 : po s2 = po s) by (rewrite (n_po _ _ N2); auto).
  assert (Hpo3 : po s3 = po s) by (rewrite (p_po _ _ _ _ P3); auto).
  assert (Hfr3 : frame s s3).
  { eapply frame_trans; [apply P| |congruence].
    eapply frame_trans; [apply next_frame; eauto|apply P3|congruence]. }
  (* it suffices to describe the final local step *)
  assert (Hfin : forall Q, wp Q (fun x => local s3 (fst x) /\ vok (snd x) /\
      (po s3 = true -> en (fst x) = en s3 /\ snd x = VInvalid D) /\ (po s3 = false -> bad (fst x) (snd x))) ->
    wp Q (fun r => post LAsg s (fst r) (snd r))).
  { intros Q HQ. eapply wp_mono; [exact HQ|]. intros [s4 v4] (A1 & A2 & A3 & A4). cbn [fst snd] in *.
    constructor; auto.
    - eapply frame_trans; [exact Hfr3|apply local_frame; auto; apply A3|congruence].
    - rewrite (l_po _ _ A1). auto.
    - intro K. apply A3. congruence.
    - intro K. apply A4. congruence.
    - intros He. pose proof (er_back_l _ _ A1 He) as He3. pose proof (er_back _ _ (p_frame _ _ _ _ P3) He3) as He2.
      pose proof (er_back_n _ _ N2 He2) as He1.
      destruct (p_path _ _ _ _ P He1) as (ts1 & e1 & Hp1 & Hd1).
      destruct (p_path _ _ _ _ P3 He3) as (ts2 & e2 & Hp2 & Hd2).
      destruct (asg_asgop _ Ea) as (o & Ho).
      exists (ts1 ++ tk s1 :: ts2), (EAsg o e1 e2). split; [|apply d_asg; auto].
      eapply path_app; eauto. eapply path_step; [apply (n_path _ _ N2); auto|].
      eapply path_here_r; eauto. apply A1. }
  assert (Hbase : wp (Ok (fail s3 MAssignNumber, VInvalid D)) (fun r => post LAsg s (fst r) (snd r))).
  { apply Hfin. cbn. split; [apply fail_local, Hfr3|]. split; [exact I|]. split; [auto|intros _ _; reflexivity]. }
  destruct v as [|z|d|x]; try exact Hbase.
  - apply Hfin. cbn. split; [apply local_refl, Hfr3|]. split; [exact I|]. split; auto.
    intros K _. apply (f_er _ _ (p_frame _ _ _ _ P3)). apply (n_er _ _ N2). apply (p_bad _ _ _ _ P); [congruence|reflexivity].
  - assert (Hpf : po s3 = false).
    { clear Hfin Hbase. destruct (po s3) eqn:K; auto. discriminate (p_val _ _ _ _ P (eq_sym Hpo3)). }
    apply Hfin. clear Hfin Hbase.
    assert (Hbr : bad s3 rhs) by (apply P3; congruence).
    assert (Hasg : forall s4 v4, local s3 s4 -> vok v4 -> bad s4 v4 ->
      wp (let '(s, ok) := do_assignment D unset_ok s4 x v4 in
          if negb ok then Ok (set_er s, VInvalid D) else Ok (s, v4)) (fun x =>
        local s3 (fst x) /\ vok (snd x) /\
      (po s3 = true -> en (fst x) = en s3 /\ snd x = VInvalid D) /\ (po s3 = false -> bad (fst x) (snd x)))).
    { intros s4 v4 A1 A2 A3. destruct (do_assignment D unset_ok s4 x v4) as [s5 ok] eqn:E5.
      pose proof (do_assignment_spec _ _ _ (l_good _ _ A1) A3 A2 _ _ E5) as Hs. destruct ok; cbn.
      - destruct Hs as [Hs Hne]. split; [eapply local_trans; eauto|]. split; auto. split; [congruence|].
        intros _ K. contradiction.
      - split; [eapply local_trans; eauto|]. split; [exact I|]. split; [congruence|intros _ _; reflexivity]. }
    destruct (asg_calc _ Ea) as [Et|Et].
    + rewrite Et. cbn [do_binary_calculation rbind negb]. apply Hasg; auto; [apply local_refl, Hfr3|apply P3].
    + eapply wp_seq; [apply dbc_wp; [apply Hfr3|exact Et|apply P|apply P3]|].
      intros [[s4 v4] ok] [C Hok]. cbn [fst snd] in *.
      assert (Hb4 : bad s4 v4) by (apply C; [intro; discriminate|auto]).
      destruct ok; cbn [negb].
      * apply Hasg; auto; apply C.
      * rewrite Hok in * by reflexivity. cbn. split; [apply C|]. split; [exact I|]. split; [congruence|auto].
Qed.

Lemma sev_asg : forall o l r e, sev (EAsg o l r) e =
  match sev l e with
  | Some (e1, r1) => match sev r e1 with
     | Some (e2, r2) =>
       match r1 with
       | RNum _ _ => None
       | RVar _ x =>
         match o with
         | None => match (match rv_text D unset_ok e2 r2 with Some t => assign e2 x t | None => None end) with
             | Some e3 => Some (e3, r2) | None => None end
         | Some o => match both e2 r1 r2 (apply_op D o) with
             | Some r => match (match rv_text D unset_ok e2 r with Some t => assign e2 x t | None => None end) with
                | Some e3 => Some (e3, r) | None => None end
             | None => None end
         end
       end
     | None => None end
  | None => None end.
Proof.
  intros. unfold sev, wf, both. cbn [well_formed eval].
  destruct (well_formed L D posix l); auto. cbn [andb].
  destruct (well_formed L D posix r).
  - destruct (eval L D posix unset_ok l e) as [[e1 [n1|x1]]|]; auto.
    destruct (eval L D posix unset_ok r e1) as [[e2 r2]|]; auto.
    destruct o as [o|].
    + cbn [to_num]. destruct (read_var L D posix unset_ok e2 x1) as [n1|]; auto.
      destruct (to_num L D posix unset_ok e2 r2) as [n2|]; auto.
      destruct (apply_op D o n1 n2); auto.
    + destruct (rv_text D unset_ok e2 r2); auto.
  - destruct (eval L D posix unset_ok l e) as [[e1 r1]|]; auto.
Qed.

Lemma asgop_is : forall t o, asgop t = Some o -> is_assign t = true /\ incop t = None /\ binop t = None /\
  (o = None -> t = TEqual) /\ (forall o', o = Some o' -> t = iop_asg o' /\ calc_op t = true).
Proof.
  intros t o H. destruct t; try discriminate; injection H as <-; (split; [reflexivity|]); split; try reflexivity;
  (split; [reflexivity|]); (split; [congruence|]); intros o' E; try discriminate; injection E as <-; split; reflexivity.
Qed.

Lemma assignment_sem : forall f s ts x more, good s -> need s < f -> derives LAsg ts x ->
  at_ s (ts ++ more) -> 12 < hdrank more ->
  wp (parse_assignment L D posix unset_ok exp f s) (fun r => Post LAsg x more s (fst r) (snd r)).
Proof.
  induction f as [|f IH]; intros s ts x more Hg Hn Hd Hat Hr; [lia|].
  apply wp_and; [apply assignment_ok; auto|].
  cbn [parse_assignment].
  pose proof (conditional_comp (parse_assignment L D posix unset_ok exp f) f (assignment_ok f) IH) as Hc.
  inversion Hd as [| | | | | | | | | | | | | | | | |ts' x' Hd' E1 E2|ts1 l t o ts2 r Hdl Ho Hdr E1 E2]; subst.
  { eapply wp_seq; [apply (Hc s ts x more); auto; lia|]. intros [s1 v] (P & A & S). cbn [fst snd] in *.
    assert (Ht := at_tk _ _ A).
    assert (E : is_assign (tk s1) = false) by (destruct (tk s1); try reflexivity; cbn in Ht; lia).
    rewrite E. cbn. auto. }
  rewrite <- app_assoc in Hat. cbn [app] in Hat.
  destruct (asgop_is _ _ Ho) as (Hia & Hio & Hib & Ho1 & Ho2).
  eapply wp_seq; [apply (Hc s ts1 l (t :: ts2 ++ more)); auto; [lia|unfold hdrank, frank; rewrite Hio, Hib, Ho; lia]|].
  intros [s1 v] (P1 & A1 & S1). cbn [fst snd] in *. assert (Ht := proj1 A1). rewrite Ht at 1. rewrite Hia.
  pose proof (f_need _ _ (p_frame _ _ _ _ P1)) as Hn1.
  destruct (next_at s1 _ _ (f_good _ _ (p_frame _ _ _ _ P1)) A1) as (s2 & -> & N2 & A2 & E2). cbn [rbind].
  pose proof (n_need _ _ N2).
  eapply wp_seq; [apply (IH s2 ts2 r more); auto; [apply N2|lia]|]. intros [s3 rhs] (P3 & A3 & S3). cbn [fst snd] in *.
  rewrite Ht.
  assert (Hpo1 : po s1 = po s) by apply P1.
  assert (Hpo2 : po s2 = po s) by (rewrite (n_po _ _ N2); auto).
  assert (Hg3 : good s3) by apply P3.
  assert (X3 : er s1 = true -> er s3 = true).
  { intro K. apply (f_er _ _ (p_frame _ _ _ _ P3)). congruence. }
  (* it suffices to describe the last local step *)
  assert (Hfin : forall Q, wp Q (fun y => local s3 (fst y) /\ sem (EAsg o l r) s (fst y) (snd y)) ->
    wp Q (fun y => at_ (fst y) more /\ sem (EAsg o l r) s (fst y) (snd y))).
  { intros Q HQ. eapply wp_mono; [exact HQ|]. intros y [K1 K2]. split; auto. eapply at_here; [apply K1|auto]. }
  apply Hfin. clear Hfin.
  assert (Hskip : po s = true -> er s = false -> er s3 = negb (wf (EAsg o l r))).
  { intros K1 K2. specialize (S1 K2). rewrite K1 in S1.
    assert (Ew : wf (EAsg o l r) = wf l && wf r) by reflexivity. rewrite Ew.
    destruct (wf l); cbn [negb andb] in *; [|auto].
    rewrite <- E2 in S1. specialize (S3 S1). rewrite Hpo2, K1 in S3. exact S3. }
  destruct (po s) eqn:Ep.
  { rewrite (p_val _ _ _ _ P1 Ep). cbn. split; [apply local_refl; auto|]. intros He. rewrite Ep. auto. }
  assert (Hgoal : forall Q, wp Q (fun y => local s3 (fst y)) ->
      (er s = false -> er s3 = false -> wp Q (fun y => result (sev (EAsg o l r) (en s)) (fst y) (snd y))) ->
      wp Q (fun y => local s3 (fst y) /\ sem (EAsg o l r) s (fst y) (snd y))).
  { intros Q W HQ. destruct (er s) eqn:Ee.
    - eapply wp_mono; [exact W|]. intros y Hy. split; auto. intro; congruence.
    - destruct (er s3) eqn:Ee3.
      + eapply wp_mono; [exact W|]. intros y Hy. split; auto. intros _. rewrite Ep. rewrite sev_asg.
        assert (Hy' : er (fst y) = true) by (apply (l_er _ _ Hy); auto).
        specialize (S1 Ee). rewrite Ep in S1.
        destruct (sev l (en s)) as [[e1 r1]|]; [|exact Hy']. destruct S1 as (K1 & K2 & K3).
        rewrite <- E2 in K1. specialize (S3 K1). rewrite Hpo2, (n_en _ _ N2), K2 in S3.
        destruct (sev r e1) as [[e2 r2]|]; [|exact Hy']. destruct S3 as (K4 & _). congruence.
      + eapply wp_mono; [apply wp_and; [exact W|apply HQ; auto]|]. intros y [K1 K2]. split; auto.
        intros _. rewrite Ep. exact K2. }
  apply Hgoal; clear Hgoal.
  { destruct v as [|z|d|y]; try (cbn; first [apply local_refl; auto; fail|apply fail_local; auto; fail]).
    assert (Hbr : bad s3 rhs) by (apply P3; congruence).
    assert (Hasg : forall s4 v4, local s3 s4 -> bad s4 v4 -> vok v4 ->
      wp (let '(s, ok) := do_assignment D unset_ok s4 y v4 in
          if negb ok then Ok (set_er s, VInvalid D) else Ok (s, v4)) (fun x => local s3 (fst x))).
    { intros s4 v4 B1 B3 B4. destruct (do_assignment D unset_ok s4 y v4) as [s5 ok] eqn:E5.
      pose proof (do_assignment_spec _ _ _ (l_good _ _ B1) B3 B4 _ _ E5) as Hs.
      destruct ok; cbn; [destruct Hs as [Hs _]|]; eapply local_trans; eauto. }
    destruct o as [o|].
    - destruct (Ho2 o eq_refl) as [_ Hco].
      eapply wp_seq; [apply dbc_wp; [auto|exact Hco|apply P1|apply P3]|].
      intros [[s4 v4] ok] [C Hok]. cbn [fst snd] in *.
      destruct ok; cbn [negb]; [|apply C]. apply Hasg; [apply C| |apply C]. apply C; [intro; discriminate|auto].
    - rewrite (Ho1 eq_refl). cbn [do_binary_calculation rbind negb]. apply Hasg; auto; [apply local_refl; auto|apply P3]. }
  intros He He3. specialize (S1 He). rewrite Ep in S1. rewrite sev_asg.
  destruct (sev l (en s)) as [[e1 r1]|].
  2:{ exfalso. cbn in S1. rewrite X3 in He3; auto. discriminate. }
  destruct S1 as (He1 & Hen1 & ->). rewrite <- E2 in He1. specialize (S3 He1).
  rewrite Hpo2, (n_en _ _ N2), Hen1 in S3.
  destruct (sev r e1) as [[e2 r2]|]; [|exfalso; cbn in S3; congruence].
  destruct S3 as (_ & Hen3 & ->).
  destruct r1 as [[z|d]|y]; cbn [val]; try (cbn; reflexivity).
  assert (Hasg : forall s4 rr, en s4 = e2 -> er s4 = false ->
      wp (let '(s, ok) := do_assignment D unset_ok s4 y (val rr) in
          if negb ok then Ok (set_er s, VInvalid D) else Ok (s, val rr))
       (fun z => result (match (match rv_text D unset_ok e2 rr with Some t => assign e2 y t | None => None end) with
             | Some e3 => Some (e3, rr) | None => None end) (fst z) (snd z))).
  { intros s4 rr K1 K2. pose proof (do_assignment_sem s4 y rr K2) as Ha.
    destruct (do_assignment D unset_ok s4 y (val rr)) as [s5 ok]. rewrite K1 in Ha.
    destruct (match rv_text D unset_ok e2 rr with Some t => assign e2 y t | None => None end) as [e3|].
    - destruct Ha as (-> & Ha1 & Ha2). cbn. auto.
    - subst ok. reflexivity. }
  destruct o as [o|].
  - destruct (Ho2 o eq_refl) as [Hto Hco].
    eapply wp_seq; [apply wp_and; [apply (dbc_wp s3 t (val (RVar D y)) (val r2)); auto; [apply P1|apply P3]
                                  |apply (dbc_sem s3 t o (RVar D y) r2); auto; [apply P1|apply P3]]|].
    intros [[s4 v4] ok] [[C Hok] [Ha Hok2]]. cbn [fst snd] in *. rewrite Hen3 in Ha.
    destruct (both e2 (RVar D y) r2 (apply_op D o)) as [rr|].
    + destruct Ha as (Ha1 & Ha2 & ->). destruct ok; cbn [negb]; [apply Hasg; auto|].
      specialize (Hok2 eq_refl). congruence.
    + cbn in Ha. destruct ok; cbn [negb]; [|exact Ha].
      destruct (do_assignment D unset_ok s4 y v4) as [s5 ok] eqn:E5.
      assert (Hb : bad s4 v4) by (intros _; exact Ha).
      pose proof (do_assignment_spec _ _ _ (l_good _ _ (c_local _ _ _ _ _ C)) Hb (c_vok _ _ _ _ _ C) _ _ E5) as Hs.
      destruct ok; cbn; [|reflexivity]. destruct Hs as [Hs _]. apply (l_er _ _ Hs). auto.
  - rewrite (Ho1 eq_refl). cbn [do_binary_calculation rbind negb]. apply Hasg; auto.
Qed.

(** ** The whole expansion *)
Lemma start_ok : forall e, (io = true -> ints e) -> exists s0, next_token L exp (mkSt 0 TNull false false e []) = Ok s0 /\
  idx s0 <= length exp /\ good s0 /\ need s0 < the_fuel exp /\ en s0 = e /\ po s0 = false /\
  (er s0 = false -> nexttok 0 (idx s0) (tk s0)) /\
  (forall ts, lexes L exp ts -> at_ s0 ts /\ er s0 = false).
Proof.
  intros e Hints. set (s := mkSt 0 TNull false false e []).
  destruct (next_token_spec L Lok exp Nonul s ltac:(cbn; lia)) as (s' & E & Hp). exists s'. split; auto.
  assert (Hnd : forall s1, idx s1 <= length exp -> need s1 < the_fuel exp).
  { intros s1 H. unfold need, the_fuel. destruct (tok_end (tk s1)); lia. }
  destruct Hp as [[-> Hsp]|[(i & t0 & -> & Hte' & Hi' & Hm)|(i & c & r & -> & Hi' & (sp & Hr & Hsp) & Hc & Hno)]].
  - split; [cbn; lia|]. split; [split; cbn; [lia|split; [split; [discriminate|intro K; contradiction]|
      intro K; split; [auto|right; left; reflexivity]]]|].
    split; [apply Hnd; cbn; lia|]. split; [reflexivity|]. split; [reflexivity|].
    split; [intros _; right; split; [reflexivity|exact Hsp]|].
    intros [|t ts] Hl; [split; reflexivity|]. apply lexes_cons_inv in Hl as (u & Hm & _). exfalso.
    eapply spaces_nomunch; eauto.
  - split; [cbn; lia|]. split; [split; cbn; [lia|split; [split; [discriminate|intro K; contradiction]|
      intro K; split; [auto|right; right; exists 0; split; [apply rpos_start|exact Hm]]]]|].
    split; [apply Hnd; cbn; lia|]. split; [reflexivity|]. split; [reflexivity|].
    split; [intros _; left; exact Hm|].
    intros [|t ts] Hl.
    + apply lexes_nil_inv in Hl. exfalso. eapply spaces_nomunch; eauto.
    + apply lexes_cons_inv in Hl as (u & Hm' & Hl'). cbn in Hm.
      destruct (munch_fun L Lok _ _ _ _ _ Hm Hm') as [-> <-]. cbn. auto.
  - split; [cbn; lia|]. split; [split; cbn; [lia|split; [split; [discriminate|auto]|intro K; split; auto]]|].
    split; [apply Hnd; cbn; lia|]. split; [reflexivity|]. split; [reflexivity|].
    split; [cbn; discriminate|].
    intros ts Hl. exfalso. cbn in Hr. rewrite Hr in Hl. clear - Hl Hsp Hc Hno Lok.
    remember (sp ++ c :: r) as u eqn:Eu. revert sp Hsp Eu. induction Hl; intros sp Hsp Eu.
    + destruct sp; discriminate.
    + destruct sp as [|a sp]; cbn in Eu; injection Eu as -> ->; [congruence|]. inversion Hsp; subst. eapply IHHl; eauto.
    + destruct (tokword_cons L _ _ H) as (c' & w' & -> & _).
      destruct sp as [|a sp].
      * cbn in Eu. eapply (Hno (c' :: w') t s); [symmetry; exact Eu|exact H].
      * cbn in Eu. injection Eu as -> Eu. inversion Hsp; subst. apply tokword_nospace in H; [congruence|exact Lok].
Qed.

(** A tree for the whole text fixes the result. *)
Lemma evaluate_complete : forall e ts x, (io = true -> ints e) -> lexes L exp ts -> derives LAsg ts x ->
  wp (evaluate_arithmetic L D posix unset_ok exp e) (fun r =>
    match expand_expr L D posix unset_ok x e with
    | Some (e', t) => r = (e', [], Some t)
    | None => snd (fst r) <> [] /\ snd r = None
    end).
Proof.
  intros e ts x Hints Hl Hd. unfold evaluate_arithmetic, evaluate.
  destruct (start_ok e Hints) as (s0 & -> & Hi & Hg & Hn & Hen & Hpo & _ & Hat). cbn [rbind].
  destruct (Hat ts Hl) as [Ha He]. clear Hat.
  rewrite <- (app_nil_r ts) in Ha.
  rewrite bind_assoc. eapply wp_seq; [apply (assignment_sem _ s0 ts x []); auto; cbn; lia|].
  intros [s1 v] (P & A & S). cbn [fst snd] in *.
  assert (Hg1 : good s1) by apply P. specialize (S He). rewrite Hpo, Hen in S.
  assert (Hm1 : er s1 = false -> msgs s1 = []).
  { intro K. destruct (msgs s1) eqn:Em; auto. exfalso. destruct Hg1 as (_ & Hg1 & _).
    assert (er s1 = true) by (apply Hg1; congruence). congruence. }
  unfold expand_expr. fold (wf x).
  assert (Esev : sev x e = if wf x then eval L D posix unset_ok x e else None) by reflexivity.
  assert (Hspec : (if wf x then match eval L D posix unset_ok x e with
      | Some (e0, r) => if posix then match to_num L D posix unset_ok e0 r with Some n => Some (e0, num_text D n) | None => None end
           else match rv_text D unset_ok e0 r with Some t => Some (e0, t) | None => None end
      | None => None end else None) =
     match sev x e with
      | Some (e0, r) => if posix then match to_num L D posix unset_ok e0 r with Some n => Some (e0, num_text D n) | None => None end
           else match rv_text D unset_ok e0 r with Some t => Some (e0, t) | None => None end
      | None => None end).
  { rewrite Esev. destruct (wf x); auto. }
  rewrite Hspec. clear Hspec Esev.
  destruct (sev x e) as [[e1 r]|].
  - destruct S as (He1 & Hen1 & ->). specialize (Hm1 He1). destruct posix eqn:Epx.
    + cbn [rbind]. pose proof (coerce_number_sem s1 r He1) as Sn. rewrite Epx, Hen1 in Sn.
      destruct (to_num L D true unset_ok e1 r) as [n|].
      * rewrite Sn, He1, A. destruct n; cbn; rewrite Hm1, Hen1; reflexivity.
      * destruct Sn as (m & ->). cbn. split; [discriminate|reflexivity].
    + cbn [rbind]. rewrite He1, A. destruct r as [[z|d]|y]; cbn [val value_to_string rv_text num_text].
      * cbn. rewrite Hm1, Hen1. reflexivity.
      * cbn. rewrite Hm1, Hen1. reflexivity.
      * rewrite Hen1. destruct (vget e1 y) as [t|].
        { cbn. rewrite Hm1, Hen1. reflexivity. }
        destruct unset_ok; cbn; [rewrite Hm1, Hen1; reflexivity|]. split; [discriminate|reflexivity].
  - cbn in S. destruct posix eqn:Epx; cbn [rbind].
    + destruct (coerce_number L D true unset_ok s1 v) as [s2 v2] eqn:E2.
      assert (K : er s2 = true).
      { destruct v; cbn in E2; try (injection E2 as <- <-; auto; fail).
        destruct (vget (en s1) x0) as [[|c t]|]; repeat match type of E2 with
          | context [match ?z with _ => _ end] => destruct z end;
          injection E2 as <- <-; auto. }
      rewrite K. cbn. split; [|reflexivity].
      destruct v; cbn in E2; try (injection E2 as <- <-; apply Hg1; auto; fail).
      destruct (vget (en s1) x0) as [[|c t]|]; repeat match type of E2 with
          | context [match ?z with _ => _ end] => destruct z end;
          injection E2 as <- <-; try (apply Hg1; auto; fail); cbn; discriminate.
    + rewrite S. cbn. split; [apply Hg1; auto|reflexivity].
Qed.

(** Only complete expressions of the grammar succeed. *)
Lemma derives_noend : forall lv ts x, derives lv ts x -> Forall (fun t => tok_end t = false) ts.
Proof.
  assert (Hi : forall t up, incop t = Some up -> tok_end t = false) by (intros []; try discriminate; reflexivity).
  assert (Hu : forall t o, unop t = Some o -> tok_end t = false) by (intros []; try discriminate; reflexivity).
  assert (Hb : forall t o, binop t = Some o -> tok_end t = false) by (intros []; try discriminate; reflexivity).
  assert (Ha : forall t o, asgop t = Some o -> tok_end t = false) by (intros []; try discriminate; reflexivity).
  intros lv ts x Hd. induction Hd; auto;
    repeat first [rewrite Forall_app | rewrite Forall_cons_iff]; intuition eauto.
Qed.

Lemma munch_noend : forall u t u', munch L u t u' -> tok_end t = false.
Proof.
  intros u t u' (sp & w & _ & _ & T & _). inversion T as [w' t' Hin|c w' ? ?|c w' ? ?]; subst; auto.
  assert (H : forallb (fun p => negb (tok_end (snd p))) op_table = true) by reflexivity.
  rewrite forallb_forall in H. specialize (H _ Hin). cbn in H. destruct (tok_end t); auto; discriminate.
Qed.

Lemma path_lexes : forall s ts s', path s ts s' -> tk s' = TNull -> Forall (fun t => tok_end t = false) ts ->
  forall i, nexttok i (idx s) (tk s) -> lexes L (rest i) ts.
Proof.
  intros s ts s' Hp. induction Hp as [s s' Hi Ht|s s1 ts s' Hn Hp IH]; intros Hnull Hf i Hnt.
  - destruct Hnt as [Hm|[_ Hs]].
    + apply munch_noend in Hm. rewrite <- Ht, Hnull in Hm. discriminate.
    + clear - Hs. induction Hs; [constructor|]. apply lex_space; auto.
  - inversion Hf; subst. destruct Hnt as [Hm|[K _]].
    + eapply munch_lexes; eauto.
    + rewrite K in H1. discriminate.
Qed.

Lemma evaluate_sound : forall e, (io = true -> ints e) ->
  wp (evaluate_arithmetic L D posix unset_ok exp e) (fun r =>
    env_ok e (fst (fst r)) /\
    (snd r = None <-> snd (fst r) <> []) /\
    (snd r <> None -> exists ts x, lexes L exp ts /\ derives LAsg ts x)).
Proof.
  intros e Hints. unfold evaluate_arithmetic, evaluate.
  destruct (start_ok e Hints) as (s0 & -> & Hi & Hg & Hn & Hen & Hpo & Hnt & _). cbn [rbind].
  rewrite bind_assoc. eapply wp_seq; [apply (assignment_ok _ s0); auto|].
  intros [s1 v] P. cbn [fst snd] in *.
  assert (Hg1 : good s1) by apply P.
  assert (Henv1 : env_ok e (en s1)) by (rewrite <- Hen; apply P).
  assert (K : forall s2 v2, good s2 -> here s1 s2 -> (er s1 = true -> er s2 = true) -> env_ok e (en s2) -> bad s2 v2 ->
    wp (if er s2 then Ok (en s2, msgs s2, None)
        else match tk s2 with
        | TNull => let '(s, r) := value_to_string D unset_ok s2 v2 in Ok (en s, msgs s, r)
        | TInvalid => Ok (en s2, msgs s2, None)
        | _ => Ok (en s2, MSyntax :: msgs s2, None)
        end) (fun r => env_ok e (fst (fst r)) /\ (snd r = None <-> snd (fst r) <> []) /\
    (snd r <> None -> exists ts x, lexes L exp ts /\ derives LAsg ts x))).
  { intros s2 v2 Hg2 [Hh1 Hh2] Her Henv Hb. destruct (er s2) eqn:Ee.
    - cbn. split; auto. split; [|congruence]. split; auto. intros _. apply Hg2. auto.
    - assert (Hm2 : msgs s2 = []).
      { destruct (msgs s2) eqn:Em; auto. exfalso. destruct Hg2 as (_ & Hg2 & _).
        assert (er s2 = true) by (apply Hg2; congruence). congruence. }
      assert (He1 : er s1 = false) by (destruct (er s1) eqn:E1; auto; specialize (Her eq_refl); congruence).
      assert (Hmis : forall m, wp (Ok (en s2, m :: msgs s2, None)) (fun r : env * list amsg * option (list N) => env_ok e (fst (fst r)) /\
         (snd r = None <-> snd (fst r) <> []) /\
         (snd r <> None -> exists ts x, lexes L exp ts /\ derives LAsg ts x))).
      { intros m. cbn. split; [exact Henv|]. split; [|intro Z; exfalso; apply Z; reflexivity]. split; [intros _ Z; discriminate Z|reflexivity]. }
      destruct (p_path _ _ _ _ P He1) as (ts & x & Hp & Hd).
      assert (Hnt0 : nexttok 0 (idx s0) (tk s0)).
      { apply Hnt. destruct (er s0) eqn:E0; auto. rewrite (f_er _ _ (p_frame _ _ _ _ P)) in He1; auto. }
      destruct (tk s2) eqn:Et; try apply Hmis.
      + assert (Hlex : exists ts x, lexes L exp ts /\ derives LAsg ts x).
        { exists ts, x. split; auto. change exp with (rest 0). eapply (path_lexes s0 ts s1);
            [exact Hp|congruence|eapply derives_noend; eauto|exact Hnt0]. }
        destruct v2 as [|z|d|y]; cbn [value_to_string].
        * rewrite Hb in Ee by auto. discriminate.
        * cbn. rewrite Hm2. split; auto. split; [|auto]. split; [discriminate|congruence].
        * cbn. rewrite Hm2. split; auto. split; [|auto]. split; [discriminate|congruence].
        * destruct (vget (en s2) y); [|destruct unset_ok]; cbn; rewrite ?Hm2; (split; [auto|]);
            (split; [|auto]); split; congruence.
      + exfalso. clear Hmis. (* TInvalid only after an error *)
        assert (Hte : forall s ts s', path s ts s' -> (nexttok 0 (idx s) (tk s) \/ exists i, nexttok i (idx s) (tk s)) ->
            tk s' = TInvalid -> False).
        { clear. intros s ts s' Hp. induction Hp as [s s' Hi Ht|s s1 ts s' Hn Hp IH]; intros Hnt E.
          - rewrite E in Ht. rewrite <- Ht in Hnt.
            assert (forall i, ~ nexttok i (idx s) TInvalid).
            { intros i [Hm|[K _]]; [|discriminate]. apply munch_noend in Hm. discriminate. }
            destruct Hnt as [Hnt|[i Hnt]]; eapply H; eauto.
          - apply IH; eauto. }
        eapply Hte; eauto. }
  assert (Hb1 : bad s1 v) by (apply P; auto).
  destruct posix eqn:Epx; cbn [rbind].
  - pose proof (coerce_number_spec s1 v) as Hc. rewrite Epx in Hc.
    destruct (coerce_number L D true unset_ok s1 v) as [s2 v2] eqn:E2.
    assert (Hvk : vok v) by apply P.
    destruct (Hc _ _ Hg1 Hvk eq_refl) as (A1 & A2 & A3 & A4 & A5 & A6).
    apply K; [apply A1|apply A1|apply (l_er _ _ A1)|rewrite A2; auto|auto].
  - apply K; auto. split; reflexivity.
Qed.

Lemma index_complete : forall e ts x, (io = true -> ints e) -> lexes L exp ts -> derives LAsg ts x ->
  wp (evaluate_index L D posix unset_ok exp e) (fun r =>
    match expand_index L D posix unset_ok x e with
    | Some (e', z) => r = (e', [], Some z)
    | None => snd (fst r) <> [] /\ snd r = None
    end).
Proof.
  intros e ts x Hints Hl Hd. unfold evaluate_index, evaluate.
  destruct (start_ok e Hints) as (s0 & -> & Hi & Hg & Hn & Hen & Hpo & _ & Hat). cbn [rbind].
  destruct (Hat ts Hl) as [Ha He]. clear Hat.
  rewrite <- (app_nil_r ts) in Ha.
  rewrite bind_assoc. eapply wp_seq; [apply (assignment_sem _ s0 ts x []); auto; cbn; lia|].
  intros [s1 v] (P & A & S). cbn [fst snd] in *.
  assert (Hg1 : good s1) by apply P. specialize (S He). rewrite Hpo, Hen in S.
  assert (Hm1 : er s1 = false -> msgs s1 = []).
  { intro K. destruct (msgs s1) eqn:Em; auto. exfalso. destruct Hg1 as (_ & Hg1 & _).
    assert (er s1 = true) by (apply Hg1; congruence). congruence. }
  unfold expand_index. fold (wf x).
  assert (Hs' : (if wf x then
       match eval L D posix unset_ok x e with
       | Some (e0, r) =>
           match to_num L D posix unset_ok e0 r with
           | Some (NInt _ z) => Some (e0, Z.max z (- LONG_MAX))
           | _ => None end
       | None => None end else None) =
     match sev x e with
       | Some (e0, r) =>
           match to_num L D posix unset_ok e0 r with
           | Some (NInt _ z) => Some (e0, Z.max z (- LONG_MAX))
           | _ => None end
       | None => None end).
  { unfold sev. destruct (wf x); auto. }
  rewrite Hs'. clear Hs'. cbn [rbind].
  destruct (sev x e) as [[e1 r]|].
  - destruct S as (He1 & Hen1 & ->). specialize (Hm1 He1).
    pose proof (coerce_number_sem s1 r He1) as Sn. rewrite Hen1 in Sn.
    destruct (to_num L D posix unset_ok e1 r) as [n|].
    + rewrite Sn, He1, A. destruct n as [z|d]; cbn.
      * rewrite Hm1, Hen1. f_equal. f_equal. clear. destruct (Z.ltb_spec z (-9223372036854775807)); lia.
      * split; [discriminate|reflexivity].
    + destruct Sn as (m & ->). cbn. split; [discriminate|reflexivity].
  - cbn in S. destruct (coerce_number L D posix unset_ok s1 v) as [s2 v2] eqn:E2.
    destruct (coerce_number_spec _ _ _ _ Hg1 (p_vok _ _ _ _ P) E2) as (A1 & A2 & A3 & A4 & A5 & A6).
    assert (K : er s2 = true) by (apply (l_er _ _ A1); auto).
    rewrite K. cbn. split; [|reflexivity]. apply (l_good _ _ A1). auto.
Qed.

(** The tokens reached are those of the token sequence. *)
Lemma lexes_reach : forall ts, lexes L exp ts -> forall i t, reach i t -> t <> TNull -> In t ts.
Proof.
  intros ts Hl.
  assert (K : forall i, rpos i -> exists ts', lexes L (rest i) ts' /\ incl ts' ts).
  { intros i Hr. induction Hr as [|i t i' Hr IH Hm].
    - exists ts. split; auto. apply incl_refl.
    - destruct IH as ([|t' ts'] & H1 & H2).
      + apply lexes_nil_inv in H1. exfalso. eapply spaces_nomunch; eauto.
      + apply lexes_cons_inv in H1 as (u & Hm' & H1). destruct (munch_fun L Lok _ _ _ _ _ Hm Hm') as [-> <-].
        exists ts'. split; auto. intros x Hx. apply H2. right. auto. }
  intros i t [H|(i0 & Hr & Hm)] Hnn; [congruence|]. destruct (K _ Hr) as ([|t' ts'] & H1 & H2).
  - apply lexes_nil_inv in H1. exfalso. eapply spaces_nomunch; eauto.
  - apply lexes_cons_inv in H1 as (u & Hm' & _). destruct (munch_fun L Lok _ _ _ _ _ Hm Hm') as [-> _].
    apply H2. left. auto.
Qed.

(** evaluate_index: variables kept, an error exactly when there is no value. *)
Lemma index_sound : forall e, (io = true -> ints e) ->
  wp (evaluate_index L D posix unset_ok exp e) (fun r =>
    env_ok e (fst (fst r)) /\ (snd r = None <-> snd (fst r) <> [])).
Proof.
  intros e Hints. unfold evaluate_index, evaluate.
  destruct (start_ok e Hints) as (s0 & -> & Hi & Hg & Hn & Hen & Hpo & Hnt & _). cbn [rbind].
  rewrite bind_assoc. eapply wp_seq; [apply (assignment_ok _ s0); auto|].
  intros [s1 v] P. cbn [fst snd rbind] in *.
  destruct (coerce_number L D posix unset_ok s1 v) as [s2 v2] eqn:E2.
  assert (Hg1 : good s1) by apply P.
  destruct (coerce_number_spec _ _ _ _ Hg1 (p_vok _ _ _ _ P) E2) as (A1 & A2 & A3 & A4 & A5 & A6).
  assert (Hb : bad s2 v2) by (apply A6; apply P; auto).
  assert (Henv : env_ok e (en s2)) by (rewrite A2, <- Hen; apply P).
  pose proof (l_good _ _ A1) as (_ & Hm2 & _).
  destruct (er s2) eqn:Ee.
  { cbn. split; auto. split; auto. intros _. apply Hm2; auto. }
  assert (Hm : msgs s2 = []).
  { destruct (msgs s2); auto. exfalso. assert (false = true) by (apply Hm2; congruence). discriminate. }
  assert (Hmis : forall m, wp (Ok (en s2, m :: msgs s2, None)) (fun r : env * list amsg * option Z =>
     env_ok e (fst (fst r)) /\ (snd r = None <-> snd (fst r) <> []))).
  { intros m. cbn. split; auto. split; [intros _ K; discriminate K|auto]. }
  destruct (tk s2) eqn:Et; try apply Hmis.
  - destruct v2 as [|z|d|y]; try apply Hmis. cbn. rewrite Hm. split; auto. split; [discriminate|congruence].
  - exfalso. assert (He1 : er s1 = false) by (destruct (er s1) eqn:K; auto; rewrite (l_er _ _ A1) in Ee; auto).
    destruct (p_path _ _ _ _ P He1) as (ts & x & Hp & Hd).
    assert (Hnt0 : nexttok 0 (idx s0) (tk s0)).
    { apply Hnt. destruct (er s0) eqn:E0; auto. rewrite (f_er _ _ (p_frame _ _ _ _ P)) in He1; auto. }
    assert (Ht1 : tk s1 = TInvalid) by (rewrite <- Et; symmetry; apply A1).
    assert (Hnv : forall i j, ~ nexttok i j TInvalid).
    { intros i j [K|[K _]]; [|discriminate]. apply munch_noend in K. discriminate. }
    assert (Hnt' : exists i, nexttok i (idx s0) (tk s0)) by eauto.
    clear - Hp Hnt' Ht1 Hnv. induction Hp as [s s' Hi Ht|s s1 ts s' Hn Hp IH].
    + destruct Hnt' as [i K]. rewrite <- Ht, Ht1 in K. eapply Hnv; eauto.
    + apply IH; eauto.
Qed.
End Hoare.
