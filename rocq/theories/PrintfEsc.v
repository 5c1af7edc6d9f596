(** Escape sequences and the echo built-in. *)
From Coq Require Import Ascii String.
From Coq Require Import List NArith ZArith Bool Lia Arith.
From Coq Require Import ZifyBool ZifyN ZifyNat.
From Verif Require Import Common Locale NumModel NumProofs PrintfModel PrintfSpec.
Import ListNotations.
Local Open Scope N_scope.

Section Esc.
Variable enc : N -> option (list N).
Hypothesis ascii : ascii_enc enc.

(** ** Octal digits *)
Lemma is_octal_iff : forall c, is_octal c = true <-> octdigit c.
Proof.
  intros c. unfold is_octal, octdigit. split.
  - intros H. exists (c - 48). lia.
  - intros (d & ? & ->). lia.
Qed.

Fixpoint oval (v : N) (ds : list N) : N :=
  match ds with [] => v | c :: ds => oval (v * 8 + (c - 48)) ds end.
Lemma oval_snoc : forall ds v c, oval v (ds ++ [c]) = oval v ds * 8 + (c - 48).
Proof. induction ds as [|x ds IH]; intros; cbn; [reflexivity | apply IH]. Qed.
Lemma oct_iff : forall ds v, oct ds v <-> (Forall octdigit ds /\ v = oval 0 ds).
Proof.
  split.
  - intros H. induction H as [|ds v d H [IH1 IH2] Hd].
    + split; [constructor | reflexivity].
    + split; [apply Forall_app; split; [assumption | constructor; [exists d; auto | constructor]]|].
      rewrite oval_snoc, IH2. lia.
  - revert v. induction ds as [|c ds IH] using rev_ind; intros v [H1 H2].
    + rewrite H2. constructor.
    + apply Forall_app in H1 as [H1 H3]. inversion H3 as [|? ? [d [Hd Hc]] _]; subst.
      rewrite oval_snoc. replace (48 + d - 48) with d by lia. constructor; auto.
Qed.

Lemma scan_octal_take : forall n v ds s, Forall octdigit ds -> (length ds <= n)%nat ->
  (length ds = n \/ forall c, hd_error s = Some c -> ~ octdigit c) ->
  scan_octal n v (ds ++ s) = (oval v ds, s).
Proof.
  induction n as [|n IH]; intros v ds s H1 H2 H3.
  - destruct ds; [reflexivity | cbn in H2; lia].
  - destruct ds as [|c ds].
    + cbn [app oval]. destruct s as [|x s]; [reflexivity|]. cbn [scan_octal].
      destruct H3 as [H3|H3]; [discriminate|]. specialize (H3 x eq_refl).
      destruct (is_octal x) eqn:E; [apply is_octal_iff in E; contradiction | reflexivity].
    + inversion H1; subst. cbn [app scan_octal oval].
      replace (is_octal c) with true by (symmetry; apply is_octal_iff; assumption).
      apply IH; [assumption | cbn in H2; lia |]. cbn in H3. destruct H3; [left; lia | right; assumption].
Qed.
Lemma scan_octal_split : forall n v s w r, scan_octal n v s = (w, r) ->
  exists ds, s = ds ++ r /\ Forall octdigit ds /\ (length ds <= n)%nat /\ w = oval v ds /\
    (length ds = n \/ forall c, hd_error r = Some c -> ~ octdigit c).
Proof.
  induction n as [|n IH]; intros v s w r H.
  - cbn in H. injection H as <- <-. exists []. repeat split; auto.
  - destruct s as [|c s]; cbn [scan_octal] in H.
    + injection H as <- <-. exists []. repeat split; auto; [cbn; lia|]. right. discriminate.
    + destruct (is_octal c) eqn:E.
      * destruct (IH _ _ _ _ H) as (ds & A1 & A2 & A3 & A4 & A5). exists (c :: ds). subst s.
        repeat split; auto; [constructor; auto; apply is_octal_iff; auto | cbn; lia |].
        destruct A5; [left; cbn; lia | right; assumption].
      * injection H as <- <-. exists []. repeat split; auto; [cbn; lia|]. right.
        intros x [= <-] Hx. apply is_octal_iff in Hx. congruence.
Qed.
Lemma scan_octal3 : forall s v r, scan_octal 3 0 s = (v, r) ->
  exists ds, s = ds ++ r /\ oct3 ds v r.
Proof.
  intros s v r H. destruct (scan_octal_split _ _ _ _ _ H) as (ds & A1 & A2 & A3 & A4 & A5).
  exists ds. split; [assumption|]. repeat split; auto. apply oct_iff. auto.
Qed.
Lemma oct3_scan : forall ds v s, oct3 ds v s -> scan_octal 3 0 (ds ++ s) = (v, s).
Proof.
  intros ds v s (A & B & C). apply oct_iff in A as [A ->]. apply scan_octal_take; auto.
Qed.
Lemma scan_octal_len : forall n v s w r, scan_octal n v s = (w, r) -> (length r <= length s)%nat.
Proof.
  intros n v s w r H. destruct (scan_octal_split _ _ _ _ _ H) as (ds & -> & _).
  rewrite app_length. lia.
Qed.

(** ** The table *)
Lemma echo_char_iff : forall x b, echo_char x = Some b <-> In (x, b) echo_table.
Proof.
  intros x b. split.
  - unfold echo_char. intros H.
    repeat match type of H with
    | (if ?t then _ else _) = _ => let E := fresh in destruct t eqn:E;
        [apply N.eqb_eq in E; subst x; injection H as <-; cbn; tauto|]
    end. discriminate.
  - intros H. cbn in H.
    repeat (destruct H as [H|H]; [injection H as <- <-; reflexivity|]). contradiction.
Qed.
Lemma echo_char_none : forall x, echo_char x = None <-> forall b, ~ In (x, b) echo_table.
Proof.
  intros x. split.
  - intros H b Hb. apply echo_char_iff in Hb. congruence.
  - intros H. destruct (echo_char x) as [b|] eqn:E; [|reflexivity].
    apply echo_char_iff in E. destruct (H b E).
Qed.
Lemma echo_table_ascii : forall x b, In (x, b) echo_table -> enc b = Some [b].
Proof.
  intros x b H. apply ascii. cbn in H.
  repeat (destruct H as [H|H]; [injection H as <- <-; cbn; lia|]). contradiction.
Qed.
Lemma table_not : forall b, ~ In (ch "c", b) echo_table /\ ~ In (ch "0", b) echo_table.
Proof.
  intros b. split; intros H; apply echo_char_iff in H; discriminate.
Qed.

(** ** echo_parse_escape *)
Definition pr (e : bool) : printf_result := if e then PR_OK_END else PR_OK.

Lemma escape_complete : forall s o e, unescape enc s o e -> forall fuel buf,
  (length s <= fuel)%nat -> echo_parse_escape enc fuel s buf = Ok (pr e, buf ++ o).
Proof.
  intros s o e H. induction H as
    [| c s bs o e Hc Henc H IH | x b s o e Hin H IH | s | ds v s o e Ho H IH | s o e Ho H IH];
    intros fuel buf Hf; (destruct fuel as [|fuel]; [try (cbn in Hf; lia)|]).
  - cbn. rewrite app_nil_r. reflexivity.
  - cbn. rewrite app_nil_r. reflexivity.
  - cbn [echo_parse_escape]. replace (c =? ch "\") with false by lia. cbn [negb].
    rewrite Henc, IH, app_assoc by (cbn in Hf; lia). reflexivity.
  - cbn [echo_parse_escape]. rewrite N.eqb_refl. cbn [negb].
    assert (E1 : (x =? ch "c") = false).
    { apply N.eqb_neq. intros ->. destruct (table_not b) as [A _]. auto. }
    assert (E2 : (x =? ch "0") = false).
    { apply N.eqb_neq. intros ->. destruct (table_not b) as [_ A]. auto. }
    rewrite E1, E2. pose proof Hin as Hin2. apply echo_char_iff in Hin. rewrite Hin.
    rewrite (echo_table_ascii _ _ Hin2), IH by (cbn in Hf; lia). rewrite <- app_assoc. reflexivity.
  - cbn [echo_parse_escape]. rewrite !N.eqb_refl. cbn [negb]. rewrite app_nil_r. reflexivity.
  - cbn [echo_parse_escape]. rewrite !N.eqb_refl. cbn [negb].
    change (ch "0" =? ch "c") with false. cbn iota. rewrite (oct3_scan _ _ _ Ho).
    rewrite IH by (cbn in Hf; rewrite app_length in Hf; lia). rewrite <- app_assoc. reflexivity.
  - cbn [echo_parse_escape]. rewrite !N.eqb_refl. cbn [negb].
    assert (En : enc (ch "\") = Some [ch "\"]) by (apply ascii; cbn; lia).
    rewrite En. cbn in Hf.
    assert (R : echo_parse_escape enc fuel s (buf ++ [ch "\"]) = Ok (pr e, buf ++ ch "\" :: o)).
    { rewrite IH by lia. rewrite <- app_assoc. reflexivity. }
    destruct s as [|x s]; [exact R|]. destruct (Ho x eq_refl) as (A & B & C).
    replace (x =? ch "c") with false by (symmetry; apply N.eqb_neq; assumption).
    replace (x =? ch "0") with false by (symmetry; apply N.eqb_neq; assumption).
    apply echo_char_none in C. rewrite C. exact R.
Qed.

Lemma escape_sound : forall fuel s buf, (length s <= fuel)%nat -> exists r o,
  echo_parse_escape enc fuel s buf = Ok (r, buf ++ o) /\
  match r with
  | PR_OK => unescape enc s o false
  | PR_OK_END => unescape enc s o true
  | PR_ERROR => exists c, In c s /\ enc c = None
  end.
Proof.
  induction fuel as [|fuel IH]; intros s buf Hf.
  { destruct s; [|cbn in Hf; lia]. exists PR_OK, []. rewrite app_nil_r. split; [reflexivity | constructor]. }
  destruct s as [|c s].
  { exists PR_OK, []. rewrite app_nil_r. split; [reflexivity | constructor]. }
  cbn in Hf. cbn [echo_parse_escape].
  assert (En : enc (ch "\") = Some [ch "\"]) by (apply ascii; cbn; lia).
  destruct (c =? ch "\") eqn:Ec; cbn [negb].
  2: { apply N.eqb_neq in Ec. destruct (enc c) as [bs|] eqn:E.
       - destruct (IH s (buf ++ bs)) as (r & o & A & B); [lia|]. exists r, (bs ++ o).
         rewrite A, app_assoc. split; [reflexivity|].
         destruct r; [constructor; auto | constructor; auto | destruct B as (x & ? & ?); exists x; cbn; auto].
       - exists PR_ERROR, []. rewrite app_nil_r. split; [reflexivity|]. exists c. cbn. auto. }
  apply N.eqb_eq in Ec. subst c. rewrite En.
  assert (Normal : (forall x, hd_error s = Some x -> x <> ch "c" /\ x <> ch "0" /\ forall b, ~ In (x, b) echo_table) ->
     exists r o, echo_parse_escape enc fuel s (buf ++ [ch "\"]) = Ok (r, buf ++ o) /\
       match r with
       | PR_OK => unescape enc (ch "\" :: s) o false
       | PR_OK_END => unescape enc (ch "\" :: s) o true
       | PR_ERROR => exists c, In c (ch "\" :: s) /\ enc c = None
       end).
  { intros Hx. destruct (IH s (buf ++ [ch "\"])) as (r & o & A & B); [lia|]. exists r, (ch "\" :: o).
    rewrite A, <- app_assoc. split; [reflexivity|].
    destruct r; [apply ue_other; auto | apply ue_other; auto | destruct B as (x & ? & ?); exists x; cbn; auto]. }
  destruct s as [|x s]; [apply Normal; discriminate|].
  destruct (x =? ch "c") eqn:E1.
  { apply N.eqb_eq in E1. subst x. exists PR_OK_END, []. rewrite app_nil_r. split; [reflexivity | constructor]. }
  destruct (x =? ch "0") eqn:E2.
  { apply N.eqb_eq in E2. subst x. destruct (scan_octal 3 0 s) as [v s3] eqn:E3.
    pose proof (scan_octal_len _ _ _ _ _ E3). cbn in Hf.
    destruct (IH s3 (buf ++ [to_char v])) as (r & o & A & B); [lia|].
    destruct (scan_octal3 _ _ _ E3) as (ds & -> & Ho).
    exists r, (to_char v :: o). rewrite A, <- app_assoc. split; [reflexivity|]. unfold to_char.
    destruct r; [apply ue_oct; auto | apply ue_oct; auto |].
    destruct B as (y & ? & ?); exists y; split; [|assumption]. cbn. rewrite in_app_iff. auto. }
  destruct (echo_char x) as [b|] eqn:E3.
  { pose proof E3 as E4. apply echo_char_iff in E4. rewrite (echo_table_ascii _ _ E4).
    cbn in Hf. destruct (IH s (buf ++ [b])) as (r & o & A & B); [lia|]. exists r, (b :: o).
    rewrite A, <- app_assoc. split; [reflexivity|].
    destruct r; [apply ue_esc; auto | apply ue_esc; auto |].
    destruct B as (y & ? & ?); exists y; cbn; auto. }
  apply Normal. intros y [= <-]. apply N.eqb_neq in E1, E2. repeat split; auto. apply echo_char_none. assumption.
Qed.

Lemma unescape_fun : forall s o e o' e', unescape enc s o e -> unescape enc s o' e' -> o = o' /\ e = e'.
Proof.
  intros s o e o' e' H H'.
  pose proof (escape_complete _ _ _ H (length s) [] (le_n _)) as A.
  rewrite (escape_complete _ _ _ H' (length s) [] (le_n _)) in A.
  injection A as A ->. split; [reflexivity|]. destruct e, e'; try reflexivity; discriminate.
Qed.

(** ** Joining with spaces *)
Lemma unescape_space : forall s o e, unescape enc s o e -> forall t,
  (e = true -> unescape enc (s ++ ch " " :: t) o true) /\
  (e = false -> forall o' e', unescape enc t o' e' -> unescape enc (s ++ ch " " :: t) (o ++ ch " " :: o') e').
Proof.
  assert (Sp : enc (ch " ") = Some [ch " "]) by (apply ascii; cbn; lia).
  intros s o e H. induction H as
    [| c s bs o e Hc Henc H IH | x b s o e Hin H IH | s | ds v s o e Ho H IH | s o e Ho H IH]; intros t.
  - split; [discriminate|]. intros _ o' e' H. cbn [app]. change (ch " " :: o') with ([ch " "] ++ o').
    constructor; auto. discriminate.
  - destruct (IH t) as [A B]. split; intros E; [|intros o' e' H']; rewrite <- ?app_assoc; cbn [app]; constructor; auto.
  - destruct (IH t) as [A B]. split; intros E; [|intros o' e' H']; cbn [app]; constructor; auto.
  - split; [|discriminate]. intros _. cbn [app]. constructor.
  - destruct (IH t) as [A B].
    assert (Ho' : oct3 ds v (s ++ ch " " :: t)).
    { destruct Ho as (O1 & O2 & O3). repeat split; auto. destruct O3 as [O3|O3]; [left; assumption | right].
      destruct s as [|y s]; [|exact O3]. intros y [= <-] (d & Hd & E). change (ch " ") with 32 in E. lia. }
    split; intros E; [|intros o' e' H']; cbn [app]; rewrite <- app_assoc; apply ue_oct; auto.
  - destruct (IH t) as [A B].
    assert (Ho' : forall x, hd_error (s ++ ch " " :: t) = Some x ->
         x <> ch "c" /\ x <> ch "0" /\ forall b, ~ In (x, b) echo_table).
    { destruct s as [|y s]; [|exact Ho]. intros y [= <-]. repeat split; try discriminate.
      apply echo_char_none. reflexivity. }
    split; intros E; [|intros o' e' H']; cbn [app]; apply ue_other; auto.
Qed.

Lemma encode_all_iff : forall s o, encode_all enc s = Some o <-> encodes enc s o.
Proof.
  induction s as [|c s IH]; intros o; cbn [encode_all].
  - split; [intros [= <-]; constructor | intros H; inversion H; reflexivity].
  - split.
    + destruct (enc c) as [bs|] eqn:E; [|discriminate].
      destruct (encode_all enc s) as [o'|] eqn:E2; [|discriminate].
      intros [= <-]. constructor; [assumption | apply IH; reflexivity].
    + intros H. inversion H as [|? ? bs o' H1 H2]; subst. rewrite H1. apply IH in H2. rewrite H2. reflexivity.
Qed.
Lemma encodes_app : forall s o t o', encodes enc s o -> encodes enc t o' -> encodes enc (s ++ t) (o ++ o').
Proof.
  intros s o t o' H H'. induction H; [assumption|]. cbn [app]. rewrite <- app_assoc. constructor; auto.
Qed.
Lemma encodes_fun : forall s o o', encodes enc s o -> encodes enc s o' -> o = o'.
Proof. intros s o o' H H'. apply encode_all_iff in H, H'. congruence. Qed.
Lemma encode_all_none : forall s, encode_all enc s = None -> exists c, In c s /\ enc c = None.
Proof.
  induction s as [|c s IH]; cbn [encode_all]; [discriminate|].
  destruct (enc c) eqn:E; [|intros _; exists c; cbn; auto].
  destruct (encode_all enc s); [discriminate|]. intros _. destruct IH as (x & ? & ?); auto. exists x; cbn; auto.
Qed.

(** ** echo *)
(** What the operands contribute, before the newline *)
Definition ops_say (esc : bool) (ops : list (list N)) (b : list N) (e : bool) : Prop :=
  if esc then unescape enc (spaced ops) b e else encodes enc (spaced ops) b /\ e = false.

Lemma echo_args_ok : forall esc ops buf, exists r b,
  echo_args enc esc ops buf = Ok (r, buf ++ b) /\
  match r with
  | Some e => ops_say esc ops b e
  | None => exists a c, In a ops /\ In c a /\ enc c = None
  end.
Proof.
  assert (Sp : enc (ch " ") = Some [ch " "]) by (apply ascii; cbn; lia).
  intros esc. induction ops as [|a ops IH]; intros buf.
  { exists (Some false), []. cbn [echo_args]. rewrite app_nil_r. split; [reflexivity|].
    unfold ops_say. cbn [spaced]. destruct esc; [constructor | split; [constructor | reflexivity]]. }
  cbn [echo_args].
  assert (First : exists r o,
    (if esc then echo_parse_escape enc (length a) a buf
     else match encode_all enc a with Some bs => Ok (PR_OK, buf ++ bs) | None => Ok (PR_ERROR, buf) end)
      = Ok (r, buf ++ o) /\
    match r with
    | PR_OK => ops_say esc [a] o false
    | PR_OK_END => esc = true /\ unescape enc a o true
    | PR_ERROR => exists c, In c a /\ enc c = None
    end).
  { destruct esc.
    - destruct (escape_sound (length a) a buf (le_n _)) as (r & o & A & B). exists r, o. rewrite A.
      split; [reflexivity|]. destruct r; auto.
    - destruct (encode_all enc a) as [bs|] eqn:E.
      + exists PR_OK, bs. split; [reflexivity|]. split; [apply encode_all_iff; exact E | reflexivity].
      + exists PR_ERROR, []. rewrite app_nil_r. split; [reflexivity|]. apply encode_all_none. assumption. }
  destruct First as (r & o & -> & B). cbn [rbind]. destruct r.
  - destruct ops as [|a2 ops].
    + exists (Some false), o. split; [reflexivity|]. exact B.
    + rewrite Sp. destruct (IH ((buf ++ o) ++ [ch " "])) as (r & b & A & C).
      rewrite A. exists r, (o ++ ch " " :: b). split.
      { rewrite <- !app_assoc. reflexivity. }
      destruct r as [e|].
      * change (spaced (a :: a2 :: ops)) with (a ++ ch " " :: spaced (a2 :: ops)).
        unfold ops_say in *. change (spaced (a :: a2 :: ops)) with (a ++ ch " " :: spaced (a2 :: ops)).
        destruct esc.
        -- destruct (unescape_space _ _ _ B (spaced (a2 :: ops))) as [_ D]. apply D; auto.
        -- destruct B as [B _], C as [C ->]. split; [|reflexivity]. apply encodes_app; [exact B|].
           change (ch " " :: b) with ([ch " "] ++ b). constructor; assumption.
      * destruct C as (x & c & ? & ? & ?). exists x, c. split; [right; assumption | auto].
  - destruct B as [-> B]. exists (Some true), o. split; [reflexivity|]. unfold ops_say.
    destruct ops as [|a2 ops]; [exact B|].
    change (spaced (a :: a2 :: ops)) with (a ++ ch " " :: spaced (a2 :: ops)).
    destruct (unescape_space _ _ _ B (spaced (a2 :: ops))) as [D _]. apply D. reflexivity.
  - exists None, o. split; [reflexivity|]. destruct B as (c & ? & ?). exists a, c. cbn. auto.
Qed.

(** Options *)
Lemma opt_chars_ok : forall s nn es, Forall (fun c => In c (str "neE")) s ->
  exists nn' es', echo_opt_chars s nn es = (nn', es') /\
    (nn' = true <-> nn = true \/ In (ch "n") s) /\ decides es s es'.
Proof.
  induction s as [|c s IH]; intros nn es H.
  { exists nn, es. split; [reflexivity|]. split; [cbn; tauto | constructor; cbn; tauto]. }
  inversion H as [|? ? Hc Hs]; subst. cbn [echo_opt_chars]. cbn in Hc.
  assert (St : forall es1 es', decides es1 s es' -> (es1 = es /\ c = ch "n") \/ (es1 = true /\ c = ch "e") \/ (es1 = false /\ c = ch "E") ->
     decides es (c :: s) es').
  { intros es1 es' D Hd. inversion D as [? N1 N2 | s1 t N1 N2 | s1 t N1 N2]; subst.
    - destruct Hd as [[-> ->]|[[-> ->]|[-> ->]]].
      + constructor; cbn; intros [E|E]; [discriminate | auto | discriminate | auto].
      + apply (de_e es [] s); auto.
      + apply (de_E es [] s); auto.
    - apply (de_e es (c :: s1) t); auto.
    - apply (de_E es (c :: s1) t); auto. }
  destruct Hc as [Hc|[Hc|[Hc|[]]]]; subst c.
  - change (110 =? ch "n") with true. cbn iota. destruct (IH true es Hs) as (nn' & es' & A & B & C).
    exists nn', es'. split; [exact A|]. split.
    + rewrite B. cbn. tauto.
    + apply (St es); auto.
  - change (101 =? ch "n") with false. change (101 =? ch "e") with true. cbn iota.
    destruct (IH nn true Hs) as (nn' & es' & A & B & C). exists nn', es'. split; [exact A|]. split.
    + rewrite B. cbn. split; [tauto|]. intros [E|[E|E]]; [auto | discriminate | auto].
    + apply (St true); auto.
  - change (69 =? ch "n") with false. change (69 =? ch "e") with false. cbn iota.
    destruct (IH nn false Hs) as (nn' & es' & A & B & C). exists nn', es'. split; [exact A|]. split.
    + rewrite B. cbn. split; [tauto|]. intros [E|[E|E]]; [auto | discriminate | auto].
    + apply (St false); auto.
Qed.
Lemma decides_app : forall d s m t e, decides d s m -> decides m t e -> decides d (s ++ t) e.
Proof.
  intros d s m t e H1 H2. inversion H2 as [? N1 N2 | s1 t1 N1 N2 | s1 t1 N1 N2]; subst.
  - inversion H1 as [? M1 M2 | s2 t2 M1 M2 | s2 t2 M1 M2]; subst.
    + constructor; rewrite in_app_iff; tauto.
    + rewrite <- app_assoc. cbn [app]. constructor; rewrite in_app_iff; tauto.
    + rewrite <- app_assoc. cbn [app]. constructor; rewrite in_app_iff; tauto.
  - rewrite app_assoc. constructor; assumption.
  - rewrite app_assoc. constructor; assumption.
Qed.
Lemma neE_iff : forall c, ((c =? ch "n") || (c =? ch "e") || (c =? ch "E")) = true <-> In c (str "neE").
Proof. intros c. cbn. change (ch "n") with 110. change (ch "e") with 101. change (ch "E") with 69. lia. Qed.

Lemma echo_options_ok : forall args nn es, exists nn' es' ops,
  echo_options args nn es = (nn', es', ops) /\
  exists ws, args = ws ++ ops /\ Forall opt_word ws /\
    (forall w, hd_error ops = Some w -> ~ opt_word w) /\
    decides es (concat ws) es' /\ (nn' = true <-> nn = true \/ In (ch "n") (concat ws)).
Proof.
  induction args as [|a args IH]; intros nn es.
  { exists nn, es, []. split; [reflexivity|]. exists []. repeat split; try constructor; try discriminate; cbn; tauto. }
  assert (Stop : echo_options (a :: args) nn es = (nn, es, a :: args) -> ~ opt_word a ->
    exists nn' es' ops, echo_options (a :: args) nn es = (nn', es', ops) /\
      exists ws, a :: args = ws ++ ops /\ Forall opt_word ws /\
        (forall w, hd_error ops = Some w -> ~ opt_word w) /\
        decides es (concat ws) es' /\ (nn' = true <-> nn = true \/ In (ch "n") (concat ws))).
  { intros E Ho. exists nn, es, (a :: args). split; [exact E|]. exists [].
    repeat split; try constructor; cbn; try tauto. intros w [= <-]. exact Ho. }
  destruct a as [|c a].
  { apply Stop; [reflexivity|]. intros (o & Q & _). discriminate. }
  destruct (N.eq_dec c 45) as [->|Hc].
  2: { apply Stop.
       - cbn [echo_options]. destruct c as [|p]; [reflexivity|].
         do 6 (destruct p as [p|p|]; try reflexivity); exfalso; apply Hc; reflexivity.
       - intros (o & Q & _). injection Q as -> _. apply Hc. reflexivity. }
  destruct a as [|x a].
  { apply Stop; [reflexivity|]. intros (o & Q & Hne & _). injection Q as <-. auto. }
  cbn [echo_options] in Stop |- *.
  destruct (forallb (fun c => (c =? ch "n") || (c =? ch "e") || (c =? ch "E")) (x :: a)) eqn:E.
  2: { apply Stop; [reflexivity|]. intros (o & Q & _ & F). injection Q as <-.
       assert (forallb (fun c => (c =? ch "n") || (c =? ch "e") || (c =? ch "E")) (x :: a) = true); [|congruence].
       apply forallb_forall. rewrite Forall_forall in F. intros y Hy. apply neE_iff. auto. }
  clear Stop. assert (F : Forall (fun c => In c (str "neE")) (x :: a)).
  { apply Forall_forall. intros y Hy. apply neE_iff. rewrite forallb_forall in E. apply (E y Hy). }
  destruct (opt_chars_ok (x :: a) nn es F) as (nn1 & es1 & A & B & C). rewrite A.
  destruct (IH nn1 es1) as (nn' & es' & ops & A2 & ws & A3 & A4 & A5 & A6 & A7).
  exists nn', es', ops. split; [exact A2|]. exists ((45 :: x :: a) :: ws).
  split; [subst args; reflexivity|]. split; [constructor; auto; exists (x :: a); repeat split; auto; discriminate|].
  split; [exact A5|]. cbn [concat]. change ((45 :: x :: a) ++ concat ws) with ([45] ++ (x :: a) ++ concat ws). split.
  - apply (decides_app es [45] es).
    + constructor; cbn; intros [E1|[]]; discriminate.
    + apply (decides_app es _ es1); assumption.
  - rewrite A7, B, !in_app_iff. cbn. split; [intros [[?|?]|?]; auto|]. intros [?|[[E1|[]]|[?|?]]]; auto. discriminate.
Qed.

Lemma gnu_unique : forall d args es nn ops es' nn' ops',
  gnu_options d args es nn ops -> gnu_options d args es' nn' ops' -> es = es' /\ nn = nn' /\ ops = ops'.
Proof.
  intros d args es nn ops es' nn' ops' (ws & A1 & A2 & A3 & A4 & A5) (ws' & B1 & B2 & B3 & B4 & B5).
  assert (ws = ws' /\ ops = ops') as [<- <-].
  { clear - A1 A2 A3 B1 B2 B3. revert ws' A1 B1 B2. revert args. induction ws as [|w ws IH]; intros args ws' A1 B1 B2.
    - destruct ws' as [|w' ws']; [cbn in *; subst; auto|]. cbn in A1, B1. subst args.
      inversion B2 as [|? ? W1 W2]. exfalso. apply (A3 w'); [rewrite B1; reflexivity | assumption].
    - inversion A2 as [|? ? H1 H2]; subst. destruct ws' as [|w' ws'].
      + exfalso. cbn in B1. apply (B3 w); [rewrite <- B1; reflexivity | assumption].
      + cbn in B1. injection B1 as <- Q. inversion B2; subst.
        destruct (IH H2 (ws ++ ops) ws' eq_refl Q) as [<- <-]; auto. }
  split; [|split; [|reflexivity]].
  - clear - A4 B4. assert (U : forall d s e e', decides d s e -> decides d s e' -> e = e').
    { clear. intros d s. induction s as [|c s IH] using rev_ind; intros e e' H H'.
      - assert (Z : forall e, decides d [] e -> e = d).
        { intros x X. inversion X; subst; auto; destruct s; discriminate. }
        rewrite (Z _ H), (Z _ H'). reflexivity.
      - assert (Z : forall e, decides d (s ++ [c]) e ->
            (c = ch "e" /\ e = true) \/ (c = ch "E" /\ e = false) \/ (c <> ch "e" /\ c <> ch "E" /\ decides d s e)).
        { intros x X. inversion X as [s0 N1 N2 Q | s0 t N1 N2 Q | s0 t N1 N2 Q].
          - subst. right. right. rewrite in_app_iff in N1, N2. cbn in N1, N2.
            repeat split; try (intros ->; tauto). constructor; tauto.
          - destruct t as [|y t] using rev_ind.
            + apply app_inj_tail in Q as [<- <-]. left. auto.
            + clear IHt. rewrite app_comm_cons in Q.
              rewrite app_assoc in Q. apply app_inj_tail in Q as [<- <-].
              rewrite in_app_iff in N1, N2. cbn in N1, N2. right. right.
              repeat split; try (intros ->; tauto). constructor; tauto.
          - destruct t as [|y t] using rev_ind.
            + apply app_inj_tail in Q as [<- <-]. right. left. auto.
            + clear IHt. rewrite app_comm_cons in Q.
              rewrite app_assoc in Q. apply app_inj_tail in Q as [<- <-].
              rewrite in_app_iff in N1, N2. cbn in N1, N2. right. right.
              repeat split; try (intros ->; tauto). constructor; tauto. }
        destruct (Z _ H) as [[? ?]|[[? ?]|[? [? ?]]]], (Z _ H') as [[? ?]|[[? ?]|[? [? ?]]]]; subst; auto;
          try discriminate; try contradiction. }
    apply (U _ _ _ _ A4 B4).
  - destruct nn, nn'; auto; [symmetry; apply B5, A5; reflexivity | apply A5, B5; reflexivity].
Qed.

(** The options as the model finds them meet the specification, which has one solution. *)
Definition style_flags (st : style) : PrintfModel.echo_opts :=
  match st with
  | SYSV => mkEO true false false | BSD => mkEO false true false | GNU => mkEO false true true
  | ZSH => mkEO true true true | DASH => mkEO true true false | RAW => mkEO false false false
  end.
Lemma style_iff : forall v st, has_style v st -> echo_style v = style_flags st.
Proof.
  intros v st H. unfold echo_style.
  destruct st; cbn [has_style letters] in H; try (destruct H as (c & v' & -> & H); cbn in H;
    destruct H as [<-|[<-|[]]]; reflexivity).
  destruct v as [[|c v]|]; try reflexivity.
  assert (Q : forall l, (exists s, l = letters s) -> ~ In c l).
  { intros l [s ->]. apply (H s c v eq_refl). }
  assert (K : forall s a b, letters s = [a; b] -> ((c =? a) || (c =? b)) = false).
  { intros s a b E. assert (N1 := H s c v eq_refl). rewrite E in N1. cbn in N1. lia. }
  unfold ch. rewrite (K BSD _ _ eq_refl), (K GNU _ _ eq_refl), (K ZSH _ _ eq_refl), (K DASH _ _ eq_refl), (K RAW _ _ eq_refl).
  reflexivity.
Qed.
Lemma style_exists : forall v, exists st, has_style v st.
Proof.
  intros v. destruct v as [[|c v]|]; try (exists SYSV; intros s c' v' E; discriminate).
  assert (D : forall s, {In c (letters s)} + {~ In c (letters s)}) by (intros s; apply in_dec, N.eq_dec).
  destruct (D BSD) as [I|I1]; [exists BSD; exists c, v; auto|].
  destruct (D GNU) as [I|I2]; [exists GNU; exists c, v; auto|].
  destruct (D ZSH) as [I|I3]; [exists ZSH; exists c, v; auto|].
  destruct (D DASH) as [I|I4]; [exists DASH; exists c, v; auto|].
  destruct (D RAW) as [I|I5]; [exists RAW; exists c, v; auto|].
  exists SYSV. intros s c' v' [= <- <-]. destruct s; auto.
Qed.
Lemma echo_opts_exists : forall st args, exists esc nonl ops, echo_opts st args esc nonl ops.
Proof.
  assert (Nn : forall args, exists nonl ops, n_option args nonl ops).
  { intros args. destruct args as [|a args]; [exists false, []; split; [reflexivity | discriminate]|].
    destruct (list_N_eqb a (str "-n")) eqn:E.
    - apply list_N_eqb_eq in E. subst a. exists true, args. reflexivity.
    - apply list_N_eqb_neq in E. exists false, (a :: args). split; [reflexivity|]. intros Q. apply E. injection Q as ->. reflexivity. }
  intros st args. destruct st; cbn [echo_opts].
  - exists true, false, args. auto.
  - destruct (Nn args) as (n & ops & H). exists false, n, ops. auto.
  - destruct (echo_options_ok args false false) as (nn & es & ops & _ & ws & A & B & C & D & E).
    exists es, nn, ops, ws. repeat split; auto; rewrite E; [intros [?|?]; [discriminate|auto] | auto].
  - destruct (echo_options_ok args false true) as (nn & es & ops & _ & ws & A & B & C & D & E).
    exists es, nn, ops, ws. repeat split; auto; rewrite E; [intros [?|?]; [discriminate|auto] | auto].
  - destruct (Nn args) as (n & ops & H). exists true, n, ops. auto.
  - exists false, false, args. auto.
Qed.

Lemma echo_run : forall v st args esc nonl ops, has_style v st -> echo_opts st args esc nonl ops ->
  exists r b, echo_builtin enc true v args =
    Ok (match r with
        | None => mkOut [] 1 1%Z
        | Some e => mkOut (b ++ (if nonl || e then [] else [10])) 0 0%Z
        end) /\
    match r with
    | Some e => ops_say esc ops b e
    | None => exists a c, In a ops /\ In c a /\ enc c = None
    end.
Proof.
  intros v st args esc nonl ops Hv Ho.
  assert (Nl : enc 10 = Some [10]) by (apply ascii; lia).
  unfold echo_builtin. rewrite (style_iff _ _ Hv).
  assert (P : (if eo_e (style_flags st) then echo_options args false (eo_escape (style_flags st))
    else if eo_n (style_flags st) then
      match args with
      | a :: args' => if list_N_eqb a (str "-n") then (true, eo_escape (style_flags st), args')
                      else (false, eo_escape (style_flags st), args)
      | [] => (false, eo_escape (style_flags st), args)
      end
    else (false, eo_escape (style_flags st), args)) = (nonl, esc, ops)).
  { assert (G : forall d, gnu_options d args esc nonl ops -> echo_options args false d = (nonl, esc, ops)).
    { intros d H. destruct (echo_options_ok args false d) as (nn & es & ops' & Q & ws & A & B & C & D & E).
      rewrite Q. destruct (gnu_unique d args es nn ops' esc nonl ops) as (-> & -> & ->); auto.
      exists ws. repeat split; auto; rewrite E; [intros [?|?]; [discriminate|auto] | auto]. }
    assert (Nn : forall d : bool, n_option args nonl ops ->
      match args with
      | a :: args' => if list_N_eqb a (str "-n") then (true, d, args') else (false, d, args)
      | [] => (false, d, args)
      end = (nonl, d, ops)).
    { intros d H. unfold n_option in H. destruct nonl.
      - subst args. rewrite list_N_eqb_refl. reflexivity.
      - destruct H as [-> H]. destruct args as [|a args]; [reflexivity|].
        replace (list_N_eqb a (str "-n")) with false; [reflexivity|]. symmetry. apply list_N_eqb_neq.
        intros ->. apply H. reflexivity. }
    destruct st; cbn [echo_opts] in Ho; cbn [style_flags eo_e eo_n eo_escape].
    - destruct Ho as (-> & -> & ->). reflexivity.
    - destruct Ho as (-> & Ho). apply Nn. exact Ho.
    - apply G. exact Ho.
    - apply G. exact Ho.
    - destruct Ho as (-> & Ho). apply Nn. exact Ho.
    - destruct Ho as (-> & -> & ->). reflexivity. }
  rewrite P. destruct (echo_args_ok esc ops []) as (r & b & A & B). rewrite A. cbn [rbind app].
  exists r, b. split; [|exact B]. destruct r as [e|]; [|reflexivity].
  destruct (nonl || e).
  - rewrite app_nil_r. reflexivity.
  - rewrite Nl. reflexivity.
Qed.
End Esc.
