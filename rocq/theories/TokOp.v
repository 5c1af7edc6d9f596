(** Operators are recognised by the longest match. *)
From Coq Require Import Ascii String.
From Coq Require Import List NArith ZArith Bool Arith Lia.
From Coq Require Import ZifyBool ZifyN.
From Verif Require Import Common Locale ParseModel TokSpec.
Import ListNotations.
Local Open Scope N_scope.

(** ** Line continuations *)
Lemma lc_split : forall s, exists k, conts k /\ s = k ++ lc s /\ forall s', lc s <> ch "\" :: 10 :: s'.
Proof.
  fix IH 1. intros [|c [|d s]]; cbn [lc]; try (exists []; split; [constructor|split; [reflexivity|discriminate]]).
  destruct ((c =? ch "\") && (d =? 10)) eqn:E.
  - apply andb_true_iff in E. destruct E as [E1 E2]. apply N.eqb_eq in E1, E2. subst. destruct (IH s) as (k & H1 & H2 & H3). exists (ch "\" :: 10 :: k). split; [constructor; auto|]. split; auto. cbn [app]. rewrite <- H2. reflexivity.
  - exists []. split; [constructor|]. split; [reflexivity|]. intros s' H. injection H as -> -> ->. rewrite !N.eqb_refl in E. discriminate.
Qed.
Lemma lc_conts : forall k s, conts k -> lc (k ++ s) = lc s.
Proof. intros k s H. induction H as [|k H IH]; [reflexivity|]. cbn [app lc]. rewrite !N.eqb_refl. exact IH. Qed.
Lemma lc_id : forall s, (forall s', s <> ch "\" :: 10 :: s') -> lc s = s.
Proof.
  intros [|c [|d s]] H; try reflexivity. cbn [lc]. destruct ((c =? ch "\") && (d =? 10)) eqn:E; [|reflexivity]. apply andb_true_iff in E. destruct E as [E1 E2]. apply N.eqb_eq in E1, E2. subst. destruct (H s eq_refl).
Qed.
Lemma lc_other : forall c s, c <> ch "\" -> lc (c :: s) = c :: s.
Proof. intros c s H. apply lc_id. intros s' E. congruence. Qed.

(** ** Operators *)
Fixpoint spellsb (o s : list N) : bool :=
  match o, s with
  | [], _ => true
  | c :: o', x :: s' => (x =? c) && spellsb o' (lc s')
  | _ :: _, [] => false
  end.
Lemma spells_b : forall o s r, ~ In (ch "\") o -> spells o s r -> spellsb o s = true.
Proof.
  intros o s r Hn H. induction H as [c r|c d o k s r Hk H IH]; cbn [spellsb]; rewrite N.eqb_refl; [reflexivity|]. cbn [andb]. rewrite lc_conts by auto.
  assert (Hd : d <> ch "\") by (intros ->; apply Hn; cbn; auto). specialize (IH ltac:(intros H'; apply Hn; right; exact H')).
  inversion H; subst; rewrite lc_other by auto; exact IH.
Qed.
Lemma spells_lc : forall c d o s r, spells (d :: o) (lc s) r -> spells (c :: d :: o) (c :: s) r.
Proof. intros c d o s r H. destruct (lc_split s) as (k & Hk & E & _). rewrite E. constructor; auto. Qed.
Lemma spells_same : forall o s r, spells o s r -> forall o' r', spells o' s r' -> ~ In (ch "\") o -> ~ In (ch "\") o' -> List.length o = List.length o' -> o = o' /\ r = r'.
Proof.
  intros o s r H. induction H as [c r|c d o k s r Hk H IH]; intros o' r' H' Hn Hn' Hl.
  - inversion H'; subst; [auto|]. cbn in Hl. discriminate.
  - inversion H' as [c' r1 E1 E2 E3|c' d' o1 k' s1 r1 Hk' H1 E1 E2]; subst; [discriminate|].
    assert (E : lc (k' ++ s1) = lc (k ++ s)) by congruence. rewrite !lc_conts in E by auto.
    assert (G : forall x y z w, spells (x :: y) z w -> ~ In (ch "\") (x :: y) -> lc z = z) by (intros x y z w G Gn; inversion G; subst; apply lc_other; intros ->; apply Gn; cbn; auto).
    rewrite (G _ _ _ _ H1), (G _ _ _ _ H) in E by (cbn [In] in *; tauto). subst s1.
    destruct (IH _ _ H1) as [E ->]; [cbn [In] in *; tauto|cbn [In] in *; tauto|cbn in *; lia|]. split; congruence.
Qed.
Lemma spellings_plain : forall o k, In (o, k) spellings -> ~ In (ch "\") o /\ match o with c :: _ => c <> 0 /\ c <> ch "#" | [] => False end.
Proof.
  intros o k H. unfold spellings in H. cbn [In] in H.
  repeat (destruct H as [H|H]; [injection H as <- <-; split; [cbn; intuition discriminate|split; discriminate]|]). destruct H.
Qed.
Lemma spellings_fun : forall o k k', In (o, k) spellings -> In (o, k') spellings -> k = k'.
Proof.
  intros o k k' H H'. unfold spellings in H. cbn [In] in H.
  repeat (destruct H as [H|H]; [injection H as <- <-; unfold spellings in H'; cbn [In] in H'; repeat (destruct H' as [H'|H']; [first [discriminate H' | congruence]|]); destruct H'|]). destruct H.
Qed.
Definition extends (o : list N) : bool := existsb (fun p => (List.length o <? List.length (fst p))%nat && list_N_eqb (firstn (List.length o) (fst p)) o) spellings.
Lemma extends_iff : forall o, extends o = true <-> extensible o.
Proof.
  intros o. unfold extends, extensible. rewrite existsb_exists. split.
  - intros ([o1 k] & Hi & H). cbn [fst] in H. apply andb_true_iff in H. destruct H as [H1 H2]. apply Nat.ltb_lt in H1. apply list_N_eqb_eq in H2.
    rewrite <- (firstn_skipn (List.length o) o1) in Hi. rewrite H2 in Hi. destruct (skipn (List.length o) o1) as [|c o'] eqn:E; [|exists c, o', k; exact Hi].
    assert (G : List.length (skipn (List.length o) o1) = 0%nat) by (rewrite E; reflexivity). rewrite skipn_length in G. lia.
  - intros (c & o' & k & Hi). exists (o ++ c :: o', k). split; auto. cbn [fst]. rewrite app_length. cbn [List.length]. apply andb_true_iff. split; [apply Nat.ltb_lt; lia|].
    apply list_N_eqb_eq. rewrite firstn_app, Nat.sub_diag, firstn_all. cbn [firstn]. apply app_nil_r.
Qed.
Ltac inh := unfold spellings; cbn [In]; repeat (first [left; reflexivity | right]).
(** The other operators are not longer. *)
Lemma eqb_lit : forall d a : N, (d =? a) = true -> d = a.
Proof. intros d a. apply N.eqb_eq. Qed.
Ltac shorter :=
  let o' := fresh "o'" in let k' := fresh "k'" in let r' := fresh "r'" in let Hi := fresh "Hi" in let Hs := fresh "Hs" in
  intros o' k' r' Hi Hs; apply spells_b in Hs; [|apply (spellings_plain _ _ Hi)];
  unfold spellings in Hi; cbn [In] in Hi;
  repeat (destruct Hi as [Hi|Hi]; [injection Hi as <- <-; cbn [List.length str List.length]; first [solve [cbn; lia] | exfalso;
    repeat (progress (cbn [spellsb str list_ascii_of_string map] in Hs; repeat match goal with E : lc _ = _ |- _ => rewrite E in Hs end)); cbn -[lc] in Hs;
    repeat match goal with E : lc _ = _ |- _ => rewrite E in Hs end; cbn -[lc] in Hs;
    repeat match type of Hs with (_ && _ = true) => apply andb_true_iff in Hs; let G := fresh "G" in destruct Hs as [G Hs] end;
    repeat match goal with E : (_ =? _) = true |- _ => apply eqb_lit in E; subst end; cbn in *; first [discriminate | congruence]]|]);
  destruct Hi.
Lemma operator_sound : forall s k r, operator s = Some (k, r) -> ends s /\ k = TT_END_OF_INPUT /\ r = s \/ ~ ends s /\ longest s k r.
Proof.
  intros [|c s] k r H; cbn [operator] in H; [injection H as <- <-; left; unfold ends; auto|].
  destruct (c =? 0) eqn:E0; [apply N.eqb_eq in E0; subst; injection H as <- <-; left; unfold ends; eauto|]. right.
  split; [intros [G|[s' G]]; [discriminate|injection G as -> ->; discriminate]|].
  assert (X : forall o r0, extends o = false -> In (o, k) spellings -> spells o (c :: s) r0 ->
    (forall o' k' r', In (o', k') spellings -> spells o' (c :: s) r' -> (List.length o' <= List.length o)%nat) -> r = r0 -> longest (c :: s) k r).
  { intros o r0 Hx Hi Hs Hm ->. exists o, r0. repeat split; auto. intros He. apply extends_iff in He. congruence. }
  assert (Y : forall o r0, extends o = true -> In (o, k) spellings -> spells o (c :: s) r0 ->
    (forall o' k' r', In (o', k') spellings -> spells o' (c :: s) r' -> (List.length o' <= List.length o)%nat) -> r = lc r0 -> longest (c :: s) k r).
  { intros o r0 Hx Hi Hs Hm ->. exists o, r0. repeat split; auto; [|intros He; destruct He; apply extends_iff; exact Hx].
    intros _. destruct (lc_split r0) as (j & H1 & H2 & H3). exists j. auto. }
  destruct (c =? 10) eqn:E1; [apply N.eqb_eq in E1; subst c; injection H as <- <-; apply (X [10] s); [reflexivity|inh|constructor|shorter|reflexivity]|].
  destruct (c =? ch "(") eqn:E2; [apply N.eqb_eq in E2; subst c; injection H as <- <-; apply (X (str "(") s); [reflexivity|inh|constructor|shorter|reflexivity]|].
  destruct (c =? ch ")") eqn:E3; [apply N.eqb_eq in E3; subst c; injection H as <- <-; apply (X (str ")") s); [reflexivity|inh|constructor|shorter|reflexivity]|].
  assert (S2 : forall d r0, lc s = d :: r0 -> spells [c; d] (c :: s) r0) by (intros d r0 E; apply spells_lc; rewrite E; constructor).
  assert (S3 : forall d e r0 r1, lc s = d :: r0 -> lc r0 = e :: r1 -> spells [c; d; e] (c :: s) r1) by (intros d e r0 r1 E G; apply spells_lc; rewrite E; apply spells_lc; rewrite G; constructor).
  assert (F1 : forall d r0 a, lc s = d :: r0 -> (d =? a) = true -> lc s = a :: r0) by (intros d r0 a E G; apply N.eqb_eq in G; congruence).
  destruct (c =? ch ";") eqn:E4; [apply N.eqb_eq in E4; subst c|].
  { destruct (lc s) as [|d r0] eqn:El; [injection H as <- <-; apply (Y (str ";") s); [reflexivity|inh|constructor|shorter|congruence]|].
    destruct (d =? ch ";") eqn:Ed; injection H as <- <-.
    - apply (X (str ";;") r0); [reflexivity|inh|apply eqb_lit in Ed; subst d; apply S2; reflexivity|shorter|reflexivity].
    - apply (Y (str ";") s); [reflexivity|inh|constructor|shorter|congruence]. }
  destruct (c =? ch "&") eqn:E5; [apply N.eqb_eq in E5; subst c|].
  { destruct (lc s) as [|d r0] eqn:El; [injection H as <- <-; apply (Y (str "&") s); [reflexivity|inh|constructor|shorter|congruence]|].
    destruct (d =? ch "&") eqn:Ed; injection H as <- <-.
    - apply (X (str "&&") r0); [reflexivity|inh|apply eqb_lit in Ed; subst d; apply S2; reflexivity|shorter|reflexivity].
    - apply (Y (str "&") s); [reflexivity|inh|constructor|shorter|congruence]. }
  destruct (c =? ch "|") eqn:E6; [apply N.eqb_eq in E6; subst c|].
  { destruct (lc s) as [|d r0] eqn:El; [injection H as <- <-; apply (Y (str "|") s); [reflexivity|inh|constructor|shorter|congruence]|].
    destruct (d =? ch "|") eqn:Ed; injection H as <- <-.
    - apply (X (str "||") r0); [reflexivity|inh|apply eqb_lit in Ed; subst d; apply S2; reflexivity|shorter|reflexivity].
    - apply (Y (str "|") s); [reflexivity|inh|constructor|shorter|congruence]. }
  destruct (c =? ch "<") eqn:E7; [apply N.eqb_eq in E7; subst c|].
  { destruct (lc s) as [|d r0] eqn:El; [injection H as <- <-; apply (Y (str "<") s); [reflexivity|inh|constructor|shorter|congruence]|].
    destruct (d =? ch ">") eqn:Ed1; [injection H as <- <-; apply (X (str "<>") r0); [reflexivity|inh|apply eqb_lit in Ed1; subst d; apply S2; reflexivity|shorter|reflexivity]|].
    destruct (d =? ch "(") eqn:Ed2; [injection H as <- <-; apply (X (str "<(") r0); [reflexivity|inh|apply eqb_lit in Ed2; subst d; apply S2; reflexivity|shorter|reflexivity]|].
    destruct (d =? ch "&") eqn:Ed3; [injection H as <- <-; apply (X (str "<&") r0); [reflexivity|inh|apply eqb_lit in Ed3; subst d; apply S2; reflexivity|shorter|reflexivity]|].
    destruct (d =? ch "<") eqn:Ed4; [|injection H as <- <-; apply (Y (str "<") s); [reflexivity|inh|constructor|shorter|congruence]].
    apply eqb_lit in Ed4; subst d. clear Ed1 Ed2 Ed3.
    destruct (lc r0) as [|e r1] eqn:Er; [injection H as <- <-; apply (Y (str "<<") r0); [reflexivity|inh|apply S2; reflexivity|shorter|congruence]|].
    destruct (e =? ch "-") eqn:Ee1; [injection H as <- <-; apply (X (str "<<-") r1); [reflexivity|inh|apply eqb_lit in Ee1; subst e; eapply S3; [reflexivity|exact Er]|shorter|reflexivity]|].
    destruct (e =? ch "<") eqn:Ee2; [injection H as <- <-; apply (X (str "<<<") r1); [reflexivity|inh|apply eqb_lit in Ee2; subst e; eapply S3; [reflexivity|exact Er]|shorter|reflexivity]|].
    injection H as <- <-; apply (Y (str "<<") r0); [reflexivity|inh|apply S2; reflexivity|shorter|congruence]. }
  destruct (c =? ch ">") eqn:E8; [apply N.eqb_eq in E8; subst c|discriminate].
  destruct (lc s) as [|d r0] eqn:El; [injection H as <- <-; apply (Y (str ">") s); [reflexivity|inh|constructor|shorter|congruence]|].
  destruct (d =? ch "(") eqn:Ed2; [injection H as <- <-; apply (X (str ">(") r0); [reflexivity|inh|apply eqb_lit in Ed2; subst d; apply S2; reflexivity|shorter|reflexivity]|].
  destruct (d =? ch "&") eqn:Ed3; [injection H as <- <-; apply (X (str ">&") r0); [reflexivity|inh|apply eqb_lit in Ed3; subst d; apply S2; reflexivity|shorter|reflexivity]|].
  destruct (d =? ch "|") eqn:Ed1; [injection H as <- <-; apply (X (str ">|") r0); [reflexivity|inh|apply eqb_lit in Ed1; subst d; apply S2; reflexivity|shorter|reflexivity]|].
  destruct (d =? ch ">") eqn:Ed4; [|injection H as <- <-; apply (Y (str ">") s); [reflexivity|inh|constructor|shorter|congruence]].
  apply eqb_lit in Ed4; subst d. clear Ed1 Ed2 Ed3.
  destruct (lc r0) as [|e r1] eqn:Er; [injection H as <- <-; apply (Y (str ">>") r0); [reflexivity|inh|apply S2; reflexivity|shorter|congruence]|].
  destruct (e =? ch "|") eqn:Ee1; [injection H as <- <-; apply (X (str ">>|") r1); [reflexivity|inh|apply eqb_lit in Ee1; subst e; eapply S3; [reflexivity|exact Er]|shorter|reflexivity]|].
  injection H as <- <-; apply (Y (str ">>") r0); [reflexivity|inh|apply S2; reflexivity|shorter|congruence].
Qed.
