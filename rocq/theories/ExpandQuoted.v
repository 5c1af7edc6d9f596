(** Expansions between double quotes: the result is protected from splitting, brace
    and pathname expansion, and only a single field can be empty. *)
From Coq Require Import Ascii String.
From Coq Require Import List NArith ZArith Bool Arith Lia.
From Coq Require Import ZifyBool ZifyN.
From Verif Require Import Common Locale NumModel CharcatModel Regex XfnmatchModel QuoteModel SplitModel BraceModel ExpandModel ExpandSpec ExpandFour ExpandWord.
Import ListNotations.
Open Scope res_scope.

(** ** Induction on word units *)
Section Ind.
Variable P : wunit -> Prop.
Hypothesis HS : forall s, P (WString s).
Hypothesis HC : forall k, P (WCmdsub k).
Hypothesis HA : forall w, Forall P w -> P (WArith w).
Hypothesis HP : forall number colon ty param start end_ match_ subst,
  match param with inl _ => True | inr w => Forall P w end -> Forall P start -> Forall P end_ -> Forall P match_ -> Forall P subst ->
  P (WParam number colon ty param start end_ match_ subst).
Fixpoint wunit_ind' (u : wunit) : P u :=
  let fix all (w : list wunit) : Forall P w :=
    match w with [] => Forall_nil P | u :: w' => Forall_cons u (wunit_ind' u) (all w') end in
  match u with
  | WString s => HS s
  | WCmdsub k => HC k
  | WArith w => HA w (all w)
  | WParam number colon ty param start end_ match_ subst =>
    HP number colon ty param start end_ match_ subst
      (match param with inl _ => I | inr w => all w end) (all start) (all end_) (all match_) (all subst)
  end.
End Ind.

Definition solid (l : list (list cell)) : Prop :=
  Forall (Forall protected) l /\ (2 <= length l -> Forall (fun f => f <> []) l).

Section Quoted.
Variable L : locale.
Variable C : ctype.
Variable W : world.
Variable OP : opts.

Definition inv (st : four) : Prop :=
  Forall (Forall protected) (fe st) /\ Forall protected (fbuf st) /\ (fe st <> [] -> fbuf st <> [] /\ Forall (fun f => f <> []) (fe st)).
Lemma inv_put st x : inv st -> Forall protected x -> inv (put st x).
Proof.
  intros (H1 & H2 & H3) Hx. unfold inv, put. cbn [fe fbuf]. split; [exact H1|]. split; [apply Forall_app; auto|]. intros Hn. destruct (H3 Hn) as [H4 H5].
  split; [|exact H5]. intros E. apply app_eq_nil in E as [E _]. auto.
Qed.
Lemma inv_flags st i r z : inv st -> inv (mkFour (fe st) (fbuf st) i r z).
Proof. intros H. exact H. Qed.
Lemma inv_merge st l : inv st -> solid l -> inv (merge l st).
Proof.
  intros H [S1 S2]. destruct l as [|x [|y l]]; [exact H|inversion S1; subst; now apply inv_put|].
  destruct H as (H1 & H2 & H3). cbn [length] in S2. specialize (S2 ltac:(lia)). unfold merge. set (r := y :: l) in *.
  assert (Hr : r = removelast r ++ [last r []]) by (apply app_removelast_last; discriminate).
  inversion S1 as [|? ? Sx Sr]; subst. inversion S2 as [|? ? Nx Nr]; subst. rewrite Hr in Sr, Nr. apply Forall_app in Sr as [Sr1 Sr2]. apply Forall_app in Nr as [Nr1 Nr2].
  inversion Sr2; subst. inversion Nr2; subst. unfold inv. cbn [fe fbuf]. split; [|split].
  - apply Forall_app. split; [exact H1|]. constructor; [apply Forall_app; auto|exact Sr1].
  - assumption.
  - intros _. split; [assumption|]. apply Forall_app. split.
    + destruct (fe st); [constructor|]. apply H3. discriminate.
    + constructor; [|exact Nr1]. intros E. apply app_eq_nil in E as [_ E]. auto.
Qed.
Lemma inv_final st : inv st -> solid (final st).
Proof.
  intros (H1 & H2 & H3). unfold final. destruct (fremoveempty st && null (fe st) && null (fbuf st)); [split; [constructor|cbn; lia]|].
  split; [apply Forall_app; split; [exact H1|constructor; [exact H2|constructor]]|]. intros Hl. rewrite app_length in Hl. cbn in Hl.
  destruct (fe st) as [|x l] eqn:E; [cbn in Hl; lia|]. destruct (H3 ltac:(discriminate)) as [H4 H5]. apply Forall_app. auto.
Qed.
Lemma cells_protected k s : quoted k = true -> Forall protected (cells k s).
Proof. intros H. unfold cells. apply Forall_forall. intros x Hx. apply in_map_iff in Hx as (c & <- & _). left. exact H. Qed.

Section Four.
Variable tilde : tildetype.
Variable quot : quoting.
Variable dc : cat.
Hypothesis Htilde : tilde <> TT_MULTI.
Hypothesis Hdc : quoted dc = true.

Lemma prot_or c b : protected (c, or_quoted dc b).
Proof. left. unfold or_quoted. cbn. now rewrite Hdc. Qed.
Lemma prot_mark c : protected (c, set_quotation dc).
Proof. right. reflexivity. Qed.
Lemma prot_set c : protected (c, set_quoted dc).
Proof. left. reflexivity. Qed.
Lemma string_inv fuel : forall e hn ss st st', inv st -> four_string W tilde quot dc fuel e hn ss st = Ok st' -> inv st'.
Proof.
  pose proof prot_or as Po. pose proof prot_mark as Pm. pose proof prot_set as Ps.
  induction fuel as [|fuel IH]; intros e hn ss st st' Hi H; [discriminate|]. destruct ss as [|c s']; [injection H as <-; exact Hi|].
  cbn [four_string] in H.
  assert (D : forall st', four_string W tilde quot dc fuel e hn s' (put st [(c, or_quoted dc (findq st))]) = Ok st' -> inv st').
  { intros st2 H2. eapply IH; [|exact H2]. apply inv_put; [exact Hi|]. constructor; [apply Po|constructor]. }
  destruct (c =? dq)%N.
  { assert (Q : forall f, inv (put (mkFour (fe st) (fbuf st) f (fremovedq st) (fremoveempty st)) [(dq, set_quotation dc)])).
    { intros f. apply inv_put; [exact Hi|]. constructor; [apply Pm|constructor]. }
    destruct quot; try (now apply D).
    all: destruct (negb (findq st)); [eapply IH; [|exact H]; apply inv_put; [exact Hi|constructor; [apply Pm|constructor]]|].
    all: destruct (fremovedq st), (fe st) as [|f0 fl] eqn:Ef, (fbuf st) as [|[d k] [|]] eqn:Eb; try (eapply IH; [|exact H]; apply Q).
    all: destruct ((d =? dq)%N && quotation k); [|eapply IH; [|exact H]; apply Q].
    all: eapply IH; [|exact H]; split; [constructor|split; [constructor|]]; cbn; congruence. }
  destruct (c =? sq)%N.
  { destruct quot; try (now apply D). destruct (findq st); [now apply D|]. destruct (add_sq s' []) as [t [|d r]]; [discriminate|].
    destruct (d =? sq)%N; [|discriminate]. eapply IH; [|exact H]. apply inv_put; [exact Hi|]. constructor; [apply Pm|]. apply Forall_app. split.
    - apply cells_protected. reflexivity.
    - constructor; [apply Pm|constructor]. }
  destruct (c =? bs)%N.
  { match type of H with (if ?b then _ else _) = _ => destruct b end; [|now apply D].
    destruct s' as [|d s'']; (eapply IH; [|exact H]); apply inv_put; auto. }
  destruct (c =? ch ":")%N; [|now apply D]. destruct tilde; first [now apply D|congruence].
Qed.

Variable eu : wunit -> bool -> M W special.
Lemma loop_inv w : forall b st e st' e', Forall (fun u => forall e r e', eu u true e = Ok (Some r, e') -> solid (contribution true r)) w ->
  inv st -> four_loop W tilde quot dc eu w b st e = Ok (Some st', e') -> inv st'.
Proof.
  induction w as [|u w IH]; intros b st e st' e' Hw Hi H; [injection H as <- _; exact Hi|]. inversion Hw as [|u' w' Hu Hw']; subst.
  assert (U : forall k, (forall r, k r = match r with
        | SFields l => four_loop W tilde quot dc eu w false (merge l match l with [] => if findq st then mkFour (fe st) (fbuf st) true true (fremoveempty st)
                            else mkFour (fe st) (fbuf st) false (fremovedq st) true | _ => st end)
        | SText s => four_loop W tilde quot dc eu w false (put st (cells (mkCat Soft (findq st || quoted dc) false) s)) end) ->
      bind W (eu u (findq st || match quot with Q_LITERAL => true | _ => false end || quoted dc)) k e = Ok (Some st', e') -> inv st').
  { intros k Hk H2. unfold bind in H2. rewrite Hdc, orb_true_r in H2. destruct (eu u true e) as [[[r|] e2]| |] eqn:E; try discriminate.
    pose proof (Hu _ _ _ E) as S. rewrite Hk in H2. destruct r as [l|s]; cbn [contribution] in S.
    - eapply IH; [exact Hw'| |exact H2]. apply inv_merge; [|exact S]. destruct l; [destruct (findq st)|]; exact Hi.
    - eapply IH; [exact Hw'| |exact H2]. apply inv_put; [exact Hi|]. apply cells_protected. cbn. now rewrite Hdc, orb_true_r. }
  destruct u as [s| | |]; cbn [four_loop] in H; try (now (eapply U; [|exact H]; intros [[|]|]; reflexivity)).
  clear U. unfold bind at 1 in H.
  match type of H with match (let '(_, _) := ?X in _) with _ => _ end = _ => remember X as x eqn:Ex; destruct x as [st1 s1] end.
  assert (H1 : inv st1).
  { destruct tilde; try (injection Ex as <- <-; exact Hi); destruct b; try (injection Ex as <- <-; exact Hi).
    all: destruct (expand_tilde _ _ _ _ _) as [[home rest]|]; injection Ex as -> ->; try exact Hi.
    all: apply inv_put; [exact Hi|]; apply cells_protected; exact Hdc. }
  unfold lift in H. destruct (four_string _ _ _ _ _ _ _ _ _) as [st2| |] eqn:E2; try discriminate.
  eapply IH; [exact Hw'| |exact H]. eapply string_inv; eauto.
Qed.
Lemma four_solid w e l e' : Forall (fun u => forall e r e', eu u true e = Ok (Some r, e') -> solid (contribution true r)) w ->
  expand_four W eu w tilde quot dc e = Ok (Some l, e') -> solid l.
Proof.
  intros Hw H. unfold expand_four, bind in H. destruct (four_loop _ _ _ _ _ _ _ _ _) as [[[st|] e2]| |] eqn:E; try discriminate.
  assert (Hi : inv st). { eapply loop_inv; [exact Hw| |exact E]. split; [constructor|]. split; [constructor|]. cbn. congruence. }
  apply inv_final in Hi. unfold final in Hi. destruct (fremoveempty st), (fe st), (fbuf st); injection H as <- <-; exact Hi.
Qed.
End Four.

Lemma value_solid vs : solid (value_cells true vs).
Proof.
  unfold value_cells. cbn [andb]. split.
  - apply Forall_forall. intros x Hx. apply in_map_iff in Hx as (v & <- & _). apply Forall_app. split; [now apply cells_protected|].
    destruct (1 <? length vs); [constructor; [left; reflexivity|constructor]|constructor].
  - rewrite map_length. intros Hl. destruct (1 <? length vs) eqn:E; [|apply Nat.ltb_ge in E; lia]. apply Forall_forall. intros x Hx.
    apply in_map_iff in Hx as (v & <- & _). destruct (cells (mkCat Soft true false) v); discriminate.
Qed.
Lemma finish_solid n cc vs e r e' : finish_param W n true cc vs e = Ok (Some r, e') -> solid (contribution true r).
Proof.
  unfold finish_param, bind, gets, ret. intros H. injection H as <- <-. apply value_solid.
Qed.
Lemma modify_solid eu colon ty param m s n t i j cc vs un e r e' :
  Forall (fun u => forall e r e', eu u true e = Ok (Some r, e') -> solid (contribution true r)) s ->
  modify_param L C W OP eu colon ty param m s n true t i j cc vs un e = Ok (Some r, e') -> solid (contribution true r).
Proof.
  intros Hs H. unfold modify_param in H.
  set (unset := un || _) in H.
  assert (B : forall {A B} (x : M W A) (k : A -> M W B) e r e', bind W x k e = Ok (Some r, e') -> exists a e1, x e = Ok (Some a, e1) /\ k a e1 = Ok (Some r, e')).
  { intros A B x k e0 r0 e0' H0. unfold bind in H0. destruct (x e0) as [[[a|] e1]| |]; try discriminate. eauto. }
  assert (U : forall k : M W special, (if unset && negb (o_unset OP) then fail W else k) e = Ok (Some r, e') -> k e = Ok (Some r, e')).
  { intros k Hk. destruct (unset && negb (o_unset OP)); [discriminate|exact Hk]. }
  assert (S : forall e r e', bind W (expand_four W eu s TT_SINGLE Q_DQPARAM (mkCat Soft true false)) (fun l => ret W (SFields l)) e = Ok (Some r, e') -> solid (contribution true r)).
  { intros e0 r0 e0' H0. apply B in H0 as (l & e1 & H0 & H1). injection H1 as <- <-. cbn [contribution]. eapply four_solid; [| |exact Hs|exact H0]; [discriminate|reflexivity]. }
  destruct ty.
  - apply U in H. eapply finish_solid; eauto.
  - destruct unset; [eapply S; eauto|eapply finish_solid; eauto].
  - destruct unset; [eapply finish_solid; eauto|eapply S; eauto].
  - destruct unset; [|eapply finish_solid; eauto]. destruct param as [name|]; [|discriminate]. destruct (negb (is_name L name)); [discriminate|].
    destruct (match t with TScalar => _ | _ => _ end); [discriminate|]. apply B in H as (v & e1 & _ & H). apply B in H as (? & e2 & _ & H). eapply finish_solid; eauto.
  - destruct unset; [|eapply finish_solid; eauto]. destruct s; [discriminate|]. apply B in H as (v & e1 & _ & H). discriminate.
  - apply U in H. apply B in H as (v & e1 & _ & H). apply B in H as (v2 & e2 & _ & H). eapply finish_solid; eauto.
  - apply U in H. apply B in H as (v & e1 & _ & H). apply B in H as (v2 & e2 & _ & H). apply B in H as (v3 & e3 & _ & H). eapply finish_solid; eauto.
Qed.
Lemma text_solid s : solid (contribution true (SText s)).
Proof. split; [constructor; [now apply cells_protected|constructor]|cbn; lia]. Qed.
Lemma unit_solid u : forall e r e', expand_unit L C W OP u true e = Ok (Some r, e') -> solid (contribution true r).
Proof.
  assert (B : forall {A B} (x : M W A) (k : A -> M W B) e r e', bind W x k e = Ok (Some r, e') -> exists a e1, x e = Ok (Some a, e1) /\ k a e1 = Ok (Some r, e')).
  { intros A B x k e0 r0 e0' H0. unfold bind in H0. destruct (x e0) as [[[a|] e1]| |]; try discriminate. eauto. }
  induction u as [s|k|w IHw|number colon ty param start end_ match_ subst IHp IHs IHe IHm IHsub] using wunit_ind'; intros e r e' H.
  - discriminate.
  - cbn [expand_unit] in H. apply B in H as (s & e1 & _ & H). injection H as <- <-. apply text_solid.
  - change (expand_unit L C W OP (WArith w) true) with (bind W (expand_single W (expand_unit L C W OP) w TT_NONE Q_INDQ ES_NONE) (fun s =>
      bind W (fun e => Ok (evaluate_arithmetic W e s)) (fun s => ret W (SText s)))) in H.
    apply B in H as (s & e1 & _ & H). apply B in H as (s2 & e2 & _ & H). injection H as <- <-. apply text_solid.
  - change (expand_unit L C W OP (WParam number colon ty param start end_ match_ subst) true) with
      (bind W (expand_index W (expand_unit L C W OP) start end_) (fun '(startindex, endindex, it) =>
       bind W (expand_value W (expand_unit L C W OP) param) (fun '(t, values, unset) =>
       bind W (lift W (select_values t values startindex endindex it)) (fun '(values, concat, startindex, endindex) =>
       modify_param L C W OP (expand_unit L C W OP) colon ty param match_ subst number true t startindex endindex concat values unset)))) in H.
    apply B in H as ([[si ei] it] & e1 & _ & H). apply B in H as ([[t vs] un] & e2 & _ & H). apply B in H as ([[[vs2 cc] si2] ei2] & e3 & _ & H).
    eapply modify_solid; [exact IHsub|exact H].
Qed.
End Quoted.
