(** Undoing lists of redirections. *)
From Coq Require Import Ascii String.
From Coq Require Import List NArith ZArith Bool Lia.
From Coq Require Import ZifyBool.
From Verif Require Import Common Locale NumModel RedirModel RedirSpec RedirProofs.
Import ListNotations.
Open Scope res_scope.
Open Scope Z_scope.

Section Undo.
Variable L : locale.
Variable OM MIN : Z.
Variable posix clobber sockets : bool.
Variable PB : Z.
Hypothesis HOM : OM <= FD_SETSIZE.
Hypothesis HMIN : 0 <= MIN.
Notation num := (fd_number L).

(** ** Lists of redirections *)
Definition pipes_low (l : list redir) : Prop := Forall (fun r => rd_type r = RT_PIPE -> rd_fd r < MIN) l.
Definition all_targets (l : list redir) : list Z := flat_map (targets num) l.
Lemma stepped_weaken (P Q : Prop) d s s' : stepped OM MIN P d s s' -> (Q -> P) -> stepped OM MIN Q d s s'.
Proof. intros [A1 A2 A3 A4 A5 A6 A8 A7] H. constructor; auto. Qed.
Record all_did (l : list redir) (ok : bool) (d : saved) (s s' : st) : Prop := {
  ad_step : stepped OM MIN (Forall (fun r => rd_fd r < OM) l) d s s';
  ad_effect : ok = true -> effects num l (visible s) (visible s');
  ad_others : forall x, ~ In x (all_targets l) -> tbl s x <> None -> tbl s' x = tbl s x;
  ad_origs : forall x, In x (origs d) -> In x (all_targets l);
  ad_all : ok = true -> refused s' = false -> forall x, In x (all_targets l) -> In x (origs d) }.
Lemma open_all_ok l : forall save s, consistent OM MIN s -> pipes_low l ->
  exists ok d s', open_all L OM MIN posix clobber sockets PB l save s = Ok ((ok, d ++ save), s') /\ all_did l ok d s s'.
Proof.
  induction l as [|r l IH]; intros save s Hc Hp; cbn [open_all].
  - exists true, [], s. split; [reflexivity|]. constructor; auto; try (intros x []).
    + now apply stepped_refl.
    + intros _. constructor. apply same_refl.
  - inversion Hp as [|? ? Hp1 Hp2]; subst. destruct (redirection_ok L OM MIN posix clobber sockets PB HOM HMIN r save s Hc Hp1) as (ok & d & s1 & E & D). unfold bind. rewrite E. cbn [rbind].
    destruct D as [D1 D2 D3 D4 D5].
    destruct ok.
    + destruct (IH (d ++ save) s1 (sp_ok _ _ _ _ _ _ D1) Hp2) as (ok & d2 & s2 & E2 & A). rewrite E2. exists ok, (d2 ++ d), s2. rewrite app_assoc. split; [reflexivity|].
      destruct A as [A1 A2 A3 A4 A5]. constructor.
      * apply stepped_weaken with (rd_fd r < OM /\ Forall (fun r => rd_fd r < OM) l); [eapply stepped_trans; eauto|]. intros H. inversion H; auto.
      * intros Hok. econstructor; eauto.
      * intros x Hx Hn. unfold all_targets in Hx. cbn [flat_map] in Hx. rewrite in_app_iff in Hx. rewrite A3, D3; auto. rewrite D3; auto.
      * intros x. unfold origs, all_targets. rewrite map_app. cbn [flat_map]. rewrite !in_app_iff. intros [H|H]; [right; now apply A4|left; now apply D4].
      * intros Hok Hr x. unfold origs, all_targets. rewrite map_app. cbn [flat_map]. rewrite !in_app_iff. intros [H|H]; [right|left; now apply A5]. apply D5; auto.
        apply (mono _ _ (sp_mono _ _ _ _ _ _ A1)). exact Hr.
    + exists false, d, s1. split; [reflexivity|]. constructor; try discriminate.
      * apply stepped_weaken with (rd_fd r < OM); [exact D1|]. intros H. now inversion H.
      * intros x Hx Hn. apply D3; auto. intros H. apply Hx. unfold all_targets. cbn [flat_map]. rewrite in_app_iff. now left.
      * intros x Hx. unfold all_targets. cbn [flat_map]. rewrite in_app_iff. left. now apply D4.
Qed.

End Undo.

(** ** shellfdmax *)
Definition max_ok (s : st) : Prop := (forall x, shellfds s x = true -> 0 <= x <= shellfdmax s) /\ (shellfdmax s = -1 \/ shellfds s (shellfdmax s) = true).
Lemma max_unique s s' : max_ok s -> max_ok s' -> same (shellfds s) (shellfds s') -> shellfdmax s = shellfdmax s'.
Proof.
  intros [A1 A2] [B1 B2] H. destruct A2 as [A2|A2], B2 as [B2|B2].
  - congruence.
  - rewrite <- (H _) in B2. apply A1 in B2. lia.
  - rewrite (H _) in A2. apply B1 in A2. lia.
  - rewrite (H _) in A2. rewrite <- (H _) in B2. apply B1 in A2. apply A1 in B2. lia.
Qed.
Lemma below_spec f k : -1 <= below f k < Z.of_nat k /\ (below f k = -1 \/ f (below f k) = true) /\ forall x, 0 <= x < Z.of_nat k -> f x = true -> x <= below f k.
Proof.
  induction k as [|k (I1 & I2 & I3)]; cbn [below].
  - split; [cbn; lia|]. split; [now left|]. intros x. cbn. lia.
  - destruct (f (Z.of_nat k)) eqn:E.
    + split; [lia|]. split; [now right|]. lia.
    + split; [lia|]. split; [exact I2|]. intros x Hx Hf. destruct (Z.eq_dec x (Z.of_nat k)) as [->|N]; [congruence|]. apply I3; auto. lia.
Qed.
Lemma remove_ok n s : n < FD_SETSIZE -> 0 <= n -> shellfdmax s <= FD_SETSIZE -> exists s', remove_shellfd n s = Ok (tt, s') /\ tbl s' = tbl s /\ refused s' = refused s /\ shellfds s' = set (shellfds s) n false /\
  shellfdmax s' <= shellfdmax s /\ (max_ok s -> max_ok s').
Proof.
  intros Hn Hn0 Hm. unfold remove_shellfd. replace ((0 <=? n) && (n <? FD_SETSIZE)) with true by lia. cbv zeta. destruct (Z.eqb_spec n (shellfdmax s)) as [E|N].
  - replace (FD_SETSIZE <=? shellfdmax s - 1) with false by lia. eexists. split; [reflexivity|]. cbn [tbl refused shellfds shellfdmax]. repeat (split; [reflexivity|]).
    set (f := set (shellfds s) n false). destruct (below_spec f (Z.to_nat (shellfdmax s))) as (B1 & B2 & B3). split; [lia|]. intros [A1 A2]. split; cbn [shellfds shellfdmax]; [|exact B2].
    intros x Hx. subst f. destruct (Z.eq_dec x n) as [->|Nx]; [rewrite set_eq in Hx; discriminate|]. pose proof Hx as Hx'. rewrite set_ne in Hx by exact Nx. apply A1 in Hx. split; [lia|]. apply B3; [lia|exact Hx'].
  - eexists. split; [reflexivity|]. cbn [tbl refused shellfds shellfdmax]. do 3 (split; [reflexivity|]). split; [lia|]. intros [A1 A2]. split; cbn [shellfds shellfdmax].
    + intros x Hx. destruct (Z.eq_dec x n) as [->|Nx]; [rewrite set_eq in Hx; discriminate|]. rewrite set_ne in Hx by exact Nx. auto.
    + destruct A2 as [A2|A2]; [now left|]. right. now rewrite set_ne by congruence.
Qed.

Section Undo2.
Variable OM MIN : Z.
Hypothesis HOM : OM <= FD_SETSIZE.
Hypothesis HMIN : 0 <= MIN.
(** ** Undoing *)
Lemma undo_ok d : forall s, Forall (fun x => 0 <= fst x /\ (0 <= snd x -> fst x < OM /\ snd x < OM)) d -> shellfdmax s <= FD_SETSIZE ->
  exists s', undo_redirections OM d s = Ok (tt, s') /\ (refused s = true -> refused s' = true) /\ (refused s' = false -> veq (view_of s') (undo_pure d (view_of s))) /\
    (forall x, ~ In x (origs d) -> ~ In x (copies d) -> tbl s' x = tbl s x) /\ same (shellfds s') (snd (undo_pure d (view_of s))) /\ (max_ok s -> max_ok s') /\
    (forall x, tbl s' x <> None -> tbl s x <> None \/ 0 <= x < OM) /\ (forall x, In x (copies d) -> ~ In x (origs d) -> tbl s' x = None).
Proof.
  induction d as [|[o c] d IH]; intros s Hr Hm; cbn [undo_redirections].
  - exists s. split; [reflexivity|]. split; [auto|]. split; [intros _; apply veq_refl|]. split; [auto|]. split; [apply same_refl|]. split; [auto|]. split; [auto|]. intros x [].
  - inversion Hr as [|? ? [Ho Hc] Hr']; subst. cbn [fst snd] in *.
    assert (X : exists s1, (if 0 <=? c then do _ <- remove_shellfd c; do _ <- xdup2 OM c o; xclose c else xclose o) s = Ok (tt, s1) /\ (refused s = true -> refused s1 = true) /\
        (refused s1 = false -> veq (view_of s1) (undo1 (o, c) (view_of s))) /\ same (shellfds s1) (snd (undo1 (o, c) (view_of s))) /\
        (forall x, x <> o -> (0 <= c -> x <> c) -> tbl s1 x = tbl s x) /\ shellfdmax s1 <= FD_SETSIZE /\ (max_ok s -> max_ok s1) /\
        (forall x, tbl s1 x <> None -> tbl s x <> None \/ 0 <= x < OM) /\ (0 <= c -> tbl s1 c = None)).
    { unfold undo1. cbn [fst snd]. destruct (Z.leb_spec 0 c) as [Hc0|Hc0].
      - destruct (Hc Hc0) as [Ho' Hc']. assert (HcF : c < FD_SETSIZE) by lia.
        destruct (remove_ok c s HcF Hc0 Hm) as (s1 & E1 & T1 & R1 & S1 & M1 & X1). unfold bind. rewrite E1. cbn [rbind].
        destruct (xdup2_ok OM c o s1) as (ok & s2 & -> & K & D). cbn [rbind xclose]. eexists. split; [reflexivity|]. set (s3 := with_tbl _ s2).
        destruct K as (K1 & K2 & K3). rewrite R1 in K3. split; [exact K3|]. rewrite S1 in K1. rewrite T1 in D.
        assert (Sh : shellfds s3 = set (shellfds s) c false) by exact K1.
        assert (TO : forall x, x <> o -> x <> c -> tbl s3 x = tbl s x).
        { intros x Nx Nc. subst s3. cbn [with_tbl tbl]. rewrite set_ne by exact Nc. destruct ok.
          - destruct D as (f & b & E & R & D). destruct (c =? o); [now rewrite D|]. destruct D as [_ D]. now apply D.
          - destruct D as [D _]. destruct (c =? o); [now rewrite D|]. destruct D as [_ D]. now apply D. }
        assert (Tc : tbl s3 c = None) by (subst s3; cbn [with_tbl tbl]; apply set_eq).
        split; [|split; [|split; [|split; [|split; [|split]]]]].
        + intros Hnr. split; cbn [view_of fst snd]; [|rewrite Sh; apply same_refl]. intros x. destruct (Z.eq_dec x c) as [->|Nc]; [rewrite set_eq; unfold file_at; now rewrite Tc|]. rewrite set_ne by exact Nc.
          destruct (Z.eq_dec x o) as [->|No]; [|rewrite set_ne by exact No; unfold file_at; now rewrite TO]. rewrite set_eq. unfold file_at. subst s3. cbn [with_tbl tbl]. rewrite set_ne by exact Nc.
          destruct (Z.eqb_spec c o) as [|_]; [congruence|]. destruct ok.
          * destruct D as (f & b & E & R & D1 & D2). now rewrite E, D1.
          * destruct D as [[D1 D2] Df]. rewrite D1. destruct Df as [Df|[Df|Df]]; [|now rewrite Df|lia]. cbn [with_tbl refused] in Hnr. congruence.
        + cbn [snd]. rewrite Sh. apply same_refl.
        + intros x Nx Nc. apply TO; auto.
        + change (shellfdmax s3) with (shellfdmax s2). lia.
        + intros Hmx. apply X1 in Hmx. unfold max_ok in *. rewrite Sh. change (shellfdmax s3) with (shellfdmax s2). rewrite K2. rewrite S1 in Hmx. exact Hmx.
        + intros x Hx. destruct (Z.eq_dec x c) as [->|Nc]; [congruence|]. destruct (Z.eq_dec x o) as [->|No]; [right; lia|]. rewrite TO in Hx by auto. now left.
        + auto.
      - eexists. split; [reflexivity|]. cbn [with_tbl tbl refused shellfds shellfdmax]. split; [auto|]. split.
        { intros _. split; cbn [view_of fst snd]; [|apply same_refl]. intros x. unfold file_at. cbn [with_tbl tbl]. destruct (Z.eq_dec x o) as [->|No]; [now rewrite !set_eq|now rewrite !set_ne]. }
        split; [apply same_refl|]. split; [intros x No _; now rewrite set_ne|]. split; [exact Hm|]. split; [auto|]. split; [|lia].
        intros x Hx. destruct (Z.eq_dec x o) as [->|No]; [rewrite set_eq in Hx; congruence|]. rewrite set_ne in Hx by exact No. now left. }
    destruct X as (s1 & E1 & R1 & V1 & S1 & T1 & M1 & X1 & P1 & C1). unfold bind at 1. rewrite E1. cbn [rbind].
    destruct (IH s1 Hr' M1) as (s2 & E2 & R2 & V2 & T2 & S2 & X2 & P2 & C2). exists s2. split; [exact E2|]. split; [auto|].
    assert (Ci : forall x, In x (copies ((o, c) :: d)) <-> (0 <= c /\ x = c) \/ In x (copies d)).
    { intros x. unfold copies. cbn [flat_map snd]. rewrite in_app_iff. destruct (Z.leb_spec 0 c); cbn; intuition. }
    change (undo_pure ((o, c) :: d) (view_of s)) with (undo_pure d (undo1 (o, c) (view_of s))).
    split; [|split; [|split; [|split; [|split]]]].
    + intros Hnr. pose proof (mono _ _ R2 Hnr) as Hn1. apply veq_trans with (undo_pure d (view_of s1)); [auto|]. apply undo_veq. auto.
    + intros x Hx Hy. cbn [origs map fst] in Hx. rewrite Ci in Hy. assert (Hx1 : x <> o) by (intros ->; apply Hx; now left). assert (Hx2 : ~ In x (origs d)) by (intros H; apply Hx; now right).
      rewrite T2 by tauto. apply T1; tauto.
    + apply same_trans with (snd (undo_pure d (view_of s1))); [exact S2|]. clear - S1.
      assert (G : forall v w, same (snd v) (snd w) -> same (snd (undo_pure d v)) (snd (undo_pure d w))).
      { induction d as [|x d IH]; intros v w H; [exact H|]. apply IH. unfold undo1. destruct (0 <=? snd x); cbn [snd]; [now apply same_set|exact H]. }
      apply G. exact S1.
    + auto.
    + intros x Hx. destruct (P2 x Hx) as [H|H]; [|now right]. auto.
    + intros x Hx Hy. cbn [origs map fst] in Hy. rewrite Ci in Hx. destruct (in_dec Z.eq_dec x (copies d)) as [Hd|Hd]; [apply C2; auto; intros H; apply Hy; now right|].
      destruct Hx as [[Hc0 ->]|Hx]; [|contradiction]. rewrite T2; auto. intros H. apply Hy. now right.
Qed.

(** ** A command in between *)
Lemma undo_local d : forall (v w : view) (A : Z -> Prop), (forall x, A x -> fst v x = fst w x) -> (forall x, In x (copies d) -> A x) ->
  forall x, A x \/ In x (origs d) -> fst (undo_pure d v) x = fst (undo_pure d w) x.
Proof.
  induction d as [|[o c] d IH]; intros v w A HA Hd x Hx.
  - destruct Hx as [Hx|[]]. auto.
  - change (undo_pure ((o, c) :: d) v) with (undo_pure d (undo1 (o, c) v)). change (undo_pure ((o, c) :: d) w) with (undo_pure d (undo1 (o, c) w)).
    apply IH with (fun x => A x \/ x = o).
    + intros y Hy. unfold undo1. cbn [fst snd]. destruct (Z.leb_spec 0 c) as [Hc|Hc]; cbn [fst].
      * assert (Ac : A c) by (apply Hd; unfold copies; cbn [flat_map snd]; replace (0 <=? c) with true by lia; now left).
        destruct (Z.eq_dec y c) as [->|Nc]; [now rewrite !set_eq|]. rewrite !(set_ne _ c) by exact Nc. destruct (Z.eq_dec y o) as [->|No]; [rewrite !set_eq; auto|]. rewrite !set_ne by exact No. destruct Hy; [auto|contradiction].
      * destruct (Z.eq_dec y o) as [->|No]; [now rewrite !set_eq|]. rewrite !set_ne by exact No. destruct Hy; [auto|contradiction].
    + intros y Hy. left. apply Hd. unfold copies. cbn [flat_map]. apply in_app_iff. now right.
    + cbn [origs map fst] in Hx. destruct Hx as [Hx|[Hx|Hx]]; auto.
Qed.
Lemma undo_shell d : forall (v : view) x, snd (undo_pure d v) x = true <-> snd v x = true /\ ~ In x (copies d).
Proof.
  induction d as [|[o c] d IH]; intros v x; [cbn; tauto|].
  change (undo_pure ((o, c) :: d) v) with (undo_pure d (undo1 (o, c) v)). rewrite IH. unfold undo1. cbn [fst snd]. unfold copies. cbn [flat_map snd]. rewrite in_app_iff.
  destruct (Z.leb_spec 0 c) as [Hc|Hc]; cbn [snd In]; [|tauto]. destruct (Z.eq_dec x c) as [->|Nc]; [rewrite set_eq; intuition discriminate|]. rewrite set_ne by exact Nc. intuition.
Qed.
Lemma consistent_max s : consistent OM MIN s -> max_ok s /\ shellfdmax s < FD_SETSIZE.
Proof.
  intros (C1 & C2 & C3). split; [split; [|exact C3]|].
  - intros x Hx. destruct (C2 x Hx) as [H _]. lia.
  - destruct C3 as [C3|C3]; [rewrite C3; reflexivity|]. destruct (C2 _ C3) as (_ & f & E). assert (tbl s (shellfdmax s) <> None) as H by congruence. apply C1 in H. lia.
Qed.
(** The descriptors that the shell keeps for the redirections *)
Definition new_fd (s s1 : st) (x : Z) : Prop := shellfds s1 x = true /\ shellfds s x = false.
Lemma new_copies P d s s1 x : stepped OM MIN P d s s1 -> new_fd s s1 x <-> In x (copies d).
Proof.
  intros S. split.
  - intros [H1 H2]. destruct (sp_new _ _ _ _ _ _ S x H1); [congruence|assumption].
  - intros H. destruct (sp_copies _ _ _ _ _ _ S x H) as (_ & A & B). now split.
Qed.
Record kept (s1 s2 : st) : Prop := {
  kp_ok : consistent OM MIN s2;
  kp_mono : refused s1 = true -> refused s2 = true;
  kp_shell : forall x, shellfds s1 x = true -> shellfds s2 x = true /\ tbl s2 x = tbl s1 x }.
Lemma kept_refl s : consistent OM MIN s -> kept s s.
Proof. intros H. constructor; auto. Qed.
Lemma kept_trans s s1 s2 : kept s s1 -> kept s1 s2 -> kept s s2.
Proof. intros [A1 A2 A3] [B1 B2 B3]. constructor; auto. intros x Hx. destruct (A3 x Hx) as [E1 E2]. destruct (B3 x E1) as [E3 E4]. split; [exact E3|congruence]. Qed.
Lemma undo_after P d s s1 s2 : consistent OM MIN s -> stepped OM MIN P d s s1 -> kept s1 s2 ->
  exists s3, undo_redirections OM d s2 = Ok (tt, s3) /\ (refused s2 = true -> refused s3 = true) /\ max_ok s3 /\
    (forall x, shellfds s3 x = true <-> shellfds s2 x = true /\ ~ new_fd s s1 x) /\
    (forall x, ~ In x (origs d) -> ~ new_fd s s1 x -> tbl s3 x = tbl s2 x) /\
    (refused s3 = false -> P -> forall x, In x (origs d) \/ new_fd s s1 x -> file_at s3 x = file_at s x) /\
    ((forall x, In x (origs d) -> shellfds s2 x = true -> new_fd s s1 x) -> consistent OM MIN s3).
Proof.
  intros Hc S K. destruct (consistent_max _ (kp_ok _ _ K)) as [Mx Mb]. assert (Mb' : shellfdmax s2 <= FD_SETSIZE) by lia.
  destruct (undo_ok d s2 (sp_range _ _ _ _ _ _ S) Mb') as (s3 & E & R & V & T & Sh & X & Rg & Cl). pose proof (fun x => new_copies _ _ _ _ x S) as NC.
  assert (Sh' : forall x, shellfds s3 x = true <-> shellfds s2 x = true /\ ~ new_fd s s1 x).
  { intros x. rewrite (Sh x), undo_shell, NC. reflexivity. }
  exists s3. split; [exact E|]. split; [exact R|]. split; [auto|]. split; [exact Sh'|]. split; [|split].
  - intros x H1 H2. apply T; [exact H1|]. now rewrite <- NC.
  - intros Hr HP x Hx. rewrite NC in Hx. destruct (V Hr) as [V1 _]. cbn [view_of fst] in V1. rewrite (V1 x).
    pose proof (mono _ _ R Hr) as Hr2. pose proof (mono _ _ (kp_mono _ _ K) Hr2) as Hr1. destruct (sp_undo _ _ _ _ _ _ S Hr1 HP) as [U _]. cbn [view_of fst] in U. rewrite <- (U x).
    apply (undo_local d (view_of s2) (view_of s1) (fun x => In x (copies d))); [|auto|tauto]. intros y Hy. cbn [view_of fst]. unfold file_at. rewrite <- NC in Hy.
    destruct (kp_shell _ _ K y (proj1 Hy)) as [_ ->]. reflexivity.
  - intros Ho. destruct (kp_ok _ _ K) as (C1 & C2 & C3). split; [|split].
    + intros x Hx. destruct (Rg x Hx); auto.
    + intros x Hx. split; [|apply Sh' in Hx as [H1 H2]; destruct (C2 x H1) as (_ & f & Ef); exists f; rewrite <- Ef; apply T; [intros H; apply H2; auto|now rewrite <- NC]].
      pose proof (proj1 (X Mx) x Hx). apply Sh' in Hx as [H1 H2]. destruct (C2 x H1). lia.
    + apply (X Mx).
Qed.

(** ** Keeping the redirections *)
Lemma clear_ok d : forall s, Forall (fun x => 0 <= fst x /\ (0 <= snd x -> fst x < OM /\ snd x < OM)) d -> shellfdmax s <= FD_SETSIZE ->
  exists s', clear_savefd d s = Ok (tt, s') /\ refused s' = refused s /\ (forall x, shellfds s' x = true <-> shellfds s x = true /\ ~ In x (copies d)) /\
    (forall x, ~ In x (copies d) -> tbl s' x = tbl s x) /\ (forall x, In x (copies d) -> tbl s' x = None) /\ (max_ok s -> max_ok s').
Proof.
  induction d as [|[o c] d IH]; intros s Hr Hm; cbn [clear_savefd].
  - exists s. split; [reflexivity|]. split; [reflexivity|]. split; [cbn; tauto|]. split; [auto|]. split; [intros x []|auto].
  - inversion Hr as [|? ? [Ho Hc] Hr']; subst. cbn [fst snd] in *.
    assert (Ci : forall x, In x (copies ((o, c) :: d)) <-> (0 <= c /\ x = c) \/ In x (copies d)).
    { intros x. unfold copies. cbn [flat_map snd]. rewrite in_app_iff. destruct (Z.leb_spec 0 c); cbn; intuition. }
    unfold bind. destruct (Z.leb_spec 0 c) as [Hc0|Hc0].
    + destruct (Hc Hc0) as [Ho' Hc']. assert (HcF : c < FD_SETSIZE) by lia.
      destruct (remove_ok c s HcF Hc0 Hm) as (s1 & -> & T1 & R1 & S1 & M1 & X1). cbn [rbind xclose].
      destruct (IH (with_tbl (set (tbl s1) c None) s1) Hr') as (s2 & -> & R2 & S2 & T2 & C2 & X2); [cbn; lia|]. exists s2. split; [reflexivity|]. cbn [with_tbl tbl refused shellfds] in *.
      split; [congruence|]. split; [|split; [|split; [|auto]]].
      * intros x. rewrite S2, S1, Ci. destruct (Z.eq_dec x c) as [->|Nc]; [rewrite set_eq; intuition discriminate|]. rewrite set_ne by exact Nc. intuition.
      * intros x Hx. rewrite Ci in Hx. rewrite T2 by tauto. rewrite set_ne by (intros ->; tauto). now rewrite T1.
      * intros x Hx. rewrite Ci in Hx. destruct (in_dec Z.eq_dec x (copies d)) as [H|H]; [auto|]. destruct Hx as [[_ ->]|Hx]; [|contradiction]. rewrite T2 by exact H. apply set_eq.
    + cbn [ret rbind]. destruct (IH s Hr' Hm) as (s2 & -> & R2 & S2 & T2 & C2 & X2). exists s2. split; [reflexivity|]. split; [exact R2|].
      split; [intros x; rewrite S2, Ci; intuition|]. split; [intros x Hx; rewrite Ci in Hx; apply T2; tauto|]. split; [|exact X2].
      intros x Hx. rewrite Ci in Hx. apply C2. destruct Hx as [[? _]|?]; [lia|assumption].
Qed.
Lemma clear_after P d s s1 s2 : consistent OM MIN s -> stepped OM MIN P d s s1 -> kept s1 s2 ->
  exists s3, clear_savefd d s2 = Ok (tt, s3) /\ refused s3 = refused s2 /\ consistent OM MIN s3 /\
    (forall x, shellfds s3 x = true <-> shellfds s2 x = true /\ ~ new_fd s s1 x) /\ same (visible s2) (visible s3) /\ (forall x, ~ new_fd s s1 x -> tbl s3 x = tbl s2 x).
Proof.
  intros Hc S K. destruct (consistent_max _ (kp_ok _ _ K)) as [Mx Mb]. assert (Mb' : shellfdmax s2 <= FD_SETSIZE) by lia. pose proof (fun x => new_copies _ _ _ _ x S) as NC.
  destruct (clear_ok d s2 (sp_range _ _ _ _ _ _ S) Mb') as (s3 & E & R & Sh & T & C & X). exists s3. split; [exact E|]. split; [exact R|].
  assert (Sh' : forall x, shellfds s3 x = true <-> shellfds s2 x = true /\ ~ new_fd s s1 x) by (intros x; now rewrite Sh, NC).
  split; [|split; [exact Sh'|split]].
  - destruct (kp_ok _ _ K) as (C1 & C2 & C3). split; [|split; [|apply X, Mx]].
    + intros x Hx. destruct (in_dec Z.eq_dec x (copies d)) as [H|H]; [rewrite C in Hx by exact H; congruence|]. rewrite T in Hx by exact H. auto.
    + intros x Hx. pose proof (proj1 (X Mx) x Hx). apply Sh in Hx as [H1 H2]. destruct (C2 x H1) as (Hm & f & Ef). split; [lia|]. exists f. now rewrite T.
  - intros x. unfold visible, file_at. destruct (in_dec Z.eq_dec x (copies d)) as [H|H].
    + rewrite C by exact H. assert (H' : shellfds s2 x = true) by (apply NC in H; destruct H as [H _]; now apply (kp_shell _ _ K)). rewrite H'. now destruct (shellfds s3 x).
    + rewrite T by exact H. destruct (shellfds s3 x) eqn:E3.
      * apply Sh in E3 as [-> _]. reflexivity.
      * destruct (shellfds s2 x) eqn:E2; [|reflexivity]. assert (shellfds s3 x = true) by (apply Sh; auto). congruence.
  - intros x Hx. apply T. now rewrite <- NC.
Qed.
End Undo2.
