From Coq Require Import List NArith ZArith Bool Lia.
From Coq Require Import ZifyBool ZifyN ZifyNat.
From Verif Require Import Common BufModel BufSpec.
Import ListNotations.
Local Open Scope N_scope.

Lemma lenN_app : forall A (a b : list A), lenN (a ++ b) = lenN a + lenN b.
Proof. intros. unfold lenN. rewrite app_length. lia. Qed.
Lemma lenN_cons : forall A (x : A) b, lenN (x :: b) = 1 + lenN b.
Proof. intros. unfold lenN. cbn [length]. lia. Qed.
Lemma lenN_nil : forall A, lenN (@nil A) = 0.
Proof. reflexivity. Qed.
Lemma lenN_map : forall A B (f : A -> B) l, lenN (map f l) = lenN l.
Proof. intros. unfold lenN. now rewrite map_length. Qed.
Lemma lenN_repeat : forall A (x : A) n, lenN (repeat x n) = N.of_nat n.
Proof. intros. unfold lenN. now rewrite repeat_length. Qed.
Lemma lenN_takeN : forall A n (l : list A), lenN (takeN n l) = N.min n (lenN l).
Proof. intros. unfold lenN, takeN. rewrite firstn_length. lia. Qed.
Lemma lenN_dropN : forall A n (l : list A), lenN (dropN n l) = lenN l - n.
Proof. intros. unfold lenN, dropN. rewrite skipn_length. lia. Qed.
Global Hint Rewrite lenN_app lenN_cons lenN_nil lenN_map lenN_repeat lenN_takeN lenN_dropN : len.

Lemma takeN_app_l : forall A (a b : list A) n, n = lenN a -> takeN n (a ++ b) = a.
Proof.
  intros A a b n ->. unfold takeN, lenN. rewrite Nnat.Nat2N.id, firstn_app.
  rewrite Nat.sub_diag, firstn_O, app_nil_r. apply firstn_all.
Qed.
Lemma dropN_app_l : forall A (a b : list A) n, n = lenN a -> dropN n (a ++ b) = b.
Proof.
  intros A a b n ->. unfold dropN, lenN. rewrite Nnat.Nat2N.id, skipn_app.
  rewrite Nat.sub_diag, skipn_all, skipn_O. reflexivity.
Qed.
Lemma takeN_takeN_app : forall A (a b : list A) n m,
  n <= m -> m <= lenN a -> takeN n (takeN m a ++ b) = takeN n a.
Proof.
  intros A a b n m H1 H2. unfold takeN, lenN in *.
  rewrite firstn_app, firstn_firstn, firstn_length.
  replace (N.to_nat n - Nat.min (N.to_nat m) (length a))%nat with O by lia.
  rewrite firstn_O, app_nil_r. f_equal. lia.
Qed.
Lemma takeN_drop : forall A (l : list A) n, takeN n l ++ dropN n l = l.
Proof. intros. apply firstn_skipn. Qed.

Lemma dropN_dropN : forall B (l : list B) i n, dropN n (dropN i l) = skipn (N.to_nat i + N.to_nat n) l.
Proof.
  intros B l i n. unfold dropN. generalize (N.to_nat n) (N.to_nat i). clear.
  intros n i. revert l. induction i as [|i IH]; intros l; cbn [skipn Nat.add]; [reflexivity|].
  destruct l; [now rewrite skipn_nil|]. apply IH.
Qed.

Lemma wadd_small : forall a b, a + b < SIZE_MOD -> wadd a b = a + b.
Proof. intros. apply N.mod_small. assumption. Qed.
Lemma wsub_small : forall a b, b <= a -> a < SIZE_MOD -> wsub a b = a - b.
Proof.
  intros. unfold wsub. replace (a + SIZE_MOD - b) with (a - b + 1 * SIZE_MOD) by lia.
  rewrite N.mod_add by discriminate. apply N.mod_small. lia.
Qed.

Lemma add_spec : forall a b, a < SIZE_MOD -> b < SIZE_MOD ->
  add a b = if a + b <? SIZE_MOD then Ok (Some (a + b)) else Ok None.
Proof.
  intros a b Ha Hb. unfold add. destruct (a + b <? SIZE_MOD) eqn:E.
  - rewrite wadd_small by lia. destruct (a + b <? a) eqn:E2; [lia|reflexivity].
  - unfold wadd. replace ((a + b) mod SIZE_MOD) with (a + b - SIZE_MOD).
    + destruct (a + b - SIZE_MOD <? a) eqn:E2; [reflexivity|lia].
    + replace (a + b) with (a + b - SIZE_MOD + 1 * SIZE_MOD) at 2 by lia.
      rewrite N.mod_add by discriminate. symmetry. apply N.mod_small. lia.
Qed.

Lemma mul_spec : forall a b, 0 < b -> a < SIZE_MOD ->
  mul a b = if a * b <? SIZE_MOD then Ok (Some (a * b)) else Ok None.
Proof.
  intros a b Hb Ha. unfold mul. destruct (b =? 0) eqn:E0; [lia|]. cbn [negb andb].
  destruct (a * b <? SIZE_MOD) eqn:E.
  - unfold wmul. rewrite N.mod_small by lia. rewrite N.div_mul by lia.
    rewrite N.eqb_refl. reflexivity.
  - destruct (wmul a b / b =? a) eqn:E1; [|reflexivity]. exfalso.
    apply N.eqb_eq in E1.
    assert (wmul a b < SIZE_MOD) by (apply N.mod_lt; discriminate).
    assert (b * (wmul a b / b) <= wmul a b) by (apply N.mul_div_le; lia).
    rewrite E1 in H0. rewrite N.mul_comm in H0. lia.
Qed.

Section Cells.
Variable A : Type.
Lemma put_at : forall (p : list (option A)) x q y i, i = lenN p ->
  put A (p ++ x :: q) i y = Ok (p ++ Some y :: q).
Proof.
  intros p x q y i ->. unfold put. autorewrite with len.
  destruct (lenN p <? lenN p + (1 + lenN q)) eqn:E; [|lia].
  rewrite takeN_app_l by reflexivity. f_equal. f_equal. f_equal.
  replace (p ++ x :: q) with ((p ++ [x]) ++ q) by now rewrite <- app_assoc.
  apply dropN_app_l. autorewrite with len. lia.
Qed.

(** splitting off the cell at index i *)
Lemma cell_at : forall (c : list (option A)) i, i < lenN c ->
  exists x, c = takeN i c ++ x :: dropN (i + 1) c.
Proof.
  intros c i H. pose proof (takeN_drop _ c i) as E.
  destruct (dropN i c) as [|x q] eqn:Eq.
  - pose proof (lenN_dropN _ i c) as L. rewrite Eq in L. autorewrite with len in L. lia.
  - exists x. rewrite <- E at 1. f_equal. f_equal.
    rewrite <- E. replace (takeN i c ++ x :: q) with ((takeN i c ++ [x]) ++ q)
      by now rewrite <- app_assoc.
    symmetry. apply dropN_app_l. autorewrite with len. lia.
Qed.

Lemma put_len : forall c i y, i < lenN c ->
  exists c', put A c i y = Ok c' /\ c' = takeN i c ++ Some y :: dropN (i + 1) c /\ lenN c' = lenN c.
Proof.
  intros c i y H. unfold put. destruct (i <? lenN c) eqn:E; [|lia].
  eexists. split; [reflexivity|]. split; [reflexivity|].
  autorewrite with len. lia.
Qed.
End Cells.

Section Proofs.
Variable A : Type.
Variable nul : A.
Variable isnul : A -> bool.
Variable esz step : N.
Variable alloc : N -> bool.
Hypothesis Hesz : 0 < esz.
Set Default Proof Using "All".

Notation holds := (@holds A nul esz).
Notation becomes := (@becomes A nul esz step alloc).
Notation oom := (oom esz step alloc).

Lemma xrealloce_spec : forall c n, n < SIZE_MOD ->
  match xrealloce A esz alloc c n with
  | Ok (Some c') => (n + 1) * esz < SIZE_MOD /\ lenN c' = n + 1 /\
                    (lenN c <= n + 1 -> exists u, c' = c ++ u) /\
                    (n + 1 <= lenN c -> c' = takeN (n + 1) c)
  | Ok None => SIZE_MOD <= (n + 1) * esz \/ alloc ((n + 1) * esz) = false
  | _ => False
  end.
Proof.
  intros c n Hn. unfold xrealloce. rewrite add_spec by (unfold SIZE_MOD in *; lia).
  destruct (n + 1 <? SIZE_MOD) eqn:E; cbn [abind rbind].
  2:{ left. nia. }
  rewrite mul_spec by lia.
  destruct ((n + 1) * esz <? SIZE_MOD) eqn:E2; cbn [abind rbind]; [|left; lia].
  destruct (alloc ((n + 1) * esz)) eqn:E3; [|right; reflexivity].
  split; [lia|]. split; [|split].
  - autorewrite with len. unfold lenN. lia.
  - intros H. eexists. f_equal. unfold takeN. apply firstn_all2. unfold lenN in *. lia.
  - intros H. replace (N.to_nat (n + 1) - length c)%nat with O by (unfold lenN in *; lia).
    cbn [repeat]. now rewrite app_nil_r.
Qed.

Lemma holds_max : forall b l, holds b l -> lenN l <= bmax b.
Proof.
  intros b l (H1 & H2 & [t H3] & H4). rewrite H3 in H2. autorewrite with len in H2. lia.
Qed.
Lemma holds_small : forall b l, holds b l -> bmax b < SIZE_MOD /\ blen b < SIZE_MOD.
Proof.
  intros b l H. pose proof (holds_max b l H). destruct H as (H1 & H2 & [t H3] & H4).
  rewrite H1. nia.
Qed.

(** changing the capacity keeps what fits *)
Lemma setmax_spec : forall b l n, holds b l -> n < SIZE_MOD ->
  match b_setmax A nul esz alloc b n with
  | Ok (Some b') => holds b' (takeN n l) /\ bmax b' = n
  | Ok None => SIZE_MOD <= (n + 1) * esz \/ alloc ((n + 1) * esz) = false
  | _ => False
  end.
Proof.
  intros b l n H Hn. pose proof (holds_max b l H) as HM. destruct H as (H1 & H2 & [t H3] & H4).
  unfold b_setmax. pose proof (xrealloce_spec (contents b) n Hn) as X.
  destruct (xrealloce A esz alloc (contents b) n) as [[c'|]| |]; cbn [abind rbind]; try contradiction.
  2: exact X.
  destruct X as (X1 & X2 & X3 & X4).
  destruct (put_len A c' n nul) as (c2 & P1 & P2 & P3); [lia|].
  rewrite P1. cbn [rbind]. split; [|reflexivity]. unfold BufSpec.holds. cbn [blen bmax contents].
  assert (L : lenN c2 = n + 1) by lia.
  assert (D : dropN (n + 1) c' = []).
  { pose proof (lenN_dropN _ (n + 1) c') as Q. destruct (dropN (n + 1) c'); [reflexivity|].
    autorewrite with len in Q. lia. }
  rewrite D in P2.
  destruct (n <? blen b) eqn:E.
  - split; [autorewrite with len; lia|]. split; [exact L|]. split; [|exact X1].
    exists []. rewrite P2. f_equal.
    rewrite X4 by lia. rewrite H3.
    assert (G : forall k, k <= lenN l -> takeN k (map Some l ++ Some nul :: t) = map Some (takeN k l)).
    { intros k Hk. unfold takeN in *. rewrite firstn_app, map_length, firstn_map.
      replace (N.to_nat k - length l)%nat with O by (unfold lenN in *; lia).
      now rewrite firstn_O, app_nil_r. }
    rewrite G by lia.
    unfold takeN. rewrite <- firstn_map, <- firstn_map. rewrite firstn_firstn. f_equal. lia.
  - assert (takeN n l = l) as -> by (unfold takeN; apply firstn_all2; unfold lenN in *; lia).
    split; [lia|]. split; [exact L|]. split; [|exact X1].
    (* n >= length: the cell after the elements is kept or is the one just written *)
    assert (Hpre : exists u, c' = map Some l ++ u /\ (n <> lenN l -> exists u', u = Some nul :: u')).
    { destruct (N.le_gt_cases (lenN (contents b)) (n + 1)) as [C|C].
      - destruct (X3 C) as [u ->]. rewrite H3. exists (Some nul :: t ++ u).
        split; [now rewrite <- app_assoc|]. intros _. eauto.
      - rewrite X4 by lia. rewrite H3.
        unfold takeN. rewrite firstn_app, map_length.
        rewrite (@firstn_all2 _ (N.to_nat (n+1)) (map Some l)) by (rewrite map_length; unfold lenN in *; lia).
        eexists. split; [reflexivity|]. intros Hne.
        destruct (N.to_nat (n + 1) - length l)%nat as [|k] eqn:Ek; [unfold lenN in *; lia|].
        cbn [firstn]. eauto. }
    destruct Hpre as (u & Hu & Hu').
    destruct (N.eq_dec n (lenN l)) as [->|Hne].
    + exists []. rewrite P2, Hu. rewrite takeN_app_l by (autorewrite with len; lia). reflexivity.
    + destruct (Hu' Hne) as [u' ->].
      exists (takeN (n - lenN l - 1) u' ++ [Some nul]). rewrite P2, Hu.
      unfold takeN at 1. rewrite firstn_app, map_length.
      rewrite (@firstn_all2 _ (N.to_nat n) (map Some l)) by (rewrite map_length; unfold lenN in *; lia).
      rewrite <- app_assoc. f_equal.
      destruct (N.to_nat n - length l)%nat as [|k] eqn:Ek; [unfold lenN in *; lia|].
      cbn [firstn app]. f_equal. f_equal. unfold takeN. f_equal. unfold lenN in *; lia.
Qed.

Lemma ensuremax_spec : forall b l n, holds b l -> n < SIZE_MOD ->
  match b_ensuremax A nul esz step alloc b n with
  | Ok (Some b') => holds b' l /\ n <= bmax b' /\ bmax b <= bmax b'
  | Ok None => oom (bmax b) n
  | _ => False
  end.
Proof.
  intros b l n H Hn. unfold b_ensuremax.
  destruct (n <=? bmax b) eqn:E. { split; [exact H|]. lia. }
  pose proof (holds_max b l H) as HM. pose proof (holds_small b l H) as [HS _].
  set (l15 := wadd (bmax b) (N.shiftr (bmax b) 1)).
  assert (L15 : l15 < SIZE_MOD /\ l15 <= bmax b + bmax b / 2).
  { unfold l15, wadd. rewrite N.shiftr_div_pow2. change (2 ^ 1) with 2.
    split; [apply N.mod_lt; discriminate|]. apply N.mod_le. discriminate. }
  set (n1 := if n <? l15 then l15 else n).
  assert (N1 : n <= n1 /\ n1 < SIZE_MOD /\ n1 <= N.max n (bmax b + bmax b / 2))
    by (unfold n1; destruct (n <? l15) eqn:E1; lia).
  assert (WS : wadd (bmax b) step < SIZE_MOD /\ wadd (bmax b) step <= bmax b + step).
  { unfold wadd. split; [apply N.mod_lt; discriminate|apply N.mod_le; discriminate]. }
  set (n2 := if n1 <? wadd (bmax b) step then wadd (bmax b) step else n1).
  assert (N2 : n <= n2 /\ n2 < SIZE_MOD /\ n2 <= N.max n (bmax b + bmax b / 2 + step)).
  { clearbody n1. unfold n2. set (q := bmax b / 2) in *. destruct (n1 <? wadd (bmax b) step) eqn:E1; lia. }
  pose proof (setmax_spec b l n2 H ltac:(lia)) as S.
  destruct (b_setmax A nul esz alloc b n2) as [[b'|]| |]; try contradiction.
  - destruct S as [S1 S2]. rewrite S2.
    assert (takeN n2 l = l) as Et by (unfold takeN; apply firstn_all2; unfold lenN in *; lia).
    rewrite Et in S1. split; [exact S1|]. lia.
  - split; [lia|]. exists n2. split; [lia|]. split; [lia|]. exact S.
Qed.

Lemma becomes_oom : forall b l n, lenN l = n -> oom (bmax b) n -> becomes b l (Ok None).
Proof. intros b l n <- H. exact H. Qed.

Lemma map_Some_app : forall (l : list A) a b, l = a ++ b -> map Some l = map Some a ++ map Some b.
Proof. intros; subst; apply map_app. Qed.

(** the unchecked replacement, for positions within the contents *)
Lemma replace_force_spec : forall b l1 l2 l3 s a t i bn sn,
  holds b (l1 ++ l2 ++ l3) -> i = lenN l1 -> bn = lenN l2 -> sn = lenN a ->
  s = map Some a ++ t -> sn < SIZE_MOD ->
  becomes b (l1 ++ a ++ l3) (b_replace_force A nul esz step alloc b i bn s sn).
Proof.
  intros b l1 l2 l3 s a t i bn sn H -> -> -> -> Hsn.
  pose proof (holds_max _ _ H) as HM. pose proof (holds_small _ _ H) as [HS1 HS2].
  unfold b_replace_force. pose proof H as (H1 & _). autorewrite with len in H1, HM.
  rewrite wsub_small by lia.
  replace (blen b - lenN l2) with (lenN l1 + lenN l3) by lia.
  rewrite add_spec by lia.
  destruct (lenN l1 + lenN l3 + lenN a <? SIZE_MOD) eqn:E; cbn [abind rbind].
  2:{ unfold BufSpec.becomes, BufSpec.oom. autorewrite with len. split; [lia|].
      exists (lenN l1 + lenN l3 + lenN a). split; [lia|]. split; [lia|].
      left. nia. }
  pose proof (ensuremax_spec b _ (lenN l1 + lenN l3 + lenN a) H ltac:(lia)) as S.
  destruct (b_ensuremax A nul esz step alloc b (lenN l1 + lenN l3 + lenN a)) as [[b'|]| |];
    cbn [abind rbind]; try contradiction.
  2:{ unfold BufSpec.becomes. autorewrite with len.
      replace (lenN l1 + (lenN a + lenN l3)) with (lenN l1 + lenN l3 + lenN a) by lia. exact S. }
  destruct S as (S1 & S2 & S3).
  pose proof (holds_max _ _ S1) as HM'. pose proof (holds_small _ _ S1) as [HS1' HS2'].
  destruct S1 as (G1 & G2 & [u G3] & G4). autorewrite with len in G1, HM'.
  assert (bmax b' + 1 < SIZE_MOD) by nia.
  rewrite (wadd_small (lenN l1) (lenN a)) by lia.
  rewrite (wadd_small (lenN l1) (lenN l2)) by lia.
  rewrite (wsub_small (blen b')) by lia.
  replace (blen b' - (lenN l1 + lenN l2)) with (lenN l3) by lia.
  rewrite wadd_small by lia.
  unfold memmove.
  destruct ((lenN l1 + lenN a + (lenN l3 + 1) <=? lenN (contents b')) &&
            (lenN l1 + lenN l2 + (lenN l3 + 1) <=? lenN (contents b'))) eqn:EM.
  2:{ exfalso. clear -EM G1 G2 S2 HM'. lia. }
  cbn [rbind].
  assert (EP : takeN (lenN l3 + 1) (dropN (lenN l1 + lenN l2) (contents b')) = map Some l3 ++ [Some nul]).
  { rewrite G3, !map_app, <- !app_assoc.
    rewrite (app_assoc (map Some l1)).
    rewrite dropN_app_l by (autorewrite with len; lia).
    change (Some nul :: u) with ([Some nul] ++ u). rewrite app_assoc.
    apply takeN_app_l. autorewrite with len. lia. }
  rewrite EP. set (t' := dropN (lenN l1 + lenN a + (lenN l3 + 1)) (contents b')).
  assert (Lt' : lenN t' = bmax b' - (lenN l1 + lenN a + lenN l3))
    by (unfold t'; autorewrite with len; lia).
  unfold memcpy.
  destruct ((lenN l1 + lenN a <=? lenN (takeN (lenN l1 + lenN a) (contents b') ++ (map Some l3 ++ [Some nul]) ++ t'))
     && (lenN a <=? lenN (map Some a ++ t))) eqn:EC.
  2:{ exfalso. autorewrite with len in EC. clear -EC G1 G2 S2 HM'. lia. }
  cbn [rbind]. unfold BufSpec.becomes.
  rewrite takeN_takeN_app by lia.
  rewrite (takeN_app_l _ (map Some a)) by (autorewrite with len; lia).
  rewrite dropN_app_l by (autorewrite with len; lia).
  assert (E1 : takeN (lenN l1) (contents b') = map Some l1).
  { rewrite G3, !map_app, <- !app_assoc. apply takeN_app_l. autorewrite with len. lia. }
  rewrite E1. split; [|cbn [bmax]; lia].
  unfold BufSpec.holds. cbn [blen bmax contents]. autorewrite with len.
  split; [lia|]. split; [rewrite Lt'; lia|]. split; [|exact G4].
  exists t'. rewrite !map_app, <- !app_assoc. reflexivity.
Qed.

Definition splits (l : list A) (i n : N) :
  l = takeN i l ++ takeN n (dropN i l) ++ dropN n (dropN i l).
Proof. rewrite takeN_drop, takeN_drop. reflexivity. Defined.

(** clamping *)
Lemma clamped_spec : forall b l i n s a t sn,
  holds b l -> i < SIZE_MOD -> n < SIZE_MOD -> sn = lenN a -> sn < SIZE_MOD ->
  s = map Some a ++ t ->
  becomes b (splice l i n a)
    (let i := if blen b <? i then blen b else i in
     let n := if wsub (blen b) i <? n then wsub (blen b) i else n in
     b_replace_force A nul esz step alloc b i n s sn).
Proof.
  intros b l i n s a t sn H Hi Hn Hsn Hsn2 Hs. cbv zeta.
  pose proof (holds_small _ _ H) as [HS1 HS2]. pose proof H as (H1 & _).
  set (i' := if blen b <? i then blen b else i).
  assert (I1 : i' <= lenN l) by (unfold i'; destruct (blen b <? i) eqn:E; lia).
  set (n' := if wsub (blen b) i' <? n then wsub (blen b) i' else n).
  assert (N1 : n' <= lenN l - i').
  { unfold n'. rewrite wsub_small by lia. destruct (blen b - i' <? n) eqn:E; lia. }
  assert (ES : splice l i n a = takeN i' l ++ a ++ dropN n' (dropN i' l)).
  { unfold splice. rewrite dropN_dropN. unfold n', i', takeN. rewrite H1.
    destruct (lenN l <? i) eqn:E.
    - rewrite !(firstn_all2 l) by (unfold lenN in *; lia). f_equal. f_equal.
      rewrite !skipn_all2 by (unfold lenN in *; lia). reflexivity.
    - f_equal. f_equal. rewrite wsub_small by lia. destruct (lenN l - i <? n) eqn:E2; [|reflexivity].
      rewrite !skipn_all2 by (unfold lenN in *; lia). reflexivity. }
  rewrite ES. apply replace_force_spec with (l2 := takeN n' (dropN i' l)) (t := t); auto.
  - rewrite <- splits. exact H.
  - autorewrite with len. lia.
  - autorewrite with len. lia.
Qed.

Lemma pl_replace_spec : forall b l i n s a t an,
  holds b l -> i < SIZE_MOD -> n < SIZE_MOD -> an = lenN a -> an < SIZE_MOD ->
  s = map Some a ++ t ->
  becomes b (splice l i n a) (pl_replace A nul esz step alloc b i n s an).
Proof. intros. unfold pl_replace. eapply clamped_spec; eauto. Qed.

Lemma xnlen_spec : forall a l n f, is_array isnul a l -> (length a <= f)%nat ->
  xnlen A isnul f a n = Ok (N.min n (lenN l)).
Proof.
  intros a l n f [[z [t [-> Hz]]] HF]. revert n f. induction HF as [|x l Hx HF IH]; intros n f Hf.
  - cbn [map app]. destruct f as [|f]; [cbn in Hf; lia|]. cbn [xnlen]. rewrite Hz.
    destruct (n =? 0); rewrite ?N.min_0_r; reflexivity.
  - cbn [map app] in *. destruct f as [|f]; [cbn in Hf; lia|]. cbn [xnlen]. rewrite Hx.
    destruct (n =? 0) eqn:E.
    + f_equal. lia.
    + rewrite IH by (cbn [length] in *; lia). cbn [rbind]. f_equal. autorewrite with len. lia.
Qed.

Lemma plcount_spec : forall a l, is_array isnul a l -> plcount A isnul a = Ok (lenN l).
Proof.
  intros a l [[z [t [-> Hz]]] HF]. induction HF as [|x l Hx HF IH]; cbn [map app plcount].
  - now rewrite Hz.
  - rewrite Hx, IH. cbn [rbind]. f_equal. autorewrite with len. lia.
Qed.

Lemma b_replace_spec : forall b l i n s a sn,
  holds b l -> is_array isnul s a -> i < SIZE_MOD -> n < SIZE_MOD -> sn < SIZE_MOD ->
  becomes b (splice l i n (takeN sn a)) (b_replace A nul isnul esz step alloc b i n s sn).
Proof.
  intros b l i n s a sn H Ha Hi Hn Hsn. unfold b_replace.
  rewrite xnlen_spec with (l := a) by auto. cbn [rbind].
  destruct Ha as [[z [t [-> Hz]]] HF].
  eapply clamped_spec with (t := map Some (dropN sn a) ++ Some z :: t); eauto.
  - autorewrite with len. reflexivity.
  - lia.
  - rewrite app_assoc, <- map_app, takeN_drop. reflexivity.
Qed.

Lemma b_add_spec : forall b l x, holds b l -> becomes b (l ++ [x]) (b_add A nul esz step alloc b x).
Proof.
  intros b l x H. pose proof (holds_small _ _ H) as [HS1 HS2]. pose proof (holds_max _ _ H) as HM.
  unfold b_add. pose proof H as (H1 & _). rewrite add_spec by (unfold SIZE_MOD in *; lia).
  destruct (blen b + 1 <? SIZE_MOD) eqn:E; cbn [abind rbind].
  2:{ unfold BufSpec.becomes, BufSpec.oom. autorewrite with len.
      destruct H as (_ & _ & _ & H4). nia. }
  pose proof (ensuremax_spec b l (blen b + 1) H ltac:(lia)) as S.
  destruct (b_ensuremax A nul esz step alloc b (blen b + 1)) as [[b'|]| |]; cbn [abind rbind]; try contradiction.
  2:{ unfold BufSpec.becomes. autorewrite with len. rewrite <- H1. exact S. }
  destruct S as ((G1 & G2 & [u G3] & G4) & S2 & S3).
  rewrite G3. rewrite put_at by (autorewrite with len; lia). cbn [rbind].
  rewrite wadd_small by lia.
  assert (exists y u', u = y :: u') as (y & u' & ->).
  { rewrite G3 in G2. autorewrite with len in G2. destruct u; [rewrite lenN_nil in G2; lia|eauto]. }
  replace (map Some l ++ Some x :: y :: u') with ((map Some l ++ [Some x]) ++ y :: u') by now rewrite <- app_assoc.
  rewrite put_at by (autorewrite with len; lia). cbn [rbind].
  unfold BufSpec.becomes. split; [|cbn [bmax]; lia].
  unfold BufSpec.holds. cbn [blen bmax contents]. rewrite G3 in G2. autorewrite with len in *.
  split; [lia|]. split; [lia|]. split; [|exact G4].
  exists u'. rewrite map_app. reflexivity.
Qed.

Lemma b_ccat_repeat_spec : forall b l x n, holds b l -> n < SIZE_MOD ->
  becomes b (l ++ repeat x (N.to_nat n)) (b_ccat_repeat A nul esz step alloc b x n).
Proof.
  intros b l x n H Hn. pose proof (holds_small _ _ H) as [HS1 HS2]. pose proof (holds_max _ _ H) as HM.
  unfold b_ccat_repeat. pose proof H as (H1 & _). rewrite add_spec by (unfold SIZE_MOD in *; lia).
  destruct (blen b + n <? SIZE_MOD) eqn:E; cbn [abind rbind].
  2:{ unfold BufSpec.becomes, BufSpec.oom. autorewrite with len. rewrite Nnat.N2Nat.id.
      destruct H as (_ & _ & _ & H4). split; [nia|].
      exists (lenN l + n). split; [lia|]. split; [lia|]. left. nia. }
  pose proof (ensuremax_spec b l (blen b + n) H ltac:(lia)) as S.
  destruct (b_ensuremax A nul esz step alloc b (blen b + n)) as [[b'|]| |]; cbn [abind rbind]; try contradiction.
  2:{ unfold BufSpec.becomes. autorewrite with len. rewrite Nnat.N2Nat.id, <- H1. exact S. }
  destruct S as ((G1 & G2 & [u G3] & G4) & S2 & S3).
  unfold memset. destruct (blen b' + n <=? lenN (contents b')) eqn:E2; [|lia]. cbn [rbind].
  rewrite wadd_small by lia.
  assert (E3 : takeN (blen b') (contents b') = map Some l)
    by (rewrite G3; apply takeN_app_l; autorewrite with len; lia).
  rewrite E3.
  assert (exists y u', dropN (blen b' + n) (contents b') = y :: u') as (y & u' & Eu).
  { pose proof (lenN_dropN _ (blen b' + n) (contents b')) as Q.
    destruct (dropN (blen b' + n) (contents b')); [rewrite lenN_nil in Q; lia|eauto]. }
  assert (Lu : lenN (y :: u') = lenN (contents b') - (blen b' + n)) by (rewrite <- Eu; apply lenN_dropN).
  rewrite Eu, app_assoc.
  rewrite put_at by (autorewrite with len; lia). cbn [rbind].
  unfold BufSpec.becomes. split; [|cbn [bmax]; lia].
  unfold BufSpec.holds. cbn [blen bmax contents]. autorewrite with len in *.
  split; [lia|]. split; [lia|]. split; [|exact G4].
  exists u'. rewrite map_app. f_equal. f_equal. symmetry. clear. induction (N.to_nat n); cbn; congruence.
Qed.

Lemma b_truncate_spec : forall b l n, holds b l -> n <= lenN l ->
  exists b', b_truncate A nul b n = Ok (Some b') /\ holds b' (takeN n l) /\ bmax b' = bmax b.
Proof.
  intros b l n H Hn. pose proof (holds_max _ _ H) as HM. destruct H as (H1 & H2 & [t H3] & H4).
  unfold b_truncate. destruct (n <=? blen b) eqn:E; [|lia].
  destruct (put_len A (contents b) n nul) as (c2 & P1 & P2 & P3); [lia|].
  rewrite P1. cbn [rbind]. eexists. split; [reflexivity|]. split; [|reflexivity].
  unfold BufSpec.holds. cbn [blen bmax contents]. autorewrite with len.
  split; [lia|]. split; [lia|]. split; [|exact H4].
  exists (dropN (n + 1) (contents b)). rewrite P2. f_equal. rewrite H3. unfold takeN.
  rewrite firstn_app, map_length, <- firstn_map.
  replace (N.to_nat n - length l)%nat with O by (unfold lenN in *; lia).
  now rewrite firstn_O, app_nil_r.
Qed.

Lemma b_clear_spec : forall b l, holds b l ->
  exists b', b_clear A nul b = Ok (Some b') /\ holds b' [] /\ bmax b' = bmax b.
Proof.
  intros b l H. destruct (b_truncate_spec b l 0 H) as (b' & E & R); [lia|].
  exists b'. split; [|exact R]. unfold b_truncate in E. unfold b_clear.
  destruct (0 <=? blen b) eqn:E0; [exact E|lia].
Qed.

Lemma b_initwithmax_spec : forall n, n < SIZE_MOD ->
  match b_initwithmax A nul esz alloc n with
  | Ok (Some b) => holds b [] /\ bmax b = n
  | Ok None => SIZE_MOD <= (n + 1) * esz \/ alloc ((n + 1) * esz) = false
  | _ => False
  end.
Proof.
  intros n Hn. unfold b_initwithmax, xmalloce. rewrite add_spec by (unfold SIZE_MOD in *; lia).
  destruct (n + 1 <? SIZE_MOD) eqn:E; cbn [abind rbind]; [|left; nia].
  rewrite mul_spec by lia.
  destruct ((n + 1) * esz <? SIZE_MOD) eqn:E2; cbn [abind rbind]; [|left; lia].
  destruct (alloc ((n + 1) * esz)) eqn:E3; [|right; reflexivity].
  cbn [abind rbind].
  destruct (N.to_nat (n + 1)) as [|k] eqn:Ek; [lia|]. cbn [repeat].
  change (None :: repeat None k) with ([] ++ @None A :: repeat None k).
  rewrite put_at by reflexivity. cbn [rbind app].
  split; [|reflexivity]. unfold BufSpec.holds. cbn [blen bmax contents]. autorewrite with len.
  split; [reflexivity|]. split; [lia|]. split; [|lia]. eexists. reflexivity.
Qed.

Lemma ndup_count_spec : forall a l n f, is_array isnul a l -> (length a <= f)%nat ->
  ndup_count A isnul f a n = Ok (N.min n (lenN l)).
Proof.
  intros a l n f [[z [t [-> Hz]]] HF]. revert n f. induction HF as [|x l Hx HF IH]; intros n f Hf.
  - cbn [map app]. destruct f as [|f]; [cbn in Hf; lia|]. cbn [ndup_count]. rewrite Hz.
    now rewrite N.min_0_r.
  - cbn [map app] in *. destruct f as [|f]; [cbn in Hf; lia|]. cbn [ndup_count]. rewrite Hx.
    destruct (n =? 0) eqn:E.
    + f_equal. lia.
    + rewrite IH by (cbn [length] in *; lia). cbn [rbind]. f_equal. autorewrite with len. lia.
Qed.

Lemma ndup_loop_spec : forall copy k done l r (u : list (option A)) a c,
  a = map Some (done ++ l) ++ r -> k = length l ->
  c = map Some (map copy done) ++ u -> (length u > length l)%nat ->
  exists u', ndup_loop A copy k c a (lenN done) =
     Ok (map Some (map copy (done ++ l)) ++ u') /\ (length u' + length l = length u)%nat.
Proof.
  intros copy k done l. revert k done. induction l as [|x l IH]; intros k done r u a c -> -> -> Hu.
  - cbn [length ndup_loop]. exists u. rewrite app_nil_r. split; [reflexivity|lia].
  - cbn [length ndup_loop]. unfold get.
    rewrite map_app, <- app_assoc, nth_error_app2 by (rewrite map_length; unfold lenN; lia).
    rewrite map_length. unfold lenN at 1. rewrite Nnat.Nat2N.id, Nat.sub_diag. cbn [map app nth_error rbind].
    destruct u as [|y u]; [cbn in Hu; lia|].
    rewrite put_at by (autorewrite with len; lia). cbn [rbind].
    replace (lenN done + 1) with (lenN (done ++ [x])) by (autorewrite with len; lia).
    destruct (IH (length l) (done ++ [x]) r u
       (map Some done ++ Some x :: map Some l ++ r)
       (map Some (map copy done) ++ Some (copy x) :: u)) as (u' & E & L).
    + rewrite !map_app. cbn [map]. rewrite <- !app_assoc. reflexivity.
    + reflexivity.
    + rewrite !map_app. cbn [map]. rewrite <- !app_assoc. reflexivity.
    + cbn [length] in Hu. lia.
    + exists u'. rewrite E. split; [|cbn [length] in *; lia].
      f_equal. rewrite <- app_assoc. reflexivity.
Qed.

Lemma plndup_spec : forall copy a l n, is_array isnul a l -> n < SIZE_MOD -> lenN l < SIZE_MOD ->
  match plndup A nul isnul esz alloc copy a n with
  | Ok (Some c) => c = map Some (map copy (takeN n l)) ++ [Some nul]
  | Ok None => let k := N.min n (lenN l) in
               SIZE_MOD <= (k + 1) * esz \/ alloc ((k + 1) * esz) = false
  | _ => False
  end.
Proof.
  intros copy a l n Ha Hn Hl. unfold plndup. rewrite ndup_count_spec with (l := l) by auto.
  cbn [rbind]. unfold xmalloce. set (k := N.min n (lenN l)).
  rewrite add_spec by (unfold SIZE_MOD in *; lia).
  destruct (k + 1 <? SIZE_MOD) eqn:E; cbn [abind rbind]; [|left; nia].
  rewrite mul_spec by lia.
  destruct ((k + 1) * esz <? SIZE_MOD) eqn:E2; cbn [abind rbind]; [|left; lia].
  destruct (alloc ((k + 1) * esz)) eqn:E3; [|right; reflexivity].
  cbn [abind rbind]. destruct Ha as [[z [t [-> Hz]]] HF].
  destruct (ndup_loop_spec copy (N.to_nat k) [] (takeN n l) (map Some (dropN n l) ++ Some z :: t)
     (repeat None (N.to_nat (k + 1))) (map Some l ++ Some z :: t) (repeat None (N.to_nat (k + 1))))
     as (u' & E4 & L4).
  - cbn [app]. rewrite app_assoc, <- map_app, takeN_drop. reflexivity.
  - pose proof (lenN_takeN _ n l). unfold lenN in *. lia.
  - reflexivity.
  - rewrite repeat_length. pose proof (lenN_takeN _ n l). unfold lenN in *. lia.
  - change (lenN (@nil A)) with 0 in E4. rewrite E4. cbn [rbind].
    rewrite repeat_length in L4. pose proof (lenN_takeN _ n l) as LT.
    destruct u' as [|y [|y' u']]; [cbn [length] in L4; unfold lenN in *; lia| |cbn [length] in L4; unfold lenN in *; lia].
    cbn [app]. rewrite put_at by (autorewrite with len; lia). cbn [rbind]. reflexivity.
Qed.

End Proofs.
