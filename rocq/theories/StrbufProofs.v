From Coq Require Import List NArith ZArith Bool Lia.
From Coq Require Import ZifyBool ZifyN ZifyNat.
From Verif Require Import Common BufModel BufSpec BufProofs StrbufModel StrbufSpec.
Import ListNotations.
Local Open Scope N_scope.

(** like [holds], but the cell after the elements may be anything or missing *)
Definition pholds (esz : N) (b : buf N) (l : list N) : Prop :=
  blen b = lenN l /\
  lenN (contents b) = bmax b + 1 /\
  (exists t, contents b = map Some l ++ t) /\
  (bmax b + 1) * esz < SIZE_MOD.

Lemma holds_pholds : forall esz b l, holds (0 : N) esz b l -> pholds esz b l.
Proof.
  intros esz b l (H1 & H2 & [t H3] & H4). repeat (split; [assumption|]). split; [|assumption].
  eauto.
Qed.

Lemma takeN_all : forall A (l : list A) n, lenN l <= n -> takeN n l = l.
Proof. intros. unfold takeN. apply firstn_all2. unfold lenN in *. lia. Qed.
Lemma dropN_0 : forall A (l : list A), dropN 0 l = l.
Proof. reflexivity. Qed.

Section S.
Variable esz step : N.
Variable alloc : N -> bool.
Hypothesis Hesz : 0 < esz.
Set Default Proof Using "All".

Lemma setmax_p : forall b l n, pholds esz b l -> bmax b < n -> n < SIZE_MOD ->
  match b_setmax N 0 esz alloc b n with
  | Ok (Some b') => pholds esz b' l /\ bmax b' = n
  | Ok None => SIZE_MOD <= (n + 1) * esz \/ alloc ((n + 1) * esz) = false
  | _ => False
  end.
Proof.
  intros b l n (H1 & H2 & [t H3] & H4) Hbn Hn.
  assert (HL : lenN l <= bmax b + 1) by (rewrite H3 in H2; autorewrite with len in H2; lia).
  unfold b_setmax. pose proof (xrealloce_spec N 0 isnul esz step alloc Hesz (contents b) n Hn) as X.
  destruct (xrealloce N esz alloc (contents b) n) as [[c'|]| |]; cbn [abind rbind]; try contradiction.
  2: exact X.
  destruct X as (X1 & X2 & X3 & _). destruct X3 as [u ->]; [lia|].
  destruct (put_len N (contents b ++ u) n 0) as (c2 & P1 & P2 & P3); [lia|].
  rewrite P1. cbn [rbind]. split; [|reflexivity]. unfold pholds. cbn [blen bmax contents].
  split; [destruct (n <? blen b) eqn:E; lia|]. split; [lia|]. split; [|exact X1].
  rewrite P2, H3, <- app_assoc. unfold takeN. rewrite firstn_app, map_length.
  rewrite (firstn_all2 (map Some l)) by (rewrite map_length; unfold lenN in *; lia).
  rewrite <- app_assoc. eauto.
Qed.

Lemma ensuremax_p : forall b l n, pholds esz b l -> bmax b < n -> n < SIZE_MOD ->
  match b_ensuremax N 0 esz step alloc b n with
  | Ok (Some b') => pholds esz b' l /\ n <= bmax b'
  | Ok None => refused alloc ((N.max n (bmax b + bmax b / 2 + step) + 1) * esz)
  | _ => False
  end.
Proof.
  intros b l n H Hb Hn. unfold b_ensuremax.
  destruct (n <=? bmax b) eqn:E. { lia. }
  set (l15 := wadd (bmax b) (N.shiftr (bmax b) 1)).
  assert (L15 : l15 < SIZE_MOD /\ l15 <= bmax b + bmax b / 2).
  { unfold l15, wadd. rewrite N.shiftr_div_pow2. change (2 ^ 1) with 2.
    split; [apply N.mod_lt; discriminate|]. apply N.mod_le. discriminate. }
  set (n1 := if n <? l15 then l15 else n).
  assert (N1 : n <= n1 /\ n1 < SIZE_MOD /\ n1 <= N.max n (bmax b + bmax b / 2))
    by (unfold n1; destruct (n <? l15) eqn:E1; lia).
  assert (WS : wadd (bmax b) step < SIZE_MOD /\ wadd (bmax b) step <= bmax b + step).
  { unfold wadd. split; [apply N.mod_lt; discriminate|apply N.mod_le; discriminate]. }
  set (n2 := if n1 <? wadd (bmax b) step then wadd (bmax b) step else n1).
  assert (N2 : n <= n2 /\ n2 < SIZE_MOD /\ n2 <= N.max n (bmax b + bmax b / 2 + step)).
  { clearbody n1. unfold n2. set (q := bmax b / 2) in *. destruct (n1 <? wadd (bmax b) step) eqn:E1; lia. }
  clearbody n2. clear n1 N1 WS l15 L15.
  pose proof (setmax_p b l n2 H ltac:(lia) ltac:(lia)) as S.
  destruct (b_setmax N 0 esz alloc b n2) as [[b'|]| |]; try contradiction.
  - destruct S as [S1 S2]. rewrite S2. split; [exact S1|lia].
  - exists ((n2 + 1) * esz). split; [|exact S]. apply N.mul_le_mono_r.
    set (q := bmax b / 2) in *. lia.
Qed.

(** storing after the elements *)
Lemma store_p : forall b l out, pholds esz b l -> lenN l + lenN out <= bmax b + 1 ->
  exists c, store (contents b) (blen b) out = Ok c /\
    pholds esz (mkBuf c (lenN l + lenN out) (bmax b)) (l ++ out).
Proof.
  intros b l out (H1 & H2 & [t H3] & H4) HL. unfold store, memcpy.
  destruct ((blen b + lenN out <=? lenN (contents b)) && (lenN out <=? lenN (map Some out))) eqn:E.
  2:{ exfalso. rewrite lenN_map in E. lia. }
  eexists. split; [reflexivity|]. unfold pholds. cbn [blen contents bmax].
  assert (E1 : takeN (blen b) (contents b) = map Some l)
    by (rewrite H3; apply takeN_app_l; autorewrite with len; lia).
  rewrite E1. rewrite (takeN_all _ (map Some out)) by (rewrite lenN_map; lia).
  autorewrite with len. split; [reflexivity|]. split; [lia|]. split; [|exact H4].
  exists (dropN (blen b + lenN out) (contents b)). rewrite map_app, <- app_assoc. reflexivity.
Qed.

(** terminating *)
Lemma term_p : forall b l, pholds esz b l -> lenN l <= bmax b ->
  exists c, put N (contents b) (lenN l) 0 = Ok c /\
    holds (0 : N) esz (mkBuf c (lenN l) (bmax b)) l.
Proof.
  intros b l (H1 & H2 & [t H3] & H4) HL.
  assert (exists y t', t = y :: t') as (y & t' & ->).
  { rewrite H3 in H2. autorewrite with len in H2. destruct t; [rewrite lenN_nil in H2; lia|eauto]. }
  rewrite H3, put_at by (autorewrite with len; lia).
  eexists. split; [reflexivity|]. unfold holds. cbn [blen contents bmax].
  rewrite H3 in H2. autorewrite with len in *. split; [lia|]. split; [lia|]. split; [|exact H4]. eauto.
Qed.

Lemma term_shorter : forall b l l', pholds esz b (l ++ l') -> lenN l <= bmax b ->
  exists c, put N (contents b) (lenN l) 0 = Ok c /\
    holds (0 : N) esz (mkBuf c (lenN l) (bmax b)) l.
Proof.
  intros b l l' H HL.
  destruct (term_p (mkBuf (contents b) (lenN l) (bmax b)) l) as (c & E & Hc).
  - destruct H as (H1 & H2 & [t H3] & H4). unfold pholds. cbn [blen contents bmax].
    split; [reflexivity|]. split; [exact H2|]. split; [|exact H4].
    exists (map Some l' ++ t). rewrite H3, map_app, <- app_assoc. reflexivity.
  - exact HL.
  - exists c. split; [exact E|exact Hc].
Qed.
End S.

Lemma cstr_spec : forall esz b l, holds (0 : N) esz b l -> ~ In 0 l -> cstr (contents b) = Ok l.
Proof.
  intros esz b l (_ & _ & [t ->] & _). induction l as [|x l IH]; intros Hz; cbn [map app cstr].
  - reflexivity.
  - unfold isnul. destruct (x =? 0) eqn:E; [exfalso; apply Hz; left; lia|].
    rewrite IH; [reflexivity|]. intros Hin. apply Hz. right. exact Hin.
Qed.

Section Conv.
Variable alloc : N -> bool.
Variable enc : N -> option (list N).
Variable dec : list N -> option (N * nat).
Variable MB : N.
Hypothesis OK : encoding_ok enc dec MB.

Notation encode := (encode enc).

Lemma encode_app : forall a b, snd (encode a) = true ->
  encode (a ++ b) = (fst (encode a) ++ fst (encode b), snd (encode b)).
Proof.
  induction a as [|c a IH]; intros b H; cbn [app StrbufSpec.encode] in *.
  - destruct (encode b); reflexivity.
  - destruct (enc c) as [bs|]; [|discriminate]. destruct (encode a) as [o ok] eqn:Ea. cbn [snd fst] in *.
    rewrite (IH b H). now rewrite <- app_assoc.
Qed.

Lemma encode_no_nul : forall s, ~ In 0 (fst (encode s)).
Proof.
  induction s as [|c s IH]; cbn [StrbufSpec.encode fst]; [auto|].
  destruct (enc c) as [bs|] eqn:E; cbn [fst]; [|auto].
  destruct (encode s) as [o ok]. cbn [fst] in *. intros H. apply in_app_or in H as [H|H]; [|auto].
  apply (eo_enc _ _ _ OK) in E as [_ E]. auto.
Qed.

Lemma takeN_S : forall A (c : A) s n, n <> 0 -> takeN n (c :: s) = c :: takeN (n - 1) s.
Proof.
  intros A c s n H. unfold takeN. replace (N.to_nat n) with (S (N.to_nat (n - 1))) by lia. reflexivity.
Qed.
Lemma dropN_S : forall A (c : A) s n, n <> 0 -> dropN n (c :: s) = dropN (n - 1) s.
Proof.
  intros A c s n H. unfold dropN. replace (N.to_nat n) with (S (N.to_nat (n - 1))) by lia. reflexivity.
Qed.
Lemma takeN_0 : forall A (s : list A), takeN 0 s = [].
Proof. reflexivity. Qed.

Lemma wcsnrtombs_spec : forall s n len,
  match wcsnrtombs enc s n len with
  | (out, k, e) =>
      encode (takeN k s) = (out, true) /\ k <= n /\ k <= lenN s /\ lenN out <= len /\
      match e with
      | CNull => k = lenN s /\ k < n /\ lenN out < len
      | CBad => k < n /\ exists c s', dropN k s = c :: s' /\ enc c = None
      | CMore => k = n \/ (k < n /\ k = lenN s /\ lenN out = len) \/
                 (k < n /\ exists c s' bs, dropN k s = c :: s' /\ enc c = Some bs /\ len < lenN out + lenN bs)
      end
  end.
Proof.
  induction s as [|c s IH]; intros n len; cbn [wcsnrtombs].
  - destruct (n =? 0) eqn:E0.
    + rewrite takeN_0. autorewrite with len. split; [reflexivity|]. lia.
    + destruct (len =? 0) eqn:E1; rewrite takeN_0; autorewrite with len; (split; [reflexivity|]); lia.
  - destruct (n =? 0) eqn:E0.
    + rewrite takeN_0. autorewrite with len. split; [reflexivity|]. lia.
    + destruct (enc c) as [bs|] eqn:Ec.
      2:{ rewrite takeN_0, lenN_nil. split; [reflexivity|]. do 3 (split; [lia|]). split; [lia|].
          exists c, s. rewrite dropN_0. auto. }
      destruct (len <? lenN bs) eqn:EL.
      * rewrite takeN_0, lenN_nil. split; [reflexivity|]. do 3 (split; [lia|]). right; right.
        split; [lia|]. exists c, s, bs. rewrite dropN_0. repeat split; auto; lia.
      * specialize (IH (n - 1) (len - lenN bs)).
        destruct (wcsnrtombs enc s (n - 1) (len - lenN bs)) as [[out k] e].
        destruct IH as (I1 & I2 & I3 & I4 & I5).
        rewrite takeN_S by lia. replace (1 + k - 1) with k by lia.
        rewrite dropN_S by lia. replace (1 + k - 1) with k by lia.
        cbn [StrbufSpec.encode]. rewrite Ec, I1. autorewrite with len.
        split; [reflexivity|]. do 3 (split; [lia|]).
        destruct e.
        -- lia.
        -- destruct I5 as (J1 & J2). split; [lia|exact J2].
        -- destruct I5 as [J|[J|(J1 & c' & s' & bs' & J2 & J3 & J4)]].
           ++ left. lia.
           ++ right; left. lia.
           ++ right; right. split; [lia|]. exists c', s', bs'. repeat split; auto. lia.
Qed.

Lemma takeN_split : forall A (s : list A) k n, k <= n -> k <= lenN s ->
  takeN n s = takeN k s ++ takeN (n - k) (dropN k s).
Proof.
  intros A s k n H1 H2. rewrite <- (takeN_drop _ s k) at 1.
  unfold takeN at 1. rewrite firstn_app.
  assert (L : length (takeN k s) = N.to_nat k).
  { pose proof (lenN_takeN _ k s). unfold lenN in *. lia. }
  rewrite L. rewrite (firstn_all2 (takeN k s)) by lia. f_equal. unfold takeN. f_equal. lia.
Qed.

(** Memory bound of the conversion of [s] appended to [l]. *)
Definition conv_bound (total : N) : N := 2 * (total + MB) + 12.

Lemma sb_wcsncat_spec : forall fuel b l s n off,
  pholds 1 b l -> lenN l <= bmax b -> n < SIZE_MOD ->
  (length s + (if (MB <=? bmax b - lenN l)%N then 1 else 2) <= fuel)%nat ->
  match sb_wcsncat alloc enc MB fuel b s off n with
  | Ok (Some (b', None)) =>
      snd (encode (takeN n s)) = true /\ holds (0 : N) 1 b' (l ++ fst (encode (takeN n s)))
  | Ok (Some (b', Some j)) =>
      off <= j /\ j - off < n /\ snd (encode (takeN (j - off) s)) = true /\
      (exists c s', dropN (j - off) s = c :: s' /\ enc c = None) /\
      exists k, k <= j - off /\ holds (0 : N) 1 b' (l ++ fst (encode (takeN k s)))
  | Ok None => refused alloc (conv_bound (lenN l + lenN (fst (encode (takeN n s)))))
  | _ => False
  end.
Proof.
  destruct (eo_mb _ _ _ OK) as [HMB1 HMB2].
  induction fuel as [|fuel IH]; intros b l s n off HP HL Hn HF.
  { destruct (MB <=? bmax b - lenN l); lia. }
  cbn [sb_wcsncat].
  assert (HB : bmax b + 1 < SIZE_MOD) by (destruct HP as (_ & _ & _ & H); lia).
  assert (HBL : blen b = lenN l) by apply HP.
  rewrite HBL, wsub_small by lia.
  pose proof (wcsnrtombs_spec s n (bmax b - lenN l)) as W.
  destruct (wcsnrtombs enc s n (bmax b - lenN l)) as [[out k] e].
  destruct W as (W1 & W2 & W3 & W4 & W5).
  destruct (store_p 1 10 alloc ltac:(lia) b l out HP ltac:(lia)) as (c & Ec & Pc).
  rewrite HBL in Ec. rewrite Ec. cbn [rbind].
  assert (SP : takeN n s = takeN k s ++ takeN (n - k) (dropN k s)) by (apply takeN_split; lia).
  assert (EN : encode (takeN n s) = (out ++ fst (encode (takeN (n - k) (dropN k s))),
                                     snd (encode (takeN (n - k) (dropN k s))))).
  { rewrite SP, encode_app by now rewrite W1. now rewrite W1. }
  destruct e.
  - (* CNull *)
    destruct W5 as (V1 & V2 & V3).
    rewrite wadd_small by lia.
    destruct (term_p 1 10 alloc ltac:(lia) _ _ Pc) as (c2 & E2 & H2); [autorewrite with len; cbn [bmax]; lia|].
    cbn [contents blen bmax] in *. rewrite lenN_app in E2, H2. rewrite E2. cbn [rbind].
    rewrite EN. cbn [fst snd]. subst k.
    assert (D : dropN (lenN s) s = []).
    { pose proof (lenN_dropN _ (lenN s) s) as Q. destruct (dropN (lenN s) s); [reflexivity|].
      autorewrite with len in Q. lia. }
    rewrite D. unfold takeN. rewrite firstn_nil. cbn [StrbufSpec.encode fst snd]. rewrite app_nil_r. auto.
  - (* CBad *)
    destruct W5 as (V1 & V2).
    destruct (term_shorter 1 10 alloc ltac:(lia) _ _ _ Pc) as (c2 & E2 & H2); [cbn [bmax]; lia|].
    cbn [contents blen bmax] in *. rewrite E2. cbn [rbind].
    replace (off + k - off) with k by lia.
    split; [lia|]. split; [exact V1|]. split; [now rewrite W1|]. split; [exact V2|].
    exists 0. split; [lia|]. rewrite takeN_0. cbn [StrbufSpec.encode fst]. rewrite app_nil_r. exact H2.
  - (* CMore *)
    destruct (n - k =? 0) eqn:Enk.
    + rewrite wadd_small by lia.
      destruct (term_p 1 10 alloc ltac:(lia) _ _ Pc) as (c2 & E2 & H2); [autorewrite with len; cbn [bmax]; lia|].
      cbn [contents blen bmax] in *. rewrite lenN_app in E2, H2. rewrite E2. cbn [rbind].
      rewrite EN. replace (n - k) with 0 by lia. rewrite takeN_0. cbn [StrbufSpec.encode fst snd].
      rewrite app_nil_r. auto.
    + assert (FULL : bmax b < lenN l + lenN out + MB).
      { destruct W5 as [V|[V|(V1 & c' & s' & bs & V2 & V3 & V4)]]; [lia|lia|].
        apply (eo_enc _ _ _ OK) in V3. lia. }
      assert (TOT : lenN l + lenN out <= lenN l + lenN (fst (encode (takeN n s)))).
      { rewrite EN. cbn [fst]. autorewrite with len. lia. }
      rewrite wadd_small by lia.
      rewrite add_spec by lia.
      destruct (bmax b + MB <? SIZE_MOD) eqn:EA; cbn [abind rbind].
      2:{ exists (bmax b + MB). split; [unfold conv_bound; lia|]. left. lia. }
      pose proof (ensuremax_p 1 10 alloc ltac:(lia) _ _ (bmax b + MB) Pc) as S.
      cbn [bmax] in S. specialize (S ltac:(lia) ltac:(lia)). unfold sb_ensuremax.
      destruct (b_ensuremax N 0 1 10 alloc _ (bmax b + MB)) as [[b'|]| |]; cbn [abind rbind]; try contradiction.
      2:{ destruct S as (kk & S1 & S2). exists kk. split; [|exact S2]. unfold conv_bound.
          set (q := bmax b / 2) in *. assert (2 * q <= bmax b) by (apply N.mul_div_le; lia). lia. }
      destruct S as [S1 S2].
      assert (HL' : lenN (l ++ out) <= bmax b') by (autorewrite with len; lia).
      specialize (IH b' (l ++ out) (dropN k s) (n - k) (off + k) S1 HL' ltac:(lia)).
      assert (HFU : (length (dropN k s) + (if (MB <=? bmax b' - lenN (l ++ out))%N then 1 else 2) <= fuel)%nat).
      { autorewrite with len. destruct (MB <=? bmax b' - (lenN l + lenN out)) eqn:EM; [|lia].
        pose proof (lenN_dropN _ k s) as Q. unfold lenN in Q.
        destruct (MB <=? bmax b - lenN l) eqn:EM2; [|lia].
        assert (k <> 0); [|unfold lenN in *; lia].
        intros ->. rewrite takeN_0 in W1. injection W1 as <-. autorewrite with len in *.
        destruct W5 as [V|[V|(V1 & c' & s' & bs & V2 & V3 & V4)]]; [lia|lia|].
        apply (eo_enc _ _ _ OK) in V3. lia. }
      specialize (IH HFU).
      destruct (sb_wcsncat alloc enc MB fuel b' (dropN k s) (off + k) (n - k)) as [[[b2 [j|]]|]| |];
        try contradiction.
      * destruct IH as (J1 & J2 & J3 & J4 & k' & J5 & J6).
        split; [lia|]. split; [lia|].
        assert (SPj : takeN (j - off) s = takeN k s ++ takeN (j - (off + k)) (dropN k s)).
        { rewrite (takeN_split _ s k (j - off)) by lia. do 2 f_equal. lia. }
        assert (DRj : dropN (j - off) s = dropN (j - (off + k)) (dropN k s)).
        { rewrite dropN_dropN. unfold dropN. f_equal. lia. }
        split; [rewrite SPj, encode_app by (now rewrite W1); exact J3|].
        split; [rewrite DRj; exact J4|].
        exists (k + k'). split; [lia|].
        rewrite (takeN_split _ s k (k + k')) by lia.
        rewrite encode_app by now rewrite W1. rewrite W1. cbn [fst].
        replace (k + k' - k) with k' by lia. rewrite app_assoc. exact J6.
      * destruct IH as (J1 & J2). rewrite EN. cbn [fst snd]. split; [exact J1|].
        rewrite app_assoc. exact J2.
      * rewrite EN. cbn [fst]. rewrite lenN_app in IH |- *. rewrite N.add_assoc. exact IH.
Qed.

Lemma malloc_wcsntombs_spec : forall s n, n < SIZE_MOD ->
  match malloc_wcsntombs alloc enc MB s n with
  | Ok (Some r) => r = if snd (encode (takeN n s)) then Some (fst (encode (takeN n s))) else None
  | Ok None => refused alloc (conv_bound (lenN (fst (encode (takeN n s)))) + 16)
  | _ => False
  end.
Proof.
  intros s n Hn. unfold malloc_wcsntombs, sb_initwithmax, INITSIZE.
  pose proof (b_initwithmax_spec N 0 isnul 1 10 alloc ltac:(lia) 15 ltac:(unfold SIZE_MOD; lia)) as I.
  destruct (b_initwithmax N 0 1 alloc 15) as [[b|]| |]; cbn [abind rbind]; try contradiction.
  2:{ exists 16. split; [unfold conv_bound; lia|]. exact I. }
  destruct I as [I1 I2]. apply holds_pholds in I1.
  pose proof (sb_wcsncat_spec (S (S (length s))) b [] s n 0 I1) as W.
  specialize (W ltac:(rewrite lenN_nil; lia) Hn ltac:(destruct (MB <=? bmax b - lenN (@nil N)); lia)).
  destruct (sb_wcsncat alloc enc MB (S (S (length s))) b s 0 n) as [[[b' [j|]]|]| |];
    cbn [abind rbind]; try contradiction.
  - destruct W as (J1 & J2 & J3 & (c & s' & J4 & J5) & _).
    replace (j - 0) with j in * by lia.
    assert (HJ : j <= lenN s).
    { pose proof (lenN_dropN _ j s) as Q. rewrite J4 in Q. autorewrite with len in Q. lia. }
    rewrite (takeN_split _ s j n) by lia. rewrite encode_app by exact J3. cbn [snd].
    rewrite J4, takeN_S by lia. cbn [StrbufSpec.encode]. rewrite J5. reflexivity.
  - destruct W as (J1 & J2). rewrite J1. cbn [app] in J2.
    rewrite (cstr_spec _ _ _ J2) by apply encode_no_nul. reflexivity.
  - destruct W as (k & W1 & W2). exists k. split; [|exact W2]. unfold conv_bound in *. autorewrite with len in W1. lia.
Qed.

(** ** decoding *)
Notation decodes := (decodes dec).

Lemma decodes_app : forall s w s' w' s'', decodes s w s' -> decodes s' w' s'' -> decodes s (w ++ w') s''.
Proof.
  induction 1; intros H1; cbn [app]; [exact H1|]. econstructor; eauto.
Qed.

Lemma decodes_prefix : forall s w s1, decodes s w s1 -> forall w' s2, decodes s w' s2 ->
  (length w <= length w')%nat -> exists v, w' = w ++ v /\ decodes s1 v s2.
Proof.
  induction 1 as [s|b s c k w s1 E H IH]; intros w' s2 H' L.
  - exists w'. auto.
  - inversion H' as [|b0 s0 c0 k0 w0 s3 E0 H0]; subst; [cbn in L; lia|].
    rewrite E in E0. injection E0 as <- <-.
    cbn [length] in L. destruct (IH _ _ H0) as (v & -> & Hv); [lia|]. exists v. auto.
Qed.

Lemma decodes_suffix : forall s w s', decodes s w s' ->
  exists k, s' = dropN k s /\ k <= lenN s /\ lenN w <= k.
Proof.
  induction 1 as [s|b s c k w s1 E H IH].
  - exists 0. rewrite lenN_nil. split; [reflexivity|]. lia.
  - destruct IH as (j & -> & J1 & J2). apply (eo_dec _ _ _ OK) in E as [E1 _].
    exists (N.of_nat k + j). unfold lenN in *. rewrite skipn_length in J1.
    split; [|cbn [length] in *; lia].
    change (skipn k (b :: s)) with (skipn k (b :: s)).
    replace (skipn k (b :: s)) with (dropN (N.of_nat k) (b :: s)) by (unfold dropN; f_equal; lia).
    rewrite dropN_dropN. unfold dropN. f_equal. lia.
Qed.

Lemma mbsrtowcs_spec : forall fuel s len, (length s <= fuel)%nat -> 
  match mbsrtowcs dec fuel s len with
  | Ok (out, k, e) =>
      decodes s out (dropN k s) /\ k <= lenN s /\ lenN out <= len /\ lenN out <= k /\
      match e with
      | CNull => dropN k s = [] /\ lenN out < len
      | CBad => lenN out < len /\ exists b s', dropN k s = b :: s' /\ dec (b :: s') = None
      | CMore => lenN out = len
      end
  | _ => False
  end.
Proof.
  induction fuel as [|fuel IH]; intros s len HF.
  - destruct s; [|cbn in HF; lia]. cbn [mbsrtowcs].
    destruct (len =? 0) eqn:E; rewrite dropN_0; autorewrite with len; (split; [constructor|]).
    + lia.
    + do 3 (split; [lia|]). split; [reflexivity|lia].
  - destruct s as [|b s]; cbn [mbsrtowcs].
    + destruct (len =? 0) eqn:E; rewrite dropN_0; autorewrite with len; (split; [constructor|]).
      * lia.
      * do 3 (split; [lia|]). split; [reflexivity|lia].
    + destruct (len =? 0) eqn:E.
      { rewrite dropN_0, lenN_nil. split; [constructor|]. lia. }
      destruct (dec (b :: s)) as [[c k]|] eqn:Ed.
      2:{ rewrite dropN_0, lenN_nil. split; [constructor|]. do 3 (split; [lia|]). split; [lia|]. eauto. }
      destruct (eo_dec _ _ _ OK _ _ _ Ed) as [K1 K2].
      assert (HF' : (length (skipn k (b :: s)) <= fuel)%nat) by (rewrite skipn_length; cbn [length] in *; lia).
      specialize (IH (skipn k (b :: s)) (len - 1) HF').
      destruct (mbsrtowcs dec fuel (skipn k (b :: s)) (len - 1)) as [[[out j] e]| |]; try contradiction.
      cbn [rbind]. destruct IH as (I1 & I2 & I3 & I4 & I5).
      assert (D : dropN (N.of_nat k + j) (b :: s) = dropN j (skipn k (b :: s))).
      { replace (skipn k (b :: s)) with (dropN (N.of_nat k) (b :: s)) by (unfold dropN; f_equal; lia).
        rewrite dropN_dropN. unfold dropN. f_equal. lia. }
      rewrite D. split; [econstructor; eauto|].
      unfold lenN in I2. rewrite skipn_length in I2. 
      rewrite (lenN_cons _ c out). split; [unfold lenN; lia|]. split; [lia|]. split; [lia|].
      destruct e.
      * destruct I5. split; [assumption|lia].
      * destruct I5. split; [lia|assumption].
      * lia.
Qed.

Definition wconv_bound (total : N) : N := 4 * (2 * total + 12).

Lemma wb_mbscat_spec : forall fuel b l s off,
  pholds 4 b l -> lenN l <= bmax b -> (length s < fuel)%nat ->
  match wb_mbscat alloc dec fuel b s off with
  | Ok (Some (b', None)) => exists w, is_decoding dec s w /\ holds (0 : N) 4 b' (l ++ w)
  | Ok (Some (b', Some j)) =>
      off <= j /\
      (exists w, decodes s w (dropN (j - off) s) /\ (exists w1 w2, w = w1 ++ w2 /\ holds (0 : N) 4 b' (l ++ w1))) /\
      (exists b s', dropN (j - off) s = b :: s' /\ dec (b :: s') = None)
  | Ok None => refused alloc (wconv_bound (lenN l + lenN s))
  | _ => False
  end.
Proof.
  induction fuel as [|fuel IH]; intros b l s off HP HL HF; [lia|].
  cbn [wb_mbscat].
  assert (HB : (bmax b + 1) * 4 < SIZE_MOD) by (destruct HP as (_ & _ & _ & H); lia).
  assert (HBL : blen b = lenN l) by apply HP.
  rewrite HBL, wsub_small, wadd_small by lia.
  pose proof (mbsrtowcs_spec (length s) s (bmax b - lenN l + 1) ltac:(lia)) as W.
  destruct (mbsrtowcs dec (length s) s (bmax b - lenN l + 1)) as [[[out k] e]| |]; try contradiction.
  cbn [rbind]. destruct W as (W1 & W2 & W3 & W4 & W5).
  destruct (store_p 4 8 alloc ltac:(lia) b l out HP ltac:(lia)) as (c & Ec & Pc).
  rewrite HBL in Ec. rewrite Ec. cbn [rbind].
  destruct e.
  - destruct W5 as (V1 & V2). rewrite wadd_small by lia.
    destruct (term_p 4 8 alloc ltac:(lia) _ _ Pc) as (c2 & E2 & H2); [autorewrite with len; cbn [bmax]; lia|].
    cbn [contents blen bmax] in *. rewrite lenN_app in E2, H2. rewrite E2. cbn [rbind].
    exists out. rewrite V1 in W1. split; [exact W1|exact H2].
  - destruct W5 as (V1 & V2).
    destruct (term_shorter 4 8 alloc ltac:(lia) _ _ _ Pc) as (c2 & E2 & H2); [cbn [bmax]; lia|].
    cbn [contents blen bmax] in *. rewrite E2. cbn [rbind].
    replace (off + k - off) with k by lia. split; [lia|]. split; [|exact V2].
    exists out. split; [exact W1|]. exists [], out. rewrite app_nil_r. split; [reflexivity|exact H2].
  - rewrite wadd_small by lia.
    rewrite add_spec by (unfold SIZE_MOD in *; lia).
    destruct (bmax b + 1 <? SIZE_MOD) eqn:EA; cbn [abind rbind]; [|lia].
    pose proof (ensuremax_p 4 8 alloc ltac:(lia) _ _ (bmax b + 1) Pc) as S.
    cbn [bmax] in S. specialize (S ltac:(lia) ltac:(lia)). unfold wb_ensuremax.
    destruct (b_ensuremax N 0 4 8 alloc _ (bmax b + 1)) as [[b'|]| |]; cbn [abind rbind]; try contradiction.
    2:{ destruct S as (kk & S1 & S2). exists kk. split; [|exact S2]. unfold wconv_bound.
        set (q := bmax b / 2) in *. assert (2 * q <= bmax b) by (apply N.mul_div_le; lia). lia. }
    destruct S as [S1 S2].
    assert (LD : lenN (dropN k s) = lenN s - k) by apply lenN_dropN.
    specialize (IH b' (l ++ out) (dropN k s) (off + k) S1 ltac:(autorewrite with len; lia)).
    specialize (IH ltac:(unfold lenN in *; lia)).
    destruct (wb_mbscat alloc dec fuel b' (dropN k s) (off + k)) as [[[b2 [j|]]|]| |]; try contradiction.
    + destruct IH as (J1 & (w & J2 & w1 & w2 & J3 & J4) & J5).
      assert (DRj : dropN (j - off) s = dropN (j - (off + k)) (dropN k s)).
      { rewrite dropN_dropN. unfold dropN. f_equal. lia. }
      rewrite DRj. split; [lia|]. split; [|exact J5].
      exists (out ++ w). split; [eapply decodes_app; eauto|].
      exists (out ++ w1), w2. subst w. rewrite !app_assoc in *. auto.
    + destruct IH as (w & J1 & J2). exists (out ++ w). split; [eapply decodes_app; eauto|].
      rewrite app_assoc. exact J2.
    + destruct IH as (kk & K1 & K2). exists kk. split; [|exact K2].
      unfold wconv_bound in *. rewrite lenN_app, LD in K1. lia.
Qed.

Lemma decoding_no_nul : forall s w s', decodes s w s' -> ~ In 0 w.
Proof.
  induction 1 as [s|b s c k w s1 E H IH]; [auto|].
  apply (eo_dec _ _ _ OK) in E as [_ E]. intros [->|Hin]; auto.
Qed.

Lemma malloc_mbstowcs_spec : forall s,
  match malloc_mbstowcs alloc dec s with
  | Ok (Some (Some w)) => is_decoding dec s w
  | Ok (Some None) => forall w, ~ is_decoding dec s w
  | Ok None => refused alloc (wconv_bound (lenN s) + 64)
  | _ => False
  end.
Proof.
  intros s. unfold malloc_mbstowcs, wb_initwithmax, INITSIZE.
  pose proof (b_initwithmax_spec N 0 isnul 4 8 alloc ltac:(lia) 15 ltac:(unfold SIZE_MOD; lia)) as I.
  destruct (b_initwithmax N 0 4 alloc 15) as [[b|]| |]; cbn [abind rbind]; try contradiction.
  2:{ exists 64. split; [unfold wconv_bound; lia|]. exact I. }
  destruct I as [I1 I2]. apply holds_pholds in I1.
  pose proof (wb_mbscat_spec (S (S (length s))) b [] s 0 I1) as W.
  specialize (W ltac:(rewrite lenN_nil; lia) ltac:(lia)).
  destruct (wb_mbscat alloc dec (S (S (length s))) b s 0) as [[[b' [j|]]|]| |];
    cbn [abind rbind]; try contradiction.
  - destruct W as (_ & (w & W1 & _) & b0 & s' & W2 & W3). intros w' Hw'.
    destruct (Nat.le_gt_cases (length w) (length w')) as [C|C].
    + destruct (decodes_prefix _ _ _ W1 _ _ Hw' C) as (v & -> & Hv).
      rewrite W2 in Hv. inversion Hv; subst. congruence.
    + destruct (decodes_prefix _ _ _ Hw' _ _ W1) as (v & -> & Hv); [lia|].
      inversion Hv; subst. rewrite W2 in *. discriminate.
  - destruct W as (w & W1 & W2). cbn [app] in W2.
    rewrite (cstr_spec _ _ _ W2) by (eapply decoding_no_nul; exact W1). exact W1.
  - destruct W as (k & W1 & W2). exists k. split; [|exact W2]. unfold wconv_bound in *. rewrite lenN_nil in W1. lia.
Qed.

Lemma encode_decodes : inverse enc dec -> forall s r, snd (encode s) = true ->
  decodes (fst (encode s) ++ r) s r.
Proof.
  intros INV. induction s as [|c s IH]; intros r H; cbn [StrbufSpec.encode] in *.
  - constructor.
  - destruct (enc c) as [bs|] eqn:Ec; [|discriminate]. destruct (encode s) as [o ok]. cbn [fst snd] in *.
    destruct (eo_enc _ _ _ OK _ _ Ec) as [L _].
    destruct bs as [|b bs]; [rewrite lenN_nil in L; lia|].
    rewrite <- app_assoc. cbn [app].
    apply dec_cons with (k := length (b :: bs)).
    + exact (INV c (b :: bs) (o ++ r) Ec).
    + change (b :: bs ++ o ++ r) with ((b :: bs) ++ (o ++ r)).
      rewrite skipn_app, skipn_all, Nat.sub_diag, skipn_O. cbn [app]. apply IH. exact H.
Qed.

Lemma is_decoding_unique : forall s w w', is_decoding dec s w -> is_decoding dec s w' -> w = w'.
Proof.
  unfold is_decoding. intros s w w' H H'.
  destruct (Nat.le_gt_cases (length w) (length w')) as [C|C].
  - destruct (decodes_prefix _ _ _ H _ _ H' C) as (v & -> & Hv). inversion Hv; subst. now rewrite app_nil_r.
  - destruct (decodes_prefix _ _ _ H' _ _ H) as (v & -> & Hv); [lia|]. inversion Hv; subst. now rewrite app_nil_r.
Qed.

End Conv.

(** ** printf *)
Section Printf.
Variable alloc : N -> bool.

Lemma vsn_spec : forall b l t n, pholds 1 b l -> 0 < n -> lenN l + n <= bmax b + 1 ->
  exists c, vsnprintf (contents b) (blen b) n (Some t) = Ok (c, Some (lenN t)) /\
    holds (0 : N) 1 (mkBuf c (lenN (l ++ takeN (n - 1) t)) (bmax b)) (l ++ takeN (n - 1) t).
Proof.
  intros b l t n HP Hn HL. unfold vsnprintf.
  destruct (store_p 1 10 alloc ltac:(lia) b l (takeN (n - 1) t) HP) as (c & E & Pc); [autorewrite with len; lia|].
  rewrite E. cbn [rbind].
  destruct (term_p 1 10 alloc ltac:(lia) _ _ Pc) as (c2 & E2 & H2); [autorewrite with len; cbn [bmax]; lia|].
  cbn [contents bmax] in E2, H2.
  assert (HB : blen b = lenN l) by apply HP. rewrite HB.
  replace (lenN l + N.min (n - 1) (lenN t)) with (lenN (l ++ takeN (n - 1) t)) by (autorewrite with len; lia).
  rewrite E2. cbn [rbind]. eauto.
Qed.

Lemma sb_vprintf_spec : forall b l t, holds (0 : N) 1 b l -> lenN t < SIZE_MOD ->
  match sb_vprintf alloc b (Some t) with
  | Ok (Some (b', r)) => holds (0 : N) 1 b' (l ++ t) /\ r = Some (lenN t)
  | Ok None => refused alloc (2 * (lenN l + lenN t) + 11)
  | _ => False
  end.
Proof.
  intros b l t H Ht. pose proof (holds_max N 0 isnul 1 10 alloc ltac:(lia) b l H) as HM.
  apply holds_pholds in H. pose proof H as (H1 & H2 & _ & H4).
  unfold sb_vprintf. rewrite wsub_small, wadd_small by lia.
  destruct (vsn_spec b l t (bmax b - blen b + 1) H ltac:(lia) ltac:(lia)) as (c & E & Hc).
  rewrite E. cbn [rbind].
  destruct (bmax b - blen b + 1 <=? lenN t) eqn:EL.
  - apply holds_pholds in Hc.
    assert (Pc : pholds 1 (mkBuf c (blen b) (bmax b)) l).
    { destruct Hc as (A1 & A2 & [u A3] & A4). unfold pholds. cbn [blen contents bmax] in *.
      split; [lia|]. split; [exact A2|]. split; [|exact A4]. rewrite A3, map_app, <- app_assoc. eauto. }
    rewrite add_spec by lia.
    destruct (blen b + lenN t <? SIZE_MOD) eqn:EA; cbn [abind rbind].
    2:{ exists (lenN l + lenN t). split; [lia|]. left. lia. }
    pose proof (ensuremax_p 1 10 alloc ltac:(lia) _ _ (blen b + lenN t) Pc) as S.
    cbn [bmax] in S. specialize (S ltac:(lia) ltac:(lia)). unfold sb_ensuremax.
    destruct (b_ensuremax N 0 1 10 alloc _ (blen b + lenN t)) as [[b'|]| |]; cbn [abind rbind]; try contradiction.
    2:{ destruct S as (kk & S1 & S2). exists kk. split; [|exact S2].
        set (q := bmax b / 2) in *. assert (2 * q <= bmax b) by (apply N.mul_div_le; lia). lia. }
    destruct S as [S1 S2]. pose proof S1 as (T1 & T2 & _ & T4).
    rewrite wsub_small, wadd_small by lia.
    destruct (vsn_spec b' l t (bmax b' - blen b' + 1) S1 ltac:(lia) ltac:(lia)) as (c' & E' & Hc').
    rewrite E'. cbn [rbind abind]. cbn [contents blen bmax].
    rewrite takeN_all in Hc' by lia. rewrite wadd_small by lia.
    rewrite lenN_app in Hc'. rewrite T1. auto.
  - cbn [rbind abind]. cbn [contents blen bmax].
    rewrite takeN_all in Hc by lia. rewrite wadd_small by lia. rewrite lenN_app in Hc. rewrite H1. auto.
Qed.

Lemma sb_vprintf_error : forall b l, holds (0 : N) 1 b l ->
  exists b', sb_vprintf alloc b None = Ok (Some (b', None)) /\ holds (0 : N) 1 b' l.
Proof.
  intros b l H. pose proof (holds_max N 0 isnul 1 10 alloc ltac:(lia) b l H) as HM. apply holds_pholds in H.
  unfold sb_vprintf. cbn [vsnprintf rbind abind contents blen bmax].
  destruct (term_p 1 10 alloc ltac:(lia) _ _ H HM) as (c & E & Hc). pose proof H as (H1 & _). rewrite H1, E. cbn [rbind]. eauto.
Qed.

Lemma vsw_spec : forall b l t n, pholds 4 b l -> 0 < n -> lenN l + n <= bmax b + 1 ->
  exists c, vswprintf (contents b) (blen b) n (Some t) = Ok (c, if lenN t <? n then Some (lenN t) else None) /\
    holds (0 : N) 4 (mkBuf c (lenN (l ++ takeN (n - 1) t)) (bmax b)) (l ++ takeN (n - 1) t).
Proof.
  intros b l t n HP Hn HL. unfold vswprintf.
  destruct (store_p 4 8 alloc ltac:(lia) b l (takeN (n - 1) t) HP) as (c & E & Pc); [autorewrite with len; lia|].
  rewrite E. cbn [rbind].
  destruct (term_p 4 8 alloc ltac:(lia) _ _ Pc) as (c2 & E2 & H2); [autorewrite with len; cbn [bmax]; lia|].
  cbn [contents bmax] in E2, H2.
  assert (HB : blen b = lenN l) by apply HP. rewrite HB.
  replace (lenN l + N.min (n - 1) (lenN t)) with (lenN (l ++ takeN (n - 1) t)) by (autorewrite with len; lia).
  rewrite E2. cbn [rbind]. eauto.
Qed.

(** one round of the retry loop *)
Lemma vw_round : forall k b l t last, pholds 4 b l -> lenN l <= bmax b ->
  let rest := bmax b - lenN l + 1 in
  (lenN t < rest /\ exists c, vw_loop alloc (S k) b last (Some t) = Ok (Some (mkBuf c (lenN l) (bmax b), Some (lenN t)))
       /\ holds (0 : N) 4 (mkBuf c (lenN l + lenN t) (bmax b)) (l ++ t)) \/
  (rest <= lenN t /\ vw_loop alloc (S k) b last (Some t) = Ok None /\ exists z, SIZE_MOD <= z \/ alloc z = false) \/
  (rest <= lenN t /\ exists b', vw_loop alloc (S k) b last (Some t) = vw_loop alloc k b' None (Some t) /\
     pholds 4 b' l /\ lenN l + 2 * rest <= bmax b' /\
     bmax b' = N.max (lenN l + 2 * rest) (N.max (bmax b + bmax b / 2) (bmax b + 8))).
Proof.
  intros k b l t last HP HL rest. pose proof HP as (H1 & H2 & _ & H4).
  cbn [vw_loop]. rewrite H1, wsub_small, wadd_small by lia. fold rest.
  destruct (vsw_spec b l t rest HP ltac:(unfold rest; lia) ltac:(unfold rest; lia)) as (c & E & Hc).
  rewrite H1 in E. rewrite E. cbn [rbind].
  destruct (lenN t <? rest) eqn:ET.
  - left. split; [lia|]. exists c. split; [reflexivity|].
    rewrite takeN_all in Hc by lia. rewrite lenN_app in Hc. exact Hc.
  - right. rewrite mul_spec by (unfold SIZE_MOD in *; lia).
    destruct (2 * rest <? SIZE_MOD) eqn:EM; cbn [abind rbind].
    2:{ left. split; [lia|]. split; [reflexivity|]. exists SIZE_MOD. left. lia. }
    rewrite add_spec by (cbn [blen]; unfold SIZE_MOD in *; lia). cbn [blen].
    destruct (lenN l + 2 * rest <? SIZE_MOD) eqn:EA; cbn [abind rbind].
    2:{ left. split; [lia|]. split; [reflexivity|]. exists SIZE_MOD. left. lia. }
    assert (Pc : pholds 4 (mkBuf c (lenN l) (bmax b)) l).
    { apply holds_pholds in Hc. destruct Hc as (A1 & A2 & [u A3] & A4). unfold pholds. cbn [blen contents bmax] in *.
      split; [reflexivity|]. split; [exact A2|]. split; [|exact A4]. rewrite A3, map_app, <- app_assoc. eauto. }
    unfold wb_ensuremax, b_ensuremax. cbn [bmax].
    destruct (lenN l + 2 * rest <=? bmax b) eqn:EB; [unfold rest in *; lia|].
    rewrite N.shiftr_div_pow2. change (2 ^ 1) with 2.
    set (q := bmax b / 2) in *. assert (2 * q <= bmax b) by (apply N.mul_div_le; lia).
    rewrite (wadd_small (bmax b) q) by lia.
    rewrite (wadd_small (bmax b) 8) by (unfold SIZE_MOD in *; lia).
    set (m := N.max (lenN l + 2 * rest) (N.max (bmax b + q) (bmax b + 8))).
    match goal with |- context [b_setmax N 0 4 alloc _ ?x] => replace x with m end.
    2:{ unfold m. destruct (lenN l + 2 * rest <? bmax b + q) eqn:E1;
        [destruct (bmax b + q <? bmax b + 8) eqn:E2|destruct (lenN l + 2 * rest <? bmax b + 8) eqn:E2]; lia. }
    pose proof (setmax_p 4 8 alloc ltac:(lia) _ _ m Pc) as S. cbn [bmax] in S.
    specialize (S ltac:(lia)). 
    assert (Hm : m < SIZE_MOD) by (unfold m; unfold SIZE_MOD in *; lia). specialize (S Hm).
    destruct (b_setmax N 0 4 alloc _ m) as [[b'|]| |]; cbn [abind rbind]; try contradiction.
    + right. split; [lia|]. exists b'. destruct S as [S1 S2]. split; [reflexivity|]. split; [exact S1|].
      split; [unfold m in S2; lia|exact S2].
    + left. split; [lia|]. split; [reflexivity|]. eauto.
Qed.

Lemma vw_loop_ok : forall k b l t last, pholds 4 b l -> lenN l <= bmax b ->
  lenN t < (bmax b - lenN l + 1) * 2 ^ (N.of_nat k) ->
  match vw_loop alloc (S k) b last (Some t) with
  | Ok (Some (b', r)) => r = Some (lenN t) /\ blen b' = lenN l /\
       holds (0 : N) 4 (mkBuf (contents b') (lenN l + lenN t) (bmax b')) (l ++ t)
  | Ok None => exists z, SIZE_MOD <= z \/ alloc z = false
  | _ => False
  end.
Proof.
  induction k as [|k IH]; intros b l t last HP HL HT.
  - change (2 ^ N.of_nat 0) with 1 in HT.
    destruct (vw_round 0 b l t last HP HL) as [(R1 & c & R2 & R3)|[(R1 & R2 & R3)|(R1 & _)]]; try lia.
    rewrite R2. auto.
  - destruct (vw_round (S k) b l t last HP HL) as [(R1 & c & R2 & R3)|[(R1 & R2 & R3)|(R1 & b' & R2 & R3 & R4 & _)]].
    + rewrite R2. auto.
    + rewrite R2. exact R3.
    + rewrite R2. apply IH; [exact R3|lia|].
      assert (EP : 2 ^ N.of_nat (S k) = 2 * 2 ^ N.of_nat k).
      { rewrite Nnat.Nat2N.inj_succ. apply N.pow_succ_r'. }
      rewrite EP in HT. eapply N.lt_le_trans; [exact HT|].
      rewrite N.mul_assoc. apply N.mul_le_mono_r. lia.
Qed.

Lemma wb_vwprintf_ok : forall b l t, holds (0 : N) 4 b l ->
  lenN t < (bmax b - lenN l + 1) * 2 ^ 19 ->
  match wb_vwprintf alloc b (Some t) with
  | Ok (Some (b', r)) => holds (0 : N) 4 b' (l ++ t) /\ r = Some (lenN t)
  | Ok None => exists z, SIZE_MOD <= z \/ alloc z = false
  | _ => False
  end.
Proof.
  intros b l t H HT. pose proof (holds_max N 0 isnul 4 8 alloc ltac:(lia) b l H) as HM. apply holds_pholds in H.
  unfold wb_vwprintf. pose proof (vw_loop_ok 19 b l t None H HM HT) as W.
  destruct (vw_loop alloc 20 b None (Some t)) as [[[b' r]|]| |]; cbn [abind rbind]; try contradiction; auto.
  destruct W as (-> & W2 & W3). rewrite W2. rewrite wadd_small.
  - split; [exact W3|reflexivity].
  - pose proof (holds_small N 0 isnul 4 8 alloc ltac:(lia) _ _ W3) as [_ Q]. cbn [blen] in Q. exact Q.
Qed.

(** Too long an output never fits, whatever memory there is. *)
Lemma vw_loop_fail : forall k b l t last, pholds 4 b l -> lenN l <= bmax b -> l = [] -> 15 <= bmax b ->
  (bmax b + 2) * 2 ^ (N.of_nat k) <= lenN t + 1 ->
  match vw_loop alloc k b last (Some t) with
  | Ok (Some (b', r)) => (k <> O -> r = None) /\ pholds 4 b' l /\ lenN l <= bmax b'
  | Ok None => exists z, SIZE_MOD <= z \/ alloc z = false
  | _ => False
  end.
Proof.
  induction k as [|k IH]; intros b l t last HP HL Hl HB HT.
  - cbn [vw_loop]. split; [congruence|auto].
  - assert (EP : 2 ^ N.of_nat (S k) = 2 * 2 ^ N.of_nat k).
    { rewrite Nnat.Nat2N.inj_succ. apply N.pow_succ_r'. }
    assert (P1 : 1 <= 2 ^ N.of_nat k) by (apply N.lt_pred_le; apply N.neq_0_lt_0; apply N.pow_nonzero; lia).
    rewrite EP in HT.
    destruct (vw_round k b l t last HP HL) as [(R1 & c & R2 & R3)|[(R1 & R2 & R3)|(R1 & b' & R2 & R3 & R4 & R5)]].
    + exfalso. rewrite Hl, lenN_nil in R1. nia.
    + rewrite R2. exact R3.
    + rewrite R2. subst l. rewrite lenN_nil in *.
      assert (bmax b' = 2 * (bmax b + 1)).
      { set (q := bmax b / 2) in *. assert (2 * q <= bmax b) by (apply N.mul_div_le; lia). lia. }
      specialize (IH b' [] t None R3). rewrite lenN_nil in IH.
      specialize (IH ltac:(lia) eq_refl ltac:(lia) ltac:(nia)).
      destruct (vw_loop alloc k b' None (Some t)) as [[[b2 r]|]| |] eqn:EV; try contradiction; auto.
      destruct IH as (I1 & I2 & I3). split; [|auto]. intros _.
      destruct k; [cbn [vw_loop] in EV; congruence|auto].
Qed.

Lemma wb_vwprintf_fail : forall b t, holds (0 : N) 4 b [] -> 15 <= bmax b ->
  (bmax b + 2) * 2 ^ 20 <= lenN t + 1 ->
  match wb_vwprintf alloc b (Some t) with
  | Ok (Some (b', r)) => holds (0 : N) 4 b' [] /\ r = None
  | Ok None => exists z, SIZE_MOD <= z \/ alloc z = false
  | _ => False
  end.
Proof.
  intros b t H HB HT. apply holds_pholds in H. unfold wb_vwprintf.
  pose proof (vw_loop_fail 20 b [] t None H ltac:(rewrite lenN_nil; lia) eq_refl HB HT) as W.
  destruct (vw_loop alloc 20 b None (Some t)) as [[[b' r]|]| |]; cbn [abind rbind]; try contradiction; auto.
  destruct W as (W1 & W2 & W3). rewrite W1 by discriminate.
  destruct (term_p 4 8 alloc ltac:(lia) _ _ W2 W3) as (c & E & Hc). pose proof W2 as (Q & _). rewrite Q, E. cbn [rbind].
  split; [exact Hc|reflexivity].
Qed.
End Printf.

(** ** joinwcsarray *)
Section Join.
Variable alloc : N -> bool.

Definition sumlen (a : list (list N)) : N := fold_right (fun s n => lenN s + n) 0 a.

Lemma join_count_spec : forall a acc, acc < SIZE_MOD -> Forall (fun s => lenN s < SIZE_MOD) a ->
  join_count a acc = if acc + sumlen a <? SIZE_MOD then Ok (Some (acc + sumlen a)) else Ok None.
Proof.
  induction a as [|s a IH]; intros acc Ha HF; cbn [join_count sumlen fold_right].
  - rewrite N.add_0_r. destruct (acc <? SIZE_MOD) eqn:E; [reflexivity|lia].
  - inversion HF; subst. rewrite add_spec by assumption. fold (sumlen a).
    destruct (acc + lenN s <? SIZE_MOD) eqn:E; cbn [abind rbind].
    + rewrite IH by (auto; lia). rewrite N.add_assoc. reflexivity.
    + destruct (acc + (lenN s + sumlen a) <? SIZE_MOD) eqn:E2; [lia|reflexivity].
Qed.

Lemma join_len : forall pad a, a <> [] -> lenN (join pad a) = sumlen a + lenN pad * (lenN a - 1).
Proof.
  intros pad. induction a as [|s a IH]; intros H; [congruence|].
  destruct a as [|s2 a].
  - cbn [join sumlen fold_right]. rewrite lenN_cons, lenN_nil. lia.
  - change (join pad (s :: s2 :: a)) with (s ++ pad ++ join pad (s2 :: a)).
    autorewrite with len. rewrite IH by discriminate. cbn [sumlen fold_right]. autorewrite with len. lia.
Qed.

Lemma join_copy_spec : forall s p (u : list (option N)), (length s <= length u)%nat ->
  exists u', join_copy (p ++ u) (lenN p) s = Ok ((p ++ map Some s) ++ u', lenN (p ++ map Some s)) /\
    (length u' + length s = length u)%nat.
Proof.
  induction s as [|x s IH]; intros p u HL; cbn [join_copy map].
  - exists u. rewrite app_nil_r. split; [reflexivity|cbn; lia].
  - destruct u as [|y u]; [cbn in HL; lia|].
    rewrite put_at by reflexivity. cbn [rbind].
    destruct (IH (p ++ [Some x]) u ltac:(cbn in HL; lia)) as (u' & E & L).
    exists u'. split; [|cbn [length]; lia].
    rewrite <- app_assoc in E. cbn [app] in E.
    replace (lenN p + 1) with (lenN (p ++ [Some x])) by (autorewrite with len; lia).
    rewrite E. rewrite <- !app_assoc. reflexivity.
Qed.

Lemma join_loop_spec : forall pad a p (u : list (option N)), (length (join pad a) <= length u)%nat ->
  exists u', join_loop (p ++ u) (lenN p) a pad =
     Ok ((p ++ map Some (join pad a)) ++ u', lenN (p ++ map Some (join pad a))) /\
    (length u' + length (join pad a) = length u)%nat.
Proof.
  intros pad. induction a as [|s a IH]; intros p u HL; cbn [join_loop].
  - cbn [join map]. exists u. rewrite app_nil_r. split; [reflexivity|cbn; lia].
  - destruct a as [|s2 a].
    + cbn [join] in *. destruct (join_copy_spec s p u HL) as (u' & E & L). rewrite E. cbn [rbind].
      cbn [join_loop]. eauto.
    + change (join pad (s :: s2 :: a)) with (s ++ pad ++ join pad (s2 :: a)) in *.
      rewrite !app_length in *.
      destruct (join_copy_spec s p u ltac:(lia)) as (u1 & E1 & L1). rewrite E1. cbn [rbind].
      destruct (join_copy_spec pad (p ++ map Some s) u1 ltac:(lia)) as (u2 & E2 & L2). rewrite E2. cbn [rbind].
      destruct (IH ((p ++ map Some s) ++ map Some pad) u2 ltac:(lia)) as (u3 & E3 & L3). rewrite E3.
      exists u3. split; [|lia]. rewrite !map_app, <- !app_assoc. reflexivity.
Qed.

Lemma joinwcsarray_spec : forall a pad, Forall (fun s => lenN s < SIZE_MOD) a -> lenN pad < SIZE_MOD -> lenN a < SIZE_MOD ->
  match joinwcsarray alloc a pad with
  | Ok (Some c) => c = map Some (join pad a) ++ [Some 0]
  | Ok None => let k := 4 * (lenN (join pad a) + 1) in SIZE_MOD <= k \/ alloc k = false
  | _ => False
  end.
Proof.
  intros a pad HF HP HA. unfold joinwcsarray.
  assert (LJ : a <> [] -> lenN (join pad a) = sumlen a + lenN pad * (lenN a - 1)) by apply join_len.
  rewrite join_count_spec by (reflexivity || assumption). rewrite N.add_0_l.
  assert (LJ0 : sumlen a <= lenN (join pad a)).
  { destruct a; [cbn; lia|]. rewrite LJ by discriminate. apply N.le_add_r. }
  destruct (sumlen a <? SIZE_MOD) eqn:E1; cbn [abind rbind]; [|left; lia].
  assert (E2 : (if 0 <? lenN a then let? m := mul (lenN pad) (lenN a - 1) in add (sumlen a) m else Ok (Some (sumlen a)))%res
     = if lenN (join pad a) <? SIZE_MOD then Ok (Some (lenN (join pad a))) else Ok None).
  { destruct a as [|s a]; [reflexivity|].
    rewrite LJ by discriminate. rewrite (lenN_cons _ s a) in *.
    destruct (0 <? 1 + lenN a) eqn:E0; [|lia]. replace (1 + lenN a - 1) with (lenN a) by lia.
    destruct (N.eq_dec (lenN a) 0) as [Z|Z].
    - rewrite Z, N.mul_0_r, N.add_0_r. unfold mul. cbn [N.eqb negb andb].
      unfold wmul. rewrite N.mul_0_r. change (0 mod SIZE_MOD) with 0. cbn [abind rbind].
      rewrite add_spec by (unfold SIZE_MOD in *; lia). now rewrite N.add_0_r.
    - rewrite mul_spec by lia.
      destruct (lenN pad * lenN a <? SIZE_MOD) eqn:E3; cbn [abind rbind].
      + rewrite add_spec by lia. reflexivity.
      + destruct (sumlen (s :: a) + lenN pad * lenN a <? SIZE_MOD) eqn:E4; [lia|reflexivity]. }
  rewrite E2. destruct (lenN (join pad a) <? SIZE_MOD) eqn:E3; cbn [abind rbind]; [|left; lia].
  unfold xmalloce. rewrite add_spec by (unfold SIZE_MOD in *; lia).
  set (J := lenN (join pad a)) in *.
  destruct (J + 1 <? SIZE_MOD) eqn:E4; cbn [abind rbind]; [|left; lia].
  rewrite mul_spec by lia.
  destruct ((J + 1) * 4 <? SIZE_MOD) eqn:E5; cbn [abind rbind]; [|left; lia].
  rewrite (N.mul_comm (J + 1) 4).
  destruct (alloc (4 * (J + 1))) eqn:E6; cbn [abind rbind]; [|right; reflexivity].
  destruct (join_loop_spec pad a [] (repeat None (N.to_nat (J + 1)))) as (u' & E & L).
  { rewrite repeat_length. unfold J, lenN. lia. }
  rewrite repeat_length in L.
  change (lenN (@nil (option N))) with 0 in E. rewrite (app_nil_l (repeat None (N.to_nat (J + 1)))) in E.
  rewrite E. cbn [rbind app].
  destruct u' as [|y [|y' u']]; [cbn [length] in L; unfold J, lenN in L; lia| |cbn [length] in L; unfold J, lenN in L; lia].
  rewrite put_at by reflexivity. cbn [rbind]. reflexivity.
Qed.
End Join.
