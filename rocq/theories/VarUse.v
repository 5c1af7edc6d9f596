(** Assignments, functions, temporary assignments and parameters *)
From Coq Require Import Ascii String.
From Coq Require Import List NArith ZArith Bool Arith Lia Permutation.
From Verif Require Import Common Locale NumModel BraceSpec BraceNum VarModel VarSpec VarProofs VarSet VarKeep VarRun VarMore VarArray.
Import ListNotations.
Open Scope res_scope.

Section Var.
Variable L : locale.
Hypothesis HL : locale_ok L.
Variable mbs : list N -> option (list N).
Hypothesis mbs_inj : forall a b m, mbs a = Some m -> mbs b = Some m -> a = b.
Variable order : list (list N * var) -> list (list N * var).
Hypothesis order_perm : forall l, Permutation (order l) l.
Variable seed_ok : list N -> bool.

Notation touches := (touches mbs).
Notation exact := (exact mbs).
Notation pathok := (pathok mbs).
Notation keep := (keep mbs).
Notation found := (found mbs).
Notation run := (run L mbs order seed_ok).
Notation run_all := (run_all L mbs order seed_ok).
Notation close := (close_current_environment mbs order seed_ok).
Notation reachable := (reachable L mbs order seed_ok).

(** ** Scopes of assignments *)

Lemma target_nth : forall ts c k, length ts = length c -> target ts c k -> (k < length ts)%nat /\
  (forall j, (j < k)%nat -> nth_error ts j = Some true \/ nth_error c j = Some None) /\
  (k = (length ts - 1)%nat \/ nth_error ts k = Some false /\ exists v, nth_error c k = Some (Some v)).
Proof.
  intros ts c k E H. induction H as [v ts c|t o|t o ts c k H T IH]; cbn [length] in *.
  - split; [lia|]. split; [intros; lia|]. right. split; [reflexivity|exists v; reflexivity].
  - split; [lia|]. split; [intros; lia|]. left. reflexivity.
  - destruct (IH ltac:(lia)) as [A [B C]]. split; [lia|]. split.
    + intros [|j] Hj; [destruct H as [-> | ->]; cbn; auto|]. apply B. lia.
    + destruct C as [->|C]; [left; lia|right; exact C].
Qed.
Lemma target_unique : forall ts c k, length ts = length c -> (k < length ts)%nat ->
  (forall j, (j < k)%nat -> nth_error ts j = Some true \/ nth_error c j = Some None) ->
  (nth_error c k = Some None -> k = (length ts - 1)%nat) -> nth_error ts k = Some false -> target ts c k.
Proof.
  induction ts as [|t ts IH]; intros [|o c] k E B A Z F; cbn [length] in *; try lia. destruct k as [|k].
  - injection F as ->. destruct o as [v|]; [constructor|]. specialize (Z eq_refl). destruct ts; [|cbn in Z; lia]. destruct c; [constructor|cbn in E; lia].
  - apply target_skip.
    + destruct (A 0%nat ltac:(lia)) as [X|X]; injection X as ->; auto.
    + apply IH; [lia|lia| | |exact F].
      * intros j Hj. apply (A (S j)). lia.
      * intro X. specialize (Z X). lia.
Qed.
Lemma target_fun : forall ts c k k', target ts c k -> target ts c k' -> k = k'.
Proof.
  intros ts c k k' H. revert k'. induction H as [v ts c|t o|t o ts c k H T IH]; intros k' H'.
  - inversion H' as [| |? ? ? ? ? [?|?]]; subst; try reflexivity; discriminate.
  - inversion H' as [| |? ? ? ? ? ? T']; subst; try reflexivity. inversion T'.
  - inversion H' as [| |? ? ? ? ? H2 T']; subst.
    + destruct H; discriminate.
    + inversion T.
    + f_equal. apply IH, T'.
Qed.
Lemma own_nth : forall ts k, own ts k <-> nth_error ts k = Some false /\ forall j, (j < k)%nat -> nth_error ts j = Some true.
Proof.
  intros ts k. split.
  - intro H. induction H as [ts|ts k H [A B]]; [split; [reflexivity|intros; lia]|]. split; [exact A|].
    intros [|j] Hj; [reflexivity|]. apply B. lia.
  - revert k. induction ts as [|t ts IH]; intros [|k] [A B]; try discriminate.
    + injection A as ->. constructor.
    + pose proof (B 0%nat ltac:(lia)) as X. injection X as ->. constructor. apply IH. split; [exact A|]. intros j Hj. apply (B (S j)). lia.
Qed.

(** ** Assignment *)

(** What an assignment does to the scopes: inner temporary variables vanish, the variable in scope
    [k] gets the value, outer scopes stay. *)
Record assigned (n : list N) (k : nat) (s s' : st) (w : var) : Prop := mkAssigned {
  as_at : nth_error (bindings n s') k = Some (Some w);
  as_in : forall j, (j < k)%nat -> nth_error (bindings n s') j = Some None;
  as_out : forall j, (k < j)%nat -> nth_error (bindings n s') j = nth_error (bindings n s) j;
  as_others : forall m, m <> n -> bindings m s' = bindings m s }.
Lemma assigned_visible : forall n k s s' w, assigned n k s s' w -> visible (bindings n s') w.
Proof. intros n k s s' w [A B _ _]. apply visible_nth. exists k. auto. Qed.

Lemma set_global_ok : forall n x export s, wf s -> n <> positional -> exists k old ok s' w,
  set_value mbs seed_ok n x GLOBAL export s = Ok (ok, s') /\ target (temps s) (bindings n s) k /\ nth_error (bindings n s) k = Some old /\
  assigned n k s s' w /\
  ((exists v, old = Some v /\ v_readonly v = true) /\ ok = false /\ old = Some w \/
   (forall v, old = Some v -> v_readonly v = false) /\ ok = true /\ v_val w = x /\ v_readonly w = false /\
   (n <> RANDOM -> v_getter w = GNone) /\
   v_export w = (match old with Some v => v_export v | None => false end || exporting n export s)%bool).
Proof.
  intros n x export s W Np. destruct (set_value_ok mbs mbs_inj seed_ok n x GLOBAL export s (proj1 W)) as [k [v [s1 [F [[P1 P2] R]]]]]; [discriminate|].
  pose proof (f_touch _ _ _ _ _ _ F) as T1.
  assert (Tg : target (temps s) (bindings n s) k).
  { apply target_unique.
    - apply cols_len.
    - apply nth_error_Some. congruence.
    - intros j Hj. destruct (f_before_old _ _ _ _ _ _ F j Hj); auto.
    - rewrite temps_len. exact P2.
    - exact P1. }
  destruct (v_readonly v) eqn:Er.
  - exists k, (Some v), false, s1, v. split; [exact R|]. split; [exact Tg|].
    assert (Ho : nth_error (bindings n s) k = Some (Some v)) by (destruct (f_old _ _ _ _ _ _ F) as [A|[_ ->]]; [exact A|discriminate]).
    split; [exact Ho|]. split; [constructor; [apply F|apply F|apply F|apply T1]|]. left. split; [eauto|auto].
  - set (e := (v_export v || exporting n export s)%bool) in *. cbn zeta in R.
    set (w0 := mkVar x e false (v_nodelete v) GNone) in *. pose proof (found_len _ _ _ _ _ _ F) as B.
    destruct (store_col mbs seed_ok n k w0 e s1 B) as [g [C G]].
    assert (Ho : exists old, nth_error (bindings n s) k = Some old /\ (old = Some v \/ old = None /\ v = fresh)) by (destruct (f_old _ _ _ _ _ _ F) as [A|[A Ev]]; eauto).
    destruct Ho as [old [Ho Hov]].
    exists k, old, true, (store_var mbs seed_ok n k w0 e s1), (with_getter g w0).
    split; [exact R|]. split; [exact Tg|].
    split; [exact Ho|]. split; [constructor|].
    + rewrite C. apply upd_nth_same. rewrite col_len. exact B.
    + intros j Hj. rewrite C, upd_nth_other by lia. apply F, Hj.
    + intros j Hj. rewrite C, upd_nth_other by lia. apply F, Hj.
    + intros m Hm. rewrite (t_col _ _ _ _ (store_touches mbs seed_ok n k w0 e s1) m Hm). apply T1, Hm.
    + right. destruct Hov as [->|[-> Ev]].
      * split; [intros u E; injection E as <-; exact Er|]. split; [reflexivity|]. split; [reflexivity|]. split; [reflexivity|].
        split; [|reflexivity]. intro Hn. destruct G as [->|[G _]]; [reflexivity|contradiction].
      * split; [discriminate|]. split; [reflexivity|]. split; [reflexivity|]. split; [reflexivity|].
        split; [|unfold w0, e; rewrite Ev; reflexivity]. intro Hn. destruct G as [->|[G _]]; [reflexivity|contradiction].
Qed.

(** Reading *)
Lemma plain_skip : forall n r s, plain n -> get_variable L mbs n r s =
  match search_variable n s with
  | Some (k, v) => let! (v, s) := run_getter mbs n k v r s in Ok (match v_val v with Scalar (Some x) => Single x | Scalar None => NotFound | Array l => Many l end, s)
  | None => Ok (NotFound, s)
  end.
Proof.
  intros n r s H. unfold get_variable. destruct n as [|c n]; [destruct H|]. destruct H as [D H].
  assert (O : forall x, In x (str "*@#?-$!0") -> list_N_eqb (c :: n) [x] = false).
  { intros x Hx. apply not_true_is_false. intro E. apply list_N_eqb_eq in E. injection E as -> ->. exact (H eq_refl Hx). }
  rewrite !O by (cbn; tauto). cbn [orb list_N_eqb]. change (iswdigit c) with (is_digit c). rewrite D. reflexivity.
Qed.
Lemma get_visible : forall n r s v, plain n -> visible (bindings n s) v -> v_getter v = GNone ->
  get_variable L mbs n r s = Ok (match v_val v with Scalar (Some x) => Single x | Scalar None => NotFound | Array l => Many l end, s).
Proof.
  intros n r s v P H G. rewrite plain_skip by exact P. apply visible_seek in H. destruct H as [k H]. rewrite search_seek, H.
  unfold run_getter. rewrite G. reflexivity.
Qed.

(** ** Functions *)

Lemma not_unset_positional : forall o, not_unset positional o.
Proof.
  apply (op_ind2 (not_unset positional) (Forall (not_unset positional))).
  - constructor.
  - intros. constructor; assumption.
  - intros l b H. cbn [not_unset]. apply all_forall, H.
  - intros l b H. cbn [not_unset]. apply all_forall, H.
  - intros o H1 H2. destruct o; cbn [not_unset]; auto. + exfalso. eapply H1. reflexivity. + exfalso. eapply H2. reflexivity.
Qed.
Lemma run_all_ok : forall l s, wf s -> Forall op_ok l -> exists s', run_all l s = Ok s' /\ wf s' /\ temps s' = temps s /\ forall n, lkeep mbs l n s s'.
Proof.
  induction l as [|o l IH]; intros s W H.
  - exists s. split; [reflexivity|]. split; [exact W|]. split; [reflexivity|]. intro. apply keep_refl.
  - inversion H as [|? ? H1 H2]; subst. destruct (run_ok L HL mbs mbs_inj order order_perm seed_ok o s W H1) as [s1 [R1 [W1 [T1 K1]]]].
    destruct (IH s1 W1 H2) as [s2 [R2 [W2 [T2 K2]]]]. exists s2. cbn [VarModel.run_all]. rewrite R1. cbn [rbind].
    split; [exact R2|]. split; [exact W2|]. split; [congruence|]. intro n.
    eapply keep_trans; [eapply keep_weaken; [| | | | |apply (K1 n)]|eapply keep_weaken; [| | | | |apply (K2 n)]]; intro F; inversion F; assumption.
Qed.
Lemma call_inv : forall args body s s', wf s -> op_ok (OCall args body) -> run (OCall args body) s = Ok s' ->
  exists s1 s2, set_positional_parameters mbs seed_ok args (open_new_environment false s) = Ok s1 /\ run_all body s1 = Ok s2 /\ close s2 = Ok s' /\
    wf s1 /\ temps s1 = false :: temps s /\ bindings positional s1 = Some (params args) :: bindings positional s /\
    (forall n, n <> positional -> bindings n s1 = None :: bindings n s) /\ wf s2 /\ temps s2 = false :: temps s /\ (forall n, lkeep mbs body n s1 s2) /\
    (forall n, bindings n s' = tl (bindings n s2)).
Proof.
  intros args body s s' W H R. cbn [op_ok] in H. rewrite all_forall in H. destruct (call_start mbs mbs_inj seed_ok args s W) as [s1 [R1 [W1 [T1 [Cp [Cn _]]]]]].
  destruct (run_all_ok body s1 W1 H) as [s2 [R2 [W2 [T2 K2]]]]. rewrite T1 in T2.
  destruct (close_ok mbs mbs_inj order order_perm seed_ok s2) as [s3 [Hc [T3 [C3 _]]]].
  { rewrite <- temps_len, T2. cbn [length]. rewrite temps_len. pose proof (wf0_len s (proj1 W)). lia. }
  assert (s3 = s').
  { cbn [VarModel.run] in R. rewrite R1 in R. cbn [rbind] in R. change ((let! s4 := run_all body s1 in close s4) = Ok s') in R. rewrite R2 in R. cbn [rbind] in R. congruence. }
  subst s3. exists s1, s2. split; [exact R1|]. split; [exact R2|]. split; [exact Hc|]. auto 10.
Qed.
Lemma shield_tl : forall (l : list (option var)) c2 c, (length c2 = S (length c))%nat -> (forall j, (0 < j)%nat -> nth_error c2 j = nth_error (hd None l :: c) j) -> tl c2 = c.
Proof.
  intros l c2 c E H. destruct c2 as [|o c2]; [discriminate|]. cbn [tl]. apply nth_ext'. intro i. exact (H (S i) ltac:(lia)).
Qed.
Lemma call_params : forall args body s s', wf s -> op_ok (OCall args body) -> run (OCall args body) s = Ok s' -> bindings positional s' = bindings positional s.
Proof.
  intros args body s s' W H R. destruct (call_inv _ _ _ _ W H R) as [s1 [s2 [_ [_ [_ [_ [T1 [Cp [_ [_ [T2 [K C]]]]]]]]]]]].
  rewrite C. destruct (k_shield _ _ _ _ _ _ _ _ _ (K positional)) with (i := 0%nat) (v := params args) as [_ F].
  - apply Forall_forall. intros o _. apply not_unset_positional.
  - rewrite T1. reflexivity.
  - rewrite Cp. reflexivity.
  - apply (shield_tl [Some (params args)]).
    + rewrite <- !cols_len, T2. reflexivity.
    + intros j Hj. rewrite (F j Hj), Cp. reflexivity.
Qed.
(** A variable declared in a function *)
Lemma typeset_local : forall readonly export unexport n x s ok s', wf0 s -> nth_error (temps s) 0 = Some false ->
  typeset_operand mbs seed_ok false readonly export unexport n x s = Ok (ok, s') ->
  exists w, nth_error (bindings n s') 0 = Some (Some w) /\ forall j, (0 < j)%nat -> nth_error (bindings n s') j = nth_error (bindings n s) j.
Proof.
  intros readonly export unexport n x s ok s' W Ht. destruct (new_local_ok mbs mbs_inj seed_ok n s W) as [k [v [s1 [R [F [P1 P2]]]]]].
  assert (k = 0)%nat. { destruct k as [|k]; [reflexivity|]. specialize (P2 0%nat ltac:(lia)). congruence. }
  subst k. unfold typeset_operand. rewrite R. cbn [rbind]. rewrite get_at_col, (f_at _ _ _ _ _ _ F). cbn zeta.
  match goal with |- context [put 0 n ?w s1] => set (w0 := w) end.
  match goal with |- Ok (_, if ?b then _ else _) = _ -> _ => set (b0 := b) end.
  intro E. injection E as _ E. change (store_var mbs seed_ok n 0 w0 b0 s1 = s') in E. subst s'.
  destruct (store_col mbs seed_ok n 0 w0 b0 s1 (found_len _ _ _ _ _ _ F)) as [g [C _]]. exists (with_getter g w0). rewrite C. split.
  - apply upd_nth_same. rewrite col_len. eapply found_len; eauto.
  - intros j Hj. rewrite upd_nth_other by lia. apply F, Hj.
Qed.
Lemma call_local : forall args readonly export unexport arg body n s s', wf s -> n = fst (cut_eq [] arg) ->
  op_ok (OCall args (OTypeset false readonly export unexport arg :: body)) -> Forall (not_unset n) body ->
  run (OCall args (OTypeset false readonly export unexport arg :: body)) s = Ok s' -> bindings n s' = bindings n s.
Proof.
  intros args readonly export unexport arg body n s s' W Hn H U R.
  assert (Np : n <> positional) by (subst n; apply name_ok_pos, cut_eq_ok; intros []).
  destruct (call_inv _ _ _ _ W H R) as [s1 [s2 [_ [R2 [_ [W1 [T1 [_ [Cn [_ [T2 [_ C]]]]]]]]]]]].
  cbn [VarModel.run_all VarModel.run] in R2. unfold typeset in R2. destruct (cut_eq [] arg) as [m x] eqn:Ec. cbn [fst] in Hn. subst m.
  destruct (typeset_keep mbs mbs_inj seed_ok false readonly export unexport n x s1 (proj1 W1)) as [ok [sa [Ra [Ta [_ Wa]]]]]. rewrite Ra in R2. cbn [rbind] in R2.
  destruct (typeset_local readonly export unexport n x s1 ok sa (proj1 W1)) as [w [Hw Ho]]; [rewrite T1; reflexivity|exact Ra|].
  assert (Wa' : wf sa) by (eapply touches_wf'; eauto).
  cbn [op_ok] in H. destruct H as [_ H]. rewrite all_forall in H.
  destruct (run_all_ok body sa Wa' H) as [s3 [R3 [_ [_ K3]]]]. rewrite R3 in R2. injection R2 as ->.
  destruct (k_shield _ _ _ _ _ _ _ _ _ (K3 n)) with (i := 0%nat) (v := w) as [_ F]; [exact U|rewrite (t_temps _ _ _ _ Ta), T1; reflexivity|exact Hw|].
  rewrite C. apply (shield_tl []).
  - rewrite <- !cols_len, T2. reflexivity.
  - intros j Hj. rewrite (F j Hj), (Ho j Hj), (Cn n Np). reflexivity.
Qed.

(** ** Temporary assignments *)

Lemma set_temp_ok : forall n x e s ok s', wf0 s -> nth_error (temps s) 0 = Some true -> set_value mbs seed_ok n x TEMP e s = Ok (ok, s') ->
  (forall m, tl (bindings m s') = tl (bindings m s)) /\ (forall m, m <> n -> bindings m s' = bindings m s) /\
  (ok = false -> exists v, visible (bindings n s) v /\ v_readonly v = true) /\
  (ok = true -> exists w, nth_error (bindings n s') 0 = Some (Some w) /\ v_val w = x /\ v_readonly w = false /\ (e = true -> v_export w = true)).
Proof.
  intros n x e s ok s' W Ht H.
  destruct (envs s) as [|e0 es] eqn:Ee; [unfold temps in Ht; rewrite Ee in Ht; discriminate|].
  assert (Hte : temp e0 = true) by (unfold temps in Ht; rewrite Ee in Ht; cbn in Ht; congruence).
  assert (Hn : nth_error (envs s) 0 = Some e0) by (rewrite Ee; reflexivity). destruct (nth_env 0 n s e0 Hn) as [Hc _].
  assert (Own : forall s1 v, (s1 = s /\ nth_error (bindings n s) 0 = Some (Some v) \/ s1 = put 0 n fresh s /\ v = fresh) -> v_readonly v = false ->
     forall b, Ok (true, store_var mbs seed_ok n 0 (mkVar x b false (v_nodelete v) GNone) b s1) = Ok (ok, s') -> (e = true -> b = true) ->
     (forall m, tl (bindings m s') = tl (bindings m s)) /\ (forall m, m <> n -> bindings m s' = bindings m s) /\
     (ok = false -> exists v, visible (bindings n s) v /\ v_readonly v = true) /\
     (ok = true -> exists w, nth_error (bindings n s') 0 = Some (Some w) /\ v_val w = x /\ v_readonly w = false /\ (e = true -> v_export w = true))).
  { intros s1 v Hs Hr b E Hb. assert (Eok : ok = true) by congruence. assert (Es : s' = store_var mbs seed_ok n 0 (mkVar x b false (v_nodelete v) GNone) b s1) by congruence. clear E.
    assert (B1 : (0 < length (envs s1))%nat) by (destruct Hs as [[-> _]|[-> _]]; [rewrite Ee; cbn; lia|]; cbn [put with_envs envs]; rewrite Ee; cbn; lia).
    destruct (store_col mbs seed_ok n 0 (mkVar x b false (v_nodelete v) GNone) b s1 B1) as [g [C _]].
    assert (Tn : tl (bindings n s1) = tl (bindings n s)).
    { destruct Hs as [[-> _]|[-> _]]; [reflexivity|]. rewrite col_put. destruct (bindings n s); reflexivity. }
    assert (Co : forall m, m <> n -> bindings m s' = bindings m s).
    { intros m Hm. rewrite Es, (t_col _ _ _ _ (store_touches mbs seed_ok n 0 _ b s1) m Hm). destruct Hs as [[-> _]|[-> _]]; [reflexivity|apply col_put_other, Hm]. }
    split; [|split; [exact Co|split; [congruence|]]].
    - intro m. destruct (list_eq_dec N.eq_dec m n) as [->|D]; [|rewrite Co by exact D; reflexivity].
      rewrite Es, C, <- Tn. destruct (bindings n s1); reflexivity.
    - intros _. eexists. rewrite Es, C. split; [apply upd_nth_same; rewrite col_len; exact B1|]. cbn. auto. }
  unfold set_value, new_variable, new_temporary in H. rewrite Ee, Hte in H. cbn [negb] in H.
  assert (Hown : (let! (k, s0) := match lookup n (vars e0) with Some _ => Ok (O, s) | None => Ok (O, put 0 n fresh s) end in
                   match get_at k n s0 with None => UB | Some v => if v_readonly v then Ok (None, s0) else Ok (Some (k, v), s0) end) =
                 match lookup n (vars e0) with
                 | Some v => if v_readonly v then Ok (None, s) else Ok (Some (O, v), s)
                 | None => Ok (Some (O, fresh), put 0 n fresh s) end).
  { destruct (lookup n (vars e0)) as [v|]; cbn [rbind]; rewrite get_at_col; [rewrite Hc; reflexivity|].
    rewrite col_put, upd_nth_same by (rewrite col_len, Ee; cbn; lia). reflexivity. }
  assert (Case : forall ro, (forall v, lookup n (vars e0) = Some v -> v_readonly v = ro v) -> (forall v, lookup n (vars e0) = Some v -> ro v = false) ->
     (let! (r, s0) := match lookup n (vars e0) with
                 | Some v => if v_readonly v then Ok (None, s) else Ok (Some (O, v), s)
                 | None => Ok (Some (O, fresh), put 0 n fresh s) end in
      match r with
      | Some (k, v) =>
        let s1 := variable_set mbs seed_ok n (Some k) (put k n (mkVar x (v_export v || (e || allexport s && negb (match n with c :: _ => (c =? ch "=")%N | [] => false end))) false (v_nodelete v) GNone) s0) in
        Ok (true, if v_export v || (e || allexport s && negb (match n with c :: _ => (c =? ch "=")%N | [] => false end)) then update_environment mbs n s1 else s1)
      | None => Ok (false, s0)
      end) = Ok (ok, s') -> 
     (forall m, tl (bindings m s') = tl (bindings m s)) /\ (forall m, m <> n -> bindings m s' = bindings m s) /\
     (ok = false -> exists v, visible (bindings n s) v /\ v_readonly v = true) /\
     (ok = true -> exists w, nth_error (bindings n s') 0 = Some (Some w) /\ v_val w = x /\ v_readonly w = false /\ (e = true -> v_export w = true))).
  { intros ro R1 R2 E. destruct (lookup n (vars e0)) as [v|].
    - rewrite (R1 v eq_refl), (R2 v eq_refl) in E. cbn [rbind] in E. eapply (Own s v); [left; auto|rewrite (R1 v eq_refl); apply R2; reflexivity|exact E|].
      intros ->. rewrite orb_true_r. reflexivity.
    - cbn [rbind] in E. eapply (Own (put 0 n fresh s) fresh); [right; auto|reflexivity|exact E|]. intros ->. reflexivity. }
  rewrite search_seek in H. destruct (seek (bindings n s)) as [[i v]|] eqn:Es.
  - destruct (seek_some _ _ _ Es) as [A B]. destruct (v_readonly v) eqn:Er.
    + cbn [rbind] in H. rewrite get_at_col, A, Er in H. cbn [rbind] in H. injection H as <- <-.
      split; [reflexivity|]. split; [reflexivity|]. split; [|discriminate]. intros _. exists v. split; [apply visible_seek; eauto|exact Er].
    + cbv zeta in H. rewrite Hown in H. apply (Case v_readonly) in H; [exact H|reflexivity|].
      intros u Hu. rewrite Hu in Hc. destruct i as [|i]; [congruence|]. rewrite (B 0%nat ltac:(lia)) in Hc. discriminate.
  - cbv zeta in H. rewrite Hown in H. apply (Case v_readonly) in H; [exact H|reflexivity|].
    intros u Hu. rewrite Hu in Hc. rewrite (seek_none _ Es 0%nat) in Hc by (rewrite col_len, Ee; cbn; lia). discriminate.
Qed.
Lemma temp_assignments : forall l s ok s', wf0 s -> nth_error (temps s) 0 = Some true -> do_assignments mbs seed_ok l TEMP true s = Ok (ok, s') ->
  (forall m, tl (bindings m s') = tl (bindings m s)) /\ (forall m, ~ In m (map fst l) -> bindings m s' = bindings m s) /\
  (ok = true -> forall n x, assigns n l x -> exists w, nth_error (bindings n s') 0 = Some (Some w) /\ v_val w = x /\ v_export w = true) /\
  (ok = false -> exists n v, In n (map fst l) /\ v_readonly v = true /\ exists s1, visible (bindings n s1) v /\ forall m, tl (bindings m s1) = tl (bindings m s)).
Proof.
  induction l as [|[n x] l IH]; intros s ok s' W Ht H; cbn [do_assignments] in H.
  - injection H as <- <-. split; [reflexivity|]. split; [reflexivity|]. split; [|discriminate]. intros _ n x Hx. inversion Hx.
  - destruct (set_value_keep mbs mbs_inj seed_ok n x TEMP true s W (fun _ => Ht)) as [ok1 [s1 [R1 [T1 [K1 W1]]]]]. rewrite R1 in H. cbn [rbind] in H.
    destruct (set_temp_ok n x true s ok1 s1 W Ht R1) as [A1 [A2 [A3 A4]]]. destruct ok1.
    + destruct (IH s1 ok s' W1) as [B1 [B2 [B3 B4]]]; [rewrite (t_temps _ _ _ _ T1); exact Ht|exact H|].
      split; [intro m; rewrite B1; apply A1|]. split; [|split].
      * intros m Hm. cbn [map fst In] in Hm. rewrite B2, A2 by intuition congruence. reflexivity.
      * intros E m y Hy. inversion Hy as [? ? Hi|? ? ? Hl]; subst; [|apply B3; auto].
        destruct (A4 eq_refl) as [w [W2 [W3 [_ W4]]]]. exists w. rewrite B2 by exact Hi. auto.
      * intros E. destruct (B4 E) as [m [v [C1 [C2 [s2 [C3 C4]]]]]]. exists m, v. split; [right; exact C1|]. split; [exact C2|]. exists s2. split; [exact C3|].
        intro p. rewrite C4. apply A1.
    + injection H as <- <-. split; [exact A1|]. split; [intros m Hm; cbn [map fst In] in Hm; apply A2; intuition congruence|]. split; [discriminate|].
      intros _. destruct (A3 eq_refl) as [v [V1 V2]]. exists n, v. split; [left; reflexivity|]. split; [exact V2|]. exists s. auto.
Qed.
Lemma temp_succeeds : forall l s ok s', wf0 s -> nth_error (temps s) 0 = Some true -> do_assignments mbs seed_ok l TEMP true s = Ok (ok, s') ->
  (forall n v, In n (map fst l) -> visible (bindings n s) v -> v_readonly v = false) -> ok = true.
Proof.
  induction l as [|[n x] l IH]; intros s ok s' W Ht H Hr; cbn [do_assignments] in H; [injection H as <- <-; reflexivity|].
  destruct (set_value_keep mbs mbs_inj seed_ok n x TEMP true s W (fun _ => Ht)) as [ok1 [s1 [R1 [T1 [K1 W1]]]]]. rewrite R1 in H. cbn [rbind] in H.
  destruct (set_temp_ok n x true s ok1 s1 W Ht R1) as [A1 [A2 [A3 A4]]]. destruct ok1.
  - apply (IH s1 ok s' W1); [rewrite (t_temps _ _ _ _ T1); exact Ht|exact H|]. intros m v Hm Hv. destruct (list_eq_dec N.eq_dec m n) as [->|D].
    + destruct (A4 eq_refl) as [w [Hw [_ [Hwr _]]]]. apply visible_nth in Hv. destruct Hv as [i [Hi Hj]]. destruct i as [|i]; [congruence|]. rewrite (Hj 0%nat ltac:(lia)) in Hw. discriminate.
    + rewrite A2 in Hv by exact D. apply (Hr m v); [right; exact Hm|exact Hv].
  - destruct (A3 eq_refl) as [v [V1 V2]]. rewrite (Hr n v) in V2; [discriminate|left; reflexivity|exact V1].
Qed.
Lemma temp_restores : forall l body n s s', wf s -> op_ok (OTemp l body) -> Forall (not_about n) body -> run (OTemp l body) s = Ok s' -> bindings n s' = bindings n s.
Proof.
  intros l body n s s' W H U R. cbn [op_ok] in H. rewrite all_forall in H. destruct H as [H1 H2].
  destruct (temp_start mbs mbs_inj seed_ok l s W H1) as [ok [s1 [R1 [W1 [T1 _]]]]].
  destruct (temp_assignments l (open_new_environment true s) ok s1 (open_wf0 true s (proj1 W)) eq_refl R1) as [A1 _].
  assert (B : exists s2, (if ok then run_all body s1 else Ok s1) = Ok s2 /\ temps s2 = temps s1 /\ bindings n s2 = bindings n s1).
  { destruct ok; [|exists s1; auto]. destruct (run_all_ok body s1 W1 H2) as [s2 [R2 [_ [T2 K2]]]]. exists s2. split; [exact R2|]. split; [exact T2|].
    apply (k_same _ _ _ _ _ _ _ _ _ (K2 n) U). }
  destruct B as [s2 [R2 [T2 C2]]]. destruct (close_ok mbs mbs_inj order order_perm seed_ok s2) as [s3 [Hc [_ [C3 _]]]].
  { rewrite <- temps_len, T2, T1. cbn [length]. rewrite temps_len. pose proof (wf0_len s (proj1 W)). lia. }
  assert (s3 = s').
  { cbn [VarModel.run] in R. rewrite R1 in R. cbn [rbind] in R. change ((let! s4 := (if ok then run_all body s1 else Ok s1) in close s4) = Ok s') in R. rewrite R2 in R. cbn [rbind] in R. congruence. }
  subst s3. rewrite C3, C2, A1. reflexivity.
Qed.

(** ** Positional parameters *)

Lemma params_visible : forall s, wf s -> exists l, visible (bindings positional s) (params l) /\ positional_values s = Ok l.
Proof.
  intros s W. destruct (poscol_seek s W) as [k [l [E _]]]. exists l. split; [apply visible_seek; eauto|eapply positional_values_ok; eauto].
Qed.
Lemma set_params_visible : forall l s s', wf s -> set_positional_parameters mbs seed_ok l s = Ok s' -> positional_values s' = Ok l /\
  forall m, m <> positional -> bindings m s' = bindings m s.
Proof.
  intros l s s' W R. destruct (poscol_seek s W) as [k [l0 [E [Ht Hb]]]]. destruct (seek_some _ _ _ E) as [A B].
  destruct (set_params_ok mbs mbs_inj seed_ok l s k (Some (params l0))) as [s1 [R1 [T [K [W' C]]]]]; auto; [apply W|intros v X; injection X as <-; eauto|].
  assert (s1 = s') by congruence. subst s1. split; [|apply T].
  eapply positional_values_ok with (k := k). apply seek_first.
  - rewrite C. apply upd_nth_same. apply nth_error_Some. congruence.
  - intros j Hj. rewrite C, upd_nth_other by lia. apply B, Hj.
Qed.
Lemma shift_params : forall c l s, positional_values s = Ok l ->
  shift_builtin None c s = Ok (false, s) /\ (Z.of_nat (length l) < Z.abs c)%Z \/
  exists s', shift_builtin None c s = Ok (true, s') /\ (Z.abs c <= Z.of_nat (length l))%Z /\
    positional_values s' = Ok (if (0 <=? c)%Z then skipn (Z.to_nat c) l else firstn (length l - Z.to_nat (- c)) l).
Proof.
  intros c l s H. unfold positional_values in H. unfold shift_builtin. rewrite search_seek in *. destruct (seek (bindings positional s)) as [[k v]|] eqn:E; [|discriminate].
  destruct (v_val v) as [x|l0] eqn:Ev; [discriminate|]. injection H as ->. cbn [rbind]. destruct (Z.ltb_spec (Z.of_nat (length l)) (Z.abs c)) as [B|B]; [left; auto|].
  right. eexists. split; [reflexivity|]. split; [exact B|]. unfold positional_values. rewrite search_seek. destruct (seek_some _ _ _ E) as [A A2].
  rewrite (seek_first _ k (with_val (Array (firstn (if (0 <=? c)%Z then 0 else length l - Z.to_nat (Z.abs c)) l ++
      skipn ((if (0 <=? c)%Z then 0 else length l - Z.to_nat (Z.abs c)) + Z.to_nat (Z.abs c)) l)) v)).
  - cbn [with_val v_val]. f_equal. destruct (Z.leb_spec 0 c) as [P|P].
    + cbn [firstn app Nat.add]. f_equal. lia.
    + replace (Z.abs c) with (- c)%Z by lia. rewrite (skipn_all2 l) by lia. apply app_nil_r.
  - rewrite col_put. apply upd_nth_same. apply nth_error_Some. congruence.
  - intros j Hj. rewrite col_put, upd_nth_other by lia. apply A2, Hj.
Qed.
Lemma get_param : forall ds i r s l, positional_values s = Ok l -> ds <> [] -> ds <> str "0" -> Forall (fun c => is_digit c = true) ds -> digits_value 0 ds = i ->
  get_variable L mbs ds r s = Ok (match nth_error (([] : list N) :: l) (Z.to_nat i) with Some x => if (i =? 0)%Z then NotFound else if (i <=? UINTMAX)%Z then Single x else NotFound | None => NotFound end, s).
Proof.
  intros ds i r s l Hl Hn H0 Hd Hi. destruct ds as [|c ds]; [contradiction|]. clear Hn. inversion Hd as [|? ? D Dr]; subst.
  assert (O : forall x, is_digit x = false \/ x = ch "0" -> list_N_eqb (c :: ds) [x] = false).
  { intros x Hx. apply not_true_is_false. intro E. apply list_N_eqb_eq in E. injection E as -> ->. destruct Hx as [Hx| ->]; [congruence|]. apply H0. reflexivity. }
  unfold get_variable. rewrite (O (ch "*")), (O (ch "@")), (O (ch "#")), (O (ch "?")), (O (ch "-")), (O (ch "$")), (O (ch "!")), (O (ch "0")) by (auto; left; reflexivity). cbn [orb list_N_eqb]. change (iswdigit c) with (is_digit c). rewrite D.
  assert (Hw : wcstol L 10 (c :: ds) = (Some (digits_value 0 (c :: ds)), [])).
  { rewrite wcstol_unfold. cbn [skip_space]. rewrite (digit_nospace L HL c D). rewrite take_sign_other by (unfold is_digit in D; lia).
    pose proof (scan_digits_fwd (c :: ds) 0 false [] Hd I) as X. rewrite app_nil_r in X. rewrite X. reflexivity. }
  rewrite Hw. set (i := digits_value 0 (c :: ds)). assert (Hi : (0 <= i)%Z) by (eapply digits_value_nonneg; [exact mbs_inj|exact seed_ok|exact Hd|lia]). clearbody i. clear Hw.
  rewrite Hl. cbn [rbind].
  destruct (Z.leb_spec i UINTMAX) as [B|B].
  - destruct (Z.eqb_spec i 0) as [->|Z0]; [reflexivity|]. cbn [orb]. destruct (Z.ltb_spec (Z.of_nat (length l)) i) as [C|C].
    + rewrite (proj2 (nth_error_None _ _)); [reflexivity|]. cbn [length]. lia.
    + replace (Z.to_nat i) with (S (Z.to_nat (i - 1))) by lia. cbn [nth_error]. unfold rget. destruct (nth_error l (Z.to_nat (i - 1))) as [x|] eqn:E; [reflexivity|].
      apply nth_error_None in E. lia.
  - destruct (nth_error _ _); [|reflexivity]. destruct (i =? 0)%Z; reflexivity.
Qed.

(** ** Arrays *)

Lemma changed_put : forall n k v x y s, seek (bindings n s) = Some (k, v) -> v_val v = x -> v_readonly v = false ->
  value_changed x y (bindings n s) (bindings n (put k n (with_val y v) s)).
Proof.
  intros n k v x y s H Hx Hr. rewrite col_put. revert k H. induction (bindings n s) as [|o c IH]; intros k H; [discriminate|]. cbn [seek] in H. destruct o as [u|].
  - injection H as <- ->. apply changed_here; auto.
  - destruct (seek c) as [[i u]|] eqn:E; [|discriminate]. injection H as <- ->. cbn [upd]. apply changed_outer, IH. reflexivity.
Qed.
Lemma changeable_iff : forall n s k v l, changeable_array n s = Some (k, v, l) <-> seek (bindings n s) = Some (k, v) /\ v_val v = Array l /\ v_readonly v = false.
Proof.
  intros n s k v l. unfold changeable_array. rewrite search_seek. destruct (seek (bindings n s)) as [[i u]|]; [|split; [discriminate|intros [H _]; discriminate]].
  split.
  - destruct (v_val u) as [x|l0] eqn:E; [discriminate|]. destruct (v_readonly u) eqn:R; [discriminate|]. intro H. injection H as -> -> ->. auto.
  - intros [H [E R]]. injection H as -> ->. rewrite E, R. reflexivity.
Qed.
Lemma changed_from : forall n l l0 y v s c', value_changed (Array l0) y (bindings n s) c' -> visible (bindings n s) v -> v_val v = Array l -> l0 = l.
Proof.
  intros n l l0 y v s c' H V E. revert V. induction H as [v0 w c H1 H2|c c' H IH]; intro V; inversion V; subst; [congruence|auto].
Qed.
(** What the operations of the array built-in make of an array *)
Definition array_new (o : arrayop) (l : list (list N)) : option (list (list N)) :=
  match o with
  | ASet l' => Some l'
  | ADelete idx => array_remove_elements L idx l
  | AInsert index new => array_insert_elements L index new l
  | AElement index x => array_set_element L index x l
  end.
Lemma array_builtin_ok : forall n o s, (forall l, o <> ASet l) -> name_ok n ->
  (exists l l' s', array_builtin L mbs seed_ok n o s = Ok (true, s') /\ array_new o l = Some l' /\ value_changed (Array l) (Array l') (bindings n s) (bindings n s') /\
     forall m, m <> n -> bindings m s' = bindings m s) \/
  array_builtin L mbs seed_ok n o s = Ok (false, s) /\ forall v l, visible (bindings n s) v -> v_val v = Array l -> v_readonly v = true \/ array_new o l = None.
Proof.
  intros n o s Hs Hn. unfold array_builtin.
  assert (E : has_eq n = false).
  { unfold has_eq. apply not_true_is_false. intro E. apply existsb_exists in E. destruct E as [c [I C]]. apply N.eqb_eq in C. subst c. exact (Hn I). }
  rewrite E.
  assert (G : forall f, (forall l, f l = array_new o l) ->
    (exists l l' s', (match changeable_array n s with None => Ok (false, s) | Some (k, v, l) => match f l with None => Ok (false, s) | Some l' => Ok (true, put k n (with_val (Array l') v) s) end end) = Ok (true, s') /\
       array_new o l = Some l' /\ value_changed (Array l) (Array l') (bindings n s) (bindings n s') /\ forall m, m <> n -> bindings m s' = bindings m s) \/
    (match changeable_array n s with None => Ok (false, s) | Some (k, v, l) => match f l with None => Ok (false, s) | Some l' => Ok (true, put k n (with_val (Array l') v) s) end end) = Ok (false, s) /\
       forall v l, visible (bindings n s) v -> v_val v = Array l -> v_readonly v = true \/ array_new o l = None).
  { intros f Hf. destruct (changeable_array n s) as [[[k v] l]|] eqn:C.
    - apply changeable_iff in C. destruct C as [C1 [C2 C3]]. destruct (f l) as [l'|] eqn:F.
      + left. exists l, l', (put k n (with_val (Array l') v) s). split; [reflexivity|]. split; [rewrite <- Hf; exact F|]. split; [apply changed_put; auto|].
        intros m Hm. apply col_put_other, Hm.
      + right. split; [reflexivity|]. intros u lu Hu Eu. apply visible_seek in Hu. destruct Hu as [i Hu]. rewrite C1 in Hu. injection Hu as -> ->. right. rewrite <- Hf. congruence.
    - right. split; [reflexivity|]. intros u lu Hu Eu. apply visible_seek in Hu. destruct Hu as [i Hu]. destruct (v_readonly u) eqn:R; [auto|].
      assert (X : changeable_array n s = Some (i, u, lu)) by (apply changeable_iff; auto). congruence. }
  destruct o as [l0|idx|index new|index x]; [exfalso; eapply Hs; reflexivity|apply G; reflexivity..].
Qed.
Lemma shift_array : forall n c s, name_ok n ->
  (exists v l s', visible (bindings n s) v /\ v_val v = Array l /\ (Z.abs c <= Z.of_nat (length l))%Z /\ shift_builtin (Some n) c s = Ok (true, s') /\
     (exists w, visible (bindings n s') w /\ v_val w = Array (if (0 <=? c)%Z then skipn (Z.to_nat c) l else firstn (length l - Z.to_nat (- c)) l)) /\
     forall m, m <> n -> bindings m s' = bindings m s) \/
  shift_builtin (Some n) c s = Ok (false, s) /\ forall v l, visible (bindings n s) v -> v_val v = Array l -> (Z.of_nat (length l) < Z.abs c)%Z.
Proof.
  intros n c s Hn. unfold shift_builtin.
  assert (E : has_eq n = false).
  { unfold has_eq. apply not_true_is_false. intro E. apply existsb_exists in E. destruct E as [d [I C]]. apply N.eqb_eq in C. subst d. exact (Hn I). }
  rewrite E, search_seek. destruct (seek (bindings n s)) as [[k v]|] eqn:Es.
  - destruct (v_val v) as [x|l] eqn:Ev.
    + right. cbn [rbind]. split; [reflexivity|]. intros u l Hu Eu. apply visible_seek in Hu. destruct Hu as [i Hu]. congruence.
    + cbn [rbind]. destruct (Z.ltb_spec (Z.of_nat (length l)) (Z.abs c)) as [B|B].
      * right. split; [reflexivity|]. intros u lu Hu Eu. apply visible_seek in Hu. destruct Hu as [i Hu]. assert (u = v) by congruence. subst u. assert (lu = l) by congruence. subst lu. exact B.
      * left. exists v, l. eexists. split; [apply visible_seek; eauto|]. split; [exact Ev|]. split; [exact B|]. split; [reflexivity|]. split; [|intros m Hm; apply col_put_other, Hm].
        eexists. split.
        -- apply visible_seek. exists k. destruct (seek_some _ _ _ Es) as [A A2]. rewrite col_put. apply seek_first.
           ++ apply upd_nth_same. apply nth_error_Some. congruence.
           ++ intros j Hj. rewrite upd_nth_other by lia. apply A2, Hj.
        -- cbn [with_val v_val]. f_equal. destruct (Z.leb_spec 0 c) as [P|P].
           ++ cbn [firstn app Nat.add]. f_equal. lia.
           ++ replace (Z.abs c) with (- c)%Z by lia. rewrite (skipn_all2 l) by lia. apply app_nil_r.
  - right. cbn [rbind]. split; [reflexivity|]. intros u l Hu Eu. apply visible_seek in Hu. destruct Hu as [i Hu]. congruence.
Qed.

(** ** Unsetting *)

Lemma unset_ok : forall n s, name_ok n ->
  (exists v, visible (bindings n s) v /\ v_nodelete v = true) /\ unset mbs seed_ok n s = (false, s) \/
  (forall v, visible (bindings n s) v -> v_nodelete v = false) /\ exists s', unset mbs seed_ok n s = (true, s') /\ (forall m, m <> n -> bindings m s' = bindings m s) /\
    ((forall v, ~ visible (bindings n s) v) /\ s' = s \/
     exists k v, nth_error (bindings n s) k = Some (Some v) /\ (forall j, (j < k)%nat -> nth_error (bindings n s) j = Some None) /\ bindings n s' = upd (bindings n s) k None).
Proof.
  intros n s Hn. unfold unset.
  assert (E : has_eq n = false).
  { unfold has_eq. apply not_true_is_false. intro E. apply existsb_exists in E. destruct E as [c [I C]]. apply N.eqb_eq in C. subst c. exact (Hn I). }
  rewrite E, (unset_eq mbs mbs_inj). destruct (seek (bindings n s)) as [[k v]|] eqn:Es.
  - assert (Vv : visible (bindings n s) v) by (apply visible_seek; eauto).
    assert (Vu : forall u, visible (bindings n s) u -> u = v) by (intros u Hu; apply visible_seek in Hu; destruct Hu as [i Hu]; congruence).
    destruct (v_nodelete v) eqn:D; [left; split; [eauto|reflexivity]|]. right. split; [intros u Hu; rewrite (Vu u Hu); exact D|]. eexists. split; [reflexivity|].
    split; [intros m Hm; eapply t_col; [apply (remove_touches mbs)|exact Hm]|]. right. destruct (seek_some _ _ _ Es) as [A B]. exists k, v. split; [exact A|]. split; [exact B|]. apply remove_col.
  - assert (Vn : forall u, ~ visible (bindings n s) u) by (intros u Hu; apply visible_seek in Hu; destruct Hu as [i Hu]; congruence).
    right. split; [intros u Hu; destruct (Vn u Hu)|]. exists s. split; [reflexivity|]. split; [reflexivity|]. left. auto.
Qed.

(** ** Read-only variables *)

Lemma nth_rev : forall {A} (l : list A) i x, nth_error (rev l) i = Some x <-> (i < length l)%nat /\ nth_error l (length l - 1 - i) = Some x.
Proof.
  intros A l i x. assert (F : forall (l : list A) i x, nth_error (rev l) i = Some x -> (i < length l)%nat /\ nth_error l (length l - 1 - i) = Some x).
  { clear. induction l as [|a l IH]; intros i x H; [destruct i; discriminate|]. cbn [rev length] in *. destruct (Nat.lt_ge_cases i (length l)) as [B|B].
    - rewrite nth_error_app1 in H by (rewrite rev_length; exact B). destruct (IH i x H) as [_ H2]. split; [lia|].
      replace (S (length l) - 1 - i)%nat with (S (length l - 1 - i)) by lia. exact H2.
    - rewrite nth_error_app2 in H by (rewrite rev_length; exact B). rewrite rev_length in H. destruct (i - length l)%nat as [|k] eqn:E; [|destruct k; discriminate].
      injection H as ->. split; [lia|]. replace (S (length l) - 1 - i)%nat with 0%nat by lia. reflexivity. }
  split; [apply F|]. intros [B H]. pose proof (F (rev l) (length l - 1 - i)%nat x) as G. rewrite rev_involutive, rev_length in G. destruct (G H) as [_ G']. rewrite <- G'. f_equal. lia.
Qed.
Lemma during_ro : forall n s0 s i v, n <> RANDOM -> n <> LINENO -> wf s0 -> during L mbs order seed_ok (not_shifted n) s0 s ->
  nth_error (rev (bindings n s0)) i = Some (Some v) -> v_readonly v = true ->
  exists v', nth_error (rev (bindings n s)) i = Some (Some v') /\ v_val v' = v_val v /\ v_readonly v' = true.
Proof.
  intros n s0 s i v H1 H2 W H Hv Hr. induction H as [|o s s' H IH Ho HP R|args s s' H IH R|l ok s s' H IH Hl R]; [eauto| | |];
    destruct IH as [v1 [A [B C]]]; pose proof (during_wf L HL mbs mbs_inj order order_perm seed_ok _ _ _ W H) as W1.
  - destruct (run_ok L HL mbs mbs_inj order order_perm seed_ok o s W1 Ho) as [s1 [R1 [_ [T K]]]]. assert (s1 = s') by congruence. subst s1.
    apply nth_rev in A. destruct A as [A1 A2]. destruct (k_ro _ _ _ _ _ _ _ _ _ (K n) HP H1 H2 _ _ A2 C) as [v2 [D1 [D2 D3]]].
    assert (Len : length (bindings n s') = length (bindings n s)) by (rewrite <- !cols_len; congruence).
    exists v2. split; [apply nth_rev; rewrite Len; auto|]. split; [congruence|exact D3].
  - destruct (call_start mbs mbs_inj seed_ok args s W1) as [s1 [R1 [_ [_ [Cp [Cn _]]]]]]. assert (s1 = s') by congruence. subst s1. exists v1. split; [|auto].
    destruct (list_eq_dec N.eq_dec n positional) as [->|D]; [rewrite Cp|rewrite Cn by exact D]; cbn [rev]; rewrite nth_error_app1; auto; apply nth_error_Some; congruence.
  - destruct (temp_start mbs mbs_inj seed_ok l s W1 Hl) as [ok1 [s1 [R1 [_ [T K]]]]]. assert (s1 = s') by congruence. subst s1.
    apply nth_rev in A. destruct A as [A1 A2]. destruct (k_ro _ _ _ _ _ _ _ _ _ (K n) I H1 H2 (S (length (bindings n s) - 1 - i)) v1) as [v2 [D1 [D2 D3]]]; [rewrite open_col; exact A2|exact C|].
    assert (Len : length (bindings n s') = S (length (bindings n s))) by (rewrite <- !cols_len; rewrite T; reflexivity).
    exists v2. split; [apply nth_rev; rewrite Len; split; [lia|]|split; [congruence|exact D3]]. replace (S (length (bindings n s)) - 1 - i)%nat with (S (length (bindings n s) - 1 - i)) by lia. exact D1.
Qed.
End Var.
