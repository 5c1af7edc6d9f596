(** Finding or creating the variable to be set, and setting it *)
From Coq Require Import Ascii String.
From Coq Require Import List NArith ZArith Bool Arith Lia Permutation.
From Verif Require Import Common Locale NumModel VarModel VarSpec VarProofs.
Import ListNotations.
Open Scope res_scope.

(** Well-formed states *)
Record okvar (n : list N) (t : bool) (v : var) : Prop := mkOkvar {
  o_ro : v_readonly v = true -> v_nodelete v = true;
  o_temp : t = true -> v_nodelete v = false;
  o_line : v_getter v = GLineno -> n = LINENO;
  o_rand : v_getter v = GRandom -> n = RANDOM;
  o_scalar : v_getter v <> GNone -> exists x, v_val v = Scalar x }.
Definition okcol (n : list N) (ts : list bool) (c : list (option var)) : Prop :=
  forall i t v, nth_error ts i = Some t -> nth_error c i = Some (Some v) -> okvar n t v.
Definition params (l : list (list N)) : var := mkVar (Array l) false false false GNone.
Definition poscol (ts : list bool) (c : list (option var)) : Prop :=
  forall i t, nth_error ts i = Some t -> if t then nth_error c i = Some None else exists l, nth_error c i = Some (Some (params l)).
Record wf0 (s : st) : Prop := mkWf0 {
  w_keys : keys s;
  w_last : nth_error (temps s) (length (envs s) - 1) = Some false;
  w_col : forall n, okcol n (temps s) (bindings n s) }.
Definition wf (s : st) : Prop := wf0 s /\ poscol (temps s) (bindings positional s).

Lemma okvar_fresh : forall n t, okvar n t fresh.
Proof. intros. constructor; cbn; congruence. Qed.
Lemma okcol_upd : forall n ts c i o, okcol n ts c -> (forall t v, nth_error ts i = Some t -> o = Some v -> okvar n t v) -> okcol n ts (upd c i o).
Proof.
  intros n ts c i o H Ho j t v Hj Hv. destruct (Nat.eq_dec i j) as [->|D].
  - destruct (Nat.lt_ge_cases j (length c)) as [B|B].
    + rewrite upd_nth_same in Hv by exact B. injection Hv as ->. eapply Ho; eauto.
    + assert (X : nth_error (upd c j o) j = None) by (apply nth_error_None; rewrite upd_len; lia). congruence.
  - rewrite upd_nth_other in Hv by exact D. eapply H; eauto.
Qed.

Section Var.
Variable mbs : list N -> option (list N).
Hypothesis mbs_inj : forall a b m, mbs a = Some m -> mbs b = Some m -> a = b.
Variable order : list (list N * var) -> list (list N * var).
Hypothesis order_perm : forall l, Permutation (order l) l.
Variable seed_ok : list N -> bool.

Notation touches := (touches mbs).
Notation exact := (exact mbs).
Notation pathok := (pathok mbs).
Notation reexport := (reexport mbs seed_ok).

Lemma touches_len : forall n s s', touches n s s' -> length (envs s') = length (envs s).
Proof. intros n s s' T. rewrite <- !temps_len. f_equal. apply T. Qed.
Lemma touches_wf0 : forall n s s', touches n s s' -> wf0 s -> okcol n (temps s) (bindings n s') -> wf0 s'.
Proof.
  intros n s s' T [K W C] H. constructor.
  - apply T, K.
  - rewrite (t_temps _ _ _ _ T), (touches_len _ _ _ T). exact W.
  - intro m. rewrite (t_temps _ _ _ _ T). destruct (list_eq_dec N.eq_dec m n) as [->|D]; [exact H|].
    rewrite (t_col _ _ _ _ T m D). apply C.
Qed.
Lemma touches_wf : forall n s s', touches n s s' -> wf s -> okcol n (temps s) (bindings n s') -> n <> positional -> wf s'.
Proof.
  intros n s s' T [W P] H D. split; [eapply touches_wf0; eauto|].
  rewrite (t_temps _ _ _ _ T), (t_col _ _ _ _ T) by congruence. exact P.
Qed.
Lemma name_ok_pos : forall n, name_ok n -> n <> positional.
Proof. intros n H ->. apply H. left. reflexivity. Qed.

(** The variable [v] in the scope [k] is to be set; temporary ones inside have been removed. *)
Record found (n : list N) (s : st) (k : nat) (v : var) (s1 : st) : Prop := mkFound {
  f_touch : touches n s s1;
  f_at : nth_error (bindings n s1) k = Some (Some v);
  f_old : nth_error (bindings n s) k = Some (Some v) \/ nth_error (bindings n s) k = Some None /\ v = fresh;
  f_before : forall i, (i < k)%nat -> nth_error (bindings n s1) i = Some None;
  f_before_old : forall i, (i < k)%nat -> nth_error (bindings n s) i = Some None \/ nth_error (temps s) i = Some true;
  f_after : forall i, (k < i)%nat -> nth_error (bindings n s1) i = nth_error (bindings n s) i;
  f_exact : exact n s -> exact n s1;
  f_path : forall p, path_name p = n -> pathok p s -> pathok p s1 }.
Lemma found_okcol : forall n s k v s1, found n s k v s1 -> okcol n (temps s) (bindings n s) -> okcol n (temps s) (bindings n s1).
Proof.
  intros n s k v s1 F H i t w Ht Hw. destruct (Nat.lt_trichotomy i k) as [B|[B|B]].
  - rewrite (f_before _ _ _ _ _ F i B) in Hw. discriminate.
  - subst i. rewrite (f_at _ _ _ _ _ F) in Hw. injection Hw as <-.
    destruct (f_old _ _ _ _ _ F) as [O|[O ->]]; [eapply H; eauto|apply okvar_fresh].
  - rewrite (f_after _ _ _ _ _ F i B) in Hw. eapply H; eauto.
Qed.
Lemma found_put : forall n s k, (k < length (envs s))%nat -> nth_error (bindings n s) k = Some None -> (forall j, (j < k)%nat -> nth_error (bindings n s) j = Some None) ->
  found n s k fresh (put k n fresh s).
Proof.
  intros n s k B H F. constructor.
  - apply touches_put.
  - rewrite col_put. apply upd_nth_same. rewrite col_len. exact B.
  - right. auto.
  - intros i Hi. rewrite col_put, upd_nth_other by lia. apply F, Hi.
  - intros i Hi. left. apply F, Hi.
  - intros i Hi. rewrite col_put, upd_nth_other by lia. reflexivity.
  - intros E m Hm Hn. change (osenv (put k n fresh s) m) with (osenv s m). rewrite (E m Hm Hn), col_put. symmetry.
    eapply exported_quiet; [exact H|exact I|reflexivity].
  - intros p Hp P. unfold VarProofs.pathok in *. rewrite pcol_put, P, Hp, col_put. apply nth_ext'. intro i. rewrite !nth_error_map.
    destruct (Nat.eq_dec k i) as [->|D].
    + rewrite upd_nth_same by (rewrite col_len; exact B). rewrite H. reflexivity.
    + rewrite upd_nth_other by exact D. reflexivity.
Qed.
Lemma found_here : forall n s k v, nth_error (bindings n s) k = Some (Some v) -> (forall j, (j < k)%nat -> nth_error (bindings n s) j = Some None) -> found n s k v s.
Proof. intros. constructor; auto. apply touches_refl. Qed.
(** A temporary variable is removed first. *)
Lemma found_remove : forall n s i w k v s1, nth_error (bindings n s) i = Some (Some w) -> nth_error (temps s) i = Some true ->
  (i < k)%nat -> found n (reexport n w (del i n s)) k v s1 -> found n s k v s1.
Proof.
  intros n s i w k v s1 Hi Ht B F. set (s2 := reexport n w (del i n s)) in *.
  assert (C : bindings n s2 = upd (bindings n s) i None) by apply remove_col.
  assert (T : touches n s s2) by apply remove_touches.
  assert (P : forall p, path_name p = n -> pathok p s2) by (intros; apply remove_path; assumption).
  assert (X : exact n s -> exact n s2) by (apply remove_exact, Hi).
  clearbody s2. destruct F as [F1 F2 F3 F4 F5 F6 F7 F8]. constructor; auto.
  - eapply touches_trans; eauto.
  - rewrite C, upd_nth_other in F3 by lia. exact F3.
  - intros j Hj. specialize (F5 j Hj). rewrite (t_temps _ _ _ _ T), C in F5. destruct (Nat.eq_dec i j) as [->|D]; [right; exact Ht|].
    rewrite upd_nth_other in F5 by exact D. exact F5.
  - intros j Hj. rewrite F6, C, upd_nth_other by lia. reflexivity.
Qed.

Lemma new_global_from_ok : forall n m i s,
  (i + m)%nat = length (envs s) -> okcol n (temps s) (bindings n s) -> nth_error (temps s) (length (envs s) - 1) = Some false ->
  (forall j, (j < i)%nat -> nth_error (bindings n s) j = Some None) ->
  exists k v s1, new_global_from mbs seed_ok n i m s = Ok (k, s1) /\ found n s k v s1 /\ nth_error (temps s) k = Some false /\
                 (k = length (envs s) - 1 \/ i <= k)%nat /\ (nth_error (bindings n s) k = Some None -> k = length (envs s) - 1)%nat.
Proof.
  intros n. induction m as [|m IH]; intros i s Hl Ho Hk Hb; cbn [new_global_from].
  - assert (B : (length (envs s) - 1 < length (envs s))%nat) by (rewrite <- temps_len in *; apply nth_error_Some; congruence).
    exists (length (envs s) - 1)%nat, fresh, (put (length (envs s) - 1) n fresh s). split; [reflexivity|].
    split; [apply found_put; auto; intros; apply Hb; lia|]. auto.
  - destruct (nth_error (envs s) i) as [e|] eqn:Ee; [|apply nth_error_None in Ee; lia].
    destruct (nth_env i n s e Ee) as [Hc Ht]. destruct (lookup n (vars e)) as [v|].
    + destruct (temp e) eqn:Et.
      * rewrite (o_temp _ _ _ (Ho i true v Ht Hc) eq_refl).
        set (s2 := reexport n v (del i n s)).
        assert (T : touches n s s2) by apply remove_touches.
        assert (C : bindings n s2 = upd (bindings n s) i None) by apply remove_col.
        pose proof (touches_len _ _ _ T) as Ln.
        destruct (IH (S i) s2) as [k [w [s1 [R [F [K [G Z]]]]]]].
        -- rewrite Ln. lia.
        -- rewrite (t_temps _ _ _ _ T), C. apply okcol_upd; [exact Ho|]. discriminate.
        -- rewrite (t_temps _ _ _ _ T), Ln. exact Hk.
        -- intros j Hj. rewrite C. destruct (Nat.eq_dec i j) as [->|D].
           ++ apply upd_nth_same. rewrite col_len. lia.
           ++ rewrite upd_nth_other by exact D. apply Hb. lia.
        -- rewrite (t_temps _ _ _ _ T) in K. rewrite Ln in G, Z.
           assert (B : (i < k)%nat). { assert (i <> k) by (intros ->; congruence). lia. }
           exists k, w, s1. split; [exact R|]. split; [eapply found_remove; eauto|]. split; [exact K|].
           split; [lia|]. rewrite C, upd_nth_other in Z by lia. exact Z.
      * exists i, v, s. split; [reflexivity|]. split; [apply found_here; auto|]. split; [exact Ht|]. split; [lia|]. congruence.
    + destruct (IH (S i) s) as [k [w [s1 [R [F [K [G Z]]]]]]]; auto; [lia| |exists k, w, s1; repeat (split; [assumption|]); split; [lia|exact Z]].
      intros j Hj. destruct (Nat.eq_dec i j) as [->|D]; [exact Hc|]. apply Hb. lia.
Qed.
Lemma new_global_ok : forall n s, wf0 s ->
  exists k v s1, new_global mbs seed_ok n s = Ok (k, s1) /\ found n s k v s1 /\ nth_error (temps s) k = Some false /\
    (nth_error (bindings n s) k = Some None -> k = length (envs s) - 1)%nat.
Proof.
  intros n s [K W C]. destruct (new_global_from_ok n (length (envs s)) 0 s) as [k [v [s1 [R [F [T [_ Z]]]]]]]; auto; [intros; lia|].
  exists k, v, s1. auto.
Qed.
Lemma new_local_from_ok : forall n m i s,
  (i + m)%nat = length (envs s) -> nth_error (temps s) (length (envs s) - 1) = Some false -> (0 < m)%nat ->
  (forall j, (j < i)%nat -> nth_error (bindings n s) j = Some None /\ nth_error (temps s) j = Some true) ->
  exists k v s1, new_local_from mbs seed_ok n i m s = Ok (k, s1) /\ found n s k v s1 /\ nth_error (temps s) k = Some false /\
                 (i <= k)%nat /\ (forall j, (j < k)%nat -> nth_error (temps s) j = Some true).
Proof.
  intros n. induction m as [|m IH]; intros i s Hl Hk Hm Hb; [lia|]. cbn [new_local_from].
  destruct (nth_error (envs s) i) as [e|] eqn:Ee; [|apply nth_error_None in Ee; lia].
  destruct (nth_env i n s e Ee) as [Hc Ht]. destruct (temp e) eqn:Et.
  - assert (M : (0 < m)%nat). { destruct m; [|lia]. replace (length (envs s) - 1)%nat with i in Hk by lia. congruence. }
    destruct (lookup n (vars e)) as [v|].
    + set (s2 := reexport n v (del i n s)).
      assert (T : touches n s s2) by apply remove_touches.
      assert (C : bindings n s2 = upd (bindings n s) i None) by apply remove_col.
      pose proof (touches_len _ _ _ T) as Ln.
      destruct (IH (S i) s2) as [k [w [s1 [R [F [K [G A]]]]]]]; auto.
      * rewrite Ln. lia.
      * rewrite (t_temps _ _ _ _ T), Ln. exact Hk.
      * intros j Hj. rewrite C, (t_temps _ _ _ _ T). destruct (Nat.eq_dec i j) as [->|D].
        -- split; [|exact Ht]. apply upd_nth_same. rewrite col_len. lia.
        -- rewrite upd_nth_other by exact D. apply Hb. lia.
      * rewrite (t_temps _ _ _ _ T) in K, A. exists k, w, s1. split; [exact R|].
        split; [eapply found_remove; eauto|]. split; [exact K|]. split; [lia|exact A].
    + destruct (IH (S i) s) as [k [w [s1 [R [F [K [G A]]]]]]]; auto; [lia| |exists k, w, s1; repeat (split; [assumption|]); split; [lia|exact A]].
      intros j Hj. destruct (Nat.eq_dec i j) as [->|D]; [split; assumption|]. apply Hb. lia.
  - destruct (lookup n (vars e)) as [v|].
    + exists i, v, s. split; [reflexivity|]. split; [apply found_here; [exact Hc|intros; apply Hb; assumption]|].
      split; [exact Ht|]. split; [lia|]. intros; apply Hb; assumption.
    + exists i, fresh, (put i n fresh s). split; [reflexivity|].
      split; [apply found_put; [lia|exact Hc|intros; apply Hb; assumption]|].
      split; [exact Ht|]. split; [lia|]. intros; apply Hb; assumption.
Qed.
Lemma new_local_ok : forall n s, wf0 s ->
  exists k v s1, new_local mbs seed_ok n s = Ok (k, s1) /\ found n s k v s1 /\ nth_error (temps s) k = Some false /\
                 (forall j, (j < k)%nat -> nth_error (temps s) j = Some true).
Proof.
  intros n s [K W C]. destruct (new_local_from_ok n (length (envs s)) 0 s) as [k [v [s1 [R [F [T [_ A]]]]]]]; auto.
  - assert (X : nth_error (temps s) (length (envs s) - 1) <> None) by congruence. apply nth_error_Some in X. rewrite temps_len in X. lia.
  - intros; lia.
  - exists k, v, s1. auto.
Qed.
Lemma new_temporary_ok : forall n s, wf0 s -> nth_error (temps s) 0 = Some true ->
  exists k v s1, new_temporary n s = Ok (k, s1) /\ found n s k v s1 /\ (k = 0%nat \/ v_readonly v = true).
Proof.
  intros n s W H. unfold new_temporary. destruct (envs s) as [|e es] eqn:Ee; [unfold temps in H; rewrite Ee in H; discriminate|].
  assert (Ht : temp e = true) by (unfold temps in H; rewrite Ee in H; cbn in H; congruence).
  rewrite Ht. cbn [negb].
  assert (Hn : nth_error (envs s) 0 = Some e) by (rewrite Ee; reflexivity). destruct (nth_env 0 n s e Hn) as [Hc _].
  assert (D : exists k v s1, match lookup n (vars e) with Some _ => Ok (O, s) | None => Ok (O, put 0 n fresh s) end = Ok (k, s1) /\ found n s k v s1 /\ (k = 0%nat \/ v_readonly v = true)).
  { destruct (lookup n (vars e)) as [v|].
    - exists O, v, s. split; [reflexivity|]. split; [apply found_here; [exact Hc|intros; lia]|auto].
    - exists O, fresh, (put 0 n fresh s). split; [reflexivity|]. split; [apply found_put; [rewrite Ee; cbn; lia|exact Hc|intros; lia]|auto]. }
  rewrite search_seek. destruct (seek (bindings n s)) as [[i v]|] eqn:Es; [|exact D].
  destruct (v_readonly v) eqn:R; [|exact D]. destruct (seek_some _ _ _ Es) as [A B].
  exists i, v, s. split; [reflexivity|]. split; [apply found_here; assumption|auto].
Qed.

(** What a scope means for the place of the variable *)
Definition place (sc : scope) (n : list N) (s : st) (k : nat) (v : var) : Prop :=
  match sc with
  | GLOBAL => nth_error (temps s) k = Some false /\ (nth_error (bindings n s) k = Some None -> k = length (envs s) - 1)%nat
  | LOCAL => nth_error (temps s) k = Some false /\ (forall j, (j < k)%nat -> nth_error (temps s) j = Some true)
  | TEMP => k = 0%nat \/ v_readonly v = true
  end.
Lemma new_variable_ok : forall n sc s, wf0 s -> (sc = TEMP -> nth_error (temps s) 0 = Some true) ->
  exists k v s1, found n s k v s1 /\ place sc n s k v /\
    new_variable mbs seed_ok n sc s = Ok (if v_readonly v then None else Some (k, v), s1).
Proof.
  intros n sc s W H.
  assert (D : exists k v s1, match sc with GLOBAL => new_global mbs seed_ok n s | LOCAL => new_local mbs seed_ok n s | TEMP => new_temporary n s end = Ok (k, s1) /\ found n s k v s1 /\ place sc n s k v).
  { destruct sc; cbn [place].
    - apply new_global_ok, W.
    - apply new_local_ok, W.
    - apply new_temporary_ok; auto. }
  destruct D as [k [v [s1 [R [F P]]]]]. exists k, v, s1. split; [exact F|]. split; [exact P|].
  unfold new_variable. rewrite R. cbn [rbind]. rewrite get_at_col, (f_at _ _ _ _ _ F). destruct (v_readonly v); reflexivity.
Qed.

(** Storing a variable, with the callbacks *)
Definition store_var (n : list N) (k : nat) (w : var) (upd_env : bool) (s : st) : st :=
  let s := variable_set mbs seed_ok n (Some k) (put k n w s) in if upd_env then update_environment mbs n s else s.
Lemma store_touches : forall n k w b s, touches n s (store_var n k w b s).
Proof.
  intros. unfold store_var. eapply touches_trans; [apply touches_put|].
  destruct b; [eapply touches_trans; [|apply update_touches]|]; apply (variable_set_ok mbs seed_ok n (Some k) (put k n w s)).
Qed.
Lemma store_col : forall n k w b s, (k < length (envs s))%nat ->
  exists g, bindings n (store_var n k w b s) = upd (bindings n s) k (Some (with_getter g w)) /\
            (g = v_getter w \/ n = RANDOM /\ g = GRandom /\ exists x, v_val w = Scalar (Some x)).
Proof.
  intros n k w b s B. assert (E : bindings n (store_var n k w b s) = bindings n (variable_set mbs seed_ok n (Some k) (put k n w s))).
  { unfold store_var. destruct b; [apply update_col|reflexivity]. }
  rewrite E. destruct (variable_set_ok mbs seed_ok n (Some k) (put k n w s)) as [_ _ [C|[N [i [v [x [H1 [H2 [H3 C]]]]]]]] _]; rewrite C, ?col_put.
  - exists (v_getter w). split; [|left; reflexivity]. destruct w; reflexivity.
  - injection H1 as <-. rewrite col_put, upd_nth_same in H2 by (rewrite col_len; exact B). injection H2 as <-.
    exists GRandom. split; [|right; split; [exact N|split; [reflexivity|exists x; exact H3]]].
    apply nth_ext'. intro j. destruct (Nat.eq_dec k j) as [->|D].
    + rewrite !upd_nth_same by (rewrite ?upd_len, col_len; exact B). reflexivity.
    + rewrite !upd_nth_other by exact D. reflexivity.
Qed.
Lemma store_exact : forall n k w b s o, nth_error (bindings n s) k = Some o -> exact n s ->
  (b = false -> quiet o /\ v_export w = false \/ exists v, o = Some v /\ v_export w = v_export v /\ v_val w = v_val v) -> exact n (store_var n k w b s).
Proof.
  intros n k w b s o H E Q. unfold store_var. destruct b; [apply update_exact|].
  eapply set_ok_exact; [apply variable_set_ok|]. intros m Hm Hn. change (osenv (put k n w s) m) with (osenv s m).
  rewrite (E m Hm Hn), col_put. symmetry. destruct (Q eq_refl) as [[Q1 Q2]|[v [-> [Q1 Q2]]]].
  - eapply exported_quiet; eauto.
  - eapply exported_same; eauto.
Qed.
Lemma store_path : forall n k w b s p, path_name p = n -> pathok p s -> pathok p (store_var n k w b s).
Proof.
  intros n k w b s p Hp P. assert (A : pathok p (variable_set mbs seed_ok n (Some k) (put k n w s))).
  { apply (so_path _ _ _ _ _ (variable_set_ok mbs seed_ok n (Some k) (put k n w s)) p Hp).
    intros i Hi. cbn [beyond] in Hi. unfold VarProofs.pathok in P. rewrite pcol_put, P, Hp, col_put, !nth_error_map, upd_nth_other by lia. reflexivity. }
  unfold store_var. destruct b; [|exact A]. unfold VarProofs.pathok. rewrite update_pcol, update_col. exact A.
Qed.
Lemma store_okcol : forall n k w b s, (k < length (envs s))%nat -> okcol n (temps s) (bindings n s) ->
  (forall t, nth_error (temps s) k = Some t -> okvar n t w) -> okcol n (temps s) (bindings n (store_var n k w b s)).
Proof.
  intros n k w b s B H Hw. destruct (store_col n k w b s B) as [g [-> G]]. apply okcol_upd; [exact H|].
  intros t v Ht E. injection E as <-. specialize (Hw t Ht). destruct Hw as [O1 O2 O3 O4 O5].
  destruct G as [->|[N [-> [x X]]]]; constructor; cbn [with_getter v_readonly v_nodelete v_getter v_val]; auto; try congruence.
  intros _. exists (Some x). exact X.
Qed.

Lemma found_len : forall n s k v s1, found n s k v s1 -> (k < length (envs s1))%nat.
Proof. intros n s k v s1 F. rewrite <- (col_len n). apply nth_error_Some. rewrite (f_at _ _ _ _ _ F). discriminate. Qed.

Definition exporting (n : list N) (export : bool) (s : st) : bool :=
  export || allexport s && negb (match n with c :: _ => (c =? ch "=")%N | [] => false end).
(** Assigning: the variable in a scope is read-only, or gets the value *)
Lemma set_value_ok : forall n x sc export s, wf0 s -> (sc = TEMP -> nth_error (temps s) 0 = Some true) ->
  exists k v s1, found n s k v s1 /\ place sc n s k v /\
    set_value mbs seed_ok n x sc export s =
    if v_readonly v then Ok (false, s1)
    else let e := v_export v || exporting n export s in Ok (true, store_var n k (mkVar x e false (v_nodelete v) GNone) e s1).
Proof.
  intros n x sc export s W H. destruct (new_variable_ok n sc s W H) as [k [v [s1 [F [P R]]]]].
  exists k, v, s1. split; [exact F|]. split; [exact P|]. unfold set_value, exporting. rewrite R. cbn [rbind].
  destruct (v_readonly v); reflexivity.
Qed.
End Var.
