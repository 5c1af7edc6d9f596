(** Scopes seen as columns: for each name the list of its variables, innermost first *)
From Coq Require Import Ascii String.
From Coq Require Import List NArith ZArith Bool Arith Lia Permutation.
From Verif Require Import Common Locale NumModel VarModel VarSpec.
Import ListNotations.
Open Scope res_scope.

Notation col := bindings.
Definition pcol (p : path) (s : st) : list (option (list (list N))) := map (fun e => paths e p) (envs s).
Definition keys (s : st) : Prop := Forall (fun e => NoDup (map fst (vars e))) (envs s).

(** ** Tables *)
Lemma eqb_sym : forall a b, list_N_eqb a b = list_N_eqb b a.
Proof.
  intros a b. destruct (list_N_eqb a b) eqn:E.
  - apply list_N_eqb_eq in E. subst. symmetry. apply list_N_eqb_refl.
  - symmetry. apply list_N_eqb_neq. apply list_N_eqb_neq in E. congruence.
Qed.
Lemma lookup_hremove_same : forall n l, lookup n (hremove n l) = None.
Proof.
  induction l as [|[k v] l IH]; [reflexivity|]. cbn [hremove filter fst].
  destruct (list_N_eqb k n) eqn:E; cbn [negb]; [exact IH|]. cbn [lookup]. rewrite E. exact IH.
Qed.
Lemma lookup_hremove_other : forall n m l, m <> n -> lookup m (hremove n l) = lookup m l.
Proof.
  induction l as [|[k v] l IH]; intro H; [reflexivity|]. cbn [hremove filter fst].
  destruct (list_N_eqb k n) eqn:E; cbn [negb lookup].
  - apply list_N_eqb_eq in E. subst k. replace (list_N_eqb n m) with false; [apply IH, H|].
    symmetry. apply list_N_eqb_neq. congruence.
  - destruct (list_N_eqb k m); [reflexivity|]. apply IH, H.
Qed.
Lemma lookup_hset_same : forall n v l, lookup n (hset n v l) = Some v.
Proof. intros. unfold hset. cbn [lookup]. rewrite list_N_eqb_refl. reflexivity. Qed.
Lemma lookup_hset_other : forall n m v l, m <> n -> lookup m (hset n v l) = lookup m l.
Proof.
  intros. unfold hset. cbn [lookup]. replace (list_N_eqb n m) with false by (symmetry; apply list_N_eqb_neq; congruence).
  apply lookup_hremove_other, H.
Qed.
Lemma hremove_in : forall n l x, In x (hremove n l) <-> In x l /\ fst x <> n.
Proof.
  intros. unfold hremove. rewrite filter_In. split; intros [H1 H2]; split; auto.
  - apply negb_true_iff in H2. apply list_N_eqb_neq in H2. exact H2.
  - apply negb_true_iff. apply list_N_eqb_neq. exact H2.
Qed.
Lemma hremove_nodup : forall n l, NoDup (map fst l) -> NoDup (map fst (hremove n l)).
Proof.
  induction l as [|[k v] l IH]; intro H; [exact H|]. cbn [map fst] in H. inversion H as [|? ? H1 H2]; subst.
  cbn [hremove filter fst]. destruct (list_N_eqb k n); cbn [negb]; [apply IH, H2|].
  cbn [map fst]. constructor; [|apply IH, H2]. intro I. apply in_map_iff in I as [x [E I]]. subst k.
  apply H1. apply in_map. apply (hremove_in n l x). exact I.
Qed.
Lemma hset_nodup : forall n v l, NoDup (map fst l) -> NoDup (map fst (hset n v l)).
Proof.
  intros n v l H. unfold hset. cbn [map fst]. constructor; [|apply hremove_nodup, H].
  intro I. apply in_map_iff in I as [x [E I]]. apply hremove_in in I as [_ I]. congruence.
Qed.
Lemma lookup_in : forall n v l, lookup n l = Some v -> In (n, v) l.
Proof.
  induction l as [|[k w] l IH]; cbn [lookup]; intro H; [discriminate|].
  destruct (list_N_eqb k n) eqn:E.
  - apply list_N_eqb_eq in E. left. congruence.
  - right. apply IH, H.
Qed.
Lemma in_lookup : forall n v l, NoDup (map fst l) -> In (n, v) l -> lookup n l = Some v.
Proof.
  induction l as [|[k w] l IH]; intros H I; [contradiction|]. cbn [map fst] in H. inversion H as [|? ? H1 H2]; subst.
  cbn [lookup]. destruct (list_N_eqb k n) eqn:E.
  - apply list_N_eqb_eq in E. subst k. destruct I as [I|I]; [congruence|].
    exfalso. apply H1. apply in_map_iff. exists (n, v). auto.
  - destruct I as [I|I]; [|apply IH; assumption]. exfalso. apply list_N_eqb_neq in E. congruence.
Qed.

(** ** Changing one scope *)
Lemma map_at_env_same : forall {A} (f : env -> A) g, (forall e, f (g e) = f e) -> forall es i, map f (at_env i g es) = map f es.
Proof.
  intros A f g H. induction es as [|e es IH]; intros [|i]; cbn [at_env map]; try reflexivity.
  - rewrite H. reflexivity.
  - rewrite IH. reflexivity.
Qed.
Lemma map_at_env_const : forall {A} (f : env -> A) g a, (forall e, f (g e) = a) -> forall es i, map f (at_env i g es) = upd (map f es) i a.
Proof.
  intros A f g a H. induction es as [|e es IH]; intros [|i]; cbn [at_env map upd]; try reflexivity.
  - rewrite H. reflexivity.
  - rewrite IH. reflexivity.
Qed.
Lemma upd_nth_same : forall {A} (l : list A) i a, (i < length l)%nat -> nth_error (upd l i a) i = Some a.
Proof. induction l as [|x l IH]; intros [|i] a H; cbn in *; try lia; [reflexivity|]. apply IH. lia. Qed.
Lemma upd_nth_other : forall {A} (l : list A) i j a, i <> j -> nth_error (upd l i a) j = nth_error l j.
Proof. induction l as [|x l IH]; intros [|i] [|j] a H; cbn; try reflexivity; try congruence. apply IH. congruence. Qed.
Lemma upd_len : forall {A} (l : list A) i a, length (upd l i a) = length l.
Proof. induction l as [|x l IH]; intros [|i] a; cbn; try reflexivity. rewrite IH. reflexivity. Qed.

Lemma col_put : forall n i v s, col n (put i n v s) = upd (col n s) i (Some v).
Proof. intros. unfold bindings, put, with_envs. cbn [envs]. apply map_at_env_const. intro e. cbn [with_vars vars]. apply lookup_hset_same. Qed.
Lemma col_put_other : forall m n i v s, m <> n -> col m (put i n v s) = col m s.
Proof. intros. unfold bindings, put, with_envs. cbn [envs]. apply map_at_env_same. intro e. cbn [with_vars vars]. apply lookup_hset_other, H. Qed.
Lemma col_del : forall n i s, col n (del i n s) = upd (col n s) i None.
Proof. intros. unfold bindings, del, with_envs. cbn [envs]. apply map_at_env_const. intro e. cbn [with_vars vars]. apply lookup_hremove_same. Qed.
Lemma col_del_other : forall m n i s, m <> n -> col m (del i n s) = col m s.
Proof. intros. unfold bindings, del, with_envs. cbn [envs]. apply map_at_env_same. intro e. cbn [with_vars vars]. apply lookup_hremove_other, H. Qed.
Lemma temps_put : forall n i v s, temps (put i n v s) = temps s.
Proof. intros. unfold temps, put, with_envs. cbn [envs]. apply map_at_env_same. reflexivity. Qed.
Lemma temps_del : forall n i s, temps (del i n s) = temps s.
Proof. intros. unfold temps, del, with_envs. cbn [envs]. apply map_at_env_same. reflexivity. Qed.
Lemma pcol_put : forall p n i v s, pcol p (put i n v s) = pcol p s.
Proof. intros. unfold pcol, put, with_envs. cbn [envs]. apply map_at_env_same. reflexivity. Qed.
Lemma pcol_del : forall p n i s, pcol p (del i n s) = pcol p s.
Proof. intros. unfold pcol, del, with_envs. cbn [envs]. apply map_at_env_same. reflexivity. Qed.
Lemma forall_at_env : forall (P : env -> Prop) g, (forall e, P e -> P (g e)) -> forall es i, Forall P es -> Forall P (at_env i g es).
Proof.
  intros P g H. induction es as [|e es IH]; intros [|i] F; cbn [at_env]; try exact F; inversion F; subst; constructor; auto.
Qed.
Lemma keys_put : forall n i v s, keys s -> keys (put i n v s).
Proof. intros n i v s H. unfold keys, put, with_envs. cbn [envs]. apply forall_at_env; [|exact H]. intros e F. cbn [with_vars vars]. apply hset_nodup, F. Qed.
Lemma keys_del : forall n i s, keys s -> keys (del i n s).
Proof. intros n i s H. unfold keys, del, with_envs. cbn [envs]. apply forall_at_env; [|exact H]. intros e F. cbn [with_vars vars]. apply hremove_nodup, F. Qed.

Lemma col_len : forall n s, length (col n s) = length (envs s).
Proof. intros. apply map_length. Qed.
Lemma temps_len : forall s, length (temps s) = length (envs s).
Proof. intros. apply map_length. Qed.
Lemma get_at_col : forall i n s, get_at i n s = match nth_error (col n s) i with Some o => o | None => None end.
Proof. intros. unfold get_at, bindings. rewrite nth_error_map. destruct (nth_error (envs s) i); reflexivity. Qed.
Lemma nth_env : forall i n s e, nth_error (envs s) i = Some e -> nth_error (col n s) i = Some (lookup n (vars e)) /\ nth_error (temps s) i = Some (temp e).
Proof. intros. unfold bindings, temps. rewrite !nth_error_map, H. split; reflexivity. Qed.

Lemma nth_ext' : forall {A} (l l' : list A), (forall i, nth_error l i = nth_error l' i) -> l = l'.
Proof.
  induction l as [|x l IH]; intros [|y l'] H; [reflexivity|specialize (H O); discriminate|specialize (H O); discriminate|].
  pose proof (H O) as H0. injection H0 as ->. f_equal. apply IH. intro i. exact (H (S i)).
Qed.

(** ** Searching *)
Fixpoint seek (c : list (option var)) : option (nat * var) :=
  match c with
  | [] => None
  | Some v :: _ => Some (O, v)
  | None :: c' => match seek c' with Some (i, v) => Some (S i, v) | None => None end
  end.
Lemma search_seek : forall n s, search_variable n s = seek (col n s).
Proof.
  intros n s. unfold search_variable, bindings. induction (envs s) as [|e es IH]; [reflexivity|].
  cbn [search map seek]. destruct (lookup n (vars e)); [reflexivity|]. rewrite IH. reflexivity.
Qed.
Lemma seek_some : forall c i v, seek c = Some (i, v) -> nth_error c i = Some (Some v) /\ (forall j, (j < i)%nat -> nth_error c j = Some None).
Proof.
  induction c as [|[w|] c IH]; cbn [seek]; intros i v H; [discriminate| |].
  - injection H as <- <-. split; [reflexivity|]. intros j Hj. lia.
  - destruct (seek c) as [[k u]|]; [|discriminate]. injection H as <- <-. destruct (IH k u eq_refl) as [A B].
    split; [exact A|]. intros [|j] Hj; [reflexivity|]. apply B. lia.
Qed.
Lemma seek_none : forall c, seek c = None -> forall i, (i < length c)%nat -> nth_error c i = Some None.
Proof.
  induction c as [|[w|] c IH]; cbn [seek length]; intros H i Hi; [lia|discriminate|].
  destruct (seek c) as [[k u]|]; [discriminate|]. destruct i as [|i]; [reflexivity|]. apply IH; [reflexivity|lia].
Qed.
Lemma seek_first : forall c i v, nth_error c i = Some (Some v) -> (forall j, (j < i)%nat -> nth_error c j = Some None) -> seek c = Some (i, v).
Proof.
  induction c as [|o c IH]; intros [|i] v H F; cbn in *; try discriminate.
  - injection H as ->. reflexivity.
  - pose proof (F O ltac:(lia)) as F0. injection F0 as ->. cbn [seek]. rewrite (IH i v H); [reflexivity|].
    intros j Hj. exact (F (S j) ltac:(lia)).
Qed.

Section Var.
Variable mbs : list N -> option (list N).
Hypothesis mbs_inj : forall a b m, mbs a = Some m -> mbs b = Some m -> a = b.
Variable order : list (list N * var) -> list (list N * var).
Hypothesis order_perm : forall l, Permutation (order l) l.
Variable seed_ok : list N -> bool.

(** ** The exported value *)
Fixpoint exported (c : list (option var)) : option (list N) :=
  match c with
  | [] => None
  | o :: c' =>
    match o with
    | Some v => if v_export v then match string_of (v_val v) with Some x => mbs x | None => exported c' end else exported c'
    | None => exported c'
    end
  end.
Lemma gev_col : forall n s, get_exported_value mbs n (envs s) = exported (col n s).
Proof.
  intros n s. unfold bindings. induction (envs s) as [|e es IH]; [reflexivity|].
  cbn [get_exported_value map exported]. destruct (lookup n (vars e)) as [v|]; [|exact IH].
  destruct (v_export v); [|exact IH]. destruct (v_val v) as [[x|]|l]; cbn [string_of]; [reflexivity|exact IH|reflexivity].
Qed.
Definition exact (n : list N) (s : st) : Prop := forall m, mbs n = Some m -> m <> [] -> osenv s m = exported (col n s).
Definition quiet (o : option var) : Prop := match o with Some v => v_export v = false | None => True end.
Lemma exported_quiet : forall c i o o', nth_error c i = Some o -> quiet o -> quiet o' -> exported (upd c i o') = exported c.
Proof.
  induction c as [|a c IH]; intros [|i] o o' H Q Q'; cbn in H; try discriminate.
  - injection H as ->. cbn [upd exported]. destruct o as [v|], o' as [v'|]; cbn in Q, Q'; rewrite ?Q, ?Q'; reflexivity.
  - cbn [upd exported]. rewrite (IH i o o' H Q Q'). reflexivity.
Qed.
Lemma exported_same : forall c i v v', nth_error c i = Some (Some v) -> v_export v' = v_export v -> v_val v' = v_val v -> exported (upd c i (Some v')) = exported c.
Proof.
  induction c as [|a c IH]; intros [|i] v v' H E1 E2; cbn in H; try discriminate.
  - injection H as ->. cbn [upd exported]. rewrite E1, E2. reflexivity.
  - cbn [upd exported]. rewrite (IH i v v' H E1 E2). reflexivity.
Qed.

(** ** Touching one name *)
Record touches (n : list N) (s s' : st) : Prop := mkTouches {
  t_temps : temps s' = temps s;
  t_col : forall m, m <> n -> col m s' = col m s;
  t_os : forall m, mbs n <> Some m -> osenv s' m = osenv s m;
  t_pcol : forall p, path_name p <> n -> pcol p s' = pcol p s;
  t_keys : keys s -> keys s';
  t_line : lineno s' = lineno s;
  t_all : allexport s' = allexport s;
  t_rand : n <> RANDOM -> random_active s' = random_active s }.
Lemma touches_refl : forall n s, touches n s s.
Proof. intros. constructor; auto. Qed.
Lemma touches_trans : forall n s1 s2 s3, touches n s1 s2 -> touches n s2 s3 -> touches n s1 s3.
Proof.
  intros n s1 s2 s3 [A1 A2 A3 A4 A5 A6 A7 A8] [B1 B2 B3 B4 B5 B6 B7 B8]. constructor; try congruence; auto.
  - intros m H. rewrite B2, A2 by exact H. reflexivity.
  - intros m H. rewrite B3, A3 by exact H. reflexivity.
  - intros p H. rewrite B4, A4 by exact H. reflexivity.
  - intros H. rewrite B8, A8 by exact H. reflexivity.
Qed.
Lemma touches_put : forall n i v s, touches n s (put i n v s).
Proof.
  intros. constructor; auto using temps_put, keys_put.
  - intros m H. apply col_put_other, H.
  - intros p H. apply pcol_put.
Qed.
Lemma touches_del : forall n i s, touches n s (del i n s).
Proof.
  intros. constructor; auto using temps_del, keys_del.
  - intros m H. apply col_del_other, H.
  - intros p H. apply pcol_del.
Qed.
Lemma touches_exact : forall n s s' m, touches n s s' -> m <> n -> exact m s -> exact m s'.
Proof.
  intros n s s' m T H E k Hk Hn. rewrite (t_os _ _ _ T), (t_col _ _ _ T m H); [apply E; assumption|].
  intro C. apply H. eapply mbs_inj; eauto.
Qed.

Lemma update_touches : forall n s, touches n s (update_environment mbs n s).
Proof.
  intros n s. unfold update_environment. destruct (mbs n) as [m|] eqn:E; [|apply touches_refl].
  constructor; auto. intros k H. cbn [with_os osenv]. unfold os_set. destruct m as [|c m]; [reflexivity|].
  destruct (list_N_eqb k (c :: m)) eqn:E2; [|reflexivity]. apply list_N_eqb_eq in E2. congruence.
Qed.
Lemma update_col : forall n m s, col m (update_environment mbs n s) = col m s.
Proof. intros. unfold update_environment. destruct (mbs n); reflexivity. Qed.
Lemma update_pcol : forall n p s, pcol p (update_environment mbs n s) = pcol p s.
Proof. intros. unfold update_environment. destruct (mbs n); reflexivity. Qed.
Lemma update_temps : forall n s, temps (update_environment mbs n s) = temps s.
Proof. intros. unfold update_environment. destruct (mbs n); reflexivity. Qed.
Lemma update_random : forall n s, random_active (update_environment mbs n s) = random_active s.
Proof. intros. unfold update_environment. destruct (mbs n); reflexivity. Qed.
Lemma update_exact : forall n s, exact n (update_environment mbs n s).
Proof.
  intros n s m H Hn. rewrite update_col. unfold update_environment. rewrite H. cbn [with_os osenv].
  unfold os_set. destruct m as [|c m]; [congruence|]. rewrite list_N_eqb_refl. apply gev_col.
Qed.

(** ** Path arrays *)
Definition pv (o : option var) : option (list (list N)) := match o with Some v => path_value mbs (v_val v) | None => None end.
Definition pathok (p : path) (s : st) : Prop := pcol p s = map pv (col (path_name p) s).
Lemma path_eqb_refl : forall p, path_eqb p p = true.
Proof. destruct p; reflexivity. Qed.
Lemma path_eqb_eq : forall p q, path_eqb p q = true -> p = q.
Proof. destruct p, q; cbn; congruence. Qed.
Lemma path_name_inj : forall p q, path_name p = path_name q -> p = q.
Proof. destruct p, q; cbn; congruence. Qed.

Lemma reset_col : forall p es k n, map (fun e => lookup n (vars e)) (reset_path mbs p k es) = map (fun e => lookup n (vars e)) es.
Proof.
  induction es as [|e es IH]; intros k n; [reflexivity|]. cbn [reset_path map].
  destruct k as [[|k]|]; cbn [map]; [reflexivity| |]; rewrite IH; reflexivity.
Qed.
Lemma reset_temps : forall p es k, map temp (reset_path mbs p k es) = map temp es.
Proof.
  induction es as [|e es IH]; intros k; [reflexivity|]. cbn [reset_path map].
  destruct k as [[|k]|]; cbn [map]; [reflexivity| |]; rewrite IH; reflexivity.
Qed.
Lemma reset_keys : forall p es k, Forall (fun e => NoDup (map fst (vars e))) es -> Forall (fun e => NoDup (map fst (vars e))) (reset_path mbs p k es).
Proof.
  induction es as [|e es IH]; intros k H; [exact H|]. inversion H; subst. cbn [reset_path].
  constructor; [assumption|]. destruct k as [[|k]|]; auto.
Qed.
Lemma reset_pcol_other : forall p q es k, p <> q -> map (fun e => paths e q) (reset_path mbs p k es) = map (fun e => paths e q) es.
Proof.
  intros p q es k H. assert (F : forall e, paths (set_path mbs p e) q = paths e q).
  { intro e. cbn. destruct (path_eqb q p) eqn:E; [|reflexivity]. apply path_eqb_eq in E. congruence. }
  revert k. induction es as [|e es IH]; intros k; [reflexivity|]. cbn [reset_path map].
  destruct k as [[|k]|]; cbn [map]; rewrite F; [reflexivity| |]; rewrite IH; reflexivity.
Qed.
(** Recomputing down to the scope that has changed makes the arrays right again. *)
Lemma reset_pcol : forall p es k,
  (forall i, (match k with Some j => (j < i)%nat | None => False end) ->
             nth_error (map (fun e => paths e p) es) i = nth_error (map (fun e => pv (lookup (path_name p) (vars e))) es) i) ->
  map (fun e => paths e p) (reset_path mbs p k es) = map (fun e => pv (lookup (path_name p) (vars e))) es.
Proof.
  intros p es. assert (F : forall e, paths (set_path mbs p e) p = pv (lookup (path_name p) (vars e))).
  { intro e. cbn. rewrite path_eqb_refl. unfold pv. destruct (lookup (path_name p) (vars e)); reflexivity. }
  induction es as [|e es IH]; intros k H; [reflexivity|]. cbn [reset_path map]. rewrite F. f_equal.
  destruct k as [[|k]|].
  - apply nth_ext'. intros i. apply (H (S i)). lia.
  - apply IH. intros i Hi. apply (H (S i)). lia.
  - apply IH. intros i [].
Qed.

(** ** The callback after setting *)
Definition path_step (n : list N) (k : option nat) (p : path) (s : st) : st :=
  if list_N_eqb n (path_name p) then with_envs (reset_path mbs p k (envs s)) s else s.
Lemma path_step_touches : forall n k p s, touches n s (path_step n k p s).
Proof.
  intros n k p s. unfold path_step. destruct (list_N_eqb n (path_name p)) eqn:E; [|apply touches_refl].
  apply list_N_eqb_eq in E. constructor; auto.
  - apply reset_temps.
  - intros m _. apply reset_col.
  - intros q H. apply reset_pcol_other. congruence.
  - intro H. apply reset_keys, H.
Qed.
Lemma path_step_col : forall n k p s m, col m (path_step n k p s) = col m s.
Proof. intros. unfold path_step. destruct (list_N_eqb n (path_name p)); [apply reset_col|reflexivity]. Qed.
Lemma path_step_os : forall n k p s, osenv (path_step n k p s) = osenv s.
Proof. intros. unfold path_step. destruct (list_N_eqb n (path_name p)); reflexivity. Qed.
Lemma path_step_random : forall n k p s, random_active (path_step n k p s) = random_active s.
Proof. intros. unfold path_step. destruct (list_N_eqb n (path_name p)); reflexivity. Qed.
Definition beyond (k : option nat) (i : nat) : Prop := match k with Some j => (j < i)%nat | None => False end.
Definition pathok_beyond (p : path) (k : option nat) (s : st) : Prop :=
  forall i, beyond k i -> nth_error (pcol p s) i = nth_error (map pv (col (path_name p) s)) i.
Lemma pathok_weaken : forall p k s, pathok p s -> pathok_beyond p k s.
Proof. intros p k s H i _. rewrite H. reflexivity. Qed.
Lemma path_step_path : forall n k p s, path_name p = n -> pathok_beyond p k s -> pathok p (path_step n k p s).
Proof.
  intros n k p s E H. unfold path_step. subst n. rewrite list_N_eqb_refl. unfold pathok, pcol, with_envs. cbn [envs].
  unfold bindings. cbn [envs]. rewrite reset_col. rewrite map_map. apply reset_pcol. intros i Hi.
  specialize (H i Hi). unfold pcol, bindings in H. rewrite map_map in H. exact H.
Qed.

Lemma variable_set_steps : forall n k s,
  variable_set mbs seed_ok n k s =
  let s := path_step n k PA_CDPATH (path_step n k PA_PATH (path_step n k PA_LOADPATH s)) in
  if list_N_eqb n RANDOM && random_active s then
    let s := with_random false s in
    match k with
    | Some i =>
      match get_at i n s with
      | Some v => match v_val v with
                  | Scalar (Some x) => if seed_ok x then with_random true (put i n (with_getter GRandom v) s) else s
                  | _ => s
                  end
      | None => s
      end
    | None => s
    end
  else s.
Proof. reflexivity. Qed.

Lemma random_not_path : forall p, path_name p <> RANDOM.
Proof. destruct p; cbn; congruence. Qed.
Lemma with_random_touches : forall b s, touches RANDOM s (with_random b s).
Proof. intros. constructor; auto. congruence. Qed.

Record set_ok (n : list N) (k : option nat) (s s' : st) : Prop := mkSetOk {
  so_touches : touches n s s';
  so_os : osenv s' = osenv s;
  so_col : col n s' = col n s \/
    (n = RANDOM /\ exists i v x, k = Some i /\ nth_error (col n s) i = Some (Some v) /\ v_val v = Scalar (Some x) /\
                                col n s' = upd (col n s) i (Some (with_getter GRandom v)));
  so_path : forall p, path_name p = n -> pathok_beyond p k s -> pathok p s' }.
Lemma variable_set_ok : forall n k s, set_ok n k s (variable_set mbs seed_ok n k s).
Proof.
  intros n k s. rewrite variable_set_steps. cbv zeta.
  set (s1 := path_step n k PA_CDPATH (path_step n k PA_PATH (path_step n k PA_LOADPATH s))).
  assert (T : touches n s s1).
  { unfold s1. eapply touches_trans; [|apply path_step_touches]. eapply touches_trans; [|apply path_step_touches]. apply path_step_touches. }
  assert (C : forall m, col m s1 = col m s) by (intro m; unfold s1; rewrite !path_step_col; reflexivity).
  assert (O : osenv s1 = osenv s) by (unfold s1; rewrite !path_step_os; reflexivity).
  assert (P : forall p, path_name p = n -> pathok_beyond p k s -> pathok p s1).
  { intros p E H. assert (Z : forall q s0, q <> p -> path_step n k q s0 = s0).
    { intros q s0 Hq. unfold path_step. replace (list_N_eqb n (path_name q)) with false; [reflexivity|].
      symmetry. apply list_N_eqb_neq. intro X. apply Hq. apply path_name_inj. congruence. }
    unfold s1. destruct p.
    - rewrite (Z PA_CDPATH) by discriminate. rewrite (Z PA_LOADPATH) by discriminate. apply path_step_path; assumption.
    - rewrite (Z PA_PATH) by discriminate. rewrite (Z PA_LOADPATH) by discriminate. apply path_step_path; assumption.
    - rewrite (Z PA_CDPATH) by discriminate. rewrite (Z PA_PATH) by discriminate. apply path_step_path; assumption. }
  clearbody s1.
  assert (D : set_ok n k s s1) by (constructor; auto).
  destruct (list_N_eqb n RANDOM) eqn:E; cbn [andb]; [|exact D].
  apply list_N_eqb_eq in E. destruct (random_active s1); [|exact D].
  assert (D2 : set_ok n k s (with_random false s1)).
  { constructor; [|exact O|left; apply C|exact P]. subst n. eapply touches_trans; [exact T|apply with_random_touches]. }
  destruct k as [i|]; [|exact D2]. rewrite get_at_col.
  replace (col n (with_random false s1)) with (col n s) by (symmetry; apply C).
  destruct (nth_error (col n s) i) as [[v|]|] eqn:Ev; [|exact D2|exact D2].
  destruct (v_val v) as [[x|]|l] eqn:Ex; [|exact D2|exact D2]. destruct (seed_ok x); [|exact D2].
  constructor.
  - subst n. eapply touches_trans; [exact T|]. eapply touches_trans; [apply with_random_touches|].
    eapply touches_trans; [apply touches_put|]. apply with_random_touches.
  - exact O.
  - right. split; [exact E|]. exists i, v, x. repeat (split; [assumption || reflexivity|]).
    change (col n (with_random true (put i n (with_getter GRandom v) (with_random false s1)))) with (col n (put i n (with_getter GRandom v) (with_random false s1))).
    rewrite col_put. change (col n (with_random false s1)) with (col n s1). rewrite C. reflexivity.
  - intros p Hp. exfalso. apply (random_not_path p). congruence.
Qed.
Lemma variable_set_none_col : forall n s m, col m (variable_set mbs seed_ok n None s) = col m s.
Proof.
  intros n s m. destruct (variable_set_ok n None s) as [T _ C _]. destruct (list_eq_dec N.eq_dec m n) as [->|H].
  - destruct C as [C|[_ [i [v [x [C _]]]]]]; [exact C|discriminate].
  - apply (t_col _ _ _ T m H).
Qed.
Lemma set_ok_exact : forall n k s s', set_ok n k s s' -> exact n s -> exact n s'.
Proof.
  intros n k s s' [T O C _] E m Hm Hn. rewrite O, (E m Hm Hn). symmetry. destruct C as [->|[_ [i [v [x [_ [H1 [H2 ->]]]]]]]]; [reflexivity|].
  eapply exported_same; [exact H1|reflexivity|reflexivity].
Qed.

(** ** Removing a variable and restoring the environment *)
Lemma reexport_touches : forall n v s, touches n s (reexport mbs seed_ok n v s).
Proof.
  intros n v s. unfold reexport. destruct (v_export v).
  - eapply touches_trans; [apply (variable_set_ok n None s)|apply update_touches].
  - apply (variable_set_ok n None s).
Qed.
Lemma reexport_col : forall n v s m, col m (reexport mbs seed_ok n v s) = col m s.
Proof. intros. unfold reexport. destruct (v_export v); rewrite ?update_col; apply variable_set_none_col. Qed.
Lemma reexport_os : forall n v s, v_export v = false -> osenv (reexport mbs seed_ok n v s) = osenv s.
Proof. intros n v s H. unfold reexport. rewrite H. apply (variable_set_ok n None s). Qed.
Lemma reexport_exact : forall n v s, v_export v = true -> exact n (reexport mbs seed_ok n v s).
Proof. intros n v s H. unfold reexport. rewrite H. apply update_exact. Qed.
Lemma reexport_path : forall n v s p, path_name p = n -> pathok p (reexport mbs seed_ok n v s).
Proof.
  intros n v s p H. assert (A : pathok p (variable_set mbs seed_ok n None s)).
  { apply (so_path _ _ _ _ (variable_set_ok n None s) p H). intros i []. }
  unfold reexport. destruct (v_export v); [|exact A]. unfold pathok. rewrite update_pcol, update_col. exact A.
Qed.

(** Removing the variable in one scope *)
Lemma remove_exact : forall n i v s, nth_error (col n s) i = Some (Some v) -> exact n s -> exact n (reexport mbs seed_ok n v (del i n s)).
Proof.
  intros n i v s H E. destruct (v_export v) eqn:X; [apply reexport_exact, X|].
  intros m Hm Hn. rewrite reexport_os, reexport_col, col_del by exact X. change (osenv (del i n s) m) with (osenv s m).
  rewrite (E m Hm Hn). symmetry. eapply exported_quiet; [exact H|exact X|exact I].
Qed.
Lemma remove_touches : forall n i v s, touches n s (reexport mbs seed_ok n v (del i n s)).
Proof. intros. eapply touches_trans; [apply touches_del|apply reexport_touches]. Qed.
Lemma remove_col : forall n i v s, col n (reexport mbs seed_ok n v (del i n s)) = upd (col n s) i None.
Proof. intros. rewrite reexport_col. apply col_del. Qed.
Lemma remove_path : forall n i v s p, path_name p = n -> pathok p (reexport mbs seed_ok n v (del i n s)).
Proof. intros. apply reexport_path, H. Qed.
End Var.
