(** Sessions; what the invariants mean *)
From Coq Require Import Ascii String.
From Coq Require Import List NArith ZArith Bool Arith Lia Permutation.
From Verif Require Import Common Locale NumModel VarModel VarSpec VarProofs VarSet VarKeep VarRun.
Import ListNotations.
Open Scope res_scope.

Section Var.
Variable L : locale.
Hypothesis HL : locale_ok L.
Variable mbs : list N -> option (list N).
Hypothesis mbs_inj : forall a b m, mbs a = Some m -> mbs b = Some m -> a = b.
Variable order : list (list N * var) -> list (list N * var).
Hypothesis order_perm : forall l, Permutation (order l) l.
Variable seed_ok : list N -> bool.

Notation touches := (touches mbs).
Notation exact := (exact mbs).
Notation pathok := (pathok mbs).
Notation keep := (keep mbs).
Notation run := (run L mbs order seed_ok).
Notation run_all := (run_all L mbs order seed_ok).
Notation close := (close_current_environment mbs order seed_ok).
Notation exported := (exported mbs).

(** ** Starting *)

Definition quiet_col (n : list N) (s : st) : Prop := forall i o, nth_error (bindings n s) i = Some o -> quiet o.
Record fine (inh : list (list N)) (s : st) : Prop := mkFine {
  fi_wf : wf s;
  fi_quiet : forall n, ~ In n inh -> quiet_col n s;
  fi_exact : forall n, (n = LINENO \/ n = RANDOM -> ~ In n inh) -> exact n s;
  fi_path : forall p, pathok p s }.
Lemma lookup_map : forall n (l : list (list N * list N)) (f : list N -> var),
  lookup n (map (fun kv => (fst kv, f (snd kv))) l) = match find (fun kv => list_N_eqb (fst kv) n) l with Some kv => Some (f (snd kv)) | None => None end.
Proof. induction l as [|[k x] l IH]; intro f; cbn [map lookup find fst snd]; [reflexivity|]. destruct (list_N_eqb k n); [reflexivity|apply IH]. Qed.
Lemma find_name : forall n x (l : list (list N * list N)), NoDup (map fst l) -> (find (fun kv => list_N_eqb (fst kv) n) l = Some (n, x) <-> In (n, x) l).
Proof.
  intros n x l H. split.
  - intro F. apply find_some in F. apply F.
  - induction l as [|[k y] l IH]; [intros []|]. cbn [find map fst] in *. inversion H as [|? ? H1 H2]; subst. intros [E|E].
    + injection E as -> ->. rewrite list_N_eqb_refl. reflexivity.
    + destruct (list_N_eqb k n) eqn:Ek; [|apply IH; assumption]. apply list_N_eqb_eq in Ek. subst k.
      exfalso. apply H1. apply (in_map fst) in E. exact E.
Qed.
Lemma exported_quiet_all : forall c, (forall i o, nth_error c i = Some o -> quiet o) -> exported c = None.
Proof.
  induction c as [|o c IH]; intro H; [reflexivity|]. cbn [VarProofs.exported]. pose proof (H 0%nat o eq_refl) as Q.
  assert (I : exported c = None) by (apply IH; intros i o' Hi; exact (H (S i) o' Hi)).
  destruct o as [v|]; [|exact I]. cbn in Q. rewrite Q. exact I.
Qed.
Lemma start_env : forall l o args s, inherits mbs l o -> init_environment mbs seed_ok l o args = Ok s -> fine (map fst l) s.
Proof.
  intros l o args s [ND [NO HI]]. unfold init_environment.
  set (f := fun x => mkVar (Scalar (Some x)) true false false GNone).
  set (vs := map (fun kv => (fst kv, mkVar (Scalar (Some (snd kv))) true false false GNone)) l).
  assert (Lk : forall n, lookup n vs = match find (fun kv => list_N_eqb (fst kv) n) l with Some kv => Some (f (snd kv)) | None => None end)
    by (intro n; exact (lookup_map n l f)).
  assert (Lf : forall n v, lookup n vs = Some v -> exists x, v = f x).
  { intros n v. rewrite Lk. destruct (find _ l); [|discriminate]. intro H. injection H as <-. eauto. }
  set (e := set_path mbs PA_PATH _). set (s0 := mkSt [e] o false 0 false).
  assert (B0 : forall n, bindings n s0 = [lookup n vs]) by reflexivity.
  assert (W0 : wf0 s0).
  { constructor.
    - constructor; [|constructor]. change (NoDup (map fst vs)). unfold vs. rewrite map_map. cbn [fst]. exact ND.
    - reflexivity.
    - intros n [|i] t v Ht Hv; [|destruct i; discriminate]. rewrite B0 in Hv. injection Hv as Hv. destruct (Lf _ _ Hv) as [x ->].
      constructor; cbn; congruence. }
  assert (Hp : lookup positional vs = None).
  { rewrite Lk. destruct (find _ l) as [[k x]|] eqn:F; [|reflexivity]. apply find_some in F. destruct F as [F1 F2]. cbn in F2. apply list_N_eqb_eq in F2. subst k.
    rewrite Forall_forall in NO. specialize (NO _ F1). exfalso. apply NO. left. reflexivity. }
  destruct (set_params_ok mbs mbs_inj seed_ok args s0 0 None) as [s1 [R [T [K [W1 C]]]]]; auto; try (intros; lia); try discriminate; [rewrite B0, Hp; reflexivity|].
  intro H. change (set_positional_parameters mbs seed_ok args s0 = Ok s) in H. rewrite R in H. injection H as <-.
  assert (Q0 : forall n, ~ In n (map fst l) -> lookup n vs = None).
  { intros n Hn. rewrite Lk. destruct (find _ l) as [[k x]|] eqn:F; [|reflexivity]. apply find_some in F. destruct F as [F1 F2]. cbn in F2. apply list_N_eqb_eq in F2. subst k.
    exfalso. apply Hn. apply (in_map fst) in F1. exact F1. }
  assert (X0 : forall n, exact n s0).
  { intros n m Hm Hn. change (osenv s0 m) with (o m). rewrite B0. specialize (HI n m Hm Hn). cbn [VarProofs.exported]. rewrite Lk.
    destruct (find (fun kv => list_N_eqb (fst kv) n) l) as [[k x]|] eqn:F.
    - pose proof (find_some _ _ F) as [F1 F2]. cbn in F2. apply list_N_eqb_eq in F2. subst k. cbn [f snd v_export v_val string_of].
      destruct (mbs x) as [b|] eqn:Ex; [apply HI; eauto|]. destruct (o m) as [b|] eqn:Eo; [|reflexivity].
      destruct (proj1 (HI b) eq_refl) as [y [Y1 Y2]]. apply (find_name n y l ND) in Y1. rewrite F in Y1. congruence.
    - destruct (o m) as [b|] eqn:Eo; [|reflexivity]. destruct (proj1 (HI b) eq_refl) as [y [Y1 Y2]]. apply (find_name n y l ND) in Y1. congruence. }
  constructor.
  - split; [exact W1|]. rewrite (t_temps _ _ _ _ T), C, B0, Hp. intros [|i] t Ht; [|destruct i; discriminate]. injection Ht as <-. exists args. reflexivity.
  - intros n Hn i o' Hi. destruct (list_eq_dec N.eq_dec n positional) as [->|D].
    + rewrite C, B0 in Hi. destruct i as [|i]; [injection Hi as <-; reflexivity|destruct i; discriminate].
    + rewrite (t_col _ _ _ _ T n D), B0, Q0 in Hi by exact Hn. destruct i as [|i]; [injection Hi as <-; exact I|destruct i; discriminate].
  - intros n _. destruct (list_eq_dec N.eq_dec n positional) as [->|D].
    + apply (k_exact _ _ _ _ _ _ _ _ _ K I), X0.
    + eapply touches_exact; eauto.
  - intro p. assert (P0 : pathok p s0) by (destruct p; reflexivity).
    assert (D : path_name p <> positional) by (destruct p; discriminate).
    unfold VarProofs.pathok in *. rewrite (t_pcol _ _ _ _ T p D), (t_col _ _ _ _ T _ D). exact P0.
Qed.
Lemma start_special : forall inh n w b s s' (f : st -> st),
  n = LINENO \/ n = RANDOM -> (forall v, okvar n false (w v)) -> (forall v, v_export v = false -> v_export (w v) = false) ->
  (forall s, envs (f s) = envs s /\ osenv (f s) = osenv s) -> b = false ->
  fine inh s ->
  (let! (r, s) := new_variable mbs seed_ok n GLOBAL s in match r with None => UB | Some (k, v) => Ok (f (put k n (w v) s)) end) = Ok s' -> fine inh s'.
Proof.
  intros inh n w b s s' f Hn Hw He Hf _ [[W Po] Q X Pa] H. destruct (new_variable_ok mbs mbs_inj seed_ok n GLOBAL s W) as [k [v [s1 [F [P R]]]]]; [discriminate|].
  rewrite R in H. cbn [rbind] in H. destruct (v_readonly v) eqn:Er; [discriminate|]. injection H as <-.
  set (s2 := put k n (w v) s1). assert (T : touches n s s2) by (eapply touches_trans; [apply F|apply touches_put]).
  assert (Np : n <> positional) by (intros ->; destruct Hn; discriminate).
  assert (W2 : wf s2).
  { eapply touches_wf; [exact T|split; assumption| |exact Np]. unfold s2. rewrite col_put. apply okcol_upd; [eapply found_okcol; [exact F|apply W]|].
    intros t u Ht E. injection E as <-. cbn in P. rewrite (proj1 P) in Ht. injection Ht as <-. apply Hw. }
  assert (Qn : ~ In n inh -> quiet_col n s2).
  { intros Hi i o Ho. unfold s2 in Ho. rewrite col_put in Ho. specialize (Q n Hi). destruct (Nat.lt_trichotomy i k) as [B|[B|B]].
    - rewrite upd_nth_other in Ho by lia. rewrite (f_before _ _ _ _ _ _ F i B) in Ho. injection Ho as <-. exact I.
    - subst i. rewrite upd_nth_same in Ho by (rewrite col_len; eapply found_len; eauto). injection Ho as <-. cbn. apply He.
      destruct (f_old _ _ _ _ _ _ F) as [E|[_ ->]]; [exact (Q _ _ E)|reflexivity].
    - rewrite upd_nth_other in Ho by lia. rewrite (f_after _ _ _ _ _ _ F i B) in Ho. exact (Q _ _ Ho). }
  assert (Xn : ~ In n inh -> exact n s2).
  { intros Hi m Hm Hm0. rewrite (exported_quiet_all (bindings n s2) (Qn Hi)).
    assert (E1 : exact n s1) by (apply F, X; auto). change (osenv s2 m) with (osenv s1 m). rewrite (E1 m Hm Hm0). apply exported_quiet_all.
    intros i o Ho. destruct (Nat.eq_dec i k) as [->|D].
    - rewrite (f_at _ _ _ _ _ _ F) in Ho. injection Ho as <-. cbn. destruct (f_old _ _ _ _ _ _ F) as [E|[_ ->]]; [exact (Q _ Hi _ _ E)|reflexivity].
    - apply (Qn Hi i). unfold s2. rewrite col_put, upd_nth_other by congruence. exact Ho. }
  destruct (Hf s2) as [Ef Eo].
  assert (Bf : forall m, bindings m (f s2) = bindings m s2) by (intro m; unfold bindings; rewrite Ef; reflexivity).
  constructor.
  - destruct W2 as [[A1 A2 A3] A4]. split; [constructor|]; unfold keys, temps in *; rewrite ?Ef; try assumption.
    + intros m. rewrite Bf. apply A3.
    + rewrite Bf. exact A4.
  - intros m Hm i o Ho. rewrite Bf in Ho. destruct (list_eq_dec N.eq_dec m n) as [->|D]; [exact (Qn Hm i o Ho)|].
    rewrite (t_col _ _ _ _ T m D) in Ho. exact (Q m Hm i o Ho).
  - intros m Hm. assert (E : exact m s2).
    { destruct (list_eq_dec N.eq_dec m n) as [->|D]; [apply Xn, Hm, Hn|]. eapply touches_exact; eauto. }
    intros c Hc Hc0. rewrite Eo, Bf. exact (E c Hc Hc0).
  - intro p. assert (D : path_name p <> n) by (destruct p, Hn as [-> | ->]; discriminate). specialize (Pa p).
    unfold VarProofs.pathok, pcol in *. rewrite Ef, Bf, (t_col _ _ _ _ T _ D). pose proof (t_pcol _ _ _ _ T p D) as Z. unfold pcol in Z. rewrite Z. exact Pa.
Qed.
Lemma started_fine : forall inh s, started mbs seed_ok inh s -> fine inh s.
Proof.
  intros inh s H. induction H as [l o args s1 s2 Hi -> Hs Hl|s2 s3 H IH Hr].
  - apply start_env in Hs; [|exact Hi].
    apply (start_special (map fst l) LINENO (fun v => mkVar (Scalar None) (v_export v) false false GLineno) false s1 s2 (fun s => s)); auto.
    intro v. constructor; cbn; try congruence; eauto.
  - apply (start_special inh RANDOM (fun v => mkVar (Scalar None) false false false GRandom) false s2 s3 (with_random true)); auto.
    intro v. constructor; cbn; try congruence; eauto.
Qed.

(** ** During a session *)

Lemma during_wf : forall P s0 s, wf s0 -> during L mbs order seed_ok P s0 s -> wf s.
Proof.
  intros P s0 s W H. induction H as [|o s s' H IH Ho _ R|args s s' H IH R|l ok s s' H IH Hl R].
  - exact W.
  - destruct (run_ok L HL mbs mbs_inj order order_perm seed_ok o s IH Ho) as [s1 [R1 [W1 _]]]. congruence.
  - destruct (call_start mbs mbs_inj seed_ok args s IH) as [s1 [R1 [W1 _]]]. congruence.
  - destruct (temp_start mbs mbs_inj seed_ok l s IH Hl) as [ok1 [s1 [R1 [W1 _]]]]. congruence.
Qed.
Lemma reachable_wf : forall s, reachable L mbs order seed_ok s -> wf s.
Proof. intros s [inh [s0 [H1 H2]]]. eapply during_wf; [|exact H2]. apply (started_fine _ _ H1). Qed.
Lemma during_exact : forall n s0 s, wf s0 -> exact n s0 -> during L mbs order seed_ok (not_in_place false n) s0 s -> exact n s.
Proof.
  intros n s0 s W X H. induction H as [|o s s' H IH Ho HP R|args s s' H IH R|l ok s s' H IH Hl R]; [exact X| | |];
    pose proof (during_wf _ _ _ W H) as W1.
  - destruct (run_ok L HL mbs mbs_inj order order_perm seed_ok o s W1 Ho) as [s1 [R1 [_ [_ K]]]]. assert (s1 = s') by congruence. subst s1.
    apply (k_exact _ _ _ _ _ _ _ _ _ (K n) HP IH).
  - destruct (call_start mbs mbs_inj seed_ok args s W1) as [s1 [R1 [_ [_ [_ [_ [T K]]]]]]]. assert (s1 = s') by congruence. subst s1.
    destruct (list_eq_dec N.eq_dec n positional) as [->|D].
    + apply (k_exact _ _ _ _ _ _ _ _ _ K I). apply open_exact, IH.
    + eapply touches_exact; [exact mbs_inj|exact T|exact D|]. apply open_exact, IH.
  - destruct (temp_start mbs mbs_inj seed_ok l s W1 Hl) as [ok1 [s1 [R1 [_ [_ K]]]]]. assert (s1 = s') by congruence. subst s1.
    apply (k_exact _ _ _ _ _ _ _ _ _ (K n) I). apply open_exact, IH.
Qed.
Lemma during_path : forall p s0 s, wf s0 -> pathok p s0 -> during L mbs order seed_ok (not_in_place true (path_name p)) s0 s -> pathok p s.
Proof.
  intros p s0 s W X H. induction H as [|o s s' H IH Ho HP R|args s s' H IH R|l ok s s' H IH Hl R]; [exact X| | |];
    pose proof (during_wf _ _ _ W H) as W1.
  - destruct (run_ok L HL mbs mbs_inj order order_perm seed_ok o s W1 Ho) as [s1 [R1 [_ [_ K]]]]. assert (s1 = s') by congruence. subst s1.
    apply (k_path _ _ _ _ _ _ _ _ _ (K (path_name p)) HP p eq_refl IH).
  - destruct (call_start mbs mbs_inj seed_ok args s W1) as [s1 [R1 [_ [_ [_ [_ [T K]]]]]]]. assert (s1 = s') by congruence. subst s1.
    assert (D : path_name p <> positional) by (destruct p; discriminate).
    pose proof (open_path mbs false p s IH) as O. unfold VarProofs.pathok in *. rewrite (t_pcol _ _ _ _ T p D), (t_col _ _ _ _ T _ D). exact O.
  - destruct (temp_start mbs mbs_inj seed_ok l s W1 Hl) as [ok1 [s1 [R1 [_ [_ K]]]]]. assert (s1 = s') by congruence. subst s1.
    apply (k_path _ _ _ _ _ _ _ _ _ (K (path_name p)) I p eq_refl). apply open_path, IH.
Qed.

(** ** Meanings *)

Lemma exports_exported : forall c b, exported c = Some b <-> exists x, exports c x /\ mbs x = Some b.
Proof.
  induction c as [|o c IH]; intro b; cbn [VarProofs.exported].
  - split; [discriminate|]. intros [x [H _]]. inversion H.
  - assert (Sk : (forall v, o = Some v -> v_export v = true -> string_of (v_val v) = None) ->
      (exported c = Some b <-> exists x, exports (o :: c) x /\ mbs x = Some b)).
    { intro S. rewrite IH. split; intros [x [H1 H2]]; exists x; (split; [|exact H2]); [apply exports_skip; assumption|].
      inversion H1 as [v y c' E1 E2|o' y c' E1 E2]; subst; [|assumption]. rewrite (S v eq_refl E1) in E2. discriminate. }
    assert (He : forall v y, o = Some v -> v_export v = true -> string_of (v_val v) = Some y -> (mbs y = Some b <-> exists x, exports (o :: c) x /\ mbs x = Some b)).
    { intros v y -> Hv Hy. split.
      - intro H. exists y. split; [apply exports_here; assumption|exact H].
      - intros [x [H1 H2]]. inversion H1 as [v' y' c' E1 E2|o' y' c' E1 E2]; subst; [congruence|]. rewrite (E1 v eq_refl Hv) in Hy. discriminate. }
    destruct o as [v|]; [|apply Sk; discriminate]. destruct (v_export v) eqn:Ev.
    + destruct (v_val v) as [[x|]|l] eqn:Ex.
      * apply (He v x); auto. rewrite Ex. reflexivity.
      * apply Sk. intros w Hw _. injection Hw as <-. rewrite Ex. reflexivity.
      * apply (He v (join (str ":") l)); auto. rewrite Ex. reflexivity.
    + apply Sk. intros w Hw E. injection Hw as <-. congruence.
Qed.
Lemma exact_agrees : forall n s, exact n s <-> env_agrees mbs n s.
Proof.
  intros n s. split; intros H m Hm Hn.
  - intro b. rewrite (H m Hm Hn). apply exports_exported.
  - specialize (H m Hm Hn). destruct (osenv s m) as [b|] eqn:E.
    + symmetry. apply exports_exported, H. reflexivity.
    + destruct (exported (bindings n s)) as [b|] eqn:F; [|reflexivity]. apply exports_exported, H in F. discriminate.
Qed.

(** Search paths *)
Lemma split_colon_parts : forall s acc, ~ In (ch ":") acc -> parts (acc ++ s) (split_colon acc s).
Proof.
  induction s as [|c s IH]; intros acc H; cbn [split_colon].
  - rewrite app_nil_r. constructor. exact H.
  - destruct (N.eqb_spec c (ch ":")) as [->|D].
    + apply parts_more; [exact H|]. apply (IH []). intros [].
    + change (acc ++ c :: s) with (acc ++ [c] ++ s). rewrite app_assoc. apply IH. intro X. apply in_app_or in X. destruct X as [X|[X|[]]]; [exact (H X)|congruence].
Qed.
Lemma add_no_dup_firsts : forall l acc, fold_left add_no_dup l acc = acc ++ firsts acc (somes l).
Proof.
  assert (Ext : forall l a b, (forall x, In x a <-> In x b) -> firsts a l = firsts b l).
  { induction l as [|x l IH]; intros a b E; [reflexivity|]. cbn [firsts].
    destruct (in_dec (list_eq_dec N.eq_dec) x a) as [I1|I1], (in_dec (list_eq_dec N.eq_dec) x b) as [I2|I2].
    - apply IH, E.
    - exfalso. apply I2, E, I1.
    - exfalso. apply I1, E, I2.
    - f_equal. apply IH. intro y. cbn. rewrite E. reflexivity. }
  induction l as [|[x|] l IH]; intro acc; cbn [fold_left somes firsts add_no_dup]; [rewrite app_nil_r; reflexivity| |apply IH].
  destruct (existsb (list_N_eqb x) acc) eqn:E; destruct (in_dec (list_eq_dec N.eq_dec) x acc) as [I|I].
  - apply IH.
  - exfalso. apply existsb_exists in E. destruct E as [y [Y1 Y2]]. apply list_N_eqb_eq in Y2. subst y. contradiction.
  - exfalso. assert (X : existsb (list_N_eqb x) acc = true) by (apply existsb_exists; exists x; split; [exact I|apply list_N_eqb_refl]). congruence.
  - rewrite IH, <- app_assoc. f_equal. cbn [app]. f_equal. apply Ext. intro y. rewrite in_app_iff. cbn. tauto.
Qed.
Lemma path_value_dirs : forall v l, path_value mbs v = Some l -> directories mbs v l.
Proof.
  intros [[x|]|a] l H; cbn [path_value] in H; [| discriminate|]; injection H as <-; unfold path_list; rewrite add_no_dup_firsts; cbn [app].
  - constructor. apply (split_colon_parts x []). intros [].
  - constructor.
Qed.
Lemma path_array_search : forall p s, pathok p s -> search_path mbs (bindings (path_name p) s) (get_path_array p (envs s)).
Proof.
  intros p s H. unfold VarProofs.pathok, pcol, bindings in *. induction (envs s) as [|e es IH]; cbn [map get_path_array] in *; [constructor|].
  injection H as H1 H2. rewrite H1. destruct (lookup (path_name p) (vars e)) as [v|]; cbn [pv].
  - destruct (path_value mbs (v_val v)) as [l|] eqn:E.
    + apply sp_here, path_value_dirs, E.
    + apply sp_outer; [|apply IH, H2]. intros w Hw. injection Hw as <-. destruct (v_val v) as [[x|]|a]; [discriminate|reflexivity|discriminate].
  - apply sp_outer; [discriminate|apply IH, H2].
Qed.

(** The innermost variable *)
Lemma visible_seek : forall c v, visible c v <-> exists i, seek c = Some (i, v).
Proof.
  induction c as [|[w|] c IH]; intro v; cbn [seek].
  - split; [intro H; inversion H|intros [i H]; discriminate].
  - split; [intro H; inversion H; subst; eauto|intros [i H]; injection H as _ <-; constructor].
  - split.
    + intro H. inversion H as [|? ? H1]; subst. apply IH in H1. destruct H1 as [i ->]. eauto.
    + intros [i H]. destruct (seek c) as [[j w]|]; [|discriminate]. injection H as _ <-. constructor. apply IH. eauto.
Qed.
Lemma visible_nth : forall c v, visible c v <-> exists i, nth_error c i = Some (Some v) /\ forall j, (j < i)%nat -> nth_error c j = Some None.
Proof.
  intros c v. rewrite visible_seek. split; intros [i H]; exists i; [apply seek_some, H|apply seek_first; apply H].
Qed.
End Var.
