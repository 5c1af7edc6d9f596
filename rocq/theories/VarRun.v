(** Scopes, and all commands *)
From Coq Require Import Ascii String.
From Coq Require Import List NArith ZArith Bool Arith Lia Permutation.
From Verif Require Import Common Locale NumModel VarModel VarSpec VarProofs VarSet VarKeep.
Import ListNotations.
Open Scope res_scope.

(** An induction principle for commands *)
Section Ind.
Variable P : op -> Prop.
Variable Q : list op -> Prop.
Hypothesis Qnil : Q [].
Hypothesis Qcons : forall o l, P o -> Q l -> Q (o :: l).
Hypothesis Ptemp : forall l b, Q b -> P (OTemp l b).
Hypothesis Pcall : forall l b, Q b -> P (OCall l b).
Hypothesis Pother : forall o, (forall l b, o <> OTemp l b) -> (forall l b, o <> OCall l b) -> P o.
Fixpoint op_ind2 (o : op) : P o :=
  let all := fix all (l : list op) : Q l := match l with [] => Qnil | o :: l' => Qcons o l' (op_ind2 o) (all l') end in
  match o with
  | OTemp l b => Ptemp l b (all b)
  | OCall l b => Pcall l b (all b)
  | o => ltac:(apply Pother; discriminate)
  end.
Fixpoint ops_ind2 (l : list op) : Q l := match l with [] => Qnil | o :: l' => Qcons o l' (op_ind2 o) (ops_ind2 l') end.
End Ind.

(** The conditions on the commands, for lists *)
Lemma all_forall : forall (p : op -> Prop) l, (fix all (l : list op) : Prop := match l with [] => True | o :: l' => p o /\ all l' end) l <-> Forall p l.
Proof.
  intros p. induction l as [|o l IH]; [split; auto|]. rewrite IH. split; [intros [A B]; auto|]. intro H. inversion H. auto.
Qed.

Section Var.
Variable L : locale.
Hypothesis HL : locale_ok L.
Variable mbs : list N -> option (list N).
Hypothesis mbs_inj : forall a b m, mbs a = Some m -> mbs b = Some m -> a = b.
Variable order : list (list N * var) -> list (list N * var).
Hypothesis order_perm : forall l, Permutation (order l) l.
Variable seed_ok : list N -> bool.

Notation touches := (touches mbs).
Notation exact := (exact mbs).
Notation pathok := (pathok mbs).
Notation reexport := (reexport mbs seed_ok).
Notation keep := (keep mbs).
Notation run := (run L mbs order seed_ok).
Notation run_all := (run_all L mbs order seed_ok).
Notation close := (close_current_environment mbs order seed_ok).

(** ** Opening and closing scopes *)

Lemma open_col : forall t n s, bindings n (open_new_environment t s) = None :: bindings n s.
Proof. reflexivity. Qed.
Lemma open_temps : forall t s, temps (open_new_environment t s) = t :: temps s.
Proof. reflexivity. Qed.
Lemma open_exact : forall t n s, exact n s -> exact n (open_new_environment t s).
Proof. intros t n s H m Hm Hn. rewrite open_col. apply (H m Hm Hn). Qed.
Lemma open_path : forall t p s, pathok p s -> pathok p (open_new_environment t s).
Proof. intros t p s H. unfold VarProofs.pathok in *. rewrite open_col. cbn [map]. rewrite <- H. reflexivity. Qed.
Lemma wf0_len : forall s, wf0 s -> (0 < length (envs s))%nat.
Proof. intros s [_ W _]. rewrite <- temps_len. assert (X : nth_error (temps s) (length (envs s) - 1) <> None) by congruence. apply nth_error_Some in X. lia. Qed.
Lemma open_wf0 : forall t s, wf0 s -> wf0 (open_new_environment t s).
Proof.
  intros t s W. pose proof (wf0_len s W) as B. destruct W as [K W C]. constructor.
  - constructor; [constructor|exact K].
  - rewrite open_temps. change (length (envs (open_new_environment t s))) with (S (length (envs s))).
    replace (S (length (envs s)) - 1)%nat with (S (length (envs s) - 1)) by lia. exact W.
  - intros n [|i] u v Hu Hv; [discriminate|]. exact (C n i u v Hu Hv).
Qed.
Lemma open_temp_wf : forall s, wf s -> wf (open_new_environment true s).
Proof.
  intros s [W P]. split; [apply open_wf0, W|]. intros [|i] t Ht.
  - injection Ht as <-. reflexivity.
  - exact (P i t Ht).
Qed.

Lemma fold_touch : forall l s, let s' := fold_left (fun s kv => reexport (fst kv) (snd kv) s) l s in
  temps s' = temps s /\ (forall n, bindings n s' = bindings n s) /\ (keys s -> keys s') /\
  (forall n, exact n s -> exact n s') /\ (forall p, pathok p s -> pathok p s') /\
  (forall n v, In (n, v) l -> v_export v = true -> exact n s') /\ lineno s' = lineno s /\ allexport s' = allexport s.
Proof.
  induction l as [|[n v] l IH]; intros s; cbn [fold_left]; cbn zeta; [repeat (split; [auto; fail|]); split; [intros ? ? []|auto]|].
  cbn [fst snd]. specialize (IH (reexport n v s)). cbn zeta in IH. destruct IH as [I1 [I2 [I3 [I4 [I5 [I6 [I7 I8]]]]]]].
  pose proof (reexport_touches mbs seed_ok n v s) as T. pose proof (reexport_col mbs seed_ok n v s) as C.
  assert (E : forall m, exact m s -> exact m (reexport n v s)).
  { intros m X. destruct (list_eq_dec N.eq_dec m n) as [->|D]; [|eapply touches_exact; eauto].
    destruct (v_export v) eqn:Ev; [apply reexport_exact, Ev|]. intros b Hb Hn. rewrite reexport_os, C by exact Ev. apply X; assumption. }
  assert (Pa : forall p, pathok p s -> pathok p (reexport n v s)).
  { intros p X. destruct (list_eq_dec N.eq_dec (path_name p) n) as [D|D]; [apply reexport_path, D|].
    unfold VarProofs.pathok in *. rewrite (t_pcol _ _ _ _ T) by exact D. rewrite X, C. reflexivity. }
  split; [rewrite I1; apply T|]. split; [intro m; rewrite I2; apply C|]. split; [intro K; apply I3, T, K|].
  split; [intros m X; apply I4, E, X|]. split; [intros p X; apply I5, Pa, X|]. split.
  - intros m w [H|H] Hw; [injection H as -> ->|eapply I6; eauto]. apply I4, reexport_exact, Hw.
  - split; [rewrite I7; apply T|rewrite I8; apply T].
Qed.
Lemma close_ok : forall s, (1 < length (envs s))%nat ->
  exists s', close s = Ok s' /\ temps s' = tl (temps s) /\ (forall n, bindings n s' = tl (bindings n s)) /\ (keys s -> keys s') /\
    (keys s -> forall n, exact n s -> exact n s') /\ (forall p, pathok p s -> pathok p s') /\ lineno s' = lineno s /\ allexport s' = allexport s.
Proof.
  intros s B. unfold close_current_environment. destruct (envs s) as [|e es] eqn:Ee; [cbn in B; lia|]. destruct es as [|e2 es]; [cbn in B; lia|].
  set (s0 := with_envs (e2 :: es) s).
  assert (C0 : forall n, bindings n s = lookup n (vars e) :: bindings n s0) by (intro n; unfold bindings; rewrite Ee; reflexivity).
  assert (T0 : temps s = temp e :: temps s0) by (unfold temps; rewrite Ee; reflexivity).
  assert (P0 : forall p, pathok p s -> pathok p s0).
  { intros p H. unfold VarProofs.pathok in *. rewrite C0 in H. unfold pcol in *. rewrite Ee in H. apply (f_equal (@tl _)) in H. exact H. }
  assert (K0 : keys s -> NoDup (map fst (vars e)) /\ keys s0) by (unfold keys; rewrite Ee; intro H; inversion H; auto).
  assert (O0 : osenv s0 = osenv s /\ lineno s0 = lineno s /\ allexport s0 = allexport s) by auto.
  destruct O0 as [O0 [O1 O2]]. clearbody s0.
  pose proof (fold_touch (order (vars e)) s0) as F. cbn zeta in F. set (s' := fold_left _ _ _) in *. clearbody s'.
  destruct F as [F1 [F2 [F3 [F4 [F5 [F6 [F7 F8]]]]]]]. exists s'. split; [reflexivity|].
  split; [rewrite T0; exact F1|]. split; [intro n; rewrite C0; apply F2|]. split; [intro K; apply F3, K0, K|].
  split; [|split; [intros p H; apply F5, P0, H|split; congruence]].
  intros K n X. destruct (lookup n (vars e)) as [v|] eqn:El; [destruct (v_export v) eqn:Ev|].
  - eapply F6; [|exact Ev]. apply (Permutation_in _ (Permutation_sym (order_perm (vars e)))). apply lookup_in, El.
  - apply F4. intros m Hm Hn. rewrite O0, (X m Hm Hn), C0, El. cbn [exported]. rewrite Ev. reflexivity.
  - apply F4. intros m Hm Hn. rewrite O0, (X m Hm Hn), C0, El. reflexivity.
Qed.
(** A scope around commands *)
Lemma keep_scope : forall X P S R A n t o s s1 s2 s', wf0 s2 -> temps s1 = t :: temps s -> bindings n s1 = o :: bindings n s ->
  (exact n s -> exact n s1) -> (forall p, path_name p = n -> pathok p s -> pathok p s1) ->
  keep X P S R A n s1 s2 -> close s2 = Ok s' -> keep X P S R A n s s'.
Proof.
  intros X P S R A n t o s s1 s2 s' W Ht Ho Hx Hp K Hc. pose proof (k_temps _ _ _ _ _ _ _ _ _ K) as Ht2. destruct (close_ok s2) as [s3 [E [T [C [Ks [Ex [Pa _]]]]]]].
  { unfold close_current_environment in Hc. destruct (envs s2) as [|e [|e2 es]]; try discriminate. cbn. lia. }
  rewrite E in Hc. injection Hc as ->. destruct K as [K1 K2 K3 K4 K5 K6]. constructor.
  - rewrite T, Ht2, Ht. reflexivity.
  - intros HX H. apply Ex; [apply W|]. apply K2; [exact HX|]. apply Hx, H.
  - intros HP p Hp' H. apply Pa. apply K3; [exact HP|exact Hp'|]. apply Hp; assumption.
  - intros HS i v Hi Hv. destruct (K4 HS (Datatypes.S i) v) as [[v' V] F]; [rewrite Ht; exact Hi|rewrite Ho; exact Hv|]. rewrite (C n). split.
    + exists v'. destruct (bindings n s2); [discriminate|]. exact V.
    + intros j Hj. specialize (F (Datatypes.S j) ltac:(lia)). rewrite Ho in F. cbn [nth_error] in F. rewrite <- F.
      destruct (bindings n s2); [destruct j; reflexivity|reflexivity].
  - intros HR N1 N2 i v Hv Hr. destruct (K5 HR N1 N2 (Datatypes.S i) v) as [v' [V1 V2]]; [rewrite Ho; exact Hv|exact Hr|]. exists v'. rewrite (C n). split; [|exact V2].
    destruct (bindings n s2); [discriminate|]. exact V1.
  - intros HA. rewrite (C n), (K6 HA), Ho. reflexivity.
Qed.
Lemma close_wf : forall t s s2 s', wf s -> wf s2 -> temps s2 = t :: temps s -> close s2 = Ok s' -> wf s'.
Proof.
  intros t s s2 s' W [W2 P2] Ht Hc. assert (B : (1 < length (envs s2))%nat).
  { rewrite <- temps_len, Ht. cbn [length]. rewrite temps_len. pose proof (wf0_len s (proj1 W)). lia. }
  destruct (close_ok s2 B) as [s3 [E [T [C [Ks _]]]]]. rewrite E in Hc. injection Hc as ->.
  assert (Ln : length (envs s') = (length (envs s2) - 1)%nat) by (rewrite <- !temps_len, T, Ht; cbn; lia).
  split; [constructor|].
  - apply Ks, W2.
  - destruct W2 as [_ W2 _]. rewrite T, Ln. rewrite Ht in W2 |- *. destruct (length (envs s2)) as [|[|m]] eqn:El; [lia|lia|].
    cbn [tl]. cbn in W2. rewrite <- W2. f_equal. lia.
  - intros n i u v Hu Hv. rewrite T in Hu. rewrite C in Hv. apply (w_col _ W2 n (S i)).
    + rewrite Ht in *. exact Hu.
    + destruct (bindings n s2); [destruct i; discriminate|exact Hv].
  - intros i u Hu. rewrite T in Hu. rewrite C. rewrite Ht in *. specialize (P2 (S i) u Hu).
    destruct (bindings positional s2) as [|o c] eqn:Eb; [|exact P2]. pose proof (cols_len positional s2) as X. rewrite Ht, Eb in X. discriminate.
Qed.

(** ** Commands *)

Definition okeep (o : op) (n : list N) (s s' : st) : Prop := keep (not_in_place false n o) (not_in_place true n o) (not_unset n o) (not_shifted n o) (not_about n o) n s s'.
Definition lkeep (l : list op) (n : list N) (s s' : st) : Prop :=
  keep (Forall (not_in_place false n) l) (Forall (not_in_place true n) l) (Forall (not_unset n) l) (Forall (not_shifted n) l) (Forall (not_about n) l) n s s'.

Lemma touches_wf' : forall n s s', touches n s s' -> n <> positional -> wf s -> wf0 s' -> wf s'.
Proof. intros n s s' T D [W P] W'. split; [exact W'|]. eapply touches_pos; eauto. Qed.
Lemma call_start : forall args s, wf s -> exists s1, set_positional_parameters mbs seed_ok args (open_new_environment false s) = Ok s1 /\ wf s1 /\ temps s1 = false :: temps s /\
  bindings positional s1 = Some (params args) :: bindings positional s /\ (forall n, n <> positional -> bindings n s1 = None :: bindings n s) /\
  touches positional (open_new_environment false s) s1 /\ keep True True True True False positional (open_new_environment false s) s1.
Proof.
  intros args s [W P]. destruct (set_params_ok mbs mbs_inj seed_ok args (open_new_environment false s) 0 None) as [s1 [R [T [K [W1 C]]]]].
  - apply open_wf0, W.
  - reflexivity.
  - intros; lia.
  - intros; lia.
  - reflexivity.
  - discriminate.
  - exists s1. split; [exact R|]. pose proof (t_temps _ _ _ _ T) as Ht. rewrite open_temps in Ht. rewrite open_col in C. cbn [upd] in C.
    split; [split; [exact W1|]|].
    + rewrite Ht, C. intros [|i] t Hi; [injection Hi as <-; exists args; reflexivity|exact (P i t Hi)].
    + split; [exact Ht|]. split; [exact C|]. split; [|split; assumption]. intros n D. rewrite (t_col _ _ _ _ T n D). reflexivity.
Qed.
Lemma temp_start : forall l s, wf s -> Forall (fun a => name_ok (fst a)) l ->
  exists ok s1, do_assignments mbs seed_ok l TEMP true (open_new_environment true s) = Ok (ok, s1) /\ wf s1 /\ temps s1 = true :: temps s /\
    forall n, keep True True True True (Forall (fun a => fst a <> n) l) n (open_new_environment true s) s1.
Proof.
  intros l s W H. pose proof (open_temp_wf s W) as W1.
  destruct (do_assignments_keep mbs mbs_inj seed_ok l TEMP true (open_new_environment true s)) as [ok [s1 [R [W2 K]]]]; [apply W1|reflexivity|].
  exists ok, s1. split; [exact R|]. assert (T : temps s1 = true :: temps s) by apply (K []). split; [|split; [exact T|exact K]].
  split; [exact W2|]. assert (A : Forall (fun a => fst a <> positional) l) by (eapply Forall_impl; [|exact H]; intros a; apply name_ok_pos).
  specialize (K positional). rewrite T, (k_same _ _ _ _ _ _ _ _ _ K A). apply W1.
Qed.
Lemma set_pos_keep : forall l s, wf s -> exists s', set_positional_parameters mbs seed_ok l s = Ok s' /\ wf s' /\ touches positional s s' /\ keep True True True True False positional s s'.
Proof.
  intros l s W. destruct (poscol_seek s W) as [k [l0 [E [Ht Hb]]]]. destruct (seek_some _ _ _ E) as [A B].
  destruct (set_params_ok mbs mbs_inj seed_ok l s k (Some (params l0))) as [s' [R [T [K [W' C]]]]]; auto; [apply W|intros v X; injection X as <-; eauto|].
  exists s'. split; [exact R|]. split; [|split; assumption]. split; [exact W'|].
  rewrite (t_temps _ _ _ _ T), C. apply upd_params_pos; [apply W|exact Ht].
Qed.

Lemma not_about_in_place : forall e n o, not_about n o -> not_in_place e n o.
Proof.
  intros e n. apply (op_ind2 (fun o => not_about n o -> not_in_place e n o) (fun l => Forall (not_about n) l -> Forall (not_in_place e n) l)).
  - constructor.
  - intros o l H1 H2 H. inversion H; subst. constructor; auto.
  - intros l b H. cbn [not_about not_in_place]. intros [_ X]. apply all_forall. apply all_forall in X. auto.
  - intros l b H. cbn [not_about not_in_place]. intros X. apply all_forall. apply all_forall in X. auto.
  - intros o H1 H2. destruct o as [| | | | |m []|[m|]| | | | | |]; cbn [not_about not_in_place]; auto. 
    + intros. destruct e; auto.
    + exfalso. eapply H1. reflexivity.
    + exfalso. eapply H2. reflexivity.
Qed.
Lemma run_ok : forall o s, wf s -> op_ok o -> exists s', run o s = Ok s' /\ wf s' /\ temps s' = temps s /\ forall n, okeep o n s s'.
Proof.
  intro o. apply (op_ind2
    (fun o => forall s, wf s -> op_ok o -> exists s', run o s = Ok s' /\ wf s' /\ temps s' = temps s /\ forall n, okeep o n s s')
    (fun l => forall s, wf s -> Forall op_ok l -> exists s', run_all l s = Ok s' /\ wf s' /\ temps s' = temps s /\ forall n, lkeep l n s s')); clear o.
  - intros s W _. exists s. split; [reflexivity|]. split; [exact W|]. split; [reflexivity|]. intro. apply keep_refl.
  - intros o l Ho Hl s W H. inversion H as [|? ? H1 H2]; subst. destruct (Ho s W H1) as [s1 [R1 [W1 [T1 K1]]]].
    destruct (Hl s1 W1 H2) as [s2 [R2 [W2 [T2 K2]]]]. exists s2. cbn [VarModel.run_all]. rewrite R1. cbn [rbind].
    split; [exact R2|]. split; [exact W2|]. split; [congruence|]. intro n.
    eapply keep_trans; [eapply keep_weaken; [| | | | |apply (K1 n)]|eapply keep_weaken; [| | | | |apply (K2 n)]]; intro F; inversion F; assumption.
  - intros l b Hb s W H. cbn [op_ok] in H. rewrite all_forall in H. destruct H as [H1 H2].
    destruct (temp_start l s W H1) as [ok [s1 [R1 [W1 [T1 K1]]]]].
    assert (B : exists s2, (if ok then run_all b s1 else Ok s1) = Ok s2 /\ wf s2 /\ temps s2 = temps s1 /\ forall n, lkeep b n s1 s2).
    { destruct ok; [apply Hb; assumption|]. exists s1. split; [reflexivity|]. split; [exact W1|]. split; [reflexivity|]. intro. apply keep_refl. }
    destruct B as [s2 [R2 [W2 [T2 K2]]]]. rewrite T1 in T2.
    destruct (close_ok s2) as [s' [Hc [T' _]]]. { rewrite <- temps_len, T2. cbn [length]. rewrite temps_len. pose proof (wf0_len s (proj1 W)). lia. }
    exists s'. split; [|split; [|split]].
    + cbn [VarModel.run]. rewrite R1. cbn [rbind]. transitivity (let! s3 := (if ok then run_all b s1 else Ok s1) in close s3); [reflexivity|].
      rewrite R2. exact Hc.
    + eapply close_wf; [exact W|exact W2|exact T2|exact Hc].
    + rewrite T', T2. reflexivity.
    + intro n. unfold okeep. cbn [not_in_place not_unset not_shifted not_about].
      eapply (keep_weaken _ (Forall (not_in_place false n) b) (Forall (not_in_place true n) b) (Forall (not_unset n) b) (Forall (not_shifted n) b) (Forall (fun a => fst a <> n) l /\ Forall (not_about n) b));
        [apply all_forall|apply all_forall|apply all_forall|apply all_forall|intros [F1 F2]; split; [exact F1|apply all_forall, F2]|].
      eapply keep_scope; [apply W2|apply open_temps|apply open_col|apply open_exact|intros; apply open_path; assumption| |exact Hc].
      eapply keep_trans; [eapply keep_weaken; [| | | | |apply (K1 n)]|eapply keep_weaken; [| | | | |apply (K2 n)]]; auto; intros [F1 F2]; assumption.
  - intros args b Hb s W H. cbn [op_ok] in H. rewrite all_forall in H.
    destruct (call_start args s W) as [s1 [R1 [W1 [T1 [Cp [Cn [Tc K1]]]]]]].
    destruct (Hb s1 W1 H) as [s2 [R2 [W2 [T2 K2]]]]. rewrite T1 in T2.
    destruct (close_ok s2) as [s' [Hc [T' [C' _]]]]. { rewrite <- temps_len, T2. cbn [length]. rewrite temps_len. pose proof (wf0_len s (proj1 W)). lia. }
    exists s'. split; [|split; [|split]].
    + cbn [VarModel.run]. rewrite R1. cbn [rbind]. transitivity (let! s3 := run_all b s1 in close s3); [reflexivity|].
      rewrite R2. exact Hc.
    + eapply close_wf; [exact W|exact W2|exact T2|exact Hc].
    + rewrite T', T2. reflexivity.
    + intro n. unfold okeep. cbn [not_in_place not_unset not_shifted not_about].
      eapply keep_weaken; [apply all_forall|apply all_forall|apply all_forall|apply all_forall|apply all_forall|].
      destruct (list_eq_dec N.eq_dec n positional) as [->|D].
      * eapply keep_scope; [apply W2|exact T1|exact Cp| | |exact (K2 positional)|exact Hc].
        -- intro X. apply (k_exact _ _ _ _ _ _ _ _ _ K1 I). apply open_exact, X.
        -- intros p Hp. destruct p; discriminate.
      * eapply keep_scope; [apply W2|exact T1|exact (Cn n D)| | |exact (K2 n)|exact Hc].
        -- intro X. eapply touches_exact; [exact mbs_inj|exact Tc|exact D|]. apply open_exact, X.
        -- intros p Hp X. eapply (k_path _ True True True True True n); [eapply keep_other; [exact mbs_inj|exact Tc|exact D]|exact I|exact Hp|]. apply open_path, X.
  - intros o N1 N2 s W H. destruct o.
    + destruct (do_assignments_keep mbs mbs_inj seed_ok l GLOBAL export s) as [ok [s' [R [W' K]]]]; [apply W|discriminate|].
      exists s'. cbn [VarModel.run]. rewrite R. cbn [rbind]. split; [reflexivity|]. split; [|split; [apply (K [])|]].
      * split; [exact W'|]. cbn [op_ok] in H. assert (A : Forall (fun a => fst a <> positional) l) by (eapply Forall_impl; [|exact H]; intros a; apply name_ok_pos).
        specialize (K positional). rewrite (k_temps _ _ _ _ _ _ _ _ _ K), (k_same _ _ _ _ _ _ _ _ _ K A). apply W.
      * intro n. eapply keep_weaken; [| | | | |apply (K n)]; auto.
    + destruct (set_value_keep mbs mbs_inj seed_ok name x (if local then LOCAL else GLOBAL) false s) as [ok [s' [R [T [K W']]]]]; [apply W|destruct local; discriminate|].
      exists s'. cbn [VarModel.run]. rewrite R. cbn [rbind]. split; [reflexivity|]. cbn [op_ok] in H. split; [eapply touches_wf'; eauto; apply name_ok_pos, H|].
      split; [apply T|]. intro n. eapply keep_weaken; [| | | | |exact (keep_split mbs mbs_inj _ _ _ _ _ _ _ _ T K n)]; auto; cbn; congruence.
    + destruct (set_element_keep mbs mbs_inj seed_ok name index x s) as [W' [T K]]; [apply W|]. eexists. cbn [VarModel.run]. split; [reflexivity|].
      cbn [op_ok] in H. split; [eapply touches_wf'; eauto; apply name_ok_pos, H|].
      split; [apply T|]. intro n. eapply keep_weaken; [| | | | |exact (keep_split mbs mbs_inj _ _ _ _ _ _ _ _ T K n)]; auto; cbn; congruence.
    + unfold VarModel.run, typeset. destruct (cut_eq [] arg) as [name x] eqn:Ec.
      assert (Np : name_ok name) by (pose proof (cut_eq_ok arg [] ltac:(intros [])) as X; rewrite Ec in X; exact X).
      destruct (typeset_keep mbs mbs_inj seed_ok global readonly export unexport name x s (proj1 W)) as [ok [s' [R [T [K W']]]]].
      exists s'. rewrite R. cbn [rbind]. split; [reflexivity|]. split; [eapply touches_wf'; eauto; apply name_ok_pos, Np|].
      split; [apply T|]. intro n. eapply keep_weaken; [| | | | |exact (keep_split mbs mbs_inj _ _ _ _ _ _ _ _ T K n)]; auto. cbn. rewrite Ec. cbn. congruence.
    + destruct (unset_keep mbs mbs_inj seed_ok name s (proj1 W)) as [W' K]. eexists. cbn [VarModel.run]. split; [reflexivity|].
      destruct K as [K|[T [Np K]]].
      * rewrite K. split; [exact W|]. split; [reflexivity|]. intro. apply keep_refl.
      * split; [eapply touches_wf'; eauto|]. split; [apply T|]. intro n. eapply keep_weaken; [| | | | |exact (keep_split mbs mbs_inj _ _ _ _ _ _ _ _ T K n)]; auto; cbn [not_in_place not_unset not_shifted not_about]; try congruence; intros [-> | D]; congruence.
    + destruct (array_keep L mbs mbs_inj seed_ok name o s (proj1 W)) as [ok [s' [R [W' [[T Tp] K]]]]]. exists s'. cbn [VarModel.run]. rewrite R. cbn [rbind].
      split; [reflexivity|]. split.
      * destruct (list_eq_dec N.eq_dec name positional) as [E|D]; [rewrite Tp by exact E; exact W|eapply touches_wf'; eauto].
      * split; [apply T|]. intro n. eapply keep_weaken; [| | | | |exact (keep_split mbs mbs_inj _ _ _ _ _ _ _ _ T K n)]; auto; cbn; destruct o; congruence.
    + destruct (shift_keep mbs mbs_inj seed_ok name count s W) as [ok [s' [R [W' [T K]]]]]. exists s'. cbn [VarModel.run]. rewrite R. cbn [rbind].
      split; [reflexivity|]. split; [exact W'|]. split; [apply T|].
      intro n. eapply keep_weaken; [| | | | |exact (keep_split mbs mbs_inj _ _ _ _ _ _ _ _ T K n)]; auto; cbn; destruct name; congruence.
    + destruct (set_pos_keep l s W) as [s' [R [W' [T K]]]]. exists s'. cbn [VarModel.run]. split; [exact R|]. split; [exact W'|]. split; [apply T|].
      intro n. eapply keep_weaken; [| | | | |exact (keep_split mbs mbs_inj _ _ _ _ _ _ _ _ T K n)]; auto.
    + destruct (get_keep L HL mbs mbs_inj seed_ok name rnd s W) as [g [s' [R [W' [T K]]]]]. exists s'. cbn [VarModel.run]. rewrite R. cbn [rbind].
      split; [reflexivity|]. split; [exact W'|]. split; [apply T|].
      intro m. eapply keep_weaken; [| | | | |exact (keep_split mbs mbs_inj _ _ _ _ _ _ _ _ T K m)]; auto; cbn; congruence.
    + destruct (lineno_keep mbs mbs_inj seed_ok n s W) as [s' [R [W' [T K]]]]. exists s'. cbn [VarModel.run]. split; [exact R|]. split; [exact W'|]. split; [exact T|].
      intro m. eapply keep_weaken; [| | | | |apply (K m)]; auto.
    + exists (with_allexport b s). cbn [VarModel.run]. split; [reflexivity|]. split; [destruct W as [[A B C] D]; split; [constructor; assumption|exact D]|].
      split; [reflexivity|]. intro n. apply keep_envs; reflexivity.
    + exfalso. eapply N1. reflexivity.
    + exfalso. eapply N2. reflexivity.
Qed.
End Var.
