(** Properties of variables *)
From Coq Require Import Ascii String.
From Coq Require Import List NArith ZArith Bool Arith Lia Permutation.
From Verif Require Import Common Locale NumModel BraceSpec BraceNum VarModel VarSpec VarProofs VarSet VarKeep VarRun VarMore VarArray VarUse.
Import ListNotations.
Open Scope res_scope.

(** Examples use ASCII only. *)
Definition ascii : list N -> option (list N) := fun s => Some s.
Lemma ascii_inj : forall a b m, ascii a = Some m -> ascii b = Some m -> a = b.
Proof. unfold ascii. congruence. Qed.
Definition straight : list (list N * var) -> list (list N * var) := fun l => l.
Definition noseed : list N -> bool := fun _ => false.
Definition got (r : res st) : st := match r with Ok s => s | _ => mkSt [] (fun _ => None) false 0 false end.
Lemma got_ok : forall r, (exists s, r = Ok s) -> r = Ok (got r).
Proof. intros r [s ->]. reflexivity. Qed.
(** The shell starts with the environment [l] and without operands. *)
Definition environment (l : list (list N * list N)) : list N -> option (list N) :=
  fun m => match find (fun kv => list_N_eqb (fst kv) m) l with Some kv => Some (snd kv) | None => None end.
Definition start (l : list (list N * list N)) : st := got (let! s := init_environment ascii noseed l (environment l) [] in init_lineno ascii noseed s).
Definition go (l : list op) (s : st) : st := got (run_all c_locale ascii straight noseed l s).
Lemma inherits_ascii : forall l, NoDup (map fst l) -> Forall (fun kv => name_ok (fst kv)) l -> inherits ascii l (environment l).
Proof.
  intros l D F. split; [exact D|]. split; [exact F|]. intros n m Hm _ b. unfold ascii in Hm. injection Hm as <-. unfold environment.
  pose proof (fun x => find_name n x l D) as X. destruct (find (fun kv => list_N_eqb (fst kv) n) l) as [[k v]|] eqn:E.
  - assert (k = n) by (apply find_some in E; destruct E as [_ E]; apply list_N_eqb_eq in E; exact E). subst k.
    split; [intro H; injection H as <-; exists v; split; [apply X; reflexivity|reflexivity]|]. intros [x [I M]]. injection M as <-. apply X in I. injection I as ->. reflexivity.
  - split; [discriminate|]. intros [x [I _]]. apply X in I. discriminate.
Qed.
Lemma started_here : forall l, NoDup (map fst l) -> Forall (fun kv => name_ok (fst kv)) l ->
  (exists s, (let! s := init_environment ascii noseed l (environment l) [] in init_lineno ascii noseed s) = Ok s) -> started ascii noseed (map fst l) (start l).
Proof.
  intros l D F [s E]. unfold start. rewrite E. cbn [got]. destruct (init_environment ascii noseed l (environment l) []) as [s1| |] eqn:E1; [|discriminate..]. cbn [rbind] in E.
  apply (start_here _ _ _ l (environment l) [] s1); [apply inherits_ascii; assumption|reflexivity|exact E1|exact E].
Qed.
Lemma during_go : forall (P : op -> Prop) s0 l s, during c_locale ascii straight noseed P s0 s -> Forall op_ok l -> Forall P l ->
  (exists s', run_all c_locale ascii straight noseed l s = Ok s') -> during c_locale ascii straight noseed P s0 (go l s).
Proof.
  intros P s0 l. induction l as [|o l IH]; intros s D H1 H2 [s' E]; unfold go.
  - exact D.
  - cbn [run_all] in *. destruct (run c_locale ascii straight noseed o s) as [s1| |] eqn:R; [|discriminate..]. cbn [rbind] in *.
    inversion H1; inversion H2; subst. apply IH; eauto. eapply during_run; eauto.
Qed.
Definition a := str "a".
Definition b := str "b".
Definition x := str "x".
Definition y := str "y".
Definition path0 : list (list N * list N) := [(str "PATH", str "/bin:/usr/bin"); (a, x)].
Ltac names := repeat constructor; unfold name_ok; cbn; intuition discriminate.
Example ex_started : started ascii noseed (map fst path0) (start path0).
Proof. apply started_here; [names|names|]. eexists. vm_compute. reflexivity. Qed.

Section General.
Variable L : locale.
Hypothesis HL : locale_ok L.
Variable mbs : list N -> option (list N).
Hypothesis mbs_inj : forall a b m, mbs a = Some m -> mbs b = Some m -> a = b.
Variable order : list (list N * var) -> list (list N * var).
Hypothesis order_perm : forall l, Permutation (order l) l.
Variable seed_ok : list N -> bool.
Notation run := (run L mbs order seed_ok).
Notation reachable := (reachable L mbs order seed_ok).
Notation during := (during L mbs order seed_ok).
Let wf_of := reachable_wf L HL mbs mbs_inj order order_perm seed_ok.

(** ** C62: no command makes an assertion about variables fail *)

Theorem commands_defined : forall o s, reachable s -> op_ok o -> exists s', run o s = Ok s' /\ temps s' = temps s.
Proof.
  intros o s R H. destruct (run_ok L HL mbs mbs_inj order order_perm seed_ok o s (wf_of s R) H) as [s' [E [_ [T _]]]]. eauto.
Qed.

(** ** C53: the process environment agrees with the variables *)

Theorem environment_agrees : forall inh s0 s n, started mbs seed_ok inh s0 -> (n = LINENO \/ n = RANDOM -> ~ In n inh) ->
  during (not_in_place false n) s0 s -> env_agrees mbs n s.
Proof.
  intros inh s0 s n S N0 D. pose proof (started_fine mbs mbs_inj order order_perm seed_ok inh s0 S) as F.
  apply exact_agrees. eapply during_exact; eauto; [apply F|apply (fi_exact _ _ _ F), N0].
Qed.
(** Once the process environment agrees about a name, it goes on to do so. *)
Theorem environment_stays : forall s s' n, reachable s -> env_agrees mbs n s -> during (not_in_place false n) s s' -> env_agrees mbs n s'.
Proof. intros s s' n R A D. apply exact_agrees. apply exact_agrees in A. eapply during_exact; eauto. Qed.

(** ** C54: read-only variables *)

(** A read-only variable (in the [i]th scope, counted from the outermost one) keeps its value and stays
    read-only, whatever commands are executed, unless shift -A is used on it. *)
Theorem readonly_kept : forall s s' n i v, reachable s -> n <> RANDOM -> n <> LINENO ->
  during (not_shifted n) s s' -> nth_error (rev (bindings n s)) i = Some (Some v) -> v_readonly v = true ->
  exists v', nth_error (rev (bindings n s')) i = Some (Some v') /\ v_val v' = v_val v /\ v_readonly v' = true.
Proof. intros s s' n i v R N1 N2 D H1 H2. eapply during_ro; eauto. Qed.
(** Assignment to a read-only variable fails and changes nothing of it; to another it succeeds. *)
Theorem readonly_assignment : forall s n val export k, reachable s -> name_ok n -> target (temps s) (bindings n s) k ->
  exists ok s', set_value mbs seed_ok n val GLOBAL export s = Ok (ok, s') /\
    (ok = false <-> exists v, nth_error (bindings n s) k = Some (Some v) /\ v_readonly v = true) /\
    (ok = false -> nth_error (bindings n s') k = nth_error (bindings n s) k).
Proof.
  intros s n val export k R Hn T.
  destruct (set_global_ok mbs mbs_inj seed_ok n val export s (wf_of s R) (name_ok_pos n Hn)) as [k' [old [ok [s' [w [E [T' [Ho [As C]]]]]]]]].
  assert (k' = k) by (eapply target_fun; eauto). subst k'. exists ok, s'. split; [exact E|]. destruct C as [[[v [-> Hv]] [-> Ew]]|[Hr [-> _]]].
  - injection Ew as <-. split; [split; [intros _; eauto|reflexivity]|]. intros _. rewrite Ho. apply As.
  - split; [split; [discriminate|]|discriminate]. intros [v [H1 H2]]. rewrite Ho in H1. injection H1 as ->. rewrite (Hr v eq_refl) in H2. discriminate.
Qed.
(** A read-only variable cannot be unset; unset removes the innermost variable of the name only. *)
Theorem unset_exact : forall s n, reachable s -> name_ok n ->
  (forall v, visible (bindings n s) v -> v_readonly v = true -> unset mbs seed_ok n s = (false, s)) /\
  (forall k v, nth_error (bindings n s) k = Some (Some v) -> (forall j, (j < k)%nat -> nth_error (bindings n s) j = Some None) ->
     v_nodelete v = false -> exists s', unset mbs seed_ok n s = (true, s') /\ (forall m, m <> n -> bindings m s' = bindings m s) /\ bindings n s' = upd (bindings n s) k None) /\
  ((forall v, ~ visible (bindings n s) v) -> unset mbs seed_ok n s = (true, s)).
Proof.
  intros s n R Hn. assert (Vu : forall u v, visible (bindings n s) u -> visible (bindings n s) v -> u = v).
  { intros u v Hu Hv. apply visible_seek in Hu, Hv. destruct Hu, Hv. congruence. }
  assert (Hro : forall v, visible (bindings n s) v -> v_readonly v = true -> v_nodelete v = true).
  { intros v Hv Hr. apply visible_nth in Hv. destruct Hv as [i [Hi _]].
    assert (Ht : exists t, nth_error (temps s) i = Some t).
    { destruct (nth_error (temps s) i) eqn:E; [eauto|]. apply nth_error_None in E. rewrite (cols_len n) in E. assert (i < length (bindings n s))%nat by (apply nth_error_Some; congruence). lia. }
    destruct Ht as [t Ht]. destruct (w_col _ (proj1 (wf_of s R)) n i t v Ht Hi). auto. }
  destruct (unset_ok mbs mbs_inj seed_ok n s Hn) as [[[v [Hv Hd]] E]|[Hd [s' [E [Ho C]]]]].
  - split; [auto|]. split; [|intro H; destruct (H v Hv)]. intros k u Hu Hj Hnd.
    assert (u = v) by (apply Vu; [apply visible_nth; eauto|exact Hv]). congruence.
  - split; [intros v Hv Hr; specialize (Hro v Hv Hr); rewrite (Hd v Hv) in Hro; discriminate|]. split.
    + intros k v Hv Hj Hnd. exists s'. split; [exact E|]. split; [exact Ho|]. destruct C as [[C _]|[k' [v' [A [B C]]]]].
      * exfalso. apply (C v). apply visible_nth. eauto.
      * assert (k' = k); [|subst; exact C]. destruct (Nat.lt_trichotomy k' k) as [H|[H|H]]; [rewrite (Hj _ H) in A; discriminate|exact H|rewrite (B _ H) in Hv; discriminate].
    + intros Hn0. rewrite E. destruct C as [[_ ->]|[k [v [A [B _]]]]]; [reflexivity|]. exfalso. apply (Hn0 v). apply visible_nth. eauto.
Qed.

(** ** C55: variables declared in functions *)

(** What a function does to a variable that it declares first does not affect the variables of
    its callers. *)
Theorem local_isolated : forall args readonly export unexport arg body n s s', reachable s -> n = fst (cut_eq [] arg) ->
  op_ok (OCall args (OTypeset false readonly export unexport arg :: body)) -> Forall (not_unset n) body ->
  run (OCall args (OTypeset false readonly export unexport arg :: body)) s = Ok s' -> bindings n s' = bindings n s.
Proof. intros args readonly export unexport arg body n s s' R Hn Ho Hu E. eapply call_local; eauto. Qed.

(** ** C61: assignments *)

(** An assignment changes the innermost variable of the name that is not temporary (or makes one in
    the outermost scope), discards inner temporary ones and changes nothing else; the variable then
    has the value when it is read. *)
Theorem assignment_exact : forall s n val export k old, reachable s -> name_ok n -> target (temps s) (bindings n s) k ->
  nth_error (bindings n s) k = Some old -> (forall v, old = Some v -> v_readonly v = false) ->
  exists s' w, set_value mbs seed_ok n val GLOBAL export s = Ok (true, s') /\ v_val w = val /\ v_readonly w = false /\
    (v_export w = true <-> export = true \/ allexport s = true \/ exists v, old = Some v /\ v_export v = true) /\
    nth_error (bindings n s') k = Some (Some w) /\ visible (bindings n s') w /\
    (forall j, (k < j)%nat -> nth_error (bindings n s') j = nth_error (bindings n s) j) /\
    (forall m, m <> n -> bindings m s' = bindings m s) /\
    (forall rnd, plain n -> n <> RANDOM ->
       get_variable L mbs n rnd s' = Ok (match val with Scalar (Some x) => Single x | Scalar None => NotFound | Array l => Many l end, s')).
Proof.
  intros s n val export k old R Hn T Ho Hr.
  destruct (set_global_ok mbs mbs_inj seed_ok n val export s (wf_of s R) (name_ok_pos n Hn)) as [k' [old' [ok [s' [w [E [T' [Ho' [As C]]]]]]]]].
  assert (k' = k) by (eapply target_fun; eauto). subst k'. assert (old' = old) by congruence. subst old'.
  destruct C as [[[v [-> Hv]] _]|[_ [-> [Hw [Hwr [Hg He]]]]]]; [rewrite (Hr v eq_refl) in Hv; discriminate|].
  exists s', w. split; [exact E|]. split; [exact Hw|]. split; [exact Hwr|]. split; [|split; [apply As|split; [eapply assigned_visible; eauto|split; [apply As|split; [apply As|]]]]].
  - rewrite He. unfold exporting. assert (Hq : match n with c :: _ => (c =? ch "=")%N | [] => false end = false).
    { destruct n as [|c n]; [reflexivity|]. apply N.eqb_neq. intros ->. apply Hn. left. reflexivity. }
    rewrite Hq. cbn [negb]. rewrite andb_true_r, !orb_true_iff. split.
    + intros [H|[H|H]]; auto. destruct old as [v|]; [|discriminate]. right. right. eauto.
    + intros [H|[H|[v [-> H]]]]; auto.
  - intros rnd P Nr. rewrite (get_visible L mbs seed_ok n rnd s' w P (assigned_visible _ _ _ _ _ As) (Hg Nr)), Hw. reflexivity.
Qed.
(** There is always exactly one such scope. *)
Theorem target_exists : forall s n, reachable s -> exists k, target (temps s) (bindings n s) k /\ forall k', target (temps s) (bindings n s) k' -> k' = k.
Proof.
  intros s n R. assert (X : exists k, target (temps s) (bindings n s) k).
  { pose proof (wf0_len s (proj1 (wf_of s R))) as B. unfold temps, bindings. destruct (envs s) as [|e es]; [cbn in B; lia|]. clear B. revert e.
    induction es as [|e' es IH]; intro e; [eexists; apply target_last|]. destruct (IH e') as [k Hk]. cbn [map] in *.
    destruct (temp e) eqn:Et; [eexists; apply target_skip; [left; reflexivity|exact Hk]|]. destruct (lookup n (vars e)) as [v|]; [eexists; apply target_here|].
    eexists. apply target_skip; [right; reflexivity|exact Hk]. }
  destruct X as [k X]. exists k. split; [exact X|]. intros k' X'. eapply target_fun; eauto.
Qed.

(** ** C56: temporary assignments *)

(** While the command of [l command] is executed the assigned variables have their new values and are
    exported; other variables are as before. *)
Theorem temporary_visible : forall s l, reachable s -> Forall (fun a => name_ok (fst a)) l ->
  (forall n v, In n (map fst l) -> visible (bindings n s) v -> v_readonly v = false) ->
  exists s', do_assignments mbs seed_ok l TEMP true (open_new_environment true s) = Ok (true, s') /\
    (forall n x, assigns n l x -> exists w, visible (bindings n s') w /\ v_val w = x /\ v_export w = true /\
       (forall str, env_agrees mbs n s -> string_of x = Some str -> forall m, mbs n = Some m -> m <> [] -> osenv s' m = mbs str)) /\
    (forall m, ~ In m (map fst l) -> bindings m s' = None :: bindings m s).
Proof.
  intros s l R Hl Hr. destruct (temp_start mbs mbs_inj seed_ok l s (wf_of s R) Hl) as [ok [s' [E [W [T K]]]]].
  destruct (temp_assignments mbs mbs_inj seed_ok l (open_new_environment true s) ok s' (open_wf0 true s (proj1 (wf_of s R))) eq_refl E) as [A1 [A2 [A3 A4]]].
  destruct ok.
  - exists s'. split; [exact E|]. split; [|intros m Hm; rewrite A2 by exact Hm; apply open_col].
    intros n x Hx. destruct (A3 eq_refl n x Hx) as [w [Hw [Hv He]]]. exists w.
    split; [apply visible_nth; exists 0%nat; split; [exact Hw|intros; lia]|]. split; [exact Hv|]. split; [exact He|].
    intros z Ag Hz m Hm Hm0. apply exact_agrees in Ag.
    assert (X : exact mbs n s') by (apply (k_exact _ _ _ _ _ _ _ _ _ (K n) I), open_exact, Ag).
    rewrite (X m Hm Hm0). destruct (bindings n s') as [|o c]; [discriminate|]. injection Hw as ->. cbn [exported]. rewrite He, Hv.
    destruct x as [[q|]|q]; cbn [string_of] in Hz; [injection Hz as ->; reflexivity|discriminate|injection Hz as <-; reflexivity].
  - exfalso. assert (X : false = true); [|discriminate]. eapply (temp_succeeds mbs mbs_inj seed_ok l (open_new_environment true s)); [apply open_wf0, wf_of, R|reflexivity|exact E|].
    intros n v Hn Hv. rewrite open_col in Hv. inversion Hv; subst. eapply Hr; eauto.
Qed.
(** Afterwards the variables are as before and so is what commands inherit, unless the command itself
    (a function or built-in) deals with the variable. *)
Theorem temporary_restored : forall l body n s s', reachable s -> op_ok (OTemp l body) -> Forall (not_about n) body ->
  run (OTemp l body) s = Ok s' -> bindings n s' = bindings n s /\
  (env_agrees mbs n s -> forall m, mbs n = Some m -> m <> [] -> osenv s' m = osenv s m).
Proof.
  intros l body n s s' R H U E. pose proof (temp_restores L HL mbs mbs_inj order order_perm seed_ok l body n s s' (wf_of s R) H U E) as C. split; [exact C|].
  intros Ag m Hm Hm0. apply exact_agrees in Ag.
  destruct (run_ok L HL mbs mbs_inj order order_perm seed_ok _ s (wf_of s R) H) as [s1 [E1 [_ [_ K]]]]. assert (s1 = s') by congruence. subst s1.
  assert (X : exact mbs n s').
  { apply (k_exact _ _ _ _ _ _ _ _ _ (K n)); [|exact Ag]. cbn [not_in_place]. apply all_forall. clear - U. eapply Forall_impl; [|exact U]. intro o. apply not_about_in_place. }
  rewrite (X m Hm Hm0), (Ag m Hm Hm0), C. reflexivity.
Qed.

(** ** C57: positional parameters *)

Theorem params_always : forall s, reachable s -> exists l, has_params s l.
Proof. intros s R. destruct (params_visible s (wf_of s R)) as [l [V _]]. exists l, (params l). auto. Qed.
(** A function gets its operands as positional parameters, and whatever it does, those of the caller
    are as before when it returns. *)
Theorem function_params : forall args s, reachable s -> exists s', set_positional_parameters mbs seed_ok args (open_new_environment false s) = Ok s' /\ has_params s' args.
Proof.
  intros args s R. destruct (call_start mbs mbs_inj seed_ok args s (wf_of s R)) as [s1 [R1 [W1 [T1 [Cp _]]]]]. exists s1. split; [exact R1|].
  exists (params args). split; [rewrite Cp; constructor|reflexivity].
Qed.
Theorem params_restored : forall args body s s' l, reachable s -> op_ok (OCall args body) -> run (OCall args body) s = Ok s' -> has_params s l -> has_params s' l.
Proof.
  intros args body s s' l R H E [v [V Hv]]. exists v. split; [|exact Hv].
  rewrite (call_params L HL mbs mbs_inj order order_perm seed_ok args body s s' (wf_of s R) H E). exact V.
Qed.
Lemma params_values : forall s l, has_params s l <-> positional_values s = Ok l.
Proof.
  intros s l. unfold has_params, positional_values. rewrite search_seek. split.
  - intros [v [V Hv]]. apply visible_seek in V. destruct V as [k ->]. rewrite Hv. reflexivity.
  - destruct (seek (bindings positional s)) as [[k v]|] eqn:E; [|discriminate]. destruct (v_val v) as [q|l0] eqn:Hv; [discriminate|]. intro H. injection H as ->.
    exists v. split; [apply visible_seek; eauto|exact Hv].
Qed.
(** set replaces the parameters; shift removes some from the start or the end or fails. *)
Theorem set_params : forall l s, reachable s -> exists s', set_positional_parameters mbs seed_ok l s = Ok s' /\ has_params s' l /\
  forall m, m <> positional -> bindings m s' = bindings m s.
Proof.
  intros l s R. destruct (set_pos_keep mbs mbs_inj seed_ok l s (wf_of s R)) as [s' [E _]]. destruct (set_params_visible mbs mbs_inj seed_ok l s s' (wf_of s R) E) as [A B].
  exists s'. split; [exact E|]. split; [apply params_values, A|exact B].
Qed.
Theorem shift_exact : forall s l, has_params s l ->
  (forall k, (k <= length l)%nat -> exists s', shift_builtin None (Z.of_nat k) s = Ok (true, s') /\ has_params s' (skipn k l)) /\
  (forall k, (0 < k <= length l)%nat -> exists s', shift_builtin None (- Z.of_nat k) s = Ok (true, s') /\ has_params s' (firstn (length l - k) l)) /\
  (forall z, (Z.of_nat (length l) < Z.abs z)%Z -> shift_builtin None z s = Ok (false, s)).
Proof.
  intros s l H. apply params_values in H. split; [|split].
  - intros k B. destruct (shift_params (Z.of_nat k) l s H) as [[_ X]|[s' [E [_ X]]]]; [lia|]. exists s'. split; [exact E|]. apply params_values. rewrite X.
    destruct (Z.leb_spec 0 (Z.of_nat k)); [|lia]. rewrite Nat2Z.id. reflexivity.
  - intros k B. destruct (shift_params (- Z.of_nat k) l s H) as [[_ X]|[s' [E [_ X]]]]; [lia|]. exists s'. split; [exact E|]. apply params_values. rewrite X.
    destruct (Z.leb_spec 0 (- Z.of_nat k)); [lia|]. rewrite Z.opp_involutive, Nat2Z.id. reflexivity.
  - intros z B. destruct (shift_params z l s H) as [[X _]|[s' [_ [X _]]]]; [exact X|lia].
Qed.
(** Parameter expansion: $n with any number of digits is the n-th parameter, $# their number, $@ and
    $* all of them. *)
Theorem param_number : forall s l ds rnd, has_params s l -> ds <> [] -> Forall (fun c => is_digit c = true) ds -> ds <> str "0" -> (digits_value 0 ds < 2 ^ 64)%Z ->
  get_variable L mbs ds rnd s =
    Ok (if (digits_value 0 ds =? 0)%Z then NotFound else match nth_error l (Z.to_nat (digits_value 0 ds) - 1) with Some x => Single x | None => NotFound end, s).
Proof.
  intros s l ds rnd H Hn Hd H0 Hb. apply params_values in H. rewrite (get_param L HL mbs mbs_inj seed_ok ds (digits_value 0 ds) rnd s l H Hn H0 Hd eq_refl).
  assert (B : (0 <= digits_value 0 ds)%Z) by (eapply digits_value_nonneg; [exact mbs_inj|exact seed_ok|exact Hd|lia]).
  set (i := digits_value 0 ds) in *. clearbody i. destruct (Z.eqb_spec i 0) as [->|D]; [reflexivity|].
  replace (Z.to_nat i) with (S (Z.to_nat i - 1)) at 1 by lia. cbn [nth_error]. destruct (nth_error l (Z.to_nat i - 1)) as [z|]; [|reflexivity].
  destruct (Z.leb_spec i UINTMAX); [reflexivity|unfold UINTMAX in *; lia].
Qed.
Theorem param_special : forall s l rnd, has_params s l -> get_variable L mbs (str "#") rnd s = Ok (Single (dec_of_N (N.of_nat (length l))), s) /\
  get_variable L mbs (str "@") rnd s = Ok (Many l, s) /\ get_variable L mbs (str "*") rnd s = Ok (Concat l, s).
Proof. intros s l rnd H. apply params_values in H. unfold get_variable. cbn [str]. change (list_N_eqb (str "#") []) with false. rewrite !H. auto. Qed.

(** ** C63: listing *)

Lemma lookup_hset_all : forall n new old, lookup n (hset_all new old) = match lookup n new with Some v => Some v | None => lookup n old end.
Proof.
  intros n. induction new as [|[k v] new IH]; intro old; [reflexivity|]. cbn [hset_all lookup]. unfold hset. cbn [lookup]. destruct (list_N_eqb k n) eqn:E; [reflexivity|].
  rewrite <- IH. generalize (hset_all new old). intro t. induction t as [|[k' v'] t IH']; [reflexivity|]. unfold hremove in *. cbn [filter fst]. destruct (list_N_eqb k' k) eqn:E'; cbn [negb].
  - apply list_N_eqb_eq in E'. subst k'. cbn [lookup]. rewrite E. exact IH'.
  - cbn [lookup]. destruct (list_N_eqb k' n); [reflexivity|exact IH'].
Qed.
(** The variables that are listed (set, typeset -g, export, readonly) are those that are visible. *)
Theorem listed_exact : forall s n v, reachable s -> lookup n (make_array_of_all_variables true s) = Some v <-> visible (bindings n s) v.
Proof.
  intros s n v _. unfold make_array_of_all_variables, bindings.
  assert (G : forall es, lookup n (get_all_variables_rec es true) = Some v <-> visible (map (fun e => lookup n (vars e)) es) v).
  { induction es as [|e es IH]; cbn [get_all_variables_rec map]; [split; [discriminate|intro H; inversion H]|].
    rewrite lookup_hset_all. destruct (lookup n (vars e)) as [u|].
    - split; [intro H; injection H as ->; constructor|intro H; inversion H; reflexivity].
    - cbn [orb]. assert (X : lookup n (match es with [] => [] | _ :: _ => get_all_variables_rec es true end) = lookup n (get_all_variables_rec es true)) by (destruct es; reflexivity).
      rewrite X, IH. split; [apply visible_outer|intro H; inversion H; assumption]. }
  destruct (envs s) as [|e es]; [cbn; split; [discriminate|intro H; inversion H]|]. cbn [negb andb]. destruct es as [|e' es]; [|apply G].
  cbn [map]. destruct (lookup n (vars e)) as [u|]; split; intro H.
  - injection H as ->. constructor.
  - inversion H. reflexivity.
  - discriminate.
  - inversion H as [|? ? H']; subst. inversion H'.
Qed.

(** ** C58: search paths *)

(** The directories in which commands ($PATH), directories ($CDPATH) and scripts ($YASH_LOADPATH) are
    looked for are those the variable has now. *)
Theorem search_path_exact : forall inh s0 s p, started mbs seed_ok inh s0 -> during (not_in_place true (path_name p)) s0 s ->
  search_path mbs (bindings (path_name p) s) (get_path_array p (envs s)).
Proof.
  intros inh s0 s p S D. pose proof (started_fine mbs mbs_inj order order_perm seed_ok inh s0 S) as F.
  apply path_array_search; [exact seed_ok|]. eapply during_path; eauto; apply F.
Qed.

(** ** C59: arrays *)

(** array -d removes the elements with the given numbers (each counted in the array as it was). *)
Theorem array_delete : forall s n idx is l v, reachable s -> name_ok n -> visible (bindings n s) v -> v_val v = Array l -> v_readonly v = false ->
  Forall2 (fun x i => exists sg ds, integer L x sg ds i) idx is ->
  forall p, (forall k, p k = true <-> exists i, In i is /\ denotes (length l) i k) ->
  exists s', array_builtin L mbs seed_ok n (ADelete idx) s = Ok (true, s') /\ value_changed (Array l) (Array (without 0 p l)) (bindings n s) (bindings n s') /\
    forall m, m <> n -> bindings m s' = bindings m s.
Proof.
  intros s n idx is l v R Hn V Hv Hr F p Hp. pose proof (remove_elements_ok L HL idx is l p F Hp) as E.
  destruct (array_builtin_ok L mbs seed_ok n (ADelete idx) s) as [[l0 [l' [s' [A [B [C D]]]]]]|[_ X]]; [discriminate|exact Hn| |].
  - assert (l0 = l) by (eapply changed_from; eauto). subst l0. cbn [array_new] in B. rewrite E in B. injection B as <-. eauto.
  - destruct (X v l V Hv) as [Y|Y]; [congruence|]. cbn [array_new] in Y. congruence.
Qed.
Theorem array_insert : forall s n idx i new l v u, reachable s -> name_ok n -> visible (bindings n s) v -> v_val v = Array l -> v_readonly v = false ->
  (exists sg ds, integer L idx sg ds i) -> (u <= length l)%nat ->
  ((0 <= i)%Z -> u = Nat.min (Z.to_nat i) (length l)) -> ((i < 0)%Z -> u = Z.to_nat (Z.of_nat (length l) + 1 + i)) ->
  exists s', array_builtin L mbs seed_ok n (AInsert idx new) s = Ok (true, s') /\ value_changed (Array l) (Array (firstn u l ++ new ++ skipn u l)) (bindings n s) (bindings n s') /\
    forall m, m <> n -> bindings m s' = bindings m s.
Proof.
  intros s n idx i new l v u R Hn V Hv Hr F B1 B2 B3. pose proof (insert_elements_ok L HL idx i new l u F B1 B2 B3) as E.
  destruct (array_builtin_ok L mbs seed_ok n (AInsert idx new) s) as [[l0 [l' [s' [A [B [C D]]]]]]|[_ X]]; [discriminate|exact Hn| |].
  - assert (l0 = l) by (eapply changed_from; eauto). subst l0. cbn [array_new] in B. rewrite E in B. injection B as <-. eauto.
  - destruct (X v l V Hv) as [Y|Y]; [congruence|]. cbn [array_new] in Y. congruence.
Qed.
Theorem array_element : forall s n idx i z l v, reachable s -> name_ok n -> visible (bindings n s) v -> v_val v = Array l -> v_readonly v = false ->
  (exists sg ds, integer L idx sg ds i) ->
  (forall k, denotes (length l) i k -> exists s', array_builtin L mbs seed_ok n (AElement idx z) s = Ok (true, s') /\
     value_changed (Array l) (Array (upd l k z)) (bindings n s) (bindings n s') /\ forall m, m <> n -> bindings m s' = bindings m s) /\
  ((forall k, ~ denotes (length l) i k) -> array_builtin L mbs seed_ok n (AElement idx z) s = Ok (false, s)).
Proof.
  intros s n idx i z l v R Hn V Hv Hr F. destruct (set_element_ok L HL idx i z l F) as [E1 E2].
  destruct (array_builtin_ok L mbs seed_ok n (AElement idx z) s) as [[l0 [l' [s' [A [B [C D]]]]]]|[X0 X]]; [discriminate|exact Hn| |].
  - assert (l0 = l) by (eapply changed_from; eauto). subst l0. cbn [array_new] in B. split.
    + intros k Hk. rewrite (E1 k Hk) in B. injection B as <-. eauto.
    + intro Hk. rewrite (E2 Hk) in B. discriminate.
  - split; [|auto]. intros k Hk. destruct (X v l V Hv) as [Y|Y]; [congruence|]. cbn [array_new] in Y. rewrite (E1 k Hk) in Y. discriminate.
Qed.
(** Errors leave everything as it is: no such array, a read-only one, something that is not a number. *)
Theorem array_error : forall s n o, reachable s -> name_ok n -> (forall l, o <> ASet l) ->
  (forall v l, visible (bindings n s) v -> v_val v = Array l -> v_readonly v = true) \/ bad_number L o ->
  array_builtin L mbs seed_ok n o s = Ok (false, s).
Proof.
  intros s n o R Hn Hs H. destruct (array_builtin_ok L mbs seed_ok n o s Hs Hn) as [[l [l' [s' [A [B [C D]]]]]]|[X _]]; [exfalso|exact X].
  destruct H as [H|H].
  - assert (V : exists v, visible (bindings n s) v /\ v_val v = Array l /\ v_readonly v = false).
    { clear - C. revert C. generalize (bindings n s'). generalize (bindings n s). intros c c' C. induction C as [v w c|c c' C [v [V1 V2]]]; [exists v; split; [constructor|auto]|exists v; split; [constructor; exact V1|exact V2]]. }
    destruct V as [v [V1 [V2 V3]]]. rewrite (H v l V1 V2) in V3. discriminate.
  - destruct o as [l0|idx|idx new|idx z]; cbn [bad_number array_new] in *; [destruct H| | |].
    + rewrite remove_elements_none in B; [discriminate|exact HL|]. intros [is F]. clear - H F. induction F as [|q i idx is [sg [ds F]] Fs IH]; [inversion H|]. inversion H as [? ? H1|? ? H1]; subst; [exact (H1 sg ds i F)|exact (IH H1)].
    + rewrite (proj1 (not_int_none L HL idx new [] l (fun '(ex_intro _ i (ex_intro _ sg (ex_intro _ ds F))) => H sg ds i F))) in B. discriminate.
    + rewrite (proj2 (not_int_none L HL idx [] z l (fun '(ex_intro _ i (ex_intro _ sg (ex_intro _ ds F))) => H sg ds i F))) in B. discriminate.
Qed.
(** shift -A works like shift, on an array. *)
Theorem shift_array_exact : forall s n z v l, reachable s -> name_ok n -> visible (bindings n s) v -> v_val v = Array l ->
  ((Z.of_nat (length l) < Z.abs z)%Z -> shift_builtin (Some n) z s = Ok (false, s)) /\
  ((Z.abs z <= Z.of_nat (length l))%Z -> exists s' w, shift_builtin (Some n) z s = Ok (true, s') /\ visible (bindings n s') w /\
     v_val w = Array (if (0 <=? z)%Z then skipn (Z.to_nat z) l else firstn (length l - Z.to_nat (- z)) l) /\ forall m, m <> n -> bindings m s' = bindings m s).
Proof.
  intros s n z v l R Hn V Hv. destruct (shift_array mbs mbs_inj seed_ok n z s Hn) as [[v0 [l0 [s' [V0 [E0 [B [E [[w [W1 W2]] O]]]]]]]]|[E X]].
  - assert (v0 = v) by (apply visible_seek in V, V0; destruct V, V0; congruence). subst v0. assert (l0 = l) by congruence. subst l0. split; [lia|]. intros _. exists s', w. auto.
  - specialize (X v l V Hv). split; [auto|lia].
Qed.
End General.
Print Assumptions commands_defined.
Print Assumptions environment_agrees.
Print Assumptions environment_stays.
Print Assumptions readonly_kept.
Print Assumptions readonly_assignment.
Print Assumptions unset_exact.
Print Assumptions local_isolated.
Print Assumptions assignment_exact.
Print Assumptions target_exists.
Print Assumptions temporary_visible.
Print Assumptions temporary_restored.
Print Assumptions params_always.
Print Assumptions function_params.
Print Assumptions params_restored.
Print Assumptions set_params.
Print Assumptions shift_exact.
Print Assumptions param_number.
Print Assumptions param_special.
Print Assumptions listed_exact.
Print Assumptions search_path_exact.
Print Assumptions array_delete.
Print Assumptions array_insert.
Print Assumptions array_element.
Print Assumptions array_error.
Print Assumptions shift_array_exact.

(** ** Examples and refutations *)

Definition after (l : list op) : st := go l (start path0).
Lemma reach_after : forall l, Forall op_ok l -> (exists s', run_all c_locale ascii straight noseed l (start path0) = Ok s') -> reachable c_locale ascii straight noseed (after l).
Proof. intros l H E. exists (map fst path0), (start path0). split; [exact ex_started|]. apply during_go; [constructor|exact H|apply Forall_forall; auto|exact E]. Qed.
Ltac ran := eexists; vm_compute; reflexivity.
Notation crun := (run c_locale ascii straight noseed).

Example ex_defined : reachable c_locale ascii straight noseed (start path0).
Proof. exists (map fst path0), (start path0). split; [exact ex_started|constructor]. Qed.
(** a=(x y), a is exported *)
Definition arr : list op := [OAssign [(a, Array [x; y])] false].
Example ex_arr : reachable c_locale ascii straight noseed (after arr).
Proof. apply reach_after; [names|ran]. Qed.
Example ex_agrees : env_agrees ascii a (after arr) /\ osenv (after arr) a = Some (str "x:y").
Proof.
  split; [|reflexivity]. eapply (environment_agrees c_locale c_locale_ok ascii ascii_inj straight (fun l => Permutation_refl l)) with (inh := map fst path0) (s0 := start path0);
    [exact ex_started|intros [H|H]; discriminate|]. apply during_go; [constructor|names|names|ran].
Qed.

(** array -d a 1, with a=(x y) exported: commands still get x:y. *)
Theorem environment_array_refuted : exists s, reachable c_locale ascii straight noseed s /\ ~ env_agrees ascii a s.
Proof.
  exists (go [OAssign [(a, Array [x; y])] false; OArray a (ADelete [str "1"])] (start path0)). split.
  - exists (map fst path0), (start path0). split; [exact ex_started|]. apply during_go; [constructor|names|names|]. eexists. vm_compute. reflexivity.
  - intro H. destruct (proj1 (H a eq_refl ltac:(discriminate) (str "x:y"))) as [z [E Z]]; [vm_compute; reflexivity|]. injection Z as ->.
    pose proof (proj2 (exports_exported ascii _ (str "x:y")) (ex_intro _ _ (conj E eq_refl))) as X. vm_compute in X. discriminate.
Qed.

(** An inherited RANDOM is no longer exported once the shell has started (init_random), but commands
    still inherit its old value. *)
Definition random0 : list (list N * list N) := [(RANDOM, str "7")].
Theorem environment_random_refuted : exists s, reachable c_locale ascii straight noseed s /\ ~ env_agrees ascii RANDOM s.
Proof.
  exists (got (init_random ascii noseed (start random0))). split.
  - exists (map fst random0). eexists. split; [|constructor]. apply start_random with (s2 := start random0); [|apply got_ok; eexists; vm_compute; reflexivity]. apply started_here; [names|names|]. eexists. vm_compute. reflexivity.
  - intro H. destruct (proj1 (H RANDOM eq_refl ltac:(discriminate) (str "7"))) as [z [E Z]]; [vm_compute; reflexivity|]. injection Z as ->.
    pose proof (proj2 (exports_exported ascii _ (str "7")) (ex_intro _ _ (conj E eq_refl))) as X. vm_compute in X. discriminate.
Qed.
(** An inherited LINENO: until the first line number is set, its value is unset but the old one is in
    the process environment. *)
Definition lineno0 : list (list N * list N) := [(LINENO, str "7")].
Theorem environment_lineno_refuted : exists s, reachable c_locale ascii straight noseed s /\ ~ env_agrees ascii LINENO s.
Proof.
  exists (start lineno0). split.
  - exists (map fst lineno0), (start lineno0). split; [|constructor]. apply started_here; [names|names|]. eexists. vm_compute. reflexivity.
  - intro H. destruct (proj1 (H LINENO eq_refl ltac:(discriminate) (str "7"))) as [z [E Z]]; [vm_compute; reflexivity|]. injection Z as ->.
    pose proof (proj2 (exports_exported ascii _ (str "7")) (ex_intro _ _ (conj E eq_refl))) as X. vm_compute in X. discriminate.
Qed.


(** b is read-only with the value x. *)
Definition ro : list op := [OTypeset true true false false (str "b=x")].
Example ex_ro : reachable c_locale ascii straight noseed (after ro) /\ exists v, nth_error (rev (bindings b (after ro))) 0 = Some (Some v) /\ v_readonly v = true /\ v_val v = Scalar (Some x).
Proof. split; [apply reach_after; [names|ran]|]. eexists. split; [vm_compute; reflexivity|]. split; reflexivity. Qed.
Example ex_ro_assign : exists s', set_value ascii noseed b (Scalar (Some y)) GLOBAL false (after ro) = Ok (false, s') /\ target (temps (after ro)) (bindings b (after ro)) 0.
Proof. eexists. split; [vm_compute; reflexivity|]. apply target_here with (v := mkVar (Scalar (Some x)) false true true GNone). Qed.
Example ex_unset : fst (unset ascii noseed b (after ro)) = false /\ fst (unset ascii noseed a (after ro)) = true /\ bindings a (snd (unset ascii noseed a (after ro))) = [None].
Proof. vm_compute. auto. Qed.
(** shift -A removes elements of a read-only array. *)
Theorem readonly_shift_refuted : exists s s' v v', reachable c_locale ascii straight noseed s /\ crun (OShift (Some b) 1) s = Ok s' /\
  nth_error (rev (bindings b s)) 0 = Some (Some v) /\ v_readonly v = true /\ nth_error (rev (bindings b s')) 0 = Some (Some v') /\ v_val v' <> v_val v.
Proof.
  exists (after [OAssign [(b, Array [x; y])] false; OTypeset true true false false b]). do 3 eexists. split; [apply reach_after; [names|ran]|].
  split; [vm_compute; reflexivity|]. split; [vm_compute; reflexivity|]. split; [reflexivity|]. split; [vm_compute; reflexivity|]. discriminate.
Qed.
(** A function that declares a, changes it and calls a function that changes it *)
Definition fn : op := OCall [x] [OTypeset false false false false (str "a=y"); OAssign [(a, Array [])] false; OCall [] [OAssign [(a, Scalar (Some b))] false; OAssign [(b, Scalar (Some y))] false]].
Example ex_local : exists s', crun fn (start path0) = Ok s' /\ bindings a s' = bindings a (start path0) /\ bindings b s' <> bindings b (start path0) /\
  op_ok fn /\ fst (cut_eq [] (str "a=y")) = a.
Proof. eexists. split; [vm_compute; reflexivity|]. split; [vm_compute; reflexivity|]. split; [vm_compute; discriminate|]. split; [names|reflexivity]. Qed.
(** a=y; in a function with a temporary a and a local a *)
Example ex_target : let s := go [OTypeset false false false false (str "b=x")] (open_new_environment true (open_new_environment false (start path0))) in
  target (temps s) (bindings b s) 1 /\ target (temps s) (bindings a s) 2.
Proof.
  cbn zeta. split.
  - replace (temps _) with [true; false; false] by (vm_compute; reflexivity). replace (bindings b _) with [None; Some (mkVar (Scalar (Some x)) false false false GNone); None] by (vm_compute; reflexivity).
    apply target_skip; [auto|]. apply target_here.
  - replace (temps _) with [true; false; false] by (vm_compute; reflexivity). replace (bindings a _) with [None; None; Some (mkVar (Scalar (Some x)) true false false GNone)] by (vm_compute; reflexivity).
    apply target_skip; [auto|]. apply target_skip; [auto|]. apply target_here.
Qed.
(** a=y PATH=x command *)
Definition tmp : list (list N * value) := [(a, Scalar (Some y)); (str "PATH", Scalar (Some x))].
Example ex_temp : exists s' s'', do_assignments ascii noseed tmp TEMP true (open_new_environment true (start path0)) = Ok (true, s') /\ osenv s' a = Some y /\ assigns a tmp (Scalar (Some y)) /\
  crun (OTemp tmp [OAssign [(b, Scalar (Some y))] false]) (start path0) = Ok s'' /\ osenv s'' a = Some x /\ bindings a s'' = bindings a (start path0).
Proof.
  do 2 eexists. split; [vm_compute; reflexivity|]. split; [vm_compute; reflexivity|]. split; [constructor; cbn; intuition discriminate|].
  split; [vm_compute; reflexivity|]. split; vm_compute; reflexivity.
Qed.
(** set x y b; f y *)
Definition pp : list op := [OParams [x; y; b]].
Example ex_params : reachable c_locale ascii straight noseed (after pp) /\ has_params (after pp) [x; y; b] /\
  (exists s', crun (OCall [y] [OParams []; OShift None 0; OTemp [] [OParams [x; x]]]) (after pp) = Ok s' /\ has_params s' [x; y; b]) /\
  (exists s', shift_builtin None (-2) (after pp) = Ok (true, s') /\ has_params s' [x]) /\
  get_variable c_locale ascii (str "02") 0 (after pp) = Ok (Single y, after pp) /\ digits_value 0 (str "02") = 2%Z.
Proof.
  assert (V : forall s v l, seek (bindings positional s) = Some (0%nat, v) -> v_val v = Array l -> has_params s l) by (intros s v l H1 H2; exists v; split; [apply visible_seek; eauto|exact H2]).
  split; [apply reach_after; [names|ran]|]. split; [eapply V; vm_compute; reflexivity|]. split; [eexists; split; [vm_compute; reflexivity|eapply V; vm_compute; reflexivity]|].
  split; [eexists; split; [vm_compute; reflexivity|eapply V; vm_compute; reflexivity]|]. split; [|reflexivity].
  rewrite (param_number c_locale c_locale_ok ascii ascii_inj straight (fun l => Permutation_refl l) noseed (after pp) [x; y; b]); [reflexivity|eapply V; vm_compute; reflexivity|discriminate|repeat constructor|discriminate|reflexivity].
Qed.
(** PATH=/bin:/x:/bin *)
Example ex_path : get_path_array PA_PATH (envs (after [OAssign [(str "PATH", Scalar (Some (str "/bin:/x:/bin")))] false])) = Some [str "/bin"; str "/x"] /\
  get_path_array PA_PATH (envs (start path0)) = Some [str "/bin"; str "/usr/bin"].
Proof. vm_compute. auto. Qed.
(** PATH=(/bin /x); array -d PATH 1: commands are still looked for in /bin. *)
Theorem search_path_refuted : exists s, reachable c_locale ascii straight noseed s /\ ~ search_path ascii (bindings (path_name PA_PATH) s) (get_path_array PA_PATH (envs s)).
Proof.
  exists (after [OAssign [(str "PATH", Array [str "/bin"; str "/x"])] false; OArray (str "PATH") (ADelete [str "1"])]). split; [apply reach_after; [names|ran]|].
  replace (bindings _ _) with [Some (mkVar (Array [str "/x"]) true false false GNone)] by (vm_compute; reflexivity).
  replace (get_path_array _ _) with (Some [str "/bin"; str "/x"]) by (vm_compute; reflexivity).
  intro H. inversion H as [|? ? ? D|? ? ? Ho]; subst; [|specialize (Ho _ eq_refl); discriminate]. inversion D.
Qed.
(** a=(x y): array -d a -2 9; array -i a -1 b; array -s a 2 b *)
Example ex_array : reachable c_locale ascii straight noseed (after arr) /\
  (exists s', array_builtin c_locale ascii noseed a (ADelete [str "-2"; str "9"]) (after arr) = Ok (true, s') /\ get_variable c_locale ascii a 0 s' = Ok (Many [y], s')) /\
  (exists s', array_builtin c_locale ascii noseed a (AInsert (str "-1") [b]) (after arr) = Ok (true, s') /\ get_variable c_locale ascii a 0 s' = Ok (Many [x; y; b], s')) /\
  (exists s', array_builtin c_locale ascii noseed a (AElement (str "2") b) (after arr) = Ok (true, s') /\ get_variable c_locale ascii a 0 s' = Ok (Many [x; b], s')) /\
  (exists s', shift_builtin (Some a) 1 (after arr) = Ok (true, s') /\ get_variable c_locale ascii a 0 s' = Ok (Many [y], s')) /\
  (exists v, visible (bindings a (after arr)) v /\ v_val v = Array [x; y] /\ v_readonly v = false) /\
  (exists sg ds, integer c_locale (str "-2") sg ds (-2)).
Proof.
  split; [exact ex_arr|]. split; [eexists; split; vm_compute; reflexivity|]. split; [eexists; split; vm_compute; reflexivity|]. split; [eexists; split; vm_compute; reflexivity|].
  split; [eexists; split; vm_compute; reflexivity|]. split; [eexists; split; [apply visible_seek; exists 0%nat; vm_compute; reflexivity|split; reflexivity]|].
  apply (xwcstol_int c_locale c_locale_ok). reflexivity.
Qed.
(** Listing without -g: outside functions all variables are listed, but not if typeset itself has a
    temporary assignment. *)
Theorem listing_temporary_refuted : exists s s', reachable c_locale ascii straight noseed s /\
  do_assignments ascii noseed [(b, Scalar (Some x))] TEMP true (open_new_environment true s) = Ok (true, s') /\
  lookup a (make_array_of_all_variables false s) <> None /\ lookup a (make_array_of_all_variables false s') = None.
Proof. exists (start path0). eexists. split; [exact ex_defined|]. split; [vm_compute; reflexivity|]. split; [vm_compute; discriminate|vm_compute; reflexivity]. Qed.
Example ex_listed : lookup a (make_array_of_all_variables true (after arr)) = Some (mkVar (Array [x; y]) true false false GNone).
Proof. vm_compute. reflexivity. Qed.
