(** C60: getopts *)
From Coq Require Import Ascii String.
From Coq Require Import List NArith ZArith Bool Arith Lia Permutation.
From Verif Require Import Common Locale NumModel NumProofs BraceSpec BraceNum VarModel VarSpec VarProofs VarSet VarKeep VarRun VarMore VarUse VarProps GetoptsModel GetoptsSpec GetoptsProofs.
Import ListNotations.
Open Scope res_scope.

Section General.
Variable L : locale.
Hypothesis HL : locale_ok L.
Variable mbs : list N -> option (list N).
Hypothesis mbs_inj : forall a b m, mbs a = Some m -> mbs b = Some m -> a = b.
Variable order : list (list N * var) -> list (list N * var).
Hypothesis order_perm : forall l, Permutation (order l) l.
Variable seed_ok : list N -> bool.
Variable posix : bool.
Notation reachable := (reachable L mbs order seed_ok).
Notation getopts := (getopts L mbs seed_ok posix).
Notation calls := (calls L mbs order seed_ok posix).
Let wf_of := reachable_wf L HL mbs mbs_inj order order_perm seed_ok.

(** ** Numbers *)
Lemma wcstol_dec : forall n rest, nodigit rest -> wcstol L 10 (dec_of_N n ++ rest) = (Some (Z.of_N n), rest).
Proof.
  intros n rest Hr. destruct (dec_of_N_ok n) as [c [w [E [_ Hn]]]]. rewrite E. destruct (numeral_value _ _ Hn) as [D [V _]].
  inversion D as [|? ? Dc Dw]; subst. rewrite wcstol_unfold. cbn [app skip_space]. rewrite (digit_nospace L HL c Dc).
  rewrite take_sign_other by (unfold is_digit in Dc; lia).
  rewrite (scan_digits_fwd (c :: w) 0 false rest D Hr : scan_digits 10 0 false (c :: w ++ rest) = _), V. reflexivity.
Qed.
Lemma wcstoul_dec : forall n rest, nodigit rest -> (Z.of_N n < ULONG_MOD)%Z -> wcstoul L (dec_of_N n ++ rest) = (Some (Z.of_N n), rest).
Proof.
  intros n rest Hr Hn. unfold wcstoul. rewrite wcstol_dec by exact Hr. rewrite Z.abs_eq by lia. destruct (Z.ltb_spec (Z.of_N n) ULONG_MOD) as [_|B]; [|lia].
  rewrite Z.mod_small by lia. reflexivity.
Qed.
Lemma dec_cons : forall n, exists c w, dec_of_N n = c :: w.
Proof. intro n. destruct (dec_of_N_ok n) as [c [w [E _]]]. eauto. Qed.
Lemma parse_string : forall i sub, (0 <= i)%Z -> (i + 1 < ULONG_MOD)%Z -> (1 <= sub < ULONG_MOD)%Z ->
  parse_optind L (Some (optind_string i sub)) = Some (i, sub).
Proof.
  intros i sub Hi Hb Hs. unfold optind_string. rewrite (Z.mod_small (i + 1)) by lia. set (t := if (1 <? sub)%Z then _ else _).
  assert (Ht : nodigit t) by (unfold t; destruct (1 <? sub)%Z; [reflexivity|exact I]).
  pose proof (wcstoul_dec (Z.to_N (i + 1)) t Ht ltac:(lia)) as W. unfold parse_optind.
  destruct (dec_cons (Z.to_N (i + 1))) as [c [w E]]. rewrite E in *. change ((c :: w) ++ t) with (c :: w ++ t) in *. rewrite W.
  rewrite Z2N.id by lia. replace (i + 1 - 1)%Z with i by lia. rewrite Z.mod_small by lia. unfold t. destruct (Z.ltb_spec 1 sub) as [B|B].
  - rewrite N.eqb_refl. pose proof (wcstoul_dec (Z.to_N sub) [] I ltac:(lia)) as W2. rewrite app_nil_r in W2. unfold xwcstoul.
    destruct (dec_cons (Z.to_N sub)) as [d [w2 E2]]. rewrite E2 in *. rewrite W2, Z2N.id by lia. destruct (Z.eqb_spec sub 0); [lia|reflexivity].
  - replace sub with 1%Z by lia. reflexivity.
Qed.

(** ** Variables *)
Lemma reachable_run : forall o s s', reachable s -> op_ok o -> run L mbs order seed_ok o s = Ok s' -> reachable s'.
Proof. intros o s s' [inh [s0 [S D]]] H E. exists inh, s0. split; [exact S|]. eapply during_run; eauto. Qed.
Lemma getter_none : forall n s v, reachable s -> n <> LINENO -> n <> RANDOM -> visible (bindings n s) v -> v_getter v = GNone.
Proof.
  intros n s v R N1 N2 V. apply visible_nth in V. destruct V as [i [Hi _]].
  assert (Ht : exists t, nth_error (temps s) i = Some t).
  { destruct (nth_error (temps s) i) eqn:E; [eauto|]. apply nth_error_None in E. rewrite (cols_len n) in E. assert (i < length (bindings n s))%nat by (apply nth_error_Some; congruence). lia. }
  destruct Ht as [t Ht]. pose proof (w_col _ (proj1 (wf_of s R)) n i t v Ht Hi) as O. destruct (v_getter v) eqn:G; auto.
  - destruct N1. apply (o_line _ _ _ O G).
  - destruct N2. apply (o_rand _ _ _ O G).
Qed.
Definition others (n : list N) (s s' : st) : Prop := forall m, m <> n -> bindings m s' = bindings m s.
Lemma set_step : forall n x s, reachable s -> name_ok n -> n <> RANDOM -> writable n s -> exists s',
  set_variable mbs seed_ok n x GLOBAL false s = Ok (true, s') /\ reachable s' /\ holds n s' x /\ writable n s' /\ (single n s -> single n s') /\ others n s s'.
Proof.
  intros n x s R Hn Nr W. pose proof (wf_of s R) as Wf. pose proof (name_ok_pos n Hn) as Np.
  destruct (set_value_ok mbs mbs_inj seed_ok n (Scalar (Some x)) GLOBAL false s (proj1 Wf)) as [k [v [s1 [F [[P1 P2] E]]]]]; [discriminate|].
  pose proof (f_touch _ _ _ _ _ _ F) as T1.
  assert (Hv : v_readonly v = false /\ v_nodelete v = false).
  { destruct (f_old _ _ _ _ _ _ F) as [O|[_ ->]]; [exact (W k v O)|auto]. }
  destruct Hv as [Hr Hd]. rewrite Hr in E. cbn zeta in E. set (e := (v_export v || exporting n false s)%bool) in *. rewrite Hd in E.
  set (w0 := mkVar (Scalar (Some x)) e false false GNone) in *. pose proof (found_len _ _ _ _ _ _ F) as B.
  destruct (store_col mbs seed_ok n k w0 e s1 B) as [g [C G]]. set (s2 := store_var mbs seed_ok n k w0 e s1) in *.
  assert (Ck : nth_error (bindings n s2) k = Some (Some (with_getter g w0))) by (rewrite C; apply upd_nth_same; rewrite col_len; exact B).
  assert (Cb : forall j, (j < k)%nat -> nth_error (bindings n s2) j = Some None) by (intros j Hj; rewrite C, upd_nth_other by lia; apply F, Hj).
  assert (Ca : forall j, (k < j)%nat -> nth_error (bindings n s2) j = nth_error (bindings n s) j) by (intros j Hj; rewrite C, upd_nth_other by lia; apply F, Hj).
  exists s2. split; [exact E|]. split; [|split; [|split; [|split]]].
  - eapply (reachable_run (OSet n (Scalar (Some x)) false)); [exact R|exact Hn|]. cbn [run]. rewrite E. reflexivity.
  - exists (with_getter g w0). split; [apply visible_nth; eauto|reflexivity].
  - intros i u Hu. destruct (Nat.lt_trichotomy i k) as [H|[-> |H]]; [rewrite Cb in Hu by exact H; discriminate| |rewrite Ca in Hu by exact H; eapply W; eauto].
    rewrite Ck in Hu. injection Hu as <-. auto.
  - intros S. assert (X : forall i u, nth_error (bindings n s2) i = Some (Some u) -> i = k).
    { intros i u Hu. destruct (Nat.lt_trichotomy i k) as [H|[-> |H]]; [rewrite Cb in Hu by exact H; discriminate|reflexivity|]. exfalso.
      rewrite Ca in Hu by exact H. destruct (f_old _ _ _ _ _ _ F) as [O|[O _]]; [assert (i = k) by (eapply S; eauto); lia|].
      specialize (P2 O). assert (i < length (bindings n s))%nat by (apply nth_error_Some; congruence). rewrite col_len in *. lia. }
    intros i j u w Hu Hw. rewrite (X i u Hu), (X j w Hw). reflexivity.
  - intros m Hm. unfold s2. rewrite (t_col _ _ _ _ (store_touches mbs seed_ok n k w0 e s1) m Hm). apply T1, Hm.
Qed.
Lemma unset_step : forall n s, reachable s -> name_ok n -> writable n s -> exists s',
  unset_variable mbs seed_ok n s = (true, s') /\ reachable s' /\ (single n s -> no_variable n s') /\ writable n s' /\ (single n s -> single n s') /\ others n s s'.
Proof.
  intros n s R Hn W.
  assert (E : has_eq n = false).
  { unfold has_eq. apply not_true_is_false. intro E. apply existsb_exists in E. destruct E as [c [I C]]. apply N.eqb_eq in C. subst c. exact (Hn I). }
  destruct (unset_ok mbs mbs_inj seed_ok n s Hn) as [[[v [Hv Hd]] _]|[_ [s' [U [Ho C]]]]].
  { exfalso. apply visible_nth in Hv. destruct Hv as [i [Hi _]]. destruct (W i v Hi). congruence. }
  exists s'. pose proof U as U'. unfold unset in U'. rewrite E in U'. split; [exact U'|]. split.
  { eapply (reachable_run (OUnset n)); [exact R|exact I|]. cbn [run]. rewrite U. reflexivity. }
  destruct C as [[Nv ->]|[k [v [A [B C]]]]]; [auto 6|].
  assert (X : forall i u, nth_error (bindings n s') i = Some (Some u) -> nth_error (bindings n s) i = Some (Some u) /\ i <> k).
  { intros i u Hu. rewrite C in Hu. destruct (Nat.eq_dec k i) as [->|D].
    - rewrite upd_nth_same in Hu by (apply nth_error_Some; congruence). discriminate.
    - rewrite upd_nth_other in Hu by exact D. auto. }
  split; [|split; [|split; [|exact Ho]]].
  - intros S u Hu. apply visible_nth in Hu. destruct Hu as [i [Hi _]]. destruct (X i u Hi) as [Hi' D]. apply D. eapply S; eauto.
  - intros i u Hu. destruct (X i u Hu). eapply W; eauto.
  - intros S i j u w Hu Hw. destruct (X i u Hu), (X j w Hw). eapply S; eauto.
Qed.

(** ** Calls *)
Variables options name : list N.
Variable operands : list (list N).
Hypothesis name_good : name_ok name.
Hypothesis name_optind : name <> OPTIND.
Hypothesis name_optarg : name <> OPTARG.
Hypothesis name_random : name <> RANDOM.

Lemma name_ok_dec : forall n, forallb (fun c => negb (c =? ch "=")%N) n = true -> name_ok n.
Proof. intros n H I. rewrite forallb_forall in H. specialize (H _ I). rewrite N.eqb_refl in H. discriminate. Qed.
Lemma optind_ok : name_ok OPTIND. Proof. apply name_ok_dec. reflexivity. Qed.
Lemma optarg_ok : name_ok OPTARG. Proof. apply name_ok_dec. reflexivity. Qed.

Lemma others_holds : forall n m s s' x, others n s s' -> m <> n -> holds m s x -> holds m s' x.
Proof. intros n m s s' x O D [v [V E]]. exists v. rewrite (O m D). auto. Qed.
Lemma others_no : forall n m s s', others n s s' -> m <> n -> no_variable m s -> no_variable m s'.
Proof. intros n m s s' O D H v. rewrite (O m D). apply H. Qed.
Lemma others_writable : forall n m s s', others n s s' -> m <> n -> writable m s -> writable m s'.
Proof. intros n m s s' O D H i v. rewrite (O m D). apply H. Qed.
Lemma others_single : forall n m s s', others n s s' -> m <> n -> single m s -> single m s'.
Proof. intros n m s s' O D H i j v w. rewrite (O m D). apply H. Qed.
Lemma others_params : forall n s s' l, others n s s' -> n <> positional -> has_params s l -> has_params s' l.
Proof. intros n s s' l O D [v [V E]]. exists v. rewrite (O positional) by congruence. auto. Qed.

(** What a step to the variables preserves *)
Record step (s s' : st) : Prop := mkStep {
  st_reach : reachable s';
  st_usable : usable name s';
  st_params : forall l, has_params s l -> has_params s' l }.
Lemma step_trans : forall s1 s2 s3, step s1 s2 -> step s2 s3 -> step s1 s3.
Proof. intros s1 s2 s3 [A B C] [A' B' C']. constructor; auto. Qed.
Lemma do_set : forall n x s, n = OPTIND \/ n = OPTARG \/ n = name -> reachable s -> usable name s -> exists s',
  set_variable mbs seed_ok n x GLOBAL false s = Ok (true, s') /\ step s s' /\ holds n s' x /\ others n s s'.
Proof.
  intros n x s Hn R [U1 [U2 [U3 U4]]].
  assert (Hok : name_ok n /\ n <> RANDOM /\ writable n s).
  { destruct Hn as [->|[->| ->]]; (split; [first [exact optind_ok|exact optarg_ok|exact name_good]|]); split; auto; intro X; discriminate X. }
  destruct Hok as [N1 [N2 N3]]. destruct (set_step n x s R N1 N2 N3) as [s' [E [R' [H [W [S O]]]]]]. exists s'. split; [exact E|].
  split; [|auto]. constructor; [exact R'| |intros l; apply (others_params n); auto; apply name_ok_pos, N1].
  assert (Wm : forall m, writable m s -> writable m s') by (intros m Hm; destruct (list_eq_dec N.eq_dec m n) as [->|D]; [exact W|eapply others_writable; eauto]).
  split; [auto|]. split; [auto|]. split; [auto|]. destruct (list_eq_dec N.eq_dec OPTARG n) as [<-|D]; [auto|eapply others_single; eauto].
Qed.
Lemma do_unset : forall s, reachable s -> usable name s -> exists s',
  unset_optarg mbs seed_ok s = Ok (true, s') /\ step s s' /\ no_variable OPTARG s' /\ others OPTARG s s'.
Proof.
  intros s R [U1 [U2 [U3 U4]]]. destruct (unset_step OPTARG s R optarg_ok U2) as [s' [E [R' [H [W [S O]]]]]]. exists s'.
  unfold unset_optarg. rewrite E. split; [reflexivity|]. split; [|auto].
  constructor; [exact R'| |intros l; apply (others_params OPTARG); auto; apply name_ok_pos, optarg_ok].
  assert (Wm : forall m, writable m s -> writable m s') by (intros m Hm; destruct (list_eq_dec N.eq_dec m OPTARG) as [->|D]; [exact W|eapply others_writable; eauto]).
  split; [auto|]. split; [auto|]. split; [auto|]. auto.
Qed.

Lemma optind_optarg : OPTIND <> OPTARG. Proof. discriminate. Qed.
(** The end of the built-in *)
Definition act (a : answer) (optind sub : Z) (s : st) : res (bool * st) :=
  let silent := match options with c :: _ => (c =? ch ":")%N | [] => false end in
  let finish := set_optind mbs seed_ok optind sub in
  match a with
  | AEnd =>
    let! (_, s) := set_optind mbs seed_ok optind 0 s in
    let! (_, s) := set_variable_single_char mbs seed_ok name (ch "?") s in
    let! (_, s) := unset_optarg mbs seed_ok s in
    Ok (false, s)
  | ABad c =>
    try (set_variable_single_char mbs seed_ok name (ch "?"))
      (try (if silent then set_variable_single_char mbs seed_ok OPTARG c else unset_optarg mbs seed_ok) finish) s
  | AOpt c None => try (unset_optarg mbs seed_ok) (try (set_variable_single_char mbs seed_ok name c) finish) s
  | AOpt c (Some arg) => try (set_optarg mbs seed_ok arg) (try (set_variable_single_char mbs seed_ok name c) finish) s
  | AMissing c =>
    if silent then try (set_variable_single_char mbs seed_ok name (ch ":")) (try (set_variable_single_char mbs seed_ok OPTARG c) finish) s
    else try (set_variable_single_char mbs seed_ok name (ch "?")) (try (unset_optarg mbs seed_ok) finish) s
  end.
Ltac set_one n x s R U s' :=
  let E := fresh in let St := fresh "St" in let H := fresh "H" in let O := fresh "O" in
  destruct (do_set n x s ltac:(auto) R U) as [s' [E [St [H O]]]]; unfold try, set_optind, set_variable_single_char, set_optarg; rewrite E; cbn [rbind]; clear E.
Ltac unset_one s R U s' :=
  let E := fresh in let St := fresh "St" in let H := fresh "H" in let O := fresh "O" in
  destruct (do_unset s R U) as [s' [E [St [H O]]]]; unfold try, set_optind, set_variable_single_char, set_optarg; rewrite E; cbn [rbind]; clear E.
Ltac pass := repeat first
  [ assumption | match goal with O : others ?n ?s ?s' |- holds ?m ?s' ?x => apply (others_holds n m s s' x O); [congruence|] end
  | match goal with O : others ?n ?s ?s' |- no_variable ?m ?s' => apply (others_no n m s s' O); [congruence|] end ].
Lemma silent_iff : match options with c :: _ => (c =? ch ":")%N | [] => false end = true <-> silent options.
Proof.
  unfold silent. destruct options as [|c r]; [split; [discriminate|]; intros [r H]; discriminate|].
  split; intro H; [apply N.eqb_eq in H; subst; eauto|]. destruct H as [r' H]. injection H as -> _. apply N.eqb_refl.
Qed.
Lemma act_event : forall e optind sub s, reachable s -> usable name s -> exists s',
  act (answer_of e) optind sub s = Ok (true, s') /\ step s s' /\ tells options name s' e /\ holds OPTIND s' (optind_string optind sub).
Proof.
  intros e optind sub s R U. pose proof optind_optarg as Ni. pose proof silent_iff as Si. unfold act. set (sil := match options with c :: _ => _ | [] => _ end) in *. clearbody sil.
  assert (Sd : sil = true /\ silent options \/ sil = false /\ ~ silent options) by (destruct sil; [left|right]; split; auto; [apply Si; reflexivity|intro X; apply Si in X; discriminate]).
  clear Si. destruct e as [c|c [a|]|c]; cbn [answer_of].
  - set_one name [ch "?"] s R U s1. destruct Sd as [[-> Sd]|[-> Sd]].
    + set_one OPTARG [c] s1 (st_reach _ _ St) (st_usable _ _ St) s2. set_one OPTIND (optind_string optind sub) s2 (st_reach _ _ St0) (st_usable _ _ St0) s3.
      exists s3. split; [reflexivity|]. split; [eauto using step_trans|]. split; [|assumption]. constructor; [pass|intros _; pass|intro; contradiction].
    + unset_one s1 (st_reach _ _ St) (st_usable _ _ St) s2. set_one OPTIND (optind_string optind sub) s2 (st_reach _ _ St0) (st_usable _ _ St0) s3.
      exists s3. split; [reflexivity|]. split; [eauto using step_trans|]. split; [|assumption]. constructor; [pass|intro; contradiction|intros _; pass].
  - set_one OPTARG a s R U s1. set_one name [c] s1 (st_reach _ _ St) (st_usable _ _ St) s2. set_one OPTIND (optind_string optind sub) s2 (st_reach _ _ St0) (st_usable _ _ St0) s3.
    exists s3. split; [reflexivity|]. split; [eauto using step_trans|]. split; [|assumption]. constructor; pass.
  - unset_one s R U s1. set_one name [c] s1 (st_reach _ _ St) (st_usable _ _ St) s2. set_one OPTIND (optind_string optind sub) s2 (st_reach _ _ St0) (st_usable _ _ St0) s3.
    exists s3. split; [reflexivity|]. split; [eauto using step_trans|]. split; [|assumption]. constructor; pass.
  - destruct Sd as [[-> Sd]|[-> Sd]].
    + set_one name [ch ":"] s R U s1. set_one OPTARG [c] s1 (st_reach _ _ St) (st_usable _ _ St) s2. set_one OPTIND (optind_string optind sub) s2 (st_reach _ _ St0) (st_usable _ _ St0) s3.
      exists s3. split; [reflexivity|]. split; [eauto using step_trans|]. split; [|assumption]. constructor; [intros _; split; pass|intro; contradiction].
    + set_one name [ch "?"] s R U s1. unset_one s1 (st_reach _ _ St) (st_usable _ _ St) s2. set_one OPTIND (optind_string optind sub) s2 (st_reach _ _ St0) (st_usable _ _ St0) s3.
      exists s3. split; [reflexivity|]. split; [eauto using step_trans|]. split; [|assumption]. constructor; [intro; contradiction|intros _; split; pass].
Qed.
Lemma act_end : forall optind sub s, reachable s -> usable name s -> exists s',
  act AEnd optind sub s = Ok (false, s') /\ step s s' /\ holds name s' (str "?") /\ no_variable OPTARG s' /\ holds OPTIND s' (optind_string optind 0).
Proof.
  intros optind sub s R U. pose proof optind_optarg as Ni. unfold act. set_one OPTIND (optind_string optind 0) s R U s1.
  set_one name [ch "?"] s1 (st_reach _ _ St) (st_usable _ _ St) s2. unset_one s2 (st_reach _ _ St0) (st_usable _ _ St0) s3.
  exists s3. split; [reflexivity|]. split; [eauto using step_trans|]. split; [pass|]. split; pass.
Qed.

Lemma getvar_optind : forall s x, reachable s -> holds OPTIND s x -> getvar mbs OPTIND 0 s = Ok (Some x, s).
Proof.
  intros s x R [v [V E]]. assert (G : v_getter v = GNone) by (apply (getter_none OPTIND s v R); [discriminate|discriminate|exact V]).
  unfold getvar. rewrite search_seek. apply visible_seek in V. destruct V as [i V]. rewrite V, E. unfold run_getter. rewrite G. cbn [rbind]. rewrite E. reflexivity.
Qed.
Lemma args_ok : forall s args, reachable s -> reads_from operands s args ->
  match operands with [] => positional_values s | _ => Ok operands end = Ok args.
Proof.
  intros s args R [[H ->]|[-> [v [V E]]]]; [destruct operands; [congruence|reflexivity]|].
  unfold positional_values. rewrite search_seek. apply visible_seek in V. destruct V as [i V]. rewrite V, E. reflexivity.
Qed.
Lemma reads_from_step : forall s s' args, (forall l, has_params s l -> has_params s' l) -> reads_from operands s args -> reads_from operands s' args.
Proof. intros s s' args H [A|[A B]]; [left; exact A|right; auto]. Qed.
Lemma pos_sub : forall args i sub es K, fits args i -> pos options args i sub es K -> (1 <= Z.of_nat sub < ULONG_MOD)%Z.
Proof.
  intros args i sub es K [F0 [F1 F2]] P. destruct P as [i es k R|i p r l es n es' k E Np D C R].
  - split; [lia|]. reflexivity.
  - assert (Fa : (Z.of_nat (length (ch "-" :: p ++ r)) + 1 < ULONG_MOD)%Z).
    { rewrite Forall_forall in F2. apply F2. rewrite <- (firstn_skipn i args), E. apply in_or_app. right. left. reflexivity. }
    cbn [length] in Fa. rewrite app_length in Fa. lia.
Qed.
Hypothesis options_ok : valid_options L posix options.
Lemma call_ok : forall s args i sub es K, reachable s -> usable name s -> reads_from operands s args -> holds OPTIND s (optind_string (Z.of_nat i) (Z.of_nat sub)) ->
  fits args i -> pos options args i sub es K ->
  (es = [] /\ exists sub' s', getopts options name operands s = act AEnd (Z.of_nat K) sub' s /\ act AEnd (Z.of_nat K) sub' s = Ok (false, s')) \/
  exists e rest i' sub', es = e :: rest /\ getopts options name operands s = act (answer_of e) (Z.of_nat i') (Z.of_nat sub') s /\
    pos options args i' sub' rest K /\ fits args i'.
Proof.
  intros s args i sub es K R U A H F P. unfold getopts.
  assert (E : has_eq name = false).
  { unfold has_eq. apply not_true_is_false. intro E. apply existsb_exists in E. destruct E as [c [I C]]. apply N.eqb_eq in C. subst c. exact (name_good I). }
  rewrite E. rewrite (proj2 (check_options_iff L HL posix options) options_ok). cbn [negb].
  rewrite (getvar_optind s _ R H). cbn [rbind]. pose proof (pos_sub _ _ _ _ _ F P) as Bs. destruct F as [F0 [F1 F2]].
  rewrite parse_string by lia. rewrite (args_ok s args R A). cbn [rbind]. rewrite Nat2Z.id.
  assert (X : forall (T : Type) (f : answer * Z * Z -> res T),
    rbind (if (Z.of_nat (length args) <=? Z.of_nat i)%Z then Ok (AEnd, Z.of_nat i, 0%Z) else parse_arg options (skipn i args) (Z.of_nat i) (Z.of_nat sub)) f =
    rbind (parse_arg options (skipn i args) (Z.of_nat i) (Z.of_nat sub)) f).
  { intros T f. destruct (Z.leb_spec (Z.of_nat (length args)) (Z.of_nat i)) as [B|B]; [|reflexivity]. rewrite skipn_all2 by lia. reflexivity. }
  rewrite X. clear X. destruct (pos_next options args i sub es K (conj F0 (conj F1 F2)) P) as [[-> [sub' Q]]|[e [rest [i' [sub' [-> [Q [P' F']]]]]]]]; rewrite Q; cbn [rbind].
  - left. split; [reflexivity|]. destruct (act_end (Z.of_nat K) sub' s R U) as [s' [T _]]. exists sub', s'. split; [reflexivity|exact T].
  - right. exists e, rest, i', sub'. split; [reflexivity|]. split; [reflexivity|]. auto.
Qed.

(** Reads the events in order, then reports the end.  The index in the end is that of the first
    operand, except after a missing argument. *)
Theorem getopts_exact : forall s0 n s args evs k, reachable s0 -> usable name s0 -> holds OPTIND s0 (str "1") -> reads_from operands s0 args ->
  (Z.of_nat (length args) + 5 < ULONG_MOD)%Z -> Forall (fun a => (Z.of_nat (length a) + 1 < ULONG_MOD)%Z) args ->
  reads options args evs k -> calls options name operands s0 n s ->
  match nth_error evs n with
  | Some e => exists s', getopts options name operands s = Ok (true, s') /\ tells options name s' e /\ between L mbs order seed_ok name s' s'
  | None => n = length evs /\ exists s', getopts options name operands s = Ok (false, s') /\ holds name s' (str "?") /\ no_variable OPTARG s' /\
      ((forall c, ~ In (Missing c) evs) -> holds OPTIND s' (dec_of_N (N.of_nat (k + 1)))) /\
      (forall c, In (Missing c) evs -> holds OPTIND s' (dec_of_N (N.of_nat (k + 2))))
  end.
Proof.
  intros s0 n s args evs k R0 U0 H0 A0 B1 B2 Rd C.
  assert (Inv : reachable s /\ usable name s /\ reads_from operands s args /\ (n <= length evs)%nat /\
    exists i sub, holds OPTIND s (optind_string (Z.of_nat i) (Z.of_nat sub)) /\ fits args i /\ pos options args i sub (skipn n evs) (final evs k)).
  { induction C as [|n s s1 s2 C IH G Bt].
    - split; [exact R0|]. split; [exact U0|]. split; [exact A0|]. split; [lia|]. exists 0%nat, 1%nat. split; [exact H0|]. split; [split; [lia|auto]|].
      apply (pos_start options args 0 evs k Rd).
    - destruct IH as [R [U [A [Bn [i [sub [H [F P]]]]]]]]. destruct Bt as [R2 [U2 [Hi Hp]]].
      destruct (call_ok s args i sub _ _ R U A H F P) as [[_ [sub' [s' [E1 E2]]]]|[e [rest [i' [sub' [E [E1 [P' F']]]]]]]]; [congruence|].
      destruct (act_event e (Z.of_nat i') (Z.of_nat sub') s R U) as [s' [E2 [St [Tl Ho]]]].
      assert (s' = s1) by congruence. subst s'. split; [exact R2|]. split; [exact U2|].
      split; [eapply reads_from_step; [|exact A]; intros l Hl; apply Hp, (st_params _ _ St), Hl|].
      assert (Bl : (n < length evs)%nat). { apply Nat.nle_gt. intro X. rewrite skipn_all2 in E by exact X. discriminate. }
      split; [lia|]. exists i', sub'. split; [apply Hi, Ho|]. split; [exact F'|]. rewrite (skipn_cons_next n evs e rest E). exact P'. }
  destruct Inv as [R [U [A [Bn [i [sub [H [F P]]]]]]]].
  destruct (call_ok s args i sub _ _ R U A H F P) as [[E [sub' [s' [E1 E2]]]]|[e [rest [i' [sub' [E [E1 [P' F']]]]]]]].
  - assert (Hn : nth_error evs n = None).
    { apply nth_error_None. pose proof (skipn_length n evs) as X. rewrite E in X. cbn in X. lia. }
    rewrite Hn. apply nth_error_None in Hn. split; [lia|]. destruct (act_end (Z.of_nat (final evs k)) sub' s R U) as [s2 [E3 [_ [T1 [T2 T3]]]]].
    assert (s2 = s') by congruence. subst s2. exists s'. split; [congruence|]. split; [exact T1|]. split; [exact T2|].
    assert (Bk : (k <= length args)%nat).
    { clear -Rd. induction Rd as [| | |r l es n es' k H1 H2 C Rd IH]; cbn [length]; try lia. rewrite skipn_length in IH. pose proof (cluster_used _ _ _ _ _ C). lia. }
    assert (Os : forall m, (m <= S k)%nat -> optind_string (Z.of_nat m) 0 = dec_of_N (N.of_nat (m + 1))).
    { intros m Hm. unfold optind_string. cbn [Z.ltb Z.compare]. rewrite app_nil_r. f_equal. rewrite Z.mod_small; lia. }
    unfold final in T3. split.
    + intro Nm. replace (existsb is_missing evs) with false in T3; [rewrite Os in T3 by lia; exact T3|]. symmetry. apply not_true_is_false. intro X.
      apply existsb_exists in X. destruct X as [[c|c a|c] [X Y]]; try discriminate. exact (Nm c X).
    + intros c Hc. replace (existsb is_missing evs) with true in T3.
      * rewrite Os in T3 by lia. replace (k + 2) with (S k + 1) by lia. exact T3.
      * symmetry. apply existsb_exists. exists (Missing c). auto.
  - destruct (act_event e (Z.of_nat i') (Z.of_nat sub') s R U) as [s' [E2 [St [Tl _]]]].
    assert (Hn : nth_error evs n = Some e). { assert (Bl : (n < length evs)%nat) by (apply Nat.nle_gt; intro X; rewrite skipn_all2 in E by exact X; discriminate).
      rewrite <- (firstn_skipn n evs), E, nth_error_app2 by (rewrite firstn_length; lia). rewrite firstn_length, Nat.min_l, Nat.sub_diag by lia. reflexivity. }
    rewrite Hn. exists s'. split; [congruence|]. split; [exact Tl|]. split; [apply St|]. split; [apply St|]. auto.
Qed.
Print Assumptions getopts_exact.
End General.

(** Every list of arguments is read in one way. *)
Lemma specified_dec : forall o c, (exists b, specified c b o) \/ forall b, ~ specified c b o.
Proof.
  intros o c. destruct (from_char c o) as [r|] eqn:E; [left|right; apply from_char_none, E].
  exists (arg_follows r). apply (from_char_some _ _ _ E). reflexivity.
Qed.
Lemma specified_fun : forall o c b b', specified c b o -> specified c b' o -> b = b'.
Proof.
  intros o c b b' H H'. destruct (from_char c o) as [r|] eqn:E; [|destruct (from_char_none _ _ E _ H)].
  apply (from_char_some _ _ _ E) in H, H'. congruence.
Qed.
Lemma kinds : forall o c, unknown o c \/ flag o c \/ takes o c.
Proof.
  intros o c. destruct (N.eq_dec c (ch ":")) as [->|D]; [left; left; reflexivity|].
  destruct (specified_dec o c) as [[[|] H]|H]; [right; right; split; auto|right; left; split; auto|left; right; exact H].
Qed.
Lemma cluster_exists : forall o r l, exists es n, cluster o r l es n.
Proof.
  intros o r. induction r as [|c r IH]; intro l; [eexists _, _; constructor|]. destruct (IH l) as [es [n H]].
  destruct (kinds o c) as [U|[U|U]]; [eexists _, _; apply cl_bad; eauto|eexists _, _; apply cl_flag; eauto|].
  destruct r as [|d r]; [destruct l; eexists _, _; [apply cl_missing|apply cl_next]; exact U|eexists _, _; apply cl_attached; [exact U|discriminate]].
Qed.
Lemma cluster_fun : forall o r l es n es' n', cluster o r l es n -> cluster o r l es' n' -> es = es' /\ n = n'.
Proof.
  assert (X1 : forall o c, unknown o c -> flag o c -> False) by (intros o c [U|U] [F G]; [contradiction|exact (U _ G)]).
  assert (X2 : forall o c, unknown o c -> takes o c -> False) by (intros o c [U|U] [F G]; [contradiction|exact (U _ G)]).
  assert (X3 : forall o c, flag o c -> takes o c -> False) by (intros o c [_ U] [_ G]; pose proof (specified_fun _ _ _ _ U G); discriminate).
  intros o r l es n es' n' H. revert es' n'. induction H as [l|c r l es n U H IH|c r l es n U H IH|c r l U R|c a l U|c U]; intros es' n' H'; inversion H'; subst; auto;
    try (exfalso; eauto; fail); try contradiction;
    match goal with H : cluster _ _ _ _ _ |- _ => apply IH in H; destruct H as [-> ->]; auto end.
Qed.
Theorem reads_total : forall o args, exists evs k, reads o args evs k /\ forall evs' k', reads o args evs' k' -> evs' = evs /\ k' = k.
Proof.
  intros o. assert (G : forall m args, (length args < m)%nat -> exists evs k, reads o args evs k /\ forall evs' k', reads o args evs' k' -> evs' = evs /\ k' = k).
  { induction m as [|m IH]; intros args H; [lia|]. destruct args as [|a l].
    { exists [], 0%nat. split; [constructor|]. intros e k R. inversion R. auto. }
    destruct (list_eq_dec N.eq_dec a (str "-")) as [->|D1].
    { exists [], 0%nat. split; [constructor; auto|]. intros e k R. inversion R; subst; auto. congruence. }
    destruct (list_eq_dec N.eq_dec a (str "--")) as [->|D2].
    { exists [], 1%nat. split; [constructor|]. intros e k R. inversion R as [|? ? [X|X]| |? ? ? ? ? ? X1 X2]; subst; auto; [destruct (X (str "-")); reflexivity|discriminate|]. destruct X2; reflexivity. }
    assert (Hd : (exists r, a = ch "-" :: r) \/ forall r, a <> ch "-" :: r).
    { destruct a as [|c r]; [right; discriminate|]. destruct (N.eq_dec c (ch "-")) as [->|Dc]; [eauto|right; congruence]. }
    destruct Hd as [[r ->]|Hd].
    - destruct (cluster_exists o r l) as [es [n C]]. destruct (IH (skipn n l)) as [es' [k [R U]]]; [rewrite skipn_length; cbn [length] in H; lia|].
      assert (Hr : r <> [] /\ r <> str "-") by (split; intros ->; [apply D1|apply D2]; reflexivity).
      exists (es ++ es'), (S n + k). split; [apply rd_options; tauto|]. intros e k' R'. inversion R' as [|? ? [X|X]| |? ? es1 n1 es2 k2 X1 X2 C' R2]; subst.
      + destruct (X r); reflexivity.
      + destruct D1. exact X.
      + destruct D2. reflexivity.
      + destruct (cluster_fun _ _ _ _ _ _ _ C C') as [<- <-]. destruct (U _ _ R2) as [-> ->]. auto.
    - exists [], 0%nat. split; [constructor; auto|]. intros e k R. inversion R as [|? ? X| |r ? ? ? ? ? X1]; subst; auto; [destruct (Hd (str "-"))|destruct (Hd r)]; reflexivity. }
  intro args. apply (G (S (length args))). lia.
Qed.
Print Assumptions reads_total.

(** A specification that is not valid is refused. *)
Theorem getopts_refuses : forall L mbs seed_ok posix options name operands s, locale_ok L -> ~ valid_options L posix options ->
  getopts L mbs seed_ok posix options name operands s = Ok (false, s).
Proof.
  intros L mbs seed_ok posix options name operands s HL H. unfold getopts. destruct (has_eq name); [reflexivity|].
  destruct (check_options L posix options) eqn:E; [|reflexivity]. destruct H. apply (check_options_iff L HL), E.
Qed.
Print Assumptions getopts_refuses.

(** ** Examples *)

Lemma holds_fun : forall n s u v, holds n s u -> holds n s v -> u = v.
Proof.
  intros n s u v [p [Hp Ep]] [q [Hq Eq]]. apply visible_seek in Hp, Hq. destruct Hp as [i Hp], Hq as [j Hq]. rewrite Hp in Hq. injection Hq as _ <-. congruence.
Qed.
Definition opts := [OSet OPTIND (Scalar (Some (str "1"))) false].
Definition opt_start : st := after opts.
Definition opt : list N := str "opt".
Lemma opt_ready : reachable c_locale ascii straight noseed opt_start /\ usable opt opt_start /\ holds OPTIND opt_start (str "1").
Proof.
  assert (E1 : bindings OPTIND opt_start = [Some (mkVar (Scalar (Some (str "1"))) false false false GNone)]) by (vm_compute; reflexivity).
  assert (E2 : bindings OPTARG opt_start = [None]) by (vm_compute; reflexivity).
  assert (E3 : bindings opt opt_start = [None]) by (vm_compute; reflexivity).
  split; [apply reach_after; [constructor; [exact optind_ok|constructor]|ran]|]. unfold usable, writable, single. rewrite E1, E2, E3. split; [|eexists; rewrite E1; split; [constructor|reflexivity]].
  assert (X : forall i (v : var), nth_error [None] i = Some (Some v) -> False) by (intros [|[|i]] v; discriminate).
  repeat split; try (intros; exfalso; eapply X; eauto; fail); destruct i as [|[|i]]; cbn in H; try discriminate; injection H as <-; reflexivity.
Qed.
(** getopts ab: opt -ax -b foo -bbar -- op *)
Definition ab := str "ab:".
Definition words := [str "-ax"; str "-b"; str "foo"; str "-bbar"; str "--"; str "op"].
Definition events := [Option (ch "a") None; Invalid (ch "x"); Option (ch "b") (Some (str "foo")); Option (ch "b") (Some (str "bar"))].
Lemma spec_a : flag ab (ch "a").
Proof. split; [discriminate|]. apply spec_flag; [reflexivity|]. discriminate. Qed.
Lemma spec_b : takes ab (ch "b").
Proof. split; [discriminate|]. apply spec_later; [discriminate|]. apply spec_arg. reflexivity. Qed.
Lemma spec_x : unknown ab (ch "x").
Proof. right. apply from_char_none. reflexivity. Qed.
Example ex_reads : reads ab words events 5.
Proof.
  change events with ([Option (ch "a") None; Invalid (ch "x")] ++ [Option (ch "b") (Some (str "foo"))] ++ [Option (ch "b") (Some (str "bar"))] ++ []).
  apply (rd_options ab (str "ax") (tl words) _ 0 _ 4); [discriminate|discriminate| |].
  { apply cl_flag; [apply spec_a|]. apply cl_bad; [apply spec_x|constructor]. }
  apply (rd_options ab (str "b") (tl (tl words)) _ 1 _ 2); [discriminate|discriminate|apply cl_next, spec_b|].
  apply (rd_options ab (str "bbar") (tl (tl (tl (tl words)))) _ 0 _ 1); [discriminate|discriminate|apply cl_attached; [apply spec_b|discriminate]|]. constructor.
Qed.
Example ex_valid : valid_options c_locale true ab.
Proof. apply valid_loud, items_flag; [intros _; reflexivity|discriminate|]. apply items_arg; [intros _; reflexivity|discriminate|constructor]. Qed.
Definition getopts1 (s : st) := getopts c_locale ascii noseed true ab opt words s.
Example ex_getopts : exists s1 s2 s3 s4 s5, calls c_locale ascii straight noseed true ab opt words opt_start 4 s4 /\
  getopts1 opt_start = Ok (true, s1) /\ getopts1 s1 = Ok (true, s2) /\ getopts1 s2 = Ok (true, s3) /\ getopts1 s3 = Ok (true, s4) /\ getopts1 s4 = Ok (false, s5) /\
  holds OPTIND s5 (str "6") /\ holds opt s4 (str "b") /\ holds OPTARG s4 (str "bar").
Proof.
  destruct opt_ready as [R [U H]].
  assert (Go : forall n s, calls c_locale ascii straight noseed true ab opt words opt_start n s ->
    match nth_error events n with
    | Some e => exists s', getopts1 s = Ok (true, s') /\ tells ab opt s' e /\ between c_locale ascii straight noseed opt s' s'
    | None => n = length events /\ exists s', getopts1 s = Ok (false, s') /\ holds opt s' (str "?") /\ no_variable OPTARG s' /\
      ((forall c, ~ In (Missing c) events) -> holds OPTIND s' (str "6")) /\ (forall c, In (Missing c) events -> holds OPTIND s' (str "7"))
    end).
  { intros n s C. apply (getopts_exact c_locale c_locale_ok ascii ascii_inj straight (fun l => Permutation_refl l) noseed true ab opt words) with (s0 := opt_start) (args := words) (k := 5%nat); auto; try discriminate.
    - apply name_ok_dec. reflexivity.
    - apply ex_valid.
    - left. split; [discriminate|reflexivity].
    - reflexivity.
    - repeat constructor.
    - apply ex_reads. }
  pose proof (calls_none c_locale ascii straight noseed true ab opt words opt_start) as C0.
  destruct (Go _ _ C0) as [s1 [E1 [_ B1]]]. pose proof (calls_more _ _ _ _ _ _ _ _ _ _ _ _ _ C0 E1 B1) as C1.
  destruct (Go _ _ C1) as [s2 [E2 [_ B2]]]. pose proof (calls_more _ _ _ _ _ _ _ _ _ _ _ _ _ C1 E2 B2) as C2.
  destruct (Go _ _ C2) as [s3 [E3 [_ B3]]]. pose proof (calls_more _ _ _ _ _ _ _ _ _ _ _ _ _ C2 E3 B3) as C3.
  destruct (Go _ _ C3) as [s4 [E4 [T4 B4]]]. pose proof (calls_more _ _ _ _ _ _ _ _ _ _ _ _ _ C3 E4 B4) as C4.
  destruct (Go _ _ C4) as [_ [s5 [E5 [_ [_ [I _]]]]]]. exists s1, s2, s3, s4, s5. inversion T4. do 6 (split; [assumption|]). split; [|auto].
  apply I. intros z X. cbn in X. intuition discriminate.
Qed.
(** If the argument of the last option is missing, the index in the end is not that of the first
    operand but the next one: getopts a: opt -a leaves 3 in OPTIND. *)
Theorem getopts_index_refuted : exists options args evs k s s' s'', valid_options c_locale true options /\ reads options args evs k /\
  reachable c_locale ascii straight noseed s /\ usable opt s /\ holds OPTIND s (str "1") /\
  getopts c_locale ascii noseed true options opt args s = Ok (true, s') /\ getopts c_locale ascii noseed true options opt args s' = Ok (false, s'') /\
  ~ holds OPTIND s'' (dec_of_N (N.of_nat (k + 1))).
Proof.
  destruct opt_ready as [R [U H]]. exists (str "a:"), [str "-a"], ([Missing (ch "a")] ++ []), 1%nat, opt_start.
  assert (V : valid_options c_locale true (str "a:")) by (apply valid_loud, items_arg; [intros _; reflexivity|discriminate|constructor]).
  assert (Rd : reads (str "a:") [str "-a"] ([Missing (ch "a")] ++ []) 1).
  { apply (rd_options (str "a:") (str "a") [] _ 0 _ 0); [discriminate|discriminate| |constructor]. apply cl_missing. split; [discriminate|]. apply spec_arg. reflexivity. }
  assert (Go : forall n s, calls c_locale ascii straight noseed true (str "a:") opt [str "-a"] opt_start n s -> _) by
    (intros n s C; exact (getopts_exact c_locale c_locale_ok ascii ascii_inj straight (fun l => Permutation_refl l) noseed true (str "a:") opt [str "-a"]
      ltac:(apply name_ok_dec; reflexivity) ltac:(discriminate) ltac:(discriminate) ltac:(discriminate) V opt_start n s [str "-a"] _ 1%nat R U H ltac:(left; split; [discriminate|reflexivity]) ltac:(reflexivity) ltac:(repeat constructor) Rd C)).
  pose proof (calls_none c_locale ascii straight noseed true (str "a:") opt [str "-a"] opt_start) as C0.
  destruct (Go _ _ C0) as [s1 [E1 [_ B1]]]. pose proof (calls_more _ _ _ _ _ _ _ _ _ _ _ _ _ C0 E1 B1) as C1.
  destruct (Go _ _ C1) as [_ [s2 [E2 [_ [_ [_ I]]]]]]. exists s1, s2. do 7 (split; [assumption|]).
  intro X. specialize (I (ch "a") (or_introl eq_refl)). pose proof (holds_fun _ _ _ _ X I) as Q. vm_compute in Q. discriminate.
Qed.
Print Assumptions getopts_index_refuted.
