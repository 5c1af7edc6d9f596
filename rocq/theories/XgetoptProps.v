(** Theorems about option parsing: C10 - C13. *)
From Coq Require Import Ascii String.
From Coq Require Import List NArith Bool Arith Lia Permutation.
From Verif Require Import Common Locale XgetoptModel XgetoptSpec XgetoptProofs XgetoptTables.
Import ListNotations.
Open Scope res_scope.

(** A parse of a whole argument vector, as a built-in does it: xoptind is set to
    0 and xgetopt called until it returns NULL or an error. *)
Definition parses (pc : bool) (fl : gflags) (t : list xgetopt_T) (a0 : list N) (l : list (list N))
    (oa : option (list N)) (obs : list (nat * option (list N))) (fin : gending)
    (final : list (list N)) (ind : nat) : Prop :=
  forall fuel av ai ci, total l < fuel ->
  exists st', option_loop fuel pc fl t (a0 :: l) (mkG oa av 0 ai ci) = Ok (obs, fin, st')
    /\ argv st' = final /\ xoptind st' = ind.

(** ** The parser implements the grammar of command lines, with no undefined
    behaviour, for every table, vector and mode. *)
Theorem getopt_grammar : forall pc fl t a0 l oa,
  table_ok t -> Forall nonull l ->
  exists evs os ops fin obs,
    args pc fl t l evs os ops fin /\ Forall2 reported evs obs /\
    parses pc fl t a0 l oa obs fin (a0 :: os ++ ops) (1 + length os).
Proof.
  intros pc fl t a0 l oa Ht Hl.
  destruct (search_args pc fl t (a0 :: l) Ht l (loop_search pc fl t (a0 :: l) Ht (length l) l (le_n _) Hl))
    as (evs & os & ops & fin & Ha & H).
  destruct (H oa [a0] [] (S (total l))) as (obs & st' & H1 & H2 & H3 & H4); [discriminate|auto|lia|].
  exists evs, os, ops, fin, obs. split; [assumption|]. split; [assumption|].
  intros fuel av ai ci Hf.
  assert (Hfirst : forall f, option_loop (S f) pc fl t (a0 :: l) (mkG oa av 0 ai ci) =
    option_loop (S f) pc fl t (a0 :: l) (state oa [a0] [] l 1)) by reflexivity.
  destruct fuel as [|fuel]; [lia|]. rewrite Hfirst.
  destruct (H oa [a0] [] (S fuel)) as (obs' & st'' & H1' & H2' & H3' & H4'); [discriminate|auto|lia|].
  assert (Hmono : forall f f' st x y, option_loop f pc fl t (a0 :: l) st = Ok x ->
    option_loop f' pc fl t (a0 :: l) st = Ok y -> x = y).
  { clear. induction f as [|f IH]; intros f' st x y Hx Hy; [discriminate|].
    destruct f' as [|f']; [discriminate|]. cbn [option_loop] in Hx, Hy.
    destruct (xgetopt pc fl t (a0 :: l) st) as [[r st1]| |]; cbn [rbind] in Hx, Hy; try discriminate.
    destruct r as [|i|er]; try congruence.
    destruct (option_loop f pc fl t (a0 :: l) st1) as [[p st2]| |] eqn:E; cbn [rbind] in Hx; try discriminate.
    destruct (option_loop f' pc fl t (a0 :: l) st1) as [[p' st2']| |] eqn:E'; cbn [rbind] in Hy; try discriminate.
    pose proof (IH _ _ _ _ E E') as E2. injection E2 as <- <-. congruence. }
  pose proof (Hmono _ _ _ _ _ H1 H1') as E. injection E as <- <-.
  exists st'. repeat split; auto.
Qed.
Print Assumptions getopt_grammar.

(** The grammar determines the parse, so this says everything. *)
Theorem getopt_grammar_unambiguous : forall pc fl t l evs os ops fin evs' os' ops' fin',
  args pc fl t l evs os ops fin -> args pc fl t l evs' os' ops' fin' ->
  evs = evs' /\ os = os' /\ ops = ops' /\ fin = fin'.
Proof. intros. eapply args_det; eassumption. Qed.
Print Assumptions getopt_grammar_unambiguous.

(** ** C10: whatever the arguments (also when parsing ends in an error), the final
    array is a permutation of the original: first the arguments used as options
    in their order, then the others in their order. *)
Theorem getopt_permutes : forall pc fl t a0 l oa, table_ok t -> Forall nonull l ->
  exists obs fin os ops,
    parses pc fl t a0 l oa obs fin (a0 :: os ++ ops) (1 + length os) /\
    interleaving os ops l /\ Permutation (a0 :: l) (a0 :: os ++ ops).
Proof.
  intros pc fl t a0 l oa Ht Hl.
  destruct (getopt_grammar pc fl t a0 l oa Ht Hl) as (evs & os & ops & fin & obs & H1 & H2 & H3).
  exists obs, fin, os, ops. split; [assumption|].
  pose proof (args_interleaving _ _ _ _ _ _ _ _ H1) as Hi. split; [assumption|].
  constructor. now apply interleaving_perm.
Qed.
Print Assumptions getopt_permutes.

(** After a successful parse no operand looks like an option, except after the
    first operand in POSIX parsing and after "--". *)
Theorem getopt_operands : forall pc fl t a0 l oa, table_ok t -> Forall nonull l ->
  exists obs fin os ops,
    parses pc fl t a0 l oa obs fin (a0 :: os ++ ops) (1 + length os) /\
    (fin = EndDone ->
      Forall (fun a => ~ looks_like_option (negb pc && fl_digit fl) a) ops \/
      ((pc = true \/ fl_posix fl = true) /\ exists a l', ops = a :: l' /\ ~ looks_like_option (negb pc && fl_digit fl) a) \/
      (exists l1 os1 ops1 l2, l = l1 ++ str "--" :: l2 /\ os = os1 ++ [str "--"] /\ ops = ops1 ++ l2 /\
         interleaving os1 ops1 l1 /\
         Forall (fun a => ~ looks_like_option (negb pc && fl_digit fl) a) ops1)).
Proof.
  intros pc fl t a0 l oa Ht Hl.
  destruct (getopt_grammar pc fl t a0 l oa Ht Hl) as (evs & os & ops & fin & obs & H1 & H2 & H3).
  exists obs, fin, os, ops. split; [assumption|]. intro Hf.
  exact (args_operands _ _ _ _ _ _ _ _ H1 Hf).
Qed.
Print Assumptions getopt_operands.

(** ** C11: POSIX parsing leaves the array as it is, and stops at the first
    argument that is not an option, at "--", or at the end. *)
Theorem getopt_posix : forall pc fl t a0 l oa, table_ok t -> Forall nonull l ->
  pc = true \/ fl_posix fl = true ->
  exists obs fin os ops, l = os ++ ops /\
    parses pc fl t a0 l oa obs fin (a0 :: l) (1 + length os) /\
    (fin = EndDone ->
      ops = [] \/ (exists a l', ops = a :: l' /\ ~ looks_like_option (negb pc && fl_digit fl) a) \/
      exists os1, os = os1 ++ [str "--"]).
Proof.
  intros pc fl t a0 l oa Ht Hl Hp.
  destruct (getopt_grammar pc fl t a0 l oa Ht Hl) as (evs & os & ops & fin & obs & H1 & H2 & H3).
  pose proof (args_posix _ _ _ _ _ _ _ _ H1 Hp) as E.
  exists obs, fin, os, ops. split; [assumption|]. split; [now rewrite E at 2|].
  intro Hf. destruct (args_operands _ _ _ _ _ _ _ _ H1 Hf) as [H|[[_ H]|(l1 & os1 & ops1 & l2 & _ & H & _)]].
  - destruct ops as [|a ops]; [now left|]. right. left. exists a, ops. split; [reflexivity|]. now inversion H.
  - right. now left.
  - right. right. now exists os1.
Qed.
Print Assumptions getopt_posix.

(** ** C12: a long option selects the entry with exactly that name, or the only
    one it abbreviates; it is ambiguous or invalid otherwise.  This holds for
    tables in which no name comes after two names it abbreviates. *)
Theorem long_option_resolution_partial : forall fl t a0 s name v rest oa,
  table_ok t -> Forall nonull ((str "--" ++ s) :: rest) -> s <> [] -> long_text s name v ->
  well_ordered t ->
  exists m obs fin final ind, resolves_ideal t name m /\
    parses false fl t a0 ((str "--" ++ s) :: rest) oa obs fin final ind /\
    match m with
    | LNone => obs = [] /\ fin = EndError (no_such_option (str "--" ++ s))
    | LAmbiguous => obs = [] /\ fin = EndError (ambiguous_long_option (str "--" ++ s))
    | LMatch i o =>
        (exists x obs', obs = (i, x) :: obs' /\
           match v, optarg o with
           | Some w, k => x = Some w /\ k <> OPTARG_NONE
           | None, OPTARG_REQUIRED => exists b rest', rest = b :: rest' /\ x = Some b
           | None, _ => True
           end) \/
        (obs = [] /\ v <> None /\ optarg o = OPTARG_NONE /\
           fin = EndError (unwanted_long_option_argument (str "--" ++ s) i)) \/
        (obs = [] /\ v = None /\ rest = [] /\ optarg o = OPTARG_REQUIRED /\
           fin = EndError (option_argument_is_missing false i))
    end.
Proof.
  intros fl t a0 s name v rest oa Ht Hl Hs Hv Hw.
  destruct (getopt_grammar false fl t a0 _ oa Ht Hl) as (evs & os & ops & fin & obs & H1 & H2 & H3).
  change (str "--" ++ s) with (hyphen :: hyphen :: s) in *.
  inversion H1; subst; try discriminate; try contradiction;
    try (match goal with H : ~ looks_like_option _ _ |- _ => exfalso; apply H; apply llo_long end).
  all: try match goal with H : long_text ?b ?n ?w |- _ =>
      tryif constr_eq H Hv then fail else
      (destruct (long_text_det _ _ _ _ _ Hv H) as [En Ev]; subst) end.
  all: match goal with H : resolves _ _ ?m |- _ => pose proof (well_ordered_ideal _ _ _ Hw H) as Hi; exists m end.
  all: eexists _, _, _, _; split; [exact Hi|]; split; [exact H3|].
  - inversion H2; subst. auto.
  - inversion H2; subst. auto.
  - left. inversion H2 as [|e1 [i' x] ? obs' [Hr1 Hr2] ?]; subst. cbn in Hr1, Hr2. subst i'.
    exists x, obs'. split; [reflexivity|]. destruct (optarg o); auto. contradiction.
  - right. left. inversion H2; subst. repeat split; auto. discriminate.
  - left. inversion H2 as [|e1 [i' x] ? obs' [Hr1 Hr2] ?]; subst. cbn in Hr1, Hr2. subst i'.
    exists x, obs'. split; [reflexivity|]. now split.
  - left. inversion H2 as [|e1 [i' x] ? obs' [Hr1 Hr2] ?]; subst. cbn in Hr1, Hr2. subst i'.
    exists x, obs'. split; [reflexivity|].
    match goal with H : optarg o = _ |- _ => rewrite H end. eauto.
  - right. right. inversion H2; subst. repeat split; auto.
Qed.
Print Assumptions long_option_resolution_partial.

(** All the tables of the shell are of that kind, whatever entries the
    configuration leaves out. *)
Definition entry_ok (o : xgetopt_T) : bool :=
  negb (shortopt o =? 0)%N &&
  match longopt o with Some l => negb (existsb (N.eqb 0) l) | None => true end.

Theorem builtin_tables_fine : forall T t, In T all_tables -> subseq t T -> table_ok t /\ well_ordered t.
Proof.
  assert (Hc : forallb (fun T => check_ordered [] T && forallb entry_ok T) all_tables = true) by (vm_compute; reflexivity).
  rewrite forallb_forall in Hc. intros T t HT Hs. specialize (Hc T HT).
  apply andb_true_iff in Hc as [H1 H2]. rewrite forallb_forall in H2. split.
  - constructor.
    + intros o Ho E. apply (subseq_In _ _ _ _ Hs), H2 in Ho. unfold entry_ok in Ho.
      rewrite E in Ho. discriminate.
    + intros o l Ho E Hin. apply (subseq_In _ _ _ _ Hs), H2 in Ho. unfold entry_ok in Ho.
      rewrite E in Ho. apply andb_true_iff in Ho as [_ Ho]. apply negb_true_iff in Ho.
      assert (existsb (N.eqb 0) l = true); [|congruence].
      apply existsb_exists. exists 0%N. split; [assumption|reflexivity].
  - apply no_late_name_ordered. apply (no_late_name_sub T); [assumption|]. now apply check_ordered_sound.
Qed.
Print Assumptions builtin_tables_fine.

(** In general an exact match can lose: with entries foobar, foobaz and foo in
    this order, --foo is reported as ambiguous. *)
Definition late_table : list xgetopt_T :=
  [ mkOpt (ch "r") (Some (str "foobar")) OPTARG_NONE true;
    mkOpt (ch "z") (Some (str "foobaz")) OPTARG_NONE true;
    mkOpt (ch "f") (Some (str "foo")) OPTARG_NONE true ].

Theorem long_option_exact_wins_refuted : exists t name i o,
  table_ok t /\ nonull name /\ resolves_ideal t name (LMatch i o) /\
  parses false (mkF false false) t [] [str "--" ++ name] None []
    (EndError (ambiguous_long_option (str "--" ++ name))) [[]; str "--" ++ name] 1.
Proof.
  exists late_table, (str "foo"), 2, (mkOpt (ch "f") (Some (str "foo")) OPTARG_NONE true).
  split; [|split; [|split]].
  - constructor; intros o; [|intros l]; cbn; intuition; subst; cbn in *; try discriminate;
      match goal with H : Some _ = Some _ |- _ => injection H as <- end; cbv; intuition discriminate.
  - cbv. intuition discriminate.
  - apply ri_exact; [now split|].
    intros [|[|j]] o' Hj [H1 H2]; [| |lia]; cbn in H1; injection H1 as <-; discriminate.
  - intros fuel av ai ci Hf. destruct fuel as [|fuel]; [inversion Hf|].
    eexists. split; [vm_compute; reflexivity|split; reflexivity].
Qed.
Print Assumptions long_option_exact_wins_refuted.

(** ** C13: when an option has an argument, the caller sees exactly it. *)
Theorem option_argument_partial : forall pc fl t a0 l oa, table_ok t -> Forall nonull l ->
  exists evs os ops fin obs,
    args pc fl t l evs os ops fin /\
    parses pc fl t a0 l oa obs fin (a0 :: os ++ ops) (1 + length os) /\
    length obs = length evs /\
    forall k i a, nth_error evs k = Some (i, Some a) -> nth_error obs k = Some (i, Some a).
Proof.
  intros pc fl t a0 l oa Ht Hl.
  destruct (getopt_grammar pc fl t a0 l oa Ht Hl) as (evs & os & ops & fin & obs & H1 & H2 & H3).
  exists evs, os, ops, fin, obs. split; [assumption|]. split; [assumption|].
  clear H1 H3. split; [induction H2; cbn; congruence|].
  induction H2 as [|x y evs obs [Hr1 Hr2] H IH]; intros [|k] i a Hk; try discriminate; cbn in Hk |- *.
  - injection Hk as ->. cbn in Hr1, Hr2. destruct y. cbn in *. congruence.
  - auto.
Qed.
Print Assumptions option_argument_partial.

(** An option without argument does not reset xoptarg: after "-x 1 -y" the
    caller sees the argument of -x when -y is returned. *)
Definition xy_table : list xgetopt_T :=
  [ mkOpt (ch "x") None OPTARG_REQUIRED true; mkOpt (ch "y") None OPTARG_NONE true ].

Theorem option_argument_reset_refuted : exists t l evs os ops obs,
  table_ok t /\ Forall nonull l /\ args false (mkF false false) t l evs os ops EndDone /\
  parses false (mkF false false) t [] l None obs EndDone ([] :: os ++ ops) (1 + length os) /\
  ~ Forall2 reported_exactly evs obs.
Proof.
  exists xy_table, [str "-x"; str "1"; str "-y"], [(0, Some (str "1")); (1, None)],
    [str "-x"; str "1"; str "-y"], [], [(0, Some (str "1")); (1, Some (str "1"))].
  split; [|split; [|split; [|split]]].
  - constructor; intros o; [|intros l]; cbn; intuition; subst; cbn in *; discriminate.
  - repeat constructor; cbv; intuition discriminate.
  - apply ar_short; [constructor; discriminate|discriminate|].
    apply cl_separate with (o := mkOpt (ch "x") None OPTARG_REQUIRED true); [|reflexivity|].
    + repeat split; [discriminate|]. intros; lia.
    + apply ar_short; [constructor; discriminate|discriminate|].
      apply cl_last with (o := mkOpt (ch "y") None OPTARG_NONE true); [|reflexivity|constructor].
      repeat split; [discriminate|].
      intros [|j] o' Hj H1 H2; [|lia]. cbn in H1. injection H1 as <-. discriminate.
  - intros fuel av ai ci Hf. cbn in Hf. do 3 (destruct fuel as [|fuel]; [lia|]).
    eexists. split; [vm_compute; reflexivity|split; reflexivity].
  - intro H. inversion H as [|? ? ? ? ? H']; subst. inversion H' as [|? ? ? ? H'']; subst. discriminate H''.
Qed.
Print Assumptions option_argument_reset_refuted.

(** ** The hypotheses are met by real parses. *)
Example getopt_ex : parses false (mkF false false) jobs_options (str "jobs")
  [str "%1"; str "-ln"; str "-"; str "--run"; str "--"; str "-x"] None
  [(0, None); (1, None); (3, None)] EndDone
  [str "jobs"; str "-ln"; str "--run"; str "--"; str "%1"; str "-"; str "-x"] 4.
Proof.
  intros fuel av ai ci Hf. cbn in Hf. do 4 (destruct fuel as [|fuel]; [lia|]).
  eexists. split; [vm_compute; reflexivity|split; reflexivity].
Qed.
Example getopt_posix_ex : parses true (mkF false false) jobs_options (str "jobs")
  [str "-lp"; str "%1"; str "-r"] None
  [(0, None); (2, None)] EndDone
  [str "jobs"; str "-lp"; str "%1"; str "-r"] 2.
Proof.
  intros fuel av ai ci Hf. cbn in Hf. do 3 (destruct fuel as [|fuel]; [lia|]).
  eexists. split; [vm_compute; reflexivity|split; reflexivity].
Qed.
Example getopt_hyp_ex : table_ok jobs_options /\ well_ordered jobs_options /\
  Forall nonull [str "%1"; str "-ln"; str "--run"].
Proof.
  destruct (builtin_tables_fine jobs_options jobs_options) as [H1 H2].
  - do 3 right. left. reflexivity.
  - repeat constructor.
  - split; [assumption|]. split; [assumption|]. repeat constructor; cbv; intuition discriminate.
Qed.
