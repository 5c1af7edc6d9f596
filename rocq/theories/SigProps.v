(** Signal names and the trap built-in: theorems. *)
From Coq Require Import Ascii String.
From Coq Require Import List NArith ZArith Bool Arith Lia.
From Verif Require Import Common Locale NumModel NumProofs BraceSpec BraceNum SigModel SigSpec Sig SigTrap.
Import ListNotations.
Local Open Scope Z_scope.

(** Signals 1-31 and 34-64 as on Linux, in the order of siglist.h (33-170) *)
Definition linux : sigs := mkSigs
  [(str "HUP", 1); (str "INT", 2); (str "QUIT", 3); (str "ILL", 4); (str "ABRT", 6); (str "BUS", 7); (str "FPE", 8); (str "KILL", 9); (str "SEGV", 11);
   (str "PIPE", 13); (str "ALRM", 14); (str "TERM", 15); (str "USR1", 10); (str "USR2", 12); (str "CHLD", 17); (str "CONT", 18); (str "STOP", 19);
   (str "TSTP", 20); (str "TTIN", 21); (str "TTOU", 22); (str "URG", 23); (str "TRAP", 5); (str "XCPU", 24); (str "XFSZ", 25); (str "VTALRM", 26);
   (str "PROF", 27); (str "POLL", 29); (str "SYS", 31); (str "IOT", 6); (str "STKFLT", 16); (str "IO", 29); (str "CLD", 17); (str "PWR", 30); (str "WINCH", 28)]
  34 64 40 9 19
  (fun z => if z =? 17 then AlwaysCaught else if (z =? 2) || (z =? 28) then CaughtIfInteractive
            else if (20 <=? z) && (z <=? 22) then IgnoredIfJobs else if (z =? 15) || (z =? 3) then IgnoredIfInteractive else Plain)
  false.
(** The same with assertions *)
Definition linux_debug : sigs := mkSigs (table linux) 34 64 40 9 19 (kind linux) true.
Definition upper (c : N) : N := if ((97 <=? c) && (c <=? 122))%N then (c - 32)%N else c.
(** A script started by [nohup] *)
Definition script : shell := mkShell false (fun z => z =? 1) false false upper.
Definition no_traps : st := mkSt (fun _ => None) (fun z => if z =? 1 then Ign else Dfl) false false.
Lemma linux_ok : sigs_ok linux.
Proof.
  constructor; cbn [rtmin rtmax rtsize sigkill sigstop linux]; try (unfold INT_MAX; lia).
  - intros nm z I. cbn [table linux In] in I. repeat (destruct I as [I|I]; [injection I as <- <-; split; [|unfold INT_MAX; lia]; unfold name_ok; split; [eexists _, _; split; [reflexivity|lia]|]; split; [repeat (apply Forall_cons; [unfold upper_or_digit; lia|]); apply Forall_nil|]; split; [reflexivity|]; split; [reflexivity|discriminate]|]). contradiction.
  - cbn [table linux map fst]. repeat (apply NoDup_cons; [cbn [In]; intuition discriminate|]). apply NoDup_nil.
Qed.
Lemma script_ok : up_ok script.
Proof.
  intros c. cbn [up script]. unfold upper, upper_or_digit. change (ch "+") with 43%N. change (ch "-") with 45%N. intro H. destruct ((97 <=? c) && (c <=? 122))%N eqn:E; [lia|reflexivity].
Qed.
Lemma no_traps_ok G H : traps_ok G H no_traps.
Proof. split; [discriminate|reflexivity]. Qed.

Section S.
Variable L : locale.
Hypothesis HL : locale_ok L.
Variable G : sigs.
Hypothesis HG : sigs_ok G.
Variable H : shell.
Hypothesis HU : up_ok H.

Lemma valid_max z : valid G z -> 0 <= z <= INT_MAX.
Proof.
  pose proof (ok_rt G HG) as R. intros [->|[V|V]]; [unfold INT_MAX; lia|lia|]. apply in_map_iff in V. destruct V as ((nm, y) & <- & I).
  destruct (ok_table G HG nm y I) as (_ & X & _). cbn [snd]. lia.
Qed.
Lemma num_nonneg t n : numeral 10 t n -> 0 <= n.
Proof.
  intro NV. apply (numeral_iff 10) in NV; [|lia]. destruct NV as (_ & _ & ->). apply (horner_ge 10); lia.
Qed.
Lemma sign_numeral neg r n : xwcstoi L 10 (sgn neg ++ r) = Some n -> numeral 10 r (if neg then - n else n).
Proof.
  unfold xwcstoi, xwcstol. intro E. assert (X : sgn neg ++ r <> []) by (destruct neg; discriminate).
  destruct (sgn neg ++ r) as [|c0 r0] eqn:Q; [congruence|]. rewrite <- Q in E. rewrite wcstol_sign in E by exact HL.
  pose proof (scan_opt 10 r) as SO. destruct (scan_digits 10 0 false r) as [[v rest] k]. destruct k; [|discriminate]. destruct rest; [|discriminate].
  apply (numeral_iff 10); [lia|]. destruct (proj1 (SO v) eq_refl) as (A & B & C). split; [exact A|]. split; [exact B|]. rewrite <- C.
  destruct (in_long _); [|discriminate]. destruct (_ || _); [discriminate|]. injection E as <-. destruct neg; lia.
Qed.
Lemma digit_numeral c r n : isdigit c = true -> xwcstoi L 10 (c :: r) = Some n -> numeral 10 (c :: r) n.
Proof.
  intro D. unfold xwcstoi, xwcstol. rewrite wcstol_unfold. cbn [skip_space]. rewrite (space_digit L HL c D). rewrite take_sign_other by (unfold isdigit in D; lia).
  pose proof (scan_opt 10 (c :: r)) as SO. destruct (scan_digits 10 0 false (c :: r)) as [[v rest] k]. destruct k; [|discriminate]. destruct rest; [|discriminate].
  destruct (in_long _); [|discriminate]. destruct (_ || _); [discriminate|]. intro E. injection E as <-. apply (numeral_iff 10); [lia|]. apply SO. reflexivity.
Qed.
Lemma sig_bare nm z : sig_name G nm z -> bare L G nm = GNum z /\ signal_number L G nm = GNum z.
Proof.
  pose proof (ok_rt G HG) as (R1 & R2). intros [m y I| | |t n NV N1|t n NV N1 N2].
  - apply bare_table; assumption.
  - destruct (bare_rtmin L G HG []) as (A & B). rewrite app_nil_r in A, B. rewrite <- A, B. auto.
  - destruct (bare_rtmax L G HG []) as (A & B). rewrite app_nil_r in A, B. rewrite <- A, B. auto.
  - pose proof (num_nonneg t n NV). change (str "RTMIN+" ++ t) with (str "RTMIN" ++ (ch "+" :: t)). destruct (bare_rtmin L G HG (ch "+" :: t)) as (A & B). rewrite <- A, B, N.eqb_refl.
    change (ch "+" :: t) with (sgn false ++ t). rewrite (xwcstoi_of_sign L HL false t n NV) by lia. destruct (Z.ltb_spec n 0); [lia|]. rewrite andb_false_r. destruct (Z.leb_spec n (rtmax G - rtmin G)); [auto|lia].
  - change (str "RTMAX-" ++ t) with (str "RTMAX" ++ (ch "-" :: t)). destruct (bare_rtmax L G HG (ch "-" :: t)) as (A & B). rewrite <- A, B, N.eqb_refl.
    change (ch "-" :: t) with (sgn true ++ t). pose proof (num_nonneg t n NV). rewrite (xwcstoi_of_sign L HL true t n NV) by lia. assert (DB : debug G && (0 <=? - n) = false) by (destruct N2 as [N2| ->]; [destruct (Z.leb_spec 0 (- n)); [lia|apply andb_false_r]|reflexivity]). rewrite DB. destruct (Z.leb_spec (rtmin G - rtmax G) (- n)); [|lia].
    replace (rtmax G + - n) with (rtmax G - n) by lia. auto.
Qed.

(** Exactly the words of the specification are accepted, with their meanings. *)
Theorem signal_words nm z : signal_number L G nm = GNum z <-> sig_word G nm z.
Proof.
  split.
  - intro E. unfold signal_number in E. destruct (match nm with c :: _ => isdigit c | [] => false end) eqn:D.
    { pose proof (parse_valid L G nm z E) as V. apply W_number; [|exact V]. destruct nm as [|c r]; [discriminate|]. unfold parse_number in E.
      destruct (xwcstoi L 10 (c :: r)) as [y|] eqn:X; [|discriminate]. apply (digit_numeral c r); [exact D|]. rewrite X. f_equal.
      destruct (y <? 0); [discriminate|]. destruct (Z.eqb_spec y 0); [congruence|]. destruct (is_rt G y); [congruence|]. destruct (in_table G y); congruence. }
    destruct (list_N_eqb nm (str "EXIT")) eqn:EX; [apply list_N_eqb_eq in EX; subst; injection E as <-; constructor|]. cbv zeta in E.
    set (n := match drop_prefix (str "SIG") nm with Some r => r | None => nm end) in E.
    assert (NM : nm = n \/ nm = str "SIG" ++ n). { unfold n. destruct (drop_prefix (str "SIG") nm) eqn:Q; [right; apply drop_inv; exact Q|left; reflexivity]. }
    assert (SN : sig_name G n z); [|destruct NM as [NM|NM]; rewrite NM; [apply W_name|apply W_sig]; exact SN].
    clear NM. clearbody n. destruct (find _ (table G)) as [(m, y)|] eqn:F.
    { apply find_some in F. destruct F as (I & Q). apply list_N_eqb_eq in Q. cbn [fst snd] in *. subst m. injection E as <-. constructor. exact I. }
    destruct (drop_prefix (str "RTMIN") n) as [[|c r]|] eqn:DP.
    + apply drop_inv in DP. rewrite app_nil_r in DP. injection E as <-. subst n. apply S_min.
    + apply drop_inv in DP. destruct (N.eqb_spec c (ch "+")); [|discriminate]. subst c. destruct (xwcstoi L 10 (ch "+" :: r)) as [v|] eqn:X; [|discriminate].
      apply (sign_numeral false) in X. destruct (debug G && (v <? 0)); [discriminate|]. destruct (Z.leb_spec v (rtmax G - rtmin G)); [|discriminate]. injection E as <-. subst n.
      change (str "RTMIN" ++ ch "+" :: r) with (str "RTMIN+" ++ r). apply S_plus; assumption.
    + destruct (drop_prefix (str "RTMAX") n) as [[|c r]|] eqn:DM; [| |discriminate].
      * apply drop_inv in DM. rewrite app_nil_r in DM. injection E as <-. subst n. apply S_max.
      * apply drop_inv in DM. destruct (N.eqb_spec c (ch "-")); [|discriminate]. subst c. destruct (xwcstoi L 10 (ch "-" :: r)) as [v|] eqn:X; [|discriminate].
        apply (sign_numeral true) in X. destruct (debug G && (0 <=? v)) eqn:DB; [discriminate|]. destruct (Z.leb_spec (rtmin G - rtmax G) v); [|discriminate]. injection E as <-. subst n.
        change (str "RTMAX" ++ ch "-" :: r) with (str "RTMAX-" ++ r). replace (rtmax G + v) with (rtmax G - - v) by lia. apply S_minus; [exact X|lia|]. destruct (debug G); [left|right; reflexivity]. cbn [andb] in DB. lia.
  - intros [ |t y NV V|m y SN|m y SN]; [reflexivity| |apply sig_bare; exact SN|apply (proj1 (sig_bare m y SN))].
    unfold signal_number. rewrite (proj1 (numeral_digit t y NV)). unfold parse_number. rewrite (xwcstoi_numeral L HL t y NV (valid_max y V)).
    pose proof (valid_max y V). destruct (Z.ltb_spec y 0); [lia|]. destruct (Z.eqb_spec y 0); [subst; reflexivity|]. destruct (is_rt G y) eqn:R; [reflexivity|].
    destruct V as [V|[V|V]]; [contradiction|apply rt_iff in V; congruence|]. apply in_table_iff in V. rewrite V. reflexivity.
Qed.
(** The name that the shell prints for a signal stands for this signal, with SIG in front as
    well, and is in upper case. Only signals of the system have names. *)
Theorem signal_name_number z : valid G z -> sig_word G (signal_name G z) z /\ (z <> 0 -> sig_word G (str "SIG" ++ signal_name G z) z)
  /\ map (up H) (signal_name G z) = signal_name G z.
Proof.
  intro V. split; [|split; [|apply (name_up G HG H HU z V)]].
  - apply signal_words. destruct (Z.eq_dec z 0) as [->|N]; [reflexivity|]. apply (name_bare L HL G HG z V N).
  - intro N. apply signal_words. apply (name_bare L HL G HG z V N).
Qed.
Theorem signal_word_valid nm z : signal_number L G nm = GNum z -> valid G z.
Proof. apply number_valid; assumption. Qed.
(** The assertions in the parser of names fail for RTMAX-0 only, and only if compiled in. *)
Theorem signal_number_safe nm : debug G = false \/ ~ rtmax_minus_zero nm -> signal_number L G nm <> GAbort.
Proof. intros [N|N] E; [destruct (number_abort L HL G nm E); congruence|]. apply N. apply (proj2 (number_abort L HL G nm E)). Qed.

Lemma named_means names z : named L G H names z <-> exists nm, In nm names /\ means G H nm z.
Proof. unfold named, means. split; intros (nm & I & X); exists nm; (split; [exact I|]); apply signal_words; exact X. Qed.
Lemma operands_trap args c names s : operands args c names -> trap L G H false args s = set_all L G H c names (banish G s) /\ forall x, c = Some x -> action x.
Proof.
  intros [nm ns|x nm ns A|x ns NE D]; unfold trap.
  - split; [reflexivity|discriminate].
  - split; [|intros y E; injection E as <-; exact A]. destruct A as (A1 & A2). destruct (negb _ && forallb isdigit x) eqn:D.
    + exfalso. apply A2. apply andb_true_iff in D. destruct D as (D1 & D2). split; [destruct x; discriminate|]. apply Forall_forall. intros y Y.
      rewrite forallb_forall in D2. specialize (D2 y Y). unfold isdigit in D2. lia.
    + destruct (list_N_eqb x (str "-")) eqn:E; [apply list_N_eqb_eq in E; contradiction|reflexivity].
  - split; [|discriminate]. assert (F : forallb isdigit x = true). { apply forallb_forall. intros y Y. rewrite Forall_forall in D. specialize (D y Y). unfold isdigit. lia. }
    rewrite F. destruct x; [congruence|reflexivity].
Qed.
Lemma print_some_state : forall names s l e s', print_some L G H names s = Done l e s' -> s' = s.
Proof.
  induction names as [|nm names IH]; intros s l e s' E; cbn [print_some] in E; [congruence|].
  destruct (signal_number L G (map (up H) nm)); [discriminate| |]; (destruct (print_some L G H names s) as [|l1 e1 s1] eqn:P; [discriminate|]; injection E as _ _ <-; eauto).
Qed.
Lemma trap_cases p args s l e s' : trap L G H p args s = Done l e s' -> s' = s \/ exists c names, p = false /\ operands args c names /\ set_all L G H c names (banish G s) = Done l e s' /\ (forall x, c = Some x -> action x).
Proof.
  unfold trap. destruct args as [|a rest]; [intro E; left; congruence|]. destruct p; [intro E; left; eapply print_some_state; eauto|].
  destruct (negb _ && forallb isdigit a) eqn:D.
  - intro E. right. exists None, (a :: rest). split; [reflexivity|]. split; [|split; [exact E|discriminate]]. apply andb_true_iff in D. destruct D as (D1 & D2).
    constructor; [destruct a; discriminate|]. apply Forall_forall. intros y Y. rewrite forallb_forall in D2. specialize (D2 y Y). unfold isdigit in D2. lia.
  - destruct rest as [|nm names]; [intro E; left; congruence|]. intro E. right. destruct (list_N_eqb a (str "-")) eqn:Q.
    + apply list_N_eqb_eq in Q. subst a. exists None, (nm :: names). split; [reflexivity|]. split; [constructor|]. split; [exact E|discriminate].
    + exists (Some a), (nm :: names). assert (A : action a).
      { split; [intros ->; rewrite (proj2 (list_N_eqb_eq _ _) eq_refl) in Q; discriminate|]. intros (X & Y). assert (F : forallb isdigit a = true).
        { apply forallb_forall. intros y I. rewrite Forall_forall in Y. specialize (Y y I). unfold isdigit. lia. } rewrite F in D. destruct a; [congruence|discriminate]. }
      split; [reflexivity|]. split; [constructor; exact A|]. split; [exact E|]. intros x X. injection X as <-. exact A.
Qed.
Lemma fixed_none s z : traps_ok G H s -> fixed H s z -> ~ trappable G H z.
Proof. intros _ (A & _ & B & C) (_ & _ & _ & [X|[X|X]]); congruence. Qed.

(** Whatever operands are given, traps stay set for trappable signals only. *)
Theorem trap_keeps_ok p args s l e s' : traps_ok G H s -> trap L G H p args s = Done l e s' -> traps_ok G H s'.
Proof.
  intros T E. destruct (trap_cases _ _ _ _ _ _ E) as [->|(c & names & _ & _ & S & A)]; [exact T|].
  eapply (set_all_spec L HL G HG H c A names (banish G s)); [apply (banish_spec G HG H s T)|apply (banish_ok G HG H s T)|exact S].
Qed.
(** [trap action signal...] changes the traps of the named signals only, all of those that
    are trappable, and reports an error iff some word is no signal or is KILL or STOP. *)
Theorem trap_sets args c names s l e s' : operands args c names -> traps_ok G H s -> trap L G H false args s = Done l e s' ->
  l = [] /\ phantom s' = false
  /\ (forall z, (exists nm, In nm names /\ means G H nm z) -> trappable G H z ->
        cmd s' z = c /\ (z <> 0 -> act s' z = handled H (kind G z) c (act s z)))
  /\ (forall z, ~ (exists nm, In nm names /\ means G H nm z) \/ ~ trappable G H z ->
        cmd s' z = (if phantom s && nonempty (cmd s z) then None else cmd s z) /\ act s' z = act s z)
  /\ (e = false <-> forall nm, In nm names -> exists z, means G H nm z /\ z <> sigkill G /\ z <> sigstop G).
Proof.
  intros O T E. destruct (operands_trap args c names s O) as (TE & A). rewrite TE in E. destruct (banish_spec G HG H s T) as (B1 & B2 & B3 & B4).
  destruct (set_all_spec L HL G HG H c A names (banish G s) l e s' B2 (banish_ok G HG H s T) E) as (R1 & R2 & R3 & R4 & R5 & R6 & R7).
  split; [exact R1|]. split; [exact R2|]. split; [|split].
  - intros z NM TR. rewrite <- B1. apply named_means in NM. apply R6; [exact NM|apply TR|apply TR|]. intro F. apply (fixed_none (banish G s) z (banish_ok G HG H s T) F TR).
  - intros z X. rewrite <- B4, <- B1. destruct X as [X|X]; [apply R4; rewrite named_means; exact X|].
    destruct (Z.eq_dec z (sigkill G)); [apply R5; auto|]. destruct (Z.eq_dec z (sigstop G)); [apply R5; auto|].
    assert (VD : named L G H names z \/ ~ named L G H names z).
    { clear. unfold named. induction names as [|x xs IHx]; [right; intros (y & [] & _)|].
      destruct IHx as [(y & Y1 & Y2)|Y]; [left; exists y; split; [right; exact Y1|exact Y2]|].
      destruct (signal_number L G (map (up H) x)) as [| |w] eqn:W.
      1,2: right; intros (y & [<-|Y1] & Y2); [congruence|apply Y; exists y; auto].
      destruct (Z.eq_dec w z) as [->|X]; [left; exists x; split; [left; reflexivity|exact W]|right; intros (y & [<-|Y1] & Y2); [congruence|apply Y; exists y; auto]]. }
    destruct VD as [VD|VD]; [|apply R4; exact VD]. assert (V : valid G z). { destruct VD as (nm & _ & Y). eapply number_valid; eauto. }
    apply R5. right. right. unfold fixed. destruct (interactive H) eqn:I; [exfalso; apply X; repeat (split; [assumption|]); auto|].
    destruct (Z.eq_dec z 0); [exfalso; apply X; repeat (split; [assumption|]); auto|]. destruct (orig_ign H z) eqn:OI; [|exfalso; apply X; repeat (split; [assumption|]); auto].
    split; [reflexivity|]. split; [|auto]. destruct (cmd (banish G s) z) as [w|] eqn:CW; [|reflexivity]. exfalso. apply X. apply (proj1 (banish_ok G HG H s T) z w CW).
  - rewrite R7. split; intros Q nm I; destruct (Q nm I) as (z & Z1 & Z2); exists z; (split; [apply signal_words; exact Z1|exact Z2]).
Qed.
(** An action without signals is an error. *)
Theorem trap_usage a s : a = [] \/ ~ Forall (fun x => (48 <= x <= 57)%N) a -> trap L G H false [a] s = Done [] true s.
Proof.
  intro N. unfold trap. destruct (negb _ && forallb isdigit a) eqn:D; [|reflexivity]. exfalso. apply andb_true_iff in D. destruct D as (D1 & D2).
  destruct N as [->|N]; [discriminate|]. apply N. apply Forall_forall. intros y Y. rewrite forallb_forall in D2. specialize (D2 y Y). unfold isdigit in D2. lia.
Qed.
(** Without assertions, or unless a word is RTMAX-0, the built-in does its work. *)
Theorem trap_safe p args s : debug G = false \/ (forall nm, In nm args -> ~ rtmax_minus_zero (map (up H) nm)) -> exists l e s', trap L G H p args s = Done l e s'.
Proof.
  intro N0. assert (N : forall nm, In nm args -> debug G = false \/ ~ rtmax_minus_zero (map (up H) nm)) by (intros nm I; destruct N0 as [X|X]; auto). clear N0.
  assert (SA : forall c names s, (forall nm, In nm names -> debug G = false \/ ~ rtmax_minus_zero (map (up H) nm)) -> exists l e s', set_all L G H c names s = Done l e s').
  { intros c. induction names as [|nm names IH]; intros s0 NN; cbn [set_all]; [eauto|].
    destruct (signal_number L G (map (up H) nm)) as [| |z] eqn:Q; [exfalso; apply (signal_number_safe _ (NN nm (or_introl eq_refl)) Q)| |].
    - destruct (IH s0) as (l & e & s1 & ->); [intros; apply NN; right; assumption|eauto].
    - destruct (set_trap G H z c s0) as (s1, e1). destruct (IH s1) as (l & e & s2 & ->); [intros; apply NN; right; assumption|eauto]. }
  assert (PS : forall names s, (forall nm, In nm names -> debug G = false \/ ~ rtmax_minus_zero (map (up H) nm)) -> exists l e s', print_some L G H names s = Done l e s').
  { induction names as [|nm names IH]; intros s0 NN; cbn [print_some]; [eauto|].
    destruct (signal_number L G (map (up H) nm)) as [| |z] eqn:Q; [exfalso; apply (signal_number_safe _ (NN nm (or_introl eq_refl)) Q)| |];
      (destruct (IH s0) as (l & e & s1 & ->); [intros; apply NN; right; assumption|eauto]). }
  unfold trap. destruct args as [|a rest]; [eauto|]. destruct p; [apply PS; exact N|]. destruct (_ && _); [apply SA; exact N|].
  destruct rest as [|b rest]; [eauto|]. apply SA. intros nm I. apply N. right. exact I.
Qed.
(** In a shell that is not interactive, signals ignored from the beginning stay so. *)
Theorem trap_ignored p args s l e s' z : interactive H = false -> orig_ign H z = true -> z <> 0 -> traps_ok G H s ->
  trap L G H p args s = Done l e s' -> cmd s z = None /\ cmd s' z = None /\ act s' z = act s z.
Proof.
  intros I O NZ T E. assert (NT : ~ trappable G H z) by (intros (_ & _ & _ & [X|[X|X]]); congruence).
  assert (C : cmd s z = None). { destruct (cmd s z) as [c|] eqn:Q; [|reflexivity]. exfalso. apply NT. apply (proj1 T z c Q). }
  split; [exact C|]. destruct (trap_cases _ _ _ _ _ _ E) as [->|(c & names & -> & OP & S & A)]; [auto|].
  destruct (trap_sets _ _ _ _ _ _ _ OP T E) as (_ & _ & _ & X & _). destruct (X z (or_intror NT)) as (X1 & X2). rewrite X1, X2, C. cbn. rewrite andb_false_r. auto.
Qed.

(** ** Printing and restoring *)
(** One line is printed for each trap, with a word for its signal. *)
Theorem trap_prints s : traps_ok G H s -> exists ls, trap L G H false [] s = Done ls false s
  /\ (exists zs, NoDup zs /\ Forall2 (fun z l => means G H (snd l) z /\ cmd s z = Some (fst l)) zs ls)
  /\ (forall c z, cmd s z = Some c -> exists nm, In (c, nm) ls /\ means G H nm z).
Proof.
  intro T. exists (print_all G s). split; [reflexivity|]. split.
  - destruct (print_once L HL G HG H HU s) as (zs & ND & F). exists zs. split; [exact ND|]. clear ND. induction F as [|z l zs ls (X1 & X2) _ IH]; constructor; [|exact IH].
    split; [apply signal_words; exact X1|exact X2].
  - intros c z C. destruct (print_complete L HL G HG H HU s c z (proj1 (proj1 (proj1 T z c C))) C) as (nm & I & D). exists nm. split; [exact I|apply signal_words; exact D].
Qed.
(** With -p and operands, the traps of the named signals are printed. *)
Theorem trap_prints_some names s l e s' : names <> [] -> trap L G H true names s = Done l e s' ->
  s' = s /\ (forall c x, In (c, x) l <-> exists nm z, In nm names /\ means G H nm z /\ cmd s z = Some c /\ x = map (up H) nm)
  /\ (e = false <-> forall nm, In nm names -> exists z, means G H nm z).
Proof.
  intros NE E. assert (P : print_some L G H names s = Done l e s') by (destruct names; [congruence|exact E]). clear NE E.
  revert l e s' P. induction names as [|nm names IH]; intros l e s' P; cbn [print_some] in P.
  { injection P as <- <- <-. split; [reflexivity|]. split; [intros c x; split; [intros []|intros (nm & z & [] & _)]|split; [intros _ nm []|reflexivity]]. }
  destruct (signal_number L G (map (up H) nm)) as [| |z] eqn:N; [discriminate| |].
  - destruct (print_some L G H names s) as [|l1 e1 s1]; [discriminate|]. injection P as <- <- <-. destruct (IH _ _ _ eq_refl) as (A & B & C). split; [exact A|]. split.
    + intros c x. rewrite B. split; intros (m & z & I & M & R); exists m, z; [split; [right; exact I|auto]|]. destruct I as [<-|I]; [|auto]. apply signal_words in M. congruence.
    + split; [discriminate|]. intro Q. destruct (Q nm (or_introl eq_refl)) as (z & M). apply signal_words in M. congruence.
  - rewrite (supported G HG z) in P. destruct (print_some L G H names s) as [|l1 e1 s1]; [discriminate|]. injection P as <- <- <-. destruct (IH _ _ _ eq_refl) as (A & B & C).
    assert (M0 : means G H nm z) by (apply signal_words; exact N). split; [exact A|]. split.
    + intros c x. rewrite in_app_iff, B, in_print. split.
      * intros [(a & Q & X)|(m & y & I & M & R)]; [injection X as -> ->; exists nm, z; split; [left; reflexivity|auto]|exists m, y; split; [right; exact I|auto]].
      * intros (m & y & [<-|I] & M & Q & X); [|right; exists m, y; auto]. left. apply signal_words in M. assert (y = z) by congruence. subst. eauto.
    + rewrite C. split; [intros Q m [<-|I]; [eauto|auto]|intros Q m I; apply Q; right; exact I].
Qed.
(** Running the printed lines in any shell sets the same traps and no others. *)
Theorem trap_restores s s1 : traps_ok G H s -> traps_ok G H s1 -> phantom s1 = false -> exists ls s2,
  trap L G H false [] s = Done ls false s /\ run L G H ls s1 = Done [] false s2
  /\ forall z, match cmd s z with Some c => cmd s2 z = Some c /\ (z <> 0 -> act s2 z = handled H (kind G z) (Some c) (act s1 z)) | None => cmd s2 z = cmd s1 z /\ act s2 z = act s1 z end.
Proof.
  intros T T1 P1. exists (print_all G s).
  destruct (run_spec L HL G HG H s T (print_all G s) s1 (print_sound L HL G HG H HU s) P1 T1) as (s2 & R & _ & _ & A & B).
  exists s2. split; [reflexivity|]. split; [exact R|]. intro z. destruct (cmd s z) as [c|] eqn:C.
  - rewrite <- C. apply A. destruct (print_complete L HL G HG H HU s c z (proj1 (proj1 (proj1 T z c C))) C) as (nm & I & D). eauto.
  - apply B. intros (c & nm & I & D). destruct (print_sound L HL G HG H HU s c nm I) as (y & D2 & C2). unfold denotes in *. assert (y = z) by congruence. congruence.
Qed.

(** ** Subshells *)
Lemma print_table_ext s s' : cmd s = cmd s' -> forall t pr, print_table t pr s' = print_table t pr s.
Proof. intro E. induction t as [|(nm, z) t IH]; intro pr; cbn [print_table]; [reflexivity|]. rewrite !IH, E. reflexivity. Qed.
(** On entering a subshell the output of [trap] stays the same, traps with commands are
    handled by default and ignored signals stay ignored. *)
Theorem subshell_traps r s : traps_ok G H s -> let s' := phantomize G H r s in
  traps_ok G H s' /\ trap L G H false [] s' = Done (print_all G s) false s'
  /\ (forall z, cmd s z = None \/ cmd s z = Some [] -> act s' z = act s z)
  /\ (phantom s = false -> forall z c, cmd s z = Some c -> c <> [] -> z <> 0 -> act s' z = handled H (kind G z) None (act s z)).
Proof.
  intro T. destruct (phantomize_spec G HG H r s T) as (A & B & _ & D & E). cbv zeta. split; [exact B|]. split; [|split].
  - unfold trap. f_equal. unfold print_all. rewrite A, (print_table_ext _ _ (eq_sym A)). reflexivity.
  - intros z [C|C]; apply D; rewrite C; reflexivity.
  - intros P z c C N. apply (E P z). rewrite C. destruct c; [congruence|reflexivity].
Qed.
(** The first trap set in the subshell removes the traps with commands. *)
Theorem subshell_set r s args c names l e s' : traps_ok G H s -> phantom s = false -> operands args c names ->
  trap L G H false args (phantomize G H r s) = Done l e s' ->
  forall z, ~ (exists nm, In nm names /\ means G H nm z) -> cmd s' z = match cmd s z with Some [] => Some [] | _ => None end.
Proof.
  intros T P O E z N. destruct (phantomize_spec G HG H r s T) as (A & B & C & _). destruct (trap_sets _ _ _ _ _ _ _ O B E) as (_ & _ & _ & X & _).
  destruct (X z (or_introl N)) as (X1 & _). rewrite X1, A. destruct C as [C|(C & C2)].
  - rewrite C. destruct (cmd s z) as [[|]|]; reflexivity.
  - rewrite C, P. specialize (C2 z P). destruct (cmd s z) as [[|]|]; cbn in *; congruence.
Qed.
End S.
Print Assumptions signal_words. Print Assumptions signal_name_number. Print Assumptions signal_word_valid. Print Assumptions signal_number_safe.
Print Assumptions trap_keeps_ok. Print Assumptions trap_sets. Print Assumptions trap_safe. Print Assumptions trap_usage. Print Assumptions trap_ignored.
Print Assumptions trap_prints. Print Assumptions trap_prints_some. Print Assumptions trap_restores. Print Assumptions subshell_traps. Print Assumptions subshell_set.

(** [trap - RTMAX-0] makes a shell compiled with [--debug] stop with a failed assertion. *)
Theorem signal_abort_refuted : exists nm, signal_number c_locale linux_debug nm = GAbort /\ trap c_locale linux_debug script false [str "-"; nm] no_traps = Abort.
Proof. exists (str "RTMAX-0"). vm_compute. auto. Qed.
Print Assumptions signal_abort_refuted.

(** * Examples *)
Definition some_traps : st := match trap c_locale linux script false [str "echo"; str "int"; str "SIGIO"; str "RTMAX-3"; str "exit"] no_traps with
  | Done _ _ s => match trap c_locale linux script false [[]; str "15"; str "36"] s with Done _ _ s => s | Abort => s end | Abort => no_traps end.
Example ex_words : sig_word linux (str "SIGRTMIN+02") 36 /\ signal_number c_locale linux (str "SIGRTMIN+02") = GNum 36
  /\ signal_number c_locale linux (str "RTMIN+31") = GNone /\ signal_number c_locale linux (str "SIGEXIT") = GNone
  /\ signal_number c_locale linux (str "33") = GNone /\ signal_number c_locale linux (str "RTMAX-30") = GNum 34 /\ signal_number c_locale linux (str "RTMAX-0") = GNum 64 /\ signal_name linux 50 = str "RTMAX-14".
Proof. split; [apply (signal_words c_locale c_locale_ok linux linux_ok); vm_compute; reflexivity|]. vm_compute. auto 7. Qed.
Example ex_valid : valid linux 64 /\ valid linux 29 /\ ~ valid linux 33.
Proof.
  unfold valid. split; [right; left; cbn; lia|]. split; [right; right; cbn; tauto|]. intros [X|[X|X]]; [lia|cbn in X; lia|cbn in X; intuition lia].
Qed.
Example ex_print : trap c_locale linux script false [] some_traps
  = Done [(str "echo", str "EXIT"); (str "echo", str "INT"); ([], str "TERM"); (str "echo", str "POLL"); ([], str "RTMIN+2"); (str "echo", str "RTMAX-3")] false some_traps.
Proof. vm_compute. reflexivity. Qed.
Example ex_ok : traps_ok linux script some_traps.
Proof.
  unfold some_traps. destruct (trap c_locale linux script false _ no_traps) as [|l e s] eqn:E; [vm_compute in E; discriminate|].
  assert (T : traps_ok linux script s) by (eapply (trap_keeps_ok c_locale c_locale_ok linux linux_ok script); [apply no_traps_ok|exact E]).
  destruct (trap c_locale linux script false _ s) as [|l2 e2 s2] eqn:E2; [exact T|]. eapply (trap_keeps_ok c_locale c_locale_ok linux linux_ok script); [exact T|exact E2].
Qed.
Example ex_operands : operands [str "-"; str "INT"] None [str "INT"] /\ operands [str "2"; str "INT"] None [str "2"; str "INT"]
  /\ operands [[]; str "hup"] (Some []) [str "hup"] /\ trappable linux script 2 /\ ~ trappable linux script 1.
Proof.
  split; [constructor|]. split; [apply O_number; [discriminate|change (str "2") with [50%N]; apply Forall_cons; [lia|apply Forall_nil]]|].
  split; [apply O_action; split; [discriminate|intros (X & _); congruence]|]. split; [unfold trappable; cbn; split; [right; right; cbn; tauto|]; split; [lia|]; split; [lia|auto]|].
  intros (_ & _ & _ & X). cbn in X. intuition discriminate.
Qed.
Example ex_sub : phantom (phantomize linux script false some_traps) = true /\ act some_traps 29 = Caught /\ act (phantomize linux script false some_traps) 29 = Dfl
  /\ act (phantomize linux script false some_traps) 15 = Ign /\ kind linux 29 = Plain
  /\ trap c_locale linux script true [str "poll"; str "1"; str "foo"] (phantomize linux script false some_traps) = Done [(str "echo", str "POLL")] true (phantomize linux script false some_traps).
Proof. vm_compute. auto 7. Qed.
