(** Theorems about shell options and the [set] built-in (C110-C113). *)
From Coq Require Import Ascii String.
From Coq Require Import List NArith Bool Arith Lia.
From Verif Require Import Common OptModel OptSpec Opt.
Import ListNotations.

(** Running what [set +o] printed restores every option that can be set, from any state;
    nothing else changes. *)
Theorem set_restores : forall L tty S T,
  nl_ok L -> wf S -> wf T -> (tty = true \/ val S i_monitor = false) ->
  exists T', run_script L tty (script_cmds (restoring_text table S)) T = Some (true, T')
    /\ (forall j, resettable j -> val T' j = val S j)
    /\ (forall j, ~ resettable j -> val T' j = val T j)
    /\ lineedit T' = lineedit S /\ convmeta T' = convmeta S /\ params T' = params T.
Proof.
  intros L tty S T OK WS WT MO. unfold restoring_text. rewrite (restoring_words S table 0 eq_refl).
  destruct (restoring_ok L tty S OK WS MO table 0 T eq_refl WT) as (T' & A & W & P & B & C).
  { intros j J. lia. }
  exists T'. split; [exact A|]. split; [exact B|]. split; [exact C|].
  assert (R : resettable i_vi /\ resettable i_emacs /\ resettable i_yesconv /\ resettable i_noconv).
  { unfold resettable. repeat split; eexists; split; vm_compute; reflexivity. }
  destruct R as (R1 & R2 & R3 & R4).
  split; [rewrite (wf_edit _ W), (wf_edit _ WS), (B _ R1), (B _ R2); reflexivity|].
  split; [rewrite (wf_conv _ W), (wf_conv _ WS), (B _ R3), (B _ R4); reflexivity|exact P].
Qed.
Print Assumptions set_restores.

(** Letters: after [set -abc] exactly the letters [a], [b] and [c] are added to [$-]; after
    [set +abc] exactly they are gone. *)
Theorem set_letters : forall L tty (en : bool) cs st,
  cs <> [] -> Forall (settable tty) cs ->
  exists st', set_cmd L tty [ch (if en then "-" else "+")%char :: cs] st = Some (true, st')
    /\ params st' = params st
    /\ forall c, In c (hyphen_param st')
       <-> if en then In c cs \/ In c (hyphen_param st) else ~ In c cs /\ In c (hyphen_param st).
Proof.
  intros L tty en cs st NE F. destruct (parse_short_letters L tty en [] cs st F) as (st' & P & _ & PA & H).
  exists st'. split; [|auto]. destruct cs as [|d cs]; [congruence|].
  assert (N : d <> ch "-" /\ d <> ch "+").
  { inversion F as [|? ? (o & p & LO & _) _]. apply letter_facts in LO. tauto. }
  destruct N as (N1 & N2). unfold set_cmd. cbn [length parse_args].
  destruct en.
  - rewrite !N.eqb_refl. cbn [orb]. destruct (N.eqb_spec (ch "-") d); [congruence|]. rewrite P. reflexivity.
  - rewrite !N.eqb_refl. replace (ch "+" =? ch "-")%N with false by reflexivity. cbn [orb].
    destruct (N.eqb_spec (ch "+") d); [congruence|]. rewrite P. reflexivity.
Qed.
Print Assumptions set_letters.
(** What is in [$-]: the letters of what options have the values that the letters stand for *)
Theorem hyphen_letters : forall c st, In c (hyphen_param st) <-> exists o p, letter_of c o p /\ val st o = p.
Proof. exact (fun c st => hyphen_param_in c st). Qed.
Print Assumptions hyphen_letters.

(** Names: a name given to [set -o] is that of the option it means and nothing happens
    if it means none; [test -o] then gives what was set. *)
Theorem option_names : forall L tty n (en : bool) st,
  (forall o neg, meaning (normalize L n) o neg ->
     (exists ok st', set_cmd L tty [if en then str "-o" else str "+o"; n] st = Some (ok, st')
        /\ set_effect tty o (xorb neg en) st ok st')
     /\ test_option L n st = Some (xorb neg (val st o)))
  /\ ((forall o neg, ~ meaning (normalize L n) o neg) ->
     set_cmd L tty [if en then str "-o" else str "+o"; n] st = Some (false, st) /\ test_option L n st = None).
Proof.
  intros L tty n en st. rewrite set_cmd_o. split.
  - intros o neg M. split.
    { rewrite (set_named_meaning _ _ _ _ _ _ _ M). pose proof (set_option_effect tty o (xorb neg en) st) as X.
      destruct (set_option tty o (xorb neg en) st) as [ok st']. exists ok, st'. auto. }
    unfold test_option. rewrite collect_norm, (collect_meaning _ _ _ M).
    destruct neg, (val st o); reflexivity.
  - intro NM. split; [apply set_named_invalid, NM|]. unfold test_option. rewrite collect_norm.
    destruct (collect_n (normalize L n)) as [[|o [|o' l]] k] eqn:E; try reflexivity.
    exfalso. destruct (collect_single _ _ _ E) as (neg & M & _). apply (NM _ _ M).
Qed.
Print Assumptions option_names.
Theorem set_then_test : forall L tty n (en : bool) st st',
  set_cmd L tty [if en then str "-o" else str "+o"; n] st = Some (true, st') -> test_option L n st' = Some en.
Proof.
  intros L tty n en st st' H. rewrite set_cmd_o in H. destruct (meaning_dec (normalize L n)) as [(o & neg & M)|NM].
  - rewrite (set_named_meaning _ _ _ _ _ _ _ M) in H. rewrite (proj2 (proj1 (option_names L tty n en st') o neg M)).
    assert (V : val st' o = xorb neg en).
    { unfold set_option in H. destruct (nth_error table o) as [e|]; [|discriminate]. destruct (negb (o_reset e)); [discriminate|].
      injection H as H1 H2. rewrite H2 in H1. apply eqb_prop, H1. }
    rewrite V. destruct neg, en; reflexivity.
  - rewrite (set_named_invalid _ _ _ _ _ NM) in H. discriminate.
Qed.
Print Assumptions set_then_test.
(** A name means one option only, and each option is meant by its name and its opposite. *)
Theorem meaning_unique : forall n o neg o' neg', meaning n o neg -> meaning n o' neg' -> o = o' /\ neg = neg'.
Proof.
  intros n o neg o' neg' A B. apply collect_meaning in A, B. rewrite A in B. inversion B. split; [reflexivity|]. destruct neg, neg'; congruence.
Qed.
Print Assumptions meaning_unique.

(** [set] never fails an assertion whatever its arguments are; consistent options stay
    consistent, options that cannot be set are kept, and so are the parameters unless [set]
    succeeds with operands, which are then the last arguments. *)
Theorem set_safe : forall L tty args st, nl_ok L ->
  exists b st', set_cmd L tty args st = Some (b, st')
   /\ (wf st -> wf st') /\ (forall j, ~ resettable j -> val st' j = val st j)
   /\ (params st' = params st \/ b = true /\ exists pre, args = pre ++ params st').
Proof. intros L tty args st OK. apply parse_args_total; [exact OK|lia]. Qed.
Print Assumptions set_safe.
Theorem set_operands : forall L tty args st,
  set_cmd L tty (str "--" :: args) st = Some (true, set_params args st).
Proof. reflexivity. Qed.
Print Assumptions set_operands.

(** * Examples *)
Lemma c_nl_ok : nl_ok c_nl.
Proof.
  constructor; [|reflexivity]. intros c H. cbn [c_nl alnum lower]. rewrite H. split; [reflexivity|].
  unfold ascii_lowercase in H. apply andb_true_iff in H. destruct H as (A & B). apply N.leb_le in A, B.
  destruct (N.leb_spec 65 c), (N.leb_spec c 90); cbn; auto; lia.
Qed.
Definition st0 : ost := mkO (fun i => existsb (Nat.eqb i) [1; 3; 13; 16; 41; i_emacs]) Emacs Auto [str "p"].
Definition st1 : ost := mkO (fun i => existsb (Nat.eqb i) [0; 20; i_vi; i_noconv; i_monitor]) Vi No [].
Example ex_wf : wf st0 /\ wf st1. Proof. split; constructor; vm_compute; reflexivity. Qed.
Example ex_restore : exists T', run_script c_nl true (script_cmds (restoring_text table st1)) st0 = Some (true, T')
  /\ hyphen_param T' = str "aCnfmu" /\ hyphen_param st0 = [] /\ hyphen_param st1 = str "aCnfimu" /\ lineedit T' = Vi.
Proof. eexists. split; [vm_compute; reflexivity|]. vm_compute. auto. Qed.
Example ex_letters : Forall (settable true) (str "eCm").
Proof.
  repeat constructor.
  - exists 11, true. split; [eexists; split; [reflexivity|split; [discriminate|reflexivity]]|]. split; [eexists; split; reflexivity|discriminate].
  - exists 3, false. split; [eexists; split; [reflexivity|split; [discriminate|reflexivity]]|]. split; [eexists; split; reflexivity|discriminate].
  - exists 33, true. split; [eexists; split; [reflexivity|split; [discriminate|reflexivity]]|]. split; [eexists; split; reflexivity|reflexivity].
Qed.
(** [noc] is short for the opposite of [clobber] or others, [No-Clob] is that only,
    [notify] is an option although it starts with [no], and [log] is an option although [login] starts with it. *)
Example ex_names : test_option c_nl (str "noc") st0 = None /\ test_option c_nl (str "No-Clob") st0 = Some false
  /\ test_option c_nl (str "log") st0 = Some false /\ test_option c_nl (str "no_log") st0 = Some true
  /\ test_option c_nl (str "notify") st0 = Some false /\ test_option c_nl (str "lo") st0 = None.
Proof. vm_compute. repeat split; reflexivity. Qed.
Example ex_meaning : meaning (str "log") 30 false /\ meaning (str "nolog") 30 true /\ meaning (str "notify") 34 false.
Proof. repeat split; left; eexists; split; reflexivity. Qed.
Example ex_set : exists st', set_cmd c_nl false [str "-eo"; str "pipe-fail"; str "--NoGlob"; str "x"; str "-y"] st0 = Some (true, st')
  /\ hyphen_param st' = str "ef" /\ params st' = [str "x"; str "-y"].
Proof. eexists. split; [vm_compute; reflexivity|]. vm_compute. auto. Qed.
Example ex_nomon : exists st', set_cmd c_nl false [str "-m"] st0 = Some (false, st') /\ hyphen_param st' = [].
Proof. eexists. split; [vm_compute; reflexivity|]. vm_compute. auto. Qed.
