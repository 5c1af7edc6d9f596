(** Properties C85 to C89: the echo and printf built-ins. *)
From Coq Require Import Ascii String.
From Coq Require Import List NArith ZArith Bool Lia Arith.
From Coq Require Import ZifyBool ZifyN ZifyNat.
From Verif Require Import Common Locale NumModel NumProofs PrintfModel PrintfSpec PrintfEsc PrintfConv PrintfProofs PrintfRun.
Import ListNotations.
Local Open Scope N_scope.

(** A locale with ISO 8859-1 characters, where no floating-point number is printed *)
Definition latin (c : N) : option (list N) := if (0 <? c) && (c <? 256) then Some [c] else None.
Lemma latin_ok : ascii_enc latin.
Proof. intros c H. unfold latin. replace ((0 <? c) && (c <? 256)) with true by lia. reflexivity. Qed.
Definition no_flt (spec a : list N) : option (list N) := None.
Definition all_valid (a : list N) : bool := true.
Notation printf0 := (printf_builtin latin c_locale no_flt all_valid true).
Definition strs (l : list string) : list (list N) := map str l.

(** * C85: echo *)
Theorem echo_output : forall enc v st args esc nonl ops, ascii_enc enc ->
  has_style v st -> echo_opts st args esc nonl ops ->
  (exists o, echo_says enc esc nonl ops o /\ (forall o', echo_says enc esc nonl ops o' -> o' = o) /\
     echo_builtin enc true v args = Ok (mkOut o 0 0%Z)) \/
  (echo_builtin enc true v args = Ok (mkOut [] 1 1%Z) /\ exists a c, In a ops /\ In c a /\ enc c = None).
Proof.
  intros enc v st args esc nonl ops A Hv Ho.
  destruct (echo_run enc A v st args esc nonl ops Hv Ho) as (r & b & H & K).
  destruct r as [e|]; [left | right; split; assumption].
  eexists. split; [|split; [|exact H]]; unfold echo_says, ops_say in *; destruct esc.
  - exists b, e. split; [exact K | reflexivity].
  - destruct K as [K ->]. exists b. split; [exact K|]. rewrite orb_false_r. reflexivity.
  - intros o' (b' & e' & U & ->). destruct (unescape_fun enc A _ _ _ _ _ K U) as [<- <-]. reflexivity.
  - destruct K as [K ->]. intros o' (b' & U & ->). rewrite (encodes_fun enc _ _ _ K U), orb_false_r. reflexivity.
Qed.
Print Assumptions echo_output.
Theorem echo_arguments : forall v args, exists st esc nonl ops,
  has_style v st /\ echo_opts st args esc nonl ops /\
  forall st' esc' nonl' ops', has_style v st' -> echo_opts st' args esc' nonl' ops' ->
    st' = st /\ esc' = esc /\ nonl' = nonl /\ ops' = ops.
Proof.
  intros v args. destruct (style_exists v) as [st Hs]. destruct (echo_opts_exists st args) as (esc & nonl & ops & Ho).
  exists st, esc, nonl, ops. split; [exact Hs|]. split; [exact Ho|]. intros st' esc' nonl' ops' Hs' Ho'.
  assert (st' = st) as ->.
  { pose proof (style_iff _ _ Hs) as E. rewrite (style_iff _ _ Hs') in E.
    clear Ho Ho' esc esc' nonl nonl' ops ops'.
    destruct st, st'; try reflexivity; try discriminate E;
      destruct Hs as (c & w & -> & I), Hs' as (c' & w' & E' & I'); injection E' as <- <-;
      cbn in I, I'; destruct I as [<-|[<-|[]]]; destruct I' as [Q|[Q|[]]]; discriminate Q. }
  split; [reflexivity|].
  assert (Nn : n_option args nonl ops -> n_option args nonl' ops' -> nonl' = nonl /\ ops' = ops).
  { unfold n_option. destruct nonl, nonl'; intros P Q.
    - subst args. injection Q as <-. auto.
    - destruct Q as [-> Q]. subst args. destruct (Q eq_refl).
    - destruct P as [-> P]. subst args. destruct (P eq_refl).
    - destruct P as [-> _], Q as [-> _]. auto. }
  destruct st; cbn [echo_opts] in Ho, Ho'.
  - destruct Ho as (-> & -> & ->), Ho' as (-> & -> & ->). auto.
  - destruct Ho as (-> & P), Ho' as (-> & Q). auto.
  - destruct (gnu_unique _ _ _ _ _ _ _ _ Ho Ho') as (-> & -> & ->). auto.
  - destruct (gnu_unique _ _ _ _ _ _ _ _ Ho Ho') as (-> & -> & ->). auto.
  - destruct Ho as (-> & P), Ho' as (-> & Q). auto.
  - destruct Ho as (-> & -> & ->), Ho' as (-> & -> & ->). auto.
Qed.
Print Assumptions echo_arguments.
(** Any text can be printed by doubling its backslashes. *)
Theorem echo_any_text : forall enc v s bs, ascii_enc enc -> has_style v SYSV -> encodes enc s bs ->
  echo_builtin enc true v [doubled s] = Ok (mkOut (bs ++ [10]) 0 0%Z).
Proof.
  intros enc v s bs A Hv H.
  assert (U : unescape enc (doubled s) bs false).
  { induction H as [|c s b o E H IH]; [constructor|]. cbn [doubled]. destruct (c =? ch "\") eqn:Q.
    - apply N.eqb_eq in Q. subst c. rewrite A in E by (cbn; lia). injection E as <-.
      apply (ue_esc enc (ch "\") (ch "\")); [cbn; tauto | exact IH].
    - apply N.eqb_neq in Q. apply ue_char; assumption. }
  destruct (echo_output enc v SYSV [doubled s] true false [doubled s] A Hv) as [(o & P & Q & R)|(R & a & c & Ia & Ic & Ec)].
  - repeat split.
  - rewrite R. rewrite <- (Q (bs ++ [10])); [reflexivity|]. exists bs, false. split; [exact U | reflexivity].
  - exfalso. destruct Ia as [<-|[]]. clear - H Ic Ec. induction H as [|x s b o E H IH]; [contradiction|].
    cbn [doubled] in Ic. destruct (x =? ch "\"); cbn in Ic; [destruct Ic as [->|[->|Ic]] | destruct Ic as [->|Ic]];
      try congruence; auto.
Qed.
Print Assumptions echo_any_text.
Example echo_sample : map (fun a => echo_builtin latin true None (strs a))
    [["a\tb"; "c"]; ["-n"; "x"]; ["x\cy"; "z"]; ["\0101\q"]]%string =
  map (fun b => Ok (mkOut b 0 0%Z)) [str "a" ++ [9] ++ str "b c" ++ [10]; str "-n x" ++ [10]; str "x"; str "A\q" ++ [10]].
Proof. vm_compute. reflexivity. Qed.
Example echo_sample_gnu : echo_builtin latin true (Some (str "GNU")) (strs ["-nEe"; "-e"; "\a"; "-n"]%string) = Ok (mkOut (7 :: str " -n") 0 0%Z).
Proof. vm_compute. reflexivity. Qed.
Example echo_sample_bad : echo_builtin latin true None [str "a"; [300]] = Ok (mkOut [] 1 1%Z).
Proof. vm_compute. reflexivity. Qed.
Example has_style_sample : has_style (Some (str "GNU")) GNU /\ echo_opts GNU (strs ["-nEe"; "-e"; "\a"; "-n"]%string) true true (strs ["\a"; "-n"]%string).
Proof.
  split; [exists (ch "G"), (str "NU"); cbn; auto|]. exists (strs ["-nEe"; "-e"]%string). split; [reflexivity|]. split.
  { repeat constructor; [exists (str "nEe") | exists (str "e")]; (split; [reflexivity|]; split; [discriminate|]; repeat constructor; cbn; tauto). }
  split; [|split; [|cbn; tauto]].
  - intros w [= <-] (o & [= <-] & _).
  - apply (de_e false (str "-nEe-") []); cbn; tauto.
Qed.

(** * C86: the format of printf *)
(** A text that is no format prints nothing but a message. *)
Theorem printf_format : forall enc L fp fv fmt, ascii_enc enc ->
  (forall b args, (forall us, ~ is_format enc fmt us) ->
     printf_builtin enc L fp fv b (fmt :: args) = Ok (mkOut [] 1 1%Z)) /\
  (forall us args, is_format enc fmt us -> convs us = [] -> wide_ok args -> locale_ok L ->
     printf_builtin enc L fp fv true (fmt :: args) =
     Ok (mkOut (concat (map (fun u => match u with ULit b => b | UConv _ => [] end) us)) 0 0%Z)).
Proof.
  intros enc L fp fv fmt A. split; [intros b args H; apply printf_bad_format; assumption|].
  intros us args F C W Lok.
  destruct (printf_run enc A L Lok fp fv fmt us args F W) as (o & m & [(R & S)|(R & S)]).
  - destruct (says_literal enc L fp fv us args o m S C) as [-> ->]. exact R.
  - exfalso. revert R. unfold printf_builtin.
    destruct (format_complete enc A fp fv fmt us F (length fmt) [] (le_n _)) as (fs & -> & D). cbn [rbind].
    specialize (D [] eq_refl). cbn in D.
    assert (Q : forall fs us, den fs us -> convs us = [] -> forall args buf m, exists o,
      printf_once enc L fp fv fs args buf m = Ok (PR_OK, o, args, m)).
    { clear. intros fs us D. induction D as [| fs us D IH | fs us D IH | ls fs us D IH | cv fs us K D IH]; intros E args buf m.
      - eexists. reflexivity.
      - apply IH. exact E.
      - cbn [printf_once]. unfold printf_printf. rewrite next_eq. cbn [rbind]. rewrite Nat.add_0_r. apply IH. exact E.
      - cbn [printf_once]. unfold printf_printf. rewrite next_eq. cbn [rbind]. rewrite Nat.add_0_r. apply IH.
        rewrite convs_lits in E. exact E.
      - discriminate. }
    destruct (Q fs us D C args [] 0%nat) as [o' Q']. cbn [printf_loop]. rewrite Q'. cbn [rbind].
    rewrite Nat.eqb_refl, andb_false_r. cbn [rbind]. discriminate.
Qed.
Print Assumptions printf_format.
Example printf_format_sample : map (fun f => printf0 [str f; str "x"])
    ["50%%\n"; "\101\q"; "%"; "%y"; "%#s"; "%5.3"; "\\%%c"]%string =
  [Ok (mkOut (str "50%" ++ [10]) 0 0%Z); Ok (mkOut (str "A\q") 0 0%Z); Ok (mkOut [] 1 1%Z); Ok (mkOut [] 1 1%Z);
   Ok (mkOut [] 1 1%Z); Ok (mkOut [] 1 1%Z); Ok (mkOut (str "\%c") 0 0%Z)].
Proof. vm_compute. reflexivity. Qed.

(** * C87: use of the operands *)
Theorem printf_output : forall enc L fp fv fmt us args, ascii_enc enc -> locale_ok L ->
  is_format enc fmt us -> wide_ok args ->
  (exists o m, says enc L fp fv us args o m /\
     printf_builtin enc L fp fv true (fmt :: args) = Ok (mkOut o m (if Nat.eqb m 0 then 0%Z else 1%Z))) \/
  ((exists m, printf_builtin enc L fp fv true (fmt :: args) = Ok (mkOut [] (S m) 1%Z)) /\ ~ fits enc us args).
Proof.
  intros enc L fp fv fmt us args A Lok F W.
  destruct (printf_run enc A L Lok fp fv fmt us args F W) as (o & m & [(R & S)|(R & S)]); [left | right]; eauto.
Qed.
Print Assumptions printf_output.
(** A format with [k] conversions is used once for each [k] operands. *)
Theorem printf_groups : forall enc L fp fv fmt us args, ascii_enc enc -> locale_ok L ->
  is_format enc fmt us -> wide_ok args -> fits enc us args -> grouping us args -> convs us <> [] ->
  exists gs os m, in_groups (length (convs us)) args gs /\
    Forall2 (fun g o => exists m, once enc L fp fv us g o [] m false) gs os /\
    printf_builtin enc L fp fv true (fmt :: args) = Ok (mkOut (concat os) m (if Nat.eqb m 0 then 0%Z else 1%Z)).
Proof.
  intros enc L fp fv fmt us args A Lok F W Fi G K.
  destruct (printf_output enc L fp fv fmt us args A Lok F W) as [(o & m & S & R)|(_ & N)]; [|contradiction].
  destruct (says_groups enc L fp fv us args o m S G K) as (gs & os & I1 & I2 & ->). eauto 6.
Qed.
Print Assumptions printf_groups.
(** %c leaves an empty operand, so that those after it are not printed. *)
Theorem printf_all_operands_refuted : exists args, In (str "a") args /\
  printf0 (str "%c" :: args) = Ok (mkOut [] 0 0%Z).
Proof. exists [[]; str "a"]. split; [cbn; auto | vm_compute; reflexivity]. Qed.
Print Assumptions printf_all_operands_refuted.
Example printf_groups_sample :
  printf0 (strs ["%s=%d,"; "a"; "1"; "b"; "2"; "c"]%string) = Ok (mkOut (str "a=1,b=2,c=0,") 0 0%Z) /\
  printf0 (strs ["%s=%d,"]%string) = Ok (mkOut (str "=0,") 0 0%Z).
Proof. vm_compute. auto. Qed.

(** * C88: integers *)
Lemma int_text_unique : forall L, locale_ok L -> forall s v v', int_text L s v -> int_text L s v' -> v = v'.
Proof.
  intros L Lok s v v' H H'. destruct (skip_space_spec L s) as (sp & r & -> & H1 & _ & H2).
  apply (int_text_spaces L Lok) in H, H'; [|assumption|assumption].
  apply signed_iff in H, H'; [|assumption|assumption]. congruence.
Qed.
Lemma operand_value : forall L a v z m, locale_ok L -> int_text L a v -> is_long v ->
  int_arg L true (Some a) z m -> z = v /\ m = 0%nat.
Proof.
  intros L a v z m Lok H R I.
  assert (Q : forall q s, quote_char q -> ~ int_text L (q :: s) v).
  { intros q s Hq T.
    assert (Hc : forall w, ~ int_const (q :: s) w).
    { intros w C. apply const_head in C. destruct C as (c & w' & E & D). injection E as <- _. apply digit_ascii in D.
      destruct Hq as [->| ->]; cbn in D; lia. }
    inversion T as [? ? C|? ? C E|? ? C E|? ? ? S C]; subst.
    - exact (Hc _ C).
    - destruct Hq as [Hq|Hq]; discriminate Hq.
    - destruct Hq as [Hq|Hq]; discriminate Hq.
    - rewrite (nospace_ascii L Lok) in S; [discriminate|]. destruct Hq as [->| ->]; cbn; lia. }
  inversion I as [|q x s Hq|q Hq|a' v' T R'|a' v' T R'|a' z' T _ _]; subst.
  - destruct (Q _ _ Hq H).
  - destruct (Q _ _ Hq H).
  - cbn in R'. split; [|reflexivity]. assert (E : Some z = Some v); [|injection E; auto].
    rewrite <- (proj2 (xwcstol_iff L Lok a z) (conj T R')). apply xwcstol_iff; auto.
  - exfalso. apply R'. cbn. replace v' with v; [exact R|].
    exact (int_text_unique L Lok a v v' H T).
  - destruct (T v H).
Qed.

Lemma single : forall enc L fp fv cv a o m, says enc L fp fv [UConv cv] [a] o m ->
  cv_c cv <> ch "c" -> cv_c cv <> ch "b" -> shows enc L fp fv cv (Some a) o true m false.
Proof.
  intros enc L fp fv cv a o m H Nc Nb.
  assert (One : forall o rest m e, once enc L fp fv [UConv cv] [a] o rest m e ->
    rest = [] /\ shows enc L fp fv cv (Some a) o true m false).
  { intros o' rest m' e T.
    inversion T as [| |cv' us args' o1 u m1 o2 rest' m2 e' S U|cv' us args' o1 u m1 S]; subst.
    - inversion U; subst. rewrite app_nil_r, Nat.add_0_r.
      assert (u = true) as -> by (destruct S; auto; contradiction). split; [reflexivity | exact S].
    - exfalso. inversion S; subst; contradiction. }
  inversion H as [? ? rest ? e T _ | ? o1 rest m1 o2 m2 T N1 N2 _]; subst.
  - apply (One _ _ _ _ T).
  - destruct (One _ _ _ _ T) as [-> _]. congruence.
Qed.
(** What %d prints is read back as the same number. *)
Theorem printf_readback : forall enc L fp fv cv a v, ascii_enc enc -> locale_ok L ->
  conv_ok cv -> conv_fits cv -> In (cv_c cv) (str "di") -> Forall (fun c => In c (str "+ ")) (cv_fl cv) ->
  cv_p cv = None -> int_text L a v -> is_long v -> wide_ok [a] -> arg_fits enc a ->
  exists o, printf_builtin enc L fp fv true [conv_text cv; a] = Ok (mkOut o 0 0%Z) /\ int_text L o v.
Proof.
  intros enc L fp fv cv a v A Lok K F Hc Hf Hp Ha R W Fa.
  assert (Fm : is_format enc (conv_text cv) [UConv cv]).
  { rewrite <- (app_nil_r (conv_text cv)). apply if_conv; [exact K | constructor]. }
  assert (Cn : cv_c cv <> ch "c" /\ cv_c cv <> ch "b").
  { cbn in Hc. destruct Hc as [<-|[<-|[]]]; split; discriminate. }
  destruct (printf_output enc L fp fv _ _ [a] A Lok Fm W) as [(o & m & S & E)|(_ & N)].
  2: { exfalso. apply N. split; [intros c [<-|[]]; exact F | intros x [<-|[]]; exact Fa]. }
  apply single in S; [|apply Cn | apply Cn].
  inversion S as [? ? ? ? Q|? ? ? ? ? Q|Q|z ? ? _ I J|? ? ? Q|? ? Q|? ? ? ? ? ? Q]; subst;
    try (exfalso; clear - Q Hc; cbn in Hc; destruct Hc as [Hc|[Hc|[]]]; rewrite <- Hc in Q; cbn in Q; intuition discriminate).
  destruct (operand_value L a v z m Lok Ha R I) as [-> ->].
  exists o. split; [exact E|].
  destruct J as (w & sg & zs & ds & Hw & Hs & Hd & Hj).
  assert (N0 : forall f, In f (str "-0#") -> ~ flag cv f).
  { intros f Hi Q. unfold flag in Q. rewrite Forall_forall in Hf. apply Hf in Q. cbn in Hi, Q. intuition congruence. }
  assert (Num : canonical 10 false ds (Z.to_N (Z.abs v)) /\ zs = []).
  { destruct Hd as (b & p & Hb & Hq & Hz & k & Hk & Hk').
    unfold prec in Hq. rewrite Hp in Hq. destruct p; [contradiction|]. rewrite andb_false_r in Hz.
    assert (b = 10%Z) as ->.
    { destruct Hb as [[Q _]|[[Q _]|[_ Q]]]; [| |exact Q]; exfalso; clear - Q Hc; cbn in Hc;
        destruct Hc as [Hc|[Hc|[]]]; rewrite <- Hc in Q; cbn in Q; intuition discriminate. }
    replace (cv_c cv =? ch "X") with false in Hz by (cbn in Hc; destruct Hc as [<-|[<-|[]]]; reflexivity).
    split; [exact Hz|]. destruct Hk' as [(Q & _)|(_ & ->)].
    - exfalso. clear - Q Hc. cbn in Hc. destruct Hc as [Hc|[Hc|[]]]; rewrite <- Hc in Q; discriminate.
    - destruct k; [reflexivity | lia]. }
  destruct Num as [(Nu & Nz & _) ->]. cbn [app] in Hj.
  assert (C : int_const ds (Z.abs v)).
  { rewrite Z2N.id in Nu by lia. destruct ds as [|d ds].
    { apply numeral_iff in Nu; [|lia]. destruct Nu as [Q _]. congruence. }
    destruct (N.eq_dec d (ch "0")) as [->|Nd]; [|apply ic_dec; assumption].
    specialize (Nz eq_refl). injection Nz as ->. apply ic_oct. apply numeral_iff in Nu; [|lia]. apply numeral_iff; [lia|].
    destruct Nu as (Q1 & Q2 & Q3). split; [discriminate|]. split; [cbn; lia|]. cbn in Q3 |- *. lia. }
  assert (Body : int_text L (sg ++ ds) v).
  { unfold sign_of in Hs. rewrite (proj2 (existsb_exists _ _)) in Hs by (exists (cv_c cv); split; [exact Hc | apply N.eqb_refl]).
    destruct Hs as [(Q & ->)|[(Q & _ & ->)|[(Q & _ & _ & ->)|(Q & _ & _ & ->)]]]; cbn [app].
    - replace v with (- Z.abs v)%Z by lia. apply it_minus. exact C.
    - replace v with (Z.abs v) by lia. apply it_plus. exact C.
    - replace v with (Z.abs v) by lia. apply it_space; [rewrite (lk_space L Lok) by (cbn; lia); reflexivity | apply it_plain; exact C].
    - replace v with (Z.abs v) by lia. apply it_plain. exact C. }
  destruct Hj as [(Q & _)|(_ & k & _ & [(Q & _)|(_ & ->)])].
  - destruct (N0 (ch "0")); [cbn; auto | exact Q].
  - destruct (N0 (ch "-")); [cbn; auto | exact Q].
  - apply (int_text_spaces L Lok); [|exact Body]. apply Forall_forall. intros x Hx. apply repeat_spec in Hx. subst x.
    rewrite (lk_space L Lok) by (cbn; lia). reflexivity.
Qed.
Print Assumptions printf_readback.
(** An operand that is no number, or too large, makes a message and the exit status is not zero,
    but the output goes on. *)
Theorem printf_bad_number : forall enc L fp fv cv a, ascii_enc enc -> locale_ok L ->
  conv_ok cv -> conv_fits cv -> In (cv_c cv) (str "di") -> wide_ok [a] -> arg_fits enc a ->
  (forall q, hd_error a = Some q -> ~ quote_char q) -> (forall v, int_text L a v -> ~ is_long v) ->
  exists o z, printf_builtin enc L fp fv true [conv_text cv; a] = Ok (mkOut o 1 1%Z) /\
    is_long z /\ (forall v, int_text L a v -> z = if (v <? 0)%Z then LONG_MIN else LONG_MAX) /\
    int_field cv (z <? 0)%Z (Z.to_N (Z.abs z)) o.
Proof.
  intros enc L fp fv cv a A Lok K F Hc W Fa Hq Hn.
  assert (Fm : is_format enc (conv_text cv) [UConv cv]).
  { rewrite <- (app_nil_r (conv_text cv)). apply if_conv; [exact K | constructor]. }
  assert (Cn : cv_c cv <> ch "c" /\ cv_c cv <> ch "b").
  { cbn in Hc. destruct Hc as [<-|[<-|[]]]; split; discriminate. }
  destruct (printf_output enc L fp fv _ _ [a] A Lok Fm W) as [(o & m & S & E)|(_ & N)].
  2: { exfalso. apply N. split; [intros c [<-|[]]; exact F | intros x [<-|[]]; exact Fa]. }
  apply single in S; [|apply Cn | apply Cn].
  inversion S as [? ? ? ? Q|? ? ? ? ? Q|Q|z ? ? _ I J|? ? ? Q|? ? Q|? ? ? ? ? ? Q]; subst;
    try (exfalso; clear - Q Hc; cbn in Hc; destruct Hc as [Hc|[Hc|[]]]; rewrite <- Hc in Q; cbn in Q; intuition discriminate).
  inversion I as [|q x s Hq'|q Hq'|a' v' T R'|a' v' T R'|a' z' T _ R']; subst.
  - destruct (Hq q eq_refl Hq').
  - destruct (Hq q eq_refl Hq').
  - destruct (Hn z T R').
  - exists o, (if (v' <? 0)%Z then LONG_MIN else LONG_MAX). split; [exact E|]. split; [|split; [|exact J]].
    + unfold is_long, LONG_MIN, LONG_MAX. destruct (v' <? 0)%Z; lia.
    + intros v Hv. rewrite (int_text_unique L Lok a v v' Hv T). reflexivity.
  - exists o, z. split; [exact E|]. split; [exact R'|]. split; [|exact J]. intros v Hv. destruct (T v Hv).
Qed.
Print Assumptions printf_bad_number.
Example printf_int_sample : map (fun a => printf0 (strs a))
    [["%+d"; "0x1F"]; ["%5d|%-5d|%05d"; "-7"; "-7"; "-7"]; ["%#x %#o %X"; "255"; "8"; "43981"]; ["%.0d%.3d"; "0"; "5"];
     ["%d"; "'A"]]%string =
  map (fun b => Ok (mkOut b 0 0%Z)) (strs ["+31"; "   -7|-7   |-0007"; "0xff 010 ABCD"; "005"; "65"]%string) /\
  printf0 (strs ["%d,%d"; "12x"; "99999999999999999999"]%string) = Ok (mkOut (str "12,9223372036854775807") 2 1%Z).
Proof. vm_compute. auto. Qed.

(** * C89: strings *)
Theorem printf_lines : forall enc L fp fv args, ascii_enc enc -> locale_ok L -> args <> [] ->
  wide_ok args -> (forall a, In a args -> arg_fits enc a) ->
  exists bss, Forall2 (encodes enc) args bss /\
    printf_builtin enc L fp fv true (str "%s\n" :: args) = Ok (mkOut (concat (map (fun b => b ++ [10]) bss)) 0 0%Z).
Proof.
  intros enc L fp fv args A Lok Ne W Fa.
  set (cv := mkConv [] [] None (ch "s")).
  assert (K : conv_ok cv).
  { split; cbn; try discriminate; try tauto; constructor. }
  assert (Fm : is_format enc (str "%s\n") [UConv cv; ULit [10]]).
  { change (str "%s\n") with (conv_text cv ++ str "\n"). apply if_conv; [exact K|].
    apply (if_esc enc (ch "n") 10); [cbn; tauto | constructor]. }
  assert (F : conv_fits cv).
  { split; [cbn; intuition discriminate|]. split; [|intros p Q; cbn in Q; contradiction].
    intros w [[_ ->]|Q]; [discriminate|]. apply numeral_iff in Q; [|lia]. destruct Q as [Q _]. cbn in Q. congruence. }
  destruct (printf_output enc L fp fv _ _ args A Lok Fm W) as [(o & m & S & E)|(_ & N)].
  2: { exfalso. apply N. split; [intros c [<-|[]]; exact F | exact Fa]. }
  rewrite E. clear E K Fm F W Fa.
  enough (G : m = 0%nat /\ exists bss, Forall2 (encodes enc) args bss /\ o = concat (map (fun b => b ++ [10]) bss)).
  { destruct G as (-> & bss & G & ->). exists bss. split; [exact G | reflexivity]. }
  assert (One : forall args o rest m e, once enc L fp fv [UConv cv; ULit [10]] args o rest m e ->
    m = 0%nat /\ e = false /\ rest = tl args /\ forall a, hd_error args = Some a -> exists b, encodes enc a b /\ o = b ++ [10]).
  { clear. intros args o rest m e H.
    assert (Sh : forall arg o u m e, shows enc L fp fv cv arg o u m e -> m = 0%nat /\ u = true /\ e = false /\
      forall a, arg = Some a -> encodes enc a o).
    { clear. intros arg o u m e H.
      inversion H as [w p t o' Q Hw Hp Ht Hj|? ? ? ? ? Q|Q|? ? ? Q|? ? ? Q|? ? Q|? ? ? ? ? ? Q]; subst;
        try (exfalso; cbn in Q; intuition discriminate).
      repeat split; auto. intros a ->. destruct p; [contradiction|]. cbn in Ht.
      destruct Hw as [[_ ->]|Hw]; [|apply numeral_iff in Hw; [|lia]; destruct Hw as [Hw _]; cbn in Hw; congruence].
      destruct Hj as (k & Hk & [(Hf & _)|(_ & ->)]); [contradiction|]. destruct k; [exact Ht | lia]. }
    inversion H as [| |cv' us args' o1 u m1 o2 rest' m2 e' S T|cv' us args' o1 u m1 S]; subst.
    - destruct (Sh _ _ _ _ _ S) as (-> & -> & _ & B).
      inversion T as [|? ? ? o3 ? ? ? T'| |]; subst. inversion T'; subst. repeat split; auto.
      intros a Ha. exists o1. split; [apply B; exact Ha | reflexivity].
    - destruct (Sh _ _ _ _ _ S) as (_ & _ & Q & _). discriminate. }
  induction S as [args o rest m e H E | args o rest m o' m' H N1 N2 S IH].
  - destruct (One _ _ _ _ _ H) as (-> & -> & -> & B). split; [reflexivity|].
    destruct args as [|a args]; [congruence|]. destruct (B a eq_refl) as (b & Hb & ->). cbn [tl] in E.
    assert (args = []) as ->.
    { destruct E as [E|[E|E]]; [discriminate | exact E|]. apply (f_equal (@length _)) in E. cbn in E. lia. }
    exists [b]. split; [repeat constructor; exact Hb|]. cbn. rewrite app_nil_r. reflexivity.
  - destruct (One _ _ _ _ _ H) as (-> & _ & -> & B). destruct (IH N1) as (-> & bss & I1 & ->). split; [reflexivity|].
    destruct args as [|a args]; [congruence|]. destruct (B a eq_refl) as (b & Hb & ->). exists (b :: bss).
    split; [constructor; assumption | reflexivity].
Qed.
Print Assumptions printf_lines.
(** If the output cannot be written the exit status is not zero. *)
Theorem output_error : forall enc L fp fv v args out,
  printf_builtin enc L fp fv false args = Ok out \/ echo_builtin enc false v args = Ok out ->
  o_bytes out = [] /\ (o_msgs out > 0)%nat /\ o_status out <> 0%Z.
Proof.
  intros enc L fp fv v args out [H|H].
  - unfold printf_builtin in H. destruct args as [|fmt args]; [injection H as <-; cbn; repeat split; [lia | discriminate]|].
    destruct (printf_parse_format _ _ _ _) as [[fs|]| |]; try discriminate; cbn [rbind] in H.
    + destruct (printf_loop _ _ _ _ _ _ _ _ _) as [[[r b] m]| |]; try discriminate; cbn [rbind] in H.
      destruct r; injection H as <-; cbn; (repeat split; [lia | discriminate]).
    + injection H as <-; cbn; (repeat split; [lia | discriminate]).
  - unfold echo_builtin in H. destruct (if eo_e (echo_style v) then _ else _) as [[n e] ops].
    destruct (echo_args _ _ _ _) as [[[s|] b]| |]; try discriminate; cbn [rbind] in H.
    + destruct (n || s); [injection H as <-; cbn; (repeat split; [lia | discriminate])|].
      destruct (enc 10); injection H as <-; cbn; (repeat split; [lia | discriminate]).
    + injection H as <-; cbn; (repeat split; [lia | discriminate]).
Qed.
Print Assumptions output_error.
Example printf_str_sample : map (fun a => printf0 (strs a))
    [["%s\n"; "a\b"; ""; "%d"]; ["%5.2s|%-4s|"; "xyz"; "ab"]; ["[%b]"; "a\tb\0101"]; ["<%b>"; "a\cb"; "c"]; ["%c%c"; "xy"; "zw"]]%string =
  map (fun b => Ok (mkOut b 0 0%Z)) [str "a\b" ++ [10; 10] ++ str "%d" ++ [10]; str "   xy|ab  |"; str "[a" ++ [9] ++ str "bA]"; str "<a"; str "xz"].
Proof. vm_compute. reflexivity. Qed.
