(** Properties C80 to C84: the test built-in. *)
From Coq Require Import Ascii String.
From Coq Require Import List NArith ZArith Bool Lia Arith.
From Coq Require Import ZifyBool ZifyN.
From Verif Require Import Common Locale NumModel NumProofs TestModel TestSpec TestPrim TestLong TestShort TestVersion.
Import ListNotations.

(** An environment: POSIX locale, ASCII words can be converted, no files but
    "old" and "new", every regular expression is valid and matches only itself. *)
Fixpoint code_coll (l r : list N) : Z :=
  match l, r with
  | [], [] => 0
  | [], _ :: _ => -1
  | _ :: _, [] => 1
  | c :: l', d :: r' => if (c =? d)%N then code_coll l' r' else if (c <? d)%N then -1 else 1
  end%Z.
Lemma code_first : coll_first code_coll.
Proof.
  split; [|split]; intros; cbn; try lia.
  destruct (N.eqb_spec c d); [congruence|]. destruct (N.ltb_spec c d).
  - symmetry. apply N.compare_lt_iff. auto.
  - symmetry. apply N.compare_gt_iff. lia.
Qed.
Definition posix_env : tenv :=
  mkTenv c_locale code_coll
    (fun w => if forallb (fun c => c <? 128)%N w then Some w else None)
    (fun _ => true) list_N_eqb (fun fd => (fd =? 0)%Z) (fun _ => false) (fun _ => false)
    (fun _ _ => true)
    (fun f => if list_N_eqb f (str "old") then Some (mkStat 1 1 10 0)
              else if list_N_eqb f (str "new") then Some (mkStat 1 2 20 0) else None).

Definition ws (l : list string) : list (list N) := map str l.

(** ** C80 The value of an expression *)
Theorem test_value : forall E, locale_ok (t_loc E) -> forall e args x,
  g_or e args -> plain e -> means E e x -> ~ posix_case args ->
  test_status E args = Ok (status_of x).
Proof.
  intros E L e args x G P M X. apply gives_status. eapply eval_value; eauto.
Qed.
Print Assumptions test_value.

(** What no error is reported for is an expression with that value, except that
    no arguments at all are false and for the negation of "-a" or "-o" with
    exactly four arguments. *)
Theorem test_sound : forall E, locale_ok (t_loc E) -> forall args s,
  test_status E args = Ok s -> s <> 2%Z ->
  (args = [] /\ s = 1%Z) \/
  (exists e b, g_or e args /\ means E e (Some b) /\ s = status_of (Some b)) \/
  (exists a op b, args = [str "!"; a; op; b] /\ (op = str "-a" \/ op = str "-o")).
Proof.
  intros E L args s H N. unfold test_status in H.
  destruct (test_eval E args) as [[v e]| |] eqn:Q; cbn [rbind] in H; try discriminate.
  destruct e; [injection H as <-; congruence|]. injection H as <-.
  apply eval_sound in Q; auto. destruct Q as [(-> & ->)|[(e & G & M)|Q]]; auto.
  right. left. exists e, v. split; [auto|]. split; [auto|]. destruct v; reflexivity.
Qed.
Print Assumptions test_sound.

(** POSIX: with up to four arguments "!" reverses the result for the others. *)
Definition inverted (x : res Z) : res Z :=
  match x with Ok s => Ok (if (s =? 0)%Z then 1%Z else if (s =? 1)%Z then 0%Z else s) | y => y end.
Theorem test_negation : forall E a rest,
  (rest = [] \/ (exists b, rest = [b] /\ ~ one_of binary_ops a /\ a <> str "-a" /\ a <> str "-o") \/
   exists b c, rest = [b; c]) ->
  test_status E (str "!" :: a :: rest) = inverted (test_status E (a :: rest)).
Proof.
  assert (I : forall x, (let! (v, e) := tneg x in Ok (if e then 2 else if v then 0 else 1)%Z)%res =
    inverted (let! (v, e) := x in Ok (if e then 2 else if v then 0 else 1)%Z)%res).
  { intros [[v e]| |]; cbn; auto. destruct v, e; reflexivity. }
  intros E a rest [-> |[(b & -> & H1 & H2 & H3)|(b & c & ->)]].
  - exact (I (val (test_single a))).
  - unfold test_status. cbn [test_eval]. unfold test_triple.
    assert (B : is_binary_primary a = false).
    { destruct (is_binary_primary a) eqn:B; auto. apply binary_iff in B. destruct (H1 B). }
    assert (Q : binary_op E a (str "!") b = None) by (apply binary_none; auto). rewrite Q.
    change (list_N_eqb (str "!") (str "!")) with true. cbn iota. apply I.
  - unfold test_status. cbn [test_eval]. change (list_N_eqb (str "!") (str "!")) with true. cbn iota. apply I.
Qed.
Print Assumptions test_negation.

(** Nested negations are not accepted in longer expressions, although "!" may
    precede any expression according to the documentation. *)
Theorem test_double_negation_refuted : exists e args,
  g_or e args /\ means posix_env e (Some true) /\ test_status posix_env args = Ok 2%Z /\
  e = XAnd (XNot (XNot (XWord (str "x")))) (XWord (str "y")).
Proof.
  exists (XAnd (XNot (XNot (XWord (str "x")))) (XWord (str "y"))), (ws ["!"; "!"; "x"; "-a"; "y"]%string).
  split; [|split; [|split; [vm_compute; reflexivity|reflexivity]]].
  - apply g_or_one. apply (g_and_more _ _ (ws ["!"; "!"; "x"]%string) [str "y"]); [|apply g_word].
    apply g_and_one. do 2 apply g_not. apply g_word.
  - change true with (true && true). apply m_and; [|apply m_word; split; discriminate || auto].
    change (Some true) with (option_map negb (option_map negb (Some true))). do 2 apply m_not.
    apply m_word. split; discriminate || auto.
Qed.
Print Assumptions test_double_negation_refuted.

(** An expression with all kinds of operators: ( -n a -o b = c ) -a ! 7 -lt 3 *)
Definition sample : expr :=
  XAnd (XParen (XOr (XUnary "-n" (str "a")) (XBinary "=" (str "b") (str "c")))) (XNot (XBinary "-lt" (str "7") (str "3"))).
Definition sample_args : list (list N) :=
  ws ["("; "-n"; "a"; "-o"; "b"; "="; "c"; ")"; "-a"; "!"; "7"; "-lt"; "3"]%string.
Lemma sample_grammar : g_or sample sample_args.
Proof.
  apply g_or_one. apply (g_and_more _ _ (ws ["("; "-n"; "a"; "-o"; "b"; "="; "c"; ")"]%string) (ws ["!"; "7"; "-lt"; "3"]%string)).
  - apply g_and_one. apply (g_paren _ (ws ["-n"; "a"; "-o"; "b"; "="; "c"]%string)).
    apply (g_or_more _ _ (ws ["-n"; "a"]%string) (ws ["b"; "="; "c"]%string)).
    + apply g_or_one, g_and_one, (g_unary "-n"). cbn; tauto.
    + apply g_and_one, (g_binary "="). cbn; tauto.
  - apply g_not, (g_binary "-lt"). cbn; tauto.
Qed.
Ltac no_op := intros (? & H & K); cbn in H; repeat destruct H as [<-|H]; try discriminate K; destruct H.
Lemma sample_plain : plain sample.
Proof.
  cbn [sample plain]. split; [split|].
  - no_op.
  - intros [K|K]; discriminate.
  - intros [K|K]; discriminate.
Qed.
Lemma sample_means : means posix_env sample (Some true).
Proof.
  change true with ((true || false) && negb false). apply m_and.
  - apply m_paren. apply m_or.
    + apply m_unary, m1_n. split; discriminate || auto.
    + apply m_binary, m2_eq; [cbn; auto|]. split; discriminate.
  - change (Some (negb false)) with (option_map negb (Some false)). apply m_not, m_binary.
    apply (m2_int posix_env "-lt" Z.ltb); [cbn; tauto|]. left. exists 7%Z, 3%Z.
    split; [|split; [|reflexivity]]; (split; [|unfold is_long, LONG_MIN, LONG_MAX; lia]); apply dt_plain, numeral_one.
    + apply (digit_num 7). lia. + lia. + apply (digit_num 3). lia. + lia.
Qed.
Example test_value_sample : test_status posix_env sample_args = Ok 0%Z.
Proof.
  apply (test_value posix_env c_locale_ok sample sample_args (Some true) sample_grammar sample_plain sample_means).
  intros [(a & b & [K|K])|(w & K)]; discriminate.
Qed.
Example test_sound_sample : test_status posix_env (ws ["old"; "-ot"; "new"; "-a"; "-z"; ""]%string) = Ok 0%Z.
Proof. vm_compute. reflexivity. Qed.
Example test_negation_sample :
  test_status posix_env (ws ["!"; "x"; "-a"; ""]%string) = Ok 0%Z /\
  test_status posix_env (ws ["x"; "-a"; ""]%string) = Ok 1%Z.
Proof. vm_compute. auto. Qed.

(** ** C81 Errors *)
(** The status is 0, 1 or 2 and the built-in always returns. *)
Theorem test_returns : forall E, convertible E -> forall argv, argv <> [] ->
  exists s, test_builtin E argv = Ok s /\ (s = 0 \/ s = 1 \/ s = 2)%Z.
Proof.
  intros E C argv H. destruct argv as [|name args]; [congruence|].
  assert (S : forall args, exists s, test_status E args = Ok s /\ (s = 0 \/ s = 1 \/ s = 2)%Z).
  { intros a. destruct (eval_total E C a) as (v & e & K). unfold test_status. rewrite K. cbn [rbind].
    eexists. split; [reflexivity|]. destruct v, e; auto. }
  unfold test_builtin. destruct (list_N_eqb name (str "[")); auto.
  destruct (list_N_eqb (last (name :: args) []) (str "]")); auto. eauto.
Qed.
Print Assumptions test_returns.

(** It does not when an operand of "=~" cannot be converted. *)
Theorem test_returns_refuted : exists E argv,
  locale_ok (t_loc E) /\ argv <> [] /\ test_builtin E argv = UB.
Proof.
  exists posix_env, [str "test"; str "a"; str "=~"; [12354%N]]. split; [apply c_locale_ok|]. split; [discriminate|].
  vm_compute. reflexivity.
Qed.
Print Assumptions test_returns_refuted.

(** "[" is "test" with a closing bracket, and an error without. *)
Theorem test_bracket : forall E args,
  test_builtin E (str "[" :: args ++ [str "]"]) = test_builtin E (str "test" :: args) /\
  (forall a, a <> str "]" -> test_builtin E (str "[" :: args ++ [a]) = Ok 2%Z) /\
  test_builtin E [str "["] = Ok 2%Z.
Proof.
  intros E args. unfold test_builtin. change (list_N_eqb (str "[") (str "[")) with true.
  change (list_N_eqb (str "test") (str "[")) with false. cbn iota.
  assert (La : forall a, last (str "[" :: args ++ [a]) [] = a).
  { intros a. change (str "[" :: args ++ [a]) with ((str "[" :: args) ++ [a]). apply last_last. }
  split; [|split].
  - rewrite La, list_N_eqb_refl. rewrite removelast_last. reflexivity.
  - intros a H. rewrite La. apply list_N_eqb_neq in H. rewrite H. reflexivity.
  - reflexivity.
Qed.
Print Assumptions test_bracket.
Example test_bracket_sample : test_builtin posix_env (ws ["["; "a"; "="; "a"; "]"]%string) = Ok 0%Z /\
  test_builtin posix_env (ws ["["; "1"; "-eq"; "x"; "]"]%string) = Ok 2%Z.
Proof. vm_compute. auto. Qed.
Example convertible_sample : convertible (mkTenv c_locale code_coll Some (fun _ => true) list_N_eqb
  (fun _ => true) (fun _ => true) (fun _ => true) (fun _ _ => true) (fun _ => None)).
Proof. intros w. discriminate. Qed.

(** ** C82 Integers *)
(** The six comparison operators compare the integers the operands denote; an
    operand that is not an integer of at most 64 bits is an error. *)
Theorem test_integers : forall E, locale_ok (t_loc E) -> forall op R l r, In (op, R) int_table ->
  (forall i j, integer E l i -> integer E r j -> test_status E [l; str op; r] = Ok (if R i j then 0 else 1)%Z) /\
  ((~ exists i, integer E l i) \/ (~ exists j, integer E r j) -> test_status E [l; str op; r] = Ok 2%Z).
Proof.
  intros E L op R l r H.
  assert (K : forall x, int_holds E R l r x -> test_status E [l; str op; r] = Ok (status_of x)).
  { intros x Hx. apply gives_status. cbn [test_eval]. unfold test_triple.
    destruct (means2_ok E L op l r x (m2_int E op R l r x H Hx)) as (_ & v & e & Q & A). rewrite Q. exists v, e. auto. }
  split.
  - intros i j Hi Hj. rewrite (K (Some (R i j))); [destruct (R i j); reflexivity|]. left. eauto 6.
  - intros N. rewrite (K None); [reflexivity|]. right. auto.
Qed.
Print Assumptions test_integers.
Example test_integers_sample :
  test_status posix_env (ws ["9223372036854775807"; "-gt"; "-9223372036854775808"]%string) = Ok 0%Z /\
  test_status posix_env (ws ["9223372036854775808"; "-gt"; "1"]%string) = Ok 2%Z /\
  test_status posix_env (ws ["010"; "-eq"; "10"]%string) = Ok 0%Z.
Proof. vm_compute. auto. Qed.
Example integer_sample : integer posix_env (str " -12") (-12).
Proof. apply integer_of_iff; [apply c_locale_ok|]. vm_compute. reflexivity. Qed.

(** ** C83 Version numbers *)
Definition small (t : token) : Prop := match t with TNum n => (n <= UINTMAX_MAX)%Z | TChr _ => True end.
(** In the POSIX locale versions are compared number by number. *)
Theorem test_versions : forall E, coll_first (t_coll E) -> forall op R l r a b, In (op, R) ver_table ->
  tokens l a -> tokens r b -> Forall small a -> Forall small b ->
  exists c, test_status E [l; str op; r] = Ok (if R c then 0 else 1)%Z /\ (c ?= 0)%Z = lex (tk_compare E) a b.
Proof.
  intros E C op R l r a b H Ta Tb Sa Sb.
  assert (M : forall t, Forall small t -> map sat t = t).
  { intros t Ht. induction Ht as [|[n|x] t Hx Ht IH]; cbn; auto; rewrite IH; auto. cbn in Hx. rewrite Z.min_l by auto. auto. }
  destruct (versions_spec E C l r a b Ta Tb) as (c & Hc & Hs). rewrite (M a Sa), (M b Sb) in Hs.
  exists c. split; [|exact Hs]. unfold test_status. cbn [test_eval]. unfold test_triple.
  assert (Q : exists f, binary_op E (str op) l r = Some (ver_cond E f l r) /\ f c = R c).
  { cbn [ver_table In] in H. repeat destruct H as [H|H]; try (destruct H; fail); injection H as <- <-;
      (eexists; split; [reflexivity|]; cbn beta; lia). }
  destruct Q as (f & Q & F). rewrite Q. unfold ver_cond. rewrite Hc. cbn [rbind val]. rewrite F. destruct (R c); reflexivity.
Qed.
Print Assumptions test_versions.
Theorem test_versions_refuted : exists l r a b,
  tokens l a /\ tokens r b /\ lex (tk_compare posix_env) a b = Lt /\
  test_status posix_env [l; str "-veq"; r] = Ok 0%Z.
Proof.
  exists (str "18446744073709551615"), (str "18446744073709551616"),
    [TNum 18446744073709551615], [TNum 18446744073709551616].
  split; [|split; [|split; vm_compute; reflexivity]].
  - apply (tk_num (str "18446744073709551615") _ [] []); [|exact I|constructor].
    apply numeral_iff; [lia|]. split; [discriminate|]. split; [vm_compute; tauto|vm_compute; reflexivity].
  - apply (tk_num (str "18446744073709551616") _ [] []); [|exact I|constructor].
    apply numeral_iff; [lia|]. split; [discriminate|]. split; [vm_compute; tauto|vm_compute; reflexivity].
Qed.
Print Assumptions test_versions_refuted.
Example test_versions_sample :
  test_status posix_env (ws ["0.1.2-3"; "-veq"; "00.001.02-3"]%string) = Ok 0%Z /\
  test_status posix_env (ws ["0.2.1"; "-vlt"; "0.10.0"]%string) = Ok 0%Z.
Proof. vm_compute. auto. Qed.

(** ** C84 The order of versions *)
Definition vle (E : tenv) (l r : list N) : Prop := test_status E [l; str "-vle"; r] = Ok 0%Z.
Definition veq (E : tenv) (l r : list N) : Prop := test_status E [l; str "-veq"; r] = Ok 0%Z.
Lemma vle_iff : forall E l r, vle E l r <-> exists c, versions E l r = Ok c /\ (c <= 0)%Z.
Proof.
  intros E l r. unfold vle, test_status. cbn [test_eval].
  change (test_triple E l (str "-vle") r) with (ver_cond E (fun c => c <=? 0)%Z l r). unfold ver_cond.
  destruct (versions E l r) as [c| |]; cbn [rbind val]; split; try discriminate; try (intros (c' & K & _); discriminate).
  - intros H. exists c. split; auto. destruct (Z.leb_spec c 0); [lia|discriminate].
  - intros (c' & K & H). injection K as <-. replace (c <=? 0)%Z with true by lia. reflexivity.
Qed.
Lemma veq_iff : forall E l r, veq E l r <-> exists c, versions E l r = Ok c /\ c = 0%Z.
Proof.
  intros E l r. unfold veq, test_status. cbn [test_eval].
  change (test_triple E l (str "-veq") r) with (ver_cond E (fun c => c =? 0)%Z l r). unfold ver_cond.
  destruct (versions E l r) as [c| |]; cbn [rbind val]; split; try discriminate; try (intros (c' & K & _); discriminate).
  - intros H. exists c. split; auto. destruct (Z.eqb_spec c 0); [lia|discriminate].
  - intros (c' & K & H). injection K as <-. replace (c =? 0)%Z with true by lia. reflexivity.
Qed.
(** In the POSIX locale "-vle" is a total preorder and "-veq" its equivalence,
    for all words. *)
Theorem version_order : forall E, coll_first (t_coll E) ->
  (forall a, vle E a a) /\
  (forall a b, vle E a b \/ vle E b a) /\
  (forall a b c, vle E a b -> vle E b c -> vle E a c) /\
  (forall a b, veq E a b <-> vle E a b /\ vle E b a).
Proof.
  intros E C.
  assert (K : forall l r a b, tokens l a -> tokens r b ->
    (vle E l r <-> lex (tk_compare E) (map sat a) (map sat b) <> Gt) /\
    (veq E l r <-> lex (tk_compare E) (map sat a) (map sat b) = Eq)).
  { intros l r a b Ta Tb. destruct (versions_spec E C l r a b Ta Tb) as (c & Hc & Hs). rewrite <- Hs. unfold sign.
    rewrite vle_iff, veq_iff. split; split.
    - intros (c' & Q & H) G. rewrite Hc in Q. injection Q as <-. apply Z.compare_gt_iff in G. lia.
    - intros H. exists c. split; auto.
    - intros (c' & Q & H). rewrite Hc in Q. injection Q as <-. subst c. reflexivity.
    - intros H. exists c. split; auto. apply Z.compare_eq. auto. }
  assert (R : forall t, lex (tk_compare E) t t = Eq) by (intros t; apply lex_eq; auto).
  repeat split.
  - intros a. destruct (tokens_total a) as (t & T). apply (K a a t t T T). rewrite R. discriminate.
  - intros a b. destruct (tokens_total a) as (t & T), (tokens_total b) as (u & U).
    destruct (lex (tk_compare E) (map sat t) (map sat u)) eqn:Q.
    + left. apply (K a b t u T U). congruence.
    + left. apply (K a b t u T U). congruence.
    + right. apply (K b a u t U T). rewrite lex_sym, Q. discriminate.
  - intros a b c. destruct (tokens_total a) as (t & T), (tokens_total b) as (u & U), (tokens_total c) as (v & V).
    rewrite (proj1 (K a b t u T U)), (proj1 (K b c u v U V)), (proj1 (K a c t v T V)).
    destruct (lex (tk_compare E) (map sat t) (map sat u)) eqn:Q1; [|clear K|congruence].
    + apply lex_eq in Q1. rewrite Q1. auto.
    + intros _ H. destruct (lex (tk_compare E) (map sat u) (map sat v)) eqn:Q2; [|rewrite (lex_trans _ _ _ _ Q1 Q2); discriminate|congruence].
      apply lex_eq in Q2. rewrite <- Q2, Q1. discriminate.
  - destruct (tokens_total a) as (t & T), (tokens_total b) as (u & U).
    apply (K a b t u T U). apply (K a b t u T U) in H. rewrite H. discriminate.
  - destruct (tokens_total a) as (t & T), (tokens_total b) as (u & U).
    apply (K b a u t U T). apply (K a b t u T U) in H. rewrite lex_sym, H. discriminate.
  - intros [H1 H2]. destruct (tokens_total a) as (t & T), (tokens_total b) as (u & U).
    apply (K a b t u T U). apply (K a b t u T U) in H1. apply (K b a u t U T) in H2. rewrite lex_sym in H2.
    destruct (lex (tk_compare E) (map sat t) (map sat u)); cbn in H2; congruence.
Qed.
Print Assumptions version_order.

(** Dictionary order, as in most locales: letters are first compared regardless
    of case and punctuation is skipped; the codes decide only among equals. *)
Definition letter_key (c : N) : list N :=
  if ascii_upper c then [c + 32]%N else if ascii_lower c || iswdigit c then [c] else [].
Definition dict_coll (l r : list N) : Z :=
  let c := code_coll (flat_map letter_key l) (flat_map letter_key r) in
  if (c =? 0)%Z then code_coll l r else c.
Lemma code_cases : forall l r, (code_coll l r = 0 <-> l = r)%Z /\ (code_coll r l = - code_coll l r)%Z.
Proof.
  induction l as [|c l IH]; intros [|d r]; cbn [code_coll]; try (split; [split; intros; congruence || lia|lia]).
  rewrite (N.eqb_sym d c). destruct (N.eqb_spec c d) as [->|Ne].
  - destruct (IH r) as [H1 H2]. split; auto. rewrite H1. split; intros K; congruence.
  - split.
    + destruct (N.ltb_spec c d); split; intros K; try lia; congruence.
    + destruct (N.ltb_spec c d), (N.ltb_spec d c); lia.
Qed.
Lemma code_trans : forall a b c, (code_coll a b < 0 -> code_coll b c < 0 -> code_coll a c < 0)%Z.
Proof.
  induction a as [|x a IH]; intros [|y b] [|z c]; cbn [code_coll]; try lia.
  destruct (N.eqb_spec x y), (N.eqb_spec y z); subst.
  - rewrite N.eqb_refl. apply IH.
  - destruct (N.eqb_spec y z); [congruence|]. auto.
  - destruct (N.eqb_spec x z); [congruence|]. auto.
  - destruct (N.ltb_spec x y), (N.ltb_spec y z); try lia. destruct (N.eqb_spec x z); [lia|].
    destruct (N.ltb_spec x z); lia.
Qed.
Lemma dict_order :
  (forall a b, dict_coll a b = 0 <-> a = b)%Z /\ (forall a b, dict_coll b a = - dict_coll a b)%Z /\
  (forall a b c, dict_coll a b < 0 -> dict_coll b c < 0 -> dict_coll a c < 0)%Z.
Proof.
  unfold dict_coll. split; [|split].
  - intros a b. destruct (code_cases (flat_map letter_key a) (flat_map letter_key b)) as [H _].
    destruct (Z.eqb_spec (code_coll (flat_map letter_key a) (flat_map letter_key b)) 0) as [Q|Q].
    + apply code_cases.
    + split; [congruence|]. intros ->. exfalso. apply Q. apply code_cases. auto.
  - intros a b. destruct (code_cases (flat_map letter_key a) (flat_map letter_key b)) as [_ H]. rewrite H.
    destruct (Z.eqb_spec (code_coll (flat_map letter_key a) (flat_map letter_key b)) 0) as [Q|Q].
    + replace (- code_coll (flat_map letter_key a) (flat_map letter_key b) =? 0)%Z with true by lia. apply code_cases.
    + replace (- code_coll (flat_map letter_key a) (flat_map letter_key b) =? 0)%Z with false by lia. auto.
  - intros a b c. generalize (code_trans (flat_map letter_key a) (flat_map letter_key b) (flat_map letter_key c)).
    pose proof (code_cases (flat_map letter_key a) (flat_map letter_key b)) as [A1 A2].
    pose proof (code_cases (flat_map letter_key b) (flat_map letter_key c)) as [B1 B2].
    pose proof (code_cases (flat_map letter_key a) (flat_map letter_key c)) as [C1 C2].
    destruct (Z.eqb_spec (code_coll (flat_map letter_key a) (flat_map letter_key b)) 0) as [Q1|Q1];
    destruct (Z.eqb_spec (code_coll (flat_map letter_key b) (flat_map letter_key c)) 0) as [Q2|Q2]; intros T H K.
    + apply A1 in Q1. apply B1 in Q2. assert (Q3 : flat_map letter_key a = flat_map letter_key c) by congruence.
      apply C1 in Q3. rewrite Q3. cbn. eapply code_trans; eauto.
    + apply A1 in Q1. rewrite Q1. destruct (Z.eqb_spec (code_coll (flat_map letter_key b) (flat_map letter_key c)) 0); lia.
    + apply B1 in Q2. rewrite <- Q2. destruct (Z.eqb_spec (code_coll (flat_map letter_key a) (flat_map letter_key b)) 0); lia.
    + specialize (T H K). destruct (Z.eqb_spec (code_coll (flat_map letter_key a) (flat_map letter_key c)) 0); lia.
Qed.
Definition dict_env : tenv :=
  mkTenv c_locale dict_coll Some (fun _ => true) list_N_eqb (fun fd => (fd =? 0)%Z) (fun _ => false) (fun _ => false)
    (fun _ _ => true) (fun _ => None).
(** There, "-vle" is not transitive: a.10 < A.5 < a.9 < a.10. *)
Theorem version_order_refuted : exists a b c,
  vle dict_env a b /\ vle dict_env b c /\ ~ vle dict_env a c.
Proof.
  exists (str "a.10"), (str "A.5"), (str "a.9"). unfold vle. vm_compute. repeat split; discriminate.
Qed.
Print Assumptions version_order_refuted.
