(** Properties C01 to C06, C33, C34: arithmetic expansion. *)
From Coq Require Import Ascii String.
From Coq Require Import List NArith ZArith Bool Lia.
From Verif Require Import Common Locale NumModel ArithModel ArithSpec ArithOpsProofs ArithLex ArithHoare NumProofs.
Import ListNotations.
Local Open Scope Z_scope.

(** [t] is read as an integer, or not as a number at all. *)
Definition not_double (L : locale) (D : dops) (t : list N) : Prop :=
  (exists z, int_text L t z /\ is_long z) \/ d_parse D t = None.

(** Sufficient conditions for no undefined double-to-integer conversion:
    POSIXly-correct mode, a platform on which every conversion is defined, or
    an expansion in which no number and no variable is read as a double. *)
Definition conv_safe (L : locale) (D : dops) (posix : bool) (ts : list tok) (e : env) : Prop :=
  posix = true \/ (forall d, d_trunc D d <> None) \/
  ((forall w, In (TNumber w) ts -> not_double L D w) /\
   (forall x t, In (TIdent x) ts -> vget e x = Some t -> t = [] \/ not_double L D t)).

Lemma not_double_nodbl : forall L D t, locale_ok L -> not_double L D t -> nodbl L D t.
Proof.
  intros L D t Lok [(z & H1 & H2)|H]; [left|right; auto].
  assert (E : xwcstol L 0 t = Some z) by (apply xwcstol_iff; auto). congruence.
Qed.

Lemma wp_ok : forall D posix io A (r : res A) Q, conv_defined D posix io ->
  wp D posix io r Q -> exists a, r = Ok a /\ Q a.
Proof. intros D posix io A [a| |] Q Hc H; cbn in H; [eauto|contradiction|contradiction]. Qed.

Lemma conv_safe_io : forall L D posix exp ts e, locale_ok L -> lexes L exp ts -> conv_safe L D posix ts e ->
  exists io, conv_defined D posix io /\
    (io = true -> forall i w, reach L exp i (TNumber w) -> nodbl L D w) /\
    (io = true -> ints L D exp e).
Proof.
  intros L D posix exp ts e Lok Hl [H|[H|[H1 H2]]].
  - exists false. split; [left; auto|split; discriminate].
  - exists false. split; [right; right; auto|split; discriminate].
  - exists true. split; [right; left; auto|split; intros _].
    + intros i w Hr. apply not_double_nodbl; auto. apply H1. eapply lexes_reach; eauto. discriminate.
    + intros x t [i Hr] Hv. destruct (H2 x t) as [K|K]; auto.
      * eapply lexes_reach; eauto. discriminate.
      * right. apply not_double_nodbl; auto.
Qed.

(** C02.  Whenever the text is a sequence of tokens (longest match) that the
    grammar assigns a tree to, the expansion does what evaluating the tree
    prescribes: same new variables and same text, no message; or, if evaluation
    fails, a message and no value. *)
Theorem arith_correct : forall L D posix unset_ok exp e ts x,
  locale_ok L -> dops_ok D -> ~ In 0%N exp ->
  lexes L exp ts -> derives LAsg ts x -> conv_safe L D posix ts e ->
  match expand_expr L D posix unset_ok x e with
  | Some (e', t) => evaluate_arithmetic L D posix unset_ok exp e = Ok (e', [], Some t)
  | None => exists e' m, evaluate_arithmetic L D posix unset_ok exp e = Ok (e', m, None) /\ m <> []
  end.
Proof.
  intros L D posix unset_ok exp e ts x Lok Dok Nz Hl Hd Hc.
  destruct (conv_safe_io L D posix exp ts e Lok Hl Hc) as (io & H1 & H2 & H3).
  pose proof (evaluate_complete L Lok D Dok posix unset_ok exp Nz io H2 e ts x H3 Hl Hd) as W.
  apply (wp_ok D posix io) in W; auto. destruct W as ([[e' m] r] & -> & W).
  destruct (expand_expr L D posix unset_ok x e) as [[e1 t]|]; [congruence|].
  cbn in W. destruct W as [W1 ->]. eauto.
Qed.
Print Assumptions arith_correct.

(** Two trees for one text evaluate alike. *)
Theorem arith_tree_unique_result : forall L D posix unset_ok exp e ts x ts' x' r,
  locale_ok L -> dops_ok D -> ~ In 0%N exp ->
  lexes L exp ts -> derives LAsg ts x -> lexes L exp ts' -> derives LAsg ts' x' -> conv_safe L D posix ts e ->
  conv_safe L D posix ts' e ->
  expand_expr L D posix unset_ok x e = Some r -> expand_expr L D posix unset_ok x' e = Some r.
Proof.
  intros L D posix unset_ok exp e ts x ts' x' [e1 t] Lok Dok Nz Hl Hd Hl' Hd' Hc Hc' E.
  pose proof (arith_correct _ _ _ unset_ok _ _ _ _ Lok Dok Nz Hl Hd Hc) as A. rewrite E in A.
  pose proof (arith_correct _ _ _ unset_ok _ _ _ _ Lok Dok Nz Hl' Hd' Hc') as B.
  destruct (expand_expr L D posix unset_ok x' e) as [[e2 t2]|]; [congruence|].
  destruct B as (e' & m & B & _). congruence.
Qed.
Print Assumptions arith_tree_unique_result.

(** The array-index variant. *)
Theorem arith_index_correct : forall L D posix unset_ok exp e ts x,
  locale_ok L -> dops_ok D -> ~ In 0%N exp ->
  lexes L exp ts -> derives LAsg ts x -> conv_safe L D posix ts e ->
  match expand_index L D posix unset_ok x e with
  | Some (e', z) => evaluate_index L D posix unset_ok exp e = Ok (e', [], Some z)
  | None => exists e' m, evaluate_index L D posix unset_ok exp e = Ok (e', m, None) /\ m <> []
  end.
Proof.
  intros L D posix unset_ok exp e ts x Lok Dok Nz Hl Hd Hc.
  destruct (conv_safe_io L D posix exp ts e Lok Hl Hc) as (io & H1 & H2 & H3).
  pose proof (index_complete L Lok D Dok posix unset_ok exp Nz io H2 e ts x H3 Hl Hd) as W.
  apply (wp_ok D posix io) in W; auto. destruct W as ([[e' m] r] & -> & W).
  destruct (expand_index L D posix unset_ok x e) as [[e1 t]|]; [congruence|].
  cbn in W. destruct W as [W1 ->]. eauto.
Qed.
Print Assumptions arith_index_correct.

(** C01.  [x op y] for any integer operator and any two longs. *)
Theorem arith_binary_exact : forall L D posix unset_ok exp e x y t k o tx ty a b,
  locale_ok L -> dops_ok D -> ~ In 0%N exp ->
  lexes L exp [TIdent x; t; TIdent y] -> binop t = Some (k, BInt o) ->
  vget e x = Some tx -> int_text L tx a -> is_long a ->
  vget e y = Some ty -> int_text L ty b -> is_long b ->
  match exact_op o a b with
  | Some r =>
      if in_long r then evaluate_arithmetic L D posix unset_ok exp e = Ok (e, [], Some (dec_of_Z r))
      else exists e' m, evaluate_arithmetic L D posix unset_ok exp e = Ok (e', m, None) /\ m <> []
  | None => exists e' m, evaluate_arithmetic L D posix unset_ok exp e = Ok (e', m, None) /\ m <> []
  end.
Proof.
  intros L D posix unset_ok exp e x y t k o tx ty a b Lok Dok Nz Hl Ht Hx Hxa Ha Hy Hyb Hb.
  assert (Hd : derives LAsg [TIdent x; t; TIdent y] (EBin (BInt o) (EVar x) (EVar y))).
  { apply d_asg0, d_cond0, d_or0, d_and0.
    assert (Hup : forall n m ts z, (n <= m)%nat -> derives (LBin n) ts z -> derives (LBin m) ts z).
    { intros n m ts z H. induction H; auto. intros. apply d_bin0; auto. }
    assert (Hv : forall z n, derives (LBin n) [TIdent z] (EVar z)).
    { intros z n. apply (Hup 0%nat); [lia|]. apply d_bin_base, d_prefix0, d_postfix0, d_var. }
    assert (Hk : exists j, k = S j /\ (k <= 8)%nat).
    { destruct t; try discriminate; injection Ht as <- _; eexists; split; try reflexivity; lia. }
    destruct Hk as (j & -> & Hk). apply (Hup (S j)); auto.
    apply (d_bin j t (BInt o) [TIdent x] (EVar x) [TIdent y] (EVar y)); auto. }
  assert (Xa : xwcstol L 0 tx = Some a) by (apply xwcstol_iff; auto).
  assert (Xb : xwcstol L 0 ty = Some b) by (apply xwcstol_iff; auto).
  assert (Na : tx <> []) by (intros ->; discriminate Xa).
  assert (Nb : ty <> []) by (intros ->; discriminate Xb).
  assert (Hc : conv_safe L D posix [TIdent x; t; TIdent y] e).
  { right. right. split.
    - intros w [H|[H|[H|[]]]]; try discriminate. subst t. discriminate.
    - intros z u [H|[H|[H|[]]]] Hz.
      + injection H as <-. right. left. exists a. replace u with tx by congruence. auto.
      + subst t. discriminate.
      + injection H as <-. right. left. exists b. replace u with ty by congruence. auto. }
  pose proof (arith_correct L D posix unset_ok exp e _ _ Lok Dok Nz Hl Hd Hc) as A.
  assert (Ra : read_var L D posix unset_ok e x = Some (NInt D a)).
  { unfold read_var. rewrite Hx. apply list_N_eqb_neq in Na. rewrite Na. unfold read_num. rewrite Xa. auto. }
  assert (Rb : read_var L D posix unset_ok e y = Some (NInt D b)).
  { unfold read_var. rewrite Hy. apply list_N_eqb_neq in Nb. rewrite Nb. unfold read_num. rewrite Xb. auto. }
  assert (E : expand_expr L D posix unset_ok (EBin (BInt o) (EVar x) (EVar y)) e =
    match long_op o a b with Some r => Some (e, dec_of_Z r) | None => None end).
  { unfold expand_expr. cbn [well_formed eval to_num]. rewrite Ra, Rb. cbn [andb apply_bop].
    unfold apply_op. destruct o; cbn [to_int]; destruct (long_op _ a b); cbn; destruct posix; reflexivity. }
  rewrite E in A. unfold long_op in A.
  destruct (exact_op o a b) as [r|]; [|exact A]. destruct (in_long r); exact A.
Qed.
Print Assumptions arith_binary_exact.

(** C01, unary minus. *)
Theorem arith_negate_exact : forall L D posix unset_ok exp e x tx a,
  locale_ok L -> dops_ok D -> ~ In 0%N exp ->
  lexes L exp [TMinus; TIdent x] -> vget e x = Some tx -> int_text L tx a -> is_long a ->
  if in_long (- a) then evaluate_arithmetic L D posix unset_ok exp e = Ok (e, [], Some (dec_of_Z (- a)))
  else exists e' m, evaluate_arithmetic L D posix unset_ok exp e = Ok (e', m, None) /\ m <> [].
Proof.
  intros L D posix unset_ok exp e x tx a Lok Dok Nz Hl Hx Hxa Ha.
  assert (Hd : derives LAsg [TMinus; TIdent x] (EUn UMinus (EVar x))).
  { apply d_asg0, d_cond0, d_or0, d_and0. do 8 apply d_bin0. apply d_bin_base.
    apply (d_unary [TIdent x]); [reflexivity|]. apply d_prefix0, d_postfix0, d_var. }
  assert (Xa : xwcstol L 0 tx = Some a) by (apply xwcstol_iff; auto).
  assert (Na : tx <> []) by (intros ->; discriminate Xa).
  assert (Hc : conv_safe L D posix [TMinus; TIdent x] e).
  { right. right. split.
    - intros w [H|[H|[]]]; discriminate.
    - intros z u [H|[H|[]]] Hz; [discriminate|]. injection H as <-. right. left. exists a.
      replace u with tx by congruence. auto. }
  pose proof (arith_correct L D posix unset_ok exp e _ _ Lok Dok Nz Hl Hd Hc) as A.
  assert (Ra : read_var L D posix unset_ok e x = Some (NInt D a)).
  { unfold read_var. rewrite Hx. apply list_N_eqb_neq in Na. rewrite Na. unfold read_num. rewrite Xa. auto. }
  unfold expand_expr in A. cbn [well_formed eval to_num] in A. rewrite Ra in A. cbn [apply_uop] in A.
  destruct (in_long (- a)); [|exact A]. destruct posix; exact A.
Qed.
Print Assumptions arith_negate_exact.

(** C01 and C06, increment and decrement: the variable changes by exactly one, or
    an error is reported. *)
Theorem arith_increment_exact : forall L D unset_ok exp e x t up tx a,
  locale_ok L -> dops_ok D -> ~ In 0%N exp ->
  lexes L exp [t; TIdent x] -> incop t = Some up -> vro e x = false ->
  vget e x = Some tx -> int_text L tx a -> is_long a ->
  let r := if up then a + 1 else a - 1 in
  if in_long r then
    exists e', evaluate_arithmetic L D false unset_ok exp e = Ok (e', [], Some (dec_of_Z r)) /\
      vget e' x = Some (dec_of_Z r) /\ (forall y, y <> x -> vget e' y = vget e y)
  else exists e' m, evaluate_arithmetic L D false unset_ok exp e = Ok (e', m, None) /\ m <> [].
Proof.
  intros L D unset_ok exp e x t up tx a Lok Dok Nz Hl Ht Hro Hx Hxa Ha r.
  assert (Hd : derives LAsg [t; TIdent x] (EIncr true up (EVar x))).
  { apply d_asg0, d_cond0, d_or0, d_and0. do 8 apply d_bin0. apply d_bin_base.
    apply (d_prefix [TIdent x]); [auto|]. apply d_prefix0, d_postfix0, d_var. }
  assert (Xa : xwcstol L 0 tx = Some a) by (apply xwcstol_iff; auto).
  assert (Na : tx <> []) by (intros ->; discriminate Xa).
  assert (Hc : conv_safe L D false [t; TIdent x] e).
  { right. right. split.
    - intros w [H|[H|[]]]; [subst t|]; discriminate.
    - intros z u [H|[H|[]]] Hz; [subst t; discriminate|]. injection H as <-. right. left. exists a.
      replace u with tx by congruence. auto. }
  pose proof (arith_correct L D false unset_ok exp e _ _ Lok Dok Nz Hl Hd Hc) as A.
  assert (Ra : read_var L D false unset_ok e x = Some (NInt D a)).
  { unfold read_var. rewrite Hx. apply list_N_eqb_neq in Na. rewrite Na. unfold read_num. rewrite Xa. auto. }
  unfold expand_expr in A. cbn [well_formed negb andb eval] in A. rewrite Ra in A. cbn [step_num] in A.
  fold r in A. destruct (in_long r); [|exact A]. unfold assign in A. rewrite Hro in A. cbn in A.
  eexists. split; [exact A|]. cbn. rewrite list_N_eqb_refl. split; auto.
  intros y Hy. apply list_N_eqb_neq in Hy. rewrite Hy. reflexivity.
Qed.
Print Assumptions arith_increment_exact.

(** C03.  An operand that is not selected changes nothing: with a well-formed
    right operand the result and the variables are those of the left operand
    alone, whatever the right operand would do. *)
Theorem arith_and_skips : forall L D posix unset_ok exp e ts1 a ts2 b e1 r n,
  locale_ok L -> dops_ok D -> ~ In 0%N exp ->
  lexes L exp (ts1 ++ TAmpamp :: ts2) -> derives LAnd ts1 a -> derives (LBin 8) ts2 b ->
  well_formed L D posix a = true -> well_formed L D posix b = true ->
  conv_safe L D posix (ts1 ++ TAmpamp :: ts2) e ->
  eval L D posix unset_ok a e = Some (e1, r) -> to_num L D posix unset_ok e1 r = Some n ->
  truthy D n = false ->
  evaluate_arithmetic L D posix unset_ok exp e = Ok (e1, [], Some (str "0")).
Proof.
  intros L D posix unset_ok exp e ts1 a ts2 b e1 r n Lok Dok Nz Hl Ha Hb Wa Wb Hc Ea En Tn.
  assert (Hd : derives LAsg (ts1 ++ TAmpamp :: ts2) (EAnd a b)).
  { apply d_asg0, d_cond0, d_or0. apply d_and; auto. }
  pose proof (arith_correct L D posix unset_ok exp e _ _ Lok Dok Nz Hl Hd Hc) as A.
  unfold expand_expr in A. cbn [well_formed eval] in A. rewrite Wa, Wb, Ea, En, Tn in A.
  destruct posix; exact A.
Qed.
Print Assumptions arith_and_skips.

Theorem arith_or_skips : forall L D posix unset_ok exp e ts1 a ts2 b e1 r n,
  locale_ok L -> dops_ok D -> ~ In 0%N exp ->
  lexes L exp (ts1 ++ TPipepipe :: ts2) -> derives LOr ts1 a -> derives LAnd ts2 b ->
  well_formed L D posix a = true -> well_formed L D posix b = true ->
  conv_safe L D posix (ts1 ++ TPipepipe :: ts2) e ->
  eval L D posix unset_ok a e = Some (e1, r) -> to_num L D posix unset_ok e1 r = Some n ->
  truthy D n = true ->
  evaluate_arithmetic L D posix unset_ok exp e = Ok (e1, [], Some (str "1")).
Proof.
  intros L D posix unset_ok exp e ts1 a ts2 b e1 r n Lok Dok Nz Hl Ha Hb Wa Wb Hc Ea En Tn.
  assert (Hd : derives LAsg (ts1 ++ TPipepipe :: ts2) (EOr a b)).
  { apply d_asg0, d_cond0. apply d_or; auto. }
  pose proof (arith_correct L D posix unset_ok exp e _ _ Lok Dok Nz Hl Hd Hc) as A.
  unfold expand_expr in A. cbn [well_formed eval] in A. rewrite Wa, Wb, Ea, En, Tn in A.
  destruct posix; exact A.
Qed.
Print Assumptions arith_or_skips.

(** For a conditional expression: the expansion of [c ? a : b] where [c] has no side
    effect is the expansion of the selected branch. *)
Theorem arith_cond_skips : forall L D posix unset_ok exp e ts1 c ts2 a ts3 b r n,
  locale_ok L -> dops_ok D -> ~ In 0%N exp ->
  lexes L exp (ts1 ++ TQuestion :: ts2 ++ TColon :: ts3) ->
  derives LOr ts1 c -> derives LAsg ts2 a -> derives LCond ts3 b ->
  well_formed L D posix c = true -> well_formed L D posix a = true -> well_formed L D posix b = true ->
  conv_safe L D posix (ts1 ++ TQuestion :: ts2 ++ TColon :: ts3) e ->
  eval L D posix unset_ok c e = Some (e, r) -> to_num L D posix unset_ok e r = Some n ->
  match expand_expr L D posix unset_ok (if truthy D n then a else b) e with
  | Some (e', t) => evaluate_arithmetic L D posix unset_ok exp e = Ok (e', [], Some t)
  | None => exists e' m, evaluate_arithmetic L D posix unset_ok exp e = Ok (e', m, None) /\ m <> []
  end.
Proof.
  intros L D posix unset_ok exp e ts1 c ts2 a ts3 b r n Lok Dok Nz Hl Hc0 Ha Hb Wc Wa Wb Hc Ec En.
  assert (Hd : derives LAsg (ts1 ++ TQuestion :: ts2 ++ TColon :: ts3) (ECond c a b)).
  { apply d_asg0. apply d_cond; auto. }
  pose proof (arith_correct L D posix unset_ok exp e _ _ Lok Dok Nz Hl Hd Hc) as A.
  unfold expand_expr in *. cbn [well_formed eval] in A. rewrite Wc, Wa, Wb, Ec, En in A.
  cbn [andb] in A. destruct (truthy D n); [rewrite Wa|rewrite Wb]; exact A.
Qed.
Print Assumptions arith_cond_skips.

(** C03 for arbitrary (also malformed) operand texts: the parse functions called
    in parse-only mode, from any state, leave the variables alone. *)
Theorem arith_skip_any_text : forall L D posix unset_ok exp f s r,
  locale_ok L -> dops_ok D -> ~ In 0%N exp ->
  (idx s <= length exp)%nat -> (er s = true <-> msgs s <> []) -> (length exp + 2 <= f)%nat ->
  po s = true ->
  parse_assignment L D posix unset_ok exp f s = Ok r ->
  en (fst r) = en s /\ po (fst r) = true /\ snd r = VInvalid D.
Proof.
  intros L D posix unset_ok exp f s r Lok Dok Nz Hi He Hf Hp E.
  assert (Hg : good L D exp false s) by (split; [auto|split; [auto|discriminate]]).
  assert (Hn : (need exp s < f)%nat) by (unfold need; destruct (tok_end (tk s)); lia).
  pose proof (assignment_ok L Lok D Dok posix unset_ok exp Nz false ltac:(discriminate) f s Hg Hn) as W.
  rewrite E in W. cbn in W. destruct W as [[_ _ _ _ W1] W2 W3 _ _ _]. rewrite W2. auto.
Qed.
Print Assumptions arith_skip_any_text.

(** C04, C05, C34.  On every text: evaluation ends, reading nothing beyond the end
    and doing nothing undefined; a value is returned exactly if nothing was
    reported, and then the whole text is a sentence of the grammar; read-only
    variables keep their values. *)
Definition text_safe (L : locale) (D : dops) (posix : bool) (exp : list N) (e : env) : Prop :=
  posix = true \/ (forall d, d_trunc D d <> None) \/
  ((forall i w, reach L exp i (TNumber w) -> not_double L D w) /\
   (forall x t, vget e x = Some t -> t = [] \/ not_double L D t)).

Theorem arith_total : forall L D posix unset_ok exp e,
  locale_ok L -> dops_ok D -> ~ In 0%N exp -> text_safe L D posix exp e ->
  exists e' m r, evaluate_arithmetic L D posix unset_ok exp e = Ok (e', m, r) /\
    (r = None <-> m <> []) /\
    (r <> None -> exists ts x, lexes L exp ts /\ derives LAsg ts x) /\
    (vro e' = vro e /\ forall x, vro e x = true -> vget e' x = vget e x).
Proof.
  intros L D posix unset_ok exp e Lok Dok Nz Hs.
  assert (K : exists io, conv_defined D posix io /\
    (io = true -> forall i w, reach L exp i (TNumber w) -> nodbl L D w) /\
    (io = true -> ints L D exp e)).
  { destruct Hs as [H|[H|[H1 H2]]].
    - exists false. split; [left; auto|split; discriminate].
    - exists false. split; [right; right; auto|split; discriminate].
    - exists true. split; [right; left; auto|split; intros _].
      + intros i w Hr. apply not_double_nodbl; eauto.
      + intros x t _ Hv. destruct (H2 x t Hv) as [K|K]; auto. right. apply not_double_nodbl; auto. }
  destruct K as (io & H1 & H2 & H3).
  pose proof (evaluate_sound L Lok D Dok posix unset_ok exp Nz io H2 e H3) as W.
  apply (wp_ok D posix io) in W; auto. destruct W as ([[e' m] r] & -> & W1 & W2 & W3).
  exists e', m, r. cbn in *. repeat split; auto; try apply W2; apply W1.
Qed.
Print Assumptions arith_total.

Theorem arith_index_total : forall L D posix unset_ok exp e,
  locale_ok L -> dops_ok D -> ~ In 0%N exp -> text_safe L D posix exp e ->
  exists e' m r, evaluate_index L D posix unset_ok exp e = Ok (e', m, r) /\
    (r = None <-> m <> []) /\
    (vro e' = vro e /\ forall x, vro e x = true -> vget e' x = vget e x).
Proof.
  intros L D posix unset_ok exp e Lok Dok Nz Hs.
  assert (K : exists io, conv_defined D posix io /\
    (io = true -> forall i w, reach L exp i (TNumber w) -> nodbl L D w) /\
    (io = true -> ints L D exp e)).
  { destruct Hs as [H|[H|[H1 H2]]].
    - exists false. split; [left; auto|split; discriminate].
    - exists false. split; [right; right; auto|split; discriminate].
    - exists true. split; [right; left; auto|split; intros _].
      + intros i w Hr. apply not_double_nodbl; eauto.
      + intros x t _ Hv. destruct (H2 x t Hv) as [K|K]; auto. right. apply not_double_nodbl; auto. }
  destruct K as (io & H1 & H2 & H3).
  pose proof (index_sound L Lok D Dok posix unset_ok exp Nz io H2 e H3) as W.
  apply (wp_ok D posix io) in W; auto. destruct W as ([[e' m] r] & -> & W1 & W2).
  exists e', m, r. cbn in *. repeat split; auto; try apply W2; apply W1.
Qed.
Print Assumptions arith_index_total.

(** C06.  A long printed by the shell is read back as the same long; and the texts
    read as integers are exactly the C constants with optional space and sign. *)
Theorem long_print_read : forall L z, locale_ok L -> is_long z -> xwcstol L 0 (dec_of_Z z) = Some z.
Proof. intros L z Lok. exact (dec_roundtrip L Lok z). Qed.
Print Assumptions long_print_read.

Theorem integer_texts : forall L s z, locale_ok L ->
  (xwcstol L 0 s = Some z <-> int_text L s z /\ is_long z).
Proof. intros L s z Lok. exact (xwcstol_iff L Lok s z). Qed.
Print Assumptions integer_texts.

Theorem integer_text_value_unique : forall L s z z', locale_ok L ->
  int_text L s z -> int_text L s z' -> z = z'.
Proof. intros L s z z' Lok. exact (int_text_fun L Lok s z z'). Qed.
Print Assumptions integer_text_value_unique.

(** C06: assigning any integer-valued expression and reading the variable back. *)
Theorem arith_assign_read : forall L D posix unset_ok exp exp2 e ts x rhs e1 z,
  locale_ok L -> dops_ok D -> ~ In 0%N exp -> ~ In 0%N exp2 ->
  lexes L exp (TIdent x :: TEqual :: ts) -> derives LAsg ts rhs ->
  conv_safe L D posix (TIdent x :: TEqual :: ts) e ->
  well_formed L D posix rhs = true ->
  eval L D posix unset_ok rhs e = Some (e1, RNum D (NInt D z)) -> is_long z -> vro e1 x = false ->
  lexes L exp2 [TIdent x] ->
  exists e2, evaluate_arithmetic L D posix unset_ok exp e = Ok (e2, [], Some (dec_of_Z z)) /\
    evaluate_index L D posix unset_ok exp2 e2 = Ok (e2, [], Some (Z.max z (- LONG_MAX))) /\
    vget e2 x = Some (dec_of_Z z).
Proof.
  intros L D posix unset_ok exp exp2 e ts x rhs e1 z Lok Dok Nz Nz2 Hl Hd Hc Wr Er Hz Hro Hl2.
  assert (Hv : derives LCond [TIdent x] (EVar x)).
  { apply d_cond0, d_or0, d_and0. do 8 apply d_bin0. apply d_bin_base, d_prefix0, d_postfix0, d_var. }
  assert (Hd' : derives LAsg (TIdent x :: TEqual :: ts) (EAsg None (EVar x) rhs)).
  { apply (d_asg [TIdent x] (EVar x) TEqual None ts rhs); auto. }
  pose proof (arith_correct L D posix unset_ok exp e _ _ Lok Dok Nz Hl Hd' Hc) as A.
  unfold expand_expr in A. cbn [well_formed eval] in A. rewrite Wr, Er in A. cbn [andb rv_text num_text] in A.
  unfold assign in A. rewrite Hro in A. cbn [to_num rv_text num_text] in A.
  eexists. split; [destruct posix; exact A|].
  split; [|cbn; rewrite list_N_eqb_refl; reflexivity].
  set (e2 := mkEnv _ _).
  assert (Xz : xwcstol L 0 (dec_of_Z z) = Some z) by (apply dec_roundtrip; auto).
  assert (Nd : dec_of_Z z <> []) by (intro K; rewrite K in Xz; discriminate).
  assert (Hc2 : conv_safe L D posix [TIdent x] e2).
  { right. right. split; [intros w [H|[]]; discriminate|].
    intros y t [H|[]] Ht. injection H as <-. cbn in Ht. rewrite list_N_eqb_refl in Ht. injection Ht as <-.
    right. left. exists z. split; auto. apply dec_of_Z_text. }
  pose proof (arith_index_correct L D posix unset_ok exp2 e2 _ _ Lok Dok Nz2 Hl2 (d_asg0 _ _ Hv) Hc2) as B.
  unfold expand_index in B. cbn [well_formed eval to_num] in B. unfold read_var in B. cbn [vget e2] in B.
  unfold e2 at 1 in B. cbn [vget] in B. rewrite list_N_eqb_refl in B. apply list_N_eqb_neq in Nd. rewrite Nd in B.
  unfold read_num in B. rewrite Xz in B. exact B.
Qed.
Print Assumptions arith_assign_read.

(** ** Concrete instances *)
(** Running the tokenizer proves instances of [lexes]. *)
Fixpoint lex_all (L : locale) (exp : list N) (f : nat) (s : st) : option (list tok) :=
  match next_token L exp s with
  | Ok s' =>
      match tk s', f with
      | TNull, _ => Some []
      | TInvalid, _ => None
      | t, S f' => option_map (cons t) (lex_all L exp f' s')
      | _, O => None
      end
  | _ => None
  end.

Lemma lex_all_ok : forall L exp f s ts, locale_ok L -> ~ In 0%N exp -> (idx s <= length exp)%nat ->
  lex_all L exp f s = Some ts -> lexes L (skipn (idx s) exp) ts.
Proof.
  intros L exp f. induction f as [|f IH]; intros s ts Lok Nz Hi; cbn [lex_all];
    destruct (next_token_spec L Lok exp Nz s Hi) as (s' & -> & Hp);
    destruct Hp as [[-> Hsp]|[(i & t & -> & Ht & Hi' & Hm)|(i & c & r & -> & _)]]; cbn [tk set_tk set_idx fail set_er msg];
    try discriminate.
  - intros H. injection H as <-. rewrite <- (app_nil_r (skipn _ _)). apply lexes_spaces; auto. constructor.
  - destruct t; discriminate.
  - intros H. injection H as <-. rewrite <- (app_nil_r (skipn _ _)). apply lexes_spaces; auto. constructor.
  - assert (E : match t with TNull => Some [] | TInvalid => None
      | _ => option_map (cons t) (lex_all L exp f (set_tk (set_idx s i) t)) end =
      option_map (cons t) (lex_all L exp f (set_tk (set_idx s i) t))) by (destruct t; auto; discriminate).
    intros H. assert (H' : option_map (cons t) (lex_all L exp f (set_tk (set_idx s i) t)) = Some ts) by (destruct t; auto; discriminate).
    destruct (lex_all L exp f (set_tk (set_idx s i) t)) as [ts'|] eqn:El; [|discriminate].
    injection H' as <-. apply IH in El; auto; [|cbn; lia]. eapply munch_lexes; eauto.
Qed.

Lemma lex_run : forall L exp ts, locale_ok L -> existsb (N.eqb 0) exp = false ->
  lex_all L exp (length exp) (mkSt 0 TNull false false (mkEnv (fun _ => None) (fun _ => false)) []) = Some ts ->
  lexes L exp ts.
Proof.
  intros L exp ts Lok Nz H. refine (lex_all_ok L exp _ _ ts Lok _ _ H); [|cbn; lia]. intro K.
  assert (E : existsb (N.eqb 0) exp = true) by (apply existsb_exists; exists 0%N; auto). congruence.
Qed.

(** A toy floating-point type: integers of any size, where conversion to long is
    undefined out of range. *)
Definition big_dops : dops := mkDops Z (fun z => z) (fun z => if in_long z then Some z else None)
  (fun z => negb (z =? 0)) Z.opp (fun z => z + 1) (fun z => z - 1) Z.add Z.sub Z.mul Z.quot Z.rem
  Z.ltb Z.leb Z.eqb
  (fun t => if list_N_eqb t (str "1e30") then Some (10 ^ 30) else None) dec_of_Z.
Lemma big_dops_ok : dops_ok big_dops.
Proof.
  intros d z H. cbn in H. destruct (in_long d) eqn:E; [|discriminate]. injection H as <-.
  unfold in_long in E. unfold is_long. lia.
Qed.

Definition env_of (l : list (list N * list N)) (ro : list (list N)) : env :=
  mkEnv (fun x => option_map snd (find (fun p => list_N_eqb (fst p) x) l)) (fun x => existsb (list_N_eqb x) ro).

(** Instance of [arith_binary_exact]: the least long divided by -1, an error. *)
Example binary_instance :
  lexes c_locale (str "x / y") [TIdent (str "x"); TSlash; TIdent (str "y")] /\
  let e := env_of [(str "x", str "-9223372036854775808"); (str "y", str " -0x1")] [] in
  vget e (str "x") = Some (dec_of_Z LONG_MIN) /\ int_text c_locale (dec_of_Z LONG_MIN) LONG_MIN /\
  vget e (str "y") = Some (str " -0x1") /\ int_text c_locale (str " -0x1") (-1) /\
  exact_op IDiv LONG_MIN (-1) = Some (- LONG_MIN) /\ in_long (- LONG_MIN) = false.
Proof.
  split; [apply lex_run; [apply c_locale_ok| |]; vm_compute; reflexivity|]. cbn zeta.
  split; [reflexivity|]. split; [apply dec_of_Z_text|]. split; [reflexivity|].
  split; [|split; reflexivity].
  apply it_space; [reflexivity|]. apply (it_minus c_locale (str "0x1") 1). apply (ic_hex (ch "x") (str "1")); auto.
  apply numeral_one; [apply (digit_num 1)|]; lia.
Qed.

(** Instance of [arith_correct]: precedence, right-associative assignment, lazily read
    variables, comparison, conditional. *)
Example correct_instance :
  let exp := str "y = x += 2 * (3 + x) << 1 < 100 ? x++ : 7" in
  let e := env_of [(str "x", str "010")] [] in
  exists ts t, lexes c_locale exp ts /\ derives LAsg ts t /\
    conv_safe c_locale big_dops false ts e /\
    match expand_expr c_locale big_dops false true t e with
    | Some (e', r) => r = str "17" /\ vget e' (str "x") = Some (str "17") /\ vget e' (str "y") = Some (str "17")
    | None => False
    end.
Proof.
  cbn zeta. eexists. eexists. split; [apply lex_run; [apply c_locale_ok|reflexivity|vm_compute; reflexivity]|].
  assert (V : forall x, derives LPostfix [TIdent x] (EVar x)) by (intro; apply d_postfix0, d_var).
  assert (B : forall n ts z, derives LPrefix ts z -> derives (LBin n) ts z).
  { intros n ts z H. induction n; [apply d_bin_base; auto|apply d_bin0; auto]. }
  assert (Nm : forall n w, derives (LBin n) [TNumber w] (ENum w)) by (intros; apply B, d_prefix0, d_postfix0, d_num).
  assert (Vn : forall n w, derives (LBin n) [TIdent w] (EVar w)) by (intros; apply B, d_prefix0; auto).
  assert (C : forall ts z, derives (LBin 8) ts z -> derives LCond ts z) by (intros; apply d_cond0, d_or0, d_and0; auto).
  split.
  - eapply (d_asg [_] _ TEqual None); [apply C, Vn|reflexivity|].
    eapply (d_asg [_] _ TPlusequal (Some IAdd)); [apply C, Vn|reflexivity|].
    apply d_asg0.
    eapply (d_cond [_; _; _; _; _; _; _; _; _; _; _] _ [_; _] _ [_]).
    + apply d_or0, d_and0. do 4 apply d_bin0.
      eapply (d_bin 3 TLess _ [_; _; _; _; _; _; _; _; _] _ [_]); [reflexivity| |apply Nm].
      apply d_bin0. eapply (d_bin 2 TLessless _ [_; _; _; _; _; _; _] _ [_]); [reflexivity| |apply Nm].
      do 2 apply d_bin0. eapply (d_bin 0 TAster _ [_] _ [_; _; _; _; _]); [reflexivity|apply Nm|].
      apply B, d_prefix0, d_postfix0. eapply (d_paren [_; _; _]). apply d_asg0, C. do 6 apply d_bin0.
      eapply (d_bin 1 TPlus _ [_] _ [_]); [reflexivity|apply Nm|apply Vn].
    + apply d_asg0, C, B, d_prefix0. eapply (d_postfix [_]); [apply V|reflexivity].
    + apply C, Nm.
  - split.
    + right. right. split.
      * intros w H. left. cbn in H.
        repeat match goal with H : _ \/ _ |- _ => destruct H as [H|H] end; try discriminate; try contradiction;
        injection H as <-; eexists; apply xwcstol_iff; try apply c_locale_ok; vm_compute; reflexivity.
      * intros y u H Hu. cbn in H.
        repeat match goal with H : _ \/ _ |- _ => destruct H as [H|H] end; try discriminate; try contradiction;
        injection H as <-; vm_compute in Hu; try discriminate; injection Hu as <-; right; left;
        exists 8; apply xwcstol_iff; try apply c_locale_ok; vm_compute; reflexivity.
    + vm_compute. auto.
Qed.

(** Instance of the skipping theorems: the right operand divides by zero and
    assigns, and is ignored. *)
Example skip_instance :
  match evaluate_arithmetic c_locale big_dops false false (str "0 && (x = 1 / 0) + y++") (env_of [] []) with
  | Ok (e', m, r) => m = [] /\ r = Some (str "0") /\ vget e' (str "x") = None
  | _ => False
  end /\
  well_formed c_locale big_dops false
    (EBin (BInt IAdd) (EAsg None (EVar (str "x")) (EBin (BInt IDiv) (ENum (str "1")) (ENum (str "0"))))
       (EIncr false true (EVar (str "y")))) = true /\
  eval c_locale big_dops false false (ENum (str "0")) (env_of [] []) =
    Some (env_of [] [], RNum big_dops (NInt big_dops 0)).
Proof. split; [vm_compute; auto|]. split; [vm_compute; reflexivity|reflexivity]. Qed.

(** Instance of [arith_total] on a malformed text with a read-only variable. *)
Example total_instance :
  text_safe c_locale big_dops true (str "x = 5 ) @") (env_of [(str "x", str "1")] [str "x"]) /\
  match evaluate_arithmetic c_locale big_dops true false (str "x = 5 ) @") (env_of [(str "x", str "1")] [str "x"]) with
  | Ok (e', m, r) => m <> [] /\ r = None /\ vget e' (str "x") = Some (str "1")
  | _ => False
  end.
Proof.
  split; [left; reflexivity|]. vm_compute. repeat split; auto. discriminate.
Qed.

(** Instance of [arith_skip_any_text]: a malformed operand met in parse-only mode. *)
Example skip_any_instance :
  let exp := str "x = (3 + * ) y" in
  match parse_assignment c_locale big_dops false true exp (length exp + 2)
    (mkSt 1 (TIdent (str "x")) true false (env_of [] []) []) with
  | Ok r => er (fst r) = true
  | _ => False
  end.
Proof. vm_compute. reflexivity. Qed.

(** Instance of [arith_increment_exact]. *)
Example increment_instance :
  lexes wide_locale (str "++x") [TPlusplus; TIdent (str "x")] /\ incop TPlusplus = Some true.
Proof. split; [apply lex_run; [apply wide_locale_ok| |]; vm_compute; reflexivity|reflexivity]. Qed.

Example negate_instance : lexes c_locale (str "-x") [TMinus; TIdent (str "x")].
Proof. apply lex_run; [apply c_locale_ok| |]; vm_compute; reflexivity. Qed.

Example print_read_instance : is_long LONG_MIN /\ dec_of_Z LONG_MIN = str "-9223372036854775808".
Proof. split; [unfold is_long, LONG_MIN, LONG_MAX; lia|reflexivity]. Qed.

(** C33.  Default mode: applying a bitwise operator to a floating-point value out of
    the range of long performs a conversion C leaves undefined. *)
Theorem arith_conversion_defined_refuted :
  exists L D exp e, locale_ok L /\ dops_ok D /\ ~ In 0%N exp /\
    evaluate_arithmetic L D false true exp e = UB.
Proof.
  exists c_locale, big_dops, (str "1e30 | 0"), (env_of [] []).
  split; [apply c_locale_ok|]. split; [apply big_dops_ok|]. split; [|vm_compute; reflexivity].
  intro H. vm_compute in H. repeat destruct H as [H|H]; try discriminate; contradiction.
Qed.
Print Assumptions arith_conversion_defined_refuted.

(** C01 deviation: the remainder of the least long by -1 is 0, but is reported
    as an overflow. *)
Theorem arith_remainder_always_exact_refuted :
  exists exp e a b, vget e (str "x") = Some (dec_of_Z a) /\ vget e (str "y") = Some (dec_of_Z b) /\
    is_long a /\ is_long b /\ b <> 0 /\ in_long (Z.rem a b) = true /\
    lexes c_locale exp [TIdent (str "x"); TPercent; TIdent (str "y")] /\
    match evaluate_arithmetic c_locale big_dops true true exp e with
    | Ok (_, m, r) => m <> [] /\ r = None
    | _ => False
    end.
Proof.
  exists (str "x % y"), (env_of [(str "x", dec_of_Z LONG_MIN); (str "y", dec_of_Z (-1))] []), LONG_MIN, (-1).
  split; [reflexivity|]. split; [reflexivity|]. split; [unfold is_long, LONG_MIN, LONG_MAX; lia|].
  split; [unfold is_long, LONG_MIN, LONG_MAX; lia|]. split; [discriminate|]. split; [reflexivity|].
  split; [apply lex_run; [apply c_locale_ok| |]; vm_compute; reflexivity|].
  vm_compute. split; [discriminate|reflexivity].
Qed.
Print Assumptions arith_remainder_always_exact_refuted.
