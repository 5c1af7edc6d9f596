(** Word expansion makes no null characters. *)
From Coq Require Import Ascii String.
From Coq Require Import List NArith ZArith Bool Arith Lia.
From Coq Require Import ZifyBool ZifyN.
From Verif Require Import Common Locale NumModel CharcatModel Regex XfnmatchModel QuoteModel SplitModel BraceModel ExpandModel ExpandSpec ExpandFour ExpandWord ExpandQuoted ExpandSafe.
Import ListNotations.
Open Scope res_scope.

Lemma nz_app a b : nonzero a -> nonzero b -> nonzero (a ++ b).
Proof. intros. apply Forall_app. auto. Qed.
Lemma nz_firstn n s : nonzero s -> nonzero (firstn n s).
Proof. intros H. rewrite <- (firstn_skipn n s) in H. apply Forall_app in H. tauto. Qed.
Lemma nz_skipn n s : nonzero s -> nonzero (skipn n s).
Proof. intros H. rewrite <- (firstn_skipn n s) in H. apply Forall_app in H. tauto. Qed.
Lemma nz_cells k s : nonzero s -> nonull (cells k s).
Proof. intros H. unfold nonull, cells. apply Forall_forall. intros x Hx. apply in_map_iff in Hx as (c & <- & Hc). unfold nonzero in H. rewrite Forall_forall in H. cbn. auto. Qed.
Lemma forall_firstn {A} (P : A -> Prop) n s : Forall P s -> Forall P (firstn n s).
Proof. intros H. rewrite <- (firstn_skipn n s) in H. apply Forall_app in H. tauto. Qed.
Lemma forall_skipn {A} (P : A -> Prop) n s : Forall P s -> Forall P (skipn n s).
Proof. intros H. rewrite <- (firstn_skipn n s) in H. apply Forall_app in H. tauto. Qed.
Lemma forall_last {A} (P : A -> Prop) l d : P d -> Forall P l -> P (last l d).
Proof. intros Hd. induction 1 as [|x l Hx Hl IH]; [exact Hd|]. destruct l; [exact Hx|exact IH]. Qed.
Lemma forall_removelast {A} (P : A -> Prop) l : Forall P l -> Forall P (removelast l).
Proof. induction 1 as [|x l Hx Hl IH]; [constructor|]. destruct l; [constructor|]. constructor; auto. Qed.

(** ** Patterns *)
Lemma match_nz C h t l p s r : nonzero s -> match_each C h t l p s = Ok r -> nonzero r.
Proof.
  intros Hs. unfold match_each. destruct (negb (h || t || l)); [discriminate|]. destruct (xfnm_compile C p _) as [[x|]| |]; cbn [rbind]; try discriminate.
  - destruct (xfnm_wmatch C x s) as [[[a b]|]| |]; cbn [rbind]; try discriminate; intros H; injection H as <-; [|exact Hs]. apply nz_app; [now apply nz_firstn|now apply nz_skipn].
  - intros H. now injection H as <-.
Qed.
Lemma subst_loop_nz C x repl all : nonzero repl -> forall fuel s buf r, nonzero s -> nonzero buf -> subst_loop C fuel x s repl all buf = Ok r -> nonzero r.
Proof.
  intros Hr. induction fuel as [|fuel IH]; intros s buf r Hs Hb H; [discriminate|]. cbn [subst_loop] in H. destruct (xfnm_wmatch C x s) as [[[a b]|]| |]; cbn [rbind] in H; try discriminate.
  - destruct (b <=? a); [injection H as <-; now apply nz_app|]. destruct (length s <? b); [discriminate|].
    assert (nonzero (buf ++ firstn a s ++ repl)) by (apply nz_app; [exact Hb|apply nz_app; [now apply nz_firstn|exact Hr]]).
    assert (nonzero (skipn b s)) by now apply nz_skipn. destruct all; [eapply IH; [| |exact H]; auto|]. injection H as <-. now apply nz_app.
  - injection H as <-. now apply nz_app.
Qed.
Lemma subst_nz C h t all p repl s r : nonzero s -> nonzero repl -> subst_each C h t all p repl s = Ok r -> nonzero r.
Proof.
  intros Hs Hr. unfold subst_each. destruct (xfnm_compile C p _) as [[x|]| |]; cbn [rbind]; try discriminate.
  - unfold xfnm_subst. destruct (HEADONLY (xflags x) && TAILONLY (xflags x)).
    + destruct (match xval x with Compiled re => _ | XfnmatchModel.Literal lit => _ end) as [[|]| |]; cbn [rbind]; try discriminate; intros H; now injection H as <-.
    + apply subst_loop_nz; auto. constructor.
  - intros H. now injection H as <-.
Qed.
Lemma map_nz (f : list N -> res (list N)) : (forall s r, nonzero s -> f s = Ok r -> nonzero r) -> forall l rs, Forall nonzero l -> mapM f l = Ok rs -> Forall nonzero rs.
Proof.
  intros Hf. induction l as [|x l IH]; intros rs Hl H; cbn [mapM] in H; [injection H as <-; constructor|]. inversion Hl; subst.
  destruct (f x) as [r| |] eqn:E; cbn [rbind] in H; try discriminate. destruct (mapM f l) as [rs'| |]; cbn [rbind] in H; try discriminate. injection H as <-. constructor; eauto.
Qed.
Lemma digits_nz fuel : forall n acc, nonzero acc -> nonzero (dec_digits fuel n acc).
Proof.
  induction fuel as [|fuel IH]; intros n acc H; [exact H|]. cbn [dec_digits].
  assert (nonzero ((48 + n mod 10)%N :: acc)) by (constructor; [generalize (n mod 10)%N; intros; lia|exact H]). destruct (n / 10 =? 0)%N; auto.
Qed.
Lemma dec_nz n : nonzero (dec_of_nat n).
Proof. apply digits_nz. constructor. Qed.
Lemma removal_nz f esc : nonull f -> nonzero (quote_removal f esc).
Proof.
  intros H. unfold quote_removal. assert (G : forall r, nonzero r -> nonzero (quote_removal_loop f esc r)); [|apply G; constructor].
  induction H as [|[c k] f Hc _ IH]; intros r Hr; cbn [quote_removal_loop]; [exact Hr|]. destruct (quotation k); [now apply IH|]. apply IH. apply nz_app; [|constructor; [exact Hc|constructor]].
  destruct (should_escape k esc); [|exact Hr]. apply nz_app; [exact Hr|constructor; [discriminate|constructor]].
Qed.
Lemma join_nz sep l : nonzero sep -> Forall nonzero l -> nonzero (join sep l).
Proof. intros Hs. induction 1 as [|x l Hx Hl IH]; [constructor|]. cbn [join]. destruct l; [exact Hx|]. apply nz_app; [exact Hx|]. now apply nz_app. Qed.
Lemma join_cells_nz sep l : nonull sep -> Forall nonull l -> nonull (join_cells sep l).
Proof. intros Hs. induction 1 as [|x l Hx Hl IH]; [constructor|]. cbn [join_cells]. destruct l; [exact Hx|]. apply Forall_app; split; [exact Hx|]. now apply Forall_app. Qed.
Lemma value_cells_nz indq vs : Forall nonzero vs -> Forall nonull (value_cells indq vs).
Proof.
  intros H. unfold value_cells. apply Forall_forall. intros x Hx. apply in_map_iff in Hx as (v & <- & Hv). rewrite Forall_forall in H.
  apply Forall_app. split; [apply nz_cells; auto|]. destruct (indq && (1 <? length vs)); [constructor; [discriminate|constructor]|constructor].
Qed.

Section Null.
Variable L : locale.
Variable C : ctype.
Variable W : world.
Variable OP : opts.
Hypothesis HW : clean_world W.

Definition post {A} (m : M W A) (P : A -> Prop) : Prop := forall e a e', m e = Ok (Some a, e') -> P a.
Lemma post_ret {A} (a : A) (P : A -> Prop) : P a -> post (ret W a) P.
Proof. intros H e b e' E. now injection E as <- _. Qed.
Lemma post_fail {A} (P : A -> Prop) : post (fail W) P.
Proof. intros e b e' E. discriminate. Qed.
Lemma post_bind {A B} (m : M W A) (k : A -> M W B) (P : A -> Prop) (Q : B -> Prop) : post m P -> (forall a, P a -> post (k a) Q) -> post (bind W m k) Q.
Proof. intros Hm Hk e b e' H. unfold bind in H. destruct (m e) as [[[a|] e1]| |] eqn:E; try discriminate. eapply Hk; eauto. Qed.
Lemma post_lift {A} (x : res A) (P : A -> Prop) : (forall a, x = Ok a -> P a) -> post (lift W x) P.
Proof. intros H e a e' E. unfold lift in E. destruct x; try discriminate. injection E as <- _. auto. Qed.
Lemma post_ifs : post (gets W (getifs W)) (fun v => nonzero (ifs_separator v)).
Proof.
  intros e a e' E. injection E as <- _. unfold ifs_separator. destruct (getifs W e) as [[|c s]|] eqn:Ei.
  - constructor.
  - apply HW in Ei. inversion Ei; subst. constructor; [assumption|constructor].
  - constructor; [discriminate|constructor].
Qed.

Definition invn (st : four) : Prop := Forall nonull (fe st) /\ nonull (fbuf st).
Lemma invn_put st x : invn st -> nonull x -> invn (put st x).
Proof. intros [H1 H2] H. split; [exact H1|]. cbn. now apply Forall_app. Qed.
Lemma one c k : c <> 0%N -> nonull [(c, k)].
Proof. intros H. constructor; [exact H|constructor]. Qed.
Lemma pbrk_nz t s a b : nonzero s -> wcspbrk t s = Some (a, b) -> nonzero b.
Proof.
  revert a b. induction s as [|c s IH]; intros a b H E; [discriminate|]. cbn [wcspbrk] in E. destruct (mem c t); [now injection E as <- <-|]. inversion H; subst.
  destruct (wcspbrk t s) as [[a' b']|] eqn:E2; [|discriminate]. injection E as <- <-. eauto.
Qed.
Lemma tilde_nz e s hn tt home rest : nonzero s -> expand_tilde W e s hn tt = Some (home, rest) -> nonzero home /\ nonzero rest.
Proof.
  intros Hs. unfold expand_tilde. destruct s as [|c s]; [discriminate|]. inversion Hs; subst. destruct (negb (c =? ch "~")%N); [discriminate|].
  set (t := match tt with TT_SINGLE => _ | _ => _ end). destruct (wcspbrk t s) as [[a b]|] eqn:E; [|destruct hn; [discriminate|]].
  - destruct (match a with [] => false | _ => _ end); [discriminate|]. destruct (tilde_home W e a) eqn:Eh; [|discriminate]. intros X. injection X as <- <-. split; [eapply HW; eauto|eapply pbrk_nz; eauto].
  - destruct (match s with [] => false | _ => _ end); [discriminate|]. destruct (tilde_home W e s) eqn:Eh; [|discriminate]. intros X. injection X as <- <-. split; [eapply HW; eauto|constructor].
Qed.
Lemma add_sq_nz s : forall acc t r, nonzero s -> nonzero acc -> add_sq s acc = (t, r) -> nonzero t /\ nonzero r.
Proof.
  induction s as [|c s IH]; intros acc t r Hs Ha H; cbn [add_sq] in H; [injection H as <- <-; auto|]. destruct (c =? sq)%N; [injection H as <- <-; auto|].
  inversion Hs; subst. eapply IH; [assumption| |exact H]. apply nz_app; [exact Ha|constructor; [assumption|constructor]].
Qed.
Lemma string_nz tilde quot dc fuel : forall e hn ss st st', nonzero ss -> invn st -> four_string W tilde quot dc fuel e hn ss st = Ok st' -> invn st'.
Proof.
  induction fuel as [|fuel IH]; intros e hn ss st st' Hs Hi H; [discriminate|]. destruct ss as [|c s']; [injection H as <-; exact Hi|].
  inversion Hs as [|? ? Hc Hs']; subst. cbn [four_string] in H.
  assert (D : forall st', four_string W tilde quot dc fuel e hn s' (put st [(c, or_quoted dc (findq st))]) = Ok st' -> invn st').
  { intros st2 H2. eapply IH; [exact Hs'| |exact H2]. apply invn_put; [exact Hi|now apply one]. }
  destruct (c =? dq)%N.
  { assert (Q : forall f r z, invn (put (mkFour (fe st) (fbuf st) f r z) [(dq, set_quotation dc)])).
    { intros f r z. apply invn_put; [exact Hi|]. now apply one. }
    destruct quot; try (now apply D).
    all: destruct (negb (findq st)); [eapply IH; [exact Hs'| |exact H]; apply Q|].
    all: destruct (fremovedq st), (fe st) as [|f0 fl] eqn:Ef, (fbuf st) as [|[d k] [|]] eqn:Eb; try (eapply IH; [exact Hs'| |exact H]; apply Q).
    all: destruct ((d =? dq)%N && quotation k); [|eapply IH; [exact Hs'| |exact H]; apply Q].
    all: eapply IH; [exact Hs'| |exact H]; split; constructor. }
  destruct (c =? sq)%N.
  { destruct quot; try (now apply D). destruct (findq st); [now apply D|]. destruct (add_sq s' []) as [t [|d r]] eqn:Ea; [discriminate|].
    apply add_sq_nz in Ea as [Ht Hr]; [|exact Hs'|constructor]. inversion Hr; subst.
    destruct (d =? sq)%N; [|discriminate]. eapply IH; [| |exact H]; [assumption|]. apply invn_put; [exact Hi|]. constructor; [discriminate|]. apply Forall_app. split.
    - now apply nz_cells.
    - now apply one. }
  destruct (c =? bs)%N.
  { match type of H with (if ?b then _ else _) = _ => destruct b end; [|now apply D].
    destruct s' as [|d s'']; [eapply IH; [| |exact H]; [constructor|]; apply invn_put; [exact Hi|now apply one]|].
    inversion Hs'; subst. eapply IH; [| |exact H]; [assumption|]. apply invn_put; [exact Hi|]. constructor; [discriminate|now apply one]. }
  destruct (c =? ch ":")%N; [|now apply D]. destruct tilde; try (now apply D). destruct (findq st); [now apply D|].
  assert (Hp : invn (put st [(c, dc)])) by (apply invn_put; [exact Hi|now apply one]).
  destruct (expand_tilde W e s' hn TT_MULTI) as [[home rest]|] eqn:Et.
  - apply tilde_nz in Et as [H1 H2]; [|exact Hs']. eapply IH; [| |exact H]; [exact H2|]. apply invn_put; [exact Hp|now apply nz_cells].
  - eapply IH; [| |exact H]; assumption.
Qed.
Definition units_nz (eu : wunit -> bool -> M W special) (w : list wunit) : Prop :=
  Forall (fun u => clean u -> forall b, post (eu u b) (fun r => Forall nonull (contribution b r))) w.
Lemma merge_nz l st : Forall nonull l -> invn st -> invn (merge l st).
Proof.
  intros Hl [H1 H2]. destruct Hl as [|x l Hx Hl]; [now split|]. destruct Hl as [|y l Hy Hl]; [apply invn_put; [split|]; assumption|].
  cbn [merge]. assert (Hr : Forall nonull (y :: l)) by (constructor; assumption). split; cbn [fe fbuf].
  - apply Forall_app. split; [exact H1|]. constructor; [now apply Forall_app|now apply forall_removelast].
  - apply forall_last; [constructor|exact Hr].
Qed.
Lemma cleans w : fold_right and True (map clean w) <-> Forall clean w.
Proof. induction w as [|u w IH]; cbn [map fold_right]; [split; constructor|]. rewrite IH. split; [intros [H1 H2]; constructor; auto|inversion 1; auto]. Qed.
Lemma loop_nz tilde quot dc eu w : Forall clean w -> units_nz eu w -> forall first st, invn st -> post (four_loop W tilde quot dc eu w first st) invn.
Proof.
  induction w as [|u w IH]; intros Hc Hu first st Hi; [now apply post_ret|]. inversion Hc; subst. inversion Hu as [|? ? Hu1 Hu2]; subst.
  assert (G : forall u', clean u' -> (forall b, post (eu u' b) (fun r => Forall nonull (contribution b r))) -> forall b,
    post (bind W (eu u' b) (fun r => match r with
        | SFields l => four_loop W tilde quot dc eu w false (merge l match l with [] => if findq st then mkFour (fe st) (fbuf st) true true (fremoveempty st)
                            else mkFour (fe st) (fbuf st) false (fremovedq st) true | _ => st end)
        | SText s => four_loop W tilde quot dc eu w false (put st (cells (mkCat Soft (findq st || quoted dc) false) s)) end)) invn).
  { intros u' _ Hp b. eapply post_bind; [apply Hp|]. intros [l|s] Hr; cbn [contribution] in Hr; (apply IH; [assumption|assumption|]).
    - apply merge_nz; [exact Hr|]. destruct l; [destruct (findq st)|]; exact Hi.
    - inversion Hr; subst. apply invn_put; [exact Hi|]. apply nz_cells. clear - H3. unfold nonull, cells in H3. rewrite Forall_map in H3. exact H3. }
  destruct u as [s|a1 a2 a3 a4 a5 a6 a7 a8|k|w']; cbn [four_loop].
  - clear G. eapply post_bind with (P := invn); [|intros; now apply IH]. intros e st' e' H.
    match type of H with (let '(_, _) := ?X in _) = _ => remember X as x eqn:Ex; destruct x as [st1 s1] end.
    assert (H1' : invn st1 /\ nonzero s1).
    { destruct tilde; try (injection Ex as <- <-; now split); destruct first; try (injection Ex as <- <-; now split).
      all: destruct (expand_tilde W e s _ _) as [[home rest]|] eqn:Et; injection Ex as -> ->; [|now split].
      all: apply tilde_nz in Et as [T1 T2]; [|assumption]; (split; [|exact T2]); apply invn_put; [exact Hi|now apply nz_cells]. }
    destruct H1' as [Hi1 Hs1]. unfold lift in H. destruct (four_string _ _ _ _ _ _ _ _ _) as [st2| |] eqn:E2; try discriminate. injection H as <- _. eapply string_nz; eauto.
  - apply G; auto.
  - apply G; auto.
  - apply G; auto.
Qed.
Lemma four_nz tilde quot dc eu w : Forall clean w -> units_nz eu w -> post (expand_four W eu w tilde quot dc) (Forall nonull).
Proof.
  intros Hc Hu. unfold expand_four. eapply post_bind; [apply loop_nz; auto; split; constructor|]. intros st [H1 H2].
  assert (G : post (ret W (fe st ++ [fbuf st])) (Forall nonull)) by (apply post_ret; apply Forall_app; split; [exact H1|constructor; [exact H2|constructor]]).
  destruct (fremoveempty st), (fe st), (fbuf st); try exact G. apply post_ret. constructor.
Qed.
Lemma single_nz tilde quot esc eu w : Forall clean w -> units_nz eu w -> post (expand_single W eu w tilde quot esc) nonzero.
Proof.
  intros Hc Hu. unfold expand_single, expand_single_cc. eapply post_bind with (P := nonull).
  - eapply post_bind; [now apply four_nz|]. intros l Hl. eapply post_bind; [apply post_ifs|]. intros ifs Hifs. apply post_ret. apply join_cells_nz; [now apply nz_cells|exact Hl].
  - intros a Ha. apply post_ret. now apply removal_nz.
Qed.
Lemma trim_nz s a b r : nonzero s -> trim_wstring s a b = Ok r -> nonzero r.
Proof.
  intros Hs. unfold trim_wstring. destruct ((a =? 0)%Z && (b =? SSIZE_MAX)%Z); [intros H; now injection H as <-|]. cbv zeta.
  generalize (if (a <? 0)%Z then Z.max 0 (a + Z.of_nat (length s)) else a). intros a'.
  assert (G : forall x y (c d : bool) r, (if c then UB else if d then Ok [] else Ok (segment y x s)) = Ok r -> nonzero r).
  { intros x y c d r0. destruct c; [discriminate|]. destruct d; intros H; injection H as <-; [constructor|]. rewrite segment_eq; now apply nz_firstn, nz_skipn. }
  destruct (b <? 0)%Z; [destruct (_ <=? a')%Z; [intros H; injection H as <-; constructor|intros H; apply (G _ _ _ false) in H; exact H]|apply G].
Qed.
Lemma select_nz t vs a b it r : Forall nonzero vs -> select_values t vs a b it = Ok r -> Forall nonzero (fst (fst (fst r))).
Proof.
  intros Hv. assert (Dn : forall n, Forall nonzero [dec_of_nat n]) by (intros; constructor; [apply dec_nz|constructor]).
  assert (A : forall x y, Forall nonzero (segment y x vs)) by (intros; rewrite segment_eq; now apply forall_firstn, forall_skipn).
  unfold select_values, trim_values. destruct t.
  - destruct vs as [|s [|]]; try discriminate. inversion Hv; subst.
    destruct it; try (intros H; injection H as <-; apply Dn); (destruct (trim_wstring s a b) as [s'| |] eqn:E; cbn [rbind]; try discriminate; intros H; injection H as <-; constructor; [eapply trim_nz; eauto|constructor]).
  - destruct it; cbn [rbind]; intros H; injection H as <-; first [apply A|apply Dn].
  - destruct it; cbn [rbind]; intros H; injection H as <-; first [apply A|apply Dn].
Qed.
Lemma finish_nz n b cc vs : Forall nonzero vs -> post (finish_param W n b cc vs) (fun r => Forall nonull (contribution b r)).
Proof.
  intros Hv. unfold finish_param. eapply post_bind; [apply post_ifs|]. intros ifs Hifs. apply post_ret. cbn [contribution]. apply value_cells_nz.
  assert (X : Forall nonzero (if cc && b then match vs with [_] => vs | _ => [join (ifs_separator ifs) vs] end else vs)).
  { destruct (cc && b); [|exact Hv]. assert (Forall nonzero [join (ifs_separator ifs) vs]) by (constructor; [now apply join_nz|constructor]). destruct vs as [|x [|]]; assumption. }
  destruct n; [|exact X]. apply Forall_forall. intros x Hx. apply in_map_iff in Hx as (v & <- & _). apply dec_nz.
Qed.
Lemma value_nz eu p : match p with inl _ => True | inr w => Forall clean w /\ units_nz eu w end -> post (expand_value W eu p) (fun x => Forall nonzero (snd (fst x))).
Proof.
  intros H. destruct p as [n|w]; unfold expand_value.
  - intros e a e' E. unfold bind, gets, ret in E. injection E as <- _. destruct (HW e) as [Hv _]. specialize (Hv n). destruct (get_variable W e n); cbn [fst snd].
    + constructor; constructor.
    + constructor; [exact Hv|constructor].
    + exact Hv.
    + exact Hv.
  - destruct H as [H1 H2]. eapply post_bind with (P := Forall nonzero); [|intros l Hl; apply post_ret; exact Hl]. unfold expand_word.
    eapply post_bind; [now apply four_nz|]. intros l Hl. apply post_ret. rewrite Forall_map. eapply Forall_impl; [|exact Hl]. intros f Hf. now apply removal_nz.
Qed.
Lemma modify_nz eu colon ty p mw sw n b t i j cc vs un : Forall clean mw -> units_nz eu mw -> Forall clean sw -> units_nz eu sw -> Forall nonzero vs ->
  post (modify_param L C W OP eu colon ty p mw sw n b t i j cc vs un) (fun r => Forall nonull (contribution b r)).
Proof.
  intros Hmc Hmu Hsc Hsu Hv. unfold modify_param. set (unset := un || _).
  assert (S : forall q dc, post (bind W (expand_four W eu sw TT_SINGLE q dc) (fun l => ret W (SFields l))) (fun r => Forall nonull (contribution b r))).
  { intros q dc. eapply post_bind; [now apply four_nz|]. intros l Hl. now apply post_ret. }
  pose proof (fun n b cc => finish_nz n b cc vs Hv) as F.
  assert (U : forall k, post k (fun r => Forall nonull (contribution b r)) -> post (if unset && negb (o_unset OP) then fail W else k) (fun r => Forall nonull (contribution b r))).
  { intros k Hk. destruct (unset && negb (o_unset OP)); [apply post_fail|exact Hk]. }
  destruct ty.
  - apply U, F.
  - destruct unset; [apply S|apply F].
  - destruct unset; [apply F|apply S].
  - destruct unset; [|apply F]. destruct p as [name|]; [|apply post_fail]. destruct (negb (is_name L name)); [apply post_fail|].
    destruct (match t with TScalar => _ | _ => _ end); [apply post_fail|]. eapply post_bind; [now apply single_nz|]. intros s Hs.
    eapply post_bind with (P := fun _ => True); [intros ? ? ? _; exact I|]. intros _ _. apply finish_nz. constructor; [exact Hs|constructor].
  - destruct unset; [|apply F]. destruct sw; [apply post_fail|]. eapply post_bind with (P := fun _ => True); [intros ? ? ? _; exact I|]. intros _ _. apply post_fail.
  - apply U. eapply post_bind with (P := fun _ => True); [intros ? ? ? _; exact I|]. intros m _.
    eapply post_bind; [apply post_lift; intros a Ha; eapply (map_nz _ (fun s r => match_nz C head tail longest m s r) vs a Hv Ha)|]. intros vs' Hv'. now apply finish_nz.
  - apply U. eapply post_bind with (P := fun _ => True); [intros ? ? ? _; exact I|]. intros m _.
    eapply post_bind; [now apply single_nz|]. intros s Hs.
    eapply post_bind; [apply post_lift; intros a Ha; eapply (map_nz _ (fun x r Hx => subst_nz C head tail all m s x r Hx Hs) vs a Hv Ha)|]. intros vs' Hv'. now apply finish_nz.
Qed.
Theorem unit_nz u : clean u -> forall b, post (expand_unit L C W OP u b) (fun r => Forall nonull (contribution b r)).
Proof.
  induction u as [s|k|w IHw|number colon ty param start end_ match_ subst IHp IHs IHe IHm IHsub] using wunit_ind'; intros G b.
  - intros e a e' H. discriminate.
  - cbn [expand_unit]. eapply post_bind with (P := nonzero).
    + intros e s e' H. injection H as H. destruct (HW e) as (_ & _ & Hc & _). eapply Hc; eauto.
    + intros s Hs. apply post_ret. constructor; [now apply nz_cells|constructor].
  - change (expand_unit L C W OP (WArith w) b) with (bind W (expand_single W (expand_unit L C W OP) w TT_NONE Q_INDQ ES_NONE) (fun s =>
      bind W (fun e => Ok (evaluate_arithmetic W e s)) (fun s => ret W (SText s)))).
    eapply post_bind with (P := fun _ => True); [intros ? ? ? _; exact I|]. intros x _. eapply post_bind with (P := nonzero).
    + intros e s e' H. injection H as H. destruct (HW e) as (_ & _ & _ & Hc & _). eapply Hc; eauto.
    + intros s Hs. apply post_ret. constructor; [now apply nz_cells|constructor].
  - change (expand_unit L C W OP (WParam number colon ty param start end_ match_ subst) b) with
      (bind W (expand_index W (expand_unit L C W OP) start end_) (fun '(startindex, endindex, it) =>
       bind W (expand_value W (expand_unit L C W OP) param) (fun '(t, values, unset) =>
       bind W (lift W (select_values t values startindex endindex it)) (fun '(values, concat, startindex, endindex) =>
       modify_param L C W OP (expand_unit L C W OP) colon ty param match_ subst number b t startindex endindex concat values unset)))).
    cbn [clean] in G. destruct G as (Gp & Gs & Ge & Gm & Gsub). apply cleans in Gm, Gsub.
    eapply post_bind with (P := fun _ => True); [intros ? ? ? _; exact I|]. intros [[si ei] it] _.
    eapply post_bind; [apply value_nz|].
    { destruct param as [|w]; [exact I|]. apply cleans in Gp. split; [exact Gp|exact IHp]. }
    intros [[t vs] un] Hv. cbn [fst snd] in Hv. eapply post_bind; [apply post_lift; intros a Ha; exact (select_nz _ _ _ _ _ _ Hv Ha)|].
    intros [[[vs2 cc] si2] ei2] Hv2. cbn [fst] in Hv2. now apply modify_nz.
Qed.
Theorem four_clean w tilde quot dc : Forall clean w -> post (expand_four W (expand_unit L C W OP) w tilde quot dc) (Forall nonull).
Proof. intros H. apply four_nz; [exact H|]. apply Forall_forall. intros u _. apply unit_nz. Qed.
End Null.
