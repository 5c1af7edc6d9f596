(** The loop of expand_four, part by part. *)
From Coq Require Import Ascii String.
From Coq Require Import List NArith ZArith Bool Arith Lia.
From Coq Require Import ZifyBool ZifyN.
From Verif Require Import Common Locale NumModel CharcatModel Regex XfnmatchModel QuoteModel SplitModel BraceModel ExpandModel ExpandSpec.
Import ListNotations.
Open Scope res_scope.

Lemma add_sq_split s : forall buf, add_sq s buf = (buf ++ fst (add_sq s []), snd (add_sq s [])).
Proof.
  induction s as [|c s IH]; intros buf; cbn [add_sq]; [now rewrite app_nil_r|].
  destruct (c =? sq)%N; [now rewrite app_nil_r|]. rewrite (IH (buf ++ [c])), (IH ([] ++ [c])). cbn [fst snd app]. now rewrite <- app_assoc.
Qed.
Lemma add_sq_len s : forall buf, length (snd (add_sq s buf)) <= length s.
Proof.
  induction s as [|c s IH]; intros buf; cbn [add_sq]; [cbn; lia|]. destruct (c =? sq)%N; [cbn; lia|]. specialize (IH (buf ++ [c])). cbn [length]. lia.
Qed.
Lemma add_sq_closed t r : forall buf, ~ In sq t -> add_sq (t ++ sq :: r) buf = (buf ++ t, sq :: r).
Proof.
  induction t as [|c t IH]; intros buf H; cbn [app add_sq].
  - rewrite N.eqb_refl. now rewrite app_nil_r.
  - destruct (c =? sq)%N eqn:E; [exfalso; apply H; left; lia|]. rewrite IH by (intros Hi; apply H; now right). now rewrite <- app_assoc.
Qed.

Section Four.
Variable W : world.

Lemma wcspbrk_some t s a b : wcspbrk t s = Some (a, b) -> s = a ++ b /\ (forall c, In c a -> mem c t = false).
Proof.
  revert a b. induction s as [|c s IH]; intros a b H; cbn [wcspbrk] in H; [discriminate|]. destruct (mem c t) eqn:E.
  - injection H as <- <-. split; [reflexivity|]. intros d [].
  - destruct (wcspbrk t s) as [[a' b']|] eqn:E'; [|discriminate]. injection H as <- <-. destruct (IH _ _ eq_refl) as [-> H2]. split; [reflexivity|].
    intros d [<-|Hd]; auto.
Qed.
Lemma wcspbrk_none t s : wcspbrk t s = None -> forall c, In c s -> mem c t = false.
Proof.
  induction s as [|c s IH]; intros H d Hd; [destruct Hd|]. cbn [wcspbrk] in H. destruct (mem c t) eqn:E; [discriminate|].
  destruct (wcspbrk t s) as [[a' b']|] eqn:E'; [discriminate|]. destruct Hd as [<-|Hd]; auto.
Qed.
(** The user name is followed by the rest and has no quotes in it. *)
Lemma tilde_split e ss hn tt home rest : expand_tilde W e ss hn tt = Some (home, rest) ->
  exists u, ss = ch "~" :: u ++ rest /\ (forall c, In c u -> c <> dq /\ c <> sq /\ c <> bs).
Proof.
  unfold expand_tilde. destruct ss as [|c s]; [discriminate|]. destruct (c =? ch "~")%N eqn:E; [|discriminate]. cbn [negb].
  set (t := match tt with TT_SINGLE => _ | _ => _ end). intros H.
  assert (Hc : exists u, s = u ++ rest /\ (match u with [] => false | _ => match wcspbrk [dq; sq; bs] u with Some _ => true | None => false end end) = false).
  { destruct (wcspbrk t s) as [[a b]|] eqn:Ep.
    - apply wcspbrk_some in Ep as [-> _]. exists a. destruct (match a with [] => false | _ => _ end) eqn:Ea in H; [discriminate|].
      destruct (tilde_home W e a); [|discriminate]. injection H as _ <-. split; [reflexivity|exact Ea].
    - destruct hn; [discriminate|]. destruct (match s with [] => false | _ => _ end) eqn:Ea in H; [discriminate|].
      destruct (tilde_home W e s); [|discriminate]. injection H as _ <-. exists s. split; [now rewrite app_nil_r|exact Ea]. }
  destruct Hc as (u & -> & Hu). exists u. split; [f_equal; lia|]. intros d Hd.
  destruct u as [|d0 u]; [destruct Hd|]. destruct (wcspbrk [dq; sq; bs] (d0 :: u)) eqn:Ew; [discriminate|].
  pose proof (wcspbrk_none _ _ Ew d Hd) as Hm. cbn [mem existsb] in Hm. lia.
Qed.

Section Loop.
Variable tilde : tildetype.
Variable quot : quoting.
Variable defaultcc : cat.
Notation fs := (four_string W tilde quot defaultcc).

Lemma four_fuel f1 : forall f2 e hn ss st, length ss < f1 -> length ss < f2 -> fs f1 e hn ss st = fs f2 e hn ss st.
Proof.
  induction f1 as [|f1 IH]; intros [|f2] e hn ss st H1 H2; try lia. destruct ss as [|c s']; [reflexivity|]. cbn [length] in H1, H2.
  assert (D : forall st, fs f1 e hn s' st = fs f2 e hn s' st) by (intros; apply IH; lia).
  cbn [four_string]. destruct (c =? dq)%N.
  { destruct quot; rewrite ?D; try reflexivity.
    all: destruct (negb (findq st)); [now rewrite D|]; destruct (fremovedq st), (fe st) as [|], (fbuf st) as [|[d k] [|]]; rewrite ?D; try reflexivity;
      destruct ((d =? dq)%N && quotation k); now rewrite ?D. }
  destruct (c =? sq)%N.
  { destruct quot; rewrite ?D; try reflexivity. destruct (findq st); [now rewrite ?D|].
    destruct (add_sq s' []) as [t [|d r]] eqn:Es; [reflexivity|]. destruct (d =? sq)%N; [|reflexivity].
    pose proof (add_sq_len s' []) as Hl. rewrite Es in Hl. cbn in Hl. apply IH; lia. }
  destruct (c =? bs)%N.
  { match goal with |- context [if ?b then _ else _] => destruct b end; [|apply D].
    destruct s' as [|d s'']; cbn [length] in *; [apply IH; cbn; lia|apply IH; lia]. }
  destruct (c =? ch ":")%N; [|apply D]. destruct tilde; try apply D. destruct (findq st); [apply D|].
  destruct (expand_tilde W e s' hn TT_MULTI) as [[home rest]|] eqn:Et; [|apply D].
  apply tilde_split in Et as (u & -> & _). cbn [length] in *. rewrite app_length in *. apply IH; lia.
Qed.
Definition run (e : E W) (hn : bool) (ss : list N) (st : four) : res four := fs (S (length ss)) e hn ss st.

(** [takes s st st']: reading [s] in state [st] leads to [st']. *)
Definition takes (s : list N) (st st' : four) : Prop := forall e hn t, run e hn (s ++ t) st = run e hn t st'.
Lemma takes_nil st : takes [] st st.
Proof. intros e hn t. reflexivity. Qed.
Lemma takes_app s t a b c : takes s a b -> takes t b c -> takes (s ++ t) a c.
Proof. intros H1 H2 e hn r. rewrite <- app_assoc. now rewrite H1, H2. Qed.
Lemma takes_step s st st' : s <> [] -> (forall e hn t f, length (s ++ t) < S f -> fs (S f) e hn (s ++ t) st = fs f e hn t st') -> takes s st st'.
Proof.
  intros Hs H e hn t. unfold run. rewrite H by lia. apply four_fuel; rewrite ?app_length; destruct s; cbn; try congruence; lia.
Qed.

Definition special_char (c : N) : bool := (c =? dq)%N || (c =? sq)%N || (c =? bs)%N || (c =? ch ":")%N.
Lemma takes_default c st : special_char c = false -> takes [c] st (put st [(c, or_quoted defaultcc (findq st))]).
Proof.
  unfold special_char. intros H. apply takes_step; [discriminate|]. intros e hn t f Hl. cbn [app four_string].
  destruct (c =? dq)%N; [discriminate|]. destruct (c =? sq)%N; [discriminate|]. destruct (c =? bs)%N; [discriminate|].
  destruct (c =? ch ":")%N; [discriminate|]. reflexivity.
Qed.
Lemma takes_colon st : tilde <> TT_MULTI \/ findq st = true -> takes [ch ":"] st (put st [(ch ":", or_quoted defaultcc (findq st))]).
Proof.
  intros Ht. apply takes_step; [discriminate|]. intros e hn t f Hl. cbn [app four_string].
  change (ch ":" =? dq)%N with false. change (ch ":" =? sq)%N with false. change (ch ":" =? bs)%N with false. change (ch ":" =? ch ":")%N with true. cbn [negb].
  destruct tilde; try reflexivity. destruct Ht as [Ht| ->]; [congruence|reflexivity].
Qed.
End Loop.

(** ** Words in the normal quoting mode *)
Section Word.
Variable tilde : tildetype.
Variable dc : cat.
Hypothesis Htilde : tilde <> TT_MULTI.
Hypothesis Hdc : quoted dc = false.
Notation takes := (takes tilde Q_WORD dc).
Notation mark c := (c, set_quotation dc).
Notation qcell c := (c, set_quoted dc).

Lemma or_false : or_quoted dc false = dc.
Proof. unfold or_quoted. rewrite orb_false_r. now destruct dc. Qed.
Lemma or_true : or_quoted dc true = set_quoted dc.
Proof. unfold or_quoted, set_quoted. now rewrite orb_true_r. Qed.

Lemma takes_plain c st : c <> dq -> c <> bs -> (findq st = false -> c <> sq) ->
  takes [c] st (put st [(c, or_quoted dc (findq st))]).
Proof.
  intros H1 H2 H3. destruct (special_char c) eqn:E; [|now apply takes_default].
  destruct (N.eq_dec c (ch ":")) as [->|Hc]; [apply takes_colon; now left|].
  assert (c = sq) as -> by (unfold special_char in E; lia). destruct (findq st) eqn:Eq; [|exfalso; now apply H3].
  apply takes_step; [discriminate|]. intros e hn t f Hl. cbn [app four_string].
  change (sq =? dq)%N with false. change (sq =? sq)%N with true. rewrite Eq. reflexivity.
Qed.
Lemma takes_esc c st : findq st = false -> takes [bs; c] st (put st [mark bs; qcell c]).
Proof.
  intros H. apply takes_step; [discriminate|]. intros e hn t f Hl. cbn [app four_string].
  change (bs =? dq)%N with false. change (bs =? sq)%N with false. change (bs =? bs)%N with true. rewrite H. reflexivity.
Qed.
Lemma takes_single s st : findq st = false -> ~ In sq s -> takes (sq :: s ++ [sq]) st (put st (mark sq :: cells (set_quoted dc) s ++ [mark sq])).
Proof.
  intros H Hs. apply takes_step; [discriminate|]. intros e hn t f Hl. cbn [app four_string].
  change (sq =? dq)%N with false. change (sq =? sq)%N with true. rewrite H. rewrite <- app_assoc. cbn [app]. rewrite add_sq_closed by auto.
  change (sq =? sq)%N with true. reflexivity.
Qed.
Lemma escapable_mem c : mem c chars_escapable = true <-> dq_escapable c.
Proof. unfold dq_escapable, mem, chars_escapable. rewrite existsb_exists. split.
  - intros (x & Hx & E). apply N.eqb_eq in E as <-. exact Hx.
  - intros H. exists c. split; [exact H|apply N.eqb_refl].
Qed.
Lemma takes_desc c st : findq st = true -> dq_escapable c -> takes [bs; c] st (put st [mark bs; qcell c]).
Proof.
  intros H Hc. apply takes_step; [discriminate|]. intros e hn t f Hl. cbn [app four_string].
  change (bs =? dq)%N with false. change (bs =? sq)%N with false. change (bs =? bs)%N with true. rewrite H. cbn [negb orb next_in].
  apply escapable_mem in Hc. rewrite Hc. reflexivity.
Qed.
Lemma takes_dback c st : findq st = true -> ~ dq_escapable c -> takes [bs; c] st (put st [qcell bs; qcell c]).
Proof.
  intros H Hc e hn t. cbn [app].
  assert (Hm : mem c chars_escapable = false) by (destruct (mem c chars_escapable) eqn:E; [apply escapable_mem in E; contradiction|reflexivity]).
  transitivity (run tilde Q_WORD dc e hn (c :: t) (put st [qcell bs])).
  - unfold run. cbn [length]. set (n := S (length t)). cbn [four_string].
    change (bs =? dq)%N with false. change (bs =? sq)%N with false. change (bs =? bs)%N with true. rewrite H. cbn [negb orb next_in]. rewrite Hm, or_true. reflexivity.
  - assert (Hd : c <> dq /\ c <> bs) by (split; intros ->; apply Hc; unfold dq_escapable; cbn; tauto). destruct Hd as [H1 H2].
    assert (T := takes_plain c (put st [qcell bs]) H1 H2). change (findq (put st [qcell bs])) with (findq st) in T. rewrite H, or_true in T.
    specialize (T ltac:(discriminate) e hn t). cbn [app] in T. rewrite T. unfold put. cbn [fe fbuf findq fremovedq fremoveempty].
    now rewrite <- app_assoc.
Qed.
Lemma takes_open st : findq st = false -> takes [dq] st (mkFour (fe st) (fbuf st ++ [mark dq]) true false (fremoveempty st)).
Proof.
  intros H. apply takes_step; [discriminate|]. intros e hn t f Hl. cbn [app four_string]. change (dq =? dq)%N with true. rewrite H. reflexivity.
Qed.
(** The double quotes are removed when nothing else precedes and nothing is between them. *)
Definition dropped (st : four) : bool :=
  fremovedq st && null (fe st) && match fbuf st with [(d, k)] => (d =? dq)%N && quotation k | _ => false end.
Lemma takes_close st : findq st = true ->
  takes [dq] st (if dropped st then mkFour [] [] false true true
                 else mkFour (fe st) (fbuf st ++ [mark dq]) false (fremovedq st) (fremoveempty st)).
Proof.
  intros H. apply takes_step; [discriminate|]. intros e hn t f Hl. cbn [app four_string]. change (dq =? dq)%N with true. rewrite H. cbn [negb].
  unfold dropped. destruct (fremovedq st) eqn:E1; cbn [andb]; [|unfold put; cbn; now rewrite ?E1].
  destruct (fe st) as [|x l] eqn:E2; cbn [null andb]; [|unfold put; cbn; reflexivity].
  destruct (fbuf st) as [|[d k] [|]] eqn:E3; try (unfold put; cbn; now rewrite ?E3).
  destruct ((d =? dq)%N && quotation k); unfold put; cbn; reflexivity.
Qed.

(** *** The loop over the units *)
Variable eu : wunit -> bool -> M W special.
Notation loop := (four_loop W tilde Q_WORD dc eu).

Definition has_next (w : list wunit) : bool := match w with [] => false | _ => true end.
Lemma loop_string s w st e : loop (WString s :: w) false st e =
  match run tilde Q_WORD dc e (has_next w) s st with Ok st' => loop w false st' e | UB => UB | Fuel => Fuel end.
Proof.
  cbn [four_loop]. unfold bind. fold (has_next w). destruct tilde; unfold lift, run; destruct (four_string _ _ _ _ _ _ _ _ _); reflexivity.
Qed.
Lemma loop_chars s ts st st' e : takes s st st' -> loop (build (chars s ++ ts)) false st e = loop (build ts) false st' e.
Proof.
  intros H.
  assert (B : build (chars s ++ ts) = match s with [] => build ts | _ => match build ts with WString t :: w => WString (s ++ t) :: w | w => WString s :: w end end).
  { clear H. induction s as [|c s IH]; [reflexivity|]. cbn [chars map app build]. change (map inl s) with (chars s). rewrite IH. destruct s as [|d s].
    - unfold add_char. destruct (build ts) as [|[]]; reflexivity.
    - unfold add_char. destruct (build ts) as [|[]]; reflexivity. }
  rewrite B. destruct s as [|c s].
  - assert (E : st = st') by (specialize (H e false []); cbn in H; congruence). now rewrite E.
  - clear B. set (cs := c :: s) in *. destruct (build ts) as [|u w].
    + rewrite loop_string. specialize (H e (has_next []) []). rewrite app_nil_r in H. rewrite H. reflexivity.
    + destruct u; try (rewrite loop_string; specialize (H e (has_next (u :: w)) []); rewrite app_nil_r in H; cbn [has_next] in *; try rewrite H; reflexivity).
      * rewrite !loop_string. now rewrite H.
      * rewrite loop_string. match goal with |- context [has_next ?x] => specialize (H e (has_next x) []) end. rewrite app_nil_r in H. rewrite H. reflexivity.
      * rewrite loop_string. match goal with |- context [has_next ?x] => specialize (H e (has_next x) []) end. rewrite app_nil_r in H. rewrite H. reflexivity.
      * rewrite loop_string. match goal with |- context [has_next ?x] => specialize (H e (has_next x) []) end. rewrite app_nil_r in H. rewrite H. reflexivity.
Qed.
(** What a unit contributes *)
Definition contribution (indq : bool) (r : special) : list (list cell) :=
  match r with SFields l => l | SText s => [cells (mkCat Soft indq false) s] end.
Definition add_contribution (st : four) (c : list (list cell)) : four :=
  let st := match c with
            | [] => if findq st then mkFour (fe st) (fbuf st) true true (fremoveempty st) else mkFour (fe st) (fbuf st) false (fremovedq st) true
            | _ => st end in
  merge c st.
Lemma loop_unit u w st b e : expansion u ->
  loop (u :: w) b st e = bind W (eu u (findq st)) (fun r => loop w false (add_contribution st (contribution (findq st) r))) e.
Proof.
  intros Hu. assert (Hq : findq st || false || quoted dc = findq st) by (rewrite Hdc; now rewrite !orb_false_r).
  destruct u as [s|? ? ? ? ? ? ? ?|k|w']; [destruct Hu|..]; cbn [four_loop]; unfold bind; rewrite Hq;
    (destruct (eu _ (findq st) e) as [[[[l|s]|] e']| |]; [| |reflexivity..];
     [destruct l; reflexivity|cbn [contribution add_contribution merge]; rewrite Hdc, orb_false_r; reflexivity]).
Qed.

(** *** States as fields *)
Definition mk (f : list (list cell)) (i r z : bool) : four := mkFour (removelast f) (last f []) i r z.
Lemma glue_one {A} (f : list (list A)) x : f <> [] -> glue f [x] = removelast f ++ [last f [] ++ x].
Proof. destruct f; [congruence|reflexivity]. Qed.
Lemma glue_nil_r {A} (f : list (list A)) : glue f [] = f.
Proof. destruct f; reflexivity. Qed.
Lemma glue_ne {A} (f c : list (list A)) : f <> [] -> glue f c <> [].
Proof. intros H E. destruct f; [congruence|]. destruct c; cbn in E; [discriminate|]. destruct f; [discriminate|]. cbn in E. discriminate. Qed.
Lemma put_mk f i r z x : f <> [] -> put (mk f i r z) x = mk (glue f [x]) i r z.
Proof.
  intros H. unfold put, mk. cbn [fe fbuf findq fremovedq fremoveempty]. rewrite glue_one by auto. now rewrite removelast_last, last_last.
Qed.
Lemma merge_mk f i r z c : f <> [] -> merge c (mk f i r z) = mk (glue f c) i r z.
Proof.
  intros H. destruct c as [|x [|y c]].
  - now rewrite glue_nil_r.
  - now apply put_mk.
  - unfold merge, mk. cbn [fe fbuf findq fremovedq fremoveempty]. destruct f as [|f0 f]; [congruence|]. cbn [glue]. set (g := f0 :: f) in *. clearbody g.
    f_equal.
    + change ((last g [] ++ x) :: y :: c) with ([last g [] ++ x] ++ y :: c). rewrite app_assoc, removelast_app by discriminate.
      now rewrite <- app_assoc.
    + change (removelast g ++ (last g [] ++ x) :: y :: c) with (removelast g ++ ([last g [] ++ x] ++ y :: c)). rewrite app_assoc.
      generalize (removelast g ++ [last g [] ++ x]). intros h. clear. assert (L : forall d1 d2 a (b : list (list cell)), last (a :: b) d1 = last (a :: b) d2).
      { intros d1 d2 a b. revert a. induction b as [|b0 b IH]; intros a; [reflexivity|]. cbn [last]. apply IH. }
      induction h as [|a h IH]; [reflexivity|]. cbn [app]. destruct (h ++ y :: c) as [|q t] eqn:E; [destruct h; discriminate|]. exact IH.
Qed.
Lemma glue_assoc {A} (a b c : list (list A)) : glue (glue a b) c = glue a (glue b c).
Proof.
  destruct a as [|a0 a]; [reflexivity|]. destruct b as [|b0 b]; [reflexivity|]. destruct c as [|c0 c]; [now rewrite !glue_nil_r|].
  set (f := a0 :: a). assert (Hf : f <> []) by discriminate. change (glue f (b0 :: b)) with (removelast f ++ (last f [] ++ b0) :: b).
  assert (G : forall (x y : list (list A)), x <> [] -> glue x (c0 :: c) = removelast x ++ (last x [] ++ c0) :: c) by (intros [|] ? ?; [congruence|reflexivity]).
  assert (G2 : forall (x : list (list A)) y0 y, x <> [] -> glue x (y0 :: y) = removelast x ++ (last x [] ++ y0) :: y) by (intros [|] ? ? ?; [congruence|reflexivity]).
  rewrite !G2 by (try discriminate; destruct (removelast f); discriminate).
  destruct b as [|b1 b] using rev_ind.
  - rewrite removelast_last, last_last. cbn [removelast last app]. rewrite G2 by discriminate. now rewrite <- app_assoc.
  - clear IHb. rewrite !(app_comm_cons b [b1]). change (removelast f ++ ((last f [] ++ b0) :: b) ++ [b1]) with (removelast f ++ (((last f [] ++ b0) :: b) ++ [b1])).
    rewrite app_assoc, !removelast_last, !last_last. change ((b0 :: b) ++ (b1 ++ c0) :: c) with (b0 :: (b ++ (b1 ++ c0) :: c)).
    rewrite G2 by auto. now rewrite <- app_assoc.
Qed.
Definition add_c (f : list (list cell)) (i r z : bool) (c : list (list cell)) : four :=
  mk (glue f c) i (r || i && null c) (z || negb i && null c).
Lemma add_contribution_mk f i r z c : f <> [] -> add_contribution (mk f i r z) c = add_c f i r z c.
Proof.
  intros H. unfold add_contribution, add_c. cbn [findq mk]. destruct c as [|x c].
  - rewrite glue_nil_r. cbn [null merge]. destruct i; cbn [negb andb]; rewrite ?orb_true_r, ?orb_false_r; reflexivity.
  - cbn [null]. rewrite !andb_false_r, !orb_false_r. now apply merge_mk.
Qed.
End Word.
End Four.
