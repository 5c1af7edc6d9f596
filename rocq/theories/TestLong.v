(** The long form of the test built-in: it terminates, evaluates expressions of
    the grammar, and accepts nothing else. *)
From Coq Require Import Ascii String.
From Coq Require Import List NArith ZArith Bool Lia Arith.
From Verif Require Import Common Locale NumModel NumProofs TestModel TestSpec TestPrim.
Import ListNotations.

Scheme g_or_mut := Induction for g_or Sort Prop
  with g_and_mut := Induction for g_and Sort Prop
  with g_term_mut := Induction for g_term Sort Prop.
Combined Scheme g_mut from g_or_mut, g_and_mut, g_term_mut.

Section Env.
Context (E : tenv) (Lok : locale_ok (t_loc E)).

(** Unfolding equations. *)
Lemma long_or_S : forall f rest, long_or E (S f) rest =
  (let! (v, e, r) := long_and E f rest in or_loop E f v e r)%res.
Proof. reflexivity. Qed.
Lemma or_loop_S : forall f v e rest, or_loop E (S f) v e rest =
  (if negb e && head_is rest "-o"
   then let! (v2, e2, r) := long_and E f (tl rest) in or_loop E f (v || v2) e2 r
   else Ok (v, e, rest))%res.
Proof. reflexivity. Qed.
Lemma long_and_S : forall f rest, long_and E (S f) rest =
  (let! (v, e, r) := long_term E f rest in and_loop E f v e r)%res.
Proof. reflexivity. Qed.
Lemma and_loop_S : forall f v e rest, and_loop E (S f) v e rest =
  (if negb e && head_is rest "-a"
   then let! (v2, e2, r) := long_term E f (tl rest) in and_loop E f (v && v2) e2 r
   else Ok (v, e, rest))%res.
Proof. reflexivity. Qed.
Lemma long_term_S : forall f rest, long_term E (S f) rest =
  (let negate := head_is rest "!" in
   let rest := if negate then tl rest else rest in
   match rest with
   | [] => Ok (false, true, [])
   | _ =>
       if head_is rest "(" then
         let! (v, e, r) := long_or E f (tl rest) in
         if head_is r ")" then Ok (xorb v negate, e, tl r)
         else Ok (false, true, r)
       else
         let! (v, e, r) := long_prim E rest in Ok (xorb v negate, e, r)
   end)%res.
Proof. reflexivity. Qed.

(** ** Fuel *)
Definition fine {A} (n : nat) (x : res (A * list (list N))) : Prop :=
  match x with Fuel => False | UB => True | Ok (_, r) => (length r <= n)%nat end.

Lemma double_fuel : forall a b, test_double E a b <> Fuel.
Proof.
  intros a b. unfold test_double, val, fail.
  repeat match goal with |- context [if ?c then _ else _] => destruct c end; try discriminate.
  destruct (t_mbs E b); discriminate.
Qed.
Lemma binary_fuel : forall op l r x, binary_op E op l r = Some x -> x <> Fuel.
Proof.
  clear Lok. intros op l r x H.
  assert (KI : forall f, int_cond E f l r <> Fuel) by (intros f; unfold int_cond; destruct (compare_integers E l r); discriminate).
  assert (KF : forall f, file_cond E f l r <> Fuel) by (intros f; unfold file_cond; destruct (compare_files E l r); discriminate).
  assert (KV : forall f, ver_cond E f l r <> Fuel).
  { intros f. unfold ver_cond. destruct (versions_total E (S (length l)) l r) as (c & Hc); [lia|]. unfold versions. rewrite Hc. discriminate. }
  assert (KR : match_regex E l r <> Fuel).
  { unfold match_regex. destruct (t_mbs E r); [|discriminate]. destruct (negb (t_regcomp E l0)); [discriminate|].
    destruct (t_mbs E l); discriminate. }
  unfold binary_op in H.
  repeat match type of H with context [if ?c then _ else _] => destruct c end; try discriminate H;
    injection H as <-; auto; discriminate.
Qed.
Lemma triple_fuel : forall l op r, test_triple E l op r <> Fuel.
Proof.
  clear Lok. intros l op r. unfold test_triple. destruct (binary_op E op l r) as [x|] eqn:B.
  - eapply binary_fuel; eauto.
  - destruct (list_N_eqb l (str "!")).
    + unfold tneg. pose proof (double_fuel op r). destruct (test_double E op r) as [[v e]| |]; cbn; congruence.
    + destruct (list_N_eqb l (str "(") && list_N_eqb r (str ")")); discriminate.
Qed.

Lemma prim_fine : forall a rest, fine (length rest) (long_prim E (a :: rest)).
Proof.
  clear Lok. intros a rest. unfold long_prim.
  assert (D : fine (length rest) match rest with
        | b :: r2 => if is_unary_primary a && term_ends r2
            then (let! (v, e) := test_double E a b in Ok (v, e, r2))%res else Ok (test_single a, false, rest)
        | [] => Ok (test_single a, false, rest) end).
  { destruct rest as [|b r2]; [cbn; lia|]. destruct (is_unary_primary a && term_ends r2); [|cbn; lia].
    pose proof (double_fuel a b). destruct (test_double E a b) as [[v e]| |]; cbn; try congruence; auto with arith. }
  destruct rest as [|op [|c r3]]; auto.
  destruct (is_binary_primary op && term_ends r3); auto.
  pose proof (triple_fuel a op c). destruct (test_triple E a op c) as [[v e]| |]; cbn; try congruence; lia.
Qed.

Lemma long_fine : forall f,
  (forall rest, 5 * length rest + 3 <= f -> fine (length rest) (long_or E f rest)) /\
  (forall v e rest, 5 * length rest + 1 <= f -> fine (length rest) (or_loop E f v e rest)) /\
  (forall rest, 5 * length rest + 2 <= f -> fine (length rest) (long_and E f rest)) /\
  (forall v e rest, 5 * length rest + 1 <= f -> fine (length rest) (and_loop E f v e rest)) /\
  (forall rest, 5 * length rest + 1 <= f -> fine (length rest) (long_term E f rest)).
Proof.
  clear Lok. induction f as [|f (IO & IOL & IA & IAL & IT)]; [repeat split; intros; lia|].
  assert (W : forall A n m (x : res (A * list (list N))), fine n x -> n <= m -> fine m x).
  { intros A n m [[? r]| |]; cbn; auto. lia. }
  split; [|split; [|split; [|split]]].
  - intros rest H. rewrite long_or_S. specialize (IA rest ltac:(lia)).
    destruct (long_and E f rest) as [[[v e] r]| |]; cbn [rbind]; auto. cbn in IA.
    eapply W; [apply IOL; lia|lia].
  - intros v e rest H. rewrite or_loop_S. destruct (negb e && head_is rest "-o") eqn:Q; [|cbn; lia].
    destruct rest as [|a rest]; [rewrite andb_false_r in Q; discriminate|]. cbn [tl length] in *.
    specialize (IA rest ltac:(lia)).
    destruct (long_and E f rest) as [[[v2 e2] r]| |]; cbn [rbind]; auto. cbn in IA.
    eapply W; [apply IOL; lia|lia].
  - intros rest H. rewrite long_and_S. specialize (IT rest ltac:(lia)).
    destruct (long_term E f rest) as [[[v e] r]| |]; cbn [rbind]; auto. cbn in IT.
    eapply W; [apply IAL; lia|lia].
  - intros v e rest H. rewrite and_loop_S. destruct (negb e && head_is rest "-a") eqn:Q; [|cbn; lia].
    destruct rest as [|a rest]; [rewrite andb_false_r in Q; discriminate|]. cbn [tl length] in *.
    specialize (IT rest ltac:(lia)).
    destruct (long_term E f rest) as [[[v2 e2] r]| |]; cbn [rbind]; auto. cbn in IT.
    eapply W; [apply IAL; lia|lia].
  - intros rest H. rewrite long_term_S. cbv zeta. set (neg := head_is rest "!"). clearbody neg.
    assert (K : length (if neg then tl rest else rest) <= length rest) by (destruct neg, rest; cbn; lia).
    destruct (if neg then tl rest else rest) as [|a r1]; [cbn; lia|]. cbn [length] in K.
    destruct (head_is (a :: r1) "("); cbn [tl].
    + specialize (IO r1 ltac:(lia)). destruct (long_or E f r1) as [[[v e] r]| |]; cbn [rbind]; auto. cbn in IO.
      destruct (head_is r ")"); cbn; [destruct r; cbn in *; lia|lia].
    + pose proof (prim_fine a r1) as P. destruct (long_prim E (a :: r1)) as [[[v e] r]| |]; cbn in *; auto. lia.
Qed.

Lemma long_total : forall rest, long_or E (5 * length rest + 3) rest <> Fuel.
Proof.
  clear Lok. intros rest. destruct (long_fine (5 * length rest + 3)) as (H & _). specialize (H rest (le_n _)).
  destruct (long_or E (5 * length rest + 3) rest); cbn in H; congruence.
Qed.

(** More fuel does not change a result. *)
Lemma long_mono : forall f g, f <= g ->
  (forall rest, long_or E f rest <> Fuel -> long_or E g rest = long_or E f rest) /\
  (forall v e rest, or_loop E f v e rest <> Fuel -> or_loop E g v e rest = or_loop E f v e rest) /\
  (forall rest, long_and E f rest <> Fuel -> long_and E g rest = long_and E f rest) /\
  (forall v e rest, and_loop E f v e rest <> Fuel -> and_loop E g v e rest = and_loop E f v e rest) /\
  (forall rest, long_term E f rest <> Fuel -> long_term E g rest = long_term E f rest).
Proof.
  clear Lok. induction f as [|f IH]; intros g Hg; [repeat split; intros; cbn in *; congruence|].
  destruct g as [|g]; [lia|]. destruct (IH g) as (IO & IOL & IA & IAL & IT); [lia|]. clear IH Hg.
  split; [|split; [|split; [|split]]].
  - intros rest H. rewrite !long_or_S in *. destruct (long_and E f rest) as [[[v e] r]| |] eqn:Q; cbn [rbind] in *;
      try congruence; rewrite IA by congruence; rewrite Q; cbn [rbind]; auto.
  - intros v e rest H. rewrite !or_loop_S in *. destruct (negb e && head_is rest "-o"); auto.
    destruct (long_and E f (tl rest)) as [[[v2 e2] r]| |] eqn:Q; cbn [rbind] in *;
      try congruence; rewrite IA by congruence; rewrite Q; cbn [rbind]; auto.
  - intros rest H. rewrite !long_and_S in *. destruct (long_term E f rest) as [[[v e] r]| |] eqn:Q; cbn [rbind] in *;
      try congruence; rewrite IT by congruence; rewrite Q; cbn [rbind]; auto.
  - intros v e rest H. rewrite !and_loop_S in *. destruct (negb e && head_is rest "-a"); auto.
    destruct (long_term E f (tl rest)) as [[[v2 e2] r]| |] eqn:Q; cbn [rbind] in *;
      try congruence; rewrite IT by congruence; rewrite Q; cbn [rbind]; auto.
  - intros rest H. rewrite !long_term_S in *. cbv zeta in *. destruct (if head_is rest "!" then tl rest else rest) as [|a r1]; auto.
    destruct (head_is (a :: r1) "("); auto.
    cbn [tl] in *.
    destruct (long_or E f r1) as [[[v e] r]| |] eqn:Q; cbn [rbind] in *;
      try (exfalso; apply H; reflexivity); rewrite (IO r1) by (rewrite Q; discriminate); rewrite Q; cbn [rbind]; auto.
Qed.

(** Runs with some amount of fuel. *)
Definition r_or rest y := exists f, long_or E f rest = Ok y.
Definition r_orl v e rest y := exists f, or_loop E f v e rest = Ok y.
Definition r_and rest y := exists f, long_and E f rest = Ok y.
Definition r_andl v e rest y := exists f, and_loop E f v e rest = Ok y.
Definition r_term rest y := exists f, long_term E f rest = Ok y.

Lemma r_or_intro : forall rest v e r y, r_and rest (v, e, r) -> r_orl v e r y -> r_or rest y.
Proof.
  clear Lok. intros rest v e r y (f & H) (g & K). exists (S (f + g)). rewrite long_or_S.
  destruct (long_mono f (f + g)) as (_ & _ & A & _); [lia|]. rewrite A by congruence. rewrite H. cbn [rbind].
  destruct (long_mono g (f + g)) as (_ & B & _); [lia|]. rewrite B by congruence. auto.
Qed.
Lemma r_orl_stop : forall v e rest, e = true \/ head_is rest "-o" = false -> r_orl v e rest (v, e, rest).
Proof.
  clear Lok. intros v e rest H. exists 1. rewrite or_loop_S. destruct H as [-> | ->]; [reflexivity|]. rewrite andb_false_r. reflexivity.
Qed.
Lemma r_orl_step : forall v rest v2 e2 r y, r_and rest (v2, e2, r) -> r_orl (v || v2) e2 r y ->
  r_orl v false (str "-o" :: rest) y.
Proof.
  clear Lok. intros v rest v2 e2 r y (f & H) (g & K). exists (S (f + g)). rewrite or_loop_S. cbn [negb andb head_is tl].
  rewrite list_N_eqb_refl.
  destruct (long_mono f (f + g)) as (_ & _ & A & _); [lia|]. rewrite A by congruence. rewrite H. cbn [rbind].
  destruct (long_mono g (f + g)) as (_ & B & _); [lia|]. rewrite B by congruence. auto.
Qed.
Lemma r_and_intro : forall rest v e r y, r_term rest (v, e, r) -> r_andl v e r y -> r_and rest y.
Proof.
  clear Lok. intros rest v e r y (f & H) (g & K). exists (S (f + g)). rewrite long_and_S.
  destruct (long_mono f (f + g)) as (_ & _ & _ & _ & A); [lia|]. rewrite A by congruence. rewrite H. cbn [rbind].
  destruct (long_mono g (f + g)) as (_ & _ & _ & B & _); [lia|]. rewrite B by congruence. auto.
Qed.
Lemma r_andl_stop : forall v e rest, e = true \/ head_is rest "-a" = false -> r_andl v e rest (v, e, rest).
Proof.
  clear Lok. intros v e rest H. exists 1. rewrite and_loop_S. destruct H as [-> | ->]; [reflexivity|]. rewrite andb_false_r. reflexivity.
Qed.
Lemma r_andl_step : forall v rest v2 e2 r y, r_term rest (v2, e2, r) -> r_andl (v && v2) e2 r y ->
  r_andl v false (str "-a" :: rest) y.
Proof.
  clear Lok. intros v rest v2 e2 r y (f & H) (g & K). exists (S (f + g)). rewrite and_loop_S. cbn [negb andb head_is tl].
  rewrite list_N_eqb_refl.
  destruct (long_mono f (f + g)) as (_ & _ & _ & _ & A); [lia|]. rewrite A by congruence. rewrite H. cbn [rbind].
  destruct (long_mono g (f + g)) as (_ & _ & _ & B & _); [lia|]. rewrite B by congruence. auto.
Qed.

(** ** Every plain expression of the grammar gets its value. *)
Definition ends_or (tail : list (list N)) : Prop :=
  match tail with [] => True | a :: _ => a = str ")" \/ a = str "-o" end.
Definition ends_and (tail : list (list N)) : Prop :=
  match tail with [] => True | a :: _ => a = str ")" \/ a = str "-o" \/ a = str "-a" end.

Lemma ends_or_and : forall t, ends_or t -> ends_and t.
Proof. intros [|a t]; cbn; tauto. Qed.
Lemma ends_and_term : forall t, ends_and t -> term_ends t = true.
Proof. intros [|a t]; cbn [ends_and term_ends]; auto. intros H. apply delim_iff. tauto. Qed.
Lemma ends_or_stop : forall t, ends_or t -> head_is t "-a" = false.
Proof. intros [|a t]; cbn [ends_or head_is]; auto. intros [-> | ->]; reflexivity. Qed.

Lemma means_word : forall w x, means E (XWord w) x -> x = Some (test_single w).
Proof. intros w x H. inversion H; subst. f_equal. symmetry. apply truth_single. auto. Qed.

Lemma not_head : forall (a : list N) w rest, a <> str w -> head_is (a :: rest) w = false.
Proof. intros a w rest H. cbn [head_is]. apply list_N_eqb_neq. auto. Qed.

(** A term that does not start with "!" or a parenthesis. *)
Lemma term_prim : forall a rest y, ~ opens a -> long_prim E (a :: rest) = Ok y -> r_term (a :: rest) y.
Proof.
  clear Lok. intros a rest [[v e] r] H K. exists 1. rewrite long_term_S. cbv zeta.
  rewrite (not_head a "!" rest) by (intros ->; apply H; left; auto).
  rewrite (not_head a "(" rest) by (intros ->; apply H; right; auto).
  rewrite K. cbn [rbind]. rewrite xorb_false_r. auto.
Qed.

Lemma term_neg : forall a rest v e r, a <> str "!" -> r_term (a :: rest) (v, e, r) ->
  exists v', r_term (str "!" :: a :: rest) (v', e, r) /\ (e = false -> v' = negb v).
Proof.
  clear Lok. intros a rest v e r H (f & K). destruct f as [|f]; [discriminate|]. rewrite long_term_S in K. cbv zeta in K.
  rewrite (not_head a "!" rest) in K by auto.
  unfold r_term.
  destruct (head_is (a :: rest) "(") eqn:Q.
  - destruct (long_or E f (tl (a :: rest))) as [[[v1 e1] r1]| |] eqn:Q1; cbn [rbind] in K; try discriminate.
    destruct (head_is r1 ")") eqn:Q2; injection K as <- <- <-.
    + exists (xorb v1 true). split.
      * exists (S f). rewrite long_term_S. cbv zeta. change (head_is (str "!" :: a :: rest) "!") with true. cbn [tl].
        rewrite Q. cbn [tl] in Q1. rewrite Q1. cbn [rbind]. rewrite Q2. auto.
      * rewrite xorb_false_r, xorb_true_r. auto.
    + exists false. split; [|discriminate].
      exists (S f). rewrite long_term_S. cbv zeta. change (head_is (str "!" :: a :: rest) "!") with true. cbn [tl].
      rewrite Q. cbn [tl] in Q1. rewrite Q1. cbn [rbind]. rewrite Q2. auto.
  - destruct (long_prim E (a :: rest)) as [[[v1 e1] r1]| |] eqn:Q1; cbn [rbind] in K; try discriminate.
    injection K as <- <- <-. exists (xorb v1 true). split.
    + exists (S f). rewrite long_term_S. cbv zeta. change (head_is (str "!" :: a :: rest) "!") with true. cbn [tl].
      rewrite Q. rewrite Q1. cbn [rbind]. auto.
    + rewrite xorb_false_r, xorb_true_r. auto.
Qed.

Lemma term_head : forall e ws, g_term e ws -> exists a rest, ws = a :: rest.
Proof. intros e ws H. destruct H; eauto. Qed.
Lemma term_head_not : forall e ws, g_term e ws -> plain e -> (forall e', e <> XNot e') ->
  forall a rest, ws = a :: rest -> a <> str "!".
Proof.
  clear Lok. intros e ws H P Hn a rest Q. destruct H; injection Q as <- _; cbn [plain] in P.
  - intros ->. destruct P as [P _]. apply P. left. auto.
  - intros K. cbn [unary_ops In] in H. repeat destruct H as [<-|H]; try discriminate K. destruct H.
  - intros ->. apply P. left; auto.
  - destruct (Hn e eq_refl).
  - discriminate.
Qed.

Lemma str_inj : forall a b, str a = str b -> a = b.
Proof.
  induction a as [|c a IH]; destruct b as [|d b]; cbn [str]; intros H; try discriminate; auto.
  injection H as H1 H2. apply IH in H2. subst. f_equal.
  rewrite <- (ascii_N_embedding c), <- (ascii_N_embedding d). congruence.
Qed.

Lemma unary_not_opens : forall op, In op unary_ops -> ~ opens (str op).
Proof.
  intros op H [K|K]; apply str_inj in K; subst op; cbn in H; repeat destruct H as [H|H]; try discriminate; destruct H.
Qed.

Lemma long_complete :
  (forall e ws, g_or e ws -> plain e -> forall x, means E e x -> forall tail, ends_or tail ->
     exists v er r, agrees x v er /\ (er = false -> r = tail) /\
       forall y, r_orl v er r y -> r_or (ws ++ tail) y) /\
  (forall e ws, g_and e ws -> plain e -> forall x, means E e x -> forall tail, ends_and tail ->
     exists v er r, agrees x v er /\ (er = false -> r = tail) /\
       forall y, r_andl v er r y -> r_and (ws ++ tail) y) /\
  (forall e ws, g_term e ws -> plain e -> forall x, means E e x -> forall tail, ends_and tail ->
     exists v er r, agrees x v er /\ (er = false -> r = tail) /\ r_term (ws ++ tail) (v, er, r)).
Proof.
  apply g_mut.
  - (* and as or *)
    intros e ws G IH P x M tail T. destruct (IH P x M tail (ends_or_and _ T)) as (v & er & r & A & R & K).
    exists v, er, r. split; [auto|]. split; [auto|]. intros y Hy.
    eapply r_or_intro; [|exact Hy]. apply K. apply r_andl_stop.
    destruct er; [auto|]. rewrite (R eq_refl). right. apply ends_or_stop. auto.
  - (* e1 -o e2 *)
    intros e1 e2 ws1 ws2 G1 IH1 G2 IH2 [P1 P2] x M tail T.
    rewrite <- app_assoc. cbn [app].
    inversion M as [| | | | | | | |? ? a b M1 M2|? ? M1|? ? a M1 M2]; subst.
    + destruct (IH1 P1 _ M1 (str "-o" :: ws2 ++ tail)) as (v1 & er1 & r1 & A1 & R1 & K1); [cbn; auto|].
      destruct A1 as [-> ->]. rewrite (R1 eq_refl) in K1. clear R1 r1.
      destruct (IH2 P2 _ M2 tail (ends_or_and _ T)) as (v2 & er2 & r2 & A2 & R2 & K2).
      destruct A2 as [-> ->]. rewrite (R2 eq_refl) in K2. clear R2 r2.
      exists (a || b), false, tail. split; [cbn; auto|]. split; [auto|]. intros y Hy. apply K1.
      eapply r_orl_step; [apply K2|exact Hy]. apply r_andl_stop. right. apply ends_or_stop. auto.
    + destruct (IH1 P1 _ M1 (str "-o" :: ws2 ++ tail)) as (v1 & er1 & r1 & A1 & R1 & K1); [cbn; auto|].
      exists v1, er1, r1. cbn in A1. subst er1. split; [cbn; auto|]. split; [discriminate|auto].
    + destruct (IH1 P1 _ M1 (str "-o" :: ws2 ++ tail)) as (v1 & er1 & r1 & A1 & R1 & K1); [cbn; auto|].
      destruct A1 as [-> ->]. rewrite (R1 eq_refl) in K1. clear R1 r1.
      destruct (IH2 P2 _ M2 tail (ends_or_and _ T)) as (v2 & er2 & r2 & A2 & R2 & K2). cbn in A2. subst er2.
      exists (a || v2), true, r2. split; [cbn; auto|]. split; [discriminate|]. intros y Hy. apply K1.
      eapply r_orl_step; [apply K2|exact Hy]. apply r_andl_stop. auto.
  - intros e ws G IH P x M tail T. destruct (IH P x M tail T) as (v & er & r & A & R & K).
    exists v, er, r. split; [auto|]. split; [auto|]. intros y Hy. eapply r_and_intro; eauto.
  - (* e1 -a e2 *)
    intros e1 e2 ws1 ws2 G1 IH1 G2 IH2 [P1 P2] x M tail T.
    rewrite <- app_assoc. cbn [app].
    inversion M as [| | | | |? ? a b M1 M2|? ? M1|? ? a M1 M2| | |]; subst.
    + destruct (IH1 P1 _ M1 (str "-a" :: ws2 ++ tail)) as (v1 & er1 & r1 & A1 & R1 & K1); [cbn; auto|].
      destruct A1 as [-> ->]. rewrite (R1 eq_refl) in K1. clear R1 r1.
      destruct (IH2 P2 _ M2 tail T) as (v2 & er2 & r2 & A2 & R2 & K2).
      destruct A2 as [-> ->]. rewrite (R2 eq_refl) in K2. clear R2 r2.
      exists (a && b), false, tail. split; [cbn; auto|]. split; [auto|]. intros y Hy. apply K1.
      eapply r_andl_step; [apply K2|exact Hy].
    + destruct (IH1 P1 _ M1 (str "-a" :: ws2 ++ tail)) as (v1 & er1 & r1 & A1 & R1 & K1); [cbn; auto|].
      exists v1, er1, r1. cbn in A1. subst er1. split; [cbn; auto|]. split; [discriminate|auto].
    + destruct (IH1 P1 _ M1 (str "-a" :: ws2 ++ tail)) as (v1 & er1 & r1 & A1 & R1 & K1); [cbn; auto|].
      destruct A1 as [-> ->]. rewrite (R1 eq_refl) in K1. clear R1 r1.
      destruct (IH2 P2 _ M2 tail T) as (v2 & er2 & r2 & A2 & R2 & K2). cbn in A2. subst er2.
      exists (a && v2), true, r2. split; [cbn; auto|]. split; [discriminate|]. intros y Hy. apply K1.
      eapply r_andl_step; [apply K2|exact Hy].
  - (* word *)
    intros w (P1 & P2 & P3) x M tail T. apply means_word in M. subst x.
    exists (test_single w), false, tail. split; [cbn; auto|]. split; [auto|]. cbn [app].
    apply term_prim; auto. unfold long_prim.
    assert (U : is_unary_primary w = false).
    { destruct (is_unary_primary w) eqn:U; auto. apply unary_iff in U. destruct (P2 U). }
    rewrite U. cbn [andb]. destruct tail as [|a [|b t]]; auto.
    assert (B : is_binary_primary a = false).
    { apply ends_and_term in T. cbn [term_ends] in T. apply delim_iff in T. destruct T as [-> | [-> | ->]]; reflexivity. }
    rewrite B. reflexivity.
  - (* unary *)
    intros op w Ho P x M tail T. inversion M as [|? ? ? M1| | | | | | | | |]; subst.
    destruct (means1_ok E Lok op w x M1 Ho) as (v & er & K & A).
    exists v, er, tail. split; [auto|]. split; [auto|]. cbn [app]. apply term_prim; [apply unary_not_opens; auto|].
    unfold long_prim.
    assert (U : is_unary_primary (str op) = true) by (apply unary_iff; exists op; auto).
    assert (B : is_binary_primary w = false).
    { destruct (is_binary_primary w) eqn:B; auto. apply binary_iff in B. destruct (P B). }
    rewrite U, (ends_and_term tail T), B, K. cbn [andb rbind]. destruct tail; reflexivity.
  - (* binary *)
    intros op l r Ho P x M tail T. inversion M as [| |? ? ? ? M2| | | | | | | |]; subst.
    destruct (means2_ok E Lok op l r x M2) as (_ & v & er & K & A).
    exists v, er, tail. split; [auto|]. split; [auto|]. cbn [app]. apply term_prim; auto.
    unfold long_prim.
    assert (B : is_binary_primary (str op) = true) by (apply binary_iff; exists op; auto).
    rewrite B, (ends_and_term tail T). cbn [andb]. unfold test_triple. rewrite K. reflexivity.
  - (* negation *)
    intros e ws G IH P x M tail T. inversion M as [| | |? x1 M1| | | | | | |]; subst.
    assert (P' : plain e) by (destruct e; try exact P; destruct P).
    assert (NN : forall e', e <> XNot e') by (intros e' ->; destruct P).
    destruct (IH P' x1 M1 tail T) as (v & er & r & A & R & K).
    destruct (term_head e ws G) as (a & rest & Q). pose proof (term_head_not e ws G P' NN a rest Q) as Ha.
    subst ws. cbn [app] in *. destruct (term_neg a (rest ++ tail) v er r Ha K) as (v' & K' & V).
    exists v', er, r. split; [|split; auto]. destruct x1 as [b|]; cbn in *; auto.
    destruct A as [-> ->]. auto.
  - (* parentheses *)
    intros e ws G IH P x M tail T. inversion M as [| | | |? ? M1| | | | | |]; subst.
    destruct (IH P x M1 (str ")" :: tail)) as (v & er & r & A & R & K); [cbn; auto|].
    cbn [app]. rewrite <- app_assoc. cbn [app].
    assert (Y : r_or (ws ++ str ")" :: tail) (v, er, r)).
    { apply K. apply r_orl_stop. destruct er; auto. rewrite (R eq_refl). right. reflexivity. }
    destruct Y as (f & Y). 
    assert (Z : exists v' er' r', long_term E (S f) (str "(" :: ws ++ str ")" :: tail) = Ok (v', er', r') /\
      agrees x v' er' /\ (er' = false -> r' = tail)).
    { rewrite long_term_S. cbv zeta. change (head_is (str "(" :: ws ++ str ")" :: tail) "!") with false. cbn iota.
      change (head_is (str "(" :: ws ++ str ")" :: tail) "(") with true. cbn iota. cbn [tl]. rewrite Y. cbn [rbind].
      destruct (head_is r ")") eqn:Q.
      - do 3 eexists. split; [reflexivity|]. rewrite xorb_false_r. split; auto. intros H. rewrite (R H). reflexivity.
      - do 3 eexists. split; [reflexivity|]. split; [|discriminate]. destruct x; cbn; auto. destruct A as [_ ->].
        rewrite (R eq_refl) in Q. discriminate. }
    destruct Z as (v' & er' & r' & Z & A' & R'). exists v', er', r'. split; [auto|]. split; [auto|]. exists (S f). exact Z.
Qed.

(** ** Whatever is evaluated without an error is an expression with that value. *)
Lemma double_sound : forall a b v, test_double E a b = Ok (v, false) ->
  exists e, g_term e [a; b] /\ means E e (Some v).
Proof.
  intros a b v H. destruct (list_N_eqb a (str "!")) eqn:Q.
  - apply list_N_eqb_eq in Q. subst a. injection H as <-. exists (XNot (XWord b)). split.
    + apply g_not. apply g_word.
    + change (Some (negb (test_single b))) with (option_map negb (Some (test_single b))). apply m_not. apply m_word. apply single_truth.
  - destruct (is_unary_primary a) eqn:U.
    + apply unary_iff in U. destruct U as (op & Ho & ->). exists (XUnary op b). split; [apply g_unary; auto|].
      apply m_unary. destruct (means1_total E Lok op b Ho) as (x & M).
      destruct (means1_ok E Lok op b x M Ho) as (v' & e' & K & A). rewrite H in K. injection K as <- <-.
      destruct x; cbn in A; [|discriminate]. destruct A as [-> _]. auto.
    + unfold test_double in H. rewrite Q, U in H. discriminate.
Qed.

Lemma binary_sound : forall l op r v, is_binary_primary op = true -> test_triple E l op r = Ok (v, false) ->
  exists e, g_term e [l; op; r] /\ means E e (Some v).
Proof.
  intros l op r v B H. apply binary_iff in B. destruct B as (o & Ho & ->).
  unfold test_triple in H. destruct (binary_op E (str o) l r) as [x|] eqn:Q.
  - subst x. destruct (means2_total E Lok o l r _ _ Ho Q) as (x & M).
    destruct (means2_ok E Lok o l r x M) as (_ & v' & e' & K & A). rewrite Q in K. injection K as <- <-.
    destruct x; cbn in A; [|discriminate]. destruct A as [-> _].
    exists (XBinary o l r). split; [apply g_binary; auto|]. apply m_binary. auto.
  - apply binary_none in Q. destruct Q as (Q & _). assert (one_of binary_ops (str o)) by (exists o; auto).
    apply binary_iff in H0. congruence.
Qed.

Lemma prim_sound : forall rest v r, long_prim E rest = Ok (v, false, r) ->
  exists e ws, rest = ws ++ r /\ g_term e ws /\ means E e (Some v).
Proof.
  intros rest v r H. destruct rest as [|a r1]; [discriminate|]. unfold long_prim in H.
  assert (S : Ok (test_single a, false, r1) = Ok (v, false, r) -> exists e ws, a :: r1 = ws ++ r /\ g_term e ws /\ means E e (Some v)).
  { intros K. injection K as <- <-. exists (XWord a), [a]. split; auto. split; [apply g_word|]. apply m_word. apply single_truth. }
  assert (D : match r1 with
        | b :: r2 => if is_unary_primary a && term_ends r2
            then (let! (v, e) := test_double E a b in Ok (v, e, r2))%res else Ok (test_single a, false, r1)
        | [] => Ok (test_single a, false, r1) end = Ok (v, false, r) -> exists e ws, a :: r1 = ws ++ r /\ g_term e ws /\ means E e (Some v)).
  { destruct r1 as [|b r2]; auto. destruct (is_unary_primary a && term_ends r2); auto.
    destruct (test_double E a b) as [[v1 e1]| |] eqn:Q; cbn [rbind]; try discriminate. intros K. injection K as <- -> <-.
    apply double_sound in Q. destruct Q as (e & G & M). exists e, [a; b]. auto. }
  destruct r1 as [|op [|c r3]]; auto.
  destruct (is_binary_primary op && term_ends r3) eqn:B; auto. apply andb_true_iff in B. destruct B as [B _].
  destruct (test_triple E a op c) as [[v1 e1]| |] eqn:Q; cbn [rbind] in H; try discriminate. injection H as <- -> <-.
  apply binary_sound in Q; auto. destruct Q as (e & G & M). exists e, [a; op; c]. auto.
Qed.

Lemma head_is_eq : forall rest w, head_is rest w = true -> exists t, rest = str w :: t.
Proof. intros [|a t] w H; [discriminate|]. cbn in H. apply list_N_eqb_eq in H. subst. eauto. Qed.

Lemma long_sound : forall f,
  (forall rest v r, long_or E f rest = Ok (v, false, r) ->
     exists e ws, rest = ws ++ r /\ g_or e ws /\ means E e (Some v)) /\
  (forall v0 e0 rest v r, or_loop E f v0 e0 rest = Ok (v, false, r) -> forall x0 ws0, g_or x0 ws0 -> means E x0 (Some v0) ->
     exists e ws, ws0 ++ rest = ws ++ r /\ g_or e ws /\ means E e (Some v)) /\
  (forall rest v r, long_and E f rest = Ok (v, false, r) ->
     exists e ws, rest = ws ++ r /\ g_and e ws /\ means E e (Some v)) /\
  (forall v0 e0 rest v r, and_loop E f v0 e0 rest = Ok (v, false, r) -> forall x0 ws0, g_and x0 ws0 -> means E x0 (Some v0) ->
     exists e ws, ws0 ++ rest = ws ++ r /\ g_and e ws /\ means E e (Some v)) /\
  (forall rest v r, long_term E f rest = Ok (v, false, r) ->
     exists e ws, rest = ws ++ r /\ g_term e ws /\ means E e (Some v)).
Proof.
  assert (OL : forall g v0 e0 rest v r, or_loop E g v0 e0 rest = Ok (v, false, r) -> e0 = false).
  { intros [|g] v0 e0 rest v r H; [discriminate|]. rewrite or_loop_S in H. destruct e0; auto. cbn in H. discriminate. }
  assert (AL : forall g v0 e0 rest v r, and_loop E g v0 e0 rest = Ok (v, false, r) -> e0 = false).
  { intros [|g] v0 e0 rest v r H; [discriminate|]. rewrite and_loop_S in H. destruct e0; auto. cbn in H. discriminate. }
  induction f as [|f (IO & IOL & IA & IAL & IT)]; [repeat split; intros; discriminate|].
  split; [|split; [|split; [|split]]].
  - intros rest v r H. rewrite long_or_S in H. destruct (long_and E f rest) as [[[v1 e1] r1]| |] eqn:Q; cbn [rbind] in H; try discriminate.
    pose proof (OL _ _ _ _ _ _ H). subst e1. destruct (IA _ _ _ Q) as (e & ws & -> & G & M).
    eapply IOL; eauto. apply g_or_one. auto.
  - intros v0 e0 rest v r H x0 ws0 G0 M0. rewrite or_loop_S in H. destruct (negb e0 && head_is rest "-o") eqn:Q.
    + apply andb_true_iff in Q. destruct Q as [_ Q]. apply head_is_eq in Q. destruct Q as (t & ->). cbn [tl] in H.
      destruct (long_and E f t) as [[[v1 e1] r1]| |] eqn:Q; cbn [rbind] in H; try discriminate.
      pose proof (OL _ _ _ _ _ _ H). subst e1. destruct (IA _ _ _ Q) as (e & ws & -> & G & M).
      destruct (IOL _ _ _ _ _ H (XOr x0 e) (ws0 ++ str "-o" :: ws)) as (e' & ws' & W & G' & M').
      * apply g_or_more; auto. * apply m_or; auto.
      * exists e', ws'. rewrite <- W, <- app_assoc. auto.
    + injection H as <- -> <-. exists x0, ws0. auto.
  - intros rest v r H. rewrite long_and_S in H. destruct (long_term E f rest) as [[[v1 e1] r1]| |] eqn:Q; cbn [rbind] in H; try discriminate.
    pose proof (AL _ _ _ _ _ _ H). subst e1. destruct (IT _ _ _ Q) as (e & ws & -> & G & M).
    eapply IAL; eauto. apply g_and_one. auto.
  - intros v0 e0 rest v r H x0 ws0 G0 M0. rewrite and_loop_S in H. destruct (negb e0 && head_is rest "-a") eqn:Q.
    + apply andb_true_iff in Q. destruct Q as [_ Q]. apply head_is_eq in Q. destruct Q as (t & ->). cbn [tl] in H.
      destruct (long_term E f t) as [[[v1 e1] r1]| |] eqn:Q; cbn [rbind] in H; try discriminate.
      pose proof (AL _ _ _ _ _ _ H). subst e1. destruct (IT _ _ _ Q) as (e & ws & -> & G & M).
      destruct (IAL _ _ _ _ _ H (XAnd x0 e) (ws0 ++ str "-a" :: ws)) as (e' & ws' & W & G' & M').
      * apply g_and_more; auto. * apply m_and; auto.
      * exists e', ws'. rewrite <- W, <- app_assoc. auto.
    + injection H as <- -> <-. exists x0, ws0. auto.
  - intros rest v r H. rewrite long_term_S in H. cbv zeta in H.
    assert (T : forall rest' v', match rest' with [] => Ok (false, true, []) | _ =>
        if head_is rest' "(" then (let! (v, e, r) := long_or E f (tl rest') in
            if head_is r ")" then Ok (xorb v false, e, tl r) else Ok (false, true, r))%res
        else (let! (v, e, r) := long_prim E rest' in Ok (xorb v false, e, r))%res end = Ok (v', false, r) ->
      exists e ws, rest' = ws ++ r /\ g_term e ws /\ means E e (Some v')).
    { intros rest' v' K. destruct rest' as [|a r1]; [discriminate|]. destruct (head_is (a :: r1) "(") eqn:Q.
      - apply head_is_eq in Q. destruct Q as (t & Q). injection Q as -> ->. cbn [tl] in K.
        destruct (long_or E f t) as [[[v1 e1] r2]| |] eqn:Q; cbn [rbind] in K; try discriminate.
        destruct (head_is r2 ")") eqn:Q2; [|discriminate]. apply head_is_eq in Q2. destruct Q2 as (t2 & ->).
        injection K as <- -> <-. destruct (IO _ _ _ Q) as (e & ws & -> & G & M). cbn [tl].
        exists (XParen e), (str "(" :: ws ++ [str ")"]). split; [cbn [app]; rewrite <- app_assoc; reflexivity|].
        split; [apply g_paren; auto|]. rewrite xorb_false_r. apply m_paren. auto.
      - destruct (long_prim E (a :: r1)) as [[[v1 e1] r2]| |] eqn:Q1; cbn [rbind] in K; try discriminate.
        injection K as <- -> <-. rewrite xorb_false_r. eapply prim_sound; eauto. }
    destruct (head_is rest "!") eqn:Q.
    + apply head_is_eq in Q. destruct Q as (t & ->). cbn [tl] in H.
      destruct (T t (negb v)) as (e & ws & -> & G & M).
      { destruct t as [|a t]; [discriminate|]. destruct (head_is (a :: t) "(").
        - destruct (long_or E f (tl (a :: t))) as [[[v1 e1] r2]| |]; cbn [rbind] in *; try discriminate.
          destruct (head_is r2 ")"); [|discriminate]. injection H as <- -> <-. rewrite xorb_false_r, xorb_true_r, negb_involutive. auto.
        - destruct (long_prim E (a :: t)) as [[[v1 e1] r2]| |]; cbn [rbind] in *; try discriminate.
          injection H as <- -> <-. rewrite xorb_false_r, xorb_true_r, negb_involutive. auto. }
      exists (XNot e), (str "!" :: ws). split; auto. split; [apply g_not; auto|].
      apply m_not in M. cbn [option_map] in M. rewrite negb_involutive in M. auto.
    + apply (T rest v H).
Qed.

End Env.
