(** Proofs about the "read" built-in. *)
From Coq Require Import Ascii String.
From Coq Require Import List NArith Bool Arith Lia.
From Verif Require Import Common Locale CharcatModel SplitModel SplitSpec SplitProofs.
Import ListNotations.
Open Scope res_scope.

(** ** Reading the line *)
Definition nlcell (nl : bool) : list cell := if nl then [(10%N, cc_soft)] else [].

Lemma logical_det : forall raw i l r nl, logical raw i l r nl -> forall l' r' nl', logical raw i l' r' nl' ->
  l = l' /\ r = r' /\ nl = nl'.
Proof.
  induction 1 as [raw|raw r|raw c r line rest nl H1 H2 H IH|r line rest nl H IH|c r line rest nl H1 H IH|];
    intros l' r' nl' H'; inversion H'; subst; try congruence; try (repeat split; reflexivity);
    try (match goal with E : logical _ _ _ _ _ |- _ => destruct (IH _ _ _ E) as (-> & -> & ->) end; repeat split; reflexivity);
    try (match goal with E : ?b = ?b -> false = true |- _ => specialize (E eq_refl); discriminate end);
    try (exfalso; match goal with E : ?x = ?x -> _ |- _ => specialize (E eq_refl); congruence end);
    try (match goal with E : _ = ch "\" -> false = true |- _ => specialize (E eq_refl); discriminate end).
Qed.

Lemma logical_newline raw i l r nl : logical raw i l r nl -> Forall (fun x => fst x <> 10%N) l.
Proof. induction 1; try constructor; auto. Qed.
Lemma logical_nonull raw i l r nl : logical raw i l r nl -> Forall (fun c => c <> 0%N) i -> nonull l.
Proof.
  unfold nonull. induction 1; intros Hi; try constructor; repeat match goal with H : Forall _ (_ :: _) |- _ => inversion H; subst; clear H end; auto.
Qed.

Lemma read_raw : forall input fuel buf, exists line rest nl, logical true input line rest nl /\
  read_with_prompt (S fuel) true input buf = Ok (buf ++ line ++ nlcell nl, rest).
Proof.
  intros input fuel buf. cbn [read_with_prompt].
  assert (X : exists line rest nl l, logical true input line rest nl /\ read_one_line input = (l, rest) /\ cells cc_soft l = line ++ nlcell nl).
  { induction input as [|c r (line & rest & nl & l & H & E & El)].
    - exists [], [], false, []. repeat split; constructor.
    - cbn [read_one_line]. destruct (c =? newline)%N eqn:Ec.
      + apply N.eqb_eq in Ec. subst c. exists [], r, true, [newline]. repeat split. apply lg_newline.
      + apply N.eqb_neq in Ec. exists ((c, cc_soft) :: line), rest, nl, (c :: l). rewrite E. repeat split.
        * apply lg_char; auto.
        * cbn. f_equal. exact El. }
  destruct X as (line & rest & nl & l & H & E & El). exists line, rest, nl. rewrite E, El. auto.
Qed.

(** The body of the loop for one line. *)
Definition read_step (fuel : nat) (input : list N) (buf : list cell) : res (list cell * list N) :=
  let (line, input') := read_one_line input in
  let (completed, buf') := unescape_line line buf in
  if completed then Ok (buf', input') else read_with_prompt fuel false input' buf'.

Lemma read_plain : forall n input fuel buf, length input <= n -> length input <= fuel ->
  exists line rest nl, logical false input line rest nl /\
  read_step fuel input buf = Ok (buf ++ line ++ nlcell nl, rest).
Proof.
  induction n as [|n IH]; intros input fuel buf Hn Hf; (destruct input as [|c r]; [exists [], [], false; split; [constructor|]; unfold read_step; cbn; rewrite app_nil_r; reflexivity|]); [cbn in Hn; lia|].
  cbn [length] in Hn, Hf.
  destruct (c =? newline)%N eqn:Ec.
  { apply N.eqb_eq in Ec. subst c. exists [], r, true. split; [apply lg_newline|]. unfold read_step. cbn. reflexivity. }
  apply N.eqb_neq in Ec.
  destruct (c =? backslash)%N eqn:Eb.
  - apply N.eqb_eq in Eb. subst c. destruct r as [|d r].
    { exists [], [], false. split; [apply lg_trailing|]. unfold read_step. cbn. rewrite app_nil_r. reflexivity. }
    destruct (d =? newline)%N eqn:Ed.
    + apply N.eqb_eq in Ed. subst d. cbn [length] in *. destruct fuel as [|fuel]; [lia|].
      destruct (IH r fuel buf ltac:(lia) ltac:(lia)) as (line & rest & nl & H & E).
      exists line, rest, nl. split; [apply lg_continue; exact H|]. rewrite <- E. unfold read_step. cbn [read_with_prompt]. cbn. reflexivity.
    + apply N.eqb_neq in Ed. cbn [length] in *.
      destruct (IH r fuel (buf ++ [(d, mkCat Soft true false)]) ltac:(lia) ltac:(lia)) as (line & rest & nl & H & E).
      exists ((d, mkCat Soft true false) :: line), rest, nl. split; [apply lg_quoted; assumption|].
      rewrite <- app_assoc in E. cbn [app] in *. rewrite <- E. unfold read_step. cbn [read_one_line].
      replace (backslash =? newline)%N with false by reflexivity. rewrite (proj2 (N.eqb_neq _ _) Ed).
      destruct (read_one_line r) as [l rr]. cbn [unescape_line]. rewrite N.eqb_refl, (proj2 (N.eqb_neq _ _) Ed). reflexivity.
  - apply N.eqb_neq in Eb.
    destruct (IH r fuel (buf ++ [(c, cc_soft)]) ltac:(lia) ltac:(lia)) as (line & rest & nl & H & E).
    exists ((c, cc_soft) :: line), rest, nl. split; [apply lg_char; [assumption|intros X; contradiction|assumption]|].
    rewrite <- app_assoc in E. cbn [app] in *. rewrite <- E. unfold read_step. cbn [read_one_line].
    rewrite (proj2 (N.eqb_neq _ _) Ec). destruct (read_one_line r) as [l rr]. cbn [unescape_line].
    rewrite (proj2 (N.eqb_neq _ _) Eb). reflexivity.
Qed.

Lemma read_with_prompt_ok raw input : exists line rest nl, logical raw input line rest nl /\
  read_with_prompt (S (length input)) raw input [] = Ok (line ++ nlcell nl, rest).
Proof.
  destruct raw.
  - destruct (read_raw input (length input) []) as (line & rest & nl & H & E). exists line, rest, nl. auto.
  - destruct (read_plain (length input) input (length input) [] (le_n _) (le_n _)) as (line & rest & nl & H & E).
    exists line, rest, nl. auto.
Qed.

Lemma strip_newline raw input line rest nl : logical raw input line rest nl ->
  (match rev (line ++ nlcell nl) with
   | (c, _) :: _ => if (c =? newline)%N then (firstn (length (line ++ nlcell nl) - 1) (line ++ nlcell nl), false) else (line ++ nlcell nl, true)
   | [] => (line ++ nlcell nl, true)
   end) = (line, negb nl).
Proof.
  intros H. destruct nl; cbn [nlcell].
  - rewrite rev_app_distr. cbn. rewrite app_length. cbn. rewrite Nat.add_sub, firstn_app, Nat.sub_diag, firstn_all. cbn. rewrite app_nil_r. reflexivity.
  - rewrite app_nil_r. destruct (rev line) as [|(c, k) l] eqn:E; [reflexivity|].
    assert (Hc : In (c, k) line) by (apply in_rev; rewrite E; now left).
    pose proof (proj1 (Forall_forall _ _) (logical_newline _ _ _ _ _ H) _ Hc) as X. cbn in X. change 10%N with newline in X.
    rewrite (proj2 (N.eqb_neq _ _) X). reflexivity.
Qed.

(** ** The assignments *)
Lemma assign_scalars_ok s : forall names R, length names <= length R ->
  assign_scalars s names R = Ok (map (fun p => (fst p, Scalar (snd p))) (combine names (map (fun r => text (slice s (fst r) (snd r))) R))).
Proof.
  induction names as [|x names IH]; intros [|(a, b) R] H; cbn [assign_scalars length] in *; try lia; try reflexivity.
  rewrite IH by lia. reflexivity.
Qed.

Section Read.
Variable L : locale.
Variable ifs : option (list N).
Notation I := (ifs_value ifs).

Lemma combine_app_long {A B} : forall (l : list A) (m k : list B), length l <= length m -> combine l (m ++ k) = combine l m.
Proof. induction l as [|x l IH]; intros [|y m] k H; cbn in *; try lia; try reflexivity. f_equal. apply IH. lia. Qed.
Lemma combine_app_pad {A B} (z : B) : forall (l : list A) (m : list B) j k, length l <= length m + j -> length l <= length m + k ->
  combine l (m ++ repeat z j) = combine l (m ++ repeat z k).
Proof.
  induction l as [|x l IH]; intros m j k Hj Hk; [reflexivity|]. destruct m as [|y m]; cbn [app length] in *.
  - destruct j as [|j], k as [|k]; try lia. cbn [repeat combine]. f_equal. apply (IH [] j k); cbn; lia.
  - cbn [combine]. f_equal. apply IH; lia.
Qed.

Theorem read_builtin_ok e raw array firsts lastname input : Forall (fun c => c <> 0%N) input ->
  exists line rest nl fs v, logical raw input line rest nl /\ posix_fields L I e line fs /\
    read_builtin L ifs e raw array (firsts ++ [lastname]) input =
      Ok (map (fun p => (fst p, Scalar (snd p))) (combine firsts (map text fs ++ repeat [] (length firsts))) ++ [(lastname, v)], rest, nl) /\
    if array then exists vs, v = Array vs /\ last_array L I e (length firsts) line vs
    else exists x, v = Scalar x /\ last_scalar L I e (length firsts) line x.
Proof.
  intros Hin. unfold read_builtin. rewrite rev_app_distr. cbn [rev app].
  destruct (read_with_prompt_ok raw input) as (line & rest & nl & Hlog & ->). cbn [rbind].
  rewrite (strip_newline _ _ _ _ _ Hlog). pose proof (logical_nonull _ _ _ _ _ Hlog Hin) as Hnn.
  destruct (extract_fields_ok L I line Hnn e) as (R0 & R & tail & -> & Hc & _ & Htl & Hwt & Hb & HR & Hf & a & b & R' & w & ER0 & Es & Hw & Hns).
  cbn [rbind]. rewrite app_length. cbn [length]. replace (length firsts + 1 - 1) with (length firsts) by lia. replace (length firsts + 1) with (S (length firsts)) by lia.
  set (n := length firsts). set (fs := map (fun r => slice line (fst r) (snd r)) R).
  assert (Hp : posix_fields L I e line fs).
  { exists w, (skipn a line), (map (fun r => slice line (fst r) (snd r)) R0). repeat split; auto. rewrite ER0. eapply chain_splits. rewrite <- ER0. exact Hc. }
  assert (Hlf : length fs = length R) by (unfold fs; apply map_length).
  exists line, rest, nl, fs.
  rewrite (assign_scalars_ok line).
  2:{ rewrite firstn_app. fold n. rewrite Nat.sub_diag. cbn [firstn]. rewrite app_nil_r, firstn_all2 by lia. rewrite app_length, repeat_length. unfold n. lia. }
  cbn [rbind]. rewrite firstn_app. fold n. rewrite Nat.sub_diag. cbn [firstn]. rewrite app_nil_r, firstn_all2 by lia.
  assert (Hcomb : combine firsts (map (fun r => text (slice line (fst r) (snd r))) (R ++ repeat (0, 0) (S n - length R)))
     = combine firsts (map text fs ++ repeat [] n)).
  { rewrite map_app. replace (map (fun r => text (slice line (fst r) (snd r))) R) with (map text fs) by (unfold fs; rewrite map_map; reflexivity).
    assert (Hrep : forall k, map (fun r : nat * nat => text (slice line (fst r) (snd r))) (repeat (0, 0) k) = repeat [] k).
    { induction k; cbn; [reflexivity|]. f_equal. exact IHk. }
    rewrite Hrep. apply combine_app_pad; rewrite map_length, Hlf; unfold n; lia. }
  rewrite Hcomb. clear Hcomb.
  set (pad := repeat (0, 0) (S n - length R)).
  assert (Hpad : length pad = S n - length R) by (unfold pad; rewrite repeat_length; lia).
  destruct array.
  - exists (assign_array line (skipn n (R ++ pad))). cbn [rbind]. rewrite negb_involutive. repeat (split; [first [assumption|reflexivity]|]).
    unfold assign_array. rewrite skipn_app.
    destruct (le_lt_dec (length R) n) as [Hle|Hlt].
    + assert (E1 : skipn n R = []) by (apply skipn_all2; lia). rewrite E1. cbn [app].
      assert (E2 : skipn (n - length R) pad = [(0, 0)]).
      { unfold pad. replace (S n - length R) with (S (n - length R)) by lia. generalize (n - length R). clear. intros k. induction k; [reflexivity|exact IHk]. }
      rewrite E2. cbn. exists []. split; [reflexivity|]. exists fs. split; [exact Hp|]. right. unfold fs. rewrite skipn_map, E1. split; [discriminate|reflexivity].
    + clearbody pad. replace pad with (@nil (nat * nat)) by (symmetry; apply length_zero_iff_nil; lia). rewrite skipn_nil, app_nil_r.
      assert (E : map (fun r => text (slice line (fst r) (snd r))) (skipn n R) = map text (skipn n fs)).
      { unfold fs. rewrite skipn_map, map_map. reflexivity. }
      rewrite E. destruct (skipn n fs) as [|[|y f] [|g gs]] eqn:Ek; cbn [map text]; eexists; (split; [reflexivity|]); exists fs; (split; [exact Hp|]); rewrite Ek;
        try (right; split; [discriminate|reflexivity]). left. split; reflexivity.
  - destruct (le_lt_dec (length R) n) as [Hle|Hlt].
    + assert (En : nth_error (R ++ pad) n = Some (0, 0)).
      { rewrite nth_error_app2 by lia. unfold pad. apply nth_error_repeat. lia. }
      unfold rget. rewrite En. cbn [rbind]. rewrite app_length, Hpad.
      rewrite (proj2 (Nat.ltb_ge (S n) _)) by lia. cbn. exists (Scalar []). rewrite negb_involutive. repeat (split; [first [assumption|reflexivity]|]).
      exists []. split; [reflexivity|]. eapply ls_none; [exact Hp|lia].
    + clearbody pad. replace pad with (@nil (nat * nat)) by (symmetry; apply length_zero_iff_nil; lia). rewrite app_nil_r.
      destruct (nth_error R n) as [(a', b')|] eqn:En; [|apply nth_error_None in En; lia].
      unfold rget. rewrite En. cbn [rbind].
      assert (En0 : nth_error R0 n = Some (a', b')).
      { destruct HR as [<-|(r & -> & _)]; [exact En|]. rewrite nth_error_app1; assumption. }
      assert (Hll : length R <= length R0) by (destruct HR as [<-|(r & -> & _)]; rewrite ?app_length; lia).
      rewrite ER0 in En0, Hc, Hll. destruct (chain_peels L I line tail R' n a b a' b' Hc En0) as (Hpe & Hab & Hpl & Htail).
      destruct (S n <? length R) eqn:Q.
      * apply Nat.ltb_lt in Q. specialize (Htail ltac:(lia)). rewrite (proj2 (Nat.ltb_ge tail a')) by lia. cbn [rbind].
        exists (Scalar (text (slice line a' tail))). rewrite negb_involutive. repeat (split; [first [assumption|reflexivity]|]).
        eexists. split; [reflexivity|]. rewrite (slice_skipn line a' tail) in Hpe by lia.
        eapply ls_rest with (w := w) (t := skipn a line); eauto; [rewrite Hlf; lia|].
        destruct Hb as [->|(x & Hx & _ & Hxw)]; [replace a' with 0 by lia; cbn; auto|].
        destruct (Nat.eq_dec a' tail) as [<-|Hne]; [rewrite (proj2 (slice_nil line a' a' (le_n _) ltac:(lia)) eq_refl); cbn; auto|].
        assert (Hv : slice line a' tail <> []) by (rewrite slice_nil by lia; exact Hne).
        destruct (exists_last Hv) as (v0 & y & Ev). rewrite Ev, rev_app_distr. cbn.
        assert (Y : nth_error line (tail - 1) = Some y).
        { rewrite <- (firstn_skipn a' line). rewrite nth_error_app2; rewrite firstn_length_le by lia; [|lia].
          rewrite (slice_skipn line a' tail) by lia. rewrite nth_error_app1; [|rewrite slice_len by lia; lia].
          assert (Hlen : length v0 = tail - 1 - a').
          { pose proof (slice_len line a' tail Htl) as X. rewrite Ev, app_length in X. cbn in X. lia. }
          rewrite Ev, nth_error_app2, Hlen, Nat.sub_diag by lia. reflexivity. }
        congruence.
      * apply Nat.ltb_ge in Q. rewrite (proj2 (Nat.ltb_ge b' a')) by lia. cbn [rbind].
        exists (Scalar (text (slice line a' b'))). rewrite negb_involutive. repeat (split; [first [assumption|reflexivity]|]).
        eexists. split; [reflexivity|]. eapply ls_one; [exact Hp|lia|]. unfold fs. rewrite nth_error_map, En. reflexivity.
Qed.

(** The value is unique. *)
Lemma peels_det : forall n t fs r, peels L I n t fs r -> forall fs' r', peels L I n t fs' r' -> fs = fs' /\ r = r'.
Proof.
  induction 1 as [t|n t f r fs rest Hp Hs IH]; intros fs' r' H'; inversion H'; subst; [auto|].
  match goal with E : peel _ _ t _ _ |- _ => destruct (peel_det _ _ _ _ _ Hp _ _ E) as [-> ->] end.
  match goal with E : peels _ _ n _ _ _ |- _ => destruct (IH _ _ E) as [-> ->] end. auto.
Qed.
Lemma last_scalar_det e n line x y : last_scalar L I e n line x -> last_scalar L I e n line y -> x = y.
Proof.
  intros H H'.
  inversion H as [fs P Q|fs f P Q K|fs w t fi v w' P Q E1 E2 E3 E4 E5 E6]; subst;
  inversion H' as [fs' P' Q'|fs' f' P' Q' K'|fs' u t' fi' v' u' P' Q' E1' E2' E3' E4' E5' E6']; subst;
  pose proof (posix_fields_det _ _ _ _ _ _ P P') as ->; try lia; try reflexivity; [congruence|].
  destruct (cut_unique _ _ _ _ _ E1' E2 E2' E3 E3') as [-> ->].
  destruct (peels_det _ _ _ _ E4 _ _ E4') as [_ X].
  apply (f_equal (@rev _)) in X. rewrite !rev_app_distr in X.
  destruct (cut_unique _ _ _ _ _ X (Forall_rev E5) (Forall_rev E5') E6 E6') as [_ Y].
  rewrite <- (rev_involutive v), Y, rev_involutive. reflexivity.
Qed.
End Read.
