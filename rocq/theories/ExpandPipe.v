(** The steps after the four expansions: brace expansion, field splitting and
    pathname expansion, for any word. *)
From Coq Require Import Ascii String.
From Coq Require Import List NArith ZArith Bool Arith Lia.
From Coq Require Import ZifyBool ZifyN.
From Verif Require Import Common Locale NumModel CharcatModel Regex XfnmatchModel XfnmatchMatch QuoteModel QuoteProps SplitModel SplitSpec SplitProofs SplitProps BraceModel BraceSpec BraceProps ExpandModel ExpandSpec ExpandFour ExpandWord ExpandQuoted ExpandProofs.
Import ListNotations.
Open Scope res_scope.

(** ** Brace expansion makes no null characters. *)
Lemma product_forall {A} (P : A -> Prop) (ls : list (list (list A))) : Forall (Forall (Forall P)) ls ->
  Forall (Forall P) (fold_right (fun l acc => flat_map (fun a => map (app a) acc) l) [[]] ls).
Proof.
  induction 1 as [|l ls Hl _ IH]; [constructor; [constructor|constructor]|]. cbn [fold_right]. apply Forall_forall. intros x Hx.
  apply in_flat_map in Hx as (a & Ha & Hx). apply in_map_iff in Hx as (b & <- & Hb). rewrite Forall_forall in Hl, IH. apply Forall_app. auto.
Qed.
Lemma product_eq ls : product ls = fold_right (fun l acc => flat_map (fun a => map (app a) acc) l) [[]] ls.
Proof. induction ls as [|l ls IH]; [reflexivity|]. cbn [product fold_right]. now rewrite IH. Qed.
Lemma sep_forall (P : cell -> Prop) ls : Forall P (sep ls) -> Forall (Forall P) ls.
Proof.
  induction ls as [|l ls IH]; intros H; [constructor|]. cbn [sep] in H. destruct ls as [|l2 ls]; [constructor; [exact H|constructor]|].
  apply Forall_app in H as [H1 H2]. inversion H2; subst. constructor; auto.
Qed.
Lemma shown_nonull r v t : shown r v t -> Forall (fun c => c <> 0%N) t.
Proof.
  intros (sg & zs & ds & -> & -> & Hz & _ & _ & _ & Hd & _). apply Forall_app. split.
  - destruct (v <? 0)%Z; [constructor; [discriminate|constructor]|]. destruct (r_plus r); [constructor; [discriminate|constructor]|constructor].
  - apply Forall_app. split; eapply Forall_impl; try eassumption; cbn; [intros c <-; discriminate|]. intros c Hc. unfold is_digit in Hc. lia.
Qed.
Section ItemInd.
Variable P : item -> Prop.
Hypothesis HC : forall x, P (IChar x).
Hypothesis HG : forall segs, Forall (Forall P) segs -> P (IGroup segs).
Fixpoint item_ind' (i : item) : P i :=
  let fix all (s : list item) : Forall P s := match s with [] => Forall_nil P | i :: s' => Forall_cons i (item_ind' i) (all s') end in
  let fix alls (l : list (list item)) : Forall (Forall P) l := match l with [] => Forall_nil _ | s :: l' => Forall_cons s (all s) (alls l') end in
  match i with IChar x => HC x | IGroup segs => HG segs (alls segs) end.
End ItemInd.
Lemma item_nonull L f (Hf : sequence_ok L f) (i : item) : Forall (fun x => fst x <> 0%N) (unparse_item i) ->
  Forall (Forall (fun x => fst x <> 0%N)) (expansions_item f i).
Proof.
  induction i as [x|segs IHs] using item_ind'; intros H; [constructor; [exact H|constructor]|].
  cbn [unparse_item] in H. inversion H as [|? ? _ H']; subst. apply Forall_app in H' as [H' _]. apply sep_forall in H'.
  assert (S : forall s, Forall (fun i => Forall (fun x => fst x <> 0%N) (unparse_item i) -> Forall (Forall (fun x => fst x <> 0%N)) (expansions_item f i)) s ->
    Forall (fun x => fst x <> 0%N) (concat (map unparse_item s)) -> Forall (Forall (Forall (fun x => fst x <> 0%N))) (map (expansions_item f) s)).
  { induction 1 as [|i s Hi _ IH]; intros Hs; [constructor|]. cbn [map concat] in *. apply Forall_app in Hs as [H1 H2]. constructor; auto. }
  assert (T : Forall (Forall (fun x => fst x <> 0%N)) (concat (map (fun s => product (map (expansions_item f) s)) segs))).
  { clear - S IHs H'. induction IHs as [|s segs Hi _ IH]; [constructor|]. cbn [map concat] in *. inversion H'; subst. apply Forall_app. split; [|auto].
    rewrite product_eq. apply product_forall. auto. }
  cbn [expansions_item]. destruct segs as [|s [|s2 segs]]; [constructor| |exact T].
  inversion IHs as [|? ? Is _]; subst.
  cbn [map] in H'. inversion H' as [|? ? H1 _]; subst.
  pose proof (Hf (concat (map unparse_item s))) as Hfs. destruct (f (concat (map unparse_item s))) as [ts|].
  - destruct Hfs as (r & _ & F). clear - F. apply Forall_forall. intros x Hx. apply in_map_iff in Hx as (t & <- & Ht).
    assert (Hs : Forall (fun c => c <> 0%N) t).
    { clear - F Ht. induction F as [|v t' vs ts Hv _ IH]; [destruct Ht|]. destruct Ht as [->|Ht]; [eapply shown_nonull; eauto|auto]. }
    apply Forall_forall. intros y Hy. apply in_map_iff in Hy as (c & <- & Hc). rewrite Forall_forall in Hs. cbn. auto.
  - rewrite product_eq. apply product_forall. constructor; [repeat constructor; discriminate|]. apply Forall_app. split; [now apply S|]. repeat constructor; discriminate.
Qed.
Lemma expansions_nonull L f l : sequence_ok L f -> nonull (unparse l) -> Forall nonull (expansions f l).
Proof.
  intros Hf H. unfold expansions. rewrite product_eq. apply (product_forall (fun x => fst x <> 0%N)). unfold unparse, nonull in H. induction l as [|i l IH]; [constructor|].
  cbn [map concat] in *. apply Forall_app in H as [H1 H2]. constructor; [eapply item_nonull; eauto|auto].
Qed.

(** ** Pathname expansion *)
(** The parts of a path between slashes *)
Fixpoint components (t : list N) : list (list N) :=
  match t with
  | [] => [[]]
  | c :: t' =>
    if (c =? 47)%N then [] :: components t'
    else match components t' with x :: l => (c :: x) :: l | [] => [[c]] end
  end.
Definition path_pattern (t : list N) : Prop := exists x, In x (components t) /\ is_matching_pattern x = Ok true.
Lemma components_ne t : components t <> [].
Proof. destruct t; cbn; [discriminate|]. destruct (n =? 47)%N; [discriminate|]. destruct (components t); discriminate. Qed.
Lemma pathname_loop_ok t : forall pre, exists b, pathname_loop pre t = Ok b /\
  (b = true <-> exists x, In x (match components t with y :: l => (rev pre ++ y) :: l | [] => [] end) /\ is_matching_pattern x = Ok true).
Proof.
  induction t as [|c t IH]; intros pre; cbn [pathname_loop components].
  - destruct (is_matching_total (rev pre)) as [b Hb]. exists b. split; [exact Hb|]. rewrite app_nil_r. split.
    + intros ->. exists (rev pre). split; [now left|exact Hb].
    + intros (x & [<-|[]] & Hx). congruence.
  - destruct (c =? 47)%N eqn:E.
    + destruct (is_matching_total (rev pre)) as [b Hb]. rewrite Hb, app_nil_r. cbn [rbind]. destruct b.
      * exists true. split; [reflexivity|]. split; [|reflexivity]. intros _. exists (rev pre). split; [now left|exact Hb].
      * destruct (IH []) as (b & -> & H). exists b. split; [reflexivity|]. rewrite H. cbn [rev app]. pose proof (components_ne t). destruct (components t) as [|y l]; [congruence|].
        split; intros (x & Hi & Hx); exists x; (split; [|exact Hx]); [now right|]. destruct Hi as [<-|Hi]; [congruence|exact Hi].
    + destruct (IH (c :: pre)) as (b & -> & H). exists b. split; [reflexivity|]. rewrite H. pose proof (components_ne t). destruct (components t) as [|y l]; [congruence|].
      cbn [rev]. rewrite <- app_assoc. reflexivity.
Qed.
Lemma pathname_ok t : exists b, is_pathname_matching_pattern t = Ok b /\ (b = true <-> path_pattern t).
Proof.
  destruct (pathname_loop_ok t []) as (b & H & Hb). exists b. split; [exact H|]. rewrite Hb. unfold path_pattern. cbn [rev app].
  pose proof (components_ne t). destruct (components t); [congruence|reflexivity].
Qed.

Section Pipe.
Variable L : locale.
Variable C : ctype.
Variable W : world.
Variable OP : opts.
Hypothesis HL : locale_ok L.

(** A field that is a pattern is replaced by the path names it matches; without
    matches it stays, or vanishes if the option null-glob is on. *)
Inductive globbed (f : list cell) : list (list N) -> Prop :=
| gl_plain : ~ (o_glob OP = true /\ path_pattern (quote_removal f ES_QUOTED_HARD)) -> globbed f [visible f]
| gl_matches : o_glob OP = true -> path_pattern (quote_removal f ES_QUOTED_HARD) -> wglob W (quote_removal f ES_QUOTED_HARD) <> [] ->
    globbed f (wglob W (quote_removal f ES_QUOTED_HARD))
| gl_none : o_glob OP = true -> path_pattern (quote_removal f ES_QUOTED_HARD) -> wglob W (quote_removal f ES_QUOTED_HARD) = [] ->
    globbed f (if o_nullglob OP then [] else [visible f]).
Lemma glob_all_ok fs : exists rs, glob_all W OP fs = Ok (concat rs) /\ Forall2 globbed fs rs.
Proof.
  induction fs as [|f fs (rs & E & H)]; [exists []; split; [reflexivity|constructor]|]. cbn [glob_all].
  destruct (pathname_ok (quote_removal f ES_QUOTED_HARD)) as (b & Eb & Hb). rewrite Eb. cbn [rbind]. rewrite E. cbn [rbind]. rewrite quote_removal_exact.
  fold (visible f). set (p := quote_removal f ES_QUOTED_HARD) in *.
  destruct (o_glob OP && b) eqn:Eg.
  - apply andb_true_iff in Eg as [Eg ->]. assert (Hp : path_pattern p) by now apply Hb. destruct (wglob W p) as [|x l] eqn:El.
    + exists ((if negb (o_nullglob OP) then [visible f] else []) :: rs). split; [reflexivity|]. constructor; [|exact H].
      replace (if negb (o_nullglob OP) then [visible f] else []) with (if o_nullglob OP then [] else [visible f]) by now destruct (o_nullglob OP). now apply gl_none.
    + exists ((x :: l) :: rs). split; [reflexivity|]. constructor; [|exact H]. rewrite <- El. apply gl_matches; auto. unfold p in El. rewrite El. discriminate.
  - exists ([visible f] :: rs). split; [reflexivity|]. constructor; [|exact H]. apply gl_plain. intros [H1 H2]. apply Hb in H2. rewrite H1, H2 in Eg. discriminate.
Qed.
(** The fields after brace expansion *)
Definition braced (f : list cell -> option (list (list N))) (fs bs : list (list cell)) : Prop :=
  if o_braceexpand OP then exists ls, Forall wf_word ls /\ map unparse ls = fs /\ bs = flat_map (expansions f) ls else bs = fs.
Lemma expand_pipe f w e fs e' : sequence_ok L f -> expand_four W (expand_unit L C W OP) w TT_SINGLE Q_WORD cc_lit e = Ok (Some fs, e') -> Forall nonull fs ->
  exists bs fss rs, braced f fs bs /\
    Forall2 (posix_fields L (ifs_of (getifs W e')) (o_emptylastfield OP)) bs fss /\ Forall2 globbed (concat fss) rs /\
    expand_multiple L C W OP w e = Ok (Some (concat rs), e').
Proof.
  intros Hf H Hn. unfold expand_multiple, bind. rewrite H.
  assert (B : exists bs, (if o_braceexpand OP then expand_brace_each L fs else Ok fs) = Ok bs /\ braced f fs bs /\ Forall nonull bs).
  { unfold braced. destruct (o_braceexpand OP); [|eauto].
    assert (R : exists ls, Forall wf_word ls /\ map unparse ls = fs).
    { clear H Hn. induction fs as [|x fs (ls & H1 & H2)]; [exists []; split; [constructor|reflexivity]|].
      destruct (brace_expansion L f HL Hf x) as [(l & Hl & El) _]. exists (l :: ls). split; [constructor; auto|]. cbn. congruence. }
    destruct R as (ls & H1 & H2). exists (flat_map (expansions f) ls). split; [rewrite <- H2; now apply brace_each|]. split; [eauto|].
    rewrite <- H2 in Hn. clear H2 H. apply Forall_forall. intros x Hx. apply in_flat_map in Hx as (l & Hl & Hx).
    rewrite Forall_forall in Hn. pose proof (expansions_nonull L f l Hf (Hn _ (in_map _ _ _ Hl))) as E. rewrite Forall_forall in E. auto. }
  destruct B as (bs & Eb & Hb & Hbn). unfold lift at 1, gets. rewrite Eb. unfold lift at 1.
  destruct (splitting_posix L (ifs_value (getifs W e')) (o_emptylastfield OP) bs Hbn) as (fss & -> & HF).
  destruct (glob_all_ok (concat fss)) as (rs & Eg & Hg). unfold lift. rewrite Eg.
  exists bs, fss, rs. split; [exact Hb|]. split; [|split; [exact Hg|reflexivity]]. rewrite ifs_value_of in HF. clear - HF. induction HF as [|? ? ? ? [H _] _ IH]; constructor; auto.
Qed.
End Pipe.
