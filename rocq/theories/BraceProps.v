(** Property C26: brace expansion. *)
From Coq Require Import Ascii String.
From Coq Require Import List NArith ZArith Bool Arith Lia.
From Coq Require Import ZifyBool ZifyN.
From Verif Require Import Common Locale NumModel CharcatModel BraceModel BraceSpec BraceNum BraceSeq BraceProofs BraceTop.
Import ListNotations.
Open Scope res_scope.

(** ** The specification determines the numbers of a range *)
Lemma digits_snoc u : forall acc c, digits_value acc (u ++ [c]) = (digits_value acc u * 10 + (Z.of_N c - 48))%Z.
Proof. induction u as [|x u IH]; intros acc c; cbn [app digits_value]; auto. Qed.
Lemma digits_pos u : Forall (fun c => is_digit c = true) u -> (0 <= digits_value 0 u)%Z.
Proof.
  induction u as [|c u IH] using rev_ind; intros H; [cbn; lia|]. rewrite digits_snoc. apply Forall_app in H as [H1 H2].
  inversion H2; subst. specialize (IH H1). unfold is_digit in *. lia.
Qed.
Lemma digits_zero u : Forall (fun c => is_digit c = true) u -> digits_value 0 u = 0%Z -> Forall (eq 48%N) u.
Proof.
  induction u as [|c u IH] using rev_ind; intros H E; [constructor|]. rewrite digits_snoc in E. apply Forall_app in H as [H1 H2].
  inversion H2; subst. pose proof (digits_pos _ H1). unfold is_digit in *. apply Forall_app. split; [apply IH; auto; lia|].
  constructor; [lia|constructor].
Qed.
Lemma digits_unique_len u : forall u', Forall (fun c => is_digit c = true) u -> Forall (fun c => is_digit c = true) u' ->
  length u = length u' -> digits_value 0 u = digits_value 0 u' -> u = u'.
Proof.
  induction u as [|c u IH] using rev_ind; intros u' H H' Hl E; [destruct u'; [reflexivity|discriminate]|].
  destruct u' as [|c' u'] using rev_ind; [rewrite app_length in Hl; cbn in Hl; lia|]. clear IHu'.
  rewrite !app_length in Hl. cbn in Hl. rewrite !digits_snoc in E. apply Forall_app in H as [H1 H2]. apply Forall_app in H' as [H1' H2'].
  inversion H2; subst. inversion H2'; subst. assert (Ev : digits_value 0 u = digits_value 0 u' /\ c = c') by (unfold is_digit in *; lia).
  destruct Ev as [Ev ->]. f_equal. apply IH; auto. lia.
Qed.
Lemma zeros_value k u : digits_value 0 (repeat 48%N k ++ u) = digits_value 0 u.
Proof. induction k as [|k IH]; [reflexivity|]. cbn [repeat app digits_value]. exact IH. Qed.
Lemma canonical_le u u' : Forall (fun c => is_digit c = true) u -> Forall (fun c => is_digit c = true) u' -> u <> [] ->
  (hd 0%N u' = 48%N -> u' = [48%N]) -> digits_value 0 u = digits_value 0 u' -> length u' <= length u.
Proof.
  intros H H' Hn Hc E. destruct (le_lt_dec (length u') (length u)) as [|Hlt]; [assumption|exfalso].
  assert (Eu : u' = repeat 48%N (length u' - length u) ++ u).
  { apply digits_unique_len; auto.
    - apply Forall_app. split; [|auto]. apply Forall_forall. intros c Hi. apply repeat_spec in Hi as ->. reflexivity.
    - rewrite app_length, repeat_length. lia.
    - now rewrite zeros_value. }
  destruct (length u' - length u) as [|k] eqn:Ek; [lia|]. cbn [repeat app] in Eu.
  assert (Hz : u' = [48%N]) by (apply Hc; now rewrite Eu). rewrite Hz in Eu. injection Eu as Eu. destruct k, u; try discriminate; congruence.
Qed.
Lemma shown_unique r v t t' : shown r v t -> shown r v t' -> t = t'.
Proof.
  intros (sg & zs & ds & -> & Es & Hz & Hw & Hl & Hn & Hd & Hv & Hc) (sg' & zs' & ds' & -> & Es' & Hz' & Hw' & Hl' & Hn' & Hd' & Hv' & Hc').
  rewrite <- Es' in Es. subst sg. assert (ds = ds') as <-.
  { apply digits_unique_len; auto; [|congruence]. assert (length ds' <= length ds) by (apply canonical_le; auto; congruence).
    assert (length ds <= length ds') by (apply canonical_le; auto; congruence). lia. }
  f_equal. f_equal. rewrite !app_length in *.
  assert (El : length zs = length zs') by (destruct Hw as [->|Hw], Hw' as [->|Hw']; cbn in *; lia).
  clear - Hz Hz' El. revert zs' Hz' El. induction Hz as [|x zs <- _ IH]; intros [|y zs'] H E; try discriminate; auto.
  inversion H; subst. f_equal. apply IH; auto.
Qed.
Lemma range_unique L w r r' : locale_ok L -> is_range L w r -> is_range L w r' -> r = r'.
Proof.
  intros HL H H'. pose proof (parse_fwd L HL [] openb w [] r H) as E. rewrite (parse_fwd L HL [] openb w [] r' H') in E.
  destruct r, r'. cbn in E. now injection E as <- <- <- <- <-.
Qed.
Lemma sequence_unique L f g : locale_ok L -> sequence_ok L f -> sequence_ok L g -> forall w, f w = g w.
Proof.
  intros HL Hf Hg w. specialize (Hf w). specialize (Hg w). destruct (f w) as [ts|], (g w) as [ts'|].
  - destruct Hf as (r & Hr & F), Hg as (r' & Hr' & F'). rewrite (range_unique L w r' r) in F' by auto. f_equal.
    revert ts' F'. induction F as [|v t vs ts Hv _ IH]; intros ts' F'; inversion F'; subst; [reflexivity|]. f_equal; [eapply shown_unique; eauto|auto].
  - destruct Hf as (r & Hr & _). now apply Hg in Hr.
  - destruct Hg as (r & Hr & _). now apply Hf in Hr.
  - reflexivity.
Qed.
Fixpoint item_ext (f g : list cell -> option (list (list N))) (H : forall w, f w = g w) (i : item) : expansions_item f i = expansions_item g i.
Proof.
  destruct i as [x|segs]; [reflexivity|].
  assert (S : forall s, map (expansions_item f) s = map (expansions_item g) s) by (induction s as [|i s IHs]; [reflexivity|]; cbn [map]; now rewrite item_ext with (g := g), IHs by auto).
  assert (T : map (fun s => product (map (expansions_item f) s)) segs = map (fun s => product (map (expansions_item g) s)) segs)
    by (clear - S; induction segs as [|s segs IHs]; [reflexivity|]; cbn [map]; now rewrite S, IHs).
  destruct segs as [|s [|]]; cbn [expansions_item]; [reflexivity| |now rewrite T].
  rewrite H. destruct (g _); [reflexivity|]. now rewrite S.
Defined.

(** ** C26 *)
(** The numbers of a range are determined by the specification. *)
Theorem brace_ranges L : locale_ok L ->
  exists f, sequence_ok L f /\ forall g, sequence_ok L g -> forall w, g w = f w.
Proof. intros HL. exists (seqf L). split; [now apply seqf_ok|]. intros g Hg w. apply (sequence_unique L); auto. now apply seqf_ok. Qed.
Print Assumptions brace_ranges.

(** Every word can be read as nested groups and unmatched braces, and brace expansion
    always ends and gives exactly the combinations of the alternatives, in order. *)
Theorem brace_expansion L f : locale_ok L -> sequence_ok L f -> forall w,
  (exists l, wf_word l /\ unparse l = w) /\
  forall l, wf_word l -> unparse l = w -> expand_brace L w = Ok (expansions f l).
Proof.
  intros HL Hf w. split; [apply reading|]. intros l Hl <-. rewrite expand_brace_ok by auto. f_equal.
  unfold expansions. f_equal. apply map_ext. apply item_ext. apply (sequence_unique L); auto. now apply seqf_ok.
Qed.
Print Assumptions brace_expansion.

Definition u (s : string) : list cell := cells cc_lit (str s).
Definition strs (l : list string) : list (list N) := map str l.
Definition run (w : list cell) : res (list (list N)) := let! l := expand_brace c_locale w in Ok (map text l).
Definition chars (s : string) : list item := map (fun c => IChar (c, cc_lit)) (str s).
(** a{b,{c,d}e}f{g and its reading *)
Example brace_expansion_ex :
  wf_word (chars "a" ++ IGroup [chars "b"; IGroup [chars "c"; chars "d"] :: chars "e"] :: chars "f" ++ IChar openb :: chars "g") /\
  unparse (chars "a" ++ IGroup [chars "b"; IGroup [chars "c"; chars "d"] :: chars "e"] :: chars "f" ++ IChar openb :: chars "g") = u "a{b,{c,d}e}f{g" /\
  run (u "a{b,{c,d}e}f{g") = Ok (strs ["abf{g"; "acef{g"; "adef{g"]%string).
Proof.
  split; [|split; reflexivity].
  assert (C : forall c, (c =? 123)%N = false -> (c =? 125)%N = false -> (c =? 44)%N = false -> wf_item (IChar (c, cc_lit))).
  { intros c H1 H2 H3. constructor; intros E; injection E as ->; discriminate. }
  cbn [chars str app map]. apply ww_item; [now apply C|]. apply ww_item.
  - constructor; [discriminate|]. constructor; [constructor; [now apply C|constructor]|]. constructor; [|constructor]. constructor; [|constructor; [now apply C|constructor]].
    constructor; [discriminate|]. repeat constructor; try (intros E; discriminate).
  - apply ww_item; [now apply C|]. apply ww_open; [apply ww_item; [now apply C|constructor]|]. cbn. intros [H|H]; [discriminate|contradiction].
Qed.
(** Ranges: padding, signs, steps, the ends of [long] *)
Example brace_range_ex :
  run (u "x{1..10..4}{08..10}") = Ok (strs ["x108"; "x109"; "x110"; "x508"; "x509"; "x510"; "x908"; "x909"; "x910"]%string) /\
  run (u "{+3..1}{a}") = Ok (strs ["+3{a}"; "+2{a}"; "+1{a}"]%string) /\
  run (u "{9223372036854775806..9223372036854775807}") = Ok (strs ["9223372036854775806"; "9223372036854775807"]%string) /\
  run (u "{1..5..-1}{1..2..0}}") = Ok (strs ["1{1..2..0}}"]%string) /\
  run (u "{1..9223372036854775808}") = Ok (strs ["{1..9223372036854775808}"]%string).
Proof. repeat split; vm_compute; reflexivity. Qed.
(** Quoted braces and commas are ordinary characters. *)
Example brace_quoted_ex :
  run (u "{a," ++ cells cc_hard (str "},{") ++ u "b}" ++ [(44%N, mkCat CharcatModel.Literal true false)]) = Ok (strs ["a,"; "},{b,"]%string).
Proof. vm_compute. reflexivity. Qed.

(** Words without an opening brace that is closed later stay as they are. *)
Theorem brace_plain L w : locale_ok L -> (forall pre mid post, w <> pre ++ openb :: mid ++ closeb :: post) -> expand_brace L w = Ok [w].
Proof.
  intros HL H. destruct (reading w) as (l & Hl & E). rewrite <- E, expand_brace_ok by auto. f_equal. apply no_groups.
  destruct (groups l) eqn:G; [exfalso|reflexivity]. apply existsb_exists in G as (i & Hi & Hg). destruct i as [|segs]; [discriminate|].
  apply in_split in Hi as (l1 & l2 & ->). eapply (H (unparse l1)). rewrite <- E. unfold unparse at 1. rewrite map_app, concat_app.
  cbn [map concat unparse_item app]. rewrite <- app_assoc. cbn [app]. reflexivity.
Qed.
Print Assumptions brace_plain.
Example brace_plain_ex : run (u "}a,b{c") = Ok (strs ["}a,b{c"]%string).
Proof. vm_compute. reflexivity. Qed.

(** The fields of a list of words are expanded one after another. *)
Theorem brace_each L f ls : locale_ok L -> sequence_ok L f -> Forall wf_word ls ->
  expand_brace_each L (map unparse ls) = Ok (flat_map (expansions f) ls).
Proof.
  intros HL Hf H. unfold expand_brace_each. assert (E : mapM (expand_brace L) (map unparse ls) = Ok (map (expansions f) ls)).
  { induction H as [|l ls Hl _ IH]; [reflexivity|]. cbn [map mapM]. destruct (brace_expansion L f HL Hf (unparse l)) as [_ E].
    rewrite (E l Hl eq_refl). cbn [rbind]. now rewrite IH. }
  rewrite E. cbn [rbind]. now rewrite flat_map_concat_map.
Qed.
Print Assumptions brace_each.
Example brace_each_ex : (let! l := expand_brace_each c_locale [u "{a,b}"; u "c{d,}"] in Ok (map text l)) = Ok (strs ["a"; "b"; "cd"; "c"]%string).
Proof. vm_compute. reflexivity. Qed.
