(** The text between two braces is expanded as a range exactly if it is one. *)
From Coq Require Import Ascii String.
From Coq Require Import List NArith ZArith Bool Arith Lia.
From Coq Require Import ZifyBool ZifyN.
From Verif Require Import Common Locale NumModel NumProofs CharcatModel BraceModel BraceSpec BraceNum.
Import ListNotations.
Open Scope res_scope.

Section L.
Variable L : locale.
Hypothesis HL : locale_ok L.

Lemma text_split (w : list cell) u v : text w = u ++ v -> exists w1 w2, w = w1 ++ w2 /\ text w1 = u /\ text w2 = v.
Proof. unfold text. intros H. apply map_eq_app in H as (l1 & l2 & -> & <- & <-). eauto. Qed.

Lemma app_len_eq {A} (a b c d : list A) : a ++ b = c ++ d -> length a = length c -> a = c.
Proof.
  revert c. induction a as [|x a IH]; intros [|y c] E H; cbn in *; try discriminate; auto. injection E as -> E. f_equal. apply IH; auto.
Qed.

Definition plus_of (sg : list N) : bool := match sg with [43%N] => true | _ => false end.
Lemma plus_of_eq sg : plus_of sg = true <-> sg = [43%N].
Proof.
  split; [|intros ->; reflexivity]. unfold plus_of. destruct sg as [|c [|]]; try discriminate.
  - destruct c as [|p]; [discriminate|]. do 6 (destruct p as [p|p|]; try discriminate). auto.
  - destruct c as [|p]; [discriminate|]. do 6 (destruct p as [p|p|]; try discriminate).
Qed.
Lemma hlz' a sg ds v rest sign : integer L a sg ds v ->
  has_leading_zero L (a ++ rest) sign = ((hd 0%N ds =? 48)%N, sign || plus_of sg).
Proof. apply hlz; auto. Qed.

Lemma nodigit_dot r : nodigit (46%N :: r). Proof. reflexivity. Qed.
Lemma nodigit_brace r : nodigit (125%N :: r). Proof. reflexivity. Qed.

(** The end of the parser *)
Definition finish (word : list cell) (ci : nat) (start end_ delta : Z) (sign : bool) (len : nat) (cp : list N) :=
  let bracei := length (text word) - length cp in
  match nth_error word bracei with
  | Some (_, k) =>
    if cat_eqb k cc_lit && forallb (fun x => negb (quoted (snd x))) (firstn (bracei - S ci) (skipn (S ci) word))
    then Some (start, end_, delta, sign, len, bracei) else None
  | None => None
  end.

Lemma parse_unfold word ci : parse_sequence L word ci =
  let c := skipn (S ci) (text word) in
  match number L c with
  | Some (start, cp) =>
    match cp with
    | d1 :: d2 :: c2 =>
      if (d1 =? period)%N && (d2 =? period)%N then
        let (lz, sign) := has_leading_zero L c false in
        let startlen := if lz then length c - length cp else 0 in
        match number L c2 with
        | Some (end_, cp) =>
          let (lz, sign) := has_leading_zero L c2 sign in
          let endlen := if lz then length c2 - length cp else 0 in
          match cp with
          | e1 :: cp3 =>
            if (e1 =? period)%N then
              match cp3 with
              | e2 :: c =>
                if (e2 =? period)%N then
                  match number L c with
                  | Some (delta, f :: cp4) =>
                    if (delta =? 0)%Z then None
                    else if (f =? rbrace)%N then finish word ci start end_ delta sign (Nat.max startlen endlen) (f :: cp4) else None
                  | _ => None
                  end
                else None
              | [] => None
              end
            else if (e1 =? rbrace)%N then finish word ci start end_ (if (start <=? end_)%Z then 1 else -1)%Z sign (Nat.max startlen endlen) cp
            else None
          | [] => None
          end
        | None => None
        end
      else None
    | _ => None
    end
  | None => None
  end.
Proof. reflexivity. Qed.

Lemma finish_fwd pre x body post start end_ delta sign len :
  Forall (fun x => quoted (snd x) = false) body ->
  finish (pre ++ x :: body ++ closeb :: post) (length pre) start end_ delta sign len (125%N :: text post) =
  Some (start, end_, delta, sign, len, S (length pre + length body)).
Proof.
  intros H. unfold finish. set (word := pre ++ x :: body ++ closeb :: post).
  assert (Eb : length (text word) - length (125%N :: text post) = S (length pre + length body)).
  { unfold word. rewrite text_app. cbn [text map]. rewrite map_app. cbn [map]. rewrite app_length. cbn [length]. rewrite app_length. cbn [length].
    unfold text. rewrite !map_length. lia. }
  rewrite Eb. assert (En : nth_error word (S (length pre + length body)) = Some closeb).
  { unfold word. rewrite nth_error_app2 by lia. replace (S (length pre + length body) - length pre) with (S (length body)) by lia.
    cbn [nth_error]. rewrite nth_error_app2 by lia. now rewrite Nat.sub_diag. }
  rewrite En. unfold closeb. cbn [cat_eqb]. replace (S (length pre + length body) - S (length pre)) with (length body) by lia.
  assert (Es : skipn (S (length pre)) word = body ++ closeb :: post).
  { unfold word. rewrite skipn_app. rewrite skipn_all2 by lia. replace (S (length pre) - length pre) with 1 by lia. reflexivity. }
  rewrite Es, firstn_app, firstn_all, Nat.sub_diag. cbn [firstn]. rewrite app_nil_r.
  replace (forallb _ body) with true. { reflexivity. }
  symmetry. apply forallb_forall. intros y Hy. rewrite Forall_forall in H. now rewrite (H _ Hy).
Qed.

Lemma parse_fwd pre x body post r : is_range L body r ->
  parse_sequence L (pre ++ x :: body ++ closeb :: post) (length pre) =
  Some (r_start r, r_end r, r_step r, r_plus r, r_width r, S (length pre + length body)).
Proof.
  intros [Hr Hq]. rewrite parse_unfold. cbv zeta. set (word := pre ++ x :: body ++ closeb :: post).
  assert (Ec : skipn (S (length pre)) (text word) = text body ++ 125%N :: text post).
  { unfold word. rewrite text_app. cbn [text map]. rewrite map_app. cbn [map]. rewrite skipn_app. rewrite skipn_all2 by (unfold text; rewrite map_length; lia).
    unfold text. rewrite map_length. replace (S (length pre) - length pre) with 1 by lia. reflexivity. }
  rewrite Ec. clear Ec. remember (text body) as t eqn:Et.
  assert (Pl : forall sga sgb plus, (plus = true <-> sga = [43%N] \/ sgb = [43%N]) -> (false || plus_of sga) || plus_of sgb = plus).
  { intros sga sgb plus H. rewrite <- !plus_of_eq in H. destruct (plus_of sga), (plus_of sgb), plus; cbn; intuition. }
  assert (W : forall a b ds, (if (hd 0%N ds =? 48)%N then length (a ++ b) - length b else 0) = width a ds).
  { intros a b ds. unfold width. rewrite app_length. replace (length a + length b - length b) with (length a) by lia. reflexivity. }
  destruct Hr as [a b sga dsa va sgb dsb vb plus Ha Hb Hp|a b c sga dsa va sgb dsb vb sgc dsc vc plus Ha Hb Hc Hv Hp];
    cbn [r_start r_end r_step r_plus r_width].
  - rewrite <- !app_assoc. rewrite (number_fwd L HL _ _ _ _ _ Ha) by apply nodigit_dot. cbn [app dots].
    cbn [N.eqb andb period]. rewrite Pos.eqb_refl. cbn [andb].
    rewrite (hlz' _ _ _ _ _ _ Ha), W.
    rewrite (number_fwd L HL _ _ _ _ _ Hb) by apply nodigit_brace. rewrite (hlz' _ _ _ _ _ _ Hb), W, (Pl _ _ _ Hp).
    change (125 =? period)%N with false. change (125 =? rbrace)%N with true. cbn iota. now apply finish_fwd.
  - rewrite <- !app_assoc. rewrite (number_fwd L HL _ _ _ _ _ Ha) by apply nodigit_dot. cbn [app dots].
    cbn [N.eqb andb period]. rewrite Pos.eqb_refl. cbn [andb].
    rewrite (hlz' _ _ _ _ _ _ Ha), W.
    rewrite (number_fwd L HL _ _ _ _ _ Hb) by apply nodigit_dot. rewrite (hlz' _ _ _ _ _ _ Hb), W, (Pl _ _ _ Hp).
    change (46 =? period)%N with true. cbn iota. rewrite (number_fwd L HL _ _ _ _ _ Hc) by apply nodigit_brace.
    replace (vc =? 0)%Z with false by lia. change (125 =? rbrace)%N with true. cbn iota. now apply finish_fwd.
Qed.

Lemma finish_bwd pre x tail start end_ delta sign len t r out :
  text tail = t ++ 125%N :: r ->
  finish (pre ++ x :: tail) (length pre) start end_ delta sign len (125%N :: r) = Some out ->
  exists body post, tail = body ++ closeb :: post /\ text body = t /\ Forall (fun x => quoted (snd x) = false) body /\
    out = (start, end_, delta, sign, len, S (length pre + length body)).
Proof.
  intros Ht H. apply text_split in Ht as (body & post & -> & <- & Hp). destruct post as [|[c k] post]; [discriminate|].
  injection Hp as -> <-. unfold finish in H. set (word := pre ++ x :: body ++ (125%N, k) :: post) in H.
  assert (Eb : length (text word) - length (125%N :: text post) = S (length pre + length body)).
  { unfold word. rewrite text_app. cbn [text map]. rewrite map_app. cbn [map]. rewrite app_length. cbn [length]. rewrite app_length. cbn [length].
    unfold text. rewrite !map_length. lia. }
  rewrite Eb in H. assert (En : nth_error word (S (length pre + length body)) = Some (125%N, k)).
  { unfold word. rewrite nth_error_app2 by lia. replace (S (length pre + length body) - length pre) with (S (length body)) by lia.
    cbn [nth_error]. rewrite nth_error_app2 by lia. now rewrite Nat.sub_diag. }
  rewrite En in H. replace (S (length pre + length body) - S (length pre)) with (length body) in H by lia.
  assert (Es : skipn (S (length pre)) word = body ++ (125%N, k) :: post).
  { unfold word. rewrite skipn_app. rewrite skipn_all2 by lia. replace (S (length pre) - length pre) with 1 by lia. reflexivity. }
  rewrite Es, firstn_app, firstn_all, Nat.sub_diag in H. cbn [firstn] in H. rewrite app_nil_r in H.
  destruct (cat_eqb k cc_lit && forallb _ body) eqn:E; [|discriminate]. apply andb_prop in E as [E1 E2].
  apply cat_eqb_eq in E1. subst k. injection H as <-. exists body, post. repeat split; auto.
  apply Forall_forall. intros y Hy. rewrite forallb_forall in E2. specialize (E2 _ Hy). now destruct (quoted (snd y)).
Qed.

Lemma parse_bwd pre x tail st en d sg len bi :
  parse_sequence L (pre ++ x :: tail) (length pre) = Some (st, en, d, sg, len, bi) ->
  exists body post, tail = body ++ closeb :: post /\ bi = S (length pre + length body) /\
    is_range L body (mkRange st en d sg len).
Proof.
  rewrite parse_unfold. cbv zeta.
  assert (Ec : skipn (S (length pre)) (text (pre ++ x :: tail)) = text tail).
  { rewrite text_app. cbn [text map]. rewrite skipn_app. rewrite skipn_all2 by (unfold text; rewrite map_length; lia).
    unfold text. rewrite map_length. replace (S (length pre) - length pre) with 1 by lia. reflexivity. }
  rewrite Ec. clear Ec. intros H.
  assert (W : forall a b ds, (if (hd 0%N ds =? 48)%N then length (a ++ b) - length b else 0) = width a ds).
  { intros a b ds. unfold width. rewrite app_length. replace (length a + length b - length b) with (length a) by lia. reflexivity. }
  assert (Pl : forall sga sgb, (false || plus_of sga) || plus_of sgb = true <-> sga = [43%N] \/ sgb = [43%N]).
  { intros sga sgb. rewrite <- !plus_of_eq. cbn [orb]. destruct (plus_of sga), (plus_of sgb); cbn; intuition. }
  destruct (number L (text tail)) as [[va cp]|] eqn:E1; [|discriminate].
  destruct (number_bwd L _ _ _ E1) as (a & sga & dsa & Ea & Ha & _).
  destruct cp as [|d1 [|d2 c2]]; try discriminate. destruct ((d1 =? period)%N && (d2 =? period)%N) eqn:E2; [|discriminate].
  assert (d1 = 46%N /\ d2 = 46%N) as [-> ->] by (unfold period in E2; lia). clear E2.
  rewrite Ea, (hlz' _ _ _ _ _ _ Ha), W in H.
  destruct (number L c2) as [[vb cp]|] eqn:E3; [|discriminate].
  destruct (number_bwd L _ _ _ E3) as (b & sgb & dsb & Eb & Hb & _).
  rewrite Eb, (hlz' _ _ _ _ _ _ Hb), W in H.
  destruct cp as [|e1 cp3]; [discriminate|]. destruct (e1 =? period)%N eqn:E4.
  - destruct cp3 as [|e2 c3]; [discriminate|]. destruct (e2 =? period)%N eqn:E5; [|discriminate].
    destruct (number L c3) as [[vc [|f cp4]]|] eqn:E6; try discriminate.
    destruct (number_bwd L _ _ _ E6) as (c & sgc & dsc & Ec & Hc & _).
    destruct (vc =? 0)%Z eqn:E7; [discriminate|]. destruct (f =? rbrace)%N eqn:E8; [|discriminate].
    assert (e1 = 46%N /\ e2 = 46%N /\ f = 125%N) as (-> & -> & ->) by (unfold period, rbrace in *; lia).
    assert (Et : text tail = (a ++ dots ++ b ++ dots ++ c) ++ 125%N :: cp4).
    { rewrite Ea, Eb, Ec. unfold dots. rewrite <- !app_assoc. reflexivity. }
    destruct (finish_bwd _ _ _ _ _ _ _ _ _ _ _ Et H) as (body & post & -> & Hbt & Hq & [= -> -> -> -> -> ->]).
    exists body, post. split; [auto|]. split; [auto|]. split; [|auto]. rewrite Hbt. eapply ro_step; eauto. lia.
  - destruct (e1 =? rbrace)%N eqn:E5; [|discriminate]. assert (e1 = 125%N) as -> by (unfold rbrace in *; lia).
    assert (Et : text tail = (a ++ dots ++ b) ++ 125%N :: cp3).
    { rewrite Ea, Eb. unfold dots. rewrite <- !app_assoc. reflexivity. }
    destruct (finish_bwd _ _ _ _ _ _ _ _ _ _ _ Et H) as (body & post & -> & Hbt & Hq & [= -> -> -> -> -> ->]).
    exists body, post. split; [auto|]. split; [auto|]. split; [|auto]. rewrite Hbt. eapply ro_default; eauto.
Qed.

(** No brace is part of a range. *)
Lemma range_text_nobrace c t r : c = 123%N \/ c = 125%N -> range_of L t r -> ~ In c t.
Proof.
  intros Hc H Hi.
  assert (B : forall a sg ds v, integer L a sg ds v -> ~ In c a).
  { intros a sg ds v (sp & -> & Hs & _ & Hd & _ & Hv) Hi'. rewrite !in_app_iff in Hi'. destruct Hi' as [Hi'|[Hi'|Hi']].
    - rewrite Forall_forall in Hs. apply Hs in Hi'. rewrite nospace in Hi' by (auto; lia). discriminate.
    - destruct Hv as [[[->| ->] _]|[-> _]]; cbn in Hi'; lia.
    - rewrite Forall_forall in Hd. apply Hd in Hi'. unfold is_digit in Hi'. lia. }
  destruct H; rewrite !in_app_iff in Hi; unfold dots in Hi; cbn [In] in Hi;
    repeat match goal with H : integer _ _ _ _ _ |- _ => apply B in H end; intuition lia.
Qed.
Lemma range_nobrace w r : is_range L w r -> ~ In openb w.
Proof.
  intros [H _] Hi. apply (in_map fst) in Hi. refine (range_text_nobrace 123 _ _ _ H Hi). now left.
Qed.
(** In a segment a closing brace comes after an opening one. *)
Lemma item_closed i : wf_item i -> forall u v, unparse_item i = u ++ closeb :: v -> In openb u.
Proof.
  intros H u v E. destruct H as [x H1 H2 H3|segs Hn _].
  - destruct u as [|y u]; [injection E as -> _; congruence|]. injection E as _ E. destruct u; discriminate.
  - destruct u as [|y u]; [discriminate|]. injection E as -> _. now left.
Qed.
Lemma seg_closed s : Forall wf_item s -> forall u v, unparse s = u ++ closeb :: v -> In openb u.
Proof.
  induction 1 as [|i s Hi _ IH]; intros u v E.
  - destruct u; discriminate.
  - unfold unparse in E. cbn [map concat] in E. fold (unparse s) in E.
    apply app_eq_app in E as (m & [[E1 E2]|[E1 E2]]).
    + destruct m as [|y m].
      * subst. rewrite app_nil_r in E1. subst u. exfalso. cbn [app] in E2. symmetry in E2. now apply (IH []) in E2.
      * injection E2 as <- ->. eapply item_closed; eauto.
    + rewrite E1. apply in_or_app. right. eapply IH; eauto.
Qed.

(** The numbers of a range, as the code generates them *)
Definition seqf (w : list cell) : option (list (list N)) :=
  match parse_sequence L (openb :: w ++ [closeb]) 0 with
  | Some (st, en, d, sg, len, bi) =>
    if bi =? S (length w) then
      match seq_values (S (Z.to_nat ((en - st) / d))) st en d with
      | Ok vs => Some (map (format_ld sg len) vs)
      | _ => None
      end
    else None
  | None => None
  end.
Lemma range_longs w r : range_of L w r -> is_long (r_start r) /\ is_long (r_end r) /\ is_long (r_step r) /\ r_step r <> 0%Z.
Proof.
  assert (B : forall a sg ds v, integer L a sg ds v -> is_long v).
  { intros a sg ds v (_ & _ & _ & _ & _ & H & _). unfold is_long, LONG_MIN, LONG_MAX. lia. }
  destruct 1 as [a b sga dsa va sgb dsb vb plus Ha Hb Hp|a b c sga dsa va sgb dsb vb sgc dsc vc plus Ha Hb Hc Hv Hp]; cbn;
    repeat match goal with H : integer _ _ _ _ _ |- _ => apply B in H end; repeat split; auto; try apply Ha; try apply Hb; try apply Hc;
    destruct (va <=? vb)%Z; unfold LONG_MIN, LONG_MAX; lia.
Qed.
Lemma values_ok w r : is_range L w r ->
  seq_values (S (Z.to_nat ((r_end r - r_start r) / r_step r))) (r_start r) (r_end r) (r_step r) = Ok (range_values r).
Proof.
  intros [H _]. destruct (range_longs _ _ H) as (H1 & H2 & H3 & H4). apply seq_values_ok; auto.
Qed.
Lemma seqf_ok : sequence_ok L seqf.
Proof.
  intros w. unfold seqf. destruct (parse_sequence L (openb :: w ++ [closeb]) 0) as [[[[[[st en] d] sg] len] bi]|] eqn:E.
  - destruct (parse_bwd [] _ _ _ _ _ _ _ _ E) as (body & post & Ew & -> & Hr). cbn [length plus]. destruct (S (length body) =? S (length w)) eqn:El.
    + assert (body = w) as ->.
      { apply Nat.eqb_eq in El. injection El as El. symmetry. eapply app_len_eq; eauto. }
      pose proof (values_ok _ _ Hr) as V. cbn [r_start r_end r_step] in V. rewrite V. eexists. split; [exact Hr|].
      remember (range_values _) as vs. clear. induction vs; cbn; constructor; auto.
      pose proof (format_shown (mkRange st en d sg len) a) as F. exact F.
    + intros r Hr2. pose proof (parse_fwd [] openb w [] r Hr2) as P. cbn [app length] in P. rewrite E in P. injection P as _ _ _ _ _ P. lia.
  - intros r Hr2. pose proof (parse_fwd [] openb w [] r Hr2) as P. cbn [app length] in P. rewrite E in P. discriminate.
Qed.
(** In a word the closing brace found is the matching one. *)
Lemma parse_seg pre s post : Forall wf_item s ->
  match parse_sequence L (pre ++ openb :: unparse s ++ closeb :: post) (length pre) with
  | Some (st, en, d, sg, len, bi) =>
    bi = S (length pre + length (unparse s)) /\
    exists vs, seq_values (S (Z.to_nat ((en - st) / d))) st en d = Ok vs /\ seqf (unparse s) = Some (map (format_ld sg len) vs)
  | None => seqf (unparse s) = None
  end.
Proof.
  intros Hs. destruct (parse_sequence _ _ _) as [[[[[[st en] d] sg] len] bi]|] eqn:E.
  - destruct (parse_bwd _ _ _ _ _ _ _ _ _ E) as (body & post' & Ew & -> & Hr).
    assert (body = unparse s) as ->.
    { apply app_eq_app in Ew as (m & [[E1 E2]|[E1 E2]]).
      - destruct m as [|y m]; [now rewrite app_nil_r in E1|]. exfalso. injection E2 as <- E2.
        apply (range_nobrace _ _ Hr). eapply seg_closed; eauto.
      - destruct m as [|y m]; [now rewrite app_nil_r in E1|]. exfalso. injection E2 as <- E2.
        destruct Hr as [Hr _]. cbn in Hr. rewrite E1, text_app in Hr. cbn [text map] in Hr; change (fst closeb) with 125%N in Hr.
        refine (range_text_nobrace 125 _ _ _ Hr _); [now right|]. apply in_or_app. right. now left. }
    split; [reflexivity|]. pose proof (values_ok _ _ Hr) as V. cbn [r_start r_end r_step] in V. eexists. split; [exact V|].
    unfold seqf. pose proof (parse_fwd [] openb (unparse s) [] _ Hr) as P. cbn [app length plus r_start r_end r_step r_plus r_width] in P.
    rewrite P, Nat.eqb_refl, V. reflexivity.
  - unfold seqf. destruct (parse_sequence L (openb :: unparse s ++ [closeb]) 0) as [[[[[[st en] d] sg] len] bi]|] eqn:E2; [|reflexivity].
    destruct (parse_bwd [] _ _ _ _ _ _ _ _ E2) as (body & post' & Ew & -> & Hr). cbn [length plus].
    destruct (S (length body) =? S (length (unparse s))) eqn:El; [|reflexivity]. exfalso.
    assert (body = unparse s) as ->.
    { apply Nat.eqb_eq in El. injection El as El. symmetry. eapply app_len_eq; eauto. }
    pose proof (parse_fwd pre openb (unparse s) post _ Hr) as P. rewrite E in P. discriminate.
Qed.
End L.
