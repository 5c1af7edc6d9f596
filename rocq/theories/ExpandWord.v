(** expand_four over a whole word: the fields of the parts, glued together. *)
From Coq Require Import Ascii String.
From Coq Require Import List NArith ZArith Bool Arith Lia.
From Coq Require Import ZifyBool ZifyN.
From Verif Require Import Common Locale NumModel CharcatModel Regex XfnmatchModel QuoteModel SplitModel BraceModel ExpandModel ExpandSpec ExpandFour.
Import ListNotations.
Open Scope res_scope.

Section Word.
Variable W : world.
Variable tilde : tildetype.
Variable dc : cat.
Hypothesis Htilde : tilde <> TT_MULTI.
Hypothesis Hdc : quoted dc = false.
Variable eu : wunit -> bool -> M W special.
Notation loop := (four_loop W tilde Q_WORD dc eu).
Notation takes := (takes W tilde Q_WORD dc).
Notation mark c := (c, set_quotation dc).
Notation qcell c := (c, set_quoted dc).

Lemma bind_ext {A B} (m : M W A) (k k' : A -> M W B) e : (forall a e, k a e = k' a e) -> bind W m k e = bind W m k' e.
Proof. intros H. unfold bind. destruct (m e) as [[[a|] e']| |]; auto. Qed.
Lemma bind_assoc {A B C} (m : M W A) (k : A -> M W B) (k' : B -> M W C) e :
  bind W (bind W m k) k' e = bind W m (fun a => bind W (k a) k') e.
Proof. unfold bind. destruct (m e) as [[[a|] e']| |]; reflexivity. Qed.
Lemma bind_ret {A B} (a : A) (k : A -> M W B) e : bind W (ret W a) k e = k a e.
Proof. reflexivity. Qed.

Lemma bind_congr {A B} (m m' : M W A) (k : A -> M W B) e : m e = m' e -> bind W m k e = bind W m' k e.
Proof. intros H. unfold bind. now rewrite H. Qed.

(** The fields an expansion contributes *)
Definition ufields (u : wunit) (indq : bool) : M W (list (list cell)) := bind W (eu u indq) (fun r => ret W (contribution indq r)).

Lemma takes_mk s f i r z x : f <> [] -> takes s (mk f i r z) (put (mk f i r z) x) -> takes s (mk f i r z) (mk (glue f [x]) i r z).
Proof. intros Hf. now rewrite put_mk. Qed.

Lemma glue_all_cons {A} (c : list (list A)) cs f : glue (glue f c) (glue_all cs) = glue f (glue_all (c :: cs)).
Proof. cbn [glue_all fold_right]. apply glue_assoc. Qed.

(** The parts between double quotes *)
Lemma loop_dparts l : forall ts f r z e, Forall wf_dpart l -> f <> [] ->
  loop (build (flat_map dtoks l ++ ts)) false (mk f true r z) e =
  bind W (dparts_fields W ufields dc l) (fun cs => loop (build ts) false (mk (glue f (glue_all cs)) true (r || existsb null cs) z)) e.
Proof.
  induction l as [|d l IH]; intros ts f r z e Hl Hf.
  { cbn [flat_map app dparts_fields]. rewrite bind_ret. cbn [glue_all fold_right existsb]. now rewrite glue_nil_r, orb_false_r. }
  inversion Hl as [|d' l' Hd Hl']; subst. cbn [flat_map]. rewrite <- app_assoc. cbn [dparts_fields].
  assert (K : forall s x, dpart_fields W ufields dc d = ret W [x] -> dtoks d = chars s -> takes s (mk f true r z) (put (mk f true r z) x) ->
    loop (build (dtoks d ++ flat_map dtoks l ++ ts)) false (mk f true r z) e =
    bind W (bind W (dpart_fields W ufields dc d) (fun c => bind W (dparts_fields W ufields dc l) (fun cs => ret W (c :: cs))))
      (fun cs => loop (build ts) false (mk (glue f (glue_all cs)) true (r || existsb null cs) z)) e).
  { intros s x Hx Ht Hs. rewrite Hx, Ht. rewrite (loop_chars W tilde dc Htilde eu s _ _ _ e (takes_mk s f true r z x Hf Hs)).
    rewrite IH by (auto using glue_ne). rewrite bind_assoc, bind_ret, bind_assoc. apply bind_ext. intros cs e'. rewrite bind_ret.
    now rewrite glue_all_cons. }
  destruct d as [c|c|c|u]; cbn [wf_dpart] in Hd.
  - eapply K; [reflexivity|reflexivity|]. destruct Hd as [H1 H2]. pose proof (takes_plain W tilde dc Htilde Hdc c (mk f true r z) H1 H2) as T.
    cbn [findq mk] in T. rewrite or_true in T. apply T. discriminate.
  - eapply K; [reflexivity|reflexivity|]. apply takes_desc; [reflexivity|exact Hd].
  - eapply K; [reflexivity|reflexivity|]. apply takes_dback; [assumption|assumption|reflexivity|exact Hd].
  - clear K. cbn [dtoks app build]. rewrite loop_unit by assumption. cbn [findq mk dpart_fields]. rewrite bind_assoc.
    change (ufields u true) with (bind W (eu u true) (fun r => ret W (contribution true r))). rewrite bind_assoc.
    apply bind_ext. intros sp e'. rewrite bind_ret. set (c := contribution true sp). fold (mk f true r z). rewrite add_contribution_mk by assumption. unfold add_c.
    cbn [negb andb]. rewrite orb_false_r. rewrite IH by (auto using glue_ne). rewrite bind_assoc. apply bind_ext. intros cs e2. rewrite bind_ret.
    rewrite glue_all_cons. cbn [existsb]. now rewrite orb_assoc.
Qed.

Lemma last_ne {A} (f : list (list A)) x : last f x <> x -> f <> [].
Proof. intros H ->. now apply H. Qed.
Lemma glue_mark (f g : list (list cell)) m : f <> [] ->
  (null (removelast (glue (glue f [[m]]) g)) && match last (glue (glue f [[m]]) g) [] with [_] => true | _ => false end) =
  match f, g with [[]], [] | [[]], [[]] => true | _, _ => false end.
Proof.
  intros Hf. destruct f as [|f0 f] using rev_ind; [congruence|]. clear IHf Hf.
  rewrite glue_one by (destruct f; discriminate). rewrite removelast_last, last_last.
  destruct g as [|g0 g].
  - rewrite glue_nil_r, removelast_last, last_last. destruct f as [|a f]; cbn [null app andb].
    + destruct f0 as [|x f0]; [reflexivity|]. cbn [app]. destruct f0; reflexivity.
    + destruct a, f; reflexivity.
  - assert (Hg : glue (f ++ [f0 ++ [m]]) (g0 :: g) = f ++ ((f0 ++ [m]) ++ g0) :: g).
    { destruct (f ++ [f0 ++ [m]]) eqn:E; [destruct f; discriminate|]. unfold glue. rewrite <- E, removelast_last, last_last. reflexivity. }
    rewrite Hg. destruct f as [|a f].
    + cbn [app]. destruct g as [|g1 g].
      * cbn [removelast null andb last]. destruct f0 as [|x f0]; cbn [app].
        -- destruct g0; reflexivity.
        -- destruct f0; reflexivity.
      * cbn [removelast null andb]. destruct f0; [|reflexivity]. destruct g0; reflexivity.
    + cbn [app]. destruct (f ++ ((f0 ++ [m]) ++ g0) :: g) eqn:E; [destruct f; discriminate|]. cbn [removelast null andb].
      destruct a; [|reflexivity]. destruct f; reflexivity.
Qed.
Lemma last_mark (g : list (list cell)) m : g = [] \/ g = [[]] -> glue (glue [[]] [[m]]) g = [[m]].
Proof. intros [-> | ->]; reflexivity. Qed.
Lemma dropped_mk f cs z : f <> [] ->
  dropped (mk (glue (glue f [[mark dq]]) (glue_all cs)) true (existsb null cs) z) = vanishes cs && match f with [[]] => true | _ => false end.
Proof.
  intros Hf. unfold dropped, mk, vanishes. cbn [fe fbuf fremovedq]. destruct (existsb null cs); cbn [andb]; [|reflexivity].
  pose proof (glue_mark f (glue_all cs) (mark dq) Hf) as G.
  destruct f as [|[|x f0] [|f1 f]]; try congruence.
  - destruct (glue_all cs) as [|[|y g] [|]]; try reflexivity;
    (destruct (null (removelast _)); [|reflexivity]); cbn [andb] in *; destruct (last _ []) as [|[? ?] [|]]; try reflexivity; discriminate G.
  - rewrite andb_false_r. (destruct (null (removelast _)); [|reflexivity]); cbn [andb] in *; destruct (last _ []) as [|[? ?] [|]]; try reflexivity; destruct (glue_all cs); discriminate G.
  - rewrite andb_false_r. (destruct (null (removelast _)); [|reflexivity]); cbn [andb] in *; destruct (last _ []) as [|[? ?] [|]]; try reflexivity; destruct (glue_all cs); discriminate G.
  - rewrite andb_false_r. (destruct (null (removelast _)); [|reflexivity]); cbn [andb] in *; destruct (last _ []) as [|[? ?] [|]]; try reflexivity; destruct (glue_all cs); discriminate G.
Qed.

(** The end of expand_four *)
Definition final (st : four) : list (list cell) :=
  if fremoveempty st && null (fe st) && null (fbuf st) then [] else fe st ++ [fbuf st].
Lemma final_mk f i r z : f <> [] -> final (mk f i r z) = match z, f with true, [[]] => [] | _, _ => f end.
Proof.
  intros Hf. unfold final, mk. cbn [fe fbuf fremoveempty]. rewrite <- app_removelast_last by assumption.
  destruct z; [|reflexivity]. destruct f as [|[|x f0] [|f1 f]]; try congruence; reflexivity.
Qed.

Lemma loop_parts ps : forall f r z e, Forall wf_part ps -> f <> [] ->
  bind W (loop (build (flat_map toks ps)) false (mk f false r z)) (fun st => ret W (final st)) e = parts_fields W ufields dc ps f z e.
Proof.
  induction ps as [|p ps IH]; intros f r z e Hps Hf.
  { cbn [flat_map build four_loop parts_fields]. rewrite bind_ret. now rewrite final_mk. }
  inversion Hps as [|p' ps' Hp Hps']; subst. cbn [flat_map].
  assert (K : forall s x k, toks p = chars s -> takes s (mk f false r z) (put (mk f false r z) x) ->
    k = parts_fields W ufields dc ps (glue f [x]) z ->
    bind W (loop (build (toks p ++ flat_map toks ps)) false (mk f false r z)) (fun st => ret W (final st)) e = k e).
  { intros s x k Ht Hs ->. rewrite Ht. unfold bind at 1. rewrite (loop_chars W tilde dc Htilde eu s _ _ _ e (takes_mk s f false r z x Hf Hs)).
    rewrite <- (IH _ r) by (auto using glue_ne). reflexivity. }
  destruct p as [c|c|s|l|u]; cbn [wf_part] in Hp; cbn [parts_fields].
  - destruct Hp as (H1 & H2 & H3). eapply K; [reflexivity| |reflexivity]. pose proof (takes_plain W tilde dc Htilde Hdc c (mk f false r z) H1 H3) as T.
    cbn [findq mk] in T. rewrite or_false in T by assumption. apply T. auto.
  - eapply K; [reflexivity| |reflexivity]. now apply takes_esc.
  - eapply K; [reflexivity| |].
    + apply takes_single; [reflexivity|assumption].
    + unfold in_quotes. reflexivity.
  - clear K. cbn [toks]. rewrite <- !app_assoc. eapply eq_trans; [apply bind_congr|].
    { rewrite (loop_chars W tilde dc Htilde eu [dquote] _ _ _ e (takes_open W tilde dc (mk f false r z) eq_refl)).
      change (mkFour (fe (mk f false r z)) (fbuf (mk f false r z) ++ [mark dq]) true false (fremoveempty (mk f false r z))) with (mkFour (removelast f) (last f [] ++ [mark dq]) true false z).
      replace (mkFour (removelast f) (last f [] ++ [mark dq]) true false z) with (mk (glue f [[mark dq]]) true false z)
        by (unfold mk; rewrite glue_one by assumption; now rewrite removelast_last, last_last).
      apply loop_dparts; auto using glue_ne. }
    rewrite bind_assoc. apply bind_ext. intros cs e'.
    cbn [orb]. eapply eq_trans; [apply bind_congr; apply (loop_chars W tilde dc Htilde eu [dquote] _ _ _ e' (takes_close W tilde dc (mk (glue (glue f [[mark dq]]) (glue_all cs)) true (existsb null cs) z) eq_refl))|].
    rewrite dropped_mk by assumption.
    assert (D : vanishes cs && match f with [[]] => true | _ => false end = true -> vanishes cs = true /\ f = [[]]).
    { destruct (vanishes cs); [|discriminate]. destruct f as [|[|] [|]]; try discriminate. auto. }
    destruct (vanishes cs && match f with [[]] => true | _ => false end) eqn:E.
    + destruct (D eq_refl) as [-> ->]. change (mkFour [] [] false true true) with (mk [[]] false true true). rewrite <- (IH _ true) by (auto; discriminate). reflexivity.
    + clear D. set (g := glue (glue f [[mark dq]]) (glue_all cs)). assert (Hg : g <> []) by (apply glue_ne, glue_ne; assumption).
      change (mkFour (fe (mk g true (existsb null cs) z)) (fbuf (mk g true (existsb null cs) z) ++ [mark dq]) false (fremovedq (mk g true (existsb null cs) z)) (fremoveempty (mk g true (existsb null cs) z)))
        with (put (mk g false (existsb null cs) z) [mark dq]).
      rewrite put_mk by assumption.
      transitivity (parts_fields W ufields dc ps (glue f (in_quotes dc dquote (glue_all cs))) z e').
      * rewrite <- (IH _ (existsb null cs)) by (auto using glue_ne). unfold g, in_quotes. rewrite !glue_assoc. reflexivity.
      * destruct (vanishes cs); [|reflexivity]. destruct f as [|[|] [|]]; try reflexivity. discriminate E.
  - clear K. cbn [toks app build]. eapply eq_trans; [apply bind_congr, loop_unit; assumption|]. cbn [findq mk]. unfold ufields at 1. rewrite (bind_assoc (eu u false) (fun r => ret W _)).
    rewrite bind_assoc. apply bind_ext. intros sp e'. rewrite bind_ret. set (c := contribution false sp). fold (mk f false r z).
    rewrite add_contribution_mk by assumption. unfold add_c. cbn [negb andb]. rewrite orb_false_r.
    now rewrite <- (IH _ r) by (auto using glue_ne).
Qed.

Lemma mem_In c t : mem c t = true <-> In c t.
Proof. unfold mem. rewrite existsb_exists. split; [intros (x & Hx & E); apply N.eqb_eq in E; congruence|intros H; exists c; split; [exact H|apply N.eqb_refl]]. Qed.
Lemma mem_out c t : ~ In c t -> mem c t = false.
Proof. intros H. destruct (mem c t) eqn:E; [apply mem_In in E; contradiction|reflexivity]. Qed.
(** The first string of a word *)
Lemma build_chars s ts : build (chars s ++ ts) = match s with [] => build ts | _ => match build ts with WString t :: w => WString (s ++ t) :: w | w => WString s :: w end end.
Proof.
  induction s as [|c s IH]; [reflexivity|]. cbn [chars map app build]. change (map inl s) with (chars s). rewrite IH. destruct s as [|d s];
  unfold add_char; destruct (build ts) as [|[]]; reflexivity.
Qed.
(** The parts at the start that are not a tilde prefix *)
Lemma bare_split ps : ps = map PBare (fst (bare_prefix ps)) ++ snd (bare_prefix ps) /\ ~ In 47%N (fst (bare_prefix ps)) /\
  match snd (bare_prefix ps) with PBare c :: _ => c = 47%N | _ => True end.
Proof.
  induction ps as [|p ps IH]; [cbn; auto|]. destruct p as [c| | | |]; cbn [bare_prefix]; try (cbn; auto; fail). destruct (c =? 47)%N eqn:E.
  - cbn. apply N.eqb_eq in E. auto.
  - destruct (bare_prefix ps) as [u r]. cbn [fst snd map app In] in *. destruct IH as (-> & H1 & H2). apply N.eqb_neq in E. split; [reflexivity|]. split; [|exact H2]. intros [H|H]; auto.
Qed.
Lemma flat_bare u r : flat_map toks (map PBare u ++ r) = chars u ++ flat_map toks r.
Proof. induction u as [|c u IH]; [reflexivity|]. cbn [map app flat_map toks chars]. rewrite IH. reflexivity. Qed.
Lemma wcspbrk_app t u s : (forall c, In c u -> mem c t = false) -> wcspbrk t (u ++ s) = match wcspbrk t s with Some (a, b) => Some (u ++ a, b) | None => None end.
Proof.
  induction u as [|c u IH]; intros H; cbn [app wcspbrk]; [destruct (wcspbrk t s) as [[]|]; reflexivity|]. rewrite (H c) by now left.
  rewrite IH by (intros d Hd; apply H; now right). destruct (wcspbrk t s) as [[]|]; reflexivity.
Qed.
Lemma wcspbrk_hit t s c : In c s -> mem c t = true -> wcspbrk t s <> None.
Proof. intros Hi Hm E. pose proof (wcspbrk_none t s E c Hi). congruence. Qed.
Lemma toks_quote p r : wf_part p -> match p with PBare _ => False | _ => True end ->
  match build (flat_map toks (p :: r)) with WString t :: _ => exists c t', t = c :: t' /\ In c [dq; sq; bs] | [] => False | _ => True end.
Proof.
  intros Hw Hp. assert (A : forall c w, match add_char c w with WString (d :: _) :: _ => d = c | _ => False end).
  { intros c w. unfold add_char. destruct w as [|[]]; reflexivity. }
  destruct p as [c|c|s|l|u]; [destruct Hp|..]; cbn [flat_map toks chars map app build].
  1-3: match goal with |- match add_char ?c ?t with _ => _ end => specialize (A c t); destruct (add_char c t) as [|[[|]| | |]]; try contradiction end;
      subst; eexists; eexists; (split; [reflexivity|]); cbn; tauto.
  destruct u; try exact I. destruct Hw.
Qed.
Lemma loop_first ps st e : Forall wf_part ps ->
  loop (word ps) true st e =
  match (match tilde with TT_NONE => None | _ => tilde_prefix ps end) with
  | Some (user, rest) =>
    match tilde_home W e user with
    | Some home => loop (word rest) false (put st (cells cc_hard home)) e
    | None => loop (word ps) false st e
    end
  | None => loop (word ps) false st e
  end.
Proof.
  intros Hw. assert (Ht : tilde = TT_NONE \/ tilde = TT_SINGLE) by (destruct tilde; auto; congruence). destruct Ht as [-> | ->].
  { destruct (word ps) as [|[] w]; reflexivity. }
  assert (K : forall w, match w with WString s :: w' => expand_tilde W e s (has_next w') TT_SINGLE = None | _ => True end ->
    four_loop W TT_SINGLE Q_WORD dc eu w true st e = four_loop W TT_SINGLE Q_WORD dc eu w false st e).
  { intros w H. destruct w as [|[s| | |] w]; try reflexivity. cbn [four_loop]. unfold bind. unfold has_next in H. now rewrite H. }
  assert (B : forall c w s w', add_char c w = WString s :: w' -> exists s', s = c :: s').
  { intros c w s w' H. unfold add_char in H. destruct w as [|[]]; injection H as <- <-; eauto. }
  destruct (tilde_prefix ps) as [[user rest]|] eqn:Ep.
  - unfold tilde_prefix in Ep. destruct ps as [|[c| | | |] ps]; try discriminate. destruct (c =? 126)%N eqn:Ec; [|discriminate]. apply N.eqb_eq in Ec as ->.
    destruct (bare_split ps) as (Es & Hn & Hr). destruct (bare_prefix ps) as [u r]. cbn [fst snd] in *.
    assert (Er : user = u /\ rest = r /\ (r = [] \/ exists r', r = PBare 47%N :: r')).
    { destruct r as [|[c| | | |] r]; try discriminate; injection Ep as <- <-; auto. subst c. eauto. }
    destruct Er as (-> & -> & Er). clear Ep.
    assert (Hb : forall c, In c u -> c <> dq /\ c <> sq /\ c <> bs).
    { intros c Hc. rewrite Forall_forall in Hw. assert (wf_part (PBare c)) as (H1 & H2 & H3).
      { apply Hw. right. rewrite Es. apply in_app_iff. left. now apply in_map. } auto. }
    assert (Eq : match u with [] => false | _ => match wcspbrk [dq; sq; bs] u with Some _ => true | None => false end end = false).
    { destruct u as [|c u]; [reflexivity|]. destruct (wcspbrk [dq; sq; bs] (c :: u)) as [[a b]|] eqn:E; [|reflexivity]. exfalso.
      assert (X : wcspbrk [dq; sq; bs] (c :: u) = None); [|congruence]. clear E. revert Hb. generalize (c :: u). clear. intros l H. induction l as [|c l IH]; [reflexivity|].
      cbn [wcspbrk]. destruct (H c) as (H1 & H2 & H3); [now left|]. rewrite mem_out by (intros [X|[X|[X|[]]]]; congruence). rewrite IH; auto. intros d Hd. apply H. now right. }
    assert (Hm : forall c, In c u -> mem c [ch "/"] = false).
    { intros c Hc. apply mem_out. intros [<-|[]]. now apply Hn. }
    assert (Ew : word (PBare 126%N :: ps) = build (chars (126%N :: u) ++ flat_map toks r)).
    { unfold word. rewrite Es. change (PBare 126%N :: map PBare u ++ r) with (map PBare (126%N :: u) ++ r). now rewrite flat_bare. }
    rewrite Ew, build_chars. destruct Er as [-> |[r' ->]].
    + cbn [flat_map build]. assert (Et : expand_tilde W e (126%N :: u) false TT_SINGLE = match tilde_home W e u with None => None | Some home => Some (home, []) end).
      { unfold expand_tilde. change (126 =? ch "~")%N with true. cbn [negb]. rewrite <- (app_nil_r u) at 1. rewrite wcspbrk_app by auto. cbn [wcspbrk]. now rewrite Eq. }
      destruct (tilde_home W e u) as [home|].
      * cbn [four_loop]. unfold bind. rewrite Et. unfold lift, word. cbn [flat_map build four_loop four_string]. now rewrite Hdc.
      * apply K. exact Et.
    + cbn [flat_map toks chars map app build]. change (map inl u) with (chars u).
      assert (Eb : exists t w, add_char 47%N (build (flat_map toks r')) = WString (47%N :: t) :: w /\ word (PBare 47%N :: r') = WString (47%N :: t) :: w).
      { unfold word. cbn [flat_map toks chars map app build]. unfold add_char. destruct (build (flat_map toks r')) as [|[]]; eauto. }
      destruct Eb as (t & w & Eb & Ew'). rewrite Eb.
      assert (Et : forall h, expand_tilde W e ((126%N :: u) ++ 47%N :: t) h TT_SINGLE = match tilde_home W e u with None => None | Some home => Some (home, 47%N :: t) end).
      { intros h. unfold expand_tilde. cbn [app]. change (126 =? ch "~")%N with true. cbn [negb]. rewrite wcspbrk_app by auto. cbn [wcspbrk]. change (mem 47%N [ch "/"]) with true. cbn [app].
        rewrite app_nil_r. now rewrite Eq. }
      destruct (tilde_home W e u) as [home|].
      * rewrite Ew'. cbn [four_loop]. unfold bind. rewrite Et. unfold lift. now rewrite Hdc.
      * apply K. apply Et.
  - apply K. unfold tilde_prefix in Ep. destruct ps as [|p ps]; [exact I|]. destruct (word (p :: ps)) as [|[s| | |] w] eqn:Ew; auto.
    destruct s as [|c0 s]; [reflexivity|]. unfold expand_tilde. destruct (c0 =? ch "~")%N eqn:E0; [|reflexivity]. cbn [negb]. apply N.eqb_eq in E0. subst c0.
    inversion Hw as [|? ? Hp Hw']; subst.
    assert (Hp' : exists c, p = PBare c).
    { destruct p as [c| | | |]; [eauto|..]; exfalso; pose proof (toks_quote _ ps Hp I) as Q; unfold word in Ew; rewrite Ew in Q; destruct Q as (x & t' & E & H); injection E as <- <-; cbn in H; decompose [or] H; try discriminate; assumption. }
    destruct Hp' as [c ->].
    assert (Ec : c = 126%N).
    { unfold word in Ew. cbn [flat_map toks chars map app build] in Ew. apply B in Ew as [s' E]. injection E as E _. exact (eq_sym E). }
    subst c. change (126 =? 126)%N with true in Ep. destruct (bare_split ps) as (Es & Hn & Hr). destruct (bare_prefix ps) as [u r]. cbn [fst snd] in *.
    destruct r as [|pr r]; [discriminate|].
    assert (Hpr : match pr with PBare _ => False | _ => True end) by (destruct pr; try exact I; discriminate). clear Ep Hr.
    assert (Wpr : wf_part pr). { rewrite Forall_forall in Hw'. apply Hw'. rewrite Es. apply in_app_iff. right. now left. }
    pose proof (toks_quote pr r Wpr Hpr) as Q.
    unfold word in Ew. rewrite Es in Ew. change (PBare 126%N :: map PBare u ++ pr :: r) with (map PBare (126%N :: u) ++ pr :: r) in Ew. rewrite flat_bare, build_chars in Ew.
    assert (Hm : forall c, In c u -> mem c [ch "/"] = false).
    { intros c Hc. apply mem_out. intros [<-|[]]. now apply Hn. }
    assert (Z : forall x, In x [dq; sq; bs] -> forall v, In x v -> match v with [] => false | _ => match wcspbrk [dq; sq; bs] v with Some _ => true | None => false end end = true).
    { intros x Hx v Hv. assert (Hmx : mem x [dq; sq; bs] = true) by now apply mem_In. pose proof (wcspbrk_hit _ v x Hv Hmx). destruct v; [destruct Hv|]. destruct (wcspbrk [dq; sq; bs] (n :: v)); congruence. }
    destruct (build (flat_map toks (pr :: r))) as [|bu bw]; [destruct Q|].
    destruct bu as [t| | |].
    + destruct Q as (x & t' & -> & Hx). injection Ew as <- <-. rewrite wcspbrk_app by auto. cbn [wcspbrk].
      assert (Ex : mem x [ch "/"] = false). { apply mem_out. intros [<-|[]]. cbn in Hx. decompose [or] Hx; try discriminate; assumption. }
      rewrite Ex. destruct (wcspbrk [ch "/"] t') as [[a b]|].
      * rewrite (Z x Hx (u ++ x :: a)) by (apply in_app_iff; right; now left). reflexivity.
      * destruct (has_next bw); [reflexivity|]. rewrite (Z x Hx (u ++ x :: t')) by (apply in_app_iff; right; now left). reflexivity.
    + injection Ew as <- <-. rewrite <- (app_nil_r u) at 1. rewrite wcspbrk_app by auto. cbn [wcspbrk has_next]. reflexivity.
    + injection Ew as <- <-. rewrite <- (app_nil_r u) at 1. rewrite wcspbrk_app by auto. cbn [wcspbrk has_next]. reflexivity.
    + injection Ew as <- <-. rewrite <- (app_nil_r u) at 1. rewrite wcspbrk_app by auto. cbn [wcspbrk has_next]. reflexivity.
Qed.
Lemma bare_wf ps : Forall wf_part ps -> Forall wf_part (snd (bare_prefix ps)).
Proof. intros H. destruct (bare_split ps) as (E & _). rewrite E in H. apply Forall_app in H. tauto. Qed.
Lemma tilde_wf ps u r : Forall wf_part ps -> tilde_prefix ps = Some (u, r) -> Forall wf_part r.
Proof.
  intros H E. unfold tilde_prefix in E. destruct ps as [|[c| | | |] ps]; try discriminate. destruct (c =? 126)%N; [|discriminate].
  inversion H; subst. pose proof (bare_wf ps) as B. destruct (bare_prefix ps) as [u' r']. cbn [snd] in B. destruct r' as [|[]]; try discriminate; injection E as <- <-; auto.
Qed.
(** ** A word is the juxtaposition of its parts. *)
Lemma expand_four_word ps e : Forall wf_part ps ->
  expand_four W eu (word ps) tilde Q_WORD dc e = word_fields W ufields dc (match tilde with TT_NONE => false | _ => true end) ps e.
Proof.
  intros Hw.
  assert (R : forall st r e, Forall wf_part r -> st = mk [fbuf st] false false false ->
    bind W (fun e => loop (word r) false st e) (fun st => match fremoveempty st, fe st, fbuf st with true, [], [] => ret W [] | _, _, _ => ret W (fe st ++ [fbuf st]) end) e =
    parts_fields W ufields dc r [fbuf st] false e).
  { intros st r e0 Hr ->. rewrite <- (loop_parts r [fbuf (mk [fbuf st] false false false)] false false e0 Hr) by discriminate. unfold bind, word. cbn [fbuf mk last].
    change (mk [fbuf st] false false false) with (mkFour [] (fbuf st) false false false).
    destruct (loop _ false _ e0) as [[[st'|] e']| |]; try reflexivity. unfold final.
    destruct (fremoveempty st'), (fe st'), (fbuf st'); reflexivity. }
  unfold expand_four, word_fields. set (k := fun st => _) in *. unfold bind. rewrite loop_first by auto. fold k in R. unfold bind in R.
  destruct tilde; cbn [negb]; [exact (R (mkFour [] [] false false false) ps e Hw eq_refl)| |congruence].
  destruct (tilde_prefix ps) as [[u r]|] eqn:Ep; [|exact (R (mkFour [] [] false false false) ps e Hw eq_refl)].
  destruct (tilde_home W e u) as [home|]; [|exact (R (mkFour [] [] false false false) ps e Hw eq_refl)].
  apply (R (mkFour [] (cells cc_hard home) false false false) r e); [eapply tilde_wf; eauto|reflexivity].
Qed.
End Word.
