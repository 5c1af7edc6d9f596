(** Properties C17-C20 and C39: shell patterns. *)
From Coq Require Import Ascii String.
From Coq Require Import List NArith ZArith Bool Arith Lia.
From Verif Require Import Common Regex XfnmatchModel XfnmatchSpec XfnmatchProofs XfnmatchMatch.
Import ListNotations.
Open Scope res_scope.

(** A locale for the examples: ASCII letters. *)
Definition is_lower (c : N) : bool := ((97 <=? c) && (c <=? 122))%N.
Definition is_upper (c : N) : bool := ((65 <=? c) && (c <=? 90))%N.
Definition demo : ctype :=
  mkCtype (fun n => if list_N_eqb n (str "alpha") then Some (fun c => is_lower c || is_upper c) else None)
    (fun a b => if (a <=? b)%N then Some (fun c => (a <=? c)%N && (c <=? b)%N) else None)
    (fun n => match n with [x] => Some (N.eqb x) | _ => None end)
    (fun n => match n with [x] => Some x | _ => None end)
    (fun c => if is_upper c then c + 32 else c)%N
    (fun c => if is_lower c then c - 32 else c)%N.
Lemma demo_ok : ctype_ok demo.
Proof. intros c. reflexivity. Qed.

(** C17.  Matching decides the language of the pattern. *)
Theorem pattern_language_partial C : ctype_ok C -> forall pat s, clear_pattern pat ->
  exists b, match_pattern C s pat = Ok b /\ (b = true <-> pmatch C false pat s).
Proof.
  intros HC pat s Hp. unfold match_pattern. set (fl := mkFl false true true false false false false).
  destruct (compile_ok C HC pat fl Hp) as [(x & -> & _ & _ & Ep & _ & _ & W)|[No ->]]; cbn [rbind].
  { split; cbn; discriminate. }
  - cbn in Ep. destruct (W s ltac:(rewrite Ep; reflexivity)) as (r & -> & Hr). cbn [rbind]. unfold finds in Hr. cbn [fl HEADONLY TAILONLY andb] in Hr.
    eexists. split; [reflexivity|]. cbn [fl CASEFOLD] in Hr. rewrite <- Hr. destruct r; split; congruence.
  - eexists. split; [reflexivity|]. split; [discriminate|]. intros (l & Hl & _). exfalso. eapply No; eauto.
Qed.
Print Assumptions pattern_language_partial.

Example language_ex1 : clear_pattern (str "a*[!b-d[:alpha:]]\*?") /\
  match_pattern demo (str "a[x1*z") (str "a*[!b-d[:alpha:]]\*?") = Ok true /\
  match_pattern demo (str "a[x1bz") (str "a*[!b-d[:alpha:]]\*?") = Ok false.
Proof. split; [reflexivity|]. split; vm_compute; reflexivity. Qed.
Example language_ex2 : clear_pattern (str "[]\-x[.-.]]") /\
  match_pattern demo (str "-") (str "[]\-x[.-.]]") = Ok true /\
  match_pattern demo (str "b") (str "[]\-x[.-.]]") = Ok false.
Proof. split; [reflexivity|]. split; vm_compute; reflexivity. Qed.
Example language_ex3 : clear_pattern (str "**a[b**") /\
  match_pattern demo (str "xxa[b") (str "**a[b**") = Ok true.
Proof. split; [reflexivity|]. vm_compute; reflexivity. Qed.

(** Quoting the delimiter of a symbol has no effect, so the language is not the
    one POSIX defines. *)
Theorem pattern_language_refuted :
  exists C pat s, ctype_ok C /\ match_pattern C s pat = Ok true /\ ~ pmatch C false pat s.
Proof.
  exists demo, (str "[[\:alpha:]]"), (str "b"). split; [apply demo_ok|]. split; [vm_compute; reflexivity|].
  intros (l & Hl & M).
  assert (E : gparses demo (marks (str "[[\:alpha:]]"))
    [GSet false [IChar lbr; IChar colon; IChar 97; IChar 108; IChar 112; IChar 104; IChar 97; IChar colon]; GChar rbr]%N).
  { eapply gp_set; [vm_compute; reflexivity|vm_compute; reflexivity|]. apply gp_char; [right; repeat split; discriminate|constructor]. }
  rewrite (gparses_det _ _ _ Hl _ E) in M. apply re_match_ok in M. vm_compute in M. discriminate.
Qed.
Print Assumptions pattern_language_refuted.

(** C18.  Removal of prefixes and suffixes. *)
Theorem prefix_removal_partial C : ctype_ok C -> forall longest pat s, clear_pattern pat ->
  exists out, match_each C true false longest pat s = Ok out /\ cut_prefix (pmatch C false pat) longest s out.
Proof.
  intros HC longest pat s Hp. unfold match_each. cbn [orb negb]. set (fl := mkFl (negb longest) true false false false false false).
  destruct (compile_ok C HC pat fl Hp) as [(x & -> & _ & _ & Ep & _ & _ & W)|[No ->]]; cbn [rbind].
  { split; cbn; [auto|discriminate]. }
  - cbn in Ep. destruct (W s ltac:(rewrite Ep; reflexivity)) as (r & -> & Hr). cbn [rbind]. unfold finds in Hr. cbn [fl HEADONLY TAILONLY SHORTEST CASEFOLD andb] in Hr.
    assert (Pm : forall p' r', s = p' ++ r' -> pmatch C false pat p' -> is_match (pmatch C false pat) true false s 0 (length p')).
    { intros p' r' -> M. split; [lia|]. rewrite app_length. split; [lia|]. rewrite substr_0, firstn_app, Nat.sub_diag, firstn_all. cbn [firstn].
      rewrite app_nil_r. split; [auto|]. split; [auto|discriminate]. }
    destruct r as [[i j]|].
    + eexists. split; [reflexivity|]. destruct Hr as [(H1 & H2 & H3 & H4 & _) Hb]. rewrite (H4 eq_refl) in *. clear H4 i.
      rewrite Nat.add_0_l, Nat.sub_0_r. cbn [firstn app]. left. exists (firstn j s). split; [now rewrite firstn_skipn|].
      rewrite substr_0 in H3. split; [auto|]. intros p' r' Es M. specialize (Hb _ _ (Pm _ _ Es M)). unfold better in Hb.
      rewrite firstn_length, Nat.min_l by auto. destruct longest; cbn [negb] in Hb; lia.
    + eexists. split; [reflexivity|]. right. split; [auto|]. intros p' r' Es M. eapply Hr; eauto.
  - eexists. split; [reflexivity|]. right. split; [auto|]. intros p' r' _ (l & Hl & _). eapply No; eauto.
Qed.
Print Assumptions prefix_removal_partial.

Theorem suffix_removal_partial C : ctype_ok C -> forall longest pat s, clear_pattern pat ->
  exists out, match_each C false true longest pat s = Ok out /\ cut_suffix (pmatch C false pat) longest s out.
Proof.
  intros HC longest pat s Hp. unfold match_each. cbn [orb negb]. set (fl := mkFl (negb longest) false true false false false false).
  destruct (compile_ok C HC pat fl Hp) as [(x & -> & _ & _ & Ep & _ & _ & W)|[No ->]]; cbn [rbind].
  { split; cbn; [auto|discriminate]. }
  - cbn in Ep. destruct (W s ltac:(rewrite Ep; reflexivity)) as (r & -> & Hr). cbn [rbind]. unfold finds in Hr. cbn [fl HEADONLY TAILONLY SHORTEST CASEFOLD andb] in Hr.
    assert (Pm : forall p' r', s = r' ++ p' -> pmatch C false pat p' -> is_match (pmatch C false pat) false true s (length r') (length s)).
    { intros p' r' -> M. rewrite app_length. split; [lia|]. split; [rewrite app_length; lia|]. rewrite <- app_length, substr_end.
      rewrite skipn_app, skipn_all, Nat.sub_diag. cbn [skipn app]. split; [auto|]. split; [discriminate|auto]. }
    destruct r as [[i j]|].
    + eexists. split; [reflexivity|]. destruct Hr as [(H1 & H2 & H3 & _ & H4) Hb]. rewrite (H4 eq_refl) in *. clear H4 j.
      rewrite substr_end in H3. replace (i + (length s - i)) with (length s) by lia. rewrite skipn_all, app_nil_r.
      left. exists (skipn i s). split; [now rewrite firstn_skipn|].
      split; [auto|]. intros p' r' Es M. specialize (Hb _ _ (Pm _ _ Es M)). unfold better in Hb.
      pose proof (f_equal (@length N) Es) as L. rewrite app_length in L.
      rewrite skipn_length. destruct longest; cbn [negb] in Hb; lia.
    + eexists. split; [reflexivity|]. right. split; [auto|]. intros p' r' Es M. eapply Hr; eauto.
  - eexists. split; [reflexivity|]. right. split; [auto|]. intros p' r' _ (l & Hl & _). eapply No; eauto.
Qed.
Print Assumptions suffix_removal_partial.

Example removal_ex1 : match_each demo true false false (str "*[/.]") (str "a/b.c/d") = Ok (str "b.c/d") /\
  match_each demo true false true (str "*[/.]") (str "a/b.c/d") = Ok (str "d") /\
  match_each demo false true false (str "[/.]*") (str "a/b.c/d") = Ok (str "a/b.c") /\
  match_each demo false true true (str "[/.]*") (str "a/b.c/d") = Ok (str "a").
Proof. split; [|split; [|split]]; vm_compute; reflexivity. Qed.
Example removal_ex2 : match_each demo true false false (str "*/") (str "a/b/c") = Ok (str "b/c") /\
  match_each demo true false true (str "*/") (str "a/b/c") = Ok (str "c") /\
  match_each demo false true false (str "/*") (str "a/b/c") = Ok (str "a/b") /\
  match_each demo false true true (str "/*") (str "a/b/c") = Ok (str "a") /\
  match_each demo false true true (str "x*") (str "a/b/c") = Ok (str "a/b/c").
Proof. split; [|split; [|split; [|split]]]; vm_compute; reflexivity. Qed.

(** C19.  Substitution. *)
Lemma wanted_replaces P head tail repl s r : wanted P false head tail s r ->
  replaces_once P head tail repl s
    match r with
    | Some (i, j) => if i <? j then firstn i s ++ repl ++ skipn j s else s
    | None => s
    end.
Proof.
  intros W.
  assert (Im : forall a m b, s = a ++ m ++ b -> P m -> (head = true -> a = []) -> (tail = true -> b = []) ->
     is_match P head tail s (length a) (length a + length m)).
  { intros a m b Es M Ha Hb. pose proof (f_equal (@length N) Es) as L. rewrite !app_length in L.
    split; [lia|]. split; [lia|]. split; [|split].
    - unfold substr. rewrite Es, skipn_app, skipn_all, Nat.sub_diag. cbn [skipn app].
      replace (length a + length m - length a) with (length m) by lia. rewrite firstn_app, Nat.sub_diag, firstn_all. cbn.
      now rewrite app_nil_r.
    - intros X. now rewrite (Ha X).
    - intros X. rewrite (Hb X) in L. cbn in L. lia. }
  destruct r as [[i j]|].
  - destruct W as [(H1 & H2 & H3 & H4 & H5) Hb]. left. exists (firstn i s), (substr s i j), (skipn j s).
    split; [|split; [auto|split; [|split; [|split]]]].
    + unfold substr. rewrite <- (firstn_skipn i s) at 1. f_equal. rewrite <- (firstn_skipn (j - i) (skipn i s)) at 1. f_equal.
      rewrite skipn_add. f_equal. lia.
    + intros X. now rewrite (H4 X).
    + intros X. rewrite (H5 X). apply skipn_all.
    + intros a' m' b' Es M Ha Hb'. specialize (Hb _ _ (Im _ _ _ Es M Ha Hb')). cbn [better] in Hb.
      rewrite firstn_length, substr_length by auto. lia.
    + rewrite substr_length by auto. destruct (Nat.ltb_spec i j), (Nat.ltb_spec 0 (j - i)); auto; lia.
  - right. split; [auto|]. intros a m b Es M Ha Hb. eapply W; eauto.
Qed.

Theorem substitution_once_partial C : ctype_ok C -> forall head tail pat repl s, clear_pattern pat -> head && tail = false ->
  exists out, subst_each C head tail false pat repl s = Ok out /\
    replaces_once (pmatch C false pat) head tail repl s out.
Proof.
  intros HC head tail pat repl s Hp Hht. destruct (subst_once_ok C HC pat repl head tail s Hp Hht) as (r & W & ->).
  eexists. split; [reflexivity|]. now apply wanted_replaces.
Qed.
Print Assumptions substitution_once_partial.

Theorem substitution_all_partial C : ctype_ok C -> forall pat repl s, clear_pattern pat ->
  exists out, subst_each C false false true pat repl s = Ok out /\
    replaces_all (pmatch C false pat) false repl s out.
Proof. intros HC pat repl s Hp. now apply subst_all_ok. Qed.
Print Assumptions substitution_all_partial.

Theorem substitution_whole_partial C : ctype_ok C -> forall pat repl s, clear_pattern pat -> s <> [] ->
  exists out, subst_each C true true false pat repl s = Ok out /\
    (pmatch C false pat s -> out = repl) /\ (~ pmatch C false pat s -> out = s).
Proof. intros HC pat repl s Hp Hs. now apply subst_whole_ok. Qed.
Print Assumptions substitution_whole_partial.

(** An empty value that matches is not replaced if the pattern is an asterisk. *)
Theorem substitution_whole_refuted :
  exists C pat repl s, ctype_ok C /\ clear_pattern pat /\ pmatch C false pat s /\
    subst_each C true true false pat repl s = Ok s /\ repl <> s.
Proof.
  exists demo, (str "*"), (str "foo"), []. split; [apply demo_ok|]. split; [reflexivity|]. split; [|split].
  - exists [GStar]. split; [repeat constructor|]. apply (gm_star demo false [] [] []). constructor.
  - vm_compute. reflexivity.
  - discriminate.
Qed.
Print Assumptions substitution_whole_refuted.

Example substitution_ex1 : clear_pattern (str "[a-c]*b") /\
  subst_each demo false false false (str "[a-c]*b") (str "-") (str "xabbaby") = Ok (str "x-y") /\
  subst_each demo false false true (str "[ab]b") (str "-") (str "xabbaby") = Ok (str "x-b-y") /\
  subst_each demo true false false (str "[ab]b") (str "-") (str "xabbaby") = Ok (str "xabbaby") /\
  subst_each demo false true false (str "?y") (str "-") (str "xabbaby") = Ok (str "xabba-") /\
  subst_each demo true true false (str "x*y") (str "-") (str "xabbaby") = Ok (str "-").
Proof. split; [reflexivity|]. split; [|split; [|split; [|split]]]; vm_compute; reflexivity. Qed.

(** C20.  A string that is not a pattern matches only itself. *)
Theorem not_a_pattern C : ctype_ok C -> forall pat,
  exists b, is_matching_pattern pat = Ok b /\
    (b = false -> forall s, exists b', match_pattern C s pat = Ok b' /\ (b' = true <-> s = map fst (marks pat))).
Proof.
  intros HC pat. destruct (is_matching_total pat) as [b Hb]. exists b. split; [auto|]. intros -> s.
  unfold match_pattern, xfnm_compile. cbn [SHORTEST HEADONLY TAILONLY PERIOD CASEFOLD andb negb xorb].
  set (fl := mkFl false true true _ false _ _).
  destruct (try_compile_literal pat fl) as [x|] eqn:El; cbn [rbind].
  - unfold try_compile_literal in El. rewrite (skip_not_pattern _ _ Hb) in El.
    destruct (literal_loop pat) as [[lit ts]|] eqn:Ell; [|discriminate]. injection El as <-.
    destruct (literal_not_pattern _ _ Hb _ _ Ell) as [-> ->]. cbn [andb negb SHORTEST HEADONLY TAILONLY fl].
    unfold xfnm_wmatch. cbn [xflags xval PERIOD andb]. unfold wmatch_literal, matchwcsprefix, unescape. cbn [HEADONLY TAILONLY].
    destruct (starts s (map fst (marks pat))) eqn:Es.
    + apply starts_iff in Es as [t ->]. rewrite skipn_app, skipn_all, Nat.sub_diag. cbn [skipn app].
      destruct t as [|c t]; cbn [andb rbind]; eexists; (split; [reflexivity|]).
      * rewrite app_nil_r. tauto.
      * split; [discriminate|]. intros E. apply (f_equal (@length N)) in E. rewrite app_length in E. cbn in E. lia.
    + cbn [rbind]. eexists. split; [reflexivity|]. split; [discriminate|]. intros ->.
      exfalso. assert (starts (map fst (marks pat)) (map fst (marks pat)) = true); [|congruence].
      apply starts_iff. exists []. now rewrite app_nil_r.
  - rewrite (regex_not_pattern C pat fl Hb).
    destruct (try_regex_ok C HC (quoteall (unescape pat)) fl (clear_quoteall _)) as [(re & -> & _ & Eh & Et & EP)|[No _]].
    + cbn [rbind]. unfold xfnm_wmatch. cbn [xflags xval PERIOD andb HEADONLY TAILONLY fl rbind]. unfold wmatch_headtail.
      pose proof (regexec_wanted C re s) as W. apply (wanted_ext _ _ _ _ _ _ _ EP) in W. rewrite Eh, Et in W.
      apply wanted_headtail in W. cbn [CASEFOLD fl] in W.
      assert (P : pmatch C false (quoteall (unescape pat)) s <-> s = map fst (marks pat)).
      { pose proof (gparses_quoteall C (unescape pat)) as G. rewrite <- (gmatch_chars C). unfold pmatch. split.
        - intros (l & Hl & M). now rewrite (gparses_det _ _ _ Hl _ G) in M.
        - intros M. eauto. }
      eexists. split; [reflexivity|]. rewrite <- P, <- W. destruct (regexec C re s); split; congruence.
    + exfalso. eapply No. apply gparses_quoteall.
Qed.
Print Assumptions not_a_pattern.

Example not_a_pattern_ex : is_matching_pattern (str "a\*[b[.c\]") = Ok false /\
  match_pattern demo (str "a*[b[.c]") (str "a\*[b[.c\]") = Ok true /\
  match_pattern demo (str "axb]") (str "a\*[b[.c\]") = Ok false.
Proof. split; [|split]; vm_compute; reflexivity. Qed.

(** C39.  A file name that begins with a period is matched only if the pattern
    begins with an explicit period. *)
Theorem period_explicit_partial C : ctype_ok C -> (forall c, tolower C c = tolower C dot -> c = dot) ->
  forall pat icase s, clear_pattern pat ->
  (exists l, gparses C (marks pat) l) ->
  exists x b, xfnm_compile C pat (mkFl false true true true icase false false) = Ok (Some x) /\
    xfnm_match C x s = Ok b /\
    (b = true <-> pmatch C icase pat s /\ (dot_first s = true -> leading_dot pat)).
Proof.
  intros HC Hdot pat icase s Hp (l & Hl). set (fl := mkFl false true true true icase false false).
  destruct (compile_ok C HC pat fl Hp) as [(x & -> & _ & Es & Ep & _ & _ & W)|[No _]]; [split; cbn; [discriminate|auto]| |exfalso; eapply No; eauto].
  exists x. cbn in Es. rewrite xfnm_match_wmatch by auto. cbn [fl PERIOD andb] in Ep.
  destruct (PERIOD (xflags x) && dot_first s) eqn:Ed.
  - unfold xfnm_wmatch. fold (dot_first s). rewrite Ed. cbn [rbind]. eexists. split; [reflexivity|]. split; [reflexivity|].
    split; [discriminate|]. apply andb_true_iff in Ed as [Ed1 Ed2]. intros [_ H]. destruct (H Ed2) as (q & m & Em).
    exfalso. rewrite Ep in Ed1. apply negb_true_iff in Ed1. unfold explicit_dot in Ed1.
    destruct pat as [|c pat]; [discriminate|]. cbn [marks] in Em. destruct (c =? bslash)%N; [rewrite orb_true_r in Ed1; discriminate|].
    injection Em as -> _ _. discriminate.
  - destruct (W s Ed) as (r & -> & Hr). cbn [rbind]. eexists. split; [reflexivity|]. split; [reflexivity|].
    unfold finds in Hr. cbn [fl HEADONLY TAILONLY andb CASEFOLD] in Hr.
    assert (K : pmatch C icase pat s -> dot_first s = true -> leading_dot pat).
    { intros (l' & Hl' & M) Hd. rewrite Hd, andb_true_r in Ed. rewrite Ep in Ed. apply negb_false_iff in Ed.
      unfold explicit_dot in Ed. destruct pat as [|c pat]; [discriminate|]. unfold leading_dot. cbn [marks] in *.
      destruct (N.eqb_spec c bslash) as [->|].
      - destruct pat as [|c1 pat].
        + inversion Hl'; subst. inversion M; subst. discriminate.
        + inversion Hl'; subst. inversion M; subst. cbn in Hd. apply N.eqb_eq in Hd. subst.
          match goal with H : char_match _ _ _ _ = true |- _ => unfold char_match in H; destruct icase; apply N.eqb_eq in H end.
          * rewrite (Hdot c1) by auto. eauto.
          * subst. eauto.
      - rewrite orb_false_r in Ed. apply N.eqb_eq in Ed. subst. eauto. }
    split.
    + intros Hb. assert (M : pmatch C icase pat s) by (apply Hr; destruct r; congruence). auto.
    + intros [M _]. apply Hr in M. destruct r; congruence.
Qed.
Print Assumptions period_explicit_partial.

Example period_ex : clear_pattern (str "*[a-z]") /\ (exists l, gparses demo (marks (str "*[a-z]")) l) /\
  (exists x, xfnm_compile demo (str "*[a-z]") (mkFl false true true true true false false) = Ok (Some x) /\
     xfnm_match demo x (str ".foo") = Ok false /\ xfnm_match demo x (str "FOO") = Ok true) /\
  (exists x, xfnm_compile demo (str "\.[a-z]*") (mkFl false true true true true false false) = Ok (Some x) /\
     xfnm_match demo x (str ".foo") = Ok true).
Proof.
  split; [reflexivity|]. split; [|split].
  - eexists. apply gp_star. eapply gp_set; [vm_compute; reflexivity|vm_compute; reflexivity|constructor].
  - eexists. split; [vm_compute; reflexivity|]. split; vm_compute; reflexivity.
  - eexists. split; [vm_compute; reflexivity|]. vm_compute; reflexivity.
Qed.
