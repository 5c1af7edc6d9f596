(** Properties C76-C79: pathname expansion. *)
From Coq Require Import Ascii String.
From Coq Require Import List NArith Bool Arith Lia Permutation.
From Verif Require Import Common GlobModel GlobSpec GlobProofs GlobSound GlobComplete GlobUnique GlobText.
From Verif Require Regex XfnmatchSpec XfnmatchProps.
Import ListNotations.
Local Open Scope res_scope.

(** The components and the results are those of [wglob]. *)
Lemma parse_proper M rd : forall n p, length p < n -> exists cs, parse_pattern n M rd p = Ok cs /\ (cs = [] \/ proper cs).
Proof.
  induction n as [|n IH]; intros p L; [lia|]. cbn [parse_pattern]. assert (U := upto_ok p). destruct (upto_slash p) as [a [q|]].
  - destruct U as (_ & _ & LQ). destruct (parse_component M rd a true) as [c|]; [|eauto].
    destruct (IH q ltac:(lia)) as (cs & -> & P). cbn [rbind]. destruct cs as [|d cs]; [eauto|]. eexists. split; [reflexivity|].
    right. destruct P as [P|P]; [discriminate|]. destruct c; exact P.
  - destruct (parse_component M rd a false) as [c|] eqn:E; [|eauto]. eexists. split; [reflexivity|]. right.
    unfold parse_component in E. cbn [andb] in E. destruct (matching_pattern M a); [|injection E as <-; exact I].
    destruct (compile M a); [|discriminate]. injection E as <-. exact I.
Qed.

Lemma wglob_cases V order sort M fl p : exists cs, parse_pattern (S (length p)) M (wglb_recdir fl) p = Ok cs /\
  ((cs = [] /\ wglob V order sort M fl p = Ok None) \/
   (proper cs /\ wglob V order sort M fl p =
      let! r := wglob_components V order cs (wglb_mark fl) (256 * S (length cs)) in Ok (Some (sort r)))).
Proof.
  destruct (parse_proper M (wglb_recdir fl) (S (length p)) p) as (cs & E & P); [lia|]. exists cs. split; [exact E|].
  unfold wglob. rewrite E. cbn [rbind]. destruct cs as [|c cs]; [left; auto|]. right. destruct P as [P|P]; [discriminate|].
  split; [exact P|reflexivity].
Qed.

Lemma components_end V order cs mark : proper cs -> (forall l, Permutation (order l) l) ->
  exists rs, wglob_components V order cs mark (256 * S (length cs)) = Ok rs.
Proof.
  intros P ORDER. destruct (wglob_sound V order cs mark P false) with (good := fun _ : list N => True) (2 := ORDER) as (rs & X & _); auto.
  - discriminate.
  - intros. apply Forall_forall. auto.
  - eauto.
Qed.

(** C79.  Expansion ends, without undefined behaviour, whatever the files and
    the functions that match names: it does not run into cycles of symbolic
    links for ever, and uses the information about a directory only if it has
    been obtained. *)
Theorem glob_ends V order sort M fl p : (forall l, Permutation (order l) l) ->
  exists r, wglob V order sort M fl p = Ok r.
Proof.
  intros ORDER. destruct (wglob_cases V order sort M fl p) as (cs & _ & [(_ & E)|(P & E)]); [eauto|].
  destruct (components_end V order cs (wglb_mark fl) P ORDER) as (rs & X). rewrite X in E. cbn [rbind] in E. eauto.
Qed.
Print Assumptions glob_ends.

(** C76.  What is found matches the pattern and is a file; nothing is found only
    if the pattern is invalid.  A recursive piece does not pass the same
    directory twice, if the pieces agree on following symbolic links. *)
Definition agree (fl : wflags) (ps : list (list N)) : Prop :=
  forall p p' a a' b b', In p ps -> In p' ps -> recursive p a b -> recursive p' a' b' -> a = a'.

Lemma means_uses C fl ps cs : means C fl ps cs -> forall a, uses cs a -> exists p b, In p ps /\ recursive p a b.
Proof.
  induction 1 as [|p ps cs x y RD NE RE ME IH|p ps cs l NR I ME IH|p ps cs f NR I ME IH]; intros a (ap & U); [destruct U|..];
    destruct U as [U|U]; try discriminate U; try (destruct (IH a) as (q & b & Q1 & Q2); [exists ap; exact U|]; exists q, b; split; [now right|exact Q2]).
  injection U as -> ->. exists p, ap. split; [now left|exact RE].
Qed.

Theorem glob_sound C : Regex.ctype_ok C -> (forall c, Regex.tolower C c = Regex.tolower C Regex.dot -> c = Regex.dot) ->
  forall V order sort fl p ps, (forall l, Permutation (order l) l) -> (forall l, Permutation (sort l) l) ->
  pieces p ps -> Forall XfnmatchSpec.clear_pattern ps -> well_listed V ->
  (wglob V order sort (shell_matcher C fl) fl p = Ok None /\ ~ valid C ps) \/
  exists cs rs, wglob V order sort (shell_matcher C fl) fl p = Ok (Some rs) /\ means C fl ps cs /\
    forall strict, (strict = true -> agree fl ps) -> forall r, In r rs ->
      exists ns, Forall (fun n => ~ In slash n) ns /\ matches V strict cs [] 0 ns /\ r = shown V cs (wglb_mark fl) ns /\ is_file V ns.
Proof.
  intros HC DOT V order sort fl p ps ORDER SORT PS CL WL.
  destruct (parse_ok C fl HC DOT (S (length p)) p) as (ps' & PS' & H); [lia|].
  rewrite (pieces_det _ _ _ PS' PS) in *. destruct (H CL) as (cs & E & H1 & H2).
  destruct (wglob_cases V order sort (shell_matcher C fl) fl p) as (cs' & E' & D). rewrite E in E'. injection E' as <-.
  destruct D as [(-> & W)|(P & W)].
  - left. split; [exact W|]. intros X. exact (H2 X eq_refl).
  - right. assert (NE : cs <> []) by (destruct cs; [destruct P|discriminate]). destruct (H1 NE) as (ME & _ & NS).
    destruct (components_end V order cs (wglb_mark fl) P ORDER) as (rs & X). rewrite X in W. cbn [rbind] in W.
    exists cs, (sort rs). split; [exact W|]. split; [exact ME|]. intros strict ST r R.
    destruct (wglob_sound V order cs (wglb_mark fl) P strict) with (2 := ORDER) (good := fun n : list N => ~ In slash n) as (rs' & X' & F); auto.
    { intros S f g Uf Ug. destruct (means_uses _ _ _ _ ME _ Uf) as (q & b & Q1 & Q2), (means_uses _ _ _ _ ME _ Ug) as (q' & b' & Q1' & Q2').
      exact (ST S _ _ _ _ _ _ Q1 Q1' Q2 Q2'). }
    { intros d names OD. eapply Forall_impl; [|exact (proj2 (WL _ _ OD))]. intros n [_ X1]. exact X1. }
    rewrite X in X'. injection X' as <-. rewrite Forall_forall in F.
    destruct (F r) as (ns & _ & M & SH & IF & GO); [eapply Permutation_in; [apply SORT|exact R]|]. exists ns. auto.
Qed.
Print Assumptions glob_sound.

(** C77.  What exists and matches is found, if a search can come upon it:
    directories in which names have to be matched must be readable, no directory
    is passed twice, and there are fewer than 255 names. *)
Theorem glob_complete_partial C : Regex.ctype_ok C -> (forall c, Regex.tolower C c = Regex.tolower C Regex.dot -> c = Regex.dot) ->
  forall V order sort fl p ps, (forall l, Permutation (order l) l) -> (forall l, Permutation (sort l) l) ->
  pieces p ps -> Forall XfnmatchSpec.clear_pattern ps -> valid C ps -> consistent V ->
  exists cs rs, wglob V order sort (shell_matcher C fl) fl p = Ok (Some rs) /\ means C fl ps cs /\
    forall ns, reachable V cs [] ns -> stat V (names_text ns) <> None -> no_cycle V ns -> length ns < 255 ->
      In (shown V cs (wglb_mark fl) ns) rs.
Proof.
  intros HC DOT V order sort fl p ps ORDER SORT PS CL VA CO.
  destruct (parse_ok C fl HC DOT (S (length p)) p) as (ps' & PS' & H); [lia|].
  rewrite (pieces_det _ _ _ PS' PS) in *. destruct (H CL) as (cs & E & H1 & H2).
  destruct (wglob_cases V order sort (shell_matcher C fl) fl p) as (cs' & E' & D). rewrite E in E'. injection E' as <-.
  destruct (H1 (H2 VA)) as (ME & P & NS). destruct D as [(-> & _)|(_ & W)]; [destruct P|].
  destruct (components_end V order cs (wglb_mark fl) P ORDER) as (rs & X). rewrite X in W. cbn [rbind] in W.
  exists cs, (sort rs). split; [exact W|]. split; [exact ME|]. intros ns R ST NC LT.
  eapply Permutation_in; [symmetry; apply SORT|].
  eapply (wglob_complete V order cs (wglb_mark fl)); eauto.
Qed.
Print Assumptions glob_complete_partial.

(** C78.  Nothing is found twice, although several pieces can match the same
    directories. *)
Theorem glob_unique C : Regex.ctype_ok C -> (forall c, Regex.tolower C c = Regex.tolower C Regex.dot -> c = Regex.dot) ->
  forall V order sort fl p ps, (forall l, Permutation (order l) l) -> (forall l, Permutation (sort l) l) ->
  pieces p ps -> Forall XfnmatchSpec.clear_pattern ps -> well_listed V ->
  forall rs, wglob V order sort (shell_matcher C fl) fl p = Ok (Some rs) -> NoDup rs.
Proof.
  intros HC DOT V order sort fl p ps ORDER SORT PS CL WL rs W.
  destruct (parse_ok C fl HC DOT (S (length p)) p) as (ps' & PS' & H); [lia|].
  rewrite (pieces_det _ _ _ PS' PS) in *. destruct (H CL) as (cs & E & H1 & H2).
  destruct (wglob_cases V order sort (shell_matcher C fl) fl p) as (cs' & E' & D). rewrite E in E'. injection E' as <-.
  destruct D as [(_ & X)|(P & X)]; [congruence|]. rewrite X in W. apply bind_ok in W as (r & X' & W). injection W as <-.
  assert (NE : cs <> []) by (destruct cs; [destruct P|discriminate]). destruct (H1 NE) as (_ & _ & NS).
  eapply Permutation_NoDup; [symmetry; apply SORT|]. eapply (wglob_unique V order cs (wglb_mark fl) P ORDER WL NS); exact X'.
Qed.
Print Assumptions glob_unique.

(** ** Examples *)
(** A directory with a file x, a directory a with x and a directory c with x, a
    hidden directory .h with x, a link l to the directory itself and a dangling
    link n. *)
Definition table (t : list (string * (N * bool))) (p : list N) : option (N * bool) :=
  match find (fun '(s, _) => list_N_eqb (str s) p) t with Some (_, r) => Some r | None => None end.
Fixpoint unlink (p : list N) : list N :=
  match p with
  | 108%N :: 47%N :: p' => unlink p'
  | _ => p
  end.
Definition tree : files := {|
  opendir p :=
    let p := unlink p in
    if list_N_eqb p (str ".") || list_N_eqb p [] then Some (map str ["."; ".."; "x"; "a"; ".h"; "l"; "n"]%string)
    else if list_N_eqb p (str "a/") then Some (map str ["."; ".."; "x"; "c"]%string)
    else if list_N_eqb p (str "a/c/") then Some (map str ["."; ".."; "x"]%string)
    else if list_N_eqb p (str ".h/") then Some (map str ["."; ".."; "x"]%string)
    else None;
  stat p := table [("x", (1, false)); ("a", (2, true)); (".h", (3, true)); ("l", (4, true)); ("a/x", (5, false)); ("a/c", (6, true));
                   ("a/c/x", (7, false)); (".h/x", (8, false)); ("a/", (2, true)); (".", (4, true)); ("..", (11, true))]%N%string (unlink p);
  lstat p := table [("x", (1, false)); ("a", (2, true)); (".h", (3, true)); ("l", (9, false)); ("n", (10, false)); ("a/x", (5, false));
                    ("a/c", (6, true)); ("a/c/x", (7, false)); (".h/x", (8, false)); ("a/", (2, true))]%N%string (unlink p)
|}.
Definition plain := {| wglb_mark := false; wglb_casefold := false; wglb_period := false; wglb_recdir := true |}.
Definition run (fl : wflags) (p : string) : res (option (list (list N))) :=
  wglob tree (fun l => l) (fun l => l) (shell_matcher XfnmatchProps.demo fl) fl (str p).
Definition strs (l : list string) : res (option (list (list N))) := Ok (Some (map str l)).
Example tree_star : run plain "*" = strs (["x"; "a"; "l"; "n"]%string). Proof. vm_compute. reflexivity. Qed.
Example tree_mark : run {| wglb_mark := true; wglb_casefold := true; wglb_period := true; wglb_recdir := false |} "[AL.]*" =
  strs (["./"; "../"; "a/"; ".h/"; "l/"]%string).
Proof. vm_compute. reflexivity. Qed.
Example tree_rec : run plain "**/x" = strs (["x"; "a/x"; "a/c/x"]%string). Proof. vm_compute. reflexivity. Qed.
Example tree_recdot : run plain ".**/x" = strs (["x"; "a/x"; "a/c/x"; ".h/x"]%string). Proof. vm_compute. reflexivity. Qed.
Example tree_follow : run plain "***/x" = strs (["x"; "a/x"; "a/c/x"; "l/x"; "l/a/x"; "l/a/c/x"]%string). Proof. vm_compute. reflexivity. Qed.
Example tree_two : run plain "**/**/c*/x" = strs (["a/c/x"]%string). Proof. vm_compute. reflexivity. Qed.
Example tree_literal : run plain "a/x" = strs (["a/x"]%string) /\ run plain "n" = strs ([]%string) /\ run plain "\n*" = strs (["n"]%string).
Proof. repeat split; vm_compute; reflexivity. Qed.
Example tree_invalid : run plain "[[:nothing:]]" = Ok None. Proof. vm_compute. reflexivity. Qed.
Example tree_listed : well_listed tree.
Proof.
  intros d names OD. cbn [tree opendir] in OD.
  repeat match type of OD with (if ?b then _ else _) = _ => destruct b end; try discriminate; injection OD as <-;
    (split; [repeat constructor; cbn; intuition discriminate|repeat constructor; try discriminate; cbn; intuition discriminate]).
Qed.
Example tree_hyps : pieces (str "**/**/c*/x") [str "**"; str "**"; str "c*"; str "x"] /\
  Forall XfnmatchSpec.clear_pattern [str "**"; str "**"; str "c*"; str "x"] /\ agree plain [str "**"; str "**"; str "c*"; str "x"].
Proof.
  split; [|split].
  - split; [discriminate|]. split; [reflexivity|]. repeat constructor; cbn; intuition discriminate.
  - repeat constructor.
  - intros p p' a a' b b' I I' R R'. unfold recursive in *.
    destruct I as [<-|[<-|[<-|[<-|[]]]]], I' as [<-|[<-|[<-|[<-|[]]]]], a, a', b, b'; try reflexivity; discriminate.
Qed.
Lemma demo_dot c : Regex.tolower XfnmatchProps.demo c = Regex.tolower XfnmatchProps.demo Regex.dot -> c = Regex.dot.
Proof.
  cbn. unfold XfnmatchProps.is_upper, Regex.dot. destruct (_ && _) eqn:E; [|auto]. apply andb_true_iff in E as [E1 E2].
  apply N.leb_le in E1, E2. lia.
Qed.

(** A directory d that contains a directory d and so on. *)
Fixpoint alternate (p : list N) : bool :=
  match p with
  | [] => true
  | [100%N] => true
  | 100%N :: 47%N :: p' => alternate p'
  | _ => false
  end.
Definition deep : files := {|
  opendir _ := Some [str "d"];
  stat p := if alternate p then Some (N.of_nat (length p), true) else None;
  lstat p := if alternate p then Some (N.of_nat (length p), true) else None
|}.
Lemma alternate_after : forall n a b, length a <= n -> alternate (a ++ slash :: b) = true -> alternate b = true.
Proof.
  induction n as [|n IH]; intros a b L H.
  - destruct a; [discriminate H|cbn in L; lia].
  - destruct a as [|x a]; [discriminate H|]. cbn [length] in L.
    destruct (N.eq_dec x 100) as [->|NE].
    2:{ exfalso. cbn in H. destruct x as [|x]; [discriminate|]. do 7 (destruct x as [x|x|]; try discriminate H). congruence. }
    destruct a as [|y a]; [exact H|].
    destruct (N.eq_dec y 47) as [->|NE].
    + change (alternate (a ++ slash :: b) = true) in H. apply (IH a b); [cbn in L; lia|exact H].
    + exfalso. cbn in H. destruct y as [|y]; [discriminate|]. do 6 (destruct y as [y|y|]; try discriminate H). congruence.
Qed.
Lemma deep_consistent : consistent deep.
Proof.
  intros dirs n r names NE NS ST RR OD. cbn in OD. injection OD as <-. left.
  assert (A : alternate (n ++ r) = true).
  { assert (A : alternate (dir_path dirs ++ n ++ r) = true) by (cbn [stat deep] in ST; destruct (alternate _); [reflexivity|congruence]).
    destruct dirs as [|d dirs]; [exact A|]. cbn [dir_path] in A. rewrite <- !app_assoc in A. rewrite app_assoc in A.
    eapply alternate_after; [|exact A]. reflexivity. }
  destruct n as [|x n]; [congruence|]. destruct (N.eq_dec x 100) as [->|NX].
  2:{ exfalso. cbn in A. destruct x as [|x]; [discriminate|]. do 7 (destruct x as [x|x|]; try discriminate A). congruence. }
  destruct n as [|y n]; [reflexivity|]. exfalso. destruct (N.eq_dec y 47) as [->|NY].
  - apply NS. right. left. reflexivity.
  - cbn in A. destruct y as [|y]; [discriminate|]. do 6 (destruct y as [y|y|]; try discriminate A). congruence.
Qed.
Lemma alternate_many : forall k, alternate (names_text (repeat (str "d") k)) = true /\
  length (names_text (repeat (str "d") k)) = 2 * k - 1.
Proof.
  induction k as [|k [A L]]; [split; reflexivity|]. destruct k as [|k]; [split; reflexivity|].
  assert (E : names_text (repeat (str "d") (S (S k))) = 100%N :: 47%N :: names_text (repeat (str "d") (S k))) by reflexivity.
  rewrite E. split; [exact A|]. cbn [length]. rewrite L. lia.
Qed.
Lemma rev_repeat {A} (x : A) k : rev (repeat x k) = repeat x k.
Proof.
  induction k as [|k IH]; [reflexivity|]. cbn [repeat rev]. rewrite IH. clear. induction k as [|k IH]; [reflexivity|]. cbn. now rewrite IH.
Qed.
Lemma deep_file f k : last_file deep f (repeat (str "d") (S k)) = Some (N.of_nat (2 * S k - 1)).
Proof.
  cbn [repeat last_file]. unfold file, info. cbn [deep stat lstat].
  rewrite path_text. change (str "d" :: repeat (str "d") k) with (repeat (str "d") (S k)). rewrite rev_repeat.
  destruct (alternate_many (S k)) as [-> ->]. destruct f; reflexivity.
Qed.
Lemma firstn_repeat {A} (x : A) : forall k i, i <= k -> firstn i (repeat x k) = repeat x i.
Proof. induction k as [|k IH]; intros [|i] L; try reflexivity; [lia|]. cbn. now rewrite IH by lia. Qed.
Lemma deep_no_cycle k : no_cycle deep (repeat (str "d") k).
Proof.
  intros i j f g a L1 L2. rewrite repeat_length in L2. rewrite !firstn_repeat, !rev_repeat by lia.
  destruct i as [|i]; [discriminate|]. destruct j as [|j]; [lia|]. rewrite !deep_file. intros X Y.
  rewrite <- Y in X. injection X as X. lia.
Qed.
Lemma deep_listed : well_listed deep.
Proof.
  intros d names OD. injection OD as <-. split; repeat constructor; try discriminate; cbn; intuition discriminate.
Qed.
Definition under : list comp := [Rec false false; Lit (str "d")].
Lemma deep_reachable : forall k m, reachable deep under (repeat (str "d") m) (repeat (str "d") (S k)).
Proof.
  induction k as [|k IH]; intros m.
  - apply r_none. constructor.
  - cbn [repeat]. unfold under. eapply r_dir; [discriminate|reflexivity| | |].
    + unfold info. cbn [deep lstat]. rewrite path_text. change (str "d" :: repeat (str "d") m) with (repeat (str "d") (S m)).
      rewrite rev_repeat. destruct (alternate_many (S m)) as [-> _]. reflexivity.
    + exists [str "d"]. split; [reflexivity|now left].
    + apply (IH (S m)).
Qed.
Lemma deep_stat k : stat deep (names_text (repeat (str "d") k)) <> None.
Proof. cbn [deep stat]. destruct (alternate_many k) as [-> _]. discriminate. Qed.

(** The hypotheses of C77 are met. *)
Example complete_hyps : pieces (str "**/d") [str "**"; str "d"] /\ Forall XfnmatchSpec.clear_pattern [str "**"; str "d"] /\
  valid XfnmatchProps.demo [str "**"; str "d"] /\ consistent deep /\
  exists ns, length ns = 100 /\ reachable deep under [] ns /\ stat deep (names_text ns) <> None /\ no_cycle deep ns.
Proof.
  split; [|split; [|split; [|split]]].
  - split; [discriminate|]. split; [reflexivity|]. repeat constructor; cbn; intuition discriminate.
  - repeat constructor.
  - constructor; [|constructor; [|constructor]].
    + exists [XfnmatchSpec.GStar; XfnmatchSpec.GStar]. repeat constructor.
    + exists [XfnmatchSpec.GChar 100%N]. constructor; [right; repeat split; discriminate|constructor].
  - exact deep_consistent.
  - exists (repeat (str "d") 100). split; [reflexivity|]. split; [apply (deep_reachable 99 0)|]. split; [apply deep_stat|apply deep_no_cycle].
Qed.

(** A recursive piece does not go deeper than 255 directories. *)
Theorem glob_complete_refuted :
  exists V p ps ns rs, pieces p ps /\ Forall XfnmatchSpec.clear_pattern ps /\ consistent V /\
    wglob V (fun l => l) (fun l => l) (shell_matcher XfnmatchProps.demo plain) plain p = Ok (Some rs) /\
    means XfnmatchProps.demo plain ps under /\
    reachable V under [] ns /\ stat V (names_text ns) <> None /\ no_cycle V ns /\ ~ In (shown V under false ns) rs.
Proof.
  exists deep, (str "**/d"), [str "**"; str "d"], (repeat (str "d") 300).
  set (w := wglob deep (fun l => l) (fun l => l) (shell_matcher XfnmatchProps.demo plain) plain (str "**/d")).
  assert (X : match w with Ok (Some rs) => forallb (fun r => Nat.ltb (length r) 599) rs | _ => false end = true)
    by (vm_compute; reflexivity).
  destruct w as [[rs|]| |] eqn:W; try discriminate X. exists rs. destruct complete_hyps as (H1 & H2 & _ & H4 & _).
  split; [exact H1|]. split; [exact H2|]. split; [exact H4|]. split; [reflexivity|]. split.
  { destruct (glob_sound XfnmatchProps.demo XfnmatchProps.demo_ok demo_dot deep (fun l => l) (fun l => l) plain (str "**/d") _
      (fun l => Permutation_refl l) (fun l => Permutation_refl l) H1 H2 deep_listed) as [(E & _)|(cs & rs' & _ & ME & _)];
      [fold w in E; congruence|].
    apply mn_rec with (follow := false) (dots := false); [reflexivity|discriminate|reflexivity|].
    apply mn_lit; [congruence| |constructor]. intros s. split.
    - intros (l & G & M). assert (E : l = [XfnmatchSpec.GChar 100%N]).
      { cbn in G. inversion G; subst. match goal with H : XfnmatchSpec.gparses _ [] _ |- _ => inversion H; subst end. reflexivity. }
      subst l. inversion M; subst. match goal with H : XfnmatchSpec.gmatch _ _ [] _ |- _ => inversion H; subst end.
      match goal with H : _ = true |- _ => apply N.eqb_eq in H; subst end. reflexivity.
    - intros ->. exists [XfnmatchSpec.GChar 100%N]. split; [constructor; [right; repeat split; discriminate|constructor]|].
      constructor; [reflexivity|constructor]. }
  split; [apply (deep_reachable 299 0)|]. split; [apply deep_stat|]. split; [apply deep_no_cycle|].
  intros I. rewrite forallb_forall in X. specialize (X _ I). apply Nat.ltb_lt in X. unfold shown in X. cbn [last under andb] in X.
  destruct (alternate_many 300) as [_ L]. rewrite L in X. lia.
Qed.
Print Assumptions glob_complete_refuted.

(** If pieces that follow links and pieces that do not are mixed, the same
    directory is passed many times. *)
Fixpoint links (p : list N) : list N :=
  match p with
  | 108%N :: 47%N :: p' => links p'
  | _ => p
  end.
Definition looped : files := {|
  opendir _ := Some (map str ["l"; "x"]%string);
  stat p := if list_N_eqb (links p) (str "l") then Some (1%N, true) else if list_N_eqb (links p) (str "x") then Some (3%N, false) else None;
  lstat p := if list_N_eqb (links p) (str "l") then Some (2%N, false) else if list_N_eqb (links p) (str "x") then Some (3%N, false) else None
|}.
Theorem glob_sound_mixed_refuted :
  exists V p ps cs rs r, pieces p ps /\ parse_pattern (S (length p)) (shell_matcher XfnmatchProps.demo plain) true p = Ok cs /\
    wglob V (fun l => l) (fun l => l) (shell_matcher XfnmatchProps.demo plain) plain p = Ok (Some rs) /\ In r rs /\
    well_listed V /\ forall ns, Forall (fun n => ~ In slash n) ns -> matches V true cs [] 0 ns -> r <> shown V cs false ns.
Proof.
  exists looped, (str "***/**/x"), [str "***"; str "**"; str "x"], [Rec true false; Rec false false; Lit (str "x")].
  set (w := wglob looped (fun l => l) (fun l => l) (shell_matcher XfnmatchProps.demo plain) plain (str "***/**/x")).
  assert (X : match w with Ok (Some rs) => existsb (list_N_eqb (str "l/l/x")) rs | _ => false end = true)
    by (vm_compute; reflexivity).
  destruct w as [[rs|]| |] eqn:W; try discriminate X. exists rs, (str "l/l/x").
  split. { split; [discriminate|]. split; [reflexivity|]. repeat constructor; cbn; intuition discriminate. }
  split; [vm_compute; reflexivity|]. split; [reflexivity|].
  split. { apply existsb_exists in X as (r & R & E). apply list_N_eqb_eq in E. subst. exact R. }
  clear X W w rs.
  assert (LIT : forall dirs run ns, matches looped true [Lit (str "x")] dirs run ns -> ns = [str "x"]).
  { intros dirs run ns M. inversion M; subst; [reflexivity|congruence]. }
  assert (NOL : forall n dirs ino, info looped false (dir_path dirs ++ n) <> Some (ino, true)).
  { intros n dirs ino. unfold info. cbn [looped lstat]. destruct (list_N_eqb _ _); [discriminate|]. destruct (list_N_eqb _ _); discriminate. }
  assert (NOR : forall dirs run ns, matches looped true [Rec false false; Lit (str "x")] dirs run ns -> ns = [str "x"]).
  { intros dirs run ns M. inversion M; subst; [eapply LIT; eauto|]. exfalso. eapply NOL; eauto. }
  assert (ONE : forall n dirs ino, info looped true (dir_path dirs ++ n) = Some (ino, true) -> ino = 1%N).
  { intros n dirs ino. unfold info. cbn [looped stat]. destruct (list_N_eqb _ _); [congruence|]. destruct (list_N_eqb _ _); congruence. }
  split.
  { intros d names OD. injection OD as <-. split; repeat constructor; try discriminate; cbn; intuition discriminate. }
  intros ns NS M E. unfold shown in E. cbn [last] in E.
  inversion M as [| | | | ? ? ? ? ? ? M1 |? ? ? n ino ? ? ns1 NE HI IF NR M1]; subst.
  - rewrite (NOR _ _ _ M1) in E. discriminate.
  - inversion M1 as [| | | | ? ? ? ? ? ? M2 |? ? ? n' ino' ? ? ns2 NE' HI' IF' NR' M2]; subst.
    + rewrite (NOR _ _ _ M2) in E. cbn in E. destruct n as [|a [|b [|c [|d [|e [|g n]]]]]]; try discriminate E; injection E; intros; subst; try discriminate.
      inversion_clear NS as [|? ? NS1 _]. apply NS1. right. left. reflexivity.
    + apply ONE in IF'. assert (IF0 := IF). apply ONE in IF0. subst. apply (NR' eq_refl 0); [lia|].
      cbn [skipn last_file]. unfold file. rewrite IF. reflexivity.
Qed.
Print Assumptions glob_sound_mixed_refuted.
