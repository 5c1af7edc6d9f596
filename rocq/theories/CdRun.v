(** Proofs about [cd] and [pwd] as commands. *)
From Coq Require Import Ascii String.
From Coq Require Import List NArith Bool Arith Lia.
From Verif Require Import Common CdModel CdSpec CdProofs.
Import ListNotations.
Local Open Scope res_scope.

Section Run.
Context {F : fs}.
Notation st := (st F).

Lemma walks_app (d : D F) a b :
  walks d (a ++ b) = match walks d a with Some d' => walks d' b | None => None end.
Proof. revert d. induction a as [|c a IH]; intros d; cbn; [reflexivity|]. destruct (walk F d c); auto. Qed.

Lemma resolve_abs (c : D F) p : starts_slash p = true -> resolve c p = walks (root F) (comps p).
Proof. destruct p; cbn; [discriminate|]. intros ->. reflexivity. Qed.
Lemma resolve_rel (c : D F) p : starts_slash p = false -> p <> [] -> resolve c p = walks c (comps p).
Proof. destruct p; cbn; [congruence|]. intros -> _. reflexivity. Qed.

Lemma lead_starts l x : l = str "/" \/ l = str "//" -> starts_slash (l ++ x) = true.
Proof. intros [-> | ->]; reflexivity. Qed.

(** Step 7. *)
Lemma absolute_starts o p : starts_slash o = true -> starts_slash (absolute o p) = true.
Proof.
  intros H. unfold absolute. destruct (starts_slash p) eqn:E; auto. destruct o; [discriminate|exact H].
Qed.
Lemma absolute_comps o p : starts_slash o = true ->
  comps (absolute o p) = if starts_slash p then comps p else comps o ++ comps p.
Proof.
  intros H. unfold absolute. destruct (starts_slash p); auto.
  destruct o as [|x o]; [discriminate|]. destruct (last (x :: o) 0 =? slash)%N eqn:LS.
  - assert (XN : x :: o <> []) by discriminate. destruct (last_slash _ XN LS) as (q & ->). cbn [app].
    rewrite <- app_assoc. cbn [app]. rewrite !comps_app_slash. cbn. now rewrite app_nil_r.
  - apply comps_app_slash.
Qed.

(** Going to the relative path is going to the whole path. *)
Lemma chdir_relative (s : st) o l cs : (l = str "/" \/ l = str "//") -> Forall name cs ->
  starts_slash o = true -> resolve (c_cwd s) o = Some (c_cwd s) ->
  exists r, relative o (l ++ join cs) = Ok r /\
    resolve (c_cwd s) r = resolve (root F) (l ++ join cs).
Proof.
  intros L FA SO RO. destruct (relative_ok o l cs L FA) as (r & E & NE & [->|[S C]]).
  - eexists. split; [exact E|]. rewrite !resolve_abs; auto using lead_starts.
  - exists r. split; auto. rewrite resolve_abs in RO by auto.
    rewrite resolve_rel, resolve_abs, comps_lead; auto using lead_starts.
    rewrite <- C, walks_app, RO. reflexivity.
Qed.

(** [canonicalize_path_ex] does not change what a path names. *)
Lemma root_parent_inv p : starts_with_root_parent p = true ->
  exists q, p = str "/.." ++ q /\ skipn 3 p = q /\ ends_here q = true.
Proof.
  destruct p as [|a [|b [|c q]]]; try discriminate. cbn. intros H.
  apply andb_true_iff in H as [H H4]. apply andb_true_iff in H as [H H3].
  apply andb_true_iff in H as [H1 H2]. apply N.eqb_eq in H1, H2, H3. subst. exists q. auto.
Qed.
Lemma drop_parents_walks n p : walk F (root F) (str "..") = Some (root F) ->
  ends_here p = true ->
  walks (root F) (comps (drop_parents n p)) = walks (root F) (comps p)
  /\ ends_here (drop_parents n p) = true.
Proof.
  intros W. revert p. induction n as [|n IH]; intros p EH; [auto|]. cbn [drop_parents].
  destruct (starts_with_root_parent p) eqn:E; [|auto].
  destruct (root_parent_inv _ E) as (q & -> & -> & EQ). destruct (IH q EQ) as [A B]. rewrite A. split; auto.
  change (str "/.." ++ q) with (slash :: (str ".." ++ q)). rewrite comps_slash.
  rewrite (comps_name (str "..") q name_dotdot EQ). cbn [walks]. rewrite W. reflexivity.
Qed.
Lemma ex_resolve (c : D F) p : fs_ok F -> starts_slash p = true ->
  starts_slash (canonicalize_path_ex F p) = true /\
  resolve c (canonicalize_path_ex F p) = resolve c p.
Proof.
  intros OK SP. unfold canonicalize_path_ex. destruct (starts_with_root_parent p) eqn:E; [|auto]. cbn [andb].
  destruct (resolve (root F) [slash; dot; dot]) as [d|] eqn:R; [|auto].
  destruct (same F (root F) d) eqn:S; [|auto].
  apply (ok_same F OK) in S. subst d. cbn in R. fold (str "..") in R.
  change ([46%N; 46%N]) with (str "..") in R.
  destruct (walk F (root F) (str "..")) as [r|] eqn:W; [|discriminate]. injection R as ->.
  assert (EH : ends_here p = true) by (destruct p; [reflexivity|exact SP]).
  destruct (drop_parents_walks (length p) p W EH) as [A B].
  destruct (drop_parents (length p) p) as [|x q].
  - split; [reflexivity|]. cbn in A. rewrite (resolve_abs c p SP), <- A. reflexivity.
  - cbn in B. split; [exact B|]. rewrite (resolve_abs c p SP), <- A. apply resolve_abs. exact B.
Qed.

(** ** The logical mode *)
(** Everything that happens after $PWD has been looked at. *)
Definition go (posix : bool) (newpwd : list N) (printnewdir logical : bool) (s : st) (orig : option (list N)) :
    res (st * N) :=
    if logical && match orig with None => true | _ => false end then UB
    else if match orig with Some p => negb (starts_slash p) | None => false end then UB
    else
      let '(p, found) := search s newpwd in
      let printnewdir := printnewdir || found in
      let finish (s : st) : st :=
        match orig with Some o => set_old o s | None => s end in
      if logical then
        match orig with
        | None => UB
        | Some o =>
          let! canon := canonicalize_path (is_directory s) (absolute o p) in
          match canon with
          | None => Ok (s, Exit_FAILURE)
          | Some q =>
            let! r := relative o q in
            match chdir r s with
            | None => Ok (s, Exit_FAILURE)
            | Some s1 =>
              let q := if posix then q else canonicalize_path_ex F q in
              let s2 := finish s1 in
              Ok (set_pwd q (if printnewdir then print q s2 else s2), Exit_SUCCESS)
            end
          end
        end
      else
        match chdir p s with
        | None => Ok (s, Exit_FAILURE)
        | Some s1 =>
          let s2 := finish s1 in
          match cwdname F (c_cwd s2) with
          | None => Ok (s2, Exit_SUCCESS)
          | Some q => Ok (set_pwd q (if printnewdir then print q s2 else s2), Exit_SUCCESS)
          end
        end.
Lemma change_directory_go posix s newpwd pr logical :
  change_directory posix s newpwd pr logical =
  match c_pwd s with
  | Some p =>
    if starts_slash p then go posix newpwd pr logical s (Some p)
    else
      match cwdname F (c_cwd s) with
      | None => if logical then Ok (s, Exit_FAILURE) else go posix newpwd pr logical s (Some p)
      | Some w => go posix newpwd pr logical (set_pwd w s) (Some w)
      end
  | None =>
    match cwdname F (c_cwd s) with
    | None => if logical then Ok (s, Exit_FAILURE) else go posix newpwd pr logical s None
    | Some w => go posix newpwd pr logical (set_pwd w s) (Some w)
    end
  end.
Proof. reflexivity. Qed.

(** The path a logical cd goes to. *)
Definition target (s : st) (o newpwd : list N) : list N := absolute o (fst (search s newpwd)).

Lemma go_logical (posix : bool) newpwd pr (s : st) o : fs_ok F ->
  starts_slash o = true -> resolve (c_cwd s) o = Some (c_cwd s) ->
  let A := target s o newpwd in
  exists r, collapse (fun cs => is_directory s (lead A ++ join cs)) [] (comps A) r /\
    match r with
    | None => go posix newpwd pr true s (Some o) = Ok (s, Exit_FAILURE)
    | Some cs =>
      let q := lead A ++ join cs in
      let q' := if posix then q else canonicalize_path_ex F q in
      tidy cs /\
      match resolve (root F) q with
      | Some d =>
        if enter F d then
          exists out, go posix newpwd pr true s (Some o) =
            Ok (mkst d (Some q') (Some o) (c_home s) (c_cdpath s) out, Exit_SUCCESS)
        else go posix newpwd pr true s (Some o) = Ok (s, Exit_FAILURE)
      | None => go posix newpwd pr true s (Some o) = Ok (s, Exit_FAILURE)
      end
    end.
Proof.
  intros OK SO RO A. unfold go. cbn [andb]. rewrite SO. cbn [negb].
  unfold target in A. destruct (search s newpwd) as [p found]. cbn [fst] in A.
  destruct (canonicalize_spec (is_directory s) A) as (r & E & C). exists r. split; [exact C|].
  fold A. rewrite E. cbn [rbind]. destruct r as [cs|]; cbn [option_map]; [|reflexivity].
  assert (T : tidy cs) by (eapply collapse_tidy; eauto using tidy_nil, comps_names).
  split; [exact T|]. assert (LA := lead_abs A (absolute_starts o p SO)).
  destruct (chdir_relative s o (lead A) cs LA (tidy_names _ T) SO RO) as (r & Er & Rr).
  rewrite Er. cbn [rbind]. unfold chdir. rewrite Rr.
  destruct (resolve (root F) (lead A ++ join cs)) as [d|]; [|reflexivity].
  destruct (enter F d); [|reflexivity]. destruct (pr || found); eexists; reflexivity.
Qed.

(** $PWD, unless it is absent or not absolute, names the working directory. *)
Definition pwd_ok (s : st) : Prop :=
  match c_pwd s with
  | Some p => starts_slash p = true -> resolve (c_cwd s) p = Some (c_cwd s)
  | None => True
  end.

(** What [cd] starts from: the state with $PWD repaired, and its value. *)
Lemma start_cases posix s newpwd pr logical : fs_ok F -> pwd_ok s ->
  (exists s0 o, change_directory posix s newpwd pr logical = go posix newpwd pr logical s0 (Some o) /\
     c_pwd s0 = Some o /\ starts_slash o = true /\ resolve (c_cwd s0) o = Some (c_cwd s0) /\
     c_cwd s0 = c_cwd s /\ c_old s0 = c_old s /\ c_home s0 = c_home s /\ c_cdpath s0 = c_cdpath s /\
     c_out s0 = c_out s /\
     (s0 = s \/ match c_pwd s with Some p => starts_slash p | None => false end = false)) \/
  (cwdname F (c_cwd s) = None /\ (match c_pwd s with Some p => starts_slash p | None => false end = false) /\
   (logical = true /\ change_directory posix s newpwd pr logical = Ok (s, Exit_FAILURE) \/
    logical = false /\ change_directory posix s newpwd pr logical = go posix newpwd pr logical s (c_pwd s))).
Proof.
  intros OK PW. rewrite change_directory_go. unfold pwd_ok in PW.
  assert (CW : forall w, cwdname F (c_cwd s) = Some w ->
    starts_slash w = true /\ resolve (c_cwd s) w = Some (c_cwd s)).
  { intros w E. destruct (ok_cwdname F OK _ _ E) as [(l & cs & L & -> & _) R]. split; auto. apply lead_starts; auto. }
  destruct (c_pwd s) as [p|] eqn:EP.
  - destruct (starts_slash p) eqn:SP.
    + left. exists s, p. rewrite EP. repeat split; auto.
    + destruct (cwdname F (c_cwd s)) as [w|] eqn:EW.
      * left. destruct (CW w eq_refl). exists (set_pwd w s), w. repeat split; auto.
      * right. repeat split; auto. destruct logical; auto.
  - destruct (cwdname F (c_cwd s)) as [w|] eqn:EW.
    + left. destruct (CW w eq_refl). exists (set_pwd w s), w. repeat split; auto.
    + right. repeat split; auto. destruct logical; auto.
Qed.

Theorem cd_logical_safe posix s newpwd pr : fs_ok F -> pwd_ok s ->
  exists s' st, change_directory posix s newpwd pr true = Ok (s', st) /\
    (st = Exit_SUCCESS -> names s') /\
    (st <> Exit_SUCCESS -> st = Exit_FAILURE /\ c_cwd s' = c_cwd s /\ c_old s' = c_old s /\ c_out s' = c_out s /\
       (names s -> s' = s)).
Proof.
  intros OK PW. destruct (start_cases posix s newpwd pr true OK PW)
    as [(s0 & o & E & PO & SO & RO & H1 & H2 & H3 & H4 & H5 & H6)|(CN & SP & [(_ & E)|(X & _)])]; [| |discriminate].
  - rewrite E. destruct (go_logical posix newpwd pr s0 o OK SO RO) as (r & C & R).
    assert (FAIL : go posix newpwd pr true s0 (Some o) = Ok (s0, Exit_FAILURE) ->
      exists s' st, go posix newpwd pr true s0 (Some o) = Ok (s', st) /\ (st = Exit_SUCCESS -> names s') /\
      (st <> Exit_SUCCESS -> st = Exit_FAILURE /\ c_cwd s' = c_cwd s /\ c_old s' = c_old s /\ c_out s' = c_out s /\
       (names s -> s' = s))).
    { intros G. exists s0, Exit_FAILURE. split; [exact G|]. split; [discriminate|]. intros _. repeat split; auto.
      intros (p & P1 & P2 & P3). destruct H6 as [->|H6]; auto. rewrite P1 in H6. congruence. }
    destruct r as [cs|]; [|auto]. destruct R as [T R].
    destruct (resolve (root F) _) as [d|] eqn:RD; [|auto]. destruct (enter F d); [|auto].
    destruct R as (out & G). eexists _, Exit_SUCCESS. split; [exact G|]. split; [|congruence]. intros _.
    assert (SQ : starts_slash (lead (target s0 o newpwd) ++ join cs) = true)
      by (apply lead_starts, lead_abs, absolute_starts; auto).
    eexists. cbn [c_pwd c_cwd]. split; [reflexivity|]. destruct posix.
    + split; auto. rewrite resolve_abs in RD |- * by auto. exact RD.
    + destruct (ex_resolve d _ OK SQ) as [A B]. split; auto. rewrite B.
      rewrite resolve_abs in RD |- * by auto. exact RD.
  - exists s, Exit_FAILURE. split; [exact E|]. split; [discriminate|]. intros _. repeat split; auto.
Qed.

Theorem cd_physical_safe posix s newpwd pr : fs_ok F -> pwd_ok s ->
  (cwdname F (c_cwd s) <> None \/ c_pwd s = None \/ exists p, c_pwd s = Some p /\ starts_slash p = true) ->
  exists s' st, change_directory posix s newpwd pr false = Ok (s', st) /\
    (st = Exit_SUCCESS -> names s' \/ cwdname F (c_cwd s') = None) /\
    (st <> Exit_SUCCESS -> st = Exit_FAILURE /\ c_cwd s' = c_cwd s /\ c_old s' = c_old s /\ c_out s' = c_out s /\
       (names s -> s' = s)).
Proof.
  intros OK PW H.
  assert (MAIN : forall s0 orig,
    match orig with Some p => starts_slash p = true | None => True end ->
    c_cwd s0 = c_cwd s -> c_old s0 = c_old s -> c_out s0 = c_out s -> (names s -> s0 = s) ->
    exists s' st, go posix newpwd pr false s0 orig = Ok (s', st) /\
      (st = Exit_SUCCESS -> names s' \/ cwdname F (c_cwd s') = None) /\
      (st <> Exit_SUCCESS -> st = Exit_FAILURE /\ c_cwd s' = c_cwd s /\ c_old s' = c_old s /\ c_out s' = c_out s /\
       (names s -> s' = s))).
  { intros s0 orig SO H1 H2 H3 H4. unfold go. cbn [andb].
    replace (match orig with Some p => negb (starts_slash p) | None => false end) with false
      by (destruct orig; [rewrite SO|]; reflexivity).
    destruct (search s0 newpwd) as [p found]. unfold chdir.
    destruct (resolve (c_cwd s0) p) as [d|].
    2:{ exists s0, Exit_FAILURE. split; [reflexivity|]. split; [discriminate|]. auto. }
    destruct (enter F d).
    2:{ exists s0, Exit_FAILURE. split; [reflexivity|]. split; [discriminate|]. auto. }
    set (s2 := match orig with Some o => set_old o (set_cwd d s0) | None => set_cwd d s0 end).
    assert (C2 : c_cwd s2 = d) by (unfold s2; destruct orig; reflexivity). rewrite C2.
    destruct (cwdname F d) as [q|] eqn:CN.
    - eexists _, Exit_SUCCESS. split; [reflexivity|]. split; [|congruence]. intros _. left.
      destruct (ok_cwdname F OK _ _ CN) as [(l & cs & L & -> & _) R]. eexists. split; [reflexivity|].
      split; [apply lead_starts; auto|].
      assert (CC : c_cwd (set_pwd (l ++ join cs) (if pr || found then print (l ++ join cs) s2 else s2)) = d)
        by (destruct (pr || found); exact C2). rewrite CC. exact R.
    - eexists _, Exit_SUCCESS. split; [reflexivity|]. split; [|congruence]. intros _. right. congruence. }
  destruct (start_cases posix s newpwd pr false OK PW)
    as [(s0 & o & E & PO & SO & RO & H1 & H2 & H3 & H4 & H5 & H6)|(CN & SP & [(X & _)|(_ & E)])]; [|discriminate|].
  - rewrite E. apply MAIN; auto. intros (p & P1 & P2 & P3). destruct H6 as [->|H6]; auto. rewrite P1 in H6. congruence.
  - rewrite E. apply MAIN; auto. destruct H as [H|[H|(p & H & H')]]; [congruence|rewrite H; exact I|].
    rewrite H. exact H'.
Qed.

(** ** Normal form of $PWD *)
Lemma drop_parents_normal n k r : k < n -> Forall plain r ->
  drop_parents n (match k with 0 => [] | S _ => [slash] end ++ join (repeat (str "..") k)
                   ++ match k, r with 0, [] => [] | _, [] => [] | _, _ => slash :: join r end) =
  match r with [] => [] | _ => slash :: join r end.
Proof.
  revert n. induction k as [|k IH]; intros n H FA.
  - cbn [repeat join app]. destruct n as [|n]; [lia|]. cbn [drop_parents].
    destruct r as [|c r]; [reflexivity|].
    replace (starts_with_root_parent _) with false; [reflexivity|]. symmetry.
    inversion FA as [|? ? ((N1 & N2) & ND & NDD) FR]; subst.
    destruct (starts_with_root_parent (slash :: join (c :: r))) eqn:E; auto. exfalso.
    destruct (root_parent_inv _ E) as (q & X & _ & EQ). cbn in X. injection X as X.
    assert (C : comps (join (c :: r)) = c :: r)
      by (apply comps_join; eapply Forall_impl; [|exact FA]; intros z Z; apply Z).
    cbn [join] in C. rewrite X in C. change (46%N :: 46%N :: q) with (str ".." ++ q) in C.
    rewrite comps_name in C by auto using name_dotdot. injection C as C _. apply NDD. symmetry. exact C.
  - destruct n as [|n]; [lia|].
    assert (EQ : [slash] ++ join (repeat (str "..") (S k)) ++ match r with [] => [] | _ => slash :: join r end
      = str "/.." ++ (match k with 0 => [] | S _ => [slash] end ++ join (repeat (str "..") k)
                   ++ match k, r with 0, [] => [] | _, [] => [] | _, _ => slash :: join r end)).
    { destruct k as [|k]; [destruct r; reflexivity|]. cbn [repeat join app str]. destruct r; reflexivity. }
    rewrite EQ. cbn [drop_parents].
    set (rest := match k with 0 => [] | S _ => [slash] end ++ _).
    assert (EH : ends_here rest = true) by (unfold rest; destruct k, r; reflexivity).
    replace (starts_with_root_parent (str "/.." ++ rest)) with true by (cbn; rewrite EH; reflexivity).
    change (skipn 3 (str "/.." ++ rest)) with rest. unfold rest. apply IH; auto. lia.
Qed.

Definition odd (p : list N) : Prop := exists q, p = str "//.." ++ q.

Lemma ex_normal l cs : fs_ok F -> walk F (root F) (str "..") = Some (root F) ->
  (l = str "/" \/ l = str "//") -> tidy cs ->
  normal (canonicalize_path_ex F (l ++ join cs)) \/ odd (canonicalize_path_ex F (l ++ join cs)).
Proof.
  intros OK W L (k & r & -> & FA).
  assert (NR : Forall name r) by (eapply Forall_impl; [|exact FA]; intros z Z; apply Z).
  destruct k as [|k].
  - left. cbn [repeat app].
    assert (NP : starts_with_root_parent (l ++ join r) = false).
    { destruct (starts_with_root_parent (l ++ join r)) eqn:E; auto. exfalso.
      destruct (root_parent_inv _ E) as (q & X & _ & EQ).
      assert (C : comps (l ++ join r) = r) by (apply comps_lead; auto). rewrite X in C.
      change (str "/.." ++ q) with (slash :: (str ".." ++ q)) in C. rewrite comps_slash in C.
      rewrite (comps_name (str "..") q name_dotdot EQ) in C. destruct r as [|c r]; [discriminate C|].
      injection C as C _. inversion_clear FA as [|? ? (_ & _ & Y) _]. apply Y. symmetry. exact C. }
    unfold canonicalize_path_ex. rewrite NP. cbn [andb]. exists l, r. auto.
  - destruct L as [-> | ->].
    + left. unfold canonicalize_path_ex.
      assert (J : str "/" ++ join (repeat (str "..") (S k) ++ r) =
        [slash] ++ join (repeat (str "..") (S k)) ++ match r with [] => [] | _ => slash :: join r end).
      { cbn [str app]. f_equal. clear. induction k as [|k IH].
        - destruct r; reflexivity.
        - change (repeat (str "..") (S (S k))) with (str ".." :: repeat (str "..") (S k)). cbn [app].
          cbn [repeat app] in *. cbn [join]. cbn [join] in IH. rewrite IH. reflexivity. }
      assert (SP : starts_with_root_parent (str "/" ++ join (repeat (str "..") (S k) ++ r)) = true).
      { rewrite J. destruct k as [|k]; [destruct r; reflexivity|]. reflexivity. }
      assert (RES : resolve (root F) [slash; dot; dot] = Some (root F)).
      { transitivity (walks (root F) [str ".."]); [reflexivity|]. cbn [walks]. rewrite W. reflexivity. }
      rewrite SP, RES, (ok_refl F OK). cbn [andb]. rewrite J.
      match goal with |- normal (match drop_parents ?n ?x with _ => _ end) =>
        assert (DP : drop_parents n x = match r with [] => [] | _ => slash :: join r end) end.
      { apply (drop_parents_normal _ (S k) r); auto.
        rewrite !app_length. cbn [length]. clear. induction k as [|k IH]; cbn; [lia|].
        cbn in IH. lia. }
      rewrite DP. destruct r as [|c r].
      * exists (str "/"), []. repeat split; auto.
      * exists (str "/"), (c :: r). repeat split; auto.
    + right. unfold odd. unfold canonicalize_path_ex.
      assert (NS : starts_with_root_parent (str "//" ++ join (repeat (str "..") (S k) ++ r)) = false).
      { cbn [repeat app]. destruct (repeat (str "..") k ++ r); reflexivity. }
      rewrite NS. cbn [andb repeat app]. destruct (repeat (str "..") k ++ r) as [|x y].
      * exists []. reflexivity.
      * exists (slash :: join (x :: y)). reflexivity.
Qed.

Theorem cd_logical_normal s newpwd pr s' : fs_ok F -> pwd_ok s ->
  walk F (root F) (str "..") = Some (root F) ->
  change_directory false s newpwd pr true = Ok (s', Exit_SUCCESS) ->
  exists q, c_pwd s' = Some q /\ (normal q \/ odd q).
Proof.
  intros OK PW W E. destruct (start_cases false s newpwd pr true OK PW)
    as [(s0 & o & E0 & PO & SO & RO & H1 & H2 & H3 & H4 & H5 & H6)|(CN & SP & [(_ & E0)|(X & _)])];
    [| |discriminate]; rewrite E in E0; [|discriminate E0].
  destruct (go_logical false newpwd pr s0 o OK SO RO) as (r & C & R). rewrite <- E0 in R.
  destruct r as [cs|]; [|discriminate R]. destruct R as [T R].
  destruct (resolve (root F) _) as [d|]; [|discriminate R]. destruct (enter F d); [|discriminate R].
  destruct R as (out & G). injection G as ->. eexists. split; [reflexivity|].
  apply ex_normal; auto. apply lead_abs, absolute_starts; auto.
Qed.

(** ** cd - *)
Lemma plain_normal p : normal p -> exists l cs, (l = str "/" \/ l = str "//") /\ p = l ++ join cs /\ Forall plain cs.
Proof. intros (l & cs & A & B & C). exists l, cs. auto. Qed.
Lemma search_abs (s : st) p : starts_slash p = true -> search s p = (p, false).
Proof. intros H. unfold search. rewrite H. reflexivity. Qed.

Theorem cd_back posix s p x s1 pr : fs_ok F ->
  c_pwd s = Some p -> normal p -> resolve (c_cwd s) p = Some (c_cwd s) -> enter F (c_cwd s) = true ->
  change_directory posix s x pr true = Ok (s1, Exit_SUCCESS) ->
  exists s2, cd_builtin posix true (Some (str "-")) s1 = Ok (s2, Exit_SUCCESS) /\
    c_cwd s2 = c_cwd s /\ c_pwd s2 = c_pwd s /\ c_old s2 = c_pwd s1.
Proof.
  intros OK EP NP RP EN E. destruct (plain_normal p NP) as (l & cs & L & EQ & FA).
  assert (SP : starts_slash p = true) by (subst p; apply lead_starts; auto).
  assert (NA : Forall name cs) by (eapply Forall_impl; [|exact FA]; intros z Z; apply Z).
  assert (PW : pwd_ok s) by (unfold pwd_ok; rewrite EP; auto).
  destruct (cd_logical_safe posix s x pr OK PW) as (s1' & st & E' & NM & _). rewrite E in E'.
  injection E' as <- <-. destruct (NM eq_refl) as (o & P1 & P2 & P3).
  assert (OLD : c_old s1 = Some p).
  { rewrite change_directory_go, EP, SP in E. destruct (go_logical posix x pr s p OK SP RP) as (r & _ & R).
    rewrite E in R. destruct r as [cs'|]; [|discriminate R]. destruct R as [_ R].
    destruct (resolve (root F) _) as [d|]; [|discriminate R]. destruct (enter F d); [|discriminate R].
    destruct R as (out & G). injection G as ->. reflexivity. }
  unfold cd_builtin. cbn [list_N_eqb str]. rewrite N.eqb_refl. cbn [andb]. rewrite OLD.
  destruct p as [|p0 p']; [discriminate SP|]. set (pp := p0 :: p') in *.
  rewrite change_directory_go, P1, P2.
  destruct (go_logical posix pp true s1 o OK P2 P3) as (r & C & R).
  assert (TG : target s1 o pp = pp) by (unfold target; rewrite search_abs by auto; unfold absolute; cbn [fst]; rewrite SP; reflexivity).
  rewrite TG in *. assert (LD : lead pp = l) by (rewrite EQ; apply lead_join; auto).
  assert (CP : comps pp = cs) by (rewrite EQ; apply comps_lead; auto).
  rewrite LD, CP in *. assert (r = Some cs).
  { eapply collapse_det; [exact C|]. apply (collapse_plain _ [] cs FA). }
  subst r. rewrite <- EQ in R. destruct R as [_ R].
  rewrite (resolve_abs _ pp SP), <- (resolve_abs (c_cwd s) pp SP), RP, EN in R. destruct R as (out & G).
  eexists. split; [exact G|]. cbn. repeat split; auto. rewrite EP. destruct posix; auto. f_equal.
  unfold canonicalize_path_ex. destruct (starts_with_root_parent pp) eqn:SR; auto. exfalso.
  destruct (root_parent_inv _ SR) as (q & X & _ & EQ'). rewrite X in CP.
  change (str "/.." ++ q) with (slash :: (str ".." ++ q)) in CP. rewrite comps_slash in CP.
  rewrite (comps_name (str "..") q name_dotdot EQ') in CP. subst cs. inversion_clear FA as [|? ? (_ & _ & Y) _].
  apply Y. reflexivity.
Qed.

(** ** Without symbolic links *)
Definition nodot (cs : list (list N)) : Prop := Forall (fun c => c <> str ".") cs.
Lemma collapse_walks isdir st cs r y : fs_ok F -> tree F -> collapse isdir st cs r -> nodot st ->
  Forall name st -> Forall name cs ->
  (forall st x, Forall name st -> walks (root F) st = Some x -> isdir st = true) ->
  walks (root F) (st ++ cs) = Some y ->
  exists st', r = Some st' /\ walks (root F) st' = Some y.
Proof.
  intros OK TR C. induction C; intros ND N1 N2 ID WK.
  - rewrite app_nil_r in WK. eauto.
  - inversion N2; subst. apply IHC; auto. rewrite walks_app in WK |- *. destruct (walks (root F) st) as [x|]; [|discriminate].
    cbn [walks] in WK. destruct (walk F x (str ".")) as [x'|] eqn:E; [|discriminate].
    apply (ok_dot F OK) in E. subst. exact WK.
  - inversion N2; subst. apply Forall_app in N1 as [N1 _].
    apply Forall_app in ND as [ND1 ND2]. inversion_clear ND2 as [|? ? NC _]. apply IHC; auto.
    rewrite !walks_app in WK. rewrite walks_app. destruct (walks (root F) st) as [x|]; [|discriminate].
    cbn [walks] in WK. destruct (walk F x c) as [x1|] eqn:E1; [|discriminate].
    destruct (walk F x1 (str "..")) as [x2|] eqn:E2; [|discriminate].
    assert (x2 = x) by (eapply (TR x c); eauto). subst. exact WK.
  - exfalso. rewrite walks_app in WK. destruct (walks (root F) (st ++ [c])) as [x|] eqn:E; [|discriminate].
    apply ID in E; auto. congruence.
  - inversion N2; subst. apply IHC; auto.
    + apply Forall_app. split; auto. constructor; auto. discriminate.
    + apply Forall_app. split; auto.
    + rewrite <- app_assoc. exact WK.
  - inversion N2; subst. apply IHC; auto.
    + apply Forall_app. split; auto.
    + apply Forall_app. split; auto.
    + rewrite <- app_assoc. exact WK.
Qed.

Theorem cd_no_links posix s newpwd pr d : fs_ok F -> tree F -> names s ->
  resolve (c_cwd s) (match newpwd with [] => [dot] | _ => fst (search s newpwd) end) = Some d ->
  enter F d = true ->
  exists s', change_directory posix s newpwd pr true = Ok (s', Exit_SUCCESS) /\ c_cwd s' = d.
Proof.
  intros OK TR (o & P1 & P2 & P3) RD EN. rewrite change_directory_go, P1, P2.
  destruct (go_logical posix newpwd pr s o OK P2 P3) as (r & C & R).
  set (A := target s o newpwd) in *. assert (SA : starts_slash A = true) by (apply absolute_starts; auto).
  assert (WA : walks (root F) (comps A) = Some d).
  { unfold A, target. rewrite absolute_comps by auto. rewrite resolve_abs in P3 by auto.
    destruct newpwd as [|n0 nw].
    - cbn. rewrite app_nil_r, P3. cbn in RD. destruct (walk F (c_cwd s) [46%N]) as [d'|] eqn:WD; [|discriminate].
      injection RD as ->. apply (ok_dot F OK) in WD. congruence.
    - destruct (search s (n0 :: nw)) as [p found]. cbn [fst] in *.
      destruct (starts_slash p) eqn:S.
      + rewrite resolve_abs in RD by auto. exact RD.
      + rewrite resolve_rel in RD; auto; [|intros ->; discriminate RD].
        rewrite walks_app, P3. exact RD. }
  destruct (collapse_walks _ _ _ _ d OK TR C) as (st' & -> & WS); auto.
  - constructor.
  - apply comps_names.
  - intros st x NX WX. unfold is_directory. rewrite resolve_abs by (apply lead_starts, lead_abs; auto).
    rewrite comps_lead by auto using lead_abs. rewrite WX. reflexivity.
  - destruct R as [T R]. rewrite resolve_abs in R by (apply lead_starts, lead_abs; auto).
    rewrite comps_lead in R by auto using lead_abs, tidy_names.
    rewrite WS, EN in R. destruct R as (out & G). eexists. split; [exact G|]. reflexivity.
Qed.

(** ** pwd *)
Lemma after_component p a b : component p = (a, b) ->
  after_slash p = match b with [] => None | _ :: b' => Some b' end.
Proof.
  revert a b. induction p as [|c p IH]; intros a b; cbn.
  - intros E. injection E as <- <-. reflexivity.
  - destruct (c =? slash)%N.
    + intros E. injection E as <- <-. reflexivity.
    + destruct (component p) as [a' b']. intros E. injection E as <- <-. eauto.
Qed.
Lemma dots_component p a b : component p = (a, b) ->
  starts_dots p = is_dot a || is_dotdot a.
Proof.
  intros E. destruct (component_app _ _ _ E) as (-> & EH & NS).
  assert (Q : forall x, In x a -> (x =? slash)%N = false).
  { intros x HX. destruct (x =? slash)%N eqn:EX; auto. apply slash_dec in EX. subst. contradiction. }
  destruct a as [|x [|y [|z a]]].
  - cbn. destruct b as [|c b]; auto. cbn in EH. apply slash_dec in EH. subst. reflexivity.
  - cbn. rewrite EH. cbn. destruct (x =? 46)%N; reflexivity.
  - cbn. rewrite (Q y) by (right; now left). rewrite EH. cbn. destruct (x =? 46)%N, (y =? 46)%N; reflexivity.
  - cbn. rewrite (Q y) by (right; now left). rewrite (Q z) by (right; right; now left). cbn.
    destruct (x =? 46)%N, (y =? 46)%N; reflexivity.
Qed.
Lemma is_normalized_spec n p : length p < n ->
  exists b, is_normalized n p = Ok b /\
    (b = true <-> Forall (fun c => c <> str "." /\ c <> str "..") (comps p)).
Proof.
  revert p. induction n as [|n IH]; intros p H; [lia|]. cbn [is_normalized].
  destruct p as [|x p']; [exists true; split; [reflexivity|split; auto; constructor]|].
  set (p := x :: p') in *. destruct (component p) as [a b] eqn:C.
  rewrite (dots_component _ _ _ C), (after_component _ _ _ C).
  destruct (component_app _ _ _ C) as (E & EH & NS).
  assert (CC : comps p = match a with [] => [] | _ => [a] end ++ comps b).
  { rewrite E. destruct a as [|y a]; [reflexivity|]. apply comps_name; auto. split; auto. discriminate. }
  rewrite CC. destruct (is_dot a || is_dotdot a) eqn:DD.
  - exists false. split; [reflexivity|]. split; [discriminate|]. intros FA. exfalso.
    apply orb_true_iff in DD as [D|D]; apply list_N_eqb_eq in D; subst a;
      inversion_clear FA as [|? ? [H1 H2] _]; [apply H1|apply H2]; reflexivity.
  - assert (NA : Forall (fun c => c <> str "." /\ c <> str "..") (match a with [] => [] | _ => [a] end)).
    { destruct a as [|y a]; constructor; auto. apply orb_false_iff in DD as [D1 D2].
      apply list_N_eqb_neq in D1, D2. auto. }
    destruct b as [|y b].
    + exists true. split; [reflexivity|]. split; auto. intros _. apply Forall_app. split; auto. constructor.
    + cbn in EH. apply slash_dec in EH. subst y. destruct (IH b) as (r & Er & Hr).
      { rewrite E, app_length in H. cbn in H. lia. }
      exists r. split; [exact Er|]. rewrite Hr, comps_slash, Forall_app. tauto.
Qed.

Theorem pwd_prints logical s : fs_ok F -> walk F (c_cwd s) (str ".") = Some (c_cwd s) ->
  exists s' st, pwd_builtin logical s = Ok (s', st) /\
    (st = Exit_SUCCESS -> exists p, s' = print p s /\ starts_slash p = true /\
       resolve (c_cwd s) p = Some (c_cwd s) /\ Forall (fun c => c <> str "." /\ c <> str "..") (comps p)) /\
    (st <> Exit_SUCCESS -> s' = s /\ cwdname F (c_cwd s) = None).
Proof.
  intros OK WD.
  assert (PH : exists s' st, (match cwdname F (c_cwd s) with
      | None => Ok (s, Exit_FAILURE) | Some p => Ok (print p s, Exit_SUCCESS) end) = Ok (s', st) /\
    (st = Exit_SUCCESS -> exists p, s' = print p s /\ starts_slash p = true /\
       resolve (c_cwd s) p = Some (c_cwd s) /\ Forall (fun c => c <> str "." /\ c <> str "..") (comps p)) /\
    (st <> Exit_SUCCESS -> s' = s /\ cwdname F (c_cwd s) = None)).
  { destruct (cwdname F (c_cwd s)) as [p|] eqn:CN.
    - eexists _, _. split; [reflexivity|]. split; [|congruence]. intros _. exists p.
      destruct (ok_cwdname F OK _ _ CN) as [(l & cs & L & -> & FA) R].
      split; [reflexivity|]. split; [apply lead_starts; auto|]. split; [exact R|].
      rewrite comps_lead; auto; (eapply Forall_impl; [|exact FA]; intros z Z; apply Z).
    - eexists _, _. split; [reflexivity|]. split; [discriminate|auto]. }
  unfold pwd_builtin. destruct logical; [|exact PH]. destruct (c_pwd s) as [p|]; [|exact PH].
  destruct (starts_slash p) eqn:SP; [|exact PH].
  destruct (is_normalized_spec (S (length p)) p (Nat.lt_succ_diag_r _)) as (b & E & HB).
  unfold is_normalized_path. rewrite E. cbn [rbind]. destruct b; [|exact PH]. cbn [andb].
  assert (RD : resolve (c_cwd s) [dot] = Some (c_cwd s)).
  { transitivity (walks (c_cwd s) [str "."]); [reflexivity|]. cbn [walks]. rewrite WD. reflexivity. }
  rewrite RD. destruct (resolve (c_cwd s) p) as [d|] eqn:R; [|exact PH].
  destruct (same F d (c_cwd s)) eqn:S; [|exact PH]. apply (ok_same F OK) in S. subst d.
  eexists _, _. split; [reflexivity|]. split; [|congruence]. intros _. exists p.
  repeat split; auto. apply HB. reflexivity.
Qed.
End Run.
