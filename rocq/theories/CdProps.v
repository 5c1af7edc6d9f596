(** Properties of cd and pwd (C70 to C73). *)
From Coq Require Import Ascii String.
From Coq Require Import List NArith Bool Arith Lia.
From Verif Require Import Common CdModel CdSpec CdProofs CdRun.
Import ListNotations.
Local Open Scope res_scope.

(** A file system for the examples: / (0), /usr (1), /usr/lib (2), /home (3),
    /home/me (4), and the symbolic link /l to /usr/lib. *)
Definition tw_walk (d : nat) (n : list N) : option nat :=
  if list_N_eqb n (str ".") then Some d
  else if list_N_eqb n (str "..") then Some (match d with 2 => 1 | 4 => 3 | _ => 0 end)
  else
    match d with
    | 0 => if list_N_eqb n (str "usr") then Some 1 else if list_N_eqb n (str "home") then Some 3
           else if list_N_eqb n (str "l") then Some 2 else None
    | 1 => if list_N_eqb n (str "lib") then Some 2 else None
    | 3 => if list_N_eqb n (str "me") then Some 4 else None
    | _ => None
    end.
Definition tw_name (d : nat) : option (list N) :=
  match d with
  | 0 => Some (str "/") | 1 => Some (str "/usr") | 2 => Some (str "/usr/lib")
  | 3 => Some (str "/home") | 4 => Some (str "/home/me") | _ => None
  end.
Definition tw : fs :=
  {| D := nat; same := Nat.eqb; root := 0; walk := tw_walk; enter := fun _ => true; cwdname := tw_name |}.
Lemma tw_ok : fs_ok tw.
Proof.
  constructor.
  - intros d d' H. apply Nat.eqb_eq. exact H.
  - intros d. apply Nat.eqb_refl.
  - intros d p H. cbn in H.
    assert (P : forall l, Forall (fun c => name c /\ c <> str "." /\ c <> str "..") l -> normal (str "/" ++ join l))
      by (intros l H'; exists (str "/"), l; auto).
    assert (NM : forall c, c = str "usr" \/ c = str "lib" \/ c = str "home" \/ c = str "me" ->
      name c /\ c <> str "." /\ c <> str "..").
    { intros c [-> | [-> | [-> | ->]]]; split; (split; [discriminate|]); try discriminate;
        intros X; cbn in X; repeat destruct X as [X|X]; try discriminate X; exact X. }
    do 5 (try destruct d as [|d]); try discriminate H; injection H as <-; (split; [|reflexivity]).
    + apply (P []). constructor.
    + apply (P [str "usr"]). repeat constructor; apply NM; auto.
    + apply (P [str "usr"; str "lib"]). repeat constructor; apply NM; auto.
    + apply (P [str "home"]). repeat constructor; apply NM; auto.
    + apply (P [str "home"; str "me"]). repeat constructor; apply NM; auto.
  - intros d d' H. cbn in H. congruence.
Qed.
Definition at_ (d : nat) (p : string) : st tw :=
  mkst (F := tw) d (Some (str p)) None (Some (str "/home/me")) (Some [str ""; str "/usr"]) [].
Definition after (r : res (st tw * N)) : option (nat * option (list N) * list (list N) * N) :=
  match r with Ok (s, n) => Some (c_cwd s, c_pwd s, c_out s, n) | _ => None end.

(** ** C70: $PWD names the working directory *)

(** Executing cd commands one after another, successful or not. *)
Record cmd := { posix : bool; logical : bool; operand : option (list N) }.
Fixpoint cds {F} (l : list cmd) (s : st F) : res (st F) :=
  match l with
  | [] => Ok s
  | c :: l' => let! (s1, _) := cd_builtin (posix c) (logical c) (operand c) s in cds l' s1
  end.
Theorem C70_pwd_names_directory {F} l (s : st F) : fs_ok F -> names s ->
  (Forall (fun c => logical c = true) l \/ forall d, cwdname F d <> None) ->
  exists s', cds l s = Ok s' /\ names s'.
Proof.
  intros OK. revert s. induction l as [|c l IH]; intros s NM H; [exists s; auto|]. cbn [cds].
  assert (PW : pwd_ok s) by (destruct NM as (p & P1 & P2 & P3); unfold pwd_ok; rewrite P1; auto).
  assert (H' : Forall (fun c => logical c = true) l \/ forall d, cwdname F d <> None)
    by (destruct H as [H|H]; [left; inversion H|]; auto).
  assert (KEEP : exists s', (let! (s1, _) := Ok (s, Exit_FAILURE) in cds l s1) = Ok s' /\ names s') by (cbn; auto).
  assert (STEP : forall n pr, exists s',
    (let! (s1, _) := change_directory (posix c) s n pr (logical c) in cds l s1) = Ok s' /\ names s').
  { intros n pr. destruct (logical c) eqn:LG.
    - destruct (cd_logical_safe (posix c) s n pr OK PW) as (s1 & st & -> & A & B). cbn [rbind].
      destruct (N.eq_dec st Exit_SUCCESS) as [->|NE]; [auto|]. destruct (B NE) as (_ & _ & _ & _ & X).
      rewrite (X NM). auto.
    - destruct H as [H|H]; [inversion H; congruence|].
      destruct (cd_physical_safe (posix c) s n pr OK PW) as (s1 & st & -> & A & B); [now left|]. cbn [rbind].
      destruct (N.eq_dec st Exit_SUCCESS) as [->|NE].
      + destruct (A eq_refl) as [X|X]; [auto|]. destruct (H _ X).
      + destruct (B NE) as (_ & _ & _ & _ & X). rewrite (X NM). auto. }
  unfold cd_builtin. destruct (operand c) as [o|].
  - destruct (list_N_eqb o (str "-")); auto. destruct (c_old s) as [[|x h]|]; auto.
  - destruct (c_home s) as [[|x h]|]; auto.
Qed.
Print Assumptions C70_pwd_names_directory.

(** A cd that fails changes nothing. *)
Theorem C70_failure_changes_nothing {F} posix n pr (s s' : st F) st : fs_ok F -> names s ->
  change_directory posix s n pr true = Ok (s', st) -> st <> 0%N -> s' = s.
Proof.
  intros OK NM E NE.
  assert (PW : pwd_ok s) by (destruct NM as (p & P1 & P2 & P3); unfold pwd_ok; rewrite P1; auto).
  destruct (cd_logical_safe posix s n pr OK PW) as (s1 & st1 & E1 & A & B). rewrite E in E1. injection E1 as <- <-.
  apply (B NE). exact NM.
Qed.
Print Assumptions C70_failure_changes_nothing.

(** Even when $PWD has been unset, or set to something that is not absolute, it
    is right after a cd. *)
Theorem C70_pwd_repaired {F} posix n pr (s s' : st F) : fs_ok F ->
  (c_pwd s = None \/ exists p, c_pwd s = Some p /\ starts_slash p = false) ->
  change_directory posix s n pr true = Ok (s', 0%N) -> names s'.
Proof.
  intros OK H E.
  assert (PW : pwd_ok s) by (unfold pwd_ok; destruct H as [-> | (p & -> & X)]; [exact I|congruence]).
  destruct (cd_logical_safe posix s n pr OK PW) as (s1 & st1 & E1 & A & B). rewrite E in E1. injection E1 as <- <-.
  auto.
Qed.
Print Assumptions C70_pwd_repaired.

(** False for [cd -P] in a directory without a name when $PWD is not absolute:
    the assertion that it is absolute fails. *)
Theorem C70_cd_P_refuted : exists (F : fs) (s : st F) n, fs_ok F /\ change_directory false s n false false = UB.
Proof.
  exists tw, (at_ 7 "x"), (str "/"). split; [exact tw_ok|]. vm_compute. reflexivity.
Qed.
Print Assumptions C70_cd_P_refuted.

Example C70_names : names (at_ 2 "/l").
Proof. exists (str "/l"). vm_compute. auto. Qed.
(** [cd lib] (found in $CDPATH), [cd ../home//me/.], [cd -]. *)
Example C70_case :
  match cds [Build_cmd false true (Some (str "lib")); Build_cmd false true (Some (str "../../home//me/."));
             Build_cmd false true (Some (str "nowhere")); Build_cmd false true (Some (str "-"))] (at_ 0 "/") with
  | Ok s => (c_cwd s, c_pwd s, c_old s, c_out s) =
            (2, Some (str "/usr/lib"), Some (str "/home/me"), [str "/usr/lib"; str "/usr/lib"])
  | _ => False
  end.
Proof. vm_compute. reflexivity. Qed.

(** ** C71: cd interprets paths component by component *)

(** A logical cd from a state where $PWD is right goes to the path that
    results from $PWD and the operand by dropping "." components and removing
    ".." components with what precedes them, provided that is a directory; no
    buffer overflows and no assertion fails. *)
Theorem C71_canonical isdir p :
  exists r, canonicalize_path isdir p = Ok (option_map (fun cs => lead p ++ join cs) r) /\
    (forall r', collapse (fun cs => isdir (lead p ++ join cs)) [] (comps p) r' <-> r' = r).
Proof.
  destruct (canonicalize_spec isdir p) as (r & E & C). exists r. split; [exact E|]. intros r'. split.
  - intros C'. exact (collapse_det _ _ _ _ C' _ C).
  - intros ->. exact C.
Qed.
Print Assumptions C71_canonical.

(** A logical cd goes to that path. *)
Theorem C71_cd_goes_there {F} (posix : bool) n pr (s : st F) o : fs_ok F ->
  c_pwd s = Some o -> starts_slash o = true -> resolve (c_cwd s) o = Some (c_cwd s) ->
  let A := absolute o (fst (search s n)) in
  exists r, collapse (fun cs => is_directory s (lead A ++ join cs)) [] (comps A) r /\
    match r with
    | None => change_directory posix s n pr true = Ok (s, 1%N)
    | Some cs =>
      match resolve (root F) (lead A ++ join cs) with
      | None => change_directory posix s n pr true = Ok (s, 1%N)
      | Some d =>
        if enter F d then
          exists s', change_directory posix s n pr true = Ok (s', 0%N) /\ c_cwd s' = d /\ c_old s' = Some o /\
            exists q, c_pwd s' = Some q /\ resolve (root F) q = Some d /\
              (posix = true -> q = lead A ++ join cs)
        else change_directory posix s n pr true = Ok (s, 1%N)
      end
    end.
Proof.
  intros OK E SO RO A. rewrite change_directory_go, E, SO.
  destruct (go_logical posix n pr s o OK SO RO) as (r & C & H). exists r. split; [exact C|].
  destruct r as [cs|]; [|exact H]. destruct H as [T H]. change (target s o n) with A in H.
  destruct (resolve (root F) (lead A ++ join cs)) as [d|] eqn:R; [|exact H].
  destruct (enter F d); [|exact H]. destruct H as (out & H). eexists. split; [exact H|]. cbn [c_cwd c_old c_pwd].
  split; [reflexivity|]. split; [reflexivity|]. eexists. split; [reflexivity|]. destruct posix.
  - auto.
  - split; [|discriminate].
    assert (SA : starts_slash (lead A ++ join cs) = true)
      by (apply lead_starts, lead_abs, absolute_starts; exact SO).
    destruct (ex_resolve (root F) (lead A ++ join cs) OK SA) as [_ X]. congruence.
Qed.
Print Assumptions C71_cd_goes_there.

(** The operand is looked for in the directories of $CDPATH, in order, unless
    it is absolute or its first component is "." or "..". *)
Definition in_dir (dir n : list N) : list N :=
  match dir with [] => n | _ => if (last dir 0 =? slash)%N then dir ++ n else dir ++ str "/" ++ n end.
Theorem C71_cdpath {F} n (s : st F) p b : search s n = (p, b) -> n <> [] ->
  let dirs := match c_cdpath s with Some l => l | None => [[]] end in
  let direct := starts_slash n || match comps n with c :: _ => is_dot c || is_dotdot c | [] => false end in
  (b = true <-> p <> n) /\
  ((exists pre dir post, direct = false /\ dirs = pre ++ dir :: post /\ p = in_dir dir n /\
     is_directory s p = true /\ Forall (fun d => is_directory s (in_dir d n) = false) pre) \/
   p = n /\ (direct = true \/ Forall (fun d => is_directory s (in_dir d n) = false) dirs)).
Proof.
  intros E NE dirs direct. unfold search in E. unfold direct.
  destruct (starts_slash n) eqn:SS.
  { injection E as <- <-. split; [split; congruence|]. right. auto. }
  assert (D : starts_dots n = match comps n with c :: _ => is_dot c || is_dotdot c | [] => false end).
  { destruct (component n) as [a c] eqn:C. rewrite (dots_component _ _ _ C).
    destruct (component_app _ _ _ C) as (-> & EH & NS).
    destruct a as [|x a]; [destruct c as [|y c]; [destruct NE; reflexivity|cbn in SS, EH; congruence]|].
    rewrite comps_name; [reflexivity|split; [discriminate|exact NS]|exact EH]. }
  rewrite D in E. destruct (match comps n with c :: _ => is_dot c || is_dotdot c | [] => false end) eqn:DD.
  { injection E as <- <-. split; [split; congruence|]. right. auto. }
  fold dirs in E. cbn [orb].
  assert (W : match which_dirs n dirs (is_directory s) with
    | Some q => exists pre dir post, dirs = pre ++ dir :: post /\ q = in_dir dir n /\ is_directory s q = true /\
        Forall (fun d => is_directory s (in_dir d n) = false) pre
    | None => Forall (fun d => is_directory s (in_dir d n) = false) dirs
    end).
  { clear. induction dirs as [|d l IH]; cbn [which_dirs]; [constructor|].
    assert (X : match d with [] => n | _ => d ++ (if (last d 0 =? slash)%N then [] else [slash]) ++ n end = in_dir d n).
    { unfold in_dir. destruct d as [|x d]; [reflexivity|]. destruct (last (x :: d) 0 =? slash)%N; reflexivity. }
    rewrite X. destruct (is_directory s (in_dir d n)) eqn:I.
    - exists [], d, l. auto.
    - destruct (which_dirs n l (is_directory s)) as [q|]; [|constructor; auto].
      destruct IH as (pre & dir & post & -> & H1 & H2 & H3). exists (d :: pre), dir, post. auto. }
  unfold which in E. destruct n as [|x n]; [congruence|]. cbn in SS. rewrite SS in E.
  destruct (which_dirs (x :: n) dirs (is_directory s)) as [q|].
  - apply (f_equal (fun z => (fst z, snd z))) in E. cbn [fst snd] in E. injection E as E1 E2. subst q b. split.
    + change (negb (list_N_eqb (x :: n) p) = true <-> p <> x :: n). rewrite negb_true_iff, list_N_eqb_neq. split; congruence.
    + left. destruct W as (pre & dir & post & H1 & H2 & H3 & H4). exists pre, dir, post. auto.
  - injection E as <- <-. split; [split; congruence|]. right. auto.
Qed.
Print Assumptions C71_cdpath.

(** The new $PWD has no empty, "." or ".." components, unless it begins with
    "//..". *)
Theorem C71_pwd_normal_partial {F} n pr (s s' : st F) : fs_ok F -> names s ->
  walk F (root F) (str "..") = Some (root F) ->
  change_directory false s n pr true = Ok (s', 0%N) ->
  exists q, c_pwd s' = Some q /\ (normal q \/ exists r, q = str "//.." ++ r).
Proof.
  intros OK NM W E.
  assert (PW : pwd_ok s) by (destruct NM as (p & P1 & P2 & P3); unfold pwd_ok; rewrite P1; auto).
  exact (cd_logical_normal s n pr s' OK PW W E).
Qed.
Print Assumptions C71_pwd_normal_partial.
(** After [cd //..] it does. *)
Theorem C71_pwd_normal_refuted : exists s s' : st tw, names s /\
  change_directory false s (str "//..") false true = Ok (s', 0%N) /\ c_pwd s' = Some (str "//..") /\
  ~ normal (str "//..").
Proof.
  exists (at_ 1 "/usr"). eexists. split; [exists (str "/usr"); vm_compute; auto|].
  split; [vm_compute; reflexivity|]. split; [vm_compute; reflexivity|].
  intros (l & cs & L & E & FA).
  assert (C : comps (str "//..") = cs).
  { rewrite E. apply comps_lead; auto. eapply Forall_impl; [|exact FA]. intros z Z. apply Z. }
  cbn in C. subst cs. inversion_clear FA as [|? ? (_ & _ & X) _]. apply X. reflexivity.
Qed.
Print Assumptions C71_pwd_normal_refuted.

(** Without symbolic links cd goes where the system would go. *)
Theorem C71_without_links {F} posix n pr (s : st F) d : fs_ok F -> tree F -> names s -> n <> [] ->
  resolve (c_cwd s) (fst (search s n)) = Some d -> enter F d = true ->
  exists s', change_directory posix s n pr true = Ok (s', 0%N) /\ c_cwd s' = d.
Proof.
  intros OK TR NM NE R E. eapply cd_no_links; eauto. destruct n; [congruence|]. exact R.
Qed.
Print Assumptions C71_without_links.

Example C71_cdpath_case : search (at_ 0 "/") (str "lib") = (str "/usr/lib", true) /\
  search (at_ 0 "/") (str "home") = (str "home", false) /\ search (at_ 0 "/") (str "./lib") = (str "./lib", false).
Proof. vm_compute. auto. Qed.
Example C71_case :
  after (change_directory (F := tw) false (at_ 2 "/l") (str "../home/./me/..//") false true) =
    Some (3, Some (str "/home"), [], 0%N) /\
  after (change_directory (F := tw) false (at_ 2 "/l") (str "../home/./me/..//") false false) =
    Some (2, Some (str "/l"), [], 1%N) /\
  after (change_directory (F := tw) false (at_ 2 "/l") (str "/usr/x/..") false true) =
    Some (2, Some (str "/l"), [], 1%N) /\
  after (change_directory (F := tw) false (at_ 2 "/l") (str "/../..") false true) = Some (0, Some (str "/"), [], 0%N).
Proof. vm_compute. auto. Qed.
(** A file system without links, with infinitely many directories: the
    directory is the list of its names. *)
Definition deep : fs :=
  {| D := list (list N); same := fun a b => if list_eq_dec (list_eq_dec N.eq_dec) a b then true else false;
     root := [];
     walk := fun d n => Some (if list_N_eqb n (str ".") then d else if list_N_eqb n (str "..") then tl d else n :: d);
     enter := fun _ => true; cwdname := fun _ => None |}.
Example C71_deep_ok : fs_ok deep /\ tree deep.
Proof.
  split.
  - constructor.
    + intros d d'. cbn. destruct (list_eq_dec _ d d'); congruence.
    + intros d. cbn. destruct (list_eq_dec _ d d); congruence.
    + intros d p H. discriminate H.
    + intros d d' H. cbn in H. congruence.
  - intros d c d' d'' H1 H2. cbn. apply list_N_eqb_neq in H1, H2. cbn in H1, H2. rewrite H1, H2.
    intros E. injection E as <-. cbn. congruence.
Qed.

(** ** C72: cd - goes back *)
Theorem C72_cd_back {F} posix p x pr (s s1 : st F) : fs_ok F ->
  c_pwd s = Some p -> normal p -> resolve (c_cwd s) p = Some (c_cwd s) -> enter F (c_cwd s) = true ->
  change_directory posix s x pr true = Ok (s1, 0%N) ->
  exists s2, cd_builtin posix true (Some (str "-")) s1 = Ok (s2, 0%N) /\
    c_cwd s2 = c_cwd s /\ c_pwd s2 = c_pwd s /\ c_old s2 = c_pwd s1.
Proof. intros OK. apply cd_back. exact OK. Qed.
Print Assumptions C72_cd_back.
Example C72_case : normal (str "/l").
Proof.
  exists (str "/"), [str "l"]. split; [auto|]. split; [reflexivity|]. repeat constructor; try discriminate.
  cbn. intros [X|[]]. discriminate X.
Qed.

(** ** C73: pwd *)

(** Whatever the value of $PWD, pwd prints an absolute path of the working
    directory without "." and "..". *)
Theorem C73_pwd {F} logical (s : st F) : fs_ok F -> walk F (c_cwd s) (str ".") = Some (c_cwd s) ->
  exists s' st, pwd_builtin logical s = Ok (s', st) /\
    (st = 0%N -> exists p, s' = print p s /\ starts_slash p = true /\
       resolve (c_cwd s) p = Some (c_cwd s) /\ Forall (fun c => c <> str "." /\ c <> str "..") (comps p)) /\
    (st <> 0%N -> s' = s /\ cwdname F (c_cwd s) = None).
Proof. intros OK. apply pwd_prints. exact OK. Qed.
Print Assumptions C73_pwd.
Example C73_case :
  after (pwd_builtin (F := tw) true (at_ 2 "/l")) = Some (2, Some (str "/l"), [str "/l"], 0%N) /\
  after (pwd_builtin (F := tw) true (at_ 2 "/usr/../l")) = Some (2, Some (str "/usr/../l"), [str "/usr/lib"], 0%N) /\
  after (pwd_builtin (F := tw) true (at_ 2 "/home")) = Some (2, Some (str "/home"), [str "/usr/lib"], 0%N).
Proof. vm_compute. auto. Qed.
