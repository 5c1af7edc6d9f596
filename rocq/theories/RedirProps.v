(** Properties of redirections: C28, C29, C47, C48. *)
From Coq Require Import Ascii String.
From Coq Require Import List NArith ZArith Bool Lia.
From Coq Require Import ZifyBool.
From Verif Require Import Common Locale NumModel RedirModel RedirSpec RedirProofs RedirUndo.
Import ListNotations.
Open Scope res_scope.
Open Scope Z_scope.

Section Props.
Variable L : locale.
(** [OM]: the limit on descriptors; [MIN]: the lowest descriptor the shell uses itself *)
Variable OM MIN : Z.
Variable posix clobber sockets : bool.
Variable PB : Z.
Hypothesis HOM : OM <= FD_SETSIZE.
Hypothesis HMIN : 0 <= MIN.
Notation num := (fd_number L).
Notation open := (open_redirections L OM MIN posix clobber sockets PB).
Definition below_limit (l : list redir) : Prop := Forall (fun r => rd_fd r < OM) l.

Lemma open_ok l s : consistent OM MIN s -> pipes_low MIN l -> exists ok d s1, open l s = Ok ((ok, d), s1) /\ all_did L OM MIN l ok d s s1.
Proof.
  intros Hc Hp. destruct (open_all_ok L OM MIN posix clobber sockets PB HOM HMIN l [] s Hc Hp) as (ok & d & s1 & E & D). rewrite app_nil_r in E. exists ok, d, s1. split; [exact E|exact D].
Qed.

(** C28.  Redirections, performed as far as possible and undone, leave everything as it was:
    every descriptor refers to the same open file as before, and the shell has the same
    descriptors for itself. *)
Theorem undo_restores l s ok d s1 : consistent OM MIN s -> pipes_low MIN l -> below_limit l -> open l s = Ok ((ok, d), s1) ->
  exists s2, undo_redirections OM d s1 = Ok (tt, s2) /\
    (refused s2 = false -> same (file_at s) (file_at s2) /\ same (shellfds s) (shellfds s2) /\ shellfdmax s = shellfdmax s2 /\ consistent OM MIN s2).
Proof.
  intros Hc Hp Hl E. destruct (open_ok l s Hc Hp) as (ok' & d' & s1' & E' & A). rewrite E in E'. injection E' as <- <- <-.
  destruct A as [A1 A2 A3 A4 A5]. pose proof (sp_ok _ _ _ _ _ _ A1) as Hc1. destruct (consistent_max OM MIN HOM HMIN s Hc) as [Mx _]. destruct (consistent_max OM MIN HOM HMIN s1 Hc1) as [Mx1 Mb1].
  assert (Mb : shellfdmax s1 <= FD_SETSIZE) by lia.
  destruct (undo_ok OM HOM d s1 (sp_range _ _ _ _ _ _ A1) Mb) as (s2 & E2 & R & V & T & Sh & X & Rg & Cl). exists s2. split; [exact E2|]. intros Hr.
  pose proof (mono _ _ R Hr) as Hr1. destruct (V Hr) as [V1 V2]. destruct (sp_undo _ _ _ _ _ _ A1 Hr1 Hl) as [U1 U2]. cbn [view_of fst snd] in *.
  assert (F : same (file_at s) (file_at s2)) by (intros x; now rewrite (V1 x), (U1 x)). assert (S : same (shellfds s) (shellfds s2)) by (intros x; now rewrite (V2 x), (U2 x)).
  assert (M : shellfdmax s = shellfdmax s2) by (apply max_unique; auto). split; [exact F|]. split; [exact S|]. split; [exact M|].
  destruct Hc as (C1 & C2 & C3). split; [|split].
  - intros x Hx. apply C1. intros Hn. specialize (F x). unfold file_at in F. rewrite Hn in F. destruct (tbl s2 x); [discriminate|congruence].
  - intros x Hx. rewrite <- (S x) in Hx. rewrite <- M. destruct (C2 x Hx) as (B & f & Ef). split; [exact B|]. exists f. rewrite T.
    + destruct (sp_shell _ _ _ _ _ _ A1 x Hx) as [_ ->]. exact Ef.
    + intros H. rewrite (sp_origs _ _ _ _ _ _ A1 x H) in Hx. discriminate.
    + intros H. destruct (sp_copies _ _ _ _ _ _ A1 x H) as (_ & H2 & _). congruence.
  - now rewrite <- M, <- (S _).
Qed.
(** The same with a command in between that may do anything except to the descriptors of the
    shell: the targets of the redirections are restored, everything else is as the command
    left it. *)
Theorem undo_restores_targets l s d s1 s2 : consistent OM MIN s -> pipes_low MIN l -> below_limit l -> open l s = Ok ((true, d), s1) ->
  kept OM MIN s1 s2 ->
  exists s3, undo_redirections OM d s2 = Ok (tt, s3) /\
    (refused s3 = false ->
     (forall x, In x (all_targets L l) -> file_at s3 x = file_at s x) /\
     (forall x, ~ In x (all_targets L l) -> visible s3 x = visible s2 x) /\
     (forall x, shellfds s3 x = true <-> shellfds s2 x = true /\ (shellfds s1 x = true -> shellfds s x = true))).
Proof.
  intros Hc Hp Hl E K. destruct (open_ok l s Hc Hp) as (ok' & d' & s1' & E' & A). rewrite E in E'. injection E' as <- <- <-. destruct A as [A1 A2 A3 A4 A5].
  destruct (undo_after OM MIN HOM HMIN _ d s s1 s2 Hc A1 K) as (s3 & E3 & R & Mx & Sh & T & F & _). exists s3. split; [exact E3|]. intros Hr.
  pose proof (mono _ _ R Hr) as Hr2. pose proof (mono _ _ (kp_mono _ _ _ _ K) Hr2) as Hr1.
  assert (Dec : forall x, new_fd s s1 x \/ ~ new_fd s s1 x) by (intros x; unfold new_fd; destruct (shellfds s1 x), (shellfds s x); intuition discriminate).
  assert (Sh' : forall x, shellfds s3 x = true <-> shellfds s2 x = true /\ (shellfds s1 x = true -> shellfds s x = true)).
  { intros x. rewrite Sh. unfold new_fd. destruct (shellfds s1 x), (shellfds s x); intuition discriminate. }
  split; [|split; [|exact Sh']].
  - intros x Hx. apply F; auto.
  - intros x Hx. assert (Ho : ~ In x (origs d)) by (intros H; apply Hx; auto). unfold visible. destruct (Dec x) as [Hn|Hn].
    + destruct (kp_shell _ _ _ _ K x (proj1 Hn)) as [-> _]. destruct (shellfds s3 x); [reflexivity|]. rewrite (F Hr Hl x (or_intror Hn)).
      apply (new_copies OM MIN _ _ _ _ x A1) in Hn as Hn'. unfold file_at. pose proof (sp_undo _ _ _ _ _ _ A1 Hr1 Hl) as [U _].
      specialize (U x). cbn [view_of fst] in U. unfold file_at in U. rewrite <- U. clear - Hn' Ho.
      assert (G : forall d v, ~ In x (origs d) -> In x (copies d) \/ fst v x = None -> fst (undo_pure d v) x = None).
      { clear. induction d as [|[o c] d IH]; intros v Ho Hn; [destruct Hn as [[]|Hn]; exact Hn|]. change (undo_pure ((o, c) :: d) v) with (undo_pure d (undo1 (o, c) v)).
        cbn [origs map fst] in Ho. apply IH; [intros H; apply Ho; now right|]. unfold copies in Hn. cbn [flat_map snd] in Hn. rewrite in_app_iff in Hn. unfold undo1. cbn [fst snd].
        assert (x <> o) by (intros ->; apply Ho; now left).
        destruct (Z.leb_spec 0 c) as [Hc|Hc]; cbn [fst].
        - destruct (Z.eq_dec x c) as [->|Nc]; [right; apply set_eq|]. destruct Hn as [[[->|[]]|Hn]|Hn]; [contradiction|now left|right]. rewrite !set_ne; auto.
        - destruct Hn as [[[]|Hn]|Hn]; [now left|right]. rewrite set_ne; auto. }
      apply G; auto.
    + assert (E3' : shellfds s3 x = shellfds s2 x).
      { destruct (shellfds s2 x) eqn:E2; [apply Sh; auto|]. destruct (shellfds s3 x) eqn:E4; [|reflexivity]. apply Sh in E4 as [? _]. congruence. }
      rewrite E3'. unfold file_at. now rewrite T.
Qed.
(** The exec built-in keeps the redirections: nothing the user can see changes any more, and
    the shell gives up exactly the copies. *)
Theorem clear_keeps l s ok d s1 s2 : consistent OM MIN s -> pipes_low MIN l -> open l s = Ok ((ok, d), s1) -> kept OM MIN s1 s2 ->
  exists s3, clear_savefd d s2 = Ok (tt, s3) /\ same (visible s2) (visible s3) /\ consistent OM MIN s3 /\
    (forall x, shellfds s3 x = true <-> shellfds s2 x = true /\ (shellfds s1 x = true -> shellfds s x = true)) /\
    (forall x, shellfds s3 x = true -> tbl s3 x = tbl s2 x).
Proof.
  intros Hc Hp E K. destruct (open_ok l s Hc Hp) as (ok' & d' & s1' & E' & A). rewrite E in E'. injection E' as <- <- <-. destruct A as [A1 A2 A3 A4 A5].
  destruct (clear_after OM MIN HOM HMIN _ d s s1 s2 Hc A1 K) as (s3 & E3 & R & Hc3 & Sh & V & T). exists s3. split; [exact E3|]. split; [exact V|]. split; [exact Hc3|]. split.
  - intros x. rewrite Sh. unfold new_fd. destruct (shellfds s1 x), (shellfds s x); intuition discriminate.
  - intros x Hx. apply T. now apply Sh.
Qed.

(** C47.  If all redirections succeed, they have taken effect from left to right, and no other
    open descriptor is affected, whether they succeed or not. *)
Theorem redirections_effect l s ok d s1 : consistent OM MIN s -> pipes_low MIN l -> open l s = Ok ((ok, d), s1) ->
  (ok = true -> effects num l (visible s) (visible s1)) /\
  (forall x, ~ In x (all_targets L l) -> tbl s x <> None -> tbl s1 x = tbl s x).
Proof.
  intros Hc Hp E. destruct (open_ok l s Hc Hp) as (ok' & d' & s1' & E' & A). rewrite E in E'. injection E' as <- <- <-. destruct A as [A1 A2 A3 A4 A5]. auto.
Qed.
(** Redirections always come to an end: no assertion fails. *)
Theorem redirections_total l s : consistent OM MIN s -> pipes_low MIN l -> exists ok d s1, open l s = Ok ((ok, d), s1) /\ consistent OM MIN s1.
Proof. intros Hc Hp. destruct (open_ok l s Hc Hp) as (ok & d & s1 & E & A). exists ok, d, s1. split; [exact E|]. destruct A as [A1 _ _ _ _]. exact (sp_ok _ _ _ _ _ _ A1). Qed.

(** C29.  The descriptors that the shell keeps for itself stay open on the same files. *)
Theorem shell_fds_untouched l s ok d s1 : consistent OM MIN s -> pipes_low MIN l -> open l s = Ok ((ok, d), s1) ->
  forall x, shellfds s x = true -> shellfds s1 x = true /\ tbl s1 x = tbl s x.
Proof.
  intros Hc Hp E. destruct (open_ok l s Hc Hp) as (ok' & d' & s1' & E' & A). rewrite E in E'. injection E' as <- <- <-. destruct A as [A1 _ _ _ _]. exact (sp_shell _ _ _ _ _ _ A1).
Qed.
(** A redirection of such a descriptor is an error and changes nothing. *)
Theorem shell_target_rejected r l s : consistent OM MIN s -> shellfds s (rd_fd r) = true -> open (r :: l) s = Ok ((false, []), s).
Proof.
  intros Hc H. assert (Hn : 0 <= rd_fd r) by (destruct Hc as (_ & C2 & _); destruct (C2 _ H); lia). unfold open_redirections. cbn [open_all]. unfold open_redirection. replace (rd_fd r <? 0) with false by lia.
  unfold bind at 1. unfold bind at 1. unfold is_shellfd. rewrite H. replace (0 <=? rd_fd r) with true by lia. rewrite orb_true_r. reflexivity.
Qed.
(** So is copying from such a descriptor: the command does not get at it. *)
Theorem shell_source_rejected r l s ok d s1 m : consistent OM MIN s -> pipes_low MIN (r :: l) -> In (rd_type r) [RT_DUPIN; RT_DUPOUT] -> source num r = Some m -> shellfds s m = true ->
  open (r :: l) s = Ok ((ok, d), s1) -> ok = false /\ forall x, x <> rd_fd r -> shellfds s1 x = false -> tbl s1 x = tbl s x.
Proof.
  intros Hc Hp Ht Hm Hs E. unfold open_redirections in E. cbn [open_all] in E. unfold bind in E.
  assert (Hp1 : rd_type r = RT_PIPE -> rd_fd r < MIN) by (inversion Hp; assumption).
  destruct (redirection_ok L OM MIN posix clobber sockets PB HOM HMIN r [] s Hc Hp1) as (ok1 & d1 & s1' & E1 & D). rewrite app_nil_r in E1.
  assert (X : ok1 = false /\ forall x, shellfds s1' x = false -> tbl s1' x = tbl s x).
  { clear E. unfold open_redirection in E1. destruct (Z.ltb_spec (rd_fd r) 0) as [H|Ho]; [injection E1 as <- <- <-; auto|]. unfold bind at 1 in E1.
    destruct (is_shellfd_ok OM MIN s (rd_fd r) Hc Ho) as (b & Eb & B & _). rewrite Eb in E1. cbn [rbind] in E1. destruct b; [injection E1 as <- <- <-; auto|].
    unfold source in Hm. destruct (operand r) as [arg|] eqn:Eo; [|destruct (rd_type r); try (injection E1 as <- <- <-; auto); cbn in Ht; intuition discriminate].
    destruct (save_ok OM MIN HOM HMIN (rd_fd r) [] s Hc Ho) as (d2 & s2 & E2 & W & Hc2 & _). unfold bind at 1 in E1. rewrite E2 in E1. cbn [rbind] in E1.
    destruct (saved_shell OM MIN _ _ _ _ _ Hc W Hs) as [Hs2 _].
    assert (Y : exists f, open_one L OM MIN posix clobber sockets PB r arg (d2 ++ []) s2 = Ok ((-2, f, d2 ++ []), s2)).
    { unfold open_one. assert (Z1 : forall out, parse_and_check_dup L posix arg out s2 = Ok (-2, s2)).
      { intros out. unfold operand in Eo. destruct (rd_type r); cbn in Ht; try (intuition discriminate); rewrite Eo in Hm;
          (unfold parse_and_check_dup; rewrite Hm; destruct (list_N_eqb arg (str "-")) eqn:Ed; [apply list_N_eqb_eq in Ed; subst; discriminate|];
           unfold bind, is_shellfd; rewrite Hs2; apply number_nonneg in Hm; replace (0 <=? m) with true by lia; rewrite orb_true_r; reflexivity). }
      destruct (rd_type r); cbn in Ht; try (intuition discriminate); cbv zeta; unfold bind; rewrite Z1; eexists; reflexivity. }
    destruct Y as (f & Ey). unfold bind at 1 in E1. rewrite Ey in E1. cbn [rbind Z.ltb Z.compare ret] in E1. injection E1 as <- <- <-. split; [reflexivity|].
    intros x Hx. destruct W as [n f' b F H' E' [T1 T2] [S1 S2]|K E' T|K E' T]; [|now rewrite (T x)..]. apply T2. congruence. }
  rewrite E1 in E. destruct X as [-> X]. cbn [rbind ret] in E. injection E as <- <- <-. split; [reflexivity|]. auto.
Qed.

(** C48.  The descriptors of the shell are numbered 10 or more and closed in the programs the
    shell executes, in every state that commands lead to. *)
Definition after_exec (s : st) (x : Z) : option file := match tbl s x with Some (f, false) => Some f | _ => None end.
(** All redirections in a command concern low descriptors. *)
Fixpoint low (a : action) : Prop :=
  let lows := fix lows (l : list action) : Prop := match l with [] => True | a :: l' => low a /\ lows l' end in
  match a with
  | Keep => True
  | Dot body => lows body
  | Command l body _ => Forall (fun x => x < MIN) (all_targets L l) /\ lows body
  end.
(** No command keeps its redirections. *)
Fixpoint temporary (a : action) : Prop :=
  let each := fix each (l : list action) : Prop := match l with [] => True | a :: l' => temporary a /\ each l' end in
  match a with
  | Keep => True
  | Dot body => each body
  | Command l body perm => perm = false /\ below_limit l /\ each body
  end.

(** States in which commands are executed: before each command, and before those inside *)
Inductive during : list action -> st -> st -> Prop :=
| du_here l s : during l s s
| du_dot body l s n s1 t : open_kept OM MIN s = Ok (Some n, s1) -> during body s1 t -> during (Dot body :: l) s t
| du_command rs body perm l s d s1 t : open rs s = Ok ((true, d), s1) -> during body s1 t -> during (Command rs body perm :: l) s t
| du_next a l s s1 t : run L OM MIN posix clobber sockets PB a s = Ok (tt, s1) -> during l s1 t -> during (a :: l) s t.

Lemma low_pipes l : Forall (fun x => x < MIN) (all_targets L l) -> pipes_low MIN l.
Proof.
  induction l as [|r l IH]; intros H; constructor.
  - intros _. rewrite Forall_forall in H. apply H. unfold all_targets. cbn [flat_map]. apply in_app_iff. left. now left.
  - apply IH. unfold all_targets in H. cbn [flat_map] in H. apply Forall_app in H. apply H.
Qed.
Lemma open_kept_ok s : consistent OM MIN s -> exists r s', open_kept OM MIN s = Ok (r, s') /\ kept OM MIN s s' /\ same (visible s) (visible s') /\
  match r with
  | None => True
  | Some n => 0 <= n < OM /\ shellfds s n = false /\ shellfds s' n = true
  end.
Proof.
  intros Hc. unfold open_kept, bind. destruct (sys_open_ok OM s) as ([fd|e] & s1 & -> & K & O); cbn [rbind].
  2: { exists None, s1. split; [reflexivity|]. split; [|split; [|exact I]].
    - destruct K as (K1 & K2 & K3). constructor; auto.
      + apply consistent_keeps with s; auto; [now repeat split|..]; intros x Hx; rewrite (O x) in *; auto.
      + intros x Hx. rewrite K1. now rewrite (O x).
    - intros x. unfold visible, file_at. destruct K as (-> & _). now rewrite (O x). }
  destruct O as [F [f [T1 T2]]]. apply free_spec in F as F'. destruct F' as [Rf Nf]. unfold move_to_shellfd. replace (fd <? 0) with false by lia. unfold bind.
  destruct (copy_ok OM MIN HOM fd s1) as (r & s2 & -> & C). cbn [rbind xclose].
  assert (Hsf : shellfds s fd = false). { destruct (shellfds s fd) eqn:E; [|reflexivity]. destruct Hc as (_ & C2 & _). destruct (C2 fd E) as (_ & g & Eg). congruence. }
  assert (Hc1 : consistent OM MIN s1).
  { apply consistent_keeps with s; auto.
    - intros x Hx. apply T2. congruence.
    - intros x Hx. destruct (Z.eq_dec x fd) as [->|N]; [now right|]. rewrite T2 in Hx by exact N. now left. }
  set (s3 := with_tbl (set (tbl s2) fd None) s2). destruct r as [n|e]; cbn [ret rbind].
  - pose proof (consistent_copied OM MIN HMIN _ _ _ _ Hc1 C) as Hc2. destruct C as (R & Fn & Hn & (g & b & Eg & U1 & U2) & (S1 & S2) & X). apply free_spec in Fn as [Rn Nn].
    assert (Nnf : n <> fd) by congruence. destruct K as (K1 & K2 & K3). rewrite K1 in S2.
    assert (Nns : tbl s n = None) by (now rewrite <- T2). assert (Hsn : shellfds s n = false). { destruct (shellfds s n) eqn:E; [|reflexivity]. destruct Hc as (_ & C2 & _). destruct (C2 n E) as (_ & h & Eh). congruence. }
    assert (Hs2f : shellfds s2 fd = false) by (rewrite S2; auto).
    exists (Some n), s3. split; [reflexivity|].
    assert (Hc3 : consistent OM MIN s3).
    { apply consistent_keeps with s2; [exact Hc2|now repeat split| |]; intros x Hx; subst s3; cbn [with_tbl tbl] in *.
      - apply set_ne. congruence.
      - left. destruct (Z.eq_dec x fd) as [->|N]; [rewrite set_eq in Hx; congruence|]. now rewrite set_ne in Hx. }
    split; [|split; [|]].
    + constructor; [exact Hc3|intros Hr; cbn; auto|]. intros x Hx. subst s3. cbn [with_tbl tbl shellfds]. assert (x <> n) by congruence. assert (x <> fd) by congruence. rewrite S2, set_ne, U2, T2 by auto. auto.
    + intros x. unfold visible, file_at. subst s3. cbn [with_tbl tbl shellfds]. destruct (Z.eq_dec x n) as [->|Nx]; [rewrite S1, Hsn, Nns; reflexivity|]. rewrite S2 by exact Nx.
      destruct (Z.eq_dec x fd) as [->|Nf']; [rewrite Hsf, set_eq, Nf; reflexivity|]. now rewrite set_ne, U2, T2.
    + split; [exact Rn|]. split; [exact Hsn|exact S1].
  - destruct C as (R & (K1' & K2' & K3') & T & _). destruct K as (K1 & K2 & K3). exists None, s3. split; [reflexivity|].
    assert (Ts : same (tbl s) (tbl s3)).
    { intros x. subst s3. cbn [with_tbl tbl]. destruct (Z.eq_dec x fd) as [->|N]; [now rewrite set_eq|]. rewrite set_ne by exact N. rewrite <- (T x). now rewrite T2. }
    assert (Ss : shellfds s3 = shellfds s) by (cbn; congruence).
    split; [|split; [|exact I]].
    + constructor; [|intros Hr; cbn; auto|].
      * apply consistent_keeps with s; [exact Hc|split; [exact Ss|split; [cbn; congruence|cbn; auto]]| |]; intros x Hx; rewrite (Ts x) in *; auto.
      * intros x Hx. rewrite Ss. now rewrite (Ts x).
    + intros x. unfold visible, file_at. now rewrite Ss, (Ts x).
Qed.
Lemma undo_outside d : forall (v : view) x, ~ In x (origs d) -> ~ In x (copies d) -> fst (undo_pure d v) x = fst v x.
Proof.
  induction d as [|[o c] d IH]; intros v x Ho Hc; [reflexivity|]. change (undo_pure ((o, c) :: d) v) with (undo_pure d (undo1 (o, c) v)).
  cbn [origs map fst] in Ho. unfold copies in Hc. cbn [flat_map snd] in Hc. rewrite in_app_iff in Hc. rewrite IH; [|intros H; apply Ho; now right|tauto].
  assert (x <> o) by (intros ->; apply Ho; now left). unfold undo1. cbn [fst snd]. destruct (0 <=? c); cbn [fst]; [|now apply set_ne]. rewrite set_ne, set_ne; auto. intros ->. apply Hc. left. now left.
Qed.
(** Undoing after a command that leaves the user's descriptors as they were *)
Lemma undo_visible (P : Prop) d s s1 s2 : consistent OM MIN s -> stepped OM MIN P d s s1 -> kept OM MIN s1 s2 -> (forall x, In x (origs d) -> x < MIN) ->
  exists s3, undo_redirections OM d s2 = Ok (tt, s3) /\ kept OM MIN s s3 /\ (P -> refused s3 = false -> same (visible s1) (visible s2) -> same (visible s) (visible s3)).
Proof.
  intros Hc S K Hlow. destruct (undo_after OM MIN HOM HMIN _ d s s1 s2 Hc S K) as (s3 & E3 & R & Mx & Sh & T & F & Cn). exists s3. split; [exact E3|].
  assert (Hls : forall x t, consistent OM MIN t -> In x (origs d) -> shellfds t x = false).
  { intros x t (_ & C2 & _) Hx. destruct (shellfds t x) eqn:E; [|reflexivity]. destruct (C2 x E). apply Hlow in Hx. lia. }
  assert (Hc3 : consistent OM MIN s3) by (apply Cn; intros x Hx Hs; rewrite (Hls x s2) in Hs; [discriminate|apply K|exact Hx]).
  split.
  - constructor; [exact Hc3| |].
    + intros Hr. apply R, (kp_mono _ _ _ _ K), (sp_mono _ _ _ _ _ _ S), Hr.
    + intros x Hx. destruct (sp_shell _ _ _ _ _ _ S x Hx) as [E1 T1]. destruct (kp_shell _ _ _ _ K x E1) as [E2 T2].
      assert (Nn : ~ new_fd s s1 x) by (intros [_ H]; congruence). split; [apply Sh; auto|]. rewrite T, T2, T1; auto. intros H. rewrite (sp_origs _ _ _ _ _ _ S x H) in Hx. discriminate.
  - intros HP Hr V x. pose proof (mono _ _ R Hr) as Hr2. pose proof (mono _ _ (kp_mono _ _ _ _ K) Hr2) as Hr1.
    assert (Dec : new_fd s s1 x \/ ~ new_fd s s1 x) by (unfold new_fd; destruct (shellfds s1 x), (shellfds s x); intuition discriminate).
    destruct (in_dec Z.eq_dec x (origs d)) as [Ho|Ho].
    + unfold visible. rewrite (Hls x s3 Hc3 Ho), (Hls x s Hc Ho). symmetry. apply F; auto.
    + destruct Dec as [Hn|Hn].
      * unfold visible. assert (E3' : shellfds s3 x = false) by (destruct (shellfds s3 x) eqn:E; [apply Sh in E as [_ E]; contradiction|reflexivity]).
        destruct Hn as [H1 H2]. rewrite H2, E3'. symmetry. apply F; auto. right. now split.
      * assert (E3' : shellfds s3 x = shellfds s2 x).
        { destruct (shellfds s2 x) eqn:E2; [apply Sh; auto|]. destruct (shellfds s3 x) eqn:E4; [|reflexivity]. apply Sh in E4 as [? _]. congruence. }
        assert (V3 : visible s3 x = visible s2 x) by (unfold visible, file_at; now rewrite E3', T). rewrite V3, <- (V x).
        destruct (sp_undo _ _ _ _ _ _ S Hr1 HP) as [U _]. specialize (U x). cbn [view_of fst] in U. rewrite undo_outside in U; [|exact Ho|now rewrite <- (new_copies OM MIN _ _ _ _ x S)].
        cbn [view_of fst] in U. unfold visible. rewrite <- U. assert (shellfds s1 x = shellfds s x) as ->; [|reflexivity].
        destruct (shellfds s x) eqn:E; [now apply (sp_shell _ _ _ _ _ _ S)|]. destruct (shellfds s1 x) eqn:E1; [|reflexivity]. exfalso. apply Hn. now split.
Qed.

Section ActionInd.
Variable P : action -> Prop.
Hypothesis HK : P Keep.
Hypothesis HD : forall b, Forall P b -> P (Dot b).
Hypothesis HC : forall l b p, Forall P b -> P (Command l b p).
Fixpoint action_nested (a : action) : P a :=
  let all := fix all (l : list action) : Forall P l := match l with [] => Forall_nil P | a :: l' => Forall_cons a (action_nested a) (all l') end in
  match a with Keep => HK | Dot b => HD b (all b) | Command l b p => HC l b p (all b) end.
End ActionInd.
Notation run := (run L OM MIN posix clobber sockets PB).
Definition run_all : list action -> M unit := fix run_all (l : list action) : M unit := match l with [] => ret tt | a :: l' => do _ <- run a; run_all l' end.
Definition lows : list action -> Prop := fix lows (l : list action) : Prop := match l with [] => True | a :: l' => low a /\ lows l' end.
Definition temporaries : list action -> Prop := fix each (l : list action) : Prop := match l with [] => True | a :: l' => temporary a /\ each l' end.
Definition run_fine (a : action) : Prop := low a -> forall s, consistent OM MIN s ->
  exists s', run a s = Ok (tt, s') /\ kept OM MIN s s' /\ (temporary a -> refused s' = false -> same (visible s) (visible s')).
Lemma run_all_fine l : Forall run_fine l -> lows l -> forall s, consistent OM MIN s ->
  exists s', run_all l s = Ok (tt, s') /\ kept OM MIN s s' /\ (temporaries l -> refused s' = false -> same (visible s) (visible s')).
Proof.
  intros H. induction H as [|a l Ha _ IH]; intros Hl s Hc; cbn [run_all].
  - exists s. split; [reflexivity|]. split; [now apply kept_refl|]. intros _ _. apply same_refl.
  - destruct Hl as [Hl1 Hl2]. destruct (Ha Hl1 s Hc) as (s1 & E1 & K1 & V1). destruct (IH Hl2 s1 (kp_ok _ _ _ _ K1)) as (s2 & E2 & K2 & V2).
    unfold bind. rewrite E1. cbn [rbind]. exists s2. split; [exact E2|]. split; [now apply kept_trans with s1|]. intros [T1 T2] Hr. apply same_trans with (visible s1); [|auto].
    apply V1; auto. exact (mono _ _ (kp_mono _ _ _ _ K2) Hr).
Qed.
Lemma run_ok a : run_fine a.
Proof.
  induction a as [|b IH|l b p IH] using action_nested; intros Hl s Hc.
  - cbn [RedirModel.run]. unfold bind. destruct (open_kept_ok s Hc) as (r & s1 & -> & K & V & _). cbn [rbind ret]. exists s1. auto.
  - change (run (Dot b)) with (do k <- open_kept OM MIN; match k with None => ret tt | Some n => do _ <- run_all b; do _ <- remove_shellfd n; xclose n end). change (low (Dot b)) with (lows b) in Hl. change (temporary (Dot b)) with (temporaries b).
    unfold bind at 1. destruct (open_kept_ok s Hc) as ([n|] & s1 & -> & K & V & N); cbn [rbind ret]; [|exists s1; auto]. destruct N as (Rn & Nn & Sn).
    destruct (run_all_fine b IH Hl s1 (kp_ok _ _ _ _ K)) as (s2 & E2 & K2 & V2). unfold bind. rewrite E2. cbn [rbind]. destruct (kp_shell _ _ _ _ K2 n Sn) as [Sn2 _].
    destruct (consistent_max OM MIN HOM HMIN s2 (kp_ok _ _ _ _ K2)) as [Mx Mb].
    destruct (remove_ok n s2) as (s3 & -> & T3 & R3 & S3 & _ & X3); [lia|lia|lia|]. cbn [rbind xclose]. eexists. split; [reflexivity|]. set (s4 := with_tbl _ s3).
    assert (Sh4 : shellfds s4 = set (shellfds s2) n false) by exact S3. assert (T4 : tbl s4 = set (tbl s2) n None) by (subst s4; cbn [with_tbl tbl]; now rewrite T3).
    assert (K4 : kept OM MIN s s4).
    { constructor.
      - destruct (kp_ok _ _ _ _ K2) as (C1 & C2 & C3). split; [|split].
        + intros x Hx. rewrite T4 in Hx. destruct (Z.eq_dec x n) as [->|Nx]; [rewrite set_eq in Hx; congruence|]. rewrite set_ne in Hx by exact Nx. auto.
        + intros x Hx. pose proof (proj1 (X3 Mx) x Hx) as B. rewrite Sh4 in Hx. destruct (Z.eq_dec x n) as [->|Nx]; [rewrite set_eq in Hx; congruence|]. rewrite set_ne in Hx by exact Nx.
          destruct (C2 x Hx) as (B' & f & Ef). split; [split; [lia|apply B]|]. exists f. now rewrite T4, set_ne.
        + exact (proj2 (X3 Mx)).
      - intros Hr. cbn. rewrite R3. apply (kp_mono _ _ _ _ K2), (kp_mono _ _ _ _ K), Hr.
      - intros x Hx. assert (x <> n) by congruence. destruct (kp_shell _ _ _ _ K x Hx) as [A1 A2]. destruct (kp_shell _ _ _ _ K2 x A1) as [A3 A4]. rewrite Sh4, T4, !set_ne by auto. split; [exact A3|congruence]. }
    split; [exact K4|]. intros Ht Hr. assert (Hr2 : refused s2 = false) by (rewrite <- R3; exact Hr).
    apply same_trans with (visible s1); [exact V|]. apply same_trans with (visible s2); [auto|]. intros x. unfold visible, file_at. rewrite Sh4, T4.
    destruct (Z.eq_dec x n) as [->|Nx]; [rewrite !set_eq, Sn2; reflexivity|]. now rewrite !set_ne.
  - change (run (Command l b p)) with (do (ok, save) <- open l; if ok : bool then do _ <- run_all b; if p : bool then clear_savefd save else undo_redirections OM save else undo_redirections OM save).
    change (low (Command l b p)) with (Forall (fun x => x < MIN) (all_targets L l) /\ lows b) in Hl. change (temporary (Command l b p)) with (p = false /\ below_limit l /\ temporaries b). destruct Hl as [Hl1 Hl2].
    unfold bind at 1. destruct (open_ok l s Hc (low_pipes l Hl1)) as (ok & d & s1 & -> & A). cbn [rbind]. destruct A as [A1 A2 A3 A4 A5]. pose proof (sp_ok _ _ _ _ _ _ A1) as Hc1.
    assert (Hlow : forall x, In x (origs d) -> x < MIN) by (intros x Hx; apply A4 in Hx; rewrite Forall_forall in Hl1; auto).
    destruct ok.
    + destruct (run_all_fine b IH Hl2 s1 Hc1) as (s2 & E2 & K2 & V2). unfold bind. rewrite E2. cbn [rbind]. destruct p.
      * destruct (clear_after OM MIN HOM HMIN _ d s s1 s2 Hc A1 K2) as (s3 & E3 & R & Hc3 & Sh & V & T). rewrite E3. exists s3. split; [reflexivity|]. split; [|intros [H _]; discriminate].
        constructor; [exact Hc3|intros Hr; rewrite R; apply (kp_mono _ _ _ _ K2), (sp_mono _ _ _ _ _ _ A1), Hr|]. intros x Hx. destruct (sp_shell _ _ _ _ _ _ A1 x Hx) as [E1 T1]. destruct (kp_shell _ _ _ _ K2 x E1) as [E4 T2].
        assert (Nn : ~ new_fd s s1 x) by (intros [_ H]; congruence). split; [apply Sh; auto|]. rewrite T, T2, T1; auto.
      * destruct (undo_visible _ d s s1 s2 Hc A1 K2 Hlow) as (s3 & E3 & K3 & V3). rewrite E3. exists s3. split; [reflexivity|]. split; [exact K3|]. intros (_ & Hb & Ht) Hr.
        destruct (undo_after OM MIN HOM HMIN _ d s s1 s2 Hc A1 K2) as (s3' & E3' & R & _). rewrite E3 in E3'. injection E3' as <-. apply V3; auto. apply V2; auto. exact (mono _ _ R Hr).
    + destruct (undo_visible _ d s s1 s1 Hc A1 (kept_refl _ _ _ Hc1) Hlow) as (s3 & E3 & K3 & V3). exists s3. split; [exact E3|]. split; [exact K3|]. intros (_ & Hb & Ht) Hr. apply V3; auto. apply same_refl.
Qed.
(** C29.  Commands with redirections nested in any way leave the descriptors of the shell
    alone.  Commands that do not keep their redirections leave those of the user as they were. *)
Theorem run_keeps_shell a s : low a -> consistent OM MIN s -> exists s', run a s = Ok (tt, s') /\ consistent OM MIN s' /\
  (forall x, shellfds s x = true -> shellfds s' x = true /\ tbl s' x = tbl s x) /\
  (temporary a -> refused s' = false -> same (visible s) (visible s')).
Proof. intros Hl Hc. destruct (run_ok a Hl s Hc) as (s' & E & [K1 K2 K3] & V). eauto. Qed.
Theorem shell_fds_hidden l s t : lows l -> 10 <= MIN -> consistent OM MIN s -> during l s t ->
  forall x, (shellfds t x = true -> 10 <= x /\ after_exec t x = None) /\ (forall f, after_exec t x = Some f -> visible t x = Some f).
Proof.
  intros Hl H10 Hc D. assert (Hct : consistent OM MIN t).
  { induction D as [l s|body l s n s1 t E D IH|rs body perm l s d s1 t E D IH|a l s s1 t E D IH].
    - exact Hc.
    - destruct Hl as [Hl _]. destruct (open_kept_ok s Hc) as (r & s1' & E' & K & _). rewrite E in E'. injection E' as <- <-. apply IH; [exact Hl|apply K].
    - destruct Hl as [[Hl1 Hl] _]. destruct (redirections_total rs s Hc (low_pipes rs Hl1)) as (ok & d' & s1' & E' & Hc1). rewrite E in E'. injection E' as <- <- <-. auto.
    - destruct Hl as [Hl1 Hl2]. destruct (run_ok a Hl1 s Hc) as (s' & E' & K & _). rewrite E in E'. injection E' as <-. apply IH; [exact Hl2|apply K]. }
  intros x. destruct Hct as (_ & C2 & _). assert (A : shellfds t x = true -> 10 <= x /\ after_exec t x = None).
  { intros Hx. destruct (C2 x Hx) as (B & f & Ef). split; [lia|]. unfold after_exec. now rewrite Ef. }
  split; [exact A|]. intros f Hf. unfold visible. destruct (shellfds t x) eqn:E; [destruct (A eq_refl); congruence|]. unfold file_at. unfold after_exec in Hf. destruct (tbl t x) as [[g []]|]; [discriminate|exact Hf|discriminate].
Qed.
End Props.
(** The lowest descriptor for the shell itself *)
Theorem shellfdmin_range q : 10 <= reset_shellfdmin q <= 100.
Proof. unfold reset_shellfdmin. destruct q as [[n|]|]; try lia. set (m := (if FD_SETSIZE <? n then FD_SETSIZE else n) / 2). destruct (Z.ltb_spec 100 m); [lia|]. destruct (Z.ltb_spec m 10); lia. Qed.

Print Assumptions undo_restores.
Print Assumptions undo_restores_targets.
Print Assumptions clear_keeps.
Print Assumptions redirections_effect.
Print Assumptions redirections_total.
Print Assumptions shell_fds_untouched.
Print Assumptions shell_target_rejected.
Print Assumptions shell_source_rejected.
Print Assumptions run_keeps_shell.
Print Assumptions shell_fds_hidden.
Print Assumptions shellfdmin_range.

(** ** The hypotheses are met: a process with descriptors 0, 1 and 2, and the shell's
    descriptor 100 for the terminal; at most 256 descriptors *)
Definition base (ans : list answer) : st :=
  mkSt (fun x => if x =? 0 then Some ((10%N, RDWR), false) else if x =? 1 then Some ((11%N, WRONLY), false) else if x =? 2 then Some ((12%N, WRONLY), false)
                 else if x =? 100 then Some ((99%N, RDWR), true) else None)
       (fun x => x =? 100) 100 true ans false.
Lemma base_consistent ans : consistent 256 100 (base ans).
Proof.
  split; [|split; [|now right]].
  - intros x Hx. cbn in Hx. destruct (Z.eqb_spec x 0), (Z.eqb_spec x 1), (Z.eqb_spec x 2), (Z.eqb_spec x 100); try lia. congruence.
  - intros x Hx. cbn in *. apply Z.eqb_eq in Hx. subst x. split; [lia|]. eexists. reflexivity.
Qed.
Local Notation dopen := (open_redirections wide_locale 256 100 false true true 512).
Definition any : file := (0%N, RDWR).
(** 3>f 1>&3 2>>|5 *)
Definition some_redirs : list redir := [mkRedir 3 RT_OUTPUT (Some (str "f")); mkRedir 1 RT_DUPOUT (Some (str "3")); mkRedir 2 RT_PIPE (Some (str "5"))].
Definition some_answers : list answer :=
  [Yes; Give 3 (20%N, WRONLY); Give 101 any; Yes; Give 102 any; Yes; Give2 4 (30%N, RDONLY) 6 (31%N, WRONLY); Fail EINTR; Yes; Yes].
Lemma some_hypotheses : pipes_low 100 some_redirs /\ below_limit 256 some_redirs /\ Forall (fun x => x < 100) (all_targets wide_locale some_redirs).
Proof.
  split; [|split].
  - repeat constructor; cbn; try lia; discriminate.
  - repeat constructor.
  - assert (E : all_targets wide_locale some_redirs = [3; 1; 2; 5]) by (vm_compute; reflexivity). rewrite E. repeat constructor.
Qed.
Definition show (s : st) : list (option file) := map (visible s) [0; 1; 2; 3; 4; 5; 6; 100; 101; 102].
Definition after {A} (x : res (A * st)) : option (A * list (option file)) := match x with Ok (a, s) => Some (a, show s) | _ => None end.
Example redirections_ex : after (dopen some_redirs (base some_answers)) =
  Some ((true, [(5, -1); (2, 102); (1, 101); (3, -1)]),
        [Some (10%N, RDWR); Some (20%N, WRONLY); Some (31%N, WRONLY); Some (20%N, WRONLY); None; Some (30%N, RDONLY); None; None; None; None]).
Proof. vm_compute. reflexivity. Qed.
Example undo_ex : after ((do (_, d) <- dopen some_redirs; do _ <- undo_redirections 256 d; fun s => Ok (refused s, s)) (base some_answers)) = Some (false, show (base [])).
Proof. vm_compute. reflexivity. Qed.
Definition exec_state (s : st) : st := with_tbl (set (tbl s) 7 (Some ((40%N, RDWR), false))) s.
Lemma kept_ex d s1 : dopen some_redirs (base some_answers) = Ok ((true, d), s1) -> kept 256 100 s1 (exec_state s1).
Proof.
  intros E. destruct (redirections_total wide_locale 256 100 false true true 512 ltac:(discriminate) ltac:(discriminate) some_redirs _ (base_consistent some_answers) (proj1 some_hypotheses)) as (ok & d' & s1' & E' & Hc).
  rewrite E in E'. injection E' as <- <- <-.
  assert (Hs : shellfds s1 7 = false). { destruct (shellfds s1 7) eqn:X; [|reflexivity]. destruct Hc as (_ & C2 & _). destruct (C2 7 X). lia. }
  constructor; [|auto|].
  - apply consistent_keeps with s1; [exact Hc|now repeat split| |]; intros x Hx; unfold exec_state in *; cbn [with_tbl tbl] in *.
    + apply set_ne. congruence.
    + destruct (Z.eq_dec x 7) as [->|N]; [right; lia|]. rewrite set_ne in Hx by exact N. now left.
  - intros x Hx. split; [exact Hx|]. unfold exec_state. cbn [with_tbl tbl]. apply set_ne. congruence.
Qed.
Example exec_ex : after ((do (_, d) <- dopen some_redirs; clear_savefd d) (base some_answers)) =
  Some (tt, [Some (10%N, RDWR); Some (20%N, WRONLY); Some (31%N, WRONLY); Some (20%N, WRONLY); None; Some (30%N, RDONLY); None; None; None; None]).
Proof. vm_compute. reflexivity. Qed.
Example rejected_ex : shellfds (base []) (rd_fd (mkRedir 100 RT_INPUT (Some (str "f")))) = true /\
  source (fd_number wide_locale) (mkRedir 0 RT_DUPIN (Some (str "100"))) = Some 100.
Proof. split; vm_compute; reflexivity. Qed.

(** The results of functions, which cannot be written down because they contain functions *)
Definition state {A} (x : res (A * st)) : st := match x with Ok (_, s) => s | _ => base [] end.
Definition value {A} (dflt : A) (x : res (A * st)) : A := match x with Ok (a, _) => a | _ => dflt end.
Definition done {A} (x : res (A * st)) : bool := match x with Ok _ => true | _ => false end.
Lemma state_ok (x : res (unit * st)) : done x = true -> x = Ok (tt, state x).
Proof. destruct x as [[[] s]| |]; [reflexivity|discriminate|discriminate]. Qed.
Lemma opened_ok b (x : res (bool * saved * st)) : done x = true -> Bool.eqb (fst (value (false, []) x)) b = true -> x = Ok ((b, snd (value (false, []) x)), state x).
Proof. destruct x as [[[b' d] s]| |]; [|discriminate|discriminate]. intros _ H. apply Bool.eqb_prop in H. cbn in *. now subst b'. Qed.

(** Commands nested in commands: { . script; exec 1>&3; } 3>f 1>&3 2>>|5 *)
Definition some_command : action := Command some_redirs [Dot [Keep]; Command [mkRedir 1 RT_DUPOUT (Some (str "3"))] [] true] false.
Lemma some_low : low wide_locale 100 some_command.
Proof.
  split; [apply some_hypotheses|]. split; [cbn; tauto|]. split; [|exact I]. split; [|exact I].
  assert (E : all_targets wide_locale [mkRedir 1 RT_DUPOUT (Some (str "3"))] = [1]) by (vm_compute; reflexivity). rewrite E. repeat constructor.
Qed.
Example some_temporary : temporary 256 (Command some_redirs [Dot [Keep]] false).
Proof. split; [reflexivity|]. split; [apply some_hypotheses|]. cbn; tauto. Qed.
Definition nested_answers : list answer := some_answers ++ [Give 4 (50%N, RDONLY); Give 103 any].
Lemma value_ok {A} (x : res (option A * st)) n : value None x = Some n -> x = Ok (Some n, state x).
Proof. destruct x as [[o s]| |]; [|discriminate|discriminate]. cbn. now intros ->. Qed.
Example during_ex : let s1 := state (dopen some_redirs (base nested_answers)) in let t := state (open_kept 256 100 s1) in
  during wide_locale 256 100 false true true 512 [some_command] (base nested_answers) t /\ shellfds t 103 = true /\ file_at t 103 = Some (50%N, RDONLY).
Proof.
  cbv zeta. split; [|split; vm_compute; reflexivity].
  eapply du_command; [apply opened_ok; vm_compute; reflexivity|]. eapply du_dot with (n := 103); [|apply du_here].
  apply value_ok. vm_compute. reflexivity.
Qed.

(** ** What is false *)

(** A pipe redirection whose output descriptor is as high as the shell's own: the copy of the
    input descriptor is put at the output descriptor and overwritten, so that undoing restores the wrong
    file.  (101>>|0, descriptor 101 being closed) *)
Theorem undo_high_pipe_refuted : exists l s d s1 s2, consistent 256 100 s /\ below_limit 256 l /\ dopen l s = Ok ((true, d), s1) /\
  undo_redirections 256 d s1 = Ok (tt, s2) /\ refused s2 = false /\ file_at s 0 = Some (10%N, RDWR) /\ file_at s2 0 = Some (31%N, WRONLY).
Proof.
  pose (l := [mkRedir 101 RT_PIPE (Some (str "0"))]). pose (s := base [Yes; Give 101 any; Give2 3 (30%N, RDONLY) 4 (31%N, WRONLY)]).
  pose (d := snd (value (false, []) (dopen l s))). pose (s1 := state (dopen l s)).
  exists l, s, d, s1, (state (undo_redirections 256 d s1)). split; [apply base_consistent|]. split; [repeat constructor|].
  split; [apply opened_ok; vm_compute; reflexivity|]. split; [apply state_ok; vm_compute; reflexivity|].
  split; [|split]; vm_compute; reflexivity.
Qed.
Print Assumptions undo_high_pipe_refuted.
(** A target beyond the limit: the file stays open at another descriptor after undoing.
    (300>f) *)
Theorem undo_leak_refuted : exists l s d s1 s2, consistent 256 100 s /\ pipes_low 100 l /\ dopen l s = Ok ((false, d), s1) /\
  undo_redirections 256 d s1 = Ok (tt, s2) /\ refused s2 = false /\ visible s 3 = None /\ visible s2 3 = Some (20%N, WRONLY).
Proof.
  pose (l := [mkRedir 300 RT_OUTPUT (Some (str "f"))]). pose (s := base [Yes; Give 3 (20%N, WRONLY)]).
  pose (d := snd (value (false, []) (dopen l s))). pose (s1 := state (dopen l s)).
  exists l, s, d, s1, (state (undo_redirections 256 d s1)). split; [apply base_consistent|]. split; [repeat constructor; discriminate|].
  split; [apply opened_ok; vm_compute; reflexivity|]. split; [apply state_ok; vm_compute; reflexivity|].
  split; [|split]; vm_compute; reflexivity.
Qed.
Print Assumptions undo_leak_refuted.
(** If the descriptor cannot be saved, the redirection is performed all the same and not
    undone. *)
Theorem undo_unsaved_refuted : exists l s d s1 s2, consistent 256 100 s /\ pipes_low 100 l /\ below_limit 256 l /\ dopen l s = Ok ((true, d), s1) /\
  undo_redirections 256 d s1 = Ok (tt, s2) /\ visible s 1 = Some (11%N, WRONLY) /\ visible s2 1 = Some (20%N, WRONLY).
Proof.
  pose (l := [mkRedir 1 RT_OUTPUT (Some (str "f"))]). pose (s := base [Fail EMFILE; Give 3 (20%N, WRONLY); Yes]).
  pose (d := snd (value (false, []) (dopen l s))). pose (s1 := state (dopen l s)).
  exists l, s, d, s1, (state (undo_redirections 256 d s1)). split; [apply base_consistent|]. split; [repeat constructor; discriminate|]. split; [repeat constructor|].
  split; [apply opened_ok; vm_compute; reflexivity|]. split; [apply state_ok; vm_compute; reflexivity|].
  split; vm_compute; reflexivity.
Qed.
Print Assumptions undo_unsaved_refuted.
(** A redirection of a closed high descriptor around a command that makes the shell open a
    file for itself: undoing closes the shell's descriptor.  ({ set -m; } 101>&-) *)
Theorem shell_fd_closed_refuted : exists l s d s1 s2 s3, consistent 256 100 s /\ pipes_low 100 l /\ below_limit 256 l /\ dopen l s = Ok ((true, d), s1) /\
  run wide_locale 256 100 false true true 512 Keep s1 = Ok (tt, s2) /\ shellfds s2 101 = true /\ file_at s2 101 = Some (50%N, RDWR) /\
  undo_redirections 256 d s2 = Ok (tt, s3) /\ shellfds s3 101 = true /\ tbl s3 101 = None.
Proof.
  pose (l := [mkRedir 101 RT_DUPOUT (Some (str "-"))]). pose (s := base [Yes; Give 3 (50%N, RDWR); Give 101 any]).
  pose (d := snd (value (false, []) (dopen l s))). pose (s1 := state (dopen l s)). pose (s2 := state (run wide_locale 256 100 false true true 512 Keep s1)).
  exists l, s, d, s1, s2, (state (undo_redirections 256 d s2)). split; [apply base_consistent|]. split; [repeat constructor; discriminate|]. split; [repeat constructor|].
  split; [apply opened_ok; vm_compute; reflexivity|]. split; [apply state_ok; vm_compute; reflexivity|].
  split; [vm_compute; reflexivity|]. split; [vm_compute; reflexivity|]. split; [apply state_ok; vm_compute; reflexivity|]. split; vm_compute; reflexivity.
Qed.
Print Assumptions shell_fd_closed_refuted.
(** A process that may have 4096 descriptors and has all below 1030 open: a copy saved at 1030
    makes the shell examine a descriptor outside its set when it forgets the copy. *)
Definition many (ans : list answer) : st :=
  mkSt (fun x => if (0 <=? x) && (x <? 1030) then Some ((10%N, RDWR), false) else None) (fun _ => false) (-1) true ans false.
Theorem fd_setsize_refuted : exists l s d s1, consistent 4096 100 s /\ pipes_low 100 l /\ below_limit 4096 l /\
  open_redirections wide_locale 4096 100 false true true 512 l s = Ok ((true, d), s1) /\ undo_redirections 4096 d s1 = UB.
Proof.
  pose (l := [mkRedir 1 RT_DUPOUT (Some (str "-"))]). pose (s := many [Give 1030 any]).
  pose (r := open_redirections wide_locale 4096 100 false true true 512 l s).
  exists l, s, (snd (value (false, []) r)), (state r). split; [|split; [|split; [|split]]].
  - split; [|split; [|now left]].
    + intros x Hx. cbn in Hx. destruct (Z.leb_spec 0 x), (Z.ltb_spec x 1030); cbn in Hx; try congruence. lia.
    + intros x Hx. discriminate.
  - repeat constructor; discriminate.
  - repeat constructor.
  - apply opened_ok; vm_compute; reflexivity.
  - vm_compute. reflexivity.
Qed.
Print Assumptions fd_setsize_refuted.
(** Copying a closed descriptor to itself is not reported outside the POSIX mode.  (3>&3) *)
Theorem self_copy_refuted : exists s d s1, consistent 256 100 s /\ visible s 3 = None /\
  dopen [mkRedir 3 RT_DUPOUT (Some (str "3"))] s = Ok ((true, d), s1).
Proof.
  pose (l := [mkRedir 3 RT_DUPOUT (Some (str "3"))]). pose (s := base [Yes]).
  exists s, (snd (value (false, []) (dopen l s))), (state (dopen l s)). split; [apply base_consistent|]. split; [reflexivity|].
  apply opened_ok; vm_compute; reflexivity.
Qed.
Print Assumptions self_copy_refuted.
