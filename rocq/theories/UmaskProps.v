(** Properties of umask (C74, C75). *)
From Coq Require Import Ascii String.
From Coq Require Import List NArith Bool Arith Lia.
From Verif Require Import Common UmaskModel UmaskSpec UmaskProofs.
Import ListNotations.
Local Open Scope N_scope.

(** ** C74: symbolic modes *)

(** umask with a symbolic mode permits what the mode says. *)
Theorem C74_symbolic md m : m < 512 ->
  exists m', set_umask (mode_text md) m = Ok (m', 0) /\ m' < 512 /\
    forall c p, permits m' c p = meaning md (permits m) c p.
Proof. apply set_umask_text. Qed.
Print Assumptions C74_symbolic.

(** A string of bytes that is neither a symbolic mode nor begins with a digit
    is rejected, and the mask stays as it is. *)
Theorem C74_rejected s m : m < 512 -> Forall (fun c => c < 256) s ->
  match s with c :: _ => is_digit c | [] => false end = false ->
  (forall md, s <> mode_text md) -> set_umask s m = Ok (m, 2).
Proof. apply set_umask_other. Qed.
Print Assumptions C74_rejected.

(** False of other characters: U+012B is taken for a plus sign. *)
Lemma mode_text_bytes md : Forall (fun c => c < 256) (mode_text md).
Proof.
  assert (CT : forall c, Forall (fun c => c < 256) (class_text c)) by (intros []; repeat constructor).
  assert (FM : forall A (f : A -> list N) l, (forall a, Forall (fun c => c < 256) (f a)) ->
    Forall (fun c => c < 256) (flat_map f l)).
  { intros A f l H. induction l; cbn; [constructor|]. apply Forall_app; auto. }
  assert (AT : forall a, Forall (fun c => c < 256) (action_text a)).
  { intros [o x]. apply Forall_app. split; [destruct o; repeat constructor|]. destruct x as [c|l]; cbn; auto.
    apply FM. intros [[| |]| |]; repeat constructor. }
  assert (CL : forall c, Forall (fun c => c < 256) (clause_text c)).
  { intros c. unfold clause_text. apply Forall_app. split; [|apply Forall_app; auto].
    apply FM. intros [c'|]; [apply CT|repeat constructor]. }
  apply Forall_app. split; [apply CL|]. apply FM. intros c. apply Forall_app. split; [repeat constructor|apply CL].
Qed.
Theorem C74_rejected_refuted : exists s m m', m < 512 /\ (forall md, s <> mode_text md) /\
  match s with c :: _ => is_digit c | [] => false end = false /\ set_umask s m = Ok (m', 0) /\ m' <> m.
Proof.
  exists [ch "u"; 299; ch "w"], 128, 0. split; [reflexivity|]. split.
  - intros md E. assert (H := mode_text_bytes md). rewrite <- E in H. inversion_clear H as [|? ? _ H'].
    inversion_clear H' as [|? ? H _]. discriminate H.
  - split; [reflexivity|]. split; [vm_compute; reflexivity|discriminate].
Qed.
Print Assumptions C74_rejected_refuted.

(** [umask u-x,g=u,o+r=X], mask 027. *)
Example C74_case :
  let md := ({| whos := [Class User]; action := (Minus, Letters [Right Exec]); actions := [] |},
             [{| whos := [Class Group]; action := (Assign, Copy User); actions := [] |};
              {| whos := [Class Other]; action := (Plus, Letters [Right Read]); actions := [(Assign, Letters [SearchX])] |}]) in
  mode_text md = str "u-x,g=u,o+r=X" /\ set_umask (mode_text md) 23 = Ok (70, 0).
Proof. vm_compute. auto. Qed.
Example C74_rejected_case : (forall md, str "q" <> mode_text md).
Proof.
  intros [c cs] E. unfold mode_text, clause_text in E. cbn [fst] in E.
  destruct (whos c) as [|[[| |]|] l]; try discriminate E. destruct (action c) as [[| |] x]; discriminate E.
Qed.

(** ** C75: octal masks and what umask prints *)

(** An octal number denotes its value. *)
Definition value (ds : list N) : N := fold_left (fun v d => 8 * v + d) ds 0.
Theorem C75_octal ds m : ds <> [] -> Forall (fun d => d < 8) ds ->
  set_umask (map (N.add (ch "0")) ds) m = if value ds <? 2 ^ 64 then Ok (value ds mod 512, 0) else Ok (m, 2).
Proof.
  intros NE FA.
  assert (O : forall l v, Forall (fun d => d < 8) l ->
    octal v (map (N.add (ch "0")) l) = (fold_left (fun v d => 8 * v + d) l v, [])).
  { induction l as [|d l IH]; intros v H; cbn [map octal fold_left]; [reflexivity|].
    inversion_clear H as [|? ? Hd Hl].
    assert (X : (ch "0" <=? ch "0" + d) && (ch "0" + d <=? ch "7") = true).
    { apply andb_true_iff. split; apply N.leb_le; change (ch "0") with 48; change (ch "7") with 55; lia. }
    rewrite X. replace (ch "0" + d - ch "0") with d by lia. apply IH. exact Hl. }
  unfold set_umask.
  assert (D : match map (N.add (ch "0")) ds with c :: _ => is_digit c | [] => false end = true).
  { destruct ds as [|d ds]; [congruence|]. inversion_clear FA as [|? ? Hd _]. cbn [map]. unfold is_digit.
    apply andb_true_iff. split; apply N.leb_le; change (ch "0") with 48; change (ch "9") with 57; lia. }
  rewrite D, (O ds 0 FA). fold (value ds). rewrite orb_false_r, N.leb_antisym.
  destruct (value ds <? 2 ^ 64); cbn [negb]; [|reflexivity]. unfold sys_umask.
  change (N.lor (N.lor S_IRWXU S_IRWXG) S_IRWXO) with (N.ones 9). change 511 with (N.ones 9).
  rewrite <- N.land_assoc, N.land_diag, N.land_ones. reflexivity.
Qed.
Print Assumptions C75_octal.

(** What umask prints, given to umask later, restores the mask whatever it is
    then. *)
Theorem C75_print_octal m m0 : m < 512 -> set_umask (print_umask_octal m) m0 = Ok (m, 0).
Proof.
  intros H.
  assert (A : forallb (fun i => match octal 0 (print_umask_octal i) with
      | (v, e) => (v =? i) && match e with [] => true | _ => false end end
      && match print_umask_octal i with c :: _ => is_digit c | [] => false end)
    (map N.of_nat (seq 0 512)) = true) by (vm_compute; reflexivity).
  rewrite forallb_forall in A. specialize (A m).
  assert (I : In m (map N.of_nat (seq 0 512))).
  { apply in_map_iff. exists (N.to_nat m). split; [apply N2Nat.id|]. apply in_seq. lia. }
  apply A in I. unfold set_umask. destruct (octal 0 (print_umask_octal m)) as [v e].
  apply andb_true_iff in I as [I D]. apply andb_true_iff in I as [I E]. apply N.eqb_eq in I. subst v. rewrite D.
  destruct e; [|discriminate E]. rewrite orb_false_r.
  assert (X : 2 ^ 64 <=? m = false) by (apply N.leb_gt; eapply N.lt_trans; [exact H|reflexivity]).
  rewrite X. f_equal. f_equal. unfold sys_umask.
  change (N.lor (N.lor S_IRWXU S_IRWXG) S_IRWXO) with (N.ones 9). change 511 with (N.ones 9).
  rewrite <- N.land_assoc, N.land_diag, N.land_ones. apply N.mod_small. exact H.
Qed.
Print Assumptions C75_print_octal.

Theorem C75_print_symbolic m m0 : m < 512 -> m0 < 512 -> set_umask (print_umask_symbolic m) m0 = Ok (m, 0).
Proof.
  intros H H0.
  set (ls c := (if permits m c Read then [Right Read] else []) ++ (if permits m c Write then [Right Write] else []) ++
               (if permits m c Exec then [Right Exec] else [])).
  set (cl c := {| whos := [Class c]; action := (Assign, Letters (ls c)); actions := [] |}).
  assert (T : print_umask_symbolic m = mode_text (cl User, [cl Group; cl Other])).
  { unfold mode_text, clause_text, action_text, print_umask_symbolic, cl, ls, perms_text.
    cbn [fst snd flat_map whos action actions].
    change S_IRUSR with (2 ^ index User Read). change S_IWUSR with (2 ^ index User Write).
    change S_IXUSR with (2 ^ index User Exec). change S_IRGRP with (2 ^ index Group Read).
    change S_IWGRP with (2 ^ index Group Write). change S_IXGRP with (2 ^ index Group Exec).
    change S_IROTH with (2 ^ index Other Read). change S_IWOTH with (2 ^ index Other Write).
    change S_IXOTH with (2 ^ index Other Exec). rewrite !land_one.
    assert (FL : forall a b c : bool, flat_map letter_text ((if a then [Right Read] else []) ++
      (if b then [Right Write] else []) ++ (if c then [Right Exec] else [])) =
      (if a then str "r" else []) ++ (if b then str "w" else []) ++ (if c then str "x" else []))
      by (intros [] [] []; reflexivity).
    rewrite !FL. unfold permits. rewrite <- !app_assoc, !app_nil_r. reflexivity. }
  rewrite T. destruct (set_umask_text (cl User, [cl Group; cl Other]) m0 H0) as (m' & E & L & P). rewrite E.
  f_equal. f_equal. apply same_mask; auto. intros c p. rewrite P.
  assert (G : forall f c p, given f (Letters (ls c)) p = permits m c p).
  { intros f k q. unfold ls. cbn [given]. destruct (permits m k Read) eqn:E1, (permits m k Write) eqn:E2, (permits m k Exec) eqn:E3, q;
      cbn; congruence. }
  unfold meaning, apply_clause. cbn [fst snd fold_left cl action actions whos]. unfold act. cbn [fst snd].
  destruct c; cbn; apply G.
Qed.
Print Assumptions C75_print_symbolic.
Example C75_case : print_umask_octal 18 = str "0022" /\ print_umask_symbolic 18 = str "u=rwx,g=rx,o=rx" /\
  set_umask (str "8") 18 = Ok (18, 2) /\ set_umask (str "02000000000000000000000") 18 = Ok (18, 2).
Proof. vm_compute. auto. Qed.
