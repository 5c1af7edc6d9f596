(** Lemmas on redirections. *)
From Coq Require Import Ascii String.
From Coq Require Import List NArith ZArith Bool Lia.
From Coq Require Import ZifyBool.
From Verif Require Import Common Locale NumModel RedirModel RedirSpec.
Import ListNotations.
Open Scope res_scope.
Open Scope Z_scope.

Section Proofs.
Variable L : locale.
Variable OM MIN : Z.
Variable posix clobber sockets : bool.
Variable PB : Z.
Hypothesis HOM : OM <= FD_SETSIZE.
Hypothesis HMIN : 0 <= MIN.

(** ** Changes of the table *)
Definition keeps (s s' : st) : Prop := shellfds s' = shellfds s /\ shellfdmax s' = shellfdmax s /\ (refused s = true -> refused s' = true).
Lemma keeps_refl s : keeps s s.
Proof. repeat split; auto. Qed.
Lemma keeps_trans s s1 s2 : keeps s s1 -> keeps s1 s2 -> keeps s s2.
Proof. intros (A & B & C) (A' & B' & C'). repeat split; congruence || auto. Qed.
Lemma set_eq {A} (f : Z -> A) k v : set f k v k = v.
Proof. unfold set. now rewrite Z.eqb_refl. Qed.
Lemma set_ne {A} (f : Z -> A) k v n : n <> k -> set f k v n = f n.
Proof. unfold set. intros H. destruct (Z.eqb_spec n k); congruence. Qed.
Lemma change_set {A} (f : Z -> A) k v : change f k v (set f k v).
Proof. split; [apply set_eq|]. intros. now apply set_ne. Qed.
Lemma same_refl {A} (t : Z -> A) : same t t.
Proof. intros x. reflexivity. Qed.
Lemma same_trans {A} (t u v : Z -> A) : same t u -> same u v -> same t v.
Proof. intros H1 H2 x. now rewrite H1. Qed.
Lemma undone {A} (t u v : Z -> A) k x : change t k x u -> change u k (t k) v -> same t v.
Proof. intros [A1 A2] [B1 B2] fd. destruct (Z.eq_dec fd k) as [->|N]; [congruence|]. rewrite B2, A2 by exact N. reflexivity. Qed.
Lemma same_change {A} (t u v : Z -> A) k x : same t u -> change u k x v -> change t k x v.
Proof. intros H [A1 A2]. split; [exact A1|]. intros fd N. rewrite A2 by exact N. now rewrite H. Qed.
Lemma change_same {A} (t u v : Z -> A) k x : change t k x u -> same u v -> change t k x v.
Proof. intros [A1 A2] H. split; [now rewrite <- H|]. intros fd N. rewrite <- H. now apply A2. Qed.

Lemma free_spec s fd : free OM s fd = true -> 0 <= fd < OM /\ tbl s fd = None.
Proof. unfold free. destruct (tbl s fd); [rewrite andb_false_r; discriminate|]. intros H. split; [lia|reflexivity]. Qed.

(** ** Functions that open a descriptor *)
Definition opens (r : option Z) (s s' : st) : Prop :=
  keeps s s' /\
  match r with
  | None => same (tbl s) (tbl s')
  | Some fd => free OM s fd = true /\ exists f, change (tbl s) fd (Some (f, false)) (tbl s')
  end.
Definition opener (m : M (option Z)) : Prop := forall s, exists r s', m s = Ok (r, s') /\ opens r s s'.

Lemma next_ok s : exists a s', next s = Ok (a, s') /\ keeps s s' /\ tbl s' = tbl s.
Proof. unfold next. destruct (answers s); eexists _, _; (split; [reflexivity|]); (split; [now repeat split|reflexivity]). Qed.
Lemma opens_next r s s1 s2 : keeps s s1 -> tbl s1 = tbl s -> opens r s1 s2 -> opens r s s2.
Proof. intros K T [K' O]. split; [now apply keeps_trans with s1|]. unfold free in *. now rewrite T in O. Qed.
Lemma opens_after r s s1 s2 : opens r s s1 -> keeps s1 s2 -> tbl s2 = tbl s1 -> opens r s s2.
Proof. intros [K O] K' T. split; [now apply keeps_trans with s1|]. now rewrite T. Qed.
Lemma opens_none s s1 s2 r : opens None s s1 -> opens r s1 s2 -> opens r s s2.
Proof.
  intros [K O] [K' O']. split; [now apply keeps_trans with s1|]. destruct r as [fd|].
  - destruct O' as [F [f C]]. split; [|exists f; now apply same_change with (tbl s1)]. unfold free in *. now rewrite (O fd).
  - now apply same_trans with (tbl s1).
Qed.
Lemma sys_open_ok s : exists r s', sys_open OM s = Ok (r, s') /\ opens (match r with inl fd => Some fd | inr _ => None end) s s'.
Proof.
  unfold sys_open, bind. destruct (next_ok s) as (a & s1 & -> & K & T). cbn [rbind].
  assert (N : forall e : errno, opens None s s1) by (intros; split; [exact K|rewrite T; apply same_refl]).
  destruct a as [[e|fd f|? ? ? ?| |]|]; unfold ret; try (eexists _, _; split; [reflexivity|]; apply (N EMFILE)).
  destruct (free OM s1 fd) eqn:F; [|eexists _, _; split; [reflexivity|]; apply (N EMFILE)].
  eexists _, _. split; [reflexivity|]. apply opens_next with s1; auto. split; [now repeat split|]. split; [exact F|]. exists f. apply change_set.
Qed.
Lemma close_opened fd s s1 : opens (Some fd) s s1 -> exists s2, xclose fd s1 = Ok (tt, s2) /\ opens None s s2.
Proof.
  intros [K [F [f C]]]. eexists. split; [reflexivity|]. split; [exact K|]. apply free_spec in F as [_ F]. cbn [with_tbl tbl].
  apply undone with (tbl s1) fd (Some (f, false)); [exact C|]. rewrite F. apply change_set.
Qed.
Lemma open_socket_ok : opener (open_socket OM).
Proof.
  intros s. unfold open_socket, bind. destruct (next_ok s) as (a & s1 & -> & K & T). cbn [rbind].
  assert (N : opens None s s1) by (split; [exact K|rewrite T; apply same_refl]).
  destruct a as [[| | | |]|]; unfold ret; try (eexists _, _; split; [reflexivity|exact N]).
  destruct (sys_open_ok s1) as ([fd|e] & s2 & -> & O); cbn [rbind]; [|eexists _, _; split; [reflexivity|now apply opens_next with s1]].
  destruct (next_ok s2) as (c & s3 & -> & K3 & T3). cbn [rbind].
  assert (O3 : opens (Some fd) s s3) by (apply opens_after with s2; auto; now apply opens_next with s1).
  destruct (close_opened fd s s3 O3) as (s4 & E & O4).
  destruct c as [[| | | |]|]; try (rewrite E; eexists _, _; split; [reflexivity|exact O4]).
  eexists _, _. split; [reflexivity|exact O3].
Qed.
Lemma open_file_ok path excl : opener (open_file OM sockets path excl).
Proof.
  intros s. unfold open_file, bind.
  assert (X : exists r s1, (let! (a, s') := sys_open OM s in
      match a with
      | inl fd => ret (Some fd)
      | inr e => if excl && errno_eqb e EEXIST then fun s => let! (r, s') := sys_open OM s in match r with inl fd => fun s => let! (reg, s') := next s in match reg with Some Yes => fun s => let! (_, s') := xclose fd s in ret None s' | _ => ret (Some fd) end s' | inr _ => ret None end s' else ret None
      end s') = Ok (r, s1) /\ opens r s s1).
  { destruct (sys_open_ok s) as ([fd|e] & s1 & -> & O); cbn [rbind]; [eexists _, _; split; [reflexivity|exact O]|].
    destruct (excl && errno_eqb e EEXIST); [|eexists _, _; split; [reflexivity|exact O]].
    destruct (sys_open_ok s1) as ([fd|e'] & s2 & -> & O2); cbn [rbind]; (pose proof (opens_none _ _ _ _ O O2) as O'); [|eexists _, _; split; [reflexivity|exact O']].
    destruct (next_ok s2) as (c & s3 & -> & K3 & T3). cbn [rbind].
    assert (O3 : opens (Some fd) s s3) by (now apply opens_after with s2).
    destruct (close_opened fd s s3 O3) as (s4 & E & O4).
    destruct c as [[| | | |]|]; try (eexists _, _; split; [reflexivity|exact O3]). rewrite E. eexists _, _. split; [reflexivity|exact O4]. }
  destruct X as (r & s1 & E & O). 
  match goal with |- exists _ _, ?t = _ /\ _ => replace t with (let! (r, s1) := (let! (a, s') := sys_open OM s in
      match a with
      | inl fd => ret (Some fd)
      | inr e => if excl && errno_eqb e EEXIST then fun s => let! (r, s') := sys_open OM s in match r with inl fd => fun s => let! (reg, s') := next s in match reg with Some Yes => fun s => let! (_, s') := xclose fd s in ret None s' | _ => ret (Some fd) end s' | inr _ => ret None end s' else ret None
      end s') in match r with
  | Some fd => ret (Some fd)
  | None =>
    if sockets then
      do r <- (if prefix (str "/dev/tcp/") path then open_socket OM else ret None);
      match r with
      | Some fd => ret (Some fd)
      | None => if prefix (str "/dev/udp/") path then open_socket OM else ret None
      end
    else ret None
  end s1) end.
  2:{ destruct (sys_open OM s) as [[[fd|e] s']| |]; cbn [rbind]; reflexivity. }
  rewrite E. cbn [rbind]. destruct r as [fd|]; [eexists _, _; split; [reflexivity|exact O]|].
  destruct sockets; [|eexists _, _; split; [reflexivity|exact O]]. unfold bind.
  assert (Y : forall p s, opens None s s -> exists r s', (if prefix p path then open_socket OM else ret None) s = Ok (r, s') /\ opens r s s').
  { intros p s0 O0. destruct (prefix p path); [apply open_socket_ok|]. eexists _, _. split; [reflexivity|exact O0]. }
  assert (R : forall s, opens None s s) by (intros; split; [apply keeps_refl|apply same_refl]).
  destruct (Y (str "/dev/tcp/") s1 (R _)) as ([fd|] & s2 & -> & O2); cbn [rbind]; (pose proof (opens_none _ _ _ _ O O2) as O'); [eexists _, _; split; [reflexivity|exact O']|].
  destruct (Y (str "/dev/udp/") s2 (R _)) as (r & s3 & -> & O3). eexists _, _. split; [reflexivity|]. now apply opens_none with s2.
Qed.
Lemma sys_pipe_ok s : exists r s', sys_pipe OM s = Ok (r, s') /\ keeps s s' /\
  match r with
  | None => same (tbl s) (tbl s')
  | Some (a, b) => a <> b /\ free OM s a = true /\ free OM s b = true /\ exists t f g, change (tbl s) a (Some (f, false)) t /\ change t b (Some (g, false)) (tbl s')
  end.
Proof.
  unfold sys_pipe, bind. destruct (next_ok s) as (a & s1 & -> & K & T). cbn [rbind].
  destruct a as [[e|fd f|fd1 f1 fd2 f2| |]|]; unfold ret; try (eexists _, _; split; [reflexivity|]; split; [exact K|rewrite T; apply same_refl]).
  destruct (free OM s1 fd1 && free OM s1 fd2 && negb (fd1 =? fd2)) eqn:F; [|eexists _, _; split; [reflexivity|]; split; [exact K|rewrite T; apply same_refl]].
  eexists _, _. split; [reflexivity|]. split; [exact K|]. apply andb_prop in F as [F F3]. apply andb_prop in F as [F1 F2]. unfold free in *. rewrite T in *.
  split; [lia|]. split; [assumption|]. split; [assumption|]. cbn [with_tbl tbl]. eexists _, _, _. split; apply change_set.
Qed.
(** Closing one side of a new pipe *)
Lemma half_open a b s s1 t f g (x : Z) : a <> b -> free OM s a = true -> free OM s b = true -> keeps s s1 ->
  change (tbl s) a (Some (f, false)) t -> change t b (Some (g, false)) (tbl s1) -> x = a \/ x = b ->
  exists s2, xclose x s1 = Ok (tt, s2) /\ opens (Some (a + b - x)) s s2.
Proof.
  intros N Fa Fb K [A1 A2] [B1 B2] Hx. eexists. split; [reflexivity|]. split; [exact K|].
  assert (Y : a + b - x = a /\ x = b \/ a + b - x = b /\ x = a) by lia. cbn [with_tbl tbl].
  apply free_spec in Fa as Ha. apply free_spec in Fb as Hb. destruct Ha as [_ Ha], Hb as [_ Hb].
  destruct Y as [[-> ->]|[-> ->]].
  - split; [exact Fa|]. exists f. split; [rewrite set_ne, B2 by exact N; exact A1|]. intros fd Nfd. destruct (Z.eq_dec fd b) as [->|Nb]; [rewrite set_eq; congruence|]. rewrite set_ne, B2, A2 by auto. reflexivity.
  - split; [exact Fb|]. exists g. split; [rewrite set_ne by auto; exact B1|]. intros fd Nfd. destruct (Z.eq_dec fd a) as [->|Nb]; [rewrite set_eq; congruence|]. rewrite set_ne, B2, A2 by auto. reflexivity.
Qed.
Lemma open_herestring_ok text nl : opener (open_herestring OM PB text nl).
Proof.
  intros s.
  assert (T : opener (do r <- sys_open OM; ret (match r with inl fd => Some fd | inr _ => None end))).
  { intros s0. unfold bind. destruct (sys_open_ok s0) as (r & s1 & -> & O). cbn [rbind]. eexists _, _. split; [reflexivity|exact O]. }
  assert (P : opener (if Z.of_nat (length text) + (if nl then 1 else 0) <=? PB then
      do p <- sys_pipe OM; match p with Some (pin, pout) => do _ <- xclose pout; ret (Some pin) | None => do r <- sys_open OM; ret (match r with inl fd => Some fd | inr _ => None end) end
      else do r <- sys_open OM; ret (match r with inl fd => Some fd | inr _ => None end))).
  { destruct (_ <=? PB); [|exact T]. intros s0. unfold bind at 1. destruct (sys_pipe_ok s0) as ([[a b]|] & s1 & -> & K & O); cbn [rbind].
    - destruct O as (N & Fa & Fb & t & f & g & C1 & C2). unfold bind. destruct (half_open a b s0 s1 t f g b N Fa Fb K C1 C2 (or_intror eq_refl)) as (s2 & -> & O). cbn [rbind].
      replace (a + b - b) with a in O by lia. eexists _, _. split; [reflexivity|exact O].
    - destruct (T s1) as (r & s2 & -> & O2). eexists _, _. split; [reflexivity|]. apply opens_none with s1; auto. now split. }
  unfold open_herestring. cbv zeta.
  destruct text as [|c text]; [destruct nl; [apply P|]|apply P].
  unfold bind at 1. destruct (sys_open_ok s) as ([fd|e] & s1 & -> & O); cbn [rbind]; [eexists _, _; split; [reflexivity|exact O]|].
  destruct (P s1) as (r & s2 & E & O2). cbn [length] in E. exists r, s2. split; [exact E|]. now apply opens_none with s1.
Qed.
Lemma open_process_ok input : opener (open_process_redirection OM input).
Proof.
  intros s. unfold open_process_redirection, bind. destruct (sys_pipe_ok s) as ([[a b]|] & s1 & -> & K & O); cbn [rbind]; [|eexists _, _; split; [reflexivity|now split]].
  destruct O as (N & Fa & Fb & t & f & g & C1 & C2). destruct (next_ok s1) as (c & s2 & -> & K2 & T2). cbn [rbind].
  assert (K' : keeps s s2) by (now apply keeps_trans with s1). rewrite <- T2 in C2.
  destruct (half_open a b s s2 t f g a N Fa Fb K' C1 C2 (or_introl eq_refl)) as (sa & Ea & Oa).
  destruct (half_open a b s s2 t f g b N Fa Fb K' C1 C2 (or_intror eq_refl)) as (sb & Eb & Ob).
  replace (a + b - a) with b in Oa by lia. replace (a + b - b) with a in Ob by lia.
  destruct (close_opened b s sa Oa) as (sc & Ec & Oc).
  destruct c as [[| | | |]|]; try (rewrite Ea; cbn [rbind]; rewrite Ec; eexists _, _; split; [reflexivity|exact Oc]).
  destruct input; [rewrite Eb|rewrite Ea]; eexists _, _; (split; [reflexivity|assumption]).
Qed.

(** ** Duplicating descriptors *)
Lemma dup2_loop_ok old new l : forall s, let (ok, s') := dup2_loop OM old new l s in keeps s s' /\
  if ok then exists f b, tbl s old = Some (f, b) /\ 0 <= new < OM /\ (if old =? new then tbl s' = tbl s else change (tbl s) new (Some (f, false)) (tbl s'))
  else tbl s' = tbl s /\ (refused s' = true \/ tbl s old = None \/ ~ 0 <= new < OM).
Proof.
  induction l as [|a l IH]; intros s; cbn [dup2_loop].
  - destruct (tbl s old) as [[f b]|] eqn:E; [|split; [now repeat split|]; split; [reflexivity|tauto]].
    destruct ((new <? 0) || (OM <=? new)) eqn:R; [split; [now repeat split|]; split; [reflexivity|]; right; right; lia|].
    destruct (Z.eqb_spec old new) as [->|N]; (split; [now repeat split|]); exists f, b; (split; [exact E || reflexivity|]); (split; [lia|]); [reflexivity|]. cbn [with_tbl tbl]. apply change_set.
  - destruct a as [[]|?fd ?g|?fd ?g ?fd ?g| |]; cbn [tl]; try (apply IH);
      (destruct (tbl s old) as [[f b]|] eqn:E; [|split; [now repeat split|]; split; [reflexivity|tauto]];
       destruct ((new <? 0) || (OM <=? new)) eqn:R; [split; [now repeat split|]; split; [reflexivity|]; right; right; lia|]);
      try (split; [now repeat split|]; split; [reflexivity|]; now left);
      (destruct (Z.eqb_spec old new) as [->|N]; (split; [now repeat split|]); exists f, b; (split; [exact E || reflexivity|]); (split; [lia|]); [reflexivity|]; cbn [with_tbl tbl]; apply change_set).
Qed.
Lemma xdup2_ok old new s : exists ok s', xdup2 OM old new s = Ok (ok, s') /\ keeps s s' /\
  if ok then exists f b, tbl s old = Some (f, b) /\ 0 <= new < OM /\ (if old =? new then tbl s' = tbl s else change (tbl s) new (Some (f, false)) (tbl s'))
  else (if old =? new then tbl s' = tbl s else change (tbl s) new None (tbl s')) /\ (refused s' = true \/ tbl s old = None \/ ~ 0 <= new < OM).
Proof.
  unfold xdup2, bind. destruct (Z.eqb_spec old new) as [E|N].
  - cbn [rbind ret]. pose proof (dup2_loop_ok old new (answers s) s) as D. destruct (dup2_loop OM old new (answers s) s) as [ok s']. exists ok, s'. split; [reflexivity|].
    destruct D as [K D]. split; [exact K|]. destruct (Z.eqb_spec old new); [|contradiction]. destruct ok; exact D.
  - cbn [rbind xclose]. set (s1 := with_tbl (set (tbl s) new None) s). pose proof (dup2_loop_ok old new (answers s1) s1) as D.
    destruct (dup2_loop OM old new (answers s1) s1) as [ok s']. exists ok, s'. split; [reflexivity|]. destruct D as [K D]. split; [exact K|].
    destruct (Z.eqb_spec old new); [contradiction|]. destruct ok.
    + destruct D as (f & b & E & R & C1 & C2). exists f, b. cbn [s1 with_tbl tbl] in *. rewrite set_ne in E by exact N. split; [exact E|]. split; [exact R|]. split; [exact C1|].
      intros fd Hfd. rewrite C2 by exact Hfd. unfold s1. cbn [with_tbl tbl]. now apply set_ne.
    + destruct D as [T D]. split; [rewrite T; apply change_set|]. cbn [s1 with_tbl tbl] in D. rewrite set_ne in D by exact N. exact D.
Qed.
Lemma sys_dupfd_ok fd min c s : exists r s', sys_dupfd OM fd min c s = Ok (r, s') /\ keeps s s' /\
  match r with
  | inl n => free OM s n = true /\ min <= n /\ exists f b, tbl s fd = Some (f, b) /\ change (tbl s) n (Some (f, c)) (tbl s')
  | inr EBADF => tbl s fd = None /\ tbl s' = tbl s
  | inr _ => tbl s' = tbl s
  end.
Proof.
  unfold sys_dupfd, bind. destruct (next_ok s) as (a & s1 & -> & K & T). cbn [rbind]. unfold free. rewrite <- T.
  destruct a as [[[]|n ?g|?n ?g ?n ?g| |]|]; cbn [ret]; try (eexists _, _; split; [reflexivity|]; split; [exact K|reflexivity]);
    (destruct (tbl s1 fd) as [[f b]|] eqn:E; [|eexists _, _; split; [reflexivity|]; split; [exact K|split; reflexivity]]);
    try (eexists _, _; split; [reflexivity|]; split; [exact K|reflexivity]).
  fold (free OM s1 n). destruct (free OM s1 n && (min <=? n)) eqn:F; [|eexists _, _; split; [reflexivity|]; split; [exact K|reflexivity]].
  eexists _, _. split; [reflexivity|]. split; [exact K|]. apply andb_prop in F as [F1 F2]. fold (free OM s1 n). split; [exact F1|]. split; [lia|]. exists f, b. split; [reflexivity|]. apply change_set.
Qed.
(** A new shell descriptor *)
Definition copied (fd : Z) (r : Z + errno) (s s' : st) : Prop :=
  (refused s = true -> refused s' = true) /\
  match r with
  | inl n => free OM s n = true /\ MIN <= n /\ (exists f b, tbl s fd = Some (f, b) /\ change (tbl s) n (Some (f, true)) (tbl s')) /\
      change (shellfds s) n true (shellfds s') /\ shellfdmax s' = Z.max n (shellfdmax s)
  | inr e => keeps s s' /\ same (tbl s) (tbl s') /\ (if errno_eqb e EBADF then tbl s fd = None else refused s' = true)
  end.
Lemma copy_ok fd s : exists r s', copy_as_shellfd OM MIN fd s = Ok (r, s') /\ copied fd r s s'.
Proof.
  assert (F : forall s, exists r s', (do r <- sys_dupfd OM fd MIN true; match r with inl newfd => do _ <- add_shellfd MIN newfd; ret r | inr e => do _ <- (if errno_eqb e EBADF then ret tt else refuse); ret r end) s = Ok (r, s') /\ copied fd r s s').
  { clear s. intros s. unfold bind. destruct (sys_dupfd_ok fd MIN true s) as ([n|e] & s1 & -> & K & D); cbn [rbind].
    - destruct D as (F & H & f & b & E & C). unfold add_shellfd. replace (n <? MIN) with false by lia. cbn [rbind ret]. eexists _, _. split; [reflexivity|].
      split; [exact (proj2 (proj2 K))|]. split; [exact F|]. split; [exact H|]. split; [eauto|]. cbn [shellfds shellfdmax]. apply free_spec in F as [F _].
      replace (n <? FD_SETSIZE) with true by lia. destruct K as (-> & -> & _). split; [apply change_set|reflexivity].
    - destruct e; cbn [errno_eqb]; unfold refuse, ret; cbn [rbind]; eexists _, _; (split; [reflexivity|]); (split; [try (exact (proj2 (proj2 K))); reflexivity|]);
        cbn [errno_eqb]; (split; [destruct K as (K1 & K2 & K3); repeat split; auto|]); try (destruct D as [D1 D2]; rewrite D2; split; [apply same_refl|exact D1]);
        cbn [tbl]; rewrite D; (split; [apply same_refl|reflexivity]). }
  unfold copy_as_shellfd. cbv zeta. destruct (dupfd_cloexec_ok s); [|apply F].
  unfold bind at 1. destruct (sys_dupfd_ok fd MIN true s) as (r & s1 & E & K & D). rewrite E. cbn [rbind].
  destruct (errno_eqb EINVAL (match r with inr e => e | _ => EBADF end)) eqn:I.
  - assert (r = inr EINVAL) as -> by (destruct r as [|[]]; cbn in I; congruence). 
    set (s2 := mkSt (tbl s1) (shellfds s1) (shellfdmax s1) false (answers s1) (refused s1)). destruct (F s2) as (r & s3 & E2 & C). exists r, s3. split; [exact E2|].
    destruct C as [C1 C2]. split; [intros H; apply C1; cbn; now apply K|]. unfold free in *. cbn [s2 tbl shellfds shellfdmax] in C2. rewrite D in C2. destruct K as (K1 & K2 & K3). rewrite K1, K2 in C2.
    destruct r as [n|e]; [exact C2|]. destruct C2 as [(C21 & C22 & C23) C24]. split; [|exact C24]. repeat split; [cbn in C21; congruence|cbn in C22; congruence|auto].
  - destruct (F s) as (r' & s' & E' & C). unfold bind at 1 in E'. rewrite E in E'. cbn [rbind] in E'. exists r', s'. split; [|exact C]. rewrite <- E'. destruct r as [n|[]]; try reflexivity. discriminate.
Qed.

(** ** Consistency *)
Lemma consistent_keeps s s' : consistent OM MIN s -> keeps s s' -> (forall fd, shellfds s fd = true -> tbl s' fd = tbl s fd) ->
  (forall fd, tbl s' fd <> None -> tbl s fd <> None \/ 0 <= fd < OM) -> consistent OM MIN s'.
Proof.
  intros (C1 & C2 & C3) (K1 & K2 & _) H1 H2. split; [|split].
  - intros fd H. destruct (H2 fd H); auto.
  - rewrite K1, K2. intros fd H. rewrite H1 by exact H. auto.
  - now rewrite K1, K2.
Qed.
Lemma consistent_copied fd n s s' : consistent OM MIN s -> copied fd (inl n) s s' -> consistent OM MIN s'.
Proof.
  intros (C1 & C2 & C3) (_ & F & H & (f & b & E & T1 & T2) & (S1 & S2) & X). apply free_spec in F as [F F'].
  split; [|split].
  - intros x Hx. destruct (Z.eq_dec x n) as [->|N]; [exact F|]. rewrite T2 in Hx by exact N. auto.
  - intros x Hx. rewrite X. destruct (Z.eq_dec x n) as [->|N]; [split; [lia|eauto]|]. rewrite S2 in Hx by exact N. rewrite T2 by exact N. destruct (C2 x Hx) as [? ?]. split; [lia|assumption].
  - right. rewrite X. destruct (Z.max_spec n (shellfdmax s)) as [[Hm ->]|[Hm ->]]; [|exact S1].
    rewrite S2 by lia. destruct C3 as [C3|C3]; [lia|exact C3].
Qed.
Lemma is_shellfd_ok s fd : consistent OM MIN s -> 0 <= fd -> exists b, is_shellfd fd s = Ok (b, s) /\ (b = false -> shellfds s fd = false /\ fd < FD_SETSIZE) /\ (shellfds s fd = true -> b = true).
Proof.
  intros _ H. unfold is_shellfd. eexists. split; [reflexivity|]. destruct (shellfds s fd); cbn [andb]; rewrite ?andb_true_r, ?andb_false_r; split; intros; try split; lia || reflexivity || (apply orb_false_elim in H0; lia).
Qed.

(** ** One redirection *)

(** Only descriptors in [T] and new ones are changed. *)
Definition modest (T : list Z) (s s' : st) : Prop :=
  keeps s s' /\ (forall x, ~ In x T -> tbl s x <> None -> tbl s' x = tbl s x) /\ (forall x, tbl s' x <> None -> tbl s x <> None \/ 0 <= x < OM).
(** Nothing is left open. *)
Definition neat (T : list Z) (s s' : st) : Prop := forall x, ~ In x T -> tbl s' x = tbl s x.
Lemma modest_refl T s : modest T s s.
Proof. split; [apply keeps_refl|]. auto. Qed.
Lemma modest_same T s s' : keeps s s' -> same (tbl s) (tbl s') -> modest T s s' /\ neat T s s'.
Proof. intros K S. split; [split; [exact K|]; split; intros x; rewrite (S x); auto|]. intros x _. now rewrite S. Qed.
Lemma modest_change T s s' k v : keeps s s' -> change (tbl s) k v (tbl s') -> In k T -> (v <> None -> 0 <= k < OM) -> modest T s s' /\ neat T s s'.
Proof.
  intros K [A1 A2] Hk Hv. assert (N : neat T s s') by (intros x Hx; apply A2; congruence). split; [|exact N]. split; [exact K|]. split; [intros x Hx _; now apply N|].
  intros x Hx. destruct (Z.eq_dec x k) as [->|D]; [right; apply Hv; congruence|]. rewrite A2 in Hx by exact D. now left.
Qed.
Lemma visible_change s s' k f b : keeps s s' -> shellfds s k = false -> change (tbl s) k (Some (f, b)) (tbl s') -> change (visible s) k (Some f) (visible s').
Proof.
  intros (K & _) Hk [A1 A2]. split.
  - unfold visible, file_at. rewrite K, Hk, A1. reflexivity.
  - intros x Hx. unfold visible, file_at. now rewrite K, A2.
Qed.
Lemma visible_close s s' k : keeps s s' -> change (tbl s) k None (tbl s') -> change (visible s) k None (visible s').
Proof.
  intros (K & _) [A1 A2]. split.
  - unfold visible, file_at. rewrite K, A1. now destruct (shellfds s k).
  - intros x Hx. unfold visible, file_at. now rewrite K, A2.
Qed.

(** Moving a newly opened descriptor *)
Lemma move_opened fd o s1 s2 : opens (Some fd) s1 s2 -> 0 <= o -> exists ok s3, move_fd OM fd o false s2 = Ok (ok, s3) /\ modest [o] s1 s3 /\
  (refused s3 = false -> o < OM -> neat [o] s1 s3) /\ (ok = true -> exists f, change (tbl s1) o (Some (f, false)) (tbl s3) /\ 0 <= o < OM).
Proof.
  intros O Ho. unfold move_fd. destruct O as [K [F [f C]]]. apply free_spec in F as F'. destruct F' as [Fr Fn].
  destruct (Z.eqb_spec fd o) as [->|N].
  { exists true, s2. split; [reflexivity|]. destruct (modest_change [o] s1 s2 o _ K C (or_introl eq_refl) (fun _ => Fr)) as [Mo Ne]. split; [exact Mo|]. split; [auto|]. intros _. exists f. split; [exact C|lia]. }
  replace (0 <=? fd) with true by lia. unfold bind. destruct (xdup2_ok fd o s2) as (ok & s3 & -> & K3 & D). cbn [rbind]. destruct (Z.eqb_spec fd o) as [|_]; [contradiction|].
  destruct C as [C1 C2]. destruct ok.
  - destruct D as (g & b & E & R & D1 & D2). rewrite C1 in E. injection E as <- <-. cbn [rbind xclose ret].
    eexists _, _. split; [reflexivity|]. set (s4 := with_tbl _ s3). assert (K4 : keeps s1 s4) by (apply keeps_trans with s2; auto).
    assert (C4 : change (tbl s1) o (Some (f, false)) (tbl s4)).
    { subst s4. cbn [with_tbl tbl]. split; [now rewrite set_ne, D1 by auto|]. intros x Hx. destruct (Z.eq_dec x fd) as [->|Nx]; [rewrite set_eq; auto|]. rewrite set_ne, D2, C2 by auto. reflexivity. }
    destruct (modest_change [o] s1 s4 o _ K4 C4 (or_introl eq_refl) (fun _ => R)) as [Mo Ne]. split; [exact Mo|]. split; [auto|]. eauto.
  - exists false, s3. split; [reflexivity|]. destruct D as [[D1 D2] Df]. split; [|split; [|discriminate]].
    + split; [now apply keeps_trans with s2|]. split.
      * intros x Hx Hn. assert (x <> o) by (intros ->; apply Hx; now left). rewrite D2, C2; auto. congruence.
      * intros x Hx. destruct (Z.eq_dec x o) as [->|No]; [congruence|]. rewrite D2 in Hx by exact No. destruct (Z.eq_dec x fd) as [->|Nf]; [now right|]. rewrite C2 in Hx by exact Nf. now left.
    + intros Hr HO. destruct Df as [Df|[Df|Df]]; [congruence|congruence|lia].
Qed.
(** The result of acting on a saved descriptor *)
Definition acted (r : redir) (ok : bool) (s1 s3 : st) : Prop :=
  modest [rd_fd r] s1 s3 /\ (refused s3 = false -> rd_fd r < OM -> neat [rd_fd r] s1 s3) /\ (ok = true -> effect (fd_number L) r (visible s1) (visible s3)).
Lemma act_opener (m : M (option Z)) r save s1 : opener m -> 0 <= rd_fd r -> shellfds s1 (rd_fd r) = false ->
  In (rd_type r) [RT_INPUT; RT_OUTPUT; RT_CLOBBER; RT_APPEND; RT_INOUT; RT_HERE; RT_HERESTR; RT_PROCIN; RT_PROCOUT] ->
  exists ok s3, (do (fd, keepopen, save) <- (do fd <- m; ret ((match fd with Some fd => fd | None => -2 end, false, save) : Z * bool * saved));
    if fd <? -1 then ret (false, save) else do ok <- move_fd OM fd (rd_fd r) keepopen; ret (ok, save)) s1 = Ok ((ok, save), s3) /\ acted r ok s1 s3.
Proof.
  intros Hm Ho Hs Ht. destruct (Hm s1) as ([fd|] & s2 & E & O); unfold bind; rewrite E; cbn [rbind ret].
  - destruct (free_spec _ _ (proj1 (proj2 O))) as [Fr _]. replace (fd <? -1) with false by lia.
    destruct (move_opened fd (rd_fd r) s1 s2 O Ho) as (ok & s3 & -> & Mo & Ne & Ef). cbn [rbind]. exists ok, s3. split; [reflexivity|]. split; [exact Mo|]. split; [exact Ne|].
    intros Hok. destruct (Ef Hok) as (f & C & _). apply eff_file with f; [exact Ht|]. eapply visible_change; [apply Mo|exact Hs|exact C].
  - exists false, s2. split; [reflexivity|]. destruct O as [K S]. destruct (modest_same [rd_fd r] s1 s2 K S) as [Mo Ne]. split; [exact Mo|]. split; [auto|discriminate].
Qed.
Lemma number_nonneg text m : fd_number L text = Some m -> 0 <= m.
Proof.
  unfold fd_number. destruct text as [|c t]; [discriminate|]. destruct (isxdigit c); [|discriminate]. destruct (xwcstoi L 10 (c :: t)) as [z|]; [|discriminate].
  destruct (Z.ltb_spec z 0); [discriminate|]. intros H1. injection H1 as <-. exact H.
Qed.
Lemma act_dup out r arg save s1 : consistent OM MIN s1 -> 0 <= rd_fd r -> shellfds s1 (rd_fd r) = false -> In (rd_type r) [RT_DUPIN; RT_DUPOUT] -> rd_arg r = Some arg ->
  exists ok s3, (do (fd, keepopen, save) <- (do fd <- parse_and_check_dup L posix arg out; ret ((fd, true, save) : Z * bool * saved));
    if fd <? -1 then ret (false, save) else do ok <- move_fd OM fd (rd_fd r) keepopen; ret (ok, save)) s1 = Ok ((ok, save), s3) /\ acted r ok s1 s3.
Proof.
  intros Hc Ho Hs Ht Ha.
  assert (P : exists fd, parse_and_check_dup L posix arg out s1 = Ok (fd, s1) /\ (fd = -2 \/ fd = -1 /\ arg = str "-" \/ 0 <= fd /\ fd_number L arg = Some fd /\ shellfds s1 fd = false)).
  { unfold parse_and_check_dup. destruct (list_N_eqb arg (str "-")) eqn:E; [eexists; split; [reflexivity|]; right; left; split; [reflexivity|now apply list_N_eqb_eq]|].
    destruct (fd_number L arg) as [m|] eqn:Em; [|eexists; split; [reflexivity|now left]]. apply number_nonneg in Em as Hm. unfold bind.
    destruct (is_shellfd_ok s1 m Hc Hm) as (b & -> & B & _). cbn [rbind]. destruct b; [eexists; split; [reflexivity|now left]|]. destruct (B eq_refl) as [B1 _].
    assert (G : 0 <= m /\ Some m = Some m /\ shellfds s1 m = false) by auto.
    destruct posix; [|eexists; split; [reflexivity|right; right; exact G]].
    destruct (tbl s1 m) as [[[i a] b]|]; [|eexists; split; [reflexivity|now left]]. destruct out, a; eexists; (split; [reflexivity|]); first [now left|right; right; exact G]. }
  destruct P as (fd & E & P). unfold bind. rewrite E. cbn [rbind ret].
  destruct P as [->|[[-> Ea]|(Hfd & En & Hsh)]].
  - exists false, s1. split; [reflexivity|]. split; [apply modest_refl|]. split; [intros _ _ x _; reflexivity|discriminate].
  - cbn [Z.ltb Z.compare]. unfold move_fd. replace (-1 =? rd_fd r) with false by lia. cbn [Z.leb Z.compare]. unfold bind. cbn [xclose rbind ret].
    eexists _, _. split; [reflexivity|]. set (s3 := with_tbl _ s1). assert (K : keeps s1 s3) by now repeat split.
    assert (C : change (tbl s1) (rd_fd r) None (tbl s3)) by apply change_set.
    destruct (modest_change [rd_fd r] s1 s3 _ _ K C (or_introl eq_refl)) as [Mo Ne]; [congruence|]. split; [exact Mo|]. split; [auto|]. intros _.
    apply eff_close; [exact Ht|congruence|]. now apply visible_close.
  - replace (fd <? -1) with false by lia. unfold move_fd. destruct (Z.eqb_spec fd (rd_fd r)) as [->|N].
    + cbn [ret rbind]. destruct (tbl s1 (rd_fd r)) as [[f b]|] eqn:Et.
      * exists true, s1. split; [reflexivity|]. split; [apply modest_refl|]. split; [intros _ _ x _; reflexivity|]. intros _.
        assert (V : visible s1 (rd_fd r) = Some f) by (unfold visible, file_at; now rewrite Hs, Et).
        apply eff_copy with arg (rd_fd r) f; auto. split; auto.
      * exists true, s1. split; [reflexivity|]. split; [apply modest_refl|]. split; [intros _ _ x _; reflexivity|]. intros _.
        apply eff_self with arg; auto; [unfold visible, file_at; now rewrite Hs, Et|apply same_refl].
    + replace (0 <=? fd) with true by lia. unfold bind. destruct (xdup2_ok fd (rd_fd r) s1) as (ok & s3 & -> & K3 & D). cbn [rbind].
      destruct (Z.eqb_spec fd (rd_fd r)) as [|_]; [contradiction|]. destruct ok.
      * destruct D as (g & b & E1 & R & C). cbn [ret rbind]. exists true, s3. split; [reflexivity|].
        destruct (modest_change [rd_fd r] s1 s3 _ _ K3 C (or_introl eq_refl) (fun _ => R)) as [Mo Ne]. split; [exact Mo|]. split; [auto|]. intros _.
        apply eff_copy with arg fd g; auto; [unfold visible, file_at; now rewrite Hsh, E1|]. eapply visible_change; eauto.
      * cbn [ret rbind]. exists false, s3. split; [reflexivity|]. destruct D as [C _].
        destruct (modest_change [rd_fd r] s1 s3 _ _ K3 C (or_introl eq_refl)) as [Mo Ne]; [congruence|]. split; [exact Mo|]. split; [auto|discriminate].
Qed.

(** The pipe redirection after saving the input side *)
Lemma pipe_ok m s2 : 0 <= m -> exists r s3,
  (do p <- sys_pipe OM;
   match p with
   | None => ret None
   | Some (pin, pout) =>
     let error2 pin pout : M (option Z) := do _ <- xclose pin; do _ <- xclose pout; ret None in
     do r <- (if pout =? m then do r <- sys_dupfd OM pout 0 false; match r with inl newfd => do _ <- xclose pout; ret (Some newfd) | inr _ => ret None end else ret (Some pout));
     match r with
     | None => error2 pin pout
     | Some pout => if pin =? m then ret (Some pout) else do ok <- xdup2 OM pin m; if ok : bool then do _ <- xclose pin; ret (Some pout) else error2 pin pout
     end
   end) s2 = Ok (r, s3) /\ keeps s2 s3 /\
  match r with
  | None => modest [m] s2 s3 /\ neat [m] s2 s3
  | Some pout => exists f u, 0 <= m < OM /\ change (tbl s2) m (Some (f, false)) u /\ opens (Some pout) (with_tbl u s2) s3
  end.
Proof.
  intros Hm. unfold bind at 1. destruct (sys_pipe_ok s2) as ([[a b]|] & s3 & -> & K & O); cbn [rbind].
  2: { exists None, s3. split; [reflexivity|]. split; [exact K|]. now apply modest_same. }
  destruct O as (N & Fa & Fb & t & f & g & C1 & C2). cbv zeta. apply free_spec in Fa as [Ra Na], Fb as [Rb Nb]. destruct C1 as [C1 C1'], C2 as [C2 C2'].
  (* the end of the function *)
  assert (fin : forall s4 p, keeps s2 s4 -> p <> a -> p <> m -> free OM s2 p = true -> (a <> m -> m <> p) ->
     (forall x, x <> a -> x <> p -> x <> m -> tbl s4 x = tbl s2 x) -> (a <> m -> tbl s4 m = tbl s2 m \/ tbl s4 m = None) -> tbl s4 a = Some (f, false) -> (exists h, tbl s4 p = Some (h, false)) ->
     exists r s5, (if a =? m then ret (Some p) else do ok <- xdup2 OM a m; if ok : bool then do _ <- xclose a; ret (Some p) else do _ <- xclose a; do _ <- xclose p; ret None) s4 = Ok (r, s5) /\ keeps s2 s5 /\
       match r with None => modest [m] s2 s5 /\ neat [m] s2 s5 | Some pout => exists f u, 0 <= m < OM /\ change (tbl s2) m (Some (f, false)) u /\ opens (Some pout) (with_tbl u s2) s5 end).
  { intros s4 p K4 Npa Npm Fp _ H1 H2 H3 [h H4]. apply free_spec in Fp as Fp'. destruct Fp' as [Rp Np]. destruct (Z.eqb_spec a m) as [->|Nam].
    - exists (Some p), s4. split; [reflexivity|]. split; [exact K4|]. exists f, (set (tbl s2) m (Some (f, false))). split; [exact Ra|]. split; [apply change_set|]. split; [exact K4|].
      split; [unfold free; cbn [with_tbl tbl]; rewrite set_ne, Np by exact Npm; lia|]. exists h. split; [exact H4|]. intros x Hx. cbn [with_tbl tbl].
      destruct (Z.eq_dec x m) as [->|Nx]; [rewrite set_eq; exact H3|]. rewrite set_ne by exact Nx. now apply H1.
    - unfold bind at 1. destruct (xdup2_ok a m s4) as (ok & s5 & -> & K5 & D). cbn [rbind]. destruct (Z.eqb_spec a m) as [|_]; [contradiction|]. destruct ok.
      + destruct D as (f' & b' & E & R & D1 & D2). rewrite H3 in E. injection E as <- <-. unfold bind. cbn [xclose rbind ret]. eexists _, _. split; [reflexivity|].
        split; [apply keeps_trans with s4; [exact K4|exact K5]|]. exists f, (set (tbl s2) m (Some (f, false))). split; [exact R|]. split; [apply change_set|].
        split; [apply keeps_trans with s4; [exact K4|exact K5]|]. cbn [with_tbl tbl].
        split; [unfold free; cbn [with_tbl tbl]; rewrite set_ne, Np by exact Npm; lia|]. exists h.
        split; [rewrite set_ne, D2 by auto; exact H4|]. intros x Hx.
        destruct (Z.eq_dec x a) as [->|Na']; [rewrite set_eq, set_ne by auto; auto|]. rewrite set_ne by exact Na'.
        destruct (Z.eq_dec x m) as [->|Nx]; [rewrite set_eq; exact D1|]. rewrite set_ne, D2 by exact Nx. now apply H1.
      + unfold bind. cbn [xclose rbind ret]. eexists _, _. split; [reflexivity|]. set (s6 := with_tbl _ _). assert (K6 : keeps s2 s6) by (apply keeps_trans with s4; [exact K4|exact K5]). split; [exact K6|].
        assert (Ne : neat [m] s2 s6).
        { intros x Hx. assert (x <> m) by (intros ->; apply Hx; now left). subst s6. cbn [with_tbl tbl].
          destruct (Z.eq_dec x p) as [->|Nxp]; [rewrite set_eq; auto|]. rewrite set_ne by exact Nxp. destruct (Z.eq_dec x a) as [->|Nxa]; [rewrite set_eq; auto|]. rewrite set_ne by exact Nxa.
          destruct D as [[D1 D2] _]. rewrite D2 by auto. now apply H1. }
        split; [|exact Ne]. split; [exact K6|]. split; [intros x Hx _; now apply Ne|]. intros x Hx. destruct (Z.eq_dec x m) as [->|Nx].
        { exfalso. apply Hx. subst s6. cbn [with_tbl tbl]. rewrite !set_ne by auto. now destruct D as [[D1 D2] _]. }
        left. now rewrite <- (Ne x) by (intros [E|[]]; congruence). }
  assert (fb : free OM s2 b = true) by (unfold free; rewrite Nb; lia).
  destruct (Z.eqb_spec b m) as [->|Nbm].
  - unfold bind at 1. unfold bind at 1. destruct (sys_dupfd_ok m 0 false s3) as ([n|e] & s4 & -> & K4 & D); cbn [rbind].
    + destruct D as (Fn & _ & h & hb & Eh & D1 & D2). rewrite C2 in Eh. injection Eh as <- <-. apply free_spec in Fn as [Rn Nn]. unfold bind at 1. cbn [xclose rbind ret].
      assert (n <> m) by congruence. assert (n <> a) by (intros ->; rewrite C2', C1 in Nn by auto; discriminate). assert (Nn2 : tbl s2 n = None) by (now rewrite <- C1', <- C2').
      apply fin; auto.
      * apply keeps_trans with s3; [exact K|]. exact K4.
      * unfold free. rewrite Nn2. lia.
      * intros x X1 X2 X3. cbn [with_tbl tbl]. rewrite set_ne, D2, C2', C1' by auto. reflexivity.
      * intros _. right. cbn [with_tbl tbl]. apply set_eq.
      * cbn [with_tbl tbl]. rewrite set_ne, D2, C2' by auto. exact C1.
      * exists g. cbn [with_tbl tbl]. now rewrite set_ne by auto.
    + unfold bind. cbn [xclose ret rbind]. eexists _, _. split; [reflexivity|]. set (s6 := with_tbl _ _). assert (K6 : keeps s2 s6) by (apply keeps_trans with s3; [exact K|exact K4]). split; [exact K6|].
      assert (T4 : tbl s4 = tbl s3) by (destruct e; try exact D; apply D).
      apply modest_same; [exact K6|]. intros x. subst s6. cbn [with_tbl tbl]. rewrite T4. destruct (Z.eq_dec x m) as [->|Nxm]; [rewrite set_eq; exact Nb|]. rewrite set_ne by exact Nxm.
      destruct (Z.eq_dec x a) as [->|Nxa]; [rewrite set_eq; exact Na|]. rewrite set_ne by exact Nxa. rewrite C2', C1' by auto. reflexivity.
  - unfold bind at 1. cbn [ret rbind]. apply fin; auto.
    + intros x X1 X2 X3. rewrite C2', C1' by auto. reflexivity.
    + intros Hn. left. rewrite C2', C1' by auto. reflexivity.
    + rewrite C2' by auto. exact C1.
    + eauto.
Qed.

Lemma mono (a b : bool) : (a = true -> b = true) -> b = false -> a = false.
Proof. destruct a, b; intuition congruence. Qed.

(** ** Undoing on views *)
Definition view : Type := (Z -> option file) * (Z -> bool).
Definition view_of (s : st) : view := (file_at s, shellfds s).
Definition veq (v w : view) : Prop := same (fst v) (fst w) /\ same (snd v) (snd w).
Definition undo1 (x : Z * Z) (v : view) : view :=
  if 0 <=? snd x then (set (set (fst v) (fst x) (fst v (snd x))) (snd x) None, set (snd v) (snd x) false)
  else (set (fst v) (fst x) None, snd v).
Definition undo_pure (d : saved) (v : view) : view := fold_left (fun v x => undo1 x v) d v.
Lemma veq_refl v : veq v v.
Proof. split; apply same_refl. Qed.
Lemma veq_trans u v w : veq u v -> veq v w -> veq u w.
Proof. intros [A B] [A' B']. split; eapply same_trans; eauto. Qed.
Lemma same_set {A} (t u : Z -> A) k x y : same t u -> x = y -> same (set t k x) (set u k y).
Proof. intros H -> z. unfold set. destruct (z =? k); auto. Qed.
Lemma undo1_veq x v w : veq v w -> veq (undo1 x v) (undo1 x w).
Proof. intros [A B]. unfold undo1. destruct (0 <=? snd x); split; cbn [fst snd]; repeat apply same_set; auto. Qed.
Lemma undo_veq d : forall v w, veq v w -> veq (undo_pure d v) (undo_pure d w).
Proof. induction d as [|x d IH]; intros v w H; [exact H|]. apply IH. now apply undo1_veq. Qed.
Lemma undo_app d d' v : undo_pure (d ++ d') v = undo_pure d' (undo_pure d v).
Proof. unfold undo_pure. apply fold_left_app. Qed.

(** ** Saving a descriptor *)
Inductive was_saved (o : Z) (s s1 : st) : saved -> Prop :=
| ws_copy n f b : free OM s n = true -> MIN <= n -> tbl s o = Some (f, b) -> change (tbl s) n (Some (f, true)) (tbl s1) -> change (shellfds s) n true (shellfds s1) ->
    was_saved o s s1 [(o, n)]
| ws_closed : keeps s s1 -> tbl s o = None -> same (tbl s) (tbl s1) -> was_saved o s s1 [(o, -1)]
| ws_refused : keeps s s1 -> refused s1 = true -> same (tbl s) (tbl s1) -> was_saved o s s1 [].
Lemma save_ok o save s : consistent OM MIN s -> 0 <= o -> exists d s1, save_fd OM MIN o save s = Ok (d ++ save, s1) /\ was_saved o s s1 d /\ consistent OM MIN s1 /\ (refused s = true -> refused s1 = true).
Proof.
  intros Hc Ho. unfold save_fd. replace (o <? 0) with false by lia. unfold bind. destruct (copy_ok o s) as (r & s1 & -> & C). cbn [rbind]. destruct r as [n|e].
  - pose proof (consistent_copied _ _ _ _ Hc C) as Hc1. destruct C as (R & F & H & (f & b & E & T) & S & X). exists [(o, n)], s1. split; [reflexivity|].
    split; [now apply ws_copy with f b|]. auto.
  - destruct C as (R & K & T & X). assert (Hc1 : consistent OM MIN s1).
    { apply consistent_keeps with s; [exact Hc|exact K| |]; intros fd H; rewrite (T fd) in *; auto. }
    destruct e; cbn [errno_eqb] in X; try (exists [], s1; split; [reflexivity|]; split; [now apply ws_refused|]; now auto).
    exists [(o, -1)], s1. split; [reflexivity|]. split; [now apply ws_closed|]. auto.
Qed.
Lemma saved_visible o s s1 d : consistent OM MIN s -> was_saved o s s1 d -> same (visible s) (visible s1).
Proof.
  intros Hc [n f b F H E [T1 T2] [S1 S2]|K E T|K E T] x; unfold visible, file_at.
  - apply free_spec in F as [_ F]. destruct (Z.eq_dec x n) as [->|N]; [rewrite S1, F; now destruct (shellfds s n)|]. now rewrite S2, T2.
  - destruct K as (-> & _). now rewrite (T x).
  - destruct K as (-> & _). now rewrite (T x).
Qed.
Lemma saved_shell o s s1 d x : consistent OM MIN s -> was_saved o s s1 d -> shellfds s x = true -> shellfds s1 x = true /\ tbl s1 x = tbl s x.
Proof.
  intros Hc W Hx. destruct Hc as (_ & C2 & _). destruct (C2 x Hx) as (_ & f' & Ex). destruct W as [n f b F H E [T1 T2] [S1 S2]|K E T|K E T].
  - apply free_spec in F as [_ F]. assert (x <> n) by congruence. now rewrite S2, T2.
  - destruct K as (-> & _). now rewrite (T x).
  - destruct K as (-> & _). now rewrite (T x).
Qed.
Lemma saved_self o s s1 d : consistent OM MIN s -> was_saved o s s1 d -> shellfds s o = false -> shellfds s1 o = false.
Proof.
  intros Hc [n f b F H E [T1 T2] [S1 S2]|K E T|K E T] Ho.
  - apply free_spec in F as [_ F]. rewrite S2; [exact Ho|]. congruence.
  - now destruct K as (-> & _).
  - now destruct K as (-> & _).
Qed.
Definition copies (d : saved) : list Z := flat_map (fun x => if 0 <=? snd x then [snd x] else []) d.
Definition origs (d : saved) : list Z := map fst d.
(** Undoing one saved descriptor: outside [X] everything is as before. *)
Lemma saved_undo o s s1 d X v : consistent OM MIN s -> was_saved o s s1 d -> d <> [] ->
  (forall x, ~ In x (o :: X) -> fst v x = file_at s1 x) -> same (snd v) (shellfds s1) -> (forall x, In x (copies d) -> ~ In x (o :: X)) ->
  (forall x, ~ In x X -> fst (undo_pure d v) x = file_at s x) /\ same (snd (undo_pure d v)) (shellfds s).
Proof.
  intros Hc W Hd HF HS HX. destruct W as [n f b F H E [T1 T2] [S1 S2]|K E T|K E T].
  - apply free_spec in F as [Rn Fn]. assert (Nn : ~ In n (o :: X)) by (apply HX; cbn [copies flat_map snd]; replace (0 <=? n) with true by lia; now left).
    cbn [undo_pure fold_left]. unfold undo1. cbn [fst snd]. replace (0 <=? n) with true by lia. cbn [fst snd]. split.
    + intros x Hx. destruct (Z.eq_dec x n) as [->|N]; [rewrite set_eq; unfold file_at; now rewrite Fn|]. rewrite set_ne by exact N.
      destruct (Z.eq_dec x o) as [->|No]; [rewrite set_eq, (HF n Nn); unfold file_at; now rewrite T1, E|]. rewrite set_ne by exact No.
      rewrite HF by (intros [?|?]; [congruence|contradiction]). unfold file_at. now rewrite T2.
    + intros x. destruct (Z.eq_dec x n) as [->|N]; [|rewrite set_ne by exact N; rewrite (HS x); now apply S2]. rewrite set_eq. destruct (shellfds s n) eqn:Es; [|reflexivity].
      destruct Hc as (_ & C2 & _). destruct (C2 n Es) as (_ & f' & Ef). congruence.
  - cbn [undo_pure fold_left]. unfold undo1. cbn [fst snd Z.leb Z.compare]. split.
    + intros x Hx. destruct (Z.eq_dec x o) as [->|No]; [rewrite set_eq; unfold file_at; now rewrite E|]. rewrite set_ne by exact No.
      rewrite HF by (intros [?|?]; [congruence|contradiction]). unfold file_at. now rewrite (T x).
    + destruct K as (<- & _). exact HS.
  - contradiction.
Qed.
Lemma effect_same r t u u' : same t u -> effect (fd_number L) r u u' -> effect (fd_number L) r t u'.
Proof.
  intros H [f Ht C|Ht Ha C|text m f Ht Ha Hn Hm C|text Ht Ha Hn Hm C|text m w f1 f2 Ht Ha Hn Hm C1 C2].
  - apply eff_file with f; auto. now apply same_change with u.
  - apply eff_close; auto. now apply same_change with u.
  - apply eff_copy with text m f; auto; [now rewrite (H m)|]. now apply same_change with u.
  - apply eff_self with text; auto; [now rewrite (H _)|]. now apply same_trans with u.
  - apply eff_pipe with text m w f1 f2; auto. now apply same_change with u.
Qed.

(** What a redirection or a list of them does; [fits]: no target is beyond the limit *)
Record stepped (fits : Prop) (d : saved) (s s' : st) : Prop := {
  sp_ok : consistent OM MIN s';
  sp_mono : refused s = true -> refused s' = true;
  sp_shell : forall x, shellfds s x = true -> shellfds s' x = true /\ tbl s' x = tbl s x;
  sp_new : forall x, shellfds s' x = true -> shellfds s x = true \/ In x (copies d);
  sp_copies : forall x, In x (copies d) -> MIN <= x /\ shellfds s x = false /\ shellfds s' x = true;
  sp_range : Forall (fun x => 0 <= fst x /\ (0 <= snd x -> fst x < OM /\ snd x < OM)) d;
  sp_origs : forall x, In x (origs d) -> shellfds s x = false;
  sp_undo : refused s' = false -> fits -> veq (undo_pure d (view_of s')) (view_of s) }.
Lemma stepped_refl P s : consistent OM MIN s -> stepped P [] s s.
Proof. intros H. constructor; auto; try (intros ? []). intros _ _. apply veq_refl. Qed.
Lemma copies_app d d' : copies (d ++ d') = copies d ++ copies d'.
Proof. apply flat_map_app. Qed.
Lemma stepped_trans P Q d d' s s1 s2 : stepped P d s s1 -> stepped Q d' s1 s2 -> stepped (P /\ Q) (d' ++ d) s s2.
Proof.
  intros [A1 A2 A3 A4 A5 A6 A8 A7] [B1 B2 B3 B4 B5 B6 B8 B7]. constructor; auto.
  - intros x Hx. destruct (A3 x Hx) as [E1 E2]. destruct (B3 x E1) as [E3 E4]. split; [exact E3|congruence].
  - intros x Hx. rewrite copies_app, in_app_iff. destruct (B4 x Hx) as [H|H]; [|tauto]. destruct (A4 x H); tauto.
  - intros x. rewrite copies_app, in_app_iff. intros [H|H].
    + destruct (B5 x H) as (E1 & E2 & E3). split; [exact E1|]. split; [|exact E3]. destruct (shellfds s x) eqn:E; [|reflexivity]. destruct (A3 x E). congruence.
    + destruct (A5 x H) as (E1 & E2 & E3). split; [exact E1|]. split; [exact E2|]. now apply B3.
  - apply Forall_app. auto.
  - intros x. unfold origs. rewrite map_app, in_app_iff. intros [H|H]; [|auto]. apply mono with (shellfds s1 x); auto. intros E. now apply A3.
  - intros R [HP HQ]. rewrite undo_app. apply veq_trans with (undo_pure d (view_of s1)).
    + apply undo_veq. auto.
    + apply A7; auto. destruct (refused s1); [|reflexivity]. rewrite B2 in R; auto.
Qed.
Lemma saved_facts o s s1 d : consistent OM MIN s -> 0 <= o -> was_saved o s s1 d ->
  (forall x, shellfds s1 x = true -> shellfds s x = true \/ In x (copies d)) /\ (forall x, In x (copies d) -> MIN <= x /\ shellfds s x = false /\ shellfds s1 x = true) /\
  Forall (fun x => 0 <= fst x /\ (0 <= snd x -> fst x < OM /\ snd x < OM)) d /\ (refused s1 = false -> d <> []) /\ ~ In o (copies d).
Proof.
  intros Hc Ho W. destruct W as [n f b F H E [T1 T2] [S1 S2]|K E T|K E T].
  - apply free_spec in F as [Rn Fn]. assert (Cn : copies [(o, n)] = [n]) by (cbn; replace (0 <=? n) with true by lia; reflexivity). rewrite Cn. split; [|split; [|split; [|split]]].
    + intros x Hx. destruct (Z.eq_dec x n) as [->|N]; [right; now left|]. rewrite S2 in Hx by exact N. now left.
    + intros x [<-|[]]. split; [exact H|]. split; [|exact S1]. destruct (shellfds s n) eqn:Es; [|reflexivity]. destruct Hc as (_ & C2 & _). destruct (C2 n Es) as (_ & f' & Ef). congruence.
    + constructor; [|constructor]. cbn [fst snd]. split; [exact Ho|]. intros _. split; [|lia]. destruct Hc as (C1 & _). apply C1. congruence.
    + discriminate.
    + intros [<-|[]]. congruence.
  - cbn. split; [|split; [|split; [|split]]]; try discriminate; try (intros ? []).
    + destruct K as (-> & _). auto.
    + constructor; [|constructor]. cbn [fst snd]. split; [exact Ho|]. lia.
    + tauto.
  - cbn. destruct K as (-> & _). split; [|split; [|split; [|split]]]; auto; try (intros ? []). congruence.
Qed.

Record did (r : redir) (ok : bool) (d : saved) (s s' : st) : Prop := {
  dd_step : stepped (rd_fd r < OM) d s s';
  dd_effect : ok = true -> effect (fd_number L) r (visible s) (visible s');
  dd_others : forall x, ~ In x (targets (fd_number L) r) -> tbl s x <> None -> tbl s' x = tbl s x;
  dd_origs : forall x, In x (origs d) -> In x (targets (fd_number L) r);
  dd_all : ok = true -> refused s' = false -> forall x, In x (targets (fd_number L) r) -> In x (origs d) }.
Lemma did_nothing r s : consistent OM MIN s -> did r false [] s s.
Proof. intros H. constructor; auto; try discriminate. - now apply stepped_refl. - intros x []. Qed.
Lemma saved_others o s s1 d x : was_saved o s s1 d -> tbl s x <> None -> tbl s1 x = tbl s x.
Proof.
  intros [n f b F H E [T1 T2] [S1 S2]|K E T|K E T] Hx; [|now rewrite (T x)..]. apply free_spec in F as [_ F]. apply T2. congruence.
Qed.
Lemma saved_origs o s s1 d : was_saved o s s1 d -> (forall x, In x (origs d) -> x = o) /\ (d <> [] -> In o (origs d)).
Proof. intros [n f b F H E T S|K E T|K E T]; cbn; intuition. Qed.
Lemma modest_consistent T s s' : consistent OM MIN s -> modest T s s' -> (forall x, In x T -> shellfds s x = false) -> consistent OM MIN s'.
Proof.
  intros Hc (K & M1 & M2) HT. apply consistent_keeps with s; auto. intros x Hx. apply M1; [intros H; rewrite HT in Hx by exact H; discriminate|].
  destruct Hc as (_ & C2 & _). destruct (C2 x Hx) as (_ & f & ->). discriminate.
Qed.
Lemma simple_did r ok d s s1 s3 : consistent OM MIN s -> 0 <= rd_fd r -> shellfds s (rd_fd r) = false -> (ok = true -> rd_type r <> RT_PIPE) ->
  was_saved (rd_fd r) s s1 d -> consistent OM MIN s1 -> (refused s = true -> refused s1 = true) -> acted r ok s1 s3 -> did r ok d s s3.
Proof.
  intros Hc Ho Hs Hp W Hc1 R (Mo & Ne & Ef). pose proof (saved_self _ _ _ _ Hc W Hs) as Hs1. destruct (saved_facts _ _ _ _ Hc Ho W) as (F1 & F2 & F3 & F4 & F5).
  assert (HT : forall x, In x [rd_fd r] -> shellfds s1 x = false) by (intros x [<-|[]]; exact Hs1).
  pose proof (modest_consistent _ _ _ Hc1 Mo HT) as Hc3. destruct Mo as (K & M1 & M2).
  assert (Tg : ok = true -> targets (fd_number L) r = [rd_fd r]) by (intros Hok; specialize (Hp Hok); unfold targets; destruct (rd_type r); try reflexivity; contradiction).
  assert (Ti : In (rd_fd r) (targets (fd_number L) r)) by now left.
  destruct (saved_origs _ _ _ _ W) as [O1 O2].
  assert (Rm : refused s3 = false -> refused s1 = false) by (apply mono, K).
  constructor.
  - constructor; auto.
    + intros H. apply K. auto.
    + intros x Hx. destruct (saved_shell _ _ _ _ _ Hc W Hx) as [E1 E2]. destruct K as (K & _). rewrite K. split; [exact E1|]. rewrite <- E2. apply M1.
      * intros [<-|[]]. congruence.
      * destruct Hc1 as (_ & C2 & _). destruct (C2 x E1) as (_ & f & ->). discriminate.
    + destruct K as (-> & _). exact F1.
    + destruct K as (-> & _). exact F2.
    + intros x Hx. now rewrite (O1 x Hx).
    + intros Hr Hf. destruct (saved_undo _ _ _ _ [] (view_of s3) Hc W (F4 (Rm Hr))) as [U1 U2].
      * intros x Hx. cbn [view_of fst]. unfold file_at. rewrite Ne; auto.
      * cbn [view_of snd]. destruct K as (-> & _). apply same_refl.
      * intros x Hx [<-|[]]. contradiction.
      * split; [intros x; apply U1; intros []|exact U2].
  - intros Hok. apply effect_same with (visible s1); [now apply saved_visible with (rd_fd r) d|auto].
  - intros x Hx Hn. rewrite <- (saved_others _ _ _ _ _ W Hn). apply M1; [intros [<-|[]]; contradiction|]. now rewrite (saved_others _ _ _ _ _ W Hn).
  - intros x Hx. now rewrite (O1 x Hx).
  - intros Hok Hr x. rewrite (Tg Hok). intros [<-|[]]. auto.
Qed.
Lemma rtype_eq_pipe t : {t = RT_PIPE} + {t <> RT_PIPE}.
Proof. destruct t; (left; reflexivity) || (right; discriminate). Qed.
Lemma act_false r s1 : acted r false s1 s1.
Proof. split; [apply modest_refl|]. split; [intros _ _ x _; reflexivity|discriminate]. Qed.
(** A pipe redirection after saving both sides *)
Lemma pipe_did r ok m arg d d2 s s1 s2 s4 : consistent OM MIN s -> 0 <= rd_fd r < MIN -> shellfds s (rd_fd r) = false -> was_saved (rd_fd r) s s1 d -> consistent OM MIN s1 -> (refused s = true -> refused s1 = true) ->
  rd_type r = RT_PIPE -> rd_arg r = Some arg -> fd_number L arg = Some m -> 0 <= m -> shellfds s1 m = false -> m <> rd_fd r -> was_saved m s1 s2 d2 -> consistent OM MIN s2 -> (refused s1 = true -> refused s2 = true) ->
  modest [rd_fd r; m] s2 s4 -> (refused s4 = false -> rd_fd r < OM -> neat [rd_fd r; m] s2 s4) ->
  (ok = true -> exists f g u, change (tbl s2) m (Some (f, false)) u /\ change u (rd_fd r) (Some (g, false)) (tbl s4)) ->
  did r ok (d2 ++ d) s s4.
Proof.
  intros Hc [Ho HoM] Hs W Hc1 R1 Et Ea En Hm Hsm Nm W2 Hc2 R2 Mo Ne Ef.
  pose proof (saved_self _ _ _ _ Hc W Hs) as Hs1. pose proof (saved_self _ _ _ _ Hc1 W2 Hsm) as Hsm2.
  destruct (saved_facts _ _ _ _ Hc Ho W) as (F1 & F2 & F3 & F4 & F5). destruct (saved_facts _ _ _ _ Hc1 Hm W2) as (G1 & G2 & G3 & G4 & G5).
  assert (Hs2 : shellfds s2 (rd_fd r) = false).
  { destruct (shellfds s2 (rd_fd r)) eqn:E; [|reflexivity]. destruct (G1 _ E) as [E'|E']; [congruence|]. destruct (G2 _ E'). lia. }
  assert (HT : forall x, In x [rd_fd r; m] -> shellfds s2 x = false) by (intros x [<-|[<-|[]]]; assumption).
  pose proof (modest_consistent _ _ _ Hc2 Mo HT) as Hc4. destruct Mo as (K & M1 & M2).
  assert (Tg : targets (fd_number L) r = [rd_fd r; m]) by (unfold targets; now rewrite Et, Ea, En).
  destruct (saved_origs _ _ _ _ W) as [O1 O2]. destruct (saved_origs _ _ _ _ W2) as [P1 P2].
  pose proof (mono _ _ (proj2 (proj2 K))) as Rm4. pose proof (mono _ _ R2) as Rm2.
  constructor.
  - constructor; auto.
    + intros H. apply K. auto.
    + intros x Hx. destruct (saved_shell _ _ _ _ _ Hc W Hx) as [E1 E2]. destruct (saved_shell _ _ _ _ _ Hc1 W2 E1) as [E3 E4]. destruct K as (K & _). rewrite K. split; [exact E3|].
      rewrite <- E2, <- E4. apply M1; [intros H; rewrite HT in E3 by exact H; discriminate|]. destruct Hc2 as (_ & C2 & _). destruct (C2 x E3) as (_ & f & ->). discriminate.
    + destruct K as (-> & _). intros x Hx. rewrite copies_app, in_app_iff. destruct (G1 x Hx) as [H|H]; [|tauto]. destruct (F1 x H); tauto.
    + destruct K as (-> & _). intros x. rewrite copies_app, in_app_iff. intros [H|H].
      * destruct (G2 x H) as (E1 & E2 & E3). split; [exact E1|]. split; [|exact E3]. destruct (shellfds s x) eqn:E; [|reflexivity]. destruct (saved_shell _ _ _ _ _ Hc W E). congruence.
      * destruct (F2 x H) as (E1 & E2 & E3). split; [exact E1|]. split; [exact E2|]. now destruct (saved_shell _ _ _ _ _ Hc1 W2 E3).
    + apply Forall_app. auto.
    + intros x. unfold origs. rewrite map_app, in_app_iff. intros [H|H]; [rewrite (P1 x H)|now rewrite (O1 x H)]. apply mono with (shellfds s1 m); [|exact Hsm]. intros E. now destruct (saved_shell _ _ _ _ _ Hc W E).
    + intros Hr Hf. specialize (Ne Hr Hf). rewrite undo_app.
      destruct (saved_undo _ _ _ _ [rd_fd r] (view_of s4) Hc1 W2 (G4 (Rm4 Hr))) as [U1 U2].
      * intros x Hx. cbn [view_of fst]. unfold file_at. rewrite Ne; [reflexivity|]. intros [<-|[<-|[]]]; apply Hx; cbn; tauto.
      * cbn [view_of snd]. destruct K as (-> & _). apply same_refl.
      * intros x Hx [<-|[<-|[]]]; [contradiction|]. destruct (G2 _ Hx). lia.
      * destruct (saved_undo _ _ _ _ [] (undo_pure d2 (view_of s4)) Hc W (F4 (Rm2 (Rm4 Hr)))) as [V1 V2].
        -- intros x Hx. apply U1. exact Hx.
        -- exact U2.
        -- intros x Hx [<-|[]]. contradiction.
        -- split; [intros x; apply V1; intros []|exact V2].
  - intros Hok. destruct (Ef Hok) as (f & g & u & C1 & C2).
    apply effect_same with (visible s2); [apply same_trans with (visible s1); [now apply saved_visible with (rd_fd r) d|now apply saved_visible with m d2]|].
    set (s3 := with_tbl u s2). apply eff_pipe with arg m (visible s3) f g; auto.
    + apply visible_change with false; [now repeat split|exact Hsm2|exact C1].
    + apply visible_change with false; [|exact Hs2|exact C2]. destruct K as (K1 & K2 & K3). now repeat split.
  - rewrite Tg. intros x Hx Hn. rewrite <- (saved_others _ _ _ _ _ W Hn). pose proof (saved_others _ _ _ _ _ W Hn) as E1.
    assert (Hn1 : tbl s1 x <> None) by (now rewrite E1). pose proof (saved_others _ _ _ _ _ W2 Hn1) as E2. rewrite <- E2. apply M1; [exact Hx|]. now rewrite E2.
  - rewrite Tg. intros x. unfold origs. rewrite map_app, in_app_iff. intros [H|H]; [rewrite (P1 x H)|rewrite (O1 x H)]; cbn; tauto.
  - rewrite Tg. intros Hok Hr x. unfold origs. rewrite map_app, in_app_iff. intros [<-|[<-|[]]]; [right; apply O2|left; apply P2]; auto.
Qed.
Lemma redirection_ok r save s : consistent OM MIN s -> (rd_type r = RT_PIPE -> rd_fd r < MIN) ->
  exists ok d s', open_redirection L OM MIN posix clobber sockets PB r save s = Ok ((ok, d ++ save), s') /\ did r ok d s s'.
Proof.
  intros Hc Hp. unfold open_redirection. destruct (Z.ltb_spec (rd_fd r) 0) as [Hneg|Ho]; [exists false, [], s; split; [reflexivity|now apply did_nothing]|].
  unfold bind at 1. destruct (is_shellfd_ok s (rd_fd r) Hc Ho) as (b & -> & B & _). cbn [rbind]. destruct b; [exists false, [], s; split; [reflexivity|now apply did_nothing]|].
  destruct (B eq_refl) as [Hs _]. clear B.
  destruct (operand r) as [arg|] eqn:Eo.
  2: { destruct (save_ok (rd_fd r) save s Hc Ho) as (d & s1 & E & W & Hc1 & R).
    assert (A : acted r false s1 s1) by (split; [apply modest_refl|]; split; [intros _ _ x _; reflexivity|discriminate]).
    destruct (rd_type r) eqn:Et; try (exists false, [], s; split; [reflexivity|now apply did_nothing]).
    unfold bind. rewrite E. cbn [rbind ret]. exists false, d, s1. split; [reflexivity|]. apply simple_did with s1; auto. discriminate. }
  destruct (save_ok (rd_fd r) save s Hc Ho) as (d & s1 & E & W & Hc1 & R). pose proof (saved_self _ _ _ _ Hc W Hs) as Hs1. unfold bind at 1. rewrite E. cbn [rbind].
  destruct (rtype_eq_pipe (rd_type r)) as [Ep|Np].
  - assert (Ea : rd_arg r = Some arg) by (unfold operand in Eo; now rewrite Ep in Eo).
    assert (X : exists s3, (do (fd, keepopen, save0) <- ret ((-2, false, d ++ save) : Z * bool * saved);
       if fd <? -1 then ret (false, save0) else do ok <- move_fd OM fd (rd_fd r) keepopen; ret (ok, save0)) s1 = Ok ((false, d ++ save), s3) /\ did r false d s s3).
    { exists s1. split; [reflexivity|]. apply simple_did with s1; auto; [discriminate|apply act_false]. }
    unfold open_one. cbv zeta. rewrite Ep. unfold parse_and_exec_pipe. replace (rd_fd r <? 0) with false by lia.
    destruct (fd_number L arg) as [m|] eqn:En; [|exists false, d; exact X].
    destruct (Z.eqb_spec (rd_fd r) m) as [Em|Nm]; [exists false, d; exact X|]. apply number_nonneg in En as Hm.
    destruct (is_shellfd_ok s1 m Hc1 Hm) as (b & Es & B & _). unfold bind at 1 2 3. rewrite Es. cbn [rbind]. destruct b; [exists false, d; exact X|]. destruct (B eq_refl) as [Hsm _]. clear X B.
    destruct (save_ok m (d ++ save) s1 Hc1 Hm) as (d2 & s2 & E2 & W2 & Hc2 & R2). unfold bind at 1. rewrite E2. cbn [rbind].
    destruct (pipe_ok m s2 Hm) as (r3 & s3 & E3 & K3 & P).
    match goal with |- exists ok d0 s', (let! (a, s'0) := (let! (a0, s'1) := ?t s2 in _) in _) = _ /\ _ =>
      assert (Et : t s2 = Ok ((r3, d2 ++ d ++ save), s3)) end.
    { clear - E3. revert E3. unfold bind, ret. destruct (sys_pipe OM s2) as [[[[pin pout]|] s3']| |]; cbn [rbind]; try discriminate; [|intros E; injection E as <- <-; reflexivity].
      destruct (pout =? m).
      - destruct (sys_dupfd OM pout 0 false s3') as [[[n|e] s4]| |]; cbn [rbind xclose]; try discriminate; [|intros E; injection E as <- <-; reflexivity].
        destruct (pin =? m); [intros E; injection E as <- <-; reflexivity|]. destruct (xdup2 OM pin m _) as [[[|] s5]| |]; cbn [rbind xclose]; try discriminate; intros E; injection E as <- <-; reflexivity.
      - cbn [rbind]. destruct (pin =? m); [intros E; injection E as <- <-; reflexivity|]. destruct (xdup2 OM pin m _) as [[[|] s5]| |]; cbn [rbind xclose]; try discriminate; intros E; injection E as <- <-; reflexivity. }
    rewrite Et. cbn [rbind]. rewrite app_assoc. destruct r3 as [pout|].
    + destruct P as (f & u & Rm & C & O). destruct (free_spec _ _ (proj1 (proj2 O))) as [Rp _]. cbn [ret rbind]. replace (pout <? -1) with false by lia. unfold bind.
      destruct (move_opened pout (rd_fd r) _ _ O Ho) as (ok & s4 & -> & Mo & Ne & Ef). cbn [rbind ret]. exists ok, (d2 ++ d), s4. split; [reflexivity|].
      apply pipe_did with m arg s1 s2; auto.
      * destruct Mo as (K & M1 & M2). cbn [with_tbl tbl] in *. destruct C as [C1 C2]. split; [exact K|]. split.
        -- intros x Hx Hn. assert (x <> m) by (intros ->; apply Hx; cbn; tauto). rewrite M1, C2; auto; [intros [<-|[]]; apply Hx; cbn; tauto|rewrite C2; auto].
        -- intros x Hx. destruct (Z.eq_dec x m) as [->|N]; [now right|]. destruct (M2 x Hx) as [H|H]; [|now right]. rewrite C2 in H by exact N. now left.
      * intros Hr Hf x Hx. rewrite (Ne Hr Hf x) by (intros [<-|[]]; apply Hx; cbn; tauto). cbn [with_tbl tbl]. apply C. intros ->. apply Hx. cbn; tauto.
      * intros Hok. destruct (Ef Hok) as (g & C' & _). exists f, g, u. auto.
    + cbn [ret rbind Z.ltb Z.compare]. exists false, (d2 ++ d), s3. split; [reflexivity|]. destruct P as [(K & M1 & M2) Ne]. apply pipe_did with m arg s1 s2; auto.
      * split; [exact K|]. split; [|exact M2]. intros x Hx. apply M1. intros [<-|[]]. apply Hx. cbn; tauto.
      * intros _ _ x Hx. apply Ne. intros [<-|[]]. apply Hx. cbn; tauto.
      * discriminate.
  - assert (X : exists ok s3, (do (fd, keepopen, save0) <- open_one L OM MIN posix clobber sockets PB r arg (d ++ save);
       if fd <? -1 then ret (false, save0) else do ok <- move_fd OM fd (rd_fd r) keepopen; ret (ok, save0)) s1 = Ok ((ok, d ++ save), s3) /\ acted r ok s1 s3).
    { unfold open_one. cbv zeta. destruct (rd_type r) eqn:Et; try contradiction;
        first [eapply act_opener; [first [apply open_file_ok|apply open_herestring_ok|apply open_process_ok]|exact Ho|exact Hs1|rewrite Et; cbn; tauto]
              |eapply act_dup; [exact Hc1|exact Ho|exact Hs1|rewrite Et; cbn; tauto|unfold operand in Eo; rewrite Et in Eo; exact Eo]]. }
    destruct X as (ok & s3 & E3 & A). exists ok, d, s3. split; [exact E3|]. now apply simple_did with s1.
Qed.
End Proofs.
