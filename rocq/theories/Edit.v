(** Proofs about editing a line. *)
From Coq Require Import Ascii String.
From Coq Require Import List NArith ZArith Bool Arith Lia ZifyNat.
From Verif Require Import Common EditModel EditSpec.
Import ListNotations.
Local Open Scope nat_scope.
Ltac Zify.zify_post_hook ::= Z.div_mod_to_equations.

Lemma ent_eqb_eq a b : ent_eqb a b = true <-> a = b.
Proof.
  destruct a, b; cbn; split; intro H; try congruence; try discriminate.
  - apply Nat.eqb_eq in H; congruence.
  - inversion H; apply Nat.eqb_refl.
Qed.
Lemma ent_eqb_refl a : ent_eqb a a = true.
Proof. apply ent_eqb_eq; reflexivity. Qed.
Lemma set_nth_length {A} i (x : A) b : i < length b -> length (set_nth i x b) = length b.
Proof. intro H. unfold set_nth. rewrite app_length, firstn_length. cbn [length]. rewrite skipn_length. lia. Qed.
Lemma set_nth_same {A} i (x d : A) b : i < length b -> nth i (set_nth i x b) d = x.
Proof.
  intro H. unfold set_nth. rewrite app_nth2; rewrite firstn_length; [|lia].
  replace (i - min i (length b)) with 0 by lia. reflexivity.
Qed.
Lemma set_nth_other {A} i j (x d : A) b : i < length b -> j <> i -> nth j (set_nth i x b) d = nth j b d.
Proof.
  intros H D. rewrite <- (firstn_skipn i b) at 2. unfold set_nth.
  assert (E : skipn i b = nth i b d :: skipn (S i) b).
  { clear D. revert i H. induction b as [|y b IH]; intros [|i] H; cbn in *; try lia; [reflexivity|]. apply IH; lia. }
  rewrite E. destruct (lt_dec j i) as [L|L].
  - rewrite !app_nth1; try rewrite firstn_length; try lia; reflexivity.
  - rewrite !app_nth2; rewrite firstn_length; try lia.
    replace (min i (length b)) with i by lia. destruct (j - i) eqn:X; [lia|]. reflexivity.
Qed.
Lemma skipn_cons_nth {A} i (b : list A) x : nth_error b i = Some x -> skipn i b = x :: skipn (S i) b.
Proof. revert i. induction b as [|y b IH]; intros [|i] H; cbn in *; try discriminate; [congruence|]. apply IH, H. Qed.
Lemma firstn_S_nth {A} i (b : list A) x : nth_error b i = Some x -> firstn (S i) b = firstn i b ++ [x].
Proof. revert i. induction b as [|y b IH]; intros [|i] H; cbn in *; try discriminate; [congruence|]. f_equal. apply IH, H. Qed.

Lemma Forall_firstn {A} (P : A -> Prop) n l : Forall P l -> Forall P (firstn n l).
Proof. intro H. rewrite <- (firstn_skipn n l) in H. apply Forall_app in H. apply H. Qed.
Lemma Forall_skipn {A} (P : A -> Prop) n l : Forall P l -> Forall P (skipn n l).
Proof. intro H. rewrite <- (firstn_skipn n l) in H. apply Forall_app in H. apply H. Qed.

Lemma skipn_skipn {A} a b (l : list A) : skipn a (skipn b l) = skipn (b + a) l.
Proof. revert l. induction b as [|b IH]; intro l; [reflexivity|]. destruct l as [|x l]; [destruct a; reflexivity|]. apply IH. Qed.

(** * The undo history as a zipper *)
Definition here (s : est) : bool := ent_eqb (uent (un s)) (ment s).
Definition past (s : est) : list (nat * list N) :=
  if here s then firstn (S (ui (un s))) (uh (un s)) else [(usi (un s), mval s)].
Definition future (s : est) : list (nat * list N) :=
  if here s then skipn (S (ui (un s))) (uh (un s)) else [].
Definition ok_state (h : nat * list N) : Prop := fst h <= length (snd h).
Record uinv (v : nat -> list N) (s : est) : Prop := {
  u_ui : ui (un s) < length (uh (un s));
  u_ok : Forall ok_state (uh (un s));
  u_away : here s = false -> mval s = val_of v (ment s) /\ usi (un s) <= length (mval s);
  u_first : exists j rest, uh (un s) = (j, val_of v (uent (un s))) :: rest }.
Definition now (s : est) : nat * list N := (idx (ln s), buf (ln s)).
(** Where the line is saved: over the last state if the text is that, else after it *)
Definition pushed (s : est) : list (nat * list N) :=
  (if list_N_eqb (buf (ln s)) (snd (last (past s) (0, []))) then removelast (past s) else past s) ++ [now s].
Definition cut (s : est) : list (nat * list N) :=
  if list_N_eqb (buf (ln s)) (snd (last (past s) (0, []))) then future s else [].

Lemma past_last s h : here s = true -> nth_error (uh (un s)) (ui (un s)) = Some h ->
  past s = firstn (ui (un s)) (uh (un s)) ++ [h].
Proof. intros H E. unfold past. rewrite H. apply firstn_S_nth, E. Qed.

Lemma maybe_save_ok v s : uinv v s -> idx (ln s) <= length (buf (ln s)) ->
  exists u, maybe_save s = Some (put_un u s) /\ uinv v (put_un u s)
    /\ past (put_un u s) = pushed s /\ future (put_un u s) = cut s
    /\ length (uh u) <= S (length (uh (un s))).
Proof.
  intros I L. destruct I as [A B C (j0 & rest & D)]. unfold maybe_save, pushed, cut.
  fold (here s). destruct (here s) eqn:H.
  - destruct (nth_error (uh (un s)) (ui (un s))) as [[j t]|] eqn:E; [|apply nth_error_None in E; lia].
    pose proof (past_last s _ H E) as P. rewrite P, last_last, removelast_last. cbn [snd].
    assert (F : ent_eqb (uent (un s)) (ment s) = true) by exact H.
    destruct (list_N_eqb (buf (ln s)) t) eqn:Q.
    + apply list_N_eqb_eq in Q. eexists. split; [reflexivity|].
      assert (Pe : past (put_un {| uh := set_nth (ui (un s)) (idx (ln s), t) (uh (un s)); ui := ui (un s); uent := uent (un s); usi := idx (ln s) |} s)
        = firstn (ui (un s)) (uh (un s)) ++ [now s]).
      { rewrite (past_last _ (idx (ln s), t)).
        - cbn [un put_un uh ui]. unfold set_nth. rewrite firstn_app, firstn_firstn, firstn_length.
          replace (ui (un s) - min (ui (un s)) (length (uh (un s)))) with 0 by lia.
          rewrite Nat.min_id, firstn_O, app_nil_r. unfold now. rewrite Q. reflexivity.
        - exact F.
        - cbn [un put_un uh ui]. unfold set_nth. rewrite nth_error_app2; rewrite firstn_length; [|lia].
          replace (ui (un s) - min (ui (un s)) (length (uh (un s)))) with 0 by lia. reflexivity. }
      split; [|split; [exact Pe|split]].
      * split; cbn [un put_un uh ui uent usi ment mval].
        -- rewrite set_nth_length; lia.
        -- unfold set_nth. apply Forall_app. split; [apply Forall_firstn, B|].
           constructor; [unfold ok_state; cbn; rewrite <- Q; exact L|apply Forall_skipn, B].
        -- intro G. unfold here in G. cbn [un put_un uent ment] in G. rewrite F in G. discriminate.
        -- rewrite D. rewrite D in E. unfold set_nth. destruct (ui (un s)) as [|k] eqn:K.
           ++ cbn in E. inversion E; subst t. cbn [firstn app]. eexists _, _. reflexivity.
           ++ cbn [firstn app]. eexists _, _. reflexivity.
      * unfold future, here. cbn [un put_un uh ui uent ment]. unfold here in H. rewrite H.
        unfold set_nth. rewrite skipn_app, firstn_length.
        rewrite skipn_all2 by (rewrite firstn_length; lia).
        replace (S (ui (un s)) - min (ui (un s)) (length (uh (un s)))) with 1 by lia. reflexivity.
      * cbn [uh]. rewrite set_nth_length; lia.
    + unfold save. destruct (Nat.leb_spec (S (ui (un s))) (length (uh (un s)))) as [_|G]; [|lia].
      eexists. split; [reflexivity|].
      assert (LF : length (firstn (S (ui (un s))) (uh (un s))) = S (ui (un s))) by (rewrite firstn_length; lia).
      split; [|split; [|split]].
      * split; cbn [un put_un uh ui uent usi ment mval].
        -- rewrite app_length, LF. cbn. lia.
        -- apply Forall_app. split; [apply Forall_firstn, B|]. constructor; [exact L|constructor].
        -- intro G. unfold here in G. cbn [un put_un uent ment] in G. rewrite ent_eqb_refl in G. discriminate.
        -- rewrite D. apply ent_eqb_eq in F. rewrite <- F. cbn [firstn app]. eexists _, _. reflexivity.
      * unfold past, here. cbn [un put_un uh ui uent ment]. rewrite ent_eqb_refl.
        rewrite firstn_all2 by (rewrite app_length, LF; cbn; lia). rewrite (firstn_S_nth _ _ _ E). reflexivity.
      * unfold future, here. cbn [un put_un uh ui uent ment]. rewrite ent_eqb_refl.
        apply skipn_all2. rewrite app_length, LF; cbn; lia.
      * cbn [uh]. rewrite app_length, LF. cbn. lia.
  - destruct (C eq_refl) as (M & US). 
    assert (PS : past s = [(usi (un s), mval s)]) by (unfold past; rewrite H; reflexivity).
    assert (FS : future s = []) by (unfold future; rewrite H; reflexivity).
    rewrite PS, FS. cbn [last snd removelast app].
    destruct (list_N_eqb (buf (ln s)) (mval s)) eqn:Q.
    + apply list_N_eqb_eq in Q. eexists. split; [reflexivity|].
      assert (Hh : ent_eqb (uent (un s)) (ment s) = false) by exact H.
      split; [|split; [|split]].
      * split; cbn [un put_un uh ui uent usi ment mval]; auto.
        -- intros _. split; [exact M|]. rewrite <- Q. exact L.
        -- eauto.
      * unfold past, here. cbn [un put_un uh ui uent usi ment mval]. rewrite Hh. unfold now. rewrite Q. reflexivity.
      * unfold future, here. cbn [un put_un uh ui uent usi ment mval]. rewrite Hh. reflexivity.
      * cbn [uh]. lia.
    + destruct (Nat.leb_spec (usi (un s)) (length (mval s))) as [_|G]; [|lia]. unfold save. cbn [length Nat.leb].
      eexists. split; [reflexivity|]. split; [|split; [|split]].
      * split; cbn [un put_un uh ui uent usi ment mval firstn app length].
        -- lia.
        -- constructor; [exact US|]. constructor; [exact L|constructor].
        -- intro G. unfold here in G. cbn [un put_un uent ment] in G. rewrite ent_eqb_refl in G. discriminate.
        -- rewrite M. eauto.
      * unfold past, here. cbn [un put_un uh ui uent ment]. rewrite ent_eqb_refl. reflexivity.
      * unfold future, here. cbn [un put_un uh ui uent ment]. rewrite ent_eqb_refl. reflexivity.
      * cbn [uh firstn app length]. rewrite D. cbn [length]. lia.
Qed.

Lemma past_not_nil v s : uinv v s -> past s <> [].
Proof.
  intros [A _ _ (j & r & D)]. unfold past. destruct (here s); [|discriminate]. rewrite D. discriminate.
Qed.

(** The head of [past] is the value of the entry. *)
Lemma past_first v s : uinv v s -> exists j rest, past s = (j, val_of v (ment s)) :: rest.
Proof.
  intros [A _ C (j & r & D)]. unfold past. destruct (here s) eqn:H.
  - rewrite D. unfold here in H. apply ent_eqb_eq in H. rewrite <- H. cbn [firstn]. eauto.
  - destruct (C eq_refl) as (-> & _). eauto.
Qed.

(** Undoing and redoing in terms of [past] and [future] *)
Definition moved (p f : list (nat * list N)) (offset : Z) : list (nat * list N) * list (nat * list N) :=
  let k := if (offset <? 0)%Z then length p - Z.to_nat (- offset) else length p + Z.to_nat offset in
  let k := max 1 (min k (length p + length f)) in
  (firstn k (p ++ f), skipn k (p ++ f)).

Lemma cancel_undo_ok v s offset : uinv v s -> idx (ln s) <= length (buf (ln s)) ->
  exists l u, cancel_undo offset s = Some (put_ln l (put_un u s)) /\ uinv v (put_un u s)
    /\ idx l <= length (buf l)
    /\ (past (put_un u s), future (put_un u s)) = moved (pushed s) (cut s) offset
    /\ (idx l, buf l) = last (past (put_un u s)) (0, [])
    /\ length (uh u) <= S (length (uh (un s))).
Proof.
  intros I L. destruct (maybe_save_ok v s I L) as (u & E & J & P & F & LU).
  unfold cancel_undo. rewrite E. cbn [un put_un ment].
  pose proof J as J'. destruct J' as [A B C D]. cbn [un put_un ment mval] in *.
  assert (LastP : last (pushed s) (0, []) = now s) by (unfold pushed; apply last_last).
  fold (here (put_un u s)) in *. change (ent_eqb (uent u) (ment s)) with (here (put_un u s)).
  destruct (here (put_un u s)) eqn:H.
  - assert (PF : pushed s ++ cut s = uh u).
    { rewrite <- P, <- F. unfold past, future. rewrite H. apply firstn_skipn. }
    assert (LP : length (pushed s) = S (ui u)).
    { rewrite <- P. unfold past. rewrite H. cbn [un put_un]. rewrite firstn_length. lia. }
    assert (LF : length (cut s) = length (uh u) - S (ui u)).
    { rewrite <- F. unfold future. rewrite H. cbn [un put_un]. rewrite skipn_length. lia. }
    match goal with |- context [match ?x with None => Some _ | Some _ => _ end] => set (i := x) end.
    set (k := max 1 (min (if (offset <? 0)%Z then length (pushed s) - Z.to_nat (- offset) else length (pushed s) + Z.to_nat offset) (length (pushed s) + length (cut s)))).
    assert (HK : match i with None => k = S (ui u) | Some i => k = S i end).
    { subst i k. rewrite LP, LF. destruct (Z.ltb_spec offset 0).
      - destruct (Nat.eqb_spec (ui u) 0); [lia|]. destruct (Z.ltb_spec (Z.of_nat (ui u)) (- offset)); lia.
      - destruct (Nat.leb_spec (length (uh u)) (ui u + 1)); [lia|].
        destruct (Z.leb_spec (Z.of_nat (length (uh u) - ui u)) offset); lia. }
    assert (KL : k <= length (uh u)) by (subst k; rewrite LP, LF; lia).
    clearbody i. destruct i as [i|].
    + destruct (nth_error (uh u) i) as [[j t]|] eqn:N; [|apply nth_error_None in N; lia].
      assert (OK : j <= length t).
      { apply nth_error_In in N. rewrite Forall_forall in B. apply (B _ N). }
      destruct (Nat.leb_spec j (length t)) as [_|?]; [|lia].
      exists (mkLine t j), (mkUndo (uh u) i (uent u) (usi u)). split; [reflexivity|].
      assert (H2 : here (put_un (mkUndo (uh u) i (uent u) (usi u)) s) = true) by exact H.
      assert (P2 : past (put_un (mkUndo (uh u) i (uent u) (usi u)) s) = firstn (S i) (uh u)) by (unfold past; rewrite H2; reflexivity).
      split; [|split; [exact OK|split; [|split; [|cbn [uh]; exact LU]]]].
      * split; cbn [un put_un uh ui uent usi ment mval]; auto; [lia|]. rewrite H2. discriminate.
      * unfold moved. cbv zeta. fold k. rewrite PF, HK, P2. f_equal. unfold future. rewrite H2. reflexivity.
      * rewrite P2, (firstn_S_nth _ _ _ N), last_last. reflexivity.
    + exists (ln s), u. split; [destruct s; reflexivity|]. split; [exact J|]. split; [exact L|].
      split; [|split; [rewrite P, LastP; reflexivity|exact LU]].
      unfold moved. cbv zeta. fold k. rewrite PF, HK. unfold past, future. rewrite H. reflexivity.
  - exists (ln s), u. split; [destruct s; reflexivity|]. split; [exact J|]. split; [exact L|].
    split; [|split; [rewrite P, LastP; reflexivity|exact LU]].
    assert (PU : exists x, pushed s = [x]) by (rewrite <- P; unfold past; rewrite H; eauto).
    assert (FU : cut s = []) by (rewrite <- F; unfold future; rewrite H; reflexivity).
    rewrite P, F, FU. destruct PU as (x & ->). unfold moved. cbn [length app].
    destruct (Z.ltb_spec offset 0).
    + replace (max 1 (min (1 - Z.to_nat (- offset)) (1 + 0))) with 1 by lia. reflexivity.
    + replace (max 1 (min (1 + Z.to_nat offset) (1 + 0))) with 1 by lia. reflexivity.
Qed.

Lemma go_to_ok v s e c : uinv v s -> idx (ln s) <= length (buf (ln s)) ->
  exists l u, go_to v e c s = Some (mkE l e (buf l) u (kr s) (ow s) (lastc s) (popok s) (vicmd s))
    /\ uinv v (mkE l e (buf l) u (kr s) (ow s) (lastc s) (popok s) (vicmd s))
    /\ idx l <= length (buf l) /\ length (uh u) <= S (length (uh (un s))).
Proof.
  intros I L. destruct (maybe_save_ok v s I L) as (u & E & J & _ & _ & LU).
  unfold go_to. rewrite E. cbn [un put_un ln kr ow lastc popok vicmd].
  destruct J as [A B C D]. cbn [un put_un ment mval] in *.
  destruct (nth_error (uh u) (ui u)) as [[j t]|] eqn:N; [|apply nth_error_None in N; lia].
  assert (OK : j <= length t).
  { apply nth_error_In in N. rewrite Forall_forall in B. apply (B _ N). }
  destruct (ent_eqb e (uent u)) eqn:Q.
  - destruct (Nat.leb_spec j (length t)) as [_|?]; [|lia].
    eexists (mkLine t j), _. cbn [buf idx]. split; [reflexivity|]. split; [|split; [exact OK|exact LU]].
    split; cbn [un uh ui uent usi ment mval]; auto. unfold here. cbn [un uent ment].
    apply ent_eqb_eq in Q. subst e. rewrite ent_eqb_refl. discriminate.
  - eexists (mkLine (val_of v e) _), _. cbn [buf idx]. split; [reflexivity|].
    assert (X : match c with SPrefix => min (idx (ln s)) (length (val_of v e)) | SVi => 0 | SEmacs => length (val_of v e) end <= length (val_of v e)) by (destruct c; lia).
    split; [|split; [exact X|exact LU]].
    split; cbn [un uh ui uent usi ment mval]; auto.
Qed.

(** * The kill ring *)
Definition pos (n i : nat) : nat := (n + 31 - i) mod 32.
Record rinv (log : list (list N)) (k : kring) : Prop := {
  r_len : length (ring k) = 32;
  r_nk : nk k < 32;
  r_log : forall i, i < 32 -> nth (pos (nk k) i) (ring k) None = nth_error log i;
  r_text : Forall (fun t => t <> []) log }.
Lemma rinv_add log k t : rinv log k -> rinv (log_kill t log) (add_to_ring t k).
Proof.
  intros I. destruct t as [|c t]; [exact I|]. destruct I as [A B C D].
  unfold add_to_ring, log_kill, KILL_RING_SIZE. split; cbn [ring nk].
  - rewrite set_nth_length; lia.
  - lia.
  - intros i Hi. destruct i as [|i].
    + cbn [nth_error]. replace (pos ((nk k + 1) mod 32) 0) with (nk k) by (unfold pos; lia). apply set_nth_same. lia.
    + cbn [nth_error]. rewrite <- C by lia.
      replace (pos ((nk k + 1) mod 32) (S i)) with (pos (nk k) i) by (unfold pos; lia).
      apply set_nth_other; [lia|]. unfold pos. lia.
  - constructor; [discriminate|exact D].
Qed.
Lemma rinv_put log k e a b : rinv log k -> rinv log (mkRing (ring k) (nk k) e a b).
Proof. intros [A B C D]. split; assumption. Qed.
Lemma ring_none k j : rinv [] k -> nth j (ring k) None = None.
Proof.
  intros [A B C _]. destruct (lt_dec j 32) as [H|H]; [|apply nth_overflow; lia].
  specialize (C ((nk k + 31 - j) mod 32)). replace (pos (nk k) ((nk k + 31 - j) mod 32)) with j in C by (unfold pos; lia).
  rewrite C by lia. destruct ((nk k + 31 - j) mod 32); reflexivity.
Qed.
Definition held (log : list (list N)) : nat := min 32 (length log).
Lemma find_prev_ok log k : rinv log k -> log <> [] ->
  forall fuel i, i < 32 -> (held log <= S i -> 31 - i <= fuel) ->
  find_prev fuel (pos (nk k) i) (ring k) = pos (nk k) (if S i <? held log then S i else 0).
Proof.
  intros [A B C D] NE. unfold held. assert (0 < length log) by (destruct log; [congruence|cbn; lia]).
  induction fuel as [|fuel IH]; intros i Hi Hf; cbn [find_prev].
  - destruct (Nat.ltb_spec (S i) (min 32 (length log))) as [Q|Q];
      (destruct (nth (prev_index (pos (nk k) i)) (ring k) None);
       unfold prev_index, KILL_RING_SIZE, pos; lia).
  - assert (PV : prev_index (pos (nk k) i) = if Nat.eq_dec i 31 then pos (nk k) 0 else pos (nk k) (S i)).
    { destruct (Nat.eq_dec i 31); unfold prev_index, KILL_RING_SIZE, pos; lia. }
    rewrite PV. destruct (Nat.eq_dec i 31) as [->|NI].
    + rewrite C by lia. destruct (nth_error log 0) eqn:Z; [|apply nth_error_None in Z; lia].
      destruct (Nat.ltb_spec 32 (min 32 (length log))); [lia|reflexivity].
    + rewrite C by lia. destruct (Nat.ltb_spec (S i) (min 32 (length log))) as [Q|Q].
      * destruct (nth_error log (S i)) eqn:Z; [reflexivity|apply nth_error_None in Z; lia].
      * destruct (nth_error log (S i)) eqn:Z.
        -- exfalso. assert (S i < length log) by (apply nth_error_Some; congruence). lia.
        -- rewrite IH by lia. destruct (Nat.ltb_spec (S (S i)) (min 32 (length log))); [lia|reflexivity].
Qed.

Lemma insert_length i t b : i <= length b -> length (insert i t b) = length t + length b.
Proof. intro H. unfold insert. rewrite !app_length, firstn_length, skipn_length. lia. Qed.
Lemma insert_times_length n : forall i t b, i <= length b -> length (insert_times n i t b) = n * length t + length b.
Proof.
  induction n as [|n IH]; intros i t b H; cbn [insert_times]; [reflexivity|].
  rewrite IH; rewrite insert_length; lia.
Qed.
Lemma prev_pos n : n < 32 -> prev_index n = pos n 0.
Proof. intro H. unfold prev_index, KILL_RING_SIZE, pos. lia. Qed.
Lemma held_text log k i : rinv log k -> i < held log ->
  nth (pos (nk k) i) (ring k) None = Some (nth i log []) /\ 0 < length (nth i log []).
Proof.
  unfold held. intros [A B C D] H. rewrite C by lia. split; [apply nth_error_nth'; lia|].
  rewrite Forall_forall in D. assert (X : In (nth i log []) log) by (apply nth_In; lia).
  apply D in X. destruct (nth i log []); [congruence|cbn; lia].
Qed.
Definition put_result (log : list (list N)) (p count i : nat) (on_last : bool) (s : est) : est :=
  let b := insert_times count p (nth i log []) (buf (ln s)) in
  let e := p + count * length (nth i log []) in
  put_ln (mkLine b (if on_last then e - 1 else e)) (put_kr (mkRing (ring (kr s)) (nk (kr s)) (pos (nk (kr s)) i) p (e - p)) s).
Lemma insert_killed_ok log s after on_last count i :
  rinv log (kr s) -> i < held log -> idx (ln s) <= length (buf (ln s)) ->
  let p := put_place after (ln s) in
  p <= length (buf (ln s)) /\
  (((count <= 0)%Z /\ p = 0 /\ insert_killed after on_last count (pos (nk (kr s)) i) s = None)
   \/ (~ ((count <= 0)%Z /\ p = 0)
       /\ insert_killed after on_last count (pos (nk (kr s)) i) s = Some (put_result log p (Z.to_nat count) i on_last s))).
Proof.
  intros R H L. cbv zeta. destruct (held_text _ _ _ R H) as (T & TL).
  unfold insert_killed. rewrite T. cbv zeta. fold (put_place after (ln s)).
  assert (PL : put_place after (ln s) <= length (buf (ln s))).
  { unfold put_place. destruct after; cbn [andb]; [|lia]. destruct (Nat.ltb_spec (idx (ln s)) (length (buf (ln s)))); lia. }
  split; [exact PL|].
  set (p := put_place after (ln s)) in *. rewrite insert_times_length by exact PL.
  set (t := nth i log []) in *.
  assert (X : 0 < Z.to_nat count -> 0 < Z.to_nat count * length t) by (intro; apply Nat.mul_pos_pos; assumption).
  assert (X0 : Z.to_nat count = 0 -> Z.to_nat count * length t = 0) by (intros ->; reflexivity).
  destruct (Nat.leb_spec (length (buf (ln s)) - p + 1) (Z.to_nat count * length t + length (buf (ln s)))) as [G|G].
  - right. split; [intros (Q1 & Q2); lia|].
    unfold put_result. fold t. cbv zeta.
    replace (Z.to_nat count * length t + length (buf (ln s)) - (length (buf (ln s)) - p)) with (p + Z.to_nat count * length t) by lia.
    reflexivity.
  - left. split; [|split]; [lia|lia|reflexivity].
Qed.

Definition lp_ok (log : list (list N)) (s : est) : Prop :=
  log <> [] -> lps (kr s) + lpl (kr s) <= length (buf (ln s)) /\ exists i, i < held log /\ lpe (kr s) = pos (nk (kr s)) i.
Record inv (v : nat -> list N) (s : est) (log : list (list N)) : Prop := {
  n_idx : idx (ln s) <= length (buf (ln s));
  n_u : uinv v s;
  n_r : rinv log (kr s);
  n_p : lastc s = KPut \/ lastc s = KPop /\ popok s = true -> lp_ok log s }.

Lemma uinv_ext v s s' : ment s' = ment s -> mval s' = mval s -> un s' = un s ->
  (uinv v s -> uinv v s') /\ past s' = past s /\ future s' = future s.
Proof.
  intros E1 E2 E3. unfold past, future, here. rewrite E1, E2, E3. split; [|split]; try reflexivity.
  intros [A B C D]. unfold here in C. split; try unfold here; rewrite ?E1, ?E2, ?E3; auto.
Qed.

Definition outcome (v : nat -> list N) (s : est) (log : list (list N)) (c : cmd) (s' : est) : Prop :=
  idx (ln s') <= length (buf (ln s')) /\ uinv v s' /\ rinv (log_kill (kills s c) log) (kr s')
  /\ (kind_of c = KPut \/ kind_of c = KPop /\ popok s' = true -> lp_ok log s')
  /\ (saving s c -> buf (ln s') <> buf (ln s) -> past s' = pushed s /\ future s' = cut s)
  /\ length (uh (un s')) <= S (length (uh (un s)))
  /\ (match c with CGo e _ => True | _ => ment s' = ment s end).

Lemma outcome_saved v s log c s' u :
  uinv v (put_un u s) -> past (put_un u s) = pushed s -> future (put_un u s) = cut s ->
  length (uh u) <= S (length (uh (un s))) ->
  ment s' = ment s -> mval s' = mval s -> un s' = u ->
  idx (ln s') <= length (buf (ln s')) -> rinv (log_kill (kills s c) log) (kr s') ->
  (kind_of c = KPut \/ kind_of c = KPop /\ popok s' = true -> lp_ok log s') ->
  outcome v s log c s'.
Proof.
  intros J P F LU E1 E2 E3 A B C. subst u.
  destruct (uinv_ext v (put_un (un s') s) s') as (X1 & X2 & X3); try assumption; try reflexivity.
  unfold outcome. split; [exact A|]. split; [apply X1, J|]. split; [exact B|]. split; [exact C|].
  split; [intros _ _; rewrite X2, X3; split; assumption|]. split; [exact LU|]. destruct c; auto.
Qed.
Lemma outcome_plain v s log c s' :
  uinv v s -> ment s' = ment s -> mval s' = mval s -> un s' = un s ->
  idx (ln s') <= length (buf (ln s')) -> rinv (log_kill (kills s c) log) (kr s') ->
  (kind_of c = KPut \/ kind_of c = KPop /\ popok s' = true -> lp_ok log s') ->
  (saving s c -> buf (ln s') = buf (ln s)) ->
  outcome v s log c s'.
Proof.
  intros J E1 E2 E3 A B C D.
  destruct (uinv_ext v s s') as (X1 & X2 & X3); try assumption.
  unfold outcome. split; [exact A|]. split; [apply X1, J|]. split; [exact B|]. split; [exact C|].
  split; [intros S1 S2; exfalso; apply S2, D, S1|]. split; [rewrite E3; lia|]. destruct c; auto.
Qed.

Lemma self_insert_ok over n : forall c l, idx l <= length (buf l) ->
  idx (self_insert over n c l) <= length (buf (self_insert over n c l)).
Proof.
  induction n as [|n IH]; intros c l H; cbn [self_insert]; [exact H|]. apply IH. cbn [idx buf].
  destruct over; cbn [andb].
  - destruct (Nat.ltb_spec (idx l) (length (buf l))); [rewrite set_nth_length; lia|rewrite insert_length; cbn; lia].
  - rewrite insert_length; cbn; lia.
Qed.
Lemma replace_chars_ok n : forall c l, idx l <= length (buf l) ->
  idx (replace_chars n c l) <= length (buf (replace_chars n c l)).
Proof.
  induction n as [|n IH]; intros c l H; cbn [replace_chars]; [exact H|].
  destruct (Nat.ltb_spec (idx l) (length (buf l))); [|exact H]. apply IH. cbn [idx buf]. rewrite set_nth_length; lia.
Qed.
Lemma remove_length i n b : i + n <= length b -> length (remove i n b) = length b - n.
Proof. intro H. unfold remove. rewrite app_length, firstn_length, skipn_length. lia. Qed.

Ltac saved I := 
  let u := fresh "u" in let E := fresh "E" in let J := fresh "J" in let P := fresh "P" in let F := fresh "F" in let LU := fresh "LU" in
  destruct (maybe_save_ok _ _ (n_u _ _ _ I) (n_idx _ _ _ I)) as (u & E & J & P & F & LU); rewrite E.

Definition motion_body (m : mec) (new start stop : nat) (s : est) : est :=
  let old := idx (ln s) in
  let b := buf (ln s) in
  let s := if m_copy m then put_kr (add_to_ring (slice start (stop - start) b) (kr s)) s else s in
  let b := match m_case m with
           | Some f => firstn start b ++ map f (slice start (stop - start) b) ++ skipn stop b
           | None => b
           end in
  let i := match m_cur m with ToStart => start | ToEnd => stop | Move => new | Stay => old end in
  let s :=
    if m_del m then
      let b' := match ow s with
                | Some o => if (old <=? new)%nat then remove start (stop - start) b else restore_over o start stop b
                | None => remove start (stop - start) b
                end in
      put_ln (mkLine b' start) s
    else put_ln (mkLine b i) s in
  if m_ins m then put_ow None (put_vi false s) else s.
Lemma motion_body_ok m new start stop s :
  start <= idx (ln s) -> start <= new -> idx (ln s) <= stop -> new <= stop -> stop <= length (buf (ln s)) ->
  let s' := motion_body m new start stop s in
  un s' = un s /\ ment s' = ment s /\ mval s' = mval s
  /\ kr s' = (if m_copy m then add_to_ring (slice start (stop - start) (buf (ln s))) (kr s) else kr s)
  /\ idx (ln s') <= length (buf (ln s')).
Proof.
  intros A B C D E. unfold motion_body. cbv zeta.
  set (b := match m_case m with Some f => _ | None => _ end).
  assert (LB : length b = length (buf (ln s))).
  { subst b. destruct (m_case m); [|reflexivity]. unfold slice. rewrite !app_length, map_length, firstn_length, firstn_length, !skipn_length. lia. }
  clearbody b.
  assert (OW : forall x, ow (if m_copy m then put_kr x s else s) = ow s) by (intro; destruct (m_copy m); reflexivity).
  rewrite OW.
  assert (IX : match m_cur m with ToStart => start | ToEnd => stop | Move => new | Stay => idx (ln s) end <= length b) by (destruct (m_cur m); lia).
  assert (LR : start <= length (remove start (stop - start) b)) by (rewrite remove_length; lia).
  assert (LO : forall o, start <= length (restore_over o start stop b)).
  { intro o. unfold restore_over. rewrite app_length, firstn_length. lia. }
  destruct (m_copy m), (m_del m), (m_ins m), (ow s) as [o|]; cbn; auto 10;
    try (destruct (idx (ln s) <=? new); cbn; auto 10).
Qed.
Lemma motion_ok v s log m new incl back : inv v s log -> new <= length (buf (ln s)) ->
  exists s', motion m new incl back s = Some s' /\ outcome v s log (CMotion m new incl back) s'.
Proof.
  intros I H. pose proof (n_idx _ _ _ I) as L. unfold motion.
  destruct (Nat.leb_spec (idx (ln s)) (length (buf (ln s)))) as [_|?]; [|lia].
  destruct (Nat.leb_spec new (length (buf (ln s)))) as [_|?]; [|lia]. cbn [andb]. cbv zeta.
  set (start := min (idx (ln s)) new).
  set (stop := if incl && (max (idx (ln s)) new <? length (buf (ln s))) then S (max (idx (ln s)) new) else max (idx (ln s)) new).
  assert (ST : start <= idx (ln s) /\ start <= new /\ idx (ln s) <= stop /\ new <= stop /\ stop <= length (buf (ln s))).
  { subst start stop. destruct incl; cbn [andb]; [|lia].
    destruct (Nat.ltb_spec (max (idx (ln s)) new) (length (buf (ln s)))); lia. }
  set (rep := m_del m && (new + 1 =? idx (ln s)) && back && match lastc s with KBack => true | _ => false end).
  assert (REP : rep = true -> ~ saving s (CMotion m new incl back)).
  { subst rep. cbn [saving]. intros R Q. apply Q. destruct (m_del m); [|discriminate].
    destruct (Nat.eqb_spec (new + 1) (idx (ln s))); [|discriminate]. destruct back; [|discriminate].
    destruct (lastc s); try discriminate. auto. }
  assert (K : kills s (CMotion m new incl back) = if m_copy m then slice start (stop - start) (buf (ln s)) else []) by reflexivity.
  clearbody start stop rep. destruct ST as (S1 & S2 & S3 & S4 & S5).
  destruct rep.
  - exists (motion_body m new start stop s). split; [reflexivity|].
    destruct (motion_body_ok m new start stop s S1 S2 S3 S4 S5) as (E1 & E2 & E3 & E4 & E5).
    apply outcome_plain; auto; try exact (n_u _ _ _ I).
    + rewrite K, E4. destruct (m_copy m); [apply rinv_add|cbn [log_kill]]; exact (n_r _ _ _ I).
    + intros [Q|(Q & _)]; cbn in Q; destruct back; discriminate.
    + intro Q. exfalso. exact (REP eq_refl Q).
  - saved I. exists (motion_body m new start stop (put_un u s)). split; [reflexivity|].
    destruct (motion_body_ok m new start stop (put_un u s) S1 S2 S3 S4 S5) as (E1 & E2 & E3 & E4 & E5).
    apply (outcome_saved v s log _ _ u); auto.
    + rewrite K, E4. cbn [kr put_un ln]. destruct (m_copy m); [apply rinv_add|cbn [log_kill]]; exact (n_r _ _ _ I).
    + intros [Q|(Q & _)]; cbn in Q; destruct back; discriminate.
Qed.
Lemma put_result_lp log p count i on_last s :
  i < held log -> p <= length (buf (ln s)) -> lp_ok log (put_result log p count i on_last s)
  /\ idx (ln (put_result log p count i on_last s)) <= length (buf (ln (put_result log p count i on_last s))).
Proof.
  intros H P. unfold put_result, lp_ok. cbn [kr ln put_ln put_kr lps lpl lpe nk buf idx].
  rewrite insert_times_length by exact P. split.
  - intros _. split; [lia|]. exists i. split; [exact H|reflexivity].
  - destruct on_last; lia.
Qed.
Lemma put_ok v s log after on_last count : inv v s log ->
  (bad_put s log (CPut after on_last count) /\ put_killed after on_last count s = None)
  \/ (~ bad_put s log (CPut after on_last count)
      /\ exists s', put_killed after on_last count s = Some s' /\ outcome v s log (CPut after on_last count) s'
         /\ (log <> [] -> exists u, s' = put_result log (put_place after (ln s)) (Z.to_nat count) 0 on_last (put_un u s))).
Proof.
  intros I. unfold put_killed. saved I. cbn [kr put_un]. cbn [bad_put].
  rewrite prev_pos by apply (n_r _ _ _ I).
  destruct log as [|t0 log'] eqn:EL.
  - right. split; [intros (Q & _); congruence|]. unfold insert_killed. cbn [kr put_un].
    rewrite (ring_none _ _ (n_r _ _ _ I)). exists (put_un u s). split; [reflexivity|]. split; [|congruence].
    apply (outcome_saved v s [] _ _ u); auto; try apply (n_idx _ _ _ I); try apply (n_r _ _ _ I).
    intros _ Q. congruence.
  - rewrite <- EL in *. assert (H : 0 < held log) by (unfold held; rewrite EL; cbn; lia).
    destruct (insert_killed_ok log (put_un u s) after on_last count 0 (n_r _ _ _ I) H (n_idx _ _ _ I)) as (PL & [(A & B & C)|(A & B)]).
    + left. split; [split; [congruence|split; assumption]|exact C].
    + right. split; [intros (_ & Q1 & Q2); apply A; split; assumption|].
      eexists. split; [exact B|].
      destruct (put_result_lp log (put_place after (ln (put_un u s))) (Z.to_nat count) 0 on_last (put_un u s) H PL) as (LP & IX).
      split; [|intros _; exists u; reflexivity].
      apply (outcome_saved v s log _ _ u); auto. cbn [kills log_kill]. apply rinv_put, (n_r _ _ _ I).
Qed.
Definition pop_ready (s : est) : Prop := lastc s = KPut \/ lastc s = KPop /\ popok s = true.
Definition next_held (log : list (list N)) (i : nat) : nat := if S i <? held log then S i else 0.
Lemma pop_ok v s log count : inv v s log ->
  (bad_put s log (CPop count) /\ put_pop_cmd count s = None)
  \/ (~ bad_put s log (CPop count)
      /\ exists s', put_pop_cmd count s = Some s' /\ outcome v s log (CPop count) s'
         /\ (log <> [] -> pop_ready s -> forall i, i < held log -> lpe (kr s) = pos (nk (kr s)) i ->
             exists u, s' = put_result log (lps (kr s)) (Z.to_nat count) (next_held log i) false
               (put_ln (mkLine (remove (lps (kr s)) (lpl (kr s)) (buf (ln s))) (lps (kr s))) (put_un u (put_pop true s))))).
Proof.
  intros I. unfold put_pop_cmd. cbn [bad_put].
  assert (RD : (match lastc s with KPut => true | KPop => popok s | _ => false end = true) <-> pop_ready s).
  { unfold pop_ready. destruct (lastc s); split; intro Q; auto; try discriminate; destruct Q as [Q|(Q & Q2)]; congruence. }
  assert (ALERT : forall log', log' = log -> (log = [] \/ ~ pop_ready s) ->
     ~ (log <> [] /\ (count <= 0)%Z /\ lps (kr s) = 0 /\ (lastc s = KPut \/ lastc s = KPop /\ popok s = true))
     /\ exists s', Some (put_pop false s) = Some s' /\ outcome v s log (CPop count) s'
     /\ (log <> [] -> pop_ready s -> forall i, i < held log -> lpe (kr s) = pos (nk (kr s)) i ->
             exists u, s' = put_result log (lps (kr s)) (Z.to_nat count) (next_held log i) false
               (put_ln (mkLine (remove (lps (kr s)) (lpl (kr s)) (buf (ln s))) (lps (kr s))) (put_un u (put_pop true s))))).
  { intros _ _ X. split; [intros (Q1 & _ & _ & Q2); destruct X as [X|X]; [congruence|apply X, Q2]|].
    exists (put_pop false s). split; [reflexivity|]. split.
    - apply outcome_plain; auto; try apply (n_u _ _ _ I); try apply (n_idx _ _ _ I); try apply (n_r _ _ _ I).
      cbn. intros [Q|(_ & Q)]; discriminate.
    - intros Q1 Q2. exfalso. destruct X as [X|X]; [congruence|apply X, Q2]. }
  destruct (match lastc s with KPut => true | KPop => popok s | _ => false end) eqn:ER; cbn [andb].
  2:{ right. apply (ALERT log eq_refl). right. intro Q. apply RD in Q. discriminate. }
  assert (R : pop_ready s) by (apply RD; reflexivity).
  destruct log as [|t0 log'] eqn:EL.
  { right. rewrite (ring_none _ _ (n_r _ _ _ I)). apply (ALERT [] eq_refl). left. reflexivity. }
  rewrite <- EL in *. assert (NE : log <> []) by congruence. clear ALERT.
  destruct (n_p _ _ _ I R NE) as (PB & i & Hi & PE).
  destruct (held_text _ _ _ (n_r _ _ _ I) Hi) as (T & _). rewrite PE, T.
  assert (I' : inv v (put_pop true s) log).
  { destruct I as [A B C D]. split; auto. destruct (uinv_ext v s (put_pop true s)) as (X & _); auto. }
  destruct (maybe_save_ok _ _ (n_u _ _ _ I') (n_idx _ _ _ I')) as (u & E & J & P & F & LU). rewrite E.
  cbn [kr put_un put_pop ln]. destruct (Nat.leb_spec (lps (kr s)) (length (buf (ln s)))) as [_|?]; [|lia].
  rewrite PE. rewrite (find_prev_ok _ _ (n_r _ _ _ I) NE) by (unfold held, KILL_RING_SIZE in *; lia).
  fold (next_held log i).
  assert (HN : next_held log i < held log) by (unfold next_held; destruct (Nat.ltb_spec (S i) (held log)); lia).
  set (s1 := put_ln {| buf := remove (lps (kr s)) (lpl (kr s)) (buf (ln s)); idx := lps (kr s) |} (put_un u (put_pop true s))).
  assert (L1 : idx (ln s1) <= length (buf (ln s1))) by (subst s1; cbn [ln put_ln idx buf]; rewrite remove_length; lia).
  destruct (insert_killed_ok log s1 false false count (next_held log i) (n_r _ _ _ I) HN L1) as (PL & [(A & B & C)|(A & B)]).
  - left. split; [|exact C]. split; [exact NE|]. split; [exact A|]. split; [exact B|exact R].
  - right. split; [intros (_ & Q1 & Q2 & _); apply A; split; assumption|].
    eexists. split; [exact B|].
    destruct (put_result_lp log (put_place false (ln s1)) (Z.to_nat count) (next_held log i) false s1 HN PL) as (LP & IX).
    split.
    + assert (X : uinv v (put_un u s) /\ past (put_un u s) = pushed s /\ future (put_un u s) = cut s).
      { destruct (uinv_ext v (put_un u (put_pop true s)) (put_un u s)) as (X1 & X2 & X3); try reflexivity.
        split; [apply X1, J|]. rewrite X2, X3, P, F. split; reflexivity. }
      destruct X as (X1 & X2 & X3).
      apply (outcome_saved v s log _ _ u); auto. cbn [kills log_kill]. apply rinv_put, (n_r _ _ _ I).
    + intros _ _ i' Hi' PE'. assert (i' = i).
      { assert (i < 32 /\ i' < 32) by (unfold held in *; lia). try rewrite PE in PE'.
        pose proof (r_nk _ _ (n_r _ _ _ I)). unfold pos in PE'. lia. }
      subst i'. exists u. reflexivity.
Qed.
Lemma transpose_ok v s log given count : inv v s log ->
  exists s', transpose given count s = Some s' /\ outcome v s log (CTranspose given count) s'.
Proof.
  intros I. pose proof (n_idx _ _ _ I) as L. unfold transpose.
  assert (KP : forall s', kind_of (CTranspose given count) = KPut \/ kind_of (CTranspose given count) = KPop /\ popok s' = true -> lp_ok log s').
  { intros s' [Q|(Q & _)]; discriminate. }
  destruct (Nat.eqb_spec (idx (ln s)) 0) as [Z|Z].
  { exists s. split; [reflexivity|]. apply outcome_plain; auto; [apply (n_u _ _ _ I)|apply (n_r _ _ _ I)]. }
  saved I. cbn [ln put_un].
  set (i := if negb given && (idx (ln s) =? length (buf (ln s))) && (2 <=? idx (ln s)) then idx (ln s) - 1 else idx (ln s)).
  assert (HI : 0 < i <= length (buf (ln s))).
  { subst i. destruct given; cbn [negb andb]; [lia|]. destruct (Nat.eqb_spec (idx (ln s)) (length (buf (ln s)))); cbn [andb]; [|lia].
    destruct (Nat.leb_spec 2 (idx (ln s))); lia. }
  clearbody i. cbv zeta.
  assert (DONE : forall b j, j <= length b -> outcome v s log (CTranspose given count) (put_ln (mkLine b j) (put_un u s))).
  { intros b j Hb. apply (outcome_saved v s log _ _ u); auto. apply (n_r _ _ _ I). }
  assert (MV : forall index, 0 < index <= length (buf (ln s)) -> exists s',
     (if (0 <? i) && (0 <? index) && (index <=? length (buf (ln s)))
      then Some (put_ln {| buf := insert (index - 1) [nth (i - 1) (buf (ln s)) 0%N] (EditModel.remove (i - 1) 1 (buf (ln s))); idx := index |} (put_un u s)) else None) = Some s'
     /\ outcome v s log (CTranspose given count) s').
  { intros index H. destruct (Nat.ltb_spec 0 i) as [_|?]; [|lia]. destruct (Nat.ltb_spec 0 index) as [_|?]; [|lia].
    destruct (Nat.leb_spec index (length (buf (ln s)))) as [_|?]; [|lia]. cbn [andb]. eexists. split; [reflexivity|]. apply DONE.
    assert (X : length (EditModel.remove (i - 1) 1 (buf (ln s))) = length (buf (ln s)) - 1) by (apply remove_length; lia).
    rewrite insert_length by lia. cbn [length]. lia. }
  destruct (Z.geb_spec count 0).
  - destruct (Z.leb_spec count (Z.of_nat (length (buf (ln s)) - i))); [apply MV; lia|].
    eexists. split; [reflexivity|]. apply DONE. lia.
  - destruct (Z.ltb_spec (- count) (Z.of_nat i)); [apply MV; lia|].
    eexists. split; [reflexivity|]. apply DONE. lia.
Qed.

Lemma exec1_ok v s log c : inv v s log -> cmd_ok s c ->
  (bad_put s log c /\ exec1 v c s = None)
  \/ (~ bad_put s log c /\ exists s', exec1 v c s = Some s' /\ outcome v s log c s').
Proof.
  intros I OK. pose proof (n_idx _ _ _ I) as L.
  assert (KO : kind_of c <> KPut -> kind_of c <> KPop -> forall s', kind_of c = KPut \/ kind_of c = KPop /\ popok s' = true -> lp_ok log s').
  { intros Q1 Q2 s' [Q|(Q & _)]; contradiction. }
  destruct c; cbn [exec1 cmd_ok] in *; try (right; split; [exact (fun F => F)|]).
  - eexists. split; [reflexivity|]. apply outcome_plain; auto; try apply (n_u _ _ _ I); try apply (n_r _ _ _ I).
    + apply self_insert_ok, L.
    + apply KO; discriminate.
    + intros [].
  - apply motion_ok; assumption.
  - destruct (put_ok v s log after on_last count I) as [A|(A & s' & B & C & _)]; [left; exact A|right]. eauto.
  - destruct (pop_ok v s log count I) as [A|(A & s' & B & C & _)]; [left; exact A|right]. eauto.
  - destruct (cancel_undo_ok v s offset (n_u _ _ _ I) L) as (l & u & E & J & IX & _ & _ & LU).
    eexists. split; [exact E|]. unfold outcome. split; [exact IX|].
    split; [destruct (uinv_ext v (put_un u s) (put_ln l (put_un u s))) as (X & _); auto|].
    split; [apply (n_r _ _ _ I)|]. split; [apply KO; discriminate|]. split; [intros []|]. split; [exact LU|reflexivity].
  - destruct (go_to_ok v s e c (n_u _ _ _ I) L) as (l & u & E & J & IX & LU).
    eexists. split; [exact E|]. unfold outcome. split; [exact IX|]. split; [exact J|].
    split; [apply (n_r _ _ _ I)|]. split; [apply KO; discriminate|]. split; [intros []|]. split; [exact LU|exact Logic.I].
  - apply transpose_ok, I.
  - eexists. split; [reflexivity|]. unfold vi_replace.
    assert (X : idx (ln (vi_replace count c s)) <= length (buf (ln (vi_replace count c s)))).
    { unfold vi_replace. destruct ((0 <? count)%Z && (idx (ln s) <? length (buf (ln s)))); [|exact L].
      cbn [ln put_ln idx buf]. pose proof (replace_chars_ok (Z.to_nat count) c (ln s) L). lia. }
    unfold vi_replace in X. destruct ((0 <? count)%Z && (idx (ln s) <? length (buf (ln s))));
      (apply outcome_plain; auto; try apply (n_u _ _ _ I); try apply (n_r _ _ _ I); try (apply KO; discriminate); intros []).
  - unfold set_mode. saved I. eexists. split; [reflexivity|].
    destruct back; (apply (outcome_saved v s log _ _ u); auto; try apply (n_r _ _ _ I); try (apply KO; discriminate));
      cbn [ln put_ow put_vi put_ln put_un idx buf]; lia.
  - saved I. eexists. split; [reflexivity|]. apply (outcome_saved v s log _ _ u); auto; try apply (n_r _ _ _ I); apply KO; discriminate.
Qed.

(** * Commands *)
Definition settle (s : est) : est :=
  if vicmd s && (0 <? idx (ln s)) && (idx (ln s) =? length (buf (ln s))) then put_ln (mkLine (buf (ln s)) (idx (ln s) - 1)) s else s.
Lemma settle_ok s :
  buf (ln (settle s)) = buf (ln s) /\ ment (settle s) = ment s /\ mval (settle s) = mval s /\ un (settle s) = un s
  /\ kr (settle s) = kr s /\ lastc (settle s) = lastc s /\ popok (settle s) = popok s /\ vicmd (settle s) = vicmd s
  /\ idx (ln (settle s)) <= idx (ln s)
  /\ (vicmd s = true -> idx (ln s) <= length (buf (ln s)) -> buf (ln s) <> [] -> idx (ln (settle s)) < length (buf (ln s))).
Proof.
  unfold settle. destruct (vicmd s) eqn:V; cbn [andb].
  - destruct (Nat.ltb_spec 0 (idx (ln s))) as [H|H]; cbn [andb].
    + destruct (Nat.eqb_spec (idx (ln s)) (length (buf (ln s)))) as [Q|Q]; cbn.
      * do 8 (split; [auto|]). split; [lia|]. intros. lia.
      * do 8 (split; [auto|]). split; [lia|]. intros. lia.
    + do 8 (split; [auto|]). split; [lia|]. intros _ _ N. destruct (buf (ln s)); [congruence|cbn; lia].
  - do 8 (split; [auto|]). split; [lia|]. discriminate.
Qed.
Lemma invoke_settle v c s : invoke v c s = match exec1 v c s with Some s' => Some (settle (put_last (kind_of c) s')) | None => None end.
Proof. reflexivity. Qed.

Lemma kills_not_kill s c : kind_of c = KPut \/ kind_of c = KPop -> kills s c = [].
Proof. destruct c; cbn; intros [Q|Q]; try discriminate; try reflexivity; destruct back; discriminate. Qed.
Lemma invoke_ok v s log c : inv v s log -> cmd_ok s c ->
  (bad_put s log c /\ invoke v c s = None)
  \/ (~ bad_put s log c /\ exists s', invoke v c s = Some s' /\ inv v s' (log_kill (kills s c) log)
      /\ (saving s c -> buf (ln s') <> buf (ln s) -> past s' = pushed s /\ future s' = cut s)
      /\ length (uh (un s')) <= S (length (uh (un s)))
      /\ (match c with CGo _ _ => True | _ => ment s' = ment s end)
      /\ (vicmd s' = true -> buf (ln s') <> [] -> idx (ln s') < length (buf (ln s')))).
Proof.
  intros I OK. rewrite invoke_settle.
  destruct (exec1_ok v s log c I OK) as [(A & E)|(A & s1 & E & O1 & O2 & O3 & O4 & O5 & O6 & O7)]; rewrite E; [left; auto|right].
  split; [exact A|]. eexists. split; [reflexivity|].
  set (s2 := put_last (kind_of c) s1).
  destruct (settle_ok s2) as (B1 & B2 & B3 & B4 & B5 & B6 & B7 & B8 & B9 & B10).
  destruct (uinv_ext v s1 (settle s2) B2 B3 B4) as (X1 & X2 & X3).
  split; [|split; [|split; [|split]]].
  - split.
    + rewrite B1. cbn [s2 ln put_last] in *. lia.
    + apply X1, O2.
    + rewrite B5. exact O3.
    + rewrite B6, B7. cbn [s2 put_last lastc popok]. intro Q.
      assert (K : kills s c = []) by (apply kills_not_kill; destruct Q as [Q|(Q & _)]; auto).
      rewrite K. cbn [log_kill]. specialize (O4 Q). unfold lp_ok in *. rewrite B1, B5. exact O4.
  - rewrite B1. intros Q1 Q2. destruct (O5 Q1 Q2) as (Y1 & Y2). rewrite X2, X3. auto.
  - rewrite B4. exact O6.
  - destruct c; auto; rewrite B2; exact O7.
  - rewrite B8, B1. intros Q1 Q2. apply B10; assumption.
Qed.
Lemma start_ok v k pop log : rinv log k -> inv v (start_edit k pop) log.
Proof.
  intro R. split; cbn [start_edit ln idx buf kr lastc]; auto.
  - split; cbn; auto; try discriminate. constructor; [unfold ok_state; cbn; lia|constructor]. eauto.
  - intros [Q|(Q & _)]; discriminate.
Qed.
Lemma reach_inv v s log : reach v s log -> inv v s log.
Proof.
  induction 1 as [v|v v' s log H IH|v s log c s' H IH OK E].
  - apply start_ok. split; cbn [ring nk]; [reflexivity|lia| |constructor].
    intros i Hi. assert (Z : nth_error (@nil (list N)) i = None) by (destruct i; reflexivity). rewrite Z.
    generalize (pos 0 i). intro j. unfold KILL_RING_SIZE. apply nth_repeat.
  - apply start_ok, (n_r _ _ _ IH).
  - destruct (invoke_ok v s log c IH OK) as [(_ & X)|(_ & s1 & X & Y & _)]; [congruence|]. rewrite X in E. inversion E; subst. exact Y.
Qed.

(** * Undoing *)
Lemma reach_vi v s log : reach v s log -> vicmd s = true -> buf (ln s) <> [] -> idx (ln s) < length (buf (ln s)).
Proof.
  intros H. induction H as [v|v v' s log H IH|v s log c s' H IH OK E]; [discriminate|discriminate|].
  destruct (invoke_ok v s log c (reach_inv _ _ _ H) OK) as [(_ & X)|(_ & s1 & X & _ & _ & _ & _ & Y)]; [congruence|].
  rewrite X in E. inversion E; subst. exact Y.
Qed.
Lemma pushed_last s : last (pushed s) (0, []) = now s.
Proof. unfold pushed. apply last_last. Qed.
Lemma pushed_pos s : 1 <= length (pushed s).
Proof. unfold pushed. rewrite app_length. cbn. lia. Qed.
Lemma changes_past v s cs s' : changes v s cs s' -> forall log, inv v s log ->
  exists mid log', pushed s' = pushed s ++ mid /\ length mid = length cs /\ cut s' = (match cs with [] => cut s | _ => [] end)
    /\ ment s' = ment s /\ inv v s' log'.
Proof.
  induction 1 as [s|s c s1 cs s2 SV OK E NE CH IH]; intros log I.
  - exists [], log. rewrite app_nil_r. auto.
  - destruct (invoke_ok v s log c I OK) as [(_ & X)|(_ & s' & X & J & P & _ & M & _)]; [congruence|].
    rewrite X in E. inversion E; subst s'. destruct (P SV NE) as (P1 & P2).
    destruct (IH _ J) as (mid & log' & Q1 & Q2 & Q3 & Q4 & Q5).
    assert (NE' : list_N_eqb (buf (ln s1)) (snd (last (past s1) (0, []))) = false).
    { rewrite P1, pushed_last. apply list_N_eqb_neq. exact NE. }
    assert (PU : pushed s1 = pushed s ++ [now s1]) by (unfold pushed at 1; rewrite NE', P1; reflexivity).
    assert (CU : cut s1 = []) by (unfold cut; rewrite NE'; reflexivity).
    exists (now s1 :: mid), log'. rewrite Q1, PU, <- app_assoc. split; [reflexivity|]. split; [cbn; lia|].
    split; [rewrite Q3, CU; destruct cs; reflexivity|]. split; [|exact Q5]. rewrite Q4. destruct c; try exact M. destruct SV.
Qed.
(** What a command that undoes leaves *)
Lemma undo_result v s log offset : inv v s log ->
  exists s', invoke v (CUndo offset) s = Some s' /\ inv v s' log
    /\ (past s', future s') = moved (pushed s) (cut s) offset
    /\ buf (ln s') = snd (last (past s') (0, []))
    /\ vicmd s' = vicmd s /\ ment s' = ment s
    /\ ((vicmd s' = true -> buf (ln s') <> [] -> fst (last (past s') (0, [])) < length (buf (ln s'))) -> idx (ln s') = fst (last (past s') (0, []))).
Proof.
  intros I. destruct (cancel_undo_ok v s offset (n_u _ _ _ I) (n_idx _ _ _ I)) as (l & u & E & J & IX & M & LA & _).
  destruct (invoke_ok v s log (CUndo offset) I Logic.I) as [([] & _)|(_ & s1 & X & Y & _)].
  exists s1. split; [exact X|]. split; [exact Y|]. rewrite invoke_settle in X. cbn [exec1] in X. rewrite E in X.
  assert (X1 : s1 = settle (put_last (kind_of (CUndo offset)) (put_ln l (put_un u s)))) by congruence. clear X.
  set (s2 := put_last (kind_of (CUndo offset)) (put_ln l (put_un u s))) in *.
  subst s1.
  destruct (settle_ok s2) as (B1 & B2 & B3 & B4 & _ & _ & _ & B8 & _ & _).
  destruct (uinv_ext v (put_un u s) (settle s2) B2 B3 B4) as (_ & X2 & X3).
  rewrite X2, X3. rewrite <- LA. cbn [fst snd]. split; [exact M|]. split; [exact B1|]. split; [exact B8|]. split; [exact B2|].
  rewrite B1, B8. intro Q. unfold settle. destruct (vicmd s2) eqn:V; cbn [andb]; [|reflexivity].
  destruct (Nat.ltb_spec 0 (idx (ln s2))) as [Z|Z]; cbn [andb]; [|reflexivity].
  destruct (Nat.eqb_spec (idx (ln s2)) (length (buf (ln s2)))) as [W|W]; [|reflexivity].
  exfalso. cbn [s2 ln put_last put_ln] in *. specialize (Q eq_refl).
  assert (buf l <> []) by (intro G; rewrite G in W; cbn in W; lia). specialize (Q H). lia.
Qed.
Lemma moved_nil_back p mid k : 1 <= length p -> length mid = k -> 1 <= k -> moved (p ++ mid) [] (- Z.of_nat k) = (p, mid).
Proof.
  intros H1 H2 H3. unfold moved. cbv zeta. rewrite app_nil_r. destruct (Z.ltb_spec (- Z.of_nat k) 0) as [_|?]; [|lia].
  rewrite app_length. cbn [length].
  replace (max 1 (min (length p + length mid - Z.to_nat (- - Z.of_nat k)) (length p + length mid + 0))) with (length p) by lia.
  rewrite firstn_app, Nat.sub_diag, firstn_all, firstn_O, app_nil_r, skipn_app, Nat.sub_diag, skipn_all. reflexivity.
Qed.
Lemma undo_changes_ok v s log cs s1 : reach v s log -> changes v s cs s1 -> cs <> [] ->
  exists s2, invoke v (CUndo (- Z.of_nat (length cs))) s1 = Some s2 /\ buf (ln s2) = buf (ln s)
    /\ ((vicmd s1 = true -> vicmd s = true) -> idx (ln s2) = idx (ln s)).
Proof.
  intros R CH NE. destruct (changes_past v s cs s1 CH log (reach_inv _ _ _ R)) as (mid & log' & Q1 & Q2 & Q3 & Q4 & Q5).
  destruct (undo_result v s1 log' (- Z.of_nat (length cs)) Q5) as (s2 & E & J & M & B & V & _ & IX).
  exists s2. split; [exact E|]. destruct cs as [|c cs]; [congruence|].
  rewrite Q1, Q3, (moved_nil_back (pushed s) mid) in M by (try apply pushed_pos; cbn [length] in *; lia).
  inversion M as [[M1 M2]]. rewrite M1, pushed_last in *. cbn [now fst snd] in *. split; [exact B|].
  intro VI. apply IX. rewrite V, B. intros V1 NB. apply (reach_vi _ _ _ R); auto.
Qed.
Lemma redo_after_change v s log cs s1 n : inv v s log -> changes v s cs s1 -> cs <> [] ->
  exists s2, invoke v (CUndo (Z.of_nat n)) s1 = Some s2 /\ buf (ln s2) = buf (ln s1).
Proof.
  intros R CH NE. destruct (changes_past v s cs s1 CH log R) as (mid & log' & Q1 & Q2 & Q3 & Q4 & Q5).
  destruct (undo_result v s1 log' (Z.of_nat n) Q5) as (s2 & E & J & M & B & _).
  exists s2. split; [exact E|]. destruct cs as [|c cs]; [congruence|]. rewrite Q3 in M. unfold moved in M. cbv zeta in M.
  rewrite app_nil_r in M. cbn [length] in M. pose proof (pushed_pos s1) as PP.
  destruct (Z.ltb_spec (Z.of_nat n) 0) as [?|_]; [lia|].
  replace (max 1 (min (length (pushed s1) + Z.to_nat (Z.of_nat n)) (length (pushed s1) + 0))) with (length (pushed s1)) in M by lia.
  rewrite firstn_all in M. inversion M as [[M1 M2]]. rewrite M1, pushed_last in B. exact B.
Qed.
Lemma undo_redo_ok v s log n s1 : reach v s log -> 1 <= n -> invoke v (CUndo (- Z.of_nat n)) s = Some s1 ->
  exists m s2, m <= n /\ (m < n -> buf (ln s1) = val_of v (ment s))
    /\ invoke v (CUndo (Z.of_nat m)) s1 = Some s2 /\ buf (ln s2) = buf (ln s) /\ idx (ln s2) = idx (ln s).
Proof.
  intros R N E. pose proof (reach_inv _ _ _ R) as I.
  destruct (undo_result v s log (- Z.of_nat n) I) as (s1' & E' & J & M & B & V & ME & IX). rewrite E in E'. inversion E'; subst s1'. clear E'.
  set (p := pushed s) in *. set (f := cut s) in *. pose proof (pushed_pos s) as PP. fold p in PP.
  exists (min n (length p - 1)).
  set (m := min n (length p - 1)).
  assert (K : max 1 (min (length p - Z.to_nat (- - Z.of_nat n)) (length p + length f)) = length p - m) by lia.
  unfold moved in M. cbv zeta in M. destruct (Z.ltb_spec (- Z.of_nat n) 0) as [_|?]; [|lia]. rewrite K in M. inversion M as [[M1 M2]]. clear M.
  assert (F1 : length (past s1) = length p - m) by (rewrite M1, firstn_length, app_length; lia).
  assert (PF : past s1 ++ future s1 = p ++ f) by (rewrite M1, M2; apply firstn_skipn).
  destruct (undo_result v s1 log (Z.of_nat m) J) as (s2 & E2 & J2 & M' & B2 & V2 & ME2 & IX2).
  exists s2. split; [subst m; lia|]. split.
  { intro L. destruct (past_first v s1 (n_u _ _ _ J)) as (j & rest & P1). rewrite B. rewrite P1 in *. cbn [length] in F1.
    assert (rest = []) by (destruct rest; [reflexivity|cbn in F1; lia]). subst rest. cbn [last snd]. rewrite ME. reflexivity. }
  split; [exact E2|].
  (* saving again leaves the texts *)
  assert (SAME : list_N_eqb (buf (ln s1)) (snd (last (past s1) (0, []))) = true) by (rewrite B; apply list_N_eqb_refl).
  assert (PU : pushed s1 = removelast (past s1) ++ [now s1]) by (unfold pushed; rewrite SAME; reflexivity).
  assert (CU : cut s1 = future s1) by (unfold cut; rewrite SAME; reflexivity).
  assert (PN : past s1 <> []) by (apply (past_not_nil v), (n_u _ _ _ J)).
  assert (LR : length (removelast (past s1)) = length p - m - 1).
  { assert (X : length (past s1) = length (removelast (past s1) ++ [last (past s1) (0, [])])) by (rewrite <- app_removelast_last; auto).
    rewrite app_length in X. cbn in X. lia. }
  assert (LP : length (pushed s1) = length p - m) by (rewrite PU, app_length; cbn; lia).
  assert (LF : length (future s1) = length f + m).
  { assert (X : length (past s1 ++ future s1) = length (p ++ f)) by (rewrite PF; reflexivity). rewrite !app_length in X. lia. }
  unfold moved in M'. cbv zeta in M'. destruct (Z.ltb_spec (Z.of_nat m) 0) as [?|_]; [lia|].
  rewrite CU, LP, LF in M'.
  replace (max 1 (min (length p - m + Z.to_nat (Z.of_nat m)) (length p - m + (length f + m)))) with (length p) in M' by (subst m; lia).
  inversion M' as [[M3 M4]]. clear M'.
  assert (LAST : m = 0 /\ past s2 = pushed s1 \/ last (past s2) (0, []) = now s).
  { destruct (Nat.eq_dec m 0) as [Z|Z].
    - left. split; [exact Z|]. rewrite M3. replace (length p) with (length (pushed s1)) by lia.
      rewrite firstn_app, Nat.sub_diag, firstn_all, firstn_O, app_nil_r. reflexivity.
    - right. rewrite M3. rewrite firstn_app, firstn_all2 by lia. rewrite LP.
      assert (X : p = past s1 ++ firstn m (future s1)).
      { assert (Y : firstn (length p) (past s1 ++ future s1) = p).
        { rewrite PF, firstn_app, Nat.sub_diag, firstn_all, firstn_O, app_nil_r. reflexivity. }
        rewrite firstn_app, firstn_all2 in Y by lia. rewrite F1 in Y. replace (length p - (length p - m)) with m in Y by (subst m; lia). auto. }
      replace (length p - (length p - m)) with m by (subst m; lia).
      assert (W : last p (0, []) = now s) by apply pushed_last.
      assert (NF : firstn m (future s1) <> []).
      { intro G. apply (f_equal (@length _)) in G. rewrite firstn_length in G. cbn in G. lia. }
      rewrite X in W. destruct (exists_last NF) as (r & x & G). rewrite G in *. rewrite app_assoc, last_last in *. exact W. }
  assert (OKN : vicmd s2 = true -> buf (ln s) <> [] -> idx (ln s) < length (buf (ln s))).
  { rewrite V2, V. apply (reach_vi _ _ _ R). }
  destruct LAST as [(Z & LAST)|LAST].
  - (* nothing could be undone *)
    assert (L1 : last (past s1) (0, []) = now s).
    { assert (X : past s1 = p).
      { rewrite M1, Z, Nat.sub_0_r, firstn_app, Nat.sub_diag, firstn_all, firstn_O, app_nil_r. reflexivity. }
      rewrite X. apply pushed_last. }
    rewrite L1 in *. cbn [now fst snd] in *.
    assert (I1 : idx (ln s1) = idx (ln s)) by (apply IX; rewrite V, B; apply (reach_vi _ _ _ R)).
    rewrite LAST, pushed_last in *. cbn [now fst snd] in *. split; [congruence|]. rewrite <- I1. apply IX2. rewrite B2, B, I1. exact OKN.
  - rewrite LAST in *. cbn [now fst snd] in *. split; [exact B2|]. apply IX2. rewrite B2. exact OKN.
Qed.
Lemma run_inv v s cs s' : run v s cs s' -> forall log, inv v s log ->
  exists log', inv v s' log' /\ length (uh (un s')) <= length cs + length (uh (un s)).
Proof.
  induction 1 as [s|s c s1 cs s2 OK E RN IH]; intros log I; [exists log; auto|].
  destruct (invoke_ok v s log c I OK) as [(_ & X)|(_ & s' & X & J & _ & L & _)]; [congruence|].
  rewrite X in E. inversion E; subst s'. destruct (IH _ J) as (log' & A & B). exists log'. split; [exact A|]. cbn [length]. lia.
Qed.
Lemma undo_all_ok v v0 s0 log cs s n : reach v0 s0 log -> run v (start_edit (kr s0) (popok s0)) cs s -> length cs < n ->
  exists s', invoke v (CUndo (- Z.of_nat n)) s = Some s' /\ buf (ln s') = val_of v (ment s).
Proof.
  intros R RN L. pose proof (reach_inv _ _ _ (reach_line v0 v s0 log R)) as I.
  destruct (run_inv v _ _ _ RN log I) as (log' & J & LU). cbn [start_edit un uh length] in LU.
  destruct (undo_result v s log' (- Z.of_nat n) J) as (s' & E & K & M & B & V & ME & _). exists s'. split; [exact E|].
  assert (LP : length (past s) <= length cs + 1).
  { unfold past. destruct (here s); [rewrite firstn_length; lia|cbn; lia]. }
  assert (LPU : length (pushed s) <= length cs + 2).
  { unfold pushed. rewrite app_length. cbn [length].
    destruct (list_N_eqb _ _); [|lia]. pose proof (past_not_nil v s (n_u _ _ _ J)) as PN.
    apply (app_removelast_last (0, [])) in PN. apply (f_equal (@length _)) in PN. rewrite app_length in PN. cbn in PN. lia. }
  unfold moved in M. cbv zeta in M. destruct (Z.ltb_spec (- Z.of_nat n) 0) as [_|?]; [|lia].
  replace (max 1 (min (length (pushed s) - Z.to_nat (- - Z.of_nat n)) (length (pushed s) + length (cut s)))) with 1 in M by lia.
  inversion M as [[M1 M2]]. destruct (past_first v s' (n_u _ _ _ K)) as (j & rest & P1).
  assert (LL : length (past s') <= 1) by (rewrite M1; destruct (pushed s ++ cut s); cbn; lia).
  rewrite P1 in B, LL. destruct rest; [|cbn in LL; lia]. rewrite B, ME. reflexivity.
Qed.

(** * Killing and putting *)
Lemma insert_one n p t b : n = 1 -> insert_times n p t b = firstn p b ++ t ++ skipn p b.
Proof. intros ->. reflexivity. Qed.
Lemma remove_insert p t b : p <= length b -> EditModel.remove p (length t) (firstn p b ++ t ++ skipn p b) = b.
Proof.
  intro H. unfold EditModel.remove. rewrite firstn_app, firstn_firstn, firstn_length, Nat.min_id.
  replace (p - min p (length b)) with 0 by lia. rewrite firstn_O, app_nil_r.
  assert (X : length (firstn p b ++ t) = p + length t) by (rewrite app_length, firstn_length; lia).
  rewrite app_assoc, <- X, skipn_app, Nat.sub_diag, skipn_all. cbn [skipn app]. apply firstn_skipn.
Qed.
Lemma next_held_mod log j : log <> [] -> next_held log (j mod held log) = S j mod held log.
Proof.
  intro NE. assert (H : 0 < held log) by (unfold held; destruct log; [congruence|cbn; lia]).
  unfold next_held. generalize dependent (held log). intros h H.
  pose proof (Nat.mod_upper_bound j h ltac:(lia)) as U.
  assert (X : S j mod h = S (j mod h) mod h) by (symmetry; apply (Nat.add_mod_idemp_r 1 j h); lia).
  rewrite X. destruct (Nat.ltb_spec (S (j mod h)) h).
  - symmetry. apply Nat.mod_small. assumption.
  - replace (S (j mod h)) with h by lia. symmetry. apply Nat.mod_same. lia.
Qed.
Record popping (v : nat -> list N) (log : list (list N)) (p : nat) (b : list N) (j : nat) (s : est) : Prop := {
  q_inv : inv v s log;
  q_ready : pop_ready s;
  q_lpe : lpe (kr s) = pos (nk (kr s)) (j mod held log);
  q_lps : lps (kr s) = p;
  q_lpl : lpl (kr s) = length (nth (j mod held log) log []);
  q_buf : buf (ln s) = firstn p b ++ nth (j mod held log) log [] ++ skipn p b }.
Lemma put_pops_ok v s log after on_last j : reach v s log -> log <> [] ->
  exists s', invokes v (CPut after on_last 1 :: repeat (CPop 1) j) s = Some s'
    /\ popping v log (put_place after (ln s)) (buf (ln s)) j s'.
Proof.
  intros R NE. pose proof (reach_inv _ _ _ R) as I.
  assert (H : 0 < held log) by (unfold held; destruct log; [congruence|cbn; lia]).
  set (p := put_place after (ln s)). set (b := buf (ln s)).
  assert (PB : p <= length b).
  { pose proof (n_idx _ _ _ I). subst p b. unfold put_place. destruct after; cbn [andb]; [|lia].
    destruct (Nat.ltb_spec (idx (ln s)) (length (buf (ln s)))); lia. }
  assert (FIRST : exists s1, invoke v (CPut after on_last 1) s = Some s1 /\ popping v log p b 0 s1).
  { destruct (invoke_ok v s log (CPut after on_last 1) I Logic.I) as [((_ & X & _) & _)|(_ & s1 & X & Y & _)]; [lia|].
    exists s1. split; [exact X|]. cbn [kills log_kill] in Y.
    rewrite invoke_settle in X. cbn [exec1] in X.
    destruct (put_ok v s log after on_last 1 I) as [((_ & Q & _) & _)|(_ & s2 & Q & _ & PR)]; [lia|].
    rewrite Q in X. destruct (PR NE) as (u & ->). clear Q PR. injection X as X1.
    match goal with X1 : settle ?z = _ |- _ => destruct (settle_ok z) as (B1 & B2 & B3 & B4 & B5 & B6 & B7 & B8 & _) end.
    rewrite X1 in *. split; auto.
    - left. rewrite B6. reflexivity.
    - rewrite B5. rewrite Nat.mod_0_l by lia. reflexivity.
    - rewrite B5. reflexivity.
    - rewrite B5. cbn [kr put_last put_result put_ln put_kr lpl]. rewrite Nat.mod_0_l by lia. change (Z.to_nat 1) with 1. lia.
    - rewrite B1. rewrite Nat.mod_0_l by lia. reflexivity. }
  destruct FIRST as (s1 & E1 & P1). cbn [invokes]. rewrite E1.
  assert (GEN : forall n j0 s0, popping v log p b j0 s0 -> exists s', invokes v (repeat (CPop 1) n) s0 = Some s' /\ popping v log p b (j0 + n) s').
  { induction n as [|n IH]; intros j0 s0 P0; cbn [repeat invokes].
    { exists s0. rewrite Nat.add_0_r. auto. }
    destruct P0 as [A1 A2 A3 A4 A5 A6].
    destruct (invoke_ok v s0 log (CPop 1) A1 Logic.I) as [((_ & X & _) & _)|(_ & s2 & X & Y & _)]; [lia|].
    rewrite X. cbn [kills log_kill] in Y. rewrite invoke_settle in X. cbn [exec1] in X.
    destruct (pop_ok v s0 log 1 A1) as [((_ & Q & _) & _)|(_ & s3 & Q & _ & PR)]; [lia|].
    rewrite Q in X. destruct (PR NE A2 (j0 mod held log) (Nat.mod_upper_bound j0 (held log) ltac:(lia)) A3) as (u & ->). clear Q PR.
    injection X as X1.
    rewrite next_held_mod, A4, A5, A6, remove_insert in X1 by assumption.
    match goal with X1 : settle ?z = _ |- _ => destruct (settle_ok z) as (B1 & B2 & B3 & B4 & B5 & B6 & B7 & B8 & _) end.
    rewrite X1 in *. replace (j0 + S n) with (S j0 + n) by lia. apply IH. split; [exact Y| | | | |].
    - right. rewrite B6, B7. split; reflexivity.
    - rewrite B5. reflexivity.
    - rewrite B5. reflexivity.
    - rewrite B5. cbn [kr put_last put_result put_ln put_kr lpl]. change (Z.to_nat 1) with 1. lia.
    - rewrite B1. reflexivity. }
  apply (GEN j 0 s1 P1).
Qed.
Lemma kill_put_ok v s log m new incl back s1 :
  reach v s log -> new <= length (buf (ln s)) ->
  m_copy m = true -> m_del m = true -> m_case m = None -> ow s = None -> vicmd s = false ->
  kills s (CMotion m new incl back) <> [] ->
  invoke v (CMotion m new incl back) s = Some s1 ->
  exists s2, invoke v (CPut false false 1) s1 = Some s2 /\ buf (ln s2) = buf (ln s).
Proof.
  intros R OK MC MD MK OW VI NK E. pose proof (reach_inv _ _ _ R) as I.
  assert (R1 : reach v s1 (log_kill (kills s (CMotion m new incl back)) log)) by (eapply reach_cmd; eauto).
  assert (K : exists start stop, start <= stop <= length (buf (ln s)) /\ kills s (CMotion m new incl back) = slice start (stop - start) (buf (ln s))
     /\ buf (ln s1) = EditModel.remove start (stop - start) (buf (ln s)) /\ idx (ln s1) = start).
  { pose proof (n_idx _ _ _ I) as L. cbn [kills]. rewrite MC. rewrite invoke_settle in E. cbn [exec1] in E. unfold motion in E.
    destruct (Nat.leb_spec (idx (ln s)) (length (buf (ln s)))) as [_|?]; [|lia].
    destruct (Nat.leb_spec new (length (buf (ln s)))) as [_|?]; [|lia]. cbn [andb] in E. cbv zeta in E |- *.
    set (start := min (idx (ln s)) new) in *.
    set (stop := if incl && (max (idx (ln s)) new <? length (buf (ln s))) then S (max (idx (ln s)) new) else max (idx (ln s)) new) in *.
    assert (ST : start <= stop <= length (buf (ln s))).
    { subst start stop. destruct incl; cbn [andb]; [|lia].
      destruct (Nat.ltb_spec (max (idx (ln s)) new) (length (buf (ln s)))); lia. }
    exists start, stop. split; [exact ST|]. split; [reflexivity|]. clearbody start stop.
    rewrite MC, MD, MK in E.
    assert (FIN : forall u, settle (put_last (kind_of (CMotion m new incl back))
        (if m_ins m then put_ow None (put_vi false (put_ln {| buf := EditModel.remove start (stop - start) (buf (ln s)); idx := start |}
           (put_kr (add_to_ring (slice start (stop - start) (buf (ln s))) (kr s)) (put_un u s))))
         else put_ln {| buf := EditModel.remove start (stop - start) (buf (ln s)); idx := start |}
           (put_kr (add_to_ring (slice start (stop - start) (buf (ln s))) (kr s)) (put_un u s)))) = s1 ->
        buf (ln s1) = EditModel.remove start (stop - start) (buf (ln s)) /\ idx (ln s1) = start).
    { intros u <-. unfold settle. destruct (m_ins m); cbn [put_last put_ow put_vi put_ln put_kr put_un vicmd]; rewrite ?VI; cbn [andb]; split; reflexivity. }
    destruct (true && (new + 1 =? idx (ln s)) && back && match lastc s with KBack => true | _ => false end).
    - apply (FIN (un s)). cbn [ow put_kr] in E. rewrite OW in E. inversion E as [E1]. destruct s as [l0 e0 v0 u0 k0 o0 c0 p0 w0]; reflexivity.
    - destruct (maybe_save_ok _ _ (n_u _ _ _ I) L) as (u & E' & _). rewrite E' in E. apply (FIN u).
      cbn [ow put_kr put_un] in E. rewrite OW in E. inversion E as [E1]. reflexivity. }
  destruct K as (start & stop & ST & K1 & K2 & K3).
  set (t := kills s (CMotion m new incl back)) in *. clearbody t.
  destruct t as [|c t]; [congruence|]. cbn [log_kill] in R1.
  destruct (put_pops_ok v s1 ((c :: t) :: log) false false 0 R1 ltac:(discriminate)) as (s2 & E2 & P2).
  cbn [repeat invokes] in E2. destruct (invoke v (CPut false false 1) s1) as [s2'|]; [|discriminate]. inversion E2; subst s2'.
  exists s2. split; [reflexivity|]. rewrite (q_buf _ _ _ _ _ _ P2).
  rewrite Nat.mod_0_l by (unfold held; cbn; lia). cbn [nth]. unfold put_place. cbn [andb]. rewrite K1, K2, K3.
  unfold EditModel.remove, slice. rewrite firstn_app, firstn_firstn, firstn_length, Nat.min_id.
  replace (start - min start (length (buf (ln s)))) with 0 by lia. rewrite firstn_O, app_nil_r.
  rewrite skipn_app, firstn_length. rewrite (skipn_all2 (firstn start (buf (ln s)))) by (rewrite firstn_length; lia).
  replace (start - min start (length (buf (ln s)))) with 0 by lia. cbn [app]. rewrite skipn_O.
  replace (start + (stop - start)) with stop by lia.
  assert (X : skipn stop (buf (ln s)) = skipn (stop - start) (skipn start (buf (ln s)))).
  { rewrite skipn_skipn. f_equal. lia. }
  rewrite X, firstn_skipn. apply firstn_skipn.
Qed.

(** * Moving through the history *)
Definition kept (v : nat -> list N) (m : option nat) (t : list N) (u : undo) : Prop :=
  (uent u = m /\ exists j, nth_error (uh u) (ui u) = Some (j, t)) \/ (uent u <> m /\ t = val_of v m).
Definition saved_line (s : est) : Prop :=
  if here s then exists j, nth_error (uh (un s)) (ui (un s)) = Some (j, buf (ln s)) else buf (ln s) = mval s.
Lemma save_keeps v s u : uinv v s -> idx (ln s) <= length (buf (ln s)) -> maybe_save s = Some (put_un u s) -> kept v (ment s) (buf (ln s)) u.
Proof.
  intros I L E. destruct (maybe_save_ok v s I L) as (u' & E' & J & P & _). rewrite E in E'.
  assert (u' = u) by (injection E'; auto). subst u'.
  pose proof (pushed_last s) as LA. rewrite <- P in LA. unfold past in LA. unfold kept.
  destruct (here (put_un u s)) eqn:H.
  - left. split; [apply ent_eqb_eq, H|]. exists (idx (ln s)). cbn [un put_un] in LA.
    destruct (nth_error (uh u) (ui u)) as [x|] eqn:N; [|apply nth_error_None in N; destruct J as [A _ _ _]; cbn [un put_un] in A; lia].
    rewrite (firstn_S_nth _ _ _ N), last_last in LA. rewrite LA. reflexivity.
  - right. split.
    + intro Q. unfold here in H. cbn [un put_un ment] in H. rewrite Q, ent_eqb_refl in H. discriminate.
    + destruct J as [_ _ C _]. destruct (C H) as (M & _). cbn [un put_un mval ment] in *. cbn [last] in LA. inversion LA. congruence.
Qed.
Lemma save_same v s u m t : uinv v s -> saved_line s -> kept v m t (un s) -> maybe_save s = Some (put_un u s) -> kept v m t u.
Proof.
  intros I SV K E. unfold maybe_save in E. unfold saved_line in SV. fold (here s) in E. destruct (here s).
  - destruct SV as (j & N). rewrite N, list_N_eqb_refl in E. injection E as E. subst u. unfold kept in *. cbn [uent uh ui].
    destruct K as [(K1 & j' & K2)|K]; [left|right; exact K]. split; [exact K1|]. exists (idx (ln s)).
    rewrite N in K2. inversion K2; subst. unfold set_nth. destruct I as [A _ _ _].
    rewrite nth_error_app2; rewrite firstn_length; [|lia].
    replace (ui (un s) - min (ui (un s)) (length (uh (un s)))) with 0 by lia. reflexivity.
  - rewrite SV, list_N_eqb_refl in E. injection E as E. subst u. exact K.
Qed.
Lemma go_keeps v s e c s1 m t log : inv v s log -> (forall u, maybe_save s = Some (put_un u s) -> kept v m t u) ->
  invoke v (CGo e c) s = Some s1 ->
  kept v m t (un s1) /\ saved_line s1 /\ ment s1 = e /\ (e = m -> buf (ln s1) = t).
Proof.
  intros I K E. rewrite invoke_settle in E. cbn [exec1] in E. unfold go_to in E.
  destruct (maybe_save_ok _ _ (n_u _ _ _ I) (n_idx _ _ _ I)) as (u & E' & J & _). specialize (K u E'). rewrite E' in E.
  cbn [un put_un ln] in E. destruct J as [A B _ _]. cbn [un put_un] in A, B.
  destruct (nth_error (uh u) (ui u)) as [[j x]|] eqn:N; [|apply nth_error_None in N; lia].
  assert (OK : j <= length x) by (apply nth_error_In in N; rewrite Forall_forall in B; apply (B _ N)).
  destruct (ent_eqb e (uent u)) eqn:Q.
  - destruct (Nat.leb_spec j (length x)) as [_|?]; [|lia]. injection E as E.
    match goal with E : settle ?z = _ |- _ => destruct (settle_ok z) as (B1 & B2 & B3 & B4 & _) end. rewrite E in *. clear E.
    unfold kept, saved_line, here in *. rewrite B1, B2, B4. cbn [put_last un ment uent uh ui ln buf].
    apply ent_eqb_eq in Q. subst e. rewrite ent_eqb_refl. split; [rewrite N in *; exact K|]. split; [eauto|]. split; [reflexivity|].
    intros <-. destruct K as [(_ & j' & K)|(K & _)]; congruence.
  - injection E as E.
    match goal with E : settle ?z = _ |- _ => destruct (settle_ok z) as (B1 & B2 & B3 & B4 & _) end. rewrite E in *. clear E.
    unfold kept, saved_line, here in *. rewrite B1, B2, B3, B4. cbn [put_last un ment mval uent uh ui ln buf].
    assert (Q' : ent_eqb (uent u) e = false).
    { destruct (ent_eqb (uent u) e) eqn:Z; [|reflexivity]. apply ent_eqb_eq in Z. rewrite Z, ent_eqb_refl in Q. discriminate. }
    rewrite Q'. split; [rewrite N in *; exact K|]. split; [reflexivity|]. split; [reflexivity|].
    intros ->. destruct K as [(K & _)|(_ & K)]; [rewrite K, ent_eqb_refl in Q'; discriminate|]. symmetry. exact K.
Qed.
Lemma moves_keep_ok v s log es c : reach v s log ->
  exists s', invokes v (moves (es ++ [(ment s, c)])) s = Some s' /\ buf (ln s') = buf (ln s) /\ ment s' = ment s.
Proof.
  intros R. pose proof (reach_inv _ _ _ R) as I.
  assert (GEN : forall es s0, inv v s0 log -> (forall u, maybe_save s0 = Some (put_un u s0) -> kept v (ment s) (buf (ln s)) u) ->
    exists s', invokes v (moves (es ++ [(ment s, c)])) s0 = Some s' /\ buf (ln s') = buf (ln s) /\ ment s' = ment s).
  { clear I. induction es0 as [|[e ce] es0 IH]; intros s0 I K; cbn [app moves map fst snd invokes].
    - destruct (invoke_ok v s0 log (CGo (ment s) c) I Logic.I) as [([] & _)|(_ & s1 & X & Y & _)]. rewrite X.
      destruct (go_keeps v s0 _ _ s1 _ _ log I K X) as (_ & _ & K3 & K4). exists s1. split; [reflexivity|]. split; [apply K4; reflexivity|exact K3].
    - destruct (invoke_ok v s0 log (CGo e ce) I Logic.I) as [([] & _)|(_ & s1 & X & Y & _)]. rewrite X.
      destruct (go_keeps v s0 _ _ s1 _ _ log I K X) as (K1 & K2 & _). apply IH; [exact Y|].
      intros u E. apply (save_same v s1 u); auto. apply (n_u _ _ _ Y). }
  apply GEN; [exact I|]. intros u E. apply (save_keeps v s u (n_u _ _ _ I) (n_idx _ _ _ I) E).
Qed.
