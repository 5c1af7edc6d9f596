(** Where failures are tested, the errexit option has no effect: executions
    from states that differ in it only go the same way. *)
From Coq Require Import List NArith Bool Arith Lia.
From Verif Require Import Common ExecModel.
Import ListNotations.

Section Quiet.
Context {O : os}.
Notation sh := (sh O).
Notation task := (@task O).

Inductive twin : sh -> sh -> Prop :=
  | Twin w l b b' orr pf fn tr ph any pend hand save ex inter e x ser :
      twin (mks (mkd w l b orr pf fn tr ph any pend hand save ex inter) e x true ser)
           (mks (mkd w l b' orr pf fn tr ph any pend hand save ex inter) e x true ser).
Definition twins (r r' : res (out O)) : Prop :=
  match r, r' with
  | Ok (Cont s), Ok (Cont s') => twin s s'
  | Ok (Dead v st), Ok (Dead v' st') => v = v' /\ st = st'
  | UB, UB | Fuel, Fuel => True
  | _, _ => False
  end.

Lemma twins_then r r' k k' : twins r r' -> (forall s s', twin s s' -> twins (k s) (k' s')) ->
  twins (andthen r k) (andthen r' k').
Proof. destruct r as [[]| |], r' as [[]| |]; cbn; try contradiction; auto. Qed.

Lemma twins_dead r r' (f : V O -> N -> res (out O)) f' : twins r r' ->
  (forall v st, twins (f v st) (f' v st)) ->
  twins (match r with Ok (Dead v st) => f v st | Ok (Cont _) => UB | UB => UB | Fuel => Fuel end)
        (match r' with Ok (Dead v st) => f' v st | Ok (Cont _) => UB | UB => UB | Fuel => Fuel end).
Proof. destruct r as [[]| |], r' as [[]| |]; cbn; try contradiction; auto. intros [<- <-]; auto. Qed.

Lemma twin_err s s' : twin s s' -> is_errexit_condition s = false /\ is_errexit_condition s' = false.
Proof. intros []. unfold is_errexit_condition. cbn. rewrite !andb_false_r. auto. Qed.

Lemma twin_child s s' : twin s s' -> twin (become_child s) (become_child s').
Proof.
  intros []. unfold become_child, child_d, phantomize. cbn. destruct (negb any && _); constructor.
Qed.
Lemma twin_cancel s s' : twin s s' -> twin (cancel_return s) (cancel_return s').
Proof. intros []. destruct x; constructor. Qed.
Lemma twin_opt o b s s' : twin s s' -> twin (ss_d (set_opt o b (s_d s)) s) (ss_d (set_opt o b (s_d s')) s').
Proof. intros []. destruct o; constructor. Qed.
Lemma twin_trap sg a s s' : twin s s' ->
  twin (ss_d (set_trap sg a (banish (s_d s))) s) (ss_d (set_trap sg a (banish (s_d s'))) s').
Proof. intros []. unfold banish. destruct ph, a as [[]|]; constructor. Qed.
Lemma twin_last v s s' : twin s s' -> twin (sets_last v s) (sets_last v s').
Proof. intros []. constructor. Qed.
Lemma twin_e e s s' : twin s s' -> twin (ss_e e s) (ss_e e s').
Proof. intros []. constructor. Qed.
Lemma twin_sup b s s' : twin s s' -> twin (ss_sup true b s) (ss_sup true b s').
Proof. intros []. constructor. Qed.
Lemma twins_loop s s' f f' a a' : twin s s' -> (forall s1 s1', twin s1 s1' -> twins (f s1) (f' s1')) ->
  twins a a' ->
  twins (match check_loop s with None => a | Some x => f x end)
        (match check_loop s' with None => a' | Some x => f' x end).
Proof.
  intros [] F A. unfold check_loop. cbn [s_e s_x]. destruct (Nat.ltb (e_bn e) (e_ln e)); auto.
  destruct x; auto; apply F; constructor.
Qed.

Ltac norm := cbn [s_d s_e s_x s_see s_ser ss_d ss_e ss_x ss_sup
  d_w d_last d_oe d_orr d_pf d_fn d_tr d_ph d_any d_pend d_hand d_save d_ex d_inter
  sd_w sd_last sd_oe sd_orr sd_pf sd_fn sd_tr sd_ph sd_any sd_pend sd_hand sd_save sd_ex sd_inter
  sets_last upd_w orb deliver leave_loop enter_loop acting] in *.
Ltac tw := match goal with
  | |- twin _ _ => solve [constructor | cbn; constructor]
  | |- twin (become_child _) _ => apply twin_child; tw
  | |- twin (cancel_return _) _ => apply twin_cancel; tw
  | |- twin (ss_e _ _) _ => apply twin_e; tw
  | |- twin (ss_sup true _ _) _ => apply twin_sup; tw
  | |- twin (sets_last _ _) _ => apply twin_last; tw
  | |- twin (ss_d (set_opt ?o ?b _) _) _ => exact (twin_opt o b _ _ (Twin _ _ _ _ _ _ _ _ _ _ _ _ _ _ _ _ _ _))
  | |- twin (ss_d (set_trap ?o ?b _) _) _ => exact (twin_trap o b _ _ (Twin _ _ _ _ _ _ _ _ _ _ _ _ _ _ _ _ _ _))
  | |- twin (match ?x with _ => _ end) _ => destruct x; tw
  end.
Ltac head x := match x with match ?y with _ => _ end => head y | _ => x end.
Ltac crunch IH := repeat first
  [ exact I | solve [cbn; auto]
  | apply IH; solve [tw]
  | cbn; solve [tw]
  | apply twins_then; [|intros ? ? []; norm]
  | apply twins_loop; [solve [tw]|intros ? ? []; norm|]
  | apply twins_dead; [|intros ? ?; norm]
  | match goal with
    | |- twins (let '(_, _) := ?x in _) (let '(_, _) := ?x in _) => destruct x; norm
    | |- twins (match ?x with _ => _ end) (match ?y with _ => _ end) =>
      first [constr_eq x y | change y with x]; destruct x; norm
    end ].

Ltac endexit IH :=
  let H := fresh in
  match goal with |- twins (match ?e with _ => _ end) _ => destruct e; [solve [cbn; auto]|] end;
  match goal with |- twins (match ?e with _ => _ end) _ => destruct e; [solve [cbn; auto]|] end;
  match goal with |- context [assoc ?a ?b] => destruct (assoc a b); [|solve [cbn; auto]] end;
  match goal with |- twins (match exec ?k ?t ?a with _ => _ end) (match exec _ _ ?b with _ => _ end) =>
    assert (H : twins (exec k t a) (exec k t b)) by (apply IH; constructor);
    destruct (exec k t a) as [[]| |], (exec k t b) as [[]| |] end;
  cbn in H |- *; try contradiction; auto; destruct H; cbn;
  repeat match goal with |- context [match ?e with _ => _ end] => destruct e; cbn end; auto.

Lemma twin_step n : (forall t s s', twin s s' -> twins (exec n t s) (exec n t s')) ->
  forall t s s', twin s s' -> twins (exec (S n) t s) (exec (S n) t s').
Proof.
  intros IH t s s' T. destruct t.
  18: { cbn [exec]. destruct (twin_err _ _ T) as [-> ->]. cbn [andb]. destruct T.
        destruct cs as [cs|]; crunch IH. }
  19: { destruct T; cbn [exec]. destruct st as [st|]; norm; endexit IH. }
  17: { destruct T; cbn [exec]; norm. destruct tab as [|sg tab]; [crunch IH|].
    destruct (existsb _ _); [|crunch IH]. match goal with
    |- twins (match ?e with _ => _ end) (match ?e' with _ => _ end) => change e' with e; destruct e end; [|crunch IH].
    apply twins_then; [crunch IH|]. intros ? ? []. destruct x0; crunch IH. }
  all: destruct T; cbn [exec]; norm.
  all: crunch IH.
Qed.

Theorem errexit_irrelevant n t s s' : twin s s' -> twins (exec n t s) (exec n t s').
Proof.
  revert t s s'. induction n as [|n IH]; intros t s s' T; [exact I|]. apply twin_step; auto.
Qed.

(** The same without the assumption that failures are tested where the two
    executions begin. *)
Definition with_oe (b : bool) (s : sh) : sh := ss_d (sd_oe b (s_d s)) s.
Definition alike (r r' : res (out O)) : Prop :=
  match r, r' with
  | Ok (Cont s), Ok (Cont s') => exists b, s' = with_oe b s
  | Ok (Dead v st), Ok (Dead v' st') => v = v' /\ st = st'
  | UB, UB | Fuel, Fuel => True
  | _, _ => False
  end.

Lemma tested b e s : twin (ss_sup true e s) (ss_sup true e (with_oe b s)).
Proof. destruct s as [[] ? ? ? ?]. constructor. Qed.
Lemma twin_like s s' a b : twin s s' -> exists c, ss_sup a b s' = with_oe c (ss_sup a b s).
Proof. intros []. eexists. reflexivity. Qed.
Lemma alike_then r r' k k' : twins r r' -> (forall s s', twin s s' -> alike (k s) (k' s')) ->
  alike (andthen r k) (andthen r' k').
Proof. destruct r as [[]| |], r' as [[]| |]; cbn; try contradiction; auto. Qed.

Theorem condition_alike n l s b : alike (exec n (TCond l) s) (exec n (TCond l) (with_oe b s)).
Proof.
  destruct n as [|n]; [exact I|]. destruct l as [|a l]; cbn [exec].
  - cbn. eexists. reflexivity.
  - apply alike_then.
    + apply errexit_irrelevant, tested.
    + intros u u' T. cbn. apply twin_like, T.
Qed.

Theorem pipelines_alike n ps c cs first s b :
  alike (exec n (TPipes first (ps ++ [Pipe c true cs]) false) s)
        (exec n (TPipes first (ps ++ [Pipe c true cs]) false) (with_oe b s)).
Proof.
  revert ps first s b. induction n as [|n IH]; intros ps first s b; [exact I|].
  assert (END : forall u b, alike (exec n (TMaybeExit false) u) (exec n (TMaybeExit false) (with_oe b u))).
  { intros u b0. destruct n; [exact I|]. cbn. eexists. reflexivity. }
  assert (NIL : forall f u b, alike (exec n (TPipes f [] false) u) (exec n (TPipes f [] false) (with_oe b u))).
  { intros f u b0. destruct n as [|n]; [exact I|]. cbn [exec]. destruct n; [exact I|]. cbn. eexists. reflexivity. }
  destruct ps as [|[c0 ng cs0] ps]; cbn [app exec].
  - change (d_last (s_d (with_oe b s))) with (d_last (s_d s)).
    destruct (negb first && _); [apply NIL|].
    cbn [orb]. rewrite !orb_true_r. apply alike_then.
    + apply errexit_irrelevant, tested.
    + intros u u' T. change (s_see (with_oe b s)) with (s_see s). change (s_ser (with_oe b s)) with (s_ser s).
      destruct (twin_like _ _ (s_see s) (s_ser s) T) as [e ->].
      generalize (ss_sup (s_see s) (s_ser s) u). clear. intros u. 
      change (need_break (with_oe e u)) with (need_break u). destruct (need_break u).
      * destruct n; [exact I|]. cbn. eexists. reflexivity.
      * change (d_last (s_d (with_oe e u))) with (d_last (s_d u)).
        destruct n as [|n]; [exact I|]. cbn [exec]. destruct n; [exact I|]. cbn. eexists. reflexivity.
  - change (d_last (s_d (with_oe b s))) with (d_last (s_d s)).
    destruct (negb first && _); [apply IH|].
    replace (match ps ++ [Pipe c true cs] with [] => true | _ => false end) with false by (destruct ps; reflexivity).
    cbn [negb andb orb]. rewrite !orb_true_r. apply alike_then.
    + apply errexit_irrelevant, tested.
    + intros u u' T. change (s_see (with_oe b s)) with (s_see s). change (s_ser (with_oe b s)) with (s_ser s).
      destruct (twin_like _ _ (s_see s) (s_ser s) T) as [e ->].
      generalize (ss_sup (s_see s) (s_ser s) u). clear - IH END. intros u.
      change (need_break (with_oe e u)) with (need_break u). destruct (need_break u); [apply END|].
      change (d_last (s_d (with_oe e u))) with (d_last (s_d u)).
      destruct ng; [|apply IH].
      match goal with |- alike (exec n ?t (sets_last ?v u)) _ =>
        change (sets_last v (with_oe e u)) with (with_oe e (sets_last v u)) end. apply IH.
Qed.
End Quiet.
