(** Proofs about canonicalization and [cd]. *)
From Coq Require Import Ascii String.
From Coq Require Import List NArith Bool Arith Lia.
From Verif Require Import Common CdModel CdSpec.
Import ListNotations.
Local Open Scope res_scope.

Lemma slash_dec (c : N) : (c =? slash)%N = true <-> c = slash.
Proof. apply N.eqb_eq. Qed.

(** * Components *)
Lemma comps_slash p : comps (slash :: p) = comps p.
Proof. reflexivity. Qed.
Lemma comps_drop p : comps (drop_slashes p) = comps p.
Proof.
  induction p as [|c p IH]; [reflexivity|]. cbn [drop_slashes]. destruct (c =? slash)%N eqn:E; [|reflexivity].
  apply slash_dec in E. subst. rewrite comps_slash. exact IH.
Qed.
Lemma drop_head p : starts_slash (drop_slashes p) = false.
Proof. induction p as [|c p IH]; [reflexivity|]. cbn [drop_slashes]. destruct (c =? slash)%N eqn:E; auto. Qed.
Lemma component_app p a b : component p = (a, b) -> p = a ++ b /\ ends_here b = true /\ ~ In slash a.
Proof.
  revert a b. induction p as [|c p IH]; intros a b; cbn [component].
  - intros E. injection E as <- <-. cbn. auto.
  - destruct (c =? slash)%N eqn:E.
    + intros X. injection X as <- <-. cbn. rewrite E. auto.
    + destruct (component p) as [a' b']. intros X. injection X as <- <-.
      destruct (IH _ _ eq_refl) as (-> & H1 & H2). cbn. repeat split; auto.
      intros [->|H]; [discriminate E|auto].
Qed.
Lemma comps_from_app cur a b : ~ In slash a -> comps_from cur (a ++ b) = comps_from (cur ++ a) b.
Proof.
  revert cur. induction a as [|c a IH]; intros cur H; cbn [app].
  - now rewrite app_nil_r.
  - cbn [comps_from]. destruct (c =? slash)%N eqn:E; [apply slash_dec in E; subst; destruct H; now left|].
    rewrite IH by (intros X; apply H; now right). now rewrite <- app_assoc.
Qed.
Lemma comps_name a b : name a -> ends_here b = true -> comps (a ++ b) = a :: comps b.
Proof.
  intros [H1 H2] E. unfold comps. rewrite comps_from_app by auto. cbn [app].
  destruct a as [|x a]; [destruct H1; reflexivity|].
  destruct b as [|y b]; [reflexivity|]. cbn in E. cbn [comps_from]. rewrite E. reflexivity.
Qed.
Lemma comps_from_names cur p : ~ In slash cur -> Forall name (comps_from cur p).
Proof.
  revert cur. induction p as [|c p IH]; intros cur H; cbn [comps_from].
  - destruct cur as [|x cur]; constructor; auto. split; auto. discriminate.
  - destruct (c =? slash)%N eqn:E.
    + destruct cur as [|x cur]; [apply IH; auto|]. constructor; [split; auto; discriminate|]. apply IH. auto.
    + apply IH. rewrite in_app_iff. cbn. intros [X|[X|[]]]; auto. subst. discriminate E.
Qed.
Lemma comps_names p : Forall name (comps p).
Proof. apply comps_from_names. auto. Qed.

(** * Joining *)
Lemma join_snoc st c : join (st ++ [c]) = join st ++ (match st with [] => [] | _ => [slash] end) ++ c.
Proof.
  induction st as [|x st IH]; [reflexivity|]. cbn [app]. destruct st as [|y st].
  - cbn. reflexivity.
  - cbn [app] in *. cbn [join]. cbn [join] in IH. rewrite IH. rewrite <- app_assoc. reflexivity.
Qed.
Lemma comps_join cs : Forall name cs -> comps (join cs) = cs.
Proof.
  induction cs as [|c cs IH]; intros H; [reflexivity|]. inversion H; subst.
  destruct cs as [|c' cs].
  - cbn [join]. rewrite <- (app_nil_r c) at 1. rewrite comps_name; auto.
  - change (join (c :: c' :: cs)) with (c ++ slash :: join (c' :: cs)).
    rewrite comps_name; [|auto|reflexivity]. rewrite comps_slash, IH; auto.
Qed.
Lemma comps_lead l cs : l = str "/" \/ l = str "//" -> Forall name cs -> comps (l ++ join cs) = cs.
Proof. intros [-> | ->] H; cbn [str app]; apply (comps_join cs H). Qed.

(** * The loop *)
Inductive marks (l : list N) : list (list N) -> list N -> list nat -> Prop :=
  | mk0 : marks l [] l []
  | mk1 st out cl c : marks l st out cl -> name c ->
      marks l (st ++ [c]) (out ++ (match cl with [] => [] | _ => [slash] end) ++ c) (length out :: cl).
Lemma marks_out l st out cl : marks l st out cl ->
  out = l ++ join st /\ Forall name st /\ (cl = [] <-> st = []).
Proof.
  induction 1 as [|st out cl c H IH NM].
  - rewrite app_nil_r. repeat split; auto.
  - destruct IH as (-> & FA & I). split; [|split].
    + rewrite join_snoc, <- app_assoc. f_equal. f_equal. f_equal. destruct cl, st; auto; [destruct I as [I _]|destruct I as [_ I]]; discriminate I; reflexivity.
    + apply Forall_app. auto.
    + split; [discriminate|]. destruct st; discriminate.
Qed.
Lemma marks_inv l st out prev cl : marks l st out (prev :: cl) ->
  exists st' out' c, st = st' ++ [c] /\ marks l st' out' cl /\ name c /\
    firstn prev out = out' /\
    skipn prev out = (match cl with [] => [] | _ => [slash] end) ++ c.
Proof.
  inversion 1; subst. exists st0, out0, c. split; [reflexivity|]. split; [assumption|]. split; [assumption|]. split.
  - rewrite firstn_app, firstn_all, Nat.sub_diag. cbn. apply app_nil_r.
  - rewrite skipn_app, skipn_all, Nat.sub_diag. reflexivity.
Qed.
Lemma not_dotdot_name (b : bool) c : name c ->
  not_dotdot ((if b then [] else [slash]) ++ c) = negb (is_dotdot c).
Proof.
  intros [H1 H2]. unfold not_dotdot, is_dotdot. destruct b; cbn [app].
  - destruct c as [|x c]; [destruct H1; reflexivity|]. destruct (x =? slash)%N eqn:E; [|reflexivity].
    apply slash_dec in E. subst. destruct H2. now left.
  - cbn. reflexivity.
Qed.

Lemma name_dot : name (str ".").
Proof. split; [discriminate|]. cbn. intros [X|[]]. discriminate X. Qed.
Lemma name_dotdot : name (str "..").
Proof. split; [discriminate|]. cbn. intros [X|[X|[]]]; discriminate X. Qed.

Section Loop.
Variable isdir : list N -> bool.
Variable L : nat.
Variable l : list N.
Notation dirs := (fun st => isdir (l ++ join st)).

Definition slack (cl : list nat) (path : list N) : nat :=
  match cl with [] => 0 | _ => if ends_here path then 0 else 1 end.

Lemma drop_shorter p : length (drop_slashes p) <= length p.
Proof. induction p as [|c p IH]; [auto|]. cbn. destruct (c =? slash)%N; cbn; lia. Qed.
Lemma slack_drop cl p : length (drop_slashes p) + slack cl (drop_slashes p) <= length p + slack cl p.
Proof.
  unfold slack. destruct cl; [rewrite !Nat.add_0_r; apply drop_shorter|].
  destruct p as [|c p]; [cbn; lia|]. cbn [drop_slashes ends_here]. destruct (c =? slash)%N eqn:E.
  - assert (H := drop_shorter p). cbn [length]. destruct (ends_here _); lia.
  - cbn [ends_here]. rewrite E. cbn. lia.
Qed.

Definition result (r : option (list (list N))) : option (list N) := option_map (fun st => l ++ join st) r.

Lemma canon_spec n path out cl st : marks l st out cl -> length path < n ->
  length out + length path + slack cl path <= L ->
  exists r, canon n isdir (S L) path out cl = Ok (result r) /\ collapse dirs st (comps path) r.
Proof.
  revert path out cl st. induction n as [|n IH]; intros path out cl st M LN CAP; [lia|].
  cbn [canon]. replace (Nat.leb (S L) (length out)) with false by (symmetry; apply Nat.leb_gt; lia).
  assert (CAP' := slack_drop cl path). rewrite <- (comps_drop path).
  assert (LN' := drop_shorter path). assert (HD := drop_head path).
  set (q := drop_slashes path) in *. clearbody q.
  assert (CAPq : length out + length q + slack cl q <= L) by lia.
  assert (LNq : length q < S n) by lia. clear path LN CAP CAP' LN'.
  destruct (marks_out _ _ _ _ M) as (OUT & NMS & CLST).
  assert (OTHER : q <> [] -> (forall c, In c [str "."] -> comps q <> [] -> hd [] (comps q) <> c) ->
    (hd [] (comps q) = str ".." -> forall st' c, st = st' ++ [c] -> c = str "..") ->
    exists r, (let out1 := match cl with [] => out | _ => out ++ [slash] end in
        let '(comp, rest) := component q in
        canon n isdir (S L) rest (out1 ++ comp) (length out :: cl)) = Ok (result r) /\
      collapse dirs st (comps q) r).
  { intros QN ND UP. destruct (component q) as [a b] eqn:CQ. destruct (component_app _ _ _ CQ) as (-> & EH & NS).
    assert (NA : name a).
    { split; auto. intros ->. cbn [app] in *. destruct b as [|x b]; [auto|]. cbn in EH, HD. congruence. }
    rewrite comps_name in * by auto. cbn [hd] in *.
    assert (M' : marks l (st ++ [a]) (out ++ (match cl with [] => [] | _ => [slash] end) ++ a) (length out :: cl))
      by (constructor; auto).
    replace ((match cl with [] => out | _ => out ++ [slash] end) ++ a)
      with (out ++ (match cl with [] => [] | _ => [slash] end) ++ a)
      by (destruct cl; [reflexivity|now rewrite <- app_assoc]).
    destruct (IH b _ _ _ M') as (r & E & C).
    - rewrite app_length in LNq. destruct a; [destruct NA as [[] _]; reflexivity|]. cbn in LNq. lia.
    - rewrite !app_length in *. unfold slack at 1. rewrite EH.
      assert (NE : ends_here (a ++ b) = false).
      { destruct a as [|x a]; [destruct NA as [[] _]; reflexivity|]. cbn.
        destruct (x =? slash)%N eqn:EX; auto. apply slash_dec in EX. subst. destruct NS. now left. }
      unfold slack in CAPq. rewrite NE in CAPq. destruct cl; cbn [length] in *; lia.
    - exists r. split; [exact E|].
      destruct (list_N_eqb a (str "..")) eqn:DD.
      + apply list_N_eqb_eq in DD. subst. apply col_up; [exact (UP eq_refl)|exact C].
      + apply list_N_eqb_neq in DD. apply col_push; auto. apply (ND (str ".")); [now left|discriminate]. }
  destruct q as [|c p1].
  { exists (Some st). split; [now rewrite OUT|]. apply col_nil. }
  destruct (c =? dot)%N eqn:ED.
  2:{ apply OTHER; [discriminate| |].
      - intros x [<-|[]] _ E. unfold comps in E. cbn [comps_from] in E. cbn in HD. rewrite HD in E.
        cbn [app] in E. destruct (component p1) as [a b] eqn:CQ. destruct (component_app _ _ _ CQ) as (-> & EH & NS).
        rewrite comps_from_app in E by auto. cbn [app] in E. destruct b as [|y b]; cbn in E.
        + injection E as E1 E2. subst. discriminate ED.
        + cbn in EH. rewrite EH in E. cbn in E. injection E as E1 E2. subst. discriminate ED.
      - intros E. exfalso. unfold comps in E. cbn [comps_from] in E. cbn in HD. rewrite HD in E.
        cbn [app] in E. destruct (component p1) as [a b] eqn:CQ. destruct (component_app _ _ _ CQ) as (-> & EH & NS).
        rewrite comps_from_app in E by auto. cbn [app] in E. destruct b as [|y b]; cbn in E.
        + injection E as E1 E2. subst. discriminate ED.
        + cbn in EH. rewrite EH in E. cbn in E. injection E as E1 E2. subst. discriminate ED. }
  apply N.eqb_eq in ED. subst c. destruct p1 as [|c1 p2].
  { exists (Some st). split; [now rewrite OUT|]. apply col_dot, col_nil. }
  destruct (c1 =? slash)%N eqn:ES.
  { apply slash_dec in ES. subst c1. destruct (IH p2 _ _ _ M) as (r & E & C).
    - cbn in LNq. lia.
    - cbn [length] in CAPq. unfold slack in *. destruct cl; [lia|]. cbn [ends_here] in CAPq.
      change (dot =? slash)%N with false in CAPq. cbn match in CAPq. destruct (ends_here p2); lia.
    - exists r. split; [exact E|].
      assert (CP : comps (dot :: slash :: p2) = str "." :: comps p2)
        by exact (comps_name (str ".") (slash :: p2) name_dot eq_refl).
      rewrite CP. apply col_dot, C. }
  destruct ((c1 =? dot)%N && ends_here p2) eqn:EDD.
  - apply andb_true_iff in EDD as [ED EH]. apply N.eqb_eq in ED. subst c1.
    assert (CP : comps (dot :: dot :: p2) = str ".." :: comps p2).
    { exact (comps_name (str "..") p2 name_dotdot EH). }
    destruct cl as [|prev cl].
    + assert (st = []) by (apply CLST; reflexivity). subst st. apply OTHER; [discriminate| |].
      * intros x [<-|[]] _. rewrite CP. discriminate.
      * intros _ st' c X. destruct st'; discriminate X.
    + destruct (marks_inv _ _ _ _ _ M) as (st' & out' & c & -> & M' & NC & FN & SK).
      rewrite SK, FN. replace (match cl with [] => [] | _ => [slash] end)
        with (if match cl with [] => true | _ => false end then [] else [slash]) by (destruct cl; reflexivity).
      rewrite not_dotdot_name by auto. unfold is_dotdot.
      destruct (list_N_eqb c (str "..")) eqn:DD; cbn [negb].
      * apply list_N_eqb_eq in DD. subst c. apply OTHER; [discriminate| |].
        -- intros x [<-|[]] _. rewrite CP. discriminate.
        -- intros _ st'' c X. apply app_inj_tail in X as [_ <-]. reflexivity.
      * apply list_N_eqb_neq in DD. rewrite CP. rewrite OUT.
        destruct (isdir (l ++ join (st' ++ [c]))) eqn:ID.
        -- assert (LE : length out' <= length out) by (rewrite <- FN, firstn_length; lia).
           destruct (IH p2 _ _ _ M') as (r & E & C).
           ++ cbn in LNq. lia.
           ++ unfold slack. rewrite EH. cbn [length] in CAPq. destruct cl; lia.
           ++ exists r. split; [exact E|]. apply col_pop; auto.
        -- exists None. split; [reflexivity|]. apply col_fail; auto.
  - assert (HC : forall x, hd [] (comps (dot :: c1 :: p2)) = x -> x <> str "." /\ x <> str "..").
    { intros x <-. unfold comps. cbn [comps_from]. rewrite ES. change (dot =? slash)%N with false. cbn match. cbn [app].
      destruct (component p2) as [a b] eqn:CQ. destruct (component_app _ _ _ CQ) as (-> & EH & NS).
      rewrite comps_from_app by auto. cbn [app].
      assert (H : hd [] (comps_from (dot :: c1 :: a) b) = dot :: c1 :: a).
      { destruct b as [|y b]; cbn; [reflexivity|]. cbn in EH. rewrite EH. reflexivity. }
      rewrite H. split; [discriminate|]. intros X. injection X as -> ->. cbn in EDD.
      rewrite EH in EDD. discriminate EDD. }
    apply OTHER; [discriminate| |].
    + intros x [<-|[]] _ E. apply HC in E. destruct E as [E _]. apply E. reflexivity.
    + intros E. apply HC in E. destruct E as [_ E]. destruct E. reflexivity.
Qed.
End Loop.

Theorem canonicalize_spec isdir p :
  exists r, canonicalize_path isdir p = Ok (option_map (fun st => lead p ++ join st) r) /\
    collapse (fun st => isdir (lead p ++ join st)) [] (comps p) r.
Proof.
  assert (X : exists q, canonicalize_path isdir p = canon (S (S (length p))) isdir (S (length p)) q (lead p) [] /\
    comps q = comps p /\ length (lead p) + length q <= length p).
  { destruct p as [|a p1]; [eexists; repeat split; auto|]. unfold canonicalize_path, lead. cbn [slashes].
    destruct (a =? slash)%N eqn:A; [|eexists; repeat split; cbn; auto].
    apply slash_dec in A. subst a. destruct p1 as [|b p2]; [eexists; repeat split; cbn; auto|]. cbn [slashes].
    destruct (b =? slash)%N eqn:B; [|eexists; repeat split; cbn; auto].
    apply slash_dec in B. subst b. exists p2. split; [|split; [reflexivity|]].
    - f_equal. destruct p2 as [|c p3]; [reflexivity|]. cbn [slashes starts_slash].
      destruct (c =? slash)%N; reflexivity.
    - destruct (slashes p2); cbn; lia. }
  destruct X as (q & E & C & LE).
  destruct (canon_spec isdir (length p) (lead p) (S (S (length p))) q (lead p) [] [] (mk0 _)) as (r & E' & C');
    [lia|cbn; lia|].
  rewrite <- C. exists r. rewrite E, E'. auto.
Qed.

(** The relation has one result. *)
Lemma collapse_det isdir st cs r : collapse isdir st cs r -> forall r', collapse isdir st cs r' -> r = r'.
Proof.
  induction 1; intros r' C; inversion C; subst; try discriminate; try congruence; auto;
    repeat match goal with
    | H : _ ++ [_] = _ ++ [_] |- _ => apply app_inj_tail in H as [-> ->]
    | H : str _ = str _ |- _ => discriminate H
    | H : _ <> _ |- _ => solve [destruct H; reflexivity]
    | H : forall st' c, _ = st' ++ [c] -> _ , A : _ <> _ |- _ => solve [destruct A; apply (H _ _ eq_refl)]
    end; auto; try congruence.
Qed.

(** * Normal forms *)
Definition plain (c : list N) : Prop := name c /\ c <> str "." /\ c <> str "..".
Definition tidy (cs : list (list N)) : Prop :=
  exists k r, cs = repeat (str "..") k ++ r /\ Forall plain r.

Lemma repeat_snoc {A} (x : A) k : repeat x k ++ [x] = repeat x (S k).
Proof. induction k as [|k IH]; [reflexivity|]. cbn. rewrite IH. reflexivity. Qed.
Lemma tidy_snoc_inv st c : tidy (st ++ [c]) -> c <> str ".." -> tidy st /\ plain c.
Proof.
  intros (k & r & E & FA) NE. destruct r as [|x r _] using rev_ind.
  - rewrite app_nil_r in E. destruct k as [|k]; [destruct st; discriminate E|].
    rewrite <- repeat_snoc in E. apply app_inj_tail in E as [_ ->]. destruct NE. reflexivity.
  - rewrite app_assoc in E. apply app_inj_tail in E as [-> ->]. apply Forall_app in FA as [FA FX].
    inversion FX; subst. split; auto. exists k, r. auto.
Qed.
Lemma collapse_tidy isdir st cs r : collapse isdir st cs r -> tidy st -> Forall name cs ->
  forall st', r = Some st' -> tidy st'.
Proof.
  induction 1; intros T FA st' E; try discriminate E.
  - injection E as <-. exact T.
  - inversion FA; subst. auto.
  - inversion FA; subst. apply IHcollapse; auto. apply (tidy_snoc_inv _ _ T); auto.
  - inversion FA; subst. apply IHcollapse; auto. destruct T as (k & r' & -> & FR).
    destruct r' as [|x r' _] using rev_ind.
    + rewrite app_nil_r. exists (S k), []. rewrite repeat_snoc, app_nil_r. auto.
    + exfalso. rewrite app_assoc in H. assert (X := H _ _ eq_refl). apply Forall_app in FR as [_ FR].
      inversion_clear FR as [|? ? (_ & _ & Y) _]. exact (Y X).
  - inversion FA; subst. apply IHcollapse; auto. destruct T as (k & r' & -> & FR).
    exists k, (r' ++ [c]). rewrite app_assoc. split; auto. apply Forall_app. split; auto.
    constructor; auto. split; auto.
Qed.
Lemma tidy_nil : tidy [].
Proof. exists 0, []. auto. Qed.
Lemma tidy_names st : tidy st -> Forall name st.
Proof.
  intros (k & r & -> & FA). apply Forall_app. split.
  - apply Forall_forall. intros x H. apply repeat_spec in H. subst. apply name_dotdot.
  - eapply Forall_impl; [|exact FA]. intros c H. apply H.
Qed.

(** A path without anything to collapse is left alone. *)
Lemma collapse_plain isdir st cs : Forall plain cs -> collapse isdir st cs (Some (st ++ cs)).
Proof.
  revert st. induction cs as [|c cs IH]; intros st FA.
  - rewrite app_nil_r. apply col_nil.
  - inversion FA as [|? ? (H1 & H2 & H3)]; subst. apply col_push; auto.
    change (c :: cs) with ([c] ++ cs). rewrite app_assoc. apply IH. auto.
Qed.

Lemma join_head cs : Forall name cs -> starts_slash (join cs) = false.
Proof.
  destruct cs as [|c cs]; [reflexivity|]. intros H. inversion H as [|? ? [H1 H2]]; subst.
  destruct c as [|x c]; [destruct H1; reflexivity|].
  assert (XS : (x =? slash)%N = false).
  { destruct (x =? slash)%N eqn:E; auto. apply slash_dec in E. subst. destruct H2. now left. }
  destruct cs; exact XS.
Qed.
Lemma slashes_head p : starts_slash p = false -> slashes p = 0.
Proof. destruct p as [|c p]; [reflexivity|]. cbn. intros ->. reflexivity. Qed.
Lemma lead_join l cs : l = str "/" \/ l = str "//" -> Forall name cs -> lead (l ++ join cs) = l.
Proof.
  intros H FA. assert (E := slashes_head _ (join_head cs FA)).
  destruct H as [-> | ->]; unfold lead; cbn [str app slashes]; cbn; rewrite E; reflexivity.
Qed.
Lemma lead_abs p : starts_slash p = true -> lead p = str "/" \/ lead p = str "//".
Proof.
  destruct p as [|c p]; [discriminate|]. cbn. intros E. unfold lead. cbn [slashes]. rewrite E.
  destruct (slashes p) as [|[|n]]; auto.
Qed.

(** Cutting a joined path at a slash. *)
Lemma name_app_slash c a b x : name c -> c ++ x = a ++ slash :: b ->
  (exists a', x = a' ++ slash :: b /\ a = c ++ a').
Proof.
  intros [_ H]. revert a. induction c as [|y c IH]; intros a E.
  - exists a. auto.
  - destruct a as [|z a]; cbn in E; injection E as E1 E2.
    + subst. destruct H. now left.
    + subst z. destruct (IH (fun X => H (or_intror X)) _ E2) as (a' & -> & ->). exists a'. auto.
Qed.
Lemma join_cut cs a b : Forall name cs -> join cs = a ++ slash :: b ->
  exists c1 c2 d1 d2, cs = (c1 :: c2) ++ d1 :: d2 /\ a = join (c1 :: c2) /\ b = join (d1 :: d2).
Proof.
  revert a. induction cs as [|c cs IH]; intros a FA E; [destruct a; discriminate E|].
  inversion FA as [|? ? H1 H2]; subst. destruct cs as [|c' cs].
  - exfalso. cbn in E. destruct H1 as [_ H]. apply H. rewrite E. apply in_app_iff. right. now left.
  - change (join (c :: c' :: cs)) with (c ++ slash :: join (c' :: cs)) in E.
    destruct (name_app_slash _ _ _ _ H1 E) as (a' & X & ->). destruct a' as [|y a'].
    + cbn in X. injection X as X. exists c, [], c', cs. rewrite app_nil_r. repeat split; auto.
    + cbn in X. injection X as <- X. destruct (IH a' H2 X) as (c1 & c2 & d1 & d2 & E1 & -> & ->).
      rewrite E1. exists c, (c1 :: c2), d1, d2. repeat split; auto.
Qed.
Lemma join_nonempty c cs : name c -> join (c :: cs) <> [].
Proof. intros [H _]. destruct c; [congruence|]. destruct cs; discriminate. Qed.

Lemma comps_app_slash a b : comps (a ++ slash :: b) = comps a ++ comps b.
Proof.
  unfold comps. generalize (@nil N) at 1 2. induction a as [|c a IH]; intros cur; cbn [app].
  - cbn. destruct cur; reflexivity.
  - cbn [comps_from]. destruct (c =? slash)%N.
    + destruct cur; [apply IH|]. cbn [app]. rewrite IH. reflexivity.
    + apply IH.
Qed.
Lemma last_slash p : p <> [] -> (last p 0 =? slash)%N = true -> exists q, p = q ++ [slash].
Proof.
  intros H E. destruct p as [|x p _] using rev_ind; [congruence|]. rewrite last_last in E.
  apply slash_dec in E. subst. exists p. reflexivity.
Qed.

(** * The relative path of step 9 *)
Lemma match_prefix_app s p q : match_prefix s p = Some q <-> s = p ++ q.
Proof.
  revert s. induction p as [|a p IH]; intros s.
  - destruct s; cbn; split; congruence.
  - destruct s as [|b s]; cbn; [split; discriminate|]. destruct (a =? b)%N eqn:E.
    + apply N.eqb_eq in E. subst. rewrite IH. split; congruence.
    + apply N.eqb_neq in E. split; congruence.
Qed.
Lemma drop_nil_all p : drop_slashes p <> [] -> forall l, (l = str "/" \/ l = str "//") -> forall q r,
  l ++ q = p ++ r -> starts_slash q = false -> exists p', p = l ++ p' /\ p' <> [] /\ q = p' ++ r.
Proof.
  intros H l L q r E S.
  assert (HP : exists a p', p = a :: p') by (destruct p; [destruct H; reflexivity|eauto]).
  destruct HP as (a & p1 & ->).
  destruct L as [-> | ->]; cbn [str app] in E; injection E as <- E; cbn in H.
  - exists p1. repeat split; auto. intros ->. destruct H. reflexivity.
  - destruct p1 as [|b p1]; [destruct H; reflexivity|]. cbn in E. injection E as <- E. cbn in H.
    exists p1. repeat split; auto. intros ->. destruct H. reflexivity.
Qed.

Lemma relative_ok o l cs : (l = str "/" \/ l = str "//") -> Forall name cs ->
  exists r, relative o (l ++ join cs) = Ok r /\ r <> [] /\
    (r = l ++ join cs \/ (starts_slash r = false /\ comps o ++ comps r = cs)).
Proof.
  intros L FA.
  assert (NE : l ++ join cs <> []) by (destruct L as [-> | ->]; discriminate).
  assert (ALL : exists r, Ok (l ++ join cs) = Ok r /\ r <> [] /\
    (r = l ++ join cs \/ (starts_slash r = false /\ comps o ++ comps r = cs))) by eauto.
  unfold relative. destruct (drop_slashes o) as [|x o'] eqn:DO; [exact ALL|].
  assert (DN : drop_slashes o <> []) by congruence. clear x o' DO.
  destruct (match_prefix (l ++ join cs) o) as [q|] eqn:MP; [|exact ALL].
  apply match_prefix_app in MP.
  destruct (drop_nil_all o DN l L _ _ MP (join_head cs FA)) as (o' & -> & ON & J).
  assert (CO : comps (l ++ o') = comps o') by (destruct L as [-> | ->]; reflexivity).
  destruct q as [|y q].
  - cbn [starts_slash]. destruct (last (l ++ o') 0 =? slash)%N eqn:LS; [|exact ALL].
    exfalso. rewrite app_nil_r in J. subst o'.
    destruct (last_slash (l ++ join cs)) as (z & Z); auto.
    assert (exists z', join cs = z' ++ slash :: []) as (z' & Z').
    { destruct (join cs) as [|a b _] using rev_ind; [congruence|]. rewrite app_assoc in Z.
      apply app_inj_tail in Z as [_ ->]. eauto. }
    destruct (join_cut _ _ _ FA Z') as (c1 & c2 & d1 & d2 & -> & _ & X).
    apply Forall_app in FA as [_ FA]. inversion FA; subst. symmetry in X. revert X. apply join_nonempty; auto.
  - cbn [starts_slash tl]. destruct (y =? slash)%N eqn:Y.
    + apply slash_dec in Y. subst y.
      destruct (join_cut _ _ _ FA J) as (c1 & c2 & d1 & d2 & -> & -> & ->).
      apply Forall_app in FA as [FA1 FA2]. rewrite join_head by auto. eexists. split; [reflexivity|].
      inversion FA2; subst. split; [apply join_nonempty; auto|]. right. split; [apply join_head; auto|].
      rewrite CO, !comps_join; auto.
    + destruct (last (l ++ o') 0 =? slash)%N eqn:LS; [|exact ALL].
      destruct (last_slash (l ++ o')) as (z & Z); [destruct L as [-> | ->]; discriminate|auto|].
      assert (exists z', o' = z' ++ [slash]) as (z' & ->).
      { destruct o' as [|a b _] using rev_ind; [congruence|]. rewrite app_assoc in Z.
        apply app_inj_tail in Z as [_ ->]. eauto. }
      rewrite <- app_assoc in J. cbn [app] in J.
      destruct (join_cut _ _ _ FA J) as (c1 & c2 & d1 & d2 & -> & -> & E).
      apply Forall_app in FA as [FA1 FA2]. inversion FA2; subst. eexists. split; [reflexivity|].
      rewrite E. split; [apply join_nonempty; auto|]. right. split; [apply join_head; auto|].
      rewrite CO, comps_app_slash, !comps_join, app_nil_r; auto.
Qed.
