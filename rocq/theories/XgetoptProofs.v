(** Proofs about the option parser. *)
From Coq Require Import List NArith Bool Arith Lia Permutation.
From Verif Require Import Common Locale XgetoptModel XgetoptSpec.
Import ListNotations.
Open Scope res_scope.

(** * Reading *)
Lemma nth_error_mid : forall A (p : list A) x r, nth_error (p ++ x :: r) (length p) = Some x.
Proof. intros. rewrite nth_error_app2, Nat.sub_diag; auto. Qed.

Lemma upd_mid : forall A (p : list A) x y r, upd (p ++ x :: r) (length p) y = p ++ y :: r.
Proof. induction p; intros; cbn; [reflexivity|]. now rewrite IHp. Qed.

Lemma cget_0 : forall s, cget s 0 = Ok (hd 0%N s).
Proof. intros [|c s]; reflexivity. Qed.

Lemma cget_mid : forall p c r, cget (p ++ c :: r) (length p) = Ok c.
Proof.
  intros. unfold cget. rewrite app_length; cbn.
  destruct (length p =? length p + S (length r)) eqn:E; [apply Nat.eqb_eq in E; lia|].
  apply rget_Ok, nth_error_mid.
Qed.

Lemma cget_end : forall s, cget s (length s) = Ok 0%N.
Proof. intros. unfold cget. now rewrite Nat.eqb_refl. Qed.

Lemma cget_app : forall p s, cget (p ++ s) (length p) = Ok (hd 0%N s).
Proof.
  intros p [|c s]; [rewrite app_nil_r; apply cget_end|apply cget_mid].
Qed.

Lemma rtail_app : forall p s, rtail (p ++ s) (length p) = Ok s.
Proof.
  intros. unfold rtail. rewrite app_length.
  destruct (length p <=? length p + length s) eqn:E; [|apply Nat.leb_gt in E; lia].
  rewrite skipn_app, Nat.sub_diag, skipn_all2 by lia. reflexivity.
Qed.

Lemma rget_mid : forall A (p : list A) x r, rget (p ++ x :: r) (length p) = Ok x.
Proof. intros. apply rget_Ok, nth_error_mid. Qed.

Lemma hd_nonull : forall s, nonull s -> (hd 0%N s =? 0)%N = true <-> s = [].
Proof.
  intros [|c s] H; cbn [hd]; split; intro E; try reflexivity; try discriminate.
  apply N.eqb_eq in E. subst. exfalso. apply H. now left.
Qed.

Lemma hd_nonull_false : forall s, nonull s -> s <> [] -> (hd 0%N s =? 0)%N = false.
Proof.
  intros s H Hs. destruct (hd 0%N s =? 0)%N eqn:E; [|reflexivity]. now apply hd_nonull in E.
Qed.

Lemma nonull_app : forall a b, nonull (a ++ b) -> nonull a /\ nonull b.
Proof. intros a b H. split; intro; apply H, in_app_iff; auto. Qed.
Lemma nonull_cons : forall c s, nonull (c :: s) -> c <> 0%N /\ nonull s.
Proof. intros c s H. split; intro; apply H; [subst; now left|now right]. Qed.

(** * Shifting *)
Lemma shift_up_ok : forall q p x r,
  exists z, shift_up (length q) (length p + length q) (p ++ q ++ x :: r) = Ok (p ++ z :: q ++ r).
Proof.
  induction q as [|y q IH] using rev_ind; intros p x r.
  - exists x. reflexivity.
  - rewrite app_length; cbn [length]. rewrite Nat.add_1_r. cbn [shift_up].
    replace (length p + S (length q) - 1) with (length p + length q) by lia.
    rewrite <- !app_assoc; cbn [app].
    replace (p ++ q ++ y :: x :: r) with ((p ++ q) ++ y :: x :: r) by now rewrite <- app_assoc.
    rewrite <- app_length. rewrite rget_mid. cbn [rbind].
    replace ((p ++ q) ++ y :: x :: r) with ((p ++ q ++ [y]) ++ x :: r) by now rewrite <- !app_assoc.
    replace (length p + S (length q)) with (length (p ++ q ++ [y])) by (rewrite !app_length; cbn; lia).
    rewrite rset_Ok by (rewrite !app_length; cbn; lia). rewrite upd_mid. cbn [rbind].
    destruct (IH p y (y :: r)) as [z Hz]. exists z.
    rewrite app_length. rewrite <- !app_assoc; cbn [app]. exact Hz.
Qed.

Lemma argshift_ok : forall oa pre ops x rest ci,
  argshift (mkG oa (pre ++ ops ++ x :: rest) (length pre) (length pre + length ops) ci)
  = Ok (mkG oa (pre ++ x :: ops ++ rest) (S (length pre)) (S (length pre + length ops)) ci).
Proof.
  intros. unfold argshift, aget'. cbn [argv argvindex xoptind xoptarg charindex].
  replace (pre ++ ops ++ x :: rest) with ((pre ++ ops) ++ x :: rest) by now rewrite <- app_assoc.
  rewrite <- app_length, rget_mid. cbn [rbind].
  rewrite app_length. replace (length pre + length ops <? length pre) with false
    by (symmetry; apply Nat.ltb_ge; lia).
  replace (length pre + length ops - length pre) with (length ops) by lia.
  rewrite <- app_assoc. destruct (shift_up_ok ops pre x rest) as [z Hz]. rewrite Hz. cbn [rbind].
  rewrite rset_Ok by (rewrite !app_length; cbn; rewrite app_length; lia).
  rewrite upd_mid. cbn [rbind]. reflexivity.
Qed.

(** * Searching the table *)
Lemma available_dec : forall pc o, posix o || negb pc = true <-> available pc o.
Proof. intros pc o. unfold available. destruct pc, (posix o); cbn; split; intros; auto; try discriminate. Qed.

Lemma search_short_spec : forall pc c t i,
  match search_short pc c i t with
  | Some (k, o) => exists j, k = i + j /\ nth_error t j = Some o /\ shortopt o = c /\ available pc o /\
      forall j' o', j' < j -> nth_error t j' = Some o' -> shortopt o' = c -> ~ available pc o'
  | None => forall o, In o t -> shortopt o = c -> ~ available pc o
  end.
Proof.
  induction t as [|o t IH]; intros i; cbn [search_short].
  - intros o [].
  - destruct ((posix o || negb pc) && (shortopt o =? c)%N) eqn:E.
    + apply andb_true_iff in E as [E1 E2]. apply available_dec in E1. apply N.eqb_eq in E2.
      exists 0. rewrite Nat.add_0_r. do 4 (split; [auto|]). intros; lia.
    + assert (Hno : shortopt o = c -> ~ available pc o).
      { intros Hs Ha. apply available_dec in Ha. rewrite Ha in E. apply N.eqb_neq in E. contradiction. }
      specialize (IH (S i)). destruct (search_short pc c (S i) t) as [[k o']|].
      * destruct IH as (j & -> & H1 & H2 & H3 & H4). exists (S j). split; [lia|]. do 3 (split; [assumption|]).
        intros [|j'] o'' Hlt Hn Hs; cbn in Hn; [injection Hn as <-; now apply Hno|].
        apply (H4 j'); auto; lia.
      * intros o' [<-|Hin]; auto.
Qed.

Lemma wcsncmp_eq_spec : forall name l s,
  wcsncmp_eq l (name ++ s) (length name) = true <-> exists r, l = name ++ r.
Proof.
  induction name as [|c name IH]; intros l s; cbn [length wcsncmp_eq app].
  - split; [intros _; now exists l|intros _; now destruct l].
  - destruct l as [|d l].
    + split; [discriminate|intros [r Hr]; discriminate].
    + cbn [wcsncmp_eq]. rewrite andb_true_iff, N.eqb_eq, IH. split.
      * intros [<- [r ->]]. now exists r.
      * intros [r Hr]. injection Hr as <- ->. split; [reflexivity|now exists r].
Qed.

Definition tl_match (t : list xgetopt_T) (name : list N) (m : longmatch) : Prop :=
  match m with
  | LNone => forall j o, ~ abbreviates t name j o
  | LMatch i o => abbreviates t name i o /\ forall j o', abbreviates t name j o' -> j = i
  | LAmbiguous => False
  end.

Lemma named_app : forall p t name i o, named (p ++ t) name i o ->
  named p name i o \/ (length p <= i /\ named t name (i - length p) o).
Proof.
  intros p t name i o [H1 H2]. destruct (Nat.lt_ge_cases i (length p)) as [Hl|Hl].
  - left. rewrite nth_error_app1 in H1 by auto. now split.
  - right. rewrite nth_error_app2 in H1 by auto. split; [auto|now split].
Qed.
Lemma abbr_app : forall p t name i o, abbreviates (p ++ t) name i o ->
  abbreviates p name i o \/ (length p <= i /\ abbreviates t name (i - length p) o).
Proof.
  intros p t name i o [H1 H2]. destruct (Nat.lt_ge_cases i (length p)) as [Hl|Hl].
  - left. rewrite nth_error_app1 in H1 by auto. now split.
  - right. rewrite nth_error_app2 in H1 by auto. split; [auto|now split].
Qed.
Lemma named_lt : forall p name i o, named p name i o -> i < length p.
Proof. intros p name i o [H _]. apply nth_error_Some. congruence. Qed.
Lemma abbr_lt : forall p name i o, abbreviates p name i o -> i < length p.
Proof. intros p name i o [H _]. apply nth_error_Some. congruence. Qed.
Lemma named_app_l : forall p t name i o, named p name i o -> named (p ++ t) name i o.
Proof. intros p t name i o H. pose proof (named_lt _ _ _ _ H). destruct H. split; auto. now rewrite nth_error_app1. Qed.
Lemma abbr_app_l : forall p t name i o, abbreviates p name i o -> abbreviates (p ++ t) name i o.
Proof. intros p t name i o H. pose proof (abbr_lt _ _ _ _ H). destruct H. split; auto. now rewrite nth_error_app1. Qed.
Lemma named_app_inv : forall p t name i o, i < length p -> named (p ++ t) name i o -> named p name i o.
Proof. intros p t name i o Hl [H1 H2]. rewrite nth_error_app1 in H1 by auto. now split. Qed.
Lemma abbr_app_inv : forall p t name i o, i < length p -> abbreviates (p ++ t) name i o -> abbreviates p name i o.
Proof. intros p t name i o Hl [H1 H2]. rewrite nth_error_app1 in H1 by auto. now split. Qed.

Lemma single_named : forall o name i o', named [o] name i o' -> i = 0 /\ o' = o /\ longopt o = Some name.
Proof.
  intros o name [|[|i]] o' [H1 H2]; cbn in H1; try discriminate. injection H1 as <-. auto.
Qed.
Lemma single_abbr : forall o name i o', abbreviates [o] name i o' -> i = 0 /\ o' = o /\ exists c s, longopt o = Some (name ++ c :: s).
Proof.
  intros o name [|[|i]] o' [H1 H2]; cbn in H1; try discriminate. injection H1 as <-. auto.
Qed.

Lemma search_long_spec : forall name s t p m,
  table_ok (p ++ t) ->
  (forall j o, ~ named p name j o) ->
  tl_match p name m ->
  exists m', search_long false (name ++ s) (length name) (length p) m t = Ok m' /\ resolves (p ++ t) name m'.
Proof.
  intros name s. induction t as [|o t IH]; intros p m Hok Hnn Hm; cbn [search_long].
  - rewrite app_nil_r. exists m. split; [reflexivity|]. destruct m as [|i o|]; cbn in Hm.
    + now apply rs_none.
    + destruct Hm. now apply rs_unique.
    + contradiction.
  - assert (Happ : p ++ o :: t = (p ++ [o]) ++ t) by now rewrite <- app_assoc.
    replace (negb (posix o) && false) with false by (now rewrite andb_false_r).
    assert (Hskip : (forall r, longopt o <> Some (name ++ r)) ->
      exists m', search_long false (name ++ s) (length name) (S (length p)) m t = Ok m' /\ resolves (p ++ o :: t) name m').
    { intro Hx. rewrite Happ. replace (S (length p)) with (length (p ++ [o])) by (rewrite app_length; cbn; lia).
      apply IH.
      - now rewrite <- Happ.
      - intros j o' H. apply named_app in H as [H|[_ H]]; [now apply Hnn in H|].
        apply single_named in H as (_ & -> & H). apply (Hx []). now rewrite app_nil_r.
      - destruct m as [|i oi|]; cbn in *.
        + intros j o' H. apply abbr_app in H as [H|[_ H]]; [now apply Hm in H|].
          apply single_abbr in H as (_ & -> & c & r & H). now apply (Hx (c :: r)).
        + destruct Hm as [Hm1 Hm2]. split; [now apply abbr_app_l|].
          intros j o' H. apply abbr_app in H as [H|[_ H]]; [now apply Hm2 in H|].
          apply single_abbr in H as (_ & -> & c & r & H). now apply (Hx (c :: r)) in H.
        + contradiction. }
    destruct (longopt o) as [l|] eqn:El; [|apply Hskip; congruence].
    destruct (wcsncmp_eq l (name ++ s) (length name)) eqn:Ec; cbn [negb].
    + apply wcsncmp_eq_spec in Ec as [r ->].
      rewrite cget_app. cbn [rbind].
      assert (Hnl : nonull (name ++ r)).
      { apply (tk_long _ Hok o); auto. apply in_app_iff. right. now left. }
      apply nonull_app in Hnl as [_ Hr].
      destruct (hd 0%N r =? 0)%N eqn:Eh.
      * apply hd_nonull in Eh; [|assumption]. subst r. rewrite app_nil_r in El.
        exists (LMatch (length p) o). split; [reflexivity|]. apply rs_exact.
        -- split; [apply nth_error_mid|assumption].
        -- intros j o' Hj Hn. apply named_app_inv in Hn; auto. now apply Hnn in Hn.
        -- intros j k o' o'' Hj Hk H1 H2. apply abbr_app_inv in H1; auto. apply abbr_app_inv in H2; auto.
           destruct m as [|i oi|]; cbn in Hm; [now apply Hm in H1| |contradiction].
           destruct Hm as [_ Hm]. apply Hm in H1, H2. congruence.
      * assert (exists c r', r = c :: r') as (c & r' & ->).
        { destruct r as [|c r']; [discriminate|]. now exists c, r'. }
        assert (Habb : abbreviates (p ++ o :: t) name (length p) o).
        { split; [apply nth_error_mid|]. now exists c, r'. }
        assert (Hpn : forall j o', ~ named (p ++ [o]) name j o').
        { intros j o' H. apply named_app in H as [H|[_ H]]; [now apply Hnn in H|].
          apply single_named in H as (_ & -> & H). rewrite El in H. injection H as H.
          apply (f_equal (@length N)) in H. rewrite app_length in H. cbn in H. lia. }
        destruct m as [|i oi|]; cbn in Hm.
        -- rewrite Happ. replace (S (length p)) with (length (p ++ [o])) by (rewrite app_length; cbn; lia).
           apply IH; [now rewrite <- Happ|assumption|]. cbn. split.
           ++ rewrite Happ in Habb. apply abbr_app_inv in Habb; auto. rewrite app_length; cbn; lia.
           ++ intros j o' H. apply abbr_app in H as [H|[Hle H]]; [now apply Hm in H|].
              apply single_abbr in H as (Hj & _). lia.
        -- destruct Hm as [Hm1 Hm2]. exists LAmbiguous. split; [reflexivity|].
           apply rs_ambiguous with (i := i) (j := length p) (o := oi) (o' := o); auto.
           ++ now apply abbr_lt in Hm1.
           ++ now apply abbr_app_l.
           ++ intros k o' Hk H. apply named_app_inv in H; auto. now apply Hnn in H.
        -- contradiction.
    + apply Hskip. intros r Hr. injection Hr as ->.
      assert (wcsncmp_eq (name ++ r) (name ++ s) (length name) = true) by (apply wcsncmp_eq_spec; now exists r).
      congruence.
Qed.

Lemma long_text_name : forall b name v, long_text b name v -> ~ In equals name.
Proof. intros b name v H. now destruct H. Qed.

Lemma wcscspn_text : forall body, exists name v s, long_text body name v /\ body = name ++ s /\
  wcscspn_eq body = length name /\
  match v with None => s = [] | Some w => s = equals :: w end.
Proof.
  induction body as [|c body IH].
  - exists [], None, []. repeat split. apply lt_name. intros [].
  - cbn [wcscspn_eq]. destruct (c =? equals)%N eqn:E.
    + apply N.eqb_eq in E. subst. exists [], (Some body), (equals :: body). repeat split.
      apply (lt_value [] body). intros [].
    + apply N.eqb_neq in E. destruct IH as (name & v & s & Ht & -> & Hl & Hs).
      exists (c :: name), v, s. repeat split; auto.
      * destruct v as [w|]; subst s.
        -- apply (lt_value (c :: name) w). intros [H|H]; [contradiction|].
           now apply long_text_name in Ht.
        -- rewrite app_nil_r. apply lt_name. intros [H|H]; [contradiction|].
           now apply long_text_name in Ht.
      * cbn. now rewrite Hl.
Qed.

(** * The loop *)
Section Loop.
Variable pc : bool.
Variable fl : gflags.
Variable t : list xgetopt_T.
Variable argv_ : list (list N).
Hypothesis Ht : table_ok t.
Set Default Proof Using "All".

(** What the caller does with the result of one call. *)
Definition after (fuel : nat) (x : res (gresult * gst)) :=
  let! (r, st1) := x in
  match r with
  | GDone => Ok ([], EndDone, st1)
  | GError e => Ok ([], EndError e, st1)
  | GOpt i =>
      let! (p, st2) := option_loop fuel pc fl t argv_ st1 in
      let (evs, fin) := p in
      Ok ((i, xoptarg st1) :: evs, fin, st2)
  end.

Definition good_result (evs : list (nat * option (list N))) (fin : gending) (a : list (list N)) (n : nat)
    (x : res (list (nat * option (list N)) * gending * gst)) : Prop :=
  exists obs st', x = Ok (obs, fin, st') /\ Forall2 reported evs obs /\ argv st' = a /\ xoptind st' = n.

Lemma loop_after : forall fuel st, 0 < xoptind st <= argvindex st ->
  option_loop (S fuel) pc fl t argv_ st = after fuel (search_argv (S (length (argv st))) pc fl t st).
Proof.
  intros fuel st [H1 H2]. cbn [option_loop]. unfold xgetopt.
  destruct (xoptind st =? 0) eqn:E; [apply Nat.eqb_eq in E; lia|].
  destruct (argvindex st <? xoptind st) eqn:E2; [apply Nat.ltb_lt in E2; lia|].
  reflexivity.
Qed.

Definition total (l : list (list N)) : nat := fold_right (fun a n => length a + n) 0 l.

Lemma total_cons : forall a l, total (a :: l) = length a + total l.
Proof. reflexivity. Qed.

(** The state with parsed options [pre] (including the command name), skipped
    operands [ops] and unparsed [rest]. *)
Definition state (oa : option (list N)) (pre ops rest : list (list N)) (ci : nat) : gst :=
  mkG oa (pre ++ ops ++ rest) (length pre) (length pre + length ops) ci.

Lemma state_shift : forall oa pre ops x rest ci,
  argshift (state oa pre ops (x :: rest) ci) = Ok (state oa (pre ++ [x]) ops rest ci).
Proof.
  intros. unfold state. rewrite argshift_ok. rewrite app_length; cbn [length].
  rewrite <- app_assoc; cbn [app]. do 2 f_equal; lia.
Qed.

Lemma aget_state : forall oa pre ops x rest ci,
  aget (argv (state oa pre ops (x :: rest) ci)) (argvindex (state oa pre ops (x :: rest) ci)) = Ok (Some x).
Proof.
  intros. unfold state, aget. cbn [argv argvindex].
  replace (pre ++ ops ++ x :: rest) with ((pre ++ ops) ++ x :: rest) by now rewrite <- app_assoc.
  rewrite <- app_length, rget_mid, (app_length (pre ++ ops)). cbn [length].
  destruct (_ =? _) eqn:E; [apply Nat.eqb_eq in E; lia|reflexivity].
Qed.
Lemma aget'_state : forall oa pre ops x rest ci,
  aget' (argv (state oa pre ops (x :: rest) ci)) (argvindex (state oa pre ops (x :: rest) ci)) = Ok x.
Proof.
  intros. unfold state, aget'. cbn [argv argvindex].
  replace (pre ++ ops ++ x :: rest) with ((pre ++ ops) ++ x :: rest) by now rewrite <- app_assoc.
  now rewrite <- app_length, rget_mid.
Qed.
Lemma aget_state_nil : forall oa pre ops ci,
  aget (argv (state oa pre ops [] ci)) (argvindex (state oa pre ops [] ci)) = Ok None.
Proof.
  intros. unfold state, aget. cbn [argv argvindex]. rewrite !app_nil_r, app_length.
  now rewrite Nat.eqb_refl.
Qed.
Lemma aget_state_next : forall oa pre ops x rest ci,
  aget (argv (state oa pre ops (x :: rest) ci)) (S (argvindex (state oa pre ops (x :: rest) ci))) = Ok (hd_error rest).
Proof.
  intros. unfold state, aget. cbn [argv argvindex].
  replace (pre ++ ops ++ x :: rest) with ((pre ++ ops ++ [x]) ++ rest) by now rewrite <- !app_assoc.
  replace (S (length pre + length ops)) with (length (pre ++ ops ++ [x])) by (rewrite !app_length; cbn; lia).
  rewrite (app_length (pre ++ ops ++ [x])). destruct rest as [|y rest].
  - cbn [length]. now rewrite Nat.add_0_r, Nat.eqb_refl.
  - rewrite rget_mid. cbn [length].
    destruct (_ =? _) eqn:E; [apply Nat.eqb_eq in E; lia|reflexivity].
Qed.

Lemma set_xoptarg_state : forall p oa pre ops rest ci,
  set_xoptarg p (state oa pre ops rest ci) = state p pre ops rest ci.
Proof. reflexivity. Qed.
Lemma set_charindex_state : forall c oa pre ops rest ci,
  set_charindex c (state oa pre ops rest ci) = state oa pre ops rest c.
Proof. reflexivity. Qed.
Lemma charindex_state : forall oa pre ops rest ci, charindex (state oa pre ops rest ci) = ci.
Proof. reflexivity. Qed.
Lemma xoptarg_state : forall oa pre ops rest ci, xoptarg (state oa pre ops rest ci) = oa.
Proof. reflexivity. Qed.

Lemma finish_state : forall opt oa pre ops x rest ci,
  finish_parsing_current_argument opt (state oa pre ops (x :: rest) ci)
  = Ok (GOpt opt, state oa (pre ++ [x]) ops rest 1).
Proof. intros. unfold finish_parsing_current_argument. rewrite state_shift. reflexivity. Qed.

Lemma separate_state : forall b opt oa pre ops x rest ci,
  parse_separate_option_argument b opt (state oa pre ops (x :: rest) ci)
  = match rest with
    | [] => Ok (GError (option_argument_is_missing b opt), state None pre ops [x] ci)
    | y :: rest' => Ok (GOpt opt, state (Some y) (pre ++ [x] ++ [y]) ops rest' 1)
    end.
Proof.
  intros. unfold parse_separate_option_argument. rewrite aget_state_next.
  destruct rest as [|y rest]; cbn [rbind hd_error].
  - reflexivity.
  - rewrite set_xoptarg_state, state_shift. cbn [rbind]. rewrite state_shift. cbn [rbind].
    rewrite set_charindex_state, <- app_assoc. reflexivity.
Qed.

(** The goals of the mutual induction. *)
Definition args_goal (rest : list (list N)) : Prop :=
  exists evs os ops' fin, args pc fl t rest evs os ops' fin /\
  forall oa pre ops fuel, pre <> [] -> (pc = true \/ fl_posix fl = true -> ops = []) ->
    total rest < fuel ->
    good_result evs fin (pre ++ os ++ ops ++ ops') (length pre + length os)
      (option_loop fuel pc fl t argv_ (state oa pre ops rest 1)).

Definition search_goal (rest : list (list N)) : Prop :=
  exists evs os ops' fin, args pc fl t rest evs os ops' fin /\
  forall oa pre ops fuel sf, pre <> [] -> (pc = true \/ fl_posix fl = true -> ops = []) ->
    total rest <= fuel -> length rest < sf ->
    good_result evs fin (pre ++ os ++ ops ++ ops') (length pre + length os)
      (after fuel (search_argv sf pc fl t (state oa pre ops rest 1))).

Lemma search_args : forall rest, search_goal rest -> args_goal rest.
Proof.
  intros rest (evs & os & ops' & fin & Hs & H). exists evs, os, ops', fin. split; [assumption|].
  intros oa pre ops fuel Hp Ho Hf. destruct fuel as [|fuel]; [lia|].
  rewrite loop_after.
  - apply H; auto; [lia|]. unfold state; cbn [argv]. rewrite !app_length. lia.
  - unfold state; cbn [xoptind argvindex]. destruct pre; [contradiction|]. cbn; lia.
Qed.

(** Continue after an option. *)
Lemma after_opt : forall i e evs fin a n fuel oa st,
  xoptarg st = oa -> (match e with Some v => oa = Some v | None => True end) ->
  good_result evs fin a n (option_loop fuel pc fl t argv_ st) ->
  good_result ((i, e) :: evs) fin a n (after fuel (Ok (GOpt i, st))).
Proof.
  intros i e evs fin a n fuel oa st Hoa He (obs & st' & H1 & H2 & H3 & H4).
  unfold after. cbn [rbind]. rewrite H1. cbn [rbind].
  exists ((i, xoptarg st) :: obs), st'. repeat split; auto. constructor; auto.
  split; [reflexivity|]. cbn. destruct e; [congruence|exact I].
Qed.

Lemma search_short_sel : forall c i o, c <> hyphen -> search_short pc c 0 t = Some (i, o) -> selects_short pc t c i o.
Proof.
  intros c i o Hc H. pose proof (search_short_spec pc c t 0) as S. rewrite H in S.
  destruct S as (j & -> & H1 & H2 & H3 & H4). now repeat split.
Qed.

(** Single-character options. *)
Lemma cluster_goal : forall s q rest,
  nonull s -> s <> [] -> (forall rest', length rest' <= length rest -> total rest' <= total rest -> 
     (rest' = rest \/ exists b, rest = b :: rest') -> args_goal rest') ->
  (exists c q', q ++ s = hyphen :: c :: q' /\ c <> hyphen /\ c <> 0%N /\ ((negb pc && fl_digit fl) = true -> iswdigit c = false)) ->
  exists evs os ops' fin, cluster pc fl t (q ++ s) s rest evs os ops' fin /\
  forall oa pre ops fuel, pre <> [] -> (pc = true \/ fl_posix fl = true -> ops = []) ->
    length s + total rest < fuel ->
    good_result evs fin (pre ++ os ++ ops ++ ops') (length pre + length os)
      (after fuel (parse_short_option pc t (state oa pre ops ((q ++ s) :: rest) (length q)))).
Proof.
  induction s as [|c s IH]; intros q rest Hnn Hs Hargs Hq; [contradiction|].
  apply nonull_cons in Hnn as [Hc0 Hnn].
  assert (Hpso : forall oa pre ops,
    parse_short_option pc t (state oa pre ops ((q ++ c :: s) :: rest) (length q)) =
    if (c =? hyphen)%N then Ok (GError (no_such_option (q ++ c :: s)), state oa pre ops ((q ++ c :: s) :: rest) (length q))
    else match search_short pc c 0 t with
         | Some (i, o) => found_short_option i o (state oa pre ops ((q ++ c :: s) :: rest) (length q))
         | None => Ok (GError (no_such_option (q ++ c :: s)), state oa pre ops ((q ++ c :: s) :: rest) (length q))
         end).
  { intros. unfold parse_short_option. rewrite aget'_state. cbn [rbind]. rewrite charindex_state.
    replace (length q <? length (q ++ c :: s)) with true
      by (symmetry; apply Nat.ltb_lt; rewrite app_length; cbn; lia).
    cbn [negb]. rewrite cget_mid. reflexivity. }
  assert (Herr : no_short pc t c -> (forall oa pre ops, parse_short_option pc t (state oa pre ops ((q ++ c :: s) :: rest) (length q))
     = Ok (GError (no_such_option (q ++ c :: s)), state oa pre ops ((q ++ c :: s) :: rest) (length q))) ->
     exists evs os ops' fin, cluster pc fl t (q ++ c :: s) (c :: s) rest evs os ops' fin /\
     forall oa pre ops fuel, pre <> [] -> (pc = true \/ fl_posix fl = true -> ops = []) ->
       length (c :: s) + total rest < fuel ->
       good_result evs fin (pre ++ os ++ ops ++ ops') (length pre + length os)
         (after fuel (parse_short_option pc t (state oa pre ops ((q ++ c :: s) :: rest) (length q))))).
  { intros Hno He. exists [], [], ((q ++ c :: s) :: rest), (EndError (no_such_option (q ++ c :: s))). split; [now constructor|].
    intros. rewrite He. unfold after; cbn [rbind]. eexists [], _. repeat split; auto; unfold state; cbn; lia. }
  destruct (c =? hyphen)%N eqn:Ech.
  { apply N.eqb_eq in Ech. apply Herr; [now left|]. intros. now rewrite Hpso. }
  apply N.eqb_neq in Ech.
  destruct (search_short pc c 0 t) as [[i o]|] eqn:Ess.
  2:{ apply Herr; [|intros; now rewrite Hpso]. right.
      pose proof (search_short_spec pc c t 0) as S. rewrite Ess in S. exact S. }
  apply search_short_sel in Ess; [|assumption].
  assert (Hfs : forall oa pre ops,
    found_short_option i o (state oa pre ops ((q ++ c :: s) :: rest) (length q)) =
    match optarg o with
    | OPTARG_NONE => if negb (hd 0%N s =? 0)%N
        then Ok (GOpt i, state oa pre ops ((q ++ c :: s) :: rest) (S (length q)))
        else Ok (GOpt i, state oa (pre ++ [q ++ c :: s]) ops rest 1)
    | _ => if (hd 0%N s =? 0)%N && match optarg o with OPTARG_REQUIRED => true | _ => false end
        then parse_separate_option_argument true i (state (Some s) pre ops ((q ++ c :: s) :: rest) (length q))
        else Ok (GOpt i, state (Some s) (pre ++ [q ++ c :: s]) ops rest 1)
    end).
  { intros. unfold found_short_option. rewrite aget'_state. cbn [rbind]. rewrite charindex_state.
    replace (q ++ c :: s) with ((q ++ [c]) ++ s) by now rewrite <- app_assoc.
    replace (S (length q)) with (length (q ++ [c])) by (rewrite app_length; cbn; lia).
    rewrite cget_app, rtail_app. cbn [rbind]. rewrite set_xoptarg_state, set_charindex_state, cget_0.
    cbn [rbind]. rewrite !finish_state. destruct (optarg o); reflexivity. }
  assert (Hrest : args_goal rest) by (apply Hargs; auto).
  destruct Hrest as (evs & os & ops' & fin & Ha & Hr).
  assert (Hlast : forall e oa', optarg o = OPTARG_NONE /\ s = [] /\ e = None \/
      (optarg o = OPTARG_OPTIONAL \/ optarg o = OPTARG_REQUIRED /\ s <> []) /\ e = Some s /\ oa' = Some s ->
    cluster pc fl t (q ++ c :: s) (c :: s) rest ((i, e) :: evs) ((q ++ c :: s) :: os) ops' fin /\
    forall oa'', (e = None \/ oa'' = Some s) -> forall pre ops fuel, pre <> [] -> (pc = true \/ fl_posix fl = true -> ops = []) ->
      length (c :: s) + total rest < fuel ->
      good_result ((i, e) :: evs) fin (pre ++ ((q ++ c :: s) :: os) ++ ops ++ ops') (length pre + length ((q ++ c :: s) :: os))
       (after fuel (Ok (GOpt i, state oa'' (pre ++ [q ++ c :: s]) ops rest 1)))).
  { intros e oa' Hcase. split.
    - destruct Hcase as [(H1 & -> & ->)|(H1 & -> & H2)].
      + now apply cl_last with (o := o).
      + now apply cl_attached with (o := o).
    - intros oa'' Hoa pre ops fuel Hp Ho Hf.
      apply after_opt with (oa := oa''); [reflexivity| |].
      + destruct Hcase as [(H1 & H2 & ->)|(H1 & -> & H2)]; [exact I|]. destruct Hoa; [discriminate|assumption].
      + specialize (Hr oa'' (pre ++ [q ++ c :: s]) ops fuel).
        rewrite app_length in Hr. cbn [length] in Hr |- *. rewrite <- !app_assoc in *. cbn [app] in *.
        replace (length pre + 1 + length os) with (length pre + S (length os)) in Hr by lia.
        apply Hr; auto; [|lia]. destruct pre; discriminate. }
  destruct (optarg o) eqn:Eo.
  - destruct s as [|d s'].
    + destruct (Hlast None None) as [Hc Hl]; [left; auto|].
      exists ((i, None) :: evs), ((q ++ [c]) :: os), ops', fin. split; [exact Hc|].
      intros oa pre ops fuel Hp Ho Hf. rewrite Hpso, Hfs. cbn [hd N.eqb negb]. apply Hl; auto.
    + clear evs os ops' fin Ha Hr Hlast.
      destruct (IH (q ++ [c]) rest) as (evs & os & ops' & fin & Hcl & Hgo).
      * assumption.
      * discriminate.
      * assumption.
      * now rewrite <- app_assoc.
      * rewrite <- app_assoc in Hcl, Hgo. cbn [app] in Hcl, Hgo.
        exists ((i, None) :: evs), os, ops', fin. split; [apply cl_flag with (o := o); auto; discriminate|].
        intros oa pre ops fuel Hp Ho Hf. rewrite Hpso, Hfs.
        rewrite hd_nonull_false by (auto; discriminate). cbn [negb].
        destruct fuel as [|fuel]; [lia|].
        apply after_opt with (oa := oa); [reflexivity|exact I|].
        rewrite loop_after by (unfold state; cbn; destruct pre; [contradiction|cbn; lia]).
        rewrite app_length in Hgo. cbn [length] in Hgo. rewrite Nat.add_1_r in Hgo.
        specialize (Hgo oa pre ops fuel Hp Ho).
        replace (search_argv _ pc fl t (state oa pre ops ((q ++ c :: d :: s') :: rest) (S (length q))))
          with (parse_short_option pc t (state oa pre ops ((q ++ c :: d :: s') :: rest) (S (length q)))).
        { apply Hgo. cbn [length] in Hf |- *. lia. }
        cbn [search_argv]. rewrite aget_state. cbn [rbind].
        destruct Hq as (c1 & q' & Hq & H1 & H2 & H3). rewrite Hq.
        change (cget (hyphen :: c1 :: q') 0) with (Ok hyphen).
        change (cget (hyphen :: c1 :: q') 1) with (Ok c1). cbn [rbind].
        rewrite N.eqb_refl. apply N.eqb_neq in H1, H2. rewrite H1, H2. cbn [negb].
        destruct pc; cbn [negb fl_digit orb]; [reflexivity|].
        cbn [negb andb] in H3. destruct (fl_digit fl); [|reflexivity].
        rewrite H3 by reflexivity. reflexivity.
  - destruct s as [|d s'].
    + destruct rest as [|b rest'].
      * exists [], [], [q ++ [c]], (EndError (option_argument_is_missing true i)).
        split; [now apply cl_missing with (o := o)|].
        intros oa pre ops fuel Hp Ho Hf. rewrite Hpso, Hfs. cbn [hd N.eqb andb]. rewrite separate_state.
        unfold after; cbn [rbind]. eexists [], _. repeat split; auto; unfold state; cbn; lia.
      * clear evs os ops' fin Ha Hr Hlast.
        destruct (Hargs rest') as (evs & os & ops' & fin & Ha & Hr).
        { cbn; lia. } { rewrite total_cons. lia. } { right. now exists b. }
        exists ((i, Some b) :: evs), ((q ++ [c]) :: b :: os), ops', fin.
        split; [now apply cl_separate with (o := o)|].
        intros oa pre ops fuel Hp Ho Hf. rewrite Hpso, Hfs. cbn [hd N.eqb andb]. rewrite separate_state.
        apply after_opt with (oa := Some b); [reflexivity|reflexivity|].
        specialize (Hr (Some b) (pre ++ [q ++ [c]] ++ [b]) ops fuel).
        rewrite app_length in Hr. cbn [length app] in Hr |- *. rewrite <- !app_assoc in Hr. cbn [app] in Hr.
        replace (length pre + 2 + length os) with (length pre + S (S (length os))) in Hr by lia.
        apply Hr; auto; [destruct pre; discriminate|]. rewrite total_cons in Hf. lia.
    + destruct (Hlast (Some (d :: s')) (Some (d :: s'))) as [Hc Hl]; [right; repeat split; right; split; [auto|discriminate]|].
      eexists _, _, ops', fin. split; [exact Hc|].
      intros oa pre ops fuel Hp Ho Hf. rewrite Hpso, Hfs. rewrite hd_nonull_false by (auto; discriminate).
      cbn [andb]. apply Hl; auto.
  - destruct (Hlast (Some s) (Some s)) as [Hc Hl]; [right; auto|].
    eexists _, _, ops', fin. split; [exact Hc|].
    intros oa pre ops fuel Hp Ho Hf. rewrite Hpso, Hfs, andb_false_r. apply Hl; auto.
Qed.

(** Long options. *)
Lemma long_goal : forall s rest,
  nonull s -> (forall rest', length rest' <= length rest -> total rest' <= total rest -> 
     (rest' = rest \/ exists b, rest = b :: rest') -> args_goal rest') ->
  exists evs os ops' fin, args pc fl t ((hyphen :: hyphen :: s) :: rest) evs os ops' fin /\
  forall oa pre ops fuel, pre <> [] -> (pc = true \/ fl_posix fl = true -> ops = []) ->
    total rest < fuel ->
    good_result evs fin (pre ++ os ++ ops ++ ops') (length pre + length os)
      (after fuel (parse_long_option pc t (state oa pre ops ((hyphen :: hyphen :: s) :: rest) 1))).
Proof.
  intros s rest Hnn Hargs.
  assert (Hc2 : cget (hyphen :: hyphen :: s) 2 = Ok (hd 0%N s)).
  { change (hyphen :: hyphen :: s) with ([hyphen; hyphen] ++ s). apply (cget_app [hyphen; hyphen]). }
  destruct s as [|d s'].
  { exists [], [[hyphen; hyphen]], rest, EndDone. split; [constructor|].
    intros oa pre ops fuel Hp Ho Hf. unfold parse_long_option. rewrite aget'_state. cbn [rbind].
    rewrite Hc2. cbn [rbind hd N.eqb]. rewrite state_shift. cbn [rbind after].
    eexists [], _. repeat split; auto.
    - unfold state; cbn [argv]. now rewrite <- !app_assoc.
    - unfold state; cbn [xoptind]. now rewrite app_length. }
  remember (d :: s') as s eqn:Es.
  assert (Hs : s <> []) by (subst; discriminate). clear Es d s'.
  assert (Hh : (hd 0%N s =? 0)%N = false) by now apply hd_nonull_false.
  destruct (bool_dec pc true) as [Hpc|Hpc]; [|apply not_true_is_false in Hpc].
  { exists [], [], ((hyphen :: hyphen :: s) :: rest), (EndError (no_such_option (hyphen :: hyphen :: s))).
    split; [now apply ar_long_posix|].
    intros oa pre ops fuel Hp Ho Hf. unfold parse_long_option. rewrite aget'_state. cbn [rbind].
    rewrite Hc2. cbn [rbind]. rewrite Hh, Hpc. cbn [after rbind].
    eexists [], _. repeat split; auto; unfold state; cbn; lia. }
  destruct (wcscspn_text s) as (name & v & u & Htext & Hsu & Hlen & Hu).
  destruct (search_long_spec name u t [] LNone) as (m & Hm & Hres).
  { exact Ht. } { intros [|j] o [H _]; discriminate. } { intros [|j] o [H _]; discriminate. }
  cbn [length app] in Hm, Hres.
  assert (Hplo : forall oa pre ops,
    parse_long_option pc t (state oa pre ops ((hyphen :: hyphen :: s) :: rest) 1) =
    match m with
    | LAmbiguous => Ok (GError (ambiguous_long_option (hyphen :: hyphen :: s)), state oa pre ops ((hyphen :: hyphen :: s) :: rest) 1)
    | LNone => Ok (GError (no_such_option (hyphen :: hyphen :: s)), state oa pre ops ((hyphen :: hyphen :: s) :: rest) 1)
    | LMatch i o => found_long_option u i o (state oa pre ops ((hyphen :: hyphen :: s) :: rest) 1)
    end).
  { intros. unfold parse_long_option. rewrite aget'_state. cbn [rbind].
    rewrite Hc2. cbn [rbind]. rewrite Hh, Hpc.
    change (hyphen :: hyphen :: s) with ([hyphen; hyphen] ++ s).
    change 2 with (length [hyphen; hyphen]) at 1. rewrite rtail_app. cbn [rbind].
    rewrite Hlen. rewrite Hsu, Hm. cbn [rbind]. destruct m; try reflexivity.
    rewrite (app_assoc [hyphen; hyphen] name u).
    replace (length name + 2) with (length ([hyphen; hyphen] ++ name)) by (cbn; lia).
    rewrite rtail_app. reflexivity. }
  assert (Herr : forall e, args pc fl t ((hyphen :: hyphen :: s) :: rest) [] [] ((hyphen :: hyphen :: s) :: rest) (EndError e) ->
    (forall oa pre ops, parse_long_option pc t (state oa pre ops ((hyphen :: hyphen :: s) :: rest) 1)
       = Ok (GError e, state oa pre ops ((hyphen :: hyphen :: s) :: rest) 1)) ->
    exists evs os ops' fin, args pc fl t ((hyphen :: hyphen :: s) :: rest) evs os ops' fin /\
    forall oa pre ops fuel, pre <> [] -> (pc = true \/ fl_posix fl = true -> ops = []) ->
      total rest < fuel ->
      good_result evs fin (pre ++ os ++ ops ++ ops') (length pre + length os)
        (after fuel (parse_long_option pc t (state oa pre ops ((hyphen :: hyphen :: s) :: rest) 1)))).
  { intros e He Hp. exists [], [], ((hyphen :: hyphen :: s) :: rest), (EndError e). split; [exact He|].
    intros. rewrite Hp. cbn [after rbind]. eexists [], _. repeat split; auto; unfold state; cbn; lia. }
  destruct m as [|i o|].
  - apply Herr with (e := no_such_option (hyphen :: hyphen :: s)); [|assumption].
    now apply ar_long_invalid with (name := name) (v := v).
  - assert (Hrest : args_goal rest) by (apply Hargs; auto).
    destruct Hrest as (evs & os & ops' & fin & Ha & Hr).
    assert (Hfl : forall oa pre ops,
      found_long_option u i o (state oa pre ops ((hyphen :: hyphen :: s) :: rest) 1) =
      match optarg o, v with
      | OPTARG_NONE, None => Ok (GOpt i, state oa (pre ++ [hyphen :: hyphen :: s]) ops rest 1)
      | OPTARG_NONE, Some _ => Ok (GError (unwanted_long_option_argument (hyphen :: hyphen :: s) i), state oa pre ops ((hyphen :: hyphen :: s) :: rest) 1)
      | _, Some w => Ok (GOpt i, state (Some w) (pre ++ [hyphen :: hyphen :: s]) ops rest 1)
      | OPTARG_OPTIONAL, None => Ok (GOpt i, state oa (pre ++ [hyphen :: hyphen :: s]) ops rest 1)
      | OPTARG_REQUIRED, None => parse_separate_option_argument false i (state oa pre ops ((hyphen :: hyphen :: s) :: rest) 1)
      end).
    { intros. unfold found_long_option. rewrite cget_0. cbn [rbind].
      rewrite aget'_state.
      destruct v as [w|]; subst u; cbn [hd N.eqb negb].
      - change (rtail (equals :: w) 1) with (Ok w). cbn [rbind]. rewrite set_xoptarg_state, !finish_state.
        destruct (optarg o); reflexivity.
      - rewrite !finish_state. destruct (optarg o); reflexivity. }
    assert (Hgo : forall e oa pre ops fuel, (e = None \/ e = oa) ->
      pre <> [] -> (pc = true \/ fl_posix fl = true -> ops = []) -> total rest < fuel ->
      good_result ((i, e) :: evs) fin (pre ++ ((hyphen :: hyphen :: s) :: os) ++ ops ++ ops') (length pre + length ((hyphen :: hyphen :: s) :: os))
       (after fuel (Ok (GOpt i, state oa (pre ++ [hyphen :: hyphen :: s]) ops rest 1)))).
    { intros e oa pre ops fuel He Hp Ho Hf.
      apply after_opt with (oa := oa); [reflexivity| |].
      - destruct e; [|exact I]. destruct He; congruence.
      - specialize (Hr oa (pre ++ [hyphen :: hyphen :: s]) ops fuel).
        rewrite app_length in Hr. cbn [length] in Hr |- *. rewrite <- !app_assoc in Hr. cbn [app] in *.
        replace (length pre + 1 + length os) with (length pre + S (length os)) in Hr by lia.
        apply Hr; auto. destruct pre; discriminate. }
    assert (Hvn : v = None -> s = name).
    { intros ->. subst u. now rewrite app_nil_r in Hsu. }
    destruct v as [w|].
    + clear Hvn. destruct (optarg o) eqn:Eo.
      * apply Herr with (e := unwanted_long_option_argument (hyphen :: hyphen :: s) i); [|intros; now rewrite Hplo, Hfl].
        now apply ar_long_unwanted with (name := name) (v := w) (o := o).
      * exists ((i, Some w) :: evs), ((hyphen :: hyphen :: s) :: os), ops', fin. split.
        -- apply ar_long_value with (name := name) (o := o); auto; congruence.
        -- intros. rewrite Hplo, Hfl. apply Hgo; auto.
      * exists ((i, Some w) :: evs), ((hyphen :: hyphen :: s) :: os), ops', fin. split.
        -- apply ar_long_value with (name := name) (o := o); auto; congruence.
        -- intros. rewrite Hplo, Hfl. apply Hgo; auto.
    + specialize (Hvn eq_refl). subst name. destruct (optarg o) eqn:Eo.
      * exists ((i, None) :: evs), ((hyphen :: hyphen :: s) :: os), ops', fin. split.
        -- apply ar_long_flag with (o := o); auto; congruence.
        -- intros. rewrite Hplo, Hfl. apply Hgo; auto.
      * destruct rest as [|b rest'].
        -- exists [], [], [hyphen :: hyphen :: s], (EndError (option_argument_is_missing false i)).
           split; [now apply ar_long_missing with (o := o)|].
           intros oa pre ops fuel Hp Ho Hf. rewrite Hplo, Hfl, separate_state.
           unfold after; cbn [rbind]. eexists [], _. repeat split; auto; unfold state; cbn; lia.
        -- clear evs os ops' fin Ha Hr Hgo.
           destruct (Hargs rest') as (evs & os & ops' & fin & Ha & Hr).
           { cbn; lia. } { rewrite total_cons. lia. } { right. now exists b. }
           exists ((i, Some b) :: evs), ((hyphen :: hyphen :: s) :: b :: os), ops', fin.
           split; [now apply ar_long_separate with (o := o)|].
           intros oa pre ops fuel Hp Ho Hf. rewrite Hplo, Hfl, separate_state.
           apply after_opt with (oa := Some b); [reflexivity|reflexivity|].
           specialize (Hr (Some b) (pre ++ [hyphen :: hyphen :: s] ++ [b]) ops fuel).
           rewrite app_length in Hr. cbn [length app] in Hr |- *. rewrite <- !app_assoc in Hr. cbn [app] in Hr.
           replace (length pre + 2 + length os) with (length pre + S (S (length os))) in Hr by lia.
           apply Hr; auto; [destruct pre; discriminate|]. rewrite total_cons in Hf. lia.
      * exists ((i, None) :: evs), ((hyphen :: hyphen :: s) :: os), ops', fin. split.
        -- apply ar_long_flag with (o := o); auto; congruence.
        -- intros. rewrite Hplo, Hfl. apply Hgo; auto.
  - apply Herr with (e := ambiguous_long_option (hyphen :: hyphen :: s)); [|assumption].
    now apply ar_long_ambiguous with (name := name) (v := v).
Qed.

Lemma digit_flag : forall c, negb (fl_digit (if pc then mkF true false else fl)) || negb (iswdigit c) = true <->
  ((negb pc && fl_digit fl) = true -> iswdigit c = false).
Proof.
  intros c. destruct pc; cbn; [intuition congruence|]. destruct (fl_digit fl), (iswdigit c); cbn; intuition congruence.
Qed.
Lemma posix_flag : fl_posix (if pc then mkF true false else fl) = true <-> pc = true \/ fl_posix fl = true.
Proof. destruct pc; cbn; intuition congruence. Qed.

Theorem loop_search : forall n rest, length rest <= n -> Forall nonull rest -> search_goal rest.
Proof.
  induction n as [|n IH]; intros rest Hlen Hnn.
  { destruct rest; [|cbn in Hlen; lia].
    exists [], [], [], EndDone. split; [constructor|]. intros oa pre ops fuel sf Hp Ho Hf Hsf.
    destruct sf as [|sf]; [cbn in Hsf; lia|]. cbn [search_argv]. rewrite aget_state_nil. cbn [rbind after].
    eexists [], _. repeat split; auto; unfold state; cbn; lia. }
  destruct rest as [|a rest].
  { apply IH; auto. cbn; lia. }
  inversion Hnn as [|? ? Ha Hrest]; subst.
  assert (Hargs : forall rest', length rest' <= length rest -> total rest' <= total rest ->
     (rest' = rest \/ exists b, rest = b :: rest') -> args_goal rest').
  { intros rest' H1 H2 H3. apply search_args, IH; [cbn in Hlen; lia|].
    destruct H3 as [->|[b ->]]; [assumption|]. now inversion Hrest. }
  (* the argument is an operand *)
  assert (Hop : ~ looks_like_option (negb pc && fl_digit fl) a ->
    (forall oa pre ops sf, search_argv (S sf) pc fl t (state oa pre ops (a :: rest) 1) =
       if fl_posix (if pc then mkF true false else fl) then Ok (GDone, state oa pre ops (a :: rest) 1)
       else search_argv sf pc fl t (set_argvindex (S (argvindex (state oa pre ops (a :: rest) 1))) (state oa pre ops (a :: rest) 1))) ->
    search_goal (a :: rest)).
  { intros Hno Heq. destruct (fl_posix (if pc then mkF true false else fl)) eqn:Ef.
    - exists [], [], (a :: rest), EndDone. split; [apply ar_stop; auto; now apply posix_flag|].
      intros oa pre ops fuel sf Hp Ho Hf Hsf. destruct sf as [|sf]; [lia|]. rewrite Heq. cbn [after rbind].
      eexists [], _. repeat split; auto; unfold state; cbn; lia.
    - assert (Hnp : ~ (pc = true \/ fl_posix fl = true)).
      { intro H. apply posix_flag in H. congruence. }
      destruct (IH rest) as (evs & os & ops' & fin & Hs & H); [cbn in Hlen; lia|assumption|].
      exists evs, os, (a :: ops'), fin. split.
      { apply ar_operand; auto; destruct pc, (fl_posix fl); auto; exfalso; auto. }
      intros oa pre ops fuel sf Hp Ho Hf Hsf. destruct sf as [|sf]; [lia|]. rewrite Heq.
      replace (set_argvindex _ _) with (state oa pre (ops ++ [a]) rest 1).
      + replace (pre ++ os ++ ops ++ a :: ops') with (pre ++ os ++ (ops ++ [a]) ++ ops') by now rewrite <- !app_assoc.
        apply H; auto; [tauto| |cbn in Hsf; lia]. rewrite total_cons in Hf. lia.
      + unfold state, set_argvindex; cbn [xoptarg argv xoptind argvindex charindex].
        rewrite app_length; cbn [length]. rewrite <- app_assoc. cbn [app]. f_equal. lia. }
  destruct a as [|c0 a].
  { apply Hop; [intro H; inversion H|]. intros. cbn [search_argv]. rewrite aget_state. cbn [rbind].
    rewrite cget_0. cbn [rbind hd N.eqb]. reflexivity. }
  destruct (N.eq_dec c0 hyphen) as [->|Hc0].
  2:{ apply Hop; [intro H; inversion H; congruence|]. intros. cbn [search_argv]. rewrite aget_state. cbn [rbind].
      rewrite cget_0. cbn [rbind hd]. apply N.eqb_neq in Hc0. rewrite Hc0. reflexivity. }
  destruct a as [|c1 a].
  { apply Hop; [intro H; inversion H|]. intros. cbn [search_argv]. rewrite aget_state. cbn [rbind].
    change (cget [hyphen] 0) with (Ok hyphen). change (cget [hyphen] 1) with (Ok 0%N). cbn [rbind].
    reflexivity. }
  apply nonull_cons in Ha as [_ Ha].
  assert (Hstep : forall oa pre ops sf, search_argv (S sf) pc fl t (state oa pre ops ((hyphen :: c1 :: a) :: rest) 1) =
     if (c1 =? hyphen)%N then parse_long_option pc t (state oa pre ops ((hyphen :: c1 :: a) :: rest) 1)
     else if negb (fl_digit (if pc then mkF true false else fl)) || negb (iswdigit c1)
     then parse_short_option pc t (state oa pre ops ((hyphen :: c1 :: a) :: rest) 1)
     else if fl_posix (if pc then mkF true false else fl) then Ok (GDone, state oa pre ops ((hyphen :: c1 :: a) :: rest) 1)
       else search_argv sf pc fl t (set_argvindex (S (argvindex (state oa pre ops ((hyphen :: c1 :: a) :: rest) 1))) (state oa pre ops ((hyphen :: c1 :: a) :: rest) 1))).
  { intros. cbn [search_argv]. rewrite aget_state. cbn [rbind].
    change (cget (hyphen :: c1 :: a) 0) with (Ok hyphen). change (cget (hyphen :: c1 :: a) 1) with (Ok c1).
    cbn [rbind]. rewrite N.eqb_refl.
    assert (Hc1 : (c1 =? 0)%N = false) by (apply N.eqb_neq; apply nonull_cons in Ha; tauto).
    rewrite Hc1. cbn [negb]. reflexivity. }
  destruct (c1 =? hyphen)%N eqn:E1.
  { apply N.eqb_eq in E1. subst c1. apply nonull_cons in Ha as [_ Ha].
    destruct (long_goal a rest Ha Hargs) as (evs & os & ops' & fin & Hs & H).
    exists evs, os, ops', fin. split; [exact Hs|].
    intros oa pre ops fuel sf Hp Ho Hf Hsf. destruct sf as [|sf]; [lia|]. rewrite Hstep.
    apply H; auto. rewrite total_cons in Hf. cbn [length] in Hf. lia. }
  apply N.eqb_neq in E1.
  destruct (negb (fl_digit (if pc then mkF true false else fl)) || negb (iswdigit c1)) eqn:Ed.
  - pose proof (proj1 (digit_flag c1) Ed) as Ed'.
    destruct (cluster_goal (c1 :: a) [hyphen] rest) as (evs & os & ops' & fin & Hs & H); auto.
    { discriminate. }
    { exists c1, a. repeat split; auto. apply nonull_cons in Ha; tauto. }
    cbn [app] in Hs, H.
    exists evs, os, ops', fin. split; [apply ar_short; auto; now constructor|].
    intros oa pre ops fuel sf Hp Ho Hf Hsf. destruct sf as [|sf]; [lia|]. rewrite Hstep.
    apply H; auto.
  - apply Hop; [|assumption]. intro H. inversion H; subst; [|now apply E1].
    assert (negb (fl_digit (if pc then mkF true false else fl)) || negb (iswdigit c1) = true) by now apply digit_flag.
    congruence.
Qed.
End Loop.

(** * The grammar is deterministic *)
Lemma named_det : forall t name i o o', named t name i o -> named t name i o' -> o = o'.
Proof. intros t name i o o' [H1 _] [H2 _]. congruence. Qed.
Lemma abbr_det : forall t name i o o', abbreviates t name i o -> abbreviates t name i o' -> o = o'.
Proof. intros t name i o o' [H1 _] [H2 _]. congruence. Qed.

Lemma first_det : forall (P : nat -> xgetopt_T -> Prop) i j o o',
  P i o -> (forall k o', k < i -> ~ P k o') -> P j o' -> (forall k o', k < j -> ~ P k o') -> i = j.
Proof.
  intros P i j o o' H1 H2 H3 H4. destruct (Nat.lt_trichotomy i j) as [H|[H|H]]; [|assumption|].
  - now apply H4 in H1.
  - now apply H2 in H3.
Qed.

Lemma resolves_det : forall t name m m', resolves t name m -> resolves t name m' -> m = m'.
Proof.
  intros t name m m' H H'.
  destruct H as [i o Hn Hf Hu|i o Ha Hn Hu|i j o o' Hij Ha Ha' Hn|Hn Ha];
    destruct H' as [i' oi' Hn' Hf' Hu'|i' oi' Hb Hn' Hu'|i' j' oi' oj' Hij' Hb Hb' Hn'|Hn' Hb]; try reflexivity;
    try (exfalso; eapply Hn'; eassumption); try (exfalso; eapply Hn; eassumption);
    try (exfalso; eapply Hb; eassumption); try (exfalso; eapply Ha; eassumption).
  - assert (i = i') as <- by (eapply (first_det (named t name)); eassumption).
    now rewrite (named_det _ _ _ _ _ Hn Hn').
  - exfalso. destruct (Nat.lt_ge_cases i j') as [Hl|Hl].
    + eapply Hn'; eassumption.
    + destruct (Nat.eq_dec i j') as [->|Hne].
      * destruct Hn as [Hx Hy]. destruct Hb' as [Hx' (c & s & Hy')].
        assert (o = oj') as <- by congruence. rewrite Hy in Hy'. injection Hy' as Hy'.
        apply (f_equal (@length N)) in Hy'. rewrite app_length in Hy'. cbn in Hy'. lia.
      * assert (i' = j') by (eapply Hu; [| |eassumption|eassumption]; lia). lia.
  - pose proof (Hu' _ _ Ha). subst i'. f_equal. eapply abbr_det; eassumption.
  - exfalso. apply Hu in Hb, Hb'. lia.
  - exfalso. destruct (Nat.lt_ge_cases i' j) as [Hl|Hl].
    + eapply Hn; eassumption.
    + destruct (Nat.eq_dec i' j) as [->|Hne].
      * destruct Hn' as [Hx Hy]. destruct Ha' as [Hx' (c & s & Hy')].
        assert (oi' = o') as <- by congruence. rewrite Hy in Hy'. injection Hy' as Hy'.
        apply (f_equal (@length N)) in Hy'. rewrite app_length in Hy'. cbn in Hy'. lia.
      * assert (i = j) by (eapply Hu'; [| |eassumption|eassumption]; lia). lia.
  - exfalso. apply Hu' in Ha, Ha'. lia.
Qed.

Lemma selects_det : forall pc t c i o i' o', selects_short pc t c i o -> selects_short pc t c i' o' -> i = i' /\ o = o'.
Proof.
  intros pc t c i o i' o' (H1 & H2 & H3 & H4 & H5) (_ & H2' & H3' & H4' & H5').
  assert (i = i').
  { apply (first_det (fun j x => nth_error t j = Some x /\ shortopt x = c /\ available pc x) i i' o o'); auto.
    - intros k x Hk (Ha & Hb & Hc). now apply (H5 k x).
    - intros k x Hk (Ha & Hb & Hc). now apply (H5' k x). }
  subst i'. split; congruence.
Qed.
Lemma selects_no : forall pc t c i o, selects_short pc t c i o -> no_short pc t c -> False.
Proof.
  intros pc t c i o (H1 & H2 & H3 & H4 & H5) [H|H]; [contradiction|].
  apply (H o); auto. now apply nth_error_In in H2.
Qed.

Lemma long_text_det : forall b n v n' v', long_text b n v -> long_text b n' v' -> n = n' /\ v = v'.
Proof.
  assert (Hx : forall n v n' v', ~ In equals n -> ~ In equals n' -> n ++ equals :: v = n' ++ equals :: v' -> n = n' /\ v = v').
  { induction n as [|c n IH]; intros v [|c' n'] v' H H' E; cbn in E.
    - injection E as ->. auto.
    - injection E as <- _. exfalso. apply H'. now left.
    - injection E as -> _. exfalso. apply H. now left.
    - injection E as -> E. apply IH in E as [-> ->]; auto; intro; [apply H|apply H']; now right. }
  intros b n v n' v' H H'. destruct H as [n Hn|n w Hn]; inversion H' as [x Hx'|x w' Hx' Hx'']; subst.
  - auto.
  - exfalso. apply Hn, in_app_iff. right. now left.
  - exfalso. apply Hx', in_app_iff. right. now left.
  - symmetry in Hx''. apply Hx in Hx'' as [-> ->]; auto.
Qed.

Scheme args_mut := Induction for args Sort Prop
  with cluster_mut := Induction for cluster Sort Prop.

(** Two derivations for the same argument use the same name, value and entry. *)
Ltac same_text :=
  match goal with
  | H : long_text ?b ?n ?v, H' : long_text ?b ?n' ?v' |- _ =>
      let E1 := fresh "E" in let E2 := fresh "E" in
      destruct (long_text_det _ _ _ _ _ H H') as [E1 E2]; clear H';
      try discriminate E2; try injection E2 as E2; subst
  end.
Ltac same_entry :=
  match goal with
  | H : resolves ?t ?n ?m, H' : resolves ?t ?n ?m' |- _ =>
      let E := fresh "E" in
      pose proof (resolves_det _ _ _ _ H H') as E; clear H';
      try discriminate E; try (injection E as ? ?; subst)
  | H : selects_short ?pc ?t ?c ?i ?o, H' : selects_short ?pc ?t ?c ?i' ?o' |- _ =>
      let E1 := fresh "E" in let E2 := fresh "E" in
      destruct (selects_det _ _ _ _ _ _ _ H H') as [E1 E2]; clear H'; subst
  | H : selects_short ?pc ?t ?c ?i ?o, H' : no_short ?pc ?t ?c |- _ =>
      exfalso; exact (selects_no _ _ _ _ _ H H')
  end.
Ltac det_IH :=
  repeat match goal with
  | IH : forall evs' os' ops' fin', args ?pc ?fl ?t ?l evs' os' ops' fin' -> _, H : args ?pc ?fl ?t ?l _ _ _ _ |- _ =>
      apply IH in H as (? & ? & ? & ?); subst
  | IH : forall evs' os' ops' fin', cluster ?pc ?fl ?t ?a ?s ?l evs' os' ops' fin' -> _, H : cluster ?pc ?fl ?t ?a ?s ?l _ _ _ _ |- _ =>
      apply IH in H as (? & ? & ? & ?); subst
  end.
Ltac det_fin :=
  try congruence;
  try (exfalso; match goal with H : ~ looks_like_option _ _ |- _ => apply H; constructor; now auto end);
  try (exfalso; match goal with H : ~ looks_like_option _ _ |- _ => apply H; assumption end);
  try (exfalso; intuition congruence);
  repeat (first [same_text | same_entry]); det_IH;
  try (exfalso; intuition congruence); repeat split; congruence.

Lemma args_det : forall pc fl t l evs os ops fin, args pc fl t l evs os ops fin ->
  forall evs' os' ops' fin', args pc fl t l evs' os' ops' fin' ->
  evs = evs' /\ os = os' /\ ops = ops' /\ fin = fin'.
Proof.
  intros pc fl t.
  apply (args_mut pc fl t
    (fun l evs os ops fin _ => forall evs' os' ops' fin', args pc fl t l evs' os' ops' fin' ->
       evs = evs' /\ os = os' /\ ops = ops' /\ fin = fin')
    (fun a s l evs os ops fin _ => forall evs' os' ops' fin', cluster pc fl t a s l evs' os' ops' fin' ->
       evs = evs' /\ os = os' /\ ops = ops' /\ fin = fin')); intros; 
  match goal with
  | H : args _ _ _ _ ?e _ _ _ |- _ = ?e /\ _ => inversion H; subst; clear H; det_fin
  | H : cluster _ _ _ _ _ _ ?e _ _ _ |- _ = ?e /\ _ => inversion H; subst; clear H; det_fin
  end.
Qed.

(** * Consequences of the grammar *)
Lemma args_interleaving : forall pc fl t l evs os ops fin, args pc fl t l evs os ops fin ->
  interleaving os ops l.
Proof.
  assert (Hr : forall l : list (list N), interleaving [] l l) by (induction l; now constructor).
  intros pc fl t.
  apply (args_mut pc fl t
    (fun l evs os ops fin _ => interleaving os ops l)
    (fun a s l evs os ops fin _ => interleaving os ops (a :: l))); intros; auto;
  repeat (constructor; auto).
Qed.

Lemma interleaving_perm : forall A (a b l : list A), interleaving a b l -> Permutation l (a ++ b).
Proof.
  induction 1; cbn; auto.
  apply Permutation_cons_app. assumption.
Qed.

Lemma args_posix : forall pc fl t l evs os ops fin, args pc fl t l evs os ops fin ->
  pc = true \/ fl_posix fl = true -> l = os ++ ops.
Proof.
  intros pc fl t.
  apply (args_mut pc fl t
    (fun l evs os ops fin _ => pc = true \/ fl_posix fl = true -> l = os ++ ops)
    (fun a s l evs os ops fin _ => pc = true \/ fl_posix fl = true -> a :: l = os ++ ops)); intros; auto;
  try (cbn; f_equal; now auto); try (cbn; do 2 f_equal; now auto).
  exfalso. destruct H0; congruence.
Qed.

(** How the operands end: with the arguments, at the first operand in POSIX
    parsing, or after "--". *)
Lemma args_operands : forall pc fl t l evs os ops fin, args pc fl t l evs os ops fin ->
  fin = EndDone ->
  (Forall (fun a => ~ looks_like_option (negb pc && fl_digit fl) a) ops) \/
  ((pc = true \/ fl_posix fl = true) /\ exists a l', ops = a :: l' /\ ~ looks_like_option (negb pc && fl_digit fl) a) \/
  (exists l1 os1 ops1 l2, l = l1 ++ [hyphen; hyphen] :: l2 /\ os = os1 ++ [[hyphen; hyphen]] /\ ops = ops1 ++ l2 /\
     interleaving os1 ops1 l1 /\
     Forall (fun a => ~ looks_like_option (negb pc && fl_digit fl) a) ops1).
Proof.
  intros pc fl t.
  set (P := fun (l os ops : list (list N)) =>
    (Forall (fun a => ~ looks_like_option (negb pc && fl_digit fl) a) ops) \/
  ((pc = true \/ fl_posix fl = true) /\ exists a l', ops = a :: l' /\ ~ looks_like_option (negb pc && fl_digit fl) a) \/
  (exists l1 os1 ops1 l2, l = l1 ++ [hyphen; hyphen] :: l2 /\ os = os1 ++ [[hyphen; hyphen]] /\ ops = ops1 ++ l2 /\
     interleaving os1 ops1 l1 /\
     Forall (fun a => ~ looks_like_option (negb pc && fl_digit fl) a) ops1)).
  assert (Hone : forall a l os ops, P l os ops -> P (a :: l) (a :: os) ops).
  { intros a l os ops [H|[H|(l1 & os1 & ops1 & l2 & -> & -> & -> & H1 & H2)]]; [now left|right; now left|].
    right. right. exists (a :: l1), (a :: os1), ops1, l2. repeat split; auto. now constructor. }
  apply (args_mut pc fl t
    (fun l evs os ops fin _ => fin = EndDone -> P l os ops)
    (fun a s l evs os ops fin _ => fin = EndDone -> P (a :: l) os ops)); intros; auto; try discriminate.
  - left. constructor.
  - right. right. exists [], [], [], l. repeat split; auto; constructor.
  - right. left. split; [assumption|]. now exists a, l.
  - specialize (H H0). destruct H as [H|[[H _]|(l1 & os1 & ops1 & l2 & -> & -> & -> & H1 & H2)]].
    + left. now constructor.
    + exfalso. destruct H; congruence.
    + right. right. exists (a :: l1), os1, (a :: ops1), l2. repeat split; auto; now constructor.
Qed.

(** * Well-ordered tables *)
Inductive subseq {A} : list A -> list A -> Prop :=
  | ss_nil : forall l, subseq [] l
  | ss_take : forall x a l, subseq a l -> subseq (x :: a) (x :: l)
  | ss_skip : forall x a l, subseq a l -> subseq a (x :: l).

Lemma subseq_trans : forall A (b c : list A), subseq b c -> forall a, subseq a b -> subseq a c.
Proof.
  induction 1; intros a' H'.
  - inversion H'; constructor.
  - inversion H'; subst; constructor; auto.
  - constructor; auto.
Qed.
Lemma subseq_In : forall A (a b : list A) x, subseq a b -> In x a -> In x b.
Proof. induction 1; cbn; intros; tauto. Qed.

Lemma subseq_nth : forall A (l : list A) i x, nth_error l i = Some x -> subseq [x] l.
Proof.
  induction l as [|y l IH]; intros [|i] x H; cbn in H; try discriminate.
  - injection H as ->. repeat constructor.
  - constructor. eauto.
Qed.
Lemma subseq_nth2 : forall A (l : list A) i j x y, i < j -> nth_error l i = Some x -> nth_error l j = Some y -> subseq [x; y] l.
Proof.
  induction l as [|z l IH]; intros [|i] [|j] x y Hij Hx Hy; cbn in *; try discriminate; try lia.
  - injection Hx as ->. constructor. eapply subseq_nth; eauto.
  - constructor. apply (IH i j); auto. lia.
Qed.
Lemma subseq_nth3 : forall A (l : list A) i j k x y z, i < j -> j < k ->
  nth_error l i = Some x -> nth_error l j = Some y -> nth_error l k = Some z -> subseq [x; y; z] l.
Proof.
  induction l as [|w l IH]; intros [|i] [|j] [|k] x y z Hij Hjk Hx Hy Hz; cbn in *; try discriminate; try lia.
  - injection Hx as ->. constructor. apply (subseq_nth2 _ _ j k); auto. lia.
  - constructor. apply (IH i j k); auto; lia.
Qed.

Definition extends (name : list N) (o : xgetopt_T) : bool :=
  match longopt o with
  | Some l => wcsncmp_eq l name (length name) && negb (length l =? length name)
  | None => false
  end.
Lemma extends_abbr : forall name o c s, longopt o = Some (name ++ c :: s) -> extends name o = true.
Proof.
  intros name o c s H. unfold extends. rewrite H. apply andb_true_iff. split.
  - rewrite <- (app_nil_r name) at 2. apply wcsncmp_eq_spec. now exists (c :: s).
  - rewrite app_length. cbn. destruct (_ =? _) eqn:E; [apply Nat.eqb_eq in E; lia|reflexivity].
Qed.

(** [before] are the entries already passed. *)
Fixpoint check_ordered (before t : list xgetopt_T) : bool :=
  match t with
  | [] => true
  | o :: t' =>
      match longopt o with
      | Some l => length (filter (extends l) before) <=? 1
      | None => true
      end && check_ordered (before ++ [o]) t'
  end.

Lemma subseq_filter : forall A (f : A -> bool) (a l : list A), subseq a l -> subseq (filter f a) (filter f l).
Proof.
  induction 1; cbn.
  - constructor.
  - destruct (f x); [now constructor|assumption].
  - destruct (f x); [now constructor|assumption].
Qed.
Lemma subseq_length : forall A (a l : list A), subseq a l -> length a <= length l.
Proof. induction 1; cbn; lia. Qed.

Lemma check_ordered_nth : forall t before, check_ordered before t = true ->
  forall i o l, nth_error t i = Some o -> longopt o = Some l ->
  length (filter (extends l) (before ++ firstn i t)) <= 1.
Proof.
  induction t as [|o t IH]; intros before H i x l Hi Hl; [destruct i; discriminate|].
  cbn [check_ordered] in H. apply andb_true_iff in H as [H1 H2].
  destruct i as [|i]; cbn in Hi |- *.
  - injection Hi as ->. rewrite Hl in H1. apply Nat.leb_le in H1. now rewrite app_nil_r.
  - specialize (IH _ H2 i x l Hi Hl). now rewrite <- app_assoc in IH.
Qed.

Lemma nth_error_firstn : forall A (l : list A) n i x, i < n -> nth_error l i = Some x -> nth_error (firstn n l) i = Some x.
Proof.
  induction l as [|y l IH]; intros [|n] [|i] x Hi H; cbn in *; try discriminate; try lia; auto.
  apply IH; auto. lia.
Qed.

Definition no_late_name (t : list xgetopt_T) : Prop :=
  forall x y z name, subseq [x; y; z] t -> longopt z = Some name ->
    extends name x = true -> extends name y = true -> False.

Lemma subseq_app_l : forall A (a l r : list A), subseq a l -> subseq a (l ++ r).
Proof. induction 1; cbn; now constructor. Qed.
Lemma subseq_snoc : forall A (a l : list A) x, subseq a l -> subseq (a ++ [x]) (l ++ [x]).
Proof.
  intros A a l x H. induction H as [b| |]; cbn; [|now constructor|now constructor].
  induction b; cbn; constructor; [constructor|assumption].
Qed.

Lemma check_ordered_sound : forall t, check_ordered [] t = true -> no_late_name t.
Proof.
  assert (Hgen : forall t before, check_ordered before t = true ->
    (forall x y z name, subseq [x; y] before -> subseq [z] t -> longopt z = Some name -> extends name x = true -> extends name y = true -> False) /\
    (forall x y z name, subseq [x] before -> subseq [y; z] t -> longopt z = Some name -> extends name x = true -> extends name y = true -> False) /\
    (forall x y z name, subseq [x; y; z] t -> longopt z = Some name -> extends name x = true -> extends name y = true -> False)).
  { induction t as [|o t IH]; intros before H; cbn [check_ordered] in H.
    - repeat split; intros; match goal with H : subseq _ [] |- _ => inversion H end.
    - apply andb_true_iff in H as [H1 H2]. destruct (IH _ H2) as (I1 & I2 & I3).
      pose proof (fun l => subseq_app_l _ l before [o]) as Hkeep.
      pose proof (fun l => subseq_snoc _ l before o) as Hadd.
      repeat split; intros x y z name S.
      + intros S2 Hz Ex Ey. inversion S2; subst.
        * rewrite Hz in H1. apply Nat.leb_le in H1. apply (subseq_filter _ (extends name)) in S. cbn in S.
          rewrite Ex, Ey in S. apply subseq_length in S. cbn in S. lia.
        * eapply (I1 x y z); eauto.
      + intros S2 Hz Ex Ey. inversion S2; subst.
        * apply (I1 x o z name); auto. apply (Hadd [x]); auto.
        * apply (I2 x y z name); auto.
      + intros Hz Ex Ey. inversion S; subst.
        * apply (I2 o y z name); auto. apply (Hadd []). constructor.
        * apply (I3 x y z name); auto. }
  intros t H. exact (proj2 (proj2 (Hgen t [] H))).
Qed.

Lemma no_late_name_sub : forall t t', subseq t' t -> no_late_name t -> no_late_name t'.
Proof. intros t t' Hs H x y z name Hx. apply H. now apply (subseq_trans _ t'). Qed.

Lemma no_late_name_ordered : forall t, no_late_name t -> well_ordered t.
Proof.
  intros t H name i o j o' k o'' [Hi Hl] Hj Hk [Hj' (c & s & Hc)] [Hk' (d & u & Hd)].
  destruct (Nat.lt_trichotomy j k) as [Hjk|[->|Hjk]]; [|reflexivity|]; exfalso.
  - apply (H o' o'' o name); auto.
    + now apply (subseq_nth3 _ t j k i).
    + now apply extends_abbr in Hc.
    + now apply extends_abbr in Hd.
  - apply (H o'' o' o name); auto.
    + now apply (subseq_nth3 _ t k j i).
    + now apply extends_abbr in Hd.
    + now apply extends_abbr in Hc.
Qed.

Lemma well_ordered_ideal : forall t name m, well_ordered t -> resolves t name m -> resolves_ideal t name m.
Proof.
  intros t name m Hw H. destruct H as [i o Hn Hf Hu|i o Ha Hn Hu|i j o o' Hij Ha Ha' Hn|Hn Ha].
  - now apply ri_exact.
  - now apply ri_unique.
  - apply ri_ambiguous with (i := i) (j := j) (o := o) (o' := o'); auto; [lia|].
    intros k ok Hk.
    destruct (Nat.lt_ge_cases k j) as [Hl|Hl]; [eapply Hn; eauto|].
    destruct (Nat.eq_dec k j) as [->|Hne].
    + destruct Hk as [Hx Hy]. destruct Ha' as [Hx' (c & s & Hy')].
      assert (ok = o') as <- by congruence. rewrite Hy in Hy'. injection Hy' as Hy'.
      apply (f_equal (@length N)) in Hy'. rewrite app_length in Hy'. cbn in Hy'. lia.
    + assert (i = j) by (eapply (Hw name k ok i o j o'); eauto; lia). lia.
  - now apply ri_none.
Qed.
