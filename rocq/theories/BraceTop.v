(** Brace expansion of a whole word: unmatched braces, and every word has a reading. *)
From Coq Require Import Ascii String.
From Coq Require Import List NArith ZArith Bool Arith Lia.
From Coq Require Import ZifyBool ZifyN.
From Verif Require Import Common Locale NumModel CharcatModel BraceModel BraceSpec BraceNum BraceSeq BraceProofs.
Import ListNotations.
Open Scope res_scope.

(** ** Chains of delimiters that an unmatched brace leaves in the graph, last one first *)
Fixpoint linkr (g : graph_T) (c : list nat) : graph_T :=
  match c with
  | m :: (n :: _) as r => upd (linkr g r) n (Some m)
  | _ => g
  end.
Fixpoint links (g : graph_T) (cs : list (list nat)) : graph_T :=
  match cs with [] => g | c :: cs' => linkr (links g cs') c end.
Definition stk (cs : list (list nat)) : list nat := flat_map (fun c => [hd 0 c; last c 0]) cs.
Definition ok_chains (g : graph_T) (cs : list (list nat)) : Prop :=
  Forall (fun c => c <> []) cs /\ NoDup (concat cs) /\ Forall (fun n => nth_error g n = Some None) (concat cs).

Lemma linkr_len c g : length (linkr g c) = length g.
Proof. induction c as [|m [|n r] IH]; [reflexivity..|]. cbn [linkr]. rewrite length_upd. apply IH. Qed.
Lemma links_len cs g : length (links g cs) = length g.
Proof. induction cs as [|c cs IH]; [reflexivity|]. cbn. now rewrite linkr_len. Qed.
Lemma linkr_other c g n : ~ In n c -> nth_error (linkr g c) n = nth_error g n.
Proof.
  induction c as [|m [|k r] IH]; intros H; [reflexivity..|]. cbn [linkr].
  rewrite nth_error_upd_neq. { apply IH. cbn in *. tauto. } intros ->. apply H. cbn. tauto.
Qed.
Lemma links_other cs g n : ~ In n (concat cs) -> nth_error (links g cs) n = nth_error g n.
Proof.
  induction cs as [|c cs IH]; intros H; [reflexivity|]. cbn [links concat] in *. rewrite in_app_iff in H.
  rewrite linkr_other by tauto. apply IH. tauto.
Qed.
Lemma linkr_app c g h : Forall (fun n => n < length g) (tl c) -> linkr (g ++ h) c = linkr g c ++ h.
Proof.
  induction c as [|m [|k r] IH]; intros H; [reflexivity..|]. cbn [tl] in H. inversion H; subst.
  change (linkr (g ++ h) (m :: k :: r)) with (upd (linkr (g ++ h) (k :: r)) k (Some m)).
  change (linkr g (m :: k :: r)) with (upd (linkr g (k :: r)) k (Some m)).
  rewrite IH by (cbn [tl]; auto). apply upd_app1. now rewrite linkr_len.
Qed.
Lemma links_app cs g h : Forall (fun n => n < length g) (concat cs) -> links (g ++ h) cs = links g cs ++ h.
Proof.
  induction cs as [|c cs IH]; intros H; [reflexivity|]. cbn [links concat] in *. apply Forall_app in H as [H1 H2].
  rewrite IH by auto. apply linkr_app. rewrite links_len. destruct c; [constructor|]. now inversion H1.
Qed.

Lemma linkr_snoc x : forall g n1 n0, ~ In n0 (x ++ [n1]) ->
  linkr g (x ++ [n1; n0]) = upd (linkr g (x ++ [n1])) n0 (Some n1).
Proof.
  induction x as [|a x IH]; intros g n1 n0 H; [reflexivity|].
  cbn [app] in *. assert (H' : ~ In n0 (x ++ [n1])) by (cbn in H; tauto).
  specialize (IH g n1 n0 H'). destruct x as [|b x]; cbn [app] in *.
  - cbn [linkr] in *. rewrite upd_comm; [reflexivity|]. cbn in H. intuition.
  - change (linkr g (a :: b :: x ++ [n1; n0])) with (upd (linkr g (b :: x ++ [n1; n0])) b (Some a)).
    change (linkr g (a :: b :: x ++ [n1])) with (upd (linkr g (b :: x ++ [n1])) b (Some a)).
    rewrite IH. apply upd_comm. cbn in H. intuition.
Qed.
Lemma unchain_ok x : forall g n0 fuel, NoDup (x ++ [n0]) -> Forall (fun n => nth_error g n = Some None) (x ++ [n0]) ->
  length x < fuel -> unchain fuel (linkr g (x ++ [n0])) n0 = Ok g.
Proof.
  induction x as [|n1 x IH] using rev_ind; intros g n0 [|fuel] Hn Hg Hf; try lia; cbn [unchain].
  - cbn [app linkr]. inversion Hg as [|? ? Hg1 _]; subst. now rewrite (rget_Ok _ _ _ _ Hg1).
  - rewrite <- app_assoc in *. cbn [app] in *. rewrite app_length in Hf. cbn in Hf.
    assert (Hni : ~ In n0 (x ++ [n1]) /\ NoDup (x ++ [n1])).
    { change [n1; n0] with ([n1] ++ [n0]) in Hn. rewrite app_assoc in Hn. apply NoDup_remove in Hn. rewrite app_nil_r in Hn. tauto. }
    destruct Hni as [Hni Hnd]. rewrite linkr_snoc by auto.
    change [n1; n0] with ([n1] ++ [n0]) in Hg. rewrite app_assoc in Hg. apply Forall_app in Hg as [Hg1 Hg0]. inversion Hg0 as [|? ? Hg2 _]; subst.
    assert (Hl : n0 < length (linkr g (x ++ [n1]))). { rewrite linkr_len. apply nth_error_Some. congruence. }
    rewrite (rget_Ok _ _ _ (Some n1)) by now apply nth_error_upd_eq. cbn [rbind]. rewrite rset_Ok by now rewrite length_upd.
    cbn [rbind]. rewrite upd_upd, upd_same. { apply IH; auto. lia. } now rewrite linkr_other.
Qed.
Lemma chain_snoc (c : list nat) : c <> [] -> c = removelast c ++ [last c 0].
Proof. apply app_removelast_last. Qed.
Lemma NoDup_app1 {A} (a b : list A) : NoDup (a ++ b) -> NoDup a /\ NoDup b /\ (forall x, In x a -> ~ In x b).
Proof.
  induction a as [|x a IH]; cbn [app]; intros H.
  - split; [constructor|]. split; [auto|intros x []].
  - inversion H as [|? ? H1 H2]; subst. apply IH in H2 as (H2 & H3 & H4). rewrite in_app_iff in H1. repeat split; auto.
    + constructor; tauto.
    + intros y [->|Hy]; [tauto|auto].
Qed.
Lemma cleanup_ok cs : forall g, ok_chains g cs -> cleanup (links g cs) (stk cs) = Ok g.
Proof.
  induction cs as [|c cs IH]; intros g (H1 & H2 & H3); [reflexivity|]. cbn [concat] in *.
  inversion H1 as [|? ? Hc H1']; subst. apply NoDup_app1 in H2 as (N1 & N2 & N3). apply Forall_app in H3 as [F1 F2].
  cbn [links stk flat_map app cleanup]. fold (stk cs). rewrite linkr_len, links_len. rewrite (chain_snoc c Hc) at 1.
  rewrite unchain_ok.
  - cbn [rbind]. apply IH. repeat split; auto.
  - rewrite <- chain_snoc; auto.
  - rewrite <- chain_snoc by auto. apply Forall_forall. intros n Hin. rewrite links_other by auto. rewrite Forall_forall in F1. auto.
  - assert (Hlt : forall n, In n c -> n < length g).
    { intros n Hin. apply nth_error_Some. rewrite Forall_forall in F1. rewrite F1 by auto. discriminate. }
    assert (length c <= length g).
    { rewrite <- (seq_length (length g) 0). apply NoDup_incl_length; auto. intros n Hin. apply in_seq. specialize (Hlt _ Hin). lia. }
    pose proof (f_equal (@length nat) (chain_snoc c Hc)) as E. rewrite app_length in E. cbn in E. lia.
Qed.

Lemma ok_lt g cs : ok_chains g cs -> Forall (fun n => n < length g) (concat cs).
Proof.
  intros (_ & _ & H). eapply Forall_impl; [|exact H]. intros n Hn. apply nth_error_Some. rewrite Hn. discriminate.
Qed.
Lemma ok_extend g h cs : ok_chains g cs -> ok_chains (g ++ h) cs.
Proof.
  intros (H1 & H2 & H3). repeat split; auto. eapply Forall_impl; [|exact H3]. intros n Hn.
  rewrite nth_error_app1; auto. apply nth_error_Some. rewrite Hn. discriminate.
Qed.

Section Word.
Variable L : locale.
Hypothesis HL : locale_ok L.
Variable word : list cell.
Notation E_list := (expansions (seqf L)).

Definition top_scans (l : list item) (o : nat) (g : graph_T) : Prop :=
  forall pre gc cs p, word = pre ++ unparse l -> length pre = o -> length gc = o -> ok_chains gc cs ->
    (In (IChar closeb) l -> cs = []) ->
    exists cs', scan word (unparse l) o (links gc cs) (stk cs) p = Ok (links (gc ++ g) cs', stk cs', p || groups l) /\
      ok_chains (gc ++ g) cs'.

Lemma top_char x l o g : length g = length (unparse l) ->
  (forall pre gc cs p, word = pre ++ x :: unparse l -> length pre = o -> length gc = o -> ok_chains gc cs ->
    (In (IChar closeb) (IChar x :: l) -> cs = []) ->
    exists cs1, scan word (x :: unparse l) o (links gc cs) (stk cs) p = scan word (unparse l) (S o) (links (gc ++ [None]) cs1) (stk cs1) p /\
      ok_chains (gc ++ [None]) cs1 /\ (In (IChar closeb) l -> cs1 = [])) ->
  top_scans l (S o) g -> top_scans (IChar x :: l) o (None :: g).
Proof.
  intros Hlen Hx Ht pre gc cs p Hw Hp Hg Hok Hcl. change (unparse (IChar x :: l)) with (x :: unparse l) in *.
  destruct (Hx pre gc cs p Hw Hp Hg Hok Hcl) as (cs1 & -> & Hok1 & Hcl1).
  destruct (Ht (pre ++ [x]) (gc ++ [None]) cs1 p) as (cs' & E & Hok'); auto.
  - now rewrite Hw, <- app_assoc.
  - rewrite app_length. cbn. lia.
  - rewrite app_length. cbn. lia.
  - exists cs'. rewrite <- app_assoc in E, Hok'. cbn [app] in E, Hok'. split; auto.
Qed.

Lemma top_ok l : wf_word l -> forall o, exists g, length g = length (unparse l) /\ top_scans l o g /\ gens L word (unparse l) o g (E_list l).
Proof.
  assert (Char : forall x l, (forall o, exists g, length g = length (unparse l) /\ top_scans l o g /\ gens L word (unparse l) o g (E_list l)) ->
    (forall o pre gc cs p, word = pre ++ x :: unparse l -> length pre = o -> length gc = o -> ok_chains gc cs ->
      (In (IChar closeb) (IChar x :: l) -> cs = []) ->
      exists cs1, scan word (x :: unparse l) o (links gc cs) (stk cs) p = scan word (unparse l) (S o) (links (gc ++ [None]) cs1) (stk cs1) p /\
        ok_chains (gc ++ [None]) cs1 /\ (In (IChar closeb) l -> cs1 = [])) ->
    forall o, exists g, length g = length (unparse (IChar x :: l)) /\ top_scans (IChar x :: l) o g /\
      gens L word (unparse (IChar x :: l)) o g (E_list (IChar x :: l))).
  { intros x l0 IH Hx o. destruct (IH (S o)) as (g & Lg & Sg & Gg). exists (None :: g).
    change (unparse (IChar x :: l0)) with ([x] ++ unparse l0). split; [cbn [app length]; lia|]. split.
    - apply top_char; [lia|apply Hx|exact Sg].
    - change (None :: g) with ([None] ++ g). unfold expansions. cbn [map product expansions_item]. fold (E_list l0).
      apply gens_app; [reflexivity|apply gens_char|]. cbn [length]. now replace (o + 1) with (S o) by lia. }
  induction 1 as [|i l Hi _ IH|l _ IH|l _ IH|l _ IH Hno].
  - intros o. exists []. split; [reflexivity|]. split.
    + intros pre gc cs p Hw Hp Hg Hok Hcl. exists cs. rewrite app_nil_r, orb_false_r. split; [reflexivity|auto].
    + intros pre post gpre gpost graph f Hw Hp Hg Hgr K fuel buf Hf. cbn. rewrite !app_nil_r. cbn [length] in K. rewrite Nat.add_0_r in K. auto.
  - intros o. destruct (all_items_ok L HL word i Hi o) as (g1 & L1 & S1 & G1). destruct (IH (o + length g1)) as (g2 & L2 & S2 & G2).
    exists (g1 ++ g2). unfold unparse, expansions. cbn [map concat product]. fold (unparse l) (E_list l).
    split; [rewrite !app_length; lia|]. split; [|now apply gens_app].
    intros pre gc cs p Hw Hp Hg Hok Hcl. change (unparse (i :: l)) with (unparse_item i ++ unparse l) in *.
    rewrite (S1 pre (unparse l)) by (auto; now rewrite links_len). rewrite <- links_app by now apply ok_lt.
    destruct (S2 (pre ++ unparse_item i) (gc ++ g1) cs (p || is_group i)) as (cs' & E & Hok').
    + now rewrite Hw, app_assoc.
    + rewrite app_length. lia.
    + rewrite app_length. lia.
    + now apply ok_extend.
    + intros Hin. apply Hcl. now right.
    + exists cs'. rewrite E. rewrite <- app_assoc in *. cbn [groups existsb]. rewrite <- orb_assoc. auto.
  - (* a comma *) apply Char; auto. intros o pre gc cs p Hw Hp Hg Hok Hcl. destruct cs as [|[|n c] cs].
    + exists []. cbn [stk flat_map links]. rewrite scan_comma_nil. split; [reflexivity|]. split; [now apply ok_extend|auto].
    + destruct Hok as (H1 & _). inversion H1. congruence.
    + exists ((o :: n :: c) :: cs). cbn [stk flat_map hd app]. fold (stk cs).
      pose proof (ok_lt _ _ Hok) as Hlt. cbn [concat] in Hlt. apply Forall_app in Hlt as [Hlt1 Hlt2].
      assert (Hn : n < length gc) by now inversion Hlt1.
      rewrite scan_comma. 2:{ cbn [links]. now rewrite linkr_len, links_len. }
      split; [|split].
      * cbn [links]. change (last (o :: n :: c) 0) with (last (n :: c) 0).
        change (linkr (links (gc ++ [None]) cs) (o :: n :: c)) with (upd (linkr (links (gc ++ [None]) cs) (n :: c)) n (Some o)).
        rewrite links_app by auto. rewrite linkr_app. 2:{ rewrite links_len. cbn [tl]. now inversion Hlt1. }
        rewrite upd_app1; [reflexivity|]. now rewrite linkr_len, links_len.
      * destruct Hok as (H1 & H2 & H3). split; [|split].
        -- inversion H1; subst. constructor; [discriminate|auto].
        -- cbn [concat app] in *. constructor; auto. intros Hin.
           assert (Hx : o < length gc).
           { change (In o (concat ((n :: c) :: cs))) in Hin. rewrite Forall_forall in H3. apply H3 in Hin. apply nth_error_Some. rewrite Hin. discriminate. }
           lia.
        -- cbn [concat app] in *. constructor.
           ++ rewrite nth_error_app2 by lia. now rewrite Hg, Nat.sub_diag.
           ++ change (n :: c ++ concat cs) with (concat ((n :: c) :: cs)). eapply Forall_impl; [|exact H3]. intros k Hk.
              rewrite nth_error_app1; auto. apply nth_error_Some. rewrite Hk. discriminate.
      * intros Hin. exfalso. assert ((n :: c) :: cs = []) by (apply Hcl; now right). discriminate.
  - (* an unmatched closing brace *) apply Char; auto. intros o pre gc cs p Hw Hp Hg Hok Hcl.
    assert (cs = []) as -> by (apply Hcl; now left). exists []. cbn [stk flat_map links]. rewrite scan_close_nil.
    split; [reflexivity|]. split; [now apply ok_extend|auto].
  - (* an unmatched opening brace *) apply Char; auto. intros o pre gc cs p Hw Hp Hg Hok Hcl. exists ([o] :: cs).
    cbn [stk flat_map hd last app]. fold (stk cs). rewrite scan_open. split; [|split].
    + cbn [links linkr]. rewrite links_app by now apply ok_lt. reflexivity.
    + destruct Hok as (H1 & H2 & H3). split; [constructor; [discriminate|auto]|]. cbn [concat app]. split.
      * constructor; auto. intros Hin. rewrite Forall_forall in H3. apply H3 in Hin.
        assert (o < length gc) by (apply nth_error_Some; rewrite Hin; discriminate). lia.
      * constructor; [rewrite nth_error_app2 by lia; now rewrite Hg, Nat.sub_diag|].
        eapply Forall_impl; [|exact H3]. intros k Hk. rewrite nth_error_app1; auto. apply nth_error_Some. rewrite Hk. discriminate.
    + intros Hin. contradiction.
Qed.
End Word.

(** ** The whole word *)
Lemma no_groups f l : groups l = false -> expansions f l = [unparse l].
Proof.
  induction l as [|[x|segs] l IH]; intros H; [reflexivity| |discriminate].
  unfold expansions. cbn [map product expansions_item flat_map]. fold (expansions f l). rewrite IH by exact H. reflexivity.
Qed.
Lemma after_app c u v : exists w, after c (u ++ c :: v) = Some (w ++ v).
Proof.
  induction u as [|x u (w & IH)]; cbn [app after].
  - rewrite N.eqb_refl. exists []. reflexivity.
  - destruct (x =? c)%N eqn:E; [|eauto]. exists (u ++ [c]). now rewrite <- app_assoc.
Qed.
Lemma groups_braces l : groups l = true -> maybe_braces (unparse l) = true.
Proof.
  intros H. apply existsb_exists in H as (i & Hi & Hg). destruct i as [|segs]; [discriminate|].
  apply in_split in Hi as (l1 & l2 & ->). unfold maybe_braces.
  assert (E : text (unparse (l1 ++ IGroup segs :: l2)) =
    text (unparse l1) ++ 123%N :: text (sep (map (fun s => concat (map unparse_item s)) segs)) ++ 125%N :: text (unparse l2)).
  { unfold unparse. rewrite map_app, concat_app. cbn [map concat unparse_item]. rewrite text_app. f_equal. cbn [text map app]. f_equal.
    rewrite <- app_assoc. cbn [app]. rewrite text_app. reflexivity. }
  rewrite E. destruct (after_app 123 (text (unparse l1)) (text (sep (map (fun s => concat (map unparse_item s)) segs)) ++ 125%N :: text (unparse l2))) as (w & Ew).
  unfold lbrace. rewrite Ew. rewrite app_assoc. destruct (after_app 125 (w ++ text (sep (map (fun s => concat (map unparse_item s)) segs))) (text (unparse l2))) as (w' & Ew').
  unfold rbrace. now rewrite Ew'.
Qed.

Lemma expand_brace_ok L l : locale_ok L -> wf_word l -> expand_brace L (unparse l) = Ok (expansions (seqf L) l).
Proof.
  intros HL Hl. unfold expand_brace. destruct (groups l) eqn:Eg.
  - rewrite groups_braces by auto. cbn [negb].
    destruct (top_ok L HL (unparse l) l Hl 0) as (g & Lg & Sg & Gg).
    destruct (Sg [] [] [] false) as (cs & E & Hok); auto.
    { repeat split; constructor. }
    cbn [links stk flat_map] in E. rewrite E. cbn [rbind app orb] in *. rewrite Eg. cbn [negb].
    rewrite cleanup_ok by auto. cbn [rbind].
    rewrite (Gg [] [] [] [] g (fun b => [b])); auto.
    + cbn [app]. f_equal. remember (expansions (seqf L) l) as E'. clear.
      induction E' as [|a E' IH]; [reflexivity|]. cbn [flat_map app]. f_equal. exact IH.
    + now rewrite app_nil_r.
    + now rewrite app_nil_r.
    + intros [|fuel] buf Hf; [lia|]. cbn [generate plus]. rewrite Lg.
      rewrite (proj2 (nth_error_None _ _)) by lia. now rewrite Nat.eqb_refl.
    + lia.
  - rewrite no_groups by auto. destruct (maybe_braces (unparse l)); [|reflexivity]. cbn [negb].
    destruct (top_ok L HL (unparse l) l Hl 0) as (g & Lg & Sg & Gg).
    destruct (Sg [] [] [] false) as (cs & E & Hok); auto.
    { repeat split; constructor. }
    cbn [links stk flat_map] in E. rewrite E. cbn [rbind app orb]. rewrite Eg. reflexivity.
Qed.

(** ** Every word has a reading *)
Lemma split_commas l : Forall (fun i => wf_item i \/ i = IChar commab) l ->
  exists segs, segs <> [] /\ Forall (Forall wf_item) segs /\ unparse l = sep (map unparse segs).
Proof.
  induction 1 as [|i l Hi _ (segs & Hn & HF & E)].
  - exists [[]]. split; [discriminate|]. split; [repeat constructor|reflexivity].
  - destruct segs as [|s segs]; [congruence|]. inversion HF; subst.
    unfold unparse at 1. cbn [map concat]. fold (unparse l). rewrite E. destruct Hi as [Hi| ->].
    + exists ((i :: s) :: segs). split; [discriminate|]. split; [constructor; [constructor|]; auto|].
      cbn [map]. unfold unparse at 3. cbn [map concat]. fold (unparse s). destruct (map unparse segs) as [|t ts]; cbn [sep]; [reflexivity|].
      now rewrite <- app_assoc.
    + exists ([] :: s :: segs). split; [discriminate|]. split; [constructor; [constructor|]; auto|]. reflexivity.
Qed.
Lemma first_close l : wf_word l -> ~ In (IChar closeb) l \/
  exists l1 l2, l = l1 ++ IChar closeb :: l2 /\ Forall (fun i => wf_item i \/ i = IChar commab) l1 /\ wf_word l2.
Proof.
  induction 1 as [|i l Hi Hl IH|l Hl IH|l Hl IH|l Hl IH Hno].
  - left. intros [].
  - destruct IH as [IH|(l1 & l2 & -> & F & W)].
    + left. intros [->|H]; [|auto]. inversion Hi. congruence.
    + right. exists (i :: l1), l2. repeat split; auto.
  - destruct IH as [IH|(l1 & l2 & -> & F & W)].
    + left. intros [H|H]; [discriminate|auto].
    + right. exists (IChar commab :: l1), l2. repeat split; auto.
  - right. exists [], l. repeat split; auto.
  - left. intros [H|H]; [discriminate|auto].
Qed.
Lemma cell_eq_dec (x y : cell) : {x = y} + {x <> y}.
Proof. decide equality; [decide equality; try apply bool_dec; decide equality|apply N.eq_dec]. Qed.
Lemma reading w : exists l, wf_word l /\ unparse l = w.
Proof.
  induction w as [|x w (l & Hl & <-)]; [exists []; split; [constructor|reflexivity]|].
  destruct (cell_eq_dec x openb) as [->|H1].
  - destruct (first_close l Hl) as [Hno|(l1 & l2 & -> & F & W)].
    + exists (IChar openb :: l). split; [now apply ww_open|reflexivity].
    + destruct (split_commas l1 F) as (segs & Hn & HF & E). exists (IGroup segs :: l2). split; [apply ww_item; auto; now constructor|].
      unfold unparse. rewrite map_app, concat_app. cbn [map concat unparse_item app]. f_equal. rewrite <- app_assoc. f_equal.
      change (fun s => concat (map unparse_item s)) with unparse. now rewrite <- E.
  - destruct (cell_eq_dec x closeb) as [->|H2]; [exists (IChar closeb :: l); split; [now apply ww_close|reflexivity]|].
    destruct (cell_eq_dec x commab) as [->|H3]; [exists (IChar commab :: l); split; [now apply ww_comma|reflexivity]|].
    exists (IChar x :: l). split; [apply ww_item; auto; now constructor|reflexivity].
Qed.
