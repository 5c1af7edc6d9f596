(** Proofs about brace expansion. *)
From Coq Require Import Ascii String.
From Coq Require Import List NArith ZArith Bool Arith Lia.
From Coq Require Import ZifyBool ZifyN.
From Verif Require Import Common Locale NumModel CharcatModel BraceModel BraceSpec BraceNum BraceSeq.
Import ListNotations.
Open Scope res_scope.

Lemma item_ind2 (P : item -> Prop) : (forall x, P (IChar x)) ->
  (forall segs, Forall (Forall P) segs -> P (IGroup segs)) -> forall i, P i.
Proof.
  intros Hc Hg. fix F 1. intros [x|segs]; [apply Hc|apply Hg].
  induction segs as [|s segs IH]; constructor; auto. induction s as [|i s IHs]; constructor; auto.
Qed.

Lemma nth_mid {A} (pre : list A) x post n : length pre = n -> nth_error (pre ++ x :: post) n = Some x.
Proof. intros <-. rewrite nth_error_app2 by lia. now rewrite Nat.sub_diag. Qed.
Lemma upd_app1 {A} (a b : list A) n x : n < length a -> upd (a ++ b) n x = upd a n x ++ b.
Proof.
  revert n. induction a as [|y a IH]; intros n H; cbn in H; [lia|]. destruct n; cbn; [reflexivity|]. now rewrite IH by lia.
Qed.
Lemma upd_comm {A} (l : list A) i j x y : i <> j -> upd (upd l i x) j y = upd (upd l j y) i x.
Proof.
  revert i j. induction l as [|z l IH]; intros [|i] [|j] H; cbn; try reflexivity; try congruence. now rewrite IH by congruence.
Qed.
Lemma upd_upd {A} (l : list A) i x y : upd (upd l i x) i y = upd l i y.
Proof. revert i. induction l as [|z l IH]; intros [|i]; cbn; try reflexivity. now rewrite IH. Qed.
Lemma upd_same {A} (l : list A) i x : nth_error l i = Some x -> upd l i x = l.
Proof. revert i. induction l as [|z l IH]; intros [|i] H; cbn in *; try discriminate; [congruence|]. now rewrite IH. Qed.

Definition is_group (i : item) : bool := match i with IGroup _ => true | _ => false end.
Definition groups (l : list item) : bool := existsb is_group l.

Section Word.
Variable L : locale.
Hypothesis HL : locale_ok L.
Variable word : list cell.

(** ** One step of the scan *)
Notation scan := (scan word).
Lemma scan_open rest i g st p : scan (openb :: rest) i g st p = scan rest (S i) (g ++ [None]) (i :: i :: st) p.
Proof. reflexivity. Qed.
Lemma scan_comma_nil rest i g p : scan (commab :: rest) i g [] p = scan rest (S i) (g ++ [None]) [] p.
Proof. reflexivity. Qed.
Lemma scan_comma rest i g ci st p : ci < length g ->
  scan (commab :: rest) i g (ci :: st) p = scan rest (S i) (upd g ci (Some i) ++ [None]) (i :: st) p.
Proof. intros H. cbn [BraceModel.scan commab cat_eqb]. cbn. rewrite rset_Ok by auto. reflexivity. Qed.
Lemma scan_close_nil rest i g p : scan (closeb :: rest) i g [] p = scan rest (S i) (g ++ [None]) [] p.
Proof. reflexivity. Qed.
Lemma scan_close rest i g ci oi st p x : ci < length g -> nth_error word ci = Some x ->
  scan (closeb :: rest) i g (ci :: oi :: st) p =
  scan rest (S i) (upd g ci (Some i) ++ [if (fst x =? comma)%N then Some i else None]) st true.
Proof. intros H Hx. cbn [BraceModel.scan closeb cat_eqb]. cbn. rewrite rset_Ok by auto. cbn [rbind]. rewrite (rget_Ok _ _ _ _ Hx). reflexivity. Qed.
Lemma scan_other x rest i g st p : x <> openb -> x <> closeb -> x <> commab ->
  scan (x :: rest) i g st p = scan rest (S i) (g ++ [None]) st p.
Proof.
  intros H1 H2 H3. destruct x as [c k]. cbn [BraceModel.scan]. destruct (cat_eqb k cc_lit) eqn:E; [|reflexivity].
  apply cat_eqb_eq in E. subst k.
  destruct (c =? lbrace)%N eqn:E1. { apply N.eqb_eq in E1. subst c. now destruct H1. }
  destruct (c =? comma)%N eqn:E2. { apply N.eqb_eq in E2. subst c. now destruct H3. }
  destruct (c =? rbrace)%N eqn:E3. { apply N.eqb_eq in E3. subst c. now destruct H2. }
  reflexivity.
Qed.

(** ** Balanced text *)
Notation gen := (generate L word).
Notation E_item := (expansions_item (seqf L)).
Notation E_list := (expansions (seqf L)).

Lemma product_flat {B} (f : list cell -> list B) E P :
  flat_map f (flat_map (fun a => map (app a) P) E) = flat_map (fun a => flat_map (fun b => f (a ++ b)) P) E.
Proof.
  induction E as [|a E IH]; [reflexivity|]. cbn [flat_map]. rewrite flat_map_app, IH. f_equal.
  clear IH. induction P as [|b P IHP]; [reflexivity|]. cbn. now rewrite IHP.
Qed.

(** The text [t] at index [o] has the graph [g]: the scan computes it ... *)
Definition scans (t : list cell) (o : nat) (g : graph_T) (grp : bool) : Prop :=
  forall pre rest graph stack p, word = pre ++ t ++ rest -> length pre = o -> length graph = o ->
    scan (t ++ rest) o graph stack p = scan rest (o + length g) (graph ++ g) stack (p || grp).
(** ... and with it the alternatives [E] are generated, whatever follows. *)
Definition gens (t : list cell) (o : nat) (g : graph_T) (E : list (list cell)) : Prop :=
  forall pre post gpre gpost graph f, word = pre ++ t ++ post -> length pre = o -> length gpre = o ->
    graph = gpre ++ g ++ gpost ->
    (forall fuel buf, length word - (o + length g) < fuel -> gen graph fuel (o + length g) buf = Ok (f buf)) ->
    forall fuel buf, length word - o < fuel -> gen graph fuel o buf = Ok (flat_map (fun a => f (buf ++ a)) E).

Lemma gen_char graph fuel o buf x : nth_error word o = Some x -> nth_error graph o = Some None ->
  gen graph (S fuel) o buf = gen graph fuel (S o) (buf ++ [x]).
Proof. intros H1 H2. destruct x as [c k]. cbn [generate]. rewrite H1. now rewrite (rget_Ok _ _ _ _ H2). Qed.
Lemma gens_char x o : gens [x] o [None] [[x]].
Proof.
  intros pre post gpre gpost graph f Hw Hp Hg -> K [|fuel] buf Hf; [lia|].
  assert (Hl : length word = o + 1 + length post) by (rewrite Hw, !app_length; cbn; lia).
  rewrite (gen_char _ _ _ _ x).
  - cbn [flat_map]. rewrite app_nil_r. cbn [length] in K. replace (S o) with (o + 1) by lia. apply K. lia.
  - rewrite Hw. cbn [app]. now apply nth_mid.
  - cbn [app]. now apply nth_mid.
Qed.

Definition item_ok (i : item) : Prop := forall o, exists g, length g = length (unparse_item i) /\
  scans (unparse_item i) o g (is_group i) /\ gens (unparse_item i) o g (E_item i).

Lemma gens_app t1 o g1 E1 t2 g2 E2 : length g1 = length t1 -> gens t1 o g1 E1 -> gens t2 (o + length g1) g2 E2 ->
  gens (t1 ++ t2) o (g1 ++ g2) (flat_map (fun a => map (app a) E2) E1).
Proof.
  intros Hlen H1 H2 pre post gpre gpost graph f Hw Hp Hg Hgr K fuel buf Hf.
  rewrite (H1 pre (t2 ++ post) gpre (g2 ++ gpost) graph (fun b => flat_map (fun a => f (b ++ a)) E2)); auto.
  - f_equal. rewrite product_flat. apply flat_map_ext. intros a. apply flat_map_ext. intros b. now rewrite app_assoc.
  - now rewrite Hw, <- app_assoc.
  - now rewrite Hgr, <- app_assoc.
  - intros fuel' buf' Hf'. apply (H2 (pre ++ t1) post (gpre ++ g1) gpost graph f); auto.
    + rewrite Hw. now rewrite <- !app_assoc.
    + rewrite app_length. lia.
    + rewrite app_length. lia.
    + rewrite Hgr. now rewrite <- !app_assoc.
    + intros fuel2 buf2 Hf2. rewrite app_length in K. replace (o + length g1 + length g2) with (o + (length g1 + length g2)) in * by lia. auto.
Qed.
Lemma scans_app t1 o g1 b1 t2 g2 b2 : length g1 = length t1 -> scans t1 o g1 b1 -> scans t2 (o + length g1) g2 b2 ->
  scans (t1 ++ t2) o (g1 ++ g2) (b1 || b2).
Proof.
  intros Hlen H1 H2 pre rest graph stack p Hw Hp Hg. rewrite <- app_assoc. rewrite <- app_assoc in Hw.
  rewrite (H1 pre (t2 ++ rest)) by auto. rewrite (H2 (pre ++ t1) rest).
  - rewrite app_length, <- app_assoc, <- orb_assoc. f_equal. lia.
  - now rewrite Hw, <- !app_assoc.
  - rewrite app_length. lia.
  - rewrite app_length. lia.
Qed.

Lemma list_ok s : Forall item_ok s -> forall o, exists g, length g = length (unparse s) /\
  scans (unparse s) o g (groups s) /\ gens (unparse s) o g (E_list s).
Proof.
  induction 1 as [|i s Hi _ IH]; intros o.
  - exists []. split; [reflexivity|]. split.
    + intros pre rest graph stack p Hw Hp Hg. cbn. now rewrite Nat.add_0_r, app_nil_r, orb_false_r.
    + intros pre post gpre gpost graph f Hw Hp Hg Hgr K fuel buf Hf. cbn. rewrite !app_nil_r. cbn [length] in K.
      rewrite Nat.add_0_r in K. auto.
  - destruct (Hi o) as (g1 & L1 & S1 & G1). destruct (IH (o + length g1)) as (g2 & L2 & S2 & G2).
    exists (g1 ++ g2). unfold unparse, expansions. cbn [map concat product groups existsb]. fold (unparse s) (E_list s) (groups s).
    split; [rewrite !app_length; lia|]. split; [now apply scans_app|now apply gens_app].
Qed.

(** ** Groups *)
Definition sep_text (segs : list (list item)) : list cell := sep (map unparse segs) ++ [closeb].
Lemma sep_one s : sep_text [s] = unparse s ++ [closeb]. Proof. reflexivity. Qed.
Lemma sep_more s s2 segs : sep_text (s :: s2 :: segs) = unparse s ++ commab :: sep_text (s2 :: segs).
Proof. unfold sep_text. cbn [map sep]. now rewrite <- app_assoc. Qed.
Lemma sep_len segs : length segs <= length (sep_text segs).
Proof.
  induction segs as [|s [|s2 segs] IH]; [cbn; lia|rewrite sep_one, app_length; cbn; lia|].
  rewrite sep_more, app_length. cbn [length] in *. lia.
Qed.

(** The segments at index [o], up to the closing brace: [d] is the index of the first
    delimiter; [m] says that a comma precedes. *)
Definition segs_ok (segs : list (list item)) : Prop := forall o m, exists d b, length b = length (sep_text segs) /\
  (forall pre rest graph ci oi stack p x, word = pre ++ sep_text segs ++ rest -> length pre = o -> length graph = o ->
    ci < o -> nth_error word ci = Some x -> (fst x =? comma)%N = m ->
    scan (sep_text segs ++ rest) o graph (ci :: oi :: stack) p = scan rest (o + length b) (upd graph ci (Some d) ++ b) stack true) /\
  (forall pre post gpre gpost graph f, word = pre ++ sep_text segs ++ post -> length pre = o -> length gpre = o ->
    graph = gpre ++ b ++ gpost ->
    (forall fuel buf, length word - (o + length b) < fuel -> gen graph fuel (o + length b) buf = Ok (f buf)) ->
    match segs with
    | [s] => nth_error word d = Some closeb /\ S d = o + length b /\
        if m then True else
        forall fuel buf, length word - o < fuel -> gen graph fuel o buf = Ok (flat_map (fun a => f (buf ++ a ++ [closeb])) (E_list s))
    | _ => nth_error word d = Some commab /\
        forall n, length segs <= n -> exists e, to_close word graph n d = Ok e /\ S e = o + length b
    end /\
    (m || negb (length segs =? 1) = true ->
      forall n ci, length segs <= n -> S ci = o -> exists starts, alternatives word graph n ci d = Ok starts /\
        forall fuel buf, length word - o < fuel ->
          mapM (fun i => gen graph fuel i buf) starts = Ok (map (fun s => flat_map (fun a => f (buf ++ a)) (E_list s)) segs))).

Lemma segs_all_ok segs : segs <> [] -> Forall (Forall item_ok) segs -> segs_ok segs.
Proof.
  induction segs as [|s segs IH]; [congruence|]. intros _ HF o m. inversion HF as [|? ? Hs Hss]; subst.
  destruct (list_ok s Hs o) as (g & Lg & Sg & Gg). destruct segs as [|s2 segs].
  - (* the last segment *)
    clear IH HF Hss. set (d := o + length g). exists d, (g ++ [if m then Some d else None]). rewrite sep_one.
    split; [rewrite !app_length; cbn; lia|]. split.
    + intros pre rest graph ci oi stack p x Hw Hp Hg Hci Hx Hm. rewrite <- app_assoc in *. cbn [app] in *.
      rewrite (Sg pre (closeb :: rest)) by auto. rewrite (scan_close _ _ _ _ _ _ _ x); auto. 2:{ rewrite app_length. lia. }
      rewrite Hm, upd_app1 by lia. rewrite app_length, <- app_assoc. cbn [length app]. f_equal. unfold d. lia.
    + intros pre post gpre gpost graph f Hw Hp Hg Hgr K.
      assert (Hd : nth_error word d = Some closeb).
      { rewrite Hw, <- !app_assoc. cbn [app]. rewrite app_assoc. apply nth_mid. rewrite app_length. unfold d. lia. }
      assert (Hl : length word = d + 1 + length post).
      { rewrite Hw, !app_length. cbn. unfold d. lia. }
      assert (Hgd : nth_error graph d = Some (if m then Some d else None)).
      { rewrite Hgr, <- !app_assoc. cbn [app]. rewrite app_assoc. apply nth_mid. rewrite app_length. unfold d. lia. }
      rewrite app_length in K |- *. cbn [length] in K |- *.
      replace (o + (length g + 1)) with (S d) in * by (unfold d; lia). split.
      * split; [auto|]. split; [auto|]. destruct m; [exact I|]. intros fuel buf Hf.
        rewrite (Gg pre (closeb :: post) gpre (None :: gpost) graph (fun b => f (b ++ [closeb]))); auto.
        -- f_equal. apply flat_map_ext. intros a. now rewrite app_assoc.
        -- rewrite Hw, <- app_assoc. reflexivity.
        -- rewrite Hgr, <- app_assoc. reflexivity.
        -- intros [|fuel'] buf' Hf'; [lia|]. fold d in Hf' |- *. rewrite (gen_char _ _ _ _ closeb) by auto. apply K. lia.
      * cbn [length]. intros Hm n ci Hn Hci. destruct m; [|discriminate]. destruct n as [|n]; [lia|]. exists [S ci].
        cbn [alternatives]. rewrite (rget_Ok _ _ _ _ Hd). split; [reflexivity|].
        intros fuel buf Hf. cbn [mapM map]. rewrite Hci.
        rewrite (Gg pre (closeb :: post) gpre (Some d :: gpost) graph f); auto.
        -- rewrite Hw, <- app_assoc. reflexivity.
        -- rewrite Hgr, <- app_assoc. reflexivity.
        -- intros [|fuel'] buf' Hf'; [lia|]. fold d in Hf' |- *. cbn [generate]. rewrite Hd, (rget_Ok _ _ _ _ Hgd). cbn. apply K. lia.
  - (* more segments *)
    assert (Hn : s2 :: segs <> []) by discriminate. set (d := o + length g).
    destruct (IH Hn Hss (S d) true) as (d2 & b2 & L2 & S2 & G2). clear IH HF Hss.
    exists d, (g ++ Some d2 :: b2). rewrite sep_more. split; [rewrite !app_length; cbn [length]; lia|]. split.
    + intros pre rest graph ci oi stack p x Hw Hp Hg Hci Hx Hm. rewrite <- app_assoc in *. cbn [app] in *.
      rewrite (Sg pre (commab :: sep_text (s2 :: segs) ++ rest)) by auto. fold d. rewrite scan_comma by (rewrite app_length; lia).
      rewrite (S2 (pre ++ unparse s ++ [commab]) rest _ d oi stack _ commab).
      * rewrite !app_length. cbn [length]. f_equal; [unfold d; lia|].
        rewrite (upd_app1 graph g) by lia.
        assert (U : forall (z y : option nat), upd ((upd graph ci (Some d) ++ g) ++ [z]) d y = (upd graph ci (Some d) ++ g) ++ [y]).
        { intros z y. assert (Q : forall (l : graph_T), upd (l ++ [z]) (length l) y = l ++ [y]).
          { induction l as [|q l IHl]; [reflexivity|]. cbn. now rewrite IHl. }
          rewrite <- Q. f_equal. rewrite app_length, length_upd. unfold d. lia. }
        rewrite U. now rewrite <- !app_assoc.
      * rewrite Hw, <- !app_assoc. reflexivity.
      * rewrite !app_length. cbn. unfold d. lia.
      * rewrite !app_length, length_upd, app_length. cbn. unfold d. lia.
      * lia.
      * rewrite Hw, app_assoc. apply nth_mid. rewrite app_length. unfold d. lia.
      * reflexivity.
    + intros pre post gpre gpost graph f Hw Hp Hg Hgr K. rewrite <- app_assoc in Hw, Hgr. cbn [app] in Hw, Hgr.
      assert (Hd : nth_error word d = Some commab).
      { rewrite Hw, app_assoc. apply nth_mid. rewrite app_length. unfold d. lia. }
      assert (Hgd : nth_error graph d = Some (Some d2)).
      { rewrite Hgr, app_assoc. apply nth_mid. rewrite app_length. unfold d. lia. }
      assert (Hl : length word = S d + length b2 + length post).
      { rewrite Hw, !app_length. cbn [length]. rewrite app_length. unfold d. lia. }
      assert (El : o + length (g ++ Some d2 :: b2) = S d + length b2).
      { rewrite app_length. cbn [length]. unfold d. lia. }
      rewrite El in K |- *.
      destruct (G2 (pre ++ unparse s ++ [commab]) post (gpre ++ g ++ [Some d2]) gpost graph f) as [T2 A2]; auto.
      { rewrite Hw, <- !app_assoc. reflexivity. }
      { rewrite !app_length. cbn. unfold d. lia. }
      { rewrite !app_length. cbn. unfold d. lia. }
      { rewrite Hgr, <- !app_assoc. reflexivity. }
      assert (TC : forall n, S (length (s2 :: segs)) <= n -> exists e, to_close word graph n d = Ok e /\ S e = S d + length b2).
      { intros [|n] Hln; [lia|]. cbn [to_close]. rewrite (rget_Ok _ _ _ _ Hgd). cbn [rbind].
        destruct segs as [|s3 segs].
        - destruct T2 as (T2 & E2 & _). exists d2. rewrite (rget_Ok _ _ _ _ T2). split; [reflexivity|auto].
        - destruct T2 as (T2 & E2). rewrite (rget_Ok _ _ _ _ T2). cbn [rbind fst commab]. change (44 =? comma)%N with true. cbn iota.
          apply E2. lia. }
      split; [split; [auto|exact TC]|].
      intros _ n ci Hln Hci. destruct n as [|n]; [cbn in Hln; lia|]. cbn [alternatives]. rewrite (rget_Ok _ _ _ _ Hd).
      cbn [rbind fst commab]. change (44 =? comma)%N with true. cbn iota. rewrite (rget_Ok _ _ _ _ Hgd). cbn [rbind].
      destruct (A2 eq_refl n d) as (starts & -> & M); [cbn [length] in *; lia|reflexivity|].
      exists (S ci :: starts). split; [reflexivity|]. intros fuel buf Hf. cbn [mapM map]. rewrite Hci.
      rewrite (Gg pre (commab :: sep_text (s2 :: segs) ++ post) gpre (Some d2 :: b2 ++ gpost) graph f); auto.
      * cbn [rbind]. rewrite M by (unfold d; lia). reflexivity.
      * intros [|fuel'] buf' Hf'; [lia|]. fold d in Hf' |- *. cbn [generate]. rewrite Hd, (rget_Ok _ _ _ _ Hgd). cbn [rbind].
        cbn [commab]. change (44 =? comma)%N with true. cbn iota.
        destruct (TC (S (length word))) as (e & -> & Ee).
        { pose proof (sep_len (s2 :: segs)). rewrite Hl. rewrite <- L2 in H. lia. }
        cbn [rbind]. rewrite Ee. apply K. lia.
Qed.

Lemma concat_flat {A B} (f : A -> list B) l : concat (map f l) = flat_map f l.
Proof. symmetry. apply flat_map_concat_map. Qed.

Lemma mapM_ext_ok {A B} (f : A -> res B) h l : (forall a, f a = Ok (h a)) -> mapM f l = Ok (map h l).
Proof. intros H. induction l as [|a l IH]; [reflexivity|]. cbn. now rewrite H, IH. Qed.

Lemma all_items_ok i : wf_item i -> item_ok i.
Proof.
  induction i as [x|segs IH] using item_ind2; intros Hwf o.
  - inversion Hwf; subst. exists [None]. split; [reflexivity|]. split; [|apply gens_char].
    intros pre rest graph stack p Hw Hp Hg. cbn [unparse_item app]. rewrite scan_other by auto. cbn [length is_group].
    rewrite orb_false_r. f_equal. lia.
  - inversion Hwf as [|? Hn HF]; subst.
    assert (Hok : Forall (Forall item_ok) segs).
    { clear - IH HF. induction segs as [|s segs IHs]; constructor; inversion IH; inversion HF; subst; auto.
      clear - H1 H5. induction s as [|i s IHs]; constructor; inversion H1; inversion H5; subst; auto. }
    destruct (segs_all_ok segs Hn Hok (S o) false) as (d & b & Lb & Sb & Gb).
    assert (Et : unparse_item (IGroup segs) = openb :: sep_text segs) by reflexivity. rewrite Et.
    exists (Some d :: b). split; [cbn [length]; lia|]. split.
    + intros pre rest graph stack p Hw Hp Hg. cbn [app]. rewrite scan_open.
      rewrite (Sb (pre ++ [openb]) rest _ o o stack p openb).
      * cbn [length is_group]. rewrite orb_true_r. f_equal; [lia|].
        assert (Q : forall (l : graph_T) z y, upd (l ++ [z]) (length l) y = l ++ [y]).
        { induction l as [|q l IHl]; intros; [reflexivity|]. cbn. now rewrite IHl. }
        rewrite <- Hg, Q. now rewrite <- app_assoc.
      * rewrite Hw, <- app_assoc. reflexivity.
      * rewrite app_length. cbn. lia.
      * rewrite app_length. cbn. lia.
      * lia.
      * rewrite Hw. cbn [app]. now apply nth_mid.
      * reflexivity.
    + intros pre post gpre gpost graph f Hw Hp Hg Hgr K [|fuel] buf Hf; [lia|]. cbn [app] in Hw, Hgr. cbn [length] in K.
      replace (o + S (length b)) with (S o + length b) in K by lia.
      destruct (Gb (pre ++ [openb]) post (gpre ++ [Some d]) gpost graph f) as [T A]; auto.
      { rewrite Hw, <- app_assoc. reflexivity. }
      { rewrite app_length. cbn. lia. }
      { rewrite app_length. cbn. lia. }
      { rewrite Hgr, <- app_assoc. reflexivity. }
      assert (Ho : nth_error word o = Some openb) by (rewrite Hw; now apply nth_mid).
      assert (Hgo : nth_error graph o = Some (Some d)) by (rewrite Hgr; now apply nth_mid).
      assert (Hl : length word = o + S (length b) + length post).
      { rewrite Hw, app_length. cbn [length]. rewrite app_length. lia. }
      cbn [generate]. rewrite Ho, (rget_Ok _ _ _ _ Hgo). cbn [rbind openb].
      change (123 =? comma)%N with false. change (123 =? rbrace)%N with false. change (123 =? lbrace)%N with true. cbn iota.
      destruct segs as [|s [|s2 segs]]; [congruence| |].
      * destruct T as (Td & Ed & Tg). rewrite (rget_Ok _ _ _ _ Td). cbn [rbind fst closeb]. change (125 =? rbrace)%N with true. cbn iota.
        inversion HF; subst. rewrite sep_one in *.
        assert (Hwd : word = pre ++ openb :: unparse s ++ closeb :: post).
        { rewrite Hw, <- app_assoc. reflexivity. }
        assert (Lb' : length b = S (length (unparse s))) by (rewrite app_length in Lb; cbn in Lb; lia).
        pose proof (parse_seg L HL pre s post H1) as PS. rewrite <- Hwd in PS. cbn [E_item expansions_item].
        fold (unparse s). destruct (parse_sequence L word (length pre)) as [[[[[[st en] de] sg] len] bi]|].
        -- destruct PS as (-> & vs & -> & ->). cbn [rbind].
           rewrite (mapM_ext_ok _ (fun v => f (buf ++ cells cc_hard (format_ld sg len v)))).
           ++ cbn [rbind]. f_equal. rewrite concat_flat, map_map. clear. induction vs as [|v vs IH]; [reflexivity|]. cbn. now rewrite IH.
           ++ intros v. replace (S (S (length pre + length (unparse s)))) with (S (length pre) + length b) by lia. apply K. lia.
        -- rewrite PS. rewrite Tg by lia. f_equal. cbn [product flat_map]. rewrite app_nil_r.
           assert (Pr : forall ls, product (ls ++ [[[closeb]]]) = map (fun a => a ++ [closeb]) (product ls)).
           { induction ls as [|l ls IHl]; [reflexivity|]. cbn [app product]. rewrite IHl. clear.
             induction l as [|a l IHl]; [reflexivity|]. cbn [flat_map]. rewrite map_app, IHl, !map_map. f_equal. apply map_ext. intros c. now rewrite app_assoc. }
           rewrite Pr, map_map. fold (E_list s). unfold expansions. remember (product (map _ s)) as PP. clear.
           induction PP as [|a PP IH]; [reflexivity|]. cbn [flat_map map]. rewrite IH. f_equal. f_equal. rewrite <- app_assoc. reflexivity.
      * destruct T as (Td & _). rewrite (rget_Ok _ _ _ _ Td). cbn [rbind fst commab].
        change (44 =? rbrace)%N with false. change (44 =? comma)%N with true. cbn iota.
        destruct (A eq_refl (S (length word)) o) as (starts & -> & M).
        { pose proof (sep_len (s :: s2 :: segs)). lia. }
        { reflexivity. }
        cbn [rbind]. rewrite M by lia. cbn [rbind]. f_equal. cbn [E_item expansions_item]. remember (s :: s2 :: segs) as ss. clear.
        rewrite !concat_flat. induction ss as [|x ss IH]; [reflexivity|]. cbn [flat_map map]. rewrite flat_map_app, IH. reflexivity.
Qed.
End Word.
