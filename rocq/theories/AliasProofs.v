(** Proofs about alias substitution. *)
From Coq Require Import Ascii String.
From Coq Require Import List NArith ZArith Bool Arith Lia Sorted.
From Verif Require Import Common Locale AliasModel AliasSpec.
Import ListNotations.
Open Scope res_scope.

(** ** Generic list facts *)
Lemma nth_firstn {A} (d : A) n : forall l i, i < n -> nth i (firstn n l) d = nth i l d.
Proof. induction n; intros [|x l] i H; cbn; try lia; destruct i; auto. apply IHn. lia. Qed.
Lemma nth_skipn {A} (d : A) n : forall l i, nth i (skipn n l) d = nth (n + i) l d.
Proof. induction n; intros l i; cbn; auto. destruct l; [destruct i; auto|apply IHn]. Qed.

Lemma skipn_skipn' {A} (l : list A) : forall x y, skipn x (skipn y l) = skipn (y + x) l.
Proof.
  intros x y. revert l. induction y as [|y IH]; intros l; [reflexivity|].
  destruct l; cbn [skipn Nat.add]; [now destruct x|apply IH].
Qed.

Lemma nth_replace1 {A} (d : A) l i v r p : i <= length l -> p < i ->
  nth p (firstn i l ++ v ++ skipn r l) d = nth p l d.
Proof. intros. rewrite app_nth1 by (rewrite firstn_length; lia). apply nth_firstn; auto. Qed.
Lemma nth_replace2 {A} (d : A) l i v r p : i <= length l -> i <= p -> p < i + length v ->
  nth p (firstn i l ++ v ++ skipn r l) d = nth (p - i) v d.
Proof.
  intros. rewrite app_nth2 by (rewrite firstn_length; lia). rewrite firstn_length, Nat.min_l by lia.
  apply app_nth1. lia.
Qed.
Lemma nth_replace3 {A} (d : A) l i v r p : i <= length l -> i + length v <= p ->
  nth p (firstn i l ++ v ++ skipn r l) d = nth (p - (i + length v) + r) l d.
Proof.
  intros. rewrite app_nth2 by (rewrite firstn_length; lia). rewrite firstn_length, Nat.min_l by lia.
  rewrite app_nth2 by lia. rewrite nth_skipn. f_equal. lia.
Qed.

(** lia with only the arithmetic part of the context. *)
Ltac alia :=
  repeat match goal with
    | H : ?T |- _ => lazymatch T with
        | _ <= _ => fail | _ < _ => fail | @eq nat _ _ => fail | _ /\ _ => fail
        | not _ => fail | nat => fail
        | _ => clear H
      end
    end; lia.

(** ** Characters *)
Section A.
Variable L : locale.

Lemma name_not_delim c : is_alias_name_char L c = true -> is_token_delimiter_char L c = false.
Proof.
  unfold is_alias_name_char, is_token_delimiter_char. intros [H1 H2]%andb_true_iff.
  apply negb_true_iff in H1, H2. rewrite H2, orb_false_r.
  cbn in H1 |- *. 
  repeat match goal with H : (_ || _)%bool = false |- _ => apply orb_false_iff in H as [? ?] end.
  repeat match goal with H : (c =? _)%N = false |- _ => rewrite H; clear H end. reflexivity.
Qed.
Lemma backslash_not_delim : locale_ok L -> is_token_delimiter_char L 92 = false.
Proof. intros K. unfold is_token_delimiter_char. rewrite (lk_blank L K) by lia. reflexivity. Qed.
Lemma nul_delim : is_token_delimiter_char L 0 = true.
Proof. reflexivity. Qed.

Lemma ends_with_blank_iff a : ends_with_blank L a = true <->
  exists v c, avalue a = v ++ [c] /\ iswblank L c = true.
Proof.
  unfold ends_with_blank. rewrite andb_true_iff, Nat.ltb_lt. split.
  - intros [H1 H2]. destruct (exists_last (l := avalue a)) as (v & c & E).
    { intros E. rewrite E in H1. cbn in H1. lia. }
    exists v, c. split; [auto|]. rewrite E, app_length in H2. cbn in H2.
    replace (length v + 1 - 1) with (length v) in H2 by lia.
    rewrite app_nth2, Nat.sub_diag in H2 by lia. exact H2.
  - intros (v & c & E & B). rewrite E, app_length. cbn. split; [lia|].
    replace (length v + 1 - 1) with (length v) by lia.
    rewrite app_nth2, Nat.sub_diag by lia. exact B.
Qed.

Lemma blank_range_iff buf n : forall i, blank_range_loop L buf i n = true <->
  forall p, i <= p -> p < i + n -> iswblank L (nth p buf 0%N) = true.
Proof.
  induction n as [|n IH]; intros i; cbn [blank_range_loop].
  - split; auto. intros _ p; lia.
  - rewrite andb_true_iff, IH. split.
    + intros [A B] p P1 P2. destruct (Nat.eq_dec p i) as [->|]; [auto|apply B; lia].
    + intros H. split; [apply H; lia|]. intros p P1 P2. apply H; lia.
Qed.

(** ** The table *)
Lemma tget_In t k a : tget t k = Some a -> In (k, a) t.
Proof.
  induction t as [|[n b] t IH]; cbn; [discriminate|].
  destruct (list_N_eqb n k) eqn:E; [apply list_N_eqb_eq in E; intros [= ->]; subst; auto|auto].
Qed.
Lemma In_tget t k a : NoDup (map fst t) -> In (k, a) t -> tget t k = Some a.
Proof.
  induction t as [|[n b] t IH]; cbn; [easy|]. intros N I. inversion N; subst.
  destruct I as [[= -> ->]|I].
  - now rewrite list_N_eqb_refl.
  - destruct (list_N_eqb n k) eqn:E; [|auto]. apply list_N_eqb_eq in E. subst n.
    exfalso. apply H1. apply (in_map fst _ _ I).
Qed.

(** ** The alias list *)
Definition sortedl (l : aliaslist) := StronglySorted (fun x y => snd x <= snd y) l.
Definition type2 (a : alias) (e i : nat) (buf : list N) : Prop :=
  isglobal a = false /\ ends_with_blank L a = true /\ e <= i /\
  forall p, e <= p -> p < i -> iswblank L (nth p buf 0%N) = true.

Lemma remove_expired_ok buf i : i <= length buf -> forall l, sortedl l ->
  exists l' ab, remove_expired_aliases L l i buf = Ok (l', ab) /\ sortedl l' /\
    (forall x, In x l' -> In x l) /\
    (forall a e, In (a, e) l -> i < e \/ type2 a e i buf -> In (a, e) l') /\
    (ab = true <-> exists a e, In (a, e) l /\ type2 a e i buf).
Proof.
  intros Hi l S. induction S as [|[a e] l S IH F]; cbn [remove_expired_aliases].
  - exists [], false. split; [auto|]. split; [constructor|]. split; [auto|]. split; [auto|].
    split; [discriminate|intros (? & ? & [] & _)].
  - destruct (Nat.leb_spec e i) as [Le|Lt].
    + assert (T : exists k, (if negb (isglobal a) && ends_with_blank L a then is_blank_range L buf e i else Ok false) = Ok k
        /\ (k = true <-> type2 a e i buf)).
      { unfold type2. destruct (isglobal a) eqn:G; cbn [negb andb].
        - exists false. split; [auto|]. split; [discriminate|intros [? _]; discriminate].
        - destruct (ends_with_blank L a) eqn:B.
          + unfold is_blank_range. destruct (Nat.leb_spec i (length buf)); [|lia]. rewrite orb_true_r. cbn [negb].
            eexists. split; [reflexivity|]. rewrite blank_range_iff.
            replace (e + (i - e)) with i by lia. intuition.
          + exists false. split; [auto|]. split; [discriminate|intros (_ & ? & _); discriminate]. }
      destruct T as (k & Ek & Tk). rewrite Ek. cbn [rbind]. destruct k.
      * exists ((a, e) :: l), true. split; [auto|]. split; [constructor; auto|]. split; [auto|]. split; [auto|].
        split; [|auto]. intros _. exists a, e. split; [now left|]. apply Tk; auto.
      * destruct IH as (l' & ab & E & S' & I1 & I2 & AB). exists l', ab. split; [auto|]. split; [auto|].
        split; [intros x X; right; auto|]. split.
        -- intros a' e' [[= <- <-]|I] T; [|auto]. destruct T as [T|T]; [lia|]. apply Tk in T. discriminate.
        -- rewrite AB. split; intros (a' & e' & I & T).
           ++ exists a', e'. split; [now right|auto].
           ++ destruct I as [[= <- <-]|I]; [apply Tk in T; discriminate|eauto].
    + exists ((a, e) :: l), false. split; [auto|]. split; [constructor; auto|]. split; [auto|]. split; [auto|].
      split; [discriminate|]. intros (a' & e' & I & (_ & _ & Le & _)).
      destruct I as [[= <- <-]|I]; [lia|]. rewrite Forall_forall in F. specialize (F _ I). cbn in F. lia.
Qed.

Lemma contained_iff a i l : contained_in_list l a i = true <->
  exists b e, In (b, e) l /\ i <= e /\ aid b = aid a.
Proof.
  induction l as [|[b e] l IH]; cbn [contained_in_list].
  - split; [discriminate|intros (? & ? & [] & _)].
  - rewrite orb_true_iff, andb_true_iff, Nat.leb_le, Nat.eqb_eq, IH. split.
    + intros [[? ?]|(b' & e' & I & ?)]; [exists b, e; cbn; auto|exists b', e'; cbn; auto].
    + intros (b' & e' & [[= <- <-]|I] & ? & ?); [auto|right; eauto].
Qed.

Definition shiftz (i : nat) (inc : Z) (e : nat) : nat :=
  if i <? e then Z.to_nat (Z.of_nat e + inc) else e.
Lemma shift_list_ok i inc l : (forall a e, In (a, e) l -> i < e -> (- inc <= Z.of_nat e)%Z) ->
  shift_aliaslist_index l i inc = Ok (map (fun x => (fst x, shiftz i inc (snd x))) l).
Proof.
  induction l as [|[a e] l IH]; intros H; cbn [shift_aliaslist_index map]; [reflexivity|].
  rewrite IH by (intros; eapply H; [right|]; eauto). unfold shiftz. cbn [fst snd].
  destruct (Nat.ltb_spec i e) as [Lt|Ge]; cbn [rbind]; [|reflexivity].
  specialize (H a e (or_introl eq_refl) Lt).
  replace ((0 <=? inc)%Z || (- inc <=? Z.of_nat e)%Z) with true; [reflexivity|].
  symmetry. apply orb_true_iff. right. apply Z.leb_le. auto.
Qed.

Lemma add_In l a e x : In x (add_to_aliaslist l a e) <-> x = (a, e) \/ In x l.
Proof.
  induction l as [|[b m] l IH]; cbn [add_to_aliaslist].
  - cbn. intuition.
  - destruct (m <? e); cbn; rewrite ?IH; intuition.
Qed.
Lemma add_sorted l a e : sortedl l -> sortedl (add_to_aliaslist l a e).
Proof.
  induction 1 as [|[b m] l S IH F]; cbn [add_to_aliaslist].
  - repeat constructor.
  - destruct (Nat.ltb_spec m e) as [Lt|Ge].
    + constructor; auto. apply Forall_forall. intros x I. apply add_In in I as [->|I]; cbn; [lia|].
      rewrite Forall_forall in F. apply (F _ I).
    + constructor; [constructor; auto|]. constructor; [auto|]. apply Forall_forall. intros x I.
      rewrite Forall_forall in F. specialize (F _ I). cbn in *. lia.
Qed.
Lemma map_sorted (f : nat -> nat) l : sortedl l ->
  (forall x y, In x l -> In y l -> snd x <= snd y -> f (snd x) <= f (snd y)) ->
  sortedl (map (fun x => (fst x, f (snd x))) l).
Proof.
  induction 1 as [|x l S IH F]; intros M; cbn; constructor.
  - apply IH. intros; apply M; cbn; auto.
  - apply Forall_forall. intros y I. apply in_map_iff in I as (z & <- & I). cbn.
    apply M; cbn; auto. rewrite Forall_forall in F. apply (F _ I).
Qed.

(** ** The simulation *)
Variable posix : bool.
Variable t : table.
Hypothesis HL : locale_ok L.
Hypothesis HT : table_ok L t.

Definition hist := list (alias * nat).

Record Inv (s : sstate) (buf : list N) (l : aliaslist) (h : hist) : Prop := {
  i_text : buf = chars s;
  i_pos : spos s <= length buf;
  i_orig : forall p, spos s <= p -> p < length buf -> forall id,
    In id (origins s p) <-> exists a e, In (a, e) h /\ aid a = id /\ p < e;
  i_uniq : forall a e a' e', In (a, e) h -> In (a', e') h -> spos s < e -> spos s < e' -> aid a = aid a' -> e = e';
  i_delim : forall a e, In (a, e) h -> spos s <= e ->
    e <= length buf /\ is_token_delimiter_char L (nth e buf 0%N) = true /\ (seof s = false -> e < length buf);
  i_ends : forall e, In e (sends s) <-> exists a, In (a, e) h /\ blank_ending L a;
  i_sorted : sortedl l;
  i_incl : forall x, In x l -> In x h;
  i_keep : forall a e, In (a, e) h -> spos s < e \/ type2 a e (spos s) buf -> In (a, e) l
}.

Lemma inv_init : Inv sinit [] [] [].
Proof.
  constructor.
  - reflexivity.
  - cbn. lia.
  - cbn. intros; lia.
  - intros ? ? ? ? [].
  - intros ? ? [].
  - intros e. split; [intros []|intros (? & [] & _)].
  - constructor.
  - auto.
  - intros ? ? [].
Qed.

Lemma len_text s : length (chars s) = length (stext s).
Proof. apply map_length. Qed.

Lemma blank_ending_iff a : blank_ending L a <-> isglobal a = false /\ ends_with_blank L a = true.
Proof. unfold blank_ending. rewrite ends_with_blank_iff. reflexivity. Qed.

Lemma after_blank_iff s buf l h : Inv s buf l h ->
  after_blank_expansion L s <-> exists a e, In (a, e) l /\ type2 a e (spos s) buf.
Proof.
  intros I. unfold after_blank_expansion. split.
  - intros (e & Ie & Le & B). apply (i_ends _ _ _ _ I) in Ie as (a & Ia & [G E]%blank_ending_iff).
    assert (T : type2 a e (spos s) buf).
    { rewrite (i_text _ _ _ _ I). split; [auto|]. split; [auto|]. split; auto. }
    exists a, e. split; [apply (i_keep _ _ _ _ I); auto|auto].
  - intros (a & e & Ia & G & E & Le & B). exists e. split; [|split].
    + apply (i_ends _ _ _ _ I). exists a. split; [apply (i_incl _ _ _ _ I); auto|]. apply blank_ending_iff. auto.
    + auto.
    + rewrite (i_text _ _ _ _ I) in B. auto.
Qed.

(** The characters of a word that is an alias name are no delimiters. *)
Lemma word_chars buf i j a : j <= length buf -> In (firstn (j - i) (skipn i buf), a) t ->
  forall p, i <= p -> p < j -> is_token_delimiter_char L (nth p buf 0%N) = false.
Proof.
  intros Hj I p P1 P2. apply (tk_valid L t HT) in I as [_ F]. apply name_not_delim.
  rewrite Forall_forall in F. apply F.
  replace (nth p buf 0%N) with (nth (p - i) (firstn (j - i) (skipn i buf)) 0%N).
  - apply nth_In. rewrite firstn_length, skipn_length. lia.
  - rewrite nth_firstn by lia. rewrite nth_skipn. f_equal. lia.
Qed.

(** Every expansion that has not ended before the word ends at or after its end. *)
Lemma ends_beyond s buf l h j a : Inv s buf l h -> j <= length buf -> spos s <= j ->
  In (firstn (j - spos s) (skipn (spos s) buf), a) t ->
  forall b e, In (b, e) h -> spos s <= e -> j <= e.
Proof.
  intros I Hj Hp W b e Ih He. destruct (Nat.le_gt_cases j e) as [|Lt]; [auto|].
  pose proof (word_chars buf _ j a Hj W e He Lt).
  destruct (i_delim _ _ _ _ I b e Ih He) as (_ & D & _). congruence.
Qed.

Lemma contained_origin s buf l l' h j a : Inv s buf l h -> j <= length buf -> spos s < j ->
  In (firstn (j - spos s) (skipn (spos s) buf), a) t ->
  (forall x, In x l' -> In x l) ->
  (forall b e, In (b, e) l -> spos s < e -> In (b, e) l') ->
  contained_in_list l' a (spos s) = true <-> In (aid a) (origins s (spos s)).
Proof.
  intros I Hj Hp W S1 S2. rewrite contained_iff, (i_orig _ _ _ _ I) by lia. split.
  - intros (b & e & Ib & Le & Ea). apply S1 in Ib. apply (i_incl _ _ _ _ I) in Ib.
    exists b, e. split; [auto|]. split; [auto|].
    pose proof (ends_beyond s buf l h j a I Hj (Nat.lt_le_incl _ _ Hp) W b e Ib Le). lia.
  - intros (b & e & Ib & Ea & Lt). exists b, e. split; [|split; [lia|auto]].
    apply S2; [|auto]. apply (i_keep _ _ _ _ I); auto.
Qed.

Lemma inv_sub s buf l l' h : Inv s buf l h -> sortedl l' -> (forall x, In x l' -> In x l) ->
  (forall a e, In (a, e) l -> spos s < e \/ type2 a e (spos s) buf -> In (a, e) l') ->
  Inv s buf l' h.
Proof.
  intros [] S A B. constructor; auto.
Qed.

Lemma keep_ok s buf l h j ng ne : Inv s buf l h -> spos s <= j -> j <= length buf ->
  (forall a, ~ replaces L posix t s j ng ne a) ->
  exists l', substitute_alias_range L posix t buf (spos s) j l ng ne = Ok (buf, l', false) /\ Inv s buf l' h.
Proof.
  intros I Hp Hj NR. unfold substitute_alias_range.
  destruct (length t =? 0); [exists l; auto|].
  destruct (remove_expired_ok buf (spos s) (i_pos _ _ _ _ I) l (i_sorted _ _ _ _ I))
    as (l' & ab & E & S & A & B & AB).
  rewrite E. cbn [rbind].
  assert (I' : Inv s buf l' h) by (eapply inv_sub; eauto).
  destruct (negb (ng || ab) && posix) eqn:X1; [eauto|].
  destruct (Nat.leb_spec j (spos s)) as [|Hlt]; [eauto|].
  destruct (ne && (j =? length buf)) eqn:X2; [eauto|].
  destruct (Nat.ltb_spec (length buf) j); [lia|].
  destruct (tget t (firstn (j - spos s) (skipn (spos s) buf))) as [a|] eqn:G; [|eauto].
  apply tget_In in G.
  destruct (negb (ng || ab) && negb (isglobal a)) eqn:X3; [eauto|].
  destruct (contained_in_list l' a (spos s)) eqn:X4; [eauto|].
  exfalso. apply (NR a). rewrite (i_text _ _ _ _ I) in G. repeat split; auto.
  - intros ->. cbn in X2. apply Nat.eqb_neq in X2. rewrite (i_text _ _ _ _ I), len_text in *. lia.
  - rewrite (after_blank_iff s buf l h I), <- AB.
    destruct ng; [auto|]. destruct ab; [auto|]. cbn in X1, X3. right; right.
    split; [|auto]. apply negb_false_iff in X3. auto.
  - rewrite <- (contained_origin s buf l l' h j a); auto; try congruence.
    rewrite (i_text _ _ _ _ I). auto.
Qed.

Lemma skipn_nth_cons {A} (d : A) l n : n < length l -> skipn n l = nth n l d :: skipn (S n) l.
Proof.
  revert n. induction l as [|x l IH]; intros n H; cbn in H; [lia|].
  destruct n; [reflexivity|]. cbn [skipn nth]. apply IH. lia.
Qed.

Lemma chars_replace s i v o j : map fst (firstn i (stext s) ++ map (fun c => (c, o)) v ++ skipn j (stext s))
  = firstn i (chars s) ++ v ++ skipn j (chars s).
Proof.
  unfold chars. rewrite !map_app, firstn_map, skipn_map, map_map. cbn. now rewrite map_id.
Qed.
Lemma nth_chars s p : nth p (chars s) 0%N = fst (nth p (stext s) (0%N, [])).
Proof. unfold chars. change 0%N with (fst (0%N, @nil nat)) at 1. apply map_nth. Qed.

Lemma replace_ok s buf l h j ng ne a ends' : Inv s buf l h -> spos s <= j -> j <= length buf ->
  is_token_delimiter_char L (nth j buf 0%N) = true ->
  replaces L posix t s j ng ne a ->
  (forall e, In e ends' <-> 
     (exists e0, In e0 (sends s) /\ e = shift_end (spos s) j (length (avalue a)) e0) \/
     (blank_ending L a /\ e = spos s + length (avalue a))) ->
  exists buf' l' h', substitute_alias_range L posix t buf (spos s) j l ng ne = Ok (buf', l', true) /\
    Inv (mkS (firstn (spos s) (stext s) ++
            map (fun c => (c, aid a :: origins s (spos s))) (avalue a) ++
            skipn j (stext s)) (spos s) ends' (seof s || (j =? length (stext s)))) buf' l' h'.
Proof.
  intros I Hp Hj HD (Hlt & Hne & W & El & No) HE. unfold substitute_alias_range.
  pose proof (i_text _ _ _ _ I) as ET. rewrite <- ET in W.
  destruct (length t =? 0) eqn:X0.
  { apply Nat.eqb_eq in X0. destruct t; [destruct W|discriminate]. }
  destruct (remove_expired_ok buf (spos s) (i_pos _ _ _ _ I) l (i_sorted _ _ _ _ I))
    as (l' & ab & E & S & A & B & AB).
  rewrite E. cbn [rbind].
  assert (I' : Inv s buf l' h) by (eapply inv_sub; eauto).
  rewrite (after_blank_iff s buf l h I), <- AB in El.
  assert (X1 : negb (ng || ab) && posix = false).
  { destruct ng; [auto|]. destruct ab; [auto|]. destruct El as [?|[?|[_ ->]]]; [discriminate|discriminate|reflexivity]. }
  rewrite X1. destruct (Nat.leb_spec j (spos s)) as [|_]; [lia|].
  assert (X2 : ne && (j =? length buf) = false).
  { destruct ne; [|reflexivity]. cbn. apply Nat.eqb_neq. rewrite ET, len_text. specialize (Hne eq_refl). lia. }
  rewrite X2. destruct (Nat.ltb_spec (length buf) j); [lia|].
  rewrite (In_tget t _ a (tk_names L t HT) W).
  assert (X3 : negb (ng || ab) && negb (isglobal a) = false).
  { destruct ng; [auto|]. destruct ab; [auto|]. destruct El as [?|[?|[-> _]]]; [discriminate|discriminate|reflexivity]. }
  rewrite X3.
  pose proof (contained_origin s buf l l' h j a I Hj Hlt W A (fun b e Ib Lt => B b e Ib (or_introl Lt))) as CO.
  destruct (contained_in_list l' a (spos s)) eqn:X4; [exfalso; apply No, CO; auto|]. clear CO.
  pose proof (fun b e H => ends_beyond s buf l h j a I Hj Hp W b e H) as EB.
  set (len := length (avalue a)) in *. set (i := spos s) in *.
  rewrite shift_list_ok.
  2:{ intros b e Ib Lt. apply A, (i_incl _ _ _ _ I) in Ib. specialize (EB b e Ib (Nat.lt_le_incl _ _ Lt)). lia. }
  cbn [rbind].
  set (sh := shiftz i (Z.of_nat len - Z.of_nat (j - i))).
  assert (SH : forall b e, In (b, e) h -> sh e = shift_end i j len e).
  { intros b e Ib. unfold sh, shiftz, shift_end. destruct (Nat.ltb_spec i e) as [Lt|Ge]; [|auto].
    specialize (EB b e Ib (Nat.lt_le_incl _ _ Lt)). lia. }
  assert (SHc : forall b e, In (b, e) h -> (i < e /\ j <= e /\ sh e = e - (j - i) + len) \/ (e < i /\ sh e = e)).
  { intros b e Ib. rewrite (SH b e Ib). unfold shift_end. destruct (Nat.ltb_spec i e) as [Lt|Ge].
    - left. specialize (EB b e Ib (Nat.lt_le_incl _ _ Lt)). lia.
    - right. split; [|auto]. destruct (Nat.eq_dec e i) as [->|]; [|lia]. 
      specialize (EB b i Ib (Nat.le_refl _)). lia. }
  clearbody sh.
  exists (breplace buf i (j - i) (avalue a)), (add_to_aliaslist (map (fun x => (fst x, sh (snd x))) l') a (i + len)),
    ((a, i + len) :: map (fun x => (fst x, sh (snd x))) h).
  split; [reflexivity|].
  assert (Hi : i <= length buf) by lia.
  assert (BR : breplace buf i (j - i) (avalue a) = firstn i buf ++ avalue a ++ skipn j buf)
    by (unfold breplace; do 3 f_equal; lia).
  assert (LB : length (breplace buf i (j - i) (avalue a)) = length buf - (j - i) + len).
  { rewrite BR, !app_length, firstn_length, skipn_length. lia. }
  assert (Hin : forall b e', In (b, e') ((a, i + len) :: map (fun x => (fst x, sh (snd x))) h) <->
     (b = a /\ e' = i + len) \/ exists e, In (b, e) h /\ e' = sh e).
  { intros b e'. cbn [In]. rewrite in_map_iff. split.
    - intros [[= <- <-]|((b0 & e0) & [= <- <-] & Ib)]; [auto|right; eauto].
    - intros [[-> ->]|(e & Ib & ->)]; [auto|right]. exists (b, e). auto. }
  set (h' := (a, i + len) :: map (fun x => (fst x, sh (snd x))) h) in Hin |- *. clearbody h'.
  constructor; cbn [stext spos sends seof].
  - rewrite BR, ET. symmetry. unfold chars at 1. cbn [stext]. apply chars_replace.
  - alia.
  - (* origins *)
    intros p P1 P2 id. rewrite LB in P2. unfold origins at 1. cbn [stext].
    assert (LT : length (stext s) = length buf) by (rewrite ET, len_text; auto).
    destruct (Nat.lt_ge_cases p (i + len)) as [Pl|Pg].
    + rewrite nth_replace2 by (rewrite ?map_length; fold len; alia).
      replace (nth (p - i) (map (fun c => (c, aid a :: origins s i)) (avalue a)) (0%N, [])) with
        (nth (p - i) (avalue a) 0%N, aid a :: origins s i).
      2:{ rewrite (nth_indep _ _ ((fun c => (c, aid a :: origins s i)) 0%N)) by (rewrite map_length; fold len; alia).
          rewrite (map_nth (fun c => (c, aid a :: origins s i))). reflexivity. }
      cbn [snd In]. rewrite (i_orig _ _ _ _ I i) by alia. split.
      * intros [<-|(b & e & Ib & Ea & Lt)].
        -- exists a, (i + len). rewrite Hin. split; [auto|]. split; [auto|alia].
        -- exists b, (sh e). rewrite Hin. split; [right; eauto|]. split; [auto|].
           destruct (SHc b e Ib) as [?|?]; alia.
      * intros (b & e' & Ib & Ea & Lt). apply Hin in Ib as [[-> ->]|(e & Ib & ->)]; [auto|].
        right. exists b, e. split; [auto|]. split; [auto|]. destruct (SHc b e Ib) as [?|?]; alia.
    + rewrite nth_replace3 by (rewrite ?map_length; fold len; alia). rewrite map_length. fold len.
      set (q := p - (i + len) + j). fold (origins s q).
      rewrite (i_orig _ _ _ _ I q) by (unfold q; fold i; alia). split.
      * intros (b & e & Ib & Ea & Lt). exists b, (sh e). rewrite Hin. split; [right; eauto|]. split; [auto|].
        destruct (SHc b e Ib) as [?|?]; unfold q in *; alia.
      * intros (b & e' & Ib & Ea & Lt). apply Hin in Ib as [[-> ->]|(e & Ib & ->)]; [alia|].
        exists b, e. split; [auto|]. split; [auto|]. destruct (SHc b e Ib) as [?|?]; unfold q in *; alia.
  - (* uniqueness *)
    assert (NA : forall b e, In (b, e) h -> i < e -> aid b <> aid a).
    { intros b e Ib Lt Ea. apply No. fold i. rewrite <- Ea. apply (i_orig _ _ _ _ I i); try alia. eauto. }
    intros b e b' e' Ib Ib' Lt Lt' Ea. apply Hin in Ib, Ib'.
    destruct Ib as [[-> ->]|(e0 & Ib & ->)]; destruct Ib' as [[-> ->]|(e0' & Ib' & ->)]; auto.
    + destruct (SHc _ _ Ib') as [?|?]; [|alia]. exfalso. eapply NA; [exact Ib'|alia|auto].
    + destruct (SHc _ _ Ib) as [?|?]; [|alia]. exfalso. eapply NA; [exact Ib|alia|auto].
    + f_equal. destruct (SHc _ _ Ib) as [?|?]; [|alia]. destruct (SHc _ _ Ib') as [?|?]; [|alia].
      eapply (i_uniq _ _ _ _ I); eauto; fold i; alia.
  - (* delimiters *)
    intros b e' Ib Le. apply Hin in Ib as [[-> ->]|(e & Ib & ->)].
    + rewrite LB. split; [alia|]. rewrite BR, nth_replace3 by (fold len; alia). fold len.
      replace (i + len - (i + len) + j) with j by alia. split; [auto|].
      intros [_ Hf]%orb_false_iff. apply Nat.eqb_neq in Hf. rewrite <- len_text, <- ET in Hf. alia.
    + destruct (SHc _ _ Ib) as [(Lt & Ge & ->)|(Lt & Eq)]; [|alia].
      destruct (i_delim _ _ _ _ I b e Ib) as (D1 & D2 & D3); [fold i; alia|].
      rewrite LB. split; [alia|]. rewrite BR, nth_replace3 by (fold len; alia). fold len.
      replace (e - (j - i) + len - (i + len) + j) with e by alia. split; [auto|].
      intros [Hs _]%orb_false_iff. specialize (D3 Hs). alia.
  - (* ends *)
    intros e'. rewrite HE. setoid_rewrite Hin. split.
    + intros [(e0 & I0 & ->)|[BE ->]].
      * apply (i_ends _ _ _ _ I) in I0 as (b & Ib & BE). exists b. split; [|auto].
        right. exists e0. split; [auto|]. symmetry. apply (SH b); auto.
      * exists a. auto.
    + intros (b & [[-> ->]|(e & Ib & ->)] & BE); [auto|]. left. exists e.
      split; [apply (i_ends _ _ _ _ I); eauto|]. apply (SH b); auto.
  - (* sorted *)
    apply add_sorted, map_sorted; auto. intros [b e] [b' e'] Ib Ib' Le. cbn [snd] in *.
    apply A, (i_incl _ _ _ _ I) in Ib. apply A, (i_incl _ _ _ _ I) in Ib'.
    destruct (SHc _ _ Ib) as [?|?]; destruct (SHc _ _ Ib') as [?|?]; alia.
  - (* incl *)
    intros [b e'] Ib. apply Hin. apply add_In in Ib as [[= -> ->]|Ib]; [now left|]. right.
    apply in_map_iff in Ib as ((b0 & e) & [= <- <-] & Ib). exists e.
    split; [|auto]. apply (i_incl _ _ _ _ I), A; auto.
  - (* keep *)
    intros b e' Ib T. apply add_In. apply Hin in Ib as [[-> ->]|(e & Ib & ->)]; [auto|]. right.
    apply in_map_iff. exists (b, e). split; [auto|]. apply (i_keep _ _ _ _ I'); auto. fold i.
    destruct (SHc _ _ Ib) as [?|[Lt Eq]]; [alia|]. right. destruct T as [T|T]; [alia|].
    destruct T as (T1 & T2 & T3 & T4). split; [auto|]. split; [auto|]. split; [alia|].
    intros p P1 P2. specialize (T4 p ltac:(alia) P2).
    rewrite BR, nth_replace1 in T4 by alia. auto.
Qed.

Lemma linecont_ok s buf l h k : Inv s buf l h -> spos s <= k -> k + 2 <= length buf ->
  nth k buf 0%N = 92%N -> nth (k + 1) buf 0%N = 10%N ->
  incl (origins s k) (origins s (k + 1)) ->
  exists buf' l' h', line_continuation buf l k = Ok (buf', l') /\
    Inv (mkS (firstn k (stext s) ++ skipn (k + 2) (stext s)) (spos s)
           (map (fun e => if k + 1 <? e then e - 2 else e) (sends s)) (seof s)) buf' l' h'.
Proof.
  intros I Hp Hk C0 C1 HI. pose proof (i_text _ _ _ _ I) as ET.
  unfold line_continuation, bget.
  destruct (Nat.ltb_spec (length buf) k); [lia|]. destruct (Nat.ltb_spec (length buf) (k + 1)); [lia|].
  cbn [rbind]. rewrite C0, C1. cbn [N.eqb Pos.eqb andb negb].
  set (i := spos s) in *.
  assert (NE : forall b e, In (b, e) h -> i <= e -> e <> k /\ e <> k + 1).
  { intros b e Ib Le. destruct (i_delim _ _ _ _ I b e Ib Le) as (D1 & D2 & _). split; intros ->.
    - rewrite C0, backslash_not_delim in D2; [discriminate|auto].
    - destruct (proj1 (i_orig _ _ _ _ I (k + 1) ltac:(fold i; lia) ltac:(lia) (aid b))) as (b' & e' & Ib' & Ea & Lt).
      { apply HI. apply (i_orig _ _ _ _ I k); [fold i; lia|lia|]. exists b, (k + 1). split; [auto|]. split; [auto|lia]. }
      assert (k + 1 = e') by (eapply (i_uniq _ _ _ _ I b (k + 1) b' e'); eauto; fold i; lia). lia. }
  rewrite shift_list_ok by (intros; lia). cbn [rbind].
  set (sh := shiftz (k + 1) (-2)).
  assert (SHe : forall e, sh e = if k + 1 <? e then e - 2 else e).
  { intros e. unfold sh, shiftz. destruct (k + 1 <? e); lia. }
  assert (SHc : forall b e, In (b, e) h -> (k + 2 <= e /\ sh e = e - 2) \/ (i <= e < k /\ sh e = e) \/ (e < i /\ sh e = e)).
  { intros b e Ib. rewrite SHe. destruct (Nat.ltb_spec (k + 1) e); [left; lia|].
    destruct (Nat.le_gt_cases i e) as [Le|]; [|lia]. destruct (NE b e Ib Le). lia. }
  clearbody sh.
  eexists _, _, (map (fun x => (fst x, sh (snd x))) h). split; [reflexivity|].
  assert (LB : length (firstn k buf ++ skipn (k + 2) buf) = length buf - 2)
    by (rewrite app_length, firstn_length, skipn_length; lia).
  assert (N1 : forall p, p < k -> nth p (firstn k buf ++ skipn (k + 2) buf) 0%N = nth p buf 0%N)
    by (intros; apply (nth_replace1 0%N buf k [] (k + 2)); lia).
  assert (N2 : forall p, k <= p -> nth p (firstn k buf ++ skipn (k + 2) buf) 0%N = nth (p + 2) buf 0%N).
  { intros p P. rewrite (nth_replace3 0%N buf k [] (k + 2)) by (cbn; lia). cbn. f_equal. lia. }
  assert (Hin : forall b e', In (b, e') (map (fun x => (fst x, sh (snd x))) h) <-> exists e, In (b, e) h /\ e' = sh e).
  { intros b e'. rewrite in_map_iff. split.
    - intros ((b0 & e0) & [= <- <-] & Ib). eauto.
    - intros (e & Ib & ->). exists (b, e). auto. }
  constructor; cbn [stext spos sends seof].
  - rewrite ET. symmetry. unfold chars at 1. cbn [stext].
    unfold chars. rewrite map_app, firstn_map, skipn_map. reflexivity.
  - fold i. alia.
  - intros p P1 P2 id. fold i in P1. rewrite LB in P2. unfold origins. cbn [stext].
    assert (LT : length (stext s) = length buf) by (rewrite ET, len_text; auto).
    destruct (Nat.lt_ge_cases p k) as [Pl|Pg].
    + replace (nth p (firstn k (stext s) ++ skipn (k + 2) (stext s)) (0%N, [])) with (nth p (stext s) (0%N, []))
        by (symmetry; apply (nth_replace1 (0%N, []) (stext s) k [] (k + 2)); alia).
      fold (origins s p). rewrite (i_orig _ _ _ _ I p) by (fold i; alia). split.
      * intros (b & e & Ib & Ea & Lt). exists b, (sh e). rewrite Hin. split; [eauto|]. split; [auto|].
        destruct (SHc _ _ Ib) as [?|[?|?]]; alia.
      * intros (b & e' & Ib & Ea & Lt). apply Hin in Ib as (e & Ib & ->). exists b, e. split; [auto|]. split; [auto|].
        destruct (SHc _ _ Ib) as [?|[?|?]]; alia.
    + replace (nth p (firstn k (stext s) ++ skipn (k + 2) (stext s)) (0%N, [])) with (nth (p + 2) (stext s) (0%N, []))
        by (symmetry; rewrite (nth_replace3 (0%N, []) (stext s) k [] (k + 2)) by (cbn; alia); f_equal; cbn; alia).
      fold (origins s (p + 2)). rewrite (i_orig _ _ _ _ I (p + 2)) by (fold i; alia). split.
      * intros (b & e & Ib & Ea & Lt). exists b, (sh e). rewrite Hin. split; [eauto|]. split; [auto|].
        destruct (SHc _ _ Ib) as [?|[?|?]]; alia.
      * intros (b & e' & Ib & Ea & Lt). apply Hin in Ib as (e & Ib & ->). exists b, e. split; [auto|]. split; [auto|].
        destruct (SHc _ _ Ib) as [?|[?|?]]; alia.
  - intros b e b' e' Ib Ib' Lt Lt' Ea. fold i in Lt, Lt'. apply Hin in Ib as (e0 & Ib & ->). apply Hin in Ib' as (e0' & Ib' & ->).
    f_equal. eapply (i_uniq _ _ _ _ I); eauto; fold i.
    + destruct (SHc _ _ Ib) as [?|[?|?]]; alia.
    + destruct (SHc _ _ Ib') as [?|[?|?]]; alia.
  - intros b e' Ib Le. fold i in Le. apply Hin in Ib as (e & Ib & ->).
    destruct (i_delim _ _ _ _ I b e Ib) as (D1 & D2 & D3).
    { fold i. destruct (SHc _ _ Ib) as [?|[?|?]]; alia. }
    rewrite LB. destruct (SHc _ _ Ib) as [[G1 ->]|[[G1 ->]|?]]; [| |alia].
    + split; [alia|]. rewrite N2 by alia. replace (e - 2 + 2) with e by alia. split; [auto|].
      intros H1. specialize (D3 H1). alia.
    + split; [alia|]. rewrite N1 by alia. split; [auto|]. alia.
  - intros e'. rewrite in_map_iff. setoid_rewrite Hin. split.
    + intros (e & <- & Ie). apply (i_ends _ _ _ _ I) in Ie as (b & Ib & BE). exists b. split; [|auto].
      exists e. split; [auto|]. symmetry. apply SHe.
    + intros (b & (e & Ib & ->) & BE). exists e. split; [symmetry; apply SHe|]. apply (i_ends _ _ _ _ I). eauto.
  - apply map_sorted; [apply (i_sorted _ _ _ _ I)|]. intros [b e] [b' e'] Ib Ib' Le. cbn [snd] in *.
    apply (i_incl _ _ _ _ I) in Ib, Ib'.
    destruct (SHc _ _ Ib) as [?|[?|?]]; destruct (SHc _ _ Ib') as [?|[?|?]]; alia.
  - intros [b e'] Ib. apply in_map_iff in Ib as ((b0 & e) & [= <- <-] & Ib). apply in_map_iff. exists (b0, e).
    split; [auto|]. apply (i_incl _ _ _ _ I); auto.
  - intros b e' Ib T. fold i in T. apply Hin in Ib as (e & Ib & ->). apply in_map_iff. exists (b, e). split; [auto|].
    apply (i_keep _ _ _ _ I); auto. fold i. destruct (SHc _ _ Ib) as [?|[[G1 G2]|[Lt Eq]]]; [left; alia| |].
    + destruct (Nat.eq_dec e i) as [->|]; [|left; alia]. right. destruct T as [T|T]; [alia|].
      destruct T as (T1 & T2 & T3 & T4). split; [auto|]. split; [auto|]. split; [alia|]. intros; alia.
    + right. destruct T as [T|T]; [alia|]. destruct T as (T1 & T2 & T3 & T4).
      split; [auto|]. split; [auto|]. split; [alia|].
      intros p P1 P2. specialize (T4 p ltac:(alia) P2). rewrite N1 in T4 by alia. auto.
Qed.

Lemma advance_ok s buf l h i : Inv s buf l h -> spos s <= i -> i <= length buf ->
  Inv (mkS (stext s) i (sends s) (seof s)) buf l h.
Proof.
  intros I Hp Hi. constructor; cbn [stext spos sends seof].
  - apply (i_text _ _ _ _ I).
  - auto.
  - intros p P1 P2. apply (i_orig _ _ _ _ I p); lia.
  - intros. eapply (i_uniq _ _ _ _ I); eauto; lia.
  - intros. eapply (i_delim _ _ _ _ I); eauto; lia.
  - apply (i_ends _ _ _ _ I).
  - apply (i_sorted _ _ _ _ I).
  - apply (i_incl _ _ _ _ I).
  - intros a e Ia T. apply (i_keep _ _ _ _ I); auto. destruct T as [T|(T1 & T2 & T3 & T4)]; [left; lia|].
    destruct (Nat.le_gt_cases e (spos s)); [|left; lia]. right.
    split; [auto|]. split; [auto|]. split; [auto|]. intros p P1 P2. apply T4; lia.
Qed.

Lemma read_ok s buf l h x : Inv s buf l h -> seof s = false ->
  Inv (mkS (stext s ++ map (fun c => (c, [])) x) (spos s) (sends s) (seof s)) (buf ++ x) l h.
Proof.
  intros I Hs. pose proof (i_pos _ _ _ _ I) as Hp. pose proof (i_text _ _ _ _ I) as ET.
  assert (LT : length (stext s) = length buf) by (rewrite ET, len_text; auto).
  constructor; cbn [stext spos sends seof].
  - unfold chars. cbn. rewrite map_app, map_map, map_id, ET. reflexivity.
  - rewrite app_length. lia.
  - intros p P1 P2 id. rewrite app_length in P2. unfold origins. cbn [stext].
    destruct (Nat.lt_ge_cases p (length buf)).
    + rewrite app_nth1 by lia. apply (i_orig _ _ _ _ I p); auto.
    + rewrite app_nth2 by lia.
      rewrite (map_nth (fun c => (c, @nil nat)) x 0%N). cbn. split; [easy|].
      intros (a & e & Ia & _ & Lt). destruct (i_delim _ _ _ _ I a e Ia) as (D & _); [lia|]. lia.
  - apply (i_uniq _ _ _ _ I).
  - intros a e Ia Le. destruct (i_delim _ _ _ _ I a e Ia Le) as (D1 & D2 & D3). specialize (D3 Hs).
    rewrite app_length. split; [lia|]. rewrite app_nth1 by lia. split; [auto|lia].
  - apply (i_ends _ _ _ _ I).
  - apply (i_sorted _ _ _ _ I).
  - apply (i_incl _ _ _ _ I).
  - intros a e Ia T. apply (i_keep _ _ _ _ I); auto. destruct T as [T|(T1 & T2 & T3 & T4)]; [auto|].
    right. split; [auto|]. split; [auto|]. split; [auto|]. intros p P1 P2. specialize (T4 p P1 P2).
    rewrite app_nth1 in T4 by lia. auto.
Qed.

Lemma step_ok s buf l h e s' b : Inv s buf l h -> sstep L posix t s e s' b ->
  exists buf' l' h', cstep L posix t (buf, spos s, l) e = Ok (buf', spos s', l', b) /\ Inv s' buf' l' h'.
Proof.
  intros I St. pose proof (i_text _ _ _ _ I) as ET.
  assert (LT : length (stext s) = length buf) by (rewrite ET, len_text; auto).
  inversion St; subst; cbn [cstep spos].
  - exists (chars s), l, h. split; [auto|]. apply advance_ok; auto. rewrite LT in *. auto.
  - rewrite LT in *. edestruct replace_ok as (buf' & l' & h' & E & I'); eauto.
    rewrite E. cbn [rbind]. exists buf', l', h'. split; [reflexivity|]. rewrite LT in I'. auto.
  - rewrite LT in *. edestruct keep_ok as (l' & E & I'); eauto.
    rewrite E. cbn [rbind]. exists (chars s'), l', h. auto.
  - rewrite LT in *. edestruct linecont_ok as (buf' & l' & h' & E & I'); eauto.
    rewrite E. cbn [rbind]. exists buf', l', h'. auto.
  - exists (chars s ++ l0), l, h. split; [auto|]. apply read_ok; auto.
Qed.

Lemma runs_ok es : forall s buf l h s' bs, Inv s buf l h -> sruns L posix t s es s' bs ->
  exists l', cruns L posix t (buf, spos s, l) es = Ok (chars s', spos s', l', bs).
Proof.
  induction es as [|e es IH]; intros s buf l h s' bs I R; inversion R; subst; cbn [cruns].
  - exists l. now rewrite (i_text _ _ _ _ I).
  - edestruct step_ok as (buf' & l' & h' & E & I'); eauto. rewrite E. cbn [rbind].
    edestruct IH as (l'' & E'); eauto. rewrite E'. cbn [rbind]. eauto.
Qed.

End A.

(** ** Termination *)
Section Term.
Variable L : locale.
Variable posix : bool.
Variable t : table.
Hypothesis HT : table_ok L t.

Definition ids := map (fun e : list N * alias => aid (snd e)) t.
Definition memn (n : nat) (o : list nat) := existsb (Nat.eqb n) o.
Definition depth (o : list nat) : nat := length (filter (fun n => memn n o) ids).
Definition K := S (max_value t).
Definition wgt (o : list nat) : nat := K ^ (length t - depth o).
Definition tot (l : list (N * list nat)) : nat := fold_right (fun x m => wgt (snd x) + m) 0 l.
Definition M (s : sstate) : nat := tot (skipn (spos s) (stext s)).

Lemma memn_In n o : memn n o = true <-> In n o.
Proof.
  unfold memn. rewrite existsb_exists. split.
  - intros (x & I & E). apply Nat.eqb_eq in E. now subst.
  - intros I. exists n. split; [auto|apply Nat.eqb_refl].
Qed.
Lemma wgt_pos o : 1 <= wgt o.
Proof. unfold wgt. assert (K ^ (length t - depth o) <> 0); [|lia]. apply Nat.pow_nonzero. discriminate. Qed.

Lemma tot_app a b : tot (a ++ b) = tot a + tot b.
Proof. induction a as [|x a IH]; cbn [tot fold_right app]; [reflexivity|]. unfold tot in *. lia. Qed.
Lemma tot_skipn n l : tot (skipn n l) <= tot l.
Proof.
  revert l. induction n as [|n IH]; intros [|x l]; cbn [skipn]; auto. specialize (IH l).
  cbn [tot fold_right]. fold (tot l). lia.
Qed.
Lemma tot_const o v : tot (map (fun c => (c, o)) v) = length v * wgt o.
Proof.
  induction v as [|c v IH]; [reflexivity|]. cbn [map tot fold_right length Nat.mul snd].
  fold (tot (map (fun c => (c, o)) v)). lia.
Qed.

Lemma depth_cons id o : NoDup ids -> In id ids -> ~ In id o -> depth (id :: o) = S (depth o).
Proof.
  unfold depth. generalize ids. intros is N I Nid.
  assert (E : forall js, ~ In id js -> filter (fun n => memn n (id :: o)) js = filter (fun n => memn n o) js).
  { induction js as [|j js IH]; [reflexivity|]. cbn [filter In]. intros NI. rewrite IH by tauto.
    replace (memn j (id :: o)) with (memn j o); [reflexivity|]. unfold memn. cbn.
    destruct (Nat.eqb_spec j id); [subst; tauto|reflexivity]. }
  apply in_split in I as (a & b & ->). apply NoDup_remove in N as [N1 N2].
  rewrite in_app_iff in N2. rewrite !filter_app, !app_length. cbn [filter].
  replace (memn id (id :: o)) with true by (unfold memn; cbn; now rewrite Nat.eqb_refl).
  replace (memn id o) with false.
  2:{ symmetry. destruct (memn id o) eqn:Em; auto. apply memn_In in Em. tauto. }
  rewrite !E by tauto. cbn. lia.
Qed.
Lemma depth_le o : depth o <= length t.
Proof.
  unfold depth, ids. rewrite <- (map_length (fun e => aid (snd e)) t).
  generalize (map (fun e : list N * alias => aid (snd e)) t). induction l; cbn; [lia|]. destruct (memn a o); cbn; lia.
Qed.
Lemma value_le n a : In (n, a) t -> length (avalue a) <= max_value t.
Proof.
  unfold max_value. induction t as [|[m b] t' IH]; cbn; [easy|]. intros [[= -> ->]|I]; [lia|].
  assert (X : forall (tt : table), In (n, a) tt -> length (avalue a) <=
    fold_right (fun e m => Nat.max (length (avalue (snd e))) m) 0 tt).
  { induction tt as [|[m' b'] tt IHt]; cbn; [easy|]. intros [[= -> ->]|J]; [lia|]. specialize (IHt J). lia. }
  specialize (X _ I). lia.
Qed.

Definition reads (e : event) : nat := match e with ERead s => length s | _ => 0 end.

Lemma step_measure s e s' b : sstep L posix t s e s' b ->
  (if b then 1 else 0) + M s' <= M s + reads e * K ^ length t.
Proof.
  intros St. inversion St; subst; unfold M; cbn [spos stext reads].
  - replace (skipn i (stext s)) with (skipn (i - spos s) (skipn (spos s) (stext s))).
    + pose proof (tot_skipn (i - spos s) (skipn (spos s) (stext s))). lia.
    + rewrite skipn_skipn'. f_equal. lia.
  - destruct H2 as (Hlt & _ & I & _ & No).
    rewrite skipn_app, skipn_all2 by (rewrite firstn_length; lia).
    rewrite firstn_length, Nat.min_l, Nat.sub_diag by lia. cbn [skipn app].
    rewrite tot_app, tot_const.
    rewrite (skipn_nth_cons (0%N, []) (stext s) (spos s)) by lia. cbn [tot fold_right].
    fold (tot (skipn (S (spos s)) (stext s))). fold (origins s (spos s)).
    replace (skipn j (stext s)) with (skipn (j - S (spos s)) (skipn (S (spos s)) (stext s)))
      by (rewrite skipn_skipn'; f_equal; lia).
    pose proof (tot_skipn (j - S (spos s)) (skipn (S (spos s)) (stext s))).
    assert (Iid : In (aid a) ids) by (unfold ids; apply (in_map (fun e => aid (snd e)) _ _ I)).
    unfold wgt. rewrite (depth_cons (aid a) (origins s (spos s)) (tk_ids L t HT) Iid No).
    pose proof (depth_le (aid a :: origins s (spos s))) as DL.
    rewrite (depth_cons (aid a) (origins s (spos s)) (tk_ids L t HT) Iid No) in DL.
    set (d := depth (origins s (spos s))) in *.
    replace (length t - d) with (S (length t - S d)) by lia. rewrite Nat.pow_succ_r'.
    pose proof (value_le _ _ I). unfold K at 2. 
    assert (K ^ (length t - S d) <> 0) by (apply Nat.pow_nonzero; discriminate).
    set (w := K ^ (length t - S d)) in *.
    assert (X : (length (avalue a) + 1) * w <= S (max_value t) * w) by (apply Nat.mul_le_mono_r; lia).
    set (T1 := tot (skipn (S (spos s)) (stext s))) in *.
    set (T2 := tot (skipn (j - S (spos s)) (skipn (S (spos s)) (stext s)))) in *.
    clearbody T1 T2 w. alia.
  - lia.
  - rewrite skipn_app, firstn_length, Nat.min_l by lia.
    replace (spos s - k) with 0 by lia. cbn [skipn]. rewrite tot_app.
    replace (skipn (spos s) (stext s)) with (skipn (spos s) (firstn k (stext s)) ++ skipn k (stext s)).
    + rewrite tot_app. replace (skipn (k + 2) (stext s)) with (skipn 2 (skipn k (stext s)))
        by (rewrite skipn_skipn'; f_equal; lia).
      pose proof (tot_skipn 2 (skipn k (stext s))). lia.
    + rewrite <- (firstn_skipn k (stext s)) at 3. rewrite skipn_app, firstn_length, Nat.min_l by lia.
      replace (spos s - k) with 0 by lia. reflexivity.
  - rewrite skipn_app, tot_app. 
    pose proof (tot_skipn (spos s - length (stext s)) (map (fun c => (c, @nil nat)) l)) as X.
    rewrite tot_const in X. unfold wgt in X.
    replace (depth []) with 0 in X.
    + rewrite Nat.sub_0_r in X. lia.
    + unfold depth. replace (filter (fun n => memn n []) ids) with (@nil nat); auto.
      induction ids; cbn; auto.
Qed.

Lemma runs_measure es : forall s s' bs, sruns L posix t s es s' bs ->
  length (filter (fun b => b) bs) + M s' <= M s + text_read es * K ^ length t.
Proof.
  induction es as [|e es IH]; intros s s' bs R; inversion R; subst; cbn [filter length text_read]; [lia|].
  pose proof (step_measure _ _ _ _ H2). specialize (IH _ _ _ H5).
  destruct b; destruct e; cbn [reads length text_read] in *; lia.
Qed.
End Term.
