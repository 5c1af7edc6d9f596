(** Properties C09 (growable lists and buffers), C35 (conversion between wide and
    multibyte strings) and C36 (formatting and joining). *)
From Coq Require Import List NArith ZArith Bool Lia.
From Coq Require Import ZifyBool ZifyN ZifyNat.
From Verif Require Import Common BufModel BufSpec BufProofs StrbufModel StrbufSpec StrbufProofs.
Import ListNotations.
Local Open Scope N_scope.

(** ** C09 *)
Section C09.
Variable A : Type.
Variable nul : A.
Variable isnul : A -> bool.
Variable esz step : N.
Variable alloc : N -> bool.
Hypothesis Hesz : 0 < esz.
Notation holds := (@holds A nul esz).
Notation becomes := (@becomes A nul esz step alloc).

(** Replacing in a pointer list is splicing, wherever the indices point; the shell
    aborts only when the list has to grow and cannot. *)
Theorem plist_replace : forall b l i n mem a rest,
  holds b l -> i < SIZE_MOD -> n < SIZE_MOD -> lenN a < SIZE_MOD -> mem = map Some a ++ rest ->
  becomes b (splice l i n a) (pl_replace A nul esz step alloc b i n mem (lenN a)).
Proof. intros. eapply (pl_replace_spec A nul isnul esz step alloc Hesz); eauto. Qed.

(** The same for string buffers, which take at most [sn] characters of a
    null-terminated string. *)
Theorem strbuf_replace : forall b l i n mem s sn,
  holds b l -> is_array isnul mem s -> i < SIZE_MOD -> n < SIZE_MOD -> sn < SIZE_MOD ->
  becomes b (splice l i n (firstn (N.to_nat sn) s)) (b_replace A nul isnul esz step alloc b i n mem sn).
Proof. intros. eapply (b_replace_spec A nul isnul esz step alloc Hesz); eauto. Qed.

(** The derived operations. *)
Theorem plist_insert : forall b l i mem a,
  holds b l -> is_array isnul mem a -> i < SIZE_MOD -> lenN a < SIZE_MOD ->
  becomes b (firstn (N.to_nat i) l ++ a ++ skipn (N.to_nat i) l)
    (pl_insert A nul isnul esz step alloc b i mem).
Proof.
  intros b l i mem a H Ha Hi Hl. unfold pl_insert.
  rewrite (plcount_spec A nul isnul esz step alloc Hesz _ _ Ha). cbn [rbind].
  destruct Ha as [[z [t [-> _]]] _].
  pose proof (plist_replace b l i 0 _ a (Some z :: t) H Hi ltac:(reflexivity) Hl eq_refl) as R.
  unfold splice in R. change (N.to_nat 0) with O in R. rewrite Nat.add_0_r in R. exact R.
Qed.
Theorem plist_remove : forall b l i n, holds b l -> i < SIZE_MOD -> n < SIZE_MOD ->
  becomes b (firstn (N.to_nat i) l ++ skipn (N.to_nat i + N.to_nat n) l)
    (pl_remove A nul esz step alloc b i n).
Proof.
  intros b l i n H Hi Hn. unfold pl_remove.
  exact (plist_replace b l i n [Some nul] [] [Some nul] H Hi Hn ltac:(reflexivity) eq_refl).
Qed.

Lemma splice_end : forall (l a : list A), lenN l <= SIZE_MAX -> splice l SIZE_MAX 0 a = l ++ a.
Proof.
  intros l a H. unfold splice. rewrite firstn_all2 by (unfold lenN in *; lia).
  rewrite skipn_all2 by (unfold lenN in *; lia). now rewrite app_nil_r.
Qed.
Lemma holds_le_max : forall b l, holds b l -> lenN l <= SIZE_MAX.
Proof.
  intros b l H. pose proof (holds_small A nul isnul esz step alloc Hesz b l H) as [_ Q].
  destruct H as [<- _]. unfold SIZE_MOD, SIZE_MAX in *. lia.
Qed.
Theorem plist_append : forall b l mem a, holds b l -> is_array isnul mem a -> lenN a < SIZE_MOD ->
  becomes b (l ++ a) (pl_cat A nul isnul esz step alloc b mem).
Proof.
  intros b l mem a H Ha Hl. unfold pl_cat.
  rewrite (plcount_spec A nul isnul esz step alloc Hesz _ _ Ha). cbn [rbind].
  destruct Ha as [[z [t [-> _]]] _].
  rewrite <- splice_end by (eapply holds_le_max; eauto).
  exact (plist_replace b l SIZE_MAX 0 _ a _ H ltac:(reflexivity) ltac:(reflexivity) Hl eq_refl).
Qed.
Theorem strbuf_append : forall b l mem s, holds b l -> is_array isnul mem s -> lenN s < SIZE_MOD ->
  becomes b (l ++ s) (b_cat A nul isnul esz step alloc b mem).
Proof.
  intros b l mem s H Ha Hl. unfold b_cat.
  rewrite <- splice_end by (eapply holds_le_max; eauto).
  pose proof (strbuf_replace b l SIZE_MAX 0 mem s SIZE_MAX H Ha ltac:(reflexivity) ltac:(reflexivity) ltac:(reflexivity)) as R.
  rewrite firstn_all2 in R; [exact R|]. unfold lenN, SIZE_MOD, SIZE_MAX in *. lia.
Qed.

Theorem buffer_add : forall b l x, holds b l ->
  becomes b (l ++ [x]) (b_add A nul esz step alloc b x).
Proof. exact (b_add_spec A nul isnul esz step alloc Hesz). Qed.
Theorem strbuf_repeat : forall b l x n, holds b l -> n < SIZE_MOD ->
  becomes b (l ++ repeat x (N.to_nat n)) (b_ccat_repeat A nul esz step alloc b x n).
Proof. exact (b_ccat_repeat_spec A nul isnul esz step alloc Hesz). Qed.
Theorem buffer_capacity : forall b l n, holds b l -> n < SIZE_MOD ->
  match b_setmax A nul esz alloc b n with
  | Ok (Some b') => holds b' (firstn (N.to_nat n) l) /\ bmax b' = n
  | Ok None => SIZE_MOD <= (n + 1) * esz \/ alloc ((n + 1) * esz) = false
  | _ => False
  end.
Proof. exact (setmax_spec A nul isnul esz step alloc Hesz). Qed.
Theorem buffer_reserve : forall b l n, holds b l -> n < SIZE_MOD ->
  match b_ensuremax A nul esz step alloc b n with
  | Ok (Some b') => holds b' l /\ n <= bmax b' /\ bmax b <= bmax b'
  | Ok None => oom esz step alloc (bmax b) n
  | _ => False
  end.
Proof. exact (ensuremax_spec A nul isnul esz step alloc Hesz). Qed.

(** Whole histories: any sequence of operations started on a fresh container.  (When
    a single operation may abort is bounded by the theorems above.) *)
Inductive op :=
  | OReplace (i n : N) (a rest : list A) | OAdd (x : A) | ORepeat (x : A) (n : N)
  | OTruncate (n : N) | OClear | OCapacity (n : N) | OReserve (n : N).
Definition run1 (b : buf A) (o : op) : res (option (buf A)) :=
  match o with
  | OReplace i n a rest => pl_replace A nul esz step alloc b i n (map Some a ++ map Some rest) (lenN a)
  | OAdd x => b_add A nul esz step alloc b x
  | ORepeat x n => b_ccat_repeat A nul esz step alloc b x n
  | OTruncate n => b_truncate A nul b n
  | OClear => b_clear A nul b
  | OCapacity n => b_setmax A nul esz alloc b n
  | OReserve n => b_ensuremax A nul esz step alloc b n
  end.
Fixpoint run (b : buf A) (os : list op) : res (option (buf A)) :=
  match os with
  | [] => Ok (Some b)
  | o :: os' => abind (run1 b o) (fun b => run b os')
  end.
(** What they mean for sequences, and when they may be used. *)
Definition seq1 (l : list A) (o : op) : list A :=
  match o with
  | OReplace i n a _ => splice l i n a
  | OAdd x => l ++ [x]
  | ORepeat x n => l ++ repeat x (N.to_nat n)
  | OTruncate n | OCapacity n => firstn (N.to_nat n) l
  | OClear => []
  | OReserve _ => l
  end.
Definition usable (l : list A) (o : op) : Prop :=
  match o with
  | OReplace i n a _ => i < SIZE_MOD /\ n < SIZE_MOD /\ lenN a < SIZE_MOD
  | OTruncate n => n <= lenN l
  | ORepeat _ n | OCapacity n | OReserve n => n < SIZE_MOD
  | OAdd _ | OClear => True
  end.
Fixpoint usable_all (l : list A) (os : list op) : Prop :=
  match os with [] => True | o :: os' => usable l o /\ usable_all (seq1 l o) os' end.

Lemma run1_holds : forall b l o, holds b l -> usable l o ->
  match run1 b o with Ok (Some b') => holds b' (seq1 l o) | Ok None => True | _ => False end.
Proof.
  intros b l o H U. destruct o; cbn [run1 seq1 usable] in *.
  - destruct U as (U1 & U2 & U3).
    pose proof (plist_replace b l i n _ a (map Some rest) H U1 U2 U3 eq_refl : becomes b (splice l i n a) (pl_replace A nul esz step alloc b i n (map Some a ++ map Some rest) (lenN a))) as R.
    destruct (pl_replace _ _ _ _ _ _ _ _ _ _) as [[b'|]| |]; cbn [BufSpec.becomes] in R; try contradiction; auto.
    apply R.
  - pose proof (b_add_spec A nul isnul esz step alloc Hesz b l x H) as R.
    destruct (b_add _ _ _ _ _ _ _) as [[b'|]| |]; cbn [BufSpec.becomes] in R; try contradiction; auto. apply R.
  - pose proof (b_ccat_repeat_spec A nul isnul esz step alloc Hesz b l x n H U) as R.
    destruct (b_ccat_repeat _ _ _ _ _ _ _ _) as [[b'|]| |]; cbn [BufSpec.becomes] in R; try contradiction; auto. apply R.
  - destruct (b_truncate_spec A nul isnul esz step alloc Hesz b l n H U) as (b' & -> & R & _). exact R.
  - destruct (b_clear_spec A nul isnul esz step alloc Hesz b l H) as (b' & -> & R & _). exact R.
  - pose proof (setmax_spec A nul isnul esz step alloc Hesz b l n H U) as R.
    destruct (b_setmax _ _ _ _ _ _) as [[b'|]| |]; try contradiction; auto. apply R.
  - pose proof (ensuremax_spec A nul isnul esz step alloc Hesz b l n H U) as R.
    destruct (b_ensuremax _ _ _ _ _ _ _) as [[b'|]| |]; try contradiction; auto. apply R.
Qed.

Theorem buffer_history : forall max os, max < SIZE_MOD -> usable_all [] os ->
  match abind (b_initwithmax A nul esz alloc max) (fun b => run b os) with
  | Ok (Some b) => holds b (fold_left seq1 os [])
  | Ok None => True
  | _ => False
  end.
Proof.
  intros max os Hm U.
  pose proof (b_initwithmax_spec A nul isnul esz step alloc Hesz max Hm) as I.
  destruct (b_initwithmax A nul esz alloc max) as [[b|]| |]; cbn [abind rbind]; try contradiction; auto.
  destruct I as [I _]. revert b I U. generalize (@nil A). induction os as [|o os IH]; intros l b I U; cbn [run fold_left].
  - exact I.
  - destruct U as [U1 U2]. pose proof (run1_holds b l o I U1) as R.
    destruct (run1 b o) as [[b'|]| |]; cbn [abind rbind]; try contradiction; auto.
    exact (IH _ _ R U2).
Qed.

(** Copying an array. *)
Theorem plist_duplicate : forall copy mem a n,
  is_array isnul mem a -> n < SIZE_MOD -> lenN a < SIZE_MOD ->
  match plndup A nul isnul esz alloc copy mem n with
  | Ok (Some c) => c = map Some (map copy (firstn (N.to_nat n) a)) ++ [Some nul]
  | Ok None => let k := N.min n (lenN a) in
               SIZE_MOD <= (k + 1) * esz \/ alloc ((k + 1) * esz) = false
  | _ => False
  end.
Proof. intros. eapply (plndup_spec A nul isnul esz step alloc Hesz); eauto. Qed.
End C09.

(** A history that makes a wide-character buffer of capacity 2 grow and shrink;
    [a] = 97. *)
Example buffer_history_ex :
  let os := [OAdd N 97; OReplace N 0 0 [98; 99; 100] [0]; OReplace N 1 2 [120; 121; 122] [0];
             ORepeat N 46 9; OReplace N 100 7 [33] []; OCapacity N 6; OTruncate N 5] in
  usable_all N [] os /\
  match abind (b_initwithmax N 0 4 (fun _ => true) 2) (fun b => run N 0 4 8 (fun _ => true) b os) with
  | Ok (Some b) => blen b = 5 /\ bmax b = 6 /\ cstr (contents b) = Ok [98; 120; 121; 122; 97]
  | _ => False
  end.
Proof. vm_compute. intuition discriminate. Qed.
Example buffer_oom_ex :
  abind (b_initwithmax N 0 4 (fun n => n <=? 64) 15)
        (fun b => run N 0 4 8 (fun n => n <=? 64) b [ORepeat N 46 15; OAdd N 97]) = Ok None.
Proof. vm_compute. reflexivity. Qed.
Example is_array_ex : is_array isnul (map Some [97; 98; 0; 99]) [97; 98].
Proof. split; [exists 0, [Some 99]; auto|]. repeat constructor. Qed.

Print Assumptions plist_replace.
Print Assumptions strbuf_replace.
Print Assumptions plist_insert.
Print Assumptions plist_remove.
Print Assumptions plist_append.
Print Assumptions strbuf_append.
Print Assumptions buffer_add.
Print Assumptions strbuf_repeat.
Print Assumptions buffer_capacity.
Print Assumptions buffer_reserve.
Print Assumptions buffer_history.
Print Assumptions plist_duplicate.

(** ** C35 *)
Section C35.
Variable alloc : N -> bool.
Variable enc : N -> option (list N).
Variable dec : list N -> option (N * nat).
Variable MB : N.
Hypothesis OK : encoding_ok enc dec MB.

(** Wide to multibyte: exactly the encoding of the first [n] characters if all of them
    have one, else failure; memory use is linear in the result. *)
Theorem wide_to_multibyte : forall s n, n < SIZE_MOD ->
  match malloc_wcsntombs alloc enc MB s n with
  | Ok (Some r) =>
      r = if snd (encode enc (firstn (N.to_nat n) s))
          then Some (fst (encode enc (firstn (N.to_nat n) s))) else None
  | Ok None =>
      refused alloc (2 * (lenN (fst (encode enc (firstn (N.to_nat n) s))) + MB) + 12 + 16)
  | _ => False
  end.
Proof. intros. exact (malloc_wcsntombs_spec alloc enc dec MB OK s n H). Qed.

(** Multibyte to wide: the decoding if there is one, else failure. *)
Theorem multibyte_to_wide : forall s,
  match malloc_mbstowcs alloc dec s with
  | Ok (Some (Some w)) => is_decoding dec s w
  | Ok (Some None) => forall w, ~ is_decoding dec s w
  | Ok None => refused alloc (4 * (2 * lenN s + 12) + 64)
  | _ => False
  end.
Proof. intros s. exact (malloc_mbstowcs_spec alloc enc dec MB OK s). Qed.

(** There and back again. *)
Theorem conversion_round_trip : inverse enc dec -> forall s bs w,
  malloc_wcsntombs alloc enc MB s SIZE_MAX = Ok (Some (Some bs)) -> lenN s <= SIZE_MAX ->
  malloc_mbstowcs alloc dec bs = Ok (Some w) -> w = Some s.
Proof.
  intros INV s bs w E L E2.
  pose proof (wide_to_multibyte s SIZE_MAX ltac:(reflexivity)) as R. rewrite E in R.
  rewrite firstn_all2 in R by (unfold lenN in *; lia).
  destruct (encode enc s) as [o ok] eqn:Eo. cbn [fst snd] in R. destruct ok; [|discriminate].
  injection R as ->.
  pose proof (encode_decodes alloc enc dec MB OK INV s []) as D. rewrite Eo in D. cbn [fst snd] in D.
  specialize (D eq_refl). rewrite app_nil_r in D.
  pose proof (multibyte_to_wide o) as M. rewrite E2 in M. destruct w as [w|].
  - f_equal. eapply is_decoding_unique; eauto.
  - exfalso. exact (M s D).
Qed.
End C35.

(** An encoding: UTF-8 restricted to two bytes. *)
Definition enc2 (c : N) : option (list N) :=
  if (0 <? c) && (c <? 128) then Some [c]
  else if (128 <=? c) && (c <? 2048) then Some [192 + c / 64; 128 + c mod 64] else None.
Definition dec2 (s : list N) : option (N * nat) :=
  match s with
  | [] => None
  | b :: s' =>
      if (0 <? b) && (b <? 128) then Some (b, 1%nat)
      else match s' with
           | d :: _ =>
               if (194 <=? b) && (b <? 224) && (128 <=? d) && (d <? 192)
               then Some ((b - 192) * 64 + (d - 128), 2%nat) else None
           | [] => None
           end
  end.
Example enc2_ok : encoding_ok enc2 dec2 2.
Proof.
  constructor.
  - split; reflexivity.
  - unfold enc2. intros c bs H. destruct ((0 <? c) && (c <? 128)) eqn:E; [|destruct ((128 <=? c) && (c <? 2048)) eqn:E2; [|discriminate]].
    + assert (bs = [c]) as -> by congruence. rewrite lenN_cons, lenN_nil. split; [lia|]. cbn [In]. lia.
    + assert (bs = [192 + c / 64; 128 + c mod 64]) as -> by congruence. clear H.
      rewrite !lenN_cons, lenN_nil. split; [lia|].
      set (q := c / 64). set (r := c mod 64). clearbody q r. cbn [In]. lia.
  - unfold dec2. intros s c k H. destruct s as [|b s]; [discriminate|].
    destruct ((0 <? b) && (b <? 128)) eqn:E; [injection H as <- <-; cbn [length]; lia|].
    destruct s as [|d s]; [discriminate|].
    destruct ((194 <=? b) && (b <? 224) && (128 <=? d) && (d <? 192)) eqn:E2; [|discriminate].
    injection H as <- <-. cbn [length]. lia.
Qed.
Example enc2_inverse : inverse enc2 dec2.
Proof.
  unfold inverse, enc2. intros c bs s H.
  destruct ((0 <? c) && (c <? 128)) eqn:E; [|destruct ((128 <=? c) && (c <? 2048)) eqn:E2; [|discriminate]].
  - assert (bs = [c]) as -> by congruence. cbn [app dec2 length]. rewrite E. reflexivity.
  - assert (bs = [192 + c / 64; 128 + c mod 64]) as -> by congruence. clear H. cbn [app dec2 length]. pose proof (N.div_mod' c 64) as D. pose proof (N.mod_lt c 64 ltac:(lia)) as M.
    set (q := c / 64) in *. set (r := c mod 64) in *. clearbody q r.
    destruct ((0 <? 192 + q) && (192 + q <? 128)) eqn:E3; [lia|].
    destruct ((194 <=? 192 + q) && (192 + q <? 224) && (128 <=? 128 + r) && (128 + r <? 192)) eqn:E4; [|lia].
    do 2 f_equal. lia.
Qed.
(** 40 characters of two bytes each, in a buffer that has to grow several times. *)
Example wide_to_multibyte_ex :
  malloc_wcsntombs (fun _ => true) enc2 2 (repeat 233 40) SIZE_MAX =
    Ok (Some (Some (concat (repeat [195; 169] 40)))) /\
  malloc_mbstowcs (fun _ => true) dec2 (concat (repeat [195; 169] 40)) = Ok (Some (Some (repeat 233 40))) /\
  malloc_wcsntombs (fun _ => true) enc2 2 (repeat 233 20 ++ [5000]) SIZE_MAX = Ok (Some None) /\
  malloc_mbstowcs (fun _ => true) dec2 [97; 195; 97] = Ok (Some None).
Proof. vm_compute. auto. Qed.
Print Assumptions wide_to_multibyte.
Print Assumptions multibyte_to_wide.
Print Assumptions conversion_round_trip.

(** ** C36 *)
(** Formatted output (bytes) is appended completely, for any length. *)
Theorem printf_appends : forall alloc b l t, holds (0 : N) 1 b l -> lenN t < SIZE_MOD ->
  match sb_vprintf alloc b (Some t) with
  | Ok (Some (b', r)) => holds (0 : N) 1 b' (l ++ t) /\ r = Some (lenN t)
  | Ok None => refused alloc (2 * (lenN l + lenN t) + 11)
  | _ => False
  end.
Proof. exact sb_vprintf_spec. Qed.
Theorem printf_error : forall alloc b l, holds (0 : N) 1 b l ->
  exists b', sb_vprintf alloc b None = Ok (Some (b', None)) /\ holds (0 : N) 1 b' l.
Proof. exact sb_vprintf_error. Qed.

(** Formatted wide output is appended completely if it is not too long.  Missing: longer
    outputs, see the refutation below. *)
Theorem wprintf_appends_partial : forall alloc b l t, holds (0 : N) 4 b l ->
  lenN t < (bmax b - lenN l + 1) * 2 ^ 19 ->
  match wb_vwprintf alloc b (Some t) with
  | Ok (Some (b', r)) => holds (0 : N) 4 b' (l ++ t) /\ r = Some (lenN t)
  | Ok None => exists z, SIZE_MOD <= z \/ alloc z = false
  | _ => False
  end.
Proof. exact wb_vwprintf_ok. Qed.

(** The retry loop gives up after twenty rounds: an output of 17 825 791 characters or
    more is reported as an error on a fresh buffer although memory would suffice. *)
Theorem wprintf_any_length_refuted : exists t : list N,
  lenN t < SIZE_MOD /\
  forall alloc b, b_initwithmax N 0 4 alloc 15 = Ok (Some b) ->
  match wb_vwprintf alloc b (Some t) with
  | Ok (Some (b', r)) => holds (0 : N) 4 b' [] /\ r = None
  | Ok None => exists z, SIZE_MOD <= z \/ alloc z = false
  | _ => False
  end.
Proof.
  assert (E : lenN (repeat (97 : N) (N.to_nat 17825791)) = 17825791).
  { unfold lenN. rewrite repeat_length. apply Nnat.N2Nat.id. }
  exists (repeat 97 (N.to_nat 17825791)). rewrite E. split; [reflexivity|].
  intros alloc b Hb.
  pose proof (b_initwithmax_spec N 0 isnul 4 8 alloc ltac:(reflexivity) 15 ltac:(reflexivity)) as I.
  rewrite Hb in I. destruct I as [I1 I2].
  apply wb_vwprintf_fail; [exact I1|rewrite I2; discriminate|]. rewrite E, I2. discriminate.
Qed.

(** Joining. *)
Theorem join_array : forall alloc a pad,
  Forall (fun s => lenN s < SIZE_MOD) a -> lenN pad < SIZE_MOD -> lenN a < SIZE_MOD ->
  match joinwcsarray alloc a pad with
  | Ok (Some c) => c = map Some (join pad a) ++ [Some 0]
  | Ok None => let k := 4 * (lenN (join pad a) + 1) in SIZE_MOD <= k \/ alloc k = false
  | _ => False
  end.
Proof. exact joinwcsarray_spec. Qed.
Example printf_ex :
  match abind (b_initwithmax N 0 1 (fun _ => true) 15)
          (fun b => sb_vprintf (fun _ => true) b (Some (repeat 97 40))) with
  | Ok (Some (b, r)) => cstr (contents b) = Ok (repeat 97 40) /\ r = Some 40
  | _ => False
  end.
Proof. vm_compute. auto. Qed.
Example wprintf_ex :
  match abind (b_initwithmax N 0 4 (fun _ => true) 15)
          (fun b => wb_vwprintf (fun _ => true) b (Some (repeat 97 100))) with
  | Ok (Some (b, r)) => cstr (contents b) = Ok (repeat 97 100) /\ r = Some 100
  | _ => False
  end.
Proof. vm_compute. auto. Qed.
Example join_ex :
  joinwcsarray (fun _ => true) [[97; 98]; []; [99]] [58; 32] =
    Ok (Some (map Some ([97; 98; 58; 32; 58; 32; 99; 0]))).
Proof. vm_compute. reflexivity. Qed.
Print Assumptions printf_appends.
Print Assumptions printf_error.
Print Assumptions wprintf_appends_partial.
Print Assumptions wprintf_any_length_refuted.
Print Assumptions join_array.
