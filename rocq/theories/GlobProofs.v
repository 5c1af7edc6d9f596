(** The search one level at a time. *)
From Coq Require Import Ascii String.
From Coq Require Import List NArith Bool Arith Lia Permutation.
From Verif Require Import Common GlobModel GlobSpec.
Import ListNotations.
Local Open Scope res_scope.

Lemma bind_ok {A B} (x : res A) (f : A -> res B) b : rbind x f = Ok b -> exists a, x = Ok a /\ f a = Ok b.
Proof. destruct x; cbn; intros H; try discriminate. eauto. Qed.

Definition active (act : list N) (i : nat) : Prop := exists a, nth_error act i = Some a /\ a <> 0%N.

(** * The carrying loop *)
Lemma carry_ok (Q : nat -> N -> Prop) : forall cs act i,
  length act = length cs -> (cs = [] \/ proper cs) ->
  (forall j a, nth_error act j = Some a -> a <> 0%N -> Q (i + j) a) ->
  (forall j a fl ap, nth_error cs j = Some (Rec fl ap) -> a <> 0%N -> Q (i + j) a -> Q (S (i + j)) a) ->
  exists act', carry cs act = Ok act' /\ length act' = length cs /\
    (forall j a, nth_error act' j = Some a -> a <> 0%N -> Q (i + j) a) /\
    (forall j, active act j -> active act' j) /\
    (forall j fl ap, nth_error cs j = Some (Rec fl ap) -> active act' j -> active act' (S j)).
Proof.
  induction cs as [|c cs IH]; intros act i L P H C.
  { destruct act; [|discriminate]. exists []. cbn. repeat split; auto. all: intros; destruct j; discriminate. }
  destruct act as [|a act]; [discriminate|]. cbn in L. injection L as L.
  assert (P' : cs = [] \/ proper cs).
  { destruct P as [P|P]; [discriminate|]. destruct cs as [|d cs]; [auto|right]. destruct c; exact P. }
  assert (C' : forall j a fl ap, nth_error cs j = Some (Rec fl ap) -> a <> 0%N -> Q (S i + j) a -> Q (S (S i + j)) a).
  { intros j b fl ap E NZ X. replace (S i + j) with (i + S j) in * by lia. eapply C; eauto. }
  (* what remains after the recursive call *)
  assert (K : forall act2, length act2 = length cs ->
    (forall j b, nth_error act2 j = Some b -> b <> 0%N -> Q (S i + j) b) ->
    (forall j, active act j -> active act2 j) ->
    ((exists fl ap, c = Rec fl ap) -> a <> 0%N -> active act2 0) ->
    exists act', (let! r := carry cs act2 in Ok (a :: r)) = Ok act' /\ length act' = length (c :: cs) /\
    (forall j b, nth_error act' j = Some b -> b <> 0%N -> Q (i + j) b) /\
    (forall j, active (a :: act) j -> active act' j) /\
    (forall j fl ap, nth_error (c :: cs) j = Some (Rec fl ap) -> active act' j -> active act' (S j))).
  { intros act2 L2 H2 S2 R2. destruct (IH act2 (S i) L2 P' H2 C') as (act' & E & L' & H' & M' & CL').
    rewrite E. cbn [rbind]. exists (a :: act'). split; [reflexivity|]. split; [cbn; lia|]. split; [|split].
    - intros [|j] b E1 NZ; cbn in E1; [injection E1 as <-; apply H; [reflexivity|auto]|].
      replace (i + S j) with (S i + j) by lia. apply H'; auto.
    - intros [|j] (b & E1 & NZ); cbn in E1; [injection E1 as <-; exists a; auto|].
      destruct (M' j) as (b' & X & Y). { apply S2. exists b; auto. } exists b'; auto.
    - intros [|j] fl ap E1 (b & E2 & NZ); cbn in E1, E2.
      + injection E1 as ->. injection E2 as <-. destruct (M' 0) as (b' & X & Y); [apply R2; eauto|]. exists b'; auto.
      + destruct (CL' j fl ap E1) as (b' & X & Y); [exists b; auto|]. exists b'; auto. }
  assert (PLAIN : ((exists fl ap, c = Rec fl ap) -> a = 0%N) ->
    exists act', (let! r := carry cs act in Ok (a :: r)) = Ok act' /\ length act' = length (c :: cs) /\
    (forall j b, nth_error act' j = Some b -> b <> 0%N -> Q (i + j) b) /\
    (forall j, active (a :: act) j -> active act' j) /\
    (forall j fl ap, nth_error (c :: cs) j = Some (Rec fl ap) -> active act' j -> active act' (S j))).
  { intros X. apply K; auto.
    - intros j b E NZ. replace (S i + j) with (i + S j) by lia. apply H; auto.
    - intros Y Z. destruct (Z (X Y)). }
  cbn [carry]. destruct (N.eqb_spec a 0) as [->|NZ]; [apply PLAIN; auto|].
  destruct c as [l|f|fl ap]; [apply PLAIN; intros (? & ? & X); discriminate X|apply PLAIN; intros (? & ? & X); discriminate X|].
  destruct act as [|b act].
  { destruct cs; [|discriminate L]. destruct P as [P|P]; [discriminate|destruct P]. }
  apply K.
  - exact L.
  - intros [|j] d E NZ'; cbn in E.
    + injection E as <-. replace (S i + 0) with (S (i + 0)) by lia. eapply C; [reflexivity|exact NZ|].
      apply H; [reflexivity|exact NZ].
    + replace (S i + S j) with (i + S (S j)) by lia. apply H; auto.
  - intros [|j] (d & E & NZ'); cbn in E; [exists a; auto|]. exists d. auto.
  - intros _ _. exists a. auto.
Qed.

(** * The loop over the components for a name *)
Section Entry.
Context (V : files) (mark : bool).

(** The name matches a component that is not recursive. *)
Definition step (c : comp) (name : list N) : Prop :=
  match c with
  | Lit l => l = name
  | Pat f => name <> [] /\ f name = true
  | Rec _ _ => False
  end.
Definition marked (c : comp) : bool := match c with Pat _ => mark | _ => false end.

Lemma reentry_ok ino prev : forall count,
  (forall k, k < count -> k < length prev -> exists q, nth_error prev k = Some (Some q)) ->
  exists b, is_reentry ino prev count = Ok b /\
    (b = false <-> forall k q, k < count -> nth_error prev k = Some (Some q) -> q <> ino).
Proof.
  induction prev as [|p prev IH]; intros [|n] H; cbn [is_reentry].
  - exists false. split; auto. split; auto. intros; lia.
  - exists false. split; auto. split; auto. intros _ k q _ E. destruct k; discriminate.
  - exists false. split; auto. split; auto. intros; lia.
  - destruct (H 0) as (q & E); [lia|cbn; lia|]. cbn in E. injection E as ->.
    destruct (N.eqb_spec ino q) as [->|NE].
    + exists true. split; auto. split; [discriminate|]. intros X. destruct (X 0 q); [lia|reflexivity|reflexivity].
    + destruct (IH n) as (b & E & B).
      { intros k Hk Lk. destruct (H (S k)) as (q' & X); [lia|cbn; lia|]. exists q'. exact X. }
      exists b. split; auto. rewrite B. split; intros X.
      * intros [|k] q' Hk E'; cbn in E'; [injection E' as <-; congruence|]. apply (X k q'); [lia|exact E'].
      * intros k q' Hk E'. apply (X (S k) q'); [lia|exact E'].
Qed.

(** What is known about [t2->st] when a recursive component leads on. *)
Definition fresh (uses : bool -> Prop) (path : list N) (st : option N) : Prop :=
  exists q f, st = Some q /\ uses f /\ file V f path = Some q.

Lemma hidden_unseen : forall ap n, hidden ap n = unseen ap n.
Proof.
  intros ap n. destruct n as [|c n]; [destruct ap; reflexivity|].
  destruct (N.eq_dec c 46) as [->|H].
  - destruct n as [|d n]; [destruct ap; reflexivity|].
    destruct (N.eq_dec d 46) as [->|H2]; [destruct n, ap; reflexivity|].
    assert (E : list_N_eqb (46%N :: d :: n) (str "..") = false).
    { apply list_N_eqb_neq. intros [= Q _]. auto. }
    assert (U : unseen ap (46%N :: d :: n) = negb ap).
    { unfold unseen. destruct d as [|p]; [reflexivity|].
      do 6 (destruct p as [p|p|]; try reflexivity). exfalso. apply H2. reflexivity. }
    rewrite U. unfold hidden. rewrite E. destruct ap; reflexivity.
  - assert (E : forall s, list_N_eqb (c :: n) (46%N :: s) = false).
    { intros s. apply list_N_eqb_neq. intros [= Q _]. auto. }
    assert (U : unseen ap (c :: n) = false).
    { unfold unseen. destruct c as [|p]; [reflexivity|].
      do 6 (destruct p as [p|p|]; try reflexivity). exfalso. apply H. reflexivity. }
    rewrite U. unfold hidden. change (str ".") with [46%N]. change (str "..") with [46%N; 46%N].
    rewrite !E. cbn. apply N.eqb_neq in H. unfold dot. rewrite H. destruct ap; reflexivity.
Qed.
Lemma should_ok (uses : bool -> Prop) name path fl ap st prev count : uses fl ->
  (forall k, k < count -> k < length prev -> exists q, nth_error prev k = Some (Some q)) ->
  exists b st', should_recurse V name path fl ap st prev count = Ok (b, st') /\
    (fresh uses path st -> fresh uses path st') /\
    (b = true -> fresh uses path st') /\
    (b = true <-> unseen ap name = false /\ exists ino, info V fl path = Some (ino, true) /\
        forall k q, k < count -> nth_error prev k = Some (Some q) -> q <> ino).
Proof.
  intros U H. unfold should_recurse. rewrite hidden_unseen. destruct (unseen ap name).
  { exists false, st. split; [reflexivity|]. split; [auto|]. split; [discriminate|]. split; [discriminate|]. intros [X _]. discriminate X. }
  fold (info V fl path). destruct (info V fl path) as [[ino d]|] eqn:I.
  2:{ exists false, st. split; [reflexivity|]. split; [auto|]. split; [discriminate|]. split; [discriminate|]. intros (_ & ? & X & _). discriminate X. }
  assert (FR : fresh uses path (Some ino)).
  { exists ino, fl. split; [reflexivity|]. split; [exact U|]. unfold file. rewrite I. reflexivity. }
  destruct d.
  - destruct (reentry_ok ino prev count H) as (b & E & B). rewrite E. cbn [rbind]. exists (negb b), (Some ino).
    split; [reflexivity|]. split; [auto|]. split; [auto|]. rewrite negb_true_iff, B. split.
    + intros X. split; [reflexivity|]. exists ino. auto.
    + intros (_ & ino' & X & Y). injection X as <-. exact Y.
  - exists false, (Some ino). split; [reflexivity|]. split; [auto|]. split; [discriminate|]. split; [discriminate|].
    intros (_ & ? & X & _). discriminate X.
Qed.

(** The recursive component [c] with value [a] goes on. *)
Definition goes (prev : list (option N)) (name path : list N) (c : comp) (a : N) : Prop :=
  match c with
  | Rec fl ap => name <> [] /\ unseen ap name = false /\ exists ino, info V fl path = Some (ino, true) /\
      forall k q, k < N.to_nat (a - 1) -> nth_error prev k = Some (Some q) -> q <> ino
  | _ => False
  end.

Definition results (name path : list N) (only : bool) (c : comp) : list (list N) :=
  add_result V path only (marked c).

Ltac kk := intros; cbn [step goes] in *; subst;
  repeat match goal with H : _ /\ _ |- _ => destruct H end;
  first [congruence | tauto | solve [auto] | left; congruence
        | right; repeat split; solve [auto | congruence]
        | repeat split; solve [auto | congruence]].
Lemma entry_ok (uses : bool -> Prop) name path only prev : forall cs act cur st,
  length act = length cs -> (cs = [] \/ proper cs) ->
  (forall fl ap, In (Rec fl ap) cs -> uses fl) ->
  (forall j a k, nth_error act j = Some a -> k < N.to_nat (a - 1) -> k < length prev ->
     exists q, nth_error prev k = Some (Some q)) ->
  exists act2 st2 r, entry_loop V mark name path only prev cs act cur st = Ok (act2, st2, r) /\
    length act2 = length cs /\
    (fresh uses path st -> fresh uses path st2) /\
    (cur <> 0%N -> cs <> [] -> nth_error act2 0 = Some cur) /\
    (* where the values come from *)
    (forall j b, nth_error act2 j = Some b -> b <> 0%N ->
       (j = 0 /\ b = cur) \/
       (b = 1%N /\ exists j0 c, j = S j0 /\ nth_error cs j0 = Some c /\ step c name /\ active act j0) \/
       (exists c a, nth_error cs j = Some c /\ nth_error act j = Some a /\ a <> 0%N /\
          goes prev name path c a /\ b = ((a + 1) mod 256)%N /\ fresh uses path st2)) /\
    (* which components go on *)
    (forall j c, nth_error cs j = Some c -> step c name -> active act j -> S j < length cs -> active act2 (S j)) /\
    (forall j c a, nth_error cs j = Some c -> nth_error act j = Some a -> a <> 0%N -> (a < 255)%N ->
       goes prev name path c a -> active act2 j) /\
    (* results *)
    (r = [] \/ exists c, cs <> [] /\ last cs (Lit []) = c /\ step c name /\ active act (length cs - 1) /\
                 r = results name path only c) /\
    (cs <> [] -> step (last cs (Lit [])) name -> active act (length cs - 1) ->
       r = results name path only (last cs (Lit []))).
Proof.
  induction cs as [|c cs IH]; intros act cur st L P U H.
  { destruct act; [|discriminate]. exists [], st, []. cbn [entry_loop]. split; [reflexivity|]. split; [reflexivity|].
    split; [auto|]. split; [congruence|]. split; [intros [|j] b E; discriminate E|].
    split; [intros [|j] ? E; discriminate E|]. split; [intros [|j] ? ? E; discriminate E|]. split; [auto|congruence]. }
  destruct act as [|a act]; [discriminate|]. cbn in L. injection L as L.
  assert (P' : cs = [] \/ proper cs).
  { destruct P as [P|P]; [discriminate|]. destruct cs as [|d cs]; [auto|right]. destruct c; exact P. }
  assert (U' : forall fl ap, In (Rec fl ap) cs -> uses fl) by (intros; eapply U; right; eauto).
  assert (H' : forall j a k, nth_error act j = Some a -> k < N.to_nat (a - 1) -> k < length prev ->
     exists q, nth_error prev k = Some (Some q)) by (intros j b k E; apply (H (S j) b k E)).
  (* the rest of the loop, with the value [own] of this component *)
  assert (K : forall own cur' st1 r1,
    (fresh uses path st -> fresh uses path st1) ->
    (cur <> 0%N -> own = cur) ->
    (own <> 0%N -> own = cur \/
       (a <> 0%N /\ goes prev name path c a /\ own = ((a + 1) mod 256)%N /\ fresh uses path st1)) ->
    (cur' <> 0%N -> cur' = 1%N /\ a <> 0%N /\ step c name) ->
    (step c name -> a <> 0%N -> cs <> [] -> cur' = 1%N) ->
    (a <> 0%N -> (a < 255)%N -> goes prev name path c a -> own <> 0%N) ->
    (r1 = [] \/ (cs = [] /\ step c name /\ a <> 0%N /\ r1 = results name path only c)) ->
    (cs = [] -> step c name -> a <> 0%N -> r1 = results name path only c) ->
    exists act2 st2 r,
    (let! (l, st', rs) := entry_loop V mark name path only prev cs act cur' st1 in Ok (own :: l, st', r1 ++ rs)) =
      Ok (act2, st2, r) /\
    length act2 = length (c :: cs) /\
    (fresh uses path st -> fresh uses path st2) /\
    (cur <> 0%N -> c :: cs <> [] -> nth_error act2 0 = Some cur) /\
    (forall j b, nth_error act2 j = Some b -> b <> 0%N ->
       (j = 0 /\ b = cur) \/
       (b = 1%N /\ exists j0 c0, j = S j0 /\ nth_error (c :: cs) j0 = Some c0 /\ step c0 name /\ active (a :: act) j0) \/
       (exists c0 a0, nth_error (c :: cs) j = Some c0 /\ nth_error (a :: act) j = Some a0 /\ a0 <> 0%N /\
          goes prev name path c0 a0 /\ b = ((a0 + 1) mod 256)%N /\ fresh uses path st2)) /\
    (forall j c0, nth_error (c :: cs) j = Some c0 -> step c0 name -> active (a :: act) j -> S j < length (c :: cs) ->
       active act2 (S j)) /\
    (forall j c0 a0, nth_error (c :: cs) j = Some c0 -> nth_error (a :: act) j = Some a0 -> a0 <> 0%N -> (a0 < 255)%N ->
       goes prev name path c0 a0 -> active act2 j) /\
    (r = [] \/ exists c0, c :: cs <> [] /\ last (c :: cs) (Lit []) = c0 /\ step c0 name /\
                 active (a :: act) (length (c :: cs) - 1) /\ r = results name path only c0) /\
    (c :: cs <> [] -> step (last (c :: cs) (Lit [])) name -> active (a :: act) (length (c :: cs) - 1) ->
       r = results name path only (last (c :: cs) (Lit [])))).
  { intros own cur' st1 r1 S1 OC OW CU CN GO R1 R2.
    destruct (IH act cur' st1 L P' U' H') as (act2 & st2 & r & E & L2 & F2 & C2 & W2 & N2 & G2 & RA & RB).
    rewrite E. cbn [rbind]. exists (own :: act2), st2, (r1 ++ r). split; [reflexivity|]. split; [cbn; lia|].
    split; [auto|]. split; [intros X _; cbn; f_equal; auto|]. split; [|split; [|split; [|split]]].
    - intros [|j] b E1 NZ; cbn in E1.
      + injection E1 as <-. destruct (OW NZ) as [->|(X1 & X2 & X3 & X4)]; [auto|]. right. right.
        exists c, a. repeat split; auto.
      + destruct (W2 j b E1 NZ) as [(-> & ->)|[(-> & j0 & c0 & -> & X1 & X2 & X3)|X]].
        * destruct (CU NZ) as (-> & X1 & X2). right. left. split; [reflexivity|]. exists 0, c. repeat split; auto.
          exists a. auto.
        * right. left. split; [reflexivity|]. exists (S j0), c0. repeat split; auto.
        * right. right. destruct X as (c0 & a0 & X). exists c0, a0. exact X.
    - intros [|j] c0 E1 S0 (b & E2 & NZ) LT; cbn in E1, E2.
      + injection E1 as ->. injection E2 as ->.
        assert (NE : cs <> []) by (destruct cs; [cbn in LT; lia|discriminate]).
        specialize (CN S0 NZ NE). subst cur'. exists 1%N. split; [|discriminate]. cbn. apply C2; [discriminate|exact NE].
      + destruct (N2 j c0 E1 S0) as (b' & X & Y); [exists b; auto|cbn in LT; lia|]. exists b'. auto.
    - intros [|j] c0 a0 E1 E2 NZ LT G; cbn in E1, E2.
      + injection E1 as <-. injection E2 as <-. exists own. auto.
      + destruct (G2 j c0 a0 E1 E2 NZ LT G) as (b' & X & Y). exists b'. auto.
    - destruct cs as [|d cs].
      + destruct act2; [|discriminate]. destruct act; [|discriminate]. cbn in E. injection E as _ <-. rewrite app_nil_r.
        destruct R1 as [->|(_ & X1 & X2 & X3)]; [auto|]. right. exists c. cbn. repeat split; auto; [discriminate|]. exists a. auto.
      + destruct R1 as [->|(X & _)]; [|discriminate]. cbn [app].
        destruct RA as [->|(c0 & X1 & X2 & X3 & X4 & X5)]; [auto|]. right. exists c0.
        split; [discriminate|]. split; [exact X2|]. split; [exact X3|]. split; [|exact X5].
        destruct X4 as (b & X & Y). exists b. split; auto. cbn [length]. replace (S (S (length cs)) - 1) with (S (length (d :: cs) - 1)) by (cbn; lia). exact X.
    - intros _ SL AC. destruct cs as [|d cs].
      + destruct act2; [|discriminate]. destruct act; [|discriminate]. cbn in E. injection E as _ <-. rewrite app_nil_r.
        cbn in SL, AC. apply R2; auto. destruct AC as (b & X & Y). cbn in X. injection X as ->. exact Y.
      + destruct R1 as [->|(X & _)]; [|discriminate]. cbn [app]. apply RB; [discriminate|exact SL|].
        destruct AC as (b & X & Y). exists b. split; auto. cbn [length] in X.
        replace (S (S (length cs)) - 1) with (S (length (d :: cs) - 1)) in X by (cbn; lia). exact X. }
  cbn [entry_loop].
  destruct (N.eqb_spec a 0) as [->|NZ].
  { apply K; kk. }
  destruct c as [l|f|fl ap].
  - destruct (list_N_eqb l name) eqn:EQ; cbn [negb].
    + apply list_N_eqb_eq in EQ. destruct cs as [|d cs]; apply K; kk.
    + apply list_N_eqb_neq in EQ. apply K; kk.
  - destruct name as [|x name]; [apply K; kk|].
    destruct (f (x :: name)) eqn:FX; cbn [negb].
    + destruct cs as [|d cs]; apply K; kk.
    + apply K; kk.
  - destruct cs as [|d cs]; [destruct P as [P|[]]; discriminate P|]. cbn [negb].
    destruct name as [|x name]; [apply K; kk|].
    destruct (N.eqb_spec cur 0) as [->|NC]; [|apply K; kk].
    destruct (should_ok uses (x :: name) path fl ap st prev (N.to_nat (a - 1)) (U fl ap (or_introl eq_refl)))
      as (b & st' & E & S1 & S2 & B).
    { intros k Hk Lk. apply (H 0 a k eq_refl Hk Lk). }
    rewrite E. cbn [rbind]. destruct b.
    + destruct (proj1 B eq_refl) as (B1 & B2). apply K; auto; try kk.
      * intros _ LT _. rewrite N.mod_small by lia. lia.
    + apply K; auto; try kk. intros _ _ (_ & G1 & G2). assert (X : false = true) by (apply B; auto). discriminate X.
Qed.
End Entry.
