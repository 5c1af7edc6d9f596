(** Proofs about pattern matching: the translation to regular expressions. *)
From Coq Require Import Ascii String.
From Coq Require Import List NArith ZArith Bool Arith Lia.
From Verif Require Import Common Regex XfnmatchModel XfnmatchSpec.
Import ListNotations.
Open Scope res_scope.

Ltac neqb := repeat match goal with
  | H : N.eqb _ _ = true |- _ => apply N.eqb_eq in H
  | H : N.eqb _ _ = false |- _ => apply N.eqb_neq in H
  end.

(** ** Marks *)
Lemma marks_plain c p : c <> bslash -> marks (c :: p) = (c, false) :: marks p.
Proof. intros H. cbn [marks]. apply N.eqb_neq in H. now rewrite H. Qed.
Lemma marks_quoted c p : marks (bslash :: c :: p) = (c, true) :: marks p.
Proof. reflexivity. Qed.

Lemma list_ind2 {A} (P : list A -> Prop) :
  P [] -> (forall x, P [x]) -> (forall x y l, P l -> P (y :: l) -> P (x :: y :: l)) -> forall l, P l.
Proof.
  intros H0 H1 H2 l. enough (P l /\ forall x, P (x :: l)) by tauto.
  induction l as [|y l [IH1 IH2]]; [auto|]. split; [auto|]. intros x. apply H2; auto.
Qed.

Lemma symd_ne d : is_symd d = true ->
  (d =? bslash)%N = false /\ (d =? rbr)%N = false /\ (d =? lbr)%N = false /\ (d =? hyphen)%N = false.
Proof.
  unfold is_symd, dot, colon, equal. intros H. apply orb_true_iff in H as [H|H]; [apply orb_true_iff in H as [H|H]|];
  apply N.eqb_eq in H; subst d; repeat split; reflexivity.
Qed.

(** ** Symbols *)
(** No [d] followed by a closing bracket, quoted or not. *)
Fixpoint no_close (d : N) (m : list mark) : bool :=
  match m with
  | (c, _) :: m' =>
      match m' with
      | (c2, _) :: _ => negb ((c =? d)%N && (c2 =? rbr)%N) && no_close d m'
      | [] => true
      end
  | [] => true
  end.

Lemma seen_no_close d m : symbol_plain true d m = true -> no_close d m = true.
Proof.
  induction m as [|[c q] m IH]; [auto|]. cbn [symbol_plain no_close].
  destruct m as [|[c2 q2] m]; [auto|]. destruct ((c =? d)%N && (c2 =? rbr)%N); [discriminate|].
  cbn [orb negb andb]. exact IH.
Qed.

Lemma starts2 d s : starts s [d; rbr] = match s with c :: c2 :: _ => (d =? c)%N && (rbr =? c2)%N | _ => false end.
Proof.
  destruct s as [|c [|c2 s]]; cbn [starts]; auto.
  - now rewrite andb_false_r.
  - now rewrite andb_true_r.
Qed.

Lemma wcsstr_cons x s p : wcsstr (x :: s) p = if starts (x :: s) p then Some (x :: s) else wcsstr s p.
Proof. reflexivity. Qed.

Lemma no_close_wcsstr d p : is_symd d = true -> no_close d (marks p) = true -> wcsstr p [d; rbr] = None.
Proof.
  intros Hd. destruct (symd_ne d Hd) as (D1 & D2 & D3 & _).
  induction p as [|x|x y l IH1 IH2] using list_ind2; intros H.
  - reflexivity.
  - rewrite wcsstr_cons. rewrite starts2. reflexivity.
  - rewrite wcsstr_cons. rewrite starts2. destruct (N.eqb_spec x bslash) as [->|Nx].
    + rewrite D1. cbn [andb]. destruct (N.eqb_spec y bslash) as [->|Ny].
      * (* an escaped backslash *)
        rewrite marks_quoted in H. cbn [no_close] in H.
        assert (E : wcsstr l [d; rbr] = None).
        { apply IH1. destruct (marks l) as [|[c2 q2] m]; auto. apply andb_true_iff in H as [_ H]. exact H. }
        rewrite wcsstr_cons, starts2, E. destruct l as [|z l]; auto. now rewrite D1.
      * rewrite marks_quoted in H.
        assert (E : wcsstr l [d; rbr] = None).
        { apply IH1. cbn [no_close] in H. destruct (marks l) as [|[c2 q2] m]; auto.
          apply andb_true_iff in H as [_ H]. exact H. }
        rewrite wcsstr_cons. rewrite starts2, E. destruct l as [|z l]; auto.
        destruct (N.eqb_spec d y) as [<-|]; [|auto]. destruct (N.eqb_spec rbr z) as [<-|]; [|auto].
        exfalso. rewrite marks_plain in H by discriminate. cbn [no_close] in H.
        rewrite N.eqb_refl in H. cbn in H. discriminate.
    + rewrite marks_plain in H by auto.
      assert (E : wcsstr (y :: l) [d; rbr] = None).
      { apply IH2. cbn [no_close] in H. destruct (marks (y :: l)) as [|[c2 q2] m]; auto.
        apply andb_true_iff in H as [_ H]. exact H. }
      rewrite E. destruct (N.eqb_spec d x) as [<-|]; [|auto]. destruct (N.eqb_spec rbr y) as [<-|]; [|auto].
      exfalso. rewrite marks_plain in H by discriminate. cbn [no_close] in H.
      rewrite N.eqb_refl in H. cbn in H. discriminate.
Qed.

Lemma no_close_gtok d m acc : no_close d m = true -> gtok (Sym d acc) m = None.
Proof.
  revert acc. induction m as [|[c q] m IH]; intros acc H; [auto|]. cbn [gtok no_close] in *.
  destruct m as [|[c2 q2] m]; [auto|]. apply andb_true_iff in H as [H1 H2].
  apply negb_true_iff in H1.
  replace ((c =? d)%N && negb q && (c2 =? rbr)%N && negb q2) with false; [apply IH; auto|].
  symmetry. destruct (c =? d)%N, (c2 =? rbr)%N, q, q2; auto; discriminate.
Qed.

Lemma gtok_sym d acc c q c2 q2 m : gtok (Sym d acc) ((c, q) :: (c2, q2) :: m) =
  if (c =? d)%N && negb q && (c2 =? rbr)%N && negb q2
  then match gtok Mid m with Some (l, r) => Some (TkSym d (rev acc) :: l, r) | None => None end
  else gtok (Sym d (c :: acc)) ((c2, q2) :: m).
Proof. reflexivity. Qed.
Lemma re_tokens_sym d acc c c2 s : re_tokens (Sym d acc) (c :: c2 :: s) =
  if (c =? d)%N && (c2 =? rbr)%N
  then match re_tokens Mid s with Some (l, r) => Some (TkSym d (rev acc) :: l, r) | None => None end
  else re_tokens (Sym d (c :: acc)) (c2 :: s).
Proof. reflexivity. Qed.

(** A plain symbol: closed or not. *)
Lemma symbol_split d p : is_symd d = true -> symbol_plain false d (marks p) = true ->
  (wcsstr p [d; rbr] = None /\ forall acc, gtok (Sym d acc) (marks p) = None) \/
  (exists name r, p = name ++ d :: rbr :: r /\ Forall (fun c => c <> bslash) name /\
     wcsstr p [d; rbr] = Some (d :: rbr :: r) /\
     (forall rest, re_tokens (Sym d []) (name ++ d :: rbr :: rest) =
        match re_tokens Mid rest with Some (l, r') => Some (TkSym d name :: l, r') | None => None end) /\
     gtok (Sym d []) (marks p) =
        match gtok Mid (marks r) with Some (l, r') => Some (TkSym d name :: l, r') | None => None end).
Proof.
  intros Hd. destruct (symd_ne d Hd) as (D1 & D2 & D3 & _).
  enough (G : symbol_plain false d (marks p) = true ->
    (wcsstr p [d; rbr] = None /\ forall acc, gtok (Sym d acc) (marks p) = None) \/
    (exists name r, p = name ++ d :: rbr :: r /\ Forall (fun c => c <> bslash) name /\
     wcsstr p [d; rbr] = Some (d :: rbr :: r) /\
     (forall acc rest, re_tokens (Sym d acc) (name ++ d :: rbr :: rest) =
        match re_tokens Mid rest with Some (l, r') => Some (TkSym d (rev acc ++ name) :: l, r') | None => None end) /\
     forall acc, gtok (Sym d acc) (marks p) =
        match gtok Mid (marks r) with Some (l, r') => Some (TkSym d (rev acc ++ name) :: l, r') | None => None end)).
  { intros H. destruct (G H) as [L|(n & r & A & B & E & F & K)]; [auto|]. right. exists n, r.
    split; [auto|]. split; [auto|]. split; [auto|]. split; [intros; apply F|apply K]. }
  induction p as [|x p IH]; intros H.
  - left. split; [reflexivity|]. reflexivity.
  - destruct (N.eqb_spec x bslash) as [->|Nx].
    + (* quoted: nothing may follow *)
      destruct p as [|y p].
      { left. rewrite wcsstr_cons. rewrite starts2. split; reflexivity. }
      rewrite marks_quoted in *. left.
      assert (NC : no_close d ((y, true) :: marks p) = true).
      { cbn [symbol_plain no_close] in *. destruct (marks p) as [|[c2 q2] m] eqn:E; [auto|].
        destruct ((y =? d)%N && (c2 =? rbr)%N); [discriminate|]. cbn [negb andb]. rewrite <- E in *.
        apply seen_no_close. exact H. }
      split; [|intros; apply no_close_gtok; auto].
      apply no_close_wcsstr; auto.
    + rewrite marks_plain in * by auto.
      destruct (marks p) as [|[c2 q2] m] eqn:Em.
      * left. split; [|reflexivity]. rewrite wcsstr_cons. rewrite starts2.
        destruct p as [|y p]; [auto|]. cbn [marks] in Em. destruct (N.eqb_spec y bslash) as [->|]; [|discriminate].
        destruct p as [|z p]; [|discriminate]. rewrite wcsstr_cons, starts2. change (rbr =? bslash)%N with false. rewrite andb_false_r. reflexivity.
      * cbn [symbol_plain] in H. destruct ((x =? d)%N && (c2 =? rbr)%N) eqn:Ed.
        -- apply andb_true_iff in Ed as [E1 E2]. apply N.eqb_eq in E1, E2. subst x c2.
           destruct q2; [discriminate|].
           assert (exists r, p = rbr :: r /\ m = marks r) as (r & -> & ->).
           { destruct p as [|y p]; [discriminate|]. cbn [marks] in Em.
             destruct (N.eqb_spec y bslash) as [->|].
             - destruct p; [discriminate|]. injection Em as <- Ex _. discriminate.
             - injection Em as <- <-. eauto. }
           right. exists [], r. split; [reflexivity|]. split; [constructor|].
           split; [rewrite wcsstr_cons; rewrite starts2, !N.eqb_refl; reflexivity|].
           split.
           ++ intros acc rest. cbn [app re_tokens]. rewrite !N.eqb_refl. cbn [andb].
              rewrite app_nil_r. reflexivity.
           ++ intros acc. cbn [gtok]. rewrite !N.eqb_refl. cbn [andb negb]. rewrite app_nil_r. reflexivity.
        -- cbn [orb] in H. destruct (IH H) as [(W & G)|(n & r & -> & F & W & R & G)].
           ++ left. split.
              ** rewrite wcsstr_cons. rewrite W, starts2. destruct p as [|y p]; [auto|].
                 destruct (N.eqb_spec d x) as [->|]; [|auto]. destruct (N.eqb_spec rbr y) as [<-|]; [|auto].
                 exfalso. rewrite marks_plain in Em by discriminate. injection Em as <- <- <-.
                 rewrite !N.eqb_refl in Ed. discriminate.
              ** intros acc. rewrite gtok_sym. replace ((x =? d)%N && negb false && (c2 =? rbr)%N && negb q2) with false.
                 { apply G. }
                 destruct (x =? d)%N, (c2 =? rbr)%N; auto; discriminate.
           ++ right. exists (x :: n), r.
              assert (Hx : forall y t, n ++ d :: rbr :: t = y :: n ++ d :: rbr :: r -> True) by auto. clear Hx.
              assert (Hn : forall t, exists y t', n ++ d :: rbr :: t = y :: t' /\ ((d =? x)%N && (rbr =? y)%N) = false
                /\ ((x =? d)%N && (y =? rbr)%N) = false).
              { intros t. destruct n as [|y n].
                - exists d, (rbr :: t). split; [reflexivity|]. rewrite (N.eqb_sym rbr d), D2, !andb_false_r. auto.
                - exists y, (n ++ d :: rbr :: t). split; [reflexivity|].
                  inversion F as [|? ? Ny F']; subst. cbn [app] in Em. rewrite marks_plain in Em by auto.
                  injection Em as <- <- <-. rewrite (N.eqb_sym d x), (N.eqb_sym rbr y). auto. }
              split; [reflexivity|]. split; [constructor; auto|].
              split; [|split].
              ** cbn [app]; rewrite wcsstr_cons. rewrite W, starts2. destruct (Hn r) as (y & t' & -> & -> & _). reflexivity.
              ** intros acc rest. cbn [app]. destruct (Hn rest) as (y & t' & E & _ & X).
                 pose proof (R (x :: acc) rest) as R'. rewrite E in *. rewrite re_tokens_sym, X, R'.
                 cbn [rev]. rewrite <- app_assoc. reflexivity.
              ** intros acc. rewrite gtok_sym.
                 replace ((x =? d)%N && negb false && (c2 =? rbr)%N && negb q2) with false.
                 { rewrite G. cbn [rev]. rewrite <- app_assoc. reflexivity. }
                 destruct (x =? d)%N, (c2 =? rbr)%N; auto; discriminate.
Qed.

(** Copying a symbol. *)
Lemma bracket2_copy_plain d r : is_symd d = true -> forall name fuel buf,
  Forall (fun c => c <> bslash) name -> length name + 2 <= fuel ->
  bracket2_copy fuel (name ++ d :: rbr :: r) (d :: rbr :: r) buf = Ok (rbr :: r, buf ++ name ++ [d; rbr]).
Proof.
  intros Hd. destruct (symd_ne d Hd) as (D1 & D2 & D3 & _).
  induction name as [|x name IH]; intros fuel buf F Hf.
  - destruct fuel as [|[|fuel]]; cbn [length] in Hf; try lia. cbn [app bracket2_copy rbind].
    rewrite D1. cbn [rbind]. rewrite Nat.ltb_irrefl. cbn [bracket2_copy].
    change (rbr =? bslash)%N with false. cbn [rbind length].
    rewrite (proj2 (Nat.ltb_lt _ _)) by lia. rewrite N.eqb_refl, <- app_assoc. reflexivity.
  - destruct fuel as [|fuel]; cbn [length] in Hf; [lia|]. inversion F as [|? ? Nx F']; subst.
    cbn [app bracket2_copy]. apply N.eqb_neq in Nx. rewrite Nx. cbn [rbind].
    rewrite (proj2 (Nat.ltb_ge _ _)).
    2:{ cbn [length]. rewrite app_length. cbn [length]. lia. }
    rewrite IH by (auto; lia). rewrite <- app_assoc. reflexivity.
Qed.

(** ** Tokens that regcomp sees as equal *)
Definition coded (c : N) : bool := (c =? lbr)%N || (c =? caret)%N || (c =? hyphen)%N || (c =? rbr)%N.

Inductive teq : token -> token -> Prop :=
| teq_refl t : teq t t
| teq_char c : coded c = false -> teq (TkLit c) (TkChar c)
| teq_sym c : coded c = true -> teq (TkLit c) (TkSym dot [c]).

Section Items.
Variable C : ctype.
Hypothesis HC : ctype_ok C.

Lemma teq_item a b : teq a b -> tok_item C a = tok_item C b.
Proof. intros [t|c H|c H]; auto. cbn. now rewrite HC. Qed.
Lemma teq_point a b : teq a b -> tok_point C a = tok_point C b.
Proof. intros [t|c H|c H]; auto. cbn. now rewrite HC. Qed.
Lemma teq_hyphen a b : teq a b -> is_hyphen a = is_hyphen b.
Proof.
  intros [t|c H|c H]; auto. cbn. unfold coded in H.
  destruct (c =? hyphen)%N; auto. rewrite orb_true_r in H. discriminate.
Qed.

Lemma items_teq : forall a b first, Forall2 teq a b -> items C first a = items C first b.
Proof.
  intros a.
  assert (G : forall m a, length a <= m -> forall b first, Forall2 teq a b -> items C first a = items C first b).
  2:{ intros b first F. eapply G; eauto. }
  clear a. induction m as [|m IH]; intros a La b first F.
  - destruct a; [|cbn in La; lia]. inversion F. reflexivity.
  - destruct F as [|x x' a b T F]; [reflexivity|]. cbn [length] in La. cbn [items].
    pose proof (teq_item _ _ T) as T1. pose proof (teq_point _ _ T) as T2. pose proof (teq_hyphen _ _ T) as T3.
    assert (I : items C false a = items C false b) by (apply IH; auto; lia).
    destruct F as [|y y' a b U F]; [rewrite T1; reflexivity|].
    pose proof (teq_point _ _ U) as U2. pose proof (teq_hyphen _ _ U) as U3.
    destruct F as [|z z' a b V F].
    + rewrite T1, T3, I. reflexivity.
    + rewrite T1, T2, T3, U3, I, (teq_point _ _ V).
      rewrite (IH a ltac:(cbn in La; lia) b false F). reflexivity.
Qed.
End Items.

(** ** Bracket expressions *)
Definition tcons {A} (t : token) (o : option (list token * A)) : option (list token * A) :=
  match o with Some (l, r) => Some (t :: l, r) | None => None end.
Definition not_sym (md : mode) : Prop := match md with Sym _ _ => False | _ => True end.
Definition is_mid (md : mode) : bool := match md with Mid => true | _ => false end.

Lemma gtok_quoted md c m : not_sym md -> gtok md ((c, true) :: m) = tcons (TkLit c) (gtok Mid m).
Proof. destruct md; cbn; intros; try contradiction; reflexivity. Qed.
Lemma gtok_close m : gtok Mid ((rbr, false) :: m) = Some ([], m).
Proof. reflexivity. Qed.
Lemma gtok_char md c m : not_sym md -> (c =? rbr)%N && is_mid md = false -> c <> lbr ->
  gtok md ((c, false) :: m) = tcons (TkChar c) (gtok Mid m).
Proof.
  intros S H Nc. apply N.eqb_neq in Nc. destruct md; try contradiction; cbn [gtok is_mid] in *; rewrite H, Nc; cbn [andb];
  destruct m as [|[c2 q2] m]; reflexivity.
Qed.
Lemma gtok_open md m : not_sym md -> (forall c2 m', m = (c2, false) :: m' -> is_symd c2 = false) ->
  gtok md ((lbr, false) :: m) = tcons (TkChar lbr) (gtok Mid m).
Proof.
  intros S H. assert (G : forall b, (if (lbr =? rbr)%N && b then Some ([], m) else
    match m with
    | (c2, q2) :: m'' => if (lbr =? lbr)%N && is_symd c2 && negb q2 then gtok (Sym c2 []) m''
      else tcons (TkChar lbr) (gtok Mid m) | [] => None end) = tcons (TkChar lbr) (gtok Mid m)).
  { intros b. change (lbr =? rbr)%N with false. rewrite N.eqb_refl. cbn [andb].
    destruct m as [|[c2 q2] m]; [reflexivity|]. destruct q2; cbn [negb]; [rewrite andb_false_r; reflexivity|].
    rewrite (H c2 m eq_refl). reflexivity. }
  destruct md; try contradiction; [apply (G false)|apply (G true)].
Qed.
Lemma gtok_symbol md d m : not_sym md -> is_symd d = true ->
  gtok md ((lbr, false) :: (d, false) :: m) = gtok (Sym d []) m.
Proof.
  intros S H. assert (G : forall b, (if (lbr =? rbr)%N && b then Some ([], (d, false) :: m) else
      if (lbr =? lbr)%N && is_symd d && negb false then gtok (Sym d []) m
      else tcons (TkChar lbr) (gtok Mid ((d, false) :: m))) = gtok (Sym d []) m).
  { intros b. change (lbr =? rbr)%N with false. rewrite N.eqb_refl, H. reflexivity. }
  destruct md; try contradiction; [apply (G false)|apply (G true)].
Qed.

Lemma re_close s : re_tokens Mid (rbr :: s) = Some ([], s).
Proof. reflexivity. Qed.
Lemma re_char md c s : not_sym md -> (c =? rbr)%N && is_mid md = false -> c <> lbr ->
  re_tokens md (c :: s) = tcons (TkChar c) (re_tokens Mid s).
Proof.
  intros S H Nc. apply N.eqb_neq in Nc. destruct md; try contradiction; cbn [re_tokens is_mid] in *; rewrite H, Nc; cbn [andb];
  destruct s as [|c2 s]; reflexivity.
Qed.
Lemma re_open md s : not_sym md -> (forall c2 s', s = c2 :: s' -> is_symd c2 = false) ->
  re_tokens md (lbr :: s) = tcons (TkChar lbr) (re_tokens Mid s).
Proof.
  intros S H. assert (G : forall b, (if (lbr =? rbr)%N && b then Some ([], s) else
    match s with
    | c2 :: s'' => if (lbr =? lbr)%N && is_symd c2 then re_tokens (Sym c2 []) s''
      else tcons (TkChar lbr) (re_tokens Mid s) | [] => None end) = tcons (TkChar lbr) (re_tokens Mid s)).
  { intros b. change (lbr =? rbr)%N with false. rewrite N.eqb_refl. cbn [andb].
    destruct s as [|c2 s]; [reflexivity|]. rewrite (H c2 s eq_refl). reflexivity. }
  destruct md; try contradiction; [apply (G false)|apply (G true)].
Qed.
Lemma re_symbol md d s : not_sym md -> is_symd d = true ->
  re_tokens md (lbr :: d :: s) = re_tokens (Sym d []) s.
Proof.
  intros S H. assert (G : forall b, (if (lbr =? rbr)%N && b then Some ([], d :: s) else
      if (lbr =? lbr)%N && is_symd d then re_tokens (Sym d []) s
      else tcons (TkChar lbr) (re_tokens Mid (d :: s))) = re_tokens (Sym d []) s).
  { intros b. change (lbr =? rbr)%N with false. rewrite N.eqb_refl, H. reflexivity. }
  destruct md; try contradiction; [apply (G false)|apply (G true)].
Qed.
Lemma re_collating md c s : not_sym md ->
  re_tokens md (lbr :: dot :: c :: dot :: rbr :: s) = tcons (TkSym dot [c]) (re_tokens Mid s).
Proof.
  intros S. rewrite re_symbol by auto. rewrite re_tokens_sym. change (dot =? rbr)%N with false.
  rewrite andb_false_r, re_tokens_sym. reflexivity.
Qed.

Lemma clear_true_false m : clear_marks true m = true -> clear_marks false m = true.
Proof.
  induction m as [|[c q] m IH]; [auto|]. cbn [clear_marks]. destruct ((c =? lbr)%N && negb q); [|exact IH].
  destruct m as [|[d qd] m]; [auto|]. intros H. apply andb_true_iff in H as [_ H]. cbn [negb orb]. exact H.
Qed.
Lemma clear_true_tail x m : clear_marks true (x :: m) = true -> clear_marks true m = true.
Proof.
  destruct x as [c q]. cbn [clear_marks]. destruct ((c =? lbr)%N && negb q); [|auto].
  intros H. apply andb_true_iff in H as [_ H]. exact H.
Qed.
Lemma clear_true_app x m : clear_marks true (x ++ m) = true -> clear_marks true m = true.
Proof. induction x as [|y x IH]; [auto|]. intros H. apply IH. eapply clear_true_tail; eauto. Qed.

Lemma marks_app_plain x p : Forall (fun c => c <> bslash) x -> marks (x ++ p) = map (fun c => (c, false)) x ++ marks p.
Proof. induction 1 as [|c x Nc F IH]; [auto|]. cbn [app map]. rewrite marks_plain by auto. now rewrite IH. Qed.

Lemma encode_bracket_loop_ok : forall n pat buf, length pat < n -> clear_marks true (marks pat) = true ->
  match gtok Mid (marks pat) with
  | Some (toks, r) => exists e pr toks',
      encode_bracket_loop n pat buf = Ok (Some (rbr :: pr, buf ++ e)) /\
      marks pr = r /\ length pr < length pat /\ clear_marks true r = true /\ Forall2 teq toks toks' /\
      (forall rest, re_tokens Mid (e ++ rest) = Some (toks', rest)) /\
      (exists h e', e = h :: e' /\ forall c q m, marks pat = (c, q) :: m ->
         h = (if q && coded c then lbr else c) /\ (q = false -> c <> rbr -> c <> lbr -> True))
  | None => encode_bracket_loop n pat buf = Ok None
  end.
Proof.
  induction n as [|n IH]; intros pat buf Hn Hc; [lia|].
  destruct pat as [|c pat]; [reflexivity|]. cbn [length] in Hn. cbn [encode_bracket_loop].
  destruct (N.eqb_spec c lbr) as [->|Nl].
  - (* an opening bracket *)
    rewrite marks_plain in Hc by discriminate. rewrite marks_plain by discriminate.
    cbn [encode_pattern_bracket2]. rewrite N.eqb_refl. cbn [negb].
    destruct (match pat with d :: _ => is_symd d | [] => false end) eqn:Es.
    + (* a symbol *)
      destruct pat as [|d pat]; [discriminate|]. rewrite Es.
      destruct (symd_ne d Es) as (D1 & D2 & D3 & D4). apply N.eqb_neq in D1.
      rewrite (marks_plain d) in Hc by auto. rewrite (marks_plain d) by auto.
      rewrite gtok_symbol by (cbn; auto).
      assert (Hp : symbol_plain false d (marks pat) = true /\ clear_marks true ((d, false) :: marks pat) = true).
      { cbn [clear_marks] in Hc. rewrite N.eqb_refl, Es in Hc. cbn [andb negb orb] in Hc.
        apply andb_true_iff in Hc as [Hc1 Hc2]. split; auto. }
      destruct Hp as [Hp Hc'].
      destruct (symbol_split d pat Es Hp) as [(W & G)|(name & r & -> & F & W & R & G)].
      * rewrite W, G. reflexivity.
      * rewrite W, G.
        assert (F2 : Forall (fun c => c <> bslash) (lbr :: d :: name)) by (constructor; [discriminate|constructor; auto]).
        change (lbr :: d :: name ++ d :: rbr :: r) with ((lbr :: d :: name) ++ d :: rbr :: r).
        rewrite (bracket2_copy_plain d r Es (lbr :: d :: name)) by (auto; rewrite app_length; cbn [length]; lia).
        cbn [rbind].
        assert (Hr : clear_marks true (marks r) = true).
        { rewrite marks_app_plain in Hc' by auto. rewrite (marks_plain d), (marks_plain rbr) in Hc' by (auto; discriminate).
          apply clear_true_tail in Hc'. apply clear_true_app in Hc'.
          apply clear_true_tail in Hc'. apply clear_true_tail in Hc'. exact Hc'. }
        cbn [length] in Hn. rewrite app_length in Hn. cbn [length] in Hn.
        specialize (IH r (buf ++ (lbr :: d :: name) ++ [d; rbr]) ltac:(lia) Hr).
        destruct (gtok Mid (marks r)) as [[toks r']|]; [|exact IH].
        destruct IH as (e & pr & toks' & E & M & Ln & Cr & T & Re & _).
        exists ((lbr :: d :: name) ++ [d; rbr] ++ e), pr, (TkSym d name :: toks').
        split; [rewrite E; rewrite <- !app_assoc; reflexivity|]. split; [auto|].
        split; [cbn [length]; rewrite app_length; cbn [length]; lia|]. split; [auto|].
        split; [constructor; [constructor|auto]|].
        split.
        -- intros rest. rewrite <- !app_assoc. cbn [app]. rewrite re_symbol by (cbn; auto).
           rewrite R, Re. reflexivity.
        -- exists lbr. eexists. split; [reflexivity|]. intros c q m [= <- <- _]. auto.
    + (* a bracket that stands for itself *)
      assert (Ok2 : match pat with
          | d :: pat'' => if is_symd d then
              match wcsstr pat'' [d; rbr] with None => Ok None
              | Some p => let! r := bracket2_copy (S (length (lbr :: pat))) (lbr :: pat) p buf in Ok (Some r) end
              else Ok (Some (lbr :: pat, buf ++ [lbr]))
          | [] => Ok (Some (lbr :: pat, buf ++ [lbr])) end = Ok (Some (lbr :: pat, buf ++ [lbr]))).
      { destruct pat; [auto|]. now rewrite Es. }
      rewrite Ok2. cbn [rbind]. pose proof (clear_true_tail _ _ Hc) as Hc'.
      specialize (IH pat (buf ++ [lbr]) ltac:(lia) Hc').
      (* what follows is not a delimiter, quoted or not *)
      assert (Hs : forall c q m, marks pat = (c, q) :: m -> is_symd c = false).
      { intros c q m Em. cbn [clear_marks] in Hc. rewrite N.eqb_refl, Em in Hc. cbn [andb negb orb] in Hc.
        destruct (is_symd c) eqn:Ec; [|auto]. destruct q; [discriminate|].
        destruct pat as [|x pat]; [discriminate|]. cbn [marks] in Em.
        destruct (N.eqb_spec x bslash) as [->|]; [destruct pat; discriminate|].
        injection Em as <- _. congruence. }
      rewrite gtok_open by (cbn; eauto).
      destruct (gtok Mid (marks pat)) as [[toks r']|] eqn:Eg; [|exact IH]. cbn [tcons].
      destruct IH as (e & pr & toks' & E & M & Ln & Cr & T & Re & (h & e' & -> & Hh)).
      exists (lbr :: h :: e'), pr, (TkChar lbr :: toks').
      split; [rewrite E; rewrite <- !app_assoc; reflexivity|]. split; [auto|].
      split; [cbn [length]; lia|]. split; [auto|]. split; [constructor; [constructor|auto]|].
      split.
      * intros rest. cbn [app]. rewrite re_open; [|cbn; auto|].
        -- change (h :: e' ++ rest) with ((h :: e') ++ rest). rewrite Re. reflexivity.
        -- intros c2 s' [= <- _]. destruct (marks pat) as [|[c q] m] eqn:Em; [discriminate|].
           destruct (Hh c q m eq_refl) as [-> _]. destruct (q && coded c); [reflexivity|eauto].
      * exists lbr, (h :: e'). split; [reflexivity|]. intros c q m [= <- <- _]. auto.
  - destruct (N.eqb_spec c bslash) as [->|Nb].
    + (* a quoted character *)
      destruct pat as [|c pat]; [reflexivity|]. rewrite marks_quoted in *. cbn [length] in Hn.
      apply clear_true_tail in Hc.
      change ((c =? lbr)%N || (c =? caret)%N || (c =? hyphen)%N || (c =? rbr)%N) with (coded c).
      specialize (IH pat (if coded c then append_as_collating_symbol c buf else buf ++ [c]) ltac:(lia) Hc).
      rewrite gtok_quoted by (cbn; auto).
      destruct (gtok Mid (marks pat)) as [[toks r']|]; [|exact IH]. cbn [tcons].
      destruct IH as (e & pr & toks' & E & M & Ln & Cr & T & Re & _).
      destruct (coded c) eqn:Ec.
      * exists ([lbr; dot; c; dot; rbr] ++ e), pr, (TkSym dot [c] :: toks').
        split; [rewrite E; unfold append_as_collating_symbol; rewrite <- app_assoc; reflexivity|]. split; [auto|].
        split; [cbn [length]; lia|]. split; [auto|]. split; [constructor; [constructor; auto|auto]|].
        split.
        -- intros rest. rewrite <- app_assoc. cbn [app]. rewrite re_collating by (cbn; auto). rewrite Re. reflexivity.
        -- eexists _, _. split; [reflexivity|]. intros c' q m [= <- <- _]. rewrite Ec. auto.
      * exists (c :: e), pr, (TkChar c :: toks').
        split; [rewrite E; rewrite <- app_assoc; reflexivity|]. split; [auto|].
        split; [cbn [length]; lia|]. split; [auto|]. split; [constructor; [constructor; auto|auto]|].
        assert (c <> lbr /\ c <> rbr) as [Nc1 Nc2].
        { unfold coded in Ec. split; intros ->; discriminate. }
        split.
        -- intros rest. cbn [app]. rewrite re_char; [rewrite Re; reflexivity|cbn; auto| |auto].
           apply N.eqb_neq in Nc2. now rewrite Nc2.
        -- eexists _, _. split; [reflexivity|]. intros c' q m [= <- <- _]. rewrite Ec. auto.
    + rewrite marks_plain in * by auto. destruct (N.eqb_spec c rbr) as [->|Nr].
      * (* the end *)
        rewrite gtok_close. exists [rbr], pat, []. split; [reflexivity|]. split; [auto|].
        split; [cbn; lia|]. split; [eapply clear_true_tail; eauto|]. split; [constructor|].
        split; [intros; reflexivity|]. eexists _, _. split; [reflexivity|]. intros c q m [= <- <- _]. auto.
      * apply clear_true_tail in Hc. specialize (IH pat (buf ++ [c]) ltac:(lia) Hc).
        rewrite gtok_char; [|cbn; auto|now apply N.eqb_neq in Nr; rewrite Nr|auto].
        destruct (gtok Mid (marks pat)) as [[toks r']|]; [|exact IH]. cbn [tcons].
        destruct IH as (e & pr & toks' & E & M & Ln & Cr & T & Re & _).
        exists (c :: e), pr, (TkChar c :: toks').
        split; [rewrite E; rewrite <- app_assoc; reflexivity|]. split; [auto|].
        split; [cbn [length]; lia|]. split; [auto|]. split; [constructor; [constructor; auto|auto]|].
        split.
        -- intros rest. cbn [app]. rewrite re_char; [rewrite Re; reflexivity|cbn; auto| |auto].
           apply N.eqb_neq in Nr. now rewrite Nr.
        -- eexists _, _. split; [reflexivity|]. intros c' q m [= <- <- _]. auto.
Qed.

Lemma gtok_start m : (forall m', m <> (rbr, false) :: m') -> gtok Start m = gtok Mid m.
Proof.
  intros H. destruct m as [|[c q] m]; [reflexivity|]. destruct q; [reflexivity|].
  cbn [gtok]. destruct (N.eqb_spec c rbr) as [->|]; [exfalso; eapply H; reflexivity|reflexivity].
Qed.
Lemma re_start s : (forall s', s <> rbr :: s') -> re_tokens Start s = re_tokens Mid s.
Proof.
  intros H. destruct s as [|c s]; [reflexivity|]. cbn [re_tokens].
  destruct (N.eqb_spec c rbr) as [->|]; [exfalso; eapply H; reflexivity|reflexivity].
Qed.

(** The part of a bracket expression after the negation. *)
Lemma encode_bracket_body pat buf : clear_marks true (marks pat) = true ->
  let (pat3, buf3) :=
    match pat with
    | c2 :: r => if (c2 =? rbr)%N then (r, buf ++ [rbr]) else (pat, buf)
    | [] => (pat, buf)
    end in
  match gtok Start (marks pat) with
  | Some (toks, r) => exists e pr toks',
      encode_bracket_loop (S (length pat3)) pat3 buf3 = Ok (Some (rbr :: pr, buf ++ e)) /\
      marks pr = r /\ length pr < length pat /\ clear_marks true r = true /\ Forall2 teq toks toks' /\
      (forall rest, re_tokens Start (e ++ rest) = Some (toks', rest)) /\
      (exists h e', e = h :: e' /\ (h = caret -> exists m, marks pat = (caret, false) :: m))
  | None => encode_bracket_loop (S (length pat3)) pat3 buf3 = Ok None
  end.
Proof.
  intros Hc. destruct (match pat with c :: _ => (c =? rbr)%N | [] => false end) eqn:E.
  - destruct pat as [|c pat]; [discriminate|]. rewrite E. apply N.eqb_eq in E. subst c.
    rewrite marks_plain in * by discriminate. apply clear_true_tail in Hc.
    pose proof (encode_bracket_loop_ok (S (length pat)) pat (buf ++ [rbr]) (Nat.lt_succ_diag_r _) Hc) as X.
    rewrite gtok_char by (cbn; auto; discriminate).
    destruct (gtok Mid (marks pat)) as [[toks r]|]; [|exact X]. cbn [tcons].
    destruct X as (e & pr & toks' & X1 & X2 & X3 & X4 & X5 & X6 & _).
    exists (rbr :: e), pr, (TkChar rbr :: toks'). split; [rewrite X1, <- app_assoc; reflexivity|].
    split; [auto|]. split; [cbn; lia|]. split; [auto|]. split; [constructor; [constructor|auto]|].
    split; [|exists rbr, e; split; [auto|discriminate]].
    intros rest. cbn [app]. rewrite re_char by (cbn; auto; discriminate). rewrite X6. reflexivity.
  - replace (match pat with c2 :: r => if (c2 =? rbr)%N then (r, buf ++ [rbr]) else (pat, buf) | [] => (pat, buf) end)
      with (pat, buf) by (destruct pat; [|rewrite E]; reflexivity).
    pose proof (encode_bracket_loop_ok (S (length pat)) pat buf (Nat.lt_succ_diag_r _) Hc) as X.
    assert (Hm : forall m', marks pat <> (rbr, false) :: m').
    { intros m' Em. destruct pat as [|c pat]; [discriminate|]. cbn [marks] in Em.
      destruct (c =? bslash)%N; [destruct pat; discriminate|]. injection Em as -> _. discriminate. }
    rewrite gtok_start by auto.
    destruct (gtok Mid (marks pat)) as [[toks r]|] eqn:Eg; [|exact X].
    destruct X as (e & pr & toks' & X1 & X2 & X3 & X4 & X5 & X6 & (h & e' & -> & Hh)).
    exists (h :: e'), pr, toks'. split; [auto|]. split; [auto|]. split; [auto|]. split; [auto|]. split; [auto|].
    destruct (marks pat) as [|[c q] m] eqn:Em; [discriminate|].
    destruct (Hh c q m eq_refl) as [-> _].
    split.
    + intros rest. rewrite re_start; [apply X6|]. intros s' [= Ex _].
      destruct (q && coded c) eqn:Eq; [discriminate|]. subst c.
      destruct q; [discriminate|]. eapply Hm; reflexivity.
    + eexists _, _. split; [reflexivity|]. intros Ex. destruct (q && coded c) eqn:Eq; [discriminate|]. subst c.
      destruct q; [discriminate|]. eauto.
Qed.

Section Encode.
Variable C : ctype.
Hypothesis HC : ctype_ok C.

Lemma re_atom_lbr s : re_atom C (lbr :: s) =
  let (neg, s1) := match s with
                   | c1 :: s1 => if (c1 =? caret)%N then (true, s1) else (false, s)
                   | [] => (false, s)
                   end in
  match re_tokens Start s1 with
  | Some (toks, r) =>
      match items C true toks with
      | Some its => Ok (Some (RSet neg its, r))
      | None => Ok None
      end
  | None => Ok None
  end.
Proof. reflexivity. Qed.

Lemma encode_bracket_ok pat buf : clear_marks true (marks pat) = true ->
  match gbracket (marks pat) with
  | Some (neg, toks, r) => exists e pr,
      encode_pattern_bracket (lbr :: pat) buf = Ok (rbr :: pr, buf ++ lbr :: e) /\
      marks pr = r /\ length pr < length pat /\ clear_marks true r = true /\
      forall rest, re_atom C (lbr :: e ++ rest) =
        Ok match items C true toks with Some its => Some (RSet neg its, rest) | None => None end
  | None => encode_pattern_bracket (lbr :: pat) buf = Ok (lbr :: pat, buf ++ [bslash; lbr])
  end.
Proof.
  intros Hc. unfold encode_pattern_bracket. rewrite N.eqb_refl. cbn [negb].
  destruct (match pat with c :: _ => (c =? excl)%N || (c =? caret)%N | [] => false end) eqn:En.
  - destruct pat as [|c pat]; [discriminate|]. rewrite En.
    assert (Nb : c <> bslash) by (intros ->; discriminate).
    rewrite marks_plain in * by auto. unfold gbracket. rewrite En.
    apply clear_true_tail in Hc. pose proof (encode_bracket_body pat ((buf ++ [lbr]) ++ [caret]) Hc) as X.
    match type of X with (let (_, _) := ?p in _) => destruct p as [pat3 buf3] end.
    destruct (gtok Start (marks pat)) as [[toks r]|]; [|rewrite X; reflexivity].
    destruct X as (e & pr & toks' & X1 & X2 & X3 & X4 & X5 & X6 & _).
    exists (caret :: e), pr. rewrite X1. cbn [rbind].
    split; [rewrite <- !app_assoc; reflexivity|]. split; [auto|]. split; [cbn; lia|]. split; [auto|].
    intros rest. cbn [app]. rewrite re_atom_lbr. rewrite N.eqb_refl. rewrite X6.
    rewrite (items_teq C HC _ _ true X5). destruct (items C true toks'); reflexivity.
  - replace (match pat with c1 :: r => if (c1 =? excl)%N || (c1 =? caret)%N then (r, (buf ++ [lbr]) ++ [caret])
       else (pat, buf ++ [lbr]) | [] => (pat, buf ++ [lbr]) end) with (pat, buf ++ [lbr])
      by (destruct pat; [|rewrite En]; reflexivity).
    cbv beta iota.
    assert (Eb : gbracket (marks pat) = match gtok Start (marks pat) with Some (toks, r) => Some (false, toks, r) | None => None end).
    { unfold gbracket. destruct pat as [|c pat]; [reflexivity|]. cbn [marks].
      destruct (c =? bslash)%N; [destruct pat; reflexivity|]. now rewrite En. }
    rewrite Eb. pose proof (encode_bracket_body pat (buf ++ [lbr]) Hc) as X.
    match type of X with (let (_, _) := ?p in _) => destruct p as [pat3 buf3] end.
    destruct (gtok Start (marks pat)) as [[toks r]|]; [|rewrite X; reflexivity].
    destruct X as (e & pr & toks' & X1 & X2 & X3 & X4 & X5 & X6 & (h & e' & -> & Hh)).
    exists (h :: e'), pr. rewrite X1. cbn [rbind].
    split; [rewrite <- !app_assoc; reflexivity|]. split; [auto|]. split; [cbn; lia|]. split; [auto|].
    intros rest. rewrite re_atom_lbr. cbn [app].
    destruct (N.eqb_spec h caret) as [->|].
    + exfalso. destruct (Hh eq_refl) as (m & Em). destruct pat as [|c pat]; [discriminate|]. cbn [marks] in Em.
      destruct (c =? bslash)%N; [destruct pat; discriminate|]. injection Em as -> _. discriminate.
    + change (h :: e' ++ rest) with ((h :: e') ++ rest). rewrite X6.
      rewrite (items_teq C HC _ _ true X5). destruct (items C true toks'); reflexivity.
Qed.

Definition to_r (a : gatom) : ratom :=
  match a with GAny => RAny | GStar => RStar RAny | GChar c => RChar c | GSet neg its => RSet neg its end.
Definition tailtext (tl : bool) : list N := if tl then [dollar] else [].

Lemma re_atoms_step f c s a s1 :
  (c =? dollar)%N && match s with [] => true | _ => false end = false ->
  re_atom C (c :: s) = Ok (Some (a, s1)) -> (forall s', s1 <> aster :: s') ->
  re_atoms C (S f) (c :: s) =
    let! r2 := re_atoms C f s1 in
    match r2 with Some (l, tl) => Ok (Some (a :: l, tl)) | None => Ok None end.
Proof.
  intros H1 H2 H3. cbn [re_atoms]. rewrite H1, H2. cbn [rbind].
  destruct s1 as [|c1 s1]; [reflexivity|]. destruct (N.eqb_spec c1 aster) as [->|]; [exfalso; eapply H3; reflexivity|].
  reflexivity.
Qed.

(** The first character emitted is not an asterisk, caret or dollar. *)
Definition good_head (e : list N) : Prop :=
  forall c e', e = c :: e' -> c <> aster /\ c <> caret /\ c <> dollar.

Lemma good_tail e tl : good_head e -> forall s', e ++ tailtext tl <> aster :: s'.
Proof.
  intros H s' E. destruct e as [|c e]; [destruct tl; discriminate|]. injection E as -> _.
  destruct (H aster e eq_refl) as [X _]. congruence.
Qed.

(** What is known of the text emitted for a pattern. *)
Definition encodes (m : list mark) (e : list N) : Prop :=
  good_head e /\
  forall tl fuel, length (e ++ tailtext tl) < fuel ->
    (exists l, gparses C m l /\ re_atoms C fuel (e ++ tailtext tl) = Ok (Some (map to_r l, tl))) \/
    ((forall l, ~ gparses C m l) /\ re_atoms C fuel (e ++ tailtext tl) = Ok None).

(** Prefixing an atom. *)
Lemma encodes_cons a pre m m' e :
  encodes m e -> (forall l, gparses C m l -> gparses C m' (a :: l)) ->
  (forall l, gparses C m' l -> exists l', gparses C m l' /\ l = a :: l') ->
  good_head pre -> pre <> [] ->
  (forall f s, (forall s', s <> aster :: s') -> re_atoms C (S f) (pre ++ s) =
    let! r2 := re_atoms C f s in
    match r2 with Some (l, tl) => Ok (Some (to_r a :: l, tl)) | None => Ok None end) ->
  encodes m' (pre ++ e).
Proof.
  intros [G E] P1 P2 Gp Np St. split.
  - destruct pre; [congruence|]. intros c' e' [= <- _]. eapply Gp; reflexivity.
  - intros tl fuel Hf. rewrite <- app_assoc in *. destruct fuel as [|f]; [lia|].
    rewrite app_length in Hf. assert (0 < length pre) by (destruct pre; [congruence|cbn; lia]).
    rewrite St by (apply good_tail; auto).
    destruct (E tl f ltac:(lia)) as [(l & L1 & L2)|(L1 & L2)]; rewrite L2; cbn [rbind].
    + left. exists (a :: l). split; auto.
    + right. split; [|auto]. intros l Hl. destruct (P2 l Hl) as (l' & L & _). eapply L1; eauto.
Qed.

Lemma encode_ok : forall n pat buf, length pat < n -> clear_marks false (marks pat) = true ->
  exists e, encode_pattern n pat buf = Ok (buf ++ e) /\ encodes (marks pat) e.
Proof.
  assert (Nil : encodes [] []).
  { split; [intros c e' [=]|]. intros tl [|f] Hf; [lia|]. left. exists []. split; [constructor|].
    destruct tl; reflexivity. }
  assert (Lit : forall c q m e, q = true \/ (c <> quest /\ c <> aster /\ c <> lbr) ->
     encodes m e -> encodes ((c, q) :: m) ((if existsb (N.eqb c) [dot; aster; lbr; caret; dollar; bslash]
                           then [bslash; c] else [c]) ++ e)).
  { intros c q m e Hq E. apply (encodes_cons (GChar c) _ m); auto.
    - intros l Hl. apply gp_char; auto.
    - intros l Hl. inversion Hl; subst; try (exfalso; intuition congruence). eauto.
    - intros x y. destruct (existsb (N.eqb c) [dot; aster; lbr; caret; dollar; bslash]) eqn:Ex; cbn [app]; intros [= <- _].
      + repeat split; discriminate.
      + cbn [existsb] in Ex. repeat apply orb_false_iff in Ex as [? Ex]. neqb. auto.
    - destruct (existsb _ _); discriminate.
    - intros f s Hs. destruct (existsb (N.eqb c) [dot; aster; lbr; caret; dollar; bslash]) eqn:Ex; cbn [app].
      + apply re_atoms_step; auto. cbn [re_atom]. change (bslash =? dot)%N with false. change (bslash =? lbr)%N with false.
        rewrite N.eqb_refl. replace (special c) with true; [reflexivity|]. unfold special. cbn [existsb] in *.
        repeat match goal with |- context [N.eqb c ?k] => destruct (N.eqb c k) end; auto.
      + cbn [existsb] in Ex. repeat apply orb_false_iff in Ex as [? Ex].
        apply re_atoms_step; auto.
        * replace (c =? dollar)%N with false by auto. reflexivity.
        * cbn [re_atom].
          replace (c =? dot)%N with false by auto. replace (c =? lbr)%N with false by auto.
          replace (c =? bslash)%N with false by auto. reflexivity. }
  induction n as [|n IH]; intros pat buf Hn Hc; [lia|].
  destruct pat as [|c pat].
  { exists []. cbn [encode_pattern]. rewrite app_nil_r. auto. }
  cbn [length] in Hn. cbn [encode_pattern].
  destruct (N.eqb_spec c quest) as [->|Nq].
  { rewrite marks_plain in * by discriminate. destruct (IH pat (buf ++ [dot]) ltac:(lia) Hc) as (e & E1 & E2).
    exists ([dot] ++ e). rewrite E1, <- app_assoc. split; [auto|].
    apply (encodes_cons GAny _ (marks pat)); auto.
    - intros l Hl. constructor; auto.
    - intros l Hl. inversion Hl; subst; [eauto|]. exfalso. intuition congruence.
    - intros x y [= <- _]. repeat split; discriminate.
    - discriminate.
    - intros f s Hs. apply re_atoms_step; auto. }
  destruct (N.eqb_spec c aster) as [->|Na].
  { rewrite marks_plain in * by discriminate. destruct (IH pat (buf ++ [dot; aster]) ltac:(lia) Hc) as (e & E1 & E2).
    exists ([dot; aster] ++ e). rewrite E1, <- app_assoc. split; [auto|].
    apply (encodes_cons GStar _ (marks pat)); auto.
    - intros l Hl. constructor; auto.
    - intros l Hl. inversion Hl; subst; [eauto|]. exfalso. intuition congruence.
    - intros x y [= <- _]. repeat split; discriminate.
    - discriminate. }
  destruct (N.eqb_spec c lbr) as [->|Nl].
  { rewrite marks_plain in * by discriminate.
    assert (Hc' : clear_marks true (marks pat) = true).
    { cbn [clear_marks] in Hc. rewrite N.eqb_refl in Hc. cbn [andb negb] in Hc.
      apply andb_true_iff in Hc as [_ Hc]. exact Hc. }
    pose proof (encode_bracket_ok pat buf Hc') as X. destruct (gbracket (marks pat)) as [[[neg toks] r]|] eqn:Eg.
    - destruct X as (e1 & pr & X1 & X2 & X3 & X4 & X5). rewrite X1. cbn [rbind].
      assert (Hpr : clear_marks false (marks pr) = true) by (rewrite X2; apply clear_true_false; auto).
      destruct (IH pr (buf ++ lbr :: e1) ltac:(lia) Hpr) as (e & E1 & E2). rewrite X2 in E2.
      exists ((lbr :: e1) ++ e). rewrite E1, <- app_assoc. split; [auto|].
      destruct (items C true toks) as [its|] eqn:Ei.
      + apply (encodes_cons (GSet neg its) _ r); auto.
        * intros l Hl. eapply gp_set; eauto.
        * intros l Hl. inversion Hl; subst; try congruence.
          -- rewrite Eg in *. match goal with H : Some _ = Some _ |- _ => injection H as <- <- <- end.
             rewrite Ei in *. match goal with H : Some _ = Some _ |- _ => injection H as <- end. eauto.
          -- exfalso. intuition congruence.
        * intros x y [= <- _]. repeat split; discriminate.
        * discriminate.
        * intros f s Hs. cbn [app]. apply re_atoms_step; auto.
      + split; [intros x y [= <- _]; repeat split; discriminate|].
        intros tl [|f] Hf; [lia|]. right. split.
        * intros l Hl. inversion Hl; subst; try congruence. exfalso. intuition congruence.
        * rewrite <- app_assoc. cbn [app re_atoms]. change (lbr =? dollar)%N with false. cbn [andb]. rewrite X5. reflexivity.
    - rewrite X. cbn [rbind].
      destruct (IH pat (buf ++ [bslash; lbr]) ltac:(lia) (clear_true_false _ Hc')) as (e & E1 & E2).
      exists ([bslash; lbr] ++ e). rewrite E1, <- app_assoc. split; [auto|].
      apply (encodes_cons (GChar lbr) _ (marks pat)); auto.
      + intros l Hl. apply gp_open; auto.
      + intros l Hl. inversion Hl; subst; try congruence; eauto.
      + intros x y [= <- _]. repeat split; discriminate.
      + discriminate.
      + intros f s Hs. cbn [app]. apply re_atoms_step; auto. }
  destruct (N.eqb_spec c bslash) as [->|Nb].
  { destruct pat as [|c1 pat].
    - exists []. rewrite app_nil_r. auto.
    - rewrite marks_quoted in *. cbn [length] in Hn.
      assert (Hc' : clear_marks false (marks pat) = true).
      { cbn [clear_marks negb] in Hc. rewrite andb_false_r in Hc. exact Hc. }
      edestruct (IH pat) as (e & E1 & E2); [| |rewrite E1]; [lia|auto|].
      eexists. rewrite <- app_assoc. split; [reflexivity|]. apply Lit; auto. }
  rewrite marks_plain in * by auto.
  assert (Hc' : clear_marks false (marks pat) = true).
  { cbn [clear_marks negb] in Hc. apply N.eqb_neq in Nl. rewrite Nl in Hc. exact Hc. }
  assert (Ht : (if (c =? dot)%N || (c =? caret)%N || (c =? dollar)%N
          then encode_pattern n pat (buf ++ [bslash; c]) else encode_pattern n pat (buf ++ [c])) =
      encode_pattern n pat (buf ++ (if existsb (N.eqb c) [dot; aster; lbr; caret; dollar; bslash]
                           then [bslash; c] else [c]))).
  { cbn [existsb]. apply N.eqb_neq in Na, Nl, Nb. rewrite Na, Nl, Nb.
    destruct (c =? dot)%N, (c =? caret)%N, (c =? dollar)%N; reflexivity. }
  rewrite Ht. edestruct (IH pat) as (e & E1 & E2); [| |rewrite E1]; [lia|auto|].
  eexists. rewrite <- app_assoc. split; [reflexivity|]. apply Lit; auto.
Qed.
End Encode.
