(** What reading back changes ([norm]) is neither visible in the text nor in the
    values of expressions, and nothing changes the second time. *)
From Coq Require Import Ascii String.
From Coq Require Import List NArith ZArith Bool Arith Lia.
From Coq Require Import ZifyBool ZifyN.
From Verif Require Import Common Locale NumModel ParseModel ParseSpec ParseLex ParseText ParseRound.
Import ListNotations.
Local Open Scope N_scope.

Section Norm.
Variable L : locale.
Variable X : Type.
Variable sp_print : X -> list N.
Notation dbexp := (dbexp X).
Notation dnorm := (dnorm X).
Notation or_app := (or_app X).
Notation and_app := (and_app X).
Notation d_text := (d_text X sp_print).
Notation print_dbexp := (print_dbexp X sp_print).

(** ** Expressions *)
Lemma dval_or : forall v x y, dval X v (or_app x y) = dval X v (DOr x y).
Proof.
  intros v x y. induction x as [a _ b IH|a _ b _|a _|op w|l op r|w]; cbn [ParseSpec.or_app dval] in *; auto.
  rewrite IH. destruct (dval X v a) as [[|]|]; reflexivity.
Qed.
Lemma dval_and : forall v x y, dval X v (and_app x y) = dval X v (DAnd x y).
Proof.
  intros v x y. induction x as [a _ b _|a _ b IH|a _|op w|l op r|w]; cbn [ParseSpec.and_app dval] in *; auto.
  rewrite IH. destruct (dval X v a) as [[|]|]; reflexivity.
Qed.
Lemma dval_norm : forall v e, dval X v (dnorm e) = dval X v e.
Proof.
  intros v e. induction e as [a IHa b IHb|a IHa b IHb|a IHa|op w|l op r|w]; cbn [ParseSpec.dnorm]; auto.
  - rewrite dval_or. cbn [dval]. rewrite IHa, IHb. reflexivity.
  - rewrite dval_and. cbn [dval]. rewrite IHa, IHb. reflexivity.
  - cbn [dval]. rewrite IHa. reflexivity.
Qed.
(** A chain of || has no || on the left, one of && no && *)
Fixpoint right (e : dbexp) : Prop :=
  match e with
  | DOr a b => right a /\ right b /\ match a with DOr _ _ => False | _ => True end
  | DAnd a b => right a /\ right b /\ match a with DAnd _ _ => False | _ => True end
  | DNot a => right a
  | _ => True
  end.
Lemma right_or : forall x y, right x -> right y -> right (or_app x y).
Proof.
  induction x as [a _ b IH|a _ b _|a _|op w|l op r|w]; intros y Hx Hy; cbn [ParseSpec.or_app right] in *; auto.
  destruct Hx as (H1 & H2 & H3). auto.
Qed.
Lemma right_and : forall x y, right x -> right y -> right (and_app x y).
Proof.
  induction x as [a _ b _|a _ b IH|a _|op w|l op r|w]; intros y Hx Hy; cbn [ParseSpec.and_app right] in *; auto.
  destruct Hx as (H1 & H2 & H3). auto.
Qed.
Lemma right_norm : forall e, right (dnorm e).
Proof.
  induction e as [a IHa b IHb|a IHa b IHb|a IHa|op w|l op r|w]; cbn [ParseSpec.dnorm right]; auto; [apply right_or|apply right_and]; auto.
Qed.
Lemma norm_right : forall e, right e -> dnorm e = e.
Proof.
  induction e as [a IHa b IHb|a IHa b IHb|a IHa|op w|l op r|w]; cbn [ParseSpec.dnorm right]; auto.
  - intros (H1 & H2 & H3). rewrite IHa, IHb by auto. destruct a; auto. destruct H3.
  - intros (H1 & H2 & H3). rewrite IHa, IHb by auto. destruct a; auto. destruct H3.
  - intros H. rewrite IHa by auto. reflexivity.
Qed.
Lemma dnorm_idem : forall e, dnorm (dnorm e) = dnorm e.
Proof. intros e. apply norm_right, right_norm. Qed.

Lemma d_or_app : forall x y, d_text (or_app x y) 0 = d_text x 0 ++ str "|| " ++ d_text y 0.
Proof.
  induction x as [a _ b IH|a _ b _|a _|op w|l op r|w]; intros y; cbn [ParseSpec.or_app]; rewrite !d_or; auto.
  rewrite IH. rewrite <- !app_assoc. reflexivity.
Qed.
Lemma d_and_app : forall x y, d_text (and_app x y) 1 = d_text x 1 ++ str "&& " ++ d_text y 1.
Proof.
  induction x as [a _ b _|a _ b IH|a _|op w|l op r|w]; intros y; cbn [ParseSpec.and_app]; rewrite !d_and; auto.
  rewrite IH. rewrite <- !app_assoc. reflexivity.
Qed.
Lemma or_app_or : forall x y, exists a b, or_app x y = DOr a b.
Proof. intros x y. destruct x; eexists _, _; reflexivity. Qed.
Lemma and_app_and : forall x y, exists a b, and_app x y = DAnd a b.
Proof. intros x y. destruct x; eexists _, _; reflexivity. Qed.
Lemma d_and01 : forall a b, d_text (DAnd a b) 0 = d_text (DAnd a b) 1.
Proof. intros a b. reflexivity. Qed.
Lemma d_norm : forall e c, (c <= 2)%nat -> d_text (dnorm e) c = d_text e c.
Proof.
  induction e as [a IHa b IHb|a IHa b IHb|a IHa|op w|l op r|w]; intros c Hc; cbn [ParseSpec.dnorm]; auto.
  - assert (E0 : d_text (or_app (dnorm a) (dnorm b)) 0 = d_text (DOr a b) 0) by (rewrite d_or_app, d_or, IHa, IHb by lia; reflexivity).
    destruct c as [|c]; auto. destruct (or_app_or (dnorm a) (dnorm b)) as (p & q & E). rewrite E in *. rewrite (d_paren_or _ _ p q (S c)), (d_paren_or _ _ a b (S c)) by lia. rewrite E0. reflexivity.
  - assert (E1 : d_text (and_app (dnorm a) (dnorm b)) 1 = d_text (DAnd a b) 1) by (rewrite d_and_app, d_and, IHa, IHb by lia; reflexivity).
    destruct (and_app_and (dnorm a) (dnorm b)) as (p & q & E). rewrite E in *. destruct c as [|[|[|c]]]; [rewrite !d_and01; auto|auto| |lia].
    rewrite (d_paren_and _ _ p q), (d_paren_and _ _ a b). rewrite !d_and01, E1. reflexivity.
  - rewrite !d_not, IHa by lia. reflexivity.
Qed.

(** ** Commands *)
Lemma keyword_bs : forall s, is_keyword (ch "\" :: s) = false.
Proof. intros s. reflexivity. Qed.
Lemma quote_first_idem : forall a ws, quote_first X a (quote_first X a ws) = quote_first X a ws.
Proof.
  intros [|a1 a] ws; [|reflexivity]. destruct ws as [|[|[s|] [|]] ws]; try reflexivity. cbn [quote_first]. destruct (is_keyword s) eqn:E.
  - cbn [quote_first]. rewrite keyword_bs. reflexivity.
  - rewrite E. reflexivity.
Qed.
Lemma simple_norm : forall b a ws, print_simple X sp_print b a (quote_first X a ws) = print_simple X sp_print b a ws.
Proof.
  intros b [|a1 a] ws; [|reflexivity]. destruct ws as [|[|[s|] [|]] ws]; try reflexivity. cbn [quote_first]. destruct (is_keyword s) eqn:E; [|reflexivity].
  unfold print_simple. cbn [quote_keyword single_string]. rewrite keyword_bs, E. cbn [print_assigns]. unfold print_spaced. cbn [flat_map print_word]. rewrite <- !app_assoc. reflexivity.
Qed.

Theorem norm_idem : (forall c, norm X (norm X c) = norm X c) /\ (forall c, norm_cmds X (norm_cmds X c) = norm_cmds X c) /\
  (forall c, norm_pls X (norm_pls X c) = norm_pls X c) /\ (forall c, norm_aos X (norm_aos X c) = norm_aos X c) /\
  (forall c, norm_ifcs X (norm_ifcs X c) = norm_ifcs X c) /\ (forall c, norm_cis X (norm_cis X c) = norm_cis X c).
Proof.
  apply tree_mut; intros; cbn [norm norm_cmds norm_pls norm_aos norm_ifcs norm_cis]; try reflexivity.
  - f_equal. apply quote_first_idem.
  - f_equal. exact H.
  - f_equal. exact H.
  - f_equal. exact H.
  - f_equal. exact H.
  - f_equal; [exact H|exact H0].
  - f_equal. exact H.
  - f_equal. apply dnorm_idem.
  - f_equal. exact H.
  - f_equal; [exact H|exact H0].
  - f_equal; [exact H|exact H0].
  - f_equal; [exact H|exact H0].
  - f_equal; [exact H|exact H0|exact H1].
  - f_equal; [exact H|exact H0].
Qed.

Section Ml.
Variable ml : bool.
Theorem print_norm :
  (forall c b k, print_cmd L X sp_print ml b (norm X c) k = print_cmd L X sp_print ml b c k) /\
  (forall c b k, print_cmds L X sp_print ml b (norm_cmds X c) k = print_cmds L X sp_print ml b c k) /\
  (forall p b k, print_pls L X sp_print ml b (norm_pls X p) k = print_pls L X sp_print ml b p k) /\
  (forall l b k o, print_aos L X sp_print ml b (norm_aos X l) k o = print_aos L X sp_print ml b l k o) /\
  (forall l b k f, print_ifs L X sp_print ml b (norm_ifcs X l) k f = print_ifs L X sp_print ml b l k f) /\
  (forall l b k, print_cis L X sp_print ml b (norm_cis X l) k = print_cis L X sp_print ml b l k).
Proof.
  apply tree_mut.
  - intros a ws r b k. rewrite !print_cmd_eqn. cbn [norm]. rewrite simple_norm. reflexivity.
  - intros l H r b k. rewrite !print_cmd_eqn. cbn zeta. change (norm X (CGroup l r)) with (CGroup (norm_aos X l) r). cbv iota. rewrite H. reflexivity.
  - intros l H r b k. rewrite !print_cmd_eqn. cbn zeta. change (norm X (CSubshell l r)) with (CSubshell (norm_aos X l) r). cbv iota. rewrite H. reflexivity.
  - intros l H r b k. rewrite !print_cmd_eqn. cbn zeta. change (norm X (CIf l r)) with (CIf (norm_ifcs X l) r). cbv iota. rewrite H. reflexivity.
  - intros name ws l H r b k. rewrite !print_cmd_eqn. cbn zeta. change (norm X (CFor name ws l r)) with (CFor name ws (norm_aos X l) r). cbv iota. rewrite H. reflexivity.
  - intros w l H l' H' r b k. rewrite !print_cmd_eqn. cbn zeta. change (norm X (CWhile w l l' r)) with (CWhile w (norm_aos X l) (norm_aos X l') r). cbv iota. rewrite H, H'. reflexivity.
  - intros w l H r b k. rewrite !print_cmd_eqn. cbn zeta. change (norm X (CCase w l r)) with (CCase w (norm_cis X l) r). cbv iota. rewrite H. reflexivity.
  - intros e r b k. rewrite !print_cmd_eqn. change (norm X (CBracket e r)) with (CBracket (dnorm e) r). cbv iota. rewrite !print_dbexp_eq, d_norm by lia. reflexivity.
  - intros w c H b k. change (norm X (CFunc w c)) with (CFunc w (norm X c)). rewrite (print_cmd_eqn _ _ _ _ _ (CFunc w (norm X c))), (print_cmd_eqn _ _ _ _ _ (CFunc w c)). cbn zeta. cbv iota. apply H.
  - intros b k. reflexivity.
  - intros c H cs H' b k. rewrite !print_cmds_eqn. cbn zeta. change (norm_cmds X (CCons c cs)) with (CCons (norm X c) (norm_cmds X cs)). cbv iota. rewrite H.
    destruct cs; [reflexivity|]. rewrite <- H'. reflexivity.
  - intros b k. reflexivity.
  - intros cs H n c p H' b k. rewrite !print_pls_eqn. cbn zeta. change (norm_pls X (PCons cs n c p)) with (PCons (norm_cmds X cs) n c (norm_pls X p)). cbv iota. rewrite H.
    destruct p; [reflexivity|]. rewrite <- H'. reflexivity.
  - intros b k o. reflexivity.
  - intros p H a l H' b k o. rewrite !print_aos_eqn. cbn zeta. change (norm_aos X (ACons p a l)) with (ACons (norm_pls X p) a (norm_aos X l)). cbv iota. rewrite H.
    rewrite H'. destruct l; reflexivity.
  - intros b k f. reflexivity.
  - intros c H d H' l H'' b k f. rewrite !print_ifs_eqn. cbn zeta. change (norm_ifcs X (ICons c d l)) with (ICons (norm_aos X c) (norm_aos X d) (norm_ifcs X l)). cbv iota.
    assert (E1 : match norm_aos X c with ANil => match norm_ifcs X l with INil => true | ICons _ _ _ => false end | ACons _ _ _ => false end =
      match c with ANil => match l with INil => true | ICons _ _ _ => false end | ACons _ _ _ => false end) by (destruct c, l; reflexivity).
    rewrite E1, !H', H, H''. reflexivity.
  - intros b k. reflexivity.
  - intros ps body H l H' b k. change (norm_cis X (CICons ps body l)) with (CICons ps (norm_aos X body) (norm_cis X l)). rewrite (print_cis_eqn _ _ _ _ _ (CICons ps (norm_aos X body) (norm_cis X l))), (print_cis_eqn _ _ _ _ _ (CICons ps body l)). cbn zeta. cbv iota. rewrite H.
    rewrite H'. destruct body; reflexivity.
Qed.
End Ml.
End Norm.
