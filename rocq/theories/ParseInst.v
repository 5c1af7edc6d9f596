(** A small language of expansions for the examples and the refutations: $name,
    ${name}, $(text) and `text` where the text of a command substitution has no
    parentheses (nor backquotes nor backslashes in the latter form).  Everything
    else is an error. *)
From Coq Require Import Ascii String.
From Coq Require Import List NArith ZArith Bool Arith Lia.
From Coq Require Import ZifyBool ZifyN.
From Verif Require Import Common Locale ParseModel ParseSpec.
Import ListNotations.
Local Open Scope N_scope.

Inductive exp0 : Set := EPar (name : list N) | ECmd (text : list N).

Fixpoint span (f : N -> bool) (s : list N) : list N * list N :=
  match s with
  | c :: s' => if f c then let (a, b) := span f s' in (c :: a, b) else ([], s)
  | [] => ([], [])
  end.
(** [is_portable_name_char] (parser.c 331-350) *)
Definition is_portable_name_char (c : N) : bool := iswdigit c || ascii_alpha c || (c =? ch "_").
(** The special parameters (parser.c 1297-1301) *)
Definition is_special_par (c : N) : bool := existsb (N.eqb c) (str "@*#?-$!").
Definition no_paren (c : N) : bool := negb ((c =? ch "(") || (c =? ch ")")).

(** A part of [parse_special_word_unit] (parser.c 1261-1286) with
    [tryparse_paramexp_raw] (parser.c 1292-1327): no modifiers in braces, no
    arithmetic expansion, no line continuation inside a name. *)
Definition sp_parse0 (_ : bool) (s : list N) : spres exp0 :=
  match s with
  | [] => SpErr
  | c :: s1 =>
      if c =? ch "$" then
        match lc s1 with
        | [] => SpNone
        | d :: s2 =>
            if d =? ch "{" then
              match s2 with
              | e :: s3 =>
                  if is_special_par e then
                    match s3 with f :: r => if f =? ch "}" then SpSome (EPar [e]) r else SpErr | [] => SpErr end
                  else
                    match span is_portable_name_char s2 with
                    | (a :: n, f :: r) => if f =? ch "}" then SpSome (EPar (a :: n)) r else SpErr
                    | _ => SpErr
                    end
              | [] => SpErr
              end
            else if d =? ch "(" then
              match span no_paren s2 with
              | (t, f :: r) => if f =? ch ")" then SpSome (ECmd t) r else SpErr
              | _ => SpErr
              end
            else if is_special_par d || iswdigit d then SpSome (EPar [d]) s2
            else if is_portable_name_char d then
              let (n, r) := span is_portable_name_char (d :: s2) in SpSome (EPar n) r
            else SpNone
        end
      else
        match span (fun x => no_paren x && negb ((x =? ch "`") || (x =? ch "\"))) s1 with
        | (t, f :: r) => if f =? ch "`" then SpSome (ECmd t) r else SpErr
        | _ => SpErr
        end
  end.
(** The corresponding part of [print_word] (parser.c 3882-3910) *)
Definition sp_print0 (x : exp0) : list N :=
  match x with
  | EPar n => str "${" ++ n ++ str "}"
  | ECmd t => str "$(" ++ t ++ str ")"
  end.

Definition parse0 (s : list N) := read_and_parse c_locale exp0 sp_parse0 (3 * length s + 20) s.
Definition one0 (c : cmd exp0) : aos exp0 := ACons (PCons (CCons c CNil) false false PNil) false ANil.
Definition first0 (r : pres (aos exp0 * list N)) : option (cmd exp0) :=
  match r with POk (ACons (PCons (CCons c CNil) _ _ PNil) _ ANil, _) => Some c | _ => None end.
Fixpoint unstr (s : list N) : string :=
  match s with [] => EmptyString | c :: s' => String (ascii_of_N c) (unstr s') end.
Definition show ml (r : pres (aos exp0 * list N)) : option string :=
  option_map (fun c => unstr (command_to_wcs c_locale exp0 sp_print0 ml c)) (first0 r).

Lemma span_spec : forall f s a r, span f s = (a, r) -> s = a ++ r /\ forallb f a = true.
Proof.
  intros f. induction s as [|c s IH]; intros a r H; cbn [span] in H; [injection H as <- <-; auto|].
  destruct (f c) eqn:E; [|injection H as <- <-; auto]. destruct (span f s) as [a' r']. injection H as <- <-.
  destruct (IH _ _ eq_refl) as [-> H]. cbn [forallb]. rewrite E. auto.
Qed.
Lemma span_stop : forall f a c r, forallb f a = true -> f c = false -> span f (a ++ c :: r) = (a, c :: r).
Proof.
  intros f. induction a as [|x a IH]; intros c r H Hc; cbn [app span]; [rewrite Hc; auto|]. cbn [forallb] in H. apply andb_true_iff in H.
  destruct H as [H1 H2]. rewrite H1, IH by auto. reflexivity.
Qed.
Lemma print_par : forall e n q r, (is_special_par e = true /\ n = []) \/ forallb is_portable_name_char (e :: n) = true ->
  sp_parse0 q (sp_print0 (EPar (e :: n)) ++ r) = SpSome (EPar (e :: n)) r.
Proof.
  intros e n q r H. change (sp_print0 (EPar (e :: n)) ++ r) with (ch "$" :: ch "{" :: ((e :: n) ++ str "}") ++ r). unfold sp_parse0. rewrite <- !app_assoc. rewrite N.eqb_refl.
  replace (lc (ch "{" :: (e :: n) ++ str "}" ++ r)) with (ch "{" :: (e :: n) ++ ch "}" :: r) by reflexivity. rewrite N.eqb_refl.
  cbn [app]. destruct (is_special_par e) eqn:Es.
  - assert (n = []) as ->.
    { destruct H as [[_ H]|H]; auto. exfalso. cbn [forallb] in H. apply andb_true_iff in H. destruct H as [H _].
      unfold is_special_par in Es. apply existsb_exists in Es. destruct Es as (x & Hx & Hb). apply N.eqb_eq in Hb. subst x.
      cbn in Hx. repeat (destruct Hx as [<-|Hx]; [discriminate H|]). destruct Hx. }
    cbn [app]. rewrite N.eqb_refl. reflexivity.
  - destruct H as [[H _]|H]; [congruence|]. change (e :: n ++ ch "}" :: r) with ((e :: n) ++ ch "}" :: r). rewrite span_stop by (auto; reflexivity). rewrite N.eqb_refl. reflexivity.
Qed.
Lemma print_sub : forall t q r, forallb no_paren t = true -> sp_parse0 q (sp_print0 (ECmd t) ++ r) = SpSome (ECmd t) r.
Proof.
  intros t q r H. change (sp_print0 (ECmd t) ++ r) with (ch "$" :: ch "(" :: (t ++ str ")") ++ r). unfold sp_parse0. rewrite <- !app_assoc. rewrite N.eqb_refl.
  replace (lc (ch "(" :: t ++ str ")" ++ r)) with (ch "(" :: t ++ ch ")" :: r) by (destruct t; reflexivity).
  change (ch "(" =? ch "{") with false. cbv iota. rewrite N.eqb_refl. rewrite span_stop by (auto; reflexivity). rewrite N.eqb_refl. reflexivity.
Qed.
Lemma sp_read0 : forall q s x r, sp_parse0 q s = SpSome x r -> forall q' r', sp_parse0 q' (sp_print0 x ++ r') = SpSome x r'.
Proof.
  intros q s x r H q' r'. destruct s as [|c s1]; [discriminate|]. unfold sp_parse0 in H at 1. destruct (c =? ch "$").
  - destruct (lc s1) as [|d s2]; [discriminate|]. destruct (d =? ch "{").
    + destruct s2 as [|e s3]; [discriminate|]. destruct (is_special_par e) eqn:Es.
      * destruct s3 as [|f r0]; [discriminate|]. destruct (f =? ch "}"); [|discriminate]. injection H as <- <-. apply print_par. auto.
      * destruct (span is_portable_name_char (e :: s3)) as [[|a n] [|f r0]] eqn:E; try discriminate. destruct (f =? ch "}"); [|discriminate]. injection H as <- <-.
        apply span_spec in E. apply print_par. right. apply E.
    + destruct (d =? ch "(").
      * destruct (span no_paren s2) as [t [|f r0]] eqn:E; [discriminate|]. destruct (f =? ch ")"); [|discriminate]. injection H as <- <-. apply span_spec in E. apply print_sub. apply E.
      * destruct (is_special_par d || iswdigit d) eqn:Ed.
        -- injection H as <- <-. apply print_par. destruct (is_special_par d); [auto|]. right. cbn [orb] in Ed. cbn [forallb]. unfold is_portable_name_char. rewrite Ed. reflexivity.
        -- destruct (is_portable_name_char d) eqn:Ep; [|discriminate]. destruct (span is_portable_name_char (d :: s2)) as [n r0] eqn:E. injection H as <- <-.
           assert (exists m, n = d :: m) as [m ->]. { cbn [span] in E. rewrite Ep in E. destruct (span is_portable_name_char s2). injection E as <- <-. eauto. }
           apply span_spec in E. apply print_par. right. apply E.
  - destruct (span _ s1) as [t [|f r0]] eqn:E; [discriminate|]. destruct (f =? ch "`"); [|discriminate]. injection H as <- <-. apply span_spec in E. apply print_sub.
    destruct E as [_ E]. rewrite forallb_forall in *. intros y Hy. apply E in Hy. apply andb_true_iff in Hy. tauto.
Qed.
Theorem expansions0 : expansions_ok c_locale exp0 sp_print0 sp_parse0.
Proof.
  split.
  - apply sp_read0.
  - intros [n|t]; eexists; reflexivity.
  - intros q s H q' s' E. unfold sp_parse0 in *. rewrite N.eqb_refl in *. destruct (lc s) as [|d s2]; destruct (lc s') as [|d' s2']; try discriminate E; auto.
    injection E as ->. destruct (d =? ch "{").
    + exfalso. destruct s2 as [|e s3]; [discriminate|]. destruct (is_special_par e); [destruct s3 as [|f r]; [discriminate|]; destruct (f =? ch "}"); discriminate|].
      destruct (span is_portable_name_char (e :: s3)) as [[|a n] [|f r]]; try discriminate. destruct (f =? ch "}"); discriminate.
    + destruct (d =? ch "(").
      * exfalso. destruct (span no_paren s2) as [t [|f r]]; try discriminate. destruct (f =? ch ")"); discriminate.
      * destruct (is_special_par d || iswdigit d); [discriminate|]. destruct (is_portable_name_char d); auto. exfalso.
        destruct (span is_portable_name_char (d :: s2)); discriminate.
  - intros q s H. unfold sp_parse0. rewrite N.eqb_refl. destruct s as [|c s]; [reflexivity|]. destruct H as [H Hp].
    assert (Hc : existsb (N.eqb c) (0 :: 9 :: 10 :: 32 :: str ";&|<>)") = true).
    { unfold is_delim in H. cbn [iswblank c_locale] in H. unfold c_blank in H. unfold str in *. cbn [existsb list_ascii_of_string map] in *.
      apply N.eqb_neq in Hp. unfold ch in Hp. rewrite Hp in H. lia. }
    clear H Hp. apply existsb_exists in Hc. destruct Hc as (x & Hx & Hb). apply N.eqb_eq in Hb. subst x.
    replace (lc (c :: s)) with (c :: s).
    + cbn in Hx. repeat (destruct Hx as [<-|Hx]; [reflexivity|]). destruct Hx.
    + destruct s as [|d s]; [reflexivity|]. cbn [lc]. cbn in Hx. repeat (destruct Hx as [<-|Hx]; [reflexivity|]). destruct Hx.
  - intros q s. unfold sp_parse0. change (ch "`" =? ch "$") with false. cbv iota. destruct (span _ s) as [t [|f r]]; [discriminate|]. destruct (f =? ch "`"); discriminate.
Qed.
