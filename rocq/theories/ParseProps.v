(** Listing a command and reading the listing. *)
From Coq Require Import Ascii String.
From Coq Require Import List NArith ZArith Bool Arith Lia.
From Coq Require Import ZifyBool ZifyN.
From Verif Require Import Common Locale NumModel ParseModel ParseSpec ParseInst ParseLex ParseText ParseRound ParseSound ParseNorm.
Import ListNotations.
Local Open Scope N_scope.

Section Proofs.
Variable L : locale.
Hypothesis Lok : locale_ok L.
Variable X : Type.
Variable sp_parse : bool -> list N -> spres X.
Variable sp_print : X -> list N.
Hypothesis EX : expansions_ok L X sp_print sp_parse.
Notation rp := (read_and_parse L X sp_parse).

Lemma program_sound : forall n s l r, rp n s = POk (l, r) -> G_aos L X sp_parse sp_print l.
Proof.
  intros n s l r H. unfold read_and_parse in H. destruct (next_token L X sp_parse s) as [t| | |] eqn:E; try discriminate. cbn [pbind] in H.
  eapply line_sound; eauto. exists s. exact E.
Qed.

(** The end of a listing *)
Definition ending (ml : bool) : list N := if ml then [10] else [].
Lemma ending_tok : forall ml, dstop (ending ml) /\ exists t, next_token L X sp_parse (ending ml) = POk t /\
  fol2 X t /\ tk_rest X t = [] /\ (tk_type X t = TT_NEWLINE \/ tk_type X t = TT_END_OF_INPUT).
Proof.
  intros [|]; (split; [cbn; auto|]); eexists; (split; [first [reflexivity|apply next_token_op; [reflexivity|apply (blank_ascii L Lok); reflexivity|discriminate|discriminate]]|]); repeat split; try discriminate; auto.
Qed.

Lemma pls_line : forall p ml k, gpls L X sp_parse sp_print p -> p <> PNil -> pcond X p = false ->
  forall ml', reads L X sp_parse (k_pls L X sp_print ml p k ++ ending ml') (ACons (norm_pls X p) false ANil) [].
Proof.
  intros p ml k G Hn Hc ml'. destruct (ending_tok ml') as (Hd & t1 & E1 & Hf & Hr & Hty).
  destruct (proj1 (proj2 (proj2 (round L Lok X sp_parse sp_print EX ml))) p G Hn k _ _ Hd E1 Hf) as (t0 & E0 & (Hs1 & Hs2 & _) & He).
  rewrite Hc in He. unfold reads.
  assert (G0 : evt (fun m => p_line L X sp_parse m false t0 = POk (ACons (norm_pls X p) false ANil, []))).
  { eapply evt_S; [exact (evt_and _ _ He (evt_S0 (fun m => p_line L X sp_parse m true t1 = POk (ANil, []))
      ltac:(intros m; cbn [p_line]; rewrite Hr; destruct Hty as [-> | ->]; reflexivity)))|].
    cbn beta. intros m [Hm1 Hm2]. cbn [p_line]. rewrite !tt_eqb_neq by auto. cbn [orb]. rewrite Hm1. cbn [pbind].
    destruct Hty as [Hty|Hty]; rewrite Hty; cbn; rewrite Hm2; reflexivity. }
  destruct G0 as [n Hn']. exists n. intros m Hm. unfold read_and_parse. rewrite E0. cbn [pbind]. auto.
Qed.
Lemma cmd_line : forall c ml k, gcmd L X sp_parse sp_print c ->
  forall ml', reads L X sp_parse (k_cmd L X sp_print ml c k ++ ending ml') (single X (norm X c)) [].
Proof.
  intros c ml k G ml'. destruct (ending_tok ml') as (Hd & t1 & E1 & (Hf & Hp & Ha & Ho) & Hr & Hty).
  destruct (proj1 (round L Lok X sp_parse sp_print EX ml) c G k _ _ Hd E1 Hf) as (t0 & E0 & ((Hs1 & Hs2 & _) & Hs3 & _) & He & _).
  assert (G0 : evt (fun m => p_line L X sp_parse m false t0 = POk (single X (norm X c), []))).
  { eapply evt_S; [eapply evt_and; [eapply evt_S; [eapply evt_S; [exact He|]|]|]|].
    - cbn beta. intros m Hm. instantiate (1 := fun m => p_commands L X sp_parse m t0 = POk (CCons (norm X c) CNil, t1)). cbn beta.
      rewrite p_commands_S, Hm. cbn [pbind]. rewrite tt_eqb_neq by auto. reflexivity.
    - cbn beta. intros m Hm. instantiate (1 := fun m => p_pipelines L X sp_parse m false t0 = POk (PCons (CCons (norm X c) CNil) false false PNil, t1)). cbn beta.
      rewrite p_pipelines_S. rewrite tt_eqb_neq by auto. cbv zeta iota. cbn [pbind]. rewrite Hm. cbn [pbind]. rewrite !tt_eqb_neq by auto. reflexivity.
    - exact (evt_S0 (fun m => p_line L X sp_parse m true t1 = POk (ANil, []))
        ltac:(intros m; cbn [p_line]; rewrite Hr; destruct Hty as [-> | ->]; reflexivity)).
    - cbn beta. intros m [Hm1 Hm2]. cbn [p_line]. rewrite !tt_eqb_neq by auto. cbn [orb]. rewrite Hm1. cbn [pbind].
      destruct Hty as [Hty|Hty]; rewrite Hty; cbn; rewrite Hm2; reflexivity. }
  destruct G0 as [n Hn']. exists n. intros m Hm. unfold read_and_parse. rewrite E0. cbn [pbind]. auto.
Qed.

Lemma name_plain : forall c, is_name_char L c = true -> plain L false c /\ is_delim L c = false /\ c <> ch "#" /\ c <> ch "\".
Proof.
  intros c H.
  assert (G : forall d, d < 128 -> is_name_char L d = false -> c <> d) by (intros d _ Hd ->; congruence).
  assert (A : forall d, d < 128 -> (d =? ch "_") || iswdigit d || ascii_alpha d = false -> c <> d).
  { intros d Hd Hn. apply G; auto. unfold is_name_char, iswalnum. rewrite (lk_alpha L Lok) by auto. destruct (d =? ch "_"), (iswdigit d), (ascii_alpha d); auto; discriminate Hn. }
  assert (D : is_delim L c = false).
  { rewrite (delim_op L c). apply orb_false_iff. split.
    - unfold opchar. apply not_true_is_false. intros E. apply existsb_exists in E. destruct E as (x & Hx & Hb). apply N.eqb_eq in Hb. subst x.
      cbn in Hx. repeat (destruct Hx as [Hx|Hx]; [revert Hx; apply not_eq_sym, A; reflexivity|]). destruct Hx.
    - destruct (iswblank L c) eqn:E; auto. exfalso. destruct (N.ltb_spec c 128) as [Hl|Hl].
      + rewrite (lk_blank L Lok) in E by auto. unfold c_blank in E. apply orb_true_iff in E. destruct E as [E|E]; apply N.eqb_eq in E; revert E; apply A; reflexivity.
      + unfold is_name_char, iswalnum in H. rewrite (lk_disjoint L Lok) in H by (apply (lk_blank_space L Lok); auto). unfold iswdigit in H. change (ch "_") with 95 in H. lia. }
  unfold plain. rewrite D. cbn [negb andb]. repeat split; auto; try left; apply A; reflexivity.
Qed.
Lemma name_lex : forall s, s <> [] -> Forall (fun c => is_name_char L c = true) s -> lexable L X sp_parse sp_print [UStr s].
Proof.
  assert (G : forall s acc, acc ++ s <> [] -> Forall (fun c => is_name_char L c = true) s -> pw L X sp_parse sp_print false acc s [UStr (acc ++ s)]).
  { induction s as [|c s IH]; intros acc Hn H.
    - rewrite app_nil_r in *. replace [UStr acc] with (flush X acc []) by (destruct acc; [congruence|reflexivity]). apply pw_end.
    - inversion H; subst. apply pw_plain; [apply name_plain; auto|].
      change (c :: s) with ([c] ++ s). rewrite app_assoc. apply IH; auto. destruct acc; discriminate. }
  intros s Hn H. split; cbn [print_word]; rewrite app_nil_r.
  - apply (G s []); auto.
  - destruct s as [|c s]; [congruence|]. inversion H as [|? ? H1 H2]; subst. destruct (name_plain _ H1) as (A & B & C & D). split; auto. split; auto.
    destruct s; auto.
Qed.
Lemma func_line : forall name body, is_name L name = true -> is_keyword name = false -> gbody L X body -> gcmd L X sp_parse sp_print body ->
  reads L X sp_parse (print_function L X sp_print name body) (single X (CFunc [UStr name] (norm X body))) [].
Proof.
  intros name body Hn Hk Hb Hc.
  assert (G : gcmd L X sp_parse sp_print (CFunc [UStr name] body)).
  { split; [|split; auto]. split.
    - assert (F : name <> [] /\ Forall (fun c => is_name_char L c = true) name).
      { unfold is_name in Hn. destruct name as [|d x]; [discriminate|]. split; [discriminate|]. destruct (skip_name L (d :: x)) as [n r] eqn:E.
        apply skip_name_spec in E. destruct E as [E F]. cbn [snd] in Hn. destruct r; [|discriminate Hn]. rewrite E, app_nil_r. auto. }
      split; [apply name_lex; apply F|]. cbn [print_word]. rewrite app_nil_r. apply (name_calms L Lok); auto.
    - unfold is_name_word, identify_reserved_word. cbn [single_string]. rewrite Hn. unfold is_keyword in Hk. apply negb_false_iff in Hk. apply tt_eqb_eq in Hk. auto. }
  pose proof (cmd_line _ true O G true) as H. cbn [norm] in H.
  unfold print_function. rewrite command_text with (sp_parse := sp_parse) by auto.
  replace (k_cmd L X sp_print true (CFunc [UStr name] body) 0 ++ ending true) with (name ++ str "()" ++ [10] ++ k_cmd L X sp_print true body 0 ++ [10]) in H; [exact H|].
  cbn [k_cmd]. unfold is_name_word. cbn [single_string]. rewrite Hn. cbn [print_word app]. rewrite app_nil_r, <- !app_assoc. reflexivity.
Qed.

(** A part of a part *)
Lemma sub_body : (forall c w b, sub X (CFunc w b) c -> sub X b c) /\ (forall c w b, sub_cmds X (CFunc w b) c -> sub_cmds X b c) /\
  (forall c w b, sub_pls X (CFunc w b) c -> sub_pls X b c) /\ (forall c w b, sub_aos X (CFunc w b) c -> sub_aos X b c) /\
  (forall c w b, sub_ifcs X (CFunc w b) c -> sub_ifcs X b c) /\ (forall c w b, sub_cis X (CFunc w b) c -> sub_cis X b c).
Proof.
  apply tree_mut.
  - intros a ws r w b [H|[]]; discriminate.
  - intros l H r w b [E|E]; [discriminate|right; eapply H; exact E].
  - intros l H r w b [E|E]; [discriminate|right; eapply H; exact E].
  - intros l H r w b [E|E]; [discriminate|right; eapply H; exact E].
  - intros n ws l H r w b [E|E]; [discriminate|right; eapply H; exact E].
  - intros n l H l' H' r w b [E|[E|E]]; [discriminate|right; left; eapply H; exact E|right; right; eapply H'; exact E].
  - intros w0 l H r w b [E|E]; [discriminate|right; eapply H; exact E].
  - intros e r w b [H|[]]; discriminate.
  - intros w0 c H w b [E|E]; right; [injection E as _ ->; destruct c; left; reflexivity|eapply H; exact E].
  - intros w b [].
  - intros c H cs H' w b [E|E]; [left; eapply H; exact E|right; eapply H'; exact E].
  - intros w b [].
  - intros c H n c0 p H' w b [E|E]; [left; eapply H; exact E|right; eapply H'; exact E].
  - intros w b [].
  - intros c H n l H' w b [E|E]; [left; eapply H; exact E|right; eapply H'; exact E].
  - intros w b [].
  - intros c H c' H' l H'' w b [E|[E|E]]; [left; eapply H; exact E|right; left; eapply H'; exact E|right; right; eapply H''; exact E].
  - intros w b [].
  - intros ps c H l H' w b [E|E]; [left; eapply H; exact E|right; eapply H'; exact E].
Qed.
End Proofs.

(** ** The theorems *)

(** Reading does not depend on the fuel once there is enough of it. *)
Theorem reads_unique : forall L X sp_parse s l r l' r',
  reads L X sp_parse s l r -> reads L X sp_parse s l' r' -> l = l' /\ r = r'.
Proof.
  intros L X sp_parse s l r l' r' [n H] [n' H']. specialize (H (Nat.max n n') ltac:(lia)). specialize (H' (Nat.max n n') ltac:(lia)).
  rewrite H in H'. injection H' as <- <-. auto.
Qed.
Print Assumptions reads_unique.

(** C90: the text of a command of any program, on one line or on many, is read as
    that command. *)
Theorem command_text_reads_back_partial : forall L X sp_parse sp_print, locale_ok L -> expansions_ok L X sp_print sp_parse ->
  forall n program l rest c, read_and_parse L X sp_parse n program = POk (l, rest) -> sub_aos X c l -> cmd_ok L X sp_print c ->
  forall ml, reads L X sp_parse (command_to_wcs L X sp_print ml c) (single X (norm X c)) [].
Proof.
  intros L X sp_parse sp_print Lok EX n program l rest c H Hs Hok ml. apply (program_sound L Lok X sp_parse sp_print EX) in H.
  assert (G : gcmd L X sp_parse sp_print c) by (apply (proj1 (proj1 H)); auto).
  rewrite (command_text L X sp_parse sp_print) by auto. apply (cmd_line L Lok X sp_parse sp_print EX c ml O G ml).
Qed.
Print Assumptions command_text_reads_back_partial.

(** C91: so is the text of an and-or list, which is the name of a job. *)
Theorem pipelines_text_reads_back_partial : forall L X sp_parse sp_print, locale_ok L -> expansions_ok L X sp_print sp_parse ->
  forall n program l rest p, read_and_parse L X sp_parse n program = POk (l, rest) -> psub_aos X p l -> pls_ok L X sp_print p ->
  reads L X sp_parse (pipelines_to_wcs L X sp_print false p) (ACons (norm_pls X p) false ANil) [].
Proof.
  intros L X sp_parse sp_print Lok EX n program l rest p H Hs Hok. apply (program_sound L Lok X sp_parse sp_print EX) in H.
  destruct (proj2 (proj1 H) p Hs) as (H1 & H2 & H3). specialize (H3 Hok).
  rewrite (pipelines_text L X sp_parse sp_print) by auto.
  pose proof (pls_line L Lok X sp_parse sp_print EX p false O H3 H1 H2 false) as G. cbn [ending] in G. rewrite app_nil_r in G. exact G.
Qed.
Print Assumptions pipelines_text_reads_back_partial.

(** C92: what typeset -fp prints for a function defines that function. *)
Theorem function_listing_reads_back_partial : forall L X sp_parse sp_print, locale_ok L -> expansions_ok L X sp_print sp_parse ->
  forall n program l rest w body name, read_and_parse L X sp_parse n program = POk (l, rest) -> sub_aos X (CFunc w body) l ->
  cmd_ok L X sp_print body -> funcbody_ok L X body -> is_name L name = true -> is_keyword name = false ->
  reads L X sp_parse (print_function L X sp_print name body) (single X (CFunc [UStr name] (norm X body))) [].
Proof.
  intros L X sp_parse sp_print Lok EX n program l rest w body name H Hs Hok Hb Hn Hk. apply (program_sound L Lok X sp_parse sp_print EX) in H.
  pose proof (proj2 (proj1 (proj1 H) _ Hs)) as Hc. apply (proj1 (proj2 (proj2 (proj2 (sub_body X))))) in Hs.
  assert (G : gcmd L X sp_parse sp_print body) by (apply (proj1 (proj1 H)); auto).
  apply (func_line L Lok X sp_parse sp_print EX); auto. cbn beta iota in Hc. destruct body; auto.
Qed.
Print Assumptions function_listing_reads_back_partial.

(** C93: what reading back changes is not visible: the text of the command that
    was read back is the same, reading that again changes nothing more, and the
    values of the expressions of [[ ]] are the same. *)
Theorem read_back_text_same : forall L X sp_print ml c, command_to_wcs L X sp_print ml (norm X c) = command_to_wcs L X sp_print ml c.
Proof. intros L X sp_print ml c. unfold command_to_wcs. rewrite (proj1 (print_norm L X sp_print ml)). reflexivity. Qed.
Print Assumptions read_back_text_same.
Theorem read_back_stable : forall X c, norm X (norm X c) = norm X c.
Proof. intros X. apply norm_idem. Qed.
Print Assumptions read_back_stable.
Theorem read_back_value_same : forall X v e, dval X v (dnorm X e) = dval X v e.
Proof. intros X v e. apply dval_norm. Qed.
Print Assumptions read_back_value_same.

(** ** Cases that meet the hypotheses *)
Local Open Scope string_scope.
Definition sample : string := "f() { a=1 b=(x   y) echo $x >foo; while a;do b|c & done; case $x in a|b) foo;; (c) esac; if a; then b& elif c; then d; else ( (e);f ); fi 2>&1; [[ a || ( b && ! ( c || -n d)) ]]; for i do x; done; for i in a `b`; do y; done; } </dev/null".
Definition sample_cmd : cmd exp0 := match first0 (parse0 (str sample)) with Some c => c | None => CGroup ANil [] end.
Lemma not_last_b : forall c s, match rev s with x :: _ => negb (x =? c)%N | [] => true end = true -> not_last c s.
Proof. intros c s H s' ->. rewrite rev_app_distr in H. cbn in H. rewrite N.eqb_refl in H. discriminate. Qed.
Ltac okw := match goal with |- word_ok _ _ _ => split; [vm_compute; repeat split|apply not_last_b; vm_compute; reflexivity] end.
Ltac oks := repeat first [exact I | okw | match goal with
  | |- Forall _ (_ :: _) => constructor | |- Forall _ [] => constructor
  | |- redir_ok _ _ _ => split; [vm_compute; discriminate|]
  | |- _ /\ _ => split
  end | progress cbn].
Ltac getx := match goal with |- context [sample_cmd] => let x := eval vm_compute in sample_cmd in change sample_cmd with x end.

Example sample_read : exists r, read_and_parse c_locale exp0 sp_parse0 1000 (str sample) = POk (single exp0 sample_cmd, r).
Proof. eexists. vm_compute. reflexivity. Qed.
Example sample_sub : sub_aos exp0 sample_cmd (single exp0 sample_cmd).
Proof. left. left. left. vm_compute. left. reflexivity. Qed.
Example sample_psub : psub_aos exp0 (PCons (CCons sample_cmd CNil) false false PNil) (single exp0 sample_cmd).
Proof. left. reflexivity. Qed.
Example sample_func : exists body, sample_cmd = CFunc [UStr (str "f")] body.
Proof. eexists. vm_compute. reflexivity. Qed.
Example sample_ok : cmd_ok c_locale exp0 sp_print0 sample_cmd.
Proof. getx. oks; try reflexivity; apply not_last_b; vm_compute; reflexivity. Qed.
Example sample_text : unstr (command_to_wcs c_locale exp0 sp_print0 false sample_cmd) =
  "f() { a=1 b=(x y) echo ${x} 1>foo; while a; do b | c& done; case ${x} in (a | b) foo ;; (c) ;; esac; if a; then b& elif c; then d; else ((e); f); fi 2>&1; [[ a || b && ! ( c || -n d ) ]]; for i do x; done; for i in a $(b); do y; done; } 0</dev/null".
Proof. vm_compute. reflexivity. Qed.
(** Grouping is what reading back changes here. *)
Example sample_bracket :
  let e := DOr (DOr (DStr [UStr (str "a")]) (DStr [UStr (str "b")])) (DStr [UStr (str "c")]) in
  dnorm exp0 e <> e /\ dnorm exp0 e = DOr (DStr [UStr (str "a")]) (DOr (DStr [UStr (str "b")]) (DStr [UStr (str "c")])).
Proof. split; [discriminate|reflexivity]. Qed.
(** A reserved word as the name of a simple command is read when a redirection
    comes before it; the listing puts the name first. *)
Example sample_keyword : unstr (command_to_wcs c_locale exp0 sp_print0 false
  (match first0 (parse0 (str "<x if")) with Some c => c | None => CGroup ANil [] end)) = "\if 0<x".
Proof. vm_compute. reflexivity. Qed.

(** ** Where listings are not faithful *)
Definition fails (s : list N) : Prop :=
  exists n, forall m, (n <= m)%nat -> read_and_parse c_locale exp0 sp_parse0 m s = PErr.
Definition reads0 := reads c_locale exp0 sp_parse0.
Lemma fails_not_reads : forall s l r, fails s -> ~ reads0 s l r.
Proof.
  intros s l r [n H] [n' H']. specialize (H (Nat.max n n') ltac:(lia)). specialize (H' (Nat.max n n') ltac:(lia)). rewrite H in H'. discriminate.
Qed.
Lemma other_not_reads : forall s l r l' r', reads0 s l r -> l <> l' -> ~ reads0 s l' r'.
Proof. intros s l r l' r' H Hn H'. destruct (reads_unique _ _ _ _ _ _ _ _ H H') as [E _]. auto. Qed.
(** A command that is read from the program and whose listing, on many lines or on
    one, is not read as that command. *)
Definition unfaithful (ml : bool) (program : string) : Prop :=
  exists l rest c, reads0 (str program) l rest /\ sub_aos exp0 c l /\
    ~ exists r, reads0 (command_to_wcs c_locale exp0 sp_print0 ml c) (single exp0 (norm exp0 c)) r.
Ltac bigfuel := exists 80%nat; let m := fresh "m" in let H := fresh "H" in intros m H;
  replace m with (80 + (m - 80))%nat by lia; generalize (m - 80)%nat; clear m H; intros m; vm_compute; reflexivity.
Ltac unf p := let c := eval vm_compute in (match first0 (parse0 (str p)) with Some c => c | None => CGroup ANil [] end) in
  eexists (single exp0 c), [], c; split; [bigfuel|split; [left; left; left; vm_compute; left; reflexivity|]]; intros [r H]; revert H;
  first [apply fails_not_reads; bigfuel | eapply other_not_reads; [bigfuel|vm_compute; discriminate]].

(** An escaped space at the end is cut off. *)
Theorem listing_of_trailing_space_refuted : unfaithful false "echo a\ " /\ unfaithful true "echo a\ ".
Proof. split; unf "echo a\ ". Qed.
Print Assumptions listing_of_trailing_space_refuted.
(** A function whose name is a reserved word *)
Theorem listing_of_keyword_function_refuted : unfaithful false "function if { a; }" /\ unfaithful true "function if { a; }".
Proof. split; unf "function if { a; }". Qed.
Print Assumptions listing_of_keyword_function_refuted.
(** A function whose body is the definition of another *)
Theorem listing_of_nested_function_refuted : unfaithful false "f() function g { a; }" /\ unfaithful true "f() function g { a; }".
Proof. split; unf "f() function g { a; }". Qed.
Print Assumptions listing_of_nested_function_refuted.
(** A file descriptor that is too large *)
Theorem listing_of_large_fd_refuted : unfaithful false "cat 99999999999<x" /\ unfaithful true "cat 99999999999<x".
Proof. split; unf "cat 99999999999<x". Qed.
Print Assumptions listing_of_large_fd_refuted.
(** A dollar sign before a backquote *)
Theorem listing_of_dollar_backquote_refuted : unfaithful false "echo $`a`" /\ unfaithful true "echo $`a`".
Proof. split; unf "echo $`a`". Qed.
Print Assumptions listing_of_dollar_backquote_refuted.
(** A backslash at the end of the input *)
Theorem listing_of_last_backslash_refuted : unfaithful true "echo a\".
Proof. unf "echo a\". Qed.
Print Assumptions listing_of_last_backslash_refuted.
(** A function whose name ends in a dollar sign *)
Theorem listing_of_dollar_function_refuted : unfaithful false "function a$ { b; }" /\ unfaithful true "function a$ { b; }".
Proof. split; unf "function a$ { b; }". Qed.
Print Assumptions listing_of_dollar_function_refuted.
