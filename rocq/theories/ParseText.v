(** The text of a printed command as a function of the tree alone: what the
    buffer-based printing functions append.  Used by the proofs only. *)
From Coq Require Import Ascii String.
From Coq Require Import List NArith ZArith Bool Arith Lia.
From Coq Require Import ZifyBool ZifyN.
From Verif Require Import Common Locale NumModel NumProofs ParseModel ParseSpec ParseLex.
From Verif Require TestModel.
Import ListNotations.
Local Open Scope N_scope.

Scheme cmd_mut := Induction for cmd Sort Prop
  with cmds_mut := Induction for cmds Sort Prop
  with pls_mut := Induction for pls Sort Prop
  with aos_mut := Induction for aos Sort Prop
  with ifcs_mut := Induction for ifcs Sort Prop
  with cis_mut := Induction for cis Sort Prop.
Combined Scheme tree_mut from cmd_mut, cmds_mut, pls_mut, aos_mut, ifcs_mut, cis_mut.

Section Text.
Variable L : locale.
Hypothesis Lok : locale_ok L.
Variable X : Type.
Variable sp_parse : bool -> list N -> spres X.
Variable sp_print : X -> list N.
Notation word := (word X).
Notation redir := (redir X).
Notation assign := (assign X).
Notation dbexp := (dbexp X).
Notation cmd := (cmd X).
Notation cmds := (cmds X).
Notation pls := (pls X).
Notation aos := (aos X).
Notation ifcs := (ifcs X).
Notation cis := (cis X).
Notation print_word := (print_word X sp_print).
Notation lexable := (lexable L X sp_parse sp_print).
Notation single_string := (single_string X).
Notation split_assign := (split_assign L X).
Notation is_name_word := (is_name_word L X).
Notation quote_first := (quote_first X).

Definition solid (s : list N) : Prop := exists s' c, s = s' ++ [c] /\ c <> 32.

(** Trees whose printed form can be read back, with all the facts the proofs
    need *)
Definition gword (w : word) : Prop := lexable w /\ solid (print_word w).
Definition gassign (a : assign) : Prop :=
  match a with
  | AScalar name v => exists w, gword w /\ split_assign w = Some (name, v)
  | AArray name vs => gword [UStr (name ++ [ch "="])] /\ split_assign [UStr (name ++ [ch "="])] = Some (name, []) /\ Forall gword vs
  end.
Definition gredir (r : redir) : Prop := (0 <= rd_fd r <= INT_MAX)%Z /\ gword (rd_file r).
Definition not_close (w : word) : Prop := single_string w <> Some (str "]]").
Definition not_unary (w : word) : Prop := forall s, single_string w = Some s -> TestModel.is_unary_primary s = false.
Definition not_binary (w : word) : Prop := forall s, single_string w = Some s -> TestModel.is_binary_primary s = false.
Definition not_bang (w : word) : Prop := identify_reserved_word X w <> TT_BANG.
Definition gop (op : list N) : Prop :=
  (op = str "<" \/ op = str ">" \/ TestModel.is_binary_primary op = true /\ gword [UStr op]) /\ op <> str "=~".
Fixpoint gdb (e : dbexp) : Prop :=
  match e with
  | DOr a b | DAnd a b => gdb a /\ gdb b
  | DNot a => gdb a
  | DUn op w => TestModel.is_unary_primary op = true /\ gword [UStr op] /\ gword w /\ not_close w
  | DBin l op r => gword l /\ not_close l /\ not_unary l /\ not_bang l /\ gop op /\ gword r /\ not_close r
  | DStr w => gword w /\ not_close w /\ not_unary w /\ not_bang w
  end.
Definition gname (w : word) : Prop :=
  gword w /\ if is_name_word w then identify_reserved_word X w = TT_WORD else not_last (ch "$") (print_word w).
Definition gfirst (ws : list word) : Prop := match ws with [] => True | w :: _ => split_assign w = None end.
Definition gbody (c : cmd) : Prop :=
  match c with CSimple _ _ _ => False | CFunc name _ => is_name_word name = false | _ => True end.
Definition pcond (p : pls) : bool := match p with PNil => false | PCons _ _ c _ => c end.
Fixpoint gcmd (c : cmd) : Prop :=
  match c with
  | CSimple a ws r => Forall gassign a /\ Forall gword ws /\ Forall gredir r /\ gfirst ws /\ (a <> [] \/ ws <> [] \/ r <> [])
  | CGroup l r | CSubshell l r => gaos l /\ Forall gredir r
  | CIf l r => gifcs l /\ l <> INil /\ Forall gredir r
  | CFor name ws l r =>
      (is_name L name = true /\ gword [UStr name]) /\ match ws with Some ws => Forall gword ws | None => True end /\ gaos l /\ Forall gredir r
  | CWhile _ cond body r => gaos cond /\ gaos body /\ Forall gredir r
  | CCase w l r => gword w /\ gcis l /\ Forall gredir r
  | CBracket e r => gdb e /\ Forall gredir r
  | CFunc name body => gname name /\ gbody body /\ gcmd body
  end
with gcmds (cs : cmds) : Prop := match cs with CNil => True | CCons c cs' => gcmd c /\ gcmds cs' end
with gpls (p : pls) : Prop := match p with PNil => True | PCons cs _ _ p' => cs <> CNil /\ gcmds cs /\ gpls p' end
with gaos (l : aos) : Prop := match l with ANil => True | ACons p _ l' => (p <> PNil /\ pcond p = false) /\ gpls p /\ gaos l' end
with gifcs (l : ifcs) : Prop := match l with INil => True | ICons a b l' => gaos a /\ gaos b /\ gifcs l' end
with gcis (l : cis) : Prop := match l with CINil => True | CICons ps b l' => ps <> [] /\ Forall gword ps /\ gaos b /\ gcis l' end.

(** ** Texts *)
Definition spaced (l : list (list N)) : list N := flat_map (fun x => 32 :: x) l.
Definition join (l : list (list N)) : list N := match l with [] => [] | x :: l' => x ++ spaced l' end.
Definition r_text (r : redir) : list N := dec_of_Z (rd_fd r) ++ rd_text (rd_type r) ++ print_word (rd_file r).
Definition a_text (a : assign) : list N :=
  match a with
  | AScalar name v => name ++ [ch "="] ++ print_word v
  | AArray name vs => name ++ [ch "="; ch "("] ++ join (map print_word vs) ++ [ch ")"]
  end.
Definition k_simple (a : list assign) (ws : list word) (r : list redir) : list N :=
  join (map a_text a ++ map print_word (quote_first a ws) ++ map r_text r).
Definition rt (r : list redir) : list N := spaced (map r_text r).
Definition d_text (e : dbexp) (ctx : nat) : list N := print_dbexp X sp_print [] e ctx.

Section Ml.
Variable ml : bool.
Definition nl : list N := [if ml then 10 else 32].
Definition ind (k : nat) : list N := if ml then repeat 32 (3 * k) else [].
Fixpoint k_cmd (c : cmd) (k : nat) {struct c} : list N :=
  match c with
  | CSimple a ws r => k_simple a ws r
  | CGroup l r => str "{" ++ nl ++ k_body l (S k) ++ ind k ++ str "}" ++ rt r
  | CSubshell l r => str "(" ++ k_aos l (S k) true ++ str ")" ++ rt r
  | CIf l r => str "if " ++ k_ifs l k true ++ ind k ++ str "fi" ++ rt r
  | CFor name ws l r =>
      str "for " ++ name ++
      match ws with
      | Some ws => str " in" ++ spaced (map print_word ws) ++ (if ml then [] else str ";") ++ nl ++ ind k
      | None => [32]
      end ++ str "do" ++ nl ++ k_body l (S k) ++ ind k ++ str "done" ++ rt r
  | CWhile whl cond body r =>
      str (if whl then "while " else "until ") ++ k_aos cond (S k) false ++ match cond with ANil => [] | _ => ind k end ++
      str "do" ++ nl ++ k_body body (S k) ++ ind k ++ str "done" ++ rt r
  | CCase w l r => str "case " ++ print_word w ++ str " in" ++ nl ++ k_cis l (S k) ++ ind k ++ str "esac" ++ rt r
  | CBracket e r => str "[[ " ++ d_text e 0 ++ str "]]" ++ rt r
  | CFunc name body =>
      (if is_name_word name then [] else str "function ") ++ print_word name ++ str "()" ++ nl ++ ind k ++ k_cmd body k
  end
with k_cmds (cs : cmds) (k : nat) {struct cs} : list N :=
  match cs with
  | CNil => []
  | CCons c cs' => k_cmd c k ++ match cs' with CNil => [] | CCons _ _ => str " | " ++ k_cmds cs' k end
  end
with k_pls (p : pls) (k : nat) {struct p} : list N :=
  match p with
  | PNil => []
  | PCons cs neg _ p' =>
      (if neg then str "! " else []) ++ k_cmds cs k ++
      match p' with
      | PNil => []
      | PCons _ _ cond _ => 32 :: str (if cond then "&&" else "||") ++ nl ++ ind k ++ k_pls p' k
      end
  end
with k_aos (l : aos) (k : nat) (omit : bool) {struct l} : list N :=
  match l with
  | ANil => []
  | ACons p async l' =>
      let more := match l' with ANil => negb omit | ACons _ _ _ => true end in
      k_pls p k ++ (if async then str "&" else if negb ml && more then str ";" else []) ++ (if more then nl else []) ++
      match l' with ANil => [] | ACons _ _ _ => ind k ++ k_aos l' k omit end
  end
with k_body (l : aos) (k : nat) {struct l} : list N :=
  match l with
  | ANil => []
  | ACons p async l' =>
      ind k ++ k_pls p k ++ (if async then str "&" else if negb ml then str ";" else []) ++ nl ++
      match l' with ANil => [] | ACons _ _ _ => ind k ++ k_aos l' k false end
  end
with k_ifs (l : ifcs) (k : nat) (first : bool) {struct l} : list N :=
  match l with
  | INil => []
  | ICons cond body l' =>
      let last := match l' with INil => true | ICons _ _ _ => false end in
      if negb first && match cond with ANil => last | ACons _ _ _ => false end
      then ind k ++ str "else" ++ nl ++ k_body body (S k)
      else
        (if first then [] else ind k ++ str "elif ") ++
        k_aos cond (S k) false ++ match cond with ANil => [] | _ => ind k end ++
        str "then" ++ nl ++ k_body body (S k) ++ k_ifs l' k false
  end
with k_cis (l : cis) (k : nat) {struct l} : list N :=
  match l with
  | CINil => []
  | CICons pats body l' =>
      ind k ++ str "(" ++ print_patterns X sp_print pats ++ str ")" ++ nl ++
      match body with ANil => [] | ACons _ _ _ => ind (S k) ++ k_aos body (S k) true ++ nl end ++
      ind (S k) ++ str ";;" ++ nl ++ k_cis l' k
  end.

Lemma k_body_eq : forall l k, k_body l k = match l with ANil => [] | ACons _ _ _ => ind k ++ k_aos l k false end.
Proof.
  intros [|p async l] k; cbn [k_body k_aos]; auto.
  destruct async, ml, l; cbn [negb andb app]; reflexivity.
Qed.

(** ** Trimming *)
Lemma trim_solid : forall b s, solid s -> trim (b ++ s) = b ++ s.
Proof.
  intros b s (s' & c & -> & H). unfold trim. rewrite app_assoc, rev_app_distr. cbn [rev app drop_spaces].
  destruct (c =? 32) eqn:E; [lia|]. change (c :: rev (b ++ s')) with ([c] ++ rev (b ++ s')).
  rewrite rev_app_distr, rev_involutive. reflexivity.
Qed.
Lemma trim_space : forall s, trim (s ++ [32]) = trim s.
Proof. intros s. unfold trim. rewrite rev_app_distr. reflexivity. Qed.
Lemma trim_solid_space : forall b s, solid s -> trim (b ++ s ++ [32]) = b ++ s.
Proof. intros b s H. rewrite app_assoc, trim_space. apply trim_solid. auto. Qed.
Lemma solid_app : forall a s, solid s -> solid (a ++ s).
Proof. intros a s (s' & c & -> & H). exists (a ++ s'), c. rewrite app_assoc. auto. Qed.
Lemma solid_cons : forall a s, solid s -> solid (a :: s).
Proof. intros a s H. apply (solid_app [a]). auto. Qed.
Lemma solid_last : forall s c, c <> 32 -> solid (s ++ [c]).
Proof. intros s c H. exists s, c. auto. Qed.
Lemma solid_spaced : forall l s, solid s -> Forall solid l -> solid (s ++ spaced l).
Proof.
  induction l as [|x l IH]; intros s Hs H; cbn [spaced flat_map].
  - rewrite app_nil_r. auto.
  - inversion H; subst. fold (spaced l). change (32 :: x) with ([32] ++ x). rewrite <- app_assoc, app_assoc.
    rewrite app_assoc. apply IH; auto. apply solid_app. auto.
Qed.
Lemma solid_join : forall l, l <> [] -> Forall solid l -> solid (join l).
Proof. intros [|x l] H F; [congruence|]. inversion F; subst. apply solid_spaced; auto. Qed.
Lemma not_last_solid : forall s, s <> [] -> not_last 32 s -> solid s.
Proof.
  intros s H H'. destruct s as [|c s] using rev_ind; [congruence|]. exists s, c. split; auto. intros ->. apply (H' s). auto.
Qed.

Lemma spaced_app : forall a b, spaced (a ++ b) = spaced a ++ spaced b.
Proof. intros a b. apply flat_map_app. Qed.
Lemma trail_spaced : forall l, flat_map (fun x => x ++ [32]) l = match l with [] => [] | _ => join l ++ [32] end.
Proof.
  induction l as [|x l IH]; auto. cbn [flat_map join]. rewrite IH. destruct l as [|y l]; cbn [spaced flat_map]; [rewrite !app_nil_r; auto|].
  cbn [app]. rewrite <- ?app_assoc. cbn [app join]. unfold spaced. rewrite <- ?app_assoc. reflexivity.
Qed.
Lemma join_trail : forall l, l <> [] -> flat_map (fun x => x ++ [32]) l = join l ++ [32].
Proof. intros [|x l] H; [congruence|]. apply trail_spaced. Qed.

Lemma split_assign_print : forall w name v, split_assign w = Some (name, v) ->
  print_word w = name ++ [ch "="] ++ print_word v.
Proof.
  intros [|[s|x] us] name v H; try discriminate H. cbn [split_assign ParseModel.split_assign] in H.
  destruct (skip_name L s) as [n r] eqn:E. destruct n as [|c n]; [discriminate|]. destruct r as [|e r]; [discriminate|].
  destruct (e =? ch "=") eqn:Ee; [|discriminate]. injection H as <- <-. apply N.eqb_eq in Ee. subst e.
  assert (T : forall s n r, take_name L s = (n, r) -> s = n ++ r).
  { clear. induction s as [|d s IH]; cbn [take_name]; intros n r H; [injection H as <- <-; auto|].
    destruct (is_name_char L d); [|injection H as <- <-; auto]. destruct (take_name L s) as [n' r'].
    injection H as <- <-. cbn [app]. f_equal. apply IH. auto. }
  assert (E' : s = (c :: n) ++ ch "=" :: r).
  { apply T. unfold skip_name in E. destruct s; [discriminate|]. destruct (iswdigit _); [discriminate|auto]. }
  subst s. rewrite print_flush. cbn [print_word ParseModel.print_word flat_map]. rewrite <- !app_assoc. reflexivity.
Qed.

Lemma print_redirs_eq : forall r b, print_redirs X sp_print b r = b ++ flat_map (fun x => x ++ [32]) (map r_text r).
Proof.
  induction r as [|x r IH]; intros b; cbn [print_redirs map flat_map]; [rewrite app_nil_r; auto|].
  rewrite IH. unfold r_text. rewrite <- !app_assoc. reflexivity.
Qed.
Lemma print_redirs_space : forall r b, print_redirs X sp_print (b ++ [32]) r = b ++ rt r ++ [32].
Proof.
  intros r b. rewrite print_redirs_eq, trail_spaced. unfold rt. destruct (map r_text r) as [|x l]; cbn [spaced flat_map app]; [rewrite app_nil_r; auto|].
  unfold join. cbn [app]. rewrite <- ?app_assoc. cbn [app]. rewrite <- ?app_assoc. reflexivity.
Qed.
Lemma print_spaced_eq : forall ws b, print_spaced X sp_print b ws = b ++ flat_map (fun x => x ++ [32]) (map print_word ws).
Proof.
  induction ws as [|x r IH]; intros b; cbn [print_spaced map flat_map]; [rewrite app_nil_r; auto|].
  rewrite IH. rewrite <- !app_assoc. reflexivity.
Qed.
Lemma solid_words : forall ws, Forall gword ws -> Forall solid (map print_word ws).
Proof. intros ws H. induction H as [|w ws [_ H] _ IH]; constructor; auto. Qed.
Lemma print_assigns_eq : forall a b, Forall gassign a ->
  print_assigns X sp_print b a = b ++ flat_map (fun x => x ++ [32]) (map a_text a).
Proof.
  induction a as [|x a IH]; intros b H; cbn [print_assigns map flat_map]; [rewrite app_nil_r; auto|].
  inversion H as [|? ? H1 H2]; subst. destruct x as [name v|name vs].
  - rewrite IH by auto. cbn [a_text]. rewrite <- !app_assoc. reflexivity.
  - rewrite IH by auto. cbn [a_text]. rewrite print_spaced_eq. destruct H1 as (_ & _ & H1).
    destruct vs as [|v vs].
    + cbn [map flat_map join app]. rewrite !app_nil_r. rewrite app_assoc.
      rewrite (trim_solid (b ++ name)) by (apply (solid_last [_]); discriminate).
      rewrite <- !app_assoc. reflexivity.
    + rewrite join_trail by discriminate. rewrite trim_solid_space by (apply solid_join; [discriminate|apply solid_words; auto]).
      rewrite <- !app_assoc. cbn [app]. rewrite <- ?app_assoc. reflexivity.
Qed.


Lemma print_simple_eq : forall a ws r b, gcmd (CSimple a ws r) ->
  print_cmd L X sp_print ml b (CSimple a ws r) 0 = b ++ k_simple a ws r ++ [32] /\ solid (k_simple a ws r).
Proof.
  intros a ws r b (Ha & Hw & Hr & Hf & Hn).
  assert (Q : map print_word (quote_first a ws) =
    match ws with [] => [] | w :: ws' => (quote_keyword X a ws ++ print_word w) :: map print_word ws' end).
  { destruct a, ws as [|w ws']; auto. destruct w as [|[s|x] [|]]; auto.
    cbn [ParseSpec.quote_first quote_keyword ParseModel.single_string]. destruct (is_keyword s); reflexivity. }
  split.
  - cbn [print_cmd]. unfold k_simple. rewrite print_redirs_eq. unfold print_simple.
    rewrite print_spaced_eq, print_assigns_eq by auto. rewrite <- join_trail.
    + rewrite !flat_map_app. rewrite Q. destruct ws as [|w ws'].
      * assert (E : quote_keyword X a [] = []) by (destruct a; auto). rewrite E. cbn [map flat_map app]. rewrite <- !app_assoc. reflexivity.
      * cbn [map flat_map]. rewrite <- !app_assoc. reflexivity.
    + destruct a; [|discriminate]. destruct ws; [|rewrite Q; discriminate]. destruct r; [|discriminate]. intuition congruence.
  - unfold k_simple. apply solid_join.
    + destruct a; [|discriminate]. destruct ws; [|rewrite Q; discriminate]. destruct r; [|discriminate]. intuition congruence.
    + apply Forall_app. split; [|apply Forall_app; split].
      * apply Forall_map. eapply Forall_impl; [|exact Ha]. intros [n v|n vs] H.
        -- destruct H as (w & [_ Hs] & E). cbn [a_text]. rewrite (split_assign_print _ _ _ E) in Hs. auto.
        -- cbn [a_text]. rewrite !app_assoc. apply solid_last. discriminate.
      * rewrite Q. apply solid_words in Hw. destruct ws; [constructor|]. cbn [map] in Hw. inversion Hw; subst. constructor; auto. apply solid_app. auto.
      * apply Forall_map. eapply Forall_impl; [|exact Hr]. intros x [_ [_ H]]. unfold r_text. apply solid_app, solid_app. auto.
Qed.

Definition endnl (s : list N) : Prop := exists s', s = s' ++ nl.
Lemma endnl_app : forall a s, endnl s -> endnl (a ++ s).
Proof. intros a s (s' & ->). exists (a ++ s'). rewrite app_assoc. auto. Qed.
Lemma endnl_nl : forall a, endnl (a ++ nl).
Proof. intros a. exists a. auto. Qed.
Lemma indent_nl : forall b k, endnl b -> indent ml b k = b ++ ind k.
Proof.
  intros b k (s & ->). unfold indent, ind, nl. destruct ml; cbn [andb]; [|rewrite app_nil_r; auto].
  rewrite rev_app_distr. cbn [rev app]. reflexivity.
Qed.
Lemma indent_no : forall b c k, c <> 10 -> indent ml (b ++ [c]) k = b ++ [c].
Proof.
  intros b c k H. unfold indent. rewrite rev_app_distr. cbn [rev app]. destruct (c =? 10) eqn:E; [lia|]. rewrite andb_false_r. auto.
Qed.
Lemma snl_eq : forall b, snl ml b = b ++ nl.
Proof. reflexivity. Qed.
Lemma rt_solid : forall s r, solid s -> Forall gredir r -> solid (s ++ rt r).
Proof.
  intros s r H Hr. apply solid_spaced; auto. apply Forall_map. eapply Forall_impl; [|exact Hr].
  intros x [_ [_ H']]. unfold r_text. apply solid_app, solid_app. auto.
Qed.
Lemma print_dbexp_eq : forall e b ctx, print_dbexp X sp_print b e ctx = b ++ d_text e ctx.
Proof.
  unfold d_text. induction e as [l IHl r IHr|l IHl r IHr|e IH|op w|l op r|w]; intros b ctx; cbn [print_dbexp].
  - destruct (Nat.eqb ctx 0); rewrite (IHr (_ ++ _)), (IHl (_ ++ _)) || rewrite (IHr (_ ++ _)), (IHl b);
      rewrite ?(IHr (print_dbexp _ _ _ _ _ ++ _)), ?(IHl ([] ++ _)); rewrite <- ?app_assoc; reflexivity.
  - destruct (Nat.eqb ctx 2); rewrite (IHr (_ ++ _)), (IHl (_ ++ _)) || rewrite (IHr (_ ++ _)), (IHl b);
      rewrite ?(IHr (print_dbexp _ _ _ _ _ ++ _)), ?(IHl ([] ++ _)); rewrite <- ?app_assoc; reflexivity.
  - rewrite IH, (IH ([] ++ _)). rewrite <- app_assoc. reflexivity.
  - reflexivity.
  - reflexivity.
  - reflexivity.
Qed.

Notation print_cmd := (print_cmd L X sp_print ml).
Notation print_cmds := (print_cmds L X sp_print ml).
Notation print_pls := (print_pls L X sp_print ml).
Notation print_aos := (print_aos L X sp_print ml).
Notation print_ifs := (print_ifs L X sp_print ml).
Notation print_cis := (print_cis L X sp_print ml).
Lemma print_cmd_eqn : forall (b : list N) (c : cmd) (k : nat),
  print_cmd b c k =
  match c with
  | CSimple a ws r => print_redirs X sp_print (print_simple X sp_print b a ws) r
  | CGroup l r =>
      let b := print_aos (snl ml (b ++ str "{")) l (S k) false in
      print_redirs X sp_print (indent ml b k ++ str "} ") r
  | CSubshell l r =>
      let b := print_aos (b ++ str "(") l (S k) true in
      print_redirs X sp_print (trim b ++ str ") ") r
  | CIf l r =>
      let b := print_ifs (b ++ str "if ") l k true in
      print_redirs X sp_print (indent ml b k ++ str "fi ") r
  | CFor name ws l r =>
      let b := b ++ str "for " ++ name in
      let b := match ws with
               | Some ws =>
                   let b := b ++ str " in" ++ flat_map (fun w => 32 :: print_word w) ws in
                   snl ml (if ml then b else b ++ str ";")
               | None => b ++ [32]
               end in
      let b := snl ml (indent ml b k ++ str "do") in
      let b := print_aos b l (S k) false in
      print_redirs X sp_print (indent ml b k ++ str "done ") r
  | CWhile whl cond body r =>
      let b := b ++ str (if whl then "while " else "until ") in
      let b := print_aos b cond (S k) false in
      let b := snl ml (indent ml b k ++ str "do") in
      let b := print_aos b body (S k) false in
      print_redirs X sp_print (indent ml b k ++ str "done ") r
  | CCase w l r =>
      let b := snl ml (b ++ str "case " ++ print_word w ++ str " in") in
      let b := print_cis b l (S k) in
      print_redirs X sp_print (indent ml b k ++ str "esac ") r
  | CBracket e r => print_redirs X sp_print (print_dbexp X sp_print (b ++ str "[[ ") e 0 ++ str "]] ") r
  | CFunc name body =>
      let b := if is_name_word name then b else b ++ str "function " in
      let b := snl ml (b ++ print_word name ++ str "()") in
      print_cmd (indent ml b k) body k
  end.
Proof. intros. destruct c; reflexivity. Qed.
Lemma print_cmds_eqn : forall (b : list N) (cs : cmds) (k : nat),
  print_cmds b cs k =
  match cs with
  | CNil => b
  | CCons c cs' =>
      let b := print_cmd b c k in
      match cs' with
      | CNil => b
      | CCons _ _ => print_cmds (b ++ str "| ") cs' k
      end
  end.
Proof. intros. destruct cs; reflexivity. Qed.
Lemma print_pls_eqn : forall (b : list N) (p : pls) (k : nat),
  print_pls b p k =
  match p with
  | PNil => b
  | PCons cs neg _ p' =>
      let b := indent ml b k in
      let b := print_cmds (if neg then b ++ str "! " else b) cs k in
      match p' with
      | PNil => b
      | PCons _ _ cond _ => print_pls (snl ml (b ++ str (if cond then "&&" else "||"))) p' k
      end
  end.
Proof. intros. destruct p; reflexivity. Qed.
Lemma print_aos_eqn : forall (b : list N) (l : aos) (k : nat) (omit : bool),
  print_aos b l k omit =
  match l with
  | ANil => b
  | ACons p async l' =>
      let more := match l' with ANil => negb omit | ACons _ _ _ => true end in
      let b := trim (print_pls b p k) in
      let b := if async then b ++ str "&" else if negb ml && more then b ++ str ";" else b in
      print_aos (if more then snl ml b else b) l' k omit
  end.
Proof. intros. destruct l; reflexivity. Qed.
Lemma print_ifs_eqn : forall (b : list N) (l : ifcs) (k : nat) (first : bool),
  print_ifs b l k first =
  match l with
  | INil => b
  | ICons cond body l' =>
      let last := match l' with INil => true | ICons _ _ _ => false end in
      let b :=
        if first then b
        else indent ml b k ++ str (if match cond with ANil => last | ACons _ _ _ => false end then "else" else "elif ") in
      if negb first && match cond with ANil => last | ACons _ _ _ => false end
      then print_aos (snl ml b) body (S k) false
      else
        let b := print_aos b cond (S k) false in
        let b := snl ml (indent ml b k ++ str "then") in
        print_ifs (print_aos b body (S k) false) l' k false
  end.
Proof. intros. destruct l; reflexivity. Qed.
Lemma print_cis_eqn : forall (b : list N) (l : cis) (k : nat),
  print_cis b l k =
  match l with
  | CINil => b
  | CICons pats body l' =>
      let b := snl ml (indent ml b k ++ str "(" ++ print_patterns X sp_print pats ++ str ")") in
      let b := match body with
               | ANil => b
               | ACons _ _ _ => snl ml (print_aos b body (S k) true)
               end in
      print_cis (snl ml (indent ml b (S k) ++ str ";;")) l' k
  end.
Proof. intros. destruct l; reflexivity. Qed.
Definition T_cmd (c : cmd) : Prop := gcmd c -> forall b k, print_cmd b c k = b ++ k_cmd c k ++ [32] /\ solid (k_cmd c k).
Definition T_cmds (c : cmds) : Prop :=
  gcmds c -> c <> CNil -> forall b k, print_cmds b c k = b ++ k_cmds c k ++ [32] /\ solid (k_cmds c k).
Definition T_pls (p : pls) : Prop :=
  gpls p -> p <> PNil -> forall b k, print_pls b p k = indent ml b k ++ k_pls p k ++ [32] /\ solid (k_pls p k).
Definition T_aos (l : aos) : Prop :=
  gaos l -> forall b k (o : bool), print_aos b l k o = match l with ANil => b | ACons _ _ _ => indent ml b k ++ k_aos l k o end /\
    (l <> ANil -> if o then solid (k_aos l k true) else endnl (k_aos l k false)).
Definition T_ifs (l : ifcs) : Prop :=
  gifcs l -> forall b k (f : bool), (if f then exists b', b = b' ++ [32] else endnl b) ->
    print_ifs b l k f = b ++ k_ifs l k f /\ (f = false \/ l <> INil -> endnl (b ++ k_ifs l k f)).
Definition T_cis (l : cis) : Prop :=
  gcis l -> forall b k, endnl b -> print_cis b l k = b ++ k_cis l k /\ endnl (b ++ k_cis l k).

Lemma T_body : forall l, T_aos l -> gaos l -> forall b k, endnl b ->
  print_aos b l k false = b ++ k_body l k /\ endnl (b ++ k_body l k).
Proof.
  intros l H G b k Hb. destruct (H G b k false) as (E & S). rewrite E, k_body_eq.
  destruct l; [rewrite app_nil_r; auto|]. rewrite indent_nl by auto. rewrite <- app_assoc. split; auto.
  apply endnl_app, endnl_app, S. discriminate.
Qed.
Lemma T_cond : forall l, T_aos l -> gaos l -> forall b k, (exists b', b = b' ++ [32]) ->
  indent ml (print_aos b l (S k) false) k = b ++ k_aos l (S k) false ++ match l with ANil => [] | _ => ind k end.
Proof.
  intros l H G b k (b' & ->). destruct (H G (b' ++ [32]) (S k) false) as (E & S). rewrite E.
  destruct l; [rewrite indent_no by discriminate; cbn [k_aos app]; rewrite app_nil_r; auto|].
  rewrite indent_no by discriminate. rewrite indent_nl by (apply endnl_app, S; discriminate). rewrite <- !app_assoc. auto.
Qed.

Ltac fin := rewrite <- ?app_assoc; reflexivity.
Theorem text_eq : (forall c, T_cmd c) /\ (forall c, T_cmds c) /\ (forall p, T_pls p) /\ (forall l, T_aos l) /\
  (forall l, T_ifs l) /\ (forall l, T_cis l).
Proof.
  apply tree_mut; unfold T_cmd, T_cmds, T_pls.
  - intros a ws r G b k. exact (print_simple_eq a ws r b G).
  - intros l IH r [Gl Gr] b k. rewrite print_cmd_eqn; cbn zeta; cbn [k_cmd]. rewrite snl_eq.
    destruct (T_body l IH Gl ((b ++ str "{") ++ nl) (S k) (endnl_nl _)) as (E & H). rewrite E, indent_nl by auto.
    split.
    + change (str "} ") with (str "}" ++ [32]). rewrite app_assoc, print_redirs_space. fin.
    + rewrite !app_assoc. apply rt_solid; auto. apply solid_last. discriminate.
  - intros l IH r [Gl Gr] b k. rewrite print_cmd_eqn; cbn zeta; cbn [k_cmd].
    destruct (IH Gl (b ++ str "(") (S k) true) as (E & H). rewrite E. split.
    + replace (trim _) with ((b ++ str "(") ++ k_aos l (S k) true).
      * change (str ") ") with (str ")" ++ [32]). rewrite app_assoc, print_redirs_space. fin.
      * destruct l; [cbn [k_aos]; rewrite app_nil_r, trim_solid; auto; apply (solid_last []); discriminate|].
        rewrite (indent_no b (ch "(")) by discriminate. rewrite trim_solid; auto. apply H. discriminate.
    + rewrite !app_assoc. apply rt_solid; auto. apply solid_last. discriminate.
  - intros l IH r (Gl & Gn & Gr) b k. rewrite print_cmd_eqn; cbn zeta; cbn [k_cmd].
    destruct (IH Gl (b ++ str "if ") k true) as (E & H); [exists (b ++ str "if"); fin|].
    rewrite E, indent_nl by auto. split.
    + change (str "fi ") with (str "fi" ++ [32]). rewrite app_assoc, print_redirs_space. fin.
    + rewrite !app_assoc. apply rt_solid; auto. apply (solid_app _ (str "fi")), (solid_last [_]). discriminate.
  - intros name ws l IH r (Gn & Gw & Gl & Gr) b k. rewrite print_cmd_eqn; cbn zeta; cbn [k_cmd].
    set (B := match ws with Some _ => _ | None => _ end).
    assert (EB : indent ml B k = b ++ str "for " ++ name ++
      match ws with
      | Some ws => str " in" ++ spaced (map print_word ws) ++ (if ml then [] else str ";") ++ nl ++ ind k
      | None => [32]
      end).
    { subst B. destruct ws as [ws|].
      - rewrite snl_eq, indent_nl by apply endnl_nl. replace (spaced (map print_word ws)) with (flat_map (fun w => 32 :: print_word w) ws)
          by (unfold spaced; rewrite !flat_map_concat_map, map_map; reflexivity).
        destruct ml; fin.
      - rewrite indent_no by discriminate. fin. }
    rewrite EB, snl_eq.
    match goal with |- context [ParseModel.print_aos _ _ _ _ ?b0 l (S k) false] =>
      destruct (T_body l IH Gl b0 (S k) (endnl_nl _)) as (E & H) end. rewrite E, indent_nl by auto. split.
    + change (str "done ") with (str "done" ++ [32]). rewrite app_assoc, print_redirs_space. fin.
    + rewrite !app_assoc. apply rt_solid; auto. apply (solid_app _ (str "done")), (solid_last [_;_;_]). discriminate.
  - intros whl cond IHc body IHb r (Gc & Gb & Gr) b k. rewrite print_cmd_eqn; cbn zeta; cbn [k_cmd].
    rewrite (T_cond cond IHc Gc) by (exists (b ++ str (if whl then "while" else "until")); destruct whl; fin). rewrite snl_eq.
    match goal with |- context [ParseModel.print_aos _ _ _ _ ?b0 body (S k) false] =>
      destruct (T_body body IHb Gb b0 (S k) (endnl_nl _)) as (E & H) end. rewrite E, indent_nl by auto. split.
    + change (str "done ") with (str "done" ++ [32]). rewrite app_assoc, print_redirs_space. fin.
    + rewrite !app_assoc. apply rt_solid; auto. apply (solid_app _ (str "done")), (solid_last [_;_;_]). discriminate.
  - intros w l IH r (Gw & Gl & Gr) b k. rewrite print_cmd_eqn; cbn zeta; cbn [k_cmd]. rewrite snl_eq.
    match goal with |- context [ParseModel.print_cis _ _ _ _ ?b0 l (S k)] =>
      destruct (IH Gl b0 (S k) (endnl_nl _)) as (E & H) end. rewrite E, indent_nl by auto. split.
    + change (str "esac ") with (str "esac" ++ [32]). rewrite app_assoc, print_redirs_space. fin.
    + rewrite !app_assoc. apply rt_solid; auto. apply (solid_app _ (str "esac")), (solid_last [_;_;_]). discriminate.
  - intros e r (Ge & Gr) b k. rewrite print_cmd_eqn; cbn zeta; cbn [k_cmd]. rewrite print_dbexp_eq. split.
    + change (str "]] ") with (str "]]" ++ [32]). rewrite app_assoc, print_redirs_space. fin.
    + rewrite !app_assoc. apply rt_solid; auto. apply (solid_app _ (str "]]")), (solid_last [_]). discriminate.
  - intros name body IH (Gn & _ & Gb) b k. rewrite print_cmd_eqn; cbn zeta; cbn [k_cmd]. rewrite snl_eq, indent_nl by apply endnl_nl.
    destruct (IH Gb (((if is_name_word name then b else b ++ str "function ") ++ print_word name ++ str "()") ++ nl ++ ind k) k) as (E & H).
    rewrite app_assoc in E. rewrite E. split.
    + destruct (is_name_word name); fin.
    + do 5 apply solid_app. auto.
  - congruence.
  - intros c IHc cs IHcs (Gc & Gcs) _ b k. rewrite print_cmds_eqn; cbn zeta; cbn [k_cmds].
    destruct (IHc Gc b k) as (E & H). rewrite E. destruct cs as [|c' cs].
    + rewrite app_nil_r. auto.
    + destruct (IHcs Gcs ltac:(discriminate) ((b ++ k_cmd c k ++ [32]) ++ str "| ") k) as (E' & H'). rewrite E'. split.
      * fin.
      * apply solid_app, solid_app. auto.
  - congruence.
  - intros cs IHcs neg cond p IHp (Gn & Gcs & Gp) _ b k. rewrite print_pls_eqn; cbn zeta; cbn [k_pls].
    destruct (IHcs Gcs Gn (if neg then indent ml b k ++ str "! " else indent ml b k) k) as (E & H). rewrite E. destruct p as [|cs' neg' cond' p].
    + rewrite app_nil_r. split; [destruct neg; fin|]. apply solid_app. auto.
    + match goal with |- context [ParseModel.print_pls _ _ _ _ ?b0 _ k] =>
        destruct (IHp Gp ltac:(discriminate) b0 k) as (E' & H') end. rewrite E', snl_eq. rewrite indent_nl by apply endnl_nl. split.
      * destruct neg; cbn [app]; rewrite <- ?app_assoc; cbn [app]; fin.
      * do 2 apply solid_app. apply solid_cons. do 3 apply solid_app. auto.
  - intros _ b k o. split; auto. congruence.
  - intros p IHp async l IHl ((Gn & _) & Gp & Gl) b k o. rewrite print_aos_eqn; cbn zeta; cbn [k_aos].
    destruct (IHp Gp Gn b k) as (E & H). rewrite E, trim_solid_space by auto.
    set (more := match l with ANil => negb o | ACons _ _ _ => true end).
    set (B := if async then _ else _).
    assert (EB : B = indent ml b k ++ k_pls p k ++ (if async then str "&" else if negb ml && more then str ";" else [])).
    { subst B. destruct async; [fin|]. destruct (negb ml && more); [fin|]. rewrite app_nil_r. auto. }
    destruct (IHl Gl (if more then snl ml B else B) k o) as (E' & H'). rewrite E'. split.
    + destruct l as [|p' a' l]; cbn [k_aos].
      * rewrite EB. destruct more; rewrite ?snl_eq, ?app_nil_r; fin.
      * subst more. cbn match. rewrite snl_eq, indent_nl by apply endnl_nl. rewrite EB. fin.
    + intros _. destruct o.
      * destruct l as [|p' a' l]; subst more; cbn match.
        -- cbn [negb]. rewrite andb_false_r. destruct async; cbn [app]; rewrite ?app_nil_r; auto. apply solid_last. discriminate.
        -- do 4 apply solid_app. apply H'. discriminate.
      * destruct l as [|p' a' l]; subst more; cbn match.
        -- cbn [negb]. rewrite app_nil_r. do 2 apply endnl_app. exists []. auto.
        -- do 4 apply endnl_app. apply H'. discriminate.
  - intros _ b k f Hb. rewrite print_ifs_eqn; cbn zeta; cbn [k_ifs]. rewrite app_nil_r. split; auto. intros [->|H]; [auto|congruence].
  - intros cond IHc body IHb l IHl (Gc & Gb & Gl) b k f Hb. rewrite print_ifs_eqn; cbn zeta; cbn [k_ifs].
    set (last := match cond with ANil => _ | _ => _ end). destruct f; cbn [negb andb].
    + rewrite (T_cond cond IHc Gc) by auto. rewrite snl_eq.
      match goal with |- context [ParseModel.print_aos _ _ _ _ ?b0 body (S k) false] =>
        destruct (T_body body IHb Gb b0 (S k) (endnl_nl _)) as (E & H) end. rewrite E.
      destruct (IHl Gl _ k false H) as (E' & H'). rewrite E'. split; [fin|]. intros _.
      assert (H2 := H' (or_introl eq_refl)). rewrite <- !app_assoc in H2. cbn [app] in *. exact H2.
    + destruct last.
      * rewrite snl_eq. rewrite indent_nl by auto.
        match goal with |- context [ParseModel.print_aos _ _ _ _ ?b0 body (S k) false] =>
          destruct (T_body body IHb Gb b0 (S k) (endnl_nl _)) as (E & H) end. rewrite E. split; [fin|]. intros _.
        rewrite <- !app_assoc in H. exact H.
      * rewrite (indent_nl b k Hb).
        rewrite (T_cond cond IHc Gc) by (exists ((b ++ ind k) ++ str "elif"); fin). rewrite snl_eq.
        match goal with |- context [ParseModel.print_aos _ _ _ _ ?b0 body (S k) false] =>
          destruct (T_body body IHb Gb b0 (S k) (endnl_nl _)) as (E & H) end. rewrite E.
        destruct (IHl Gl _ k false H) as (E' & H'). rewrite E'. split; [fin|]. intros _.
        assert (H2 := H' (or_introl eq_refl)). rewrite <- !app_assoc in H2. rewrite <- !app_assoc. exact H2.
  - intros _ b k Hb. rewrite print_cis_eqn; cbn zeta; cbn [k_cis]. rewrite app_nil_r. auto.
  - intros pats body IHb l IHl (_ & _ & Gb & Gl) b k Hb. rewrite print_cis_eqn; cbn zeta; cbn [k_cis].
    rewrite snl_eq. rewrite (indent_nl b) by auto.
    set (B := match body with ANil => _ | ACons _ _ _ => _ end).
    assert (EB : endnl B /\ B = (((b ++ ind k) ++ str "(" ++ print_patterns X sp_print pats ++ str ")") ++ nl) ++
        match body with ANil => [] | ACons _ _ _ => ind (S k) ++ k_aos body (S k) true ++ nl end).
    { subst B. match goal with |- context [ParseModel.print_aos _ _ _ _ ?b0 body (S k) true] =>
        destruct (IHb Gb b0 (S k) true) as (E & H) end. rewrite E. destruct body; [rewrite app_nil_r; split; auto; apply endnl_nl|].
      rewrite indent_nl by apply endnl_nl. rewrite !snl_eq. split; [apply endnl_nl|fin]. }
    destruct EB as (HB & EB). rewrite (indent_nl B) by auto.
    match goal with |- context [ParseModel.print_cis _ _ _ _ ?b0 l k] =>
      destruct (IHl Gl b0 k (endnl_nl _)) as (E & H) end. rewrite E. rewrite EB. rewrite EB in H. split; [fin|].
    rewrite <- !app_assoc in H. exact H.
Qed.

Lemma command_text : forall c, gcmd c ->
  command_to_wcs L X sp_print ml c = k_cmd c 0 ++ (if ml then [10] else []).
Proof.
  intros c G. destruct text_eq as (T & _). destruct (T c G [] 0%nat) as (E & S). unfold command_to_wcs. rewrite E.
  assert (E' : trim ([] ++ k_cmd c 0 ++ [32]) = k_cmd c 0) by (rewrite trim_solid_space; auto). rewrite E'.
  unfold snl. clear. destruct ml; [|rewrite app_nil_r]; reflexivity.
Qed.
Lemma pipelines_text : forall p, gpls p -> p <> PNil -> pipelines_to_wcs L X sp_print ml p = k_pls p 0.
Proof.
  intros p G Gn. destruct text_eq as (_ & _ & T & _). destruct (T p G Gn [] 0%nat) as (E & S). unfold pipelines_to_wcs. rewrite E.
  replace (indent ml [] 0) with (@nil N) by (unfold indent; destruct ml; reflexivity).
  rewrite trim_solid_space by auto. reflexivity.
Qed.
End Ml.
End Text.
