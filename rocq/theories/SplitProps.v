(** Properties C21, C22, C40 and C41: field splitting and the "read" built-in. *)
From Coq Require Import Ascii String.
From Coq Require Import List NArith Bool Arith Lia.
From Verif Require Import Common Locale CharcatModel SplitModel SplitSpec SplitProofs ReadProofs.
Import ListNotations.
Open Scope res_scope.

(** Cells for the examples: in the text, [^] marks the next character as quoted. *)
Fixpoint marked (s : list N) : list cell :=
  match s with
  | [] => []
  | c :: s' => if (c =? ch "^")%N then match s' with d :: s'' => (d, mkCat Soft true false) :: marked s'' | [] => [] end
               else (c, cc_soft) :: marked s'
  end.
Definition w (s : string) := marked (str s).

(** C21.  Splitting never fails and gives for each word the fields POSIX defines,
    which are unique. *)
Theorem splitting_posix L ifs e words : Forall nonull words ->
  exists fss, fieldsplit L ifs e words = Ok (concat fss) /\
    Forall2 (fun s fs => posix_fields L ifs e s fs /\ forall gs, posix_fields L ifs e s gs -> gs = fs) words fss.
Proof.
  intros H. destruct (fieldsplit_ok L ifs e words H) as (fss & -> & HF). exists fss. split; [reflexivity|].
  clear H. induction HF as [|s fs words fss Hs HF IH]; constructor; [|exact IH]. split; [exact Hs|].
  intros gs Hg. eapply posix_fields_det; eauto.
Qed.
Print Assumptions splitting_posix.

Example split_ex1 : fieldsplit c_locale (str " -") true [w " - abc - 123^ x - "; w "  "; w "a--b"] =
  Ok (map w [""; "abc"; "123^ x"; ""; "a"; ""; "b"]%string).
Proof. vm_compute. reflexivity. Qed.
Example split_ex2 : Forall nonull [w " - abc - 123^ x - "].
Proof. repeat constructor; discriminate. Qed.
Example split_ex3 : fieldsplit c_locale (str " -") false [w "-a-"; w "-"; cells cc_lit (str "a b")] =
  Ok [w ""; w "a"; w ""; cells cc_lit (str "a b")].
Proof. vm_compute. reflexivity. Qed.

(** C22.  The fields together are the word without its separators. *)
Theorem splitting_lossless L ifs e s : nonull s ->
  exists fs, fieldsplit L ifs e [s] = Ok fs /\ Forall (Forall (plain ifs)) fs /\
    exists keep, (forall x, keep x = true <-> ~ separator ifs x) /\ concat fs = filter keep s.
Proof.
  intros H. destruct (fieldsplit_ok L ifs e [s] (Forall_cons _ H (Forall_nil _))) as (fss & -> & HF).
  inversion HF as [|? fs ? ? Hs HF' E1 E2]; subst. inversion HF'; subst. cbn [concat]. rewrite app_nil_r. exists fs. split; [reflexivity|].
  pose proof (posix_filter _ _ _ _ _ Hs) as X.
  assert (K : forall x, negb (sepb ifs x) = true <-> ~ separator ifs x).
  { intros x. rewrite <- sepb_ok. destruct (sepb ifs x); cbn; split; congruence. }
  split; [|exists (fun x => negb (sepb ifs x)); split; [exact K|exact X]].
  apply Forall_forall. intros f Hf. apply Forall_forall. intros x Hx.
  assert (In x (concat fs)) by (apply in_concat; eauto). rewrite X in H0. apply filter_In in H0 as [_ H0]. now apply K.
Qed.
Print Assumptions splitting_lossless.

Example lossless_ex : exists fs, fieldsplit c_locale (str ": ") false [w " a:^: b: "] = Ok fs /\ concat fs = w "a^:b" /\ length fs = 3.
Proof. eexists. split; [vm_compute; reflexivity|]. split; reflexivity. Qed.

Lemma ifs_value_of v : ifs_value v = ifs_of v.
Proof. destruct v; reflexivity. Qed.

(** C40.  The line "read" takes and what it assigns. *)
Theorem read_assigns L ifs e raw firsts lastname input : Forall (fun c => c <> 0%N) input ->
  exists line rest nl fs v, logical raw input line rest nl /\ posix_fields L (ifs_of ifs) e line fs /\
    last_scalar L (ifs_of ifs) e (length firsts) line v /\
    read_builtin L ifs e raw false (firsts ++ [lastname]) input =
      Ok (map (fun p => (fst p, Scalar (snd p))) (combine firsts (map text fs ++ repeat [] (length firsts))) ++ [(lastname, Scalar v)], rest, nl).
Proof.
  intros H. destruct (read_builtin_ok L ifs e raw false firsts lastname input H) as (line & rest & nl & fs & v & H1 & H2 & H3 & x & -> & H4).
  rewrite ifs_value_of in *.
  exists line, rest, nl, fs, x. auto.
Qed.
Print Assumptions read_assigns.

(** The specification determines the line, the fields and the last value. *)
Theorem read_determined L ifs e raw n input line rest nl fs v line' rest' nl' fs' v' :
  logical raw input line rest nl -> posix_fields L (ifs_of ifs) e line fs -> last_scalar L (ifs_of ifs) e n line v ->
  logical raw input line' rest' nl' -> posix_fields L (ifs_of ifs) e line' fs' -> last_scalar L (ifs_of ifs) e n line' v' ->
  line = line' /\ rest = rest' /\ nl = nl' /\ fs = fs' /\ v = v'.
Proof.
  intros H1 H2 H3 H1' H2' H3'. destruct (logical_det _ _ _ _ _ H1 _ _ _ H1') as (<- & <- & <-).
  rewrite (posix_fields_det _ _ _ _ _ _ H2 H2'), (last_scalar_det _ _ _ _ _ _ _ H3 H3'). auto.
Qed.
Print Assumptions read_determined.

Definition lf : list N := [10%N].
Example read_ex1 : read_builtin c_locale None false false false (map str ["a"; "b"]%string)
    (str " one\ 1  two \" ++ lf ++ str "three  " ++ lf ++ str "next") =
  Ok ([(str "a", Scalar (str "one 1")); (str "b", Scalar (str "two three"))], str "next", true).
Proof. vm_compute. reflexivity. Qed.
Example read_ex2 : read_builtin c_locale (Some (str ":")) false true false (map str ["a"; "b"; "c"]%string) (str "x:\") =
  Ok ([(str "a", Scalar (str "x")); (str "b", Scalar (str "\")); (str "c", Scalar [])], [], false).
Proof. vm_compute. reflexivity. Qed.
Example read_ex3 : read_builtin c_locale (Some (str ": ")) false true false (map str ["a"; "b"]%string) (str "1:2:3: " ++ lf) =
  Ok ([(str "a", Scalar (str "1")); (str "b", Scalar (str "2:3:"))], [], true).
Proof. vm_compute. reflexivity. Qed.

(** C41.  With -A the remaining words become an array, except that a single
    empty word gives an empty array. *)
Theorem read_array_partial L ifs e raw firsts lastname input : Forall (fun c => c <> 0%N) input ->
  exists line rest nl fs, logical raw input line rest nl /\ posix_fields L (ifs_of ifs) e line fs /\
    let words := map text (skipn (length firsts) fs) in
    read_builtin L ifs e raw true (firsts ++ [lastname]) input =
      Ok (map (fun p => (fst p, Scalar (snd p))) (combine firsts (map text fs ++ repeat [] (length firsts))) ++
        [(lastname, Array (if list_eq_dec (list_eq_dec N.eq_dec) words [[]] then [] else words))], rest, nl).
Proof.
  intros H. destruct (read_builtin_ok L ifs e raw true firsts lastname input H) as (line & rest & nl & fs & v & H1 & H2 & H3 & vs & -> & gs & H4 & H5).
  rewrite ifs_value_of in *.
  exists line, rest, nl, fs. split; [exact H1|]. split; [exact H2|]. cbn zeta. rewrite (posix_fields_det _ _ _ _ _ _ H4 H2) in H5.
  rewrite H3. destruct (list_eq_dec _ _ _) as [E|E].
  - destruct H5 as [[_ ->]|[N ->]]; [reflexivity|]. exfalso. apply N. destruct (skipn (length firsts) fs) as [|[|x f] [|g gs']]; cbn in E; try discriminate. reflexivity.
  - destruct H5 as [[N ->]|[_ ->]]; [|reflexivity]. exfalso. apply E. rewrite N. reflexivity.
Qed.
Print Assumptions read_array_partial.

Example read_array_ex : read_builtin c_locale None false false true (map str ["a"; "b"]%string) (str "x y  z" ++ lf) =
  Ok ([(str "a", Scalar (str "x")); (str "b", Array (map str ["y"; "z"]%string))], [], true).
Proof. vm_compute. reflexivity. Qed.

(** The manual promises an array of the remaining words. *)
Theorem read_array_refuted : exists L ifs e input line rest nl fs, logical true input line rest nl /\
  posix_fields L (ifs_of ifs) e line fs /\ map text fs = [[]] /\
  read_builtin L ifs e true true [str "a"] input = Ok ([(str "a", Array [])], rest, nl).
Proof.
  exists c_locale, (Some (str ":")), false, (str ":" ++ lf), (w ":"), [], true, [[]].
  split. { apply lg_char; [discriminate|discriminate|]. apply lg_newline. }
  split.
  { destruct (extract_fields_posix c_locale (str ":") (w ":") ltac:(repeat constructor; discriminate) false) as (R & tail & E & HP).
    vm_compute in E. injection E as <- <-. exact HP. }
  split; [reflexivity|]. vm_compute. reflexivity.
Qed.
Print Assumptions read_array_refuted.
