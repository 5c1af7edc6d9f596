(** A small shell environment, to show that the theorems on word expansion apply. *)
From Coq Require Import Ascii String.
From Coq Require Import List NArith ZArith Bool Arith.
From Verif Require Import Common Locale CharcatModel ExpandModel ExpandSpec.
Import ListNotations.

Definition seq (a b : list N) : bool := if list_eq_dec N.eq_dec a b then true else false.
Definition purge (s : list N) : list N := filter (fun c => negb (c =? 0)%N) s.
Definition env := list (list N * gv).
Fixpoint look (e : env) (n : list N) : gv :=
  match e with
  | [] => GVNot
  | (m, v) :: e' =>
    if seq m n then match v with GVNot => GVNot | GVScalar s => GVScalar (purge s) | GVArray l => GVArray (map purge l) | GVConcat l => GVConcat (map purge l) end
    else look e' n
  end.
Definition set_nth (i : Z) (s : list N) (l : list (list N)) : list (list N) :=
  let k := Z.to_nat (if (i <? 0)%Z then i + Z.of_nat (length l) else i) in firstn k l ++ s :: skipn (S k) l.
(** A decimal number, possibly negative *)
Definition number (s : list N) : Z :=
  let value s := fold_left (fun a c => 10 * a + (Z.of_N c - 48))%Z s 0%Z in
  match s with c :: s' => if (c =? 45)%N then (- value s')%Z else value s | [] => 0%Z end.
Definition demo_world : world := mkWorld env look
  (fun e => match look e (str "IFS") with GVScalar s => Some s | _ => None end)
  (fun e n s => if seq n (str "ro") then (false, e) else (true, (n, GVScalar s) :: e))
  (fun e n i s => match look e n with GVArray l => (true, (n, GVArray (set_nth i s l)) :: e) | _ => (false, e) end)
  (fun e k => (Some (str "out put"), e))
  (fun e x => (Some (purge x), e))
  (fun e x => (Some (number x), e))
  (fun e u => match look e (match u with [] => str "HOME" | _ => u end) with GVScalar s => Some s | _ => None end)
  (fun p => if seq p (str "*.c") then [str "a.c"; str "b.c"] else []).

Lemma purged s : nonzero (purge s).
Proof. unfold nonzero, purge. apply Forall_forall. intros c H. apply filter_In in H as [_ H]. destruct (N.eqb_spec c 0); [discriminate|assumption]. Qed.
Lemma look_clean e n : match look e n with GVNot => True | GVScalar s => nonzero s | GVArray l | GVConcat l => Forall nonzero l end.
Proof.
  induction e as [|[m v] e IH]; [exact I|]. cbn [look]. destruct (seq m n); [|exact IH].
  destruct v as [|s|l|l]; [exact I|apply purged| |]; induction l; cbn [map]; constructor; auto using purged.
Qed.
Lemma demo_clean : clean_world demo_world.
Proof.
  intros e. split; [|split; [|split; [|split]]]; cbn [demo_world get_variable getifs exec_cmdsub evaluate_arithmetic tilde_home].
  - intros n. apply look_clean.
  - intros s H. pose proof (look_clean e (str "IFS")) as Q. destruct (look e (str "IFS")); try discriminate. now injection H as <-.
  - intros k s e' H. injection H as <- _. repeat (constructor; [discriminate|]). constructor.
  - intros x s e' H. injection H as <- _. apply purged.
  - intros u s H. match type of H with match look e ?n with _ => _ end = _ => pose proof (look_clean e n) as Q; destruct (look e n); try discriminate end. now injection H as <-.
Qed.
Definition opts_on : opts := mkOpts true true false true false.
Definition opts_u : opts := mkOpts false true false true false.
Definition home : env := [(str "x", GVScalar (str "a  b*")); (str "e", GVScalar []); (str "HOME", GVScalar (str "/home/me"));
  (str "@", GVArray [str "p 1"; []; str "p3"]); (str "*", GVConcat [str "p 1"; []; str "p3"]); (str "a", GVArray [str "one"; str "two"; str "three"]);
  (str "none", GVArray []); (str "sp", GVScalar (str " ")); (str "1e", GVArray [[]])].
