(** Symbolic file modes as in POSIX chmod: syntax and meaning. *)
From Coq Require Import Ascii String.
From Coq Require Import List NArith Bool.
From Verif Require Import Common.
Import ListNotations.

Inductive class := User | Group | Other.
Inductive right := Read | Write | Exec.

(** Syntax. *)
Inductive who := Class (c : class) | Everyone.
Inductive op := Plus | Minus | Assign.
Inductive letter := Right (p : right) | SearchX | SetId.
Inductive perms := Copy (c : class) | Letters (l : list letter).
Record clause := { whos : list who; action : op * perms; actions : list (op * perms) }.
Definition mode : Type := clause * list clause.

Definition class_text (c : class) : list N :=
  match c with User => str "u" | Group => str "g" | Other => str "o" end.
Definition who_text (w : who) : list N := match w with Class c => class_text c | Everyone => str "a" end.
Definition letter_text (l : letter) : list N :=
  match l with
  | Right Read => str "r" | Right Write => str "w" | Right Exec => str "x" | SearchX => str "X" | SetId => str "s"
  end.
Definition perms_text (p : perms) : list N :=
  match p with Copy c => class_text c | Letters l => flat_map letter_text l end.
Definition action_text (a : op * perms) : list N :=
  match fst a with Plus => str "+" | Minus => str "-" | Assign => str "=" end ++ perms_text (snd a).
Definition clause_text (c : clause) : list N :=
  flat_map who_text (whos c) ++ action_text (action c) ++ flat_map action_text (actions c).
Definition mode_text (m : mode) : list N :=
  clause_text (fst m) ++ flat_map (fun c => str "," ++ clause_text c) (snd m).

(** Meaning: what is permitted to each class. *)
Definition permissions := class -> right -> bool.
Definition class_eqb (a b : class) : bool :=
  match a, b with User, User | Group, Group | Other, Other => true | _, _ => false end.
Definition right_eqb (a b : right) : bool :=
  match a, b with Read, Read | Write, Write | Exec, Exec => true | _, _ => false end.

Definition concerns (ws : list who) (c : class) : bool :=
  match ws with
  | [] => true
  | _ => existsb (fun w => match w with Class c' => class_eqb c c' | Everyone => true end) ws
  end.
Definition denotes (orig : permissions) (l : letter) (p : right) : bool :=
  match l with
  | Right p' => right_eqb p p'
  | SearchX => right_eqb p Exec && (orig User Exec || orig Group Exec || orig Other Exec)
  | SetId => false
  end.
Definition given (orig : permissions) (x : perms) (p : right) : bool :=
  match x with
  | Copy c => orig c p
  | Letters l => existsb (fun l => denotes orig l p) l
  end.
Definition act (orig : permissions) (ws : list who) (now : permissions) (a : op * perms) : permissions :=
  fun c p =>
    if concerns ws c then
      match fst a with
      | Plus => now c p || given orig (snd a) p
      | Minus => now c p && negb (given orig (snd a) p)
      | Assign => given orig (snd a) p
      end
    else now c p.
Definition apply_clause (orig now : permissions) (c : clause) : permissions :=
  fold_left (act orig (whos c)) (action c :: actions c) now.
Definition meaning (m : mode) (orig : permissions) : permissions :=
  fold_left (apply_clause orig) (fst m :: snd m) orig.

(** A file mode creation mask has a bit for each permission that is removed. *)
Definition index (c : class) (p : right) : N :=
  (match c with User => 6 | Group => 3 | Other => 0 end + match p with Read => 2 | Write => 1 | Exec => 0 end)%N.
Definition permits (mask : N) : permissions := fun c p => negb (N.testbit mask (index c p)).
