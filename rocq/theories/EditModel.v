(** Line editing (lineedit/editing.c): the edit line, the undo history, the kill ring
    and moving through the command history.

    Simplifications: there is no prediction (the whole buffer is the line), no redrawing,
    no completion.  The count is that of [get_count] (lineedit/editing.c 447-466).  A motion is the
    index it leads to.  Commands that wait for another key are not modelled: no
    command is pending when one of the commands here starts.  Lines contain no null
    characters ([cmd_self_insert] rejects them), so that comparing up to a null character
    is equality. *)
From Coq Require Import Ascii String.
From Coq Require Import List NArith ZArith Bool Arith.
From Verif Require Import Common.
Import ListNotations.

(** [le_main_buffer] and [le_main_index] (lineedit/editing.c 64-78) *)
Record line := mkLine { buf : list N; idx : nat }.
(** [undo_history], [undo_index], [undo_history_entry] and [undo_save_index]
    (lineedit/editing.c 172-188).  An entry of the command history is a number, None is [Histlist]. *)
Record undo := mkUndo { uh : list (nat * list N); ui : nat; uent : option nat; usi : nat }.
(** The kill ring, [next_kill_index], [last_put_elem] and the range of the text put last
    (lineedit/editing.c 190-199) *)
Record kring := mkRing { ring : list (option (list N)); nk : nat; lpe : nat; lps : nat; lpl : nat }.
Definition KILL_RING_SIZE : nat := 32.
(** The kind of [last_command] (lineedit/editing.c 104-105), as far as it matters *)
Inductive kind := KPut | KPop | KBack | KOther.
(** The state: also [main_history_entry], [main_history_value] (lineedit/editing.c 80-85),
    [overwrite_save_buffer] (lineedit/editing.c 163-170), [last_success] of [cmd_put_pop] and
    whether the mode is vi command mode *)
Record est := mkE {
  ln : line; ment : option nat; mval : list N; un : undo; kr : kring;
  ow : option (list N); lastc : kind; popok : bool; vicmd : bool }.

Definition put_ln (l : line) (s : est) : est := mkE l (ment s) (mval s) (un s) (kr s) (ow s) (lastc s) (popok s) (vicmd s).
Definition put_un (u : undo) (s : est) : est := mkE (ln s) (ment s) (mval s) u (kr s) (ow s) (lastc s) (popok s) (vicmd s).
Definition put_kr (k : kring) (s : est) : est := mkE (ln s) (ment s) (mval s) (un s) k (ow s) (lastc s) (popok s) (vicmd s).
Definition put_ow (o : option (list N)) (s : est) : est := mkE (ln s) (ment s) (mval s) (un s) (kr s) o (lastc s) (popok s) (vicmd s).
Definition put_vi (b : bool) (s : est) : est := mkE (ln s) (ment s) (mval s) (un s) (kr s) (ow s) (lastc s) (popok s) b.
Definition put_pop (b : bool) (s : est) : est := mkE (ln s) (ment s) (mval s) (un s) (kr s) (ow s) (lastc s) b (vicmd s).
Definition put_last (k : kind) (s : est) : est := mkE (ln s) (ment s) (mval s) (un s) (kr s) (ow s) k (popok s) (vicmd s).

(** String buffers (strbuf.c; see the model of it): [wb_remove], [wb_insert], assignment
    to an element *)
Definition remove (i n : nat) (b : list N) : list N := firstn i b ++ skipn (i + n) b.
Definition insert (i : nat) (t b : list N) : list N := firstn i b ++ t ++ skipn i b.
Definition set_nth {A} (i : nat) (x : A) (b : list A) : list A := firstn i b ++ x :: skipn (S i) b.
Definition slice (i n : nat) (b : list N) : list N := firstn n (skipn i b).

Definition ent_eqb (a b : option nat) : bool :=
  match a, b with Some a, Some b => (a =? b)%nat | None, None => true | _, _ => false end.
(** [save_undo_history] (lineedit/editing.c 501-517) on a history and an index; None if an
    assertion fails *)
Definition save (h : list (nat * list N)) (i : nat) (s : est) : option est :=
  if (i <=? length h)%nat then
    Some (put_un (mkUndo (firstn i h ++ [(idx (ln s), buf (ln s))]) i (ment s) (idx (ln s))) s)
  else None.
(** [maybe_save_undo_history] (lineedit/editing.c 521-561) *)
Definition maybe_save (s : est) : option est :=
  let u := un s in
  let b := buf (ln s) in
  if ent_eqb (uent u) (ment s) then
    match nth_error (uh u) (ui u) with
    | Some (_, t) =>
        if list_N_eqb b t
        then Some (put_un (mkUndo (set_nth (ui u) (idx (ln s), t) (uh u)) (ui u) (uent u) (idx (ln s))) s)
        else save (uh u) (S (ui u)) s
    | None => save (uh u) (ui u) s
    end
  else if list_N_eqb b (mval s) then Some (put_un (mkUndo (uh u) (ui u) (uent u) (idx (ln s))) s)
  else if (usi u <=? length (mval s))%nat then save [(usi u, mval s)] 1 s
  else None.

(** [motion_expect_command_T] (lineedit/editing.c 107-127) *)
Inductive cursor := ToStart | ToEnd | Move | Stay.
Record mec := mkMec { m_copy : bool; m_case : option (N -> N); m_cur : cursor; m_del : bool; m_ins : bool }.
(** [add_to_kill_ring] (lineedit/editing.c 689-696) *)
Definition add_to_ring (t : list N) (k : kring) : kring :=
  match t with
  | [] => k
  | _ :: _ => mkRing (set_nth (nk k) (Some t) (ring k)) ((nk k + 1) mod KILL_RING_SIZE) (lpe k) (lps k) (lpl k)
  end.
(** [restore_overwritten_buffer_contents] (lineedit/editing.c 730-749) *)
Definition restore_over (o : list N) (start stop : nat) (b : list N) : list N :=
  let mid := if (length o <? start)%nat then start else if (stop <? length o)%nat then stop else length o in
  firstn start b ++ slice start (mid - start) o ++ skipn stop b.
(** [exec_motion_command] (lineedit/editing.c 568-634); [back] if the command is
    [cmd_backward_delete_char] *)
Definition motion (m : mec) (new : nat) (inclusive back : bool) (s : est) : option est :=
  let old := idx (ln s) in
  let len := length (buf (ln s)) in
  if ((old <=? len) && (new <=? len))%nat then
    let start := min old new in
    let stop := if inclusive && (max old new <? len)%nat then S (max old new) else max old new in
    let repeated := m_del m && (new + 1 =? old)%nat && back && match lastc s with KBack => true | _ => false end in
    match (if repeated then Some s else maybe_save s) with
    | None => None
    | Some s =>
        let b := buf (ln s) in
        let s := if m_copy m then put_kr (add_to_ring (slice start (stop - start) b) (kr s)) s else s in
        let b := match m_case m with
                 | Some f => firstn start b ++ map f (slice start (stop - start) b) ++ skipn stop b
                 | None => b
                 end in
        let i := match m_cur m with ToStart => start | ToEnd => stop | Move => new | Stay => old end in
        let s :=
          if m_del m then
            let b' := match ow s with
                      | Some o => if (old <=? new)%nat then remove start (stop - start) b else restore_over o start stop b
                      | None => remove start (stop - start) b
                      end in
            put_ln (mkLine b' start) s
          else put_ln (mkLine b i) s in
        Some (if m_ins m then put_ow None (put_vi false s) else s)
    end
  else None.

(** [cmd_self_insert] (lineedit/editing.c 827-843) *)
Fixpoint self_insert (over : bool) (n : nat) (c : N) (l : line) : line :=
  match n with
  | O => l
  | S n =>
      let i := idx l in
      self_insert over n c
        (mkLine (if over && (i <? length (buf l))%nat then set_nth i c (buf l) else insert i [c] (buf l)) (S i))
  end.
(** [wb_insert] several times *)
Fixpoint insert_times (n : nat) (i : nat) (t b : list N) : list N :=
  match n with O => b | S n => insert_times n i t (insert i t b) end.
(** [insert_killed_string] (lineedit/editing.c 2157-2182); None if the assertion fails *)
Definition insert_killed (after on_last : bool) (count : Z) (index : nat) (s : est) : option est :=
  match nth index (ring (kr s)) None with
  | None => Some s
  | Some t =>
      let l := ln s in
      let i := if after && (idx l <? length (buf l))%nat then S (idx l) else idx l in
      let offset := (length (buf l) - i)%nat in
      let b := insert_times (Z.to_nat count) i t (buf l) in
      if (offset + 1 <=? length b)%nat then
        let j := (length b - offset)%nat in
        Some (put_ln (mkLine b (if on_last then j - 1 else j)%nat)
               (put_kr (mkRing (ring (kr s)) (nk (kr s)) index i (j - i)) s))
      else None
  end.
Definition prev_index (i : nat) : nat := ((i + KILL_RING_SIZE - 1) mod KILL_RING_SIZE)%nat.
(** [put_killed_string] (lineedit/editing.c 2134-2147) *)
Definition put_killed (after on_last : bool) (count : Z) (s : est) : option est :=
  match maybe_save s with
  | None => None
  | Some s => insert_killed after on_last count (prev_index (nk (kr s))) s
  end.
(** The loop in [cmd_put_pop] (lineedit/editing.c 2186-2216), which ends after at most
    [KILL_RING_SIZE] steps if the element [i] is not null *)
Fixpoint find_prev (fuel i : nat) (r : list (option (list N))) : nat :=
  let i := prev_index i in
  match fuel, nth i r None with
  | S fuel, None => find_prev fuel i r
  | _, _ => i
  end.
(** [cmd_put_pop] (lineedit/editing.c 2186-2216) *)
Definition put_pop_cmd (count : Z) (s : est) : option est :=
  if match lastc s with KPut => true | KPop => popok s | _ => false end
     && match nth (lpe (kr s)) (ring (kr s)) None with Some _ => true | None => false end
  then
    match maybe_save (put_pop true s) with
    | None => None
    | Some s =>
        let k := kr s in
        if (lps k <=? length (buf (ln s)))%nat then
          insert_killed false false count (find_prev KILL_RING_SIZE (lpe k) (ring k))
            (put_ln (mkLine (remove (lps k) (lpl k) (buf (ln s))) (lps k)) s)
        else None
    end
  else Some (put_pop false s).
(** [cancel_undo] (lineedit/editing.c 2246-2285) *)
Definition cancel_undo (offset : Z) (s : est) : option est :=
  match maybe_save s with
  | None => None
  | Some s =>
      let u := un s in
      if ent_eqb (uent u) (ment s) then
        let i :=
          if (offset <? 0)%Z then
            if (ui u =? 0)%nat then None
            else Some (if (Z.of_nat (ui u) <? - offset)%Z then O else (ui u - Z.to_nat (- offset))%nat)
          else if (length (uh u) <=? ui u + 1)%nat then None
          else Some (if (Z.of_nat (length (uh u) - ui u) <=? offset)%Z then (length (uh u) - 1)%nat else (ui u + Z.to_nat offset)%nat) in
        match i with
        | None => Some s
        | Some i =>
            match nth_error (uh u) i with
            | None => None
            | Some (j, t) =>
                if (j <=? length t)%nat
                then Some (put_ln (mkLine t j) (put_un (mkUndo (uh u) i (uent u) (usi u)) s))
                else None
            end
        end
      else Some s
  end.
(** [go_to_history] (lineedit/editing.c 3523-3554); [value] are the values of the entries *)
Inductive curpos := SPrefix | SVi | SEmacs.
Definition go_to (value : nat -> list N) (e : option nat) (c : curpos) (s : est) : option est :=
  match maybe_save s with
  | None => None
  | Some s =>
      let u := un s in
      let there := match nth_error (uh u) (ui u) with Some h => if ent_eqb e (uent u) then Some h else None | None => None end in
      match there with
      | Some (j, t) =>
          if (j <=? length t)%nat
          then Some (mkE (mkLine t j) e t (mkUndo (uh u) (ui u) (uent u) j) (kr s) (ow s) (lastc s) (popok s) (vicmd s))
          else None
      | None =>
          let t := match e with Some e => value e | None => [] end in
          let j := match c with SPrefix => min (idx (ln s)) (length t) | SVi => O | SEmacs => length t end in
          Some (mkE (mkLine t j) e t (mkUndo (uh u) (ui u) (uent u) j) (kr s) (ow s) (lastc s) (popok s) (vicmd s))
      end
  end.
(** [cmd_emacs_transpose_chars] (lineedit/editing.c 3064-3120); [given] if there is a count *)
Definition transpose (given : bool) (count : Z) (s : est) : option est :=
  if (idx (ln s) =? 0)%nat then Some s
  else
    match maybe_save s with
    | None => None
    | Some s =>
        let b := buf (ln s) in
        let i := if negb given && (idx (ln s) =? length b)%nat && (2 <=? idx (ln s))%nat then (idx (ln s) - 1)%nat else idx (ln s) in
        let move index :=
          let c := nth (i - 1) b 0%N in
          if ((0 <? i) && (0 <? index) && (index <=? length b))%nat
          then Some (put_ln (mkLine (insert (index - 1) [c] (remove (i - 1) 1 b)) index) s)
          else None in
        if (count >=? 0)%Z then
          if (count <=? Z.of_nat (length b - i))%Z then move (i + Z.to_nat count)%nat
          else Some (put_ln (mkLine b (length b)) s)
        else
          if (- count <? Z.of_nat i)%Z then move (i - Z.to_nat (- count))%nat
          else Some (put_ln (mkLine b O) s)
    end.
(** [vi_replace_char] (lineedit/editing.c 2604-2625); neither it nor [cmd_vi_replace_char]
    saves the line *)
Fixpoint replace_chars (n : nat) (c : N) (l : line) : line :=
  match n with
  | O => l
  | S n => if (idx l <? length (buf l))%nat then replace_chars n c (mkLine (set_nth (idx l) c (buf l)) (S (idx l))) else l
  end.
Definition vi_replace (count : Z) (c : N) (s : est) : est :=
  if (0 <? count)%Z && (idx (ln s) <? length (buf (ln s)))%nat then
    let l := replace_chars (Z.to_nat count) c (ln s) in
    put_ln (mkLine (buf l) (idx l - 1)) s
  else s.
(** [set_mode] (lineedit/editing.c 994-1005) with [set_overwriting] (lineedit/editing.c 708-718); [back] if the
    mode was vi insert mode and becomes vi command mode *)
Definition set_mode (vi over back : bool) (s : est) : option est :=
  match maybe_save s with
  | None => None
  | Some s =>
      let s := if back then put_ln (mkLine (buf (ln s)) (idx (ln s) - 1)) s else s in
      Some (put_ow (if over then Some (buf (ln s)) else None) (put_vi vi s))
  end.

(** Commands.  [CEdit] is any other command that saves the line and changes it. *)
Inductive cmd :=
  | CInsert (count : Z) (c : N)
  | CMotion (m : mec) (new : nat) (inclusive back : bool)
  | CPut (after on_last : bool) (count : Z)
  | CPop (count : Z)
  | CUndo (offset : Z)
  | CGo (e : option nat) (c : curpos)
  | CTranspose (given : bool) (count : Z)
  | CReplace (count : Z) (c : N)
  | CMode (vi over back : bool)
  | CEdit (t : list N) (i : nat).
Definition kind_of (c : cmd) : kind :=
  match c with
  | CPut _ _ _ => KPut
  | CPop _ => KPop
  | CMotion _ _ _ true => KBack
  | _ => KOther
  end.
Definition exec1 (value : nat -> list N) (c : cmd) (s : est) : option est :=
  match c with
  | CInsert count c => Some (put_ln (self_insert (match ow s with Some _ => true | None => false end) (Z.to_nat count) c (ln s)) s)
  | CMotion m new inclusive back => motion m new inclusive back s
  | CPut after on_last count => put_killed after on_last count s
  | CPop count => put_pop_cmd count s
  | CUndo offset => cancel_undo offset s
  | CGo e c => go_to value e c s
  | CTranspose given count => transpose given count s
  | CReplace count c => Some (vi_replace count c s)
  | CMode vi over back => set_mode vi over back s
  | CEdit t i => match maybe_save s with Some s => Some (put_ln (mkLine t i) s) | None => None end
  end.
(** [le_invoke_command] (lineedit/editing.c 396-427) *)
Definition invoke (value : nat -> list N) (c : cmd) (s : est) : option est :=
  match exec1 value c s with
  | None => None
  | Some s =>
      let s := put_last (kind_of c) s in
      let l := ln s in
      Some (if vicmd s && (0 <? idx l)%nat && (idx l =? length (buf l))%nat then put_ln (mkLine (buf l) (idx l - 1)) s else s)
  end.
Fixpoint invokes (value : nat -> list N) (cs : list cmd) (s : est) : option est :=
  match cs with
  | [] => Some s
  | c :: cs => match invoke value c s with Some s' => invokes value cs s' | None => None end
  end.
(** [le_editing_init] (lineedit/editing.c 342-375); the kill ring is kept from earlier lines *)
Definition start_edit (k : kring) (pop : bool) : est :=
  mkE (mkLine [] 0) None [] (mkUndo [(O, [])] 0 None 0) k None KOther pop false.
