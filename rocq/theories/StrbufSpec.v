(** Independent specification of string conversion and joining. *)
From Coq Require Import List NArith Bool.
From Verif Require Import Common BufModel.
Import ListNotations.
Local Open Scope N_scope.

Section Encoding.
Variable enc : N -> option (list N).
Variable dec : list N -> option (N * nat).
Variable MB_CUR_MAX : N.

(** The bytes of the longest convertible prefix, and whether that is all of it. *)
Fixpoint encode (s : list N) : list N * bool :=
  match s with
  | [] => ([], true)
  | c :: s' =>
      match enc c with
      | None => ([], false)
      | Some bs => let '(o, ok) := encode s' in (bs ++ o, ok)
      end
  end.

(** Byte string [s] begins with the encodings of the characters [w]; [s'] follows. *)
Inductive decodes : list N -> list N -> list N -> Prop :=
  | dec_nil : forall s, decodes s [] s
  | dec_cons : forall b s c k w s', dec (b :: s) = Some (c, k) ->
      decodes (skipn k (b :: s)) w s' -> decodes (b :: s) (c :: w) s'.
(** The whole of [s] is the encoding of [w]. *)
Definition is_decoding (s w : list N) : Prop := decodes s w [].

(** Requirements on an encoding: between one and MB_CUR_MAX bytes per character, none
    of them null; decoding consumes at least one of the bytes there are. *)
Record encoding_ok : Prop := {
  eo_mb : 0 < MB_CUR_MAX /\ MB_CUR_MAX < SIZE_MOD;
  eo_enc : forall c bs, enc c = Some bs -> 1 <= lenN bs <= MB_CUR_MAX /\ ~ In 0 bs;
  eo_dec : forall s c k, dec s = Some (c, k) -> (1 <= k <= length s)%nat /\ c <> 0 }.
(** Decoding inverts encoding. *)
Definition inverse : Prop :=
  forall c bs s, enc c = Some bs -> dec (bs ++ s) = Some (c, length bs).
End Encoding.

(** Memory was refused for at most [bound] bytes. *)
Definition refused (alloc : N -> bool) (bound : N) : Prop :=
  exists k, k <= bound /\ (SIZE_MOD <= k \/ alloc k = false).

(** Joining with a separator *)
Fixpoint join (pad : list N) (a : list (list N)) : list N :=
  match a with
  | [] => []
  | [s] => s
  | s :: a' => s ++ pad ++ join pad a'
  end.
