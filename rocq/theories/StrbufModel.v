(** Model of the multibyte/wide conversions and of the formatting and joining
    functions of strbuf.c, on top of the growable buffers of BufModel.

    The character encoding is a parameter and is stateless (as UTF-8 and all
    single-byte encodings are); shift states are not modelled. *)
From Coq Require Import List NArith ZArith Bool Lia.
From Verif Require Import Common BufModel.
Import ListNotations.
Local Open Scope N_scope.
Local Open Scope res_scope.

Definition isnul (c : N) : bool := c =? 0.

(** XSTRBUF_INITSIZE, XWCSBUF_INITSIZE: strbuf.h:28-33 *)
Definition INITSIZE : N := 15.

Section Conv.
Variable alloc : N -> bool.
(** wcrtomb for a non-null character: its bytes, or [None] (EILSEQ) *)
Variable enc : N -> option (list N).
(** mbrtowc at a non-null byte: the character and the number of bytes, or [None] *)
Variable dec : list N -> option (N * nat).
Variable MB_CUR_MAX : N.

Notation buf := (BufModel.buf N).
Definition sb_ensuremax := b_ensuremax N 0 1 10 alloc.
Definition wb_ensuremax := b_ensuremax N 0 4 8 alloc.
Definition sb_initwithmax := b_initwithmax N 0 1 alloc.
Definition wb_initwithmax := b_initwithmax N 0 4 alloc.

(** POSIX wcsnrtombs: convert at most [nwc] characters of the null-terminated [s]
    into at most [len] bytes.  Result: the bytes produced (without the null); how many
    characters were converted; and how it ended. *)
Inductive cend := CNull (* the null was stored *) | CBad (* EILSEQ *) | CMore (* out of space or nwc *).
Fixpoint wcsnrtombs (s : list N) (nwc len : N) : list N * N * cend :=
  if nwc =? 0 then ([], 0, CMore) else
  match s with
  | [] => if len =? 0 then ([], 0, CMore) else ([], 0, CNull)
  | c :: s' =>
      match enc c with
      | None => ([], 0, CBad)
      | Some bs =>
          if len <? lenN bs then ([], 0, CMore)
          else let '(out, k, e) := wcsnrtombs s' (nwc - 1) (len - lenN bs) in
               (bs ++ out, 1 + k, e)
      end
  end.

(** Storing [out] at index [i] *)
Definition store (c : list (option N)) (i : N) (out : list N) : res (list (option N)) :=
  memcpy N c i (map Some out) (lenN out).

(** strbuf.c:188-225 [sb_wcsncat] (HAVE_WCSNRTOMBS).  The second component is the
    returned pointer as an offset from the current position in the string; [None] is
    NULL. *)
Fixpoint sb_wcsncat (fuel : nat) (b : buf) (s : list N) (off n : N)
  : res (option (buf * option N)) :=
  match fuel with
  | O => Fuel
  | S f =>
      let '(out, k, e) := wcsnrtombs s n (wsub (bmax b) (blen b)) in
      let! c := store (contents b) (blen b) out in
      match e with
      | CBad =>
          let! c := put N c (blen b) 0 in
          Ok (Some (mkBuf c (blen b) (bmax b), Some (off + k)))
      | CNull =>
          let l := wadd (blen b) (lenN out) in
          let! c := put N c l 0 in
          Ok (Some (mkBuf c l (bmax b), None))
      | CMore =>
          let l := wadd (blen b) (lenN out) in
          let n := n - k in
          if n =? 0 then
            let! c := put N c l 0 in
            Ok (Some (mkBuf c l (bmax b), None))
          else
            let? m := add (bmax b) MB_CUR_MAX in
            let? b := sb_ensuremax (mkBuf c l (bmax b)) m in
            sb_wcsncat f b (dropN k s) (off + k) n
      end
  end.

(** Reading a buffer's contents as a null-terminated string *)
Fixpoint cstr (c : list (option N)) : res (list N) :=
  match c with
  | Some x :: c' => if isnul x then Ok [] else let! s := cstr c' in Ok (x :: s)
  | _ => UB
  end.

(** strbuf.c:506-519 [malloc_wcsntombs], with the result read as a string; the inner
    [None] is NULL *)
Definition malloc_wcsntombs (s : list N) (n : N) : res (option (option (list N))) :=
  let? b := sb_initwithmax INITSIZE in
  let? (b, r) := sb_wcsncat (S (S (length s))) b s 0 n in
  match r with
  | None => let! t := cstr (contents b) in Ok (Some (Some t))
  | Some _ => Ok (Some None)
  end.

(** C11 7.29.6.4.1 mbsrtowcs: convert at most [len] characters. *)
Fixpoint mbsrtowcs (fuel : nat) (s : list N) (len : N) : res (list N * N * cend) :=
  if len =? 0 then Ok ([], 0, CMore) else
  match s with
  | [] => Ok ([], 0, CNull)
  | _ =>
      match dec s with
      | None => Ok ([], 0, CBad)
      | Some (c, k) =>
          match fuel with
          | O => Fuel
          | S f =>
              let! (out, j, e) := mbsrtowcs f (skipn k s) (len - 1) in
              Ok (c :: out, N.of_nat k + j, e)
          end
      end
  end.

(** strbuf.c:418-438 [wb_mbscat] *)
Fixpoint wb_mbscat (fuel : nat) (b : buf) (s : list N) (off : N)
  : res (option (buf * option N)) :=
  match fuel with
  | O => Fuel
  | S f =>
      let! (out, k, e) := mbsrtowcs (length s) s (wadd (wsub (bmax b) (blen b)) 1) in
      let! c := store (contents b) (blen b) out in
      match e with
      | CBad =>
          let! c := put N c (blen b) 0 in
          Ok (Some (mkBuf c (blen b) (bmax b), Some (off + k)))
      | CNull =>
          let l := wadd (blen b) (lenN out) in
          let! c := put N c l 0 in
          Ok (Some (mkBuf c l (bmax b), None))
      | CMore =>
          let l := wadd (blen b) (lenN out) in
          let? m := add (bmax b) 1 in
          let? b := wb_ensuremax (mkBuf c l (bmax b)) m in
          wb_mbscat f b (dropN k s) (off + k)
      end
  end.

(** strbuf.c:543-554 [malloc_mbstowcs] *)
Definition malloc_mbstowcs (s : list N) : res (option (option (list N))) :=
  let? b := wb_initwithmax INITSIZE in
  let? (b, r) := wb_mbscat (S (S (length s))) b s 0 in
  match r with
  | None => let! t := cstr (contents b) in Ok (Some (Some t))
  | Some _ => Ok (Some None)
  end.

(** C11 7.21.6.12 vsnprintf: [out] is what the format and arguments produce ([None]:
    an error); up to [n]-1 bytes and a null are stored ([n] > 0). *)
Definition vsnprintf (c : list (option N)) (i n : N) (out : option (list N))
  : res (list (option N) * option N) :=
  match out with
  | None => Ok (c, None)
  | Some t =>
      let! c := store c i (takeN (n - 1) t) in
      let! c := put N c (i + N.min (n - 1) (lenN t)) 0 in
      Ok (c, Some (lenN t))
  end.

(** strbuf.c:260-297 [sb_vprintf] (INT_MAX < SIZE_MAX) *)
Definition sb_vprintf (b : buf) (out : option (list N)) : res (option (buf * option N)) :=
  let rest := wadd (wsub (bmax b) (blen b)) 1 in
  let! (c, r) := vsnprintf (contents b) (blen b) rest out in
  let? (b, r) :=
    (match r with
     | Some n =>
         if rest <=? n then
           let? m := add (blen b) n in
           let? b := sb_ensuremax (mkBuf c (blen b) (bmax b)) m in
           let rest := wadd (wsub (bmax b) (blen b)) 1 in
           let! (c, r) := vsnprintf (contents b) (blen b) rest out in
           Ok (Some (mkBuf c (blen b) (bmax b), r))
         else Ok (Some (mkBuf c (blen b) (bmax b), r))
     | None => Ok (Some (mkBuf c (blen b) (bmax b), r))
     end) in
  match r with
  | Some n => Ok (Some (mkBuf (contents b) (wadd (blen b) n) (bmax b), r))
  | None =>
      let! c := put N (contents b) (blen b) 0 in
      Ok (Some (mkBuf c (blen b) (bmax b), r))
  end.

(** C11 7.29.2.7 vswprintf: like vsnprintf, but negative when the output does not
    fit; the characters that fit may have been stored. *)
Definition vswprintf (c : list (option N)) (i n : N) (out : option (list N))
  : res (list (option N) * option N) :=
  match out with
  | None => Ok (c, None)
  | Some t =>
      let! c := store c i (takeN (n - 1) t) in
      let! c := put N c (i + N.min (n - 1) (lenN t)) 0 in
      Ok (c, if lenN t <? n then Some (lenN t) else None)
  end.

(** strbuf.c:451-474: the retry loop of [wb_vwprintf] *)
Fixpoint vw_loop (tries : nat) (b : buf) (last : option N) (out : option (list N))
  : res (option (buf * option N)) :=
  match tries with
  | O => Ok (Some (b, last))
  | S k =>
      let rest := wadd (wsub (bmax b) (blen b)) 1 in
      let! (c, r) := vswprintf (contents b) (blen b) rest out in
      let b := mkBuf c (blen b) (bmax b) in
      match r with
      | Some n => Ok (Some (b, r))
      | None =>
          let? d := mul 2 rest in
          let? m := add (blen b) d in
          let? b := wb_ensuremax b m in
          vw_loop k b r out
      end
  end.
(** strbuf.c:444-481 [wb_vwprintf] (with a vswprintf that returns a negative value
    when the buffer is too short, as the standard says) *)
Definition wb_vwprintf (b : buf) (out : option (list N)) : res (option (buf * option N)) :=
  let? (b, r) := vw_loop 20 b None out in
  match r with
  | Some n => Ok (Some (mkBuf (contents b) (wadd (blen b) n) (bmax b), r))
  | None =>
      let! c := put N (contents b) (blen b) 0 in
      Ok (Some (mkBuf c (blen b) (bmax b), r))
  end.

(** strbuf.c:616-620: the total length computed by [joinwcsarray] *)
Fixpoint join_count (a : list (list N)) (acc : N) : res (option N) :=
  match a with
  | [] => Ok (Some acc)
  | s :: a' => let? acc := add acc (lenN s) in join_count a' acc
  end.
(** strbuf.c:627-628, 631-632: copying one string to [*s++] *)
Fixpoint join_copy (c : list (option N)) (i : N) (s : list N) : res (list (option N) * N) :=
  match s with
  | [] => Ok (c, i)
  | x :: s' => let! c := put N c i x in join_copy c (i + 1) s'
  end.
(** strbuf.c:625-634 *)
Fixpoint join_loop (c : list (option N)) (i : N) (a : list (list N)) (pad : list N)
  : res (list (option N) * N) :=
  match a with
  | [] => Ok (c, i)
  | s :: a' =>
      let! (c, i) := join_copy c i s in
      match a' with
      | [] => join_loop c i a' pad
      | _ => let! (c, i) := join_copy c i pad in join_loop c i a' pad
      end
  end.
(** strbuf.c:612-638 [joinwcsarray]; the array is given as the list of its strings. *)
Definition joinwcsarray (a : list (list N)) (pad : list N) : res (option (list (option N))) :=
  let? ccount := join_count a 0 in
  let? ccount :=
    (if 0 <? lenN a then let? m := mul (lenN pad) (lenN a - 1) in add ccount m
     else Ok (Some ccount)) in
  let? c := xmalloce N 4 alloc ccount in
  let! (c, i) := join_loop c 0 a pad in
  let! c := put N c i 0 in
  Ok (Some c).

End Conv.
