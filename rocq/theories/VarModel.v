(** Variables (variable.c): variable environments (scopes), assignment, attributes, the process
    environment, the path arrays and the built-ins that work on variables.

    Hash tables are association lists here; the order in which entries are visited is a parameter.
    The effects of locale variables (reset_locale), COLUMNS, LINES and TERM, and clearing the command
    hash table are not modelled. *)
From Coq Require Import Ascii String.
From Coq Require Import List NArith ZArith Bool Arith.
From Verif Require Import Common Locale NumModel.
Import ListNotations.
Open Scope res_scope.

(** variable.c:90-96 [vartype_T], 102-112 [variable_T]: a scalar that has no value is declared but
    not assigned *)
Inductive value := Scalar (v : option (list N)) | Array (l : list (list N)).
Inductive getter := GNone | GLineno | GRandom.
Record var := mkVar { v_val : value; v_export : bool; v_readonly : bool; v_nodelete : bool; v_getter : getter }.
Definition fresh : var := mkVar (Scalar None) false false false GNone.

(** variable.h:83-86 [path_T] *)
Inductive path := PA_PATH | PA_CDPATH | PA_LOADPATH.
Definition path_eqb (a b : path) : bool :=
  match a, b with PA_PATH, PA_PATH | PA_CDPATH, PA_CDPATH | PA_LOADPATH, PA_LOADPATH => true | _, _ => false end.
(** variable.c:61-65 [path_variables] *)
Definition path_name (p : path) : list N :=
  match p with PA_PATH => str "PATH" | PA_CDPATH => str "CDPATH" | PA_LOADPATH => str "YASH_LOADPATH" end.
Definition IFS := str "IFS".
Definition LINENO := str "LINENO".
Definition RANDOM := str "RANDOM".
Definition OPTIND := str "OPTIND".
Definition OPTARG := str "OPTARG".
(** variable.c:87: the positional parameters *)
Definition positional : list N := str "=".

(** variable.c:70-75 [environ_T]; the innermost environment comes first in [envs] *)
Record env := mkEnv { temp : bool; vars : list (list N * var); paths : path -> option (list (list N)) }.
(** current_env, the process environment, random_active, current_lineno (variable.c:187-192, 1022) and the
    allexport option *)
Record st := mkSt { envs : list env; osenv : list N -> option (list N); random_active : bool; lineno : N; allexport : bool }.

Definition with_envs (es : list env) (s : st) : st := mkSt es (osenv s) (random_active s) (lineno s) (allexport s).
Definition with_os (o : list N -> option (list N)) (s : st) : st := mkSt (envs s) o (random_active s) (lineno s) (allexport s).
Definition with_random (b : bool) (s : st) : st := mkSt (envs s) (osenv s) b (lineno s) (allexport s).
Definition with_lineno (n : N) (s : st) : st := mkSt (envs s) (osenv s) (random_active s) n (allexport s).
Definition with_allexport (b : bool) (s : st) : st := mkSt (envs s) (osenv s) (random_active s) (lineno s) b.

(** ** Tables *)
Fixpoint lookup (name : list N) (l : list (list N * var)) : option var :=
  match l with
  | [] => None
  | (k, v) :: l' => if list_N_eqb k name then Some v else lookup name l'
  end.
Definition hremove (name : list N) (l : list (list N * var)) : list (list N * var) :=
  filter (fun kv => negb (list_N_eqb (fst kv) name)) l.
Definition hset (name : list N) (v : var) (l : list (list N * var)) : list (list N * var) := (name, v) :: hremove name l.
Definition with_vars (l : list (list N * var)) (e : env) : env := mkEnv (temp e) l (paths e).
(** Changes the environment number [i] *)
Fixpoint at_env (i : nat) (f : env -> env) (es : list env) : list env :=
  match es, i with
  | [], _ => []
  | e :: es', O => f e :: es'
  | e :: es', S i' => e :: at_env i' f es'
  end.
(** Sets or removes a variable in the environment number [i] *)
Definition put (i : nat) (name : list N) (v : var) (s : st) : st := with_envs (at_env i (fun e => with_vars (hset name v (vars e)) e) (envs s)) s.
Definition del (i : nat) (name : list N) (s : st) : st := with_envs (at_env i (fun e => with_vars (hremove name (vars e)) e) (envs s)) s.
Definition get_at (i : nat) (name : list N) (s : st) : option var :=
  match nth_error (envs s) i with Some e => lookup name (vars e) | None => None end.

(** variable.c:386-394 [search_variable], with the number of the environment *)
Fixpoint search (name : list N) (es : list env) : option (nat * var) :=
  match es with
  | [] => None
  | e :: es' => match lookup name (vars e) with
                | Some v => Some (O, v)
                | None => match search name es' with Some (i, v) => Some (S i, v) | None => None end
                end
  end.
Definition search_variable (name : list N) (s : st) : option (nat * var) := search name (envs s).

(** Strings *)
Fixpoint join (pad : list N) (l : list (list N)) : list N :=
  match l with
  | [] => []
  | [x] => x
  | x :: l' => x ++ pad ++ join pad l'
  end.
Definition has_eq (name : list N) : bool := existsb (N.eqb (ch "=")) name.

Section Var.
Variable L : locale.
(** Conversion to a multibyte string in the current locale (strbuf.c:506-519 [malloc_wcsntombs]) *)
Variable mbs : list N -> option (list N).
(** The order in which ht_clear visits the entries of a table *)
Variable order : list (list N * var) -> list (list N * var).
(** Whether xwcstoul accepts the string as a number in any base (variable.c:1112) *)
Variable seed_ok : list N -> bool.

(** ** The process environment *)

(** variable.c:436-454 [get_exported_value] *)
Fixpoint get_exported_value (name : list N) (es : list env) : option (list N) :=
  match es with
  | [] => None
  | e :: es' =>
    match lookup name (vars e) with
    | Some v =>
      if v_export v then
        match v_val v with
        | Scalar None => get_exported_value name es'
        | Scalar (Some x) => mbs x
        | Array l => mbs (join (str ":") l)
        end
      else get_exported_value name es'
    | None => get_exported_value name es'
    end
  end.
(** setenv(3) and unsetenv(3) *)
Definition os_set (m : list N) (v : option (list N)) (o : list N -> option (list N)) : list N -> option (list N) :=
  match m with
  | [] => o (* EINVAL *)
  | _ => fun k => if list_N_eqb k m then v else o k
  end.
(** variable.c:413-431 [update_environment] *)
Definition update_environment (name : list N) (s : st) : st :=
  match mbs name with
  | None => s
  | Some m => with_os (os_set m (get_exported_value name (envs s)) (osenv s)) s
  end.

(** ** Paths *)

(** variable.c:1179-1190 [add_to_list_no_dup] *)
Definition add_no_dup (l : list (list N)) (x : option (list N)) : list (list N) :=
  match x with
  | None => l
  | Some x => if existsb (list_N_eqb x) l then l else l ++ [x]
  end.
(** variable.c:1140-1156 [decompose_paths], the pieces between colons *)
Fixpoint split_colon (acc : list N) (s : list N) : list (list N) :=
  match s with
  | [] => [acc]
  | c :: s' => if (c =? ch ":")%N then acc :: split_colon [] s' else split_colon (acc ++ [c]) s'
  end.
Definition path_list (l : list (list N)) : list (list N) := fold_left add_no_dup (map mbs l) [].
(** variable.c:1140-1156 [decompose_paths], 1161-1174 [convert_path_array] *)
Definition path_value (v : value) : option (list (list N)) :=
  match v with
  | Scalar None => None
  | Scalar (Some x) => Some (path_list (split_colon [] x))
  | Array l => Some (path_list l)
  end.
(** variable.c:1194-1215 [reset_path]; [stop]: the environment of the variable that has been set *)
Definition set_path (p : path) (e : env) : env :=
  mkEnv (temp e) (vars e)
        (fun q => if path_eqb q p then match lookup (path_name p) (vars e) with Some v => path_value (v_val v) | None => None end else paths e q).
Fixpoint reset_path (p : path) (stop : option nat) (es : list env) : list env :=
  match es with
  | [] => []
  | e :: es' => set_path p e :: match stop with Some O => es' | Some (S k) => reset_path p (Some k) es' | None => reset_path p None es' end
  end.
(** variable.c:1220-1226 [get_path_array] *)
Fixpoint get_path_array (p : path) (es : list env) : option (list (list N)) :=
  match es with
  | [] => None
  | e :: es' => match paths e p with Some l => Some l | None => get_path_array p es' end
  end.

(** ** Setting variables *)

Definition with_getter (g : getter) (v : var) : var := mkVar (v_val v) (v_export v) (v_readonly v) (v_nodelete v) g.
Definition with_val (x : value) (v : var) : var := mkVar x (v_export v) (v_readonly v) (v_nodelete v) (v_getter v).
(** variable.c:1080-1131 [variable_set]; [k]: the environment of the variable, or None *)
Definition variable_set (name : list N) (k : option nat) (s : st) : st :=
  let on p s := if list_N_eqb name (path_name p) then with_envs (reset_path p k (envs s)) s else s in
  let s := on PA_CDPATH (on PA_PATH (on PA_LOADPATH s)) in
  if list_N_eqb name RANDOM && random_active s then
    let s := with_random false s in
    match k with
    | Some i =>
      match get_at i name s with
      | Some v => match v_val v with
                  | Scalar (Some x) => if seed_ok x then with_random true (put i name (with_getter GRandom v) s) else s
                  | _ => s
                  end
      | None => s
      end
    | None => s
    end
  else s.
(** variable.c:232-243 [varkvfree_reexport] *)
Definition reexport (name : list N) (v : var) (s : st) : st :=
  let s := variable_set name None s in if v_export v then update_environment name s else s.

(** variable.c:516-536 [new_global]: the number of the environment that has the variable *)
Fixpoint new_global_from (name : list N) (i n : nat) (s : st) : res (nat * st) :=
  match n with
  | O => let k := length (envs s) - 1 in Ok (k, put k name fresh s)
  | S n' =>
    match nth_error (envs s) i with
    | None => UB
    | Some e =>
      match lookup name (vars e) with
      | Some v =>
        if temp e then if v_nodelete v then UB (* assertion *) else new_global_from name (S i) n' (reexport name v (del i name s))
        else Ok (i, s)
      | None => new_global_from name (S i) n' s
      end
    end
  end.
Definition new_global (name : list N) (s : st) : res (nat * st) := new_global_from name 0 (length (envs s)) s.
(** variable.c:542-558 [new_local] *)
Fixpoint new_local_from (name : list N) (i n : nat) (s : st) : res (nat * st) :=
  match n with
  | O => UB
  | S n' =>
    match nth_error (envs s) i with
    | None => UB
    | Some e =>
      if temp e then
        new_local_from name (S i) n' (match lookup name (vars e) with Some v => reexport name v (del i name s) | None => s end)
      else match lookup name (vars e) with
           | Some _ => Ok (i, s)
           | None => Ok (i, put i name fresh s)
           end
    end
  end.
Definition new_local (name : list N) (s : st) : res (nat * st) := new_local_from name 0 (length (envs s)) s.
(** variable.c:566-585 [new_temporary] *)
Definition new_temporary (name : list N) (s : st) : res (nat * st) :=
  match envs s with
  | [] => UB
  | e :: _ =>
    if negb (temp e) then UB (* assertion *)
    else
      let own := match lookup name (vars e) with Some _ => Ok (O, s) | None => Ok (O, put O name fresh s) end in
      match search_variable name s with
      | Some (i, v) => if v_readonly v then Ok (i, s) else own
      | None => own
      end
  end.
(** variable.h:94-96 [scope_T] *)
Inductive scope := GLOBAL | LOCAL | TEMP.
(** variable.c:596-613 [new_variable]; None: the variable is read-only *)
Definition new_variable (name : list N) (sc : scope) (s : st) : res (option (nat * var) * st) :=
  let! (k, s) := match sc with GLOBAL => new_global name s | LOCAL => new_local name s | TEMP => new_temporary name s end in
  match get_at k name s with
  | None => UB
  | Some v => if v_readonly v then Ok (None, s) else Ok (Some (k, v), s)
  end.
(** variable.c:624-646 [set_variable], 661-685 [set_array] *)
Definition set_value (name : list N) (x : value) (sc : scope) (export : bool) (s : st) : res (bool * st) :=
  let export := export || allexport s && negb (match name with c :: _ => (c =? ch "=")%N | [] => false end) in
  let! (r, s) := new_variable name sc s in
  match r with
  | None => Ok (false, s)
  | Some (k, v) =>
    let s := variable_set name (Some k) (put k name (mkVar x (v_export v || export) false (v_nodelete v) GNone) s) in
    Ok (true, if v_export v || export then update_environment name s else s)
  end.
Definition set_variable (name v : list N) (sc : scope) (export : bool) (s : st) : res (bool * st) := set_value name (Scalar (Some v)) sc export s.
Definition set_array (name : list N) (l : list (list N)) (sc : scope) (export : bool) (s : st) : res (bool * st) := set_value name (Array l) sc export s.
(** variable.c:723-727 [set_positional_parameters] *)
Definition set_positional_parameters (l : list (list N)) (s : st) : res st :=
  let! (_, s) := set_array positional l LOCAL false s in Ok s.

(** variable.c:398-409 [search_array_and_check_if_changeable] *)
Definition changeable_array (name : list N) (s : st) : option (nat * var * list (list N)) :=
  match search_variable name s with
  | Some (k, v) => match v_val v with Array l => if v_readonly v then None else Some (k, v, l) | Scalar _ => None end
  | None => None
  end.
(** variable.c:693-715 [set_array_element], the index counted from zero *)
Definition set_array_element (name : list N) (index : nat) (x : list N) (s : st) : bool * st :=
  match changeable_array name s with
  | None => (false, s)
  | Some (k, v, l) =>
    if length l <=? index then (false, s)
    else let s := put k name (with_val (Array (upd l index x)) v) s in
         (true, if v_export v then update_environment name s else s)
  end.

(** variable.c:739-774 [do_assignments], after the expansion of the values *)
Fixpoint do_assignments (l : list (list N * value)) (sc : scope) (export : bool) (s : st) : res (bool * st) :=
  match l with
  | [] => Ok (true, s)
  | (name, x) :: l' =>
    let! (ok, s) := set_value name x sc export s in
    if ok : bool then do_assignments l' sc export s else Ok (false, s)
  end.

(** ** Environments *)

(** variable.c:991-1001 [open_new_environment] *)
Definition open_new_environment (tmp : bool) (s : st) : st := with_envs (mkEnv tmp [] (fun _ => None) :: envs s) s.
(** variable.c:1005-1016 [close_current_environment] *)
Definition close_current_environment (s : st) : res st :=
  match envs s with
  | e :: ((_ :: _) as es) => Ok (fold_left (fun s kv => reexport (fst kv) (snd kv) s) (order (vars e)) (with_envs es s))
  | _ => UB (* assertion *)
  end.

(** ** Reading variables *)

(** variable.c:1039-1047 [lineno_getter], 1050-1056 [random_getter]: [rnd], the random number *)
Definition run_getter (name : list N) (k : nat) (v : var) (rnd : N) (s : st) : res (var * st) :=
  let give n := match v_val v with
                | Array _ => UB (* assertion *)
                | Scalar _ => let v := with_val (Scalar (Some (dec_of_N n))) v in
                              let s := put k name v s in
                              Ok (v, if v_export v then update_environment (match v_getter v with GLineno => LINENO | _ => RANDOM end) s else s)
                end in
  match v_getter v with
  | GNone => Ok (v, s)
  | GLineno => give (lineno s)
  | GRandom => give rnd
  end.
(** variable.c:1025-1036 [update_lineno] *)
Definition update_lineno (n : N) (s : st) : res st :=
  let s := with_lineno n s in
  match search_variable LINENO s with
  | Some (k, v) => match v_getter v, v_export v with GLineno, true => let! (_, s) := run_getter LINENO k v 0 s in Ok s | _, _ => Ok s end
  | None => Ok s
  end.
(** variable.c:809-821 [getvar] *)
Definition getvar (name : list N) (rnd : N) (s : st) : res (option (list N) * st) :=
  match search_variable name s with
  | Some (k, v) =>
    match v_val v with
    | Scalar _ => let! (v, s) := run_getter name k v rnd s in
                  Ok (match v_val v with Scalar x => x | Array _ => None end, s)
    | Array _ => Ok (None, s)
    end
  | None => Ok (None, s)
  end.
(** variable.c:839-932 [get_variable].  The values of other special parameters are not modelled. *)
Inductive gv := NotFound | Single (x : list N) | Many (l : list (list N)) | Concat (l : list (list N)) | Other.
Definition positional_values (s : st) : res (list (list N)) :=
  match search_variable positional s with
  | Some (_, v) => match v_val v with Array l => Ok l | Scalar _ => UB end
  | None => UB (* assertion *)
  end.
Definition UINTMAX : Z := 18446744073709551615.
Definition get_variable (name : list N) (rnd : N) (s : st) : res (gv * st) :=
  let one c := list_N_eqb name [c] in
  if list_N_eqb name [] then Ok (NotFound, s)
  else if one (ch "*") then let! l := positional_values s in Ok (Concat l, s)
  else if one (ch "@") then let! l := positional_values s in Ok (Many l, s)
  else if one (ch "#") then let! l := positional_values s in Ok (Single (dec_of_N (N.of_nat (length l))), s)
  else if one (ch "?") || one (ch "-") || one (ch "$") || one (ch "!") || one (ch "0") then Ok (Other, s)
  else if (match name with c :: _ => iswdigit c | [] => false end) then
    match wcstol L 10 name with
    | (Some v, []) =>
      if (v <=? UINTMAX)%Z then
        let! l := positional_values s in
        if (v =? 0)%Z || (Z.of_nat (length l) <? v)%Z then Ok (NotFound, s)
        else let! x := rget l (Z.to_nat (v - 1)) in Ok (Single x, s)
      else Ok (NotFound, s)
    | _ => Ok (NotFound, s)
    end
  else
    match search_variable name s with
    | Some (k, v) =>
      let! (v, s) := run_getter name k v rnd s in
      Ok (match v_val v with Scalar (Some x) => Single x | Scalar None => NotFound | Array l => Many l end, s)
    | None => Ok (NotFound, s)
    end.

(** variable.c:951-985 [make_array_of_all_variables], [get_all_variables_rec]: all variables, [global]: also those of outer environments *)
Fixpoint hset_all (new old : list (list N * var)) : list (list N * var) :=
  match new with
  | [] => old
  | (k, v) :: new' => hset k v (hset_all new' old)
  end.
Fixpoint get_all_variables_rec (es : list env) (global : bool) : list (list N * var) :=
  match es with
  | [] => []
  | e :: es' =>
    let outer := match es' with [] => [] | _ => if global || temp e then get_all_variables_rec es' global else [] end in
    hset_all (vars e) outer
  end.
Definition make_array_of_all_variables (global : bool) (s : st) : list (list N * var) :=
  match envs s with
  | [] => []
  | e :: es' => match es' with
                | [] => vars e
                | _ => if negb global && temp e then vars e else get_all_variables_rec (envs s) global
                end
  end.

(** ** Built-ins *)

(** variable.c:1651-1795 [typeset_builtin] (lines 1737-1766): one operand of typeset, export, local or readonly that is not just printed; [global],
    [readonly], [export], [unexport] as the name of the built-in and its options give them *)
Definition typeset_operand (global readonly export unexport : bool) (name : list N) (x : option (list N)) (s : st) : res (bool * st) :=
  let! (k, s) := if global then new_global name s else new_local name s in
  match get_at k name s with
  | None => UB
  | Some v =>
    let error := match x with Some _ => v_readonly v | None => false end in
    let w := match x with Some x => if v_readonly v then v else mkVar (Scalar (Some x)) (v_export v) (v_readonly v) (v_nodelete v) GNone | None => v end in
    let w := if readonly then mkVar (v_val w) (v_export w) true true (v_getter w) else w in
    let w := mkVar (v_val w) (if export then true else if unexport then false else v_export w) (v_readonly w) (v_nodelete w) (v_getter w) in
    let s := variable_set name (Some k) (put k name w s) in
    Ok (negb error,
        if negb (Bool.eqb (v_export v) (v_export w)) || (match x with Some _ => true | None => false end) && v_export w
        then update_environment name s else s)
  end.
(** The operand is cut at the first equal sign. *)
Fixpoint cut_eq (acc : list N) (s : list N) : list N * option (list N) :=
  match s with
  | [] => (acc, None)
  | c :: s' => if (c =? ch "=")%N then (acc, Some s') else cut_eq (acc ++ [c]) s'
  end.
Definition typeset (global readonly export unexport : bool) (arg : list N) (s : st) : res (bool * st) :=
  let '(name, x) := cut_eq [] arg in typeset_operand global readonly export unexport name x s.

(** variable.c:2361-2382 [unset_variable]: whether successful *)
Fixpoint unset_from (name : list N) (i n : nat) (s : st) : bool * st :=
  match n with
  | O => (true, s)
  | S n' =>
    match get_at i name s with
    | None => unset_from name (S i) n' s
    | Some v => if v_nodelete v then (false, s)
                else let s := variable_set name None (del i name s) in (true, if v_export v then update_environment name s else s)
    end
  end.
Definition unset_variable (name : list N) (s : st) : bool * st := unset_from name 0 (length (envs s)) s.
(** unset with an operand (variable.c:2302-2337 [unset_builtin]) *)
Definition unset (name : list N) (s : st) : bool * st := if has_eq name then (true, s) else unset_variable name s.

(** variable.c:2132-2180 [array_remove_elements] *)
Fixpoint parse_indices (l : list (list N)) (count : Z) : option (list Z) :=
  match l with
  | [] => Some []
  | x :: l' =>
    match xwcstol L 10 x with
    | None => None
    | Some i => match parse_indices l' count with
                | None => None
                | Some r => Some ((if (0 <=? i)%Z then i - 1 else i + count)%Z :: r)
                end
    end
  end.
(** qsort *)
Fixpoint insert_desc (x : Z) (l : list Z) : list Z :=
  match l with
  | [] => [x]
  | y :: l' => if (y <=? x)%Z then x :: l else y :: insert_desc x l'
  end.
Definition sort_desc (l : list Z) : list Z := fold_right insert_desc [] l.
Definition remove_at (i : nat) (l : list (list N)) : list (list N) := firstn i l ++ skipn (S i) l.
Fixpoint remove_indices (idx : list Z) (last : Z) (l : list (list N)) : list (list N) :=
  match idx with
  | [] => l
  | i :: idx' =>
    if (i =? last)%Z then remove_indices idx' last l
    else remove_indices idx' i (if (0 <=? i)%Z && (i <? Z.of_nat (length l))%Z then remove_at (Z.to_nat i) l else l)
  end.
Definition array_remove_elements (idx : list (list N)) (l : list (list N)) : option (list (list N)) :=
  match parse_indices idx (Z.of_nat (length l)) with
  | None => None
  | Some idx => Some (remove_indices (sort_desc idx) LONG_MIN l)
  end.
(** variable.c:2195-2232 [array_insert_elements] *)
Definition array_insert_elements (index : list N) (new : list (list N)) (l : list (list N)) : option (list (list N)) :=
  match xwcstol L 10 index with
  | None => None
  | Some i =>
    let i := if (i <? 0)%Z then Z.max 0 (i + (Z.of_nat (length l) + 1)) else i in
    let u := if (i <? Z.of_nat (length l))%Z then Z.to_nat i else length l in
    Some (firstn u l ++ new ++ skipn u l)
  end.
(** variable.c:2238-2272 [array_set_element] *)
Definition array_set_element (index x : list N) (l : list (list N)) : option (list (list N)) :=
  match xwcstol L 10 index with
  | None => None
  | Some i =>
    if (i <? 0)%Z then let i := (i + Z.of_nat (length l))%Z in if (i <? 0)%Z then None else Some (upd l (Z.to_nat i) x)
    else if (0 <? i)%Z then if (i - 1 <? Z.of_nat (length l))%Z then Some (upd l (Z.to_nat i - 1) x) else None
    else None
  end.
(** variable.c:2028-2101 [array_builtin] with operands *)
Inductive arrayop := ASet (l : list (list N)) | ADelete (idx : list (list N)) | AInsert (index : list N) (l : list (list N)) | AElement (index x : list N).
Definition array_builtin (name : list N) (o : arrayop) (s : st) : res (bool * st) :=
  if has_eq name then Ok (false, s)
  else
    let change f : res (bool * st) :=
      match changeable_array name s with
      | None => Ok (false, s)
      | Some (k, v, l) => match f l with
                          | None => Ok (false, s)
                          | Some l' => Ok (true, put k name (with_val (Array l') v) s)
                          end
      end in
    match o with
    | ASet l => set_array name l GLOBAL false s
    | ADelete idx => change (array_remove_elements idx)
    | AInsert index l => change (array_insert_elements index l)
    | AElement index x => change (array_set_element index x)
    end.
(** variable.c:2403-2491 [shift_builtin], after the count has been parsed; [name]: the operand of -A *)
Definition shift_builtin (name : option (list N)) (count : Z) (s : st) : res (bool * st) :=
  let! found :=
    match name with
    | None => match search_variable positional s with
              | Some (k, v) => match v_val v with Array l => Ok (Some (positional, k, v, l)) | Scalar _ => UB end
              | None => UB (* assertion *)
              end
    | Some name =>
      Ok (if has_eq name then None
          else match search_variable name s with
               | Some (k, v) => match v_val v with Array l => Some (name, k, v, l) | Scalar _ => None end
               | None => None
               end)
    end in
  match found with
  | None => Ok (false, s)
  | Some (name, k, v, l) =>
    if (Z.of_nat (length l) <? Z.abs count)%Z then Ok (false, s)
    else
      let n := Z.to_nat (Z.abs count) in
      let from := if (0 <=? count)%Z then O else length l - n in
      Ok (true, put k name (with_val (Array (firstn from l ++ skipn (from + n) l)) v) s)
  end.

(** ** What commands do to variables *)

(** The values that the commands assign are the results of expansions, so they are arbitrary here. *)
Inductive op :=
| OAssign (l : list (list N * value)) (export : bool) (* assignments without a command or with a special built-in *)
| OSet (name : list N) (x : value) (local : bool) (* for, read, getopts, cd, arithmetic, ${x:=y} *)
| OElement (name : list N) (index : nat) (x : list N) (* ${x[i]:=y} *)
| OTypeset (global readonly export unexport : bool) (arg : list N)
| OUnset (name : list N)
| OArray (name : list N) (o : arrayop)
| OShift (name : option (list N)) (count : Z)
| OParams (l : list (list N)) (* set *)
| OGet (name : list N) (rnd : N)
| OLineno (n : N)
| OAllexport (b : bool)
| OTemp (l : list (list N * value)) (body : list op) (* assignments with another command (exec.c:738-817 [exec_simple_command_with_words]) *)
| OCall (args : list (list N)) (body : list op). (* exec.c:1171-1194 [exec_function_body], also the dot built-in with operands *)
Fixpoint run (o : op) (s : st) : res st :=
  let run_all := fix run_all (l : list op) (s : st) : res st :=
    match l with [] => Ok s | o :: l' => let! s := run o s in run_all l' s end in
  let drop {A} (r : res (A * st)) : res st := let! (_, s) := r in Ok s in
  match o with
  | OAssign l export => drop (do_assignments l GLOBAL export s)
  | OSet name x local => drop (set_value name x (if local then LOCAL else GLOBAL) false s)
  | OElement name index x => Ok (snd (set_array_element name index x s))
  | OTypeset global readonly export unexport arg => drop (typeset global readonly export unexport arg s)
  | OUnset name => Ok (snd (unset name s))
  | OArray name o => drop (array_builtin name o s)
  | OShift name count => drop (shift_builtin name count s)
  | OParams l => set_positional_parameters l s
  | OGet name rnd => drop (get_variable name rnd s)
  | OLineno n => update_lineno n s
  | OAllexport b => Ok (with_allexport b s)
  | OTemp l body =>
    let! (ok, s) := do_assignments l TEMP true (open_new_environment true s) in
    let! s := if ok : bool then run_all body s else Ok s in
    close_current_environment s
  | OCall args body =>
    let! s := set_positional_parameters args (open_new_environment false s) in
    let! s := run_all body s in
    close_current_environment s
  end.
Fixpoint run_all (l : list op) (s : st) : res st :=
  match l with [] => Ok s | o :: l' => let! s := run o s in run_all l' s end.

(** ** Start *)

(** variable.c:246-279 [init_environment] with the variables [l] of the process environment, then the
    positional parameters (yash.c:228) *)
Definition init_environment (l : list (list N * list N)) (o : list N -> option (list N)) (args : list (list N)) : res st :=
  let e := mkEnv false (map (fun kv => (fst kv, mkVar (Scalar (Some (snd kv))) true false false GNone)) l) (fun _ => None) in
  set_positional_parameters args (mkSt [set_path PA_PATH (set_path PA_CDPATH (set_path PA_LOADPATH e))] o false 0 false).
(** LINENO and RANDOM in variable.c:283-351 [init_variables]; the other variables are set like any other *)
Definition init_lineno (s : st) : res st :=
  let! (r, s) := new_variable LINENO GLOBAL s in
  match r with
  | None => UB (* assertion *)
  | Some (k, v) => Ok (put k LINENO (mkVar (Scalar None) (v_export v) false false GLineno) s)
  end.
Definition init_random (s : st) : res st :=
  let! (r, s) := new_variable RANDOM GLOBAL s in
  match r with
  | None => UB (* assertion *)
  | Some (k, v) => Ok (with_random true (put k RANDOM (mkVar (Scalar None) false false false GRandom) s))
  end.
End Var.
