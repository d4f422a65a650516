(** Property theorems: tuples, arrays, collections, Option, Flag, append and rest fields,
    quoted values, Punctuated, SpannedValue.  Every proof is one [exact]; vocabulary in
    SpecColl.v, SpecWith.v and SpecStruct.v, inputs of the examples in ExColl.v.

    [fine d]: an implementation that reads no further than its item; C53 shows it for every
    type of the library and every derived type.  [accepts p seg v]: whatever follows the item
    [seg], [p] reads all of it and gives [v].  [hold inputs segs]: the streams are the items
    [segs] separated by commas, each stream with an optional trailing comma.  [whole p l v]:
    [p] gives [v] and leaves nothing but a trailing comma in each stream. *)
From Verif Require Import ExColl.

(** ** C13 Tuple structs are positional with exact arity *)
(** [positional]: the items are values of the parsed fields in order, the last ones may be
    left out; [tuple_values]: a field that is left out has its default *)
Theorem C13_tuple_struct : forall (env : Env) V (s : sdef V),
  tuple_struct s -> fine_items s -> Forall uniform_missing (s_raw s) -> s_is_transparent s = false ->
  forall m st ws, existsb is_parsable (s_raw s) = true ->
  fst (d_item (struct_dict s) m st) = Ok ws <->
  exists segs os vs, group_of Paren st segs /\ positional (s_raw s) segs os /\
    tuple_values s TMeta os vs /\ chained (s_and_thens s) vs ws.
Proof. exact @l_tstruct_group. Qed.
Print Assumptions C13_tuple_struct.

(** without parsed fields: `()` or `(,)` *)
Theorem C13_tuple_struct_empty : forall (env : Env) V (s : sdef V),
  tuple_struct s -> fine_items s -> Forall uniform_missing (s_raw s) -> s_is_transparent s = false ->
  forall m st ws, existsb is_parsable (s_raw s) = false ->
  fst (d_item (struct_dict s) m st) = Ok ws <->
  exists vs, empty_group Paren st /\
    tuple_values s TMeta (map (fun _ => None) (s_raw s)) vs /\ chained (s_and_thens s) vs ws.
Proof. exact @l_tstruct_none. Qed.
Print Assumptions C13_tuple_struct_empty.

Theorem C13_too_many : forall (env : Env) V (s : sdef V),
  tuple_struct s -> fine_items s -> Forall uniform_missing (s_raw s) -> s_is_transparent s = false ->
  forall m st segs, group_of Paren st segs ->
  length (filter is_parsable (s_raw s)) < length segs -> existsb is_parsable (s_raw s) = true ->
  exists e, fst (d_item (struct_dict s) m st) = Err e.
Proof. exact @l_tstruct_many. Qed.
Print Assumptions C13_too_many.

Theorem C13_too_few : forall (env : Env) V (s : sdef V),
  tuple_struct s -> fine_items s -> Forall uniform_missing (s_raw s) -> s_is_transparent s = false ->
  forall m st segs i f d, group_of Paren st segs ->
  nth_error (s_raw s) i = Some f -> f_kind f = KItem d -> is_parsable f = true ->
  length segs <= length (filter is_parsable (firstn i (s_raw s))) ->
  f_default f = None -> s_default s = None -> no_missing_value d ->
  exists e, fst (d_item (struct_dict s) m st) = Err e.
Proof. exact @l_tstruct_few. Qed.
Print Assumptions C13_too_few.

(** over several streams: attributes, `name(..)`, flattened *)
Theorem C13_tuple_struct_streams : forall (env : Env) V (s : sdef V) tm p inputs segs ws,
  tuple_run s tm p -> tuple_struct s -> fine_items s -> Forall uniform_missing (s_raw s) ->
  hold inputs segs -> ~ In [] segs ->
  whole p inputs ws <->
  exists os vs, positional (s_raw s) segs os /\ tuple_values s tm os vs /\ chained (s_and_thens s) vs ws.
Proof. exact @l_tstruct_streams. Qed.
Print Assumptions C13_tuple_struct_streams.

Theorem C13_tuple : forall (env : Env) A (ds : list (dict A)) m s vs,
  Forall fine ds -> ds <> [] ->
  fst (d_item (tuple_dict ds) m s) = Ok vs <->
  exists segs, group_of Paren s segs /\ each_accepts ds segs vs.
Proof. exact @l_tuple_group. Qed.
Print Assumptions C13_tuple.

Theorem C13_tuple_arity : forall (env : Env) A (ds : list (dict A)) m s segs,
  Forall fine ds -> ds <> [] -> group_of Paren s segs -> length segs <> length ds ->
  exists e, fst (d_item (tuple_dict ds) m s) = Err e.
Proof. exact @l_tuple_arity. Qed.
Print Assumptions C13_tuple_arity.

Theorem C13_tuple_streams : forall (env : Env) A (ds : list (dict A)) p inputs segs vs,
  Forall fine ds -> tuple_parser ds p -> hold inputs segs -> ~ In [] segs ->
  whole p inputs vs <-> each_accepts ds segs vs.
Proof. exact @l_tuple_streams. Qed.
Print Assumptions C13_tuple_streams.

Example C13_ex :
  tuple_struct ex_tuple /\ fine_items ex_tuple /\ Forall uniform_missing (s_raw ex_tuple) /\
  s_is_transparent ex_tuple = false /\ existsb is_parsable (s_raw ex_tuple) = true /\
  (exists a b, group_of Paren ex_tuple_in [a; b]) /\
  fst (d_item (struct_dict ex_tuple) Unnamed ex_tuple_in) = Ok [VI 1; VT "x"] /\
  fst (d_item (struct_dict ex_tuple) Unnamed (root_stream (tk "(1)"))) = Ok [VI 1; VT "d"] /\
  is_ok (fst (d_item (struct_dict ex_tuple) Unnamed (root_stream (tk "()")))) = false /\
  is_ok (fst (d_item (struct_dict ex_tuple) Unnamed (root_stream (tk "(1, ""x"", 2)")))) = false.
Proof. exact ex_tuple_ok. Qed.
Example C13_ex_tuple : Forall fine [i32; string_] /\
  fst (d_item (tuple_dict [i32; string_]) Unnamed (root_stream (tk "(1, ""x"",)"))) = Ok [VI 1; VT "x"].
Proof. split; [exact (Forall_cons _ fine_i32 (Forall_cons _ fine_str (Forall_nil _)))|]. vm_compute. reflexivity. Qed.

(** ** C14 Fixed-size arrays have exactly N elements *)
Theorem C14_array : forall (env : Env) A N (d : dict A) m s vs, fine d -> N <> 0 ->
  fst (d_item (array_dict N d) m s) = Ok vs <->
  exists segs, group_of Bracket s segs /\ length segs = N /\ Forall2 (accepts (d_item d Unnamed)) segs vs.
Proof. exact @l_array_group. Qed.
Print Assumptions C14_array.

(** `[T; 0]`: `[]`, and also `[,]` *)
Theorem C14_array_zero : forall (env : Env) A (d : dict A) m s vs, fine d ->
  fst (d_item (array_dict 0 d) m s) = Ok vs <-> vs = [] /\ empty_group Bracket s.
Proof. exact @l_array_zero. Qed.
Print Assumptions C14_array_zero.

(** neither panic nor endless loop *)
Theorem C14_array_returns : forall (env : Env) A N (d : dict A) m s p inputs,
  fine d -> array_parser N d p ->
  returns (fst (d_item (array_dict N d) m s)) /\ returns (fst (p inputs)).
Proof. exact @l_array_returns. Qed.
Print Assumptions C14_array_returns.

Theorem C14_array_streams : forall (env : Env) A N (d : dict A) p inputs segs vs,
  fine d -> array_parser N d p -> hold inputs segs -> ~ In [] segs ->
  whole p inputs vs <-> length segs = N /\ Forall2 (accepts (d_item d Unnamed)) segs vs.
Proof. exact @l_array_streams. Qed.
Print Assumptions C14_array_streams.

Example C14_ex :
  fine i32 /\
  fst (d_item (array_dict 2 i32) Unnamed (root_stream (tk "[1, 2]"))) = Ok [VI 1; VI 2] /\
  is_ok (fst (d_item (array_dict 2 i32) Unnamed (root_stream (tk "[1]")))) = false /\
  is_ok (fst (d_item (array_dict 2 i32) Unnamed (root_stream (tk "[1, 2, 3]")))) = false.
Proof. split; [exact fine_i32|]. vm_compute. auto. Qed.

(** ** C15 Vec keeps every element in order *)
Theorem C15_vec : forall (env : Env) A (d : dict A) p inputs segs vs,
  fine d -> vec_parser d p -> hold inputs segs ->
  fst (p inputs) = Ok vs <-> Forall2 (accepts (d_item d Unnamed)) segs vs.
Proof. exact @l_vec. Qed.
Print Assumptions C15_vec.

Theorem C15_vec_brackets : forall (env : Env) A (d : dict A) m s vs, fine d ->
  fst (d_item (vec_dict d) m s) = Ok vs <->
  exists segs, group_of Bracket s segs /\ Forall2 (accepts (d_item d Unnamed)) segs vs.
Proof. exact @l_vec_group. Qed.
Print Assumptions C15_vec_brackets.

Example C15_ex : vec_parser i32 (d_inline (vec_dict i32) Unnamed) /\
  hold [root_stream (tk "1, 2,")] (items (tk "1, 2,")) /\ length (items (tk "1, 2,")) = 2 /\
  fst (d_inline (vec_dict i32) Unnamed [root_stream (tk "1, 2,"); root_stream (tk "3")]) = Ok [VI 1; VI 2; VI 3].
Proof. split; [exact (VP_inline _ _)|]. split; [exact (hold_tk _)|]. vm_compute. auto. Qed.

(** ** C16 Collections report every bad element *)
(** [clean]: an element is accepted as a whole or rejected.  [failures]: the errors of the
    rejected elements in order.  [outcome]: an error if there are any, else the values.
    Missing: elements that are only accepted in part, see the next theorem. *)
Theorem C16_errors_partial : forall (env : Env) A (d : dict A) p inputs,
  fine d -> vec_parser d p -> Forall (clean (d_item d Unnamed)) (elems inputs) ->
  fst (p inputs) =
  outcome (failures (d_item d Unnamed) (elems inputs)) (values (d_item d Unnamed) (elems inputs)).
Proof. exact @l_vec_errors. Qed.
Print Assumptions C16_errors_partial.

(** `true, 1 2`: the error of the first element is lost *)
Theorem C16_errors_lost_refuted : exists (env : Env) A (d : dict A) p inputs x e e',
  fine d /\ vec_parser d p /\ In x (elems inputs) /\
  fst (d_item d Unnamed (at_elem x)) = Err e /\ fst (p inputs) = Err e' /\
  forall m, In m (map e_msg (errs_of e')) -> ~ In m (map e_msg (errs_of e)).
Proof. exact ex_vec_lost. Qed.
Print Assumptions C16_errors_lost_refuted.

Example C16_ex :
  map e_msg (failures (d_item i32 Unnamed) (elems [root_stream (tk "true, 1, ""x""")]))
  = ["expected integer literal"; "expected integer literal"] /\
  Forall (clean (d_item i32 Unnamed)) (elems [root_stream (tk "true, 1, ""x""")]).
Proof.
  split; [vm_compute; reflexivity|].
  let x := eval vm_compute in (elems [root_stream (tk "true, 1, ""x""")]) in
  change (elems [root_stream (tk "true, 1, ""x""")]) with x.
  repeat (apply Forall_cons; [intros v H; vm_compute in H; try discriminate H; vm_compute; reflexivity|]). apply Forall_nil.
Qed.

(** ** C17 Sets reject duplicates, and keep exactly the given keys *)
Theorem C17_set : forall (env : Env) A eqb (d : dict A) p inputs segs vs,
  fine d -> set_parser eqb d p -> hold inputs segs ->
  fst (p inputs) = Ok vs <-> Forall2 (accepts (d_item d Unnamed)) segs vs /\ all_different eqb vs.
Proof. exact @l_set. Qed.
Print Assumptions C17_set.

Theorem C17_set_brackets : forall (env : Env) A eqb (d : dict A) m s vs, fine d ->
  fst (d_item (set_dict eqb d) m s) = Ok vs <->
  exists segs, group_of Bracket s segs /\ Forall2 (accepts (d_item d Unnamed)) segs vs /\ all_different eqb vs.
Proof. exact @l_set_group. Qed.
Print Assumptions C17_set_brackets.

(** one `Duplicate key` for each repeated element ([set_errors]).  Missing: elements that are
    only accepted in part *)
Theorem C17_set_errors_partial : forall (env : Env) A eqb (d : dict A) p inputs,
  fine d -> set_parser eqb d p -> Forall (clean (d_item d Unnamed)) (elems inputs) ->
  fst (p inputs) = outcome (set_errors eqb (d_item d Unnamed) [] (elems inputs))
                           (once eqb [] (values (d_item d Unnamed) (elems inputs))).
Proof. exact @l_set_errors. Qed.
Print Assumptions C17_set_errors_partial.

Theorem C17_errors_lost_refuted : exists (env : Env) A eqb (d : dict A) p inputs x e e',
  fine d /\ set_parser eqb d p /\ In x (elems inputs) /\
  fst (d_item d Unnamed (at_elem x)) = Err e /\ fst (p inputs) = Err e' /\
  forall m, In m (map e_msg (errs_of e')) -> ~ In m (map e_msg (errs_of e)).
Proof. exact ex_set_lost. Qed.
Print Assumptions C17_errors_lost_refuted.

Example C17_ex :
  fst (d_inline (set_dict veq string_) Unnamed [root_stream (tk """a"", ""b""")]) = Ok [VT "a"; VT "b"] /\
  map e_msg (set_errors veq (d_item string_ Unnamed) [] (elems [root_stream (tk """a"", ""b"", ""a"", 1, ""a""")]))
  = ["Duplicate key"; "expected string literal"; "Duplicate key"].
Proof. vm_compute. auto. Qed.

(** ** C18 Maps reject duplicate keys and keep every pair *)
(** [map_entry]: the key, then `= value`, `(value)` or nothing.  [nonempty_keys]: the key type
    does not accept an empty item. *)
Theorem C18_map : forall (env : Env) K A eqb kstr (dk : dict K) (dv : dict A) p inputs segs kvs,
  fine dk -> fine dv -> nonempty_keys dk -> map_parser eqb kstr dk dv p -> hold inputs segs ->
  fst (p inputs) = Ok kvs <->
  Forall2 (accepts (map_entry kstr dk dv)) segs kvs /\ all_different eqb (map fst kvs).
Proof. exact @l_map. Qed.
Print Assumptions C18_map.

Theorem C18_map_braces : forall (env : Env) K A eqb kstr (dk : dict K) (dv : dict A) m s kvs,
  fine dk -> fine dv -> nonempty_keys dk ->
  fst (d_item (map_dict eqb kstr dk dv) m s) = Ok kvs <->
  exists segs, group_of Brace s segs /\
    Forall2 (accepts (map_entry kstr dk dv)) segs kvs /\ all_different eqb (map fst kvs).
Proof. exact @l_map_group. Qed.
Print Assumptions C18_map_braces.

(** one `Duplicate key` at the key for each repeated key ([map_errors]).  Missing: entries
    that are only accepted in part, and keys that are not accepted *)
Theorem C18_map_errors_partial : forall (env : Env) K A eqb kstr (dk : dict K) (dv : dict A) p inputs,
  fine dk -> fine dv -> map_parser eqb kstr dk dv p ->
  Forall (clean (map_entry kstr dk dv)) (elems inputs) ->
  Forall (fun x => exists k, fst (d_item dk Unnamed (at_elem x)) = Ok k) (elems inputs) ->
  fst (p inputs) = outcome (map_errors eqb kstr dk dv [] (elems inputs))
                           (values (map_entry kstr dk dv) (elems inputs)).
Proof. exact @l_map_errors. Qed.
Print Assumptions C18_map_errors_partial.

(** `"a" = true, 1 = 2` for a map from String to i32: the bad key hides the bad value *)
Theorem C18_errors_lost_refuted : exists (env : Env) K A eqb kstr (dk : dict K) (dv : dict A) p inputs x e e',
  fine dk /\ fine dv /\ map_parser eqb kstr dk dv p /\ In x (elems inputs) /\
  fst (map_entry kstr dk dv (at_elem x)) = Err e /\ fst (p inputs) = Err e' /\
  forall m, In m (map e_msg (errs_of e')) -> ~ In m (map e_msg (errs_of e)).
Proof. exact ex_map_lost. Qed.
Print Assumptions C18_errors_lost_refuted.

Example C18_ex : fine path_ /\ nonempty_keys path_ /\ nonempty_keys string_ /\
  fst (d_item (map_dict veq vstr path_ i32) Unnamed (root_stream (tk "{ a = 1, b::c(2), }")))
  = Ok [(VT "a", VI 1); (VT "b::c", VI 2)] /\
  map e_msg (map_errors veq vstr path_ i32 [] (elems [root_stream (tk "a = 1, a = 2, b = true")]))
  = ["Duplicate key"; "expected integer literal"].
Proof. refine (conj fine_path_ (conj path_keys (conj str_keys _))). vm_compute. auto. Qed.

(** ** C19 Option semantics *)
Theorem C19_field : forall (env : Env) V A (s : sdef V) tm prefix v sp inputs ws i f
    (g : option A -> V) (d : dict A),
  parse_run s tm prefix v sp inputs (Ok ws) -> named_struct s -> distinct_names s ->
  Forall local_field (s_raw s) -> nth_error (s_raw s) i = Some f -> pitem f = true ->
  f_kind f = KItem (dict_map g (option_dict d)) -> f_default f = None -> s_default s = None ->
  exists vs x, chained (s_and_thens s) vs ws /\ nth_error vs i = Some x /\
    (~ has_key prefix f inputs -> transformed (f_transforms f) (g None) x) /\
    (has_key prefix f inputs -> exists u, transformed (f_transforms f) (g (Some u)) x).
Proof. exact @l_option_field. Qed.
Print Assumptions C19_field.

(** `name = value` and `name`: exactly what T parses, and T's errors *)
Theorem C19_named : forall (env : Env) A (d : dict A) n sp s, standard d ->
  (forall ts gsp rest, toks s <> TGroup Paren ts gsp :: rest) ->
  fst (d_named (option_dict d) n sp s) = rmap Some (fst (d_named d n sp s)) /\
  snd (d_named (option_dict d) n sp s) = snd (d_named d n sp s).
Proof. exact @l_option_unparenthesised. Qed.
Print Assumptions C19_named.

Theorem C19_never_none : forall (env : Env) A (d : dict A) n sp s o,
  fst (d_named (option_dict d) n sp s) = Ok o -> exists v, o = Some v.
Proof. exact @l_option_some. Qed.
Print Assumptions C19_never_none.

(** `name(value)`: only for types that do not override parse_meta_item_inline *)
Theorem C19_named_paren_partial : forall (env : Env) A (d : dict A) n sp s, standard d ->
  (forall m l, d_inline d m l = def_inline (d_item d) m l) ->
  fst (d_named (option_dict d) n sp s) = rmap Some (fst (d_named d n sp s)) /\
  snd (d_named (option_dict d) n sp s) = snd (d_named d n sp s).
Proof. exact @l_option_named. Qed.
Print Assumptions C19_named_paren_partial.

(** `name(1, 2)` is a Vec<i32> but not an Option<Vec<i32>> *)
Theorem C19_named_paren_refuted : exists (env : Env) A (d : dict A) n sp s v e,
  fine d /\ fst (d_named d n sp s) = Ok v /\ fst (d_named (option_dict d) n sp s) = Err e.
Proof. exact ex_option_paren. Qed.
Print Assumptions C19_named_paren_refuted.

Theorem C19_unnamed : forall (env : Env) A (d : dict A) s o, good_dict d ->
  fst (d_item (option_dict d) Unnamed s) = Ok o <->
  (o = None /\ exists sp r, toks s = TIdent "None" sp :: r) \/
  (exists v sp ts gsp r, o = Some v /\ toks s = TIdent "Some" sp :: TGroup Paren ts gsp :: r /\
     whole (d_inline d Unnamed) [mkStream ts (SClose gsp) (cell s)] v).
Proof. exact @l_option_unnamed. Qed.
Print Assumptions C19_unnamed.

Example C19_ex :
  nth_error (s_raw ex_s) 2 = Some (it "o" (dict_map VO (option_dict i32))) /\
  fst (d_inline (struct_dict ex_s) Unnamed [root_stream (tk "a = 1, o = 3")]) = Ok [VI 1; VL [VT "d"]; VO (Some (VI 3)); VI 9] /\
  is_ok (fst (d_inline (struct_dict ex_s) Unnamed [root_stream (tk "a = 1, o = None")])) = false /\
  fst (d_item (vec_dict (option_dict i32)) Unnamed (root_stream (tk "[None, Some(1)]"))) = Ok [None; Some (VI 1)].
Proof. split; [reflexivity|]. vm_compute. auto. Qed.

(** ** C20 Flag semantics *)
Theorem C20_flag_field : forall (env : Env) V (s : sdef V) tm prefix v sp inputs ws i f
    (g : option span -> V),
  parse_run s tm prefix v sp inputs (Ok ws) -> named_struct s -> distinct_names s ->
  Forall local_field (s_raw s) -> nth_error (s_raw s) i = Some f -> pitem f = true ->
  f_kind f = KItem (dict_map g flag_dict) -> f_default f = None -> s_default s = None ->
  exists vs x, chained (s_and_thens s) vs ws /\ nth_error vs i = Some x /\
    (~ has_key prefix f inputs -> transformed (f_transforms f) (g None) x) /\
    (has_key prefix f inputs ->
     exists seg k ksp, In seg (items_of inputs) /\ item_key seg = Some (k, ksp, []) /\
       named_by prefix f k /\ transformed (f_transforms f) (g (Some ksp)) x).
Proof. exact @l_flag_field. Qed.
Print Assumptions C20_flag_field.

(** anything after the name is an error *)
Theorem C20_flag_value_fails : forall (env : Env) V (s : sdef V) tm prefix v sp inputs r i f
    (g : option span -> V) seg k ksp body,
  parse_run s tm prefix v sp inputs r -> named_struct s -> distinct_names s ->
  Forall local_field (s_raw s) -> nth_error (s_raw s) i = Some f -> pitem f = true ->
  f_kind f = KItem (dict_map g flag_dict) ->
  In seg (items_of inputs) -> item_key seg = Some (k, ksp, body) -> named_by prefix f k ->
  body <> [] -> exists e, r = Err e.
Proof. exact @l_flag_value_fails. Qed.
Print Assumptions C20_flag_value_fails.

(** [bool_body]: `= true`, `= false`, `(true)`, `(false)` with an optional trailing comma,
    or nothing, which is true *)
Theorem C20_bool : forall (env : Env) n sp body b, no_comma body ->
  accepts (d_named bool_dict n sp) body b <-> bool_body body b.
Proof. exact @l_bool. Qed.
Print Assumptions C20_bool.

Example C20_ex : let s := named [it "x" flag_; it "y" bool_] in
  fst (d_inline (struct_dict s) Unnamed [root_stream (tk "x, y")]) = Ok [VB true; VB true] /\
  fst (d_inline (struct_dict s) Unnamed [root_stream (tk "y = false")]) = Ok [VB false; VB false] /\
  is_ok (fst (d_inline (struct_dict s) Unnamed [root_stream (tk "x = true, y")])) = false /\
  is_ok (fst (d_inline (struct_dict s) Unnamed [root_stream (tk "x(true), y")])) = false /\
  is_ok (fst (d_inline (struct_dict s) Unnamed [root_stream (tk "x(), y")])) = false.
Proof. vm_compute. auto. Qed.

(** ** C25 Append collects every occurrence in order *)
Theorem C25_append : forall (env : Env) V A (d : dict A) (g : list A -> V) (s : sdef V) tm prefix v sp inputs ws i f,
  fine d -> parse_run s tm prefix v sp inputs (Ok ws) -> named_struct s -> Forall local_field (s_raw s) ->
  nth_error (s_raw s) i = Some f -> is_parsable f = true ->
  f_kind f = KAppend (fun ps => pmap g (vec_append d ps)) ->
  exists vs x es, chained (s_and_thens s) vs ws /\ nth_error vs i = Some x /\
    transformed (f_transforms f) (g es) x /\
    appended d (map (join_path prefix) (f_names f)) (items_of inputs) es.
Proof. exact @l_append_field. Qed.
Print Assumptions C25_append.

Theorem C25_append_set : forall (env : Env) V A eqb (d : dict A) (g : list A -> V) (s : sdef V) tm prefix v sp inputs ws i f,
  fine d -> parse_run s tm prefix v sp inputs (Ok ws) -> named_struct s -> Forall local_field (s_raw s) ->
  nth_error (s_raw s) i = Some f -> is_parsable f = true ->
  f_kind f = KAppend (fun ps => pmap g (set_append eqb d ps)) ->
  exists vs x es, chained (s_and_thens s) vs ws /\ nth_error vs i = Some x /\
    transformed (f_transforms f) (g es) x /\
    appended d (map (join_path prefix) (f_names f)) (items_of inputs) es /\ all_different eqb es.
Proof. exact @l_append_set_field. Qed.
Print Assumptions C25_append_set.

(** the parsers themselves *)
Theorem C25_append_vec_iff : forall (env : Env) A (d : dict A), fine d -> forall names l vs,
  fst (vec_append d names l) = Ok vs <-> appended d names (items_of l) vs.
Proof. exact @vec_append_ok. Qed.
Print Assumptions C25_append_vec_iff.

Example C25_ex : named_struct ex_app /\ Forall local_field (s_raw ex_app) /\
  nth_error (s_raw ex_app) 1 = Some (fld "v" ["v"; "w"] (KAppend (fun ps => pmap VL (vec_append i32 ps))) None) /\
  parse_run ex_app TMeta "" true (SAt 0) ex_app_in (Ok [VI 1; VL [VI 1; VI 3; VI 2]]).
Proof. exact ex_append. Qed.

(** ** C26 Rest collects exactly the unclaimed keys *)
(** [s_names s]: the names of the parent's fields.  Missing: structs flattened with a
    prefix, and the name of the rest field itself, see below. *)
Theorem C26_rest_partial : forall (env : Env) V K A eqb kstr (dk : dict K) (dv : dict A)
    (g : list (K * A) -> V) (s : sdef V) tm prefix v sp inputs ws i f,
  fine dk -> fine dv -> nonempty_keys dk ->
  parse_run s tm prefix v sp inputs (Ok ws) -> named_struct s -> Forall local_field (s_raw s) ->
  nth_error (s_raw s) i = Some f -> is_parsable f = true ->
  f_kind f = KRest (fun ex => pmap g (map_rest eqb kstr dk dv ex)) ->
  exists vs x sel kvs, chained (s_and_thens s) vs ws /\ nth_error vs i = Some x /\
    transformed (f_transforms f) (g kvs) x /\
    selected kstr dk (s_names s) (items_of inputs) sel /\
    Forall2 (accepts (map_entry kstr dk dv)) sel kvs /\ all_different eqb (map fst kvs).
Proof. exact @l_rest_field. Qed.
Print Assumptions C26_rest_partial.

(** an item whose key is the name of the rest field is in no field at all *)
Theorem C26_own_name_refuted : exists (env : Env) (s : sdef val) inputs ws f r,
  named_struct s /\ Forall local_field (s_raw s) /\ nth_error (s_raw s) 1 = Some f /\
  is_parsable f = true /\ f_kind f = KRest r /\
  parse_run s TMeta "" false SCall inputs (Ok ws) /\
  keys_in inputs = [("a", SAt 0); ("m", SAt 7)] /\
  (forall i g, nth_error (s_raw s) i = Some g -> pitem g = true -> ~ named_by "" g "m") /\
  nth_error ws 1 = Some (VM []).
Proof. exact ex_rest_own. Qed.
Print Assumptions C26_own_name_refuted.

(** under a prefix, the field's own keys are in the map as well *)
Theorem C26_prefix_refuted : exists (env : Env) (s : sdef val) inputs ws f g r,
  named_struct s /\ Forall local_field (s_raw s) /\
  nth_error (s_raw s) 0 = Some g /\ pitem g = true /\ named_by "p::" g "p::a" /\
  nth_error (s_raw s) 1 = Some f /\ is_parsable f = true /\ f_kind f = KRest r /\
  parse_run s TMeta "p::" false SCall inputs (Ok ws) /\
  nth_error ws 1 = Some (VM [("p::a", VI 1)]).
Proof. exact ex_rest_prefix. Qed.
Print Assumptions C26_prefix_refuted.

Example C26_ex : named_struct ex_rest /\ Forall local_field (s_raw ex_rest) /\ fine path_ /\ nonempty_keys path_ /\
  nth_error (s_raw ex_rest) 1 = Some (fld "m" ["m"] (KRest (fun ex => pmap pmap_val (map_rest veq vstr path_ i32 ex))) None) /\
  parse_run ex_rest TMeta "" false (SAt 0) ex_rest_in (Ok [VI 1; VM [("b", VI 2); ("c", VI 3)]]).
Proof. exact ex_rests. Qed.

(** ** C46 `with = quoted` parses the string's content *)
(** [text_parse p x r]: [r] is the result of [p] on the tokens of the text [x].
    [placed_at sp r r']: the same result, all errors at [sp]. *)
Theorem C46_quoted : forall (env : Env) A (d : dict A) m s x sp rest,
  toks s = TLit (LStr x) sp :: rest ->
  exists r, text_parse (d_item d m) x r /\
    placed_at sp r (fst (d_item (quoted_dict d) m s)) /\ snd (d_item (quoted_dict d) m s) = set_toks s rest.
Proof. exact @l_quoted. Qed.
Print Assumptions C46_quoted.

Theorem C46_quoted_only : forall (env : Env) A (d : dict A) m s, ~ starts_str (toks s) ->
  exists e, fst (d_item (quoted_dict d) m s) = Err e.
Proof. exact @l_quoted_only. Qed.
Print Assumptions C46_quoted_only.

(** `name = "text"` and `name("text")` *)
Theorem C46_quoted_named : forall (env : Env) A (d : dict A) n nsp s j esp x sp rest,
  toks s = TPunct eq_c j esp :: TLit (LStr x) sp :: rest ->
  exists r, text_parse (d_item d (Named nsp)) x r /\
    placed_at sp r (fst (d_named (quoted_dict d) n nsp s)) /\ toks (snd (d_named (quoted_dict d) n nsp s)) = rest.
Proof. exact @l_quoted_named. Qed.
Print Assumptions C46_quoted_named.
Theorem C46_quoted_paren : forall (env : Env) A (d : dict A) n nsp s x sp gsp rest,
  toks s = TGroup Paren [TLit (LStr x) sp] gsp :: rest ->
  exists r, text_parse (d_item d (Named nsp)) x r /\
    placed_at sp r (fst (d_named (quoted_dict d) n nsp s)) /\ toks (snd (d_named (quoted_dict d) n nsp s)) = rest.
Proof. exact @l_quoted_paren. Qed.
Print Assumptions C46_quoted_paren.

Theorem C46_syn_quoted : forall (env : Env) A (p : parser A) m s x sp rest,
  toks s = TLit (LStr x) sp :: rest ->
  exists r, text_parse p x r /\
    placed_at sp r (fst (d_item (syn_quoted_dict p) m s)) /\ snd (d_item (syn_quoted_dict p) m s) = set_toks s rest.
Proof. exact @l_syn_quoted. Qed.
Print Assumptions C46_syn_quoted.
Theorem C46_syn_quoted_only : forall (env : Env) A (p : parser A) m s, ~ starts_str (toks s) ->
  exists e, fst (d_item (syn_quoted_dict p) m s) = Err e.
Proof. exact @l_syn_quoted_only. Qed.
Print Assumptions C46_syn_quoted_only.

(** maybe_quoted: with a string literal the same as quoted, otherwise the same as T; both
    spellings of the tokens [ts] give the same result *)
Theorem C46_maybe_quoted : forall (env : Env) A (d : dict A) m s x sp rest,
  toks s = TLit (LStr x) sp :: rest ->
  d_item (maybe_quoted_dict d) m s = d_item (quoted_dict d) m s.
Proof. exact @l_maybe_quoted. Qed.
Print Assumptions C46_maybe_quoted.
Theorem C46_maybe_plain : forall (env : Env) A (d : dict A) m s, ~ starts_str (toks s) ->
  d_item (maybe_quoted_dict d) m s = d_item d m s.
Proof. exact @l_maybe_plain. Qed.
Print Assumptions C46_maybe_plain.
Theorem C46_maybe_same : forall (env : Env) A (d : dict A) m s x sp rest ts,
  toks s = TLit (LStr x) sp :: rest -> env_lex x = inl ts -> ~ starts_str ts ->
  placed_at sp (parse2 (d_item (maybe_quoted_dict d) m) ts) (fst (d_item (maybe_quoted_dict d) m s)).
Proof. exact @l_maybe_same. Qed.
Print Assumptions C46_maybe_same.

Example C46_ex :
  fst (d_item (quoted_dict (vec_dict i32)) Unnamed (root_stream (tk """[1, 2]"""))) = Ok [VI 1; VI 2] /\
  fst (d_item (maybe_quoted_dict (vec_dict i32)) Unnamed (root_stream (tk """[1, 2]"""))) = Ok [VI 1; VI 2] /\
  fst (d_item (maybe_quoted_dict (vec_dict i32)) Unnamed (root_stream (tk "[1, 2]"))) = Ok [VI 1; VI 2] /\
  fst (d_item (quoted_dict (vec_dict i32)) Unnamed (root_stream (tk "  ""[1, true]""")))
  = Err (mkSyn (mkErr (SAt 2) "expected integer literal") []) /\
  fst (d_item (quoted_dict (vec_dict i32)) Unnamed (root_stream (tk "  ""[1, """)))
  = Err (mkSyn (mkErr (SAt 2) "unclosed delimiter") []) /\
  (exists a b c, env_lex "[1, 2]" = inl [TGroup Bracket [a; b; c] (SAt 0)]).
Proof. vm_compute. eauto 10. Qed.

(** ** C48 Punctuated sequences round trip *)
(** only with at most one element per stream *)
Theorem C48_punctuated_partial : forall A (d : dict A) l vs, local (d_item d Unnamed) ->
  Forall (fun s => length (items (toks s)) <= 1) l ->
  fst (punctuated_flat comma_c d l) = Ok vs <-> Forall2 (accepts (d_item d Unnamed)) (items_of l) vs.
Proof. exact @l_punct_single. Qed.
Print Assumptions C48_punctuated_partial.

Theorem C48_punctuated_brackets_partial : forall (env : Env) A (d : dict A) m s segs vs,
  fine d -> consumes (d_item d Unnamed) -> length segs <= 1 -> group_of Bracket s segs ->
  fst (d_item (punctuated_dict comma_c d) m s) = Ok vs <-> Forall2 (accepts (d_item d Unnamed)) segs vs.
Proof. exact @l_punct_group. Qed.
Print Assumptions C48_punctuated_brackets_partial.

(** two or more elements are never accepted *)
Theorem C48_punctuated_fails : forall (env : Env) A (d : dict A) m s segs,
  fine d -> consumes (d_item d Unnamed) -> 2 <= length segs -> ~ In [] segs -> group_of Bracket s segs ->
  exists e, fst (d_item (punctuated_dict comma_c d) m s) = Err e.
Proof. exact @l_punct_never. Qed.
Print Assumptions C48_punctuated_fails.

Theorem C48_punctuated_refuted : exists (env : Env) A (d : dict A) segs vs m s e,
  fine d /\ group_of Bracket s segs /\ Forall2 (accepts (d_item d Unnamed)) segs vs /\
  fst (d_item (punctuated_dict comma_c d) m s) = Err e.
Proof. exact ex_punct. Qed.
Print Assumptions C48_punctuated_refuted.

Example C48_ex :
  fst (d_item (punctuated_dict comma_c i32) Unnamed (root_stream (tk "[1,]"))) = Ok [VI 1] /\
  is_ok (fst (d_item (punctuated_dict comma_c i32) Unnamed (root_stream (tk "[1, 2]")))) = false /\
  fst (punctuated_flat comma_c i32 [root_stream (tk "1,"); root_stream (tk "2")]) = Ok [VI 1; VI 2].
Proof. vm_compute. auto. Qed.

(** ** C52 SpannedValue is transparent *)
(** [spans q p]: on every input, [q] gives what [p] gives, with a span added to the value, the
    same errors, and leaves the same *)
Theorem C52_spanned : forall (env : Env) A (d : dict A) m,
  spans (d_item (spanned_dict d) m) (d_item d m) /\ spans (d_inline (spanned_dict d) m) (d_inline d m) /\
  (forall n sp, spans (d_named (spanned_dict d) n sp) (d_named d n sp)) /\
  (forall sp, unspan (d_flag (spanned_dict d) sp) = d_flag d sp).
Proof. exact @l_spanned. Qed.
Print Assumptions C52_spanned.

Theorem C52_spanned_flat : forall (env : Env) A (u : flat_unnamed A) (w : flat_named A) (a : append_fn A) (r : rest_fn A),
  (fu_count (spanned_fu u) = fu_count u /\ forall m i, spans (fu_parse (spanned_fu u) m i) (fu_parse u m i)) /\
  (fn_names (spanned_fn w) = fn_names w /\ fn_accepts_all (spanned_fn w) = fn_accepts_all w /\
   forall m p v, spans (fn_parse (spanned_fn w) m p v) (fn_parse w m p v)) /\
  (forall ps, spans (spanned_append a ps) (a ps)) /\ (forall ex, spans (spanned_rest r ex) (r ex)).
Proof. exact @l_spanned_flat. Qed.
Print Assumptions C52_spanned_flat.

Theorem C52_compare : forall A H (eqb : A -> A -> bool) (cmp : A -> A -> comparison) (h : A -> H)
    (disp : A -> string) v w a b a' b',
  sv_eq eqb (v, a) (w, b) = sv_eq eqb (v, a') (w, b') /\ sv_eq eqb (v, a) (w, b) = eqb v w /\
  sv_cmp cmp (v, a) (w, b) = cmp v w /\ sv_hash h (v, a) = h v /\ sv_display disp (v, a) = disp v.
Proof. exact @l_spanned_ops. Qed.
Print Assumptions C52_compare.

(** a missing SpannedValue<Option<T>> is an error, a missing Option<T> is not *)
Theorem C52_missing_refuted : exists (env : Env) A (d : dict A) n sp v e,
  d_missing d n sp = Ok v /\ d_missing (spanned_dict d) n sp = Err e.
Proof. exact ex_spanned_missing. Qed.
Print Assumptions C52_missing_refuted.

Example C52_ex :
  unspan (fst (d_item (spanned_dict (vec_dict i32)) Unnamed (root_stream (tk "[1, 2]")))) = Ok [VI 1; VI 2].
Proof. vm_compute. reflexivity. Qed.

(** ** C53 No implementation reads past its item *)
(** [regular d]: [d] is the implementation of a library type, of a `with` module or of a
    derived type, over such types, nested to any depth.  [local_dict d]: parse_meta_item and
    parse_meta_item_named consume no comma outside of delimiters, and what they return for
    the tokens up to the next comma does not depend on what comes after. *)
Theorem C53_regular : forall (env : Env) A (d : dict A), regular A d -> local_dict d.
Proof. exact @l_local. Qed.
Print Assumptions C53_regular.

(** the hypothesis of the theorems above *)
Theorem C53_fine : forall (env : Env) A (d : dict A), regular A d -> fine d.
Proof. exact @l_fine. Qed.
Print Assumptions C53_fine.

Theorem C53_flag : forall (env : Env), local_dict flag_dict.
Proof. exact @l_flag_local. Qed.
Print Assumptions C53_flag.

(** TokenTree and Punct accept the comma itself *)
Theorem C53_tokentree_refuted : forall (env : Env),
  usable _ tokentree_dict /\ ~ local (d_item tokentree_dict Unnamed).
Proof. exact @l_tokentree. Qed.
Print Assumptions C53_tokentree_refuted.
Theorem C53_punct_refuted : forall (env : Env),
  usable _ punct_dict /\ ~ local (d_item punct_dict Unnamed).
Proof. exact @l_punct_tree. Qed.
Print Assumptions C53_punct_refuted.

(** the span of a SpannedValue includes the token after the value *)
Theorem C53_spanned_refuted : exists (env : Env) A (d : dict A) body v v' tl tl',
  usable _ (spanned_dict d) /\ no_comma body /\ ends tl /\ ends tl' /\
  fst (d_item (spanned_dict d) Unnamed (root_stream (body ++ tl))) = Ok v /\
  fst (d_item (spanned_dict d) Unnamed (root_stream (body ++ tl'))) = Ok v' /\ v <> v'.
Proof. exact ex_spanned_next. Qed.
Print Assumptions C53_spanned_refuted.

Example C53_ex : regular _ (struct_dict ex_s) /\ regular _ (vec_dict (option_dict (vec_dict (int_dict k_i32)))).
Proof. exact ex_regular. Qed.
