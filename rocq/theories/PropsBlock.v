(** Property theorems: tuple structs with flattened fields.  Every proof is one [exact];
    vocabulary in SpecBlock.v, inputs of the examples in ExBlock.v.

    [spread more fs segs os]: the items [segs] are shared out over the fields [fs] in order;
    each parsed field takes one item, each flattened one a block of items that its type
    [takes]; the last fields may get nothing.  [spread_values]: what was read, or the value of
    a field that is left out.  [by_items u]: the value of a flattened type depends on its items
    only; C85_by_items shows it for the types of the library and for derived ones. *)
From Verif Require Import ExBlock.

(** ** C85 A flattened field of a tuple struct takes a block of consecutive items *)
Theorem C85_run : forall (env : Env) V (s : sdef V) tm p st segs ws,
  tuple_run s tm p -> any_tuple_struct s -> fine_items s -> flat_items_ok s -> Forall uniform_missing (s_raw s) ->
  listed segs (toks st) -> ~ In [] segs ->
  whole p [st] ws <->
  exists os vs, spread false (s_raw s) segs os /\ spread_values s tm os vs /\ chained (s_and_thens s) vs ws.
Proof. exact @l_block_run. Qed.
Print Assumptions C85_run.

Theorem C85_group : forall (env : Env) V (s : sdef V) m st segs ws,
  any_tuple_struct s -> fine_items s -> flat_items_ok s -> Forall uniform_missing (s_raw s) ->
  s_is_transparent s = false -> group_of Paren st segs -> ~ In [] segs ->
  fst (d_item (struct_dict s) m st) = Ok ws <->
  exists os vs, spread false (s_raw s) segs os /\ spread_values s TMeta os vs /\ chained (s_and_thens s) vs ws.
Proof. exact @l_block_group. Qed.
Print Assumptions C85_group.

(** the blocks each flattened type takes; [block blk more ts tl] says that there is such a text *)
Theorem C85_array : forall (env : Env) A N (d : dict A) blk more ts tl vs,
  fine d -> blk <> [] -> block blk more ts tl ->
  takes (array_fu N d) blk more vs <-> length blk = N /\ Forall2 (accepts (d_item d Unnamed)) blk vs.
Proof. exact @l_array_block. Qed.
Print Assumptions C85_array.

Theorem C85_tuple : forall (env : Env) A (ds : list (dict A)) blk more ts tl vs,
  Forall fine ds -> blk <> [] -> block blk more ts tl ->
  takes (tuple_fu ds) blk more vs <-> each_accepts ds blk vs.
Proof. exact @l_tuple_block. Qed.
Print Assumptions C85_tuple.

(** all that is left *)
Theorem C85_vec : forall (env : Env) A (d : dict A) blk more ts tl vs,
  fine d -> blk <> [] -> block blk more ts tl ->
  takes (vec_fu d) blk more vs <-> more = false /\ Forall2 (accepts (d_item d Unnamed)) blk vs.
Proof. exact @l_vec_block. Qed.
Print Assumptions C85_vec.

(** a flattened tuple struct may leave out its last fields only at the end *)
Theorem C85_struct : forall (env : Env) V (s : sdef V) blk more ts tl ws,
  any_tuple_struct s -> fine_items s -> flat_items_ok s -> Forall uniform_missing (s_raw s) ->
  blk <> [] -> block blk more ts tl ->
  takes (struct_fu s) blk more ws <->
  exists os vs, spread more (s_raw s) blk os /\ spread_values s TMeta os vs /\ chained (s_and_thens s) vs ws.
Proof. exact @l_struct_block. Qed.
Print Assumptions C85_struct.

(** the value when no items are left *)
Theorem C85_absent_array : forall (env : Env) A N (d : dict A) vs, fine d ->
  absent (array_fu N d) vs <-> N = 0 /\ vs = [].
Proof. exact @l_absent_array. Qed.
Print Assumptions C85_absent_array.
Theorem C85_absent_tuple : forall (env : Env) A (ds : list (dict A)) vs, Forall fine ds ->
  absent (tuple_fu ds) vs <-> ds = [] /\ vs = [].
Proof. exact @l_absent_tuple. Qed.
Print Assumptions C85_absent_tuple.
Theorem C85_absent_vec : forall A (d : dict A) vs, absent (vec_fu d) vs <-> vs = [].
Proof. exact @l_absent_vec. Qed.
Print Assumptions C85_absent_vec.
Theorem C85_absent_struct : forall (env : Env) V (s : sdef V) ws,
  any_tuple_struct s -> fine_items s -> flat_items_ok s -> Forall uniform_missing (s_raw s) ->
  absent (struct_fu s) ws <->
  exists os vs, spread false (s_raw s) [] os /\ spread_values s TMeta os vs /\ chained (s_and_thens s) vs ws.
Proof. exact @struct_absent. Qed.
Print Assumptions C85_absent_struct.

Theorem C85_by_items : forall (env : Env) V A N (d : dict A) ds (s : sdef V),
  fine d -> Forall fine ds ->
  any_tuple_struct s -> fine_items s -> flat_items_ok s -> Forall uniform_missing (s_raw s) ->
  by_items (array_fu N d) /\ by_items (tuple_fu (A := A) ds) /\ by_items (vec_fu d) /\ by_items (struct_fu s) /\
  forall B C (g : B -> C) u, by_items u -> by_items (fu_map g u).
Proof. exact @l_all_by_items. Qed.
Print Assumptions C85_by_items.

(** a block cannot be continued in the next attribute, although items can (C13) *)
Theorem C85_split_refuted : exists (env : Env) (s : sdef val) p one two segs ws e,
  any_tuple_struct s /\ fine_items s /\ flat_items_ok s /\ Forall uniform_missing (s_raw s) /\ tuple_run s TMeta p /\
  hold one segs /\ hold two segs /\ ~ In [] segs /\
  whole p one ws /\ fst (p two) = Err e.
Proof. exact ex_split_fails. Qed.
Print Assumptions C85_split_refuted.

(** a type without items, `[T; 0]`, cannot be flattened in front of other items *)
Theorem C85_empty_refuted : exists (env : Env) (s : sdef val) u f d v w st seg e,
  any_tuple_struct s /\ fine_items s /\ flat_items_ok s /\ Forall uniform_missing (s_raw s) /\ s_is_transparent s = false /\
  s_raw s = [flatu u; f] /\ absent u v /\ is_parsable f = true /\ f_kind f = KItem d /\
  group_of Paren st [seg] /\ accepts (d_item d Unnamed) seg w /\
  fst (d_item (struct_dict s) Unnamed st) = Err e.
Proof. exact ex_zero_fails. Qed.
Print Assumptions C85_empty_refuted.

Example C85_ex :
  any_tuple_struct ex_blk /\ fine_items ex_blk /\ flat_items_ok ex_blk /\ Forall uniform_missing (s_raw ex_blk) /\
  s_is_transparent ex_blk = false /\
  (exists segs, group_of Paren ex_blk_in segs /\ length segs = 7 /\ ~ In [] segs) /\
  fst (d_item (struct_dict ex_blk) Unnamed ex_blk_in) = Ok [VI 1; VL [VI 2; VI 3]; VT "x"; VL [VI 4; VI 5; VI 6]] /\
  fst (d_item (struct_dict ex_blk) Unnamed (root_stream (tk "(1, 2, 3)"))) = Ok [VI 1; VL [VI 2; VI 3]; VT "d"; VL []] /\
  is_ok (fst (d_item (struct_dict ex_blk) Unnamed (root_stream (tk "(1, 2)")))) = false.
Proof. exact ex_blk_ok. Qed.

(** ** C49 The number of a missing item *)
(** exactly: the sizes of the fields before it and, with flattened fields, once more the sizes
    of all fields that got items and of the flattened ones before it that got none *)
Theorem C49_number : forall (env : Env) V (s : sdef V) tm index p st segs os i f d,
  run_from s tm index p -> any_tuple_struct s -> fine_items s -> flat_items_ok s -> s_default s = None ->
  listed segs (toks st) -> ~ In [] segs -> spread false (s_raw s) segs os ->
  nth_error (s_raw s) i = Some f -> nth_error os i = Some None ->
  is_parsable f = true -> f_default f = None -> f_kind f = KItem d -> no_missing_value d ->
  exists e sp, fst (p [st]) = Err e /\
    In (mkErr sp (missing_item_msg tm (index + said_number (s_raw s) os i))) (errs_of e).
Proof. exact @l_missing_number. Qed.
Print Assumptions C49_number.

Example C49_number_ex : exists segs os e,
  any_tuple_struct ex_num /\ fine_items ex_num /\ flat_items_ok ex_num /\ s_default ex_num = None /\
  run_from ex_num TMeta 0 (d_inline (struct_dict ex_num) Unnamed) /\
  listed segs (toks ex_num_in) /\ ~ In [] segs /\ spread false (s_raw ex_num) segs os /\
  nth_error os 1 = Some None /\ nth_error os 3 = Some None /\
  said_number (s_raw ex_num) os 1 = 4 /\ said_number (s_raw ex_num) os 3 = 5 /\
  fst (d_inline (struct_dict ex_num) Unnamed [ex_num_in]) = Err e /\
  map e_msg (errs_of e) = ["missing required field 4"; "missing required field 5"].
Proof. exact ex_num_run. Qed.
