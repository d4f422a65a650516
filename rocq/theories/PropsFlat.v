(** C23, C24, C44: how the keys of a struct are split between its own and flattened fields. *)
From Verif Require Import ExFlat.

(** ** C23 Flattening splits keys between parent and child *)
(** A struct with flattened and append fields (no two of its fields sharing a name) parses
    exactly when every item has a key, every key is a name of one of the fields (where
    unknown keys are checked), and every field gets its value from its own part of the
    items: a flattened struct from a parse of the items with its names alone. *)
Theorem C23_split : forall (env : Env) V (s : sdef V) tm prefix v sp inputs r ws,
  parse_run s tm prefix v sp inputs r ->
  named_struct s -> Forall local_field (s_raw s) -> Forall (routes prefix) (s_raw s) -> separate s ->
  is_prefix prefix -> (v = true -> prefix = "") ->
  r = Ok ws <->
  exists vs, chained (s_and_thens s) vs ws /\ length vs = length (s_raw s) /\ keyed inputs /\
    (v = true -> s_unknown_ok s = false ->
       forall seg, In seg (items_of inputs) -> addressed prefix (s_names s) seg = true) /\
    forall i f x, nth_error (s_raw s) i = Some f -> nth_error vs i = Some x ->
      field_part s tm prefix sp (items_of inputs) i f x.
Proof. exact @l_split_keys. Qed.
Print Assumptions C23_split.

(** no item belongs to two fields, none to no field *)
Theorem C23_one_owner : forall (env : Env) V (s : sdef V) prefix seg,
  separate s -> addressed prefix (s_names s) seg = true ->
  exists i f, nth_error (s_raw s) i = Some f /\ addressed prefix (names_of f) seg = true /\
    forall j g, nth_error (s_raw s) j = Some g -> addressed prefix (names_of g) seg = true -> j = i.
Proof. exact @l_one_owner. Qed.
Print Assumptions C23_one_owner.

(** what a flattened struct without a prefix gets from its part is what it gets when it is
    parsed there alone, unknown keys being reported *)
Theorem C23_child_alone : forall (env : Env) V (c : sdef V) sp l v,
  named_struct c -> Forall local_field (s_raw c) -> s_is_transparent c = false ->
  (forall seg, In seg (items_of l) -> addressed "" (s_names c) seg = true) ->
  fst (fn_parse (struct_fn c) (Named sp) "" false l) = Ok v <->
  fst (d_inline (struct_dict c) (Named sp) l) = Ok v.
Proof. exact @l_child_alone. Qed.
Print Assumptions C23_child_alone.

(** A flattened struct depends on the items with its names only; this is the hypothesis
    [routes] of its parent. *)
Theorem C23_own_keys : forall (env : Env) V (s : sdef V) prefix,
  named_struct s -> Forall local_field (s_raw s) -> is_prefix prefix ->
  Forall (routes prefix) (s_raw s) -> by_keys prefix (struct_fn s).
Proof. exact @l_struct_by_keys. Qed.
Print Assumptions C23_own_keys.

(** The names have to be different, and the macro cannot check that: with a field `x` in
    the parent and in the flattened child, one item `x = 1` is the value of both. *)
Theorem C23_overlap_refuted : exists (env : Env) (s : sdef val) sp seg l vs i j fi fj vi vj,
  named_struct s /\ distinct_names s /\ parse_run s TMeta "" true sp l (Ok vs) /\ items_of l = [seg] /\
  i <> j /\ nth_error (s_raw s) i = Some fi /\ nth_error (s_raw s) j = Some fj /\
  field_part s TMeta "" sp (items_of l) i fi vi /\ field_part s TMeta "" sp (items_of l) j fj vj /\
  addressed "" (names_of fi) seg = true /\ addressed "" (names_of fj) seg = true /\
  nth_error vs i = Some vi /\ nth_error vs j = Some vj.
Proof. exact fx_overlap. Qed.
Print Assumptions C23_overlap_refuted.

Example C23_ex :
  named_struct fx_p /\ Forall local_field (s_raw fx_p) /\ Forall (routes "") (s_raw fx_p) /\ separate fx_p /\
  (exists sp, parse_run fx_p TMeta "" true sp fx_in (Ok fx_vs)) /\
  fx_vs = [VI 1; VS [VI 2; VO None]; VS [VI 3; VS [VI 4]]; VL [VI 5; VI 6]] /\
  map (fun f => map item_key (part "" (names_of f) (items_of fx_in))) (firstn 2 (s_raw fx_p)) =
    [[Some ("a", SAt 27, [TGroup Paren [TLit (LInt 1) (SAt 29)] (SAt 28)])];
     [Some ("x", SAt 20, [TPunct "=" false (SAt 22); TLit (LInt 2) (SAt 24)])]] /\
  map (fun f => length (part "" (names_of f) (items_of fx_in))) (s_raw fx_p) = [1; 1; 2; 2].
Proof.
  refine (conj fx_p_named (conj fx_p_local (conj fx_p_routes (conj fx_p_separate (conj fx_p_run (conj eq_refl (conj _ _))))))); reflexivity.
Qed.

(** ** C24 Flatten prefixes compose (see also PropsSmall.v) *)
(** The field `x` of a struct flattened at the prefix `p::` is addressed as `p::x`: moving
    the struct to another prefix is the same as changing the prefix of the keys. *)
Theorem C24_moved : forall (env : Env) V (s : sdef V) sp prefix prefix' l l' v,
  named_struct s -> Forall local_field (s_raw s) -> Forall movable_field (s_raw s) ->
  is_prefix prefix -> is_prefix prefix' ->
  Forall2 (moved prefix prefix') (items_of l) (items_of l') ->
  fst (fn_parse (struct_fn s) (Named sp) prefix false l) = Ok v <->
  fst (fn_parse (struct_fn s) (Named sp) prefix' false l') = Ok v.
Proof. exact @l_moved. Qed.
Print Assumptions C24_moved.

(** ... and this holds for the structs flattened into it with a prefix of their own *)
Theorem C24_moved_nested : forall (env : Env) V (s : sdef V),
  named_struct s -> Forall local_field (s_raw s) -> Forall movable_field (s_raw s) ->
  movable (struct_fn s).
Proof. exact @l_struct_movable. Qed.
Print Assumptions C24_moved_nested.

(** ... and only so: keys that do not start with the prefix do not matter *)
Theorem C24_only_so : forall (env : Env) V (s : sdef V) prefix sp l l' v,
  named_struct s -> Forall local_field (s_raw s) -> is_prefix prefix -> Forall (routes prefix) (s_raw s) ->
  keyed l -> keyed l' -> filter (begins prefix) (items_of l) = filter (begins prefix) (items_of l') ->
  fst (fn_parse (struct_fn s) (Named sp) prefix false l) = Ok v <->
  fst (fn_parse (struct_fn s) (Named sp) prefix false l') = Ok v.
Proof. exact @l_only_so. Qed.
Print Assumptions C24_only_so.

(** A struct that is flattened without a prefix into a struct that is flattened with one:
    the only advertised name is `p::x`, but the generated code looks for `x`, which in turn
    is reported as unknown. *)
Theorem C24_nested_refuted : exists (env : Env) (s : sdef val) ts ts' n e e',
  named_struct s /\ s_names s = [("p::" ++ n)%string] /\
  (exists ksp body, item_key ts = Some ("p::" ++ n, ksp, body)%string) /\
  (exists ksp body, item_key ts' = Some (n, ksp, body)) /\
  fst (d_inline (struct_dict s) Unnamed [root_stream ts]) = Err e /\
  fst (d_inline (struct_dict s) Unnamed [root_stream ts']) = Err e' /\
  e_msg (se_hd e) = ("missing required field " ++ tick n)%string /\
  e_msg (se_hd e') = ("unknown field " ++ tick n)%string.
Proof. exact fx_dropped. Qed.
Print Assumptions C24_nested_refuted.

Example C24_moved_ex :
  named_struct fx_d /\ Forall local_field (s_raw fx_d) /\ Forall movable_field (s_raw fx_d) /\
  Forall (routes "p::") (s_raw fx_d) /\
  Forall2 (moved "p::" "") (items_of fx_l) (items_of fx_l') /\
  fst (fn_parse (struct_fn fx_d) (Named SCall) "p::" false fx_l) = Ok [VI 3; VS [VI 4]] /\
  fst (fn_parse (struct_fn fx_d) (Named SCall) "" false fx_l') = Ok [VI 3; VS [VI 4]] /\
  is_ok (fst (fn_parse (struct_fn fx_d) (Named SCall) "p::" false fx_l')) = false /\
  is_ok (fst (fn_parse (struct_fn fx_d) (Named SCall) "p::" false
                (fx_l ++ [root_stream (tk "x = 1, y, y, q::z(2, 3)")]))) = true.
Proof.
  refine (conj fx_d_named (conj fx_d_local (conj fx_d_movable (conj (fx_d_routes _) (conj fx_moved _))))).
  repeat split; reflexivity.
Qed.

(** ** C44 Advertised field names are exactly the keys that parse *)
(** a name that is not advertised: no input with it parses where unknown keys are checked ... *)
Theorem C44_unlisted_rejected : forall (env : Env) V (s : sdef V) tm sp inputs ws,
  parse_run s tm "" true sp inputs (Ok ws) -> named_struct s -> Forall stays_field (s_raw s) ->
  s_unknown_ok s = false ->
  forall k ksp, In (k, ksp) (keys_in inputs) -> In k (fn_names (struct_fn s)).
Proof. exact @l_known. Qed.
Print Assumptions C44_unlisted_rejected.
(** ... and in a flattened struct, where they are left to the parent, items with it have no
    influence *)
Theorem C44_unlisted_ignored : forall (env : Env) V (s : sdef V) prefix,
  named_struct s -> Forall local_field (s_raw s) -> is_prefix prefix ->
  Forall (routes prefix) (s_raw s) -> by_keys prefix (struct_fn s).
Proof. exact @l_struct_by_keys. Qed.
Print Assumptions C44_unlisted_ignored.

(** an advertised name is looked at: an input with the name twice is rejected.  The name of
    a plain field, ... *)
Theorem C44_plain : forall (env : Env) V (s : sdef V) tm prefix v sp inputs r i f n ws,
  parse_run s tm prefix v sp inputs r ->
  named_struct s -> Forall local_field (s_raw s) -> distinct_names s ->
  nth_error (s_raw s) i = Some f -> pitem f = true -> In n (f_names f) ->
  2 <= length (part prefix [n] (items_of inputs)) -> r <> Ok ws.
Proof. exact @l_plain_twice. Qed.
Print Assumptions C44_plain.
(** ... of a flattened field, if it is looked at by the flattened type, with the prefix, ... *)
Theorem C44_flattened_prefix : forall (env : Env) V (s : sdef V) tm prefix v sp inputs r i f n p u ws,
  parse_run s tm prefix v sp inputs r ->
  named_struct s -> Forall local_field (s_raw s) -> is_prefix prefix ->
  nth_error (s_raw s) i = Some f -> is_parsable f = true -> f_kind f = KFlatN (Some p) u -> path_like p ->
  looks_at (prefix ++ p ++ "::") u n ->
  2 <= length (part prefix [p ++ "::" ++ n]%string (items_of inputs)) -> r <> Ok ws.
Proof. exact @l_flat_twice. Qed.
Print Assumptions C44_flattened_prefix.
(** ... and without *)
Theorem C44_flattened : forall (env : Env) V (s : sdef V) tm v sp inputs r i f n u ws,
  parse_run s tm "" v sp inputs r ->
  named_struct s -> Forall local_field (s_raw s) ->
  nth_error (s_raw s) i = Some f -> is_parsable f = true -> f_kind f = KFlatN None u ->
  looks_at "" u n ->
  2 <= length (part "" [n] (items_of inputs)) -> r <> Ok ws.
Proof. exact @l_flat_none_twice. Qed.
Print Assumptions C44_flattened.
(** the flattened type being a struct again *)
Theorem C44_nested : forall (env : Env) V (s : sdef V) prefix i f n,
  named_struct s -> Forall local_field (s_raw s) -> distinct_names s ->
  nth_error (s_raw s) i = Some f -> pitem f = true -> In n (f_names f) -> looks_at prefix (struct_fn s) n.
Proof. exact @l_struct_looks. Qed.
Print Assumptions C44_nested.
Theorem C44_nested_prefix : forall (env : Env) V (s : sdef V) prefix i f n p u,
  named_struct s -> Forall local_field (s_raw s) -> is_prefix prefix ->
  nth_error (s_raw s) i = Some f -> is_parsable f = true -> f_kind f = KFlatN (Some p) u -> path_like p ->
  looks_at (prefix ++ p ++ "::") u n -> looks_at prefix (struct_fn s) (p ++ "::" ++ n).
Proof. exact @l_struct_looks_flat. Qed.
Print Assumptions C44_nested_prefix.
(** an advertised name that nothing looks at *)
Theorem C44_listed_refuted : exists (env : Env) (s : sdef val) ts ts' n e e',
  named_struct s /\ s_names s = [("p::" ++ n)%string] /\
  (exists ksp body, item_key ts = Some ("p::" ++ n, ksp, body)%string) /\
  (exists ksp body, item_key ts' = Some (n, ksp, body)) /\
  fst (d_inline (struct_dict s) Unnamed [root_stream ts]) = Err e /\
  fst (d_inline (struct_dict s) Unnamed [root_stream ts']) = Err e' /\
  e_msg (se_hd e) = ("missing required field " ++ tick n)%string /\
  e_msg (se_hd e') = ("unknown field " ++ tick n)%string.
Proof. exact fx_dropped. Qed.
Print Assumptions C44_listed_refuted.

Example C44_ex :
  fn_names (struct_fn fx_p) = ["a"; "x"; "y"; "p::x"; "p::q::z"; "v"] /\
  looks_at "p::" (struct_fn fx_d) "x" /\ looks_at "p::" (struct_fn fx_d) "q::z" /\
  is_ok (fst (fn_parse (struct_fn fx_d) (Named SCall) "p::" false
                (fx_l ++ [root_stream (tk "p::q::z = 1")]))) = false.
Proof.
  split; [reflexivity|]. split; [|split; [|reflexivity]].
  - refine (C44_nested _ _ fx_d "p::" 0 (it "x" i32) "x" fx_d_named fx_d_local _ eq_refl eq_refl (or_introl eq_refl)).
    intros [|[|i]] [|[|j]] f g n A B C D; cbn in A, B; auto; try discriminate; try (injection A as <-; discriminate);
      try (injection B as <-; discriminate); try (destruct i; discriminate); try (destruct j; discriminate).
  - refine (C44_nested_prefix _ _ fx_d "p::" 1 (flatn "e" (Some "q") (sfn fx_e)) "z" "q" (sfn fx_e) fx_d_named fx_d_local (or_intror (ex_intro _ "p" eq_refl)) eq_refl eq_refl eq_refl pl_q _).
    apply l_looks_map.
    refine (C44_nested _ _ fx_e _ 0 (it "z" i32) "z" fx_e_named fx_e_local _ eq_refl eq_refl (or_introl eq_refl)).
    intros [|i] [|j] f g n A B C D; cbn in A, B; auto; try (destruct i; discriminate); try (destruct j; discriminate).
Qed.
