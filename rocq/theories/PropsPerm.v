(** C12, C103: splitting an enum's items over several attributes; the order of the items, with
    flattened fields and for enums. *)
From Verif Require Import LemPerm ExPerm.
Local Open Scope string_scope.
Local Open Scope list_scope.

(** ** C12 Splitting over several attributes is equivalent to one attribute *)
(** for enums, with or without flattened variants.  [textual_field]: a flattened, append or rest
    field of a flattened variant has this property itself *)
Theorem C12_enum : forall (env : Env) V (e : edef V) tm prefix validate sp inputs inputs' r r' x,
  enum_run e tm prefix validate sp inputs r -> enum_run e tm prefix validate sp inputs' r' ->
  proper_enum tm e -> flat_local e ->
  (forall v, In v (e_variants e) -> v_flatten v = true -> Forall textual_field (v_raw v)) ->
  items_of inputs = items_of inputs' ->
  r = Ok x <-> r' = Ok x.
Proof. exact @l_enum_split. Qed.
Print Assumptions C12_enum.
(** so that it holds for structs that flatten such an enum (C12_named_struct) *)
Theorem C12_flattened_enum : forall (env : Env) V (e : edef V) sp prefix,
  proper_enum TMeta e -> flat_local e ->
  (forall v, In v (e_variants e) -> v_flatten v = true -> Forall textual_field (v_raw v)) ->
  textual (fn_parse (enum_fn e) (Named sp) prefix false).
Proof. exact @l_enum_textual. Qed.
Print Assumptions C12_flattened_enum.

Example C12_enum_ex : proper_enum TMeta xo /\ flat_local xo /\
  (forall v, In v (e_variants xo) -> v_flatten v = true -> Forall textual_field (v_raw v)) /\
  items_of [root_stream xo_one] = items_of (map root_stream xo_two) /\ length xo_two = 2 /\
  fst (fn_parse (enum_fn xo) (Named SCall) "" false [root_stream xo_one]) = Ok (1, [VI 1]) /\
  fst (fn_parse (enum_fn xo) (Named SCall) "" false (map root_stream xo_two)) = Ok (1, [VI 1]).
Proof.
  refine (conj xo_proper (conj xo_local (conj xo_textual _))). repeat split; vm_compute; reflexivity.
Qed.

(** ** C103 The order of the items does not matter *)
(** Structs that may flatten others and append: exchanging items does not change the result, if
    the items of each append field stay in their order.  [in_order]: that, and the flattened
    types do not depend on the order. *)
Theorem C103_struct : forall (env : Env) V (s : sdef V) tm prefix validate sp inputs inputs' r r' ws,
  parse_run s tm prefix validate sp inputs r -> parse_run s tm prefix validate sp inputs' r' ->
  named_struct s -> Forall local_field (s_raw s) ->
  Forall (in_order prefix inputs inputs') (s_raw s) ->
  Permutation (items_of inputs) (items_of inputs') ->
  r = Ok ws <-> r' = Ok ws.
Proof. exact @l_struct_perm. Qed.
Print Assumptions C103_struct.

(** Enums, however the variant is chosen: by name, by the fields of a flattened variant, or by
    default. *)
Theorem C103_enum : forall (env : Env) V (e : edef V) tm prefix validate sp inputs inputs' r r' x,
  enum_run e tm prefix validate sp inputs r -> enum_run e tm prefix validate sp inputs' r' ->
  proper_enum tm e -> flat_local e ->
  (forall v, In v (e_variants e) -> v_flatten v = true ->
     Forall (in_order prefix inputs inputs') (v_raw v)) ->
  Permutation (items_of inputs) (items_of inputs') ->
  r = Ok x <-> r' = Ok x.
Proof. exact @l_enum_perm. Qed.
Print Assumptions C103_enum.

(** The flattened types can be structs and enums of this kind, at any depth. *)
Theorem C103_flattened_struct : forall (env : Env) V (s : sdef V),
  named_struct s -> Forall local_field (s_raw s) -> Forall unordered_field (s_raw s) ->
  unordered (struct_fn s).
Proof. exact @l_struct_unordered. Qed.
Print Assumptions C103_flattened_struct.
Theorem C103_flattened_enum : forall (env : Env) V (e : edef V),
  proper_enum TMeta e -> flat_local e ->
  (forall v, In v (e_variants e) -> v_flatten v = true -> Forall unordered_field (v_raw v)) ->
  unordered (enum_fn e).
Proof. exact @l_enum_unordered. Qed.
Print Assumptions C103_flattened_enum.

Example C103_struct_ex : named_struct fx_p /\ Forall local_field (s_raw fx_p) /\
  Forall (in_order "" xq_in xq_in2) (s_raw fx_p) /\ Permutation (items_of xq_in) (items_of xq_in2) /\
  (fst (fn_parse (struct_fn fx_p) (Named SCall) "" true xq_in) = Ok fx_vs /\
   fst (fn_parse (struct_fn fx_p) (Named SCall) "" true xq_in2) = Ok fx_vs) /\
  items_of xq_in <> items_of xq_in2.
Proof.
  refine (conj fx_p_named (conj fx_p_local (conj xq_order (conj xq_perm (conj xq_run _))))).
  vm_compute. discriminate.
Qed.
Example C103_enum_ex : proper_enum TMeta xo /\ flat_local xo /\
  (forall v, In v (e_variants xo) -> v_flatten v = true -> Forall unordered_field (v_raw v)) /\
  Permutation (items_of (each ["z = 3"; "b = 1"])) (items_of (each ["b = 1"; "z = 3"])) /\
  fst (fn_parse (enum_fn xo) (Named SCall) "" false (each ["z = 3"; "b = 1"])) = Ok (1, [VI 1]) /\
  fst (fn_parse (enum_fn xo) (Named SCall) "" false (each ["b = 1"; "z = 3"])) = Ok (1, [VI 1]).
Proof.
  refine (conj xo_proper (conj xo_local (conj xo_unordered (conj (each_perm _ _ _) _)))); [apply perm_swap|].
  split; vm_compute; reflexivity.
Qed.
(** The order of appended items does matter. *)
Example C103_append_ex :
  fst (fn_parse (struct_fn ex_app) (Named SCall) "" true (each ["a = 1"; "v = 2"; "w = 3"])) = Ok [VI 1; VL [VI 2; VI 3]] /\
  fst (fn_parse (struct_fn ex_app) (Named SCall) "" true (each ["w = 3"; "v = 2"; "a = 1"])) = Ok [VI 1; VL [VI 3; VI 2]].
Proof. split; vm_compute; reflexivity. Qed.
