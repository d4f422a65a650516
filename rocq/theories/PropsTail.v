(** Property theorems: a type with named items at the end of a tuple struct, as in
    `#[my_attr("x", 1, key = 2, flag)]`.  Every proof is one [exact]; vocabulary in SpecTail.v,
    inputs of the examples in ExTail.v.

    [tailed s fs f u]: struct S(fs.., #[deluxe(flatten)] u); [keyed_values t its w] and
    [keyed_variant e its x]: the items [its] are the named items of that value of the struct
    [t] (as in C09) or of the enum [e] (as in C21). *)
From Verif Require Import ExTail.

(** ** C97 Positional items, then named ones *)
(** such a type takes all the items that are left, and which value they are does not depend on
    anything else; nothing may follow it *)
Theorem C97_struct : forall (env : Env) V (t : sdef V) B (g : list V -> B), plain_struct t ->
  takes_rest (fu_map g (struct_fu t)) (fun its v => exists w, keyed_values t its w /\ v = g w).
Proof. exact @l_tail_struct. Qed.
Print Assumptions C97_struct.
Theorem C97_enum : forall (env : Env) V (e : edef V) B (g : evalue V -> B), proper_enum TMeta e -> no_flattened e ->
  takes_rest (fu_map g (enum_fu e)) (fun its v => exists w, keyed_variant e its w /\ v = g w).
Proof. exact @l_tail_enum. Qed.
Print Assumptions C97_enum.

(** the first items are the values of the first fields, one each and in order; the others are
    the named items of the last field *)
Theorem C97_args : forall (env : Env) V (s : sdef V) fs f u K tm p st segs ws,
  tuple_run s tm p -> any_tuple_struct s -> fine_items s -> Forall uniform_missing (s_raw s) ->
  tailed s fs f u -> takes_rest u K ->
  listed segs (toks st) -> ~ In [] segs -> length fs < length segs ->
  whole p [st] ws <->
  exists us v vs, each_item fs (firstn (length fs) segs) us /\ K (skipn (length fs) segs) v /\
    spread_values s tm (map Some (us ++ [v])) vs /\ chained (s_and_thens s) vs ws.
Proof. exact @l_tail_args. Qed.
Print Assumptions C97_args.

(** without named items: the default of the last field, or its value for no items ([absent]) *)
Theorem C97_no_args : forall (env : Env) V (s : sdef V) fs f u K tm p st segs ws,
  tuple_run s tm p -> any_tuple_struct s -> fine_items s -> Forall uniform_missing (s_raw s) ->
  tailed s fs f u -> takes_rest u K ->
  listed segs (toks st) -> ~ In [] segs -> length segs = length fs ->
  whole p [st] ws <->
  exists us vs, each_item fs segs us /\
    spread_values s tm (map Some us ++ [None]) vs /\ chained (s_and_thens s) vs ws.
Proof. exact @l_tail_none. Qed.
Print Assumptions C97_no_args.

(** Not true for every struct: one with a `rest` field reads `a = 2, z = 3` by itself, but as
    the last field it rejects the items that the rest field should take (the generated
    parse_meta_flat_unnamed always asks for unknown keys to be reported) *)
Theorem C97_rest_refuted : exists (env : Env) (s t : sdef val) g ts ts1 w e,
  accepted_struct s /\ accepted_struct t /\ tailed s [pos i32] (flatu (fu_map g (struct_fu t))) (fu_map g (struct_fu t)) /\
  items ts1 = tk "1" :: items ts /\
  fst (d_inline (struct_dict t) Unnamed [mkStream ts SCall None]) = Ok w /\
  fst (d_inline (struct_dict s) Unnamed [mkStream ts1 SCall None]) = Err e /\
  map e_msg (errs_of e) = ["unknown field `z`"].
Proof. exact @ex_tail_rest. Qed.
Print Assumptions C97_rest_refuted.

(** struct C(i32, #[deluxe(flatten)] N) with struct N { a: i32, #[deluxe(default = 7)] b: i32 };
    struct D(i32, #[deluxe(flatten)] P) with an enum P *)
Example C97_struct_ex : plain_struct xt_n. Proof. exact xt_n_plain. Qed.
Example C97_args_ex : any_tuple_struct xt_c /\ fine_items xt_c /\ Forall uniform_missing (s_raw xt_c) /\
  tailed xt_c [pos i32] (flatu (sfu xt_n)) (sfu xt_n).
Proof. exact xt_c_ok. Qed.
Example C97_enum_ex : any_tuple_struct xt_d /\ fine_items xt_d /\ Forall uniform_missing (s_raw xt_d) /\
  tailed xt_d [pos i32] (flatu xt_efu) xt_efu.
Proof. exact xt_d_ok. Qed.
Example C97_runs_ex :
  fst (d_inline (struct_dict xt_c) Unnamed [xt_in "1, b = 3, a = 2,"]) = Ok [VI 1; VS [VI 2; VI 3]] /\
  fst (d_inline (struct_dict xt_c) Unnamed [xt_in "1, a = 2"]) = Ok [VI 1; VS [VI 2; VI 7]] /\
  is_ok (fst (d_inline (struct_dict xt_c) Unnamed [xt_in "1, 2"])) = false /\
  is_ok (fst (d_inline (struct_dict xt_c) Unnamed [xt_in "a = 2, 1"])) = false /\
  is_ok (fst (d_inline (struct_dict xt_c) Unnamed [xt_in "1, a = 2, c = 3"])) = false /\
  is_ok (fst (d_inline (struct_dict xt_c) Unnamed [xt_in "1"])) = false /\
  fst (d_inline (struct_dict xt_d) Unnamed [xt_in "1, b(2)"]) = Ok [VI 1; VE 1 [VI 2]] /\
  is_ok (fst (d_inline (struct_dict xt_d) Unnamed [xt_in "1, b(2), a"])) = false.
Proof. exact xt_runs. Qed.
