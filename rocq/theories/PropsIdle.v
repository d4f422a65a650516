(** Property theorems about options without effect (C91).  Lemmas in LemIdle.v,
    specification in SpecIdle.v, examples in ExIdle.v. *)
From Verif Require Import SourceKit LemIdle ExIdle.

(** ** C91 Every option of a field takes effect *)
(** refuted: a source whose `append` field has a default that is not used when the field
    is absent *)
Theorem C91_default_refuted : exists (env : Env) sy (ru : rust val) auto expr post i d f e,
  derive_meta_struct sy i = Ok d /\ i_fields d = [f] /\
  sv_true (g_append f) = true /\ g_default f = Some (DExpr e) /\ ru_expr ru e = VL [VI 7] /\
  deluxe_parse2 (struct_dict (lower_struct ru auto expr post d)) nothing_given = Ok [VL []].
Proof. exact ex_idle_default. Qed.
Print Assumptions C91_default_refuted.

(** the default of an `append` or `rest` field never matters, on any input *)
Theorem C91_default_idle : forall (env : Env) V (s t : sdef V), alike_structs s t ->
  (forall m st, d_item (struct_dict s) m st = d_item (struct_dict t) m st) /\
  (forall m l, d_inline (struct_dict s) m l = d_inline (struct_dict t) m l) /\
  (forall sp, d_flag (struct_dict s) sp = d_flag (struct_dict t) sp) /\
  (forall m prefix validate l,
     fn_parse (struct_fn s) m prefix validate l = fn_parse (struct_fn t) m prefix validate l) /\
  (forall obj spans l, struct_attr_body s obj spans l = struct_attr_body t obj spans l).
Proof. exact @l_idle_default. Qed.
Print Assumptions C91_default_idle.

(** refuted: a source whose transparent variant has a field with a `with` module; what the
    module reads is rejected *)
Theorem C91_with_refuted : exists (env : Env) sy (ru : rust val) auto expr post i d v f m,
  derive_meta_enum sy i = Ok d /\ j_variants d = [v] /\ h_fields v = [f] /\ h_transparent v = Some true /\
  g_with f = Some m /\ deluxe_parse2 (rt_item (ru_with ru m)) (tk """x""") = Ok (VT "x") /\
  exists e, deluxe_parse2 (enum_dict (lower_enum ru auto expr post d)) idle_in = Err e /\
    e_msg (se_hd e) = "expected integer literal".
Proof. exact ex_idle_with. Qed.
Print Assumptions C91_with_refuted.

(** the `with` of the field of a transparent variant never matters *)
Theorem C91_with_idle : forall V (ru : rust V) (v : svariant), h_transparent v = Some true ->
  lower_variant ru (without_modules v) = lower_variant ru v.
Proof. exact @l_idle_with. Qed.
Print Assumptions C91_with_idle.

Example C91_ex : alike_structs idle_a idle_b /\
  deluxe_parse2 (struct_dict idle_a) (tk "a = 1") = Ok [VI 1; VL []] /\
  deluxe_parse2 (struct_dict idle_b) (tk "a = 1") = Ok [VI 1; VL []].
Proof. split; [exact idle_alike|]. split; vm_compute; reflexivity. Qed.

(** ** C92 What is skipped leaves no trace *)
(** skipped fields of named structs: only their defaults and transforms matter *)
Theorem C92_field_partial : forall (env : Env) V (s t : sdef V), skip_structs s t ->
  (forall m st, d_item (struct_dict s) m st = d_item (struct_dict t) m st) /\
  (forall m l, d_inline (struct_dict s) m l = d_inline (struct_dict t) m l) /\
  (forall sp, d_flag (struct_dict s) sp = d_flag (struct_dict t) sp) /\
  (forall m prefix validate l,
     fn_parse (struct_fn s) m prefix validate l = fn_parse (struct_fn t) m prefix validate l) /\
  (forall obj spans l, struct_attr_body s obj spans l = struct_attr_body t obj spans l).
Proof. exact @l_skip_struct. Qed.
Print Assumptions C92_field_partial.

(** refuted: with a skipped `rest` field every unknown key is accepted, and lost *)
Theorem C92_rest_refuted : exists (env : Env) sy (ru : rust val) auto expr post i d f g,
  derive_meta_struct sy i = Ok d /\ i_fields d = [f; g] /\ map fst (g_idents f) = ["a"] /\
  sv_true (g_skip g) = true /\ i_unknown_ok d = None /\
  deluxe_parse2 (struct_dict (lower_struct ru auto expr post d)) (tk "a = 1, unheard_of = 2") = Ok [VI 1; VI 0].
Proof. exact ex_skip_rest. Qed.
Print Assumptions C92_rest_refuted.

(** refuted: the name of a skipped field cannot be given to another one *)
Theorem C92_name_refuted : exists sy i f g e,
  ss_fields i = [f; g] /\ derive_meta_struct sy i = Err e /\ e_msg (se_hd e) = "duplicate field name for `a`" /\
  sf_ident g <> sf_ident f /\
  exists os, read_field sy f = Ok os /\ sv_true (g_skip os) = true.
Proof. exact ex_skip_names. Qed.
Print Assumptions C92_name_refuted.

(** skipped variants that are not flattened: nothing about them matters *)
Theorem C92_variant_partial : forall (env : Env) V (e h : edef V), skip_enums e h ->
  (forall m st, d_item (enum_dict e) m st = d_item (enum_dict h) m st) /\
  (forall m l, d_inline (enum_dict e) m l = d_inline (enum_dict h) m l) /\
  (forall sp, d_flag (enum_dict e) sp = d_flag (enum_dict h) sp) /\
  (forall m prefix validate l,
     fn_parse (enum_fn e) m prefix validate l = fn_parse (enum_fn h) m prefix validate l) /\
  (forall obj spans l, enum_attr_body e obj spans l = enum_attr_body h obj spans l) /\
  fn_names (enum_fn e) = fn_names (enum_fn h).
Proof. exact @l_skip_enum. Qed.
Print Assumptions C92_variant_partial.

(** refuted: the keys of a skipped flattened variant are accepted, and lost *)
Theorem C92_variant_refuted : exists (env : Env) sy (ru : rust val) auto expr post i d v w,
  derive_meta_enum sy i = Ok d /\ j_variants d = [v; w] /\ sv_true (h_skip w) = true /\ j_unknown_ok d = None /\
  (exists f, h_fields w = [f] /\ map fst (g_idents f) = ["x"]) /\
  deluxe_parse2 (enum_dict (lower_enum ru auto expr post d)) (tk "a, x = 1") = Ok (0, []).
Proof. exact ex_skip_variant. Qed.
Print Assumptions C92_variant_refuted.

Example C92_ex : skip_structs skip_a skip_b /\ skip_enums (skip_e (skip_v "x" [it "" i32])) (skip_e (skip_v "y" [])) /\
  deluxe_parse2 (struct_dict skip_a) (tk "a = 1") = Ok [VI 1; VI 3] /\
  is_ok (deluxe_parse2 (enum_dict (skip_e (skip_v "x" [it "" i32]))) (tk "x(1)")) = false /\
  deluxe_parse2 (enum_dict (skip_e (skip_v "x" [it "" i32]))) (tk "a") = Ok (1, []).
Proof. split; [exact skip_ab|]. split; [exact skip_es|]. repeat split; vm_compute; reflexivity. Qed.
