(** Property theorems: fields marked `container`.  Every proof is one [exact]; vocabulary in
    SpecHold.v, inputs of the examples in ExHold.v.

    [held tm fs vs]: in the values [vs] of the fields [fs], the container fields hold the object
    the attributes are on ([TAttrs pn obj]), or their default where there is none ([TMeta]),
    after the field's own `map` and `and_then`.  [chained gs ws vs]: the `and_then`s of the
    struct turn [ws] into [vs].  [conv o] is the object [o] as ToContainer makes it. *)
From Verif Require Import ExHold.

(** ** C98 Container fields *)
(** ParseAttributes: the object, whatever the attributes contain *)
Theorem C98_struct : forall (env : Env) V (s : sdef V) conv o vs, fits s ->
  struct_parse_attributes s conv o = Ok vs ->
  exists pn ws, chained (s_and_thens s) ws vs /\ held (TAttrs pn (conv o)) (s_raw s) ws.
Proof. exact @l_hold_struct. Qed.
Print Assumptions C98_struct.

(** ExtractAttributes: the object as the extraction leaves it, without the attributes read *)
Theorem C98_extract : forall (env : Env) V (s : sdef V) conv o o1 vs, fits s ->
  struct_extract_attributes s conv o = (Ok vs, o1) ->
  exists pn ws, chained (s_and_thens s) ws vs /\ held (TAttrs pn (conv o1)) (s_raw s) ws.
Proof. exact @l_hold_extract. Qed.
Print Assumptions C98_extract.

(** ParseMetaItem, in each of the four spellings: the default *)
Theorem C98_meta : forall (env : Env) V (s : sdef V), fits s -> dict_yields (struct_dict s) (meta_held s).
Proof. exact @l_hold_meta. Qed.
Print Assumptions C98_meta.

(** enums, with or without flattened variants: the same unless the value is the enum's default *)
Theorem C98_enum_partial : forall (env : Env) V (e : edef V) conv o x, (forall pn obj, fits_enum (TAttrs pn obj) e) ->
  enum_parse_attributes e conv o = Ok x ->
  exists pn y, chained (e_and_thens e) y x /\ held_in (TAttrs pn (conv o)) e y.
Proof. exact @l_hold_enum. Qed.
Print Assumptions C98_enum_partial.
Theorem C98_enum_extract_partial : forall (env : Env) V (e : edef V) conv o o1 x, (forall pn obj, fits_enum (TAttrs pn obj) e) ->
  enum_extract_attributes e conv o = (Ok x, o1) ->
  exists pn y, chained (e_and_thens e) y x /\ held_in (TAttrs pn (conv o1)) e y.
Proof. exact @l_hold_enum_extract. Qed.
Print Assumptions C98_enum_extract_partial.
Theorem C98_enum_meta : forall (env : Env) V (e : edef V), fits_enum TMeta e -> dict_yields (enum_dict e) (meta_in e).
Proof. exact @l_hold_enum_meta. Qed.
Print Assumptions C98_enum_meta.

(** what the derive macros accept meets the conditions *)
Theorem C98_derived_struct : forall (env : Env) V sy (ru : rust V) i d auto expr post, written_struct i ->
  (derive_attr_struct sy i = Ok d \/ derive_meta_struct sy i = Ok d) -> sound_defaults ru d auto expr ->
  fits (lower_struct ru auto expr post d).
Proof. exact @l_hold_derived_struct. Qed.
Print Assumptions C98_derived_struct.
Theorem C98_derived_enum : forall (env : Env) V sy (ru : rust V) i d auto expr post pn obj, written_enum i ->
  derive_attr_enum sy i = Ok d -> fits_enum (TAttrs pn obj) (lower_enum ru auto expr post d).
Proof. exact @l_hold_derived_enum. Qed.
Print Assumptions C98_derived_enum.
Theorem C98_derived_meta : forall (env : Env) V sy (ru : rust V) i d auto expr post, written_enum i ->
  derive_meta_enum sy i = Ok d -> fits_enum TMeta (lower_enum ru auto expr post d).
Proof. exact @l_hold_derived_meta. Qed.
Print Assumptions C98_derived_meta.

(** Not true of an enum's own default: it is returned as it is *)
Theorem C98_default_refuted : exists (env : Env) (e : edef val) conv o x v i f,
  (forall pn obj, fits_enum (TAttrs pn obj) e) /\ enum_parse_attributes e conv o = Ok x /\
  nth_error (e_variants e) (fst x) = Some v /\ nth_error (v_raw v) i = Some f /\ f_container f = true /\ f_transforms f = [] /\
  nth_error (snd x) i <> Some (conv o).
Proof. exact @ex_hold_default. Qed.
Print Assumptions C98_default_refuted.
(** The documentation says that `default` is implied for container fields when the struct or
    enum also derives ParseMetaItem.  That holds for structs; the enum is rejected *)
Theorem C98_implied_refuted : exists (env : Env) sy (ss : src_struct) (se : src_enum) ds de f h g err,
  derive_meta_struct sy ss = Ok ds /\ In f (i_fields ds) /\ g_is_container f = true /\ g_default f <> None /\
  derive_attr_enum sy se = Ok de /\ In h (j_variants de) /\ In g (h_fields h) /\ g_is_container g = true /\ g_default g = None /\
  derive_meta_enum sy se = Err err /\
  map e_msg (errs_of err) = ["derive(ParseMetaItem) requires container field to have `default`"].
Proof. exact @ex_hold_implied. Qed.
Print Assumptions C98_implied_refuted.

(** struct S { #[deluxe(container, map = ..)] c: .., a: i32 }; the toy object is the number of
    attributes it has *)
Example C98_struct_ex : fits xh_s. Proof. exact xh_fits. Qed.
Example C98_runs_ex : struct_parse_attributes xh_s cv xh_o = Ok [VL [VX "3"]; VI 1] /\
  struct_extract_attributes xh_s cv xh_o = (Ok [VL [VX "1"]; VI 1], ONode [ap ["other"]]) /\
  deluxe_parse2 (struct_dict xh_s) (tk "a = 1") = Ok [VL [VX "default"]; VI 1] /\
  is_ok (deluxe_parse2 (struct_dict xh_s) (tk "a = 1, c = 2")) = false.
Proof. exact xh_runs. Qed.
Example C98_enum_ex : forall d tm, fits_enum tm (xh_e d). Proof. exact xh_efits. Qed.
Example C98_enum_runs_ex : enum_parse_attributes (xh_e None) cv (ONode [al ["my"] "a(a = 1)"; ap ["other"]]) = Ok (0, [VX "2"; VI 1]) /\
  enum_extract_attributes (xh_e None) cv (ONode [al ["my"] "x = 1"; ap ["other"]]) = (Ok (2, [VI 1; VX "1"]), ONode [ap ["other"]]) /\
  deluxe_parse2 (enum_dict (xh_e None)) (tk "x = 1") = Ok (2, [VI 1; VX "none"]).
Proof. exact xh_eruns. Qed.
Example C98_derived_ex : exists (env : Env) sy (ru : rust val) ss auto expr d f,
  derive_attr_struct sy ss = Ok d /\ written_struct ss /\ sound_defaults ru d auto expr /\ In f (i_fields d) /\ g_is_container f = true.
Proof. exact @ex_hold_source. Qed.
