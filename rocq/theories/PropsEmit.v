(** C102: the variables of the emitted code. *)
From Verif Require Import LemEmit5 ExSchema ExEmit.

(** ** C102.  The functions emitted for an accepted struct mention only variables that are in
    scope, unless the struct is read as its only field and a field has `and_then`. *)
Theorem C102_meta_struct_partial : forall (env : Env) sy i d, written_struct i -> derive_meta_struct sy i = Ok d ->
  (Forall self_contained (emit_meta_struct d) <-> (passes_on d -> no_field_and_then (i_fields d))).
Proof. exact @l_emit_meta_struct. Qed.
Print Assumptions C102_meta_struct_partial.
Theorem C102_attr_struct_partial : forall (env : Env) sy i d m, written_struct i -> derive_attr_struct sy i = Ok d ->
  m = GParse \/ m = GExtract ->
  (Forall self_contained (emit_attr_struct m d) <-> (passes_on d -> no_field_and_then (i_fields d))).
Proof. exact @l_emit_attr_struct. Qed.
Print Assumptions C102_attr_struct_partial.
(** #[deluxe(transparent)] struct W(#[deluxe(and_then = f)] i32) is accepted by both derives;
    the code of the field's and_then mentions `errors`, which is not declared. *)
Theorem C102_struct_refuted : exists (env : Env) sy i d, good_syn_lib sy /\ written_struct i /\
  derive_meta_struct sy i = Ok d /\ derive_attr_struct sy i = Ok d /\
  ~ Forall self_contained (emit_meta_struct d) /\ ~ Forall self_contained (emit_attr_struct GParse d).
Proof. exact ex_emit_bad. Qed.
Print Assumptions C102_struct_refuted.

Example C102_struct_ex : (written_struct xe_pass /\
  (exists d, derive_meta_struct xsy xe_pass = Ok d /\ passes_on d /\ no_field_and_then (i_fields d) /\ length (emit_meta_struct d) = 7) /\
  (exists d, derive_attr_struct xsy xe_pass = Ok d /\ passes_on d /\ no_field_and_then (i_fields d))) /\
  written_struct x_struct /\
  (exists d, derive_meta_struct xsy x_struct = Ok d /\ ~ passes_on d /\ ~ no_field_and_then (i_fields d)) /\
  (exists d, derive_attr_struct xsy x_struct = Ok d /\ ~ passes_on d).
Proof. exact (conj ex_emit_pass (conj x_struct_written ex_emit_plain)). Qed.

(** The same for enums, unless a variant is both `flatten` and `transparent`. *)
Theorem C102_meta_enum_partial : forall (env : Env) sy i d, written_enum i -> derive_meta_enum sy i = Ok d ->
  (Forall self_contained (emit_meta_enum d) <-> ~ flat_and_transparent d).
Proof. exact @l_emit_meta_enum. Qed.
Print Assumptions C102_meta_enum_partial.
Theorem C102_attr_enum_partial : forall (env : Env) sy i d m, written_enum i -> derive_attr_enum sy i = Ok d ->
  m = GParse \/ m = GExtract -> (Forall self_contained (emit_attr_enum m d) <-> ~ flat_and_transparent d).
Proof. exact @l_emit_attr_enum. Qed.
Print Assumptions C102_attr_enum_partial.
(** enum E { #[deluxe(flatten, transparent)] V { x: i32 } } is accepted by both derives; the
    code of the variant mentions `input` and `p`, which only exist for a named variant. *)
Theorem C102_enum_refuted : exists (env : Env) sy i d, good_syn_lib sy /\ written_enum i /\
  derive_meta_enum sy i = Ok d /\ derive_attr_enum sy i = Ok d /\
  ~ Forall self_contained (emit_meta_enum d) /\ ~ Forall self_contained (emit_attr_enum GParse d).
Proof. exact ex_emit_both. Qed.
Print Assumptions C102_enum_refuted.

Example C102_enum_ex : written_enum xe_enum /\
  exists d, derive_meta_enum xsy xe_enum = Ok d /\ derive_attr_enum xsy xe_enum = Ok d /\ ~ flat_and_transparent d.
Proof. exact ex_emit_enum. Qed.
