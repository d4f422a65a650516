(** Vocabulary for the properties of the derive's front end (Schema.v): the attributes on
    a struct or enum, and what is generated from them. *)
From Verif Require Export SpecWf SpecStruct Schema Lower SpecSnake.

(** syn's parsers for paths, types and lifetimes return on every input and leave a suffix
    of it *)
Definition good_syn_lib (sy : synlib) : Prop :=
  well_behaved (sy_path sy) /\ well_behaved (sy_mod_path sy) /\
  well_behaved (sy_type sy) /\ well_behaved (sy_lifetime sy).

(** what the Rust grammar guarantees: fields in braces have names, fields in parentheses
    have none, a unit struct has no fields *)
Definition fields_fit (sh : shape) (fs : list src_field) : Prop :=
  match sh with
  | ShNamed => Forall (fun f => sf_ident f <> None) fs
  | ShUnnamed => Forall (fun f => sf_ident f = None) fs
  | ShUnit => fs = []
  end.
Definition written_struct (i : src_struct) : Prop := fields_fit (ss_shape i) (ss_fields i).
Definition written_enum (i : src_enum) : Prop :=
  Forall (fun v => fields_fit (sv_shape v) (sv_fields v)) (se_variants i).

(** the snake case form of the variant's name is an identifier (C76) *)
Definition snake_ok (v : src_variant) : Prop := letter_first (plain_name (fst (sv_ident v))).
(** a transparent variant whose only parsed field is `rest` *)
Definition no_transparent_rest (d : senum) : Prop :=
  forall v f, In v (j_variants d) -> b_true (h_transparent v) = true -> In f (h_fields v) ->
              sv_true (g_rest f) = false.

(** a variant that is not skipped is transparent, and its parsed field is `rest` *)
Definition transparent_with_rest (d : senum) : Prop :=
  exists v f, In v (j_variants d) /\ sv_true (h_skip v) = false /\ b_true (h_transparent v) = true /\
    In f (h_fields v) /\ g_is_parsable f = true /\ sv_true (g_rest f) = true.

(** the implementations of the parsing traits are well behaved *)
Definition good_type {V} (t : rtype V) : Prop :=
  good_dict (rt_item t) /\ good_fn (rt_fn t) /\ good_fu (rt_fu t) /\
  good_multi (rt_append t) /\ good_multi (rt_rest t).
Definition good_rust {V} (ru : rust V) : Prop :=
  (forall f, good_type (ru_type ru f)) /\ (forall p, good_type (ru_with ru p)).

(** no field has an and_then *)
Definition no_field_and_then (fs : list sfield) : Prop :=
  Forall (fun f => forall e, ~ In (SAndThen e) (g_transforms f)) fs.
Definition st_true (t : option stransparent) : bool :=
  match t with Some x => st_value x | None => false end.

(** the names that select a field or variant *)
Definition field_names_of (d : sstruct) : list string := map fst (flat_map g_idents (i_fields d)).
(** variants that are selected by their name *)
Definition ordinary (v : svariant) : bool := negb (b_true (h_flatten v)).
Definition flattened (v : svariant) : bool := b_true (h_flatten v).
Definition variant_names_of (d : senum) : list string :=
  map fst (flat_map h_idents (filter ordinary (j_variants d))).

(** a field that must be given: parsed on its own, without a default *)
Definition required (f : sfield) : Prop :=
  g_is_parsable f = true /\ g_is_flat f = false /\ g_default f = None.
Definition optional_field (f : sfield) : Prop :=
  g_is_parsable f = true /\ g_is_flat f = false /\ g_default f <> None.
(** two flattened variants with the same key have the same required fields: every required
    field of one has, in the other, a required field with the same names *)
Definition same_names (f g : sfield) : Prop :=
  forall n, In n (map fst (g_idents f)) <-> In n (map fst (g_idents g)).
Definition covered (v w : svariant) : Prop :=
  forall f, In f (h_fields v) -> required f ->
    exists g, In g (h_fields w) /\ required g /\ same_names f g.
