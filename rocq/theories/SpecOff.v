(** Options that are set to `false`, as in `skip = false`: a source that has them against the
    same source without them. *)
From Verif Require Export SpecOpts Lower.

Definition on_f (o : fopt) : bool :=
  match o with
  | OFlatten x => ff_value x
  | OAppend x | ORest x | OSkip x => fst x
  | OContainer c => fc_value c
  | _ => true
  end.
Definition on_s (o : sopt) : bool :=
  match o with
  | STransparent x => st_value x
  | SUnknown b => b
  | _ => true
  end.
Definition on_v (o : vopt) : bool :=
  match o with
  | VTransparent x | VFlatten x => match x with Some (b, _) => b | None => false end
  | VUnknown b => b
  | VSkip x => fst x
  | _ => true
  end.
Definition on_e (o : eopt) : bool := match o with EUnknown b => b | _ => true end.

Section O.
Context {env : Env}.
Variable sy : synlib.
(** the attributes [l'] have the options of [l] that are not set to `false` *)
Definition less {O} (spells : string -> span -> stream -> O -> stream -> Prop) (on : O -> bool)
           (l l' : list attr) : Prop :=
  exists os, has_options spells l os /\ has_options spells l' (filter on os).
Definition less_field (f f' : src_field) : Prop :=
  sf_ident f' = sf_ident f /\ sf_ty f' = sf_ty f /\ less (spells_f sy) on_f (sf_attrs f) (sf_attrs f').
Definition less_variant (v v' : src_variant) : Prop :=
  sv_ident v' = sv_ident v /\ sv_shape v' = sv_shape v /\ Forall2 less_field (sv_fields v) (sv_fields v') /\
  less spells_v on_v (sv_attrs v) (sv_attrs v').
Definition less_struct (i i' : src_struct) : Prop :=
  ss_shape i' = ss_shape i /\ Forall2 less_field (ss_fields i) (ss_fields i') /\
  less (spells_s sy) on_s (ss_attrs i) (ss_attrs i').
Definition less_enum (i i' : src_enum) : Prop :=
  Forall2 less_variant (se_variants i) (se_variants i') /\ less (spells_e sy) on_e (se_attrs i) (se_attrs i').
(** the source [i] is refused with the messages [m], and accepted without the `false` options *)
Definition refused_for (i : src_struct) (m : list string) : Prop :=
  exists i' d' e, less_struct i i' /\ derive_attr_struct sy i' = Ok d' /\
    derive_attr_struct sy i = Err e /\ map e_msg (errs_of e) = m.
End O.

(** what a type implements does not depend on the attributes of a field *)
Definition by_type {V} (ru : rust V) : Prop :=
  forall f f', sf_ident f' = sf_ident f -> sf_ty f' = sf_ty f -> ru_type ru f' = ru_type ru f.
