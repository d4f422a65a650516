(** What an enum's source says its parser does: the options of the variants and of their
    fields on one side, the items of an input on the other. *)
From Verif Require Export SpecSource SpecVariant.

(** *** The options of a variant *)
Definition skipped_v (vo : list vopt) : bool := existsb fst (v_skips vo).
Definition transparent_v (vo : list vopt) : bool := existsb fst (somes (v_transparents vo)).
Definition unknown_v (vo : list vopt) : bool := existsb (fun b => b) (v_unknowns vo).
(** [k] calls for the variant [v]: its new name, or its own in snake case, or an alias; a
    skipped variant cannot be called *)
Definition calls (v : src_variant) (vo : list vopt) (k : string) : Prop :=
  skipped_v vo = false /\ In k (map fst (names_v v vo)).

Section S.
Context {env : Env} {V : Type}.
Variable ru : rust V.

(** the parser of a field of a variant: `with` is not used in a transparent one *)
Definition impl_in (vo : list vopt) (f : src_field) (os : list fopt) : dict V :=
  if transparent_v vo then rt_item (ru_type ru f) else impl_of ru f os.

(** The tokens [body] after the name [k] are a value [vs] of the variant [v], whose fields
    have the options [oss] *)
Inductive variant_content (v : src_variant) (oss : list (list fopt)) (vo : list vopt)
  (tm : tmode V) (k : string) (ksp : span) (body : list token) (vs : list V) : Prop :=
| VC_unit : transparent_v vo = false -> sv_shape v = ShUnit -> vs = [] ->
    (body = [] \/ exists ts, content ShUnit body ts /\ blank ts) ->
    variant_content v oss vo tm k ksp body vs
| VC_named ts : transparent_v vo = false -> sv_shape v = ShNamed ->
    (body = [] /\ ts = [] \/ content ShNamed body ts) ->
    source_value ru (sv_fields v) oss None (unknown_v vo) tm ksp (items ts) vs ->
    variant_content v oss vo tm k ksp body vs
| VC_tuple ts its : transparent_v vo = false -> sv_shape v = ShUnnamed ->
    (body = [] /\ ts = [] /\ (forall os, In os oss -> takes os = true -> defaults os <> []) \/
     content ShUnnamed body ts) ->
    (its = items ts \/
     its = [] /\ blank ts /\ (forall os, In os oss -> takes os = false)) ->
    source_tuple ru (sv_fields v) oss None tm its vs ->
    variant_content v oss vo tm k ksp body vs
| VC_transparent j f os x : transparent_v vo = true ->
    nth_error (sv_fields v) j = Some f -> nth_error oss j = Some os -> takes os = true ->
    accepts (d_named (rt_item (ru_type ru f)) k ksp) body x ->
    length vs = length (sv_fields v) ->
    (forall n g os' w, nth_error (sv_fields v) n = Some g -> nth_error oss n = Some os' ->
       nth_error vs n = Some w ->
       if Nat.eqb n j then converted ru os' x w else without_item ru None tm n g os' w) ->
    variant_content v oss vo tm k ksp body vs.

(** *** The enum *)
(** [seg] calls for variant number [n] *)
Definition for_variant (i : src_enum) (vos : list (list vopt)) (n : nat) (seg : list token) : Prop :=
  exists v vo k ksp body, nth_error (se_variants i) n = Some v /\ nth_error vos n = Some vo /\
    item_key seg = Some (k, ksp, body) /\ calls v vo k.
(** The items [its] are the value [y] (a variant's number and its fields) of the enum: one
    item calls for a variant and has a value of it, and no other does; or none does, and
    the enum has a default.  If a variant is called for there are no other items, except
    with `allow_unknown_fields` ([lenient]). *)
Definition source_enum (i : src_enum) (osss : list (list (list fopt))) (vos : list (list vopt))
  (dflt : option (evalue V)) (lenient : bool) (tm : tmode V) (its : list (list token))
  (y : evalue V) : Prop :=
  (forall seg, In seg its -> item_key seg <> None) /\
  ((exists a seg b n v oss vo k ksp body vs, its = a ++ seg :: b /\
      nth_error (se_variants i) n = Some v /\ nth_error osss n = Some oss /\
      nth_error vos n = Some vo /\
      item_key seg = Some (k, ksp, body) /\ calls v vo k /\
      variant_content v oss vo tm k ksp body vs /\ y = (n, vs) /\
      (forall s m, In s (a ++ b) -> ~ for_variant i vos m s) /\
      (lenient = false -> a = [] /\ b = [])) \/
   (forall s m, In s its -> ~ for_variant i vos m s) /\ dflt = Some y).

(** *** Which enums *)
(** the fields' types are as in C53; in tuples, whether one can be missing does not depend on
    what it is called *)
Definition typed_variant (v : src_variant) (oss : list (list fopt)) (vo : list vopt) : Prop :=
  Forall2 (fun f os => fine (impl_in vo f os) /\
             (sv_shape v = ShUnnamed -> transparent_v vo = false -> uniform ru f os))
          (sv_fields v) oss.
(** The fields have distinct names.  The macro does not check this for variants; the first
    of two fields with the same name would get its items. *)
Definition distinct_in (v : src_variant) (oss : list (list fopt)) : Prop :=
  NoDup (map fst (flat_map (fun p => names_f (fst p) (snd p)) (combine (sv_fields v) oss))).
(** not flattened; no flattened, appended or rest fields; no `and_then` for the fields of a
    transparent variant (see C02) *)
Definition plain_v (oss : list (list fopt)) (vo : list vopt) : Prop :=
  is_flattened_v vo = false /\ Forall plain oss /\
  (transparent_v vo = true -> forall os e, In os oss -> ~ In (OAndThen e) os).
(** an enum without flattened variants, and without flattened, appended and rest fields *)
Definition plain_enum (i : src_enum) (osss : list (list (list fopt))) (vos : list (list vopt)) : Prop :=
  forall n v oss vo, nth_error (se_variants i) n = Some v -> nth_error osss n = Some oss ->
    nth_error vos n = Some vo ->
    plain_v oss vo /\ typed_variant v oss vo /\
    (sv_shape v = ShNamed -> transparent_v vo = false -> distinct_in v oss).
End S.

(** the derive for items and lists, and the one for attributes *)
Definition derived_enum {env : Env} {V} (sy : synlib) (tm : tmode V) (i : src_enum) (d : senum) : Prop :=
  match tm with TMeta => derive_meta_enum sy i = Ok d | TAttrs _ _ => derive_attr_enum sy i = Ok d end.
(** the options written in the attributes of the enum, its variants and their fields *)
Definition enum_options {env : Env} (sy : synlib) (i : src_enum) (osss : list (list (list fopt)))
  (vos : list (list vopt)) (eo : list eopt) : Prop :=
  Forall2 (fun v oss => Forall2 (fun f os => has_options (spells_f sy) (sf_attrs f) os) (sv_fields v) oss)
          (se_variants i) osss /\
  Forall2 (fun v vo => has_options spells_v (sv_attrs v) vo) (se_variants i) vos /\
  has_options (spells_e sy) (se_attrs i) eo.
