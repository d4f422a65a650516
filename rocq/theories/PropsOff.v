(** Property theorems: options of the attributes set to `false`.  Every proof is one [exact];
    vocabulary in SpecOff.v, sources of the examples in ExOff.v.

    [less_struct sy i i'] and [less_enum sy i i']: the source [i'] is [i] without the options
    set to `false`, on the item and on its fields and variants. *)
From Verif Require Import ExOff.

(** ** C101 An option set to `false` is as if it had not been written *)
(** an accepted source is accepted without these options, and parses the same *)
Theorem C101_struct_partial : forall (env : Env) V sy (ru : rust V) i i' d auto expr post, good_syn_lib sy -> by_type ru ->
  less_struct sy i i' -> derive_attr_struct sy i = Ok d ->
  exists d', derive_attr_struct sy i' = Ok d' /\ i_crate d' = i_crate d /\
             lower_struct ru auto expr post d' = lower_struct ru auto expr post d.
Proof. exact @l_off_attr. Qed.
Print Assumptions C101_struct_partial.
Theorem C101_struct_meta_partial : forall (env : Env) V sy (ru : rust V) i i' d auto expr post, good_syn_lib sy -> by_type ru ->
  less_struct sy i i' -> derive_meta_struct sy i = Ok d ->
  exists d', derive_meta_struct sy i' = Ok d' /\ i_crate d' = i_crate d /\
             lower_struct ru auto expr post d' = lower_struct ru auto expr post d.
Proof. exact @l_off_meta. Qed.
Print Assumptions C101_struct_meta_partial.
Theorem C101_enum_partial : forall (env : Env) V sy (ru : rust V) i i' d auto expr post, good_syn_lib sy -> by_type ru -> written_enum i ->
  less_enum sy i i' -> derive_attr_enum sy i = Ok d ->
  exists d', derive_attr_enum sy i' = Ok d' /\ j_crate d' = j_crate d /\
             lower_enum ru auto expr post d' = lower_enum ru auto expr post d.
Proof. exact @l_off_enum_attr. Qed.
Print Assumptions C101_enum_partial.
Theorem C101_enum_meta_partial : forall (env : Env) V sy (ru : rust V) i i' d auto expr post, good_syn_lib sy -> by_type ru -> written_enum i ->
  less_enum sy i i' -> derive_meta_enum sy i = Ok d ->
  exists d', derive_meta_enum sy i' = Ok d' /\ j_crate d' = j_crate d /\
             lower_enum ru auto expr post d' = lower_enum ru auto expr post d.
Proof. exact @l_off_enum_meta. Qed.
Print Assumptions C101_enum_meta_partial.

(** Not the other way round.  `transparent = false` on a struct with two fields,
    `flatten = false` with `rename`, `container = false` on two fields and
    `allow_unknown_fields = false` on a tuple struct are refused *)
Theorem C101_refuted : exists (env : Env) sy i1 i2 i3 i4,
  refused_for sy i1 ["`transparent` struct must have only one parseable field"] /\
  refused_for sy i2 ["only one of `flatten`, `rename` is allowed"; "only one of `flatten`, `rename` is allowed"] /\
  refused_for sy i3 ["Duplicate `container` field"] /\
  refused_for sy i4 ["`allow_unknown_fields` not allowed on tuple struct"].
Proof. exact @ex_off_refuted. Qed.
Print Assumptions C101_refuted.

(** struct { #[deluxe(rename = b, skip = false)] a, #[deluxe(append = false)] c } with
    #[deluxe(allow_unknown_fields = false)] *)
Example C101_struct_ex : good_syn_lib xsy /\ by_type xru /\ less_struct xsy x_off x_on /\ exists d, derive_attr_struct xsy x_off = Ok d.
Proof. exact (conj xsy_good (conj xru_by_type (conj x_less x_off_ok))). Qed.
(** enum { #[deluxe(flatten = false, transparent = false)] A { #[deluxe(container = false)] x },
           #[deluxe(skip = false)] B } *)
Example C101_enum_ex : less_enum xsy x_off_e x_on_e /\ written_enum x_off_e /\ exists d, derive_meta_enum xsy x_off_e = Ok d.
Proof. exact (conj x_less_e x_off_e_ok). Qed.
