(** Vocabulary for the "never panics, always terminates" properties.

    A result [returns] if it is a Rust value (Ok or Err), not a panic and not an endless
    loop.  A parser is [well_behaved] if on every input it returns and leaves a suffix of
    the tokens it was given.  The other definitions extend this to the parsing traits and
    to schemas: they demand it of everything a schema is built from, and say what the
    derive macro (and rustc, by typing) guarantee of an accepted schema. *)
From Verif Require Export Attrs With.

Definition returns {A} (r : res A) : Prop :=
  match r with Bad _ => False | _ => True end.
(** [s'] is what is left of [s] after consuming some tokens from the front *)
Definition advances (s s' : stream) : Prop := exists pre, toks s = pre ++ toks s'.

Definition well_behaved {A} (p : parser A) : Prop :=
  forall s, returns (fst (p s)) /\ advances s (snd (p s)).
Definition well_behaved_m {A} (p : mparser A) : Prop :=
  forall l, returns (fst (p l)) /\ Forall2 advances l (snd (p l)).

(** an implementation of ParseMetaItem all of whose functions are well behaved *)
Record good_dict {A} (d : dict A) : Prop := mkGood {
  gd_item : forall m, well_behaved (d_item d m);
  gd_inline : forall m, well_behaved_m (d_inline d m);
  gd_flag : forall sp, returns (d_flag d sp);
  gd_named : forall n sp, well_behaved (d_named d n sp);
  gd_missing : forall n sp, returns (d_missing d n sp)
}.
Definition good_fu {A} (u : flat_unnamed A) : Prop := forall m i, well_behaved_m (fu_parse u m i).
Definition good_fn {A} (u : flat_named A) : Prop :=
  forall m p v, well_behaved_m (fn_parse u m p v).
Definition good_multi {A} (a : list string -> mparser A) : Prop :=
  forall l, well_behaved_m (a l).

(** *** Accepted schemas *)
(** the parser of a field that is parsed at all is well behaved, and is of a kind that exists for named /
    tuple fields: field.rs 1079-1094 rejects append and rest on tuple fields; a flattened
    field implements ParseMetaFlatNamed in a named struct and ParseMetaFlatUnnamed in a
    tuple struct (274-283) *)
Definition good_kind {V} (sh : shape) (k : fkind V) : Prop :=
  match k, sh with
  | KItem d, _ => good_dict d
  | KFlatN _ u, ShNamed => good_fn u
  | KAppend a, ShNamed => good_multi a
  | KRest r, ShNamed => good_multi r
  | KFlatU u, ShUnnamed => good_fu u
  | _, _ => False
  end.
Definition good_field {V} (sh : shape) (f : field V) : Prop :=
  is_parsable f = true -> good_kind sh (f_kind f).

Definition no_and_then {V} (f : field V) : Prop :=
  forall t, In t (f_transforms f) -> match t with TMap _ => True | TAndThen _ => False end.

(** struct.rs 417-451: `transparent` needs exactly one parsable field, which is not
    flattened or appended (a `rest` field makes the struct not transparent, 117-127).
    With a field-level and_then the generated code of a transparent struct does not
    compile: it mentions an accumulator that is only declared for the others (field.rs
    704-706). *)
Definition good_transparent {V} (fs : list (field V)) : Prop :=
  length (filter is_parsable fs) = 1 /\ Forall no_and_then fs.

Definition accepted_struct {V} (s : sdef V) : Prop :=
  Forall (good_field (s_shape s)) (s_raw s) /\
  (s_is_transparent s = true -> good_transparent (s_raw s)).

(** parse_meta_item.rs 234-246: in derive(ParseMetaItem) on an enum a container field
    needs a default *)
Definition container_ok {V} (tm : tmode V) (f : field V) : Prop :=
  match tm with
  | TMeta => f_container f = true -> f_default f <> None
  | TAttrs _ _ => True
  end.
(** enum.rs 286-305: only variants with named fields can be flattened; variant.rs 522-556:
    a transparent variant has one parsable field, not flattened or appended; with a `rest`
    field the macro itself panics (variant.rs 76-85) *)
Definition accepted_variant {V} (tm : tmode V) (v : vdef V) : Prop :=
  Forall (good_field (v_shape v)) (v_raw v) /\
  Forall (container_ok tm) (v_raw v) /\
  (v_flatten v = true -> v_shape v = ShNamed) /\
  (v_transparent v = true ->
   length (filter is_parsable (v_raw v)) = 1 /\ length (filter pitem (v_raw v)) = 1).
Definition accepted_enum {V} (tm : tmode V) (e : edef V) : Prop :=
  Forall (accepted_variant tm) (e_variants e).
(** the part of the schemas for which C02 holds *)
Definition no_transparent_and_then {V} (e : edef V) : Prop :=
  forall v f, In v (e_variants e) -> v_transparent v = true -> In f (v_raw v) -> no_and_then f.

(** what optional parsing makes of the plain result: its value and no new error, or the
    default and all its errors, in order, after those already there *)
Definition optional_spec {A} (r : res A) (dflt : A) (es : errors) : Prop :=
  (exists v, r = Ok v /\ optional r dflt es = Ok (v, es)) \/
  (exists e, r = Err e /\ optional r dflt es = Ok (dflt, es ++ errs_of e)).
