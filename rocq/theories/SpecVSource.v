(** What the source of an enum with flattened variants says its parser does. *)
From Verif Require Export SpecESource SpecOrder.

Section S.
Context {env : Env} {V : Type}.
Variable ru : rust V.
Variables (i : src_enum) (osss : list (list (list fopt))) (vos : list (list vopt)).

(** variant number [n] is [v], its fields have the options [oss] and it has [vo] *)
Definition variant_no (n : nat) (v : src_variant) (oss : list (list fopt)) (vo : list vopt) : Prop :=
  nth_error (se_variants i) n = Some v /\ nth_error osss n = Some oss /\ nth_error vos n = Some vo.
(** a field that has to be there for the variant to be meant: it takes an item and has no
    default *)
Definition must_have (os : list fopt) : Prop := takes os = true /\ defaults os = [].
Definition has_required (oss : list (list fopt)) : Prop := exists os, In os oss /\ must_have os.
(** variant number [n] is flattened, not skipped, and all those fields have an item *)
Definition candidate (its : list (list token)) (n : nat) (v : src_variant) (oss : list (list fopt))
  (vo : list vopt) : Prop :=
  variant_no n v oss vo /\ is_flattened_v vo = true /\ skipped_v vo = false /\
  forall m f os, nth_error (sv_fields v) m = Some f -> nth_error oss m = Some os -> must_have os ->
    exists seg, In seg its /\ is_for f os seg.
(** a variant that can do without any item is only meant if no other is *)
Definition meant (its : list (list token)) (n : nat) (v : src_variant) (oss : list (list fopt))
  (vo : list vopt) : Prop :=
  candidate its n v oss vo /\
  (has_required oss \/ forall m v' oss' vo', candidate its m v' oss' vo' -> ~ has_required oss').
(** the names of a field, in order *)
Definition name_list (f : src_field) (os : list fopt) (ks : list string) : Prop :=
  StronglySorted str_before ks /\ forall k, In k ks <-> In k (map fst (names_f f os)).
(** the name lists of the fields that have to be there, in order *)
Definition name_lists (v : src_variant) (oss : list (list fopt)) (kss : list (list string)) : Prop :=
  StronglySorted set_before kss /\
  forall ks, In ks kss <-> exists m f os, nth_error (sv_fields v) m = Some f /\
    nth_error oss m = Some os /\ must_have os /\ name_list f os ks.
(** Of the variants that are meant one is taken: the first in the order of the names of the fields
    that have to be there, and if these are the same, the last one in the source. *)
Definition taken (its : list (list token)) (n : nat) (v : src_variant) (oss : list (list fopt))
  (vo : list vopt) : Prop :=
  meant its n v oss vo /\
  forall n' v' oss' vo' a b, meant its n' v' oss' vo' -> name_lists v oss a -> name_lists v' oss' b ->
    sets_before a b \/ a = b /\ n' <= n.
(** [seg] has the name of a field of a flattened variant as its key *)
Definition for_flattened (seg : list token) : Prop :=
  exists n v oss vo m f os k ksp body, variant_no n v oss vo /\ is_flattened_v vo = true /\
    nth_error (sv_fields v) m = Some f /\ nth_error oss m = Some os /\
    item_key seg = Some (k, ksp, body) /\ In k (map fst (names_f f os)).

(** The items [its] are the value [y] of the enum.  Either one item calls for a variant and
    has a value of it; then no other item calls for one, and without `allow_unknown_fields`
    ([lenient]) the others can only be (and are ignored, see C56) or must not be those of
    flattened variants' fields, the latter in a struct that flattens the enum ([top] =
    false).  Or no item calls for a variant; then the items are a value of the flattened
    variant that is taken, or none is meant and the enum has a default. *)
Definition source_flat_enum (dflt : option (evalue V)) (lenient top : bool) (tm : tmode V) (sp : span)
  (its : list (list token)) (y : evalue V) : Prop :=
  (forall seg, In seg its -> item_key seg <> None) /\
  ((exists a seg b n v oss vo k ksp body vs, its = a ++ seg :: b /\ variant_no n v oss vo /\
      item_key seg = Some (k, ksp, body) /\ calls v vo k /\
      variant_content ru v oss vo tm k ksp body vs /\ y = (n, vs) /\
      forall s, In s (a ++ b) -> (forall m, ~ for_variant i vos m s) /\
        (lenient = false ->
         (top = true -> for_flattened s) /\
         (top = false -> (exists vo', In vo' vos /\ is_flattened_v vo' = true /\ skipped_v vo' = false) ->
          ~ for_flattened s))) \/
   (forall s m, In s its -> ~ for_variant i vos m s) /\
   ((exists n v oss vo vs, taken its n v oss vo /\ y = (n, vs) /\
       source_value ru (sv_fields v) oss None (unknown_v vo) tm sp its vs) \/
    (forall n v oss vo, ~ meant its n v oss vo) /\ dflt = Some y)).
(** as [plain_enum] (C66), but variants can be flattened, if they are not transparent *)
Definition plain_flat_enum : Prop :=
  forall n v oss vo, variant_no n v oss vo ->
    Forall plain oss /\
    (transparent_v vo = true -> is_flattened_v vo = false /\ forall os e, In os oss -> ~ In (OAndThen e) os) /\
    typed_variant ru v oss vo /\
    (sv_shape v = ShNamed -> transparent_v vo = false -> distinct_in v oss).
End S.
