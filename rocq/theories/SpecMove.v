(** Vocabulary for moving an enum with flattened variants to another prefix (PropsMove.v) *)
From Verif Require Export SpecEFlat.

Section S.
Context {env : Env} {V : Type}.
(** all keys of the input begin with the prefix *)
Definition under (P : string) (l : list stream) : Prop :=
  forall k ksp, In (k, ksp) (keys_in l) -> exists n, k = (P ++ n)%string.
(** A variant with only plain fields, one of them required.  Excluded: a field name that itself
    begins with the prefix (with `::` in it, it could not be written as one identifier). *)
Definition plain_fields (P : string) (v : vdef V) : Prop :=
  needs v /\ forall f, In f (v_raw v) -> pflat f = false /\
    (P <> "" -> forall n m, In n (f_names f) -> n <> (P ++ m)%string).
End S.
