(** Vocabulary for the flattened variant that is used (PropsPick.v) *)
From Verif Require Export SpecEFlat.

Section S.
Context {env : Env} {V : Type}.
Notation vdef := (vdef V).
Notation edef := (edef V).
(** Among the flattened variants that can be used for the keys of the input, [v], number [i],
    is the first one in the order of the names of the required fields; if these are the same,
    it is the last one declared. *)
Definition first_chosen (e : edef) (prefix : string) (inputs : list stream) (i : nat) (v : vdef) : Prop :=
  chosen e prefix inputs i v /\
  forall j w, chosen e prefix inputs j w -> forall a b, required_sets v a -> required_sets w b ->
    sets_before a b \/ (a = b /\ j <= i).
End S.
