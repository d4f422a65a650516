(** Vocabulary for exchanging the items of the input (PropsPerm.v) *)
From Verif Require Export SpecEnum SpecFlat.
From Coq Require Export Sorting.Permutation.

Section P.
Context {env : Env}.
(** the value of [u] does not depend on the order of the items *)
Definition unordered {A} (u : flat_named A) : Prop :=
  forall sp prefix l l' v, Permutation (items_of l) (items_of l') ->
    fst (fn_parse u (Named sp) prefix false l) = Ok v <->
    fst (fn_parse u (Named sp) prefix false l') = Ok v.
(** the same for a field: a plain one, or one that flattens such a type *)
Definition unordered_field {V} (f : field V) : Prop :=
  pflat f = true -> match f_kind f with KFlatN _ u => unordered u | _ => False end.
(** the field is such a one, or it appends, and the items it appends are in the same order *)
Definition in_order {V} (prefix : string) (l l' : list stream) (f : field V) : Prop :=
  pflat f = true ->
  match f_kind f with
  | KFlatN _ u => unordered u
  | KAppend a => is_prefix prefix /\ append_by_keys a /\
      part prefix (f_names f) (items_of l) = part prefix (f_names f) (items_of l')
  | _ => False
  end.
End P.
