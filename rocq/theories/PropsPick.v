(** C54, C55: enums with flattened variants, beyond PropsEnum.v. *)
From Verif Require Import LemOwn ExPick.
Local Open Scope string_scope.
Local Open Scope list_scope.

(** ** C55 A flattened variant all of whose fields are given is selected *)
(** The result, without any condition on how many variants could be chosen: without the name of
    a variant among the keys, the value is that of the first of the flattened variants that can
    be used, or if there is none, the default of the enum. *)
Theorem C55_exact : forall (env : Env) V (e : edef V) tm prefix validate sp inputs r x,
  enum_run e tm prefix validate sp inputs r -> proper_enum tm e -> flat_local e ->
  variant_items e prefix (items_of inputs) = [] ->
  r = Ok x <-> keyed inputs /\ exists y, chained (e_and_thens e) y x /\
   ((exists i v vs, first_chosen e prefix inputs i v /\ y = (i, vs) /\
                    flat_written e tm prefix sp inputs i v vs) \/
    ((forall i v, ~ chosen e prefix inputs i v) /\ e_default e = Some y)).
Proof. exact @l_flat_exact. Qed.
Print Assumptions C55_exact.
(** There is exactly one first one, if there is any. *)
Theorem C55_one : forall (env : Env) V (e : edef V) prefix inputs, flat_local e ->
  (forall i v j w, first_chosen e prefix inputs i v -> first_chosen e prefix inputs j w ->
     i = j /\ v = w) /\
  ((exists i v, first_chosen e prefix inputs i v) <-> exists i v, chosen e prefix inputs i v).
Proof. exact @l_flat_one. Qed.
Print Assumptions C55_one.

(** with `b = 1, c = 2, z = 3`, both B { b } and L { b, c } could be used; it is B *)
Example C55_exact_ex : proper_enum TMeta xo /\ flat_local xo /\
  variant_items xo "" (items_of (xin "b = 1, c = 2, z = 3")) = [] /\
  (first_chosen xo "" (xin "b = 1, c = 2, z = 3") 1 xo_b /\
   chosen xo "" (xin "b = 1, c = 2, z = 3") 2 xo_l) /\
  fst (fn_parse (enum_fn xo) (Named SCall) "" false (xin "b = 1, c = 2, z = 3")) = Ok (1, [VI 1]).
Proof.
  refine (conj xo_proper (conj xo_local (conj _ (conj xo_first _)))); vm_compute; reflexivity.
Qed.

(** ** C54 A flattened enum depends on its own keys only *)
(** also with flattened variants, if all of these take all keys (C54_parent_refuted: otherwise
    not) and have fields that themselves depend on their own keys only *)
Theorem C54_open_partial : forall (env : Env) V (e : edef V) prefix,
  proper_enum TMeta e -> flat_local e -> is_prefix prefix ->
  (forall v, In v (e_variants e) -> v_flatten v = true ->
     takes_all v /\ Forall (routes prefix) (v_raw v)) ->
  by_keys prefix (enum_fn e).
Proof. exact @l_enum_own_keys. Qed.
Print Assumptions C54_open_partial.

Example C54_open_ex : proper_enum TMeta xo /\ flat_local xo /\ is_prefix "" /\
  (forall v, In v (e_variants xo) -> v_flatten v = true ->
     takes_all v /\ Forall (routes "") (v_raw v)) /\
  fn_names (enum_fn xo) = ["a"; "b"; "b"; "c"] /\
  fst (fn_parse (enum_fn xo) (Named SCall) "" false (xin "b = 1")) = Ok (1, [VI 1]) /\
  fst (fn_parse (enum_fn xo) (Named SCall) "" false (xin "y(2), b = 1, z = 3")) = Ok (1, [VI 1]).
Proof.
  refine (conj xo_proper (conj xo_local (conj _ (conj (xo_open "") _)))); [now left|].
  repeat split; vm_compute; reflexivity.
Qed.
