(** Vocabulary for the different names of one field or variant (PropsAlias.v) *)
From Verif Require Export SpecEnum SpecFlat.
Local Open Scope string_scope.

Section A.
Context {env : Env}.
(** the same item, or the same value after another key; [same] says for which keys *)
Definition rekeyed (same : string -> string -> Prop) (seg seg' : list token) : Prop :=
  seg = seg' \/
  exists k k' ksp body, item_key seg = Some (k, ksp, body) /\ item_key seg' = Some (k', ksp, body) /\ same k k'.
(** [k] and [k'] are two names of the same field of [s], neither flattened nor collecting *)
Definition aliases {V} (s : sdef V) (prefix k k' : string) : Prop :=
  exists f, In f (s_raw s) /\ pitem f = true /\ named_by prefix f k /\ named_by prefix f k'.
(** [u], flattened at [prefix], takes the one key for the other *)
Definition interchangeable {A} (prefix : string) (u : flat_named A) (same : string -> string -> Prop) : Prop :=
  forall sp l l' v, keyed l -> Forall2 (rekeyed same) (items_of l) (items_of l') ->
    fst (fn_parse u (Named sp) prefix false l) = Ok v -> fst (fn_parse u (Named sp) prefix false l') = Ok v.
(** [same] is about keys of [u], flattened at [prefix] *)
Definition among {A} (prefix : string) (u : flat_named A) (same : string -> string -> Prop) : Prop :=
  forall k k', same k k' -> exists n n', In n (fn_names u) /\ In n' (fn_names u) /\ k = prefix ++ n /\ k' = prefix ++ n'.
(** the same for an append field: any of its names can be used *)
Definition append_any_name {A} (a : append_fn A) : Prop :=
  forall names l l' v, keyed l -> Forall2 (rekeyed (fun k k' => In k names /\ In k' names)) (items_of l) (items_of l') ->
    fst (a names l) = Ok v -> fst (a names l') = Ok v.
(** what follows the name is read in the same way after any name *)
Definition nameless_value {A} (d : dict A) : Prop :=
  forall k k' ksp body x, accepts (d_named d k ksp) body x -> accepts (d_named d k' ksp) body x.
(** where the keys of a type flattened into a struct read at [prefix] are *)
Definition below (prefix : string) (p : option string) : string :=
  match p with Some q => prefix ++ q ++ "::" | None => prefix end.
(** [k] and [k'] are two names of the same variant of [e], which is not flattened *)
Definition variant_aliases {V} (e : edef V) (prefix k k' : string) : Prop :=
  exists i v, variant_at e prefix k i v /\ variant_at e prefix k' i v.
(** what a transparent variant makes of its tokens does not depend on its name *)
Definition any_name {V} (v : vdef V) : Prop :=
  v_transparent v = true -> forall f d, In f (v_raw v) -> f_kind f = KItem d -> nameless_value d.
End A.
