(** Vocabulary for PropsTail.v: a type with named items at the end of a tuple struct. *)
From Verif Require Export SpecBlock SpecStruct SpecEnum.
Local Open Scope string_scope.
Local Open Scope list_scope.

Section T.
Context {env : Env} {V : Type}.
(** the items [its], in any order, are the named items of the struct value [ws]: each has the
    name of a field and a value it accepts, no field has two, and the others can be left out *)
Definition keyed_values (s : sdef V) (its : list (list token)) (ws : list V) : Prop :=
  exists vs, parses_to (struct_reader s TMeta "" true) TMeta (s_default s) SCall [] its vs /\
    chained (s_and_thens s) vs ws.
(** a struct of plain named fields *)
Definition plain_struct (s : sdef V) : Prop :=
  named_struct s /\ no_flat s /\ Forall local_field (s_raw s) /\ Forall uniform_missing (s_raw s).
(** the items are values of the fields, one each *)
Inductive each_item : list (field V) -> list (list token) -> list V -> Prop :=
| EI_none : each_item [] [] []
| EI_item f d fs seg segs v vs : f_kind f = KItem d -> accepts (d_item d Unnamed) seg v ->
    each_item fs segs vs -> each_item (f :: fs) (seg :: segs) (v :: vs).
Definition is_item (f : field V) : Prop := is_parsable f = true /\ exists d, f_kind f = KItem d.
(** struct S(…, #[deluxe(flatten)] T) : the fields [fs] are values, [f] flattens a type [u] *)
Definition tailed (s : sdef V) (fs : list (field V)) (f : field V) (u : flat_unnamed V) : Prop :=
  s_raw s = fs ++ [f] /\ Forall is_item fs /\ is_parsable f = true /\ f_kind f = KFlatU u.
(** the items [its] are the value [x] of the enum [e] (see C21): one of them is a variant by its
    name, and the others are not even allowed; or none is and there is a default *)
Definition keyed_variant (e : edef V) (its : list (list token)) (x : evalue V) : Prop :=
  Forall (fun seg => exists k ksp body, item_key seg = Some (k, ksp, body)) its /\
  exists y, chained (e_and_thens e) y x /\
   ((exists seg i vs, variant_items e "" its = [seg] /\ variant_written e TMeta "" seg i vs /\ y = (i, vs) /\
       (e_unknown_ok e = false -> forall seg0 k ksp body, In seg0 its ->
          item_key seg0 = Some (k, ksp, body) -> In k (variant_names e))) \/
    (variant_items e "" its = [] /\ e_default e = Some y)).
End T.
(** at the end of a tuple struct, the type [u] takes all the items that are left, and [K] says
    which value they are *)
Definition takes_rest {env : Env} {A} (u : flat_unnamed A) (K : list (list token) -> A -> Prop) : Prop :=
  by_items u /\
  (forall blk more ts tl v, blk <> [] -> block blk more ts tl -> takes u blk more v <-> more = false /\ K blk v) /\
  (forall v, absent u v <-> K [] v).
