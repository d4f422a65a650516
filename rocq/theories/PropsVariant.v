(** C65: what can be written after the name of an enum variant. *)
From Verif Require Import LemVariant ExEnum ExColl.

(** ** C65 What a variant accepts after its name *)
(** A variant without fields: nothing, `()`, `(,)`, `= ()` or `= (,)`. *)
Theorem C65_unit : forall (env : Env) V tm (v : vdef V) prefix ksp body vs, v_shape v = ShUnit ->
  accepts (v_named v tm prefix ksp) body vs <->
  vs = [] /\ (body = [] \/ exists ts, content ShUnit body ts /\ blank ts).
Proof. exact @l_variant_unit. Qed.
Print Assumptions C65_unit.

(** A variant with named fields: nothing, `(items)` or `= {items}`, where the items are those
    of a struct with these fields; nothing is the same as no items. *)
Theorem C65_named : forall (env : Env) V tm (v : vdef V) prefix ksp body vs,
  plain_variant tm v -> v_shape v = ShNamed -> Forall local_field (v_raw v) ->
  accepts (v_named v tm prefix ksp) body vs <->
  exists ts, (body = [] /\ ts = [] \/ content ShNamed body ts) /\
    parses_to (struct_reader (as_struct v) tm prefix true) tm None ksp [] (items ts) vs.
Proof. exact @l_variant_named. Qed.
Print Assumptions C65_named.

(** A tuple variant: `(values)` or `= (values)`, in the order of the fields, those missing at
    the end being left out; or nothing, if all fields have defaults. *)
Theorem C65_tuple : forall (env : Env) V tm (v : vdef V) prefix ksp body vs,
  plain_variant tm v -> v_shape v = ShUnnamed ->
  fine_items (as_struct v) -> Forall uniform_missing (v_raw v) ->
  accepts (v_named v tm prefix ksp) body vs <->
  exists ts its os, (body = [] /\ ts = [] /\ all_default v \/ content ShUnnamed body ts) /\
    values_in v ts its /\ positional (v_raw v) its os /\ tuple_values (as_struct v) tm os vs.
Proof. exact @l_variant_tuple. Qed.
Print Assumptions C65_tuple.

Example C65_ex :
  let b := mkVariant "B" ["b"] ShUnnamed [pos i32; posd i32 (VI 7)] false false false false in
  let n := mkVariant "N" ["n"] ShNamed [it "s" i32; it "o" (opt_ i32)] false false false false in
  (forall tm, plain_variant tm b) /\ fine_items (as_struct b) /\ Forall uniform_missing (v_raw b) /\
  (forall tm, plain_variant tm n) /\ Forall local_field (v_raw n) /\
  accepts (v_named b TMeta "" SCall) (tk "(1)") [VI 1; VI 7] /\
  accepts (v_named b TMeta "" SCall) (tk "= (1, 2,)") [VI 1; VI 2] /\
  accepts (v_named n TMeta "" SCall) (tk "= {s = 1}") [VI 1; VO None] /\
  accepts (v_named n TMeta "" SCall) (tk "(o = 1, s = 3)") [VI 3; VO (Some (VI 1))].
Proof.
  cbv zeta.
  refine (conj _ (conj _ (conj _ (conj _ (conj _ (conj _ (conj _ (conj _ _)))))))).
  - intro tm. split; [split; [ga|split; [destruct tm; ga|split; ga0]]|split; reflexivity].
  - repeat (apply Forall_cons; [intros d _ E; injection E as <-; apply fine_i32|]). apply Forall_nil.
  - repeat (apply Forall_cons; [intros d m sp w m' sp' E; injection E as <-; discriminate|]). apply Forall_nil.
  - intro tm. split; [split; [ga; apply good_opt|split; [destruct tm; ga|split; ga0]]|split; reflexivity].
  - fxl.
  - intros tl sc c E. split; reflexivity.
  - intros tl sc c E. split; reflexivity.
  - intros tl sc c E. split; reflexivity.
  - intros tl sc c E. split; reflexivity.
Qed.
