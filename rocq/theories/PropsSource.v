(** C64, C66, C67: what a derived parser accepts, in terms of the source it was derived from.

    These theorems join the front end (the texts of the attributes), the code generation
    and the generated parsers.  [ru] is what rustc knows: the implementations of the types
    and of the modules in `with`, the values of the `default` expressions, the functions in
    `map` and `and_then`; [auto], [expr], [post] are the same for the struct itself. *)
From Verif Require Export SpecSource SpecESource.
From Verif Require Import LemSource2 LemSource4 ExSource ExESource.

(** ** C64 From the source of a struct to the values it parses *)
(** A struct with named fields, none of them flattened, appended or a `rest`: the derived
    parser returns a value exactly if the items are a value of the struct according to the
    options written in the source, and then this value. *)
Theorem C64_struct : forall (env : Env) V (ru : rust V) (sy : synlib), good_syn_lib sy ->
  forall (auto : list V) (expr : list token -> list V)
         (post : list token -> list V -> list V + synerr) (tm : tmode V) (i : src_struct) (d : sstruct)
         (oss : list (list fopt)) (so : list sopt) inputs sp validate r ws,
  good_rust ru -> written_struct i -> ss_shape i = ShNamed -> derived sy tm i d ->
  Forall2 (fun f os => has_options (spells_f sy) (sf_attrs f) os) (ss_fields i) oss ->
  has_options (spells_s sy) (ss_attrs i) so ->
  Forall plain oss -> (forall x, In (STransparent x) so -> st_value x = false) ->
  Forall2 (fun f os => local_dict (impl_of ru f os)) (ss_fields i) oss ->
  (forall t, default_by auto expr (s_defaults so) = Some t -> length t = length (ss_fields i)) ->
  parse_run (lower_struct ru auto expr post d) tm "" validate sp inputs r ->
  r = Ok ws <-> exists vs,
    source_value ru (ss_fields i) oss (default_by auto expr (s_defaults so))
                 (existsb (fun b => b) (s_unknowns so) || negb validate)%bool tm sp
                 (items_of inputs) vs /\
    chained (map post (s_and_thens_of so)) vs ws.
Proof. exact @l_source_struct. Qed.
Print Assumptions C64_struct.

Example C64_ex : exists d oss,
  good_syn_lib xsy /\ good_rust xru /\ written_struct x_src /\ ss_shape x_src = ShNamed /\
  derived xsy (@TMeta val) x_src d /\
  Forall2 (fun f os => has_options (spells_f xsy) (sf_attrs f) os) (ss_fields x_src) oss /\
  has_options (spells_s xsy) (ss_attrs x_src) [] /\ Forall plain oss /\
  Forall2 (fun f os => local_dict (impl_of xru f os)) (ss_fields x_src) oss /\
  parse_run (x_low d) TMeta "" true (to_full_span Unnamed x_ins) x_ins (Ok [VI 5; VI 1; VI 0]).
Proof. exact x_src_ok. Qed.

(** ** C67 From the source of a tuple struct to the values it parses *)
(** A tuple struct without flattened fields: the derived parser reads all of an input, and
    gives a value, exactly if the items are values of the fields that are neither skipped nor
    the container, in order, and each other field has a value without an item. *)
Theorem C67_tuple : forall (env : Env) V (ru : rust V) (sy : synlib), good_syn_lib sy ->
  forall (auto : list V) (expr : list token -> list V)
         (post : list token -> list V -> list V + synerr) (tm : tmode V) (i : src_struct) (d : sstruct)
         (oss : list (list fopt)) (so : list sopt) p inputs ws,
  good_rust ru -> written_struct i -> ss_shape i = ShUnnamed -> derived sy tm i d ->
  Forall2 (fun f os => has_options (spells_f sy) (sf_attrs f) os) (ss_fields i) oss ->
  has_options (spells_s sy) (ss_attrs i) so ->
  Forall plain oss -> (forall x, In (STransparent x) so -> st_value x = false) ->
  Forall2 (fun f os => fine (impl_of ru f os) /\ uniform ru f os) (ss_fields i) oss ->
  (forall t, default_by auto expr (s_defaults so) = Some t -> length t = length (ss_fields i)) ->
  tuple_run (lower_struct ru auto expr post d) tm p -> no_blank inputs ->
  whole p inputs ws <-> exists vs,
    source_tuple ru (ss_fields i) oss (default_by auto expr (s_defaults so)) tm (items_of inputs) vs /\
    chained (map post (s_and_thens_of so)) vs ws.
Proof. exact @l_source_tuple. Qed.
Print Assumptions C67_tuple.

Example C67_ex : exists d oss p,
  good_syn_lib xsy /\ good_rust xru /\ written_struct x_srct /\ ss_shape x_srct = ShUnnamed /\
  derived xsy (@TMeta val) x_srct d /\
  Forall2 (fun f os => has_options (spells_f xsy) (sf_attrs f) os) (ss_fields x_srct) oss /\
  has_options (spells_s xsy) (ss_attrs x_srct) [] /\ Forall plain oss /\
  Forall2 (fun f os => fine (impl_of xru f os) /\ uniform xru f os) (ss_fields x_srct) oss /\
  tuple_run (x_low d) TMeta p /\ no_blank x_int /\ whole p x_int [VI 5; VI 0; VI 1].
Proof. exact x_srct_ok. Qed.

(** ** C66 From the source of an enum to the values it parses *)
(** An enum without flattened variants and fields: the derived parser returns a value exactly
    if the items are a value of the enum according to the options written in the source. *)
Theorem C66_enum : forall (env : Env) V (ru : rust V) (sy : synlib), good_syn_lib sy ->
  forall (auto : evalue V) (expr : list token -> evalue V)
         (post : list token -> evalue V -> evalue V + synerr) (tm : tmode V) (i : src_enum) (d : senum)
         (osss : list (list (list fopt))) (vos : list (list vopt)) (eo : list eopt)
         validate sp inputs r x,
  good_rust ru -> written_enum i -> derived_enum sy tm i d -> enum_options sy i osss vos eo ->
  plain_enum ru i osss vos ->
  enum_run (lower_enum ru auto expr post d) tm "" validate sp inputs r ->
  r = Ok x <-> exists y,
    source_enum ru i osss vos (default_by auto expr (e_defaults eo))
                (existsb (fun b => b) (e_unknowns eo) || negb validate)%bool tm (items_of inputs) y /\
    chained (map post (e_and_thens_of eo)) y x.
Proof. exact @l_source_enum. Qed.
Print Assumptions C66_enum.

Example C66_ex : exists d osss vos,
  good_syn_lib xsy /\ good_rust xru /\ written_enum x_esrc /\ derived_enum xsy (@TMeta val) x_esrc d /\
  enum_options xsy x_esrc osss vos [] /\ plain_enum xru x_esrc osss vos /\
  Forall (fun p => enum_run (x_lowe d) TMeta "" true (to_full_span Unnamed (x_ine (fst p))) (x_ine (fst p)) (snd p)) x_outcomes.
Proof. exact x_esrc_ok. Qed.
