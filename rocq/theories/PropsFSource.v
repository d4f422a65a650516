(** C73: what a derived struct with flattened, append and rest fields accepts, in terms of the
    source it was derived from. *)
From Verif Require Export SpecFSource.
From Verif Require Import LemFSource LemFlat ExFSource.

(** ** C73 From the source of a struct with collecting fields to the values it parses *)
(** A struct with named fields of any kind: the derived parser returns a value exactly if each
    item has a key, the key is known, and each field gets its value: from its one item, from
    elsewhere if there is no item, or, for a flattened, append or rest field, from a parse of
    its own part of the items.  The parts are those of the names in the source. *)
Theorem C73_struct : forall (env : Env) V (ru : rust V) (sy : synlib), good_syn_lib sy ->
  forall (auto : list V) (expr : list token -> list V)
         (post : list token -> list V -> list V + synerr) (tm : tmode V) (i : src_struct) (d : sstruct)
         (oss : list (list fopt)) (so : list sopt) inputs sp validate r ws,
  good_rust ru -> written_struct i -> ss_shape i = ShNamed -> derived sy tm i d ->
  Forall2 (fun f os => has_options (spells_f sy) (sf_attrs f) os) (ss_fields i) oss ->
  has_options (spells_s sy) (ss_attrs i) so ->
  (forall x, In (STransparent x) so -> st_value x = false) ->
  Forall2 (keeps_to_part ru) (ss_fields i) oss -> flat_apart ru (ss_fields i) oss ->
  (forall t, default_by auto expr (s_defaults so) = Some t -> length t = length (ss_fields i)) ->
  parse_run (lower_struct ru auto expr post d) tm "" validate sp inputs r ->
  r = Ok ws <-> exists vs,
    source_parts ru (ss_fields i) oss (default_by auto expr (s_defaults so))
                 (existsb (fun b => b) (s_unknowns so) || negb validate)%bool tm sp
                 (items_of inputs) vs /\
    chained (map post (s_and_thens_of so)) vs ws.
Proof. exact @l_source_parts. Qed.
Print Assumptions C73_struct.

(** the collections keep to their parts *)
Theorem C73_append : forall (env : Env) A B (d : dict A) (g : list A -> B), fine d ->
  append_by_keys (fun ps => pmap g (vec_append d ps)).
Proof. exact @l_vec_append_keys. Qed.
Print Assumptions C73_append.

Theorem C73_append_set : forall (env : Env) A B eqb (d : dict A) (g : list A -> B), fine d ->
  append_by_keys (fun ps => pmap g (set_append eqb d ps)).
Proof. exact @l_set_append_keys. Qed.
Print Assumptions C73_append_set.

Theorem C73_rest : forall (env : Env) K A B eqb (kstr : K -> string) (dk : dict K) (dv : dict A)
    (g : list (K * A) -> B),
  fine dk -> fine dv -> nonempty_keys dk -> keys_as_written kstr dk ->
  rest_by_keys (fun ex => pmap g (map_rest eqb kstr dk dv ex)).
Proof. exact @l_map_rest_keys. Qed.
Print Assumptions C73_rest.

(** a map whose keys are paths *)
Theorem C73_paths : forall (env : Env) K (kstr : K -> string) (g : path -> K),
  (forall p, kstr (g p) = path_key p) -> keys_as_written kstr (dict_map g (syn_dict parse_any_path)).
Proof. exact @l_path_reads. Qed.
Print Assumptions C73_paths.

Example C73_ex : exists d oss,
  good_syn_lib xsy /\ good_rust fru /\ written_struct f_src /\ ss_shape f_src = ShNamed /\
  derived xsy (@TMeta val) f_src d /\
  Forall2 (fun f os => has_options (spells_f xsy) (sf_attrs f) os) (ss_fields f_src) oss /\
  has_options (spells_s xsy) (ss_attrs f_src) [] /\
  map role_of oss = [Single; Flattened None; Flattened (Some "p"); Appended; Rest] /\
  Forall2 (keeps_to_part fru) (ss_fields f_src) oss /\ flat_apart fru (ss_fields f_src) oss /\
  parse_run (f_low d) TMeta "" false (to_full_span Unnamed f_ins) f_ins (Ok f_out).
Proof. exact f_src_ok. Qed.
Example C73_ex_keys : keys_as_written vstr path_ /\ nonempty_keys path_ /\ fine path_ /\ fine i32.
Proof. exact (conj path_reads (conj path_keys (conj fine_path_ fine_i32))). Qed.
