(** The `with` modules: what they accept, in terms of the module they are built from. *)
From Verif Require Export SpecColl SpecWith SpecPrim.

Section M.
Context {env : Env}.
(** What can follow the name of an item: `=` and an item, a parenthesised group with [content],
    or anything else when the name alone has a value.  The last argument is what is left. *)
Inductive follows_name {A} (item : parser A) (content : stream -> A -> Prop) (bare : A -> Prop) (s : stream) (v : A)
  : list token -> Prop :=
| FN_equals j esp r s' : toks s = TPunct "=" j esp :: r ->
    item (mkStream r (scope s) (cell s)) = (Ok v, s') -> follows_name item content bare s v (toks s')
| FN_parens ts gsp r : toks s = TGroup Paren ts gsp :: r ->
    content (mkStream ts (SClose gsp) (cell s)) v -> follows_name item content bare s v r
| FN_bare : bare v -> (forall j esp r, toks s <> TPunct "=" j esp :: r) ->
    (forall ts gsp r, toks s <> TGroup Paren ts gsp :: r) -> follows_name item content bare s v (toks s).

(** The modules, what the name alone means and what a missing item means. *)
Inductive with_module : forall A, dict A -> (span -> A -> Prop) -> (string -> span -> A -> Prop) -> Prop :=
| WM_optional A (d : dict A) : good_dict d ->
    with_module _ (with_optional_dict d) (fun _ v => v = None) (fun _ _ v => v = None)
| WM_collection A (d : dict A) : good_dict d ->
    with_module _ (with_vec_dict d) (fun _ v => v = []) (fun _ _ v => v = [])
| WM_map K A eqb kstr (dk : dict K) (dv : dict A) : good_dict dk -> good_dict dv ->
    with_module _ (with_map_dict eqb kstr dk dv) (fun _ v => v = []) (fun _ _ v => v = [])
| WM_identity A (d : dict A) : good_dict d ->
    with_module A (identity_dict d) (fun sp v => d_flag d sp = Ok v) (fun n sp v => d_missing d n sp = Ok v)
| WM_quoted A (d : dict A) : good_dict d ->
    with_module A (quoted_dict d) (fun sp v => d_flag d sp = Ok v) (fun n sp v => d_missing d n sp = Ok v)
| WM_maybe_quoted A (d : dict A) : good_dict d ->
    with_module A (maybe_quoted_dict d) (fun sp v => d_flag d sp = Ok v) (fun n sp v => d_missing d n sp = Ok v)
| WM_syn A (p : parser A) : well_behaved p ->
    with_module A (with_syn_dict p) (fun _ v => parse2 p [] = Ok v) (fun _ _ _ => False)
| WM_syn_quoted A (p : parser A) : well_behaved p ->
    with_module A (syn_quoted_dict p) (fun _ v => parse2 p [] = Ok v) (fun _ _ _ => False).

(** [item] reads a value and leaves at most a comma *)
Definition only {A} (item : parser A) (s : stream) (v : A) : Prop :=
  exists s', item s = (Ok v, s') /\ used_up s'.
(** the value of an entry of a collection made by a module: `= value` or `(value)`, never
    the name alone *)
Inductive mod_value {A} (item : mode -> parser A) (sp : span) (v : A) : list token -> Prop :=
| MV_equals j esp payload : accepts (item (Named sp)) payload v ->
    mod_value item sp v (TPunct "=" j esp :: payload)
| MV_parens payload gsp : (forall c, only (item (Named sp)) (mkStream payload (SClose gsp) c) v) ->
    mod_value item sp v [TGroup Paren payload gsp].
(** an entry of a map module: a key, then a value *)
Definition mod_entry {K A} (dk : dict K) (dv : dict A) (seg : list token) (kv : K * A) : Prop :=
  exists t r body, seg = t :: r /\ key_of dk seg (fst kv) body /\
    mod_value (d_item dv) (tok_open_span t) (snd kv) body.
(** every item has a key; those with one of the names hold values, in order *)
Inductive mod_appended {A} (item : mode -> parser A) (names : list string)
  : list (list token) -> list A -> Prop :=
| MA_none : mod_appended item names [] []
| MA_mine seg k ksp body v segs vs : item_key seg = Some (k, ksp, body) -> In k names ->
    mod_value item ksp v body -> mod_appended item names segs vs ->
    mod_appended item names (seg :: segs) (v :: vs)
| MA_other seg k ksp body segs vs : item_key seg = Some (k, ksp, body) -> ~ In k names ->
    mod_appended item names segs vs -> mod_appended item names (seg :: segs) vs.

(** `name(..)`, the content of an attribute, and flattened into a tuple *)
Inductive mod_vec_parser {A} (d : dict A) : mparser (list A) -> Prop :=
| MVP_inline m : mod_vec_parser d (d_inline (with_vec_dict d) m)
| MVP_flat m i : mod_vec_parser d (fu_parse (with_vec_fu d) m i).
Inductive mod_map_parser {K A} (eqb : K -> K -> bool) (kstr : K -> string) (dk : dict K) (dv : dict A)
  : mparser (list (K * A)) -> Prop :=
| MMP_inline m : mod_map_parser eqb kstr dk dv (d_inline (with_map_dict eqb kstr dk dv) m)
| MMP_flat m i : mod_map_parser eqb kstr dk dv (fu_parse (with_map_fu eqb kstr dk dv) m i).
End M.
