(** Property theorems: the `with` modules, the wrappers, TokenStream, () and SmallString.
    Every proof is one [exact]; vocabulary in SpecMod.v, SpecPrim.v and SpecColl.v.

    [follows_name item content bare s v r]: after a name, [s] starts with `= item`, with a
    parenthesised group with [content], or with neither and [bare] gives the value of the name
    alone; [r] is left.  [only p c v]: [p] reads [v] from [c] and leaves at most a comma. *)
From Verif Require Import ExMod.

(** ** C04, C18: the value after a name and the entries of a map, as text *)
(** the three spellings `name = value`, `name(value)` and `name`, and no others *)
Theorem C04_spellings_only : forall (env : Env) A (d : dict A) n sp body v, standard d -> good_dict d ->
  accepts (d_named d n sp) body v <-> spelled d sp body v.
Proof. exact @accepts_spelled. Qed.
Print Assumptions C04_spellings_only.

(** an entry: the tokens of a key ([key_of]), then a value after that name *)
Theorem C18_entry : forall (env : Env) K A (kstr : K -> string) (dk : dict K) (dv : dict A) t r k v,
  fine dk -> fine dv -> no_comma (t :: r) ->
  accepts (map_entry kstr dk dv) (t :: r) (k, v) <->
  exists body, key_of dk (t :: r) k body /\ accepts (d_named dv (kstr k) (tok_open_span t)) body v.
Proof. exact @entry_text. Qed.
Print Assumptions C18_entry.

Example C04_spellings_ex : standard i32 /\ good_dict i32 /\
  accepts (d_named i32 "n" SCall) (tk "= 7") (VI 7) /\ ~ spelled i32 SCall [] (VI 7).
Proof.
  split; [apply fine_i32|]. split; [apply fine_i32|]. split.
  - apply accepts_spelled; [apply fine_i32..|]. apply S_equals. intros tl sc c E. destruct E as [->|[t [r [-> [j [sp ->]]]]]]; vm_compute; auto.
  - intro H. inversion H. discriminate.
Qed.

(** ** C78 A `with` module reads what the module it is built from reads *)
(** after the name: `=` and an item of the module, `(..)`, or the value of the name alone *)
Theorem C78_named : forall (env : Env) A (d : dict A) bare gone, with_module A d bare gone -> forall n sp s v r,
  (exists s', d_named d n sp s = (Ok v, s') /\ toks s' = r) <->
  follows_name (d_item d (Named sp)) (fun c => whole (d_inline d (Named sp)) [c]) (bare sp) s v r.
Proof. exact @l_module_named. Qed.
Print Assumptions C78_named.

Theorem C78_missing : forall (env : Env) A (d : dict A) bare gone, with_module A d bare gone -> forall n sp v,
  d_missing d n sp = Ok v <-> gone n sp v.
Proof. exact @l_module_missing. Qed.
Print Assumptions C78_missing.

(** optional: after a name, the items of the inner module *)
Theorem C78_optional_named : forall (env : Env) A (d : dict A) sp s,
  fst (d_item (with_optional_dict d) (Named sp) s) = rmap Some (fst (d_item d (Named sp) s)) /\
  snd (d_item (with_optional_dict d) (Named sp) s) = snd (d_item d (Named sp) s).
Proof. exact @l_mod_optional_named. Qed.
Print Assumptions C78_optional_named.

(** ... and without one, `None` or `Some(item)` *)
Theorem C78_optional : forall (env : Env) A (d : dict A) s o, good_dict d ->
  fst (d_item (with_optional_dict d) Unnamed s) = Ok o <->
  (o = None /\ exists sp r, toks s = TIdent "None" sp :: r) \/
  (exists v sp ts gsp r, o = Some v /\ toks s = TIdent "Some" sp :: TGroup Paren ts gsp :: r /\
     only (d_item d Unnamed) (mkStream ts (SClose gsp) (cell s)) v).
Proof. exact @l_mod_optional. Qed.
Print Assumptions C78_optional.

(** a name without a value is None, although it is an error for the Option of the same type *)
Theorem C78_optional_bare_refuted : exists (env : Env) A (d : dict A) n sp s e,
  fine d /\ toks s = [] /\ fst (d_named (with_optional_dict d) n sp s) = Ok None /\ fst (d_named (option_dict d) n sp s) = Err e.
Proof. exact ex_optional_bare. Qed.
Print Assumptions C78_optional_bare_refuted.

(** collections *)
Theorem C78_collection : forall (env : Env) A (d : dict A) p inputs segs vs, fine d -> mod_vec_parser d p -> hold inputs segs ->
  fst (p inputs) = Ok vs <-> Forall2 (accepts (d_item d Unnamed)) segs vs.
Proof. exact @l_mod_vec. Qed.
Print Assumptions C78_collection.

Theorem C78_collection_brackets : forall (env : Env) A (d : dict A) m s vs, fine d ->
  fst (d_item (with_vec_dict d) m s) = Ok vs <->
  exists segs, group_of Bracket s segs /\ Forall2 (accepts (d_item d Unnamed)) segs vs.
Proof. exact @l_mod_vec_brackets. Qed.
Print Assumptions C78_collection_brackets.

(** as an `append` field: the value of every item with one of the names *)
Theorem C78_append : forall (env : Env) A (d : dict A) names l vs, fine d ->
  fst (with_vec_append d names l) = Ok vs <-> mod_appended (d_item d) names (items_of l) vs.
Proof. exact @l_mod_append. Qed.
Print Assumptions C78_append.

(** maps *)
Theorem C78_map : forall (env : Env) K A eqb (kstr : K -> string) (dk : dict K) (dv : dict A) p inputs segs kvs,
  fine dk -> fine dv -> nonempty_keys dk -> mod_map_parser eqb kstr dk dv p -> hold inputs segs ->
  fst (p inputs) = Ok kvs <-> Forall2 (mod_entry dk dv) segs kvs /\ all_different eqb (map fst kvs).
Proof. exact @l_mod_map. Qed.
Print Assumptions C78_map.

Theorem C78_map_braces : forall (env : Env) K A eqb (kstr : K -> string) (dk : dict K) (dv : dict A) m s kvs,
  fine dk -> fine dv -> nonempty_keys dk ->
  fst (d_item (with_map_dict eqb kstr dk dv) m s) = Ok kvs <->
  exists segs, group_of Brace s segs /\ Forall2 (mod_entry dk dv) segs kvs /\ all_different eqb (map fst kvs).
Proof. exact @l_mod_map_braces. Qed.
Print Assumptions C78_map_braces.

(** as a `rest` field: the entries whose key is not excluded *)
Theorem C78_rest : forall (env : Env) K A eqb (kstr : K -> string) (dk : dict K) (dv : dict A) ex l kvs,
  fine dk -> fine dv -> nonempty_keys dk ->
  fst (with_map_rest eqb kstr dk dv ex l) = Ok kvs <->
  exists sel, selected kstr dk ex (items_of l) sel /\ Forall2 (mod_entry dk dv) sel kvs /\ all_different eqb (map fst kvs).
Proof. exact @l_mod_rest. Qed.
Print Assumptions C78_rest.

Example C78_ex : fine (quoted_dict i32) /\ good_dict i32 /\
  fst (d_named (with_vec_dict (quoted_dict i32)) "v" SCall (root_stream [TGroup Paren [TLit (LStr "1") SCall] SCall])) = Ok [VI 1] /\
  fst (d_named (with_vec_dict i32) "v" SCall (root_stream (tk ", x"))) = Ok [] /\
  fst (d_named (with_vec_dict i32) "v" SCall (root_stream (tk "= [1, 2]"))) = Ok [VI 1; VI 2] /\
  fst (d_item (with_map_dict veq vstr path_ i32) Unnamed (root_stream (tk "{ a = 1, b::c(2), }")))
  = Ok [(VT "a", VI 1); (VT "b::c", VI 2)] /\
  fst (with_vec_append i32 ["a"; "b"] [root_stream (tk "a = 1, c = x, b(2)")]) = Ok [VI 1; VI 2] /\
  fst (with_map_rest veq vstr path_ i32 ["a"] [root_stream (tk "a = 1, b = 2")]) = Ok [(VT "b", VI 2)].
Proof. split; [exact (fine_quoted i32 (fi_good i32 fine_i32))|]. split; [apply fine_i32|]. repeat split; vm_compute; reflexivity. Qed.

(** ** C79 Box, Rc, Cell, RefCell and Cow read what the wrapped type reads *)
Theorem C79_item : forall (env : Env) A (d : dict A) m sp,
  d_item (wrapper_dict d) m = d_item d m /\ d_flag (wrapper_dict d) sp = d_flag d sp.
Proof. exact @l_wrapper_item. Qed.
Print Assumptions C79_item.

(** after a name: in parentheses one item *)
Theorem C79_named : forall (env : Env) A (d : dict A) n sp s v r, good_dict d ->
  (exists s', d_named (wrapper_dict d) n sp s = (Ok v, s') /\ toks s' = r) <->
  follows_name (d_item d (Named sp)) (only (d_item d (Named sp))) (fun x => d_flag d sp = Ok x) s v r.
Proof. exact @l_wrapper_named. Qed.
Print Assumptions C79_named.

(** so `name = value` and `name` are read alike, and `name(value)` when the wrapped type reads
    one item there *)
Theorem C79_same_partial : forall (env : Env) A (d : dict A) n sp s, standard d ->
  (forall m l, d_inline d m l = def_inline (d_item d) m l) ->
  d_named (wrapper_dict d) n sp s = d_named d n sp s.
Proof. exact @l_wrapper_same. Qed.
Print Assumptions C79_same_partial.

Theorem C79_same_outside_partial : forall (env : Env) A (d : dict A) n sp s, standard d ->
  (forall ts gsp rest, toks s <> TGroup Paren ts gsp :: rest) ->
  d_named (wrapper_dict d) n sp s = d_named d n sp s.
Proof. exact @l_wrapper_outside. Qed.
Print Assumptions C79_same_outside_partial.

(** `name(1, 2)` is a Vec<i32> but not a Box<Vec<i32>> *)
Theorem C79_parens_refuted : exists (env : Env) A (d : dict A) n sp s v e,
  fine d /\ fst (d_named d n sp s) = Ok v /\ fst (d_named (wrapper_dict d) n sp s) = Err e.
Proof. exact ex_wrapper_paren. Qed.
Print Assumptions C79_parens_refuted.

(** a missing value is always an error, even for Box<Option<i32>> *)
Theorem C79_missing : forall (env : Env) A (d : dict A) n sp, exists e, d_missing (wrapper_dict d) n sp = Err e.
Proof. exact @l_wrapper_missing. Qed.
Print Assumptions C79_missing.

Theorem C79_missing_refuted : exists (env : Env) A (d : dict A) n sp v e,
  fine d /\ d_missing d n sp = Ok v /\ d_missing (wrapper_dict d) n sp = Err e.
Proof. exact ex_wrapper_missing. Qed.
Print Assumptions C79_missing_refuted.

Example C79_ex : good_dict i32 /\ fst (d_named (wrapper_dict i32) "n" SCall (root_stream (tk "(7,)"))) = Ok (VI 7) /\
  fst (d_named (wrapper_dict bool_dict) "n" SCall (root_stream (tk ""))) = Ok true.
Proof. split; [apply fine_i32|]. split; vm_compute; reflexivity. Qed.

(** ** C80 A TokenStream is the tokens up to the next comma *)
Theorem C80_item : forall (env : Env) m s ts s', d_item tokenstream_dict m s = (Ok ts, s') <->
  ts <> [] /\ no_comma ts /\ toks s = ts ++ toks s' /\ ends (toks s') /\ scope s' = scope s /\ cell s' = cell s.
Proof. exact @l_tokens_item. Qed.
Print Assumptions C80_item.

Theorem C80_named : forall (env : Env) n sp s v r, (exists s', d_named tokenstream_dict n sp s = (Ok v, s') /\ toks s' = r) <->
  follows_name (d_item tokenstream_dict (Named sp)) (only (d_item tokenstream_dict (Named sp))) (eq []) s v r.
Proof. exact @l_tokens_named. Qed.
Print Assumptions C80_named.

Theorem C80_nothing : forall (env : Env) sp n, d_flag tokenstream_dict sp = Ok [] /\ d_missing tokenstream_dict n sp = Ok [].
Proof. exact @l_tokens_flag. Qed.
Print Assumptions C80_nothing.

(** flattened into a tuple it takes all tokens, but only if there is no comma at all *)
Theorem C80_flat_partial : forall (env : Env) m i inputs ts, fst (fu_parse tokenstream_flat m i inputs) = Ok ts <->
  Forall (fun s => no_comma (toks s)) inputs /\ ts = concat (map toks inputs).
Proof. exact @l_tokens_flat. Qed.
Print Assumptions C80_flat_partial.

(** `a, b` are two items that are token streams, yet they are an error *)
Theorem C80_flat_refuted : exists (env : Env) m i inputs e,
  hold inputs (items (tk "a, b")) /\
  (forall seg, In seg (items (tk "a, b")) -> accepts (d_item tokenstream_dict Unnamed) seg seg) /\
  fst (fu_parse tokenstream_flat m i inputs) = Err e.
Proof. exact ex_tokens_flat. Qed.
Print Assumptions C80_flat_refuted.

Example C80_ex :
  fst (d_item tokenstream_dict Unnamed (root_stream (tk "a + b, c"))) = Ok (firstn 3 (tk "a + b, c")) /\
  (exists e, fst (d_item tokenstream_dict Unnamed (root_stream (tk ", c"))) = Err e) /\
  fst (d_named tokenstream_dict "n" SCall (root_stream (tk ", c"))) = Ok [].
Proof. split; [|split; [eexists|]]; vm_compute; reflexivity. Qed.

(** ** C81 The unit type is `()` or the name alone *)
Theorem C81_item : forall (env : Env) m s, fst (d_item unit_dict m s) = Ok tt <-> exists ts gsp r, toks s = TGroup Paren ts gsp :: r.
Proof. exact @l_unit_item. Qed.
Print Assumptions C81_item.

Theorem C81_named : forall (env : Env) n sp s r, (exists s', d_named unit_dict n sp s = (Ok tt, s') /\ toks s' = r) <->
  follows_name (d_item unit_dict (Named sp)) (fun c _ => used_up c) (eq tt) s tt r.
Proof. exact @l_unit_named. Qed.
Print Assumptions C81_named.

Example C81_ex : fst (d_named unit_dict "n" SCall (root_stream (tk "(,), x"))) = Ok tt /\
  (exists e, fst (d_named unit_dict "n" SCall (root_stream (tk "(1), x"))) = Err e).
Proof. split; [|eexists]; vm_compute; reflexivity. Qed.

(** ** C82 A SmallString is read from a string literal; its value is the text of the literal as
       it was written ([env_show]: the Display of a token), quotes and escapes included *)
Theorem C82_item_partial : forall (env : Env) m s v s', d_item smallstring_dict m s = (Ok v, s') <->
  exists x sp, toks s = TLit (LStr x) sp :: toks s' /\ v = env_show (TLit (LStr x) sp) /\ scope s' = scope s /\ cell s' = cell s.
Proof. exact @l_smallstring. Qed.
Print Assumptions C82_item_partial.

(** it is never the content of the literal, as a literal is longer than its content *)
Theorem C82_never : forall (env : Env) m s v w,
  (forall x sp, String.length x < String.length (env_show (TLit (LStr x) sp))) ->
  fst (d_item smallstring_dict m s) = Ok v -> fst (d_item string_dict m s) = Ok w -> v <> w.
Proof. exact @l_small_never. Qed.
Print Assumptions C82_never.

(** the value is not the one a String has for the same input *)
Theorem C82_quotes_refuted : exists (env : Env) m s v x sp,
  toks s = [TLit (LStr x) sp] /\ fst (d_item smallstring_dict m s) = Ok v /\ fst (d_item string_dict m s) = Ok x /\ v <> x.
Proof. exact ex_small_quotes. Qed.
Print Assumptions C82_quotes_refuted.

Example C82_never_ex : forall x sp, String.length x < String.length (@env_show lexer_env (TLit (LStr x) sp)).
Proof. exact ex_small_longer. Qed.
Example C82_ex : fst (d_item smallstring_dict Unnamed (root_stream [TLit (LStr "a") SCall; TPunct "," false SCall])) = Ok """a""".
Proof. vm_compute. reflexivity. Qed.

(** ** C83 The types of syn are read by syn's parser; assignments and meta items stand in
       parentheses after a name *)
(** [syn_dict p]: all types but ExprAssign, Meta and MetaNameValue.  The name alone is no value. *)
Theorem C83_named : forall (env : Env) A (p : parser A) n sp s v r, well_behaved p ->
  (exists s', d_named (syn_dict p) n sp s = (Ok v, s') /\ toks s' = r) <-> follows_name p (only p) no_value s v r.
Proof. exact @l_syn_named. Qed.
Print Assumptions C83_named.

Theorem C83_missing : forall (env : Env) A (p : parser A) n sp,
  (exists e, d_missing (syn_dict p) n sp = Err e) /\ exists e, d_missing (paren_syn_dict p) n sp = Err e.
Proof. exact @l_syn_missing. Qed.
Print Assumptions C83_missing.

(** [paren_syn_dict p]: those three.  In a list they are read as they are ... *)
Theorem C83_parens_list : forall (env : Env) A (p : parser A), d_item (paren_syn_dict p) Unnamed = p.
Proof. exact @l_paren_list. Qed.
Print Assumptions C83_parens_list.

(** ... after a name from a group in parentheses ... *)
Theorem C83_parens_item : forall (env : Env) A (p : parser A) sp s v r,
  (exists s', d_item (paren_syn_dict p) (Named sp) s = (Ok v, s') /\ toks s' = r) <->
  exists ts gsp c, toks s = TGroup Paren ts gsp :: r /\ p (mkStream ts (SClose gsp) (cell s)) = (Ok v, c).
Proof. exact @l_paren_item. Qed.
Print Assumptions C83_parens_item.

(** ... whose content the parser has to use up, when all is said and done *)
Theorem C83_parens_whole : forall (env : Env) A (p : parser A) sp ts v,
  parse2 (d_item (paren_syn_dict p) (Named sp)) ts = Ok v <->
  exists b gsp c, ts = [TGroup Paren b gsp] /\ p (mkStream b (SClose gsp) None) = (Ok v, c) /\ toks c = [] /\ cell c = None.
Proof. exact @l_paren_whole. Qed.
Print Assumptions C83_parens_whole.

(** so `name = (value)` and `name((value))` *)
Theorem C83_parens_named : forall (env : Env) A (p : parser A) n sp s v r, well_behaved p ->
  (exists s', d_named (paren_syn_dict p) n sp s = (Ok v, s') /\ toks s' = r) <->
  follows_name (d_item (paren_syn_dict p) (Named sp)) (only (d_item (paren_syn_dict p) (Named sp))) no_value s v r.
Proof. exact @l_paren_named. Qed.
Print Assumptions C83_parens_named.

(** but not `name(value)`, which the other types accept *)
Theorem C83_single_parens_refuted : exists (env : Env) A (p : parser A) n sp ts gsp v e,
  well_behaved p /\ parse2 p ts = Ok v /\ fst (d_named (syn_dict p) n sp (root_stream [TGroup Paren ts gsp])) = Ok v /\
  fst (d_named (paren_syn_dict p) n sp (root_stream [TGroup Paren ts gsp])) = Err e.
Proof. exact ex_single_parens. Qed.
Print Assumptions C83_single_parens_refuted.

Example C83_ex :
  fst (d_named (paren_syn_dict parse_any_ident) "n" SCall (root_stream (tk "= (x), y"))) = Ok ("x", SAt 3) /\
  fst (d_named (paren_syn_dict parse_any_ident) "n" SCall (root_stream (tk "((x)), y"))) = Ok ("x", SAt 2) /\
  fst (d_named (syn_dict parse_any_ident) "n" SCall (root_stream (tk "(x), y"))) = Ok ("x", SAt 1) /\
  fst (d_item (paren_syn_dict parse_any_ident) Unnamed (root_stream (tk "x, y"))) = Ok ("x", SAt 0) /\
  (exists e, parse2 (d_item (paren_syn_dict parse_any_ident) (Named SCall)) (tk "(x y)") = Err e).
Proof. repeat split; try eexists; vm_compute; reflexivity. Qed.
