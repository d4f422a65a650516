(** C68: reading and extracting attributes from the nodes of the syntax tree. *)
From Verif Require Import LemNodes ExNodes TestKit.

(** *** C68: the attributes a node carries are the ones read, and the ones extracted from *)

(** reading sees the attributes of every node that carries any, and whatever can be written
    is what is read *)
Theorem C68_read : forall n l,
  (carries n l -> node_attrs n = l) /\
  (node_attrs_mut n = Ok l -> node_attrs n = l).
Proof. exact @l_agree. Qed.
Print Assumptions C68_read.

(** every node that carries attributes lets them be written: all but `_` *)
Theorem C68_write_partial : forall n l, carries n l -> ~ infer_expr n -> node_attrs_mut n = Ok l.
Proof. exact @l_writable. Qed.
Print Assumptions C68_write_partial.
Theorem C68_write_refuted : exists (n : node) l e,
  carries n l /\ l <> [] /\ node_attrs n = l /\ node_attrs_mut n = Err e.
Proof. exact @l_infer_refuted. Qed.
Print Assumptions C68_write_refuted.

(** so extraction leaves the same node without the matching attributes, and gives what
    parsing gives *)
Theorem C68_extract_partial : forall (env : Env) V (s : sdef V) conv n l,
  carries n l -> ~ infer_expr n ->
  let matches a := derived_matches (s_attributes s) (a_path a) in
  keeping (fun a => negb (matches a)) n (snd (extract_node s conv n)) /\
  (conv n = conv (snd (extract_node s conv n)) ->
   fst (extract_node s conv n) = parse_node s conv n).
Proof. exact @l_extract_node. Qed.
Print Assumptions C68_extract_partial.
Theorem C68_extract_refuted : exists (s : sdef val) conv (n : node) l v e,
  carries n l /\ parse_node (env := lexer_env) s conv n = Ok v /\
  extract_node (env := lexer_env) s conv n = (Err e, n).
Proof. exact @l_infer_extract_refuted. Qed.
Print Assumptions C68_extract_refuted.
Example C68_ex : carries x_call x_attrs /\ ~ infer_expr x_call /\
  extract_node (env := lexer_env) x_nstruct x_ncv x_call =
  (Ok [VI 1], NEnum FExpr "Call" [ap ["other"]] SCall).
Proof. exact (conj (proj1 x_call_carries) (conj (proj2 x_call_carries) x_call_extract)). Qed.

(** the nodes whose attributes cannot be written are exactly the unparsed ones and `_`: the
    attempt is one error at the node, and extraction leaves the node as it is *)
Theorem C68_locked : forall (env : Env) V (s : sdef V) conv n sp m, locked n sp m ->
  node_attrs_mut n = Err (err1 sp m) /\ extract_node s conv n = (Err (err1 sp m), n).
Proof. exact @l_locked. Qed.
Print Assumptions C68_locked.
Theorem C68_locked_only : forall n e, syn_node n -> node_attrs_mut n = Err e ->
  exists sp m, locked n sp m /\ e = err1 sp m.
Proof. exact @l_locked_only. Qed.
Print Assumptions C68_locked_only.
Example C68_locked_ex : locked x_infer SCall "`HasAttributes::attrs_mut` encountered unknown `syn::Expr` variant" /\
  syn_node x_infer.
Proof. exact (conj (L_infer x_attrs SCall) x_infer_node). Qed.

(** nothing can be taken from borrowed attributes: one error, at the attributes, and they stay *)
Theorem C68_borrowed : forall (env : Env) V (s : sdef V) (e : edef V) cs ce o sp m, borrowed o sp m ->
  struct_extract_attributes s cs o = (Err (err1 sp m), o) /\ enum_extract_attributes e ce o = (Err (err1 sp m), o).
Proof. exact @l_borrowed. Qed.
Print Assumptions C68_borrowed.
Theorem C68_slice_at : forall (env : Env) l, exists sp, slice_at l sp.
Proof. exact @l_slice_at. Qed.
Print Assumptions C68_slice_at.
Example C68_borrowed_ex : exists sp, slice_at (env := lexer_env) x_attrs sp /\
  borrowed (env := lexer_env) (OSlice x_attrs) sp
    "`HasAttributes::attrs_mut()` not supported on immutable `[syn::Attribute]`, try using a `Vec<syn::Attribute>`" /\
  fst (struct_extract_attributes (env := lexer_env) x_nstruct (fun _ => VX "") (OSlice x_attrs)) =
  Err (err1 sp "`HasAttributes::attrs_mut()` not supported on immutable `[syn::Attribute]`, try using a `Vec<syn::Attribute>`").
Proof.
  destruct (l_slice_at lexer_env x_attrs) as [sp S]. exists sp. split; auto. split; [now constructor|].
  now rewrite (proj1 (l_borrowed lexer_env val x_nstruct (mkEnum [] None [] false []) (fun _ => VX "") (fun _ => VX "") _ _ _ (Bo_slice _ _ S))).
Qed.
