(** Which syn nodes carry attributes: the variants of the syn 2 enums, as syn documents
    them, apart from the verbatim ones. *)
From Verif Require Export HasAttrs.

Definition syn_variants (f : family) : list string :=
  match f with
  | FExpr => ["Array"; "Assign"; "Async"; "Await"; "Binary"; "Block"; "Break"; "Call"; "Cast";
              "Closure"; "Const"; "Continue"; "Field"; "ForLoop"; "Group"; "If"; "Index"; "Infer";
              "Let"; "Lit"; "Loop"; "Macro"; "Match"; "MethodCall"; "Paren"; "Path"; "Range";
              "Reference"; "Repeat"; "Return"; "Struct"; "Try"; "TryBlock"; "Tuple"; "Unary";
              "Unsafe"; "Verbatim"; "While"; "Yield"]
  | FForeignItem => ["Fn"; "Static"; "Type"; "Macro"; "Verbatim"]
  | FImplItem => ["Const"; "Fn"; "Type"; "Macro"; "Verbatim"]
  | FItem => ["Const"; "Enum"; "ExternCrate"; "Fn"; "ForeignMod"; "Impl"; "Macro"; "Mod"; "Static";
              "Struct"; "Trait"; "TraitAlias"; "Type"; "Union"; "Use"; "Verbatim"]
  | FPat => ["Const"; "Ident"; "Lit"; "Macro"; "Or"; "Paren"; "Path"; "Range"; "Reference"; "Rest";
             "Slice"; "Struct"; "Tuple"; "TupleStruct"; "Type"; "Verbatim"; "Wild"]
  | FTraitItem => ["Const"; "Fn"; "Type"; "Macro"; "Verbatim"]
  end.
(** the node has a list of attributes, namely [l] *)
Inductive carries : node -> list attr -> Prop :=
| C_struct l : carries (NStruct l) l
| C_enum f v l sp : In v (syn_variants f) -> v <> "Verbatim" -> carries (NEnum f v l sp) l.
(** `_`, the expression *)
Definition infer_expr (n : node) : Prop :=
  exists l sp, n = NEnum FExpr "Infer" l sp.
(** the same node with the attributes that satisfy [keep], in their order *)
Inductive keeping (keep : attr -> bool) : node -> node -> Prop :=
| K_struct l : keeping keep (NStruct l) (NStruct (filter keep l))
| K_enum f v l sp : keeping keep (NEnum f v l sp) (NEnum f v (filter keep l) sp).
(** The nodes whose attributes cannot be written, where they are and why. *)
Inductive locked : node -> span -> string -> Prop :=
| L_expr l sp : locked (NEnum FExpr "Verbatim" l sp) sp "`HasAttributes::attrs_mut` not supported with `syn::Expr::Verbatim`"
| L_foreign l sp : locked (NEnum FForeignItem "Verbatim" l sp) sp "`HasAttributes::attrs_mut` not supported with `syn::ForeignItem::Verbatim`"
| L_impl l sp : locked (NEnum FImplItem "Verbatim" l sp) sp "`HasAttributes::attrs_mut` not supported with `syn::ImplItem::Verbatim`"
| L_item l sp : locked (NEnum FItem "Verbatim" l sp) sp "`HasAttributes::attrs_mut` not supported with `syn::Item::Verbatim`"
| L_pat l sp : locked (NEnum FPat "Verbatim" l sp) sp "`HasAttributes::attrs_mut` not supported with `syn::Pat::Verbatim`"
| L_trait l sp : locked (NEnum FTraitItem "Verbatim" l sp) sp "`HasAttributes::attrs_mut` not supported with `syn::TraitItem::Verbatim`"
| L_infer l sp : locked (NEnum FExpr "Infer" l sp) sp "`HasAttributes::attrs_mut` encountered unknown `syn::Expr` variant".
(** a node of syn: one of the structs, or a variant of one of the enums *)
Definition syn_node (n : node) : Prop :=
  match n with NEnum f v _ _ => In v (syn_variants f) | NStruct _ => True end.

(** where a slice of attributes is: at the last one, joined with those before it if they can be *)
Inductive slice_at {env : Env} : list attr -> span -> Prop :=
| SA_none : slice_at [] SCall
| SA_one a : slice_at [a] (a_span a)
| SA_joined l a sp sp' : slice_at l sp -> l <> [] -> env_join (a_span a) sp = Some sp' -> slice_at (l ++ [a]) sp'
| SA_apart l a sp : slice_at l sp -> l <> [] -> env_join (a_span a) sp = None -> slice_at (l ++ [a]) (a_span a).
(** borrowed attributes, from which none can be taken: a single one and a slice *)
Inductive borrowed {env : Env} : owner -> span -> string -> Prop :=
| Bo_single a : borrowed (OSingle a) (a_span a)
    "`HasAttributes::attrs_mut()` not supported on single `syn::Attribute`, try moving it into a `Vec<syn::Attribute>`"
| Bo_slice l sp : slice_at l sp -> borrowed (OSlice l) sp
    "`HasAttributes::attrs_mut()` not supported on immutable `[syn::Attribute]`, try using a `Vec<syn::Attribute>`".
