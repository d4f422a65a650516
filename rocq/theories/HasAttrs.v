(** The syn nodes that hold attributes.  Models core/parse_attributes.rs 37-513
    (trait HasAttributes and its implementations). *)
From Verif Require Export Attrs.

(** the syn enums with a hand-written implementation *)
Inductive family : Type := FExpr | FForeignItem | FImplItem | FItem | FPat | FTraitItem.
Definition family_name (f : family) : string :=
  match f with
  | FExpr => "Expr" | FForeignItem => "ForeignItem" | FImplItem => "ImplItem"
  | FItem => "Item" | FPat => "Pat" | FTraitItem => "TraitItem"
  end.

(** the variants with an arm in attrs(): 122-163, 265-273, 299-307, 333-353, 402-423,
    470-478 *)
Definition attrs_arms (f : family) : list string :=
  match f with
  | FExpr => ["Array"; "Assign"; "Async"; "Await"; "Binary"; "Block"; "Break"; "Call"; "Cast";
              "Closure"; "Const"; "Continue"; "Field"; "ForLoop"; "Group"; "If"; "Index";
              "Infer"; "Let"; "Lit"; "Loop"; "Macro"; "Match"; "MethodCall"; "Paren"; "Path";
              "Range"; "Reference"; "Repeat"; "Return"; "Struct"; "Try"; "TryBlock"; "Tuple";
              "Unary"; "Unsafe"; "While"; "Yield"]
  | FForeignItem => ["Fn"; "Static"; "Type"; "Macro"]
  | FImplItem => ["Const"; "Fn"; "Type"; "Macro"]
  | FItem => ["Const"; "Enum"; "ExternCrate"; "Fn"; "ForeignMod"; "Impl"; "Macro"; "Mod";
              "Static"; "Struct"; "Trait"; "TraitAlias"; "Type"; "Union"; "Use"]
  | FPat => ["Const"; "Ident"; "Lit"; "Macro"; "Or"; "Paren"; "Path"; "Range"; "Reference";
             "Rest"; "Slice"; "Struct"; "Tuple"; "TupleStruct"; "Type"; "Wild"]
  | FTraitItem => ["Const"; "Fn"; "Type"; "Macro"]
  end.
(** the variants with an `Ok(&mut ..)` arm in attrs_mut(): 166-213, 274-289, 308-323,
    354-379, 424-450, 479-494.  `Infer` is not among those of syn::Expr. *)
Definition attrs_mut_arms (f : family) : list string :=
  match f with
  | FExpr => ["Array"; "Assign"; "Async"; "Await"; "Binary"; "Block"; "Break"; "Call"; "Cast";
              "Closure"; "Const"; "Continue"; "Field"; "ForLoop"; "Group"; "If"; "Index";
              "Let"; "Lit"; "Loop"; "Macro"; "Match"; "MethodCall"; "Paren"; "Path";
              "Range"; "Reference"; "Repeat"; "Return"; "Struct"; "Try"; "TryBlock"; "Tuple";
              "Unary"; "Unsafe"; "While"; "Yield"]
  | FForeignItem => ["Fn"; "Static"; "Type"; "Macro"]
  | FImplItem => ["Const"; "Fn"; "Type"; "Macro"]
  | FItem => ["Const"; "Enum"; "ExternCrate"; "Fn"; "ForeignMod"; "Impl"; "Macro"; "Mod";
              "Static"; "Struct"; "Trait"; "TraitAlias"; "Type"; "Union"; "Use"]
  | FPat => ["Const"; "Ident"; "Lit"; "Macro"; "Or"; "Paren"; "Path"; "Range"; "Reference";
             "Rest"; "Slice"; "Struct"; "Tuple"; "TupleStruct"; "Type"; "Wild"]
  | FTraitItem => ["Const"; "Fn"; "Type"; "Macro"]
  end.

(** A node.  [NEnum f v l sp]: variant [v] of the enum [f], whose own `attrs` is [l] (no
    attributes for a variant without the field) and whose tokens have span [sp].
    [NStruct]: one of the structs of impl_has_attributes! (93-117, 220-260, 291-294,
    325-328, 381-398, 452-463, 496-502): the macro is the same for all of them. *)
Inductive node : Type :=
| NEnum (f : family) (v : string) (l : list attr) (sp : span)
| NStruct (l : list attr).

(** HasAttributes::attrs *)
Definition node_attrs (n : node) : list attr :=
  match n with
  | NEnum f v l _ => if mem_str v (attrs_arms f) then l else []
  | NStruct l => l
  end.
(** HasAttributes::attrs_mut.  The error carries the span of the node's tokens. *)
Definition node_attrs_mut (n : node) : res (list attr) :=
  match n with
  | NEnum f v l sp =>
    if mem_str v (attrs_mut_arms f) then Ok l
    else if String.eqb v "Verbatim"
    then Err (err1 sp ("`HasAttributes::attrs_mut` not supported with `syn::" ++ family_name f
                       ++ "::Verbatim`"))
    else Err (err1 sp ("`HasAttributes::attrs_mut` encountered unknown `syn::" ++ family_name f
                       ++ "` variant"))
  | NStruct l => Ok l
  end.
(** the node with other attributes, where attrs_mut lets them be written *)
Definition node_with (n : node) (l : list attr) : node :=
  match n with NEnum f v _ sp => NEnum f v l sp | NStruct _ => NStruct l end.

(** the node as the rest of the model sees it *)
Definition as_owner (n : node) : owner :=
  match node_attrs_mut n with
  | Ok l => ONode l
  | Err e => ONodeRO (node_attrs n) e
  | Bad _ => ONode []
  end.
(** and what extraction leaves of it *)
Definition as_node (n : node) (o : owner) : node :=
  match o with ONode l => node_with n l | _ => n end.

Section N.
Context {env : Env} {V : Type}.
(** derived parse_attributes and extract_attributes on a node *)
Definition parse_node (s : sdef V) (conv : node -> V) (n : node) : res (list V) :=
  parse_struct_attr_tokens (map attr_item (filter (fun a => derived_matches (s_attributes s) (a_path a)) (node_attrs n)))
                           (struct_attr_body s (conv n)).
Definition extract_node (s : sdef V) (conv : node -> V) (n : node) : res (list V) * node :=
  match take_tokens (derived_matches (s_attributes s)) (as_owner n) with
  | (Ok l, o1) => (parse_struct_attr_tokens l (struct_attr_body s (conv (as_node n o1))), as_node n o1)
  | (Err e, o1) => (Err e, as_node n o1)
  | (Bad b, o1) => (Bad b, as_node n o1)
  end.
End N.
