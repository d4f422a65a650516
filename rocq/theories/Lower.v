(** From the schema the front end of the derive accepted (Schema.v) to the schema the
    generated code is modelled by (DeriveFields.v, DeriveStruct.v, DeriveEnum.v).

    What the schema only names is given by [rust]: the trait implementations of a field's
    type or of its `with` module, and the meaning of the expressions in the attributes.
    Simplification: for a field with transforms, whose parsed type rustc infers, [ru_type]
    gives the implementations of the inferred type. *)
From Verif Require Export Schema.

(** the implementations of the parsing traits that a type (or module) has, and the type's
    Default::default() *)
Record rtype (V : Type) : Type := mkRtype {
  rt_item : dict V;
  rt_fn : flat_named V;
  rt_fu : flat_unnamed V;
  rt_append : append_fn V;
  rt_rest : rest_fn V;
  rt_auto : V }.
Arguments mkRtype {V}.
Arguments rt_item {V}.
Arguments rt_fn {V}.
Arguments rt_fu {V}.
Arguments rt_append {V}.
Arguments rt_rest {V}.
Arguments rt_auto {V}.

(** the meaning of field types, modules and expressions *)
Record rust (V : Type) : Type := mkRust {
  ru_type : src_field -> rtype V;
  ru_with : path -> rtype V;
  ru_expr : list token -> V;
  ru_map : list token -> V -> V;
  ru_and_then : list token -> V -> V + synerr }.
Arguments mkRust {V}.
Arguments ru_type {V}.
Arguments ru_with {V}.
Arguments ru_expr {V}.
Arguments ru_map {V}.
Arguments ru_and_then {V}.

Section Low.
Context {V : Type}.
Variable ru : rust V.

(** field.rs 274-283 parse_path; the names and ACCEPTS_ALL of a flattened field always
    come from its type (299-388).  [own] is set where the generated code ignores `with`. *)
Definition g_type (own : bool) (f : sfield) : rtype V :=
  let ty := ru_type ru (g_src f) in
  match g_with f with
  | Some m =>
    if own then ty else
      let w := ru_with ru m in
      mkRtype (rt_item w) (mkFN (fn_names (rt_fn ty)) (fn_accepts_all (rt_fn ty)) (fn_parse (rt_fn w)))
              (mkFU (fu_count (rt_fu ty)) (fu_parse (rt_fu w))) (rt_append w) (rt_rest w) (rt_auto ty)
  | None => ty
  end.

(** field.rs 389-441 *)
Definition g_kind (own : bool) (f : sfield) : fkind V :=
  let ty := g_type own f in
  if sv_true (g_append f) then KAppend (rt_append ty)
  else if sv_true (g_rest f) then KRest (rt_rest ty)
  else if flatten_true f then
    match sf_ident (g_src f) with
    | Some _ => KFlatN (match g_flatten f with
                        | Some x => option_map path_key (ff_prefix x)
                        | None => None
                        end) (rt_fn ty)
    | None => KFlatU (rt_fu ty)
    end
  else KItem (rt_item ty).

(** field.rs 18-33 FieldDefault::to_expr, for the field's type *)
Definition g_default_value (f : sfield) : option V :=
  option_map (fun d => match d with
                       | DDefault _ => rt_auto (ru_type ru (g_src f))
                       | DExpr ts => ru_expr ru ts
                       end) (g_default f).
Definition lower_transform (t : stransform) : transform V :=
  match t with SMap e => TMap (ru_map ru e) | SAndThen e => TAndThen (ru_and_then ru e) end.

Definition lower_field (own : bool) (f : sfield) : field V :=
  mkField (match sf_ident (g_src f) with Some x => fst x | None => "" end)
          (map fst (g_idents f)) (g_kind own f) (g_default_value f)
          (rt_auto (ru_type ru (g_src f))) (map lower_transform (g_transforms f))
          (sv_true (g_skip f)) (g_is_container f).

(** [auto] is Self::default(), [expr] and [post] the meaning of the struct-level default
    and and_then expressions *)
Definition lower_struct (auto : list V) (expr : list token -> list V)
           (post : list token -> list V -> list V + synerr) (d : sstruct) : sdef V :=
  mkStruct (i_shape d) (map (lower_field false) (i_fields d))
           (option_map (fun x => match x with DDefault _ => auto | DExpr ts => expr ts end)
                       (i_default d))
           (match i_transparent d with Some t => st_value t | None => false end)
           (b_true (i_unknown_ok d)) (map post (i_and_thens d)) (map p_segs (i_attributes d)).

(** variant.rs 74-101: a transparent variant ignores the field's `with` *)
Definition lower_variant (v : svariant) : vdef V :=
  let t := b_true (h_transparent v) in
  mkVariant (fst (sv_ident (h_src v))) (map fst (h_idents v)) (sv_shape (h_src v))
            (map (lower_field t) (h_fields v)) (b_true (h_flatten v)) t
            (sv_true (h_skip v)) (b_true (h_unknown_ok v)).
Definition lower_enum (auto : evalue V) (expr : list token -> evalue V)
           (post : list token -> evalue V -> evalue V + synerr) (d : senum) : edef V :=
  mkEnum (map lower_variant (j_variants d))
         (option_map (fun x => match x with DDefault _ => auto | DExpr ts => expr ts end)
                     (j_default d))
         (map post (j_and_thens d)) (b_true (j_unknown_ok d)) (map p_segs (j_attributes d)).
End Low.
