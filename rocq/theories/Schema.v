(** The front end of the derive macros: from the source of a struct or enum with its
    `#[deluxe(..)]` attributes to the schema the code is generated from.  Models
    macros/types/field.rs 13-219, 1054-1211, macros/types/struct.rs 14-127, 392-569,
    macros/types/variant.rs 11-54, 499-696, macros/types/enum.rs 11-25, 170-318 and the
    schema checks of macros/parse_meta_item.rs 221-246.

    The front end reads the attributes with the library's own helpers, so the functions
    below call the models of those.

    Simplifications: syn's parsers for paths, types and lifetimes are parameters
    ([synlib]); identifiers are their text, raw ones with their `r#`; heck's
    to_snake_case is modelled for ASCII. *)
From Verif Require Export Attrs With Validations.

(** *** The source *)
(** an identifier and its span; syn compares identifiers by their text *)
Definition name : Type := (string * span)%type.
Definition has_name (n : name) (l : list name) : bool := mem_str (fst n) (map fst l).

(** syn::Field; the type is its tokens *)
Record src_field : Type := mkSrcField {
  sf_ident : option name;
  sf_attrs : list attr;
  sf_ty : list token
}.
(** syn::Variant; [sv_span] is the span of the whole variant *)
Record src_variant : Type := mkSrcVariant {
  sv_ident : name;
  sv_shape : shape;
  sv_fields : list src_field;
  sv_attrs : list attr;
  sv_span : span
}.
(** syn::DeriveInput with DataStruct / DataEnum *)
Record src_struct : Type := mkSrcStruct {
  ss_shape : shape;
  ss_fields : list src_field;
  ss_attrs : list attr
}.
Record src_enum : Type := mkSrcEnum {
  se_variants : list src_variant;
  se_attrs : list attr
}.

(** syn's own parsers (dependency): Path::parse, Path::parse_mod_style, Type::parse,
    Lifetime::parse *)
Record synlib : Type := mkSynlib {
  sy_path : parser path;
  sy_mod_path : parser path;
  sy_type : parser (list token);
  sy_lifetime : parser string
}.

(** syn::ext::IdentExt::unraw (dependency) *)
Definition unraw (s : string) : string :=
  match strip_prefix "r#" s with Some r => r | None => s end.

(** *** heck 0.4 ToSnakeCase for ASCII (dependency) *)
Definition is_upper (c : ascii) : bool := let n := N_of_ascii c in (65 <=? n)%N && (n <=? 90)%N.
Definition is_lower (c : ascii) : bool := let n := N_of_ascii c in (97 <=? n)%N && (n <=? 122)%N.
Definition is_digit (c : ascii) : bool := let n := N_of_ascii c in (48 <=? n)%N && (n <=? 57)%N.
Definition is_alnum (c : ascii) : bool := is_upper c || is_lower c || is_digit c.
Definition lower_c (c : ascii) : ascii :=
  if is_upper c then ascii_of_N (N_of_ascii c + 32) else c.
Inductive wmode : Type := WBoundary | WLower | WUpper.
(** the words of a stretch of alphanumeric characters; [cur] is the current word,
    reversed *)
Fixpoint words (m : wmode) (cur : list ascii) (cs : list ascii) : list (list ascii) :=
  match cs with
  | [] => match cur with [] => [] | _ => [rev cur] end
  | c :: cs' =>
    match cs' with
    | [] => [rev (c :: cur)]
    | next :: _ =>
      let m1 := if is_lower c then WLower else if is_upper c then WUpper else m in
      if match m1 with WLower => is_upper next | _ => false end
      then rev (c :: cur) :: words WBoundary [] cs'
      else if match m with WUpper => is_upper c && is_lower next | _ => false end
      then rev cur :: words WBoundary [c] cs'
      else words m1 (c :: cur) cs'
    end
  end.
(** str::split at the characters that are not alphanumeric *)
Fixpoint alnum_runs (cur : list ascii) (cs : list ascii) : list (list ascii) :=
  match cs with
  | [] => [rev cur]
  | c :: cs' => if is_alnum c then alnum_runs (c :: cur) cs'
                else rev cur :: alnum_runs [] cs'
  end.
Definition snake_case (s : string) : string :=
  join_strs "_" (map (fun w => string_of_list_ascii (map lower_c w))
                     (flat_map (words WBoundary []) (alnum_runs [] (list_ascii_of_string s)))).

(** proc_macro2::Ident::new panics unless its argument is an identifier (dependency);
    ASCII *)
Definition ident_text (s : string) : bool :=
  match list_ascii_of_string s with
  | [] => false
  | c :: cs => (is_upper c || is_lower c || Ascii.eqb c "_") &&
               forallb (fun c => is_alnum c || Ascii.eqb c "_") cs
  end.

(** *** What the attributes contain *)
(** field.rs 13-16 FieldDefault *)
Inductive fdefault : Type := DDefault (sp : span) | DExpr (ts : list token).
(** field.rs 57-62 FieldFlatten *)
Record fflatten : Type := mkFlatten {
  ff_span : span; ff_value : bool; ff_prefix : option path }.
(** field.rs 122-127 FieldContainer *)
Record fcontainer : Type := mkContainer {
  fc_span : span; fc_value : bool; fc_lifetime : option string; fc_ty : option (list token) }.
(** field.rs 203-206 Transform *)
Inductive stransform : Type := SMap (e : list token) | SAndThen (e : list token).
(** struct.rs 14-21 StructTransparent *)
Record stransparent : Type := mkTransparent {
  st_span : span; st_value : bool;
  st_flatten_named : option bool; st_flatten_unnamed : option bool;
  st_append : option bool; st_rest : option bool }.

(** field.rs 208-219 Field *)
Record sfield : Type := mkSField {
  g_src : src_field;
  g_idents : list name;
  g_default : option fdefault;
  g_with : option path;
  g_flatten : option fflatten;
  g_append : option (bool * span);
  g_rest : option (bool * span);
  g_container : option fcontainer;
  g_skip : option (bool * span);
  g_transforms : list stransform }.
(** variant.rs 11-19 Variant *)
Record svariant : Type := mkSVariant {
  h_src : src_variant;
  h_fields : list sfield;
  h_idents : list name;
  h_flatten : option bool;
  h_transparent : option bool;
  h_skip : option (bool * span);
  h_unknown_ok : option bool }.
(** struct.rs 105-114 Struct *)
Record sstruct : Type := mkSStruct {
  i_shape : shape;
  i_fields : list sfield;
  i_default : option fdefault;
  i_crate : option path;
  i_transparent : option stransparent;
  i_unknown_ok : option bool;
  i_attributes : list path;
  i_and_thens : list (list token) }.
(** enum.rs 11-19 Enum *)
Record senum : Type := mkSEnum {
  j_variants : list svariant;
  j_default : option fdefault;
  j_crate : option path;
  j_attributes : list path;
  j_and_thens : list (list token);
  j_unknown_ok : option bool }.

(** `x.map(|v| *v).unwrap_or(false)` and the like *)
Definition sv_true (o : option (bool * span)) : bool :=
  match o with Some (b, _) => b | None => false end.
Definition b_true (o : option bool) : bool := match o with Some b => b | None => false end.
Definition flatten_true (f : sfield) : bool :=
  match g_flatten f with Some x => ff_value x | None => false end.
(** field.rs 246-264 is_flat, is_container, is_parsable *)
Definition g_is_flat (f : sfield) : bool :=
  flatten_true f || sv_true (g_append f) || sv_true (g_rest f).
Definition g_is_container (f : sfield) : bool :=
  match g_container f with Some c => fc_value c | None => false end.
Definition g_is_parsable (f : sfield) : bool := negb (g_is_container f) && negb (sv_true (g_skip f)).

Section Sch.
Context {env : Env}.
Variable sy : synlib.

(** Spanned for a sequence of tokens (dependency): first joined with last *)
Definition tokens_span (ts : list token) : span :=
  match ts with
  | [] => SCall
  | t :: _ => join_or (tok_span t) (tok_span (last ts t)) (tok_span t)
  end.
(** field.rs 47-55 *)
Definition default_span (d : fdefault) : span :=
  match d with DDefault sp => join_or sp sp sp | DExpr ts => tokens_span ts end.

(** *** Reading a list of items into variables [St] and the error accumulator:
    `errors.push_result(parse_struct(inputs, |input, path, span| ..))`.  The arms of the
    closure never return an error themselves. *)
Definition read_items {St} (arm : string -> span -> St -> errors -> parser (St * errors))
           (st : St) (es : errors) : mparser (St * errors) :=
  fun inputs =>
    match parse_struct (fun k sp (q : St * errors) s =>
                          match arm k sp (fst q) (snd q) s with
                          | (Ok q1, s1) => (Ok tt, q1, s1)
                          | (Err e, s1) => (Err e, q, s1)
                          | (Bad b, s1) => (Bad b, q, s1)
                          end) (st, es) inputs with
    | (Ok _, q, l) => (Ok q, l)
    | (Err e, q, l) => (Ok (fst q, push_syn (snd q) e), l)
    | (Bad b, _, l) => (Bad b, l)
    end.

(** `x.parse_named_item(name, input, span, &errors)` (parse_helpers.rs 155-189) *)
Definition slot {St A} (nm : string) (sp : span) (p : string -> span -> parser A)
           (v : fstatus A) (set : fstatus A -> St) (es : errors) : parser (St * errors) :=
  fun s => let (r, s1) := fs_parse_named nm sp p v es s in
           (rmap (fun x => (set (fst x), snd x)) r, s1).
(** `match errors.push_result(..) { Some(e) => .., None => skip_meta_item(input) }` *)
Definition collect {St A} (st : St) (p : parser A) (add : A -> St) (es : errors)
  : parser (St * errors) :=
  fun s => match p s with
           | (Ok a, s1) => (Ok (add a, es), s1)
           | (Err e, s1) => (Ok (st, push_syn es e), skip_item s1)
           | (Bad b, s1) => (Bad b, s1)
           end.
(** an error and `skip_meta_item(input)` *)
Definition refuse {St} (st : St) (es : errors) : parser (St * errors) :=
  fun s => (Ok (st, es), skip_item s).

(** field.rs 36-45: `input.parse::<TokenStream>()` takes all that is left *)
Definition all_tokens : parser (list token) := fun s => (Ok (toks s), set_toks s []).
Definition default_dict : dict fdefault :=
  dict_item_flag (fun _ => pmap DExpr all_tokens) (fun sp => Ok (DDefault sp)).

(** the parse_meta_item shared by FieldFlatten, FieldContainer and StructTransparent *)
Definition bool_or_braces {A} (lit : bool -> span -> A) (inline : mode -> mparser A) (m : mode)
  : parser A :=
  fun s =>
    if peek_lit sel_bool s then
      pmap (fun x => lit (fst x) (snd x)) (parse_lit_as "boolean literal" sel_bool) s
    else if peek_group Brace s then parse_delimited_with Brace (on_single (inline m)) s
    else (Err (error_at s "expected boolean literal or curly braces"), s).

(** field.rs 71-120 *)
Definition flatten_arm (k : string) (sp : span) (st : fstatus path) (es : errors)
  : parser (fstatus path * errors) :=
  if String.eqb k "prefix" then slot "prefix" sp (d_named any_path_dict) st (fun v => v) es
  else refuse st (push_syn es (unknown_error k sp ["prefix"])).
Definition flatten_inline (m : mode) : mparser fflatten :=
  fun inputs =>
    let sp := to_full_span m inputs in
    (q <- read_items flatten_arm FNone [] ;;
     fun l => (rmap (fun _ => mkFlatten sp true (fs_into_option (fst q))) (check (snd q)), l)) inputs.
Definition flatten_flag (sp : span) : res fflatten := Ok (mkFlatten sp true None).
Definition flatten_dict : dict fflatten :=
  let item := bool_or_braces (fun b sp => mkFlatten sp b None) flatten_inline in
  mkDict item flatten_inline flatten_flag (def_named item flatten_inline flatten_flag) def_missing.

(** field.rs 136-201 *)
Record cst : Type := mkCst { c_lifetime : fstatus string; c_ty : fstatus (list token) }.
Definition container_arm (k : string) (sp : span) (st : cst) (es : errors)
  : parser (cst * errors) :=
  if String.eqb k "lifetime" then
    slot "lifetime" sp (d_named (syn_dict (sy_lifetime sy))) (c_lifetime st)
         (fun v => mkCst v (c_ty st)) es
  else if String.eqb k "ty" then
    slot "ty" sp (d_named (syn_dict (sy_type sy))) (c_ty st) (mkCst (c_lifetime st)) es
  else refuse st (push_syn es (unknown_error k sp ["lifetime"; "ty"])).
Definition container_inline (m : mode) : mparser fcontainer :=
  fun inputs =>
    let sp := to_full_span m inputs in
    (q <- read_items container_arm (mkCst FNone FNone) [] ;;
     fun l => (rmap (fun _ => mkContainer sp true (fs_into_option (c_lifetime (fst q)))
                                          (fs_into_option (c_ty (fst q)))) (check (snd q)), l)) inputs.
Definition container_flag (sp : span) : res fcontainer := Ok (mkContainer sp true None None).
Definition container_dict : dict fcontainer :=
  let item := bool_or_braces (fun b sp => mkContainer sp b None None) container_inline in
  mkDict item container_inline container_flag (def_named item container_inline container_flag)
         def_missing.

(** struct.rs 30-102 *)
Record tst : Type := mkTst {
  t_fn : fstatus bool; t_fu : fstatus bool; t_append : fstatus bool; t_rest : fstatus bool }.
Definition transparent_arm (k : string) (sp : span) (st : tst) (es : errors)
  : parser (tst * errors) :=
  if String.eqb k "flatten_named" then
    slot "flatten_named" sp (d_named bool_dict) (t_fn st)
         (fun v => mkTst v (t_fu st) (t_append st) (t_rest st)) es
  else if String.eqb k "flatten_unnamed" then
    slot "flatten_unnamed" sp (d_named bool_dict) (t_fu st)
         (fun v => mkTst (t_fn st) v (t_append st) (t_rest st)) es
  else if String.eqb k "append" then
    slot "append" sp (d_named bool_dict) (t_append st)
         (fun v => mkTst (t_fn st) (t_fu st) v (t_rest st)) es
  else if String.eqb k "rest" then
    slot "rest" sp (d_named bool_dict) (t_rest st)
         (fun v => mkTst (t_fn st) (t_fu st) (t_append st) v) es
  else refuse st (push_syn es (unknown_error k sp
                                 ["flatten_named"; "flatten_unnamed"; "append"; "rest"])).
Definition transparent_inline (m : mode) : mparser stransparent :=
  fun inputs =>
    let sp := to_full_span m inputs in
    (q <- read_items transparent_arm (mkTst FNone FNone FNone FNone) [] ;;
     fun l => (rmap (fun _ => let t := fst q in
                              mkTransparent sp true (fs_into_option (t_fn t))
                                            (fs_into_option (t_fu t)) (fs_into_option (t_append t))
                                            (fs_into_option (t_rest t))) (check (snd q)), l)) inputs.
Definition transparent_flag (sp : span) : res stransparent :=
  Ok (mkTransparent sp true None None None None).
Definition transparent_dict : dict stransparent :=
  let item := bool_or_braces (fun b sp => mkTransparent sp b None None None None)
                             transparent_inline in
  mkDict item transparent_inline transparent_flag
         (def_named item transparent_inline transparent_flag) def_missing.

(** *** Names: `rename` and `alias` (field.rs 1097-1146, variant.rs 571-615).  The
    variables are idents, rename and alias_span; [own] is the identifier in the source. *)
Record nst : Type := mkNst {
  n_idents : list name; n_rename : fstatus span; n_alias : fstatus span }.
Definition rename_arm (what : string) (own : option string) (sp : span) (n : nst) (es : errors)
  : parser (nst * errors) :=
  fun s =>
    let first := fs_is_none (n_rename n) in
    let es1 := if first then es else push es sp "duplicate attribute for `rename`" in
    let fail e s1 :=
      (Ok (mkNst (n_idents n) (if first then FParseError else n_rename n) (n_alias n),
           push_syn es1 e), skip_item s1) in
    match d_named ident_dict "rename" sp s with
    | (Ok x, s1) =>
      if match own with Some o => String.eqb o (fst x) | None => false end then
        fail (err1 sp ("cannot rename " ++ what ++ " to its own name")%string) s1
      else if has_name x (n_idents n) then
        fail (err1 sp ("alias already given for " ++ tick (fst x))%string) s1
      else (Ok (mkNst (x :: n_idents n) (if first then FSome sp else n_rename n) (n_alias n), es1),
            s1)
    | (Err e, s1) => fail e s1
    | (Bad b, s1) => (Bad b, s1)
    end.
Definition alias_arm (what : string) (own : option string) (sp : span) (n : nst) (es : errors)
  : parser (nst * errors) :=
  fun s =>
    match d_named ident_dict "alias" sp s with
    | (Ok x, s1) =>
      if match own with Some o => String.eqb o (fst x) | None => false end then
        (Ok (n, push es sp ("cannot alias " ++ what ++ " to its own name")%string), s1)
      else if has_name x (n_idents n) then
        (Ok (n, push es sp ("duplicate alias for " ++ tick (fst x))%string), s1)
      else (Ok (mkNst (n_idents n ++ [x]) (n_rename n)
                      (if fs_is_none (n_alias n) then FSome sp else n_alias n), es), s1)
    | (Err e, s1) => (Ok (n, push_syn es e), skip_item s1)
    | (Bad b, s1) => (Bad b, s1)
    end.
(** run one of the two on a bigger set of variables *)
Definition on_names {St} (set : nst -> St) (p : parser (nst * errors)) : parser (St * errors) :=
  fun s => let (r, s1) := p s in (rmap (fun x => (set (fst x), snd x)) r, s1).

(** *** Field::parse_attributes, field.rs 1054-1211 *)
(** the variables 1066-1077 *)
Record fst_ : Type := mkFst {
  v_default : fstatus fdefault;
  v_with : fstatus path;
  v_flat : fstatus fflatten;
  v_append : fstatus (bool * span);
  v_rest : fstatus (bool * span);
  v_container : fstatus fcontainer;
  v_skipped : fstatus (bool * span);
  v_names_ : nst;
  v_transforms : list stransform }.
Definition fst_init : fst_ :=
  mkFst FNone FNone FNone FNone FNone FNone FNone (mkNst [] FNone FNone) [].

(** field.rs 284-298 *)
Definition field_attr_names : list string :=
  ["rename"; "flatten"; "append"; "rest"; "default"; "alias"; "with"; "container"; "skip";
   "map"; "and_then"].
Definition sv_bool : dict (bool * span) := spanned_dict bool_dict.

(** the closure, 1078-1171; `skip` is parsed under the name "container" (1150) *)
Definition field_arm (f : src_field) (k : string) (sp : span) (st : fst_) (es : errors)
  : parser (fst_ * errors) :=
  let named := match sf_ident f with Some _ => true | None => false end in
  let own := match sf_ident f with Some x => Some (fst x) | None => None end in
  let '(mkFst d w fl ap re co sk ns tr) := st in
  if String.eqb k "flatten" then
    slot "flatten" sp (d_named flatten_dict) fl (fun v => mkFst d w v ap re co sk ns tr) es
  else if String.eqb k "append" then
    if named then slot "append" sp (d_named sv_bool) ap
                       (fun v => mkFst d w fl v re co sk ns tr) es
    else refuse st (push es sp "`append` not allowed on tuple struct field")
  else if String.eqb k "rest" then
    if named then slot "rest" sp (d_named sv_bool) re
                       (fun v => mkFst d w fl ap v co sk ns tr) es
    else refuse st (push es sp "`rest` not allowed on tuple struct field")
  else if String.eqb k "default" then
    slot "default" sp (d_named default_dict) d (fun v => mkFst v w fl ap re co sk ns tr) es
  else if String.eqb k "with" then
    slot "with" sp (d_named (syn_dict (sy_path sy))) w (fun v => mkFst d v fl ap re co sk ns tr) es
  else if String.eqb k "rename" then
    if named then on_names (fun n => mkFst d w fl ap re co sk n tr)
                           (rename_arm "field" own sp ns es)
    else fun s => (Ok (st, push es sp "`rename` not allowed on tuple struct field"), s)
  else if String.eqb k "alias" then
    if named then on_names (fun n => mkFst d w fl ap re co sk n tr)
                           (alias_arm "field" own sp ns es)
    else fun s => (Ok (st, push es sp "`alias` not allowed on tuple struct field"), s)
  else if String.eqb k "container" then
    slot "container" sp (d_named container_dict) co (fun v => mkFst d w fl ap re v sk ns tr) es
  else if String.eqb k "skip" then
    slot "container" sp (d_named sv_bool) sk (fun v => mkFst d w fl ap re co v ns tr) es
  else if String.eqb k "map" then
    collect st (d_named tokenstream_dict k sp)
            (fun e => mkFst d w fl ap re co sk ns (tr ++ [SMap e])) es
  else if String.eqb k "and_then" then
    collect st (d_named tokenstream_dict k sp)
            (fun e => mkFst d w fl ap re co sk ns (tr ++ [SAndThen e])) es
  else refuse st (check_unknown k sp field_attr_names es).

(** the span of a variable that is set, for only_one! (validations.rs 75-90) *)
Definition span_if {A} (f : A -> span) (v : fstatus A) : option span :=
  match v with FSome x => Some (f x) | _ => None end.

(** 1172-1179 the only_one! checks *)
Definition field_checks (st : fst_) (es : errors) : errors :=
  let fl := ("flatten", span_if ff_span (v_flat st)) in
  let ap := ("append", span_if snd (v_append st)) in
  let re := ("rest", span_if snd (v_rest st)) in
  let co := ("container", span_if fc_span (v_container st)) in
  let rn := ("rename", span_if (fun x => x) (n_rename (v_names_ st))) in
  let wi := ("with", span_if p_span (v_with st)) in
  let al := ("alias", span_if (fun x => x) (n_alias (v_names_ st))) in
  let de := ("default", span_if default_span (v_default st)) in
  only_one [fl; al] "" (only_one [fl; rn] "" (only_one [de; fl] "" (only_one [co; al] ""
    (only_one [co; wi] "" (only_one [co; rn] "" (only_one [co; fl] ""
      (only_one [fl; ap; re] "" es))))))).

(** 1180-1184 *)
Definition field_idents (f : src_field) (st : fst_) : list name :=
  let n := v_names_ st in
  if fs_is_none (n_rename n) &&
     negb (match v_flat st with FSome x => ff_value x | _ => false end)
  then match sf_ident f with
       | Some (x, sp) => (unraw x, sp) :: n_idents n
       | None => n_idents n
       end
  else n_idents n.

Definition field_body (f : src_field) : mparser sfield :=
  q <- read_items (field_arm f) fst_init [] ;;
  fun l =>
    let st := fst q in
    (rmap (fun _ => mkSField f (field_idents f st) (fs_into_option (v_default st))
                             (fs_into_option (v_with st)) (fs_into_option (v_flat st))
                             (fs_into_option (v_append st)) (fs_into_option (v_rest st))
                             (fs_into_option (v_container st)) (fs_into_option (v_skipped st))
                             (v_transforms st))
          (check (field_checks st (snd q))), l).

(** `path.is_ident("deluxe")` *)
Definition is_deluxe (p : path) : bool :=
  negb (p_leading p) && match p_segs p with [x] => String.eqb x "deluxe" | _ => false end.
Definition deluxe_attrs (l : list attr) : list item := ref_tokens is_deluxe (ONode l).

Definition read_field (f : src_field) : res sfield :=
  parse_struct_attr_tokens (deluxe_attrs (sf_attrs f)) (fun _ => field_body f).

(** `.filter_map(|f| errors.push_result(Field::parse_attributes(f))).collect()` *)
Fixpoint read_all {A B} (rd : A -> res B) (l : list A) (es : errors) : res (list B * errors) :=
  match l with
  | [] => Ok ([], es)
  | a :: l' =>
    match rd a with
    | Ok b => rmap (fun x => (b :: fst x, snd x)) (read_all rd l' es)
    | Err e => read_all rd l' (push_syn es e)
    | Bad b => Bad b
    end
  end.

(** *** Shared by structs and variants *)
(** struct.rs 422-448, variant.rs 531-556: what `transparent` demands of the fields *)
Definition transparent_check (what : string) (fs : list sfield) : option string :=
  match filter g_is_parsable fs with
  | f :: rest =>
    if flatten_true f then
      Some ("`transparent` " ++ what ++ " field cannot be `flat`")%string
    else if sv_true (g_append f) then
      Some ("`transparent` " ++ what ++ " field cannot be `append`")%string
    else match rest with
         | [] => None
         | _ => Some ("`transparent` " ++ what ++ " must have only one parseable field")%string
         end
  | [] => Some ("`transparent` " ++ what ++ " must have only one parseable field")%string
  end.
Definition transparent_item {A} (what : string) (fs : list sfield) (p : string -> span -> parser A)
           (nm : string) (sp : span) : parser A :=
  fun s => match transparent_check what fs with
           | Some m => (Err (err1 sp m), s)
           | None => p nm sp s
           end.

(** struct.rs 502-516, variant.rs 643-655: skipped fields get a default *)
Definition skip_fill (f : sfield) : sfield :=
  if sv_true (g_skip f) then
    match g_default f, g_skip f with
    | None, Some (_, sp) =>
      mkSField (g_src f) (g_idents f) (Some (DDefault sp)) (g_with f) (g_flatten f) (g_append f)
               (g_rest f) (g_container f) (g_skip f) (g_transforms f)
    | _, _ => f
    end
  else f.

(** struct.rs 517-529: the names seen so far and the errors *)
Definition dup_names (msg : string) (ids : list name) (seen : list name) (es : errors)
  : list name * errors :=
  fold_left (fun q x => if has_name x (fst q)
                        then (fst q, push (snd q) (snd x) (msg ++ tick (fst x))%string)
                        else (fst q ++ [x], snd q)) ids (seen, es).
(** struct.rs 530-537, variant.rs 656-665: the container seen so far and the errors *)
Definition dup_container (f : sfield) (seen : bool) (es : errors) : bool * errors :=
  match g_container f with
  | Some c => if seen then (true, push es (fc_span c) "Duplicate `container` field")
              else (true, es)
  | None => (seen, es)
  end.
(** struct.rs 539-555, variant.rs 666-682: the loop over the fields in reverse *)
Fixpoint default_gaps (what : string) (fs : list sfield) (gap : bool) (es : errors) : errors :=
  match fs with
  | [] => es
  | f :: fs' =>
    if g_is_parsable f && negb (g_is_flat f) then
      match g_default f with
      | Some d =>
        default_gaps what fs' gap
          (if gap then push es (default_span d)
             ("`default` fields can only be at the end of a tuple " ++ what)%string
           else es)
      | None => default_gaps what fs' true es
      end
    else default_gaps what fs' gap es
  end.

(** *** Struct::parse_attributes, struct.rs 392-569 *)
(** the variables 406-411 *)
Record sst : Type := mkSst {
  w_transparent : fstatus stransparent;
  w_unknown : fstatus bool;
  w_default : fstatus fdefault;
  w_crate : fstatus path;
  w_and_thens : list (list token);
  w_attributes : list path }.
Definition sst_init : sst := mkSst FNone FNone FNone FNone [] [].
(** struct.rs 129-138 *)
Definition struct_attr_names : list string :=
  ["transparent"; "default"; "crate"; "attributes"; "and_then"; "allow_unknown_fields"].

Definition struct_arm (sh : shape) (fs : list sfield) (k : string) (sp : span) (st : sst)
           (es : errors) : parser (sst * errors) :=
  let '(mkSst t u d c a p) := st in
  if String.eqb k "transparent" then
    slot "transparent" sp (transparent_item "struct" fs (d_named transparent_dict)) t
         (fun v => mkSst v u d c a p) es
  else if String.eqb k "allow_unknown_fields" then
    match sh with
    | ShUnnamed => refuse st (push es sp "`allow_unknown_fields` not allowed on tuple struct")
    | _ => slot "allow_unknown_fields" sp (d_named bool_dict) u (fun v => mkSst t v d c a p) es
    end
  else if String.eqb k "default" then
    match sh with
    | ShUnit => refuse st (push es sp "`default` not allowed on unit struct")
    | _ => slot "default" sp (d_named default_dict) d (fun v => mkSst t u v c a p) es
    end
  else if String.eqb k "crate" then
    slot "crate" sp (d_named (syn_dict (sy_path sy))) c (fun v => mkSst t u d v a p) es
  else if String.eqb k "and_then" then
    collect st (d_named tokenstream_dict k sp) (fun e => mkSst t u d c (a ++ [e]) p) es
  else if String.eqb k "attributes" then
    collect st (d_named (with_vec_dict (syn_dict (sy_mod_path sy))) k sp)
            (fun l => mkSst t u d c a (p ++ l)) es
  else refuse st (check_unknown k sp struct_attr_names es).

(** 517-555: the checks on the fields *)
Fixpoint field_list_checks (fs : list sfield) (seen : list name) (cont : bool) (es : errors)
  : errors :=
  match fs with
  | [] => es
  | f :: fs' =>
    let (seen1, es1) := dup_names "duplicate field name for " (g_idents f) seen es in
    let (cont1, es2) := dup_container f cont es1 in
    field_list_checks fs' seen1 cont1 es2
  end.
Definition struct_checks (sh : shape) (fs : list sfield) (es : errors) : errors :=
  let es1 := field_list_checks fs [] false es in
  match sh with ShUnnamed => default_gaps "struct" (rev fs) false es1 | _ => es1 end.

Definition struct_body (i : src_struct) : mparser sstruct :=
  fun inputs =>
    match read_all read_field (ss_fields i) [] with
    | Ok (fs, es) =>
      (q <- read_items (struct_arm (ss_shape i) fs) sst_init es ;;
       fun l =>
         let st := fst q in
         let fs1 := if fs_is_none (w_default st) then map skip_fill fs else fs in
         (rmap (fun _ => mkSStruct (ss_shape i) fs1 (fs_into_option (w_default st))
                                   (fs_into_option (w_crate st))
                                   (fs_into_option (w_transparent st))
                                   (fs_into_option (w_unknown st)) (w_attributes st)
                                   (w_and_thens st))
               (check (struct_checks (ss_shape i) fs1 (snd q))), l)) inputs
    | Err e => (Err e, inputs)
    | Bad b => (Bad b, inputs)
    end.
Definition read_struct (i : src_struct) : res sstruct :=
  parse_struct_attr_tokens (deluxe_attrs (ss_attrs i)) (fun _ => struct_body i).

(** *** Variant::parse_attributes, variant.rs 499-696 *)
(** the variables 513-520 *)
Record vst : Type := mkVst {
  x_names : nst;
  x_flatten : fstatus (option (bool * span));
  x_transparent : fstatus (option (bool * span));
  x_skip : fstatus (bool * span);
  x_unknown : fstatus bool }.
Definition vst_init : vst := mkVst (mkNst [] FNone FNone) FNone FNone FNone FNone.
(** variant.rs 23-32 *)
Definition variant_attr_names : list string :=
  ["skip"; "rename"; "flatten"; "alias"; "transparent"; "allow_unknown_fields"].
Definition opt_bool : dict (option (bool * span)) := option_dict sv_bool.

Definition variant_arm (v : src_variant) (fs : list sfield) (k : string) (sp : span) (st : vst)
           (es : errors) : parser (vst * errors) :=
  let own := Some (fst (sv_ident v)) in
  let '(mkVst n fl t sk u) := st in
  if String.eqb k "transparent" then
    slot "transparent" sp (transparent_item "variant" fs (d_named opt_bool)) t
         (fun x => mkVst n fl x sk u) es
  else if String.eqb k "allow_unknown_fields" then
    match sv_shape v with
    | ShUnnamed => refuse st (push es sp "`allow_unknown_fields` not allowed on tuple variant")
    | _ => slot "allow_unknown_fields" sp (d_named bool_dict) u (fun x => mkVst n fl t sk x) es
    end
  else if String.eqb k "flatten" then
    slot "flatten" sp (d_named opt_bool) fl (fun x => mkVst n x t sk u) es
  else if String.eqb k "rename" then
    on_names (fun n => mkVst n fl t sk u) (rename_arm "variant" own sp n es)
  else if String.eqb k "alias" then
    on_names (fun n => mkVst n fl t sk u) (alias_arm "variant" own sp n es)
  else if String.eqb k "skip" then
    slot "skip" sp (d_named sv_bool) sk (fun x => mkVst n fl t x u) es
  else refuse st (check_unknown k sp variant_attr_names es).

(** 628-629 FieldStatus::flatten *)
Definition flat_status {A} (v : fstatus (option A)) : fstatus A := fs_flatten fs_from v.
Definition status_true (v : fstatus (bool * span)) : bool :=
  match v with FSome (b, _) => b | _ => false end.

(** 630-631 *)
Definition variant_only_one (st : vst) (es : errors) : errors :=
  let fl := ("flatten", span_if snd (flat_status (x_flatten st))) in
  only_one [fl; ("alias", span_if (fun x => x) (n_alias (x_names st)))] ""
    (only_one [fl; ("rename", span_if (fun x => x) (n_rename (x_names st)))] "" es).

(** 632-641; Ident::new can panic *)
Definition variant_idents (v : src_variant) (st : vst) : res (list name) :=
  let n := x_names st in
  if fs_is_none (n_rename n) && negb (status_true (flat_status (x_flatten st))) then
    let id := snake_case (unraw (fst (sv_ident v))) in
    if ident_text id then Ok ((id, snd (sv_ident v)) :: n_idents n) else Bad Panic
  else Ok (n_idents n).

(** 656-682 *)
Fixpoint container_checks (fs : list sfield) (cont : bool) (es : errors) : errors :=
  match fs with
  | [] => es
  | f :: fs' => let (cont1, es1) := dup_container f cont es in container_checks fs' cont1 es1
  end.
Definition variant_checks (sh : shape) (fs : list sfield) (es : errors) : errors :=
  let es1 := container_checks fs false es in
  match sh with ShUnnamed => default_gaps "variant" (rev fs) false es1 | _ => es1 end.

Definition variant_body (v : src_variant) : mparser svariant :=
  fun inputs =>
    match read_all read_field (sv_fields v) [] with
    | Ok (fs, es) =>
      (q <- read_items (variant_arm v fs) vst_init es ;;
       fun l =>
         let st := fst q in
         let es1 := variant_only_one st (snd q) in
         let fs1 := map skip_fill fs in
         (rbind (variant_idents v st) (fun ids =>
            rmap (fun _ => mkSVariant v fs1 ids
                             (option_map fst (fs_into_option (flat_status (x_flatten st))))
                             (option_map fst (fs_into_option (flat_status (x_transparent st))))
                             (fs_into_option (x_skip st)) (fs_into_option (x_unknown st)))
                 (check (variant_checks (sv_shape v) fs1 es1))), l)) inputs
    | Err e => (Err e, inputs)
    | Bad b => (Bad b, inputs)
    end.
Definition read_variant (v : src_variant) : res svariant :=
  parse_struct_attr_tokens (deluxe_attrs (sv_attrs v)) (fun _ => variant_body v).

(** *** Enum::parse_attributes, enum.rs 170-318 *)
(** the variables 184-188 *)
Record ust : Type := mkUst {
  y_default : fstatus fdefault;
  y_crate : fstatus path;
  y_and_thens : list (list token);
  y_attributes : list path;
  y_unknown : fstatus bool }.
Definition ust_init : ust := mkUst FNone FNone [] [] FNone.
(** enum.rs 23-25 (without "allow_unknown_fields") *)
Definition enum_attr_names : list string := ["default"; "crate"; "attributes"; "and_then"].

Definition enum_arm (k : string) (sp : span) (st : ust) (es : errors) : parser (ust * errors) :=
  let '(mkUst d c a p u) := st in
  if String.eqb k "default" then
    slot "default" sp (d_named default_dict) d (fun v => mkUst v c a p u) es
  else if String.eqb k "crate" then
    slot "crate" sp (d_named (syn_dict (sy_path sy))) c (fun v => mkUst d v a p u) es
  else if String.eqb k "and_then" then
    collect st (d_named tokenstream_dict k sp) (fun e => mkUst d c (a ++ [e]) p u) es
  else if String.eqb k "attributes" then
    collect st (d_named (with_vec_dict (syn_dict (sy_mod_path sy))) k sp)
            (fun l => mkUst d c a (p ++ l) u) es
  else if String.eqb k "allow_unknown_fields" then
    slot "allow_unknown_fields" sp (d_named bool_dict) u (fun v => mkUst d c a p v) es
  else refuse st (check_unknown k sp enum_attr_names es).

(** variant.rs 37-54 field_key *)
Definition req_names (f : sfield) : list string :=
  if match g_default f with Some _ => true | None => false end || g_is_flat f ||
     negb (g_is_parsable f)
  then [] else map fst (g_idents f).
Definition schema_key (v : svariant) : key_t :=
  set_of (cmp_list str_cmp)
         (filter (fun l => match l with [] => false | _ => true end)
                 (map (fun f => set_of str_cmp (req_names f)) (h_fields v))).
(** 267: the key of a variant that is not flattened *)
Definition tag_key (v : svariant) : key_t := [set_of str_cmp (map fst (h_idents v))].
Definition key_eqb (a b : key_t) : bool := match key_cmp a b with Eq => true | _ => false end.

(** 243-264: the first container with value true in the variant; lifetime and type are
    only allowed on the first of the enum *)
Definition variant_container (v : svariant) : option fcontainer :=
  match filter g_is_container (h_fields v) with
  | f :: _ => g_container f
  | [] => None
  end.
Definition extra_container (c : fcontainer) (es : errors) : errors :=
  let es1 := match fc_lifetime c with
             | Some _ => push es (fc_span c)
                 "only the first `container` field can contain a `lifetime` parameter"
             | None => es
             end in
  match fc_ty c with
  | Some ts => push es1 (tokens_span ts)
                 "only the first `container` field can contain a `type` parameter"
  | None => es1
  end.
(** the first loop, 242-280 *)
Fixpoint tagged_checks (vs : list svariant) (seen : list name) (cont : bool) (keys : list key_t)
         (es : errors) : list key_t * errors :=
  match vs with
  | [] => (keys, es)
  | v :: vs' =>
    let (cont1, es1) :=
      match variant_container v with
      | Some c => if cont then (true, extra_container c es) else (true, es)
      | None => (cont, es)
      end in
    if negb (b_true (h_flatten v)) then
      let (seen1, es2) := dup_names "duplicate variant name for " (h_idents v) seen es1 in
      tagged_checks vs' seen1 cont1 (keys ++ [tag_key v]) es2
    else tagged_checks vs' seen cont1 keys es1
  end.
(** the second loop, 281-299 *)
Fixpoint flat_checks (vs : list svariant) (keys : list key_t) (es : errors)
  : list key_t * errors :=
  match vs with
  | [] => (keys, es)
  | v :: vs' =>
    if b_true (h_flatten v) then
      match sv_shape (h_src v) with
      | ShNamed =>
        let k := schema_key v in
        if existsb (key_eqb k) keys then
          flat_checks vs' keys
            (push es (sv_span (h_src v))
               "additional flattened variants must have at least one unique non-flattened, non-default field")
        else flat_checks vs' (keys ++ [k]) es
      | _ => flat_checks vs' keys (push es (sv_span (h_src v))
                                     "only enum variants with named fields can have `flatten`")
      end
    else flat_checks vs' keys es
  end.
(** 300-307 *)
Definition enum_checks (vs : list svariant) (d : fstatus fdefault) (es : errors) : errors :=
  let (keys, es1) := tagged_checks vs [] false [] es in
  let (keys2, es2) := flat_checks vs keys es1 in
  match d with
  | FSome x =>
    if existsb (key_eqb []) keys2
    then push es2 (default_span x)
           "`default` cannot be used when a flattened variant has no unique field"
    else es2
  | _ => es2
  end.

Definition enum_body (i : src_enum) : mparser senum :=
  q <- read_items enum_arm ust_init [] ;;
  fun l =>
    let st := fst q in
    (rbind (read_all read_variant (se_variants i) (snd q)) (fun r =>
       rmap (fun _ => mkSEnum (fst r) (fs_into_option (y_default st))
                              (fs_into_option (y_crate st)) (y_attributes st) (y_and_thens st)
                              (fs_into_option (y_unknown st)))
            (check (enum_checks (fst r) (y_default st) (snd r)))), l).
Definition read_enum (i : src_enum) : res senum :=
  parse_struct_attr_tokens (deluxe_attrs (se_attrs i)) (fun _ => enum_body i).

(** *** The derives *)
(** `.find(|f| f.is_parsable() && !f.is_flat())` *)
Definition plain_field (f : sfield) : bool := g_is_parsable f && negb (g_is_flat f).

(** The places where the code generators unwrap something of the schema, i.e. where the
    macro itself could panic: field.rs 609, 744, 757 (the identifier of a named field), 880
    (the first name of a plain field).  Simplification: for a transparent struct or variant
    880 is not evaluated. *)
Definition gen_fields (sh : shape) (fs : list sfield) : res unit :=
  match sh with
  | ShNamed =>
    if forallb (fun f => opt_some (sf_ident (g_src f)) &&
                         (if plain_field f then match g_idents f with [] => false | _ => true end
                          else true)) fs
    then Ok tt else Bad Panic
  | _ => Ok tt
  end.
(** struct.rs 117-127 is_transparent *)
Definition i_is_transparent (d : sstruct) : bool :=
  match i_transparent d with Some t => st_value t | None => false end &&
  Nat.eqb (length (firstn 2 (filter plain_field (i_fields d)))) 1.
(** struct.rs 209-219: find_map(..).unwrap() *)
Definition gen_struct (d : sstruct) : res unit :=
  rbind (gen_fields (i_shape d) (i_fields d)) (fun _ =>
    if i_is_transparent d then
      match find plain_field (i_fields d) with Some _ => Ok tt | None => Bad Panic end
    else Ok tt).
(** variant.rs 72-83: the same for a variant; skipped variants are not generated (282, 306) *)
Definition gen_variant (v : svariant) : res unit :=
  if sv_true (h_skip v) then Ok tt
  else rbind (gen_fields (sv_shape (h_src v)) (h_fields v)) (fun _ =>
    if b_true (h_transparent v) then
      match find plain_field (h_fields v) with Some _ => Ok tt | None => Bad Panic end
    else Ok tt).
Fixpoint gen_variants (vs : list svariant) : res unit :=
  match vs with
  | [] => Ok tt
  | v :: vs' => rbind (gen_variant v) (fun _ => gen_variants vs')
  end.

(** parse_meta_item.rs 40-46: container fields get a default in derive(ParseMetaItem) *)
Definition container_fill (f : sfield) : sfield :=
  match g_container f, g_default f with
  | Some c, None =>
    if fc_value c then
      mkSField (g_src f) (g_idents f) (Some (DDefault (fc_span c))) (g_with f) (g_flatten f)
               (g_append f) (g_rest f) (g_container f) (g_skip f) (g_transforms f)
    else f
  | _, _ => f
  end.
Definition fill_struct (d : sstruct) : sstruct :=
  mkSStruct (i_shape d) (map container_fill (i_fields d)) (i_default d) (i_crate d)
            (i_transparent d) (i_unknown_ok d) (i_attributes d) (i_and_thens d).
(** derive(ParseMetaItem) on a struct (parse_meta_item.rs 19-214) and
    derive(ParseAttributes), derive(ExtractAttributes) (parse_attributes.rs 60-124): the
    schema the code is generated from, or the errors *)
Definition derive_meta_struct (i : src_struct) : res sstruct :=
  rbind (read_struct i) (fun d => let d1 := fill_struct d in rmap (fun _ => d1) (gen_struct d1)).
Definition derive_attr_struct (i : src_struct) : res sstruct :=
  rbind (read_struct i) (fun d => rmap (fun _ => d) (gen_struct d)).
(** parse_meta_item.rs 234-246 *)
Definition meta_container_check (e : senum) : errors :=
  fold_left (fun es v =>
    fold_left (fun es f =>
      match g_container f with
      | Some c =>
        if g_is_container f && match g_default f with None => true | _ => false end
        then push es (fc_span c) "derive(ParseMetaItem) requires container field to have `default`"
        else es
      | None => es
      end) (h_fields v) es) (j_variants e) [].
(** parse_meta_item.rs 217-257, parse_attributes.rs 126-175; the code is generated before
    the errors are looked at *)
Definition derive_meta_enum (i : src_enum) : res senum :=
  rbind (read_enum i) (fun e => rbind (gen_variants (j_variants e)) (fun _ =>
    rmap (fun _ => e) (check (meta_container_check e)))).
Definition derive_attr_enum (i : src_enum) : res senum :=
  rbind (read_enum i) (fun e => rmap (fun _ => e) (gen_variants (j_variants e))).
End Sch.
