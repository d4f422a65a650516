(** Vocabulary for the diagnostics of the derive's front end (Schema.v): what is wrong with
    the `#[deluxe(..)]` attributes, and the errors this gives. *)
From Verif Require Export SpecOpts.

(** Where a piece of source is: its first token joined with its last if the two can be
    joined, or else its first; a default without a value stands where its name is. *)
Definition tokens_at {env : Env} (ts : list token) : span :=
  match ts with
  | [] => SCall
  | t :: _ => match env_join (tok_span t) (tok_span (last ts t)) with Some s => s | None => tok_span t end
  end.
Definition default_at {env : Env} (d : fdefault) : span :=
  match d with
  | DDefault sp => match env_join sp sp with Some s => s | None => sp end
  | DExpr ts => tokens_at ts
  end.

(** what [judge] says of every element, given the ones before it *)
Fixpoint with_before {A B} (judge : list A -> A -> list B) (before l : list A) : list B :=
  match l with
  | [] => []
  | x :: l' => judge before x ++ with_before judge (before ++ [x]) l'
  end.
(** the errors that are found, in order; none: it is accepted *)
Definition diagnosed {A} (r : res A) (l : list err) : Prop :=
  match r with Ok _ => l = [] | Err e => errs_of e = l | Bad _ => False end.

(** *** The entries of an attribute: everything between two commas *)
Inductive aentry (O : Type) : Type :=
(** an option *)
| Good (k : string) (sp : span) (o : O)
(** the value of the key cannot be read *)
| Wrong (k : string) (sp : span) (e : synerr)
(** the key is not for this kind of item *)
| Barred (k : string) (sp : span) (msg : string)
(** no such key *)
| Strange (k : string) (sp : span).
Arguments Good {O}. Arguments Wrong {O}. Arguments Barred {O}. Arguments Strange {O}.
Definition entry_key {O} (x : aentry O) : string :=
  match x with Good k _ _ | Wrong k _ _ | Barred k _ _ | Strange k _ => k end.

(** The attributes some kind of item can have *)
Record grammar (O : Type) : Type := mkGrammar {
  (** the keys and how their values are read *)
  gr_keys : list (string * (string -> span -> parser O));
  (** keys that are not allowed, with the error *)
  gr_barred : list (string * string);
  (** those of them whose value is not skipped *)
  gr_loose : list string;
  (** keys that can be repeated *)
  gr_many : list string;
  (** the name of a key in the error about its repetition *)
  gr_shown : string -> string;
  (** the keys suggested for unknown ones *)
  gr_hints : list string;
  (** what else is wrong with an option, given the entries before it *)
  gr_more : list (aentry O) -> span -> O -> list err }.
Arguments mkGrammar {O}. Arguments gr_keys {O}. Arguments gr_barred {O}. Arguments gr_loose {O}.
Arguments gr_many {O}. Arguments gr_shown {O}. Arguments gr_hints {O}. Arguments gr_more {O}.

Definition is_key (k x : string) : bool := String.eqb k x.
Definition listed_in (k : string) (l : list string) : bool := existsb (is_key k) l.
Definition nothing_more {O} (_ : list (aentry O)) (_ : span) (_ : O) : list err := [].

Section E.
Context {env : Env} {O : Type}.
Variable G : grammar O.
(** the tokens up to the next comma (not in it) are left out *)
Definition to_comma (s s' : stream) : Prop :=
  exists pre, toks s = pre ++ toks s' /\ no_comma pre /\ ends (toks s') /\
    s' = set_toks s (toks s').
(** [entry_rest k sp s x s']: the tokens of [s], after the key [k] at [sp], are the rest of
    entry [x], up to [s'] *)
Inductive entry_rest (k : string) (sp : span) (s : stream) : aentry O -> stream -> Prop :=
| T_good p o s' : listed_in k (map fst (gr_barred G)) = false -> In (k, p) (gr_keys G) ->
    p k sp s = (Ok o, s') -> entry_rest k sp s (Good k sp o) s'
| T_wrong p e s1 s' : listed_in k (map fst (gr_barred G)) = false -> In (k, p) (gr_keys G) ->
    p k sp s = (Err e, s1) -> to_comma s1 s' -> entry_rest k sp s (Wrong k sp e) s'
| T_barred msg s' : In (k, msg) (gr_barred G) ->
    (if listed_in k (gr_loose G) then s' = s else to_comma s s') ->
    entry_rest k sp s (Barred k sp msg) s'
| T_strange s' : listed_in k (map fst (gr_keys G)) = false -> listed_in k (map fst (gr_barred G)) = false ->
    to_comma s s' -> entry_rest k sp s (Strange k sp) s'.
Inductive entries_in : stream -> list (aentry O) -> stream -> Prop :=
| N_end s : toks s = [] -> entries_in s [] s
| N_last s k sp s1 x s2 : toks s <> [] -> at_key s k sp s1 -> entry_rest k sp s1 x s2 ->
    toks s2 = [] -> entries_in s [x] s2
| N_more s k sp s1 x s2 c r xs s3 : toks s <> [] -> at_key s k sp s1 -> entry_rest k sp s1 x s2 ->
    toks s2 = c :: r -> comma_tok c -> entries_in (set_toks s2 r) xs s3 ->
    entries_in s (x :: xs) s3.
Inductive entries_in_all : list stream -> list (aentry O) -> list stream -> Prop :=
| Ns_nil : entries_in_all [] [] []
| Ns_cons s xs s' l ys l' : entries_in s xs s' -> entries_in_all l ys l' ->
    entries_in_all (s :: l) (xs ++ ys) (s' :: l').
(** the entries of the deluxe attributes: these are made of entries up to their ends, and no
    value that could not be read was broken off in a group *)
Definition has_entries (l : list attr) (xs : list (aentry O)) : Prop :=
  exists cs cs', Forall2 attr_content (deluxe_items l) cs /\ entries_in_all cs xs cs' /\
    Forall parsed_up cs'.

(** the errors about an entry, given the ones before it *)
Definition again (k : string) (sp : span) (before : list (aentry O)) : list err :=
  if listed_in k (gr_many G) then []
  else if listed_in k (map entry_key before)
       then [mkErr sp ("duplicate attribute for `" ++ gr_shown G k ++ "`")%string]
       else [].
Definition judge (before : list (aentry O)) (x : aentry O) : list err :=
  match x with
  | Good k sp o => again k sp before ++ gr_more G before sp o
  | Wrong k sp e => again k sp before ++ errs_of e
  | Barred k sp msg => [mkErr sp msg]
  | Strange k sp => errs_of (unknown_error k sp (gr_hints G))
  end.
Definition judged (xs : list (aentry O)) : list err := with_before judge [] xs.
End E.

(** what the first entry with key [k] says *)
Definition first_value {O A} (k : string) (get : O -> option A) (xs : list (aentry O)) : option A :=
  match filter (fun x => is_key k (entry_key x)) xs with
  | Good _ _ o :: _ => get o
  | _ => None
  end.
(** an entry with key [k] that is not forbidden *)
Definition tried {O} (k : string) (xs : list (aentry O)) : bool :=
  existsb (fun x => match x with Good k' _ _ | Wrong k' _ _ => is_key k k' | _ => false end) xs.

(** *** only_one! *)
Definition clash (l : list (string * option span)) : list err :=
  match present_spans l with
  | _ :: _ :: _ =>
    map (fun sp => mkErr sp ("only one of " ++ quoted_list (map fst l) ++ " is allowed")%string)
        (present_spans l)
  | _ => []
  end.

(** *** New names: `rename` and `alias` *)
Section N.
Context {O : Type}.
Variable what : string.
Variable own : option string.
(** is it a `rename` (true) or an `alias`, and of what name *)
Variable name_of : O -> option (bool * string).
Definition given (before : list (aentry O)) : list string :=
  flat_map (fun x => match x with
                     | Good _ _ o => match name_of o with Some (_, y) => [y] | None => [] end
                     | _ => []
                     end) before.
Definition name_faults (before : list (aentry O)) (sp : span) (o : O) : list err :=
  match name_of o with
  | None => []
  | Some (rename, y) =>
    if match own with Some z => is_key z y | None => false end then
      [mkErr sp ("cannot " ++ (if rename then "rename " else "alias ") ++ what ++ " to its own name")%string]
    else if listed_in y (given before) then
      [mkErr sp ((if rename then "alias already given for `" else "duplicate alias for `") ++ y ++ "`")%string]
    else []
  end.
(** for each entry that tries a rename (an alias): its place, if there is no fault *)
Definition attempts (rename : bool) (key : string) (xs : list (aentry O)) : list (option span) :=
  with_before (fun before x =>
    match x with
    | Good _ sp o =>
      match name_of o with
      | Some (r, _) => if Bool.eqb r rename
                       then [match name_faults before sp o with [] => Some sp | _ => None end]
                       else []
      | None => []
      end
    | Wrong k _ _ => if is_key key k then [None] else []
    | _ => []
    end) [] xs.
(** the first rename, if it is fine *)
Definition renamed_at (xs : list (aentry O)) : option span :=
  match attempts true "rename" xs with Some sp :: _ => Some sp | _ => None end.
(** the first alias that is fine *)
Definition alias_at (xs : list (aentry O)) : option span :=
  match somes (attempts false "alias" xs) with sp :: _ => Some sp | [] => None end.
End N.

(** *** The values of `flatten(..)`, `container(..)` and `transparent(..)` *)
Section I.
Context {env : Env}.
Variable sy : synlib.
Inductive lopt : Type := LPrefix (p : path).
Definition grammar_flatten : grammar lopt :=
  mkGrammar [("prefix", fun k sp => pmap LPrefix (d_named any_path_dict k sp))] [] [] [] (fun k => k) ["prefix"] nothing_more.
Inductive copt : Type := CLifetime (x : string) | CTy (ts : list token).
Definition grammar_container : grammar copt :=
  mkGrammar [("lifetime", fun k sp => pmap CLifetime (d_named (syn_dict (sy_lifetime sy)) k sp));
             ("ty", fun k sp => pmap CTy (d_named (syn_dict (sy_type sy)) k sp))]
            [] [] [] (fun k => k) ["lifetime"; "ty"] nothing_more.
Inductive topt : Type := TFlattenNamed (b : bool) | TFlattenUnnamed (b : bool) | TAppend (b : bool) | TRest (b : bool).
Definition grammar_transparent : grammar topt :=
  mkGrammar [("flatten_named", fun k sp => pmap TFlattenNamed (d_named bool_dict k sp));
             ("flatten_unnamed", fun k sp => pmap TFlattenUnnamed (d_named bool_dict k sp));
             ("append", fun k sp => pmap TAppend (d_named bool_dict k sp));
             ("rest", fun k sp => pmap TRest (d_named bool_dict k sp))]
            [] [] [] (fun k => k) ["flatten_named"; "flatten_unnamed"; "append"; "rest"] nothing_more.
End I.

(** *** Fields *)
Section F.
Context {env : Env}.
Variable sy : synlib.
Variable f : src_field.
Definition keys_f : list (string * (string -> span -> parser fopt)) :=
  [("flatten", fun k sp => pmap OFlatten (d_named flatten_dict k sp));
   ("append", fun k sp => pmap OAppend (d_named (spanned_dict bool_dict) k sp));
   ("rest", fun k sp => pmap ORest (d_named (spanned_dict bool_dict) k sp));
   ("default", fun k sp => pmap ODefault (d_named default_dict k sp));
   ("with", fun k sp => pmap OWith (d_named (syn_dict (sy_path sy)) k sp));
   ("rename", fun k sp => pmap ORename (d_named ident_dict k sp));
   ("alias", fun k sp => pmap OAlias (d_named ident_dict k sp));
   ("container", fun k sp => pmap OContainer (d_named (container_dict sy) k sp));
   ("skip", fun k sp => pmap OSkip (d_named (spanned_dict bool_dict) k sp));
   ("map", fun k sp => pmap OMap (d_named tokenstream_dict k sp));
   ("and_then", fun k sp => pmap OAndThen (d_named tokenstream_dict k sp))].
Definition field_name_of (o : fopt) : option (bool * string) :=
  match o with ORename x => Some (true, fst x) | OAlias x => Some (false, fst x) | _ => None end.
Definition not_on_tuples (k : string) : string * string :=
  (k, "`" ++ k ++ "` not allowed on tuple struct field")%string.
Definition grammar_f : grammar fopt :=
  mkGrammar keys_f
    (match sf_ident f with
     | Some _ => []
     | None => map not_on_tuples ["append"; "rest"; "rename"; "alias"]
     end)
    ["rename"; "alias"] ["alias"; "map"; "and_then"]
    (** `skip` is called `container` *)
    (fun k => if is_key k "skip" then "container" else k)
    ["rename"; "flatten"; "append"; "rest"; "default"; "alias"; "with"; "container"; "skip"; "map"; "and_then"]
    (name_faults "field" (option_map fst (sf_ident f)) field_name_of).
(** the pairs of options that cannot be used together *)
Definition clashes_f (xs : list (aentry fopt)) : list err :=
  let fl := ("flatten", option_map ff_span (first_value "flatten" (fun o => match o with OFlatten x => Some x | _ => None end) xs)) in
  let ap := ("append", option_map snd (first_value "append" (fun o => match o with OAppend x => Some x | _ => None end) xs)) in
  let re := ("rest", option_map snd (first_value "rest" (fun o => match o with ORest x => Some x | _ => None end) xs)) in
  let co := ("container", option_map fc_span (first_value "container" (fun o => match o with OContainer x => Some x | _ => None end) xs)) in
  let wi := ("with", option_map p_span (first_value "with" (fun o => match o with OWith x => Some x | _ => None end) xs)) in
  let de := ("default", option_map default_at (first_value "default" (fun o => match o with ODefault x => Some x | _ => None end) xs)) in
  let rn := ("rename", renamed_at "field" (option_map fst (sf_ident f)) field_name_of xs) in
  let al := ("alias", alias_at "field" (option_map fst (sf_ident f)) field_name_of xs) in
  clash [fl; ap; re] ++ clash [co; fl] ++ clash [co; rn] ++ clash [co; wi] ++ clash [co; al] ++
  clash [de; fl] ++ clash [fl; rn] ++ clash [fl; al].
Definition problems_f (xs : list (aentry fopt)) : list err := judged grammar_f xs ++ clashes_f xs.
End F.

(** the fields of an item: those that are fine and what they mean, and the errors about the
    others *)
Inductive fields_read {env : Env} (sy : synlib) : list src_field -> list sfield -> list err -> Prop :=
| FR_nil : fields_read sy [] [] []
| FR_fine f g fs gs es : field_means sy f g -> fields_read sy fs gs es -> fields_read sy (f :: fs) (g :: gs) es
| FR_not f xs fs gs es : has_entries (grammar_f sy f) (sf_attrs f) xs -> problems_f sy f xs <> [] ->
    fields_read sy fs gs es -> fields_read sy (f :: fs) gs (problems_f sy f xs ++ es).

(** *** Fields together *)
Definition flatten_on (g : sfield) : bool := match g_flatten g with Some x => ff_value x | None => false end.
Definition marked (o : option (bool * span)) : bool := match o with Some (b, _) => b | None => false end.
(** parsed under its own name or at its own position *)
Definition on_its_own (g : sfield) : bool :=
  taken_part g && negb (flatten_on g || marked (g_append g) || marked (g_rest g)).
(** what is wrong with `transparent`: it is for exactly one field, not `flatten`, not `append` *)
Definition transparent_fault (what : string) (gs : list sfield) : option string :=
  match filter taken_part gs with
  | g :: rest =>
    if flatten_on g then Some ("`transparent` " ++ what ++ " field cannot be `flat`")%string
    else if marked (g_append g) then Some ("`transparent` " ++ what ++ " field cannot be `append`")%string
    else if Nat.eqb (length rest) 0 then None
    else Some ("`transparent` " ++ what ++ " must have only one parseable field")%string
  | [] => Some ("`transparent` " ++ what ++ " must have only one parseable field")%string
  end.
Definition unless_fault {A} (what : string) (gs : list sfield) (p : string -> span -> parser A)
           (k : string) (sp : span) : parser A :=
  fun s => match transparent_fault what gs with
           | Some m => (Err (err1 sp m), s)
           | None => p k sp s
           end.
(** names that were seen before *)
Definition repeated (msg : string) (seen : list name) (l : list name) : list err :=
  with_before (fun before x => if listed_in (fst x) (map fst before)
                               then [mkErr (snd x) (msg ++ "`" ++ fst x ++ "`")%string] else []) seen l.
Definition second_container (before : list sfield) (g : sfield) : list err :=
  match g_container g with
  | Some c => if existsb (fun h => match g_container h with Some _ => true | None => false end) before
              then [mkErr (fc_span c) "Duplicate `container` field"] else []
  | None => []
  end.
(** in a tuple, a field with a default and after it one without; from the last field on *)
Definition gaps {env : Env} (what : string) (gs : list sfield) : list err :=
  with_before (fun later g =>
    match g_default g with
    | Some d =>
      if on_its_own g &&
         existsb (fun h => on_its_own h && match g_default h with None => true | Some _ => false end) later
      then [mkErr (default_at d) ("`default` fields can only be at the end of a tuple " ++ what)%string]
      else []
    | None => []
    end) [] (rev gs).
Definition tuple_gaps {env : Env} (what : string) (sh : shape) (gs : list sfield) : list err :=
  match sh with ShUnnamed => gaps what gs | _ => [] end.

(** *** Structs *)
Section S.
Context {env : Env}.
Variable sy : synlib.
Variable sh : shape.
Variable gs : list sfield.
Definition grammar_s : grammar sopt :=
  mkGrammar
    [("transparent", fun k sp => pmap STransparent (unless_fault "struct" gs (d_named transparent_dict) k sp));
     ("allow_unknown_fields", fun k sp => pmap SUnknown (d_named bool_dict k sp));
     ("default", fun k sp => pmap SDefault (d_named default_dict k sp));
     ("crate", fun k sp => pmap SCrate (d_named (syn_dict (sy_path sy)) k sp));
     ("and_then", fun k sp => pmap SAndThenS (d_named tokenstream_dict k sp));
     ("attributes", fun k sp => pmap SAttributes (d_named (with_vec_dict (syn_dict (sy_mod_path sy))) k sp))]
    (match sh with
     | ShUnnamed => [("allow_unknown_fields", "`allow_unknown_fields` not allowed on tuple struct")]
     | ShUnit => [("default", "`default` not allowed on unit struct")]
     | ShNamed => []
     end)
    [] ["and_then"; "attributes"] (fun k => k)
    ["transparent"; "default"; "crate"; "attributes"; "and_then"; "allow_unknown_fields"] nothing_more.
(** a default of the struct, also one that cannot be read, is there for skipped fields *)
Definition fields_left (xs : list (aentry sopt)) : list sfield :=
  if tried "default" xs then gs else map filled gs.
Definition problems_s (fes : list err) (xs : list (aentry sopt)) : list err :=
  fes ++ judged grammar_s xs ++
  with_before (fun before g => repeated "duplicate field name for " (flat_map g_idents before) (g_idents g) ++
                               second_container before g) [] (fields_left xs) ++
  tuple_gaps "struct" sh (fields_left xs).
End S.

(** *** Variants *)
Section V.
Context {env : Env}.
Variable v : src_variant.
Variable gs : list sfield.
Definition variant_name_of (o : vopt) : option (bool * string) :=
  match o with VRename x => Some (true, fst x) | VAlias x => Some (false, fst x) | _ => None end.
Definition grammar_v : grammar vopt :=
  mkGrammar
    [("transparent", fun k sp => pmap VTransparent (unless_fault "variant" gs (d_named (option_dict (spanned_dict bool_dict))) k sp));
     ("allow_unknown_fields", fun k sp => pmap VUnknown (d_named bool_dict k sp));
     ("flatten", fun k sp => pmap VFlatten (d_named (option_dict (spanned_dict bool_dict)) k sp));
     ("rename", fun k sp => pmap VRename (d_named ident_dict k sp));
     ("alias", fun k sp => pmap VAlias (d_named ident_dict k sp));
     ("skip", fun k sp => pmap VSkip (d_named (spanned_dict bool_dict) k sp))]
    (match sv_shape v with
     | ShUnnamed => [("allow_unknown_fields", "`allow_unknown_fields` not allowed on tuple variant")]
     | _ => []
     end)
    [] ["alias"] (fun k => k)
    ["skip"; "rename"; "flatten"; "alias"; "transparent"; "allow_unknown_fields"]
    (name_faults "variant" (Some (fst (sv_ident v))) variant_name_of).
Definition clashes_v (xs : list (aentry vopt)) : list err :=
  let fl := ("flatten", option_map snd (first_value "flatten" (fun o => match o with VFlatten x => x | _ => None end) xs)) in
  clash [fl; ("rename", renamed_at "variant" (Some (fst (sv_ident v))) variant_name_of xs)] ++
  clash [fl; ("alias", alias_at "variant" (Some (fst (sv_ident v))) variant_name_of xs)].
Definition problems_v (fes : list err) (xs : list (aentry vopt)) : list err :=
  fes ++ judged grammar_v xs ++ clashes_v xs ++ with_before second_container [] (map filled gs) ++
  tuple_gaps "variant" (sv_shape v) (map filled gs).
End V.
Inductive variants_read {env : Env} (sy : synlib) : list src_variant -> list svariant -> list err -> Prop :=
| VR_nil : variants_read sy [] [] []
| VR_fine v h vs hs es : variant_means sy v h -> variants_read sy vs hs es ->
    variants_read sy (v :: vs) (h :: hs) es
| VR_not v gs fes xs vs hs es : snake_ok v -> fields_read sy (sv_fields v) gs fes ->
    has_entries (grammar_v v gs) (sv_attrs v) xs -> problems_v v gs fes xs <> [] ->
    variants_read sy vs hs es -> variants_read sy (v :: vs) hs (problems_v v gs fes xs ++ es).

(** *** Enums *)
Section U.
Context {env : Env}.
Variable sy : synlib.
Definition grammar_e : grammar eopt :=
  mkGrammar
    [("default", fun k sp => pmap EDefault (d_named default_dict k sp));
     ("crate", fun k sp => pmap ECrate (d_named (syn_dict (sy_path sy)) k sp));
     ("and_then", fun k sp => pmap EAndThen (d_named tokenstream_dict k sp));
     ("attributes", fun k sp => pmap EAttributes (d_named (with_vec_dict (syn_dict (sy_mod_path sy))) k sp));
     ("allow_unknown_fields", fun k sp => pmap EUnknown (d_named bool_dict k sp))]
    [] [] ["and_then"; "attributes"] (fun k => k)
    (** `allow_unknown_fields` is not suggested *)
    ["default"; "crate"; "attributes"; "and_then"] nothing_more.
(** only the first container of the enum says what the container is *)
Definition late_container (before : list svariant) (h : svariant) : list err :=
  match container_of h with
  | Some c =>
    if existsb (fun w => match container_of w with Some _ => true | None => false end) before then
      match fc_lifetime c with
      | Some _ => [mkErr (fc_span c) "only the first `container` field can contain a `lifetime` parameter"]
      | None => []
      end ++
      match fc_ty c with
      | Some ts => [mkErr (tokens_at ts) "only the first `container` field can contain a `type` parameter"]
      | None => []
      end
    else []
  | None => []
  end.
Definition tag_faults (before : list svariant) (h : svariant) : list err :=
  late_container before h ++
  (if ordinary h then repeated "duplicate variant name for " (flat_map h_idents (filter ordinary before)) (h_idents h)
   else []).
(** what is wrong with `flatten` on [h], the variants of the enum being [hs] and those before
    it [before] *)
Inductive flatten_fault (hs before : list svariant) (h : svariant) : list err -> Prop :=
| FF_tagged : flattened h = false -> flatten_fault hs before h []
| FF_shape : flattened h = true -> sv_shape (h_src h) <> ShNamed ->
    flatten_fault hs before h [mkErr (sv_span (h_src h)) "only enum variants with named fields can have `flatten`"]
| FF_same : flattened h = true -> sv_shape (h_src h) = ShNamed ->
    (exists w, In w hs /\ ordinary w = true /\ like_tag h w) \/
    (exists w, In w before /\ flattened w = true /\ sv_shape (h_src w) = ShNamed /\ covered h w /\ covered w h) ->
    flatten_fault hs before h
      [mkErr (sv_span (h_src h))
         "additional flattened variants must have at least one unique non-flattened, non-default field"]
| FF_fine : flattened h = true -> sv_shape (h_src h) = ShNamed ->
    (forall w, In w hs -> ordinary w = true -> ~ like_tag h w) ->
    (forall w, In w before -> flattened w = true -> sv_shape (h_src w) = ShNamed -> ~ (covered h w /\ covered w h)) ->
    flatten_fault hs before h [].
Inductive flatten_faults (hs : list svariant) : list svariant -> list svariant -> list err -> Prop :=
| FFs_nil before : flatten_faults hs before [] []
| FFs_cons before h l es es' : flatten_fault hs before h es -> flatten_faults hs (before ++ [h]) l es' ->
    flatten_faults hs before (h :: l) (es ++ es').
(** a default is never used when a flattened variant needs no field *)
Inductive default_fault (hs : list svariant) (xs : list (aentry eopt)) : list err -> Prop :=
| DF_fine : first_value "default" (fun o => match o with EDefault x => Some x | _ => None end) xs = None \/
    (forall h, In h hs -> flattened h = true -> sv_shape (h_src h) = ShNamed -> some_required h) ->
    default_fault hs xs []
| DF_unused d h : first_value "default" (fun o => match o with EDefault x => Some x | _ => None end) xs = Some d ->
    In h hs -> flattened h = true -> sv_shape (h_src h) = ShNamed -> ~ some_required h ->
    default_fault hs xs
      [mkErr (default_at d) "`default` cannot be used when a flattened variant has no unique field"].
End U.

(** *** When an attribute is not read to its end *)
(** the first token that was not read, also in a group that was left *)
Definition left_at (s : stream) : option span :=
  match cell s with
  | Some sp => Some sp
  | None => match toks s with [] => None | t :: _ => Some (tok_span t) end
  end.
(** ... of the first attribute with such a token *)
Fixpoint first_left (l : list item) (cs : list stream) : option span :=
  match l, cs with
  | (ts, _, _) :: l', s :: cs' =>
    match ts, left_at s with
    | _ :: _, Some sp => Some sp
    | _, _ => first_left l' cs'
    end
  | _, _ => None
  end.
