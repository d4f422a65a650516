(** Vocabulary for the meaning of the `#[deluxe(..)]` attributes (Schema.v).

    The content of an attribute is read as items `key value` between commas.  An item means
    an option ([fopt] for fields, [vopt] for variants, [sopt] for structs, [eopt] for
    enums); which values a key takes is given by the library's parsers for them. *)
From Verif Require Export SpecSchema SpecAttr SpecSmall.

Section W.
Context {env : Env} {O : Type}.
(** [spells k sp s o s']: after the key [k] at [sp], the tokens of [s] up to [s'] spell
    option [o] *)
Variable spells : string -> span -> stream -> O -> stream -> Prop.
Definition at_key (s : stream) (k : string) (sp : span) (s1 : stream) : Prop :=
  exists p, parse_any_path s = (Ok p, s1) /\ path_key p = k /\ p_span p = sp.
(** the content of one attribute: items, each followed by a comma or the end *)
Inductive opts_in : stream -> list O -> stream -> Prop :=
| W_end s : toks s = [] -> opts_in s [] s
| W_last s k sp s1 o s2 : toks s <> [] -> at_key s k sp s1 -> spells k sp s1 o s2 -> toks s2 = [] ->
    opts_in s [o] s2
| W_more s k sp s1 o s2 c r os s3 : toks s <> [] -> at_key s k sp s1 -> spells k sp s1 o s2 ->
    toks s2 = c :: r -> comma_tok c -> opts_in (set_toks s2 r) os s3 -> opts_in s (o :: os) s3.
(** the contents of several *)
Inductive opts_in_all : list stream -> list O -> list stream -> Prop :=
| Ws_nil : opts_in_all [] [] []
| Ws_cons s os s' l os2 l' : opts_in s os s' -> opts_in_all l os2 l' ->
    opts_in_all (s :: l) (os ++ os2) (s' :: l').
End W.

(** `#[deluxe(..)]` and `#[deluxe]` *)
Definition deluxe_path (p : path) : bool :=
  match p_leading p, p_segs p with false, [x] => String.eqb x "deluxe" | _, _ => false end.
Definition deluxe_items (l : list attr) : list item :=
  map attr_item (filter (fun a => deluxe_path (a_path a)) l).
(** the options in the attributes of an item of the source: they are written in its deluxe
    attributes, up to the end of each *)
Definition has_options {env : Env} {O} (spells : string -> span -> stream -> O -> stream -> Prop)
           (l : list attr) (os : list O) : Prop :=
  exists cs cs', Forall2 attr_content (deluxe_items l) cs /\ opts_in_all spells cs os cs' /\
    Forall2 all_parsed (deluxe_items l) cs'.

(** *** Options of fields *)
Inductive fopt : Type :=
| OFlatten (x : fflatten) | OAppend (x : bool * span) | ORest (x : bool * span)
| ODefault (d : fdefault) | OWith (p : path) | ORename (x : name) | OAlias (x : name)
| OContainer (c : fcontainer) | OSkip (x : bool * span) | OMap (e : list token)
| OAndThen (e : list token).

Section F.
Context {env : Env}.
Variable sy : synlib.
Inductive spells_f (k : string) (sp : span) (s : stream) : fopt -> stream -> Prop :=
| SF_flatten x s' : k = "flatten" -> d_named flatten_dict k sp s = (Ok x, s') -> spells_f k sp s (OFlatten x) s'
| SF_append x s' : k = "append" -> d_named (spanned_dict bool_dict) k sp s = (Ok x, s') -> spells_f k sp s (OAppend x) s'
| SF_rest x s' : k = "rest" -> d_named (spanned_dict bool_dict) k sp s = (Ok x, s') -> spells_f k sp s (ORest x) s'
| SF_default x s' : k = "default" -> d_named default_dict k sp s = (Ok x, s') -> spells_f k sp s (ODefault x) s'
| SF_with x s' : k = "with" -> d_named (syn_dict (sy_path sy)) k sp s = (Ok x, s') -> spells_f k sp s (OWith x) s'
| SF_rename x s' : k = "rename" -> d_named ident_dict k sp s = (Ok x, s') -> spells_f k sp s (ORename x) s'
| SF_alias x s' : k = "alias" -> d_named ident_dict k sp s = (Ok x, s') -> spells_f k sp s (OAlias x) s'
| SF_container x s' : k = "container" -> d_named (container_dict sy) k sp s = (Ok x, s') -> spells_f k sp s (OContainer x) s'
| SF_skip x s' : k = "skip" -> d_named (spanned_dict bool_dict) k sp s = (Ok x, s') -> spells_f k sp s (OSkip x) s'
| SF_map x s' : k = "map" -> d_named tokenstream_dict k sp s = (Ok x, s') -> spells_f k sp s (OMap x) s'
| SF_and_then x s' : k = "and_then" -> d_named tokenstream_dict k sp s = (Ok x, s') -> spells_f k sp s (OAndThen x) s'.
End F.

Definition flattens (l : list fopt) := flat_map (fun o => match o with OFlatten x => [x] | _ => [] end) l.
Definition appends (l : list fopt) := flat_map (fun o => match o with OAppend x => [x] | _ => [] end) l.
Definition rests (l : list fopt) := flat_map (fun o => match o with ORest x => [x] | _ => [] end) l.
Definition defaults (l : list fopt) := flat_map (fun o => match o with ODefault x => [x] | _ => [] end) l.
Definition withs (l : list fopt) := flat_map (fun o => match o with OWith x => [x] | _ => [] end) l.
Definition renames (l : list fopt) := flat_map (fun o => match o with ORename x => [x] | _ => [] end) l.
Definition aliases (l : list fopt) := flat_map (fun o => match o with OAlias x => [x] | _ => [] end) l.
Definition containers (l : list fopt) := flat_map (fun o => match o with OContainer x => [x] | _ => [] end) l.
Definition skips (l : list fopt) := flat_map (fun o => match o with OSkip x => [x] | _ => [] end) l.
Definition transforms (l : list fopt) :=
  flat_map (fun o => match o with OMap e => [SMap e] | OAndThen e => [SAndThen e] | _ => [] end) l.

Definition once {A} (l : list A) : Prop := length l <= 1.
Definition not_both {A B} (l : list A) (m : list B) : Prop := l = [] \/ m = [].
(** the new names of a field or variant: all different, none the one it has *)
Definition new_names (own : option string) (l : list name) : Prop :=
  NoDup (map fst l) /\ forall o, own = Some o -> ~ In o (map fst l).
(** options that can be used together *)
Definition consistent_f (f : src_field) (l : list fopt) : Prop :=
  (once (flattens l) /\ once (appends l) /\ once (rests l) /\ once (defaults l) /\ once (withs l) /\
   once (renames l) /\ once (containers l) /\ once (skips l)) /\
  (not_both (flattens l) (appends l) /\ not_both (flattens l) (rests l) /\ not_both (appends l) (rests l) /\
   not_both (flattens l) (renames l) /\ not_both (flattens l) (aliases l) /\ not_both (defaults l) (flattens l) /\
   not_both (containers l) (flattens l) /\ not_both (containers l) (renames l) /\
   not_both (containers l) (aliases l) /\ not_both (containers l) (withs l)) /\
  new_names (option_map fst (sf_ident f)) (renames l ++ aliases l) /\
  (sf_ident f = None -> appends l = [] /\ rests l = [] /\ renames l = [] /\ aliases l = []).

(** what the field is, then *)
Definition first_of {A} (l : list A) : option A := match l with x :: _ => Some x | [] => None end.
Definition is_flattened (l : list fopt) : bool := existsb ff_value (flattens l).
Definition names_f (f : src_field) (l : list fopt) : list name :=
  match renames l, is_flattened l, sf_ident f with
  | [], false, Some (x, sp) => (plain_name x, sp) :: aliases l
  | _, _, _ => renames l ++ aliases l
  end.
Definition meaning_f (f : src_field) (l : list fopt) : sfield :=
  mkSField f (names_f f l) (first_of (defaults l)) (first_of (withs l)) (first_of (flattens l))
           (first_of (appends l)) (first_of (rests l)) (first_of (containers l)) (first_of (skips l))
           (transforms l).

(** what `#[deluxe(..)]` makes of a field *)
Definition field_means {env : Env} (sy : synlib) (f : src_field) (g : sfield) : Prop :=
  exists os, has_options (spells_f sy) (sf_attrs f) os /\ consistent_f f os /\ g = meaning_f f os.

(** *** Fields together *)
(** a skipped field without a default gets `Default::default()` *)
Definition filled (g : sfield) : sfield :=
  match g_skip g, g_default g with
  | Some (true, sp), None =>
    mkSField (g_src g) (g_idents g) (Some (DDefault sp)) (g_with g) (g_flatten g) (g_append g)
             (g_rest g) (g_container g) (g_skip g) (g_transforms g)
  | _, _ => g
  end.
(** neither a container nor skipped *)
Definition taken_part (g : sfield) : bool :=
  negb (match g_container g with Some c => fc_value c | None => false end) &&
  negb (match g_skip g with Some (b, _) => b | None => false end).
(** `transparent` is for exactly one such field, not `flatten` and not `append` *)
Definition transparent_fits (gs : list sfield) : Prop :=
  exists g, filter taken_part gs = [g] /\ ~ (exists x, g_flatten g = Some x /\ ff_value x = true) /\
            ~ (exists sp, g_append g = Some (true, sp)).
Definition one_container (gs : list sfield) : Prop :=
  once (filter (fun g => opt_some (g_container g)) gs).
(** in a tuple, the fields with a default come last *)
Definition defaults_last (gs : list sfield) : Prop :=
  forall a g b h c, gs = a ++ g :: b ++ h :: c -> optional_field g -> ~ required h.

(** *** Options of structs *)
Inductive sopt : Type :=
| STransparent (x : stransparent) | SUnknown (b : bool) | SDefault (d : fdefault)
| SCrate (p : path) | SAndThenS (e : list token) | SAttributes (l : list path).
Section S.
Context {env : Env}.
Variable sy : synlib.
Inductive spells_s (k : string) (sp : span) (s : stream) : sopt -> stream -> Prop :=
| SS_transparent x s' : k = "transparent" -> d_named transparent_dict k sp s = (Ok x, s') -> spells_s k sp s (STransparent x) s'
| SS_unknown x s' : k = "allow_unknown_fields" -> d_named bool_dict k sp s = (Ok x, s') -> spells_s k sp s (SUnknown x) s'
| SS_default x s' : k = "default" -> d_named default_dict k sp s = (Ok x, s') -> spells_s k sp s (SDefault x) s'
| SS_crate x s' : k = "crate" -> d_named (syn_dict (sy_path sy)) k sp s = (Ok x, s') -> spells_s k sp s (SCrate x) s'
| SS_and_then x s' : k = "and_then" -> d_named tokenstream_dict k sp s = (Ok x, s') -> spells_s k sp s (SAndThenS x) s'
| SS_attributes x s' : k = "attributes" -> d_named (with_vec_dict (syn_dict (sy_mod_path sy))) k sp s = (Ok x, s') ->
    spells_s k sp s (SAttributes x) s'.
End S.
Definition s_transparents (l : list sopt) := flat_map (fun o => match o with STransparent x => [x] | _ => [] end) l.
Definition s_unknowns (l : list sopt) := flat_map (fun o => match o with SUnknown x => [x] | _ => [] end) l.
Definition s_defaults (l : list sopt) := flat_map (fun o => match o with SDefault x => [x] | _ => [] end) l.
Definition s_crates (l : list sopt) := flat_map (fun o => match o with SCrate x => [x] | _ => [] end) l.
Definition s_and_thens_of (l : list sopt) := flat_map (fun o => match o with SAndThenS x => [x] | _ => [] end) l.
Definition s_attributes_of (l : list sopt) := flat_map (fun o => match o with SAttributes x => x | _ => [] end) l.
(** the fields of the struct: a default of the struct is used for skipped fields *)
Definition fields_s (gs : list sfield) (l : list sopt) : list sfield :=
  match s_defaults l with [] => map filled gs | _ => gs end.
Definition consistent_s (sh : shape) (gs : list sfield) (l : list sopt) : Prop :=
  (once (s_transparents l) /\ once (s_unknowns l) /\ once (s_defaults l) /\ once (s_crates l)) /\
  (s_transparents l <> [] -> transparent_fits gs) /\
  (s_unknowns l <> [] -> sh <> ShUnnamed) /\ (s_defaults l <> [] -> sh <> ShUnit) /\
  NoDup (map fst (flat_map g_idents gs)) /\ one_container gs /\
  (sh = ShUnnamed -> defaults_last (fields_s gs l)).
Definition meaning_s (sh : shape) (gs : list sfield) (l : list sopt) : sstruct :=
  mkSStruct sh (fields_s gs l) (first_of (s_defaults l)) (first_of (s_crates l)) (first_of (s_transparents l))
            (first_of (s_unknowns l)) (s_attributes_of l) (s_and_thens_of l).

(** *** Options of variants *)
Inductive vopt : Type :=
| VTransparent (x : option (bool * span)) | VUnknown (b : bool) | VFlatten (x : option (bool * span))
| VRename (x : name) | VAlias (x : name) | VSkip (x : bool * span).
Section V.
Context {env : Env}.
Inductive spells_v (k : string) (sp : span) (s : stream) : vopt -> stream -> Prop :=
| SV_transparent x s' : k = "transparent" -> d_named (option_dict (spanned_dict bool_dict)) k sp s = (Ok x, s') -> spells_v k sp s (VTransparent x) s'
| SV_unknown x s' : k = "allow_unknown_fields" -> d_named bool_dict k sp s = (Ok x, s') -> spells_v k sp s (VUnknown x) s'
| SV_flatten x s' : k = "flatten" -> d_named (option_dict (spanned_dict bool_dict)) k sp s = (Ok x, s') -> spells_v k sp s (VFlatten x) s'
| SV_rename x s' : k = "rename" -> d_named ident_dict k sp s = (Ok x, s') -> spells_v k sp s (VRename x) s'
| SV_alias x s' : k = "alias" -> d_named ident_dict k sp s = (Ok x, s') -> spells_v k sp s (VAlias x) s'
| SV_skip x s' : k = "skip" -> d_named (spanned_dict bool_dict) k sp s = (Ok x, s') -> spells_v k sp s (VSkip x) s'.
End V.
Definition somes {A} (l : list (option A)) : list A := flat_map (fun o => match o with Some x => [x] | None => [] end) l.
Definition v_transparents (l : list vopt) := flat_map (fun o => match o with VTransparent x => [x] | _ => [] end) l.
Definition v_unknowns (l : list vopt) := flat_map (fun o => match o with VUnknown x => [x] | _ => [] end) l.
Definition v_flattens (l : list vopt) := flat_map (fun o => match o with VFlatten x => [x] | _ => [] end) l.
Definition v_renames (l : list vopt) := flat_map (fun o => match o with VRename x => [x] | _ => [] end) l.
Definition v_aliases (l : list vopt) := flat_map (fun o => match o with VAlias x => [x] | _ => [] end) l.
Definition v_skips (l : list vopt) := flat_map (fun o => match o with VSkip x => [x] | _ => [] end) l.
Definition consistent_v (v : src_variant) (gs : list sfield) (l : list vopt) : Prop :=
  (once (v_transparents l) /\ once (v_unknowns l) /\ once (v_flattens l) /\ once (v_renames l) /\ once (v_skips l)) /\
  (v_transparents l <> [] -> transparent_fits gs) /\
  (v_unknowns l <> [] -> sv_shape v <> ShUnnamed) /\
  (not_both (somes (v_flattens l)) (v_renames l) /\ not_both (somes (v_flattens l)) (v_aliases l)) /\
  new_names (Some (fst (sv_ident v))) (v_renames l ++ v_aliases l) /\ one_container gs /\
  (sv_shape v = ShUnnamed -> defaults_last (map filled gs)).
Definition is_flattened_v (l : list vopt) : bool := existsb fst (somes (v_flattens l)).
(** the name from the variant's own *)
Definition own_name (v : src_variant) : string := snake_form (plain_name (fst (sv_ident v))).
Definition names_v (v : src_variant) (l : list vopt) : list name :=
  match v_renames l, is_flattened_v l with
  | [], false => (own_name v, snd (sv_ident v)) :: v_aliases l
  | _, _ => v_renames l ++ v_aliases l
  end.
Definition meaning_v (v : src_variant) (gs : list sfield) (l : list vopt) : svariant :=
  mkSVariant v (map filled gs) (names_v v l) (option_map fst (first_of (somes (v_flattens l))))
             (option_map fst (first_of (somes (v_transparents l)))) (first_of (v_skips l)) (first_of (v_unknowns l)).
(** a variant that is called by its own name has one whose snake case form is an identifier (C76; for
    another the macro panics) *)
Definition named_v (v : src_variant) (l : list vopt) : Prop :=
  v_renames l = [] -> is_flattened_v l = false -> letter_first (plain_name (fst (sv_ident v))).
Definition variant_means {env : Env} (sy : synlib) (v : src_variant) (h : svariant) : Prop :=
  exists gs os, Forall2 (field_means sy) (sv_fields v) gs /\ has_options spells_v (sv_attrs v) os /\
    consistent_v v gs os /\ named_v v os /\ h = meaning_v v gs os.

(** *** Options of enums *)
Inductive eopt : Type :=
| EDefault (d : fdefault) | ECrate (p : path) | EAndThen (e : list token) | EAttributes (l : list path)
| EUnknown (b : bool).
Section E.
Context {env : Env}.
Variable sy : synlib.
Inductive spells_e (k : string) (sp : span) (s : stream) : eopt -> stream -> Prop :=
| SE_default x s' : k = "default" -> d_named default_dict k sp s = (Ok x, s') -> spells_e k sp s (EDefault x) s'
| SE_crate x s' : k = "crate" -> d_named (syn_dict (sy_path sy)) k sp s = (Ok x, s') -> spells_e k sp s (ECrate x) s'
| SE_and_then x s' : k = "and_then" -> d_named tokenstream_dict k sp s = (Ok x, s') -> spells_e k sp s (EAndThen x) s'
| SE_attributes x s' : k = "attributes" -> d_named (with_vec_dict (syn_dict (sy_mod_path sy))) k sp s = (Ok x, s') ->
    spells_e k sp s (EAttributes x) s'
| SE_unknown x s' : k = "allow_unknown_fields" -> d_named bool_dict k sp s = (Ok x, s') -> spells_e k sp s (EUnknown x) s'.
End E.
Definition e_defaults (l : list eopt) := flat_map (fun o => match o with EDefault x => [x] | _ => [] end) l.
Definition e_crates (l : list eopt) := flat_map (fun o => match o with ECrate x => [x] | _ => [] end) l.
Definition e_and_thens_of (l : list eopt) := flat_map (fun o => match o with EAndThen x => [x] | _ => [] end) l.
Definition e_attributes_of (l : list eopt) := flat_map (fun o => match o with EAttributes x => x | _ => [] end) l.
Definition e_unknowns (l : list eopt) := flat_map (fun o => match o with EUnknown x => [x] | _ => [] end) l.

Definition some_required (v : svariant) : Prop := exists f, In f (h_fields v) /\ required f.
(** the required fields of the flattened variant [v] have all the names of [w] and no other *)
Definition like_tag (v w : svariant) : Prop :=
  some_required v /\ forall f, In f (h_fields v) -> required f ->
    forall n, In n (map fst (g_idents f)) <-> In n (map fst (h_idents w)).
(** the first container of the variant *)
Definition container_of (v : svariant) : option fcontainer :=
  match filter (fun g => match g_container g with Some c => fc_value c | None => false end) (h_fields v) with
  | g :: _ => g_container g
  | [] => None
  end.
Definition consistent_e (vs : list svariant) (l : list eopt) : Prop :=
  (once (e_defaults l) /\ once (e_crates l) /\ once (e_unknowns l)) /\
  NoDup (map fst (flat_map h_idents (filter ordinary vs))) /\
  (forall v, In v vs -> flattened v = true -> sv_shape (h_src v) = ShNamed) /\
  (forall v w, In v vs -> In w vs -> flattened v = true -> ordinary w = true -> ~ like_tag v w) /\
  (forall a v b w c, vs = a ++ v :: b ++ w :: c -> flattened v = true -> flattened w = true ->
     ~ (covered v w /\ covered w v)) /\
  (forall a v b w c x y, vs = a ++ v :: b ++ w :: c -> container_of v = Some x -> container_of w = Some y ->
     fc_lifetime y = None /\ fc_ty y = None) /\
  (e_defaults l <> [] -> forall v, In v vs -> flattened v = true -> some_required v).
Definition meaning_e (vs : list svariant) (l : list eopt) : senum :=
  mkSEnum vs (first_of (e_defaults l)) (first_of (e_crates l)) (e_attributes_of l) (e_and_thens_of l)
          (first_of (e_unknowns l)).

(** *** What an option does to the schema *)
(** [os] are all the options *)
Definition shown_f (os : list fopt) (g : sfield) (o : fopt) : Prop :=
  match o with
  | OFlatten x => g_flatten g = Some x
  | OAppend x => g_append g = Some x
  | ORest x => g_rest g = Some x
  | ODefault x => g_default g = Some x
  | OWith x => g_with g = Some x
  (** the name is replaced: all others are aliases *)
  | ORename x => In x (g_idents g) /\ forall y, In y (g_idents g) -> x = y \/ In (OAlias y) os
  | OAlias x => In x (g_idents g)
  | OContainer x => g_container g = Some x
  | OSkip x => g_skip g = Some x
  | OMap e => In (SMap e) (g_transforms g)
  | OAndThen e => In (SAndThen e) (g_transforms g)
  end.
Definition shown_s (d : sstruct) (o : sopt) : Prop :=
  match o with
  | STransparent x => i_transparent d = Some x
  | SUnknown b => i_unknown_ok d = Some b
  | SDefault x => i_default d = Some x
  | SCrate p => i_crate d = Some p
  | SAndThenS e => In e (i_and_thens d)
  | SAttributes l => incl l (i_attributes d)
  end.
Definition shown_v (os : list vopt) (h : svariant) (o : vopt) : Prop :=
  match o with
  | VTransparent x => h_transparent h = option_map fst x
  | VUnknown b => h_unknown_ok h = Some b
  | VFlatten x => h_flatten h = option_map fst x
  | VRename x => In x (h_idents h) /\ forall y, In y (h_idents h) -> x = y \/ In (VAlias y) os
  | VAlias x => In x (h_idents h)
  | VSkip x => h_skip h = Some x
  end.
Definition shown_e (d : senum) (o : eopt) : Prop :=
  match o with
  | EDefault x => j_default d = Some x
  | ECrate p => j_crate d = Some p
  | EAndThen e => In e (j_and_thens d)
  | EAttributes l => incl l (j_attributes d)
  | EUnknown b => j_unknown_ok d = Some b
  end.
