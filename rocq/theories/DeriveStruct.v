(** The code generated for structs.  Models macros/types/struct.rs and the struct parts
    of macros/parse_meta_item.rs and macros/parse_attributes.rs. *)
From Verif Require Export DeriveFields LibPrim.

(** syn::Fields *)
Inductive shape : Type := ShNamed | ShUnnamed | ShUnit.

(** struct.rs 105-114 Struct, after attribute reading.  [s_default] is the value of the
    struct-level default expression (all fields, in order).  [s_attributes] are the
    segment lists of the `attributes(..)` paths. *)
Record sdef (V : Type) : Type := mkStruct {
  s_shape : shape;
  s_raw : list (field V);
  s_default : option (list V);
  s_transparent : bool;
  s_unknown_ok : bool;
  s_and_thens : list (list V -> list V + synerr);
  s_attributes : list (list string)
}.
Arguments mkStruct {V}.
Arguments s_shape {V}.
Arguments s_raw {V}.
Arguments s_default {V}.
Arguments s_transparent {V}.
Arguments s_unknown_ok {V}.
Arguments s_and_thens {V}.
Arguments s_attributes {V}.

Section S.
Context {env : Env} {V : Type}.
Notation sdef := (sdef V).

(** struct.rs 502-516: skipped fields get a default unless the struct has one *)
Definition s_fields_attr (s : sdef) : list (field V) :=
  if has_target (s_default s) then s_raw s else map skip_default (s_raw s).
(** parse_meta_item.rs 40-46: so do container fields in derive(ParseMetaItem) *)
Definition s_fields_meta (s : sdef) : list (field V) :=
  map container_default (s_fields_attr s).
Definition s_fields (tm : tmode V) (s : sdef) : list (field V) :=
  match tm with TMeta => s_fields_meta s | TAttrs _ _ => s_fields_attr s end.

(** struct.rs 117-127 is_transparent *)
Definition s_is_transparent (s : sdef) : bool :=
  s_transparent s && Nat.eqb (length (filter pitem (s_raw s))) 1.

(** struct.rs 140-145 to_accepts_all_tokens *)
Definition s_accepts_all (s : sdef) : bool :=
  s_unknown_ok s || fields_accepts_all (s_raw s).
(** struct.rs 147-149 to_field_names_tokens *)
Definition s_names (s : sdef) : list string := fields_names (s_raw s).

(** struct.rs 182-198: the and_thens, run on the value the post code returned *)
Fixpoint run_and_thens {A} (fs : list (A -> A + synerr)) (ret : option A) (es : errors)
  : option A * errors :=
  match fs with
  | [] => (ret, es)
  | f :: fs' =>
    match ret with
    | Some v =>
      match f v with
      | inl w => run_and_thens fs' (Some w) es
      | inr e => run_and_thens fs' None (push_syn es e)
      end
    | None => run_and_thens fs' None es
    end
  end.
Definition after_and_thens {A} (fs : list (A -> A + synerr)) (r : res A) : res A :=
  match fs with
  | [] => r
  | _ => rbind r (fun v =>
           let (ret, es) := run_and_thens fs (Some v) [] in
           rbind (check es) (fun _ =>
             match ret with Some w => Ok w | None => Bad Panic end))
  end.
Definition p_and_thens {S A} (fs : list (A -> A + synerr)) (p : pm S A) : pm S A :=
  fun s => let (r, s1) := p s in (after_and_thens fs r, s1).

(** struct.rs 372-385: the `inline` code of a non-transparent struct.  For unit structs
    in derive(ParseMetaItem) it is field.rs 1011-1016 (`()`'s inline parser), in the
    attribute derives 1017-1027. *)
Definition s_body (s : sdef) (tm : tmode V) (m : mode) (sp : span) (prefix : string)
           (validate : bool) (index : nat) : mparser (list V) :=
  p_and_thens (s_and_thens s)
    match s_shape s with
    | ShNamed => named_body (s_fields tm s) tm (s_default s) (s_unknown_ok s) (s_names s)
                            sp prefix validate
    | ShUnnamed => unnamed_body (s_fields tm s) tm (s_default s) false m sp index
    | ShUnit =>
      match tm with
      | TMeta => pbind (d_inline unit_dict m) (fun _ => pret [])
      | TAttrs _ _ => pbind each_eof (fun _ => pret [])
      end
    end.

(** struct.rs 206-248: transparent structs.  [p] is the call into the field's own
    implementation. *)
Definition s_transparent_with {S} (s : sdef) (tm : tmode V) (p : pm S V) (i : nat)
  : pm S (list V) :=
  p_and_thens (s_and_thens s)
    (pbind p (fun v st => (fst (transparent_post (s_fields tm s) tm (s_default s) i v []), st))).

(** the field a transparent struct forwards to; [s_is_transparent] ensures it exists *)
Definition s_inner (s : sdef) : nat * dict V :=
  match transparent_field (s_raw s) with
  | Some x => x
  | None => (0, mkDict (fun _ st => (Bad Panic, st)) (fun _ st => (Bad Panic, st))
                       (fun _ => Bad Panic) (fun _ _ st => (Bad Panic, st))
                       (fun _ _ => Bad Panic))
  end.

(** parse_meta_item.rs 131-155: derived ParseMetaFlatNamed of a named struct *)
Definition struct_fn (s : sdef) : flat_named (list V) :=
  mkFN (s_names s) (s_accepts_all s)
       (fun m prefix validate inputs =>
          s_body s TMeta m (to_full_span m inputs) prefix validate 0 inputs).

(** parse_meta_item.rs 93-107 field_count of a tuple struct *)
Definition s_count (s : sdef) : nat :=
  length (filter (fun f => negb (is_flat f)) (s_raw s)) +
  fold_right Nat.add 0
    (map (fun f => match f_kind f with KFlatU u => fu_count0 u | _ => 0 end) (s_raw s)).

(** parse_meta_item.rs 157-173 (named), 176-198 (tuple).  In a tuple struct no `span`
    variable is used by the generated code unless it is a variant. *)
Definition struct_fu (s : sdef) : flat_unnamed (list V) :=
  match s_shape s with
  | ShUnnamed =>
    mkFU (Some (s_count s))
         (fun m index inputs => s_body s TMeta m SCall "" false index inputs)
  | _ => mkFU None (fun m _ => fn_parse (struct_fn s) m "" true)
  end.

(** parse_meta_item.rs 50-69 make_inline_expr *)
Definition s_inline (s : sdef) (m : mode) : mparser (list V) :=
  match s_shape s with
  | ShNamed => fn_parse (struct_fn s) m "" (negb (s_accepts_all s))
  | ShUnnamed => fu_parse (struct_fu s) m 0
  | ShUnit => fun inputs => s_body s TMeta m SCall "" false 0 inputs
  end.

(** derived ParseMetaItem: field.rs 900-932 (named), 986-1008 (tuple), 1028-1042 (unit),
    struct.rs 234-248 (transparent), parse_meta_item.rs 376-383 (missing) *)
Definition struct_dict (s : sdef) : dict (list V) :=
  let missing := match s_default s with
                 | Some v => fun _ _ => Ok v
                 | None => def_missing
                 end in
  if s_is_transparent s then
    let (i, d) := s_inner s in
    let item m := s_transparent_with s TMeta (d_item d m) i in
    let inline m := s_transparent_with s TMeta (d_inline d m) i in
    let flag sp :=
      fst (s_transparent_with s TMeta (fun st : unit => (d_flag d sp, st)) i tt) in
    mkDict item inline flag (def_named item inline flag) missing
  else
    let inline := s_inline s in
    let item :=
      match s_shape s with
      | ShNamed => fun m => parse_delimited_with Brace (on_single (inline m))
      | ShUnnamed => fun m => parse_delimited_with Paren (on_single (inline m))
      | ShUnit => fun _ => parse_delimited_with Paren (on_single (inline Unnamed))
      end in
    let flag :=
      match s_shape s with
      | ShNamed => fun sp => parse_empty sp (on_single (inline (Named sp)))
      | ShUnnamed =>
        if allows_empty (s_default s) (s_fields_meta s)
        then fun sp => parse_empty sp (on_single (inline Unnamed))
        else def_flag
      | ShUnit => fun _ => after_and_thens (s_and_thens s) (Ok [])
      end in
    mkDict item inline flag (def_named item inline flag) missing.

(** struct.rs 273-359: the extra traits of `transparent(flatten_named, ..)`; the
    field's implementation is the argument *)
Definition transparent_fn (s : sdef) (u : flat_named V) : flat_named (list V) :=
  mkFN (fn_names u) (fn_accepts_all u)
       (fun m prefix validate =>
          s_transparent_with s TMeta (fn_parse u m prefix validate) (fst (s_inner s))).
(** 226-230: in a tuple struct `let index = 0usize;` hides the parameter `index` (309-313) *)
Definition transparent_fu (s : sdef) (u : flat_unnamed V) : flat_unnamed (list V) :=
  mkFU (fu_count u)
       (fun m index =>
          s_transparent_with s TMeta
            (fu_parse u m (match s_shape s with ShUnnamed => 0 | _ => index end)) (fst (s_inner s))).
Definition transparent_append (s : sdef) (a : append_fn V) : append_fn (list V) :=
  fun paths => s_transparent_with s TMeta (a paths) (fst (s_inner s)).
Definition transparent_rest (s : sdef) (r : rest_fn V) : rest_fn (list V) :=
  fun exclude => s_transparent_with s TMeta (r exclude) (fst (s_inner s)).

(** parse_attributes.rs 49-86, 352-357: the closure given to parse_struct_attr_tokens.
    [spans] are the (path, span) pairs of the matching attributes; [obj] the container
    value. *)
Definition attr_path_name (attributes : list (list string)) (spans : list (string * span))
  : option string :=
  match first_path_name spans with
  | Some p => Some p
  | None => match attributes with
            | a :: _ => Some (join_strs "::" a)
            | [] => None
            end
  end.
Definition struct_attr_body (s : sdef) (obj : V) (spans : list (string * span))
  : mparser (list V) :=
  let sp := first_span spans in
  let tm := TAttrs (attr_path_name (s_attributes s) spans) obj in
  let m := Named sp in
  if s_is_transparent s then
    let (i, d) := s_inner s in s_transparent_with s tm (d_inline d m) i
  else s_body s tm m sp "" (negb (s_accepts_all s)) 0.
End S.
