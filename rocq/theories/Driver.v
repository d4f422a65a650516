(** The three derive macros as a whole.  Models macros/lib.rs 33-44, 113-124, 400-408,
    macros/util.rs, macros/parse_attributes.rs 34-193 and macros/parse_meta_item.rs 19-330
    (which impl is emitted, and which errors). *)
From Verif Require Export Schema.

(** proc_macro_crate::crate_name("deluxe") (dependency) *)
Inductive found : Type := FName (n : string) | FItself | FMissing (msg : string).

(** util.rs 10-27 crate_path; [report]: an accumulator was passed *)
Definition crate_path (look : found) (report : bool) (es : errors) : option path * errors :=
  match look with
  | FName n => (Some (mkPath true [n] SCall), es)
  | FItself => (Some (mkPath true ["deluxe"] SCall), es)
  | FMissing m => (None, if report then push es SCall m else es)
  end.
(** util.rs 29-36 get_crate_path *)
Definition get_crate_path (look : found) (p : option (option path)) (es : errors)
  : option path * errors :=
  match p with
  | Some (Some q) => (Some q, es)
  | Some None => crate_path look true es
  | None => crate_path look false es
  end.

(** syn::DeriveInput *)
Inductive dinput : Type :=
| DStruct (i : src_struct)
| DEnum (i : src_enum)
| DUnion (sp : span).
Inductive dkind : Type := KMeta | KParse | KExtract.
Definition kind_name (k : dkind) : string :=
  match k with KMeta => "ParseMetaItem" | KParse => "ParseAttributes" | KExtract => "ExtractAttributes" end.

(** The emitted impl: the path of the crate and the schema its functions are generated
    from, or functions that are all `unreachable!()` *)
Inductive code : Type := GStruct (d : sstruct) | GEnum (d : senum) | GUnreachable.
Definition impl : Type := (path * code)%type.

Section D.
Context {env : Env}.
Variable sy : synlib.
Variable look : found.

(** the part common to the four impl_for_struct / impl_for_enum: [gen] generates the code
    from a schema that was read and may add errors or panic *)
Definition impl_for {A} (read : res A) (crate : A -> option path)
           (gen : A -> errors -> res (code * errors)) (es : errors) : res (option impl * errors) :=
  match read with
  | Bad b => Bad b
  | _ =>
    let es1 := push_result es read in
    let (p, es2) := get_crate_path look (match read with Ok d => Some (crate d) | _ => None end) es1 in
    match p with
    | None => Ok (None, es2)
    | Some q =>
      match read with
      | Ok d => rmap (fun x => (Some (q, fst x), snd x)) (gen d es2)
      | _ => Ok (Some (q, GUnreachable), es2)
      end
    end
  end.

(** parse_meta_item.rs 19-214, 217-300; parse_attributes.rs 34-111, 113-175 *)
Definition struct_code (k : dkind) (d : sstruct) (es : errors) : res (code * errors) :=
  let d1 := match k with KMeta => fill_struct d | _ => d end in
  rmap (fun _ => (GStruct d1, es)) (gen_struct d1).
Definition enum_code (k : dkind) (d : senum) (es : errors) : res (code * errors) :=
  let es1 := match k with KMeta => es ++ meta_container_check d | _ => es end in
  rmap (fun _ => (GEnum d, es1)) (gen_variants (j_variants d)).

(** impl_parse_meta_item, impl_parse_attributes *)
Definition impl_derive (k : dkind) (i : dinput) (es : errors) : res (option impl * errors) :=
  match i with
  | DStruct s => impl_for (read_struct sy s) i_crate (struct_code k) es
  | DEnum e => impl_for (read_enum sy e) j_crate (enum_code k) es
  | DUnion sp => Ok (None, push es sp ("union not supported with derive(" ++ kind_name k ++ ")"))
  end.

(** lib.rs: [input] is the item as syn parses it; the result is the emitted impl and the
    `compile_error!`s after it *)
Definition derive (k : dkind) (input : res dinput) : res (option impl * errors) :=
  match input with
  | Ok i => impl_derive k i []
  | Err e => Ok (None, push_result [] input)
  | Bad b => Bad b
  end.
End D.
