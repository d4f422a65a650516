(** The `with` modules.  Models core/with.rs 7-776. *)
From Verif Require Export LibColl.

Section W.
Context {env : Env}.

(** 15-21 from_str::parse_meta_item, for any FromStr: [inr] is the error text *)
Definition from_str_item {A} (fs : string -> A + string) : parser A :=
  l <- parse_lit_str ;;
  fun s => match fs (fst l) with
           | inl v => (Ok v, s)
           | inr m => (Err (err1 (snd l) m), s)
           end.
(** 7-50 from_str *)
Definition from_str_dict {A} (fs : string -> A + string) : dict A :=
  dict_item (fun _ => from_str_item fs).
(** 56-97 from_str_default *)
Definition from_str_default_dict {A} (fs : string -> A + string) (dflt : A) : dict A :=
  dict_item_flag_missing (fun _ => from_str_item fs) (fun _ => Ok dflt) (fun _ _ => Ok dflt).

(** Error::new(span, e) for e : syn::Error keeps the first message of [e]; the
    errors come from e.into_iter(), one message each. *)
Definition respan_all (sp : span) (e : synerr) : synerr :=
  mkSyn (mkErr sp (e_msg (se_hd e))) (map (fun x => mkErr sp (e_msg x)) (se_tl e)).

(** 189-202 quoted::parse_meta_item.  Parser::parse_str lexes, then parse2. *)
Definition quoted_item {A} (d : dict A) (m : mode) : parser A :=
  l <- parse_lit_str ;;
  fun s =>
    match (match env_lex (fst l) with
           | inl ts => parse2 (d_item d m) ts
           | inr msg => Err (err1 SCall msg)
           end) with
    | Ok a => (Ok a, s)
    | Err e => (Err (respan_all (snd l) e), s)
    | Bad b => (Bad b, s)
    end.
(** 183-226 quoted *)
Definition quoted_dict {A} (d : dict A) : dict A :=
  mkDict (quoted_item d) (def_inline (quoted_item d)) (d_flag d)
         (def_named (quoted_item d) (def_inline (quoted_item d)) (d_flag d)) (d_missing d).

(** 239-246 maybe_quoted::parse_meta_item *)
Definition maybe_quoted_item {A} (d : dict A) (m : mode) : parser A :=
  fun s => if peek_lit sel_str s then quoted_item d m s else d_item d m s.
(** 233-270 maybe_quoted *)
Definition maybe_quoted_dict {A} (d : dict A) : dict A :=
  mkDict (maybe_quoted_item d) (def_inline (maybe_quoted_item d)) (d_flag d)
         (def_named (maybe_quoted_item d) (def_inline (maybe_quoted_item d)) (d_flag d))
         (d_missing d).

(** 275-308 with::syn, for any syn parser *)
Definition with_syn_dict {A} (p : parser A) : dict A :=
  dict_item_flag (fun _ => p) (fun sp => parse_empty sp p).

(** 320-332 syn_quoted::parse_meta_item *)
Definition syn_quoted_item {A} (p : parser A) : parser A :=
  l <- parse_lit_str ;;
  fun s =>
    match (match env_lex (fst l) with
           | inl ts => parse2 p ts
           | inr msg => Err (err1 SCall msg)
           end) with
    | Ok a => (Ok a, s)
    | Err e => (Err (respan_all (snd l) e), s)
    | Bad b => (Bad b, s)
    end.
(** 315-354 syn_quoted *)
Definition syn_quoted_dict {A} (p : parser A) : dict A :=
  dict_item_flag (fun _ => syn_quoted_item p) (fun sp => parse_empty sp p).

(** 376-437 define_with_optional!: [Inner] implements only parse_meta_item. *)
Definition inner_dict {A} (d : dict A) : dict A := dict_item (d_item d).
Definition with_optional_dict {A} (d : dict A) : dict (option A) :=
  let o := option_dict (inner_dict d) in
  mkDict (d_item o) (d_inline o) (fun _ => Ok None)
         (def_named (d_item o) (d_inline o) (fun _ => Ok None)) (fun _ _ => Ok None).

(** 461-580 define_with_collection! (for Vec) *)
Definition with_vec_dict {A} (d : dict A) : dict (list A) :=
  let o := vec_dict (inner_dict d) in
  mkDict (d_item o) (d_inline o) (fun _ => Ok [])
         (def_named (d_item o) (d_inline o) (fun _ => Ok [])) (fun _ _ => Ok []).
Definition with_vec_fu {A} (d : dict A) : flat_unnamed (list A) := vec_fu (inner_dict d).
Definition with_vec_append {A} (d : dict A) : append_fn (list A) := vec_append (inner_dict d).

(** 604-755 define_with_map! *)
Definition with_map_dict {K V} (eqb : K -> K -> bool) (kstr : K -> string)
           (dk : dict K) (dv : dict V) : dict (list (K * V)) :=
  let o := map_dict eqb kstr (inner_dict dk) (inner_dict dv) in
  mkDict (d_item o) (d_inline o) (fun _ => Ok [])
         (def_named (d_item o) (d_inline o) (fun _ => Ok [])) (fun _ _ => Ok []).
Definition with_map_rest {K V} (eqb : K -> K -> bool) (kstr : K -> string)
           (dk : dict K) (dv : dict V) : rest_fn (list (K * V)) :=
  map_rest eqb kstr (inner_dict dk) (inner_dict dv).
Definition with_map_fu {K V} (eqb : K -> K -> bool) (kstr : K -> string)
           (dk : dict K) (dv : dict V) : flat_unnamed (list (K * V)) :=
  map_fu eqb kstr (inner_dict dk) (inner_dict dv).

(** 761-797 identity *)
Definition identity_dict {A} (d : dict A) : dict A :=
  mkDict (d_item d) (d_inline d) (d_flag d)
         (def_named (d_item d) (d_inline d) (d_flag d)) (d_missing d).
End W.
