(** The variables of the code the derives emit.  Models the `quote!` templates of
    macros/types/field.rs, struct.rs, variant.rs, macros/parse_meta_item.rs and
    macros/parse_attributes.rs as far as their local variables go: which are bound where,
    and which are mentioned where.  Simplifications: types, paths, literals, methods and
    macros are left out; so are the user's expressions, whose names have the call site's
    hygiene and never mean a variable of the template, as all of these are made with
    Span::mixed_site() (util.rs 39-49).  A mention does not say whether the variable is
    read, borrowed or assigned. *)
From Verif Require Export Schema.

(** a piece of code: [CLet x e] is `let x = e;`, whose scope is what follows in the same
    block; [CFn] is a function or a closure *)
Inductive code : Type :=
| CNop
| CUse (x : string)
| CLet (x : string) (e : code)
| CSeq (a b : code)
| CBlock (a : code)
| CFn (params : list string) (body : code).
Definition seqs (l : list code) : code := fold_right CSeq CNop l.
Definition uses (l : list string) : code := seqs (map CUse l).
Definition when (b : bool) (c : code) : code := if b then c else CNop.
(** the arm of a match or `if let` whose pattern binds [x] *)
Definition arm (x : string) (c : code) : code := CBlock (CSeq (CLet x CNop) c).

(** types.rs TokenMode *)
Inductive gmode : Type := GMeta | GParse | GExtract.
Definition in_meta (m : gmode) : bool := match m with GMeta => true | _ => false end.

(** `format_ident!("field{i}")` *)
Definition fvar (i : nat) : string := ("field" ++ show_nat i)%string.
Fixpoint each (g : nat -> sfield -> code) (i : nat) (fs : list sfield) : code :=
  match fs with [] => CNop | f :: fs' => CSeq (g i f) (each g (S i) fs') end.

(** field.rs 389-487 to_parse_call_tokens *)
Definition c_call (f : sfield) (inputs allowed : code) : code :=
  if sv_true (g_append f) then CSeq inputs (CUse "prefix")
  else if sv_true (g_rest f) then CSeq inputs allowed
  else if flatten_true f then
    match sf_ident (g_src f) with
    | Some _ =>
      seqs [inputs; CUse "span";
            when (match g_flatten f with Some x => opt_some (ff_prefix x) | None => false end)
                 (CUse "prefix")]
    | None => uses ["inputs"; "index"]
    end
  else
    match sf_ident (g_src f), g_with f with
    | Some _, Some _ =>
      CBlock (CSeq (CLet "value" (uses ["input"; "p"; "span"])) (CUse "value"))
    | Some _, None => uses ["input"; "p"; "span"]
    | None, Some _ => CBlock (CSeq (CLet "value" (CUse "input")) (CUse "value"))
    | None, None => CUse "input"
    end.

(** field.rs 230-238 FieldData, without what the other definitions take as arguments;
    [fd_target]: the target is the variable `target` and not a new value *)
Record fdata : Type := mkFdata {
  fd_mode : gmode;
  fd_target : bool;
  fd_inline : code;
  fd_allowed : code;
  fd_transparent : bool;
  fd_variant : bool;
  fd_unknown : bool }.

(** field.rs 579-594, 609-621 name_format *)
Definition c_name_format (m : gmode) : code :=
  if in_meta m then CUse "name"
  else seqs [CUse "path_name"; arm "path_name" (uses ["name"; "path_name"]);
             CBlock (CUse "name")].
(** field.rs 508-521 container_def *)
Definition c_container (m : gmode) (i : nat) (f : sfield) : code :=
  when (g_is_container f && negb (in_meta m)) (uses [fvar i; "obj"]).
(** field.rs 596-605, 627-636 *)
Definition c_missing (i : nat) : code :=
  seqs [uses ["errors"; "name"; "span"]; arm "v" (uses [fvar i; "v"])].
(** field.rs 522-654 field_errors *)
Definition c_errors (sh : shape) (d : fdata) (i : nat) (f : sfield) : code :=
  if g_is_container f || fd_transparent d then CNop
  else when (negb (opt_some (g_default f)) && negb (fd_target d))
    match sh with
    | ShUnnamed =>
      if g_is_flat f then
        seqs [CUse (fvar i);
              CBlock (seqs [CLet "_mode" CNop; when (fd_variant d) (CUse "span");
                            CFn ["input"] (seqs [CLet "inputs" (CUse "input"); CUse "errors";
                                                 c_call f (CUse "inputs") (fd_allowed d);
                                                 arm "v" (uses [fvar i; "v"]); CUse (fvar i)]);
                            arm "count" (uses ["index"; "count"])])]
      else
        seqs [CUse (fvar i);
              CBlock (seqs [CLet "span" (uses ["_mode"; "inputs"]); CLet "name" (CUse "index");
                            CLet "name" (c_name_format (fd_mode d)); c_missing i])]
    | _ =>
      if g_is_flat f then CNop
      else
        seqs [CUse (fvar i);
              CBlock (seqs [CLet "name" (CUse "prefix");
                            CLet "name" (c_name_format (fd_mode d)); c_missing i])]
    end.
(** field.rs 661-678 *)
Definition c_transform (i : nat) (t : stransform) : code :=
  CLet (fvar i)
    match t with
    | SMap _ => CUse (fvar i)
    | SAndThen _ =>
      CSeq (CUse (fvar i)) (CFn ["v"] (seqs [uses ["errors"; "v"]; arm "v" (CUse "v")]))
    end.
(** field.rs 655-688 field_sets *)
Definition c_set (i : nat) (f : sfield) : code :=
  CSeq (when (opt_some (g_default f)) (CLet (fvar i) (CUse (fvar i))))
       (seqs (map (c_transform i) (g_transforms f))).
(** field.rs 689-696 field_unwraps *)
Definition c_unwrap (target : bool) (i : nat) (f : sfield) : code :=
  when (negb target) (CLet (fvar i) (CUse (fvar i))).
(** field.rs 698-703 option_inits *)
Definition c_init (i : nat) (f : sfield) : code := CLet (fvar i) CNop.
(** field.rs 714-741 flat_fields *)
Definition c_flat (d : fdata) (i : nat) (f : sfield) : code :=
  when (g_is_flat f && g_is_parsable f)
       (seqs [CUse "errors"; c_call f (CUse "inputs") (fd_allowed d);
              arm "val" (uses [fvar i; "val"]); CUse (fvar i)]).
(** field.rs 742-771, 792-813 ret *)
Definition c_ret (target : bool) (fs : list sfield) : code :=
  if target then
    CSeq (each (fun i _ => CSeq (CUse (fvar i)) (arm "val" (uses ["target"; "val"]))) 0 fs)
         (CUse "target")
  else each (fun i _ => CUse (fvar i)) 0 fs.

(** field.rs 488-837 to_pre_post_tokens *)
Definition c_pre (sh : shape) (d : fdata) (fs : list sfield) : code :=
  match sh with
  | ShUnit => CNop
  | _ => CSeq (each c_init 0 fs) (when (negb (fd_transparent d)) (CLet "errors" CNop))
  end.
Definition c_post (sh : shape) (d : fdata) (fs : list sfield) : code :=
  match sh with
  | ShUnit => CNop
  | _ =>
    seqs [match sh with ShNamed => each (c_flat d) 0 fs | _ => CNop end;
          each (c_container (fd_mode d)) 0 fs;
          each (c_errors sh d) 0 fs;
          each c_set 0 fs;
          when (negb (fd_transparent d)) (CUse "errors");
          each (c_unwrap (fd_target d)) 0 fs;
          c_ret (fd_target d) fs]
  end.

(** struct.rs 51-58 ItemDef, without the extra traits *)
Record cdef : Type := mkCdef { cd_parse : code; cd_inline : code; cd_flag : option code }.

(** field.rs 873-890 field_matches of named fields *)
Definition c_named_arm (d : fdata) (i : nat) (f : sfield) : code :=
  when (negb (g_is_flat f) && g_is_parsable f)
       (CBlock (seqs [uses [fvar i; "input"; "span"; "errors"];
                      CFn ["input"; "p"; "span"] (c_call f (CUse "inputs") (fd_allowed d))])).
(** field.rs 936-965 field_matches of tuple fields *)
Definition c_tuple_arm (d : fdata) (any_flat : bool) (i : nat) (f : sfield) : code :=
  when (g_is_parsable f && negb (sv_true (g_append f)) && negb (sv_true (g_rest f)))
       (CBlock (seqs [uses [fvar i; "input"; "errors"];
                      CFn ["input"; "mode"] (c_call f (CUse "inputs") (fd_allowed d));
                      when any_flat (if g_is_flat f then arm "count" (uses ["index"; "count"])
                                     else CUse "index")])).
(** the two `parse` templates, field.rs 901-908, 994-1001, 1035-1042 *)
Definition c_delimited (d : fdata) : code := CSeq (CUse "input") (CFn ["input"] (fd_inline d)).

(** field.rs 838-1052 to_parsing_tokens *)
Definition c_parsing (sh : shape) (d : fdata) (fs : list sfield) (pre post : code) : cdef :=
  match sh with
  | ShNamed =>
    mkCdef (c_delimited d)
      (seqs [pre; uses ["errors"; "inputs"];
             CFn ["input"; "p"; "span"]
               (seqs [uses ["p"; "prefix"]; each (c_named_arm d) 0 fs;
                      CBlock (CSeq (when (negb (fd_unknown d))
                                      (seqs [CUse "validate";
                                             CBlock (seqs [uses ["p"; "span"]; fd_allowed d;
                                                           CUse "errors"])]))
                                   (CUse "input"))]);
             post])
      (Some (seqs [CLet "_mode" (CUse "span"); CUse "span"; CFn ["input"] (fd_inline d)]))
  | ShUnnamed =>
    let pub := filter g_is_parsable fs in
    let any_flat := existsb g_is_flat pub in
    mkCdef (c_delimited d)
      (seqs [pre;
             match pub with
             | [] => CSeq (CUse "inputs") (arm "input" (CUse "input"))
             | _ => CSeq (uses ["errors"; "inputs"])
                         (CFn ["input"; "inputs"; "i"]
                              (CSeq (CUse "i") (each (c_tuple_arm d any_flat) 0 fs)))
             end;
             post])
      (if fd_target d || forallb (fun f => g_is_flat f || opt_some (g_default f)) pub
       then Some (seqs [CLet "_mode" CNop; CUse "span"; CFn ["input"] (fd_inline d)])
       else None)
  | ShUnit =>
    mkCdef (c_delimited d)
      (seqs [pre;
             if in_meta (fd_mode d) then uses ["inputs"; "_mode"]
             else CSeq (CUse "inputs") (arm "input" (CUse "input"));
             post])
      (Some (CSeq pre post))
  end.

(** field.rs 369-379, enum.rs 150-164: the names are collected in a vector kept in a cell, or
    are the elements of an array *)
Definition c_names (nested : bool) (names : code) : code :=
  if nested
  then CBlock (seqs [CLet "CELL" CNop; CUse "CELL";
                     CFn [] (seqs [CLet "vec" CNop; names; CUse "vec"])])
  else names.
(** the names of a flattened field with a prefix are kept in a cell of their own *)
Definition c_flat_names (f : sfield) : code :=
  CSeq (CUse "vec")
       (when (match g_flatten f with Some x => opt_some (ff_prefix x) | None => false end)
             (CBlock (CSeq (CLet "CELL" CNop) (CUse "CELL")))).
(** field.rs 313-388 to_field_names_tokens *)
Definition c_field_names (fs : list sfield) : code :=
  let nested := existsb flatten_true fs in
  c_names nested
    (seqs (map (fun f => if flatten_true f then c_flat_names f else when nested (CUse "vec"))
               (filter g_is_parsable fs))).

(** struct.rs 206-219, variant.rs 72-83: the variable of the first plain field *)
Fixpoint plain_var (i : nat) (fs : list sfield) : string :=
  match fs with
  | [] => ""
  | f :: fs' => if plain_field f then fvar i else plain_var (S i) fs'
  end.

(** struct.rs 184-199 and variant.rs 457-461 *)
Definition c_and_then (x : string) : code :=
  CLet x (CSeq (CUse x) (CFn ["v"] (CSeq (CLet "f" CNop) (uses ["errors"; "f"; "v"])))).
Definition c_struct_post (and_thens : list (list token)) (post : code) : code :=
  match and_thens with
  | [] => post
  | _ => seqs [CLet "ret" (CBlock post); CLet "errors" CNop; CLet "ret" (CUse "ret");
               seqs (map (fun _ => c_and_then "ret") and_thens); uses ["errors"; "ret"]]
  end.

(** struct.rs 150-387 to_parsing_tokens; the list is the functions of the extra traits *)
Definition c_struct (d : sstruct) (m : gmode) (inline allowed : code) : cdef * list code :=
  let sh := i_shape d in
  let fs := i_fields d in
  let fd := mkFdata m (opt_some (i_default d)) inline allowed (i_is_transparent d) false
                    (b_true (i_unknown_ok d)) in
  let pre := c_pre sh fd fs in
  let post := c_struct_post (i_and_thens d) (c_post sh fd fs) in
  let default_set := when (opt_some (i_default d)) (CLet "target" CNop) in
  if i_is_transparent d then
    let pre := seqs [pre; default_set;
                     when (match sh with ShUnnamed => true | _ => false end) (CLet "index" CNop)] in
    let body l := seqs [pre; uses l; CUse (plain_var 0 fs); post] in
    let t := match i_transparent d with Some t => t | None => mkTransparent SCall false None None None None end in
    (mkCdef (body ["input"; "_mode"]) (body ["inputs"; "_mode"]) (Some (body ["span"])),
     (if b_true (st_flatten_named t)
      then [CFn [] CNop; CFn ["inputs"; "mode"; "prefix"; "validate"] (body ["inputs"; "mode"; "prefix"; "validate"])]
      else []) ++
     (if b_true (st_flatten_unnamed t)
      then [CFn [] CNop; CFn ["inputs"; "mode"; "index"] (body ["inputs"; "mode"; "index"])] else []) ++
     (if b_true (st_rest t) then [CFn ["inputs"; "exclude"] (body ["inputs"; "exclude"])] else []) ++
     (if b_true (st_append t) then [CFn ["inputs"; "paths"] (body ["inputs"; "paths"])] else []))
  else
    let c := c_parsing sh fd fs pre post in
    (mkCdef (cd_parse c) (CSeq default_set (cd_inline c)) (cd_flag c), []).

(** parse_meta_item.rs 51-71 make_inline_expr *)
Definition c_make_inline (sh : shape) (inputs : string) : code :=
  match sh with ShUnit => CUse inputs | _ => uses [inputs; "_mode"] end.

Definition opt_fn (ps : list string) (o : option code) : list code :=
  match o with Some c => [CFn ps c] | None => [] end.
(** the functions of derive(ParseMetaItem) on a struct: parse_meta_item.rs 72-95, 129-202,
    354-398 *)
Definition emit_meta_struct (d : sstruct) : list code :=
  let sh := i_shape d in
  let '(c, extra) := c_struct d GMeta (c_make_inline sh "input") CNop in
  let direct := i_is_transparent d || match sh with ShUnit => true | _ => false end in
  [CFn ["input"; "_mode"] (cd_parse c);
   CFn ["inputs"; "_mode"] (if direct then cd_inline c else c_make_inline sh "inputs")] ++
  opt_fn ["span"] (cd_flag c) ++
  opt_fn ["name"; "span"] (option_map (fun _ => CNop) (i_default d)) ++
  extra ++
  (if direct then [] else
     match sh with
     | ShNamed =>
       [CFn [] (c_field_names (i_fields d));
        CFn ["inputs"; "_mode"; "prefix"; "validate"]
            (CSeq (CLet "span" (uses ["_mode"; "inputs"])) (cd_inline c));
        CFn ["inputs"; "mode"; "_index"] (uses ["inputs"; "mode"])]
     | _ => [CFn [] CNop; CFn ["inputs"; "_mode"; "index"] (cd_inline c)]
     end).

(** the functions of derive(ParseAttributes) and derive(ExtractAttributes):
    parse_attributes.rs 302-360 *)
Definition c_attr_fns (attributes : list path) (parse : code) : list code :=
  [CFn ["path"] (when (match attributes with [] => false | _ => true end) (CUse "path"));
   CFn ["obj"] (CSeq (CUse "obj")
     (CFn ["inputs"; "spans"]
        (seqs [CLet "span" (CUse "spans"); CLet "path_name" (CUse "spans");
               CLet "_mode" (CUse "span"); parse])))].
(** parse_attributes.rs 46-92 *)
Definition emit_attr_struct (m : gmode) (d : sstruct) : list code :=
  let c := fst (c_struct d m (uses ["inline"; "input"]) (CUse "allowed")) in
  c_attr_fns (i_attributes d)
    (CSeq match i_shape d with
          | ShNamed => seqs [CLet "allowed" (c_field_names (i_fields d)); CLet "validate" CNop;
                             CLet "prefix" CNop]
          | ShUnnamed => CLet "index" CNop
          | ShUnit => CNop
          end (cd_inline c)).

(** variant.rs 37-54: is the key of a flattened variant empty? *)
Definition key_empty (v : svariant) : bool :=
  forallb (fun f => opt_some (g_default f) || g_is_flat f || negb (g_is_parsable f) ||
                    match g_idents f with [] => true | _ => false end) (h_fields v).

(** variant.rs 55-225 to_field_parsing_tokens *)
Definition c_variant (v : svariant) (m : gmode) (flat : bool) : code :=
  let sh := sv_shape (h_src v) in
  let fs := h_fields v in
  let unknown := b_true (h_unknown_ok v) in
  let fd m := mkFdata m false (uses ["inline"; "input"; "_mode"]) (CUse "allowed")
                      (b_true (h_transparent v)) true unknown in
  let pre := c_pre sh (fd m) fs in
  let post := c_post sh (fd m) fs in
  if b_true (h_transparent v) then
    seqs [pre; CUse "errors"; uses ["input"; "p"; "span"];
          CFn ["v"] (seqs [uses [plain_var 0 fs; "v"]; post]);
          arm "v" (uses ["value"; "v"]); uses ["input"; "value"]]
  else
    let c := c_parsing sh (fd (if flat then m else GMeta)) fs pre post in
    let pre2 := match sh with
                | ShNamed => CSeq (CLet "allowed" (c_field_names fs)) (CLet "validate" CNop)
                | ShUnnamed => CLet "index" CNop
                | ShUnit => CNop
                end in
    if flat then
      let empty := key_empty v && negb unknown in
      seqs [pre2;
            when empty
              (CSeq (CUse "validate")
                 (CBlock (seqs [uses ["errors"; "inputs"];
                                CFn ["input"; "p"; "span"]
                                    (uses ["p"; "span"; "allowed"; "errors"; "input"]);
                                uses ["errors"; "span"; "prefix"]])));
            CLet "ret" (CFn [] (CSeq (when empty (CLet "validate" CNop)) (cd_inline c)));
            uses ["errors"; "ret"]; arm "v" (uses ["value"; "v"]); CUse "value"]
    else
      seqs [pre2;
            CLet "inline" (CFn ["inputs"; "_mode"] (cd_inline c));
            CLet "res" (seqs [CUse "input";
                              CBlock (CSeq (CLet "_mode" (CUse "span")) (cd_parse c));
                              arm "buffer" (CSeq (uses ["inline"; "buffer"; "span"])
                                                 (CFn ["v"] (uses ["buffer"; "v"])));
                              CBlock (match cd_flag c with Some c => c | None => CUse "span" end);
                              arm "e" (CUse "e")]);
            uses ["errors"; "res"]; arm "v" (uses ["value"; "v"]); uses ["input"; "value"]].

(** variant.rs 255-467 to_parsing_tokens.  The blocks of the flattened variants are listed
    in the order of the variants: the code sorts them, and moves the one with an empty key
    to the end, in place of the default or the error. *)
Definition c_is_flat (v : svariant) : bool := b_true (h_flatten v) && negb (sv_true (h_skip v)).
Definition c_is_named (v : svariant) : bool := negb (b_true (h_flatten v)) && negb (sv_true (h_skip v)).
Definition c_validate (unknown : bool) : code :=
  when (negb unknown)
       (CSeq (CUse "validate")
             (CBlock (CSeq (CUse "inputs")
                           (CFn ["input"; "p"; "span"]
                                (uses ["p"; "span"; "allowed"; "errors"; "input"]))))).
Definition c_enum (d : senum) (m : gmode) : code :=
  let vs := j_variants d in
  let unknown := b_true (j_unknown_ok d) in
  let any_flat := existsb c_is_flat vs in
  seqs [CLet "key" CNop; CLet "value" CNop; when any_flat (CLet "paths" CNop);
        CLet "errors" CNop; uses ["errors"; "inputs"];
        CFn ["input"; "p"; "span"]
          (seqs [CLet "inputs" (CUse "input"); CLet "inputs" (CUse "inputs");
                 CLet "cur" (uses ["p"; "prefix"]);
                 when any_flat (CSeq (CUse "cur") (arm "cur" (uses ["paths"; "cur"; "span"])));
                 CUse "cur";
                 seqs (map (fun v =>
                   arm "k" (seqs [CUse "key"; arm "key" (uses ["span"; "prefix"; "key"; "k"; "errors"]);
                                  uses ["key"; "k"]; c_variant v m false])) (filter c_is_named vs));
                 CUse "input"]);
        CUse "value";
        CBlock (CSeq (when (any_flat && negb unknown)
                           (CSeq (CUse "validate") (CBlock (uses ["paths"; "key"; "errors"]))))
                     (c_validate unknown));
        seqs (map (fun v =>
          CSeq (when (negb (key_empty v)) (CUse "paths"))
               (CBlock (CSeq (c_variant v m true)
                             (when (negb (unknown || b_true (h_unknown_ok v)))
                                (CSeq (CUse "validate") (CBlock (uses ["paths"; "errors"])))))))
          (filter c_is_flat vs));
        CBlock (if opt_some (j_default d) then CUse "value"
                else CSeq (c_validate unknown) (uses ["span"; "prefix"; "errors"]));
        CLet "value" (CUse "value");
        seqs (map (fun _ => c_and_then "value") (j_and_thens d));
        uses ["inputs"; "errors"; "value"]].
(** enum.rs 68-165 to_field_names_tokens *)
Definition c_enum_names (d : senum) : code :=
  let nested := existsb (fun v => b_true (h_flatten v) && existsb g_is_flat (h_fields v))
                        (j_variants d) in
  c_names nested
    (seqs (map (fun v =>
       CSeq (when nested (CUse "vec"))
            (when (b_true (h_flatten v))
                  (seqs (map (fun f => when (flatten_true f) (c_flat_names f)) (h_fields v)))))
       (j_variants d))).

(** the functions of derive(ParseMetaItem) on an enum: parse_meta_item.rs 247-325, 354-398 *)
Definition emit_meta_enum (d : senum) : list code :=
  [CFn ["input"; "_mode"] (uses ["input"; "_mode"]);
   CFn ["inputs"; "_mode"] (uses ["inputs"; "_mode"]);
   CFn ["span"] (CUse "span")] ++
  opt_fn ["name"; "span"] (option_map (fun _ => CNop) (j_default d)) ++
  [CFn [] (c_enum_names d);
   CFn ["inputs"; "_mode"; "prefix"; "validate"]
     (seqs [CLet "span" (uses ["_mode"; "inputs"]); CLet "allowed" CNop; c_enum d GMeta]);
   CFn ["inputs"; "mode"; "_index"] (uses ["inputs"; "mode"])].
(** parse_attributes.rs 139-155 *)
Definition emit_attr_enum (m : gmode) (d : senum) : list code :=
  c_attr_fns (j_attributes d)
    (seqs [CLet "allowed" (c_enum_names d); CLet "validate" CNop; CLet "prefix" CNop; c_enum d m]).
