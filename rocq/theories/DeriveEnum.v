(** The code generated for enums.  Models macros/types/variant.rs, macros/types/enum.rs
    and the enum parts of macros/parse_meta_item.rs and macros/parse_attributes.rs. *)
From Verif Require Export DeriveStruct.

(** variant.rs 11-19 Variant *)
Record vdef (V : Type) : Type := mkVariant {
  v_ident : string;
  v_names : list string;          (* idents; empty for flattened variants *)
  v_shape : shape;
  v_raw : list (field V);
  v_flatten : bool;
  v_transparent : bool;
  v_skip : bool;
  v_unknown_ok : bool
}.
Arguments mkVariant {V}.
Arguments v_ident {V}.
Arguments v_names {V}.
Arguments v_shape {V}.
Arguments v_raw {V}.
Arguments v_flatten {V}.
Arguments v_transparent {V}.
Arguments v_skip {V}.
Arguments v_unknown_ok {V}.

(** an enum value: position of the variant and its field values *)
Definition evalue (V : Type) : Type := (nat * list V)%type.

(** enum.rs 11-19 Enum *)
Record edef (V : Type) : Type := mkEnum {
  e_variants : list (vdef V);
  e_default : option (evalue V);
  e_and_thens : list (evalue V -> evalue V + synerr);
  e_unknown_ok : bool;
  e_attributes : list (list string)
}.
Arguments mkEnum {V}.
Arguments e_variants {V}.
Arguments e_default {V}.
Arguments e_and_thens {V}.
Arguments e_unknown_ok {V}.
Arguments e_attributes {V}.

(** *** BTreeSet / BTreeMap with lexicographic order (std, dependency) *)
Fixpoint cmp_list {A} (cmp : A -> A -> comparison) (a b : list A) : comparison :=
  match a, b with
  | [], [] => Eq
  | [], _ :: _ => Lt
  | _ :: _, [] => Gt
  | x :: a', y :: b' => match cmp x y with Eq => cmp_list cmp a' b' | c => c end
  end.
Fixpoint set_insert {A} (cmp : A -> A -> comparison) (x : A) (l : list A) : list A :=
  match l with
  | [] => [x]
  | y :: l' => match cmp x y with
               | Lt => x :: l
               | Eq => l
               | Gt => y :: set_insert cmp x l'
               end
  end.
Definition set_of {A} (cmp : A -> A -> comparison) (l : list A) : list A :=
  fold_left (fun s x => set_insert cmp x s) l [].
Fixpoint map_insert {A B} (cmp : A -> A -> comparison) (k : A) (v : B) (l : list (A * B))
  : list (A * B) :=
  match l with
  | [] => [(k, v)]
  | (k', v') :: l' => match cmp k k' with
                      | Lt => (k, v) :: l
                      | Eq => (k', v) :: l'
                      | Gt => (k', v') :: map_insert cmp k v l'
                      end
  end.
Definition str_cmp : string -> string -> comparison := String.compare.
Definition key_t : Type := list (list string).
Definition key_cmp : key_t -> key_t -> comparison := cmp_list (cmp_list str_cmp).

Section E.
Context {env : Env} {V : Type}.
Notation vdef := (vdef V).
Notation edef := (edef V).
Notation evalue := (evalue V).

(** variant.rs 643-655 *)
Definition v_fields (v : vdef) : list (field V) := map skip_default (v_raw v).

(** variant.rs 37-54 field_key: the name sets of the required plain fields *)
Definition has_default (f : field V) : bool :=
  match f_default f with Some _ => true | None => false end.
Definition key_names (f : field V) : list string :=
  if has_default f || is_flat f || negb (is_parsable f) then [] else f_names f.
Definition field_key (v : vdef) : key_t :=
  set_of (cmp_list str_cmp)
         (filter (fun l => match l with [] => false | _ => true end)
                 (map (fun f => set_of str_cmp (key_names f)) (v_fields v))).

(** variant.rs 468-496 to_flat_field_names_tokens *)
Definition flat_names (v : vdef) : list (string * list string) :=
  if v_flatten v then
    map (fun f => match f_kind f with
                  | KFlatN (Some p) u => (p, fn_names u)
                  | KFlatN None u => ("", fn_names u)
                  | _ => ("", f_names f)
                  end) (v_fields v)
  else [].

(** variant.rs 226-254 all_variant_key_messages *)
Definition variant_message (v : vdef) : list (list string) :=
  if v_flatten v then
    match field_key v with
    | [] => [[("fields from " ++ tick (v_ident v))%string]]
    | ks => map (map tick) ks
    end
  else [match v_names v with n :: _ => [tick n] | [] => [] end].
Definition all_messages (e : edef) : list (list (list string)) :=
  map variant_message (filter (fun v => negb (v_skip v)) (e_variants e)).

(** variant.rs 118-136: field_names and accepts_all of one variant *)
Definition v_allowed (v : vdef) : list string := fields_names (v_fields v).
Definition v_accepts_all (v : vdef) : bool :=
  v_unknown_ok v || fields_accepts_all (v_fields v).

(** field.rs 873-1044 `inline` of a variant.  The variables `prefix` and `span` are
    those of the enclosing generated function; `validate` and `allowed` are the
    variant's own (118-136 shadows them). *)
Definition v_inline (v : vdef) (tm : tmode V) (prefix : string) (sp : span) (m : mode)
  : mparser (list V) :=
  match v_shape v with
  | ShNamed => named_body (v_fields v) tm None (v_unknown_ok v) (v_allowed v)
                          sp prefix (negb (v_accepts_all v))
  | ShUnnamed => unnamed_body (v_fields v) tm None true m sp 0
  | ShUnit => pbind (d_inline unit_dict m) (fun _ => pret [])
  end.

(** variant.rs 188-214: the three spellings of a non-flattened variant *)
Definition v_item (v : vdef) (tm : tmode V) (prefix : string) (sp : span) (m : mode)
  : parser (list V) :=
  parse_delimited_with (match v_shape v with ShNamed => Brace | _ => Paren end)
                       (on_single (v_inline v tm prefix sp m)).
Definition v_flag (v : vdef) (tm : tmode V) (prefix : string) (sp : span) : res (list V) :=
  match v_shape v with
  | ShNamed => parse_empty sp (on_single (v_inline v tm prefix sp (Named sp)))
  | ShUnnamed =>
    if allows_empty None (v_fields v)
    then parse_empty sp (on_single (v_inline v tm prefix sp Unnamed))
    else Err (flag_disallowed_error sp)
  | ShUnit => Ok []
  end.
Definition v_named (v : vdef) (tm : tmode V) (prefix : string) (sp : span)
  : parser (list V) :=
  parse_named_with (v_item v tm prefix sp) (v_inline v tm prefix sp)
                   (fun _ => v_flag v tm prefix sp) sp.

(** state of the enum parser: the variables key, value, paths, errors *)
Record est : Type := mkEst {
  q_key : option string;
  q_value : fstatus evalue;
  q_paths : pathmap;
  q_errors : errors
}.

Definition value_failed (q : fstatus evalue) : fstatus evalue :=
  if fs_is_none q then FParseError else q.

(** variant.rs 74-101 (transparent; `with` is ignored) and 187-224 *)
Definition v_parse (vi : nat) (v : vdef) (tm : tmode V) (prefix p : string) (sp : span)
           (q : est) (s : stream) : res unit * est * stream :=
  if v_transparent v then
    match transparent_field (v_fields v) with
    | None => (Bad Panic, q, s)
    | Some (i, d) =>
      let (r, s1) := d_named d p sp s in
      let (r2, es2) := match r with
                       | Ok x => transparent_post (v_fields v) tm None i x (q_errors q)
                       | Err e => (Err e, q_errors q)
                       | Bad b => (Bad b, q_errors q)
                       end in
      match r2 with
      | Ok l =>
        (Ok tt, mkEst (q_key q)
                      (if fs_is_some (q_value q) then q_value q else FSome (vi, l))
                      (q_paths q) es2, s1)
      | Err e =>
        (Ok tt, mkEst (q_key q) (value_failed (q_value q)) (q_paths q) (push_syn es2 e),
         skip_item s1)
      | Bad b => (Bad b, q, s1)
      end
    end
  else
    match v_named v tm prefix sp s with
    | (Ok l, s1) =>
      (Ok tt, mkEst (q_key q) (FSome (vi, l)) (q_paths q) (q_errors q), s1)
    | (Err e, s1) =>
      (Ok tt, mkEst (q_key q) (value_failed (q_value q)) (q_paths q)
                    (push_syn (q_errors q) e), skip_item s1)
    | (Bad b, s1) => (Bad b, q, s1)
    end.

(** the match arm (265-292) for key [k] *)
Fixpoint find_variant (k : string) (vs : list vdef) (i : nat) : option (nat * vdef) :=
  match vs with
  | [] => None
  | v :: vs' =>
    if negb (v_flatten v) && negb (v_skip v) && mem_str k (v_names v)
    then Some (i, v) else find_variant k vs' (S i)
  end.

(** 293-295 any_flat *)
Definition e_any_flat (e : edef) : bool :=
  existsb (fun v => v_flatten v && negb (v_skip v)) (e_variants e).

(** 436-450 the closure *)
Definition enum_closure (e : edef) (tm : tmode V) (prefix : string)
  : string -> span -> est -> stream -> res unit * est * stream :=
  fun p sp q s =>
    match strip_prefix prefix p with
    | None => (Ok tt, q, skip_item s)
    | Some k =>
      let paths := if e_any_flat e then pm_insert k sp (q_paths q) else q_paths q in
      match find_variant k (e_variants e) 0 with
      | None => (Ok tt, mkEst (q_key q) (q_value q) paths (q_errors q), skip_item s)
      | Some (vi, v) =>
        let es := match q_key q with
                  | Some k0 => only_one_variant sp prefix k0 k (q_errors q)
                  | None => q_errors q
                  end in
        let key := match q_key q with Some k0 => Some k0 | None => Some k end in
        v_parse vi v tm prefix p sp (mkEst key (q_value q) paths es) s
      end
    end.

(** 367-377 the validation pass: its result is ignored, its errors are not *)
Definition check_closure (allowed : list string)
  : string -> span -> errors -> stream -> res unit * errors * stream :=
  fun p sp es s => (Ok tt, check_unknown p sp allowed es, skip_item s).
Definition validate_pass (allowed : list string) (es : errors) (inputs : list stream)
  : errors * list stream :=
  match parse_struct (check_closure allowed) es inputs with
  | (_, es1, ins1) => (es1, ins1)
  end.

(** 303-366: the flattened variants ordered by their keys, with their positions *)
Definition flat_matches (e : edef) : list (key_t * (nat * vdef)) :=
  fold_left (fun m iv => let '(i, v) := iv in
               if v_flatten v && negb (v_skip v)
               then map_insert key_cmp (field_key v) (i, v) m else m)
            (combine (seq 0 (length (e_variants e))) (e_variants e)) [].

(** names of all variants but the one at position [vi] (333-338) *)
Definition other_names (e : edef) (vi : nat) : list (string * list string) :=
  flat_map (fun iv => if Nat.eqb (fst iv) vi then [] else flat_names (snd iv))
           (combine (seq 0 (length (e_variants e))) (e_variants e)).

(** 137-186, 327-355, 358-363: the block of one flattened variant.  [Err] is an early
    return of the whole function. *)
Definition flat_block (e : edef) (tm : tmode V) (prefix : string) (sp : span)
           (vi : nat) (v : vdef) (paths : pathmap) (es : errors)
  : mparser (fstatus evalue * errors) :=
  fun inputs =>
    let validate := negb (v_accepts_all v) in
    let empty := match field_key v with [] => true | _ => false end in
    let pre : res errors :=
      if empty && negb (v_unknown_ok v) && validate then
        if errors_is_empty es then
          let es1 := fst (validate_pass (v_allowed v) es (fork_inputs inputs)) in
          if errors_is_empty es1 then Ok es1
          else rbind (check (variant_required sp prefix (all_messages e) es1))
                     (fun _ => Bad Panic)
        else rbind (check es) (fun _ => Bad Panic)
      else Ok es in
    match pre with
    | Err x => (Err x, inputs)
    | Bad b => (Bad b, inputs)
    | Ok es1 =>
      let validate1 := if empty && negb (v_unknown_ok v) then false else validate in
      match named_body (v_fields v) tm None (v_unknown_ok v) (v_allowed v)
                       sp prefix validate1 inputs with
      | (Bad b, ins1) => (Bad b, ins1)
      | (r, ins1) =>
        let value := match r with Ok l => FSome (vi, l) | _ => FParseError end in
        let es2 := push_result es1 r in
        let es3 :=
          if negb (e_unknown_ok e || v_unknown_ok v) && negb validate
          then disallow_paths (remove_paths paths (flat_names v)) (other_names e vi)
                              (v_ident v) es2
          else es2 in
        (Ok (value, es3), ins1)
      end
    end.

(** 454-457 `if has_paths {..} else if .. else {..}` *)
Definition pick_flat (e : edef) (paths : pathmap) : option (nat * vdef) :=
  match find (fun kv => match fst kv with
                        | [] => false
                        | ks => has_paths paths ks
                        end) (flat_matches e) with
  | Some (_, iv) => Some iv
  | None =>
    match find (fun kv => match fst kv with [] => true | _ => false end) (flat_matches e) with
    | Some (_, iv) => Some iv
    | None => None
    end
  end.

(** 431-466 *)
Definition enum_body (e : edef) (tm : tmode V) (allowed : list string)
           (sp : span) (prefix : string) (validate : bool) : mparser evalue :=
  fun inputs =>
    let checks := negb (e_unknown_ok e) && validate in
    let forked := e_any_flat e || negb (e_unknown_ok e) in
    let src := if forked then fork_inputs inputs else inputs in
    match parse_struct (enum_closure e tm prefix) (mkEst None FNone [] []) src with
    | (Bad b, _, src1) => (Bad b, if forked then inputs else src1)
    | (r, q, src1) =>
      let es := push_result (q_errors q) r in
      let ins := if forked then inputs else src1 in
      let mid : res (fstatus evalue * errors) * list stream :=
        match q_value q with
        | FParseError => (Ok (FParseError, es), ins)
        | FSome x =>
          match q_key q with
          | None => (Bad Panic, ins)
          | Some k =>
            let es1 :=
              if e_any_flat e && negb (e_unknown_ok e) && negb validate
              then disallow_paths (pm_remove k (q_paths q))
                                  (flat_map flat_names (e_variants e)) k es
              else es in
            let (es2, ins2) := if checks then validate_pass allowed es1 ins else (es1, ins) in
            (Ok (FSome x, es2), ins2)
          end
        | FNone =>
          match pick_flat e (q_paths q) with
          | Some (vi, v) => flat_block e tm prefix sp vi v (q_paths q) es ins
          | None =>
            match e_default e with
            | Some x => (Ok (FSome x, es), ins)
            | None =>
              let (es2, ins2) := if checks then validate_pass allowed es ins else (es, ins) in
              (Ok (FNone, variant_required sp prefix (all_messages e) es2), ins2)
            end
          end
        end in
      match mid with
      | (Err x, ins1) => (Err x, ins1)
      | (Bad b, ins1) => (Bad b, ins1)
      | (Ok (value, es1), ins1) =>
        let (ret, es2) := run_and_thens (e_and_thens e) (fs_into_option value) es1 in
        (rbind (check es2) (fun _ => match ret with Some x => Ok x | None => Bad Panic end),
         skip_all ins1)
      end
    end.

(** enum.rs 44-67 to_accepts_all_tokens; only the attribute derives use it *)
Definition e_accepts_all (e : edef) : bool :=
  e_unknown_ok e
  || existsb (fun v => negb (v_skip v) && v_flatten v && v_unknown_ok v) (e_variants e)
  || existsb (fun v => v_flatten v && fields_accepts_all (v_fields v)) (e_variants e).

(** enum.rs 68-165 to_field_names_tokens *)
Definition e_names (e : edef) : list string :=
  flat_map (fun v =>
    (if v_flatten v || v_skip v then [] else v_names v) ++
    (if v_flatten v then
       flat_map (fun f => match f_kind f with
                          | KFlatN (Some p) u => join_paths p (fn_names u)
                          | KFlatN None u => fn_names u
                          | _ => []
                          end) (v_fields v) ++
       flat_map (fun f => match f_kind f with
                          | KFlatN _ _ => []
                          | _ => f_names f
                          end) (v_fields v)
     else [])) (e_variants e).

(** parse_meta_item.rs 283-301: ACCEPTS_ALL keeps its default, false *)
Definition enum_fn (e : edef) : flat_named evalue :=
  mkFN (e_names e) false
       (fun m prefix validate inputs =>
          enum_body e TMeta (e_names e) (to_full_span m inputs) prefix validate inputs).
(** parse_meta_item.rs 303-319 *)
Definition enum_fu (e : edef) : flat_unnamed evalue :=
  mkFU None (fun m _ => fn_parse (enum_fn e) m "" true).

(** parse_meta_item.rs 261-281 derived ParseMetaItem *)
Definition enum_dict (e : edef) : dict evalue :=
  let inline m := fn_parse (enum_fn e) m "" true in
  let item m := fun s => parse_delimited_with Brace (on_single (inline (to_named m s))) s in
  let flag sp := parse_empty sp (on_single (inline (Named sp))) in
  mkDict item inline flag (def_named item inline flag)
         (match e_default e with Some v => fun _ _ => Ok v | None => def_missing end).

(** parse_attributes.rs 129-148, 352-357 *)
Definition enum_attr_body (e : edef) (obj : V) (spans : list (string * span))
  : mparser evalue :=
  let sp := first_span spans in
  enum_body e (TAttrs (attr_path_name (e_attributes e) spans) obj) (e_names e)
            sp "" (negb (e_accepts_all e)).
End E.
