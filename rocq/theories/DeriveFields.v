(** The code generated for a list of fields.  Models macros/types/field.rs.

    The derive macro is modelled by an interpreter: [field] is the macro's view of a
    field after its `#[deluxe(..)]` attributes were read (field.rs 208-219), and the
    functions below do what the generated Rust code does.

    Simplifications: all field types live in one value type [V] (Rust's static typing
    of the generated code is not modelled); default expressions are values; `map`
    closures are total functions and `and_then` closures total functions to a value or
    an error; a field whose type or `with` module implements a trait carries that
    implementation. *)
From Verif Require Export Meta.

(** 203-206 Transform *)
Inductive transform (V : Type) : Type :=
| TMap (f : V -> V)
| TAndThen (f : V -> V + synerr).
Arguments TMap {V}.
Arguments TAndThen {V}.

(** How the field is parsed: which of flatten/append/rest is set (211-217) and the
    trait implementation [parse_path] (274-283) picks. *)
Inductive fkind (V : Type) : Type :=
| KItem (d : dict V)                                   (* ParseMetaItem *)
| KFlatN (prefix : option string) (u : flat_named V)   (* flatten, named field *)
| KFlatU (u : flat_unnamed V)                          (* flatten, tuple field *)
| KAppend (a : append_fn V)
| KRest (r : rest_fn V).
Arguments KItem {V}.
Arguments KFlatN {V}.
Arguments KFlatU {V}.
Arguments KAppend {V}.
Arguments KRest {V}.

(** 208-219 Field *)
Record field (V : Type) : Type := mkField {
  f_ident : string;               (* field.ident ("" in tuple structs) *)
  f_names : list string;          (* idents: rename/ident first, then aliases *)
  f_kind : fkind V;
  f_default : option V;           (* value of the default expression *)
  f_auto : V;                     (* Default::default() of the type, for skip/container *)
  f_transforms : list (transform V);
  f_skip : bool;
  f_container : bool
}.
Arguments mkField {V}.
Arguments f_ident {V}.
Arguments f_names {V}.
Arguments f_kind {V}.
Arguments f_default {V}.
Arguments f_auto {V}.
Arguments f_transforms {V}.
Arguments f_skip {V}.
Arguments f_container {V}.

(** 228-233 TokenMode; the attribute modes carry what the generated function binds:
    path_name and the container value (ContainerFrom::container_from(obj)). *)
Inductive tmode (V : Type) : Type :=
| TMeta
| TAttrs (path_name : option string) (obj : V).
Arguments TMeta {V}.
Arguments TAttrs {V}.

Section D.
Context {env : Env} {V : Type}.
Notation field := (field V).
Notation slots := (list (fstatus V)).

(** 252-256 is_flat *)
Definition is_flat (f : field) : bool :=
  match f_kind f with KItem _ => false | _ => true end.
(** 262-264 is_parsable *)
Definition is_parsable (f : field) : bool := negb (f_container f) && negb (f_skip f).
(** `f.is_parsable() && f.is_flat()` *)
Definition pflat (f : field) : bool := is_parsable f && is_flat f.
(** `f.is_parsable() && !f.is_flat()` *)
Definition pitem (f : field) : bool := is_parsable f && negb (is_flat f).

Definition is_rest (f : field) : bool := match f_kind f with KRest _ => true | _ => false end.
Definition is_flatten (f : field) : bool :=
  match f_kind f with KFlatN _ _ => true | KFlatU _ => true | _ => false end.

(** 299-314 to_accepts_all_tokens (None counts as false).  Only used for named
    fields. *)
Definition fields_accepts_all (fs : list field) : bool :=
  if existsb is_rest fs then true
  else existsb (fun f => match f_kind f with
                         | KFlatN _ u => fn_accepts_all u
                         | _ => false
                         end) fs.

(** 315-388 to_field_names_tokens *)
Definition field_key_names (f : field) : list string :=
  match f_kind f with
  | KFlatN (Some p) u => join_paths p (fn_names u)
  | KFlatN None u => fn_names u
  | _ => f_names f
  end.
Definition fields_names (fs : list field) : list string :=
  flat_map (fun f => if is_parsable f then field_key_names f else []) fs.

(** 389-441 to_parse_call_tokens for the flat kinds of named fields; the remaining
    combinations do not compile and are a panic here *)
Definition flat_call (f : field) (prefix : string) (sp : span) (allowed : list string)
  : mparser V :=
  match f_kind f with
  | KAppend a => a (join_paths prefix (f_names f))
  | KRest r => r allowed
  | KFlatN pf u =>
    fn_parse u (Named sp)
             (match pf with Some p => join_prefix prefix p | None => "" end) false
  | _ => fun inputs => (Bad Panic, inputs)
  end.

(** 697-703 option_inits *)
Definition init_slots (fs : list field) : slots := map (fun _ => FNone) fs.

(** *** Post code *)

(** 715-740 flat_fields: every one but the last works on a fork *)
Fixpoint flat_fields (prefix : string) (sp : span) (allowed : list string)
         (fs : list field) (sl : slots) (es : errors) (inputs : list stream)
  : res (slots * errors) * list stream :=
  match fs, sl with
  | f :: fs', st :: sl' =>
    if pflat f then
      let is_last := negb (existsb pflat fs') in
      let (r, ins1) := flat_call f prefix sp allowed
                                 (if is_last then inputs else fork_inputs inputs) in
      let ins2 := if is_last then ins1 else inputs in
      let next st' es' :=
        match flat_fields prefix sp allowed fs' sl' es' ins2 with
        | (Ok (sl2, es2), ins3) => (Ok (st' :: sl2, es2), ins3)
        | (Err e, ins3) => (Err e, ins3)
        | (Bad b, ins3) => (Bad b, ins3)
        end in
      match r with
      | Ok v => next (FSome v) es
      | Err e => next FParseError (push_syn es e)
      | Bad b => (Bad b, ins2)
      end
    else
      match flat_fields prefix sp allowed fs' sl' es inputs with
      | (Ok (sl2, es2), ins3) => (Ok (st :: sl2, es2), ins3)
      | (Err e, ins3) => (Err e, ins3)
      | (Bad b, ins3) => (Bad b, ins3)
      end
  | _, _ => (Ok (sl, es), inputs)
  end.

(** 510-522 container_def *)
Fixpoint set_containers (tm : tmode V) (fs : list field) (sl : slots) : slots :=
  match tm with
  | TMeta => sl
  | TAttrs _ obj =>
    match fs, sl with
    | f :: fs', st :: sl' =>
      (if f_container f then FSome obj else st) :: set_containers tm fs' sl'
    | _, _ => sl
    end
  end.

(** 609-622 *)
Definition missing_name_named (tm : tmode V) (prefix : string) (f : field) : string :=
  let n := join_path prefix (f_ident f) in
  match tm with
  | TAttrs (Some p) _ => ("#[" ++ p ++ "(" ++ n ++ ")]")%string
  | _ => tick n
  end.

(** 540-545 the condition under which field_errors emits code *)
Definition wants_error (var_target : bool) (f : field) : bool :=
  negb (f_container f) && match f_default f with None => true | Some _ => false end
  && negb var_target.

(** 608-636 field_errors, named fields *)
Fixpoint named_missing (tm : tmode V) (var_target : bool) (prefix : string) (sp : span)
         (fs : list field) (sl : slots) (es : errors) : res (slots * errors) :=
  match fs, sl with
  | f :: fs', st :: sl' =>
    let next st' es' :=
      match named_missing tm var_target prefix sp fs' sl' es' with
      | Ok (sl2, es2) => Ok (st' :: sl2, es2)
      | Err e => Err e
      | Bad b => Bad b
      end in
    match f_kind f with
    | KItem d =>
      if wants_error var_target f && fs_is_none st then
        match d_missing d (missing_name_named tm prefix f) sp with
        | Ok v => next (FSome v) es
        | Err e => next st (push_syn es e)
        | Bad b => Bad b
        end
      else next st es
    | _ => next st es
    end
  | _, _ => Ok (sl, es)
  end.

(** 580-595 *)
Definition missing_name_unnamed (tm : tmode V) (n : nat) : string :=
  match tm with
  | TAttrs (Some p) _ => (show_nat n ++ " on #[" ++ p ++ "]")%string
  | _ => show_nat n
  end.

Definition fu_count0 (u : flat_unnamed V) : nat :=
  match fu_count u with Some n => n | None => 0 end.

(** 546-607, 641-650 field_errors, tuple fields.  [index] is the generated variable,
    [cur]/[extra] are the macro's cur_index and extra_counts. *)
Fixpoint unnamed_missing (tm : tmode V) (var_target variant : bool) (m : mode) (sp : span)
         (inputs : list stream) (fs : list field) (sl : slots) (es : errors)
         (index cur extra : nat) : res (slots * errors) :=
  match fs, sl with
  | f :: fs', st :: sl' =>
    let cur' := if f_container f then cur else if is_flatten f then cur else S cur in
    let extra' :=
      if f_container f then extra
      else match f_kind f with KFlatU u => extra + fu_count0 u | _ => extra end in
    let next st' es' index' :=
      match unnamed_missing tm var_target variant m sp inputs fs' sl' es' index' cur' extra' with
      | Ok (sl2, es2) => Ok (st' :: sl2, es2)
      | Err e => Err e
      | Bad b => Bad b
      end in
    if wants_error var_target f && fs_is_none st then
      match f_kind f with
      | KItem d =>
        match d_missing d (missing_name_unnamed tm (index + cur + extra))
                        (to_full_span m inputs) with
        | Ok v => next (FSome v) es index
        | Err e => next st (push_syn es e) index
        | Bad b => Bad b
        end
      | KFlatU u =>
        match parse_empty (if variant then sp else SCall)
                (fun s => let (r, l) := fu_parse u Unnamed index [s] in
                          (match r with
                           | Ok v => Ok (FSome v, es)
                           | Err e => Ok (FParseError, push_syn es e)
                           | Bad b => Bad b
                           end, hd s l)) with
        | Ok (st', es') => next st' es' (index + fu_count0 u)
        | Err e => Err e
        | Bad b => Bad b
        end
      | _ => Bad Panic
      end
    else next st es index
  | _, _ => Ok (sl, es)
  end.

(** 658-676 the transforms of one field *)
Fixpoint run_transforms (ts : list (transform V)) (st : fstatus V) (es : errors)
  : fstatus V * errors :=
  match ts with
  | [] => (st, es)
  | TMap g :: ts' => run_transforms ts' (fs_map st g) es
  | TAndThen g :: ts' =>
    match st with
    | FSome v =>
      match g v with
      | inl w => run_transforms ts' (FSome w) es
      | inr e => run_transforms ts' FParseError (push_syn es e)
      end
    | _ => run_transforms ts' st es
    end
  end.

(** 677-686 default, then transforms *)
Definition set_field (f : field) (st : fstatus V) (es : errors) : fstatus V * errors :=
  let st1 := match f_default f with
             | Some v => fs_or_else st (fun _ => FSome v)
             | None => st
             end in
  run_transforms (f_transforms f) st1 es.

(** 655-687 field_sets *)
Fixpoint field_sets (fs : list field) (sl : slots) (es : errors) : slots * errors :=
  match fs, sl with
  | f :: fs', st :: sl' =>
    let (st1, es1) := set_field f st es in
    let (sl2, es2) := field_sets fs' sl' es1 in
    (st1 :: sl2, es2)
  | _, _ => (sl, es)
  end.

(** 688-695 field_unwraps: `unwrap_or_else(|| unreachable!())` *)
Fixpoint unwrap_slots (sl : slots) : res (list V) :=
  match sl with
  | [] => Ok []
  | FSome v :: sl' => rmap (cons v) (unwrap_slots sl')
  | _ :: _ => Bad Panic
  end.

(** 755-769, 794-808: overwrite the fields of the default value *)
Fixpoint overwrite (t : list V) (sl : slots) : list V :=
  match t, sl with
  | v :: t', st :: sl' => fs_unwrap_or st v :: overwrite t' sl'
  | _, _ => t
  end.

(** 741-770, 787-809 `ret` *)
Definition post_ret (target : option (list V)) (sl : slots) : res (list V) :=
  match target with
  | None => unwrap_slots sl
  | Some t => Ok (overwrite t sl)
  end.

Definition has_target (target : option (list V)) : bool :=
  match target with Some _ => true | None => false end.

(** 779-782 field_sets, errors.check()?, unwraps, ret *)
Definition post_finish (target : option (list V)) (fs : list field) (sl : slots) (es : errors)
  : res (list V) :=
  let (sl1, es1) := field_sets fs sl es in
  rbind (check es1) (fun _ => post_ret target sl1).

(** 775-783 post code of named fields *)
Definition named_post (fs : list field) (tm : tmode V) (target : option (list V))
           (allowed : list string) (sp : span) (prefix : string)
           (sl : slots) (es : errors) : mparser (list V) :=
  fun inputs =>
    match flat_fields prefix sp allowed fs sl es inputs with
    | (Ok (sl1, es1), ins1) =>
      (rbind (named_missing tm (has_target target) prefix sp fs
                            (set_containers tm fs sl1) es1)
             (fun '(sl2, es2) => post_finish target fs sl2 es2), ins1)
    | (Err e, ins1) => (Err e, ins1)
    | (Bad b, ins1) => (Bad b, ins1)
    end.

(** 814-821 post code of tuple fields *)
Definition unnamed_post (fs : list field) (tm : tmode V) (target : option (list V))
           (variant : bool) (m : mode) (sp : span) (inputs : list stream)
           (sl : slots) (es : errors) (index : nat) : res (list V) :=
  rbind (unnamed_missing tm (has_target target) variant m sp inputs fs
                         (set_containers tm fs sl) es index 0 0)
        (fun '(sl2, es2) => post_finish target fs sl2 es2).

(** *** Named fields, 873-933 *)
(** index of the field whose match arm (875-890) takes key [k]: the first one *)
Fixpoint find_field (k : string) (fs : list field) (i : nat) : option (nat * field) :=
  match fs with
  | [] => None
  | f :: fs' =>
    if pitem f && mem_str k (f_names f) then Some (i, f) else find_field k fs' (S i)
  end.

(** the first identifier, used in duplicate errors (880) *)
Definition first_name (f : field) : string := hd "" (f_names f).

(** 411-465 for a plain named field: parse_meta_item_named(input, p, span) *)
Definition item_named (f : field) : string -> span -> parser V :=
  match f_kind f with
  | KItem d => d_named d
  | _ => fun _ _ s => (Bad Panic, s)
  end.

(** 891-922 the closure given to parse_struct *)
Definition named_closure (fs : list field) (unknown_ok : bool) (allowed : list string)
           (prefix : string) (validate : bool)
  : string -> span -> slots * errors -> stream -> res unit * (slots * errors) * stream :=
  fun p sp '(sl, es) s =>
    let skip es' := (Ok tt, (sl, es'), skip_item s) in
    let other := if negb unknown_ok && validate then check_unknown p sp allowed es else es in
    match strip_prefix prefix p with
    | None => skip other
    | Some k =>
      match find_field k fs 0 with
      | None => skip other
      | Some (i, f) =>
        match fs_parse_named (first_name f) sp (item_named f) (nth i sl FNone) es s with
        | (Ok (st, es1), s1) => (Ok tt, (upd_nth i st sl, es1), s1)
        | (Err e, s1) => (Err e, (sl, es), s1)
        | (Bad b, s1) => (Bad b, (sl, es), s1)
        end
      end
    end.

(** 909-925 `inline` for named fields *)
Definition named_body (fs : list field) (tm : tmode V) (target : option (list V))
           (unknown_ok : bool) (allowed : list string)
           (sp : span) (prefix : string) (validate : bool) : mparser (list V) :=
  fun inputs =>
    let any_flat := existsb pflat fs in
    let src := if any_flat then fork_inputs inputs else inputs in
    match parse_struct (named_closure fs unknown_ok allowed prefix validate)
                       (init_slots fs, []) src with
    | (r, (sl1, es1), src1) =>
      let ins1 := if any_flat then inputs else src1 in
      match r with
      | Bad b => (Bad b, ins1)
      | _ => named_post fs tm target allowed sp prefix sl1 (push_result es1 r) ins1
      end
    end.

(** *** Tuple fields, 934-1009 *)
(** 935-937 the fields that have a match arm, with their position among all fields *)
Fixpoint tuple_fields (fs : list field) (i : nat) : list (nat * field) :=
  match fs with
  | [] => []
  | f :: fs' =>
    let rest := tuple_fields fs' (S i) in
    match f_kind f with
    | KAppend _ | KRest _ => rest
    | _ => if is_parsable f then (i, f) :: rest else rest
    end
  end.

(** 953-970 the closure given to parse_tuple_struct; state: slots, errors, index *)
Definition tuple_closure (fs : list field)
  : nat -> slots * errors * nat -> list stream ->
    res unit * (slots * errors * nat) * list stream :=
  fun i '(sl, es, index) inputs =>
    let bump n := if existsb pflat fs then index + n else index in
    match inputs, nth_error (tuple_fields fs 0) i with
    | s :: rest, Some (ri, f) =>
      match f_kind f with
      | KItem d =>
        match fs_parse_unnamed (fun _ => d_item d Unnamed) es s with
        | (Ok (st, es1), s1) => (Ok tt, (upd_nth ri st sl, es1, bump 1), s1 :: rest)
        | (Err e, s1) => (Err e, (sl, es, index), s1 :: rest)
        | (Bad b, s1) => (Bad b, (sl, es, index), s1 :: rest)
        end
      | KFlatU u =>
        match fu_parse u Unnamed index inputs with
        | (Ok v, ins1) =>
          (Ok tt, (upd_nth ri (FSome v) sl, es, bump (fu_count0 u)), ins1)
        | (Err e, ins1) =>
          (Ok tt, (upd_nth ri FParseError sl, push_syn es e, bump (fu_count0 u)),
           match ins1 with s1 :: r1 => skip_item s1 :: r1 | [] => [] end)
        | (Bad b, ins1) => (Bad b, (sl, es, index), ins1)
        end
      | _ => (Bad Panic, (sl, es, index), inputs)
      end
    | _, _ => (Bad Panic, (sl, es, index), inputs)
    end.

(** 973-981 `for input in inputs { parse_eof_or_trailing_comma(input)?; }` *)
Fixpoint each_eof (inputs : list stream) : res unit * list stream :=
  match inputs with
  | [] => (Ok tt, [])
  | s :: rest =>
    match parse_eof s with
    | (Ok _, s1) => let (r, rest1) := each_eof rest in (r, s1 :: rest1)
    | (Err e, s1) => (Err e, s1 :: rest)
    | (Bad b, s1) => (Bad b, s1 :: rest)
    end
  end.

(** 995-999 `inline` for tuple fields *)
Definition unnamed_body (fs : list field) (tm : tmode V) (target : option (list V))
           (variant : bool) (m : mode) (sp : span) (index : nat) : mparser (list V) :=
  fun inputs =>
    if existsb is_parsable fs then
      let count := length (filter is_parsable fs) in
      match parse_tuple_struct count (tuple_closure fs) (init_slots fs, [], index) inputs with
      | (r, (sl1, es1, index1), ins1) =>
        match r with
        | Bad b => (Bad b, ins1)
        | _ => (unnamed_post fs tm target variant m sp ins1 sl1 (push_result es1 r) index1, ins1)
        end
      end
    else
      match each_eof inputs with
      | (Ok _, ins1) =>
        (unnamed_post fs tm target variant m sp ins1 (init_slots fs) [] index, ins1)
      | (Err e, ins1) => (Err e, ins1)
      | (Bad b, ins1) => (Bad b, ins1)
      end.

(** 982-985 allows_empty *)
Definition allows_empty (target : option (list V)) (fs : list field) : bool :=
  has_target target ||
  forallb (fun f => is_flat f || match f_default f with Some _ => true | None => false end)
          (filter is_parsable fs).

(** *** Transparent: 229-243 of struct.rs, 74-91 of variant.rs *)
(** the single parsable, non-flat field *)
Definition transparent_field (fs : list field) : option (nat * dict V) :=
  (fix go fs i := match fs with
                  | [] => None
                  | f :: fs' =>
                    match f_kind f with
                    | KItem d => if is_parsable f then Some (i, d) else go fs' (S i)
                    | _ => go fs' (S i)
                    end
                  end) fs 0.

(** post code with `transparent`: no field_errors, no check; [es] is the accumulator
    the transforms push into (field.rs 704-711: none of its own). *)
Definition transparent_post (fs : list field) (tm : tmode V) (target : option (list V))
           (i : nat) (v : V) (es : errors) : res (list V) * errors :=
  let (sl1, es1) :=
    field_sets fs (set_containers tm fs (upd_nth i (FSome v) (init_slots fs))) es in
  (post_ret target sl1, es1).

(** field with the default that the macro fills in for skipped fields
    (struct.rs 502-516, variant.rs 643-655) *)
Definition skip_default (f : field) : field :=
  match f_default f with
  | None => if f_skip f
            then mkField (f_ident f) (f_names f) (f_kind f) (Some (f_auto f)) (f_auto f)
                         (f_transforms f) (f_skip f) (f_container f)
            else f
  | Some _ => f
  end.
(** and for container fields in derive(ParseMetaItem) (parse_meta_item.rs 40-46) *)
Definition container_default (f : field) : field :=
  match f_default f with
  | None => if f_container f
            then mkField (f_ident f) (f_names f) (f_kind f) (Some (f_auto f)) (f_auto f)
                         (f_transforms f) (f_skip f) (f_container f)
            else f
  | Some _ => f
  end.
End D.
