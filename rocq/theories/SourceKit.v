(** From the text of a struct or enum to the parser derived for it: a reader for items and
    a table of the types, modules and expressions they name.  Test tooling for
    Conformance.v, not part of the model: the reader stands for rustc, the table for the
    trait implementations and expressions of the test files.

    The derive itself is the model: [derive_meta_struct] and [derive_meta_enum] (Schema.v)
    read the attributes, [lower_struct] and [lower_enum] (Lower.v) give the generated
    parsers. *)
From Verif Require Export Lower TestKit.

(** *** Items *)
Definition is_p (c : ascii) (t : token) : bool :=
  match t with TPunct c' _ _ => Ascii.eqb c c' | _ => false end.
(** the parts between the commas that are not inside angle brackets *)
Fixpoint split_go (depth : nat) (cur : list token) (ts : list token) : list (list token) :=
  match ts with
  | [] => match cur with [] => [] | _ => [rev cur] end
  | t :: r =>
    if is_p "," t && (depth =? 0)%nat then rev cur :: split_go 0 [] r
    else if is_p "<" t then split_go (S depth) (t :: cur) r
    else if is_p ">" t then split_go (depth - 1) (t :: cur) r
    else split_go depth (t :: cur) r
  end.
Definition split_commas (ts : list token) : list (list token) := split_go 0 [] ts.

Definition attr_of (ts : list token) : list attr :=
  match parse_any_path (mkStream ts SCall None) with
  | (Ok p, s) =>
    match toks s with
    | [] => [mkAttr p MPath SCall]
    | [TGroup d inner _] => [mkAttr p (MList d inner) SCall]
    | _ => [mkAttr p (MNameValue (toks s)) SCall]
    end
  | _ => []
  end.
Fixpoint attrs_of (ts : list token) : list attr * list token :=
  match ts with
  | TPunct "#" _ _ :: TGroup Bracket inner _ :: r =>
    let (l, r') := attrs_of r in (attr_of inner ++ l, r')
  | _ => ([], ts)
  end.
Definition named_field (ts : list token) : list src_field :=
  let (l, r) := attrs_of ts in
  match r with
  | TIdent n sp :: TPunct ":" _ _ :: ty => [mkSrcField (Some (n, sp)) l ty]
  | _ => []
  end.
Definition tuple_field (ts : list token) : list src_field :=
  let (l, ty) := attrs_of ts in [mkSrcField None l ty].
Definition body_of (ts : list token) : shape * list src_field :=
  match ts with
  | TGroup Brace inner _ :: _ => (ShNamed, flat_map named_field (split_commas inner))
  | TGroup Paren inner _ :: _ => (ShUnnamed, flat_map tuple_field (split_commas inner))
  | _ => (ShUnit, [])
  end.
Definition variant_of (ts : list token) : list src_variant :=
  let (l, r) := attrs_of ts in
  match r with
  | TIdent n sp :: b => let (sh, fs) := body_of b in [mkSrcVariant (n, sp) sh fs l sp]
  | _ => []
  end.
(** the generic parameters are skipped *)
Fixpoint after_generics (ts : list token) : list token :=
  match ts with
  | TGroup _ _ _ :: _ => ts
  | TPunct ";" _ _ :: _ => ts
  | _ :: r => after_generics r
  | [] => []
  end.
Inductive item : Type := IStruct (s : src_struct) | IEnum (e : src_enum) | INone.
Definition item_of (txt : string) : item :=
  let (l, r) := attrs_of (tk txt) in
  match r with
  | TIdent kw _ :: TIdent _ _ :: b =>
    let b := after_generics b in
    if String.eqb kw "struct" then let (sh, fs) := body_of b in IStruct (mkSrcStruct sh fs l)
    else match b with
         | TGroup Brace inner _ :: _ => IEnum (mkSrcEnum (flat_map variant_of (split_commas inner)) l)
         | _ => INone
         end
  | _ => INone
  end.

(** syn's parsers: a type is the tokens up to the comma *)
Definition ty_toy : parser (list token) :=
  fun s => match until_comma (toks s) with
           | [] => (Err (error_at s "expected type"), s)
           | l => (Ok l, skip_item s)
           end.
Definition lifetime_toy : parser string :=
  fun s => match toks s with
           | TPunct "'" _ _ :: TIdent i _ :: r => (Ok i, set_toks s r)
           | _ => (Err (error_at s "expected lifetime"), s)
           end.
Definition toy_syn : synlib := mkSynlib parse_any_path parse_any_path ty_toy lifetime_toy.

(** *** What the names in a source mean *)
Definition no_impl {A} : res A := Err (err1 SCall "no such impl").
Definition rt (d : dict val) (auto : val) : rtype val :=
  mkRtype d (mkFN [] false (fun _ _ _ l => (no_impl, l))) (mkFU None (fun _ _ l => (no_impl, l)))
          (fun _ l => (no_impl, l)) (fun _ l => (no_impl, l)) auto.
Definition with_fn (u : flat_named val) (r : rtype val) : rtype val :=
  mkRtype (rt_item r) u (rt_fu r) (rt_append r) (rt_rest r) (rt_auto r).
Definition with_fu (u : flat_unnamed val) (r : rtype val) : rtype val :=
  mkRtype (rt_item r) (rt_fn r) u (rt_append r) (rt_rest r) (rt_auto r).
Definition with_append (a : append_fn val) (r : rtype val) : rtype val :=
  mkRtype (rt_item r) (rt_fn r) (rt_fu r) a (rt_rest r) (rt_auto r).
Definition with_rest (a : rest_fn val) (r : rtype val) : rtype val :=
  mkRtype (rt_item r) (rt_fn r) (rt_fu r) (rt_append r) a (rt_auto r).

Fixpoint look {A} (k : string) (l : list (string * A)) : option A :=
  match l with
  | [] => None
  | (k', a) :: r => if String.eqb k k' then Some a else look k r
  end.
(** look up by tokens a table written with source texts *)
Definition text (ts : list token) : string := String.concat "" (map show_tok ts).
Definition look_src {A} (ts : list token) (l : list (string * A)) : option A :=
  look (text ts) (map (fun kv => (text (tk (fst kv)), snd kv)) l).
Definition or_else {A} (o : option A) (d : A) : A := match o with Some a => a | None => d end.

Record world : Type := mkWorld {
  wo_types : list (string * rtype val);
  wo_withs : list (string * rtype val);
  wo_exprs : list (string * val);
  wo_maps : list (string * (val -> val));
  wo_ands : list (string * (val -> val + synerr)) }.
Definition unknown_rt : rtype val := rt (syn_dict (fun s => (no_impl, s))) (VT "unknown type").
(** a field's type is looked up as `name: type` first: that is where the type rustc infers
    for a field with transforms is written *)
Definition rust_of (w : world) : rust val :=
  mkRust (fun f =>
            let n := match sf_ident f with Some x => fst x | None => "" end in
            or_else (look_src (TIdent n SCall :: TPunct ":" false SCall :: sf_ty f) (wo_types w))
                    (or_else (look_src (sf_ty f) (wo_types w)) unknown_rt))
         (fun p => or_else (look (path_key p) (wo_withs w)) unknown_rt)
         (fun ts => or_else (look_src ts (wo_exprs w)) (VT "unknown expression"))
         (fun ts => or_else (look_src ts (wo_maps w)) (fun _ => VT "unknown map"))
         (fun ts => or_else (look_src ts (wo_ands w))
                            (fun _ => inr (err1 SCall "unknown and_then"))).
Definition add_type (n : string) (r : rtype val) (w : world) : world :=
  mkWorld ((n, r) :: wo_types w) (wo_withs w) (wo_exprs w) (wo_maps w) (wo_ands w).

(** *** The derived parsers; a source the derive refuses gives a parser that always fails *)
Definition refused : field val := it "refused by the derive" i32.
(** struct-level expressions: Self::default(), and the `default` and `and_then` by text *)
Record sexprs : Type := mkSexprs {
  sx_auto : list val;
  sx_default : list (string * list val);
  sx_post : list (string * (list val -> list val + synerr)) }.
Definition sx0 : sexprs := mkSexprs [] [] [].
Definition low_struct (w : world) (x : sexprs) (d : sstruct) : sdef val :=
  lower_struct (rust_of w) (sx_auto x)
    (fun ts => or_else (look_src ts (sx_default x)) [])
    (fun ts => or_else (look_src ts (sx_post x))
                       (fun _ => inr (err1 SCall "unknown and_then"))) d.
Definition src_sdef (w : world) (x : sexprs) (txt : string) : sdef val :=
  match item_of txt with
  | IStruct s => match derive_meta_struct toy_syn s with
                 | Ok d => low_struct w x d
                 | _ => named [refused]
                 end
  | _ => named [refused]
  end.
(** the same for ParseAttributes *)
Definition src_adef (w : world) (x : sexprs) (txt : string) : sdef val :=
  match item_of txt with
  | IStruct s => match derive_attr_struct toy_syn s with
                 | Ok d => low_struct w x d
                 | _ => named [refused]
                 end
  | _ => named [refused]
  end.
Definition transparent_inner (w : world) (d : sstruct) : option (rtype val) :=
  match i_transparent d with
  | Some t =>
    if st_value t
    then match filter (fun f => negb (sv_true (g_skip f) || g_is_container f)) (i_fields d) with
         | f :: _ => Some (g_type (rust_of w) false f)
         | [] => None
         end
    else None
  | None => None
  end.
(** the traits of a derived struct *)
Definition src_stype (w : world) (x : sexprs) (auto : val) (txt : string) : rtype val :=
  match item_of txt with
  | IStruct s =>
    match derive_meta_struct toy_syn s with
    | Ok d =>
      let p := low_struct w x d in
      match transparent_inner w d with
      | Some i =>
        mkRtype (sd p) (fn_map VS (transparent_fn p (rt_fn i)))
                (fu_map VS (transparent_fu p (rt_fu i)))
                (fun l => pmap VS (transparent_append p (rt_append i) l))
                (fun l => pmap VS (transparent_rest p (rt_rest i) l)) auto
      | None => with_fn (sfn p) (with_fu (sfu p) (rt (sd p) auto))
      end
    | _ => unknown_rt
    end
  | _ => unknown_rt
  end.
Definition add_struct (n : string) (auto : val) (txt : string) (w : world) : world :=
  add_type n (src_stype w sx0 auto txt) w.

Definition refused_enum : edef val :=
  mkEnum [mkVariant "Refused" ["refused by the derive"] ShUnit [] false false false false]
         None [] false [].
Record eexprs : Type := mkEexprs {
  ex_auto : nat * list val;
  ex_default : list (string * (nat * list val));
  ex_post : list (string * (nat * list val -> nat * list val + synerr)) }.
Definition ex0 : eexprs := mkEexprs (0, []) [] [].
Definition low_enum (w : world) (x : eexprs) (d : senum) : edef val :=
  lower_enum (rust_of w) (ex_auto x)
    (fun ts => or_else (look_src ts (ex_default x)) (0, []))
    (fun ts => or_else (look_src ts (ex_post x))
                       (fun _ => inr (err1 SCall "unknown and_then"))) d.
Definition src_edef (w : world) (x : eexprs) (txt : string) : edef val :=
  match item_of txt with
  | IEnum s => match derive_meta_enum toy_syn s with
               | Ok d => low_enum w x d
               | _ => refused_enum
               end
  | _ => refused_enum
  end.
Definition src_aedef (w : world) (x : eexprs) (txt : string) : edef val :=
  match item_of txt with
  | IEnum s => match derive_attr_enum toy_syn s with
               | Ok d => low_enum w x d
               | _ => refused_enum
               end
  | _ => refused_enum
  end.
Definition add_enum (n : string) (txt : string) (w : world) : world :=
  let e := src_edef w ex0 txt in add_type n (with_fn (efn e) (rt (ed e) VU)) w.
