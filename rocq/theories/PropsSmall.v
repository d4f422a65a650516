(** Property theorems about the small building blocks.  Every proof is one [exact];
    the lemmas are in LemSmall.v, the specifications in SpecSmall.v.  The examples show
    concrete cases meeting the hypotheses. *)
From Verif Require Import LemSmall Lexer.

(** ** C31 Errors is an ordered accumulator *)
Theorem C31_errors_accumulate : forall ops A (v : A),
  let c := fold_left run_eop ops c_new in
  let all := flat_map pushed ops in
  (all = [] -> c_check c = Ok tt /\ c_into_result c v = Ok v /\ c_is_empty c = true
               /\ c_to_tokens c = []) /\
  (forall e l, all = e :: l ->
     c_check c = Err (mkSyn e l) /\ c_into_result c v = Err (mkSyn e l) /\
     c_bail c = @Err A (mkSyn e l) /\ c_unwrap_err c = inl (mkSyn e l) /\
     c_is_empty c = false /\ c_to_tokens c = e :: l /\
     map se_hd (c_into_iter c) = e :: l).
Proof. exact l_errors_accumulate. Qed.
Print Assumptions C31_errors_accumulate.

Theorem C31_push_result : forall A (c : cerrors) (a : A) (e : synerr),
  c_push_result c (Ok a) = (Some a, c) /\
  fst (c_push_result (A := A) c (Err e)) = None.
Proof. exact l_push_result_ok. Qed.
Print Assumptions C31_push_result.

(** The plain message list used by the rest of the model is the same accumulator. *)
Theorem C31_list_view : forall ops A (v : A),
  let c := fold_left run_eop ops c_new in
  exists es : errors,
    (forall r : res A, c_into_result (snd (c_push_result c r)) v
                       = into_result (push_result es r) v) /\
    (forall sp m, c_into_result (c_push c sp m) v = into_result (push es sp m) v) /\
    c_check c = check es /\ c_bail c = @bail A es /\ c_is_empty c = errors_is_empty es.
Proof. exact l_errors_list_view. Qed.
Print Assumptions C31_list_view.

Example C31_ex :
  c_check (fold_left run_eop
    [EPush (SAt 1) "a"; ECheck; EPushResult (inl tt);
     EExtend [err1 (SAt 2) "b"; mkSyn (mkErr (SAt 3) "c") [mkErr (SAt 4) "d"]];
     EPushCallSite "e"] c_new)
  = Err (mkSyn (mkErr (SAt 1) "a")
           [mkErr (SAt 2) "b"; mkErr (SAt 3) "c"; mkErr (SAt 4) "d"; mkErr SCall "e"]).
Proof. reflexivity. Qed.

(** ** C33 SmallString behaves as String *)
Theorem C33_text : forall b ops,
  exists s0 s, run_start b = Some s0 /\ run_sops s0 ops = Some s /\
    ss_as_str s = (start_text b ++ String.concat "" (map text_of_op ops))%string.
Proof. exact l_smallstring. Qed.
Print Assumptions C33_text.

Theorem C33_representation_irrelevant : forall a b H (h : string -> H),
  (ss_eq a b = true <-> ss_as_str a = ss_as_str b) /\
  ss_cmp a b = String.compare (ss_as_str a) (ss_as_str b) /\
  (ss_as_str a = ss_as_str b ->
     ss_hash h a = ss_hash h b /\ ss_display a = ss_display b /\
     forall c, ss_eq a c = ss_eq b c /\ ss_cmp a c = ss_cmp b c /\ ss_cmp c a = ss_cmp c b).
Proof. exact l_smallstring_repr. Qed.
Print Assumptions C33_representation_irrelevant.

(** borrowed, inline and heap: the same 60 byte text reached through all three *)
Example C33_ex :
  let t30 := "123456789012345678901234567890" in
  option_map (fun s => (ss_as_str s, match s with SsHeap _ => true | _ => false end))
    (match run_start (StStr t30) with
     | Some s => run_sops s [SIntoOwned; SPush "x"; SPushStr t30]
     | None => None
     end) = Some ((t30 ++ "x" ++ t30)%string, true).
Proof. vm_compute. reflexivity. Qed.

(** ** C34 Key strings name paths unambiguously *)
Theorem C34_path_matches : forall (p : gpath) segs,
  gpath_matches p segs = true <-> p = map (fun s => (s, None)) segs.
Proof. exact l_path_matches. Qed.
Print Assumptions C34_path_matches.

Theorem C34_path_matches_plain : forall p segs, path_matches p segs = true <-> p_segs p = segs.
Proof. exact path_matches_spec. Qed.
Print Assumptions C34_path_matches_plain.

Theorem C34_key_injective : forall p q,
  Forall ident_like (p_segs p) -> Forall ident_like (p_segs q) ->
  (path_key p = path_key q <-> p_segs p = p_segs q).
Proof. exact l_key_injective. Qed.
Print Assumptions C34_key_injective.

Theorem C34_multi_segment_differs : forall p n,
  Forall ident_like (p_segs p) -> no_colon n -> 2 <= length (p_segs p) -> path_key p <> n.
Proof. exact l_multi_segment. Qed.
Print Assumptions C34_multi_segment_differs.

Example C34_ex :
  match parse_any_path (env := lexer_env) (root_stream (tk "a::bc = 1")) with
  | (Ok p, s) => (p_segs p, path_key p, length (toks s))
  | _ => ([], "", 0)
  end = (["a"; "bc"], "a::bc", 2)
  /\ Forall ident_like ["a"; "bc"] /\ no_colon "abc"
  /\ gpath_matches [("a", Some "<T>")] ["a"] = false.
Proof.
  split; [vm_compute; reflexivity|]. split; [|split; [|reflexivity]].
  - repeat constructor; discriminate.
  - repeat split; discriminate.
Qed.

(** ** C35 Error recovery stops exactly at the next comma *)
Theorem C35_skip_item : forall s pre rest,
  toks s = pre ++ rest -> Forall (fun t => ~ comma_tok t) pre ->
  rest = [] \/ starts_comma rest ->
  skip_item s = mkStream rest (scope s) (cell s).
Proof. exact l_skip_item. Qed.
Print Assumptions C35_skip_item.

(** every stream is of the form required by C35_skip_item *)
Theorem C35_skip_item_total : forall s,
  exists pre, toks s = pre ++ toks (skip_item s) /\
              Forall (fun t => ~ comma_tok t) pre /\
              (toks (skip_item s) = [] \/ starts_comma (toks (skip_item s))).
Proof. exact l_skip_item_total. Qed.
Print Assumptions C35_skip_item_total.

Theorem C35_skip_all : forall l,
  map toks (skip_all l) = map (fun _ => []) l /\
  map scope (skip_all l) = map scope l /\ map cell (skip_all l) = map cell l.
Proof. exact l_skip_all. Qed.
Print Assumptions C35_skip_all.

Example C35_ex :
  map show_tok (toks (skip_item (root_stream (tk "a (b, c) + 1 , d = 2")))) = [","; "d"; "="; "2"].
Proof. vm_compute. reflexivity. Qed.

(** ** C36 A trailing comma is optional, once *)
Theorem C36_parse_eof : forall (env : Env) s,
  (toks s = [] -> parse_eof s = (Ok tt, s)) /\
  (forall t, toks s = [t] -> comma_tok t -> parse_eof s = (Ok tt, mkStream [] (scope s) (cell s))) /\
  ((toks s <> [] /\ ~ (exists t, toks s = [t] /\ comma_tok t)) ->
     exists t pre post, toks s = pre ++ t :: post /\
       (pre = [] \/ (exists c, pre = [c] /\ comma_tok c)) /\
       fst (parse_eof s) = Err (mkSyn (mkErr (tok_span t)
                              ("unexpected token `" ++ env_show t ++ "`")%string) [])).
Proof. exact l_parse_eof. Qed.
Print Assumptions C36_parse_eof.

Theorem C36_peek_eof : forall (env : Env) s,
  peek_eof s = true <-> (toks s = [] \/ exists t, toks s = [t] /\ comma_tok t).
Proof. exact l_peek_eof. Qed.
Print Assumptions C36_peek_eof.

Example C36_ex :
  let f s := fst (parse_eof (env := lexer_env) (root_stream (tk s))) in
  f "," = Ok tt /\ f ",," = Err (err1 (SAt 1) "unexpected token `,`")
  /\ f "x ," = Err (err1 (SAt 0) "unexpected token `x`").
Proof. repeat split; vm_compute; reflexivity. Qed.

(** ** C37 Named item spelling selects the right parser *)
Theorem C37_equals : forall (env : Env) A item inline (flag : span -> res A) sp s j esp rest,
  toks s = TPunct "=" j esp :: rest ->
  parse_named_with item inline flag sp s = item (Named sp) (mkStream rest (scope s) (cell s)).
Proof. exact named_eq_case. Qed.
Print Assumptions C37_equals.

Theorem C37_paren : forall (env : Env) A item inline (flag : span -> res A) sp s ts gsp rest,
  toks s = TGroup Paren ts gsp :: rest ->
  let content := mkStream ts (SClose gsp) (cell s) in
  let c := hd content (snd (inline (Named sp) [content])) in
  let out := parse_named_with item inline flag sp s in
  toks (snd out) = rest /\ scope (snd out) = scope s /\
  (forall v, fst out = Ok v <->
     fst (inline (Named sp) [content]) = Ok v /\
     (toks c = [] \/ exists t, toks c = [t] /\ comma_tok t)) /\
  (forall e, fst (inline (Named sp) [content]) = Err e -> fst out = Err e) /\
  (forall v, fst out = Ok v -> cell (snd out) = cell c).
Proof. exact l_named_paren. Qed.
Print Assumptions C37_paren.

Theorem C37_flag : forall (env : Env) A item inline (flag : span -> res A) sp s,
  (forall j esp rest, toks s <> TPunct "=" j esp :: rest) ->
  (forall ts gsp rest, toks s <> TGroup Paren ts gsp :: rest) ->
  parse_named_with item inline flag sp s = (flag sp, s).
Proof. exact named_flag_case. Qed.
Print Assumptions C37_flag.

Theorem C37_try_parse_agrees : forall s,
  match try_parse_named s with
  | NEquals => exists j sp r, toks s = TPunct "=" j sp :: r
  | NParen => exists ts sp r, toks s = TGroup Paren ts sp :: r
  | NFlag => (forall j sp r, toks s <> TPunct "=" j sp :: r) /\
             (forall ts sp r, toks s <> TGroup Paren ts sp :: r)
  end.
Proof. exact l_try_parse_named. Qed.
Print Assumptions C37_try_parse_agrees.

Example C37_ex :
  let f s := fst (d_named (bool_dict (env := lexer_env)) "b" SCall (root_stream (tk s))) in
  f "= false" = Ok false /\ f "(false,)" = Ok false /\ f ", x" = Ok true
  /\ is_ok (f "(false 1)") = false /\ is_ok (f "= 1") = false.
Proof. repeat split; vm_compute; reflexivity. Qed.

(** ** C38 `name(value)` equals `name = value` for single-value types *)
Theorem C38_paren_equals : forall (env : Env) A (f : mode -> parser A) flag nm sp value v rest sc c0 esp j gsp,
  (forall rest sc c, f (Named sp) (mkStream (value ++ rest) sc c) = (Ok v, mkStream rest sc c)) ->
  d_named (dict_item_flag f flag) nm sp (mkStream (TPunct "=" j esp :: value ++ rest) sc c0)
    = (Ok v, mkStream rest sc c0) /\
  d_named (dict_item_flag f flag) nm sp (mkStream (TGroup Paren value gsp :: rest) sc c0)
    = (Ok v, mkStream rest sc c0).
Proof. exact l_paren_eq_ok. Qed.
Print Assumptions C38_paren_equals.

Example C38_ex : forall sp rest sc c,
  parse_int k_u8 (mkStream ([TLit (LInt 7) sp] ++ rest) sc c) = (Ok 7%Z, mkStream rest sc c).
Proof. reflexivity. Qed.

(** ** C39 Integer fields accept exactly the representable values *)
Theorem C39_int_sound : forall (env : Env) k m s v s',
  (ik_signed k = false -> ik_lo k = 0%Z) ->
  d_item (int_dict k) m s = (Ok v, s') ->
  in_range k v /\
  ((exists n sp, toks s = TLit (LInt n) sp :: toks s' /\ v = Z.of_N n) \/
   (exists j psp n sp, toks s = TPunct "-" j psp :: TLit (LInt n) sp :: toks s' /\ v = (- Z.of_N n)%Z)).
Proof. exact l_int_sound. Qed.
Print Assumptions C39_int_sound.

Theorem C39_int_complete : forall (env : Env) k m s,
  (ik_signed k = false -> ik_lo k = 0%Z) ->
  (forall n sp r, toks s = TLit (LInt n) sp :: r ->
     (in_range k (Z.of_N n) -> d_item (int_dict k) m s = (Ok (Z.of_N n), mkStream r (scope s) (cell s))) /\
     (~ in_range k (Z.of_N n) -> exists msg,
        d_item (int_dict k) m s = (Err (mkSyn (mkErr sp msg) []), mkStream r (scope s) (cell s)))) /\
  (forall n j psp sp r, toks s = TPunct "-" j psp :: TLit (LInt n) sp :: r -> ik_signed k = true ->
     (in_range k (- Z.of_N n) -> d_item (int_dict k) m s = (Ok (- Z.of_N n)%Z, mkStream r (scope s) (cell s))) /\
     (~ in_range k (- Z.of_N n) -> exists msg,
        d_item (int_dict k) m s = (Err (mkSyn (mkErr psp msg) []), mkStream r (scope s) (cell s)))).
Proof. exact l_int_complete. Qed.
Print Assumptions C39_int_complete.

(** all integer types of the library meet the side condition *)
Example C39_ex_kinds : Forall (fun k => ik_signed k = false -> ik_lo k = 0%Z)
  (let l := [k_u8; k_u16; k_u32; k_u64; k_u128; k_usize; k_i8; k_i16; k_i32; k_i64; k_i128; k_isize]
   in l ++ map nonzero l).
Proof. exact int_kinds_ok. Qed.
Example C39_ex :
  let f k s := fst (d_item (int_dict (env := lexer_env) k) Unnamed (root_stream (tk s))) in
  f k_u16 "65535" = Ok 65535%Z /\ is_ok (f k_u16 "65536") = false
  /\ f k_i8 "-128" = Ok (-128)%Z /\ is_ok (f k_i8 "128") = false
  /\ is_ok (f (nonzero k_i8) "0") = false /\ is_ok (f k_u8 "-1") = false.
Proof. repeat split; vm_compute; reflexivity. Qed.

(** ** C41 only_one! *)
Theorem C41_only_one : forall attrs prefix es,
  (length (present_spans attrs) <= 1 -> only_one attrs prefix es = es) /\
  (2 <= length (present_spans attrs) ->
   only_one attrs prefix es =
   es ++ map (fun sp => mkErr sp ("only one of "
                ++ quoted_list (map (fun a => join_path prefix (fst a)) attrs)
                ++ " is allowed")%string) (present_spans attrs)).
Proof. exact l_only_one. Qed.
Print Assumptions C41_only_one.

Example C41_ex :
  only_one [("a", Some (SAt 1)); ("b", None); ("c", Some (SAt 2))] "p" []
  = [mkErr (SAt 1) "only one of `p::a`, `p::b`, `p::c` is allowed";
     mkErr (SAt 2) "only one of `p::a`, `p::b`, `p::c` is allowed"].
Proof. reflexivity. Qed.

(** ** C42 all_or_none! *)
Theorem C42_all_or_none : forall attrs prefix es,
  (Forall is_present attrs \/ Forall (fun a => snd a = None) attrs ->
     all_or_none attrs prefix es = es) /\
  (Exists is_present attrs -> Exists (fun a => snd a = None) attrs ->
   all_or_none attrs prefix es =
   es ++ flat_map (fun a => match snd a with
            | Some sp => [mkErr sp (quoted_list
                           (map (fun b => join_path prefix (fst b))
                                (filter (fun b => match snd b with None => true | _ => false end) attrs))
                         ++ " must also be set in order to use `" ++ fst a ++ "`")%string]
            | None => []
            end) attrs).
Proof. exact l_all_or_none. Qed.
Print Assumptions C42_all_or_none.

Example C42_ex :
  all_or_none [("a", None); ("b", Some (SAt 2)); ("c", None)] "p" []
  = [mkErr (SAt 2) "`p::a`, `p::c` must also be set in order to use `b`"].
Proof. reflexivity. Qed.

(** ** C43 FieldStatus is a lawful three-state option *)
Theorem C43_laws : forall A B C (s t u : fstatus A) (f : A -> fstatus B) (g : B -> fstatus C)
                          (h : A -> B) (d : A) (w : fstatus B) (k : unit -> fstatus A) (o : option A),
  (* ParseError is absorbing *)
  (fs_and_then FParseError f = FParseError /\ fs_map FParseError h = FParseError /\
   fs_and (@FParseError A) w = FParseError /\ fs_or FParseError t = FParseError /\
   fs_or_else FParseError k = FParseError /\ fs_flatten f FParseError = FParseError) /\
  (* and_then is a monad, map its functor *)
  (fs_and_then (fs_and_then s f) g = fs_and_then s (fun x => fs_and_then (f x) g)) /\
  (fs_and_then s FSome = s) /\ (forall a, fs_and_then (FSome a) f = f a) /\
  (fs_map s h = fs_and_then s (fun x => FSome (h x))) /\
  (fs_and s w = fs_and_then s (fun _ => w)) /\
  (fs_flatten f s = fs_and_then s f) /\
  (* or is a monoid with unit None *)
  (fs_or (fs_or s t) u = fs_or s (fs_or t u) /\ fs_or FNone s = s /\ fs_or s FNone = s) /\
  (fs_or_else s k = fs_or s (k tt)) /\
  (* conversions agree with Option *)
  (fs_into_option (fs_from o) = o) /\
  (fs_is_parse_error s = false -> fs_from (fs_into_option s) = s) /\
  (fs_is_parse_error (fs_from o) = false) /\
  (fs_unwrap_or s d = match fs_into_option s with Some x => x | None => d end) /\
  (fs_unwrap_or_else s (fun _ => d) = fs_unwrap_or s d) /\
  (fs_into_option (fs_map s h) = option_map h (fs_into_option s)) /\
  (* exactly one of the three tests holds *)
  ((if fs_is_none s then 1 else 0) + (if fs_is_parse_error s then 1 else 0)
   + (if fs_is_some s then 1 else 0) = 1) /\
  (fs_is_none s = true <-> s = FNone) /\ (fs_is_some s = true <-> exists x, s = FSome x) /\
  (* as_ref changes nothing; unwrap panics unless there is a value *)
  (fs_as_ref s = s) /\
  (fs_unwrap s = match s with FSome x => inl x | _ => inr Panic end).
Proof. exact l_fs_laws. Qed.
Print Assumptions C43_laws.

Example C43_ex :
  fs_or (@FParseError nat) (FSome 1) = FParseError /\ fs_or FNone (FSome 1) = FSome 1
  /\ fs_into_option (@FParseError nat) = None.
Proof. repeat split. Qed.

(** ** C45 Suggestion in unknown-field errors is a real field *)
Theorem C45_suggestion : forall (env : Env) p sp fields,
  (exists c, In c fields /\ (800 < env_sim p c)%N /\
      (forall f, In f fields -> (env_sim p f <= env_sim p c)%N) /\
      unknown_error p sp fields =
      mkSyn (mkErr sp ("unknown field `" ++ p ++ "`, did you mean `" ++ c ++ "`?")%string) []) \/
  ((forall f, In f fields -> (env_sim p f <= 800)%N) /\
   unknown_error p sp fields = mkSyn (mkErr sp ("unknown field `" ++ p ++ "`")%string) []).
Proof. exact l_suggestion. Qed.
Print Assumptions C45_suggestion.

Theorem C45_check_unknown : forall (env : Env) p sp fields es,
  (In p fields -> check_unknown p sp fields es = es) /\
  (~ In p fields -> exists e, unknown_error p sp fields = mkSyn e [] /\
                              check_unknown p sp fields es = es ++ [e]).
Proof. exact l_check_unknown. Qed.
Print Assumptions C45_check_unknown.

Example C45_ex :
  unknown_error (env := lexer_env) "fielt" (SAt 3) ["x"; "fiel"; "y"]
  = err1 (SAt 3) "unknown field `fielt`, did you mean `fiel`?"
  /\ unknown_error (env := lexer_env) "z" (SAt 3) ["x"; "y"] = err1 (SAt 3) "unknown field `z`".
Proof. split; vm_compute; reflexivity. Qed.

(** ** C24 Flatten prefixes compose (the string part) *)
Theorem C24_prefix_strip : forall a b key x,
  strip_prefix (join_prefix a b) key = Some x <-> key = join_path (join_prefix a b) x.
Proof. exact l_prefix_strip. Qed.
Print Assumptions C24_prefix_strip.

Theorem C24_prefix_compose : forall a b c,
  join_prefix (join_prefix a b) c = join_prefix a (b ++ "::" ++ c)%string.
Proof. exact l_prefix_compose. Qed.
Print Assumptions C24_prefix_compose.

Example C24_ex :
  join_prefix (join_prefix "" "p") "q" = "p::q::" /\
  strip_prefix "p::q::" "p::q::x" = Some "x" /\ strip_prefix "p::q::" "p::x" = None /\
  join_path "p::q::" "x" = "p::q::x".
Proof. repeat split. Qed.

(** ** C27 extract_attributes removes exactly the matching attributes *)
Theorem C27_extract_struct : forall (env : Env) V (s : sdef V) conv l,
  let m := derived_matches (s_attributes s) in
  let kept := filter (fun a => negb (m (a_path a))) l in
  snd (struct_extract_attributes s conv (ONode l)) = ONode kept /\
  (conv (ONode l) = conv (ONode kept) ->
   fst (struct_extract_attributes s conv (ONode l)) = struct_parse_attributes s conv (ONode l)).
Proof. exact l_extract_struct. Qed.
Print Assumptions C27_extract_struct.

Theorem C27_extract_enum : forall (env : Env) V (e : edef V) conv l,
  let m := derived_matches (e_attributes e) in
  let kept := filter (fun a => negb (m (a_path a))) l in
  snd (enum_extract_attributes e conv (ONode l)) = ONode kept /\
  (conv (ONode l) = conv (ONode kept) ->
   fst (enum_extract_attributes e conv (ONode l)) = enum_parse_attributes e conv (ONode l)).
Proof. exact l_extract_enum. Qed.
Print Assumptions C27_extract_enum.

Theorem C27_matches : forall atts p,
  derived_matches atts p = true <-> (atts = [] \/ In (p_segs p) atts).
Proof. exact derived_matches_spec. Qed.
Print Assumptions C27_matches.

(** objects that do not give mutable access: an error, nothing removed *)
Theorem C27_extract_refused : forall (env : Env) V (s : sdef V) conv a l sp,
  (exists e, struct_extract_attributes s conv (OSingle a) = (Err e, OSingle a)) /\
  (exists e, struct_extract_attributes s conv (OSlice l) = (Err e, OSlice l)) /\
  (exists e, struct_extract_attributes s conv (ONodeRO l sp) = (Err e, ONodeRO l sp)).
Proof. exact l_extract_refused. Qed.
Print Assumptions C27_extract_refused.

Definition ex_attr (p : list string) (m : ameta) (n : N) : attr := mkAttr (mkPath false p (SAt n)) m (SAt n).
Example C27_ex :
  take_tokens (env := lexer_env) (derived_matches [["my"]])
    (ONode [ex_attr ["a"] MPath 0; ex_attr ["my"] (MList Paren (tk "x = 1")) 1;
            ex_attr ["my"] MPath 2; ex_attr ["b"] MPath 3])
  = (Ok [([TGroup Paren (tk "x = 1") SCall], "my", SAt 1); ([], "my", SAt 2)],
     ONode [ex_attr ["a"] MPath 0; ex_attr ["b"] MPath 3]).
Proof. vm_compute. reflexivity. Qed.

(** ** C28 Non-matching attributes never matter *)
Theorem C28_depends_on_matching : forall (env : Env) V (s : sdef V) (e : edef V) conv o1 o2,
  conv o1 = conv o2 ->
  (filter (fun a => derived_matches (s_attributes s) (a_path a)) (attrs o1) =
   filter (fun a => derived_matches (s_attributes s) (a_path a)) (attrs o2) ->
   struct_parse_attributes s conv o1 = struct_parse_attributes s conv o2) /\
  (filter (fun a => derived_matches (e_attributes e) (a_path a)) (attrs o1) =
   filter (fun a => derived_matches (e_attributes e) (a_path a)) (attrs o2) ->
   enum_parse_attributes e conv o1 = enum_parse_attributes e conv o2).
Proof. exact l_non_matching. Qed.
Print Assumptions C28_depends_on_matching.

Theorem C28_insert : forall (env : Env) V (s : sdef V) conv l1 x l2,
  s_attributes s <> [] -> ~ In (p_segs (a_path x)) (s_attributes s) ->
  conv (ONode (l1 ++ x :: l2)) = conv (ONode (l1 ++ l2)) ->
  struct_parse_attributes s conv (ONode (l1 ++ x :: l2)) =
  struct_parse_attributes s conv (ONode (l1 ++ l2)).
Proof. exact l_non_matching_insert. Qed.
Print Assumptions C28_insert.

Theorem C28_insert_enum : forall (env : Env) V (e : edef V) conv l1 x l2,
  e_attributes e <> [] -> ~ In (p_segs (a_path x)) (e_attributes e) ->
  conv (ONode (l1 ++ x :: l2)) = conv (ONode (l1 ++ l2)) ->
  enum_parse_attributes e conv (ONode (l1 ++ x :: l2)) =
  enum_parse_attributes e conv (ONode (l1 ++ l2)).
Proof. exact l_non_matching_insert_enum. Qed.
Print Assumptions C28_insert_enum.

Example C28_ex :
  ref_tokens (derived_matches [["my"]])
    (ONode [ex_attr ["a"] MPath 0; ex_attr ["my"] (MList Paren (tk "x = 1")) 1; ex_attr ["b"] MPath 3])
  = ref_tokens (derived_matches [["my"]])
    (ONode [ex_attr ["my"] (MList Paren (tk "x = 1")) 1; ex_attr ["your"] MPath 8]).
Proof. vm_compute. reflexivity. Qed.

(** ** C47 Flag/empty parsing errors are spanned at the key: only the first one is *)
Theorem C47_first_error_spanned_partial : forall (env : Env) A sp (f : parser A) e,
  parse_empty sp f = Err e ->
  exists e0, parse2 f [] = Err e0 /\ e_span (se_hd e) = sp /\
             map e_msg (errs_of e) = map e_msg (errs_of e0) /\ se_tl e = se_tl e0.
Proof. exact l_parse_empty. Qed.
Print Assumptions C47_first_error_spanned_partial.

(** a parser with two errors: the second one keeps the call-site span *)
Theorem C47_all_errors_spanned_refuted :
  exists (f : parser unit) (sp : span) e,
    parse_empty sp f = Err e /\ exists x, In x (errs_of e) /\ e_span x <> sp.
Proof. exact l_parse_empty_refuted. Qed.
Print Assumptions C47_all_errors_spanned_refuted.
