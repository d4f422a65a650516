(** Primitive types.  Models core/parse_meta.rs 267-442, 874-945, 947-1082,
    1440-1472, core/util.rs 244-567, core/small_string.rs 242-252. *)
From Verif Require Export Meta.

Section L.
Context {env : Env}.

(** *** Integers (293-318, 334-346): LitInt::base10_parse, i.e. FromStr on the
    decimal digits.  [ik_signed]/[ik_lo]/[ik_hi]/[ik_nonzero] describe the target. *)
Record intkind : Type := mkInt {
  ik_signed : bool; ik_lo : Z; ik_hi : Z; ik_nonzero : bool
}.
Definition ubits (n : Z) : intkind := mkInt false 0 (2 ^ n - 1) false.
Definition sbits (n : Z) : intkind := mkInt true (- 2 ^ (n - 1)) (2 ^ (n - 1) - 1) false.
Definition nonzero (k : intkind) : intkind :=
  mkInt (ik_signed k) (ik_lo k) (ik_hi k) true.
Definition k_u8 := ubits 8. Definition k_u16 := ubits 16. Definition k_u32 := ubits 32.
Definition k_u64 := ubits 64. Definition k_u128 := ubits 128. Definition k_usize := ubits 64.
Definition k_i8 := sbits 8. Definition k_i16 := sbits 16. Definition k_i32 := sbits 32.
Definition k_i64 := sbits 64. Definition k_i128 := sbits 128. Definition k_isize := sbits 64.

(** core::num FromStr (dependency): sign and magnitude to a value or a message. *)
Definition int_from_str (k : intkind) (neg : bool) (n : N) : Z + string :=
  if neg && negb (ik_signed k) then inr "invalid digit found in string"
  else
    let v := if neg then Z.opp (Z.of_N n) else Z.of_N n in
    if (v <? ik_lo k)%Z then inr "number too small to fit in target type"
    else if (ik_hi k <? v)%Z then inr "number too large to fit in target type"
    else if ik_nonzero k && (v =? 0)%Z then inr "number would be zero for non-zero type"
    else inl v.

(** 282-284 `input.parse::<LitInt>()?.base10_parse()` *)
Definition parse_int (k : intkind) : parser Z :=
  l <- parse_lit_as "integer literal" sel_int_sign ;;
  fun s => match int_from_str k (fst (fst l)) (snd (fst l)) with
           | inl v => (Ok v, s)
           | inr m => (Err (err1 (snd l) m), s)
           end.
Definition int_dict (k : intkind) : dict Z := dict_item (fun _ => parse_int k).

(** 300-312 u8: byte literal or integer *)
Definition parse_u8 : parser Z :=
  fun s =>
    if peek_lit sel_byte s then
      pmap (fun l => Z.of_N (fst l)) (parse_lit_as "byte literal" sel_byte) s
    else if peek_lit sel_int_sign s then parse_int k_u8 s
    else (Err (error_at s "expected byte literal or integer literal"), s).
Definition u8_dict : dict Z := dict_item (fun _ => parse_u8).

(** 320-321 f32/f64: the value is kept as sign and digits. *)
Definition float_dict : dict (bool * string) :=
  dict_item (fun _ => pmap fst (parse_lit_as "floating point literal" sel_float)).

(** 323-332 bool *)
Definition bool_dict : dict bool :=
  dict_item_flag (fun _ => pmap fst (parse_lit_as "boolean literal" sel_bool))
                 (fun _ => Ok true).

(** 348 char *)
Definition char_dict : dict N :=
  dict_item (fun _ => pmap fst (parse_lit_as "character literal" sel_char)).

(** 350-355 String (368-391 PathBuf, OsString alike) *)
Definition string_dict : dict string := dict_item (fun _ => pmap fst parse_lit_str).

(** core/small_string.rs 242-252 ParseMetaItem for SmallString:
    key_to_string(&lit.token()), the text of the literal as it was written (LitStr::token
    is the token that was read; its Display is the source text, escapes and quotes
    included). *)
Definition smallstring_dict : dict string :=
  dict_item (fun _ => pmap (fun l => env_show (TLit (LStr (fst l)) (snd l))) parse_lit_str).

(** 411-442 Option<T> *)
Definition option_item {A} (d : dict A) (m : mode) : parser (option A) :=
  match m with
  | Named _ => pmap Some (d_item d m)
  | Unnamed =>
    fun s =>
      if peek_kw "Some" s then
        (parse_kw "Some" ;;;
         pmap Some (parse_delimited_with Paren (on_single (d_inline d m)))) s
      else if peek_kw "None" s then (parse_kw "None" ;;; pret None) s
      else (Err (error_at s "expected `Some` or `None`"), s)
  end.
Definition option_dict {A} (d : dict A) : dict (option A) :=
  dict_item_flag_missing (option_item d) (fun sp => rmap Some (d_flag d sp))
                         (fun _ _ => Ok None).

(** 859-934 Box, Rc, Cell, RefCell, Cow: only item and flag are forwarded. *)
Definition wrapper_dict {A} (d : dict A) : dict A :=
  dict_item_flag (fun m => d_item d m) (fun sp => d_flag d sp).

(** 947-956 TokenTree *)
Definition tokentree_dict : dict token :=
  dict_item (fun _ s => match toks s with
                        | t :: r => (Ok t, set_toks s r)
                        | [] => (Err (err1 (cur_span s) "unexpected end of tokens"), s)
                        end).

(** 981-1011 TokenStream *)
Fixpoint until_comma (ts : list token) : list token :=
  match ts with
  | [] => []
  | t :: r => if is_comma t then [] else t :: until_comma r
  end.
Definition tokenstream_item (m : mode) : parser (list token) :=
  fun s =>
    if peek_comma s then (Err (err1 (in_span s) "unexpected comma"), s)
    else match until_comma (toks s) with
         | [] => (Err (err1 (to_span m s) "expected token"), s)
         | tts => (Ok tts, skip_item s)
         end.
Definition tokenstream_dict : dict (list token) :=
  dict_item_flag_missing tokenstream_item (fun _ => Ok []) (fun _ _ => Ok []).

(** 1013-1035 TokenStream flat: no comma is ever consumed. *)
Fixpoint tokenstream_loop (fuel : nat) (acc : list token) (s : stream)
  : res (list token) * stream :=
  match fuel with
  | 0 => (Bad Diverge, s)
  | S n => if is_empty s then (Ok acc, s)
           else match tokenstream_item Unnamed s with
                | (Ok t, s1) => tokenstream_loop n (acc ++ t) s1
                | (Err e, s1) => (Err e, s1)
                | (Bad b, s1) => (Bad b, s1)
                end
  end.
Fixpoint tokenstream_streams (acc : list token) (inputs : list stream)
  : res (list token) * list stream :=
  match inputs with
  | [] => (Ok acc, [])
  | s :: rest =>
    match tokenstream_loop (S (length (toks s))) acc s with
    | (Ok acc1, s1) =>
      let (r, rest1) := tokenstream_streams acc1 rest in (r, s1 :: rest1)
    | (Err e, s1) => (Err e, s1 :: rest)
    | (Bad b, s1) => (Bad b, s1 :: rest)
    end
  end.
Definition tokenstream_flat : flat_unnamed (list token) :=
  mkFU None (fun _ _ => tokenstream_streams []).

(** 1039-1048 Literal, 1052-1061 Punct, 1065-1082 Group, 1357-1362 Ident *)
Definition one_token_dict (what : string) (pick : token -> option token) : dict token :=
  dict_item (fun _ s => match toks s with
                        | t :: r => match pick t with
                                    | Some t' => (Ok t', set_toks s r)
                                    | None => (Err (err1 (tok_span t) what), s)
                                    end
                        | [] => (Err (err1 (cur_span s) what), s)
                        end).
Definition literal_dict : dict token :=
  one_token_dict "expected literal" (fun t => match t with TLit _ _ => Some t | _ => None end).
(** Cursor::punct leaves out the quote of a lifetime *)
Definition punct_dict : dict token :=
  one_token_dict "expected punctuation"
                 (fun t => match t with
                           | TPunct c _ _ => if Ascii.eqb c "'" then None else Some t
                           | _ => None
                           end).
(** a new group, which gets the span of the call site *)
Definition group_dict : dict token :=
  one_token_dict "expected parenthesis or brace or bracket"
                 (fun t => match t with TGroup d ts _ => Some (TGroup d ts SCall) | _ => None end).
Definition ident_dict : dict (string * span) := dict_item (fun _ => parse_any_ident).

(** core/with.rs 143-176 with::any_path *)
Definition any_path_dict : dict path := dict_item (fun _ => parse_any_path).

(** 1303-1319 paren-wrapped syn types, for an arbitrary inner parser: in named mode
    a parenthesised group whose leftovers are not checked (Nothing::parse). *)
Definition paren_syn_dict {A} (p : parser A) : dict A :=
  dict_item (fun m => match m with
                      | Named _ => with_group Paren p
                      | Unnamed => p
                      end).
(** 1277-1293 other syn types *)
Definition syn_dict {A} (p : parser A) : dict A := dict_item (fun _ => p).

(** 1440-1461 () : the content of the parentheses / inline streams is not looked
    at (Nothing::parse). *)
Definition unit_item : parser unit := with_group Paren (pret tt).
Definition unit_dict : dict unit :=
  mkDict (fun _ => unit_item) (fun _ => pret tt) (fun _ => Ok tt)
         (def_named (fun _ => unit_item) (fun _ => pret tt) (fun _ => Ok tt))
         def_missing.

(** *** core/util.rs 244-427 SpannedValue<T> (value, span) *)
Definition sv_item {A} (d : dict A) (m : mode) : parser (A * span) :=
  fun s => let sp := in_span s in
           let (r, s1) := d_item d m s in
           (rmap (fun v => (v, join_or (in_span s1) sp sp)) r, s1).
Definition sv_inline {A} (d : dict A) (m : mode) : mparser (A * span) :=
  fun inputs =>
    let (r, l1) := d_inline d m inputs in
    let sp := match inputs with
              | [] => SCall
              | s :: _ => match l1 with
                          | [] => SCall
                          | _ => join_or (in_span (last l1 s)) (in_span s) SCall
                          end
              end in
    (rmap (fun v => (v, sp)) r, l1).
Definition sv_named {A} (d : dict A) (n : string) (sp : span) : parser (A * span) :=
  fun s => let (r, s1) := d_named d n sp s in
           (rmap (fun v => (v, join_or (in_span s1) sp sp)) r, s1).
(** missing_meta_item is not overridden (323-356) *)
Definition spanned_dict {A} (d : dict A) : dict (A * span) :=
  mkDict (sv_item d) (sv_inline d) (fun sp => rmap (fun v => (v, sp)) (d_flag d sp))
         (sv_named d) def_missing.
(** 366-372, 389-396, 405-411, 418-424: span bookkeeping of the flat impls *)
Definition sv_multi {A} (p : mparser A) : mparser (A * span) :=
  fun inputs =>
    let sp := inputs_span inputs in
    let (r, l1) := p inputs in
    (rmap (fun v => (v, join_or sp (inputs_span l1) sp)) r, l1).
(** 358-374 *)
Definition spanned_fu {A} (u : flat_unnamed A) : flat_unnamed (A * span) :=
  mkFU (fu_count u) (fun m i => sv_multi (fu_parse u m i)).
(** 376-397 *)
Definition spanned_fn {A} (u : flat_named A) : flat_named (A * span) :=
  mkFN (fn_names u) (fn_accepts_all u) (fun m p v => sv_multi (fn_parse u m p v)).
(** 399-413 *)
Definition spanned_append {A} (a : append_fn A) : append_fn (A * span) :=
  fun ps => sv_multi (a ps).
(** 415-427 *)
Definition spanned_rest {A} (a : rest_fn A) : rest_fn (A * span) :=
  fun ex => sv_multi (a ex).

(** 284-312, 277-282: comparison, hashing and display of the wrapped value; the parameters
    are T's own *)
Definition sv_eq {A} (eqb : A -> A -> bool) (a b : A * span) : bool := eqb (fst a) (fst b).
Definition sv_cmp {A} (cmp : A -> A -> comparison) (a b : A * span) : comparison :=
  cmp (fst a) (fst b).
Definition sv_hash {A H} (h : A -> H) (a : A * span) : H := h (fst a).
Definition sv_display {A} (disp : A -> string) (a : A * span) : string := disp (fst a).

(** *** core/util.rs 464-567 Flag: None = unset *)
Definition flag_msg : string :=
  "field with type `Flag` can only be a named field with no value".
Definition flag_inline : mode -> mparser (option span) :=
  fun _ inputs => (Err (err1 (inputs_span inputs) flag_msg), inputs).
Definition flag_dict : dict (option span) :=
  mkDict (fun m => on_single (flag_inline m)) flag_inline (fun sp => Ok (Some sp))
         (fun _ sp s => if is_empty s || peek_comma s then (Ok (Some sp), s)
                        else (Err (err1 (in_span s) "unexpected token"), s))
         (fun _ _ => Ok None).
End L.
