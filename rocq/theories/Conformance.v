(** The repository's own tests (tests/meta.rs, tests/attributes.rs) replayed on the model,
    from the source text of the derived types: the text goes through the model of the
    derive's front end (Schema.v) and of its code generation (Lower.v, DeriveStruct.v,
    DeriveEnum.v) before the test inputs are parsed (SourceKit.v).  A fidelity check of the
    model, not a proof.

    Left out: tests of syn's own parsers and of what rustc does with generics; the
    jaro-winkler suggestion of meta.rs 870-871 (the similarity is a toy here).  syn::Expr
    is replaced by [expr_toy] (tokens up to the comma), syn::Path by [parse_any_path]. *)
From Verif Require Import SourceKit.

Definition i32_of_str (s : string) : val + string :=
  match tk s with
  | [TLit (LInt n) _] => inl (VI (Z.of_N n))
  | [TPunct "-" _ _; TLit (LInt n) _] => inl (VI (- Z.of_N n))
  | _ => inr "invalid digit found in string"
  end.
Definition from_str_i32 : dict val := from_str_dict i32_of_str.
Definition int_vec := dict_map VL (with_vec_dict from_str_i32).
Definition sum_append : append_fn val :=
  fun paths inputs =>
    match parse_struct
            (fun p psp (n : Z) s =>
               if mem_str p paths then
                 match d_named (int_dict k_i32) p psp s with
                 | (Ok v, s1) => (Ok tt, (n + v)%Z, s1)
                 | (Err e, s1) => (Err e, n, s1)
                 | (Bad b, s1) => (Bad b, n, s1)
                 end
               else (Ok tt, n, skip_item s)) 0%Z inputs with
    | (Ok _, n, l) => (Ok (VI n), l)
    | (Err e, _, l) => (Err e, l)
    | (Bad b, _, l) => (Bad b, l)
    end.
Definition spanned_i32 := dict_map (fun x => VI (fst x)) (spanned_dict (int_dict k_i32)).

(** the types, modules and expressions the tests name *)
Definition with_int_vec : append_fn val := fun ps => pmap VL (with_vec_append from_str_i32 ps).
Definition int_map_rest : rest_fn val :=
  fun ex => pmap pmap_val (with_map_rest veq vstr path_ from_str_i32 ex).
Definition vec_type (d : dict val) : rtype val :=
  with_append (append_ d) (with_fu (fu_map VL (vec_fu d)) (rt (vec_ d) (VL []))).
Definition W : world :=
  mkWorld
    [("i32", rt i32 (VI 0)); ("u16", rt u16 (VI 0)); ("u32", rt u32 (VI 0)); ("u64", rt u64 (VI 0));
     ("f64", rt f64 (VF "0")); ("bool", rt bool_ (VB false)); ("char", rt char_ (VC 0));
     ("::std::string::String", rt string_ (VT "")); ("::syn::Ident", rt ident_ VU);
     ("::syn::Path", rt path_ VU); ("::syn::Expr", rt expr_ VU); ("::syn::Type", rt expr_ VU);
     ("::std::vec::Vec<i32>", vec_type i32); ("::std::vec::Vec<::syn::Ident>", vec_type ident_);
     ("::std::vec::Vec<::syn::Expr>", vec_type expr_);
     ("::std::collections::HashMap<::syn::Path,i32>", with_rest (rest_ path_ i32) (rt i32 (VM [])));
     ("::std::collections::HashMap<::syn::Path,::syn::Expr>",
      with_rest (rest_ path_ expr_) (rt i32 (VM [])));
     ("::std::option::Option<::std::string::String>", rt (opt_ string_) (VO None));
     ("::std::option::Option<i32>", rt (opt_ i32) (VO None));
     ("::deluxe::Flag", rt flag_ (VB false)); ("::deluxe::SpannedValue<i32>", rt spanned_i32 (VI 0));
     ("CustomAppendSum", with_append sum_append (rt i32 (VI 0)))]
    [("deluxe::with::from_str", rt from_str_i32 VU);
     ("custom_int_option", rt (dict_map VO (with_optional_dict from_str_i32)) VU);
     ("custom_int_vec", with_append with_int_vec (rt int_vec VU));
     ("custom_int_map", with_rest int_map_rest (rt i32 VU))]
    [("1", VI 1); ("MyNewtype(::std::string::String::new())", VS [VT ""])] [] [].

(** *** meta.rs 9-117 *)
(** meta.rs 16-16 *)
Definition MyUnit_src := "struct MyUnit;".
Definition MyUnit := sd (src_sdef W sx0 MyUnit_src).
Example unit_1 : pmeta MyUnit "()" = okS []. Proof. t. Qed.
Example unit_2 : pmeta MyUnit "(1)" = er "unexpected token `1`". Proof. t. Qed.
(** meta.rs 35-35 *)
Definition MyUnnamedEmpty_src := "struct MyUnnamedEmpty();".
Definition MyUnnamedEmpty := sd (src_sdef W sx0 MyUnnamedEmpty_src).
Example unnamed_empty_1 : pmeta MyUnnamedEmpty "()" = okS []. Proof. t. Qed.
Example unnamed_empty_2 : pmeta MyUnnamedEmpty "(1)" = er "unexpected token `1`". Proof. t. Qed.
(** meta.rs 54-55 *)
Definition MyNewtype_src := "#[deluxe(transparent)]
struct MyNewtype(::std::string::String);".
Definition MyNewtype := sd (src_sdef W sx0 MyNewtype_src).
Example newtype_1 : pmeta MyNewtype """qwerty""" = okS [VT "qwerty"]. Proof. t. Qed.
Example newtype_2 : pmeta MyNewtype "123" = er "expected string literal". Proof. t. Qed.
(** meta.rs 76-76 *)
Definition MyUnnamed_src := "struct MyUnnamed(i32, ::std::string::String);".
Definition MyUnnamed := src_sdef W sx0 MyUnnamed_src.
Example unnamed_1 : pmeta (sd MyUnnamed) "(123, ""abc"")" = okS [VI 123; VT "abc"]. Proof. t. Qed.
Example unnamed_2 : pmeta (sd MyUnnamed) "(123)" = er "missing required field 1". Proof. t. Qed.
Example unnamed_3 : pmeta (sd MyUnnamed) "(123, ""abc"", true)" = er "unexpected token `true`".
Proof. t. Qed.
(** meta.rs 104-104 *)
Definition MyNamedEmpty_src := "struct MyNamedEmpty {}".
Definition MyNamedEmpty := sd (src_sdef W sx0 MyNamedEmpty_src).
Example named_empty_1 : pmeta MyNamedEmpty "{}" = okS []. Proof. t. Qed.
Example named_empty_2 : pmeta MyNamedEmpty "{a = 123}" = er "unknown field `a`". Proof. t. Qed.
Example named_empty_3 : pflag MyNamedEmpty = okS []. Proof. t. Qed.

(** *** meta.rs 126-282 *)
(** meta.rs 126-129 *)
Definition MyNamed_src := "struct MyNamed {
    a: i32,
    b: ::std::string::String,
}".
Definition MyNamed := src_sdef W sx0 MyNamed_src.
Definition W1 := add_struct "MyNamed" VU MyNamed_src (add_struct "MyUnnamed" VU MyUnnamed_src
  (add_struct "MyNewtype" (VS [VT ""]) MyNewtype_src W)).
Definition t123 := okS [VI 123; VT "asdf"].
Example named_1 : pmeta (sd MyNamed) "{a = 123, b = ""asdf""}" = t123. Proof. t. Qed.
Example named_2 : pmeta (sd MyNamed) "{a(123), b = ""asdf""}" = t123. Proof. t. Qed.
Example named_3 : pmeta (sd MyNamed) "{a = 123, b(""asdf"")}" = t123. Proof. t. Qed.
Example named_4 : pmeta (sd MyNamed) "{a(123), b(""asdf"")}" = t123. Proof. t. Qed.
Example named_5 : pmeta (sd MyNamed) "{}"
  = er "missing required field `a`, missing required field `b`". Proof. t. Qed.
Example named_6 : pmeta (sd MyNamed) "{b(""asdf"")}" = er "missing required field `a`".
Proof. t. Qed.
Example named_7 : pmeta (sd MyNamed) "{a(123)}" = er "missing required field `b`". Proof. t. Qed.
Example named_8 : pmeta (sd MyNamed) "{a(123), b(""asdf""), c(true)}" = er "unknown field `c`".
Proof. t. Qed.
Example named_9 : pmeta (sd MyNamed) "{a(123), b(""asdf""), a(456)}"
  = er "duplicate attribute for `a`". Proof. t. Qed.
Example named_10 : pmeta (sd MyNamed) "{a(123), b(""asdf""), a(456), a(""456"") }"
  = er "duplicate attribute for `a`, duplicate attribute for `a`, expected integer literal".
Proof. t. Qed.
(** meta.rs 178-182 *)
Definition MyNamedChild_src := "struct MyNamedChild {
    c: i32,
    #[deluxe(flatten)]
    d: MyNamed,
}".
Definition MyNamedChild := sd (src_sdef W1 sx0 MyNamedChild_src).
Example flat_1 : pmeta MyNamedChild "{a = 100, b = ""qwerty"", c = 900}"
  = okS [VI 900; VS [VI 100; VT "qwerty"]]. Proof. t. Qed.
Example flat_2 : pmeta MyNamedChild "{}"
  = er "missing required field `a`, missing required field `b`, missing required field `c`".
Proof. t. Qed.
(** meta.rs 210-214 *)
Definition MyNamedChildPrefixed_src := "struct MyNamedChildPrefixed {
    c: i32,
    #[deluxe(flatten(prefix = d))]
    d: MyNamed,
}".
Definition MyNamedChildPrefixed := sd (src_sdef W1 sx0 MyNamedChildPrefixed_src).
Example flat_3 : pmeta MyNamedChildPrefixed "{d::a = 100, d::b = ""qwerty"", c = 900}"
  = okS [VI 900; VS [VI 100; VT "qwerty"]]. Proof. t. Qed.
Example flat_4 : pmeta MyNamedChildPrefixed "{}"
  = er "missing required field `d::a`, missing required field `d::b`, missing required field `c`".
Proof. t. Qed.
(** meta.rs 245-251 *)
Definition MyNamedChildLongPrefixed_src := "struct MyNamedChildLongPrefixed {
    c: i32,
    #[deluxe(flatten(prefix = d::e))]
    d: MyNamed,
    #[deluxe(flatten(prefix = d::e2))]
    d2: MyNamed,
}".
Definition MyNamedChildLongPrefixed := sd (src_sdef W1 sx0 MyNamedChildLongPrefixed_src).
Example flat_5 : pmeta MyNamedChildLongPrefixed
    "{d::e::a = 100, d::e::b = ""qwerty"", d::e2::b = ""uiop"", d::e2::a = 200, c = 900}"
  = okS [VI 900; VS [VI 100; VT "qwerty"]; VS [VI 200; VT "uiop"]]. Proof. t. Qed.
Example flat_6 : pmeta MyNamedChildLongPrefixed "{}"
  = er "missing required field `d::e::a`, missing required field `d::e::b`, missing required field `d::e2::a`, missing required field `d::e2::b`, missing required field `c`".
Proof. t. Qed.

(** *** meta.rs 291-488 *)
(** meta.rs 291-299 *)
Definition MyNamedComplex_src := "struct MyNamedComplex {
    idents: ::std::vec::Vec<::syn::Ident>,
    #[deluxe(skip)]
    skipped: bool,
    #[deluxe(append)]
    exprs: ::std::vec::Vec<::syn::Expr>,
    #[deluxe(rest)]
    rest: ::std::collections::HashMap<::syn::Path, ::syn::Expr>,
}".
Definition MyNamedComplex := sd (src_sdef W sx0 MyNamedComplex_src).
Definition cplx (ids : list string) (exprs : list string) (rest : list (string * string)) :=
  okS [VL (map VT ids); VB false; VL (map VX exprs); VM (map (fun kv => (fst kv, VX (snd kv))) rest)].
Example vec_1 : pmeta MyNamedComplex "{ }" = er "missing required field `idents`". Proof. t. Qed.
Example vec_2 : pmeta MyNamedComplex "{ idents }"
  = er "unexpected flag, expected `=` or parentheses". Proof. t. Qed.
Example vec_3 : pmeta MyNamedComplex "{ idents = [] }" = cplx [] [] []. Proof. t. Qed.
Example vec_4 : pmeta MyNamedComplex "{ idents() }" = cplx [] [] []. Proof. t. Qed.
Example vec_5 : pmeta MyNamedComplex "{ idents = [hello, world] }" = cplx ["hello"; "world"] [] [].
Proof. t. Qed.
Example vec_6 : pmeta MyNamedComplex "{ idents = [hello, world,] }" = cplx ["hello"; "world"] [] [].
Proof. t. Qed.
Example vec_7 : pmeta MyNamedComplex "{ idents(hello, world) }" = cplx ["hello"; "world"] [] [].
Proof. t. Qed.
Example vec_8 : pmeta MyNamedComplex "{ idents(hello, world,) }" = cplx ["hello"; "world"] [] [].
Proof. t. Qed.
Example vec_9 : pmeta MyNamedComplex "{ idents = (hello, world) }" = er "expected square brackets".
Proof. t. Qed.
Example vec_10 : pmeta MyNamedComplex "{ idents = [hello world] }" = er "expected `,`".
Proof. t. Qed.
Example vec_11 : pmeta MyNamedComplex "{ idents = [hello, 123, world] }" = er "expected ident".
Proof. t. Qed.
Example vec_12 : pmeta MyNamedComplex "{ idents = [hello, 123, world, 456, moon] }"
  = er "expected ident, expected ident". Proof. t. Qed.
Example skipped_rest : pmeta MyNamedComplex "{ idents = [], skipped = true }"
  = cplx [] [] [("skipped", "true")]. Proof. t. Qed.
Example append_1 : pmeta MyNamedComplex "{ idents = [], exprs = {} }" = cplx [] ["{  }"] [].
Proof. t. Qed.
Example append_2 : pmeta MyNamedComplex "{ idents = [], exprs = {}, exprs = 123 + 4 }"
  = cplx [] ["{  }"; "123 + 4"] []. Proof. t. Qed.
Example append_3 : pmeta MyNamedComplex "{ idents = [], exprs = ! }"
  = er "unexpected end of input, expected an expression". Proof. t. Qed.
Example rest_1 : pmeta MyNamedComplex "{ idents = [], abcd = 123 + 4 }"
  = cplx [] [] [("abcd", "123 + 4")]. Proof. t. Qed.
Example rest_2 : pmeta MyNamedComplex
    "{ idents = [], abcd = 123 + 4, hello::world = { ""str"" }, exprs = 126 - 5 }"
  = cplx [] ["126 - 5"] [("abcd", "123 + 4"); ("hello::world", "{ ""str"" }")]. Proof. t. Qed.
(** meta.rs 461-461 *)
Definition MyUnnamedRest_src := "struct MyUnnamedRest(i32, #[deluxe(flatten)] ::std::vec::Vec<i32>);".
Definition MyUnnamedRest := sd (src_sdef W sx0 MyUnnamedRest_src).
Definition urest (z : Z) (l : list Z) := okS [VI z; VL (map VI l)].
Example urest_1 : pmeta MyUnnamedRest "()" = er "missing required field 0". Proof. t. Qed.
Example urest_2 : pmeta MyUnnamedRest "(1)" = urest 1 []. Proof. t. Qed.
Example urest_3 : pmeta MyUnnamedRest "(1, 2)" = urest 1 [2%Z]. Proof. t. Qed.
Example urest_4 : pmeta MyUnnamedRest "(1, 2,)" = urest 1 [2%Z]. Proof. t. Qed.
Example urest_5 : pmeta MyUnnamedRest "(1, 2, 3, 4)" = urest 1 [2; 3; 4]%Z. Proof. t. Qed.
Example urest_6 : pmeta MyUnnamedRest "(1, 2, 3, 4, ""hello"", 6)" = er "expected integer literal".
Proof. t. Qed.

(** *** meta.rs 506-663 *)
(** meta.rs 506-509 *)
Definition MyFlatNamed_src := "struct MyFlatNamed {
    j_a: i32,
    j_b: ::std::string::String,
}".
Definition MyFlatNamed := src_sdef W sx0 MyFlatNamed_src.
Definition W2 := add_struct "MyFlatNamed" VU MyFlatNamed_src W1.
(** meta.rs 518-546 *)
Definition MyEnum_src := "enum MyEnum {
    A,
    B(),
    C(i32),
    #[deluxe(transparent)]
    D(bool),
    E(::std::string::String, f64),
    F {},
    #[deluxe(transparent)]
    G {
        pass: ::syn::Path,
    },
    H {
        s: ::std::string::String,
        f: f64,
    },
    #[deluxe(flatten)]
    FlatI {
        i: ::std::string::String,
    },
    #[deluxe(flatten)]
    FlatJ {
        #[deluxe(flatten)]
        named: MyFlatNamed,
    },
    #[deluxe(skip)]
    #[allow(dead_code)]
    K,
}".
Definition MyEnum := ed (src_edef W2 ex0 MyEnum_src).
Example enum_1 : pmeta MyEnum "( a )" = er "expected curly braces". Proof. t. Qed.
Example enum_2 : pmeta MyEnum "{ a }" = okE 0 []. Proof. t. Qed.
Example enum_3 : pmeta MyEnum "{ a() }" = okE 0 []. Proof. t. Qed.
Example enum_4 : pmeta MyEnum "{ a(x = 123) }" = er "unexpected token `x`". Proof. t. Qed.
Example enum_5 : pmeta MyEnum "{ b() }" = okE 1 []. Proof. t. Qed.
Example enum_6 : pmeta MyEnum "{ b = () }" = okE 1 []. Proof. t. Qed.
Example enum_7 : pmeta MyEnum "{ b(x = 123) }" = er "unexpected token `x`". Proof. t. Qed.
Example enum_8 : pmeta MyEnum "{ c(123) }" = okE 2 [VI 123]. Proof. t. Qed.
Example enum_9 : pmeta MyEnum "{ c }" = er "unexpected flag, expected `=` or parentheses".
Proof. t. Qed.
Example enum_10 : pmeta MyEnum "{ c = 123 }" = er "expected parentheses". Proof. t. Qed.
Example enum_11 : pmeta MyEnum "{ d(true) }" = okE 3 [VB true]. Proof. t. Qed.
Example enum_12 : pmeta MyEnum "{ d = true }" = okE 3 [VB true]. Proof. t. Qed.
Example enum_13 : pmeta MyEnum "{ d }" = okE 3 [VB true]. Proof. t. Qed.
Example enum_14 : pmeta MyEnum "{ e(""hello"", 4.0) }" = okE 4 [VT "hello"; VF "4.0"]. Proof. t. Qed.
Example enum_15 : pmeta MyEnum "{ f }" = okE 5 []. Proof. t. Qed.
Example enum_16 : pmeta MyEnum "{ f() }" = okE 5 []. Proof. t. Qed.
Example enum_17 : pmeta MyEnum "{ f = {} }" = okE 5 []. Proof. t. Qed.
Example enum_18 : pmeta MyEnum "{ g(themod::theitem) }" = okE 6 [VT "themod::theitem"]. Proof. t. Qed.
Example enum_19 : pmeta MyEnum "{ g = themod::theitem }" = okE 6 [VT "themod::theitem"]. Proof. t. Qed.
Example enum_20 : pmeta MyEnum "{ h(s = ""qwerty"", f = 1.0) }" = okE 7 [VT "qwerty"; VF "1.0"].
Proof. t. Qed.
Example enum_21 : pmeta MyEnum "{ j_a = 123, j_b = ""asdf"" }" = okE 9 [VS [VI 123; VT "asdf"]].
Proof. t. Qed.
Example enum_22 : pmeta MyEnum "{ i = ""asdf"" }" = okE 8 [VT "asdf"]. Proof. t. Qed.
Example enum_23 : pmeta MyEnum "{ x() }"
  = er "unknown field `x`, expected one of `a`, `b`, `c`, `d`, `e`, `f`, `g`, `h`, `i`, fields from `FlatJ`".
Proof. t. Qed.
Example enum_24 : pmeta MyEnum "{ k }"
  = er "unknown field `k`, expected one of `a`, `b`, `c`, `d`, `e`, `f`, `g`, `h`, `i`, fields from `FlatJ`".
Proof. t. Qed.
(** meta.rs 637-641 *)
Definition MySimpleEnum_src := "enum MySimpleEnum {
    A,
    B,
    C,
}".
Definition MySimpleEnum := ed (src_edef W ex0 MySimpleEnum_src).
Example simple_1 : pmeta MySimpleEnum "{ a }" = okE 0 []. Proof. t. Qed.
Example simple_2 : pmeta MySimpleEnum "{ b }" = okE 1 []. Proof. t. Qed.
Example simple_3 : pmeta MySimpleEnum "{ c }" = okE 2 []. Proof. t. Qed.
Example simple_4 : pmeta MySimpleEnum "{ a, b }"
  = er "expected only one enum variant, got `a` and `b`". Proof. t. Qed.
Example simple_5 : pmeta MySimpleEnum "{ a, c }"
  = er "expected only one enum variant, got `a` and `c`". Proof. t. Qed.
Example simple_6 : pmeta MySimpleEnum "{ d }" = er "unknown field `d`, expected one of `a`, `b`, `c`".
Proof. t. Qed.

(** *** meta.rs 672-799 *)
(** meta.rs 672-676 *)
Definition StructWith_src := "struct StructWith {
    normal: ::std::string::String,
    #[deluxe(with = ::deluxe::with::from_str)]
    str_int: i32,
}".
Definition StructWith := sd (src_sdef W sx0 StructWith_src).
Example with_1 : pmeta StructWith "{ normal = ""abc"", str_int = ""123"" }" = okS [VT "abc"; VI 123].
Proof. t. Qed.
Example with_2 : pmeta StructWith "{ normal = ""abc"", str_int = 123 }" = er "expected string literal".
Proof. t. Qed.
(** meta.rs 704-708 *)
Definition StructWithTransparent_src := "#[deluxe(transparent(flatten_unnamed, append))]
struct StructWithTransparent {
    #[deluxe(with = custom_int_vec)]
    int_vec: ::std::vec::Vec<i32>,
}".
Definition StructWithTransparent := src_sdef W sx0 StructWithTransparent_src.
Definition W3 := add_struct "StructWithTransparent" (VS [VL []]) StructWithTransparent_src W2.
(** meta.rs 717-728 *)
Definition StructWithExtended_src := "struct StructWithExtended {
    #[deluxe(with = custom_int_option)]
    int: ::std::option::Option<i32>,
    #[deluxe(with = custom_int_vec)]
    int_vec: ::std::vec::Vec<i32>,
    #[deluxe(append, rename = int_append, with = custom_int_vec)]
    int_vec2: ::std::vec::Vec<i32>,
    #[deluxe(append, default)]
    int_vec3: StructWithTransparent,
    #[deluxe(rest, with = custom_int_map)]
    int_map: ::std::collections::HashMap<::syn::Path, i32>,
}".
Definition StructWithExtended := sd (src_sdef W3 sx0 StructWithExtended_src).
Definition swe (i : option Z) (v v2 v3 : list Z) (m : list (string * Z)) :=
  okS [VO (option_map VI i); VL (map VI v); VL (map VI v2); VS [VL (map VI v3)];
       VM (map (fun kv => (fst kv, VI (snd kv))) m)].
Example withx_1 : pmeta StructWithExtended "{ int = -4, int_vec = [""1"", ""2""] }"
  = er "expected string literal". Proof. t. Qed.
Example withx_2 : pmeta StructWithExtended "{ int_vec = [1] }" = er "expected string literal".
Proof. t. Qed.
Example withx_3 : pmeta StructWithExtended "{ int = ""-4"", int_vec = [""1"", ""2""] }"
  = swe (Some (-4)%Z) [1; 2]%Z [] [] []. Proof. t. Qed.
Example withx_4 : pmeta StructWithExtended "{ int_vec = [], int_append = ""1"", int_append = ""2"" }"
  = swe None [] [1; 2]%Z [] []. Proof. t. Qed.
Example withx_5 : pmeta StructWithExtended
    "{ int_vec = [], int_append = ""1"", unknown = ""2"", hello = ""3"" }"
  = swe None [] [1]%Z [] [("unknown", 2); ("hello", 3)]%Z. Proof. t. Qed.
Example withx_6 : pmeta StructWithExtended "{ int_vec = [], int_vec3 = ""1"", int_vec3 = ""2"" }"
  = swe None [] [] [1; 2]%Z []. Proof. t. Qed.

(** *** meta.rs 808-945 *)
(** meta.rs 808-817 *)
Definition StructNames_src := "struct StructNames {
    #[deluxe(rename = sixty_four, default)]
    renamed: u64,
    #[deluxe(alias = thirty_two, default)]
    aliased: u32,
    #[deluxe(alias = another, alias = another2, default)]
    many_aliases: u32,
    #[deluxe(rename = sixteen, alias = another_sixteen, alias = another2_sixteen, default)]
    alias_renamed: u16,
}".
Definition StructNames := src_sdef W sx0 StructNames_src.
Definition sn (a b c d : Z) := okS [VI a; VI b; VI c; VI d].
Example names_1 : pmeta (sd StructNames) "{ sixty_four = 64 }" = sn 64 0 0 0. Proof. t. Qed.
Example names_2 : pmeta (sd StructNames) "{ renamed = 64 }" = er "unknown field `renamed`". Proof. t. Qed.
Example names_3 : pmeta (sd StructNames) "{ sixty_four = 64, sixty_four = 65 }"
  = er "duplicate attribute for `sixty_four`". Proof. t. Qed.
Example names_4 : pmeta (sd StructNames) "{ sixty_four = 64, renamed = 65 }"
  = er "unknown field `renamed`". Proof. t. Qed.
Example names_5 : pmeta (sd StructNames) "{ aliased = 32 }" = sn 0 32 0 0. Proof. t. Qed.
Example names_6 : pmeta (sd StructNames) "{ thirty_two = 32 }" = sn 0 32 0 0. Proof. t. Qed.
Example names_7 : pmeta (sd StructNames) "{ aliased = 32, thirty_two = 33 }"
  = er "duplicate attribute for `aliased`". Proof. t. Qed.
Example names_8 : pmeta (sd StructNames) "{ another2 = 32 }" = sn 0 0 32 0. Proof. t. Qed.
Example names_9 : pmeta (sd StructNames) "{ many_aliases = 32, another = 33, another2 = 34 }"
  = er "duplicate attribute for `many_aliases`, duplicate attribute for `many_aliases`".
Proof. t. Qed.
Example names_10 : pmeta (sd StructNames) "{ another2_sixteen = 16 }" = sn 0 0 0 16. Proof. t. Qed.
Example names_11 : fn_names (struct_fn StructNames)
  = ["sixty_four"; "aliased"; "thirty_two"; "many_aliases"; "another"; "another2"; "sixteen";
     "another_sixteen"; "another2_sixteen"]. Proof. t. Qed.
(** meta.rs 897-906 *)
Definition EnumNames_src := "enum EnumNames {
    #[deluxe(rename = renamed_a)]
    A,
    #[deluxe(alias = alias_b)]
    B,
    #[deluxe(alias = another_c, alias = another2_c)]
    C,
    #[deluxe(rename = renamed_d, alias = another_d, alias = another2_d)]
    D,
}".
Definition EnumNames := src_edef W ex0 EnumNames_src.
Example enames_1 : pmeta (ed EnumNames) "{ renamed_a }" = okE 0 []. Proof. t. Qed.
Example enames_2 : pmeta (ed EnumNames) "{ alias_b }" = okE 1 []. Proof. t. Qed.
Example enames_3 : pmeta (ed EnumNames) "{ another2_c }" = okE 2 []. Proof. t. Qed.
Example enames_4 : pmeta (ed EnumNames) "{ another_d }" = okE 3 []. Proof. t. Qed.
Example enames_5 : pmeta (ed EnumNames) "{ a }"
  = er "unknown field `a`, expected one of `renamed_a`, `b`, `c`, `renamed_d`". Proof. t. Qed.
Example enames_6 : pmeta (ed EnumNames) "{ d }"
  = er "unknown field `d`, expected one of `renamed_a`, `b`, `c`, `renamed_d`". Proof. t. Qed.
Example enames_7 : fn_names (enum_fn EnumNames)
  = ["renamed_a"; "b"; "alias_b"; "c"; "another_c"; "another2_c"; "renamed_d"; "another_d";
     "another2_d"]. Proof. t. Qed.

(** *** meta.rs 956-1169 *)
(** meta.rs 955-960 *)
Definition StructDefault_src := "#[deluxe(default)]
struct StructDefault {
    value0: i32,
    #[deluxe(default = 1)]
    value1: i32,
}".
Definition StructDefault := sd (src_sdef W (mkSexprs [VI 0; VI 0] [] []) StructDefault_src).
Example sdef_1 : pmeta StructDefault "{ }" = okS [VI 0; VI 1]. Proof. t. Qed.
Example sdef_2 : pmeta StructDefault "{ value0 = -1, value1 = 2 }" = okS [VI (-1); VI 2]. Proof. t. Qed.
(** meta.rs 990-994 *)
Definition StructDefaultExpr_src := "#[deluxe(default = Self { value1: 1, value2: 2 })]
struct StructDefaultExpr {
    value1: i32,
    value2: i32,
}".
Definition StructDefaultExpr := sd (src_sdef W (mkSexprs [] [("Self { value1: 1, value2: 2 }", [VI 1; VI 2])] []) StructDefaultExpr_src).
Example sdefx_1 : pmeta StructDefaultExpr "{ }" = okS [VI 1; VI 2]. Proof. t. Qed.
Example sdefx_2 : pmeta StructDefaultExpr "{ value1 = 11 }" = okS [VI 11; VI 2]. Proof. t. Qed.
Example sdefx_3 : pmeta StructDefaultExpr "{ value2 = 22 }" = okS [VI 1; VI 22]. Proof. t. Qed.
Example sdefx_4 : pmeta StructDefaultExpr "{ value1 = 11, value2 = 22 }" = okS [VI 11; VI 22].
Proof. t. Qed.
(** meta.rs 1038-1038 *)
Definition StructDefaultTuple_src := "struct StructDefaultTuple(i32, #[deluxe(default)] i32);".
Definition StructDefaultTuple := sd (src_sdef W sx0 StructDefaultTuple_src).
Example sdeft_1 : pmeta StructDefaultTuple "" = er "unexpected end of input, expected parentheses".
Proof. t. Qed.
Example sdeft_2 : pmeta StructDefaultTuple "()" = er "missing required field 0". Proof. t. Qed.
Example sdeft_3 : pmeta StructDefaultTuple "(1)" = okS [VI 1; VI 0]. Proof. t. Qed.
Example sdeft_4 : pmeta StructDefaultTuple "(1, 2)" = okS [VI 1; VI 2]. Proof. t. Qed.
Example sdeft_5 : pmeta StructDefaultTuple "(1, 2, 3)" = er "unexpected token `3`". Proof. t. Qed.
(** meta.rs 1067-1068 *)
Definition StructDefaultTupleExpr_src := "#[deluxe(default = Self(1, 2))]
struct StructDefaultTupleExpr(i32, i32);".
Definition StructDefaultTupleExpr := sd (src_sdef W (mkSexprs [] [("Self(1, 2)", [VI 1; VI 2])] []) StructDefaultTupleExpr_src).
Example sdefte_1 : pmeta StructDefaultTupleExpr "()" = okS [VI 1; VI 2]. Proof. t. Qed.
Example sdefte_2 : pmeta StructDefaultTupleExpr "(3)" = okS [VI 3; VI 2]. Proof. t. Qed.
Example sdefte_3 : pmeta StructDefaultTupleExpr "(3,)" = okS [VI 3; VI 2]. Proof. t. Qed.
Example sdefte_4 : pmeta StructDefaultTupleExpr "(3, 4)" = okS [VI 3; VI 4]. Proof. t. Qed.
Example sdefte_5 : pmeta StructDefaultTupleExpr "(3, 4,)" = okS [VI 3; VI 4]. Proof. t. Qed.
Example sdefte_6 : pmeta StructDefaultTupleExpr "(3, 4,,)" = er "unexpected token `,`". Proof. t. Qed.
(** meta.rs 1093-1101 *)
Definition FieldDefaults_src := "struct FieldDefaults {
    #[deluxe(default = MyNewtype(::std::string::String::new()))]
    name: MyNewtype,
    #[deluxe(default)]
    value0: i32,
    #[deluxe(default = 1)]
    value1: i32,
    value: i32,
}".
Definition FieldDefaults := sd (src_sdef W1 sx0 FieldDefaults_src).
Example fdef_1 : pmeta FieldDefaults "{ }" = er "missing required field `value`". Proof. t. Qed.
Example fdef_2 : pmeta FieldDefaults "{ value = 123 }" = okS [VS [VT ""]; VI 0; VI 1; VI 123].
Proof. t. Qed.
(** meta.rs 1130-1136 *)
Definition EnumDefault_src := "#[deluxe(default)]
enum EnumDefault {
    #[default]
    A,
    B,
    C(#[deluxe(default)] i32),
}".
Definition EnumDefault := ed (src_edef W ex0 EnumDefault_src).
(** meta.rs 1145-1150 *)
Definition EnumDefaultExpr_src := "#[deluxe(default = Self::A)]
enum EnumDefaultExpr {
    A,
    B,
    C,
}".
Definition EnumDefaultExpr :=
  ed (src_edef W (mkEexprs (2, []) [("Self::A", (0, []))] []) EnumDefaultExpr_src).
Example edefx_1 : pmeta EnumDefaultExpr "{ }" = okE 0 []. Proof. t. Qed.
Example edefx_2 : pmeta EnumDefaultExpr "{ b }" = okE 1 []. Proof. t. Qed.
(** meta.rs 1180-1181 *)
Definition RenamedCrate_src := "#[deluxe(crate = renamed_deluxe)]
struct RenamedCrate(i32);".
Definition RenamedCrate := sd (src_sdef W sx0 RenamedCrate_src).
Example crate_1 : pmeta RenamedCrate "(1)" = okS [VI 1]. Proof. t. Qed.
Example edef_1 : pmeta EnumDefault "{ }" = okE 0 []. Proof. t. Qed.
Example edef_2 : pmeta EnumDefault "{ c }" = okE 2 [VI 0]. Proof. t. Qed.
Example edef_3 : pmeta EnumDefault "{ c() }" = okE 2 [VI 0]. Proof. t. Qed.
Example edef_4 : pmeta EnumDefault "{ c = () }" = okE 2 [VI 0]. Proof. t. Qed.
Example edef_5 : pmeta EnumDefault "{ c(1) }" = okE 2 [VI 1]. Proof. t. Qed.
Example edef_6 : pmeta EnumDefault "{ c(1,) }" = okE 2 [VI 1]. Proof. t. Qed.
Example edef_7 : pmeta EnumDefault "{ c = (,) }" = er "expected integer literal". Proof. t. Qed.

(** *** meta.rs 1196-1299 *)
(** meta.rs 1196-1199 *)
Definition StructAllowUnknown_src := "#[deluxe(allow_unknown_fields)]
struct StructAllowUnknown {
    value: i32,
}".
Definition StructAllowUnknown := src_sdef W sx0 StructAllowUnknown_src.
Definition W4 := add_struct "StructAllowUnknown" VU StructAllowUnknown_src W1.
Example allow_1 : pmeta (sd StructAllowUnknown) "{ value = 10 }" = okS [VI 10]. Proof. t. Qed.
Example allow_2 : pmeta (sd StructAllowUnknown) "{ value = 10, another = ""hello"" }" = okS [VI 10].
Proof. t. Qed.
Example allow_3 : pmeta (sd StructAllowUnknown)
    "{ value = 10, complex = ::c::X + 123 + (Z(Y) % { x[0].a }), another = ""hello"" }" = okS [VI 10].
Proof. t. Qed.
(** meta.rs 1228-1244 *)
Definition EnumAllow_src := "enum EnumAllow {
    Known {
        value: i32,
    },
    #[deluxe(allow_unknown_fields)]
    Unknown {
        value: i32,
    },
    FlattenedKnown {
        #[deluxe(flatten)]
        s: MyNamed,
    },
    FlattenedUnknown {
        #[deluxe(flatten)]
        s: StructAllowUnknown,
    },
}".
Definition EnumAllow := ed (src_edef W4 ex0 EnumAllow_src).
Example eallow_1 : pmeta EnumAllow "{ known(value(50)) }" = okE 0 [VI 50]. Proof. t. Qed.
Example eallow_2 : pmeta EnumAllow "{ known(value(50)), unknown(value(51)) }"
  = er "expected only one enum variant, got `known` and `unknown`". Proof. t. Qed.
Example eallow_3 : pmeta EnumAllow "{ known(value(50), another(""thing"")) }"
  = er "unknown field `another`". Proof. t. Qed.
Example eallow_4 : pmeta EnumAllow "{ known(value(50), another(""thing"")), unknown(value(""50"")) }"
  = er "unknown field `another`, expected only one enum variant, got `known` and `unknown`, expected integer literal".
Proof. t. Qed.
Example eallow_5 : pmeta EnumAllow "{ unknown(value(50)) }" = okE 1 [VI 50]. Proof. t. Qed.
Example eallow_6 : pmeta EnumAllow "{ unknown(value(50), another(""thing"")) }" = okE 1 [VI 50].
Proof. t. Qed.
Example eallow_7 : pmeta EnumAllow "{ flattened_known(a(50), b(""thing"")) }"
  = okE 2 [VS [VI 50; VT "thing"]]. Proof. t. Qed.
Example eallow_8 : pmeta EnumAllow "{ flattened_known(a(50), b(""thing""), another(""two"")) }"
  = er "unknown field `another`". Proof. t. Qed.
Example eallow_9 : pmeta EnumAllow "{ flattened_unknown(value(60)) }" = okE 3 [VS [VI 60]].
Proof. t. Qed.
Example eallow_10 : pmeta EnumAllow "{ flattened_unknown(value(60), another(""thing"")) }"
  = okE 3 [VS [VI 60]]. Proof. t. Qed.

(** *** meta.rs 1308-1546 *)
(** meta.rs 1308-1309 *)
Definition MyTransparentUnnamedStruct_src := "#[deluxe(transparent(flatten_named))]
struct MyTransparentUnnamedStruct(MyNamed);".
(** meta.rs 1318-1321 *)
Definition MyTransparentNamedStruct_src := "#[deluxe(transparent(flatten_named))]
struct MyTransparentNamedStruct {
    named: MyNamed,
}".
(** meta.rs 1330-1331 *)
Definition MyTransparentUnnamedVec_src := "#[deluxe(transparent(flatten_unnamed, append))]
struct MyTransparentUnnamedVec(::std::vec::Vec<i32>);".
(** meta.rs 1340-1343 *)
Definition MyTransparentNamedVec_src := "#[deluxe(transparent(flatten_unnamed, append))]
struct MyTransparentNamedVec {
    nums: ::std::vec::Vec<i32>,
}".
(** meta.rs 1352-1353 *)
Definition MyTransparentUnnamedMap_src := "#[deluxe(transparent(rest))]
struct MyTransparentUnnamedMap(::std::collections::HashMap<::syn::Path, i32>);".
(** meta.rs 1362-1365 *)
Definition MyTransparentNamedMap_src := "#[deluxe(transparent(rest))]
struct MyTransparentNamedMap {
    nums: ::std::collections::HashMap<::syn::Path, i32>,
}".
Definition W5 :=
  add_struct "MyTransparentUnnamedStruct" VU MyTransparentUnnamedStruct_src (
  add_struct "MyTransparentNamedStruct" VU MyTransparentNamedStruct_src (
  add_struct "MyTransparentUnnamedVec" VU MyTransparentUnnamedVec_src (
  add_struct "MyTransparentNamedVec" VU MyTransparentNamedVec_src (
  add_struct "MyTransparentUnnamedMap" VU MyTransparentUnnamedMap_src (
  add_struct "MyTransparentNamedMap" VU MyTransparentNamedMap_src (
  W1)))))).
(** meta.rs 1374-1401 *)
Definition TransparentHolder_src := "enum TransparentHolder {
    A {
        #[deluxe(flatten)]
        s: MyTransparentUnnamedStruct,
    },
    B {
        #[deluxe(flatten)]
        s: MyTransparentNamedStruct,
    },
    C(#[deluxe(flatten)] MyTransparentUnnamedVec),
    D(#[deluxe(flatten)] MyTransparentNamedVec),
    E {
        #[deluxe(append)]
        v: MyTransparentUnnamedVec,
    },
    F {
        #[deluxe(append)]
        v: MyTransparentNamedVec,
    },
    G {
        #[deluxe(rest)]
        r: MyTransparentUnnamedMap,
    },
    H {
        #[deluxe(rest)]
        r: MyTransparentNamedMap,
    },
}".
Definition TransparentHolder := ed (src_edef W5 ex0 TransparentHolder_src).
Definition l123 := [VS [VL [VI 1; VI 2; VI 3]]].
Definition m123 := [VS [VM [("a", VI 1); ("b", VI 2); ("c", VI 3)]]].
Example tr_1 : pmeta TransparentHolder "{ a(a(4), b(""hello"")) }" = okE 0 [VS [VS [VI 4; VT "hello"]]].
Proof. t. Qed.
Example tr_2 : pmeta TransparentHolder "{ b(a(4), b(""hello"")) }" = okE 1 [VS [VS [VI 4; VT "hello"]]].
Proof. t. Qed.
Example tr_3 : pmeta TransparentHolder "{ c }" = okE 2 [VS [VL []]]. Proof. t. Qed.
Example tr_4 : pmeta TransparentHolder "{ c() }" = okE 2 [VS [VL []]]. Proof. t. Qed.
Example tr_5 : pmeta TransparentHolder "{ c(1, 2, 3) }" = okE 2 l123. Proof. t. Qed.
Example tr_6 : pmeta TransparentHolder "{ d }" = okE 3 [VS [VL []]]. Proof. t. Qed.
Example tr_7 : pmeta TransparentHolder "{ d() }" = okE 3 [VS [VL []]]. Proof. t. Qed.
Example tr_8 : pmeta TransparentHolder "{ d(1, 2, 3) }" = okE 3 l123. Proof. t. Qed.
Example tr_9 : pmeta TransparentHolder "{ e(v(1), v(2), v(3)) }" = okE 4 l123. Proof. t. Qed.
Example tr_10 : pmeta TransparentHolder "{ f(v(1), v(2), v(3)) }" = okE 5 l123. Proof. t. Qed.
Example tr_11 : pmeta TransparentHolder "{ g(a(1), b(2), c(3)) }" = okE 6 m123. Proof. t. Qed.
Example tr_12 : pmeta TransparentHolder "{ h(a(1), b(2), c(3)) }" = okE 7 m123. Proof. t. Qed.
(** 1495-1521: a hand-written append impl *)
(** meta.rs 1530-1534 *)
Definition CustomAppend_src := "struct CustomAppend {
    first: i32,
    #[deluxe(append)]
    sum: CustomAppendSum,
}".
Example sum_1 : pmeta (sd (src_sdef W sx0 CustomAppend_src))
    "{ first = 50, sum = 2, sum = 3 }" = okS [VI 50; VI 5]. Proof. t. Qed.

(** *** meta.rs 1555-1672 *)
(** meta.rs 1555-1560 *)
Definition MyOptionalNamed_src := "struct MyOptionalNamed {
    #[deluxe(default)]
    a: i32,
    #[deluxe(default)]
    b: ::std::string::String,
}".
Definition MyOptionalNamed := src_sdef W sx0 MyOptionalNamed_src.
Definition W6 := add_struct "MyOptionalNamed" VU MyOptionalNamed_src W1.
(** meta.rs 1569-1573 *)
Definition PositionalAndNamed_src := "struct PositionalAndNamed(
    #[deluxe(default)] i32,
    #[deluxe(default)] i32,
    #[deluxe(flatten)] MyOptionalNamed,
);".
Definition PositionalAndNamed := src_sdef W6 sx0 PositionalAndNamed_src.
Definition W7 := add_struct "PositionalAndNamed" VU PositionalAndNamed_src W6.
(** meta.rs 1582-1587 *)
Definition NestedPositionalAndNamed_src := "struct NestedPositionalAndNamed(
    i32,
    #[deluxe(flatten)] MyUnnamed,
    #[deluxe(default)] i32,
    #[deluxe(flatten)] PositionalAndNamed,
);".
Definition NestedPositionalAndNamed := src_sdef W7 sx0 NestedPositionalAndNamed_src.
Definition on (a : Z) (b : string) := VS [VI a; VT b].
Example pn_1 : pmeta (sd PositionalAndNamed) "(1)" = okS [VI 1; VI 0; on 0 ""]. Proof. t. Qed.
Example pn_2 : pmeta (sd PositionalAndNamed) "(1, 2)" = okS [VI 1; VI 2; on 0 ""]. Proof. t. Qed.
Example pn_3 : pmeta (sd PositionalAndNamed) "(1, 2, b = ""4"" )" = okS [VI 1; VI 2; on 0 "4"].
Proof. t. Qed.
Example pn_4 : pmeta (sd PositionalAndNamed) "(1, 2, a = 3, b = ""4"" )" = okS [VI 1; VI 2; on 3 "4"].
Proof. t. Qed.
Example pn_5 : pmeta (sd PositionalAndNamed) "(1, 2, b = ""4"", a = 3 )" = okS [VI 1; VI 2; on 3 "4"].
Proof. t. Qed.
Example npn_1 : pmeta (sd NestedPositionalAndNamed) "(1, 2, ""3"")"
  = okS [VI 1; VS [VI 2; VT "3"]; VI 0; VS [VI 0; VI 0; on 0 ""]]. Proof. t. Qed.
Example npn_2 : pmeta (sd NestedPositionalAndNamed) "(1, 2, ""3"", 4, 5)"
  = okS [VI 1; VS [VI 2; VT "3"]; VI 4; VS [VI 5; VI 0; on 0 ""]]. Proof. t. Qed.
Example npn_3 : pmeta (sd NestedPositionalAndNamed) "(1, 2, ""3"", 4, 5, 6, a = 7, b = ""8"" )"
  = okS [VI 1; VS [VI 2; VT "3"]; VI 4; VS [VI 5; VI 6; on 7 "8"]]. Proof. t. Qed.

(** *** meta.rs 1682-1788 *)
(** meta.rs 1682-1687 *)
Definition KwEnum_src := "enum KwEnum {
    #[default]
    A,
    B,
    Const,
}".
Definition KwEnum := src_edef W ex0 KwEnum_src.
Definition W8 := add_enum "KwEnum" KwEnum_src W.
(** meta.rs 1696-1699 *)
Definition FlattenedEnum_src := "struct FlattenedEnum {
    #[deluxe(flatten)]
    kw: KwEnum,
}".
Definition FlattenedEnum := sd (src_sdef W8 sx0 FlattenedEnum_src).
Example fe_1 : pmeta FlattenedEnum "{ a }" = okS [VE 0 []]. Proof. t. Qed.
Example fe_2 : pmeta FlattenedEnum "{ b }" = okS [VE 1 []]. Proof. t. Qed.
Example fe_3 : pmeta FlattenedEnum "{ const }" = okS [VE 2 []]. Proof. t. Qed.
Example fe_4 : pmeta FlattenedEnum "{}" = er "expected one of `a`, `b`, `const`". Proof. t. Qed.
(** meta.rs 1731-1735 *)
Definition FlagStruct_src := "struct FlagStruct {
    myflag: ::deluxe::Flag,
    #[deluxe(default)]
    value: i32,
}".
Definition FlagStruct := sd (src_sdef W sx0 FlagStruct_src).
(** meta.rs 1744-1745 *)
Definition FlagTupleStruct_src := "struct FlagTupleStruct(::deluxe::Flag);".
Definition FlagTupleStruct := sd (src_sdef W sx0 FlagTupleStruct_src).
Example flag_1 : pmeta FlagStruct "{ myflag }" = okS [VB true; VI 0]. Proof. t. Qed.
Example flag_2 : pmeta FlagStruct "{}" = okS [VB false; VI 0]. Proof. t. Qed.
Example flag_3 : pmeta FlagStruct "{ myflag, value = 123 }" = okS [VB true; VI 123]. Proof. t. Qed.
Example flag_4 : pmeta FlagStruct "{ myflag = true }" = er "unexpected token". Proof. t. Qed.
Example flag_5 : pmeta FlagStruct "{ myflag(true) }" = er "unexpected token". Proof. t. Qed.
Example flag_6 : pmeta FlagTupleStruct "(myflag)"
  = er "field with type `Flag` can only be a named field with no value". Proof. t. Qed.

(** *** meta.rs 1797-2044 *)
Definition ab (l : list val) : Z :=
  match l with [VI a; VI b] => (a + b)%Z | _ => 0%Z end.
Definition vmin {A} (f : A -> Z) (x : A) : A + synerr :=
  if (f x <=? -10)%Z then inr (err1 SCall "sum of a and b must be above -10") else inl x.
Definition vmax {A} (f : A -> Z) (x : A) : A + synerr :=
  if (10 <=? f x)%Z then inr (err1 SCall "sum of a and b must be below 10") else inl x.
(** meta.rs 1797-1801 *)
Definition AndThens_src := "#[deluxe(and_then = Self::validate_min, and_then = Self::validate_max)]
struct AndThens {
    a: ::deluxe::SpannedValue<i32>,
    b: i32,
}".
Definition AndThens := sd (src_sdef W (mkSexprs [] [] [("Self::validate_min", vmin ab); ("Self::validate_max", vmax ab)]) AndThens_src).
Example at_1 : pmeta AndThens "{ a = 5, b = 4 }" = okS [VI 5; VI 4]. Proof. t. Qed.
Example at_2 : pmeta AndThens "{ a = -5, b = -6 }" = er "sum of a and b must be above -10".
Proof. t. Qed.
Example at_3 : pmeta AndThens "{ a = 5, b = 6 }" = er "sum of a and b must be below 10".
Proof. t. Qed.
(** meta.rs 1833-1840 *)
Definition AndThensEnum_src := "#[deluxe(and_then = Self::validate_min, and_then = Self::validate_max)]
enum AndThensEnum {
    Values {
        a: ::deluxe::SpannedValue<i32>,
        b: i32,
    },
    Empty,
}".
Definition AndThensEnum := ed (src_edef W (mkEexprs (1, []) []
    [("Self::validate_min", vmin (fun x => ab (snd x))); ("Self::validate_max", vmax (fun x => ab (snd x)))]) AndThensEnum_src).
Example ate_1 : pmeta AndThensEnum "{ empty }" = okE 1 []. Proof. t. Qed.
Example ate_2 : pmeta AndThensEnum "{ values(a = 5, b = 4) }" = okE 0 [VI 5; VI 4]. Proof. t. Qed.
Example ate_3 : pmeta AndThensEnum "{ values(a = -5, b = -6) }"
  = er "sum of a and b must be above -10". Proof. t. Qed.
Example ate_4 : pmeta AndThensEnum "{ values(a = 5, b = 6) }"
  = er "sum of a and b must be below 10". Proof. t. Qed.
Definition pres (v : val) : bool := match v with VO (Some _) => true | _ => false end.
Definition fits (msg : string) (v : val) : val + synerr :=
  match v with
  | VI z => if (z <=? 65535)%Z then inl v else inr (err1 SCall msg)
  | _ => inl v
  end.
(** the parsed types are the argument types of the first closures *)
Definition W9 : world :=
  mkWorld ([("ident: ::std::string::String", rt ident_ VU);
            ("prefixed_ident: ::std::string::String", rt ident_ VU);
            ("my_int: u16", rt u32 VU); ("is_one: bool", rt u32 VU)] ++ wo_types W) [] []
    [("|x: ::syn::Ident| ::std::string::ToString::to_string(&x)", fun v => v);
     ("|s| ::std::format!(""prefix_{s}"")", fun v => match v with VT s => VT ("prefix_" ++ s) | _ => v end);
     ("|u| u == 1", fun v => match v with VI z => VB (z =? 1)%Z | _ => v end)]
    [("|u: u32| <u16 as ::std::convert::TryFrom<_>>::try_from(u).map_err(|_| ::syn::Error::new(::proc_macro2::Span::call_site(), ""my_int too big""))", fits "my_int too big"); ("|u: u32| <u16 as ::std::convert::TryFrom<_>>::try_from(u).map_err(|_| ::syn::Error::new(::proc_macro2::Span::call_site(), ""is_one too big""))", fits "is_one too big")].
(** meta.rs 1995-2008 *)
Definition FieldTransforms_src := "struct FieldTransforms {
    #[deluxe(map = |x: ::syn::Ident| ::std::string::ToString::to_string(&x))]
    ident: ::std::string::String,
    #[deluxe(map = |x: ::syn::Ident| ::std::string::ToString::to_string(&x))]
    #[deluxe(map = |s| ::std::format!(""prefix_{s}""))]
    prefixed_ident: ::std::string::String,
    #[deluxe(and_then = |u: u32| <u16 as ::std::convert::TryFrom<_>>::try_from(u)
            .map_err(|_| ::syn::Error::new(::proc_macro2::Span::call_site(), ""my_int too big"")))]
    my_int: u16,
    #[deluxe(and_then = |u: u32| <u16 as ::std::convert::TryFrom<_>>::try_from(u)
            .map_err(|_| ::syn::Error::new(::proc_macro2::Span::call_site(), ""is_one too big"")))]
    #[deluxe(map = |u| u == 1)]
    is_one: bool,
}".
Definition FieldTransforms := sd (src_sdef W9 sx0 FieldTransforms_src).
(** meta.rs 2053-2056 *)
Definition RawIdentKeys_src := "struct RawIdentKeys {
    r#struct: ::syn::Type,
    r#trait: ::syn::Type,
}".
Definition RawIdentKeys := sd (src_sdef W sx0 RawIdentKeys_src).
Example raw_1 : pmeta RawIdentKeys "{ struct = A, trait = B }" = okS [VX "A"; VX "B"]. Proof. t. Qed.
(** meta.rs 2073-2076 *)
Definition NoDebugInner_src := "struct NoDebugInner {
    _a: i32,
    _b: ::std::string::String,
}".
(** meta.rs 2079-2083 *)
Definition NoDebug_src := "struct NoDebug {
    _a: i32,
    _b: ::std::string::String,
    _c: NoDebugInner,
}".
(** meta.rs 2086-2089 *)
Definition NoDebugEnum_src := "enum NoDebugEnum {
    _A(NoDebug),
    _B(NoDebugInner),
}".
Definition W10 := add_struct "NoDebug" VU NoDebug_src (add_struct "NoDebugInner" VU NoDebugInner_src W).
Definition NoDebugEnum := ed (src_edef W10 ex0 NoDebugEnum_src).
Example nodebug_1 : pmeta NoDebugEnum "{ b({ _a = 1, _b = ""x"" }) }" = okE 1 [VS [VI 1; VT "x"]]. Proof. t. Qed.
Example ft_1 : pmeta FieldTransforms
    "{ ident = hello, prefixed_ident = world, my_int = 200, is_one = 1, }"
  = okS [VT "hello"; VT "prefix_world"; VI 200; VB true]. Proof. t. Qed.
Example ft_2 : pmeta FieldTransforms
    "{ ident = goodbye, prefixed_ident = moon, my_int = 300, is_one = 123, }"
  = okS [VT "goodbye"; VT "prefix_moon"; VI 300; VB false]. Proof. t. Qed.
Example ft_3 : pmeta FieldTransforms
    "{ ident = hello, prefixed_ident = world, my_int = 100000, is_one = 1, }"
  = er "my_int too big". Proof. t. Qed.
Example ft_4 : pmeta FieldTransforms
    "{ ident = hello, prefixed_ident = world, my_int = 200000, is_one = 100000, }"
  = er "my_int too big, is_one too big". Proof. t. Qed.
(** 1860-1955: only_one / all_or_none run as and_then *)
Definition present_at (v : val) : option span := if pres v then Some SCall else None.
Definition oo (f : list (string * option span) -> string -> errors -> errors)
           (l : list val) : list val + synerr :=
  match f (combine ["a"; "b"] (map present_at l)) "" [] with
  | [] => inl l
  | e :: es => inr (mkSyn e es)
  end.
(** meta.rs 1875-1879 *)
Definition OnlyOne_src := "#[deluxe(and_then = Self::validate)]
struct OnlyOne {
    a: ::std::option::Option<::std::string::String>,
    b: ::std::option::Option<::std::string::String>,
}".
(** meta.rs 1898-1902 *)
Definition AllOrNone_src := "#[deluxe(and_then = Self::validate)]
struct AllOrNone {
    a: ::std::option::Option<::std::string::String>,
    b: ::std::option::Option<::std::string::String>,
}".
Definition OnlyOne := sd (src_sdef W (mkSexprs [] [] [("Self::validate", oo only_one)]) OnlyOne_src).
Definition AllOrNone := sd (src_sdef W (mkSexprs [] [] [("Self::validate", oo all_or_none)]) AllOrNone_src).
Example oo_1 : pmeta OnlyOne "{ }" = okS [VO None; VO None]. Proof. t. Qed.
Example oo_2 : pmeta OnlyOne "{ a(""a"") }" = okS [VO (Some (VT "a")); VO None]. Proof. t. Qed.
Example oo_3 : pmeta OnlyOne "{ a(""a""), b(""b"") }"
  = er "only one of `a`, `b` is allowed, only one of `a`, `b` is allowed". Proof. t. Qed.
Example aon_1 : pmeta AllOrNone "{ a(""a""), b(""b"") }"
  = okS [VO (Some (VT "a")); VO (Some (VT "b"))]. Proof. t. Qed.
Example aon_2 : pmeta AllOrNone "{ a(""a"") }"
  = er "`b` must also be set in order to use `a`". Proof. t. Qed.
Example aon_3 : pmeta AllOrNone "{ b(""b"") }"
  = er "`a` must also be set in order to use `b`". Proof. t. Qed.

(** *** attributes.rs *)
(** attributes.rs 10-11 *)
Definition SingleAttribute_src := "#[deluxe(attributes(single))]
struct SingleAttribute(char);".
Definition SingleAttribute := src_adef W sx0 SingleAttribute_src.
Example single_1 : pattrs SingleAttribute [al ["single"] "'a'"] = okA [VC 97]. Proof. t. Qed.
Example single_2 : pattrs SingleAttribute [] = erA "missing required field 0 on #[single]". Proof. t. Qed.
Example single_3 : pattrs SingleAttribute [ap ["single"]] = erA "missing required field 0 on #[single]".
Proof. t. Qed.
(** attributes.rs 14-17 *)
Definition SingleAttributeNamed_src := "#[deluxe(attributes(single))]
struct SingleAttributeNamed {
    c: char,
}".
Definition SingleAttributeNamed := src_adef W sx0 SingleAttributeNamed_src.
Example single_6 : pattrs SingleAttributeNamed [al ["single"] "c = 'a'"] = okA [VC 97]. Proof. t. Qed.
Example single_4 : pattrs SingleAttributeNamed [] = erA "missing required field #[single(c)]".
Proof. t. Qed.
Example single_5 : pattrs SingleAttributeNamed [ap ["single"]] = erA "missing required field #[single(c)]".
Proof. t. Qed.
(** attributes.rs 20-21 *)
Definition MultiAttributes_src := "#[deluxe(attributes(multi1, multi2))]
struct MultiAttributes(char);".
Definition MultiAttributes := src_adef W sx0 MultiAttributes_src.
Example multi_1 : pattrs MultiAttributes [al ["multi1"] "'a'"] = okA [VC 97]. Proof. t. Qed.
Example multi_2 : pattrs MultiAttributes [al ["multi2"] "'b'"] = okA [VC 98]. Proof. t. Qed.
Example multi_3 : pattrs MultiAttributes [] = erA "missing required field 0 on #[multi1]". Proof. t. Qed.
Example multi_4 : pattrs MultiAttributes [al ["multi1"] ""] = erA "missing required field 0 on #[multi1]".
Proof. t. Qed.
Example multi_5 : pattrs MultiAttributes [al ["multi3"] "'c'"] = erA "missing required field 0 on #[multi1]".
Proof. t. Qed.
Example multi_6 : pattrs MultiAttributes [al ["multi2"] ""] = erA "missing required field 0 on #[multi2]".
Proof. t. Qed.
Example multi_7 : pattrs MultiAttributes [ap ["multi2"]] = erA "missing required field 0 on #[multi2]".
Proof. t. Qed.
Example multi_8 : pattrs MultiAttributes [al ["multi2"] "'c'"; al ["multi2"] "'d'"]
  = erA "unexpected token". Proof. t. Qed.
Definition many_attrs := [al ["many"] "1"; al ["many"] "2, 3"; al ["many"] "4, 5, 6"].
(** attributes.rs 109-110 *)
Definition Many_src := "#[deluxe(attributes(many))]
struct Many(i32, i32, i32, i32, i32, i32);".
Definition Many := src_adef W sx0 Many_src.
Example many_1 : pattrs Many many_attrs = okA [VI 1; VI 2; VI 3; VI 4; VI 5; VI 6]. Proof. t. Qed.
(** attributes.rs 113-114 *)
Definition ManyVec_src := "#[deluxe(attributes(many), transparent)]
struct ManyVec(::std::vec::Vec<i32>);".
Definition ManyVec := src_adef W sx0 ManyVec_src.
Example many_2 : pattrs ManyVec many_attrs
  = okA [VL [VI 1; VI 2; VI 3; VI 4; VI 5; VI 6]]. Proof. t. Qed.
(** attributes.rs 130-135 *)
Definition CloneContainer_src := "#[deluxe(attributes(container::clone))]
struct CloneContainer {
    #[deluxe(container)]
    container: ::syn::Expr,
    int: i32,
}".
Definition Containers := src_adef W sx0 CloneContainer_src.
Definition cont_attrs := [al ["container"; "ignored"] "int = 4"; al ["container"; "clone"] "int = 2"].
Example cont_1 : pattrs Containers cont_attrs = okA [VX "2"; VI 2]. Proof. t. Qed.
Example cont_2 : (let '(r, o) := struct_extract_attributes Containers cv (ONode cont_attrs) in
                  (out r, map a_path (attrs o)))
  = (okA [VX "1"; VI 2], [mkp ["container"; "ignored"]]). Proof. t. Qed.
(** attributes.rs 293-318 *)
Definition ContainerEnum_src := "#[deluxe(attributes(container::an_enum))]
enum ContainerEnum {
    A(#[deluxe(container)] ::syn::Expr, #[deluxe(skip)] i32, i32),
    B {
        #[deluxe(container)]
        container: ::syn::Expr,
        #[deluxe(skip)]
        skipped: i32,
        value: i32,
    },
    #[deluxe(flatten)]
    C {
        #[deluxe(container)]
        container: ::syn::Expr,
        #[deluxe(skip)]
        skipped: i32,
        c: i32,
    },
    #[deluxe(flatten)]
    D {
        #[deluxe(container)]
        container: ::syn::Expr,
        #[deluxe(skip)]
        skipped: i32,
    },
}".
Definition ContainerEnum := src_aedef W ex0 ContainerEnum_src.
Definition pe (txt : string) :=
  out (enum_parse_attributes ContainerEnum cv (ONode [al ["container"; "an_enum"] txt])).
Definition okAE (i : nat) (l : list val) : nat * list val + string := inl (i, l).
Example conte_1 : pe "a(500)" = okAE 0 [VX "1"; VI 0; VI 500]. Proof. t. Qed.
Example conte_2 : pe "b(value = 501)" = okAE 1 [VX "1"; VI 0; VI 501]. Proof. t. Qed.
Example conte_3 : pe "c = 502" = okAE 2 [VX "1"; VI 0; VI 502]. Proof. t. Qed.
Example conte_4 : pe "" = okAE 3 [VX "1"; VI 0]. Proof. t. Qed.
(** attributes.rs 157-290, 361-405: the container's type is of no concern to the parser *)
(** attributes.rs 158-163 *)
Definition RefContainer_src := "#[deluxe(attributes(container::r#ref))]
struct RefContainer<'e> {
    #[deluxe(container)]
    container: &'e ::syn::Expr,
    int: i32,
}".
Example RefContainer_1 : pattrs (src_adef W sx0 RefContainer_src) [al ["container"; "r#ref"] "int = 3"] = okA [VX "1"; VI 3].
Proof. t. Qed.
(** attributes.rs 174-179 *)
Definition CloneGenericContainer_src := "#[deluxe(attributes(container::clone_generic))]
struct CloneGenericContainer<T> {
    #[deluxe(container)]
    container: T,
    int: i32,
}".
Example CloneGenericContainer_1 : pattrs (src_adef W sx0 CloneGenericContainer_src) [al ["container"; "clone_generic"] "int = 4"] = okA [VX "1"; VI 4].
Proof. t. Qed.
(** attributes.rs 194-199 *)
Definition RefGenericContainer_src := "#[deluxe(attributes(container::ref_generic))]
struct RefGenericContainer<'t, T> {
    #[deluxe(container)]
    container: &'t T,
    int: i32,
}".
Example RefGenericContainer_1 : pattrs (src_adef W sx0 RefGenericContainer_src) [al ["container"; "ref_generic"] "int = 5"] = okA [VX "1"; VI 5].
Proof. t. Qed.
(** attributes.rs 216-221 *)
Definition CloneOptionContainer_src := "#[deluxe(attributes(container::clone_option))]
struct CloneOptionContainer {
    #[deluxe(container, default)]
    container: ::std::option::Option<::syn::Expr>,
    int: i32,
}".
Example CloneOptionContainer_1 : pattrs (src_adef W sx0 CloneOptionContainer_src) [al ["container"; "clone_option"] "int = 6"] = okA [VX "1"; VI 6].
Proof. t. Qed.
(** attributes.rs 235-240 *)
Definition RefOptionContainer_src := "#[deluxe(attributes(container::ref_option))]
struct RefOptionContainer<'e> {
    #[deluxe(container, default)]
    container: ::std::option::Option<&'e ::syn::Expr>,
    int: i32,
}".
Example RefOptionContainer_1 : pattrs (src_adef W sx0 RefOptionContainer_src) [al ["container"; "ref_option"] "int = 7"] = okA [VX "1"; VI 7].
Proof. t. Qed.
(** attributes.rs 257-262 *)
Definition CloneGenericOptionContainer_src := "#[deluxe(attributes(container::clone_generic_option))]
struct CloneGenericOptionContainer<T> {
    #[deluxe(container, default)]
    container: ::std::option::Option<T>,
    int: i32,
}".
Example CloneGenericOptionContainer_1 : pattrs (src_adef W sx0 CloneGenericOptionContainer_src) [al ["container"; "clone_generic_option"] "int = 8"] = okA [VX "1"; VI 8].
Proof. t. Qed.
(** attributes.rs 277-282 *)
Definition RefGenericOptionContainer_src := "#[deluxe(attributes(container::ref_generic_option))]
struct RefGenericOptionContainer<'t, T> {
    #[deluxe(container, default)]
    container: ::std::option::Option<&'t T>,
    int: i32,
}".
Example RefGenericOptionContainer_1 : pattrs (src_adef W sx0 RefGenericOptionContainer_src) [al ["container"; "ref_generic_option"] "int = 9"] = okA [VX "1"; VI 9].
Proof. t. Qed.
(** attributes.rs 372-377 *)
Definition WrapperContainer_src := "#[deluxe(attributes(container::wrapper))]
struct WrapperContainer<'t> {
    #[deluxe(container(ty = ::syn::ItemFn))]
    container: IdentWrapper<'t>,
    int: i32,
}".
Example WrapperContainer_1 : pattrs (src_adef W sx0 WrapperContainer_src) [al ["container"; "wrapper"] "int = 72"] = okA [VX "1"; VI 72].
Proof. t. Qed.
(** attributes.rs 390-395 *)
Definition Wrapper2Container_src := "#[deluxe(attributes(container::wrapper))]
struct Wrapper2Container<'s, 't> {
    #[deluxe(container(ty = ::syn::ItemFn, lifetime = 't))]
    container: Ident2Wrapper<'s, 't>,
    int: i32,
}".
Example Wrapper2Container_1 : pattrs (src_adef W sx0 Wrapper2Container_src) [al ["container"; "wrapper"] "int = 72"] = okA [VX "1"; VI 72].
Proof. t. Qed.
