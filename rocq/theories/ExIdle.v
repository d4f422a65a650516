(** Concrete sources for C91, read from their text. *)
From Verif Require Import SourceKit LemIdle.

Definition idle_world : world :=
  mkWorld [("Vec<i32>", with_append (append_ i32) (rt i32 VU)); ("i32", rt i32 (VI 0))]
          [("quoted_text", rt string_ (VT ""))]
          [("seven()", VL [VI 7])] [] [].

(** an appended field with a default that is not the empty list *)
Definition idle_struct : src_struct :=
  match item_of "struct S { #[deluxe(append, default = seven())] v: Vec<i32> }" with
  | IStruct s => s
  | _ => mkSrcStruct ShUnit [] []
  end.
Definition nothing_given : list token := [].

Lemma ex_idle_default : exists (env : Env) sy (ru : rust val) auto expr post i d f e,
  derive_meta_struct sy i = Ok d /\ i_fields d = [f] /\
  sv_true (g_append f) = true /\ g_default f = Some (DExpr e) /\ ru_expr ru e = VL [VI 7] /\
  deluxe_parse2 (struct_dict (lower_struct ru auto expr post d)) nothing_given = Ok [VL []].
Proof.
  exists _, toy_syn, (rust_of idle_world), [], (fun _ => []), (fun _ v => inl v), idle_struct.
  destruct (derive_meta_struct toy_syn idle_struct) as [d|e|b] eqn:E; vm_compute in E; try discriminate E.
  injection E as <-. eexists _, _, _. repeat split; vm_compute; reflexivity.
Qed.

(** a transparent variant with a `with` module *)
Definition idle_enum : src_enum :=
  match item_of "enum E { #[deluxe(transparent)] A(#[deluxe(with = quoted_text)] i32) }" with
  | IEnum s => s
  | _ => mkSrcEnum [] []
  end.
Definition idle_in : list token := tk "a = ""x""".

Lemma ex_idle_with : exists (env : Env) sy (ru : rust val) auto expr post i d v f m,
  derive_meta_enum sy i = Ok d /\ j_variants d = [v] /\ h_fields v = [f] /\ h_transparent v = Some true /\
  g_with f = Some m /\ deluxe_parse2 (rt_item (ru_with ru m)) (tk """x""") = Ok (VT "x") /\
  exists e, deluxe_parse2 (enum_dict (lower_enum ru auto expr post d)) idle_in = Err e /\
    e_msg (se_hd e) = "expected integer literal".
Proof.
  exists _, toy_syn, (rust_of idle_world), (0, []), (fun _ => (0, [])), (fun _ v => inl v), idle_enum.
  destruct (derive_meta_enum toy_syn idle_enum) as [d|e|b] eqn:E; vm_compute in E; try discriminate E.
  injection E as <-. eexists _, _, _, _. repeat split; try (vm_compute; reflexivity).
  eexists. split; vm_compute; reflexivity.
Qed.

(** two structs that differ in the default of an appended field *)
Definition idle_a : sdef val := named [it "a" i32; mkField "v" ["v"] (KAppend (append_ i32)) None VU [] false false].
Definition idle_b : sdef val := named [it "a" i32; mkField "v" ["v"] (KAppend (append_ i32)) (Some (VL [VI 7])) VU [] false false].
Lemma idle_alike : alike_structs idle_a idle_b.
Proof.
  constructor; try (split; reflexivity); try reflexivity.
  constructor; [constructor|]. constructor; [|constructor].
  apply (AlikeAppend (mkField "v" ["v"] (KAppend (append_ i32)) None VU [] false false) (append_ i32) (Some (VL [VI 7])));
    reflexivity.
Qed.

(** *** C92 *)
Definition struct_src (txt : string) : src_struct :=
  match item_of txt with IStruct s => s | _ => mkSrcStruct ShUnit [] [] end.
Definition enum_src (txt : string) : src_enum :=
  match item_of txt with IEnum s => s | _ => mkSrcEnum [] [] end.

Lemma ex_skip_rest : exists (env : Env) sy (ru : rust val) auto expr post i d f g,
  derive_meta_struct sy i = Ok d /\ i_fields d = [f; g] /\ map fst (g_idents f) = ["a"] /\
  sv_true (g_skip g) = true /\ i_unknown_ok d = None /\
  deluxe_parse2 (struct_dict (lower_struct ru auto expr post d)) (tk "a = 1, unheard_of = 2") = Ok [VI 1; VI 0].
Proof.
  exists _, toy_syn, (rust_of idle_world), [], (fun _ => []), (fun _ v => inl v),
    (struct_src "struct S { a: i32, #[deluxe(skip, rest)] m: i32 }").
  destruct (derive_meta_struct toy_syn _) as [d|e|b] eqn:E; vm_compute in E; try discriminate E.
  injection E as <-. eexists _, _, _. repeat split; vm_compute; reflexivity.
Qed.

Lemma ex_skip_names : exists sy i f g e,
  ss_fields i = [f; g] /\ derive_meta_struct sy i = Err e /\ e_msg (se_hd e) = "duplicate field name for `a`" /\
  sf_ident g <> sf_ident f /\
  exists os, read_field sy f = Ok os /\ sv_true (g_skip os) = true.
Proof.
  exists toy_syn, (struct_src "struct S { #[deluxe(skip)] a: i32, #[deluxe(rename = a)] b: i32 }").
  eexists _, _, _. split; [vm_compute; reflexivity|]. split; [vm_compute; reflexivity|].
  split; [reflexivity|]. split; [discriminate|]. eexists. split; vm_compute; reflexivity.
Qed.

Lemma ex_skip_variant : exists (env : Env) sy (ru : rust val) auto expr post i d v w,
  derive_meta_enum sy i = Ok d /\ j_variants d = [v; w] /\ sv_true (h_skip w) = true /\ j_unknown_ok d = None /\
  (exists f, h_fields w = [f] /\ map fst (g_idents f) = ["x"]) /\
  deluxe_parse2 (enum_dict (lower_enum ru auto expr post d)) (tk "a, x = 1") = Ok (0, []).
Proof.
  exists _, toy_syn, (rust_of idle_world), (0, []), (fun _ => (0, [])), (fun _ v => inl v),
    (enum_src "enum E { A, #[deluxe(skip, flatten)] B { x: i32 } }").
  destruct (derive_meta_enum toy_syn _) as [d|e|b] eqn:E; vm_compute in E; try discriminate E.
  injection E as <-. eexists _, _, _. split; [reflexivity|]. split; [reflexivity|]. split; [vm_compute; reflexivity|].
  split; [vm_compute; reflexivity|]. split; [eexists; split; vm_compute; reflexivity|vm_compute; reflexivity].
Qed.

Definition skip_field (names : list string) (k : fkind val) : field val := mkField "s" names k (Some (VI 3)) VU [] true false.
Definition skip_a : sdef val := named [it "a" i32; skip_field ["b"; "c"] (KItem i32)].
Definition skip_b : sdef val := named [it "a" i32; skip_field ["d"] (KAppend (append_ i32))].
Lemma skip_ab : skip_structs skip_a skip_b.
Proof.
  constructor; try (split; reflexivity); try reflexivity.
  constructor; [constructor|]. constructor; [|constructor]. apply SkippedBoth; reflexivity.
Qed.
Definition skip_v (n : string) (l : list (field val)) : vdef val := mkVariant "S" [n] ShUnnamed l false false true false.
Definition skip_e (v : vdef val) : edef val :=
  mkEnum [v; mkVariant "A" ["a"] ShUnit [] false false false false] None [] false [].
Lemma skip_es : skip_enums (skip_e (skip_v "x" [it "" i32])) (skip_e (skip_v "y" [])).
Proof.
  constructor; try reflexivity. cbn [skip_e e_variants]. apply Forall2_cons; [apply SkippedVs; reflexivity|].
  apply Forall2_cons; [apply SkippedV|apply Forall2_nil].
Qed.
