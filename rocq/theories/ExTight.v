(** Concrete inputs for the examples and counterexamples of PropsTight.v. *)
From Verif Require Export LemTight ExBlock ExEnum.
From Verif Require Import LemAbout.

(** struct S { .. } for #[ns::x(..)] and #[y(..)], on an item without attributes of these names *)
Definition ex_at : sdef val := withattrs ex_s [["ns"; "x"]; ["y"]].
Definition ex_no_attrs : owner := ONode [ap ["z"]; al ["x"] "a = 1"].
Lemma ex_at_ok : named_struct ex_at /\ Forall stays_field (s_raw ex_at) /\ s_is_transparent ex_at = false /\
  ref_tokens (derived_matches (s_attributes ex_at)) ex_no_attrs = [] /\
  exists e, struct_parse_attributes ex_at cv ex_no_attrs = Err e /\
    map e_msg (errs_of e) = ["missing required field #[ns::x(a)]"].
Proof.
  refine (conj ex_named (conj ex_fields_stay (conj eq_refl (conj eq_refl _)))). eexists. split; vm_compute; reflexivity.
Qed.

Lemma ex_delims :
  written_in Brace _ (struct_dict ex_s) /\
  fst (d_item (struct_dict ex_s) Unnamed (root_stream (tk "[1]"))) = Err (mkSyn (mkErr (SOpen (SAt 0)) "expected curly braces") []) /\
  fst (d_item (vec_dict i32) Unnamed (root_stream (tk "1"))) = Err (mkSyn (mkErr (SAt 0) "expected square brackets") []) /\
  fst (d_item (tuple_dict [i32; i32]) Unnamed (root_stream [])) =
    Err (mkSyn (mkErr SCall "unexpected end of input, expected parentheses") []).
Proof. split; [now apply WI_named|]. repeat split; vm_compute; reflexivity. Qed.

(** struct C(i32, #[deluxe(flatten)] [i32; 2], #[deluxe(flatten)] Vec<i32>) *)
Definition ex_cnt : sdef val := tuple [pos i32; flatu (arr_ 2 i32)].
Lemma ex_cnt_ok : any_tuple_struct ex_cnt /\ fine_items ex_cnt /\ flat_items_ok ex_cnt /\ Forall uniform_missing (s_raw ex_cnt) /\
  counted_fields ex_cnt /\ fu_count (struct_fu ex_cnt) = Some 3.
Proof.
  split; [|split; [|split; [|split; [|split; [|reflexivity]]]]].
  - split; [|split; [reflexivity|discriminate]]. split; [|discriminate]. unfold ex_cnt. cbn [s_shape s_raw tuple]. ga. exact (good_arr_ 2 i32 fine_i32).
  - repeat (apply Forall_cons; [intros d _ H; first [discriminate H | injection H as <-; auto using fine_i32, fine_str]|]). apply Forall_nil.
  - apply Forall_cons; [intros u _ H; discriminate H|]. apply Forall_cons; [intros u _ H; injection H as <-; apply map_by_items, array_by_items, fine_i32|]. apply Forall_nil.
  - repeat (apply Forall_cons; [intros d n sp w n' sp' H; first [discriminate H | injection H as <-; intro X; discriminate X]|]). apply Forall_nil.
  - apply Forall_cons; [split; [reflexivity|discriminate]|]. apply Forall_cons; [|apply Forall_nil]. split; [reflexivity|].
    intros u H; injection H as <-. apply map_counted; [apply array_by_items, fine_i32|apply array_counted, fine_i32].
Qed.

(** struct K(i32, #[deluxe(skip)] i32): counted as two items, but only one is read *)
Definition ex_skipped : sdef val := tuple [pos i32; mkField "" [] (KItem i32) None (VI 7) [] true false].
Definition seg1 : list token := [TLit (LInt 1) (SAt 0)].
Lemma ex_skip_count : exists (env : Env) (s : sdef val) blk n ws,
  any_tuple_struct s /\ fine_items s /\ flat_items_ok s /\ Forall uniform_missing (s_raw s) /\
  blk <> [] /\ Forall (fun seg => seg <> [] /\ no_comma seg) blk /\
  takes (struct_fu s) blk true ws /\ fu_count (struct_fu s) = Some n /\ n <> length blk.
Proof.
  exists lexer_env, ex_skipped, [seg1], 2, [VI 1; VI 7].
  assert (A : any_tuple_struct ex_skipped).
  { split; [|split; [reflexivity|discriminate]]. split; [|discriminate]. unfold ex_skipped. cbn [s_shape s_raw tuple]. ga. }
  assert (B : fine_items ex_skipped).
  { repeat (apply Forall_cons; [intros d _ H; first [discriminate H | injection H as <-; auto using fine_i32, fine_str]|]). apply Forall_nil. }
  assert (C : flat_items_ok ex_skipped).
  { repeat (apply Forall_cons; [intros u _ H; discriminate H|]). apply Forall_nil. }
  assert (D : Forall uniform_missing (s_raw ex_skipped)).
  { repeat (apply Forall_cons; [intros d n sp w n' sp' H; first [discriminate H | injection H as <-; intro X; discriminate X]|]). apply Forall_nil. }
  assert (F : Forall (fun seg => seg <> [] /\ no_comma seg) [seg1]).
  { apply Forall_cons; [|apply Forall_nil]. split; [discriminate|]. apply Forall_cons; [|apply Forall_nil]. intros [j [sp H]]. discriminate H. }
  destruct (block_make [seg1] ltac:(discriminate) F) as [ts [tl BK]].
  refine (conj A (conj B (conj C (conj D (conj _ (conj F (conj _ (conj eq_refl _)))))))); [discriminate| |discriminate].
  apply (l_struct_block ex_skipped [seg1] true ts tl _ A B C D ltac:(discriminate) BK).
  exists [Some (VI 1); None], [VI 1; VI 7]. split; [|split; [|constructor]].
  - apply (Sp_item true _ i32); [reflexivity|reflexivity| |].
    + intros tl' sc c En. split; reflexivity.
    + apply Sp_other; [reflexivity|constructor].
  - split; [reflexivity|]. intros [|[|i]] f o v N1 N2 N3; cbn in N1, N2, N3; [| |destruct i; discriminate];
      injection N1 as <-; injection N2 as <-; injection N3 as <-; [constructor|].
    left. apply (LO_default _ _ _ _ _ _ _ (VI 7)); [congruence|reflexivity|constructor].
Qed.

(** enum { #[deluxe(flatten)] B { b: i32 } } with allow_unknown_fields *)
Definition xb_ok : edef val := mkEnum (e_variants xb) None [] true [].
Lemma ex_flat_variant_strict : exists (env : Env) (e : edef val) inputs inputs' x y,
  proper_enum TMeta e /\ e_unknown_ok e = true /\
  keyed inputs /\ keyed inputs' /\
  part "" (fn_names (enum_fn e)) (items_of inputs) = part "" (fn_names (enum_fn e)) (items_of inputs') /\
  fst (d_inline (enum_dict e) (Named SCall) inputs) = Ok y /\
  fst (d_inline (enum_dict e) (Named SCall) inputs') = Err x /\ map e_msg (errs_of x) = ["unknown field `zz`"].
Proof.
  assert (P : proper_enum TMeta xb_ok) by apply xb_proper.
  exists lexer_env, xb_ok, (xin "b = 2"), (xin "b = 2, zz"). eexists _, _. split; [exact P|]. split; [reflexivity|].
  split; [xkeyed|]. split; [xkeyed|]. split; [vm_compute; reflexivity|]. split; [vm_compute; reflexivity|]. split; vm_compute; reflexivity.
Qed.
(** enum E { A } with allow_unknown_fields, alone and flattened *)
Definition xv : edef val := mkEnum [mkVariant "A" ["a"] ShUnit [] false false false false] None [] true [].
Definition xv_p := named [flatn "e" None (efn xv)].
Lemma xv_proper : proper_enum TMeta xv /\ no_flattened xv.
Proof.
  split; [refine (conj _ (conj _ (conj _ (conj _ _))))|].
  - repeat (apply Forall_cons; [split; [ga|split; [ga|split; ga0]]|]); try apply Forall_nil.
  - intros v f [<-|[]]; discriminate.
  - intros [|i] [|j] v w n Ni Nj; cbn in Ni, Nj; auto; try (destruct i; discriminate); destruct j; discriminate.
  - intros v f [<-|[]] [].
  - intros v f [<-|[]]; discriminate.
  - intros v [<-|[]]. reflexivity.
Qed.
Lemma ex_enum_strict : exists (env : Env) (e : edef val) (s : sdef val) f inputs x y v,
  proper_enum TMeta e /\ no_flattened e /\ named_struct s /\ e_unknown_ok e = true /\
  s_raw s = [f] /\ f_kind f = KFlatN None (fn_map v (enum_fn e)) /\
  fst (d_inline (enum_dict e) Unnamed inputs) = Ok y /\
  fst (d_inline (struct_dict s) Unnamed inputs) = Err x /\ map e_msg (errs_of x) = ["unknown field `zz`"].
Proof.
  destruct xv_proper as [P NF].
  exists lexer_env, xv, xv_p. eexists _, (xin "a, zz"), _, _, _. split; [exact P|]. split; [exact NF|]. split.
  { fxn. repeat apply Forall_cons; try apply Forall_nil; unfold good_field; cbn. intros. apply good_fn_map, good_enum_fn; apply P. }
  split; [reflexivity|]. split; [reflexivity|]. split; [reflexivity|]. split; [vm_compute; reflexivity|]. split; vm_compute; reflexivity.
Qed.
Lemma ex_enum_obeyed : proper_enum TMeta xv /\ no_flattened xv /\ e_unknown_ok xv = true /\
  keyed (xin "a") /\ keyed (xin "a, zz(1), y") /\
  part "" (variant_names xv) (items_of (xin "a")) = part "" (variant_names xv) (items_of (xin "a, zz(1), y")).
Proof. refine (conj (proj1 xv_proper) (conj (proj2 xv_proper) (conj eq_refl (conj _ (conj _ _))))); [xkeyed|xkeyed|vm_compute; reflexivity]. Qed.
Definition ex_len : sdef val := mkStruct ShNamed (s_raw ex_s) None false true [] [].
Lemma ex_struct_obeyed :
  named_struct ex_len /\ Forall local_field (s_raw ex_len) /\ Forall (routes "") (s_raw ex_len) /\ separate ex_len /\
  s_unknown_ok ex_len = true /\ keyed (xin "a = 1") /\ keyed (xin "a = 1, zz(1), y") /\
  part "" (s_names ex_len) (items_of (xin "a = 1")) = part "" (s_names ex_len) (items_of (xin "a = 1, zz(1), y")).
Proof.
  refine (conj ex_named (conj ex_fields_local (conj _ (conj _ (conj eq_refl (conj _ (conj _ _))))))); [| |xkeyed|xkeyed|vm_compute; reflexivity].
  - repeat (apply Forall_cons; [intro H; discriminate H|]). apply Forall_nil.
  - intros i j f g n Ni Nj I1 I2. do 6 (destruct i as [|i]; [do 6 (destruct j as [|j]; [cbn in Ni, Nj; try discriminate; auto; injection Ni as <-; injection Nj as <-; cbn in I1, I2; intuition congruence|]); destruct j; discriminate|]).
    destruct i; discriminate.
Qed.
Lemma ex_lenient : lenient ex_len /\ ~ lenient ex_s.
Proof. split; [now left|]. intro H. apply lenient_spec in H. discriminate H. Qed.
