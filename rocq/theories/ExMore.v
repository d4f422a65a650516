(** Concrete structs and inputs for the examples and counterexamples of PropsMore.v. *)
From Verif Require Export LemMore3 ExColl ExEnum.

(** #[deluxe(transparent)] struct T { #[deluxe(skip)] n: i32, #[deluxe(map = ..)] v: Vec<i32> } *)
Definition xt_inc (v : val) : val := match v with VL l => VL (VI 0 :: l) | _ => v end.
Definition xt_v : field val := mkField "v" ["v"] (KItem (vec_ i32)) None (VI 0) [TMap xt_inc] false false.
Definition xt : sdef val := mkStruct ShNamed [skipf "n" i32 (VI 7); xt_v] None true false [] [].
Lemma xt_ok : transparent_struct xt /\ inner_field xt 1 (vec_ i32).
Proof.
  split; [|exists xt_v; repeat split].
  split; [reflexivity|]. split; [|discriminate]. split.
  - cbn [s_shape s_raw xt]. ga. exact (fi_good _ (fine_vec_ _ fine_i32)).
  - intros _. split; [reflexivity|]. cbn [s_raw xt]. apply Forall_cons; [intros t []|]. apply Forall_cons; [|apply Forall_nil].
    intros t [<-|[]]. exact I.
Qed.
Lemma xt_runs :
  fst (d_item (vec_ i32) Unnamed (root_stream (tk "[1, 2]"))) = Ok (VL [VI 1; VI 2]) /\
  fst (d_item (struct_dict xt) Unnamed (root_stream (tk "[1, 2]"))) = Ok [VI 7; VL [VI 0; VI 1; VI 2]] /\
  fst (d_inline (struct_dict xt) Unnamed [root_stream (tk "1, 2")]) = Ok [VI 7; VL [VI 0; VI 1; VI 2]] /\
  built xt TMeta 1 (VL [VI 1; VI 2]) [VI 7; VL [VI 0; VI 1; VI 2]].
Proof.
  refine (conj _ (conj _ (conj _ _))); [vm_compute; reflexivity..|].
  split; [reflexivity|]. intros [|[|i]] f v N1 N2; cbn in N1, N2; try (destruct i; discriminate).
  - injection N1 as <-. injection N2 as <-. apply FI_default with (w := VI 7); [reflexivity|reflexivity|constructor].
  - injection N1 as <-. injection N2 as <-. cbn [Nat.eqb]. constructor. constructor.
Qed.

(** #[deluxe(transparent(flatten_unnamed))] struct W(P), struct P(i32, i32), from position 3:
    P misses item 4, W reports 1 *)
Definition xw_p : sdef val := tuple [pos i32; pos i32].
Definition xw : sdef val := mkStruct ShUnnamed [pos (sd xw_p)] None true false [] [].
Lemma ex_transparent_position : exists (env : Env) (s : sdef val) d j (u : flat_unnamed val) m index l e e',
  transparent_struct s /\ inner_field s j d /\
  fst (fu_parse u m index l) = Err e /\ map e_msg (errs_of e) = ["missing required field 4"] /\
  fst (fu_parse (transparent_fu s u) m index l) = Err e' /\ map e_msg (errs_of e') = ["missing required field 1"].
Proof.
  exists lexer_env, xw, (sd xw_p), 0, (sfu xw_p), Unnamed, 3, [root_stream (tk "1")]. do 2 eexists.
  refine (conj _ (conj _ (conj _ (conj _ (conj _ _))))).
  - split; [reflexivity|]. split; [|discriminate]. split.
    + cbn [s_shape s_raw xw]. ga. apply good_map, good_struct_dict. split; [|discriminate]. cbn [s_shape s_raw tuple xw_p]. ga.
    + intros _. split; [reflexivity|]. cbn [s_raw xw]. apply Forall_cons; [intros t []|]. apply Forall_nil.
  - exists (pos (sd xw_p)). repeat split.
  - vm_compute. reflexivity.
  - vm_compute. reflexivity.
  - vm_compute. reflexivity.
  - vm_compute. reflexivity.
Qed.

(** struct P(#[deluxe(container)] C, i32, i32) *)
Definition xpos : sdef val := tuple [contf ""; pos i32; pos i32].
Lemma xpos_ok : tuple_struct xpos /\ fine_items xpos /\
  (forall obj spans pn sp, about (s_attributes xpos) spans pn sp -> run_from xpos (TAttrs pn obj) 0 (struct_attr_body xpos obj spans)) /\
  Forall (fun g => f_skip g = false) (firstn 2 (s_raw xpos)) /\
  length (items_of [root_stream (tk "1")]) <= items_before xpos 2 /\
  missing_item_msg (@TMeta val) (0 + items_before xpos 2) = "missing required field 1" /\
  xmsgs (fst (fu_parse (struct_fu xpos) Unnamed 0 [root_stream (tk "1")])) = ["missing required field 1"] /\
  xmsgs (fst (fu_parse (struct_fu xpos) Unnamed 3 [root_stream (tk "1")])) = ["missing required field 4"].
Proof.
  refine (conj _ (conj _ (conj _ (conj _ (conj _ (conj _ (conj _ _))))))).
  - split; [|split; [reflexivity|split; [reflexivity|discriminate]]]. split; [|discriminate]. cbn [s_shape s_raw tuple xpos]. ga.
  - repeat (apply Forall_cons; [intros d _ H; injection H as <-; auto using fine_i32, fine_str|]). apply Forall_nil.
  - intros obj spans pn sp AB. now apply (RF_attributes _ _ _ _ sp).
  - repeat (apply Forall_cons; [reflexivity|]). apply Forall_nil.
  - vm_compute. lia.
  - reflexivity.
  - vm_compute. reflexivity.
  - vm_compute. reflexivity.
Qed.
(** struct S(#[deluxe(skip)] i32, i32) without items: item 0 is missing, 1 is reported *)
Definition xskip : sdef val := tuple [skipf "" i32 (VI 7); pos i32].
Lemma ex_skip_position : exists (env : Env) (s : sdef val) p inputs i f d e,
  run_from s TMeta 0 p /\ tuple_struct s /\ fine_items s /\ s_default s = None /\
  nth_error (s_raw s) i = Some f /\ is_parsable f = true /\ f_default f = None /\ f_kind f = KItem d /\ no_missing_value d /\
  items_of inputs = [] /\ items_before s i = 0 /\
  fst (p inputs) = Err e /\ map e_msg (errs_of e) = ["missing required field 1"].
Proof.
  exists lexer_env, xskip, (d_inline (struct_dict xskip) Unnamed), [root_stream (tk "")], 1, (pos i32), i32. eexists.
  refine (conj (RF_list xskip Unnamed eq_refl) (conj _ (conj _ (conj eq_refl (conj eq_refl (conj eq_refl (conj eq_refl (conj eq_refl (conj _ (conj eq_refl (conj eq_refl (conj _ _)))))))))))).
  - split; [|split; [reflexivity|split; [reflexivity|discriminate]]]. split; [|discriminate]. cbn [s_shape s_raw tuple xskip]. ga.
  - repeat (apply Forall_cons; [intros d _ H; injection H as <-; auto using fine_i32, fine_str|]). apply Forall_nil.
  - intros n sp. reflexivity.
  - vm_compute. reflexivity.
  - vm_compute. reflexivity.
Qed.
(** struct F(#[deluxe(flatten)] (i32,), i32) with `1`: item 1 is missing, 2 is reported *)
Definition xflatu : sdef val := tuple [flatu (sfu (tuple [pos i32])); pos i32].
Lemma ex_flat_position : exists (env : Env) (s : sdef val) u f p inputs e,
  s_raw s = [flatu u; f] /\ f_kind f = KItem i32 /\ is_parsable f = true /\ fu_count u = Some 1 /\
  run_from s TMeta 0 p /\ accepted_struct s /\ s_shape s = ShUnnamed /\ length (items_of inputs) = 1 /\
  is_ok (fst (fu_parse u Unnamed 0 inputs)) = true /\
  fst (p inputs) = Err e /\ map e_msg (errs_of e) = ["missing required field 2"].
Proof.
  exists lexer_env, xflatu, (sfu (tuple [pos i32])), (pos i32), (d_inline (struct_dict xflatu) Unnamed), [root_stream (tk "1")]. eexists.
  refine (conj eq_refl (conj eq_refl (conj eq_refl (conj eq_refl (conj (RF_list xflatu Unnamed eq_refl) (conj _ (conj eq_refl (conj eq_refl (conj _ (conj _ _)))))))))).
  - split; [|discriminate]. cbn [s_shape s_raw tuple xflatu]. ga.
    apply good_fu_map, good_struct_fu. split; [|discriminate]. cbn [s_shape s_raw tuple]. ga.
  - vm_compute. reflexivity.
  - vm_compute. reflexivity.
  - vm_compute. reflexivity.
Qed.
