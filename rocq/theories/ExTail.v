(** Concrete inputs for the examples and counterexamples of PropsTail.v. *)
From Verif Require Export ExBlock ExFlat ExEnum LemTail.

(** struct N { a: i32, #[deluxe(default = 7)] b: i32 } *)
Definition xt_n : sdef val := named [it "a" i32; itd "b" i32 (VI 7)].
(** struct C(i32, #[deluxe(flatten)] N), struct D(i32, #[deluxe(flatten)] P) *)
Definition xt_c : sdef val := tuple [pos i32; flatu (sfu xt_n)].
Definition xt_efu : flat_unnamed val := fu_map ve (enum_fu xp).
Definition xt_d : sdef val := tuple [pos i32; flatu xt_efu].
Definition xt_in (t : string) : stream := root_stream (tk t).
Lemma xt_n_plain : plain_struct xt_n.
Proof.
  split; [|split; [|split]].
  - split; [|split; [reflexivity|discriminate]]. split; [|discriminate]. unfold xt_n. cbn [s_shape s_raw named]. ga.
  - reflexivity.
  - fxl.
  - repeat (apply Forall_cons; [intros d n sp w n' sp' H; first [discriminate H | injection H as <-; intro X; discriminate X]|]). apply Forall_nil.
Qed.
Lemma xt_c_ok : any_tuple_struct xt_c /\ fine_items xt_c /\ Forall uniform_missing (s_raw xt_c) /\
  tailed xt_c [pos i32] (flatu (sfu xt_n)) (sfu xt_n).
Proof.
  split; [|split; [|split]].
  - split; [|split; [reflexivity|discriminate]]. split; [|discriminate]. unfold xt_c. cbn [s_shape s_raw tuple]. ga.
    apply good_fu_map, good_struct_fu. apply xt_n_plain.
  - repeat (apply Forall_cons; [intros d _ H; first [discriminate H | injection H as <-; auto using fine_i32, fine_str]|]). apply Forall_nil.
  - repeat (apply Forall_cons; [intros d n sp w n' sp' H; first [discriminate H | injection H as <-; intro X; discriminate X]|]). apply Forall_nil.
  - split; auto. split; [repeat constructor; eexists; reflexivity|]. split; reflexivity.
Qed.
Lemma xt_d_ok : any_tuple_struct xt_d /\ fine_items xt_d /\ Forall uniform_missing (s_raw xt_d) /\
  tailed xt_d [pos i32] (flatu xt_efu) xt_efu.
Proof.
  split; [|split; [|split]].
  - split; [|split; [reflexivity|discriminate]]. split; [|discriminate]. unfold xt_d. cbn [s_shape s_raw tuple]. ga.
    apply good_fu_map, good_enum_fu; apply (xp_proper TMeta None []).
  - repeat (apply Forall_cons; [intros d _ H; first [discriminate H | injection H as <-; auto using fine_i32, fine_str]|]). apply Forall_nil.
  - repeat (apply Forall_cons; [intros d n sp w n' sp' H; first [discriminate H | injection H as <-; intro X; discriminate X]|]). apply Forall_nil.
  - split; auto. split; [repeat constructor; eexists; reflexivity|]. split; reflexivity.
Qed.
Lemma xt_runs :
  fst (d_inline (struct_dict xt_c) Unnamed [xt_in "1, b = 3, a = 2,"]) = Ok [VI 1; VS [VI 2; VI 3]] /\
  fst (d_inline (struct_dict xt_c) Unnamed [xt_in "1, a = 2"]) = Ok [VI 1; VS [VI 2; VI 7]] /\
  is_ok (fst (d_inline (struct_dict xt_c) Unnamed [xt_in "1, 2"])) = false /\
  is_ok (fst (d_inline (struct_dict xt_c) Unnamed [xt_in "a = 2, 1"])) = false /\
  is_ok (fst (d_inline (struct_dict xt_c) Unnamed [xt_in "1, a = 2, c = 3"])) = false /\
  is_ok (fst (d_inline (struct_dict xt_c) Unnamed [xt_in "1"])) = false /\
  fst (d_inline (struct_dict xt_d) Unnamed [xt_in "1, b(2)"]) = Ok [VI 1; VE 1 [VI 2]] /\
  is_ok (fst (d_inline (struct_dict xt_d) Unnamed [xt_in "1, b(2), a"])) = false.
Proof. repeat split; vm_compute; reflexivity. Qed.
(** struct R { a: i32, #[deluxe(rest)] r: HashMap<Path, i32> } at the end *)
Definition xt_r : sdef val := named [it "a" i32; fld "r" ["r"] (KRest (rest_ path_ i32)) None].
Definition xt_s : sdef val := tuple [pos i32; flatu (sfu xt_r)].
Lemma ex_tail_rest : exists (env : Env) (s t : sdef val) g ts ts1 w e,
  accepted_struct s /\ accepted_struct t /\ tailed s [pos i32] (flatu (fu_map g (struct_fu t))) (fu_map g (struct_fu t)) /\
  items ts1 = tk "1" :: items ts /\
  fst (d_inline (struct_dict t) Unnamed [mkStream ts SCall None]) = Ok w /\
  fst (d_inline (struct_dict s) Unnamed [mkStream ts1 SCall None]) = Err e /\
  map e_msg (errs_of e) = ["unknown field `z`"].
Proof.
  let x := eval vm_compute in (tk "1, a = 2, z = 3") in
  match x with ?a :: ?c :: ?r => exists lexer_env, xt_s, xt_r, VS, r, (a :: c :: r) end.
  eexists. eexists. split; [|split; [|split; [|split; [|split; [|split]]]]].
  - split; [|discriminate]. unfold xt_s. cbn [s_shape s_raw tuple]. ga. apply good_fu_map, good_struct_fu.
    split; [|discriminate]. unfold xt_r. cbn [s_shape s_raw named]. ga. apply good_rest_; [apply good_path_|apply good_i32].
  - split; [|discriminate]. unfold xt_r. cbn [s_shape s_raw named]. ga. apply good_rest_; [apply good_path_|apply good_i32].
  - split; auto. split; [repeat constructor; eexists; reflexivity|]. split; reflexivity.
  - vm_compute. reflexivity.
  - vm_compute. reflexivity.
  - vm_compute. reflexivity.
  - vm_compute. reflexivity.
Qed.
