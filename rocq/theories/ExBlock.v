(** Concrete inputs for the examples and counterexamples of PropsBlock.v. *)
From Verif Require Export ExColl ExMore LemBlock5.

(** *)
Definition arr_ (n : nat) (d : dict val) : flat_unnamed val := fu_map VL (array_fu n d).
(** struct B(i32, #[deluxe(flatten)] [i32; 2], #[deluxe(default)] String, #[deluxe(flatten)] Vec<i32>) *)
Definition ex_blk : sdef val :=
  tuple [pos i32; flatu (arr_ 2 i32); posd string_ (VT "d"); flatu (fu_map VL (vec_fu i32))].
Definition ex_blk_in : stream := root_stream (tk "(1, 2, 3, ""x"", 4, 5, 6,)").
Lemma good_arr_ n d : fine d -> good_fu (arr_ n d).
Proof. intros F. apply good_fu_map, good_array_fu; apply F. Qed.
Lemma ex_blk_ok :
  any_tuple_struct ex_blk /\ fine_items ex_blk /\ flat_items_ok ex_blk /\ Forall uniform_missing (s_raw ex_blk) /\
  s_is_transparent ex_blk = false /\
  (exists segs, group_of Paren ex_blk_in segs /\ length segs = 7 /\ ~ In [] segs) /\
  fst (d_item (struct_dict ex_blk) Unnamed ex_blk_in) = Ok [VI 1; VL [VI 2; VI 3]; VT "x"; VL [VI 4; VI 5; VI 6]] /\
  fst (d_item (struct_dict ex_blk) Unnamed (root_stream (tk "(1, 2, 3)"))) = Ok [VI 1; VL [VI 2; VI 3]; VT "d"; VL []] /\
  is_ok (fst (d_item (struct_dict ex_blk) Unnamed (root_stream (tk "(1, 2)")))) = false.
Proof.
  refine (conj _ (conj _ (conj _ (conj _ (conj eq_refl (conj _ (conj _ (conj _ _)))))))).
  - split; [|split; [reflexivity|discriminate]]. split; [|discriminate]. unfold ex_blk. cbn [s_shape s_raw tuple]. ga.
    + exact (good_arr_ 2 i32 fine_i32).
    + apply good_fu_map. intros m i. exact (gd_inline _ (good_vec i32 (fi_good i32 fine_i32)) m).
  - repeat (apply Forall_cons; [intros d _ H; first [discriminate H | injection H as <-; auto using fine_i32, fine_str]|]). apply Forall_nil.
  - apply Forall_cons; [intros u _ H; discriminate H|]. apply Forall_cons; [intros u _ H; injection H as <-; apply map_by_items, array_by_items, fine_i32|].
    apply Forall_cons; [intros u _ H; discriminate H|]. apply Forall_cons; [intros u _ H; injection H as <-; apply map_by_items, vec_by_items, fine_i32|]. apply Forall_nil.
  - repeat (apply Forall_cons; [intros d n sp w n' sp' H; first [discriminate H | injection H as <-; intro X; discriminate X]|]). apply Forall_nil.
  - let x := eval vm_compute in (toks ex_blk_in) in
    match x with TGroup _ ?ts ?g :: ?r => exists (items ts); split; [exact (group_tk Paren ex_blk_in ts g r eq_refl)|]; vm_compute; intuition discriminate end.
  - vm_compute. reflexivity.
  - vm_compute. reflexivity.
  - vm_compute. reflexivity.
Qed.

(** struct P(#[deluxe(flatten)] [i32; 2], i32): `#[p(1)] #[p(2, 3)]` against `#[p(1, 2, 3)]` *)
Definition ex_split : sdef val := tuple [flatu (arr_ 2 i32); pos i32].
Lemma ex_split_ok : any_tuple_struct ex_split /\ fine_items ex_split /\ flat_items_ok ex_split /\ Forall uniform_missing (s_raw ex_split).
Proof.
  split; [|split; [|split]].
  - split; [|split; [reflexivity|discriminate]]. split; [|discriminate]. unfold ex_split. cbn [s_shape s_raw tuple]. ga. exact (good_arr_ 2 i32 fine_i32).
  - repeat (apply Forall_cons; [intros d _ H; first [discriminate H | injection H as <-; auto using fine_i32, fine_str]|]). apply Forall_nil.
  - apply Forall_cons; [intros u _ H; injection H as <-; apply map_by_items, array_by_items, fine_i32|]. apply Forall_cons; [intros u _ H; discriminate H|]. apply Forall_nil.
  - repeat (apply Forall_cons; [intros d n sp w n' sp' H; first [discriminate H | injection H as <-; intro X; discriminate X]|]). apply Forall_nil.
Qed.
Definition ex_one : list stream := [root_stream (tk "1, 2, 3")].
Definition ex_two : list stream :=
  [mkStream (firstn 1 (tk "1, 2, 3")) SCall None; mkStream (skipn 2 (tk "1, 2, 3")) SCall None].
Lemma ex_split_fails : exists (env : Env) (s : sdef val) p one two segs ws e,
  any_tuple_struct s /\ fine_items s /\ flat_items_ok s /\ Forall uniform_missing (s_raw s) /\ tuple_run s TMeta p /\
  hold one segs /\ hold two segs /\ ~ In [] segs /\
  whole p one ws /\ fst (p two) = Err e.
Proof.
  exists lexer_env, ex_split, (d_inline (struct_dict ex_split) Unnamed), ex_one, ex_two, (items_of ex_one), [VL [VI 1; VI 2]; VI 3].
  eexists. destruct ex_split_ok as [A [B [C D]]].
  refine (conj A (conj B (conj C (conj D (conj (TR_list ex_split Unnamed eq_refl) (conj (hold_of ex_one) (conj _ (conj _ (conj _ _))))))))).
  - assert (E : items_of ex_one = items_of ex_two) by (vm_compute; reflexivity). rewrite E. apply hold_of.
  - vm_compute. intuition discriminate.
  - split; [vm_compute; reflexivity|]. vm_compute. constructor; [now left|constructor].
  - vm_compute. reflexivity.
Qed.
(** struct Z(#[deluxe(flatten)] [i32; 0], i32) with `(1)` *)
Definition ex_zero : sdef val := tuple [flatu (arr_ 0 i32); pos i32].
Definition ex_zero_in : stream := root_stream (tk "(1)").
Lemma ex_zero_fails : exists (env : Env) (s : sdef val) u f d v w st seg e,
  any_tuple_struct s /\ fine_items s /\ flat_items_ok s /\ Forall uniform_missing (s_raw s) /\ s_is_transparent s = false /\
  s_raw s = [flatu u; f] /\ absent u v /\ is_parsable f = true /\ f_kind f = KItem d /\
  group_of Paren st [seg] /\ accepts (d_item d Unnamed) seg w /\
  fst (d_item (struct_dict s) Unnamed st) = Err e.
Proof.
  let x := eval vm_compute in (toks ex_zero_in) in
  match x with TGroup _ ?ts ?g :: ?r =>
    exists lexer_env, ex_zero, (arr_ 0 i32), (pos i32), i32, (VL []), (VI 1), ex_zero_in, ts; eexists;
    assert (G : group_of Paren ex_zero_in [ts]) by (exact (group_tk Paren ex_zero_in ts g r eq_refl)) end.
  refine (conj _ (conj _ (conj _ (conj _ (conj eq_refl (conj eq_refl (conj _ (conj eq_refl (conj eq_refl (conj G (conj _ _))))))))))).
  - split; [|split; [reflexivity|discriminate]]. split; [|discriminate]. unfold ex_zero. cbn [s_shape s_raw tuple]. ga. exact (good_arr_ 0 i32 fine_i32).
  - repeat (apply Forall_cons; [intros d _ H; first [discriminate H | injection H as <-; auto using fine_i32, fine_str]|]). apply Forall_nil.
  - apply Forall_cons; [intros u _ H; injection H as <-; apply map_by_items, array_by_items, fine_i32|]. apply Forall_cons; [intros u _ H; discriminate H|]. apply Forall_nil.
  - repeat (apply Forall_cons; [intros d n sp w n' sp' H; first [discriminate H | injection H as <-; intro X; discriminate X]|]). apply Forall_nil.
  - intros i sc. reflexivity.
  - intros tl sc c _. split; vm_compute; reflexivity.
  - vm_compute. reflexivity.
Qed.
(** struct N(#[deluxe(flatten)] [i32; 2], i32, #[deluxe(flatten)] Vec<i32>, i32) with `1, 2`:
    items 2 and 3 are missing, 4 and 5 are reported *)
Definition ex_num : sdef val := tuple [flatu (arr_ 2 i32); pos i32; flatu (fu_map VL (vec_fu i32)); pos i32].
Definition ex_num_in : stream := root_stream (tk "1, 2").
Lemma ex_num_ok : any_tuple_struct ex_num /\ fine_items ex_num /\ flat_items_ok ex_num /\ s_default ex_num = None.
Proof.
  split; [|split; [|split]]; auto.
  - split; [|split; [reflexivity|discriminate]]. split; [|discriminate]. unfold ex_num. cbn [s_shape s_raw tuple]. ga.
    + exact (good_arr_ 2 i32 fine_i32).
    + apply good_fu_map. intros m i. exact (gd_inline _ (good_vec i32 (fi_good i32 fine_i32)) m).
  - repeat (apply Forall_cons; [intros d _ H; first [discriminate H | injection H as <-; auto using fine_i32, fine_str]|]). apply Forall_nil.
  - apply Forall_cons; [intros u _ H; injection H as <-; apply map_by_items, array_by_items, fine_i32|].
    apply Forall_cons; [intros u _ H; discriminate H|]. apply Forall_cons; [intros u _ H; injection H as <-; apply map_by_items, vec_by_items, fine_i32|].
    apply Forall_cons; [intros u _ H; discriminate H|]. apply Forall_nil.
Qed.
Lemma ex_num_run : exists segs os e,
  any_tuple_struct ex_num /\ fine_items ex_num /\ flat_items_ok ex_num /\ s_default ex_num = None /\
  run_from ex_num TMeta 0 (d_inline (struct_dict ex_num) Unnamed) /\
  listed segs (toks ex_num_in) /\ ~ In [] segs /\ spread false (s_raw ex_num) segs os /\
  nth_error os 1 = Some None /\ nth_error os 3 = Some None /\
  said_number (s_raw ex_num) os 1 = 4 /\ said_number (s_raw ex_num) os 3 = 5 /\
  fst (d_inline (struct_dict ex_num) Unnamed [ex_num_in]) = Err e /\
  map e_msg (errs_of e) = ["missing required field 4"; "missing required field 5"].
Proof.
  destruct ex_num_ok as [A [B [C D]]].
  let x := eval vm_compute in (items (toks ex_num_in)) in exists x; assert (L : listed x (toks ex_num_in)) by (exact (listed_of (toks ex_num_in))).
  exists [Some (VL [VI 1; VI 2]); None; None; None]. eexists.
  refine (conj A (conj B (conj C (conj D (conj (RF_list ex_num Unnamed eq_refl) (conj L (conj _ (conj _ (conj eq_refl (conj eq_refl (conj eq_refl (conj eq_refl (conj _ _))))))))))))).
  - intros [H|[H|H]]; [discriminate H|discriminate H|exact H].
  - clear L. match goal with |- spread _ _ ?l _ => change l with (l ++ []) end.
    eapply Sp_flat; [reflexivity|reflexivity|discriminate| |].
    + apply map_takes. apply array_takes; [reflexivity| |right; reflexivity].
      repeat (apply Forall2_cons; [intros tl sc c _; split; vm_compute; reflexivity|]). apply Forall2_nil.
    + repeat (apply Sp_short; [reflexivity|reflexivity|]). constructor.
  - vm_compute. reflexivity.
  - vm_compute. reflexivity.
Qed.
