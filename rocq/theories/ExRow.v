(** Concrete tuple structs and inputs for the examples of PropsRow.v. *)
From Verif Require Export LemRow ExDrop ExColl.
Local Open Scope string_scope.
Local Open Scope list_scope.

(** struct R(i32, #[deluxe(skip)] i32, i32, #[deluxe(default = "d")] String, i32) *)
Definition xr : sdef val := tuple [pos i32; skipf "" i32 (VI 7); pos i32; posd string_ (VT "d"); pos i32].
Lemma xr_ok : tuple_struct xr /\ fine_items xr.
Proof.
  split.
  - split; [|split; [reflexivity|split; [reflexivity|discriminate]]]. split; [|discriminate]. unfold xr. cbn [s_shape s_raw tuple]. ga.
  - repeat (apply Forall_cons; [intros d _ H; injection H as <-; auto using fine_i32, fine_str|]). apply Forall_nil.
Qed.
(** struct N(#[deluxe(skip)] i32) *)
Definition xn : sdef val := tuple [skipf "" i32 (VI 7)].
Lemma xn_ok : tuple_struct xn /\ fine_items xn.
Proof.
  split.
  - split; [|split; [reflexivity|split; [reflexivity|discriminate]]]. split; [|discriminate]. unfold xn. cbn [s_shape s_raw tuple]. ga.
  - repeat (apply Forall_cons; [intros d _ H; injection H as <-; auto using fine_i32, fine_str|]). apply Forall_nil.
Qed.
Definition xr_in1 : list token := Eval vm_compute in tk "true".
Definition xr_in2 : list token := Eval vm_compute in tk "1 2".
Definition xn_in : list token := Eval vm_compute in tk ", x".
Definition xr_inputs : list stream := [root_stream xr_in1; root_stream xr_in2].
(** what is read of `true` and `1 2`: two items, and then a comma is expected *)
Lemma xr_read : struct_read xr xr_inputs
  [(d_item i32 Unnamed, mkElem xr_in1 [] SCall); (d_item i32 Unnamed, mkElem xr_in2 [] SCall)]
  [mkErr (SAt 2) "expected `,`"] (joined [SCall; SAt 2]).
Proof.
  apply SR_items; [discriminate|].
  apply (RW_left (row_types (s_raw xr)) xr_inputs [root_stream xr_in1] (root_stream xr_in2) [] [] (mkElem xr_in2 [] SCall) [] i32 (TLit (LInt 2) (SAt 2))).
  - reflexivity.
  - vm_compute. reflexivity.
  - vm_compute. lia.
  - apply Forall_cons; [|apply Forall_nil]. intros v H. vm_compute in H. discriminate H.
  - reflexivity.
  - exists (VI 1), []. split; vm_compute; reflexivity.
Qed.
