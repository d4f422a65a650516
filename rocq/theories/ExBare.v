(** Examples for PropsBare.v *)
From Verif Require Export ExMore LemBare.
Local Open Scope string_scope.
Local Open Scope list_scope.

(** Option<SpannedValue<T>> for a struct T { a: bool, b: i32 }, and a tuple struct (i32, i32 = 7) *)
Definition xb_s : sdef val := mkStruct ShNamed [it "a" i32; it "b" i32] None false false [] [].
Definition xb_t : sdef val := mkStruct ShUnnamed [posd i32 (VI 1); posd i32 (VI 7)] None false false [] [].
Definition xb_u : sdef val := mkStruct ShUnnamed [pos i32; posd i32 (VI 7)] None false false [] [].
Lemma xb_bare : forall (sp : span),
  has_answer _ (option_dict (spanned_dict (struct_dict xb_s))) /\
  d_flag (option_dict (spanned_dict (struct_dict xb_s))) sp =
    Err (mkSyn (mkErr sp "missing required field `a`") [mkErr sp "missing required field `b`"]) /\
  d_flag (struct_dict xb_t) sp = Ok [VI 1; VI 7] /\
  d_flag (struct_dict xb_u) sp = Err (no_value sp) /\ needs_value _ (struct_dict xb_u) /\
  has_answer _ (struct_dict xt) /\ d_flag (struct_dict xt) sp = Err (no_value sp).
Proof.
  intro sp. split; [apply Ha_option, Ha_spanned, Ha_struct; reflexivity|].
  split; [vm_compute; reflexivity|]. split; [vm_compute; reflexivity|]. split; [vm_compute; reflexivity|].
  split.
  - constructor; try reflexivity. intros [H|H]; [now apply H|]. destruct (H (pos i32)) as [Z|Z]; [now left|reflexivity|discriminate|now apply Z].
  - split; [|vm_compute; reflexivity]. destruct xt_ok as [T I]. apply (Ha_transparent _ xt 1 (vec_ i32) T I).
    apply Ha_convert, Ha_needs. constructor.
Qed.
