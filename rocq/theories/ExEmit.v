(** Cases for the variables of the emitted code. *)
From Verif Require Import LemEmit5 ExSchema.

(** #[deluxe(transparent(flatten_named, rest), default)] struct { #[deluxe(map = f)] a,
    #[deluxe(skip)] s } *)
Definition xe_pass : src_struct :=
  mkSrcStruct ShNamed [nf "a" "map = f"; nf "s" "skip"] (at_ "transparent(flatten_named, rest), default").
Definition no_and_thens (d : sstruct) : bool :=
  forallb (fun f => forallb (fun t => match t with SMap _ => true | SAndThen _ => false end) (g_transforms f)) (i_fields d).
Lemma no_and_thens_ok d : no_and_thens d = true -> no_field_and_then (i_fields d).
Proof.
  unfold no_and_thens, no_field_and_then. rewrite forallb_forall, Forall_forall. intros H f I e J. specialize (H f I).
  rewrite forallb_forall in H. specialize (H _ J). discriminate H.
Qed.
Lemma and_thens_ok d : no_and_thens d = false -> ~ no_field_and_then (i_fields d).
Proof.
  intros F N. assert (X : no_and_thens d = true); [|congruence]. unfold no_and_thens. apply forallb_forall. intros f I.
  apply forallb_forall. intros [e|e] J; auto. unfold no_field_and_then in N. rewrite Forall_forall in N. destruct (N f I e J).
Qed.
Definition passes_b (d : sstruct) : bool := st_true (i_transparent d) && existsb plain_field (i_fields d).
Lemma passes_b_ok d : passes_b d = true <-> passes_on d.
Proof.
  unfold passes_b, passes_on. rewrite andb_true_iff, existsb_exists. split; intros [T [f [I P]]]; (split; [exact T|]); exists f; split; auto; now apply plain_spec.
Qed.
Lemma ex_emit_pass : written_struct xe_pass /\
  (exists d, derive_meta_struct xsy xe_pass = Ok d /\ passes_on d /\ no_field_and_then (i_fields d) /\ length (emit_meta_struct d) = 7) /\
  (exists d, derive_attr_struct xsy xe_pass = Ok d /\ passes_on d /\ no_field_and_then (i_fields d)).
Proof.
  split; [repeat constructor; discriminate|]. split.
  - destruct (use_ok (derive_meta_struct xsy xe_pass) (fun d => (passes_b d, no_and_thens d, length (emit_meta_struct d))) (true, true, 7)) as [d [R Q]]; [vm_compute; reflexivity|].
    injection Q as Q1 Q2 Q3. exists d. split; [exact R|]. split; [now apply passes_b_ok|]. split; [now apply no_and_thens_ok|exact Q3].
  - destruct (use_ok (derive_attr_struct xsy xe_pass) (fun d => (passes_b d, no_and_thens d)) (true, true)) as [d [R Q]]; [vm_compute; reflexivity|].
    injection Q as Q1 Q2. exists d. split; [exact R|]. split; [now apply passes_b_ok|now apply no_and_thens_ok].
Qed.
(** [x_struct] is not transparent, and has a field with and_then *)
Lemma ex_emit_plain : (exists d, derive_meta_struct xsy x_struct = Ok d /\ ~ passes_on d /\ ~ no_field_and_then (i_fields d)) /\
  (exists d, derive_attr_struct xsy x_struct = Ok d /\ ~ passes_on d).
Proof.
  assert (X : forall d, passes_b d = false -> ~ passes_on d) by (intros d H P; apply passes_b_ok in P; congruence). split.
  - destruct (use_ok (derive_meta_struct xsy x_struct) (fun d => (passes_b d, no_and_thens d)) (false, false)) as [d [R Q]]; [vm_compute; reflexivity|].
    injection Q as Q1 Q2. exists d. split; [exact R|]. split; [auto|now apply and_thens_ok].
  - destruct (use_ok (derive_attr_struct xsy x_struct) passes_b false) as [d [R Q]]; [vm_compute; reflexivity|]. eauto.
Qed.

(** #[deluxe(transparent)] struct W(#[deluxe(and_then = f)] i32) *)
Definition xe_bad : src_struct := mkSrcStruct ShUnnamed [tf "and_then = f"] (at_ "transparent").
Lemma ex_emit_bad : exists (env : Env) sy i d, good_syn_lib sy /\ written_struct i /\
  derive_meta_struct sy i = Ok d /\ derive_attr_struct sy i = Ok d /\
  ~ Forall self_contained (emit_meta_struct d) /\ ~ Forall self_contained (emit_attr_struct GParse d).
Proof.
  destruct (use_ok (derive_meta_struct xsy xe_bad) (fun d => (passes_b d, no_and_thens d)) (true, false)) as [d [R Q]]; [vm_compute; reflexivity|].
  assert (R2 : derive_attr_struct xsy xe_bad = Ok d).
  { assert (X : derive_attr_struct xsy xe_bad = derive_meta_struct xsy xe_bad) by (vm_compute; reflexivity). now rewrite X. }
  assert (W : written_struct xe_bad) by repeat constructor.
  injection Q as Q1 Q2. apply passes_b_ok in Q1.
  apply and_thens_ok in Q2.
  exists lexer_env, xsy, xe_bad, d. split; [exact xsy_good|]. split; [exact W|]. split; [exact R|]. split; [exact R2|]. split.
  - intro S. apply (l_emit_meta_struct xsy _ _ W R) in S; auto.
  - intro S. apply (l_emit_attr_struct xsy _ _ GParse W R2) in S; auto.
Qed.

Definition both_b (d : senum) : bool :=
  existsb (fun v => negb (sv_true (h_skip v)) && b_true (h_flatten v) && b_true (h_transparent v)) (j_variants d).
Lemma both_b_ok d : both_b d = true <-> flat_and_transparent d.
Proof.
  unfold both_b, flat_and_transparent. rewrite existsb_exists. split; intros [v H]; exists v; rewrite !andb_true_iff, negb_true_iff in *; tauto.
Qed.
(** enum { A(#[deluxe(and_then = f)] i32), #[deluxe(flatten)] B { x, #[deluxe(flatten)] y },
    #[deluxe(transparent)] C(i32) } *)
Definition xe_enum : src_enum :=
  mkSrcEnum [sv "A" ShUnnamed [tf "and_then = f"] ""; sv "B" ShNamed [nf "x" ""; nf "y" "flatten"] "flatten";
             sv "C" ShUnnamed [tf ""] "transparent"] [].
Lemma ex_emit_enum : written_enum xe_enum /\
  exists d, derive_meta_enum xsy xe_enum = Ok d /\ derive_attr_enum xsy xe_enum = Ok d /\ ~ flat_and_transparent d.
Proof.
  split; [repeat constructor; discriminate|].
  destruct (use_ok (derive_meta_enum xsy xe_enum) both_b false) as [d [R Q]]; [vm_compute; reflexivity|].
  exists d. split; [exact R|]. split.
  - assert (X : derive_attr_enum xsy xe_enum = derive_meta_enum xsy xe_enum) by (vm_compute; reflexivity). now rewrite X.
  - intro B. apply both_b_ok in B. congruence.
Qed.
(** enum { #[deluxe(flatten, transparent)] V { x } } *)
Definition xe_both : src_enum := mkSrcEnum [sv "V" ShNamed [nf "x" ""] "flatten, transparent"] [].
Lemma ex_emit_both : exists (env : Env) sy i d, good_syn_lib sy /\ written_enum i /\
  derive_meta_enum sy i = Ok d /\ derive_attr_enum sy i = Ok d /\
  ~ Forall self_contained (emit_meta_enum d) /\ ~ Forall self_contained (emit_attr_enum GParse d).
Proof.
  destruct (use_ok (derive_meta_enum xsy xe_both) both_b true) as [d [R Q]]; [vm_compute; reflexivity|].
  assert (R2 : derive_attr_enum xsy xe_both = Ok d).
  { assert (X : derive_attr_enum xsy xe_both = derive_meta_enum xsy xe_both) by (vm_compute; reflexivity). now rewrite X. }
  assert (W : written_enum xe_both) by (repeat constructor; discriminate). apply both_b_ok in Q.
  exists lexer_env, xsy, xe_both, d. split; [exact xsy_good|]. split; [exact W|]. split; [exact R|]. split; [exact R2|]. split.
  - intro S. now apply (l_emit_meta_enum xsy _ _ W R) in S.
  - intro S. apply (l_emit_attr_enum xsy _ _ GParse W R2) in S; auto.
Qed.
