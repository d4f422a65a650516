(** Concrete sources for the examples of PropsSource.v. *)
From Verif Require Import LemWf LemSmall WfMore LemLocalD ExStruct.
From Verif Require Export LemSource2 ExSchema ExOpts.

Lemma plain_none os : flattens os = [] -> appends os = [] -> rests os = [] -> plain os.
Proof.
  intros A B C. split; [|split].
  - intros x I. assert (J : In x (flattens os)) by (apply in_flat_map; exists (OFlatten x); split; [auto|now left]). rewrite A in J. destruct J.
  - intros sp I. assert (J : In (true, sp) (appends os)) by (apply in_flat_map; exists (OAppend (true, sp)); split; [auto|now left]). rewrite B in J. destruct J.
  - intros sp I. assert (J : In (true, sp) (rests os)) by (apply in_flat_map; exists (ORest (true, sp)); split; [auto|now left]). rewrite C in J. destruct J.
Qed.
Definition simple_g (g : sfield) : bool :=
  match g_flatten g, g_append g, g_rest g with None, None, None => true | _, _, _ => false end.
Lemma read_plain f : rmap simple_g (read_field xsy f) = Ok true ->
  exists os, has_options (spells_f xsy) (sf_attrs f) os /\ plain os.
Proof.
  intro H. apply use_ok in H as [g [R Q]]. apply (l_field_ok xsy xsy_good) in R as [os [O [_ ->]]]. exists os. split; auto.
  unfold simple_g in Q. cbn [meaning_f g_flatten g_append g_rest] in Q.
  apply plain_none; [destruct (flattens os)|destruct (flattens os); [|discriminate Q]; destruct (appends os)|destruct (flattens os); [|discriminate Q]; destruct (appends os); [|discriminate Q]; destruct (rests os)]; auto; discriminate Q.
Qed.
Lemma read_all_plain fs : Forall (fun f => rmap simple_g (read_field xsy f) = Ok true) fs ->
  exists oss, Forall2 (fun f os => has_options (spells_f xsy) (sf_attrs f) os) fs oss /\ Forall plain oss.
Proof.
  induction 1 as [|f fs H F [oss [A B]]]; [exists []; split; constructor|]. destruct (read_plain f H) as [os [C D]]. exists (os :: oss). split; constructor; auto.
Qed.

(** struct { #[deluxe(rename = b, alias = c)] a, #[deluxe(default = 1)] n, #[deluxe(skip)] s } *)
Definition x_src : src_struct :=
  mkSrcStruct ShNamed [nf "a" "rename = b, alias = c"; nf "n" "default = 1"; nf "s" "skip"] [].
Definition x_ins : list stream := [root_stream (tk "c = 5")].
Definition x_low (d : sstruct) : sdef val := lower_struct xru [] (fun _ => []) (fun _ v => inl v) d.
Lemma impl_i32 f os : local_dict (impl_of xru f os).
Proof. unfold impl_of. destruct (withs os); apply fine_local; apply fine_i32. Qed.
Lemma x_src_ok : exists d oss,
  good_syn_lib xsy /\ good_rust xru /\ written_struct x_src /\ ss_shape x_src = ShNamed /\
  derived xsy (@TMeta val) x_src d /\
  Forall2 (fun f os => has_options (spells_f xsy) (sf_attrs f) os) (ss_fields x_src) oss /\
  has_options (spells_s xsy) (ss_attrs x_src) [] /\ Forall plain oss /\
  Forall2 (fun f os => local_dict (impl_of xru f os)) (ss_fields x_src) oss /\
  parse_run (x_low d) TMeta "" true (to_full_span Unnamed x_ins) x_ins (Ok [VI 5; VI 1; VI 0]).
Proof.
  destruct (use_ok (derive_meta_struct xsy x_src)
    (fun d => (fst (d_inline (struct_dict (x_low d)) Unnamed x_ins), s_accepts_all (x_low d), s_is_transparent (x_low d)))
    (Ok [VI 5; VI 1; VI 0], false, false)) as [d [R Q]]; [vm_compute; reflexivity|].
  injection Q as Q1 Q2 Q3.
  destruct (read_all_plain (ss_fields x_src)) as [oss [F P]]; [repeat constructor; vm_compute; reflexivity|].
  exists d, oss. split; [exact xsy_good|]. split; [exact xru_good|]. split; [repeat constructor; discriminate|].
  split; [reflexivity|]. split; [exact R|]. split; [exact F|]. split; [apply no_options|]. split; [exact P|]. split.
  - clear - F. induction F; constructor; auto. apply impl_i32.
  - rewrite <- Q1. change true with (negb false). rewrite <- Q2. now apply run_list.
Qed.

(** struct (_, #[deluxe(skip)] _, #[deluxe(default = 1)] _) *)
Definition x_srct : src_struct := mkSrcStruct ShUnnamed [tf ""; tf "skip"; tf "default = 1"] [].
Definition x_int : list stream := [root_stream (tk "5,")].
Lemma fine_impl f os : fine (impl_of xru f os) /\ uniform xru f os.
Proof. unfold uniform, impl_of. destruct (withs os); (split; [apply fine_i32|discriminate]). Qed.
Lemma x_srct_ok : exists d oss p,
  good_syn_lib xsy /\ good_rust xru /\ written_struct x_srct /\ ss_shape x_srct = ShUnnamed /\
  derived xsy (@TMeta val) x_srct d /\
  Forall2 (fun f os => has_options (spells_f xsy) (sf_attrs f) os) (ss_fields x_srct) oss /\
  has_options (spells_s xsy) (ss_attrs x_srct) [] /\ Forall plain oss /\
  Forall2 (fun f os => fine (impl_of xru f os) /\ uniform xru f os) (ss_fields x_srct) oss /\
  tuple_run (x_low d) TMeta p /\ no_blank x_int /\ whole p x_int [VI 5; VI 0; VI 1].
Proof.
  destruct (use_ok (derive_meta_struct xsy x_srct)
    (fun d => (fst (d_inline (struct_dict (x_low d)) Unnamed x_int), map toks (snd (d_inline (struct_dict (x_low d)) Unnamed x_int)), s_is_transparent (x_low d)))
    (Ok [VI 5; VI 0; VI 1], [[]], false)) as [d [R Q]]; [vm_compute; reflexivity|].
  injection Q as Q1 Q2 Q3.
  destruct (read_all_plain (ss_fields x_srct)) as [oss [F P]]; [repeat constructor; vm_compute; reflexivity|].
  exists d, oss, (d_inline (struct_dict (x_low d)) Unnamed). split; [exact xsy_good|]. split; [exact xru_good|]. split; [repeat constructor|].
  split; [reflexivity|]. split; [exact R|]. split; [exact F|]. split; [apply no_options|]. split; [exact P|]. split; [|split; [|split]].
  - clear - F. induction F; constructor; auto. apply fine_impl.
  - now apply TR_list.
  - unfold no_blank. vm_compute. intuition discriminate.
  - split; [exact Q1|]. destruct (snd _) as [|s1 [|s2 l]]; cbn [map] in Q2; try discriminate Q2. injection Q2 as Q2. constructor; [left; exact Q2|constructor].
Qed.
