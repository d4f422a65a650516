(** Concrete sources for the examples and counterexamples of PropsOpts.v. *)
From Verif Require Import LemWf LemSmall WfMore.
From Verif Require Export LemOpts8 ExSchema.

(** #[deluxe(rename = b, alias = c, skip)] #[deluxe(map = f)] a *)
Definition x_field : src_field := mkSrcField (Some ("a", SCall)) [da "rename = b, alias = c, skip"; da "map = f"] [].
Lemma x_field_ok : exists g, read_field xsy x_field = Ok g /\ map fst (g_idents g) = ["b"; "c"] /\ opt_some (g_skip g) = true /\
  length (g_transforms g) = 1.
Proof.
  destruct (use_ok (read_field xsy x_field) (fun g => (map fst (g_idents g), opt_some (g_skip g), length (g_transforms g))) (["b"; "c"], true, 1)) as [g [R Q]];
    [vm_compute; reflexivity|]. injection Q as Q1 Q2 Q3. exists g. auto.
Qed.
(** #[deluxe(flatten, rename = b)] a *)
Definition x_conf : src_field := nf "a" "flatten, rename = b".
Lemma x_conf_options : exists os, has_options (spells_f xsy) (sf_attrs x_conf) os /\ ~ consistent_f x_conf os.
Proof.
  eexists. split.
  - eexists. eexists. split; [constructor; [apply AC_list|constructor]|]. split.
    + econstructor; [|constructor]. eapply W_more; [discriminate|eexists; split; [vm_compute; reflexivity|split; vm_compute; reflexivity]
        |apply SF_flatten; [reflexivity|vm_compute; reflexivity]|vm_compute; reflexivity|eexists; eexists; reflexivity|].
      eapply W_last; [discriminate|eexists; split; [vm_compute; reflexivity|split; vm_compute; reflexivity]
        |apply SF_rename; [reflexivity|vm_compute; reflexivity]|reflexivity].
    + constructor; [|constructor]. split; [left; reflexivity|right; reflexivity].
  - intros [_ [[_ [_ [_ [N _]]]] _]]. destruct N as [N|N]; discriminate N.
Qed.
(** #[deluxe(default = 1, skip)] a *)
Definition x_swallow : src_field := nf "a" "default = 1, skip".
Lemma x_swallow_ok : exists g, read_field xsy x_swallow = Ok g /\ g_skip g = None /\ option_map (fun d => match d with DExpr ts => length ts | DDefault _ => 0 end) (g_default g) = Some 3.
Proof.
  destruct (use_ok (read_field xsy x_swallow) (fun g => (match g_skip g with None => true | _ => false end, option_map (fun d => match d with DExpr ts => length ts | DDefault _ => 0 end) (g_default g)))
    (true, Some 3)) as [g [R Q]]; [vm_compute; reflexivity|].
  injection Q as Q1 Q2. exists g. split; auto. split; auto. destruct (g_skip g); [discriminate Q1|reflexivity].
Qed.
Lemma no_options {O} (spells : string -> span -> stream -> O -> stream -> Prop) : has_options spells [] [].
Proof. exists [], []. split; [constructor|split; constructor]. Qed.
Lemma read_means f g : read_field xsy f = Ok g -> field_means xsy f g.
Proof. apply (l_field_ok xsy xsy_good). Qed.
Definition two_names (gs : list sfield) : list string := map fst (flat_map g_idents gs).
Lemma read_two (f1 f2 : src_field) ns : rbind (read_field xsy f1) (fun a => rmap (fun b => two_names [a; b]) (read_field xsy f2)) = Ok ns ->
  exists gs, Forall2 (field_means xsy) [f1; f2] gs /\ map fst (flat_map g_idents gs) = ns.
Proof.
  destruct (read_field xsy f1) as [a|e|b] eqn:A; try discriminate. destruct (read_field xsy f2) as [b|e|b] eqn:B; try discriminate. cbn [rbind rmap].
  intro H. injection H as <-. exists [a; b]. split; [|reflexivity]. repeat constructor; now apply read_means.
Qed.
(** struct { #[deluxe(alias = b)] a, b } *)
Lemma x_clash_conf : exists gs os, Forall2 (field_means xsy) (ss_fields x_clash) gs /\ has_options (spells_s xsy) (ss_attrs x_clash) os /\
  ~ consistent_s (ss_shape x_clash) gs os.
Proof.
  destruct (read_two (nf "a" "alias = b") (nf "b" "") ["a"; "b"; "b"]) as [gs [F N]]; [vm_compute; reflexivity|].
  exists gs, []. split; [exact F|]. split; [apply no_options|].
  intros [_ [_ [_ [_ [ND _]]]]]. rewrite N in ND. inversion ND as [|? ? _ N2]; subst. inversion N2 as [|? ? N3 _]; subst. apply N3. now left.
Qed.
(** #[deluxe(allow_unknown_fields)] V(a) *)
Definition x_vconf : src_variant := sv "V" ShUnnamed [] "allow_unknown_fields".
Lemma x_vconf_conf : snake_ok x_vconf /\ exists gs os, Forall2 (field_means xsy) (sv_fields x_vconf) gs /\ has_options spells_v (sv_attrs x_vconf) os /\
  ~ consistent_v x_vconf gs os.
Proof.
  split; [apply snake_ok_text; reflexivity|]. exists []. eexists. split; [constructor|]. split.
  - eexists. eexists. split; [constructor; [apply AC_list|constructor]|]. split.
    + econstructor; [|constructor]. eapply W_last; [discriminate|eexists; split; [vm_compute; reflexivity|split; vm_compute; reflexivity]
        |apply SV_unknown; [reflexivity|vm_compute; reflexivity]|reflexivity].
    + constructor; [|constructor]. split; [left; reflexivity|right; reflexivity].
  - intros [_ [_ [U _]]]. apply U; [discriminate|reflexivity].
Qed.
(** enum { A, #[deluxe(rename = a)] B } *)
Definition x_two : src_enum := mkSrcEnum [sv "A" ShUnit [] ""; sv "B" ShUnit [] "rename = a"] [].
Lemma x_two_written : written_enum x_two /\ Forall snake_ok (se_variants x_two).
Proof. split; [repeat constructor|]. repeat (apply Forall_cons; [apply snake_ok_text; reflexivity|]). apply Forall_nil. Qed.
Lemma x_two_conf : exists vs os, Forall2 (variant_means xsy) (se_variants x_two) vs /\ has_options (spells_e xsy) (se_attrs x_two) os /\
  ~ consistent_e vs os.
Proof.
  assert (exists vs, Forall2 (variant_means xsy) (se_variants x_two) vs /\ map fst (flat_map h_idents (filter ordinary vs)) = ["a"; "a"]) as [vs [F N]].
  { assert (H : rbind (read_variant xsy (sv "A" ShUnit [] "")) (fun a => rmap (fun b => map fst (flat_map h_idents (filter ordinary [a; b]))) (read_variant xsy (sv "B" ShUnit [] "rename = a"))) = Ok ["a"; "a"]) by (vm_compute; reflexivity).
    destruct (read_variant xsy (sv "A" ShUnit [] "")) as [a|e|b] eqn:A; try discriminate. destruct (read_variant xsy (sv "B" ShUnit [] "rename = a")) as [b|e|b] eqn:B; try discriminate. cbn [rbind rmap] in H.
    exists [a; b]. split; [|congruence]. repeat constructor; now apply (l_variant_ok xsy xsy_good). }
  exists vs, []. split; auto. split; [apply no_options|].
  intros [_ [ND _]]. rewrite N in ND. inversion ND as [|? ? N2 _]; subst. apply N2. now left.
Qed.
