(** A concrete struct and inputs for the examples beside the theorems of PropsStruct.v:

    struct Ex {
      a: i32,
      #[deluxe(alias = bb, default = "d", map = |v| vec![v])] b: String,
      o: Option<i32>,
      #[deluxe(default = 9)] n: i32,
    } *)
From Verif Require Export LemSplit WfMore TestKit.

Definition ex_s : sdef val :=
  mkStruct ShNamed
    [it "a" i32;
     mkField "b" ["b"; "bb"] (KItem string_) (Some (VT "d")) VU [TMap (fun v => VL [v])] false false;
     it "o" (opt_ i32); itd "n" i32 (VI 9)]
    None false false [] [["at"]].
(** the same with a struct-level default *)
Definition ex_d : sdef val :=
  mkStruct ShNamed (s_raw ex_s) (Some [VI 100; VT "sd"; VO None; VI 101]) false false [] [["at"]].

Lemma fine_i32 : fine i32. Proof. apply fine_map, fine_int. Qed.
Lemma fine_str : fine string_. Proof. apply fine_map, fine_string. Qed.
Lemma fine_opt_ d : fine d -> fine (opt_ d). Proof. intro. now apply fine_map, fine_option. Qed.
Lemma fine_field_k (f : field val) d : f_kind f = KItem d -> fine d -> local_field f.
Proof. intros K F. apply fine_field. rewrite K. exact F. Qed.

Lemma ex_fields_local : Forall local_field (s_raw ex_s).
Proof.
  repeat (apply Forall_cons; [eapply fine_field_k; [reflexivity|auto using fine_i32, fine_str, fine_opt_]|]).
  apply Forall_nil.
Qed.
Lemma ex_fields_stay : Forall stays_field (s_raw ex_s).
Proof. exact (local_stays_all _ ex_fields_local). Qed.
Lemma good_opt_i32 : good_dict (opt_ i32). Proof. apply good_map, good_option, good_i32. Qed.
Lemma ex_named : named_struct ex_s.
Proof.
  split; [|split; [reflexivity|discriminate]]. split; [|discriminate]. unfold ex_s. cbn [s_shape s_raw]. ga. apply good_opt_i32.
Qed.
Lemma ex_d_named : named_struct ex_d.
Proof.
  split; [|split; [reflexivity|intros t H; injection H as <-; reflexivity]]. split; [|discriminate].
  unfold ex_d, ex_s. cbn [s_shape s_raw]. ga. apply good_opt_i32.
Qed.
Ltac nth_cases :=
  repeat match goal with
  | H : nth_error _ ?i = Some _ |- _ => destruct i; cbn in H; [injection H as <-|]; try discriminate H
  end.
Lemma ex_distinct : distinct_names ex_s.
Proof.
  intros i j f g n Ni Nj _ _ If Ig.
  assert (Q : forall k h, nth_error (s_raw ex_s) k = Some h ->
     (k = 0 /\ f_names h = ["a"]) \/ (k = 1 /\ f_names h = ["b"; "bb"]) \/ (k = 2 /\ f_names h = ["o"]) \/ (k = 3 /\ f_names h = ["n"])).
  { intros [|[|[|[|[|k]]]]] h H; cbn in H; try discriminate; injection H as <-; cbn; tauto. }
  destruct (Q i f Ni) as [[-> E]|[[-> E]|[[-> E]|[-> E]]]]; destruct (Q j g Nj) as [[-> E']|[[-> E']|[[-> E']|[-> E']]]];
    auto; rewrite E in If; rewrite E' in Ig; cbn in If, Ig; intuition congruence.
Qed.
Lemma ex_no_flat : no_flat ex_s. Proof. reflexivity. Qed.

(** `bb = "x", a(1), ` in one stream, and in two *)
Definition ex_seg1 : list token := tk "bb = ""x""".
Definition ex_seg2 : list token := tk "        a(1)".
Definition ex_comma : token := TPunct "," false SCall.
Definition ex_in : list stream := [root_stream (ex_seg1 ++ ex_comma :: ex_seg2 ++ [ex_comma])].
Definition ex_in2 : list stream := [root_stream (ex_seg1 ++ [ex_comma]); root_stream ex_seg2].
Definition ex_in3 : list stream := [root_stream (ex_seg2 ++ ex_comma :: ex_seg1)].

Lemma ex_nc1 : no_comma ex_seg1.
Proof. unfold ex_seg1. vm_compute. repeat constructor; intros [j [sp H]]; discriminate. Qed.
Lemma ex_nc2 : no_comma ex_seg2.
Proof. unfold ex_seg2. vm_compute. repeat constructor; intros [j [sp H]]; discriminate. Qed.
Lemma ex_cm : comma_tok ex_comma. Proof. eexists _, _. reflexivity. Qed.
Lemma ex_hold : hold ex_in [ex_seg1; ex_seg2].
Proof.
  exists [[ex_seg1; ex_seg2]]. split; [|reflexivity]. constructor; [|constructor]. cbn [toks root_stream].
  apply Li_more; [apply ex_nc1|apply ex_cm|discriminate|]. apply Li_trailing; [apply ex_nc2|apply ex_cm].
Qed.
Lemma ex_items : items_of ex_in = items_of ex_in2 /\ Permutation (items_of ex_in) (items_of ex_in3).
Proof. split; [reflexivity|]. vm_compute. apply perm_swap. Qed.
Definition ex_asg : list (nat * val) := [(1, VT "x"); (0, VI 1)].
Ltac item_ex l n :=
  eexists; split; [reflexivity|split; [reflexivity|]];
  exists l, (firstn 1 n), (skipn 1 n); split; [reflexivity|split; [constructor|split; [intros [? [? [? [? H]]]]; discriminate H|]]].
Lemma ex_written : Forall2 (fun seg iw => exists f, nth_error (s_raw ex_s) (fst iw) = Some f /\ pitem f = true /\
             item_for "" f seg (snd iw)) [ex_seg1; ex_seg2] ex_asg.
Proof.
  constructor; [|constructor; [|constructor]].
  - item_ex [("bb", SAt 0)] ex_seg1. split; [exists "bb"; split; [right; left; reflexivity|reflexivity]|].
    eexists. split; [reflexivity|]. intros tl sc c E. split; reflexivity.
  - item_ex [("a", SAt 8)] ex_seg2. split; [exists "a"; split; [left; reflexivity|reflexivity]|].
    eexists. split; [reflexivity|]. intros tl sc c E. split; reflexivity.
Qed.

Lemma ex_missing : let f := it "a" i32 in
  nth_error (s_raw ex_s) 0 = Some f /\ no_missing_value i32 /\
  ~ has_key "" f [root_stream (tk "bb = ""x"", n = 2")] /\
  missing_msg TMeta "" f = "missing required field `a`".
Proof.
  intro f. refine (conj eq_refl (conj _ (conj _ eq_refl))).
  - intros n sp. reflexivity.
  - intros [k [ksp [I [n [N E]]]]]. vm_compute in I. destruct N as [<-|[]]. cbn in E. subst k. intuition discriminate.
Qed.
Definition ex_dup : list stream := [root_stream (tk "n = 1, b = ""x"", bb = ""y""")].
Definition ex_unk : list stream := [root_stream (tk "a = ""q"", zz = 1")].
Ltac sound1 k :=
  eexists _, _, _; split; [vm_compute; reflexivity|]; intros i f O;
  match type of O with ?x = _ => let y := eval hnf in x in change (y = Some (i, f)) in O end;
  try discriminate O; injection O as <- <-; k.
Ltac acc := left; eexists; intros tl sc c E; split; reflexivity.
Ltac rej := right; intros tl sc c E; eexists; reflexivity.
Lemma ex_dup_ok : sound_input ex_s TMeta "" true ex_dup /\
  keys_in ex_dup = [("n", SAt 0); ("b", SAt 7)] ++ ("bb", SAt 16) :: [] /\
  map e_msg (match fst (d_inline (struct_dict ex_s) Unnamed ex_dup) with Err e => errs_of e | _ => [] end)
  = ["duplicate attribute for `b`"; "missing required field `a`"].
Proof.
  split; [|split; vm_compute; reflexivity]. unfold sound_input. 
  let x := eval vm_compute in (items_of ex_dup) in change (items_of ex_dup) with x.
  repeat (apply Forall_cons; [sound1 acc|]). apply Forall_nil.
Qed.
Lemma ex_unknown_ok : sound_input ex_s TMeta "" true ex_unk /\
  keys_in ex_unk = [("a", SAt 0); ("zz", SAt 9)] /\ fn_names (struct_fn ex_s) = ["a"; "b"; "bb"; "o"; "n"].
Proof.
  split; [|split; vm_compute; reflexivity]. unfold sound_input. 
  let x := eval vm_compute in (items_of ex_unk) in change (items_of ex_unk) with x.
  apply Forall_cons; [sound1 rej|]. apply Forall_cons; [sound1 idtac|]. apply Forall_nil.
Qed.
Lemma ex_dup_refuted : exists (env : Env) (s : sdef val) inputs r e k1 sp1 k2 sp2 a b c f,
  parse_run s TMeta "" true SCall inputs r /\ named_struct s /\ distinct_names s /\
  Forall stays_field (s_raw s) /\ nth_error (s_raw s) 3 = Some f /\ pitem f = true /\
  named_by "" f k1 /\ named_by "" f k2 /\
  keys_in inputs = a ++ (k1, sp1) :: b ++ (k2, sp2) :: c /\ r = Err e /\
  forall x, In x (errs_of e) -> e_msg x <> ("duplicate attribute for `" ++ first_name f ++ "`")%string.
Proof.
  pose (ins := [root_stream (tk "a = 1 2, n = 1, n = 2")]).
  exists lexer_env, ex_s, ins, (fst (d_inline (struct_dict ex_s) (Named SCall) ins)).
  destruct (fst (d_inline (struct_dict ex_s) (Named SCall) ins)) as [v|e|b] eqn:E; try (vm_compute in E; discriminate).
  exists e, "n", (SAt 9), "n", (SAt 16), [("a", SAt 0)], [], [], (itd "n" i32 (VI 9)).
  refine (conj _ (conj ex_named (conj ex_distinct (conj ex_fields_stay (conj eq_refl (conj eq_refl (conj _ (conj _ (conj _ (conj eq_refl _)))))))))).
  - rewrite <- E. exact (run_list ex_s (Named SCall) ins eq_refl).
  - exists "n". split; [left|]; reflexivity.
  - exists "n". split; [left|]; reflexivity.
  - vm_compute. reflexivity.
  - vm_compute in E. injection E as <-. intros x [<-|[]]; discriminate.
Qed.
Lemma ex_unknown_refuted : exists (env : Env) (s : sdef val) inputs r e k ksp,
  parse_run s TMeta "" true SCall inputs r /\ named_struct s /\ Forall stays_field (s_raw s) /\
  s_unknown_ok s = false /\ In (k, ksp) (keys_in inputs) /\ ~ In k (fn_names (struct_fn s)) /\
  r = Err e /\ forall x, In x (errs_of e) -> ~ unknown_msg k (e_msg x).
Proof.
  pose (ins := [root_stream (tk "a = 1 2, zz = 1")]).
  exists lexer_env, ex_s, ins, (fst (d_inline (struct_dict ex_s) (Named SCall) ins)).
  destruct (fst (d_inline (struct_dict ex_s) (Named SCall) ins)) as [v|e|b] eqn:E; try (vm_compute in E; discriminate).
  exists e, "zz", (SAt 9).
  refine (conj _ (conj ex_named (conj ex_fields_stay (conj eq_refl (conj _ (conj _ (conj eq_refl _))))))).
  - rewrite <- E. exact (run_list ex_s (Named SCall) ins eq_refl).
  - vm_compute. auto.
  - vm_compute. intuition discriminate.
  - vm_compute in E. injection E as <-. intros x [<-|[]] [U|[y U]]; discriminate.
Qed.
Lemma ex_default :
  fst (d_inline (struct_dict ex_s) Unnamed ex_in) = Ok [VI 1; VL [VT "x"]; VO None; VI 9] /\
  fst (d_inline (struct_dict ex_s) Unnamed [root_stream ex_seg2]) = Ok [VI 1; VL [VT "d"]; VO None; VI 9] /\
  ~ has_key "" (itd "n" i32 (VI 9)) ex_in.
Proof.
  refine (conj _ (conj _ _)); [vm_compute; reflexivity|vm_compute; reflexivity|].
  intros [k [ksp [I [n [N E]]]]]. vm_compute in I. destruct N as [<-|[]]. cbn in E. subst k. intuition discriminate.
Qed.
Definition ex_flat_tuple : sdef val :=
  withattrs (tuple [flatu (sfu (tuple [pos i32; pos i32])); pos i32]) [["at"]].
Lemma ex_split_refuted : exists (env : Env) (s : sdef val) conv one two ws e,
  accepted_struct s /\
  concat (map (fun a => match a_meta a with MList _ ts => items ts | _ => [] end) one) =
  concat (map (fun a => match a_meta a with MList _ ts => items ts | _ => [] end) two) /\
  struct_parse_attributes s conv (ONode one) = Ok ws /\
  struct_parse_attributes s conv (ONode two) = Err e.
Proof.
  exists lexer_env, ex_flat_tuple, cv, [al ["at"] "1, 2, 3"], [al ["at"] "1"; al ["at"] "   2, 3"].
  eexists _, _. refine (conj _ (conj _ (conj _ _))).
  - split; [|discriminate]. unfold ex_flat_tuple. cbn [withattrs s_shape s_raw]. ga. apply good_fu_map, good_struct_fu. split; [ga|discriminate].
  - vm_compute. reflexivity.
  - vm_compute. reflexivity.
  - vm_compute. reflexivity.
Qed.
Lemma ex_blank_refuted : exists (env : Env) (s : sdef val) conv one two ws e,
  accepted_struct s /\ Forall (fun f => exists d, f_kind f = KItem d) (s_raw s) /\
  concat (map (fun a => match a_meta a with MList _ ts => items ts | _ => [] end) one) =
  concat (map (fun a => match a_meta a with MList _ ts => items ts | _ => [] end) two) /\
  struct_parse_attributes s conv (ONode one) = Err e /\
  struct_parse_attributes s conv (ONode two) = Ok ws.
Proof.
  exists lexer_env, (withattrs (tuple [pos i32; pos i32]) [["at"]]), cv, [al ["at"] "1, 2,,"], [al ["at"] "1, 2"; al ["at"] ","].
  eexists _, _. refine (conj _ (conj _ (conj _ (conj _ _)))).
  - split; [|discriminate]. cbn [withattrs s_shape s_raw]. ga.
  - repeat constructor; eexists; reflexivity.
  - vm_compute. reflexivity.
  - vm_compute. reflexivity.
  - vm_compute. reflexivity.
Qed.
Lemma ex_split : items_of ex_in = items_of ex_in2 /\ length ex_in = 1 /\ length ex_in2 = 2 /\
  Forall textual_field (s_raw ex_s) /\ no_blank ex_in.
Proof.
  refine (conj (proj1 ex_items) (conj eq_refl (conj eq_refl (conj _ _)))).
  - repeat (apply Forall_cons; [intro H; discriminate H|]). apply Forall_nil.
  - unfold no_blank. vm_compute. intuition discriminate.
Qed.
