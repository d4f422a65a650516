(** The options of an enum: what it is when it is accepted. *)
From Verif Require Import LemWf LemWfD LemWfE LemSmall LemItems LemAttr LemEnum4 LemSchema6.
From Verif Require Export LemOpts5.

(** *** keys *)
Definition named_req (v : svariant) : Prop := Forall (fun f => required f -> g_idents f <> []) (h_fields v).
Lemma key_in v x : In x (schema_key v) <-> x <> [] /\ exists f, In f (h_fields v) /\ x = set_of str_cmp (req_names f).
Proof.
  unfold schema_key. rewrite set_of_in by (apply cmp_list_eq; apply str_cmp_eq). rewrite filter_In, in_map_iff. split.
  - intros [[f [<- I]] X]. split; [intro E; rewrite E in X; discriminate X|eauto].
  - intros [N [f [I ->]]]. split; [eauto|]. destruct (set_of str_cmp (req_names f)); auto.
Qed.
Lemma key_req v f : named_req v -> In f (h_fields v) -> required f -> In (set_of str_cmp (map fst (g_idents f))) (schema_key v).
Proof.
  intros N I R. unfold named_req in N. rewrite Forall_forall in N. apply key_in. split.
  - intro E. apply (proj1 (set_of_nil str_cmp _ str_cmp_eq)) in E. apply map_eq_nil in E. exact (N f I R E).
  - exists f. split; auto. now rewrite (proj2 (req_required f) R).
Qed.
Lemma key_out v x : In x (schema_key v) -> exists f, In f (h_fields v) /\ required f /\ x = set_of str_cmp (map fst (g_idents f)).
Proof.
  intro I. apply key_in in I as [N [f [I ->]]].
  assert (R : required f). { apply (proj1 (req_required f)). intro E. apply N. rewrite E. reflexivity. }
  exists f. split; auto. split; auto. now rewrite (proj2 (req_required f) R).
Qed.
Lemma same_set a b : set_of str_cmp a = set_of str_cmp b <-> forall n, In n a <-> In n b.
Proof.
  split; [|apply (set_of_ext str_cmp order_str)].
  intros E n. rewrite <- (set_of_in str_cmp str_cmp_eq a), <- (set_of_in str_cmp str_cmp_eq b), E. tauto.
Qed.
Lemma key_covered v w : named_req v -> schema_key v = schema_key w -> covered v w.
Proof.
  intros N E f I R. pose proof (key_req v f N I R) as K. rewrite E in K. apply key_out in K as [g [J [Rg S]]].
  exists g. split; auto. split; auto. exact (proj1 (same_set _ _) S).
Qed.
Lemma key_same v w : named_req v -> named_req w -> schema_key v = schema_key w <-> covered v w /\ covered w v.
Proof.
  intros N M. split; [intro E; split; apply key_covered; auto|]. intros [A B]. now apply covered_key.
Qed.
Lemma key_tag v w : named_req v -> h_idents w <> [] -> schema_key v = tag_key w <-> like_tag v w.
Proof.
  intros N W. split.
  - intro E. unfold tag_key in E. split.
    + assert (I : In (set_of str_cmp (map fst (h_idents w))) (schema_key v)) by (rewrite E; now left).
      apply key_out in I as [f [I [R _]]]. exists f. auto.
    + intros f I R. apply (proj1 (same_set _ _)). pose proof (key_req v f N I R) as K. rewrite E in K. destruct K as [K|[]]. auto.
  - intros [[f [I R]] H]. replace (tag_key w) with (set_of (cmp_list str_cmp) (tag_key w)) by reflexivity.
    unfold schema_key. apply (set_of_ext _ (order_list _ order_str)). intro x. rewrite <- (set_of_in (cmp_list str_cmp)) by (apply cmp_list_eq; apply str_cmp_eq).
    fold (schema_key v). split.
    + intro K. apply key_out in K as [g [J [Rg ->]]]. left. apply same_set. intro n. symmetry. now apply H.
    + intros [<-|[]]. replace (set_of str_cmp (map fst (h_idents w))) with (set_of str_cmp (map fst (g_idents f))); [now apply key_req|].
      apply same_set. now apply H.
Qed.
Lemma key_nil v : named_req v -> schema_key v <> [] <-> some_required v.
Proof.
  intro N. split.
  - destruct (schema_key v) as [|x l] eqn:E; [congruence|]. intros _. assert (I : In x (schema_key v)) by (rewrite E; now left).
    apply key_out in I as [f [I [R _]]]. exists f. auto.
  - intros [f [I R]] E. pose proof (key_req v f N I R) as K. rewrite E in K. destruct K.
Qed.

(** *** the checks *)
Section C.
Context {env : Env}.
Lemma extra_ok c : bare c -> extra_container c [] = [].
Proof. intros [A B]. unfold extra_container. rewrite A, B. reflexivity. Qed.
Lemma tagged_all : forall vs seen (cont : bool) keys, NoDup (map fst (seen ++ flat_map h_idents (filter ordinary vs))) ->
  (cont = true -> forall v c, In v vs -> variant_container v = Some c -> bare c) ->
  (forall l1 v l2 w l3 c, vs = l1 ++ v :: l2 ++ w :: l3 -> variant_container v <> None -> variant_container w = Some c -> bare c) ->
  tagged_checks vs seen cont keys [] = (keys ++ map tag_key (filter ordinary vs), []).
Proof.
  induction vs as [|v vs IH]; intros seen cont keys N B1 B2; cbn [tagged_checks]; [now rewrite app_nil_r|].
  set (q := match variant_container v with Some c => _ | None => _ end).
  assert (Q : q = (match variant_container v with Some _ => true | None => cont end, [])).
  { unfold q. destruct (variant_container v) as [c|] eqn:VC; [|reflexivity]. destruct cont; [|reflexivity]. rewrite extra_ok; auto. apply (B1 eq_refl v c); auto. now left. }
  rewrite Q. set (cont1 := match variant_container v with Some _ => true | None => cont end).
  assert (B1' : cont1 = true -> forall w c, In w vs -> variant_container w = Some c -> bare c).
  { unfold cont1. intros E w c I W. destruct (variant_container v) eqn:VC.
    - apply in_split in I as [l2 [l3 ->]]. apply (B2 [] v l2 w l3 c); auto. congruence.
    - apply (B1 E w c); auto. now right. }
  assert (B2' : forall l1 v0 l2 w l3 c, vs = l1 ++ v0 :: l2 ++ w :: l3 -> variant_container v0 <> None -> variant_container w = Some c -> bare c).
  { intros l1 v0 l2 w l3 c -> . apply (B2 (v :: l1) v0 l2 w l3 c). reflexivity. }
  cbn [filter] in *. fold (ordinary v). destruct (ordinary v); cbn [flat_map map] in *.
  - rewrite app_assoc in N. rewrite dup_names_all by (rewrite map_app in N; now apply nodup_app_l in N).
    rewrite IH; auto. now rewrite <- app_assoc.
  - apply IH; auto.
Qed.
Lemma flat_all : forall vs keys, Forall (fun v => flattened v = true -> sv_shape (h_src v) = ShNamed) vs ->
  (forall v, In v vs -> flattened v = true -> ~ In (schema_key v) keys) ->
  (forall a v b w c, vs = a ++ v :: b ++ w :: c -> flattened v = true -> flattened w = true -> schema_key v <> schema_key w) ->
  flat_checks vs keys [] = (keys ++ map schema_key (filter flattened vs), []).
Proof.
  induction vs as [|v vs IH]; intros keys F K D; cbn [flat_checks]; [now rewrite app_nil_r|].
  inversion F as [|? ? F1 F2]; subst. assert (D' : forall a v b w c, vs = a ++ v :: b ++ w :: c -> flattened v = true -> flattened w = true -> schema_key v <> schema_key w).
  { intros a v0 b w c ->. apply (D (v :: a) v0 b w c). reflexivity. }
  cbn [filter]. fold (flattened v). destruct (flattened v) eqn:FV.
  - rewrite (F1 eq_refl). destruct (existsb (key_eqb (schema_key v)) keys) eqn:EX.
    + apply existsb_exists in EX as [k [I E]]. apply key_eqb_spec in E. subst k. exfalso. apply (K v); auto. now left.
    + rewrite IH; auto.
      * cbn [map]. now rewrite <- app_assoc.
      * intros w I FW J. apply in_app_or in J as [J|[J|[]]]; [apply (K w); auto; now right|].
        apply in_split in I as [l2 [l3 ->]]. apply (D [] v l2 w l3); auto.
  - apply IH; auto. intros w I. apply K. now right.
Qed.
(** the first check alone *)
Lemma flat_first : forall vs keys es keys', flat_checks vs keys es = (keys', []) ->
  (forall v, In v vs -> flattened v = true -> ~ In (schema_key v) keys) /\
  (forall a v b w c, vs = a ++ v :: b ++ w :: c -> flattened v = true -> flattened w = true -> schema_key v <> schema_key w).
Proof.
  induction vs as [|v vs IH]; intros keys es keys'; cbn [flat_checks].
  - intros _. split; [intros v []|intros [|? ?] ? ? ? ? X; discriminate X].
  - fold (flattened v). destruct (flattened v) eqn:FV.
    + destruct (sv_shape (h_src v)); try (intro H; apply flat_inv in H as [H _]; apply push_nil in H; contradiction).
      destruct (existsb (key_eqb (schema_key v)) keys) eqn:EX; [intro H; apply flat_inv in H as [H _]; apply push_nil in H; contradiction|].
      intro H. apply IH in H as [H1 H2].
      assert (NK : ~ In (schema_key v) keys).
      { intro I. assert (X : existsb (key_eqb (schema_key v)) keys = true); [|congruence]. apply existsb_exists. exists (schema_key v). split; auto. now apply key_eqb_spec. }
      split.
      * intros w [<-|I] FW; auto. intro J. apply (H1 w I FW). apply in_or_app. auto.
      * intros [|x a] v0 b w c E; cbn [app] in E; injection E as -> E; [|now apply (H2 a v0 b w c)].
        intros _ FW K. apply (H1 w); auto; [rewrite E; apply in_or_app; right; now left|]. rewrite <- K. apply in_or_app. right. now left.
    + intro H. apply IH in H as [H1 H2]. split.
      * intros w [<-|I] FW; auto. congruence.
      * intros [|x a] v0 b w c E; cbn [app] in E; injection E as -> E; [congruence|now apply (H2 a v0 b w c)].
Qed.
Lemma enum_checks_ok vs ds es :
  Forall named_req (filter flattened vs) \/ ~ Forall (fun v => flattened v = true -> sv_shape (h_src v) = ShNamed) vs ->
  Forall (fun v => h_idents v <> []) (filter ordinary vs) ->
  enum_checks vs (status ds) es = [] <->
  es = [] /\ NoDup (map fst (flat_map h_idents (filter ordinary vs))) /\
  (forall v, In v vs -> flattened v = true -> sv_shape (h_src v) = ShNamed) /\
  (forall v w, In v vs -> In w vs -> flattened v = true -> ordinary w = true -> ~ like_tag v w) /\
  (forall a v b w c, vs = a ++ v :: b ++ w :: c -> flattened v = true -> flattened w = true ->
     ~ (covered v w /\ covered w v)) /\
  (forall a v b w c x y, vs = a ++ v :: b ++ w :: c -> container_of v = Some x -> container_of w = Some y ->
     fc_lifetime y = None /\ fc_ty y = None) /\
  (ds <> [] -> forall v, In v vs -> flattened v = true -> some_required v).
Proof.
  intros NR NO.
  assert (NR2 : Forall (fun v => flattened v = true -> sv_shape (h_src v) = ShNamed) vs -> forall v, In v vs -> flattened v = true -> named_req v).
  { intros F v I FV. destruct NR as [NR|NR]; [|contradiction]. rewrite Forall_forall in NR. apply NR, filter_In. auto. }
  rewrite Forall_forall in NO.
  assert (TAG : forall v keys, ~ In (schema_key v) (keys ++ map tag_key (filter ordinary vs)) -> forall w, In w vs -> ordinary w = true -> schema_key v <> tag_key w).
  { intros v keys H w I O E. apply H. rewrite E. apply in_or_app. right. apply in_map, filter_In. auto. }
  unfold enum_checks. split.
  - destruct (tagged_checks vs [] false [] es) as [keys es1] eqn:TC. destruct (flat_checks vs keys es1) as [keys2 es2] eqn:FC. intro CH.
    assert (G : es2 = [] /\ (ds = [] \/ existsb (key_eqb []) keys2 = false)).
    { destruct ds; cbn [status] in CH; auto. destruct (existsb (key_eqb []) keys2); auto. apply push_nil in CH. contradiction. }
    destruct G as [-> G]. pose proof (flat_first _ _ _ _ FC) as [K1 K2]. apply flat_inv in FC as [-> [-> [_ FL]]]. apply tagged_inv in TC as [-> [-> [NN [_ B]]]].
    assert (NQ : forall v, In v vs -> flattened v = true -> named_req v) by (apply NR2; exact FL).
    rewrite Forall_forall in FL. split; auto. split; [apply NN; constructor|]. split; [intros v I FV; now apply FL|].
    split; [|split; [|split]].
    + intros v w I J FV OW L. apply (TAG v [] (K1 v I FV) w J OW). apply key_tag; auto. apply NO, filter_In. auto.
    + intros a v b w c E FV FW X. apply (K2 a v b w c E FV FW). apply key_same; auto; apply NQ; auto; rewrite E; apply in_or_app; right; [now left|].
      right. apply in_or_app. right. now left.
    + intros a v b w c x y E X Y. apply (B a v b w c y E); auto. change (container_of v <> None). congruence.
    + intros D v I FV. destruct G as [G|G]; [congruence|]. apply key_nil; auto. intro E.
      assert (X : existsb (key_eqb []) ((map tag_key (filter ordinary vs)) ++ map schema_key (filter flattened vs)) = true); [|cbn [app] in G; congruence].
      apply existsb_exists. exists []. split; [|now apply key_eqb_spec]. apply in_or_app. right. apply in_map_iff. exists v. split; auto. apply filter_In. auto.
  - intros [-> [N [FL [LT [CO [B D]]]]]].
    assert (FL2 : Forall (fun v => flattened v = true -> sv_shape (h_src v) = ShNamed) vs) by (apply Forall_forall; auto).
    pose proof (NR2 FL2) as NQ.
    rewrite tagged_all; [|exact N|discriminate|].
    2: { intros l1 v l2 w l3 c E V W. change (container_of v <> None) in V. destruct (container_of v) as [x|] eqn:CV; [|congruence]. exact (B _ _ _ _ _ _ _ E CV W). }
    rewrite flat_all; auto.
    + destruct ds as [|x ds]; [reflexivity|]. cbn [status].
      destruct (existsb (key_eqb []) (([] ++ map tag_key (filter ordinary vs)) ++ map schema_key (filter flattened vs))) eqn:EX; [|reflexivity].
      apply existsb_exists in EX as [k [I E]]. apply key_eqb_spec in E. subst k. exfalso. cbn [app] in I.
      apply in_app_or in I as [I|I]; apply in_map_iff in I as [v [E I]]; [discriminate E|]. apply filter_In in I as [I FV].
      apply (key_nil v (NQ v I FV)); auto. apply D; auto. discriminate.
    + cbn [app]. intros v I FV J. apply in_map_iff in J as [w [E J]]. apply filter_In in J as [J OW]. apply (LT v w I J FV OW). apply key_tag; auto.
      apply NO, filter_In. auto.
    + intros a v b w c E FV FW X. apply (CO a v b w c E FV FW). apply key_same; auto; apply NQ; auto; rewrite E; apply in_or_app; right; [now left|].
      right. apply in_or_app. right. now left.
Qed.
End C.

(** *** the options *)
Section E.
Context {env : Env}.
Variable sy : synlib.
Hypothesis SY : good_syn_lib sy.
Definition inc_e (l : list eopt) : Prop := once (e_defaults l) /\ once (e_crates l) /\ once (e_unknowns l).
Definition rep_e (l : list eopt) (st : ust) : Prop :=
  inc_e l /\ st = mkUst (status (e_defaults l)) (status (e_crates l)) (e_and_thens_of l) (e_attributes_of l) (status (e_unknowns l)).
Ltac norm := unfold e_defaults, e_crates, e_and_thens_of, e_attributes_of, e_unknowns in *;
  rewrite ?flat_map_app in *; cbn [flat_map] in *; rewrite ?app_nil_r in *.
Lemma inc_e_prefix a b : inc_e (a ++ b) -> inc_e a.
Proof. unfold inc_e. intros [A1 [A2 A3]]. norm. repeat split; eapply once_app; eassumption. Qed.
Lemma enum_keys k sp st es s st' s' : enum_arm sy k sp st es s = (Ok (st', []), s') -> es = [].
Proof. intro H. exact (proj1 (keeps_enum sy _ _ _ _ _ _ _ _ H eq_refl)). Qed.
Ltac once_tac := first [assumption|apply once_one|(eapply once_app; eassumption)].
Ltac fin := split; [repeat split; once_tac|reflexivity].
Lemma enum_sound os k sp st s st' s' : rep_e os st -> enum_arm sy k sp st [] s = (Ok (st', []), s') ->
  exists o, spells_e sy k sp s o s' /\ rep_e (os ++ [o]) st'.
Proof.
  intros [[A1 [A2 A3]] ->]. unfold enum_arm.
  repeat match goal with |- context [String.eqb k ?x] => destruct (String.eqb_spec k x) as [E|] end; try subst k.
  - intro H. apply slot_sound in H as [L [a [D ->]]]. exists (EDefault a). split; [now constructor|]. unfold rep_e, inc_e. norm. rewrite L in *. fin.
  - intro H. apply slot_sound in H as [L [a [D ->]]]. exists (ECrate a). split; [now constructor|]. unfold rep_e, inc_e. norm. rewrite L in *. fin.
  - intro H. apply collect_inv in H as [a [D ->]]. exists (EAndThen a). split; [now constructor|]. unfold rep_e, inc_e. norm. fin.
  - intro H. apply collect_inv in H as [a [D ->]]. exists (EAttributes a). split; [now constructor|]. unfold rep_e, inc_e. norm. fin.
  - intro H. apply slot_sound in H as [L [a [D ->]]]. exists (EUnknown a). split; [now constructor|]. unfold rep_e, inc_e. norm. rewrite L in *. fin.
  - intro H. apply refuse_unknown in H; [contradiction|].
    unfold enum_attr_names. cbn [mem_str existsb]. repeat match goal with H : k <> ?x |- _ => apply String.eqb_neq in H; try rewrite H; clear H end. reflexivity.
Qed.
Ltac byslot D A I := let L := fresh "L" in let E := fresh "E" in unfold rep_e; clear - D A I; revert I; norm; intro I;
    match goal with |- context [slot ?nm ?sp ?p (status ?l) ?set [] ?s] => destruct (slot_ok nm sp p l set s _ _ A D) as [L E] end;
    rewrite E; eexists; split; [reflexivity|]; split; [exact I|]; rewrite L; reflexivity.
Lemma enum_complete os k sp st s o s' : rep_e os st -> spells_e sy k sp s o s' -> inc_e (os ++ [o]) ->
  exists st', enum_arm sy k sp st [] s = (Ok (st', []), s') /\ rep_e (os ++ [o]) st'.
Proof.
  intros [_ ->] SP I. pose proof I as [A1 [A2 A3]]. unfold enum_arm.
  destruct SP as [x s' -> D|x s' -> D|x s' -> D|x s' -> D|x s' -> D]; cbn [String.eqb Ascii.eqb Bool.eqb].
  - byslot D A1 I.
  - byslot D A2 I.
  - rewrite (collect_ok _ _ _ _ _ _ D). eexists. split; [reflexivity|]. split; [exact I|]. clear. norm. reflexivity.
  - rewrite (collect_ok _ _ _ _ _ _ D). eexists. split; [reflexivity|]. split; [exact I|]. clear. norm. reflexivity.
  - byslot D A3 I.
Qed.
Lemma rep_e_init : rep_e [] ust_init.
Proof. split; [|reflexivity]. repeat split; unfold once; cbn; lia. Qed.
Lemma adv_enum_body i l : Forall2 advances l (snd (Schema.enum_body sy i l)).
Proof.
  unfold Schema.enum_body. pose proof (proj2 (wbm_read_items (enum_arm sy) ust_init [] (wb_enum_arm sy SY) l)) as A. unfold pbind.
  destruct (read_items (enum_arm sy) ust_init [] l) as [[q|e|b] l1]; cbn [snd] in *; auto.
Qed.
Lemma variants_means vs hs : Forall2 (fun a b => read_variant sy a = Ok b) vs hs <-> Forall2 (variant_means sy) vs hs.
Proof.
  split; intro H; induction H as [|v h vs hs H1 H2 IH]; constructor; auto; now apply (l_variant_ok sy SY).
Qed.
(** the variants that are read have the names the checks rely on *)
Lemma read_named vs hs : Forall (fun v => fields_fit (sv_shape v) (sv_fields v)) vs -> Forall2 (fun a b => read_variant sy a = Ok b) vs hs ->
  (Forall named_req (filter flattened hs) \/ ~ Forall (fun v => flattened v = true -> sv_shape (h_src v) = ShNamed) hs) /\
  Forall (fun v => h_idents v <> []) (filter ordinary hs).
Proof.
  intros W R. rewrite Forall_forall in W. split.
  - assert (DEC : Forall (fun v => flattened v = true -> sv_shape (h_src v) = ShNamed) hs \/ ~ Forall (fun v => flattened v = true -> sv_shape (h_src v) = ShNamed) hs).
    { clear. induction hs as [|h hs [IH|IH]]; [auto| |right; intro H; inversion H; auto].
      destruct (flattened h) eqn:FH; [|left; constructor; auto; congruence]. destruct (sv_shape (h_src h)) eqn:SH; [left; constructor; auto|right|right]; intro H; inversion H as [|? ? X]; subst; rewrite SH in X; discriminate (X FH). }
    destruct DEC as [FL|]; [left|auto]. rewrite Forall_forall in FL. apply Forall_forall. intros x I. apply filter_In in I as [I FX].
    apply Forall_forall. intros f If [R1 [R2 R3]]. destruct (Forall2_in_r _ _ _ _ R I) as [sv [Isv Rsv]].
    destruct (variant_shape sy sv x Rsv) as [E F]. destruct (Forall2_in_r _ _ _ _ F If) as [sf [Isf HF]]. apply (hf_first _ _ HF).
    + specialize (FL x I FX). specialize (W sv Isv). cbn beta in W. rewrite E in FL. rewrite FL in W. cbn [fields_fit] in W. rewrite Forall_forall in W. auto.
    + unfold g_is_flat in R2. apply orb_false_iff in R2 as [R2 _]. apply orb_false_iff in R2 as [R2 _]. exact R2.
  - apply Forall_forall. intros h I. apply filter_In in I as [I T]. destruct (Forall2_in_r _ _ _ _ R I) as [v [_ Rv]].
    apply variant_ok in Rv as [fs Rv]. apply (vf_first _ _ _ _ Rv). unfold ordinary in T. now apply negb_true_iff.
Qed.
Lemma l_enum_ok i d : written_enum i ->
  read_enum sy i = Ok d <->
  exists vs os, Forall2 (variant_means sy) (se_variants i) vs /\ has_options (spells_e sy) (se_attrs i) os /\
    consistent_e vs os /\ d = meaning_e vs os.
Proof.
  intros WR. unfold read_enum. rewrite deluxe_items_ok.
  rewrite (l_attributes_ok_weak _ (fun _ => adv_enum_body i)). unfold has_options.
  split.
  - intros [cs [C [H P]]]. destruct (Schema.enum_body sy i cs) as [r cs'] eqn:B. cbn [fst snd] in *. subst r.
    unfold Schema.enum_body in B. apply mbind_inv in B as [[st es] [l1 [RD B]]]. cbn [fst snd] in B.
    destruct (read_all (read_variant sy) (se_variants i) es) as [[vs es1]|e|b] eqn:RA; cbn [rbind] in B; try discriminate B. cbn [fst snd] in B.
    match type of B with context [check ?c] => destruct (check c) as [u|e|b] eqn:CH end; cbn [rmap] in B; try discriminate B. injection B as <- <-.
    apply check_ok in CH.
    assert (es1 = []) as ->.
    { unfold enum_checks in CH. destruct (tagged_checks vs [] false [] es1) as [keys e1] eqn:TC. destruct (flat_checks vs keys e1) as [keys2 e2] eqn:FC.
      assert (e2 = []) as ->. { destruct (y_default st); auto. destruct (existsb (key_eqb []) keys2); auto. apply push_nil in CH. contradiction. }
      apply flat_inv in FC as [-> _]. now apply tagged_inv in TC as [-> _]. }
    pose proof (read_all_inv _ _ _ _ RA) as [-> RV].
    destruct (read_sound _ _ rep_e enum_keys enum_sound [] _ _ _ _ _ rep_e_init RD) as [_ [os [W R]]].
    cbn [app] in R. destruct R as [R ->]. cbn [y_default y_crate y_attributes y_and_thens y_unknown] in *.
    destruct (read_named _ _ WR RV) as [N1 N2].
    apply (enum_checks_ok _ _ _ N1 N2) in CH as [_ CH].
    exists vs, os. split; [now apply variants_means|]. split; [eauto|]. split; [split; [exact R|exact CH]|]. unfold meaning_e. now rewrite !status_option.
  - intros [vs [os [VM [[cs [cs' [C [W P]]]] [[I K] ->]]]]]. exists cs. split; auto.
    apply variants_means in VM; auto. destruct (read_named _ _ WR VM) as [N1 N2].
    destruct (read_complete _ _ rep_e inc_e (wb_enum_arm sy SY) enum_complete inc_e_prefix [] _ _ _ _ rep_e_init W I) as [st [RD R]].
    cbn [app] in R. destruct R as [R ->]. unfold Schema.enum_body, pbind. rewrite RD. cbn [fst snd y_default y_crate y_attributes y_and_thens y_unknown].
    rewrite (proj2 (read_all_iff _ _ _) VM). cbn [rbind fst snd].
    rewrite (proj2 (enum_checks_ok vs (e_defaults os) [] N1 N2) (conj eq_refl K)). cbn. split; [|exact P]. unfold meaning_e. now rewrite !status_option.
Qed.
End E.
