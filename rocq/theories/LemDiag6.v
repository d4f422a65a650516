(** The errors about the attributes of enums. *)
From Verif Require Import LemWf LemWfD LemWfE LemSmall LemItems LemAttr LemSchema6.
From Verif Require Export LemDiag5 LemOpts6.

Section T.
Context {env : Env}.
Definition has_cont (w : svariant) : bool := match container_of w with Some _ => true | None => false end.
Lemma extra_diag c es : extra_container c es = es ++
  match fc_lifetime c with
  | Some _ => [mkErr (fc_span c) "only the first `container` field can contain a `lifetime` parameter"]
  | None => []
  end ++
  match fc_ty c with
  | Some ts => [mkErr (tokens_span ts) "only the first `container` field can contain a `type` parameter"]
  | None => []
  end.
Proof.
  unfold extra_container, push, push_syn. destruct (fc_lifetime c), (fc_ty c); cbn; rewrite ?app_nil_r, <- ?app_assoc; reflexivity.
Qed.
Lemma tagged_diag : forall vs before seen keys es, (forall y, has_name y seen = has_name y (flat_map h_idents (filter ordinary before))) ->
  tagged_checks vs seen (existsb has_cont before) keys es =
  (keys ++ map tag_key (filter ordinary vs), es ++ with_before tag_faults before vs).
Proof.
  induction vs as [|v vs IH]; intros before seen keys es H; cbn [tagged_checks with_before]; [now rewrite !app_nil_r|].
  set (q := match variant_container v with Some c => _ | None => _ end).
  assert (Q : q = (existsb has_cont (before ++ [v]), es ++ late_container before v)).
  { unfold q, late_container. rewrite existsb_app. cbn [existsb]. rewrite orb_false_r. change (has_cont v) with (match variant_container v with Some _ => true | None => false end).
    change (container_of v) with (variant_container v). change (fun w => match container_of w with Some _ => true | None => false end) with has_cont.
    destruct (variant_container v) as [c|]; [|now rewrite orb_false_r, app_nil_r]. rewrite orb_true_r.
    destruct (existsb has_cont before); [now rewrite extra_diag|now rewrite app_nil_r]. }
  rewrite Q. cbn [filter]. fold (ordinary v). unfold tag_faults at 1. destruct (ordinary v) eqn:O.
  - destruct (dup_names_diag "duplicate variant name for " (h_idents v) seen (flat_map h_idents (filter ordinary before)) (es ++ late_container before v) H) as [seen' [E1 E2]].
    rewrite E1, IH; [cbn [map]; now rewrite <- !app_assoc|]. intro y. rewrite E2, filter_app, flat_map_app. cbn [filter flat_map]. rewrite O. cbn [flat_map]. now rewrite app_nil_r.
  - rewrite IH; [now rewrite app_nil_r, <- !app_assoc|]. intro y. rewrite H, filter_app. cbn [filter]. now rewrite O, app_nil_r.
Qed.
Definition named_flat (h : svariant) : Prop := flattened h = true /\ sv_shape (h_src h) = ShNamed.
Section K.
Variable hs : list svariant.
Hypothesis NR : forall h, In h hs -> named_flat h -> named_req h.
Hypothesis NO : forall h, In h hs -> ordinary h = true -> h_idents h <> [].
Definition keys_are (before : list svariant) (keys : list key_t) : Prop :=
  forall k, In k keys <-> (exists w, In w hs /\ ordinary w = true /\ tag_key w = k) \/ (exists w, In w before /\ named_flat w /\ schema_key w = k).
Lemma key_in_iff k keys : existsb (key_eqb k) keys = true <-> In k keys.
Proof.
  rewrite existsb_exists. split.
  - intros [x [I E]]. apply key_eqb_spec in E. now subst x.
  - intro I. exists k. split; auto. now apply key_eqb_spec.
Qed.
Lemma flat_diag : forall vs before keys es fes, flatten_faults hs before vs fes -> (forall h, In h (before ++ vs) -> In h hs) -> keys_are before keys ->
  exists keys', flat_checks vs keys es = (keys', es ++ fes) /\ keys_are (before ++ vs) keys'.
Proof.
  induction vs as [|v vs IH]; intros before keys es fes FF SUB KA; inversion FF as [|? ? ? e1 e2 F1 F2]; subst; cbn [flat_checks].
  - exists keys. rewrite !app_nil_r. auto.
  - assert (SUB' : forall h, In h ((before ++ [v]) ++ vs) -> In h hs) by (rewrite <- app_assoc; exact SUB).
    assert (IV : In v hs) by (apply SUB, in_or_app; right; now left).
    assert (STAY : ~ named_flat v \/ In (schema_key v) keys -> keys_are (before ++ [v]) keys).
    { intros ST k. rewrite (KA k). split; intros [A|[w [I B]]]; auto; [right; exists w; split; auto; apply in_or_app; auto|].
      apply in_app_or in I as [I|[<-|[]]]; [right; eauto|]. destruct B as [NF E]. destruct ST as [ST|ST]; [contradiction|]. rewrite E in ST. now apply (KA k). }
    assert (INK : named_flat v -> (In (schema_key v) keys <-> (exists w, In w hs /\ ordinary w = true /\ like_tag v w) \/
      (exists w, In w before /\ flattened w = true /\ sv_shape (h_src w) = ShNamed /\ covered v w /\ covered w v))).
    { intro NF. rewrite (KA (schema_key v)). assert (NV : named_req v) by auto. split; (intros [[w [I [O E]]]|[w [I E]]]; [left|right]).
      - exists w. split; auto. split; auto. apply key_tag; auto.
      - exists w. destruct E as [[F S] E]. split; auto. split; auto. split; auto. apply key_same; auto. apply NR; [|now split]. apply SUB, in_or_app. auto.
      - exists w. split; auto. split; auto. symmetry. apply key_tag; auto.
      - exists w. destruct E as [F [S C]]. split; auto. split; [now split|]. symmetry. apply key_same; auto. apply NR; [|now split]. apply SUB, in_or_app. auto. }
    fold (flattened v). destruct F1 as [F|F S|F S C|F S C1 C2].
    + rewrite F. destruct (IH (before ++ [v]) keys es e2 F2 SUB') as [keys' [E1 E2]]. { apply STAY. left. intros [X _]. congruence. }
      exists keys'. rewrite <- app_assoc in E2. auto.
    + rewrite F. destruct (IH (before ++ [v]) keys (push es (sv_span (h_src v)) "only enum variants with named fields can have `flatten`") e2 F2 SUB') as [keys' [E1 E2]].
      { apply STAY. left. intros [_ X]. congruence. }
      exists keys'. rewrite <- app_assoc in E2. split; auto. unfold push, push_syn in E1. rewrite <- app_assoc in E1.
      destruct (sv_shape (h_src v)); [congruence|exact E1|exact E1].
    + rewrite F, S. assert (IN : In (schema_key v) keys) by (apply INK; [now split|exact C]). rewrite (proj2 (key_in_iff _ _) IN).
      match goal with |- context [flat_checks vs keys ?p] => destruct (IH (before ++ [v]) keys p e2 F2 SUB') as [keys' [E1 E2]] end. { apply STAY. auto. }
      exists keys'. rewrite <- app_assoc in E2. split; auto. unfold push, push_syn in *. now rewrite <- app_assoc in E1.
    + rewrite F, S. assert (IN : ~ In (schema_key v) keys).
      { rewrite INK by (now split). intros [[w [I [O E]]]|[w [I [FW [SW [A B]]]]]]; [exact (C1 w I O E)|exact (C2 w I FW SW (conj A B))]. }
      destruct (existsb (key_eqb (schema_key v)) keys) eqn:X; [apply key_in_iff in X; contradiction|].
      destruct (IH (before ++ [v]) (keys ++ [schema_key v]) es e2 F2 SUB') as [keys' [E1 E2]].
      { intro k. rewrite in_app_iff, (KA k). cbn [In]. split.
        - intros [[A|[w [I B]]]|[E|[]]]; auto; right; [exists w; split; auto; apply in_or_app; auto|].
          exists v. split; [apply in_or_app; right; now left|]. split; [now split|auto].
        - intros [A|[w [I [B E]]]]; auto. apply in_app_or in I as [I|[<-|[]]]; [left; right; eauto|right; now left]. }
      exists keys'. rewrite <- app_assoc in E2. auto.
Qed.
Definition get_ed (o : eopt) := match o with EDefault x => Some x | _ => None end.
Lemma enum_checks_diag xs es fes des : flatten_faults hs [] hs fes -> default_fault hs xs des ->
  enum_checks hs (st_of "default" get_ed xs) es = es ++ with_before tag_faults [] hs ++ fes ++ des.
Proof.
  intros FF DF. unfold enum_checks. pose proof (tagged_diag hs [] [] [] es (fun _ => eq_refl)) as T. cbn [existsb] in T. rewrite T. cbn [app].
  destruct (flat_diag hs [] (map tag_key (filter ordinary hs)) (es ++ with_before tag_faults [] hs) fes FF (fun h I => I)) as [keys' [E1 E2]].
  { intro k. rewrite in_map_iff. split.
    - intros [w [E I]]. apply filter_In in I as [I O]. left. eauto.
    - intros [[w [I [O E]]]|[w [[] _]]]. exists w. split; auto. apply filter_In. auto. }
  rewrite E1. cbn [app] in E2. clear E1 T.
  assert (NIL : existsb (key_eqb []) keys' = true <-> exists h, In h hs /\ flattened h = true /\ sv_shape (h_src h) = ShNamed /\ ~ some_required h).
  { rewrite key_in_iff, (E2 []). split.
    - intros [[w [_ [_ E]]]|[w [I [[F S] E]]]]; [discriminate E|]. exists w. split; auto. split; auto. split; auto. intro SR. apply (key_nil w) in SR; auto. apply NR; auto. now split.
    - intros [w [I [F [S N]]]]. right. exists w. split; auto. split; [now split|]. destruct (schema_key w) eqn:E; auto. elim N. apply key_nil; [apply NR; auto; now split|]. congruence. }
  unfold st_of. change (first_value "default" (fun o => match o with EDefault x => Some x | _ => None end) xs) with (first_value "default" get_ed xs) in *.
  assert (FV : match filter (fun x => is_key "default" (entry_key x)) xs with
    | Good _ _ o :: _ => match get_ed o with Some a => FSome a | None => FParseError end
    | Wrong _ _ _ :: _ => FParseError
    | _ => FNone
    end = match first_value "default" get_ed xs with Some a => FSome a | None =>
      match filter (fun x => is_key "default" (entry_key x)) xs with Good _ _ _ :: _ | Wrong _ _ _ :: _ => FParseError | _ => FNone end end).
  { unfold first_value. destruct (filter _ xs) as [|[? ? o| | |] l]; auto; destruct (get_ed o); auto. }
  rewrite FV. clear FV.
  assert (OTHER : forall d : fstatus fdefault, (forall x, d <> FSome x) -> match d with FSome x => if existsb (key_eqb []) keys' then push ((es ++ with_before tag_faults [] hs) ++ fes) (default_span x) "`default` cannot be used when a flattened variant has no unique field" else (es ++ with_before tag_faults [] hs) ++ fes | _ => (es ++ with_before tag_faults [] hs) ++ fes end = (es ++ with_before tag_faults [] hs) ++ fes).
  { intros d H. destruct d as [| |y]; auto. now elim (H y). }
  destruct DF as [[NV|SR]|d h FV I F S N]; change (fun o => match o with EDefault x => Some x | _ => None end) with get_ed in *.
  - rewrite NV, app_nil_r, app_assoc. apply OTHER. intro x. destruct (filter _ xs) as [|[] l]; discriminate.
  - rewrite app_nil_r, app_assoc. destruct (first_value "default" get_ed xs) as [d|]; [|apply OTHER; intro x; destruct (filter _ xs) as [|[] l]; discriminate].
    destruct (existsb (key_eqb []) keys'); auto. destruct (proj1 NIL eq_refl) as [h [I [F [S N]]]]. elim N. now apply SR.
  - rewrite FV. rewrite (proj2 NIL) by eauto. unfold push, push_syn. now rewrite <- !app_assoc.
Qed.
End K.
End T.

Section E.
Context {env : Env}.
Variable sy : synlib.
Hypothesis SY : good_syn_lib sy.
Lemma variants_diag vs hs ves : variants_read sy vs hs ves -> forall es, read_all (read_variant sy) vs es = Ok (hs, es ++ ves).
Proof.
  induction 1 as [|v h vs hs es F R IH|v gs fes xs vs hs es SN FR H N R IH]; intro es0; cbn [read_all].
  - now rewrite app_nil_r.
  - rewrite (proj2 (l_variant_ok sy SY v h) F), IH. reflexivity.
  - pose proof (l_variant_diag sy SY v gs fes xs SN FR H) as D. destruct (read_variant sy v) as [g|e|b]; cbn in D; [contradiction| |destruct D].
    rewrite IH. unfold push_syn. now rewrite D, <- app_assoc.
Qed.
Lemma variants_return vs hs ves : variants_read sy vs hs ves -> forall v, In v vs -> returns (read_variant sy v).
Proof.
  induction 1 as [|v h vs hs es F R IH|v gs fes xs vs hs es SN FR H N R IH]; intros w I; [destruct I|destruct I as [<-|I]; auto|destruct I as [<-|I]; auto].
  - rewrite (proj2 (l_variant_ok sy SY v h) F). exact Logic.I.
  - now apply read_variant_returns.
Qed.
Lemma variants_named vs hs ves : variants_read sy vs hs ves -> Forall (fun v => fields_fit (sv_shape v) (sv_fields v)) vs -> forall h, In h hs ->
  (named_flat h -> named_req h) /\ (ordinary h = true -> h_idents h <> []).
Proof.
  induction 1 as [|v h vs hs es F R IH|v gs fes xs vs hs es SN FR H N R IH]; intros W w I; [destruct I| |inversion W; auto].
  inversion W as [|? ? W1 W2]; subst. destruct I as [<-|I]; auto.
  assert (W3 : Forall (fun v => fields_fit (sv_shape v) (sv_fields v)) [v]) by (constructor; auto).
  destruct (read_named sy [v] [h] W3) as [[A|A] B].
  { constructor; [now apply (l_variant_ok sy SY)|constructor]. }
  - split.
    + intros [FL _]. cbn [filter] in A. rewrite FL in A. now inversion A.
    + intro O. cbn [filter] in B. rewrite O in B. now inversion B.
  - split.
    + intros [FL S]. elim A. constructor; auto.
    + intro O. cbn [filter] in B. rewrite O in B. now inversion B.
Qed.
Definition get_ec (o : eopt) := match o with ECrate x => Some x | _ => None end.
Definition get_eu (o : eopt) := match o with EUnknown x => Some x | _ => None end.
Lemma nd_e : NoDup (map fst (gr_keys (grammar_e sy))).
Proof. nodup. Qed.
Definition rep_de (before : list (aentry eopt)) (st : ust) : Prop :=
  exists a p, st = mkUst (st_of "default" get_ed before) (st_of "crate" get_ec before) a p (st_of "allow_unknown_fields" get_eu before).
Ltac st_f OT := f_equal; first [reflexivity|symmetry; apply OT; reflexivity].
Ltac rest_e OT := eexists; split; [reflexivity|]; eexists _, _; st_f OT.
Ltac slot_e C get nm k OT := erewrite (slot_diag _ nd_e C get nm k);
    [rest_e OT|reflexivity|assumption|cbn; tauto|reflexivity|reflexivity|reflexivity|reflexivity|reflexivity|assumption].
Lemma enum_diag before k sp st es s x s' : rep_de before st -> Forall (valid (grammar_e sy)) before -> entry_rest (grammar_e sy) k sp s x s' -> ends (toks s') ->
  exists st', enum_arm sy k sp st es s = (Ok (st', es ++ judge (grammar_e sy) before x), s') /\ rep_de (before ++ [x]) st'.
Proof.
  intros [a [p ->]] V ER EN. destruct (rest_valid _ _ _ _ _ _ ER) as [VX K].
  assert (OT : forall A k' (get : eopt -> option A), is_key k' k = false -> st_of k' get (before ++ [x]) = st_of k' get before).
  { intros A k' get E. apply st_other. now rewrite K. }
  clear K VX. unfold enum_arm.
  repeat match goal with |- context [String.eqb k ?y] => destruct (String.eqb_spec k y) as [E|] end; try subst k.
  - slot_e EDefault get_ed "default" "default" OT.
  - slot_e ECrate get_ec "crate" "crate" OT.
  - match goal with |- context [collect ?st _ ?add es s] =>
      destruct (collect_diag _ nd_e EAndThen "and_then" sp (d_named tokenstream_dict) st add es s x s' before ltac:(cbn; tauto) eq_refl eq_refl (fun _ _ => eq_refl) ER) as [[b C]|C] end; rewrite C; rest_e OT.
  - match goal with |- context [collect ?st _ ?add es s] =>
      destruct (collect_diag _ nd_e EAttributes "attributes" sp (d_named (with_vec_dict (syn_dict (sy_mod_path sy)))) st add es s x s' before ltac:(cbn; tauto) eq_refl eq_refl (fun _ _ => eq_refl) ER) as [[b C]|C] end; rewrite C; rest_e OT.
  - slot_e EUnknown get_eu "allow_unknown_fields" "allow_unknown_fields" OT.
  - assert (MS : mem_str k enum_attr_names = false) by strange.
    assert (KS : listed_in k (map fst (gr_keys (grammar_e sy))) = false) by strange.
    rewrite (refuse_strange (grammar_e sy) k sp _ es s x s' before enum_attr_names eq_refl MS KS eq_refl ER).
    eexists; split; [reflexivity|]; eexists a, p. rewrite !OT by (now apply key_ne). reflexivity.
Qed.
Lemma rep_de_init : rep_de [] ust_init.
Proof. exists [], []. reflexivity. Qed.
Lemma l_enum_diag i hs ves xs fes des : written_enum i -> variants_read sy (se_variants i) hs ves -> has_entries (grammar_e sy) (se_attrs i) xs ->
  flatten_faults hs [] hs fes -> default_fault hs xs des ->
  diagnosed (read_enum sy i) (judged (grammar_e sy) xs ++ ves ++ with_before tag_faults [] hs ++ fes ++ des).
Proof.
  intros WR VR [cs [cs' [C [W P]]]] FF DF. unfold read_enum. rewrite deluxe_items_ok.
  destruct (diag_read _ (enum_arm sy) (wb_enum_arm sy SY) rep_de enum_diag cs xs cs' ust_init [] W rep_de_init) as [st [RD [a [p ->]]]].
  pose proof (variants_named _ _ _ VR WR) as VN.
  assert (WB : forall paths : list (string * span), well_behaved_m (enum_body sy i)).
  { intros _. unfold enum_body. apply wbm_bind.
    - apply wbm_read_items, wb_enum_arm, SY.
    - intros q l. cbn [fst snd]. split; [|apply advs_refl]. apply returns_rbind.
      + apply read_all_returns_in. exact (variants_return _ _ _ VR).
      + intros. apply returns_rmap, returns_check. }
  apply (attrs_diag _ WB _ cs cs'); auto.
  unfold enum_body, pbind. rewrite RD. cbn [fst snd app y_default y_crate y_attributes y_and_thens y_unknown].
  rewrite (variants_diag _ _ _ VR). cbn [rbind fst snd]. split; [|reflexivity].
  rewrite (enum_checks_diag hs (fun h I => proj1 (VN h I)) (fun h I => proj2 (VN h I)) xs _ fes des FF DF). rewrite <- app_assoc. apply check_diag.
Qed.
End E.
