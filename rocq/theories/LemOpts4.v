(** The options of a struct: what it is when it is accepted. *)
From Verif Require Import LemWf LemWfD LemWfE LemSmall LemItems LemAttr.
From Verif Require Export LemOpts3 LemSchema5.

Section S0.
Context {env : Env}.
(** *** the checks on several fields *)
Lemma dup_names_all msg : forall ids seen, NoDup (map fst (seen ++ ids)) -> dup_names msg ids seen [] = (seen ++ ids, []).
Proof.
  unfold dup_names. induction ids as [|x ids IH]; intros seen N; cbn [fold_left]; [now rewrite app_nil_r|]. cbn [fst snd].
  assert (HN : has_name x seen = false).
  { destruct (has_name x seen) eqn:H; auto. apply has_name_in in H. rewrite map_app in N. cbn [map] in N.
    apply NoDup_remove in N as [_ N]. exfalso. apply N. apply in_or_app. auto. }
  rewrite HN. change (seen ++ x :: ids) with (seen ++ [x] ++ ids) in *. rewrite app_assoc in *. now apply IH.
Qed.
Lemma nodup_app_l {A} (a b : list A) : NoDup (a ++ b) -> NoDup a.
Proof. induction a; cbn; intro H; [constructor|]. inversion H; subst. constructor; auto. intro X. apply H2. apply in_or_app. auto. Qed.
Lemma field_list_all : forall fs seen (cont : bool), NoDup (map fst (seen ++ flat_map g_idents fs)) ->
  length (filter (fun f => opt_some (g_container f)) fs) <= (if cont then 0 else 1) ->
  field_list_checks fs seen cont [] = [].
Proof.
  induction fs as [|f fs IH]; intros seen cont N L; cbn [field_list_checks]; [reflexivity|]. cbn [flat_map filter] in *. rewrite app_assoc in N.
  rewrite dup_names_all. 2: { rewrite map_app in N. now apply nodup_app_l in N. }
  unfold dup_container. destruct (g_container f) as [c|]; cbn [opt_some] in L; cbn [length] in L.
  - destruct cont; [lia|]. apply IH; auto. lia.
  - apply IH; auto.
Qed.
Lemma field_list_iff fs es : field_list_checks fs [] false es = [] <->
  es = [] /\ NoDup (map fst (flat_map g_idents fs)) /\ one_container fs.
Proof.
  split.
  - intro H. apply field_list_inv in H as [E [N L]]. split; auto. split; auto. apply N. constructor.
  - intros [-> [N L]]. apply field_list_all; auto.
Qed.
Lemma container_all : forall fs (cont : bool),
  length (filter (fun f => opt_some (g_container f)) fs) <= (if cont then 0 else 1) -> container_checks fs cont [] = [].
Proof.
  induction fs as [|f fs IH]; intros cont L; cbn [container_checks]; [reflexivity|]. cbn [filter] in L.
  unfold dup_container. destruct (g_container f) as [c|]; cbn [opt_some] in L; cbn [length] in L.
  - destruct cont; [lia|]. apply IH; auto. lia.
  - apply IH; auto.
Qed.
Lemma container_iff fs es : container_checks fs false es = [] <-> es = [] /\ one_container fs.
Proof.
  split; [apply container_checks_inv|]. intros [-> L]. apply container_all; auto.
Qed.
Lemma needs_iff f : needs_value f = true <-> required f.
Proof. unfold needs_value, required. destruct (g_is_parsable f), (g_is_flat f), (g_default f); cbn; intuition congruence. Qed.
Lemma left_out_iff f : may_be_left_out f = true <-> optional_field f.
Proof. unfold may_be_left_out, optional_field. destruct (g_is_parsable f), (g_is_flat f), (g_default f); cbn; intuition congruence. Qed.
Lemma default_gaps_all what : forall fs gap,
  (gap = true -> forall f, In f fs -> may_be_left_out f = false) ->
  (forall l1 f l2 g l3, fs = l1 ++ f :: l2 ++ g :: l3 -> needs_value f = true -> may_be_left_out g = false) ->
  default_gaps what fs gap [] = [].
Proof.
  induction fs as [|f fs IH]; intros gap G R; cbn [default_gaps]; [reflexivity|].
  assert (R2 : forall l1 f l2 g l3, fs = l1 ++ f :: l2 ++ g :: l3 -> needs_value f = true -> may_be_left_out g = false).
  { intros l1 f0 l2 g l3 E N. apply (R (f :: l1) f0 l2 g l3); auto. rewrite E. reflexivity. }
  destruct (g_is_parsable f && negb (g_is_flat f)) eqn:P.
  - destruct (g_default f) as [d|] eqn:D.
    + destruct gap.
      * specialize (G eq_refl f (or_introl eq_refl)). unfold may_be_left_out in G. rewrite P, D in G. discriminate G.
      * apply IH; auto. discriminate.
    + apply IH; auto. intros _ g I. apply in_split in I as [l2 [l3 ->]]. apply (R [] f l2 g l3); auto.
      unfold needs_value. rewrite P, D. reflexivity.
  - apply IH; auto. intros E g I. apply (G E). now right.
Qed.
Lemma default_gaps_iff what fs es : default_gaps what (rev fs) false es = [] <-> es = [] /\ defaults_last fs.
Proof.
  assert (SP : (forall l1 f l2 g l3, rev fs = l1 ++ f :: l2 ++ g :: l3 -> needs_value f = true -> may_be_left_out g = false) <-> defaults_last fs).
  { unfold defaults_last. split.
    - intros R a g b h c -> O N. apply left_out_iff in O. apply needs_iff in N.
      rewrite (R (rev c) h (rev b) g (rev a)) in O; [discriminate| |exact N].
      rewrite rev_app_distr. cbn [rev]. rewrite rev_app_distr. cbn [rev]. now rewrite <- !app_assoc.
    - intros D l1 f l2 g l3 E N. destruct (may_be_left_out g) eqn:M; auto. exfalso.
      apply (D (rev l3) g (rev l2) f (rev l1)); [|now apply left_out_iff|now apply needs_iff].
      rewrite <- (rev_involutive fs), E. rewrite rev_app_distr. cbn [rev]. rewrite rev_app_distr. cbn [rev]. now rewrite <- !app_assoc. }
  split.
  - intro H. apply default_gaps_inv in H as [E [_ R]]. split; auto. now apply SP.
  - intros [-> D]. apply default_gaps_all; [discriminate|]. now apply SP.
Qed.
Lemma filled_ok g : skip_fill g = filled g.
Proof. unfold skip_fill, filled, sv_true. destruct (g_skip g) as [[[] sp]|], (g_default g); reflexivity. Qed.
Lemma filled_idents gs : flat_map g_idents (map filled gs) = flat_map g_idents gs.
Proof. induction gs as [|g gs IH]; cbn; [auto|]. rewrite IH. f_equal. unfold filled. destruct (g_skip g) as [[[] sp]|], (g_default g); reflexivity. Qed.
Lemma filled_containers gs : one_container (map filled gs) <-> one_container gs.
Proof.
  unfold one_container, once. replace (length (filter _ (map filled gs))) with (length (filter (fun g => opt_some (g_container g)) gs)); [tauto|].
  induction gs as [|g gs IH]; cbn; [auto|]. replace (g_container (filled g)) with (g_container g).
  - destruct (opt_some (g_container g)); cbn; congruence.
  - unfold filled. destruct (g_skip g) as [[[] sp]|], (g_default g); reflexivity.
Qed.
Lemma transparent_iff what fs : transparent_check what fs = None <-> transparent_fits fs.
Proof.
  unfold transparent_check, transparent_fits.
  assert (FE : filter g_is_parsable fs = filter taken_part fs) by (apply filter_ext; intro g; reflexivity).
  rewrite FE. split.
  - destruct (filter taken_part fs) as [|g [|h r]]; [discriminate| |destruct (flatten_true g); [discriminate|destruct (sv_true (g_append g)); discriminate]].
    destruct (flatten_true g) eqn:F; [discriminate|]. destruct (sv_true (g_append g)) eqn:A; [discriminate|]. intros _.
    exists g. split; auto. unfold flatten_true, sv_true in *. split.
    + intros [x [E V]]. rewrite E in F. congruence.
    + intros [sp E]. rewrite E in A. congruence.
  - intros [g [-> [F A]]]. replace (flatten_true g) with false.
    + replace (sv_true (g_append g)) with false; auto. unfold sv_true. destruct (g_append g) as [[[] sp]|]; auto. exfalso. eauto.
    + unfold flatten_true. destruct (g_flatten g) as [x|]; auto. destruct (ff_value x) eqn:V; auto. exfalso. eauto.
Qed.
Lemma transparent_item_inv {A} what fs (p : string -> span -> parser A) nm sp s a s' :
  transparent_item what fs p nm sp s = (Ok a, s') <-> transparent_fits fs /\ p nm sp s = (Ok a, s').
Proof.
  unfold transparent_item. rewrite <- (transparent_iff what fs). destruct (transparent_check what fs); [|tauto].
  split; [discriminate|intros [H _]; discriminate H].
Qed.
(** reading a list *)
Lemma read_all_iff {A B} (rd : A -> res B) : forall l bs, read_all rd l [] = Ok (bs, []) <-> Forall2 (fun a b => rd a = Ok b) l bs.
Proof.
  assert (K : forall l es bs, read_all rd l es = Ok (bs, []) -> es = []).
  { induction l as [|a l IH]; intros es bs; cbn [read_all]; [intro H; now injection H|].
    destruct (rd a) as [b|e|b]; [|intro H; apply IH in H; now apply push_syn_nil in H|discriminate].
    destruct (read_all rd l es) as [[x y]|e|b2] eqn:R; cbn [rmap]; try discriminate. intro H. injection H as _ ->. eauto. }
  induction l as [|a l IH]; intros bs; cbn [read_all].
  - split; [intro H; injection H as <-; constructor|intro H; inversion H; reflexivity].
  - split.
    + destruct (rd a) as [b|e|b] eqn:E; [|intro H; apply K in H; now apply push_syn_nil in H|discriminate].
      destruct (read_all rd l []) as [[x y]|e|b2] eqn:R; cbn [rmap fst snd]; try discriminate. intro H. injection H as <- ->.
      constructor; auto. now apply IH.
    + intro H. inversion H as [|? b ? bs' E H2]; subst. rewrite E. apply IH in H2. rewrite H2. reflexivity.
Qed.

End S0.

Section S.
Context {env : Env}.
Variable sy : synlib.
Hypothesis SY : good_syn_lib sy.
Variable sh : shape.
Variable gs : list sfield.
Definition inc_s (l : list sopt) : Prop :=
  (once (s_transparents l) /\ once (s_unknowns l) /\ once (s_defaults l) /\ once (s_crates l)) /\
  (s_transparents l <> [] -> transparent_fits gs) /\
  (s_unknowns l <> [] -> sh <> ShUnnamed) /\ (s_defaults l <> [] -> sh <> ShUnit).
Definition rep_s (l : list sopt) (st : sst) : Prop :=
  inc_s l /\ st = mkSst (status (s_transparents l)) (status (s_unknowns l)) (status (s_defaults l))
                        (status (s_crates l)) (s_and_thens_of l) (s_attributes_of l).
Ltac norm := unfold s_transparents, s_unknowns, s_defaults, s_crates, s_and_thens_of, s_attributes_of in *;
  rewrite ?flat_map_app in *; cbn [flat_map] in *; rewrite ?app_nil_r in *.
Lemma app_ne {A} (a b : list A) : a <> [] -> a ++ b <> [].
Proof. destruct a; cbn; congruence. Qed.
Lemma inc_s_prefix a b : inc_s (a ++ b) -> inc_s a.
Proof.
  unfold inc_s. intros [[A1 [A2 [A3 A4]]] [T [U D]]]. norm.
  split; [repeat split; eapply once_app; eassumption|]. split; [|split]; intro H; [apply T|apply U|apply D]; now apply app_ne.
Qed.
Lemma struct_keys k sp st es s st' s' : struct_arm sy sh gs k sp st es s = (Ok (st', []), s') -> es = [].
Proof.
  intro H. exact (proj1 (keeps_struct sy sh gs _ _ _ _ _ _ _ _ H eq_refl)).
Qed.
Ltac once_tac := first [assumption|apply once_one|(eapply once_app; eassumption)].
Ltac fin := split; [refine (conj _ (conj _ (conj _ _))); [repeat split; once_tac|first [assumption|auto]|first [assumption|congruence]|first [assumption|congruence]]|reflexivity].
Lemma struct_sound os k sp st s st' s' : rep_s os st -> struct_arm sy sh gs k sp st [] s = (Ok (st', []), s') ->
  exists o, spells_s sy k sp s o s' /\ rep_s (os ++ [o]) st'.
Proof.
  intros [[[A1 [A2 [A3 A4]]] [T [U DD]]] ->]. unfold struct_arm.
  repeat match goal with |- context [String.eqb k ?x] => destruct (String.eqb_spec k x) as [E|] end; try subst k.
  - intro H. apply slot_sound in H as [L [a [D ->]]]. apply transparent_item_inv in D as [TF D]. exists (STransparent a). split; [now constructor|]. unfold rep_s, inc_s. norm. rewrite L in *. fin.
  - assert (X : sh <> ShUnnamed -> slot "allow_unknown_fields" sp (d_named bool_dict) (status (s_unknowns os)) (fun v => mkSst (status (s_transparents os)) v (status (s_defaults os)) (status (s_crates os)) (s_and_thens_of os) (s_attributes_of os)) [] s = (Ok (st', []), s') ->
      exists o, spells_s sy "allow_unknown_fields" sp s o s' /\ rep_s (os ++ [o]) st').
    { intros NS H. apply slot_sound in H as [L [a [D ->]]]. exists (SUnknown a). split; [now constructor|]. unfold rep_s, inc_s. norm. rewrite L in *. fin. }
    destruct sh; intro H; [apply X; [congruence|exact H]|now apply refuse_push in H|apply X; [congruence|exact H]].
  - assert (X : sh <> ShUnit -> slot "default" sp (d_named default_dict) (status (s_defaults os)) (fun v => mkSst (status (s_transparents os)) (status (s_unknowns os)) v (status (s_crates os)) (s_and_thens_of os) (s_attributes_of os)) [] s = (Ok (st', []), s') ->
      exists o, spells_s sy "default" sp s o s' /\ rep_s (os ++ [o]) st').
    { intros NS H. apply slot_sound in H as [L [a [D ->]]]. exists (SDefault a). split; [now constructor|]. unfold rep_s, inc_s. norm. rewrite L in *. fin. }
    destruct sh; intro H; [apply X; [congruence|exact H]|apply X; [congruence|exact H]|now apply refuse_push in H].
  - intro H. apply slot_sound in H as [L [a [D ->]]]. exists (SCrate a). split; [now constructor|]. unfold rep_s, inc_s. norm. rewrite L in *. fin.
  - intro H. apply collect_inv in H as [a [D ->]]. exists (SAndThenS a). split; [now constructor|]. unfold rep_s, inc_s. norm. fin.
  - intro H. apply collect_inv in H as [a [D ->]]. exists (SAttributes a). split; [now constructor|]. unfold rep_s, inc_s. norm. fin.
  - intro H. apply refuse_unknown in H; [contradiction|].
    unfold struct_attr_names. cbn [mem_str existsb]. repeat match goal with H : k <> ?x |- _ => apply String.eqb_neq in H; rewrite H; clear H end. reflexivity.
Qed.
Lemma snoc_ne {A} (l : list A) x : l ++ [x] <> [].
Proof. destruct l; discriminate. Qed.
Ltac byslot D A I := let L := fresh "L" in let E := fresh "E" in unfold rep_s; clear - D A I; revert I; norm; intro I;
    match goal with |- context [slot ?nm ?sp ?p (status ?l) ?set [] ?s] => destruct (slot_ok nm sp p l set s _ _ A D) as [L E] end;
    rewrite E; eexists; split; [reflexivity|]; split; [exact I|]; rewrite L; reflexivity.
Lemma struct_complete os k sp st s o s' : rep_s os st -> spells_s sy k sp s o s' -> inc_s (os ++ [o]) ->
  exists st', struct_arm sy sh gs k sp st [] s = (Ok (st', []), s') /\ rep_s (os ++ [o]) st'.
Proof.
  intros [_ ->] SP I. pose proof I as [[A1 [A2 [A3 A4]]] [T [U DD]]].
  unfold struct_arm.
  destruct SP as [x s' -> D|x s' -> D|x s' -> D|x s' -> D|x s' -> D|x s' -> D];
    cbn [String.eqb Ascii.eqb Bool.eqb].
  - assert (TF : transparent_fits gs). { apply T. norm. apply snoc_ne. }
    assert (D2 : transparent_item "struct" gs (d_named transparent_dict) "transparent" sp s = (Ok x, s')) by (apply transparent_item_inv; auto).
    clear D. byslot D2 A1 I.
  - assert (NS : sh <> ShUnnamed). { apply U. norm. apply snoc_ne. }
    destruct sh; try congruence; byslot D A2 I.
  - assert (NS : sh <> ShUnit). { apply DD. norm. apply snoc_ne. }
    destruct sh; try congruence; byslot D A3 I.
  - byslot D A4 I.
  - rewrite (collect_ok _ _ _ _ _ _ D). eexists. split; [reflexivity|]. split; [exact I|]. clear. norm. reflexivity.
  - rewrite (collect_ok _ _ _ _ _ _ D). eexists. split; [reflexivity|]. split; [exact I|]. clear. norm. reflexivity.
Qed.
Lemma rep_s_init : rep_s [] sst_init.
Proof. split; [|reflexivity]. split; [repeat split; unfold once; cbn; lia|]. repeat split; intro H; now elim H. Qed.
End S.
Section S2.
Context {env : Env}.
Variable sy : synlib.
Hypothesis SY : good_syn_lib sy.
Lemma struct_checks_ok sh gs es : struct_checks sh gs es = [] <-> es = [] /\ NoDup (map fst (flat_map g_idents gs)) /\ one_container gs /\
  (sh = ShUnnamed -> defaults_last gs).
Proof.
  unfold struct_checks. destruct sh; rewrite ?default_gaps_iff, field_list_iff; intuition congruence.
Qed.
Lemma fields_means l gs : Forall2 (fun a b => read_field sy a = Ok b) l gs <-> Forall2 (field_means sy) l gs.
Proof. split; intro H; (eapply forall2_imp; [|exact H]); intros a b; apply (l_field_ok sy SY). Qed.
Lemma l_struct_ok i d : read_struct sy i = Ok d <->
  exists gs os, Forall2 (field_means sy) (ss_fields i) gs /\ has_options (spells_s sy) (ss_attrs i) os /\
    consistent_s (ss_shape i) gs os /\ d = meaning_s (ss_shape i) gs os.
Proof.
  unfold read_struct. rewrite deluxe_items_ok.
  rewrite (l_attributes_ok _ (fun _ => wbm_struct_body sy SY i)). unfold has_options.
  assert (FS : forall gs os, (if fs_is_none (status (s_defaults os)) then map skip_fill gs else gs) = fields_s gs os).
  { intros gs os. unfold fields_s. destruct (s_defaults os); cbn; [|reflexivity]. apply map_ext. apply filled_ok. }
  assert (CS : forall gs os, inc_s (ss_shape i) gs os -> struct_checks (ss_shape i) (fields_s gs os) [] = [] <-> consistent_s (ss_shape i) gs os).
  { intros gs os [I1 [I2 [I3 I4]]]. rewrite struct_checks_ok. unfold consistent_s.
    assert (N : flat_map g_idents (fields_s gs os) = flat_map g_idents gs) by (unfold fields_s; destruct (s_defaults os); [apply filled_idents|reflexivity]).
    assert (O : one_container (fields_s gs os) <-> one_container gs) by (unfold fields_s; destruct (s_defaults os); [apply filled_containers|tauto]).
    rewrite N, O. tauto. }
  split.
  - intros [cs [C [H P]]]. destruct (struct_body sy i cs) as [r cs'] eqn:B. cbn [fst snd] in *. subst r.
    unfold struct_body in B. destruct (read_all (read_field sy) (ss_fields i) []) as [[gs es]|e|b] eqn:RA; try discriminate B.
    apply mbind_inv in B as [[st es1] [l1 [RD B]]]. cbn [fst snd] in B.
    match type of B with context [check ?c] => destruct (check c) as [u|e|b] eqn:CH end; cbn [rmap] in B; try discriminate B. injection B as <- <-.
    apply check_ok in CH.
    assert (es1 = []) as -> by (apply struct_checks_ok in CH; tauto).
    destruct (read_sound _ _ (rep_s (ss_shape i) gs) (struct_keys sy _ gs) (struct_sound sy _ gs) [] _ _ _ _ _ (rep_s_init _ gs) RD) as [-> [os [W R]]].
    cbn [app] in R. destruct R as [R ->]. cbn [w_default w_crate w_transparent w_unknown w_attributes w_and_thens] in *. rewrite FS in *.
    exists gs, os. split; [apply fields_means; now apply read_all_iff|]. split; [eauto|]. split; [now apply CS|]. unfold meaning_s. now rewrite !status_option.
  - intros [gs [os [FM [[cs [cs' [C [W P]]]] [K ->]]]]]. exists cs. split; auto.
    assert (I : inc_s (ss_shape i) gs ([] ++ os)). { cbn [app]. unfold consistent_s in K. unfold inc_s. tauto. }
    unfold struct_body. rewrite (proj2 (read_all_iff _ _ _) (proj2 (fields_means _ _) FM)).
    destruct (read_complete _ _ (rep_s (ss_shape i) gs) (inc_s (ss_shape i) gs) (wb_struct_arm sy SY (ss_shape i) gs) (struct_complete sy (ss_shape i) gs) (inc_s_prefix (ss_shape i) gs) [] _ _ _ _ (rep_s_init _ gs) W I) as [st [RD R]].
    cbn [app] in R. destruct R as [R ->]. unfold pbind. rewrite RD. cbn [fst snd w_default w_crate w_transparent w_unknown w_attributes w_and_thens]. rewrite FS.
    rewrite (proj2 (CS _ _ R) K). cbn. split; [|exact P]. unfold meaning_s. now rewrite !status_option.
Qed.
End S2.
