(** Which flattened variant is used, in terms of the input *)
From Verif Require Import LemRun LemEnum4 LemEnum3.
From Verif Require Export LemEFlat SpecPick.

Section P.
Context {env : Env} {V : Type}.
Notation vdef := (vdef V).
Notation edef := (edef V).
Definition key_entries (inputs : list stream) : list entry :=
  map (fun p => mkEntry (fst p) (snd p) (root_stream [])) (keys_in inputs).
Lemma key_read_in prefix n inputs : key_read prefix n (key_entries inputs) <-> exists ksp, In ((prefix ++ n)%string, ksp) (keys_in inputs).
Proof.
  unfold key_read, key_entries. split.
  - intros [en [I E]]. apply in_map_iff in I as [[k ksp] [<- I]]. cbn in E. subst k. eauto.
  - intros [ksp I]. exists (mkEntry (prefix ++ n) ksp (root_stream [])). split; auto. apply in_map_iff. exists ((prefix ++ n)%string, ksp). auto.
Qed.
Lemma present_keys (v : vdef) prefix inputs : present_in v prefix (key_entries inputs) <-> all_present v prefix inputs.
Proof.
  unfold present_in, all_present, has_key, named_by. split; intros H f I R; destruct (H f I R) as [x Y].
  - destruct Y as [IN K]. apply key_read_in in K as [ksp K]. eauto 6.
  - destruct Y as [ksp [K [n [IN ->]]]]. exists n. split; auto. apply key_read_in. eauto.
Qed.
Lemma pick_first (e : edef) prefix inputs m i v : flat_named_ok e -> paths_for prefix inputs m ->
  pick_flat e m = Some (i, v) -> first_chosen e prefix inputs i v.
Proof.
  intros FN PF PK. split; [exact (pick_some e prefix inputs m i v FN PF PK)|].
  assert (PR : paths_read prefix (key_entries inputs) m) by (intro k; rewrite (PF k), key_read_in; reflexivity).
  destruct (pick_chosen e prefix _ m i v FN PR PK) as [FV [PV H]]. intros j w [FW [AW OW]].
  destruct (H j w FW (proj2 (present_keys w prefix inputs) AW)) as [N1 O1]. apply O1.
  destruct (flattened_in _ _ _ FV) as [IV FFV].
  destruct OW as [NW|OW]; [now left|]. right. intro NV. apply (OW i v FV NV). now apply present_keys.
Qed.
Lemma first_same (e : edef) prefix inputs i v j w : flat_named_ok e -> first_chosen e prefix inputs i v -> first_chosen e prefix inputs j w -> i = j /\ v = w.
Proof.
  intros FN [CV HV] [CW HW]. pose proof (proj1 CV) as FV. pose proof (proj1 CW) as FW.
  destruct (flattened_in _ _ _ FV) as [IV FFV]. destruct (flattened_in _ _ _ FW) as [IW FFW].
  pose proof (proj2 (required_sets_of v _ (FN _ IV FFV)) eq_refl) as RV. pose proof (proj2 (required_sets_of w _ (FN _ IW FFW)) eq_refl) as RW.
  specialize (HV j w CW _ _ RV RW). specialize (HW i v CV _ _ RW RV).
  assert (E : i = j).
  { destruct HV as [B1|[E1 L1]], HW as [B2|[E2 L2]]; [|rewrite E2 in B1|rewrite E1 in B2|lia]; exfalso.
    - eapply sets_irrefl, sets_before_trans; eauto.
    - eapply sets_irrefl; eauto.
    - eapply sets_irrefl; eauto. }
  subst j. split; auto. destruct FV as [NV _], FW as [NW _]. congruence.
Qed.
Definition keys_paths (prefix : string) (inputs : list stream) : pathmap := read_paths prefix (key_entries inputs).
Lemma keys_paths_for prefix inputs : paths_for prefix inputs (keys_paths prefix inputs).
Proof. intro k. rewrite (read_paths_read prefix (key_entries inputs) k). apply key_read_in. Qed.
Lemma first_exists (e : edef) prefix inputs i v : flat_named_ok e -> chosen e prefix inputs i v -> exists j w, first_chosen e prefix inputs j w.
Proof.
  intros FN C. destruct (pick_flat e (keys_paths prefix inputs)) as [[j w]|] eqn:PK.
  - exists j, w. eapply pick_first; eauto using keys_paths_for.
  - destruct (pick_none e prefix inputs _ FN (keys_paths_for prefix inputs) PK i v (proj1 C)). apply C.
Qed.
Lemma l_first_run (e : edef) tm prefix validate sp inputs r x :
  enum_run e tm prefix validate sp inputs r -> proper_enum tm e -> flat_local e ->
  variant_items e prefix (items_of inputs) = [] ->
  r = Ok x -> keyed inputs /\ exists y, chained (e_and_thens e) y x /\
   ((exists i v vs, first_chosen e prefix inputs i v /\ y = (i, vs) /\ flat_written e tm prefix sp inputs i v vs) \/
    ((forall i v, ~ chosen e prefix inputs i v) /\ e_default e = Some y)).
Proof.
  intros H P FL VI. apply LemEnum5.run_body in H as ->. rewrite (enum_text tm e prefix P). intros [KY [y [CH C]]]. split; auto. exists y. split; auto.
  destruct C as [[seg [i [vs [n [VI' _]]]]]|[_ C]]; [congruence|].
  destruct (keyed_no_hits tm e prefix P inputs KY VI) as [ST FR].
  assert (FN : flat_named_ok e) by (intros w I F; apply (FL w I F)).
  destruct (pick_flat e (q_paths (estate tm e prefix inputs))) as [[i v]|] eqn:PK.
  - left. destruct (e_any_flat e) eqn:AF; [|rewrite no_flat_matches in PK; auto; discriminate].
    pose proof (state_paths_keyed tm e prefix inputs P AF FR) as PF.
    pose proof (pick_first e prefix inputs _ i v FN PF PK) as CH1. destruct (flattened_in e i v (proj1 (proj1 CH1))) as [IV FV].
    destruct (FL v IV FV) as [LF FNV]. pose proof P as [AC _]. unfold accepted_enum in AC. rewrite Forall_forall in AC.
    apply (flat_text e tm prefix sp i v _ inputs y (AC v IV) FV LF FNV PF KY) in C as [vs [-> FW]]. exists i, v, vs. auto.
  - right. split; auto. apply chosen_none. intros j w FW. destruct (e_any_flat e) eqn:AF; [|rewrite (flattened_any e j w FW) in AF; discriminate].
    pose proof (state_paths_keyed tm e prefix inputs P AF FR) as PF. exact (pick_none e prefix inputs _ FN PF PK j w FW).
Qed.
Lemma l_first_accepts (e : edef) tm prefix validate sp inputs r i v vs x :
  enum_run e tm prefix validate sp inputs r -> proper_enum tm e -> flat_local e ->
  variant_items e prefix (items_of inputs) = [] -> first_chosen e prefix inputs i v ->
  keyed inputs -> flat_written e tm prefix sp inputs i v vs -> chained (e_and_thens e) (i, vs) x -> r = Ok x.
Proof.
  intros H P FL VI CN KY FW CH. apply LemEnum5.run_body in H as ->. apply (enum_text tm e prefix P). split; auto. exists (i, vs). split; auto. right. split; auto.
  destruct (keyed_no_hits tm e prefix P inputs KY VI) as [ST FR].
  assert (FN : flat_named_ok e) by (intros w I F; apply (FL w I F)).
  pose proof (flattened_any e i v (proj1 (proj1 CN))) as AF. pose proof (state_paths_keyed tm e prefix inputs P AF FR) as PF.
  destruct (pick_flat e (q_paths (estate tm e prefix inputs))) as [[j w]|] eqn:PK.
  - destruct (first_same e prefix inputs j w i v FN (pick_first e prefix inputs _ j w FN PF PK) CN) as [-> ->].
    destruct (flattened_in e i v (proj1 (proj1 CN))) as [IV FV].
    destruct (FL v IV FV) as [LF FNV]. pose proof P as [AC _]. unfold accepted_enum in AC. rewrite Forall_forall in AC.
    apply (flat_text e tm prefix sp i v _ inputs (i, vs) (AC v IV) FV LF FNV PF KY). eauto.
  - destruct (pick_none e prefix inputs _ FN PF PK i v (proj1 (proj1 CN))). apply CN.
Qed.
Lemma l_flat_exact (e : edef) tm prefix validate sp inputs r x :
  enum_run e tm prefix validate sp inputs r -> proper_enum tm e -> flat_local e ->
  variant_items e prefix (items_of inputs) = [] ->
  r = Ok x <-> keyed inputs /\ exists y, chained (e_and_thens e) y x /\
   ((exists i v vs, first_chosen e prefix inputs i v /\ y = (i, vs) /\ flat_written e tm prefix sp inputs i v vs) \/
    ((forall i v, ~ chosen e prefix inputs i v) /\ e_default e = Some y)).
Proof.
  intros H P FL VI. split; [eapply l_first_run; eauto|]. intros [KY [y [CH [[i [v [vs [FC [-> FW]]]]]|[NC D]]]]].
  - eapply l_first_accepts; eauto.
  - eapply l_flat_default; eauto.
Qed.
Lemma l_flat_one (e : edef) prefix inputs : flat_local e ->
  (forall i v j w, first_chosen e prefix inputs i v -> first_chosen e prefix inputs j w -> i = j /\ v = w) /\
  ((exists i v, first_chosen e prefix inputs i v) <-> exists i v, chosen e prefix inputs i v).
Proof.
  intro FL. assert (FN : flat_named_ok e) by (intros w I F; apply (FL w I F)). split; [intros; eapply first_same; eauto|].
  split; intros [i [v C]]; [exists i, v; apply C|eapply first_exists; eauto].
Qed.
End P.
