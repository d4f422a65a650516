(** Proofs for PropsAllow.v: adding `allow_unknown_fields` *)
From Verif Require Import LemEnum3 LemEnum4 LemRun LemStructP LemFlat LemFlat2.
From Verif Require Export LemPerm SpecAllow LemAllow2.
Local Open Scope string_scope.
Local Open Scope list_scope.

Section A.
Context {env : Env} {V : Type}.
Notation edef := (edef V).
Notation sdef := (sdef V).

Lemma check_parses fs p c c' al tm target sp l (vs : list V) :
  (c' = true -> c = true \/ forall k ksp, In (k, ksp) (keys_in l) -> In k al) ->
  parses_to (mkReader fs p c al) tm target sp l (items_of l) vs -> parses_to (mkReader fs p c' al) tm target sp l (items_of l) vs.
Proof.
  intros CC [A [B [L D]]]. split; [|split; [exact B|split; [exact L|]]].
  - apply Forall_forall. intros seg I. rewrite Forall_forall in A. destruct (A seg I) as [G|[k [ksp [body [H1 [H2 H3]]]]]]; [left; exact G|right].
    exists k, ksp, body. split; auto. split; [exact H2|]. cbn [r_check r_allowed] in *. intro C. destruct (CC C) as [C1|C1]; auto.
    apply (C1 k ksp). apply in_keys_items. eauto.
  - intros i f x N M. specialize (D i f x N M). destruct D.
    + eapply G_item; eauto.
    + eapply G_flat; eauto.
    + eapply G_container; eauto.
    + eapply G_default; eauto.
    + eapply G_target; eauto.
    + eapply G_missing; eauto.
Qed.
Lemma named_allowing (s : sdef) : named_struct s -> named_struct (allowing s).
Proof. intros H. exact H. Qed.
Lemma l_allow_known (s : sdef) tm prefix v v' sp inputs ws r :
  parse_run (allowing s) tm prefix v' sp inputs (Ok ws) -> parse_run s tm prefix v sp inputs r ->
  named_struct s -> Forall local_field (s_raw s) ->
  (forall k ksp, In (k, ksp) (keys_in inputs) -> In k (s_names s)) -> r = Ok ws.
Proof.
  intros R1 R2 NS LF KN. destruct (LemRun.run_body _ _ _ _ _ _ _ R1) as [m1 E1]; [apply NS|]. destruct (LemRun.run_body _ _ _ _ _ _ _ R2) as [m2 ->]; [apply NS|].
  symmetry in E1. apply (struct_text (allowing s) tm m1) in E1 as [vs [H C]]; auto using named_allowing. apply (struct_text s tm m2); auto. exists vs. split; auto.
  revert H. exact (check_parses (s_fields tm s) prefix (negb true && v') _ (s_names s) tm (s_default s) sp inputs vs (fun _ => or_intror KN)).
Qed.
Lemma l_allow_enum (e : edef) tm prefix v v' sp inputs x r' :
  enum_run e tm prefix v sp inputs (Ok x) -> enum_run (e_allowing e) tm prefix v' sp inputs r' ->
  proper_enum tm e -> flat_local e -> r' = Ok x.
Proof.
  intros R1 R2 PE FL. assert (PE' : proper_enum tm (e_allowing e)) by exact PE. assert (FL' : flat_local (e_allowing e)) by exact FL.
  pose proof (LemEnum5.run_body _ _ _ _ _ _ _ R1) as B1. pose proof (LemEnum5.run_body _ _ _ _ _ _ _ R2) as B2. symmetry in B1.
  apply (enum_text tm e prefix PE) in B1 as [K [y [CH [[seg [i [vs [n [V1 [V2 [V3 [V4 V5]]]]]]]]|[V1 _]]]]].
  - rewrite B2. apply (enum_text tm (e_allowing e) prefix PE'). split; auto. exists y. split; auto. left. exists seg, i, vs, n.
    split; [exact V1|]. split; [exact V2|]. split; auto. split; auto. discriminate.
  - clear K CH y. destruct (proj1 (l_flat_exact e tm prefix v sp inputs (Ok x) x R1 PE FL V1) eq_refl) as [K [y [CH C]]].
    apply (l_flat_exact (e_allowing e) tm prefix v' sp inputs r' x R2 PE' FL' V1). split; auto. exists y. split; auto.
    destruct C as [[i [w [ws [C1 [C2 [c [W1 [W2 [W3 W4]]]]]]]]]|[C1 C2]]; [left|right; split; [exact C1|exact C2]].
    exists i, w, ws. split; [exact C1|]. split; auto. exists c. split; auto. split; auto. split; auto. discriminate.
Qed.
Lemma l_allow_enum_known (e : edef) tm v v' sp inputs x r :
  enum_run (e_allowing e) tm "" v' sp inputs (Ok x) -> enum_run e tm "" v sp inputs r ->
  proper_enum tm e -> no_flattened e ->
  (forall k ksp, In (k, ksp) (keys_in inputs) -> In k (variant_names e)) -> r = Ok x.
Proof.
  intros R1 R2 PE NF KN. assert (PE' : proper_enum tm (e_allowing e)) by exact PE.
  assert (FL : flat_local e) by (intros w I F; rewrite (NF w I) in F; discriminate). assert (FL' : flat_local (e_allowing e)) by exact FL.
  pose proof (LemEnum5.run_body _ _ _ _ _ _ _ R1) as B1. pose proof (LemEnum5.run_body _ _ _ _ _ _ _ R2) as B2. symmetry in B1.
  apply (enum_text tm (e_allowing e) "" PE') in B1 as [K [y [CH [[seg [i [vs [n [V1 [V2 [V3 [V4 V5]]]]]]]]|[V1 _]]]]].
  - rewrite B2. apply (enum_text tm e "" PE). split; auto. exists y. split; auto. left. exists seg, i, vs, n.
    split; [exact V1|]. split; [exact V2|]. split; auto. split; auto. intros _. split.
    + intros _ k ksp I. specialize (KN k ksp I). unfold variant_names in KN. apply in_flat_map in KN as [w [IW KN]]. unfold e_names. apply in_flat_map.
      exists w. split; auto. apply in_app_iff. auto.
    + intros _ AF. exfalso. unfold e_any_flat in AF. apply existsb_exists in AF as [w [IW AF]]. rewrite (NF w IW) in AF. discriminate.
  - clear K CH y. destruct (proj1 (l_flat_exact (e_allowing e) tm "" v' sp inputs (Ok x) x R1 PE' FL' V1) eq_refl) as [K [y [CH C]]].
    apply (l_flat_exact e tm "" v sp inputs r x R2 PE FL V1). split; auto. exists y. split; auto.
    destruct C as [[i [w [ws [C1 _]]]]|[C1 C2]]; [exfalso|right; split; [exact C1|exact C2]].
    destruct C1 as [[[N [F _]] _] _]. cbn [e_variants e_allowing] in N. rewrite (NF w (nth_error_In _ _ N)) in F. discriminate.
Qed.
End A.
