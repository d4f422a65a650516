(** Proofs for PropsAdvert.v: the names an enum advertises. *)
From Verif Require Export SpecEFlat SpecFlat.
From Verif Require Import LemEFlat LemEnum6 LemEnum5 LemNamed LemFlat.
Local Open Scope string_scope.
Local Open Scope list_scope.

Section E.
Context {env : Env} {V : Type}.
Notation vdef := (vdef V).
Notation edef := (edef V).

Lemma variant_names_in (e : edef) n : In n (variant_names e) -> In n (fn_names (enum_fn e)).
Proof.
  cbn [enum_fn fn_names]. unfold variant_names, e_names. intro I. apply in_flat_map in I as [v [IV I]].
  apply in_flat_map. exists v. split; auto. apply in_or_app. now left.
Qed.
Lemma advert_fields (e : edef) (v : vdef) n : In v (e_variants e) -> v_flatten v = true ->
  In n (flat_names_of v) -> In n (fn_names (enum_fn e)).
Proof.
  intros IV F I. cbn [enum_fn fn_names]. unfold e_names. apply in_flat_map. exists v. split; auto.
  rewrite F. apply in_or_app. right. unfold flat_names_of in I. apply in_flat_map in I as [f [IF I]].
  unfold names_of in I. destruct (is_parsable f); [|destruct I].
  destruct (skip_default_names f) as [SN [SK _]].
  apply in_or_app. unfold field_key_names in I. destruct (f_kind f) as [d|[p|] u|u|u|u] eqn:K.
  all: try (left; apply in_flat_map; exists (skip_default f); split; [now apply in_map|]; rewrite SK; exact I).
  all: right; apply in_flat_map; exists (skip_default f); split; [now apply in_map|]; rewrite SK, SN; exact I.
Qed.
(** the keys of the fields of a flattened variant *)
Lemma flat_written_keys (e : edef) tm sp inputs i (v : vdef) vs k ksp :
  flat_written e tm "" sp inputs i v vs -> ~ takes_all v ->
  In (k, ksp) (keys_in inputs) -> In k (flat_names_of v).
Proof.
  intros [c [CS [P [P1 _]]]] T I. destruct c; [|apply (P1) with (ksp := ksp); auto; intro N; destruct CS as [_ CS]; discriminate CS; auto].
  destruct P as [IO _]. apply in_keys_pieces in I as [pc [body [I K]]].
  assert (J : In (fst pc) (items_of inputs)) by (now apply in_map). rewrite Forall_forall in IO.
  destruct (IO _ J) as [[j [w [k' [ksp' [b' [f [K' [O _]]]]]]]]|[k' [ksp' [b' [K' [_ IA]]]]]];
    rewrite K in K'; injection K' as <- <- <-; [|now apply IA].
  unfold owner_in in O. cbn [r_prefix r_fields variant_reader strip_prefix] in O.
  apply LemNamed.find_field_spec in O as [_ [O2 [O3 [O4 _]]]]. rewrite Nat.sub_0_r in O2. unfold v_fields in O2. rewrite nth_error_map in O2.
  destruct (nth_error (v_raw v) j) as [g|] eqn:NG; [|discriminate]. injection O2 as <-. apply in_flat_map. exists g. split; [eauto using nth_error_In|].
  destruct (skip_default_names g) as [SN [SK [SP _]]]. apply pitem_spec in O3 as [O5 [O6 [d KD]]]. rewrite SK in KD. rewrite SN in O4.
  unfold SpecFlat.names_of. rewrite <- SP. unfold is_parsable. rewrite O5, O6. cbn [negb andb orb]. unfold field_key_names. rewrite KD. exact O4.
Qed.
Lemma l_enum_known (e : edef) tm sp inputs x :
  enum_run e tm "" true sp inputs (Ok x) -> proper_enum tm e -> flat_local e ->
  e_unknown_ok e = false -> e_default e = None ->
  (forall v, In v (e_variants e) -> v_flatten v = true -> ~ takes_all v) ->
  forall k ksp, In (k, ksp) (keys_in inputs) -> In k (fn_names (enum_fn e)).
Proof.
  intros H P FL U D NT k ksp I. pose proof H as H2. apply LemEnum5.run_body in H. symmetry in H.
  apply (enum_text tm e "" P) in H as [KY [y [_ [[seg [i [vs [n [VI [_ [_ [_ O]]]]]]]]|[VI _]]]]].
  - destruct (O U) as [O1 _]. now apply (O1 eq_refl k ksp).
  - destruct (l_flat_run e tm "" true sp inputs (Ok x) x H2 P FL VI eq_refl) as [_ [z [_ [[i [v [vs [CH [_ FW]]]]]|[_ DF]]]]]; [|congruence].
    destruct (flattened_in e i v (proj1 CH)) as [IV FV].
    apply (advert_fields e v); auto. eapply flat_written_keys; eauto.
Qed.
(** the name of a variant is looked at *)
Lemma l_enum_looks (e : edef) prefix n :
  proper_enum TMeta e -> In n (variant_names e) -> looks_at prefix (enum_fn e) n.
Proof.
  intros P I sp l v L E. pose proof (E_flatten e (Named sp) prefix false l) as R.
  destruct (l_enum_two _ _ _ _ _ _ _ R P) as [x X]; [|congruence].
  eapply Nat.le_trans; [exact L|]. unfold variant_items, part. clear -I.
  induction (items_of l) as [|s t IH]; auto. cbn [filter].
  destruct (addressed prefix [n] s) eqn:A.
  - assert (B : addressed prefix (variant_names e) s = true).
    { apply addressed_spec in A as [k [ksp [body [m [K [M E]]]]]]. apply addressed_spec. exists k, ksp, body, m. repeat split; auto.
      destruct M as [<-|[]]. exact I. }
    rewrite B. cbn. now apply le_n_S.
  - destruct (addressed prefix (variant_names e) s); cbn; lia.
Qed.
End E.
