(** Proofs for PropsNodes.v. *)
From Verif Require Import LemSmall.
From Verif Require Export SpecNodes.

Lemma known_arm : forall f v, In v (syn_variants f) -> v <> "Verbatim" ->
  mem_str v (attrs_arms f) = true /\
  (mem_str v (attrs_mut_arms f) = false -> f = FExpr /\ v = "Infer").
Proof.
  intros f v I N.
  assert (A : forallb (fun v => String.eqb v "Verbatim" ||
                (mem_str v (attrs_arms f) && (mem_str v (attrs_mut_arms f) ||
                   (match f with FExpr => true | _ => false end && String.eqb v "Infer")))) (syn_variants f) = true)
    by (destruct f; vm_compute; reflexivity).
  rewrite forallb_forall in A. specialize (A v I).
  destruct (String.eqb_spec v "Verbatim") as [E|_]; [contradiction|]. cbn [orb] in A.
  apply andb_true_iff in A as [A B]. split; [exact A|]. intros M. rewrite M in B. cbn [orb] in B.
  apply andb_true_iff in B as [B E]. apply String.eqb_eq in E. split; [destruct f; congruence|exact E].
Qed.

Lemma arms_incl : forall f v, mem_str v (attrs_mut_arms f) = true -> mem_str v (attrs_arms f) = true.
Proof.
  intros f v H. apply existsb_exists in H as [x [I E]]. apply String.eqb_eq in E. subst x.
  unfold mem_str. apply existsb_exists. exists v. split; [|apply String.eqb_refl].
  destruct f; cbn in *; tauto.
Qed.

Lemma l_agree : forall n l,
  (carries n l -> node_attrs n = l) /\
  (node_attrs_mut n = Ok l -> node_attrs n = l).
Proof.
  intros n l. split.
  - intros C. inversion C as [|f v l0 sp I N]; subst; [reflexivity|].
    cbn. now rewrite (proj1 (known_arm _ _ I N)).
  - destruct n as [f v l0 sp|l0]; cbn; [|congruence].
    destruct (mem_str v (attrs_mut_arms f)) eqn:M.
    + intros E. inversion E; subst. now rewrite (arms_incl _ _ M).
    + destruct (String.eqb v "Verbatim"); discriminate.
Qed.

Lemma l_writable : forall n l, carries n l -> ~ infer_expr n -> node_attrs_mut n = Ok l.
Proof.
  intros n l C NI. inversion C as [|f v l0 sp I N]; subst; [reflexivity|].
  cbn. destruct (mem_str v (attrs_mut_arms f)) eqn:M; [reflexivity|].
  exfalso. apply NI. destruct (proj2 (known_arm _ _ I N) M) as [-> ->]. now exists l, sp.
Qed.

Lemma l_infer : forall l sp, carries (NEnum FExpr "Infer" l sp) l /\
  node_attrs (NEnum FExpr "Infer" l sp) = l /\
  exists e, node_attrs_mut (NEnum FExpr "Infer" l sp) = Err e.
Proof.
  intros l sp. split; [|split; [reflexivity|eexists; reflexivity]].
  constructor; [|discriminate]. cbn. tauto.
Qed.

Lemma l_extract_node : forall (env : Env) V (s : sdef V) conv n l,
  carries n l -> ~ infer_expr n ->
  let matches a := derived_matches (s_attributes s) (a_path a) in
  keeping (fun a => negb (matches a)) n (snd (extract_node s conv n)) /\
  (conv n = conv (snd (extract_node s conv n)) ->
   fst (extract_node s conv n) = parse_node s conv n).
Proof.
  intros env V s conv n l C NI matches. pose proof (l_writable _ _ C NI) as W.
  pose proof (proj1 (l_agree n l) C) as A.
  assert (E : extract_node s conv n =
    let n1 := node_with n (filter (fun a => negb (matches a)) l) in
    (parse_struct_attr_tokens (map attr_item (filter matches l)) (struct_attr_body s (conv n1)), n1)).
  { unfold extract_node, as_owner. rewrite W. rewrite take_tokens_spec. reflexivity. }
  rewrite E. cbn [fst snd]. split.
  - inversion C; subst; cbn; constructor.
  - intros CV. unfold parse_node. rewrite A. fold matches. now rewrite CV.
Qed.


Lemma l_locked : forall (env : Env) V (s : sdef V) conv n sp m, locked n sp m ->
  node_attrs_mut n = Err (err1 sp m) /\ extract_node s conv n = (Err (err1 sp m), n).
Proof. intros env V s conv n sp m L. destruct L; split; reflexivity. Qed.
Lemma l_locked_only : forall n e, syn_node n -> node_attrs_mut n = Err e ->
  exists sp m, locked n sp m /\ e = err1 sp m.
Proof.
  intros [f v l sp|l] e S E; [|discriminate]. cbn [syn_node] in S.
  destruct (String.eqb_spec v "Verbatim") as [->|N].
  - exists sp. destruct f; (eexists; split; [constructor|]; cbn in E; inversion E; reflexivity).
  - cbn in E. destruct (mem_str v (attrs_mut_arms f)) eqn:M; [discriminate|].
    destruct (proj2 (known_arm _ _ S N) M) as [-> ->]. exists sp. eexists.
    split; [constructor|]. cbn in E. inversion E. reflexivity.
Qed.

Lemma slice_fold {env : Env} l sp : slice_at l sp ->
  fold_left (fun s a => Some (match s with Some s' => join_or (a_span a) s' (a_span a) | None => a_span a end)) l None =
  match l with [] => None | _ => Some sp end.
Proof.
  induction 1 as [|a|l a sp sp' S IH N J|l a sp S IH N J]; auto; rewrite fold_left_app, IH; destruct l; try contradiction; cbn; unfold join_or; now rewrite J.
Qed.
Lemma l_borrowed : forall (env : Env) V (s : sdef V) (e : edef V) cs ce o sp m, borrowed o sp m ->
  struct_extract_attributes s cs o = (Err (err1 sp m), o) /\ enum_extract_attributes e ce o = (Err (err1 sp m), o).
Proof.
  intros env V s e cs ce o sp m B.
  assert (X : forall f, take_tokens f o = (Err (err1 sp m), o)).
  { intro f. destruct B as [a|l sp S]; [reflexivity|]. unfold take_tokens, attrs_mut. rewrite (slice_fold l sp S). destruct S; try reflexivity; destruct l; reflexivity. }
  unfold struct_extract_attributes, enum_extract_attributes. now rewrite !X.
Qed.
Lemma l_slice_at : forall (env : Env) l, exists sp, slice_at l sp.
Proof.
  intros env l. induction l as [|a l [sp IH]] using rev_ind; [eexists; constructor|]. destruct l as [|b l]; [exists (a_span a); constructor|].
  destruct (env_join (a_span a) sp) as [sp'|] eqn:J; eexists; [eapply SA_joined|eapply SA_apart]; eauto; discriminate.
Qed.
