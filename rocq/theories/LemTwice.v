(** Proofs for PropsTwice.v *)
From Verif Require Import LemDiag3 LemDiag4 LemDiag5 LemDiag6.
From Verif Require Export SpecTwice.
Local Open Scope string_scope.
Local Open Scope list_scope.

Lemma before_app {A B} (j : list A -> A -> list B) : forall a c b, with_before j c (a ++ b) = with_before j c a ++ with_before j (c ++ a) b.
Proof.
  induction a as [|x a IH]; intros c b; cbn [app with_before]; [now rewrite app_nil_r|]. rewrite IH, <- app_assoc. now rewrite <- app_assoc.
Qed.
Lemma listed_yes k l : In k l -> listed_in k l = true.
Proof. intro H. unfold listed_in, is_key. apply existsb_exists. exists k. split; auto. apply String.eqb_refl. Qed.
Lemma listed_no k l : ~ In k l -> listed_in k l = false.
Proof.
  intro H. unfold listed_in, is_key. destruct (existsb (String.eqb k) l) eqn:E; auto. apply existsb_exists in E as [x [I E]]. apply String.eqb_eq in E. subst x. contradiction.
Qed.
Section L.
Context {env : Env}.
Lemma judged_again {O} (G : grammar O) k sp xs : given_again k sp xs -> ~ In k (gr_many G) ->
  In (mkErr sp ("duplicate attribute for `" ++ gr_shown G k ++ "`")) (judged G xs).
Proof.
  intros [a [x [b [-> [I H]]]]] M. unfold judged. rewrite before_app. apply in_or_app. right. cbn [with_before app]. apply in_or_app. left.
  assert (AG : again G k sp a = [mkErr sp ("duplicate attribute for `" ++ gr_shown G k ++ "`")]).
  { unfold again. now rewrite (listed_no _ _ M), (listed_yes _ _ I). }
  destruct H as [[o ->]|[e ->]]; cbn [judge]; rewrite AG; now left.
Qed.
Lemma complaint {A} (r : res A) l x : diagnosed r l -> In x l -> exists e, r = Err e /\ In x (errs_of e).
Proof. unfold diagnosed. destruct r as [a|e|b]; [intros -> []|intros <- I; eauto|contradiction]. Qed.
Lemma l_twice_field sy (GS : good_syn_lib sy) f xs k sp : has_entries (grammar_f sy f) (sf_attrs f) xs -> given_again k sp xs ->
  ~ In k ["alias"; "map"; "and_then"; "skip"] -> complains (read_field sy f) sp ("duplicate attribute for `" ++ k ++ "`").
Proof.
  intros E GA N. eapply complaint; [apply l_field_diag; eauto|]. unfold problems_f. apply in_or_app. left.
  pose proof (judged_again (grammar_f sy f) k sp xs GA) as J. cbn [gr_many gr_shown grammar_f] in J.
  destruct (is_key k "skip") eqn:S; [apply String.eqb_eq in S; subst k; exfalso; apply N; cbn; tauto|]. apply J. intro I. apply N. cbn in *. tauto.
Qed.
Lemma l_twice_struct sy (GS : good_syn_lib sy) i gs fes xs k sp : fields_read sy (ss_fields i) gs fes -> has_entries (grammar_s sy (ss_shape i) gs) (ss_attrs i) xs -> given_again k sp xs ->
  ~ In k ["and_then"; "attributes"] -> complains (read_struct sy i) sp ("duplicate attribute for `" ++ k ++ "`").
Proof.
  intros F E GA N. eapply complaint; [eapply l_struct_diag; eauto|]. unfold problems_s. apply in_or_app. right. apply in_or_app. left.
  exact (judged_again (grammar_s sy (ss_shape i) gs) k sp xs GA N).
Qed.
Lemma l_twice_variant sy (GS : good_syn_lib sy) v gs fes xs k sp : snake_ok v -> fields_read sy (sv_fields v) gs fes -> has_entries (grammar_v v gs) (sv_attrs v) xs -> given_again k sp xs ->
  k <> "alias" -> complains (read_variant sy v) sp ("duplicate attribute for `" ++ k ++ "`").
Proof.
  intros SN F E GA N. eapply complaint; [eapply l_variant_diag; eauto|]. unfold problems_v. apply in_or_app. right. apply in_or_app. left.
  apply (judged_again (grammar_v v gs) k sp xs GA). cbn. intros [I|[]]. congruence.
Qed.
Lemma l_twice_enum sy (GS : good_syn_lib sy) i hs ves xs fes des k sp : written_enum i -> variants_read sy (se_variants i) hs ves -> has_entries (grammar_e sy) (se_attrs i) xs ->
  flatten_faults hs [] hs fes -> default_fault hs xs des -> given_again k sp xs ->
  ~ In k ["and_then"; "attributes"] -> complains (read_enum sy i) sp ("duplicate attribute for `" ++ k ++ "`").
Proof.
  intros W V E F D GA N. eapply complaint; [eapply l_enum_diag; eauto|]. apply in_or_app. left. exact (judged_again (grammar_e sy) k sp xs GA N).
Qed.
End L.
