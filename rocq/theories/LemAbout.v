(** Which attribute the messages speak of, and when unknown keys are looked for. *)
From Verif Require Export SpecStruct.

Section A.
Context {env : Env} {V : Type}.
Lemma about_eq declared spans pn sp : about declared spans pn sp -> pn = attr_path_name declared spans /\ sp = first_span spans.
Proof. intros [p sp' others|path others ->| ->]; split; reflexivity. Qed.
Lemma lenient_spec (s : sdef V) : s_accepts_all s = true <-> lenient s.
Proof.
  unfold s_accepts_all, lenient, fields_accepts_all. rewrite orb_true_iff. apply or_iff_compat_l.
  destruct (existsb is_rest (s_raw s)) eqn:E.
  - split; auto. intros _. apply existsb_exists in E as [f [I R]]. exists f. split; auto. unfold is_rest in R. now destruct (f_kind f).
  - rewrite existsb_exists. split; intros [f [I R]]; exists f; split; auto; destruct (f_kind f) eqn:K; auto; try discriminate; try (now destruct R).
    assert (X : existsb is_rest (s_raw s) = true); [|congruence]. apply existsb_exists. exists f. split; auto. unfold is_rest. now rewrite K.
Qed.
Lemma lenient_flag (s : sdef V) v : (v = false <-> lenient s) -> v = negb (s_accepts_all s).
Proof.
  intros [H1 H2]. destruct (s_accepts_all s) eqn:E.
  - apply H2. now apply lenient_spec.
  - destruct v; auto. exfalso. specialize (H1 eq_refl). apply lenient_spec in H1. congruence.
Qed.
Lemma flag_lenient (s : sdef V) : negb (s_accepts_all s) = false <-> lenient s.
Proof. rewrite <- lenient_spec. destruct (s_accepts_all s); cbn; intuition discriminate. Qed.
(** the run that [s] makes on a list *)
Lemma run_list (s : sdef V) m ins : s_is_transparent s = false ->
  parse_run s TMeta "" (negb (s_accepts_all s)) (to_full_span m ins) ins (fst (d_inline (struct_dict s) m ins)).
Proof. intro NT. apply R_list; auto. apply flag_lenient. Qed.
End A.
