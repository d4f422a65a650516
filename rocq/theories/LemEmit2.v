(** Proofs about the variables of the emitted code: whole structs and enums. *)
From Verif Require Export LemEmit LemSchema5.

Lemma defs_pre sh d fs : sh <> ShUnit ->
  (forall i, i < length fs -> defs (c_pre sh d fs) (fvar i)) /\ (fd_transparent d = false -> defs (c_pre sh d fs) "errors").
Proof.
  intro N. unfold c_pre. destruct sh; [| |congruence].
  all: cbn [defs]; split; [intros i R; left; apply defs_init; lia|intros ->; right; reflexivity].
Qed.
Lemma sc_pre (E : string -> Prop) sh d fs : sc E (c_pre sh d fs).
Proof.
  unfold c_pre. destruct sh; [| |exact I].
  all: cbn [sc]; split; [apply sc_each; intros; exact I|destruct (fd_transparent d); exact I].
Qed.

(** *** field.rs to_parsing_tokens *)
Section Parsing.
Variable sh : shape.
Variable d : fdata.
Variable fs : list sfield.
Hypothesis FITS : Forall (fits sh) fs.
Definition inline_needs (x : string) : Prop :=
  match sh with
  | ShNamed => In x ["inputs"; "prefix"] \/ (fd_unknown d = false /\ x = "validate")
  | ShUnnamed => In x ["inputs"; "index"]
  | ShUnit => In x ["inputs"; "_mode"]
  end.
Lemma sc_inline (E : string -> Prop) pre post :
  sc E pre -> (sh <> ShUnit -> defs pre "errors" /\ forall i, i < length fs -> defs pre (fvar i)) ->
  above inline_needs E -> (sh = ShNamed -> forall F, above E F -> sc F (fd_allowed d)) ->
  (forall F, above (plus (defs pre) E) F -> sc F post) ->
  sc E (cd_inline (c_parsing sh d fs pre post)).
Proof.
  intros SP DP A AL PO. unfold c_parsing, inline_needs, above in *. destruct sh eqn:SH.
  - destruct DP as [DE DF]; [discriminate|]. assert (E "inputs" /\ E "prefix") as [X1 X2] by (split; apply A; cbn; tauto).
    assert (X3 : fd_unknown d = false -> E "validate") by (intro H; apply A; tauto).
    cbn [cd_inline seqs fold_right sc defs uses map]. sp; try exact SP.
    all: try (unfold plus; cbn [In]; sp; auto 12; fail).
    + apply sc_each. intros i f F IF R B. unfold c_named_arm. destruct (g_is_flat f) eqn:FL; cbn [negb andb when sc]; auto.
      destruct (g_is_parsable f); cbn [when sc]; auto. cbn [seqs fold_right sc defs uses map].
      assert (forall x, In x ["input"; "p"; "span"; "inputs"; "prefix"; "errors"] -> F x) as Y.
      { intros x H. apply B. unfold plus. cbn [In] in *. intuition (subst; auto 12). }
      assert (F (fvar i)). { apply B. unfold plus. right. right. right. left. apply DF. lia. }
      unfold plus. cbn [In]. sp; auto 12.
      1-3: repeat right; apply Y; cbn; auto 12.
      apply (sc_call ShNamed); [rewrite Forall_forall in FITS; auto| |].
      * intros x. cbn [call_needs]. intros [Hx|[_ Hx]]; cbn [In] in Hx; intuition (subst; auto 12); right; repeat right; apply Y; cbn; auto 12.
      * intros _. apply AL; auto. intros x Ex. repeat right. apply B. repeat right. exact Ex.
    + destruct (fd_unknown d) eqn:U; cbn [negb when sc]; auto. cbn [seqs fold_right sc defs uses map]. unfold plus; cbn [In]. sp; auto 15.
  - destruct DP as [DE DF]; [discriminate|]. assert (E "inputs" /\ E "index") as [X1 X2] by (split; apply A; cbn; tauto).
    cbn [cd_inline seqs fold_right sc defs uses map]. sp; try exact SP.
    + destruct (filter g_is_parsable fs) eqn:PB.
      * cbn [sc arm seqs fold_right defs]. unfold plus. sp; auto 12.
      * cbn [seqs fold_right sc defs uses map]. sp; try (unfold plus; cbn [In]; sp; auto 12; fail).
        apply sc_each. intros i f F IF R B. unfold c_tuple_arm.
        destruct (g_is_parsable f && negb (sv_true (g_append f)) && negb (sv_true (g_rest f))); cbn [when sc]; auto.
        assert (forall x, In x ["input"; "index"; "inputs"; "errors"] -> F x) as Y.
        { intros x H. apply B. unfold plus. cbn [In] in *. intuition (subst; auto 15). }
        assert (F (fvar i)). { apply B. assert (defs pre (fvar i)) by (apply DF; lia). unfold plus. auto 15. }
        cbn [seqs fold_right sc defs uses map]. unfold plus. cbn [In]. sp; auto 12.
        1-2: repeat right; apply Y; cbn; auto 12.
        -- apply (sc_call ShUnnamed); [rewrite Forall_forall in FITS; auto| |discriminate].
           intros x. cbn [call_needs]. intros [Hx|[_ Hx]]; cbn [In] in Hx; intuition (subst; auto 12); right; repeat right; apply Y; cbn; auto 12.
        -- destruct (existsb g_is_flat (s :: l)); cbn [when sc]; auto. destruct (g_is_flat f); cbn [sc arm uses map seqs fold_right defs]; unfold plus; sp; auto 12.
           all: repeat right; apply Y; cbn; auto 12.
    + apply PO. intros x [H|H]; unfold plus; auto 12.
  - assert (E "inputs" /\ E "_mode") as [X1 X2] by (split; apply A; cbn; tauto).
    cbn [cd_inline seqs fold_right sc defs uses map]. sp; try exact SP.
    + destruct (in_meta (fd_mode d)); cbn [uses map seqs fold_right sc defs arm]; unfold plus; sp; auto 12.
    + apply PO. intros x [H|H]; unfold plus; auto 12.
Qed.
Lemma sc_parse (E : string -> Prop) pre post : E "input" -> (forall F, above (plus (fun x => In x ["input"]) E) F -> sc F (fd_inline d)) ->
  sc E (cd_parse (c_parsing sh d fs pre post)).
Proof.
  intros H I. assert (X : sc E (c_delimited d)).
  { cbn [c_delimited sc]. split; auto. apply I. intros x [|]; unfold plus; cbn [defs]; auto. }
  unfold c_parsing. destruct sh; exact X.
Qed.
Lemma sc_flag (E : string -> Prop) pre post : E "span" ->
  (sh <> ShUnit -> forall F, above (plus (fun x => In x ["input"; "_mode"]) E) F -> sc F (fd_inline d)) ->
  (sh = ShUnit -> sc E (CSeq pre post)) ->
  forall c, cd_flag (c_parsing sh d fs pre post) = Some c -> sc E c.
Proof.
  intros H I U c. unfold c_parsing. destruct sh; cbn [cd_flag].
  - intro Q. injection Q as <-. specialize (I ltac:(discriminate)). cbn [seqs fold_right sc defs]. unfold plus. sp; auto.
    apply I. intros x [|]; unfold plus; cbn [In] in *; intuition (subst; auto).
  - destruct (fd_target d || _); [|discriminate]. intro Q. injection Q as <-. specialize (I ltac:(discriminate)). cbn [seqs fold_right sc defs]. unfold plus. sp; auto.
    apply I. intros x [|]; unfold plus; cbn [In] in *; intuition (subst; auto).
  - intro Q. injection Q as <-. auto.
Qed.
End Parsing.

(** *** and_then *)
Lemma sc_and_thens (E : string -> Prop) {A} x (l : list A) : E x -> E "errors" -> sc E (seqs (map (fun _ => c_and_then x) l)).
Proof.
  intros X Er. apply sc_seqs. intros c F IC B. apply in_map_iff in IC as [y [<- _]].
  assert (F x /\ F "errors") as [? ?] by (split; now apply B). cbn [c_and_then sc defs uses map seqs fold_right]. unfold plus. cbn [In]. sp; auto 12.
Qed.
Lemma sc_struct_post (E : string -> Prop) ats c : sc E c -> sc E (c_struct_post ats c).
Proof.
  intro S. assert (X : forall l : list (list token),
    sc E (seqs [CLet "ret" (CBlock c); CLet "errors" CNop; CLet "ret" (CUse "ret");
               seqs (map (fun _ => c_and_then "ret") l); uses ["errors"; "ret"]])).
  { intro l. pose proof (fun F => @sc_and_thens F _ "ret" l) as AT. generalize dependent (seqs (map (fun _ : list token => c_and_then "ret") l)). intros a AT.
    cbn [seqs fold_right sc defs uses map]. unfold plus. sp; try exact S; auto 12. }
  unfold c_struct_post. destruct ats; auto.
Qed.
