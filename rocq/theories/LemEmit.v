(** Proofs about the variables of the emitted code. *)
From Verif Require Export SpecEmit.

(** *** A form that computes *)
Fixpoint defs (c : code) (x : string) : Prop :=
  match c with
  | CLet y _ => x = y
  | CSeq a b => defs a x \/ defs b x
  | _ => False
  end.
Definition plus (D E : string -> Prop) : string -> Prop := fun x => D x \/ E x.
Fixpoint sc (E : string -> Prop) (c : code) : Prop :=
  match c with
  | CNop => True
  | CUse x => E x
  | CLet _ e => sc E e
  | CSeq a b => sc E a /\ sc (plus (defs a) E) b
  | CBlock a => sc E a
  | CFn ps b => sc (plus (fun x => In x ps) E) b
  end.
Lemma sc_mono c : forall E F : string -> Prop, (forall x, E x -> F x) -> sc E c -> sc F c.
Proof.
  induction c; cbn [sc]; intros E F H S; auto.
  - eauto.
  - destruct S as [S1 S2]. split; [eauto|]. eapply IHc2; [|exact S2]. unfold plus. intros x [|]; auto.
  - eauto.
  - eapply IHc; [|exact S]. unfold plus. intros x [|]; auto.
Qed.
Lemma scoped_defs E c E' : scoped E c E' -> forall x, In x E' <-> defs c x \/ In x E.
Proof.
  induction 1; intro y; cbn [defs In]; try tauto.
  - intuition.
  - rewrite IHscoped2, IHscoped1. tauto.
Qed.
Lemma scoped_sc E c E' : scoped E c E' -> sc (fun x => In x E) c.
Proof.
  induction 1; cbn [sc]; auto.
  - split; auto. eapply sc_mono; [|exact IHscoped2]. intros x I. apply (scoped_defs _ _ _ H) in I. exact I.
  - eapply sc_mono; [|exact IHscoped]. intros x I. apply in_app_or in I. exact I.
Qed.
Lemma sc_scoped c : forall E, sc (fun x => In x E) c -> exists E', scoped E c E'.
Proof.
  induction c; intros E S; cbn [sc] in S.
  - exists E. constructor.
  - exists E. now constructor.
  - destruct (IHc E S) as [E' H]. exists (x :: E). econstructor. exact H.
  - destruct S as [S1 S2]. destruct (IHc1 E S1) as [E1 H1]. destruct (IHc2 E1) as [E2 H2].
    { eapply sc_mono; [|exact S2]. intros x D. apply (scoped_defs _ _ _ H1). exact D. }
    exists E2. econstructor; eauto.
  - destruct (IHc E S) as [E' H]. exists E. econstructor. exact H.
  - destruct (IHc (params ++ E)) as [E' H].
    { eapply sc_mono; [|exact S]. intros x D. apply in_or_app. exact D. }
    exists E. econstructor. exact H.
Qed.
Lemma contained_sc c : self_contained c <-> sc (fun _ => False) c.
Proof.
  split.
  - intros [E H]. apply scoped_sc in H. eapply sc_mono; [|exact H]. intros x [].
  - intro S. apply sc_scoped. eapply sc_mono; [|exact S]. intros x [].
Qed.
Lemma fn_contained ps b : self_contained (CFn ps b) <-> sc (fun x => In x ps) b.
Proof.
  rewrite contained_sc. cbn [sc]. split; apply sc_mono; unfold plus; intros x; tauto.
Qed.

(** *** Lists *)
Definition above (E F : string -> Prop) : Prop := forall x, E x -> F x.
Lemma sc_seqs (E : string -> Prop) l : (forall c F, In c l -> above E F -> sc F c) -> sc E (seqs l).
Proof.
  revert E. induction l as [|c l IH]; intros E H; cbn [seqs fold_right sc]; [exact I|]. split.
  - apply H; [now left|intros x; auto].
  - apply IH. intros c' F In' A. apply H; [now right|]. intros x Ex. apply A. now right.
Qed.
Lemma sc_each g fs : forall k (E : string -> Prop),
  (forall i f F, In f fs -> k <= i < k + length fs -> above E F -> sc F (g i f)) -> sc E (each g k fs).
Proof.
  induction fs as [|f fs IH]; intros k E H; cbn [each sc]; [exact I|]. split.
  - apply H; [now left|cbn; lia|intros x; auto].
  - apply IH. intros i f' F In' R A. apply H; [now right|cbn; lia|]. intros x Ex. apply A. now right.
Qed.
Lemma defs_init fs : forall k i, k <= i < k + length fs -> defs (each c_init k fs) (fvar i).
Proof.
  induction fs as [|f fs IH]; intros k i R; cbn [length] in R; [lia|]. cbn [each defs c_init].
  destruct (Nat.eq_dec i k) as [->|N]; [now left|]. right. apply IH. lia.
Qed.
Lemma plain_index fs : forall k, find plain_field fs <> None -> exists i, k <= i < k + length fs /\ plain_var k fs = fvar i.
Proof.
  induction fs as [|f fs IH]; intros k N; cbn [find plain_var length] in *; [congruence|].
  destruct (plain_field f).
  - exists k. split; [lia|reflexivity].
  - destruct (IH (S k) N) as [i [R Q]]. exists i. split; [lia|exact Q].
Qed.

(** *** Names *)
Lemma sc_names (E : string -> Prop) (nested : bool) c : sc (if nested then plus (eq "vec") E else E) c -> sc E (c_names nested c).
Proof.
  unfold c_names. destruct nested; auto. intro S. cbn [seqs fold_right sc defs]. unfold plus.
  repeat split; cbn; auto.
  eapply sc_mono; [|exact S]. unfold plus. cbn. intros x [<-|]; auto 6.
Qed.
Lemma sc_flat_names (E : string -> Prop) f : E "vec" -> sc E (c_flat_names f).
Proof.
  intro V. unfold c_flat_names. cbn [sc]. split; auto.
  destruct (match g_flatten f with Some x => opt_some (ff_prefix x) | None => false end); cbn; auto. unfold plus; cbn. auto.
Qed.
Lemma sc_field_names E fs : sc E (c_field_names fs).
Proof.
  unfold c_field_names. apply sc_names. apply sc_seqs. intros c F IC A. apply in_map_iff in IC as [f [<- IF]].
  apply filter_In in IF as [IF _]. destruct (flatten_true f) eqn:FT.
  - apply sc_flat_names, A. replace (existsb flatten_true fs) with true; [now left|].
    symmetry. apply existsb_exists. eauto.
  - destruct (existsb flatten_true fs); cbn; auto. apply A. now left.
Qed.
Lemma sc_enum_names E d : sc E (c_enum_names d).
Proof.
  unfold c_enum_names. apply sc_names. apply sc_seqs. intros c F IC A. apply in_map_iff in IC as [v [<- IV]].
  set (nested := existsb _ _) in *. cbn [sc]. split.
  - destruct nested; cbn; auto. apply A. now left.
  - destruct (b_true (h_flatten v)) eqn:FL; cbn [when sc]; [|exact I]. apply sc_seqs. intros c G IC B.
    apply in_map_iff in IC as [f [<- IF]]. destruct (flatten_true f) eqn:FT; cbn [when sc]; [|exact I].
    apply sc_flat_names. apply B. right. apply A. replace nested with true; [now left|].
    symmetry. unfold nested. apply existsb_exists. exists v. split; auto. rewrite FL. cbn [andb].
    apply existsb_exists. exists f. split; auto. unfold g_is_flat. now rewrite FT.
Qed.

(** *** Fields *)
Ltac sp := repeat match goal with |- _ /\ _ => split | |- True => exact I end.
Section Fields.
Variable sh : shape.
Variable fs : list sfield.
(** the fields are as their struct or variant says, see [shape_facts] *)
Definition fits (f : sfield) : Prop :=
  match sh with
  | ShNamed => sf_ident (g_src f) <> None
  | ShUnnamed => sf_ident (g_src f) = None /\ sv_true (g_append f) = false /\ sv_true (g_rest f) = false
  | ShUnit => False
  end.
(** what a call to a field's parser may mention *)
Definition call_needs (f : sfield) (x : string) : Prop :=
  match sh with
  | ShNamed => In x ["inputs"; "prefix"; "span"] \/ g_is_flat f = false /\ In x ["input"; "p"]
  | ShUnnamed => In x ["inputs"; "index"] \/ g_is_flat f = false /\ x = "input"
  | ShUnit => False
  end.
Lemma sc_call (E : string -> Prop) f allowed : fits f -> above (call_needs f) E -> (sh = ShNamed -> sc E allowed) ->
  sc E (c_call f (CUse "inputs") allowed).
Proof.
  intros FT A AL. unfold c_call, fits, above, call_needs, g_is_flat in *. destruct sh; [| |destruct FT].
  - specialize (AL eq_refl).
    assert (AL' : forall D, sc (plus D E) allowed) by (intro D; eapply sc_mono; [|exact AL]; now right).
    destruct (sv_true (g_append f)); [cbn [sc]; unfold plus; cbn; split; [|right]; apply A; cbn; tauto|].
    destruct (sv_true (g_rest f)); [cbn [sc defs]; split; [apply A; cbn; tauto|apply AL']|].
    destruct (sf_ident (g_src f)); [|congruence].
    destruct (flatten_true f).
    + cbn [seqs fold_right sc defs]. unfold plus. repeat split; [apply A; cbn; tauto|right; apply A; cbn; tauto|].
      destruct (match g_flatten f with Some x => opt_some (ff_prefix x) | None => false end); cbn [when sc]; auto.
      right. right. apply A. cbn; tauto.
    + destruct (g_with f); cbn [uses map seqs fold_right sc defs]; unfold plus; repeat split; try (now left);
        repeat right; apply A; cbn; tauto.
  - destruct FT as [-> [AP RE]]. rewrite AP, RE in *. destruct (flatten_true f); [|destruct (g_with f)];
      cbn [uses map seqs fold_right sc defs]; unfold plus; repeat split; try (now left); repeat right; apply A; cbn; tauto.
Qed.

(** what the code after the parsing mentions *)
Definition post_needs (d : fdata) (x : string) : Prop :=
  (exists i, i < length fs /\ x = fvar i) \/
  (x = "target" /\ fd_target d = true) \/
  (in_meta (fd_mode d) = false /\ In x ["obj"; "path_name"]) \/
  (fd_transparent d = false /\
   match sh with
   | ShNamed => In x ["errors"; "inputs"; "prefix"; "span"]
   | ShUnnamed => In x ["errors"; "inputs"; "index"; "_mode"] \/ (fd_variant d = true /\ x = "span")
   | ShUnit => False
   end).
Hypothesis FITS : Forall fits fs.
Lemma fit f : In f fs -> fits f. Proof. rewrite Forall_forall in FITS. auto. Qed.

Lemma sc_flat E d i f : In f fs -> i < length fs -> sh = ShNamed -> fd_transparent d = false -> above (post_needs d) E ->
  sc E (fd_allowed d) -> sc E (c_flat d i f).
Proof.
  intros IF R SH T A AL. unfold c_flat. destruct (g_is_flat f) eqn:FL; cbn [andb when sc]; auto.
  destruct (g_is_parsable f); cbn [when sc]; auto. unfold above, post_needs in A. rewrite SH in A.
  assert (E "errors" /\ E (fvar i)) as [X1 X2] by (split; apply A; [cbn; tauto|left; eauto]).
  cbn [seqs fold_right sc defs arm uses map]. unfold plus. sp; auto 12.
  apply sc_call; [now apply fit| |].
  - intros x. unfold call_needs. rewrite SH, FL. intros [H|[H _]]; [|discriminate H]. right. apply A. cbn in *. tauto.
  - intros _. eapply sc_mono; [|exact AL]. auto.
Qed.
Lemma sc_container E d i f : i < length fs -> above (post_needs d) E -> sc E (c_container (fd_mode d) i f).
Proof.
  intros R A. unfold c_container. destruct (g_is_container f); cbn [andb when sc]; auto.
  destruct (in_meta (fd_mode d)) eqn:M; cbn [negb when sc]; auto.
  cbn [seqs fold_right sc defs uses map]. unfold plus. repeat split; auto.
  - apply A. left. eauto.
  - right. apply A. unfold post_needs. cbn. tauto.
Qed.
Lemma sc_name_format (E : string -> Prop) m : E "name" -> (in_meta m = false -> E "path_name") -> sc E (c_name_format m).
Proof.
  intros N P. unfold c_name_format. destruct (in_meta m); cbn [sc]; auto. cbn [seqs fold_right sc defs uses map arm]. unfold plus.
  repeat split; auto 8.
Qed.
Lemma sc_missing (E : string -> Prop) i : E "errors" -> E "name" -> E "span" -> E (fvar i) -> sc E (c_missing i).
Proof.
  intros. unfold c_missing. cbn [seqs fold_right sc defs uses map arm]. unfold plus. repeat split; auto 12.
Qed.
Lemma sc_errors E d i f : In f fs -> i < length fs -> above (post_needs d) E -> (sh = ShNamed -> sc E (fd_allowed d)) ->
  sc E (c_errors sh d i f).
Proof.
  intros IF R A AL. unfold c_errors. destruct (g_is_container f); cbn [orb sc]; auto. destruct (fd_transparent d) eqn:T; cbn [sc]; auto.
  destruct (negb (opt_some (g_default f)) && negb (fd_target d)); cbn [when sc]; auto.
  assert (FV : E (fvar i)) by (apply A; left; eauto).
  assert (PN : in_meta (fd_mode d) = false -> E "path_name") by (intro M; apply A; unfold post_needs; cbn; tauto).
  unfold above, post_needs in A. rewrite T in A. pose proof (fit f IF) as FT. unfold fits in FT. destruct sh eqn:SH; [| |destruct FT].
  - destruct (g_is_flat f) eqn:FL; cbn [sc]; auto. cbn [seqs fold_right sc defs].
    assert (E "errors" /\ E "prefix" /\ E "span") as [X1 [X2 X3]] by (repeat split; apply A; cbn; tauto).
    unfold plus. sp; auto 12.
    + apply sc_name_format; auto 12.
    + apply sc_missing; auto 12.
  - assert (E "errors" /\ E "inputs" /\ E "index" /\ E "_mode") as [X1 [X2 [X3 X4]]] by (repeat split; apply A; cbn; tauto).
    destruct (g_is_flat f) eqn:FL; cbn [sc]; auto; cbn [seqs fold_right sc defs]; unfold plus; cbn [In].
    + sp; auto 12.
      * destruct (fd_variant d) eqn:VA; cbn [when sc]; auto. right. right. apply A. cbn. tauto.
      * apply sc_call; [unfold fits; rewrite SH; exact FT| |rewrite SH; discriminate].
        intros x. unfold call_needs. rewrite SH, FL. intros [H|[H _]]; [|discriminate H].
        cbn in H. destruct H as [<-|[<-|[]]]; auto 12.
      * cbn [arm uses map seqs fold_right sc defs]. unfold plus. sp; auto 15.
      * cbn [arm uses map seqs fold_right sc defs]. unfold plus. sp; auto 15.
    + cbn [uses map seqs fold_right sc defs]. unfold plus. sp; auto 12.
      * apply sc_name_format; auto 12.
      * apply sc_missing; auto 12.
Qed.
Lemma sc_set (E : string -> Prop) i f : E (fvar i) -> (E "errors" \/ forall e, ~ In (SAndThen e) (g_transforms f)) -> sc E (c_set i f).
Proof.
  intros FV H. unfold c_set. cbn [sc]. split.
  - destruct (opt_some (g_default f)); cbn [when sc]; auto.
  - apply sc_seqs. intros c F IC A. apply in_map_iff in IC as [t [<- IT]]. unfold c_transform. cbn [sc].
    destruct t as [e|e]; cbn [sc].
    + apply A. now right.
    + split; [apply A; now right|]. destruct H as [H|H]; [|destruct (H e IT)]. cbn [uses map seqs fold_right sc defs arm]. unfold plus. cbn [In].
      repeat split; auto 8. right. right. apply A. now right.
Qed.
Lemma sc_ret (E : string -> Prop) t : (forall i, i < length fs -> E (fvar i)) -> (t = true -> E "target") -> sc E (c_ret t fs).
Proof.
  intros FV T. unfold c_ret. destruct t; cbn [sc].
  - split; [|now right; apply T]. apply sc_each. intros i f F IF R A. cbn [uses map seqs fold_right sc defs arm]. unfold plus.
    assert (F (fvar i) /\ F "target") as [X1 X2] by (split; apply A; [apply FV; lia|auto]). sp; auto 12.
  - apply sc_each. intros i f F IF R A. cbn [sc]. apply A, FV. lia.
Qed.
Lemma sc_post E d : (fd_transparent d = true -> forall f, In f fs -> g_is_flat f && g_is_parsable f = false) ->
  above (post_needs d) E -> (sh = ShNamed -> fd_transparent d = false -> sc E (fd_allowed d)) ->
  (fd_transparent d = true -> E "errors" \/ no_field_and_then fs) -> sc E (c_post sh d fs).
Proof.
  intros NF A AL ER. unfold c_post. destruct sh eqn:SH; [| |exact I].
  all: assert (FV : forall i, i < length fs -> E (fvar i)) by (intros i R; apply A; left; eauto).
  all: assert (EE : fd_transparent d = false -> E "errors") by (intro T; apply A; unfold post_needs; rewrite T, SH; cbn; tauto).
  all: apply sc_seqs; intros c F IC B; cbn [In] in IC; destruct IC as [<-|[<-|[<-|[<-|[<-|[<-|[<-|[]]]]]]]].
  all: try exact I.
  all: try (apply sc_each; intros i f G IF R C; assert (AB : above (post_needs d) G) by (intros x Hx; auto); rewrite Nat.add_0_l in R).
  all: try (apply sc_container; [lia|exact AB]).
  all: try (apply sc_set; [apply C, B, FV; lia|]; destruct (fd_transparent d) eqn:T;
            [destruct (ER eq_refl) as [X|X]; [left; now apply C, B|right; unfold no_field_and_then in X; rewrite Forall_forall in X; now apply X]
            |left; apply C, B; auto]).
  all: try (destruct (fd_transparent d) eqn:T; cbn [negb when sc]; [exact I|now apply B, EE]).
  all: try (unfold c_unwrap; destruct (fd_target d); cbn [negb when sc]; [exact I|apply C, B, FV; lia]).
  all: try (apply sc_ret; [intros i R; now apply B, FV|]; intro T; apply B, A; unfold post_needs; tauto).
  - destruct (fd_transparent d) eqn:T.
    + unfold c_flat. rewrite (NF eq_refl f IF). exact I.
    + apply sc_flat; auto; [lia|]. eapply sc_mono; [|exact (AL eq_refl eq_refl)]. intros x Hx. auto.
  - destruct (fd_transparent d) eqn:T.
    + unfold c_errors. rewrite T, orb_true_r. exact I.
    + rewrite <- SH. apply sc_errors; auto; [lia|]. intros _. eapply sc_mono; [|exact (AL eq_refl eq_refl)]. intros x Hx. auto.
  - rewrite <- SH. apply sc_errors; auto; [lia|]. rewrite SH. discriminate.
Qed.
End Fields.
