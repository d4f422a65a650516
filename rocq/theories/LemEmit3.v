(** Proofs about the variables of the emitted code: structs. *)
From Verif Require Export LemEmit2.

(** *** A variable that is missing *)
Definition lacks (x : string) (c : code) : Prop := forall E : string -> Prop, ~ E x -> ~ sc E c.
Lemma lacks_use x : lacks x (CUse x).
Proof. intros E N S. exact (N S). Qed.
Lemma lacks_left x a b : lacks x a -> lacks x (CSeq a b).
Proof. intros L E N [S _]. exact (L E N S). Qed.
Lemma lacks_right x a b : ~ defs a x -> lacks x b -> lacks x (CSeq a b).
Proof. intros D L E N [_ S]. apply (L _) in S; auto. intros [H|H]; auto. Qed.
Lemma lacks_let x y a : lacks x a -> lacks x (CLet y a). Proof. intros L E N S. exact (L E N S). Qed.
Lemma lacks_block x a : lacks x a -> lacks x (CBlock a). Proof. intros L E N S. exact (L E N S). Qed.
Lemma lacks_fn x ps a : ~ In x ps -> lacks x a -> lacks x (CFn ps a).
Proof. intros D L E N S. apply (L _) in S; auto. intros [H|H]; auto. Qed.
Lemma lacks_seqs x l : (forall c, In c l -> ~ defs c x) -> (exists c, In c l /\ lacks x c) -> lacks x (seqs l).
Proof.
  induction l as [|c l IH]; intros D [b [I L]]; [destruct I|]. cbn [seqs fold_right]. destruct I as [->|I]; [now apply lacks_left|].
  apply lacks_right; [apply D; now left|]. apply IH; [intros; apply D; now right|eauto].
Qed.
Lemma defs_seqs x l : (forall c, In c l -> ~ defs c x) -> ~ defs (seqs l) x.
Proof.
  induction l as [|c l IH]; cbn [seqs fold_right defs]; intro H; auto. intros [A|A]; [eapply H; eauto; now left|].
  apply IH in A; auto. intros; apply H; now right.
Qed.
Lemma defs_each x g fs : forall k, (forall i f, In f fs -> ~ defs (g i f) x) -> ~ defs (each g k fs) x.
Proof.
  induction fs as [|f fs IH]; cbn [each defs]; intros k H; auto. intros [A|A]; [eapply H; eauto; now left|].
  apply IH in A; auto. intros; apply H; now right.
Qed.
Lemma lacks_each x g fs : forall k, (forall i f, In f fs -> ~ defs (g i f) x) -> (exists f, In f fs /\ forall i, lacks x (g i f)) ->
  lacks x (each g k fs).
Proof.
  induction fs as [|f fs IH]; intros k D [b [I L]]; [destruct I|]. cbn [each]. destruct I as [->|I]; [apply lacks_left, L|].
  apply lacks_right; [apply D; now left|]. apply IH; [intros; apply D; now right|eauto].
Qed.
Lemma uses_defs x l : ~ defs (uses l) x.
Proof. apply defs_seqs. intros c I. apply in_map_iff in I as [y [<- _]]. auto. Qed.
Lemma when_defs x (b : bool) c : ~ defs c x -> ~ defs (when b c) x.
Proof. destruct b; auto. Qed.

Lemma fvar_not i x : substring 0 5 x <> "field" -> x <> fvar i.
Proof. intros N ->. apply N. unfold fvar. generalize (show_nat i). intros []; reflexivity. Qed.
Lemma set_defs x i f : substring 0 5 x <> "field" -> ~ defs (c_set i f) x.
Proof.
  intros N. unfold c_set. cbn [defs]. intros [H|H]; revert H; [apply when_defs; cbn [defs]; now apply fvar_not|].
  apply defs_seqs. intros c I. apply in_map_iff in I as [t [<- _]]. unfold c_transform. cbn [defs]. now apply fvar_not.
Qed.
Lemma pre_defs x sh d fs : substring 0 5 x <> "field" -> fd_transparent d = true -> ~ defs (c_pre sh d fs) x.
Proof.
  intros N T. unfold c_pre. rewrite T. destruct sh; cbn [defs negb when]; auto.
  all: intros [H|[]]; revert H; apply defs_each; intros i f _; cbn [c_init defs]; now apply fvar_not.
Qed.
Lemma lacks_set i f e : In (SAndThen e) (g_transforms f) -> lacks "errors" (c_set i f).
Proof.
  intro H. unfold c_set. apply lacks_right; [apply when_defs; cbn [defs]; apply fvar_not; discriminate|].
  apply lacks_seqs.
  - intros c I. apply in_map_iff in I as [t [<- _]]. unfold c_transform. cbn [defs]. apply fvar_not; discriminate.
  - exists (c_transform i (SAndThen e)). split; [apply in_map_iff; eauto|]. unfold c_transform. apply lacks_let, lacks_right; [auto|].
    apply lacks_fn; [intros [|[]]; discriminate|]. apply lacks_left. cbn [uses map seqs fold_right]. apply lacks_left, lacks_use.
Qed.
Lemma lacks_post sh d fs f e : sh <> ShUnit -> fd_transparent d = true -> (forall f, In f fs -> g_is_flat f && g_is_parsable f = false) ->
  In f fs -> In (SAndThen e) (g_transforms f) -> lacks "errors" (c_post sh d fs).
Proof.
  intros U T NF IF IT. unfold c_post. destruct sh; [| |congruence].
  all: cbn [seqs fold_right].
  all: apply lacks_right; [try (intros []); apply defs_each; intros i g IG; unfold c_flat; rewrite (NF g IG); auto|].
  all: apply lacks_right; [apply defs_each; intros i g IG; unfold c_container; apply when_defs, uses_defs|].
  all: apply lacks_right; [apply defs_each; intros i g IG; unfold c_errors; rewrite T, orb_true_r; auto|].
  all: apply lacks_left, lacks_each; [intros; apply set_defs; discriminate|].
  all: exists f; split; auto; intro i; now apply lacks_set with e.
Qed.
Lemma lacks_struct_post x ats c : lacks x c -> lacks x (c_struct_post ats c).
Proof. intro L. unfold c_struct_post. destruct ats; auto. cbn [seqs fold_right]. now apply lacks_left, lacks_let, lacks_block. Qed.

(** *** struct.rs to_parsing_tokens *)
Section Struct.
Variable d : sstruct.
Let sh := i_shape d.
Let fs := i_fields d.
Hypothesis FITS : Forall (fits sh) fs.
Hypothesis UNIT : sh = ShUnit -> fs = [].
Hypothesis ONE : i_is_transparent d = true ->
  find plain_field fs <> None /\ (forall f, In f fs -> g_is_flat f && g_is_parsable f = false).
Variable m : gmode.
Variables inline allowed : code.
Definition sdata : fdata :=
  mkFdata m (opt_some (i_default d)) inline allowed (i_is_transparent d) false (b_true (i_unknown_ok d)).
Definition target_set : code := when (opt_some (i_default d)) (CLet "target" CNop).
Definition s_body (l : list string) : code :=
  seqs [seqs [c_pre sh sdata fs; target_set; when (match sh with ShUnnamed => true | _ => false end) (CLet "index" CNop)];
        uses l; CUse (plain_var 0 fs); c_struct_post (i_and_thens d) (c_post sh sdata fs)].
Lemma c_struct_t : i_is_transparent d = true -> exists extra,
  c_struct d m inline allowed = (mkCdef (s_body ["input"; "_mode"]) (s_body ["inputs"; "_mode"]) (Some (s_body ["span"])), extra) /\
  forall c, In c extra -> (exists c0, c = CFn [] CNop /\ c0 = CNop) \/ exists l, c = CFn l (s_body l) /\ ~ In "errors" l.
Proof.
  intro T. unfold c_struct. pose proof T as T'. unfold s_body, sdata, target_set, sh, fs. rewrite T. eexists. split; [reflexivity|].
  intros c I. rewrite !in_app_iff in I.
  assert (X : forall (b : bool) (l : list code), In c (if b then l else []) -> In c l) by (intros [] l H; [exact H|destruct H]).
  assert (NE : forall l, forallb (fun x => negb (String.eqb x "errors")) l = true -> ~ In "errors" l).
  { intros l H J. rewrite forallb_forall in H. apply H in J. discriminate J. }
  destruct I as [I|[I|[I|I]]]; apply X in I; cbn [In] in I.
  1-2: destruct I as [<-|[<-|[]]]; [left; eauto|right; eexists; split; [reflexivity|now apply NE]].
  all: destruct I as [<-|[]]; right; eexists; (split; [reflexivity|now apply NE]).
Qed.
Lemma sh_one : i_is_transparent d = true -> sh <> ShUnit.
Proof. intros T U. destruct (ONE T) as [F _]. rewrite (UNIT U) in F. apply F. reflexivity. Qed.
Lemma sc_body (E : string -> Prop) l : i_is_transparent d = true -> (forall x, In x l -> E x) ->
  (in_meta m = false -> E "obj" /\ E "path_name") -> no_field_and_then fs -> sc E (s_body l).
Proof.
  intros T L OB NA. destruct (ONE T) as [FP NF]. pose proof (sh_one T) as U.
  destruct (plain_index fs 0 FP) as [i [R PV]]. destruct (defs_pre sh sdata fs U) as [DF _].
  unfold s_body. set (ix := when _ (CLet "index" CNop)). cbn [seqs fold_right sc defs]. sp.
  - apply sc_pre.
  - unfold target_set. destruct (opt_some (i_default d)); exact I.
  - unfold ix. destruct sh; exact I.
  - apply sc_seqs. intros c F IC B. apply in_map_iff in IC as [x [<- IX]]. cbn [sc]. apply B. right. auto.
  - rewrite PV. unfold plus. right. left. left. apply DF. lia.
  - apply sc_struct_post. apply (sc_post sh fs FITS).
    + intros _. exact NF.
    + intros x H. unfold post_needs in H. cbn [sdata fd_target fd_mode fd_transparent] in H. unfold plus.
      destruct H as [[j [RJ ->]]|[[-> H]|[[H1 H2]|[H _]]]].
      * right. right. left. left. now apply DF.
      * right. right. left. right. left. unfold target_set. now rewrite H.
      * right. right. right. destruct (OB H1) as [? ?]. cbn [In] in H2. destruct H2 as [<-|[<-|[]]]; auto.
      * rewrite T in H. discriminate H.
    + cbn [sdata fd_transparent]. rewrite T. discriminate.
    + auto.
Qed.
Lemma lacks_body f e l : i_is_transparent d = true -> In f fs -> In (SAndThen e) (g_transforms f) -> lacks "errors" (s_body l).
Proof.
  intros T IF IT. destruct (ONE T) as [FP NF]. pose proof (sh_one T) as U.
  unfold s_body. set (pre := seqs [c_pre sh sdata fs; _; _]). cbn [seqs fold_right].
  apply lacks_right; [|apply lacks_right; [apply uses_defs|apply lacks_right; [auto|apply lacks_left]]].
  - unfold pre. apply defs_seqs. cbn [In]. intros c [<-|[<-|[<-|[]]]].
    + apply pre_defs; [discriminate|exact T].
    + unfold target_set. destruct (opt_some (i_default d)); cbn; [discriminate|auto].
    + destruct sh; cbn; [auto|discriminate|auto].
  - apply lacks_struct_post. eapply lacks_post; eauto.
Qed.
(** *** not transparent *)
Definition struct_needs (x : string) : Prop :=
  match sh with
  | ShNamed => In x ["inputs"; "prefix"; "validate"; "span"]
  | ShUnnamed => In x ["inputs"; "index"; "_mode"]
  | ShUnit => In x ["inputs"; "_mode"]
  end.
Lemma sc_struct_inline (E : string -> Prop) : i_is_transparent d = false -> above struct_needs E ->
  (in_meta m = false -> E "obj" /\ E "path_name") -> (sh = ShNamed -> forall F, above E F -> sc F allowed) ->
  sc E (cd_inline (fst (c_struct d m inline allowed))).
Proof.
  intros T A OB AL. unfold c_struct. rewrite T. cbn [fst cd_inline sc]. split; [destruct (opt_some (i_default d)); exact I|].
  fold sh fs. fold target_set.
  assert (Q : mkFdata m (opt_some (i_default d)) inline allowed false false (b_true (i_unknown_ok d)) = sdata) by (unfold sdata; now rewrite T).
  rewrite Q. clear Q. assert (T' : fd_transparent sdata = false) by exact T.
  apply (sc_inline sh sdata fs FITS).
  - apply sc_pre.
  - intro U. destruct (defs_pre sh sdata fs U) as [DF DE]. split; auto.
  - intros x H. right. apply A. unfold inline_needs, struct_needs in *. destruct sh; cbn [In] in *; intuition.
  - intros SH F B. cbn [sdata fd_allowed]. apply AL; auto. intros x Ex. apply B. now right.
  - intros F B. apply sc_struct_post. apply (sc_post sh fs FITS).
    + rewrite T'. discriminate.
    + intros x H. unfold post_needs in H. destruct H as [[j [RJ ->]]|[[-> H]|[[H1 H2]|[_ H]]]].
      * apply B. left. destruct sh eqn:SH; [apply (defs_pre ShNamed sdata fs); [discriminate|auto]|apply (defs_pre ShUnnamed sdata fs); [discriminate|auto]|].
        rewrite (UNIT eq_refl) in RJ. cbn in RJ. lia.
      * apply B. right. left. cbn [sdata fd_target] in H. unfold target_set. rewrite H. reflexivity.
      * apply B. right. right. destruct (OB H1) as [? ?]. cbn [In] in H2. destruct H2 as [<-|[<-|[]]]; auto.
      * apply B. unfold struct_needs, above in A. destruct sh eqn:SH; [| |destruct H].
        -- cbn [In] in H. destruct H as [<-|H]; [left; apply (defs_pre ShNamed sdata fs); [discriminate|auto]|right; right; apply A; cbn; tauto].
        -- cbn [In] in H. destruct H as [[<-|H]|[H _]]; [left; apply (defs_pre ShUnnamed sdata fs); [discriminate|auto]|right; right; apply A; cbn; tauto|discriminate H].
    + intros SH _. cbn [sdata fd_allowed]. apply AL; auto. intros x Ex. apply B. right. now right.
    + rewrite T'. discriminate.
Qed.
Lemma sc_struct_parse (E : string -> Prop) : i_is_transparent d = false -> E "input" ->
  (forall F, above (plus (fun x => In x ["input"]) E) F -> sc F inline) -> sc E (cd_parse (fst (c_struct d m inline allowed))).
Proof. intros T I S. unfold c_struct. rewrite T. cbn [fst cd_parse]. now apply sc_parse. Qed.
Lemma sc_struct_flag (E : string -> Prop) c : i_is_transparent d = false -> E "span" ->
  (forall F, above (plus (fun x => In x ["input"; "_mode"]) E) F -> sc F inline) ->
  cd_flag (fst (c_struct d m inline allowed)) = Some c -> sc E c.
Proof.
  intros T I S. unfold c_struct. rewrite T. cbn [fst cd_flag]. apply sc_flag; auto.
  intro U. cbn [sc]. split; [apply sc_pre|]. apply sc_struct_post. unfold c_post. rewrite U. exact Logic.I.
Qed.
End Struct.
