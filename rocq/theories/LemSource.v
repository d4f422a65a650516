(** From the source of a named struct to the values it parses *)
From Verif Require Import LemWf LemWfD LemSmall LemStruct LemStructP LemNamed LemRun LemSchema LemSchema5 LemSchema6 LemOpts4 LemOpts7.
From Verif Require Export SpecSource.

Section O.
Lemma skipped_all os : is_skipped os = existsb fst (skips os).
Proof. unfold is_skipped. induction os as [|o os IH]; auto. cbn [existsb]. rewrite IH. destruct o as [| | | | | | | |[b sp]| |]; reflexivity. Qed.
Lemma object_all os : is_object os = existsb fc_value (containers os).
Proof. unfold is_object. induction os as [|o os IH]; auto. cbn [existsb]. rewrite IH. destruct o; reflexivity. Qed.
Lemma skip_first os : once (skips os) -> sv_true (first_of (skips os)) = is_skipped os.
Proof. rewrite skipped_all. unfold once. destruct (skips os) as [|[b sp] [|y l]]; cbn; intro; auto; try lia. now rewrite orb_false_r. Qed.
Lemma object_first os : once (containers os) -> match first_of (containers os) with Some c => fc_value c | None => false end = is_object os.
Proof. rewrite object_all. unfold once. destruct (containers os) as [|c [|y l]]; cbn; intro; auto; try lia. now rewrite orb_false_r. Qed.
Lemma plain_flat os : plain os -> match first_of (flattens os) with Some x => ff_value x | None => false end = false /\
  sv_true (first_of (appends os)) = false /\ sv_true (first_of (rests os)) = false.
Proof.
  intros [P1 [P2 P3]]. split; [|split].
  - destruct (flattens os) as [|x l] eqn:E; auto. apply P1. assert (I : In x (flattens os)) by (rewrite E; now left).
    unfold flattens in I. apply in_flat_map in I as [o [I J]]. destruct o; cbn in J; try contradiction. destruct J as [->|[]]. exact I.
  - destruct (appends os) as [|[[|] sp] l] eqn:E; auto. exfalso. apply (P2 sp). assert (I : In (true, sp) (appends os)) by (rewrite E; now left).
    unfold appends in I. apply in_flat_map in I as [o [I J]]. destruct o; cbn in J; try contradiction. destruct J as [->|[]]. exact I.
  - destruct (rests os) as [|[[|] sp] l] eqn:E; auto. exfalso. apply (P3 sp). assert (I : In (true, sp) (rests os)) by (rewrite E; now left).
    unfold rests in I. apply in_flat_map in I as [o [I J]]. destruct o; cbn in J; try contradiction. destruct J as [->|[]]. exact I.
Qed.
End O.

Section L.
Context {env : Env} {V : Type}.
Variable ru : rust V.
Lemma converted_ok os : forall v w, converted ru os v w <-> transformed (map (lower_transform ru) (transforms os)) v w.
Proof.
  induction os as [|o os IH]; intros v w.
  - split; intro H; inversion H; subst; constructor.
  - assert (N : (forall e, o <> OMap e) -> (forall e, o <> OAndThen e) -> transforms (o :: os) = transforms os).
    { intros H1 H2. destruct o; try reflexivity; [now elim (H1 e)|now elim (H2 e)]. }
    split; intro H.
    + inversion H; subst; cbn [transforms flat_map app map lower_transform]; [constructor; now apply IH|econstructor; [eassumption|now apply IH]|].
      change (flat_map _ os) with (transforms os). change (match o with OMap e => [SMap e] | OAndThen e => [SAndThen e] | _ => [] end ++ transforms os) with (transforms (o :: os)). rewrite N by auto. now apply IH.
    + destruct o; try (apply Cv_other; try discriminate; apply IH; exact H; fail);
        cbn [transforms flat_map app map lower_transform] in H; inversion H; subst; [apply Cv_map|eapply Cv_and_then; [eassumption|]]; now apply IH.
Qed.

Variable whole : option (list V).
Variable tm : tmode V.
(** the generated field *)
Definition made_as (kd : src_field -> list fopt -> fkind V) (p : src_field * list fopt) : field V :=
  let (f, os) := p in
  mkField (match sf_ident f with Some x => fst x | None => "" end) (map fst (names_f f os)) (kd f os)
          (default_for ru whole tm f os) (rt_auto (ru_type ru f)) (map (lower_transform ru) (transforms os))
          (is_skipped os) (is_object os).
Definition item_kind (f : src_field) (os : list fopt) : fkind V := KItem (impl_of ru f os).
Definition made : src_field * list fopt -> field V := made_as item_kind.
Lemma kind_made f os : plain os -> g_kind ru false (meaning_f f os) = KItem (impl_of ru f os).
Proof.
  intro P. destruct (plain_flat _ P) as [P1 [P2 P3]]. unfold g_kind, flatten_true. cbn [meaning_f g_append g_rest g_flatten]. rewrite P1, P2, P3.
  unfold g_type, impl_of. cbn [meaning_f g_with g_src]. destruct (withs os); reflexivity.
Qed.
Lemma default_made f os : g_default_value ru (meaning_f f os) = default_by (rt_auto (ru_type ru f)) (ru_expr ru) (defaults os).
Proof. unfold g_default_value, default_by. cbn [meaning_f g_default g_src]. destruct (defaults os) as [|[sp|e] l]; reflexivity. Qed.
Lemma lower_made kd f os : once (skips os) -> once (containers os) -> g_kind ru false (meaning_f f os) = kd f os ->
  lower_field ru false (meaning_f f os) =
  mkField (match sf_ident f with Some x => fst x | None => "" end) (map fst (names_f f os)) (kd f os)
          (default_by (rt_auto (ru_type ru f)) (ru_expr ru) (defaults os)) (rt_auto (ru_type ru f)) (map (lower_transform ru) (transforms os))
          (is_skipped os) (is_object os).
Proof.
  intros O1 O2 P. unfold lower_field. rewrite P, default_made by auto. unfold g_is_container. cbn [meaning_f g_src g_idents g_transforms g_skip g_container].
  rewrite skip_first, object_first by auto. reflexivity.
Qed.
Definition re_default (g : sfield) (d : option fdefault) : sfield :=
  mkSField (g_src g) (g_idents g) d (g_with g) (g_flatten g) (g_append g) (g_rest g) (g_container g) (g_skip g) (g_transforms g).
Lemma lower_re g d :
  lower_field ru false (re_default g d) =
  mkField (f_ident (lower_field ru false g)) (f_names (lower_field ru false g)) (f_kind (lower_field ru false g))
    (option_map (fun x => match x with DDefault _ => rt_auto (ru_type ru (g_src g)) | DExpr ts => ru_expr ru ts end) d)
    (f_auto (lower_field ru false g)) (f_transforms (lower_field ru false g)) (f_skip (lower_field ru false g)) (f_container (lower_field ru false g)).
Proof. reflexivity. Qed.
Lemma filled_re g : filled g = match g_skip g, g_default g with Some (true, sp), None => re_default g (Some (DDefault sp)) | _, _ => g end.
Proof. reflexivity. Qed.
Definition filled_if (g : sfield) : sfield := match whole with None => filled g | Some _ => g end.
Definition skip_if (f : field V) : field V := match whole with None => skip_default f | Some _ => f end.
Lemma attr_made kd f os : once (skips os) -> once (containers os) -> g_kind ru false (meaning_f f os) = kd f os -> tm <> TMeta ->
  skip_if (lower_field ru false (filled_if (meaning_f f os))) = made_as kd (f, os).
Proof.
  intros O1 O2 P T. pose proof (lower_made kd f os O1 O2 P) as LM.
  assert (GS : g_skip (meaning_f f os) = first_of (skips os)) by reflexivity. assert (GD : g_default (meaning_f f os) = first_of (defaults os)) by reflexivity.
  assert (SR : g_src (meaning_f f os) = f) by reflexivity. revert LM GS GD SR. generalize (meaning_f f os). intros g LM GS GD SR.
  unfold made_as, default_for. clear P. rewrite skipped_all in *.
  assert (OB : (is_object os && match tm with TMeta => true | TAttrs _ _ => false end)%bool = false).
  { destruct tm; [now elim T|apply andb_false_r]. }
  rewrite OB, orb_false_r. unfold skip_if, filled_if. destruct whole.
  - rewrite LM, andb_false_r. destruct (default_by _ _ _); reflexivity.
  - rewrite andb_true_r. rewrite filled_re, GS, GD.
    unfold once in O1. destruct (skips os) as [|[[|] sp] [|y l]]; cbn [first_of existsb fst orb] in *; try (cbn in O1; lia).
    + rewrite LM. unfold skip_default. cbn [f_default f_skip]. destruct (default_by _ _ _); reflexivity.
    + destruct (defaults os) as [|d l] eqn:D; cbn [first_of].
      * rewrite lower_re, LM. cbn. now rewrite SR.
      * rewrite LM. cbn [default_by]. destruct d; reflexivity.
    + rewrite LM. unfold skip_default. cbn [f_default f_skip]. destruct (default_by _ _ _); reflexivity.
Qed.
Lemma container_re g : container_fill g = match g_container g, g_default g with
  | Some c, None => if fc_value c then re_default g (Some (DDefault (fc_span c))) else g | _, _ => g end.
Proof. reflexivity. Qed.
End L.
Section M.
Context {env : Env} {V : Type}.
Variable ru : rust V.
Lemma meta_fill whole g : container_default (skip_if whole (lower_field ru false (container_fill g))) = container_default (skip_if whole (lower_field ru false g)).
Proof.
  rewrite container_re. destruct (g_container g) as [c|] eqn:GC; [|reflexivity]. destruct (g_default g) eqn:GD; [reflexivity|]. destruct (fc_value c) eqn:FC; [|reflexivity].
  assert (DN : f_default (lower_field ru false g) = None) by (cbn; unfold g_default_value; now rewrite GD).
  assert (CN : f_container (lower_field ru false g) = true) by (cbn; unfold g_is_container; now rewrite GC).
  rewrite lower_re. cbn [option_map]. unfold skip_if, skip_default, container_default. destruct whole; cbn [f_default]; rewrite DN; [rewrite CN; reflexivity|].
  destruct (f_skip (lower_field ru false g)) eqn:SK; cbn [f_default]; [reflexivity|]. rewrite DN, CN, SK. reflexivity.
Qed.
Lemma meta_made whole kd f os : once (skips os) -> once (containers os) -> g_kind ru false (meaning_f f os) = kd f os ->
  container_default (skip_if whole (lower_field ru false (container_fill (filled_if whole (meaning_f f os))))) = made_as ru whole TMeta kd (f, os).
Proof.
  intros O1 O2 P. rewrite meta_fill. rewrite (attr_made ru whole (TAttrs None (rt_auto (ru_type ru f))) kd f os O1 O2 P ltac:(discriminate)).
  unfold made_as, default_for, container_default. cbn [f_default f_container]. rewrite andb_false_r, orb_false_r, andb_true_r.
  destruct (default_by _ _ _); [reflexivity|]. destruct (is_skipped os && _)%bool; [reflexivity|]. cbn [orb]. destruct (is_object os); reflexivity.
Qed.
End M.

Section C.
Context {env : Env} {V : Type}.
Variable ru : rust V.
Variable sy : synlib.
Hypothesis SY : good_syn_lib sy.
Lemma derived_read (tm : tmode V) i d : derived sy tm i d -> exists d0, read_struct sy i = Ok d0 /\ d = match tm with TMeta => fill_struct d0 | TAttrs _ _ => d0 end.
Proof.
  unfold derived, derive_meta_struct, derive_attr_struct. destruct tm; destruct (read_struct sy i) as [d0|e|b]; cbn [rbind]; try discriminate; intro H.
  - exists d0. split; auto. destruct (gen_struct (fill_struct d0)); cbn [rmap] in H; try discriminate H. now injection H as <-.
  - exists d0. split; auto. destruct (gen_struct d0); cbn [rmap] in H; try discriminate H. now injection H as <-.
Qed.
Lemma fields_unique fs : forall oss gs, Forall2 (fun f os => has_options (spells_f sy) (sf_attrs f) os) fs oss -> Forall2 (field_means sy) fs gs ->
  gs = map (fun p => meaning_f (fst p) (snd p)) (combine fs oss) /\ Forall2 consistent_f fs oss.
Proof.
  induction fs as [|f fs IH]; intros oss gs H1 H2; inversion H1 as [|a os l oss' HA HB]; subst; inversion H2 as [|a g l gs' HC HD]; subst; [split; auto|].
  destruct HC as [o2 [Q [C ->]]]. rewrite <- (has_options_fun _ (spells_f_fun sy) _ _ _ HA Q) in *. destruct (IH _ _ HB HD) as [-> F]. split; [reflexivity|constructor; auto].
Qed.
Lemma derived_schema (tm : tmode V) i d oss so : derived sy tm i d ->
  Forall2 (fun f os => has_options (spells_f sy) (sf_attrs f) os) (ss_fields i) oss -> has_options (spells_s sy) (ss_attrs i) so ->
  let gs := map (fun p => meaning_f (fst p) (snd p)) (combine (ss_fields i) oss) in
  Forall2 consistent_f (ss_fields i) oss /\ consistent_s (ss_shape i) gs so /\
  d = match tm with TMeta => fill_struct (meaning_s (ss_shape i) gs so) | TAttrs _ _ => meaning_s (ss_shape i) gs so end.
Proof.
  intros D F H. destruct (derived_read _ _ _ D) as [d0 [R ->]]. apply (l_struct_ok sy SY) in R as [gs [o2 [F2 [H2 [C ->]]]]].
  destruct (fields_unique _ _ _ F F2) as [-> FC]. rewrite <- (has_options_fun _ (spells_s_fun sy) _ _ _ H H2) in *. cbn zeta. auto.
Qed.

Variables (auto : list V) (expr : list token -> list V) (post : list token -> list V -> list V + synerr).
Lemma lowered_default (tm : tmode V) i d oss so : derived sy tm i d ->
  Forall2 (fun f os => has_options (spells_f sy) (sf_attrs f) os) (ss_fields i) oss -> has_options (spells_s sy) (ss_attrs i) so ->
  s_default (lower_struct ru auto expr post d) = default_by auto expr (s_defaults so).
Proof.
  intros D F H. destruct (derived_schema _ _ _ _ _ D F H) as [_ [_ ->]]. unfold default_by.
  destruct tm; cbn [fill_struct meaning_s i_default lower_struct s_default]; destruct (s_defaults so) as [|[|] l]; reflexivity.
Qed.
Lemma lowered_as kd (tm : tmode V) i d oss so : derived sy tm i d ->
  Forall2 (fun f os => has_options (spells_f sy) (sf_attrs f) os) (ss_fields i) oss -> has_options (spells_s sy) (ss_attrs i) so ->
  (forall f os, In (f, os) (combine (ss_fields i) oss) -> consistent_f f os -> g_kind ru false (meaning_f f os) = kd f os) ->
  s_fields tm (lower_struct ru auto expr post d) = map (made_as ru (default_by auto expr (s_defaults so)) tm kd) (combine (ss_fields i) oss).
Proof.
  intros D F H P. pose proof (lowered_default _ _ _ _ _ D F H) as LD. destruct (derived_schema _ _ _ _ _ D F H) as [FC [_ ->]].
  set (whole := default_by auto expr (s_defaults so)) in *.
  assert (FS : fields_s (map (fun p => meaning_f (fst p) (snd p)) (combine (ss_fields i) oss)) so = map (fun p => filled_if whole (meaning_f (fst p) (snd p))) (combine (ss_fields i) oss)).
  { unfold fields_s, filled_if, whole, default_by. destruct (s_defaults so) as [|[|] l]; rewrite ?map_map; reflexivity. }
  assert (PC : forall p, In p (combine (ss_fields i) oss) -> once (skips (snd p)) /\ once (containers (snd p)) /\ g_kind ru false (meaning_f (fst p) (snd p)) = kd (fst p) (snd p)).
  { clear - FC P. revert P. induction FC as [|f os fs oss C FC IH]; cbn [combine]; [intros _ p []|]. intros P p [<-|I].
    - split; [|split]; [apply C|apply C|]. apply P; [now left|exact C].
    - apply IH; auto. intros f' os' J. apply P. now right. }
  assert (SA : forall s : sdef V, s_default s = whole -> s_fields_attr s = map (skip_if whole) (s_raw s)).
  { intros s E. unfold s_fields_attr, skip_if. rewrite E. destruct whole; cbn [has_target]; [now rewrite map_id|reflexivity]. }
  destruct tm as [|pn obj]; cbn [s_fields].
  - unfold s_fields_meta. rewrite SA by auto. cbn [lower_struct s_raw fill_struct meaning_s i_fields]. rewrite FS, !map_map.
    apply map_ext_in. intros [f os] I. destruct (PC _ I) as [A [B C]]. cbn [fst snd] in *. now apply meta_made.
  - rewrite SA by auto. cbn [lower_struct s_raw meaning_s i_fields]. rewrite FS, !map_map.
    apply map_ext_in. intros [f os] I. destruct (PC _ I) as [A [B C]]. cbn [fst snd] in *. apply attr_made; auto. discriminate.
Qed.
Lemma lowered_fields (tm : tmode V) i d oss so : derived sy tm i d ->
  Forall2 (fun f os => has_options (spells_f sy) (sf_attrs f) os) (ss_fields i) oss -> has_options (spells_s sy) (ss_attrs i) so ->
  Forall plain oss ->
  s_fields tm (lower_struct ru auto expr post d) = map (made ru (default_by auto expr (s_defaults so)) tm) (combine (ss_fields i) oss).
Proof.
  intros D F H P. apply lowered_as; auto. intros f os I _. apply kind_made. rewrite Forall_forall in P. apply P. eapply in_combine_r; eauto.
Qed.
End C.

Section N.
Lemma NoDup_app_disj {A} (l l' : list A) : NoDup (l ++ l') -> forall x, In x l -> ~ In x l'.
Proof. induction l as [|a l IH]; cbn; intros H x; [intros []|]. inversion H; subst. intros [<-|I] J; [apply H2; apply in_or_app; auto|exact (IH H3 x I J)]. Qed.
Lemma NoDup_app_r {A} (l l' : list A) : NoDup (l ++ l') -> NoDup l'.
Proof. induction l as [|a l IH]; cbn; auto. intro H. inversion H; auto. Qed.
End N.
Section K.
Context {env : Env} {V : Type}.
Variable ru : rust V.
Variables (whole : option (list V)) (tm : tmode V).
Variables (fs : list src_field) (oss : list (list fopt)).
Let ps := combine fs oss.
Let ms := map (made ru whole tm) ps.
Hypothesis LEN : length fs = length oss.
Hypothesis ND : NoDup (map fst (flat_map g_idents (map (fun p => meaning_f (fst p) (snd p)) ps))).
Lemma nth_ps n f os : nth_error ps n = Some (f, os) <-> nth_error fs n = Some f /\ nth_error oss n = Some os.
Proof.
  unfold ps. clear - LEN. revert oss n LEN. induction fs as [|a l IH]; intros [|b l'] [|n] L; cbn in *; try discriminate; try (split; [discriminate|intros [? ?]; discriminate]); [|injection L as L; apply IH; auto].
  split; [injection 1 as <- <-; auto|intros [A B]; congruence].
Qed.
Lemma pitem_made f os : pitem (made ru whole tm (f, os)) = (negb (is_object os) && negb (is_skipped os))%bool.
Proof. unfold pitem, is_parsable. cbn. now rewrite andb_true_r. Qed.
Lemma pflat_made p : pflat (made ru whole tm p) = false.
Proof. destruct p. unfold pflat. cbn. apply andb_false_r. Qed.
Lemma nth_ms n g : nth_error ms n = Some g <-> exists f os, nth_error fs n = Some f /\ nth_error oss n = Some os /\ g = made ru whole tm (f, os).
Proof.
  unfold ms. rewrite nth_error_map. split.
  - destruct (nth_error ps n) as [[f os]|] eqn:N; [|discriminate]. injection 1 as <-. apply nth_ps in N as [A B]. eauto.
  - intros [f [os [A [B ->]]]]. assert (N : nth_error ps n = Some (f, os)) by now apply nth_ps. now rewrite N.
Qed.
Lemma names_apart n m f os g os' k : nth_error fs n = Some f -> nth_error oss n = Some os -> nth_error fs m = Some g -> nth_error oss m = Some os' ->
  In k (map fst (names_f f os)) -> In k (map fst (names_f g os')) -> n = m.
Proof.
  intros A B A' B' I J. assert (P : nth_error ps n = Some (f, os)) by now apply nth_ps. assert (Q : nth_error ps m = Some (g, os')) by now apply nth_ps.
  clear A B A' B' LEN. unfold ps in ND, P, Q. clear ms ps. revert n m ND P Q. generalize (combine fs oss). intro l. induction l as [|[a b] l IH]; intros [|n] [|m] ND P Q; cbn in P, Q; try discriminate; auto.
  - exfalso. injection P as -> ->. cbn [map flat_map] in ND. rewrite map_app in ND. cbn [fst snd] in ND. eapply (NoDup_app_disj _ _ ND k); [exact I|].
    apply in_map_iff in J as [x [<- J]]. apply in_map. apply in_flat_map. exists (meaning_f g os'). split; [|exact J]. apply in_map_iff. exists (g, os'). split; auto. eapply nth_error_In; eauto.
  - exfalso. injection Q as -> ->. cbn [map flat_map] in ND. rewrite map_app in ND. cbn [fst snd] in ND. eapply (NoDup_app_disj _ _ ND k); [exact J|].
    apply in_map_iff in I as [x [<- I]]. apply in_map. apply in_flat_map. exists (meaning_f f os). split; [|exact I]. apply in_map_iff. exists (f, os). split; auto. eapply nth_error_In; eauto.
  - f_equal. apply IH; auto. cbn [map flat_map] in ND. rewrite map_app in ND. now apply NoDup_app_r in ND.
Qed.
Lemma find_made k n g : find_field k ms 0 = Some (n, g) <->
  exists f os, nth_error fs n = Some f /\ nth_error oss n = Some os /\ g = made ru whole tm (f, os) /\ names_it f os k.
Proof.
  split.
  - intro H. apply find_field_spec in H as [_ [N [P [I _]]]]. rewrite Nat.sub_0_r in N. apply nth_ms in N as [f [os [A [B ->]]]]. exists f, os.
    rewrite pitem_made in P. apply andb_true_iff in P as [P1 P2]. repeat split; auto; try (now apply negb_true_iff).
  - intros [f [os [A [B [-> [S [O I]]]]]]]. destruct (find_field k ms 0) as [[m h]|] eqn:E.
    + apply find_field_spec in E as [_ [N [P [J _]]]]. rewrite Nat.sub_0_r in N. apply nth_ms in N as [f' [os' [A' [B' ->]]]].
      assert (n = m) as <- by (eapply names_apart; eauto). repeat f_equal; congruence.
    + exfalso. rewrite find_field_none in E. apply (E (made ru whole tm (f, os))); auto; [|now rewrite pitem_made, S, O].
      apply (nth_error_In _ n). apply nth_ms. eauto.
Qed.

Variables (chk : bool) (allowed : list string).
Hypothesis AL : forall k, In k allowed <-> exists n f os, nth_error fs n = Some f /\ nth_error oss n = Some os /\ names_it f os k.
Let R := mkReader ms "" chk allowed.
Lemma owner_find k : owner_in R k = find_field k ms 0.
Proof. unfold owner_in. cbn [r_prefix R]. unfold strip_prefix. cbn. destruct k; reflexivity. Qed.
Lemma owns_is n f os seg : nth_error fs n = Some f -> nth_error oss n = Some os -> owns R n seg = true <-> is_for f os seg.
Proof.
  intros A B. unfold owns, is_for. destruct (item_key seg) as [[[k ksp] body]|] eqn:K.
  - rewrite owner_find. split.
    + destruct (find_field k ms 0) as [[m g]|] eqn:E; [|discriminate]. intro H. apply Nat.eqb_eq in H as <-.
      apply find_made in E as [f' [os' [A' [B' [-> N]]]]]. assert (f' = f) by congruence. assert (os' = os) by congruence. subst. eauto 6.
    + intros [k' [sp' [b' [Q N]]]]. injection Q as <- <- <-. assert (E : find_field k ms 0 = Some (n, made ru whole tm (f, os))) by (apply find_made; eauto 8).
      rewrite E. apply Nat.eqb_refl.
  - split; [discriminate|]. intros [? [? [? [? _]]]]. discriminate.
Qed.
Lemma owns_out n seg : nth_error fs n = None -> owns R n seg = false.
Proof.
  intro A. unfold owns. destruct (item_key seg) as [[[k ksp] body]|]; auto. rewrite owner_find. destruct (find_field k ms 0) as [[m g]|] eqn:E; auto.
  apply find_made in E as [f' [os' [A' _]]]. apply Nat.eqb_neq. intros ->. congruence.
Qed.
Lemma gives_holds n f os seg w : nth_error fs n = Some f -> nth_error oss n = Some os -> gives R seg n w <-> holds_value ru f os seg w.
Proof.
  intros A B. unfold gives, holds_value. split.
  - intros [k [ksp [body [g [K [O H]]]]]]. rewrite owner_find in O. apply find_made in O as [f' [os' [A' [B' [-> N]]]]].
    assert (f' = f) by congruence. assert (os' = os) by congruence. subst. exists k, ksp, body. auto.
  - intros [k [ksp [body [K [N H]]]]]. exists k, ksp, body, (made ru whole tm (f, os)). split; auto. split; auto. rewrite owner_find. apply find_made. eauto 8.
Qed.
Lemma gives_some seg n w : gives R seg n w -> exists f os, nth_error fs n = Some f /\ nth_error oss n = Some os.
Proof. intros [k [ksp [body [g [K [O H]]]]]]. rewrite owner_find in O. apply find_made in O as [f' [os' [A' [B' _]]]]. eauto. Qed.
Lemma filter_one {A} (p : A -> bool) (l : list A) : length (filter p l) <= 1 <->
  forall a b x y, nth_error l a = Some x -> nth_error l b = Some y -> p x = true -> p y = true -> a = b.
Proof.
  induction l as [|z l IH]; cbn [filter]; [split; [intros _ [|a] b x y H; discriminate H|cbn; lia]|].
  destruct (p z) eqn:Z; cbn [length].
  - split.
    + intro H. assert (E : filter p l = []) by (destruct (filter p l); [auto|cbn in H; lia]).
      assert (NO : forall a x, nth_error l a = Some x -> p x = true -> False).
      { intros a x N P. assert (I : In x (filter p l)) by (apply filter_In; split; auto; eapply nth_error_In; eauto). rewrite E in I. exact I. }
      intros [|a] [|b] x y N1 N2 P1 P2; cbn in N1, N2; auto; exfalso; eauto.
    + intro H. destruct (filter p l) as [|x r] eqn:E; [cbn; lia|]. exfalso. assert (I : In x (filter p l)) by (rewrite E; now left).
      apply filter_In in I as [I P]. apply In_nth_error in I as [a N]. specialize (H 0 (S a) z x eq_refl N Z P). discriminate H.
  - rewrite IH. split; intro H.
    + intros [|a] [|b] x y N1 N2 P1 P2; cbn in N1, N2; try congruence. f_equal. eauto.
    + intros a b x y N1 N2 P1 P2. specialize (H (S a) (S b) x y N1 N2 P1 P2). now injection H.
Qed.
Lemma none_for n f os its : nth_error fs n = Some f -> nth_error oss n = Some os ->
  existsb (owns R n) its = false <-> forall seg, In seg its -> ~ is_for f os seg.
Proof.
  intros A B. split.
  - intros H seg I F. apply (owns_is n f os seg A B) in F. assert (existsb (owns R n) its = true) by (apply existsb_exists; eauto). congruence.
  - intro H. destruct (existsb (owns R n) its) eqn:E; auto. apply existsb_exists in E as [seg [I O]]. apply (owns_is n f os seg A B) in O. now elim (H seg I).
Qed.
Lemma gets_obtains sp inputs its n f os v : nth_error fs n = Some f -> nth_error oss n = Some os ->
  field_gets R tm whole sp inputs its n (made ru whole tm (f, os)) v <-> obtains ru whole tm sp its n f os v.
Proof.
  intros A B. assert (LB : missing_name_named tm "" (made ru whole tm (f, os)) = label_of tm f).
  { unfold missing_name_named, label_of, join_path. cbn [is_empty_str made made_as f_ident]. destruct (sf_ident f) as [[x s]|]; destruct tm as [|[p|] o]; reflexivity. }
  split.
  - intros [seg w I G T|w P _ _|pn obj E C T|w NO _ C D T|t NO _ C D TG NT|d w NO C D TG K M T].
    + apply (Ob_item ru whole tm sp its n f os v seg w); auto; [now apply (gives_holds n f os)|]. now apply converted_ok.
    + rewrite pflat_made in P. discriminate P.
    + apply (Ob_object ru whole tm sp its n f os v pn obj); auto. now apply converted_ok.
    + apply (Ob_default ru whole tm sp its n f os v w); auto; [now apply (none_for n f os)|]. now apply converted_ok.
    + apply (Ob_whole ru whole tm sp its n f os v t); auto. now apply (none_for n f os).
    + apply (Ob_missing ru whole tm sp its n f os v w); auto; [now apply (none_for n f os)| |now apply converted_ok]. cbn in K. injection K as <-. cbn [r_prefix R] in M. rewrite LB in M. exact M.
  - intros [seg w I G T|pn obj E C T|w NO C D T|t NO C D TG NT|w NO C D TG M T].
    + apply (G_item R tm whole sp inputs its n _ v seg w); [exact I|now apply (gives_holds n f os)|]. now apply converted_ok.
    + apply (G_container R tm whole sp inputs its n _ v pn obj); auto. now apply converted_ok.
    + apply (G_default R tm whole sp inputs its n _ v w); [now apply (none_for n f os)|apply pflat_made|exact C|exact D|]. now apply converted_ok.
    + apply (G_target R tm whole sp inputs its n _ v t); [now apply (none_for n f os)|apply pflat_made|exact C|exact D|exact TG|exact NT].
    + apply (G_missing R tm whole sp inputs its n _ v (impl_of ru f os) w); [now apply (none_for n f os)|exact C|exact D|exact TG|reflexivity| |now apply converted_ok]. cbn [r_prefix R]. rewrite LB. exact M.
Qed.
Lemma nth_pair n : (exists f os, nth_error fs n = Some f /\ nth_error oss n = Some os) \/ (nth_error fs n = None /\ nth_error oss n = None).
Proof.
  destruct (nth_error fs n) as [f|] eqn:A.
  - left. assert (L : n < length oss) by (rewrite <- LEN; apply nth_error_Some; congruence). destruct (nth_error oss n) as [os|] eqn:B; [eauto|]. apply nth_error_None in B. lia.
  - right. split; auto. apply nth_error_None. apply nth_error_None in A. lia.
Qed.
Lemma parses_source sp inputs its vs : parses_to R tm whole sp inputs its vs <-> source_value ru fs oss whole (negb chk) tm sp its vs.
Proof.
  assert (LM : length ms = length fs) by (unfold ms, ps; rewrite map_length, combine_length; lia).
  unfold parses_to, source_value. split.
  - intros [IT [ON [L FG]]]. split; [|split; [|split]].
    + intros seg I. rewrite Forall_forall in IT. destruct (IT seg I) as [[n [w G]]|[k [ksp [body [K [O AO]]]]]].
      * destruct (gives_some _ _ _ G) as [f [os [A B]]]. left. exists n, f, os, w. split; auto. split; auto. now apply (gives_holds n f os).
      * right. cbn [r_check r_allowed R] in AO. rewrite owner_find in O.
        assert (NN : forall n f os, nth_error fs n = Some f -> nth_error oss n = Some os -> ~ names_it f os k).
        { intros n f os A B N. assert (E : find_field k ms 0 = Some (n, made ru whole tm (f, os))) by (apply find_made; eauto 8). congruence. }
        split; [|split].
        -- destruct chk; auto. destruct (proj1 (AL k) (AO eq_refl)) as [n [f [os [A [B N]]]]]. now elim (NN n f os).
        -- congruence.
        -- intros n f os A B [k' [ksp' [body' [K' N]]]]. rewrite K in K'. injection K' as <- <- <-. now apply (NN n f os).
    + intros n f os a b s1 s2 A B N1 N2 F1 F2. specialize (ON n). rewrite filter_one in ON. eapply ON; eauto; now apply (owns_is n f os).
    + now rewrite L.
    + intros n f os v A B N. apply (gets_obtains sp inputs); auto. apply FG; auto. apply nth_ms. eauto.
  - intros [IT [ON [L FG]]]. split; [|split; [|split]].
    + apply Forall_forall. intros seg I. destruct (IT seg I) as [[n [f [os [w [A [B H]]]]]]|[LE [K NO]]].
      * left. exists n, w. now apply (gives_holds n f os).
      * right. destruct (item_key seg) as [[[k ksp] body]|] eqn:KE; [|now elim K]. exists k, ksp, body. split; auto. split.
        -- rewrite owner_find. destruct (find_field k ms 0) as [[m g]|] eqn:E; auto. apply find_made in E as [f [os [A [B [_ N]]]]]. exfalso. apply (NO m f os A B). exists k, ksp, body. auto.
        -- cbn [r_check R]. intros ->. discriminate LE.
    + intro n. apply filter_one. intros a b x y N1 N2 P1 P2. destruct (nth_pair n) as [[f [os [A B]]]|[A _]].
      * eapply ON; eauto; now apply (owns_is n f os).
      * rewrite owns_out in P1 by auto. discriminate P1.
    + cbn [r_fields R]. lia.
    + intros n g v N NV. apply nth_ms in N as [f [os [A [B ->]]]]. apply gets_obtains; eauto.
Qed.
End K.

Section F.
Context {env : Env} {V : Type}.
Variable ru : rust V.
Variable sy : synlib.
Hypothesis SY : good_syn_lib sy.
Lemma fields_same (s : sdef V) tm : exists h : field V -> field V, s_fields tm s = map h (s_raw s) /\
  forall f, f_kind (h f) = f_kind f /\ f_names (h f) = f_names f /\ f_skip (h f) = f_skip f /\ f_container (h f) = f_container f.
Proof.
  assert (SD : forall f : field V, f_kind (skip_default f) = f_kind f /\ f_names (skip_default f) = f_names f /\ f_skip (skip_default f) = f_skip f /\ f_container (skip_default f) = f_container f).
  { intro f. unfold skip_default. destruct (f_default f); auto. destruct (f_skip f) eqn:E; cbn; auto. }
  assert (CD : forall f : field V, f_kind (container_default f) = f_kind f /\ f_names (container_default f) = f_names f /\ f_skip (container_default f) = f_skip f /\ f_container (container_default f) = f_container f).
  { intro f. unfold container_default. destruct (f_default f); auto. destruct (f_container f) eqn:E; cbn; auto. }
  assert (A : exists h : field V -> field V, s_fields_attr s = map h (s_raw s) /\
    forall f, f_kind (h f) = f_kind f /\ f_names (h f) = f_names f /\ f_skip (h f) = f_skip f /\ f_container (h f) = f_container f).
  { unfold s_fields_attr. destruct (has_target (s_default s)); [exists (fun f => f); rewrite map_id; auto|exists skip_default; auto]. }
  destruct A as [h [E H]]. destruct tm; cbn [s_fields]; [|eauto]. unfold s_fields_meta. rewrite E, map_map. exists (fun f => container_default (h f)). split; auto.
  intro f. destruct (H f) as [A [B [C D]]]. destruct (CD (h f)) as [A' [B' [C' D']]]. repeat split; congruence.
Qed.
Variables (auto : list V) (expr : list token -> list V) (post : list token -> list V -> list V + synerr).
Lemma l_source_struct (tm : tmode V) i d oss so inputs sp v r ws : good_rust ru -> written_struct i -> ss_shape i = ShNamed -> derived sy tm i d ->
  Forall2 (fun f os => has_options (spells_f sy) (sf_attrs f) os) (ss_fields i) oss -> has_options (spells_s sy) (ss_attrs i) so ->
  Forall plain oss -> (forall x, In (STransparent x) so -> st_value x = false) ->
  Forall2 (fun f os => local_dict (impl_of ru f os)) (ss_fields i) oss ->
  (forall t, default_by auto expr (s_defaults so) = Some t -> length t = length (ss_fields i)) ->
  parse_run (lower_struct ru auto expr post d) tm "" v sp inputs r ->
  r = Ok ws <-> exists vs,
    source_value ru (ss_fields i) oss (default_by auto expr (s_defaults so)) (existsb (fun b => b) (s_unknowns so) || negb v)%bool tm sp (items_of inputs) vs /\
    chained (map post (s_and_thens_of so)) vs ws.
Proof.
  intros G W SH D F H P T LO TL RU. pose proof (lowered_fields ru sy SY auto expr post _ _ _ _ _ D F H P) as LF.
  pose proof (lowered_default ru sy SY auto expr post _ _ _ _ _ D F H) as LD. destruct (derived_schema sy SY _ _ _ _ _ D F H) as [FC [CS DE]].
  set (s := lower_struct ru auto expr post d) in *. set (whole := default_by auto expr (s_defaults so)) in *.
  assert (LEN : length (ss_fields i) = length oss) by (clear - F; induction F; cbn; auto).
  assert (DF : i_shape d = ss_shape i /\ i_transparent d = first_of (s_transparents so) /\ i_unknown_ok d = first_of (s_unknowns so) /\ i_and_thens d = s_and_thens_of so) by (rewrite DE; destruct tm; auto).
  destruct DF as [DS [DT [DU DA]]].
  assert (SHP : s_shape s = ShNamed) by (cbn; congruence).
  assert (TR : st_true (i_transparent d) = false).
  { rewrite DT. destruct (s_transparents so) as [|x l] eqn:E; auto. cbn. apply T. assert (I : In x (s_transparents so)) by (rewrite E; now left).
    unfold s_transparents in I. apply in_flat_map in I as [o [I J]]. destruct o; cbn in J; try contradiction. destruct J as [->|[]]. exact I. }
  assert (UO : s_unknown_ok s = existsb (fun b => b) (s_unknowns so)).
  { cbn [s lower_struct s_unknown_ok]. rewrite DU. destruct CS as [[_ [O _]] _]. unfold once in O. destruct (s_unknowns so) as [|b [|c l]]; cbn in *; try lia; auto. now destruct b. }
  assert (NS : named_struct s).
  { split; [|split; auto].
    - apply (l_struct_bridge sy ru i d); [exact G|exact W| |rewrite TR; discriminate]. unfold derived in D. destruct tm; auto.
    - rewrite LD. intros t E. destruct (fields_same s tm) as [h [E2 _]]. rewrite E2 in LF. apply (f_equal (@length _)) in LF. rewrite !map_length, combine_length in LF. rewrite LF, (TL t E). lia. }
  destruct (fields_same s tm) as [h [FS HS]].
  assert (PI : forall f, pitem (h f) = pitem f) by (intro f; destruct (HS f) as [A [B [C E]]]; unfold pitem, is_parsable, is_flat; now rewrite A, C, E).
  assert (LFd : Forall local_field (s_raw s)).
  { assert (X : Forall local_field (s_fields tm s)).
    { rewrite LF. clear - LO. induction LO as [|f os fs oss L LO IH]; cbn [combine map]; constructor; auto. intros _ n nsp. exact (ld_named _ L n nsp). }
    rewrite FS in X. rewrite Forall_forall in X |- *. intros f I PF n nsp. assert (Y : local_field (h f)) by (apply X; now apply in_map). destruct (HS f) as [A _].
    unfold local_field, item_named in Y. rewrite A in Y. apply Y. now rewrite PI. }
  assert (ND : NoDup (map fst (flat_map g_idents (map (fun p => meaning_f (fst p) (snd p)) (combine (ss_fields i) oss))))) by apply CS.
  assert (AL : forall k, In k (s_names s) <-> exists n f os, nth_error (ss_fields i) n = Some f /\ nth_error oss n = Some os /\ names_it f os k).
  { assert (EN : s_names s = fields_names (s_fields tm s)).
    { unfold s_names. rewrite FS. unfold fields_names. clear - HS. induction (s_raw s) as [|f l IH]; auto. cbn [map flat_map]. rewrite IH. f_equal.
      destruct (HS f) as [A [B [C E]]]. unfold is_parsable, field_key_names. now rewrite A, B, C, E. }
    intro k. rewrite EN, LF. unfold fields_names. rewrite in_flat_map. split.
    - intros [g [I J]]. apply in_map_iff in I as [[f os] [<- I]]. apply In_nth_error in I as [n N]. apply nth_ps in N as [N1 N2]; auto.
      exists n, f, os. split; auto. split; auto. unfold is_parsable in J. cbn in J. destruct (is_object os) eqn:O, (is_skipped os) eqn:S; cbn in J; try contradiction. split; auto.
    - intros [n [f [os [N1 [N2 [S [O I]]]]]]]. exists (made ru whole tm (f, os)). split.
      + apply in_map. apply (nth_error_In _ n). apply nth_ps; auto.
      + unfold is_parsable. cbn. rewrite S, O. exact I. }
  destruct (run_body _ _ _ _ _ _ _ RU SHP) as [m ->]. rewrite (struct_text s tm m sp "" v inputs ws NS LFd).
  assert (SR : struct_reader s tm "" v = mkReader (map (made ru whole tm) (combine (ss_fields i) oss)) "" (negb (s_unknown_ok s) && v) (s_names s)) by (unfold struct_reader; now rewrite LF).
  assert (AT : s_and_thens s = map post (s_and_thens_of so)) by (cbn; now rewrite DA).
  rewrite SR, LD, AT.
  assert (CK : (existsb (fun b => b) (s_unknowns so) || negb v)%bool = negb (negb (s_unknown_ok s) && v)) by (rewrite UO, negb_andb, negb_involutive; reflexivity).
  rewrite CK. split; intros [vs [A B]]; exists vs; split; auto; eapply (parses_source ru whole tm _ _ LEN ND _ _ AL); eauto.
Qed.
End F.
