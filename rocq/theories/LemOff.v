(** Proofs for PropsOff.v. *)
From Verif Require Export SpecOff.
From Verif Require Import LemOpts2 LemOpts3 LemOpts4 LemOpts5 LemOpts6 LemOpts7.

Definition keep {A} (p : A -> bool) (o : option A) : option A :=
  match o with Some x => if p x then o else None | None => None end.
(** the field without the options set to `false` *)
Definition drop_f (f : src_field) (g : sfield) : sfield :=
  mkSField f (g_idents g) (g_default g) (g_with g) (keep ff_value (g_flatten g)) (keep fst (g_append g))
           (keep fst (g_rest g)) (keep fc_value (g_container g)) (keep fst (g_skip g)) (g_transforms g).
Definition same_src (f f' : src_field) : Prop := sf_ident f' = sf_ident f /\ sf_ty f' = sf_ty f.
Definition dropped (g g' : sfield) : Prop := same_src (g_src g) (g_src g') /\ g' = drop_f (g_src g') g.

Lemma once_filter {A} (p : A -> bool) (l : list A) : once l -> once (filter p l).
Proof. destruct l as [|a [|b l]]; unfold once; cbn; [lia|destruct (p a); cbn; lia|lia]. Qed.
Lemma first_filter {A} (p : A -> bool) (l : list A) : once l -> first_of (filter p l) = keep p (first_of l).
Proof. destruct l as [|a [|b l]]; cbn; [reflexivity|now destruct (p a)|unfold once; cbn; lia]. Qed.
Lemma filter_nil {A} (p : A -> bool) (l : list A) : l = [] -> filter p l = [].
Proof. now intros ->. Qed.
Lemma not_both_filter {A B} (p : A -> bool) (q : B -> bool) l m : not_both l m -> not_both (filter p l) (filter q m).
Proof. intros [-> | ->]; [left|right]; reflexivity. Qed.
Lemma not_both_l {A B} (p : A -> bool) l (m : list B) : not_both l m -> not_both (filter p l) m.
Proof. intros [-> | ->]; [left|right]; reflexivity. Qed.
Lemma not_both_r {A B} (p : B -> bool) (l : list A) m : not_both l m -> not_both l (filter p m).
Proof. intros [-> | ->]; [left|right]; reflexivity. Qed.

(** the options of one sort among those that are left *)
Lemma sort_filter {O A} (p : O -> list A) (on : O -> bool) (q : A -> bool) l :
  (forall o, p (o) = [] \/ (exists x, p o = [x] /\ on o = q x)) ->
  flat_map p (filter on l) = filter q (flat_map p l).
Proof.
  intros H. induction l as [|o l IH]; [reflexivity|]. cbn [filter flat_map]. rewrite filter_app, <- IH.
  destruct (H o) as [E|[x [E Q]]].
  - rewrite E. cbn [filter app]. destruct (on o); [cbn [flat_map]; now rewrite E|reflexivity].
  - rewrite E. cbn [filter]. rewrite <- Q. destruct (on o); [cbn [flat_map]; now rewrite E|reflexivity].
Qed.
Lemma sort_same {O A} (p : O -> list A) (on : O -> bool) l :
  (forall o, p o = [] \/ on o = true) -> flat_map p (filter on l) = flat_map p l.
Proof.
  intros H. induction l as [|o l IH]; [reflexivity|]. cbn [filter flat_map]. destruct (H o) as [E|E].
  - rewrite E. destruct (on o); cbn [flat_map]; [now rewrite E, IH|exact IH].
  - rewrite E. cbn [flat_map]. now rewrite IH.
Qed.
Ltac srt := intros o; destruct o; first [left; reflexivity|right; reflexivity|right; eexists; split; reflexivity].

Section F.
Variable l : list fopt.
Lemma f_flattens : flattens (filter on_f l) = filter ff_value (flattens l). Proof. apply sort_filter. srt. Qed.
Lemma f_appends : appends (filter on_f l) = filter fst (appends l). Proof. apply sort_filter. srt. Qed.
Lemma f_rests : rests (filter on_f l) = filter fst (rests l). Proof. apply sort_filter. srt. Qed.
Lemma f_containers : containers (filter on_f l) = filter fc_value (containers l). Proof. apply sort_filter. srt. Qed.
Lemma f_skips : skips (filter on_f l) = filter fst (skips l). Proof. apply sort_filter. srt. Qed.
Lemma f_defaults : defaults (filter on_f l) = defaults l. Proof. apply sort_same. srt. Qed.
Lemma f_withs : withs (filter on_f l) = withs l. Proof. apply sort_same. srt. Qed.
Lemma f_renames : renames (filter on_f l) = renames l. Proof. apply sort_same. srt. Qed.
Lemma f_aliases : aliases (filter on_f l) = aliases l. Proof. apply sort_same. srt. Qed.
Lemma f_transforms : transforms (filter on_f l) = transforms l. Proof. apply sort_same. srt. Qed.
End F.
Lemma existsb_filter {A} (p : A -> bool) l : existsb p (filter p l) = existsb p l.
Proof. induction l as [|a l IH]; [reflexivity|]. cbn. destruct (p a) eqn:P; cbn; [now rewrite P|exact IH]. Qed.

Lemma off_consistent_f f f' l : same_src f f' -> consistent_f f l -> consistent_f f' (filter on_f l).
Proof.
  intros [SI ST] [O [N [W U]]]. unfold consistent_f.
  rewrite f_flattens, f_appends, f_rests, f_containers, f_skips, f_defaults, f_withs, f_renames, f_aliases, SI.
  destruct O as (o1 & o2 & o3 & o4 & o5 & o6 & o7 & o8).
  destruct N as (n1 & n2 & n3 & n4 & n5 & n6 & n7 & n8 & n9 & n10).
  split; [|split; [|split]].
  - repeat (split; [first [assumption|now apply once_filter]|]). now apply once_filter.
  - repeat (split; [first [now apply not_both_filter|now apply not_both_l|now apply not_both_r]|]). now apply not_both_l.
  - exact W.
  - intros E. destruct (U E) as (a & b & c & d). rewrite a, b. auto.
Qed.
Lemma off_names f f' l : same_src f f' -> names_f f' (filter on_f l) = names_f f l.
Proof.
  intros [SI ST]. unfold names_f, is_flattened. rewrite f_renames, f_aliases, f_flattens, existsb_filter, SI. reflexivity.
Qed.
Lemma off_meaning_f f f' l : same_src f f' -> consistent_f f l ->
  dropped (meaning_f f l) (meaning_f f' (filter on_f l)).
Proof.
  intros S C. split; [exact S|]. unfold meaning_f, drop_f. cbn [g_src g_idents g_default g_with g_flatten g_append g_rest g_container g_skip g_transforms].
  destruct C as [(o1 & o2 & o3 & o4 & o5 & o6 & o7 & o8) _].
  rewrite (off_names f f' l S), f_flattens, f_appends, f_rests, f_containers, f_skips, f_defaults, f_withs, f_transforms.
  rewrite !first_filter; auto.
Qed.
(** one field *)
Lemma off_field {env : Env} sy f f' g : good_syn_lib sy -> less_field sy f f' -> field_means sy f g ->
  exists g', field_means sy f' g' /\ dropped g g'.
Proof.
  intros SY [SI [ST [os [A B]]]] [os2 [H [C ->]]]. rewrite (has_options_fun (spells_f sy) (spells_f_fun sy) _ _ _ A H) in *. clear A.
  exists (meaning_f f' (filter on_f os2)). split; [|now apply off_meaning_f].
  exists (filter on_f os2). split; [exact B|]. split; [|reflexivity]. now apply (off_consistent_f f).
Qed.

(** ** what does not change *)
Lemma keep_sv (o : option (bool * span)) : sv_true (keep fst o) = sv_true o.
Proof. destruct o as [[[] sp]|]; reflexivity. Qed.
Lemma keep_b (o : option bool) : b_true (keep (fun b => b) o) = b_true o.
Proof. destruct o as [[]|]; reflexivity. Qed.
Lemma drop_flat f g : flatten_true (drop_f f g) = flatten_true g.
Proof. unfold flatten_true. cbn [g_flatten drop_f]. destruct (g_flatten g) as [x|]; cbn; [|reflexivity]. destruct (ff_value x) eqn:E; [exact E|reflexivity]. Qed.
Lemma drop_is_flat f g : g_is_flat (drop_f f g) = g_is_flat g.
Proof. unfold g_is_flat. rewrite drop_flat. cbn [g_append g_rest drop_f]. now rewrite !keep_sv. Qed.
Lemma drop_is_container f g : g_is_container (drop_f f g) = g_is_container g.
Proof. unfold g_is_container. cbn [g_container drop_f]. destruct (g_container g) as [x|]; cbn; [|reflexivity]. destruct (fc_value x) eqn:E; [exact E|reflexivity]. Qed.
Lemma drop_is_parsable f g : g_is_parsable (drop_f f g) = g_is_parsable g.
Proof. unfold g_is_parsable. rewrite drop_is_container. cbn [g_skip drop_f]. now rewrite keep_sv. Qed.
Lemma drop_plain f g : plain_field (drop_f f g) = plain_field g.
Proof. unfold plain_field. now rewrite drop_is_parsable, drop_is_flat. Qed.
Lemma drop_required f g : required (drop_f f g) <-> required g.
Proof. unfold required. rewrite drop_is_parsable, drop_is_flat. reflexivity. Qed.
Lemma drop_optional f g : optional_field (drop_f f g) <-> optional_field g.
Proof. unfold optional_field. rewrite drop_is_parsable, drop_is_flat. reflexivity. Qed.
Lemma drop_taken f g : taken_part (drop_f f g) = taken_part g.
Proof.
  unfold taken_part. change (g_is_parsable (drop_f f g) = g_is_parsable g). apply drop_is_parsable.
Qed.
Lemma drop_filled f g : filled (drop_f f g) = drop_f f (filled g).
Proof.
  unfold filled. cbn [g_skip g_default drop_f]. destruct (g_skip g) as [[[] sp]|] eqn:S; cbn [keep fst];
    destruct (g_default g) as [d|] eqn:D; try reflexivity.
Qed.
Lemma drop_cfill f g : container_fill (drop_f f g) = drop_f f (container_fill g).
Proof.
  unfold container_fill. cbn [g_container g_default drop_f]. destruct (g_container g) as [c|] eqn:S; cbn [keep]; [|reflexivity].
  destruct (g_default g) as [d|] eqn:D; destruct (fc_value c) eqn:F; try rewrite F; try reflexivity.
  unfold drop_f. cbn [g_src g_idents g_default g_with g_flatten g_append g_rest g_container g_skip g_transforms keep]. now rewrite F.
Qed.
Lemma filled_src g : g_src (filled g) = g_src g.
Proof. unfold filled. destruct (g_skip g) as [[[] sp]|]; try reflexivity; destruct (g_default g); reflexivity. Qed.
Lemma cfill_src g : g_src (container_fill g) = g_src g.
Proof. unfold container_fill. destruct (g_container g) as [c|]; [|reflexivity]; destruct (g_default g); [reflexivity|]. now destruct (fc_value c). Qed.
Lemma dropped_filled g g' : dropped g g' -> dropped (filled g) (filled g').
Proof.
  intros [S E]. split; [now rewrite !filled_src|]. rewrite E at 1. rewrite drop_filled, filled_src. reflexivity.
Qed.
Lemma dropped_cfill g g' : dropped g g' -> dropped (container_fill g) (container_fill g').
Proof.
  intros [S E]. split; [now rewrite !cfill_src|]. rewrite E at 1. rewrite drop_cfill, cfill_src. reflexivity.
Qed.
Lemma dropped_map h : (forall g g', dropped g g' -> dropped (h g) (h g')) -> forall gs gs', Forall2 dropped gs gs' -> Forall2 dropped (map h gs) (map h gs').
Proof. intros H gs gs' F. induction F; cbn; constructor; auto. Qed.

Lemma dropped_filter p : (forall f g, p (drop_f f g) = p g) -> forall gs gs', Forall2 dropped gs gs' -> Forall2 dropped (filter p gs) (filter p gs').
Proof.
  intros H gs gs' F. induction F as [|g g' gs gs' D F IH]; cbn; [constructor|].
  replace (p g') with (p g) by (destruct D as [_ ->]; now rewrite H). destruct (p g); [now constructor|exact IH].
Qed.
Lemma dropped_idents gs gs' : Forall2 dropped gs gs' -> flat_map g_idents gs' = flat_map g_idents gs.
Proof. intros F. induction F as [|g g' gs gs' [_ ->] F IH]; [reflexivity|]. cbn. now rewrite IH. Qed.
Lemma dropped_fits gs gs' : Forall2 dropped gs gs' -> transparent_fits gs -> transparent_fits gs'.
Proof.
  intros F [g [E [NF NA]]]. pose proof (dropped_filter taken_part drop_taken _ _ F) as FF. rewrite E in FF.
  inversion FF as [|? g' ? t D R]; subst. inversion R; subst. exists g'. split; [now symmetry|].
  destruct D as [_ ->]. cbn [g_flatten g_append drop_f]. split.
  - intros [x [K T]]. apply NF. destruct (g_flatten g) as [y|]; cbn in K; [|discriminate K]. exists x. destruct (ff_value y); [auto|discriminate K].
  - intros [sp K]. apply NA. destruct (g_append g) as [[[] y]|]; cbn in K; try discriminate K. eauto.
Qed.
Lemma dropped_one gs gs' : Forall2 dropped gs gs' -> one_container gs -> one_container gs'.
Proof.
  unfold one_container, once. intros F H. refine (Nat.le_trans _ _ _ _ H). clear H.
  induction F as [|g g' gs gs' [_ ->] F IH]; [constructor|]. cbn [filter g_container drop_f].
  destruct (g_container g) as [c|]; cbn [keep opt_some]; [|exact IH]. destruct (fc_value c); cbn [opt_some length]; lia.
Qed.
Lemma forall2_split {A B} (R : A -> B -> Prop) l : forall a' y b', Forall2 R l (a' ++ y :: b') ->
  exists a x b, l = a ++ x :: b /\ Forall2 R a a' /\ R x y /\ Forall2 R b b'.
Proof.
  intros a' y b' F. apply Forall2_app_inv_r in F as [a [t [F1 [F2 ->]]]]. inversion F2 as [|x ? b ? D R1]; subst.
  exists a, x, b. auto.
Qed.
Lemma dropped_last gs gs' : Forall2 dropped gs gs' -> defaults_last gs -> defaults_last gs'.
Proof.
  intros F H a g b h c ->. apply forall2_split in F as (a0 & g0 & t & -> & _ & [_ ->] & F).
  apply forall2_split in F as (b0 & h0 & c0 & -> & _ & [_ ->] & _). rewrite drop_optional, drop_required.
  exact (H a0 g0 b0 h0 c0 eq_refl).
Qed.

Section S.
Variable l : list sopt.
Lemma s_trans : s_transparents (filter on_s l) = filter st_value (s_transparents l). Proof. apply sort_filter. srt. Qed.
Lemma s_unk : s_unknowns (filter on_s l) = filter (fun b => b) (s_unknowns l). Proof. apply sort_filter. srt. Qed.
Lemma s_def : s_defaults (filter on_s l) = s_defaults l. Proof. apply sort_same. srt. Qed.
Lemma s_cra : s_crates (filter on_s l) = s_crates l. Proof. apply sort_same. srt. Qed.
Lemma s_andt : s_and_thens_of (filter on_s l) = s_and_thens_of l. Proof. apply sort_same. srt. Qed.
Lemma s_attr : s_attributes_of (filter on_s l) = s_attributes_of l. Proof. apply sort_same. srt. Qed.
End S.
Lemma filter_ne {A} (p : A -> bool) l : filter p l <> [] -> l <> [].
Proof. intros H ->. now apply H. Qed.

Definition drop_s (fs : list sfield) (d : sstruct) : sstruct :=
  mkSStruct (i_shape d) fs (i_default d) (i_crate d) (keep st_value (i_transparent d)) (keep (fun b => b) (i_unknown_ok d))
            (i_attributes d) (i_and_thens d).
Definition dropped_s (d d' : sstruct) : Prop := Forall2 dropped (i_fields d) (i_fields d') /\ d' = drop_s (i_fields d') d.

Lemma off_struct {env : Env} sy i i' d : good_syn_lib sy -> less_struct sy i i' -> read_struct sy i = Ok d ->
  exists d', read_struct sy i' = Ok d' /\ dropped_s d d'.
Proof.
  intros SY [SH [F [os [A B]]]] R. apply (l_struct_ok sy SY) in R as (gs & os2 & FM & H & C & ->).
  rewrite (has_options_fun (spells_s sy) (spells_s_fun sy) _ _ _ A H) in *. clear A os.
  assert (X : exists gs', Forall2 (field_means sy) (ss_fields i') gs' /\ Forall2 dropped gs gs').
  { clear -SY F FM. revert gs FM. induction F as [|f f' fs fs' D F IH]; intros gs FM; inversion FM; subst; [now exists []|].
    destruct (off_field sy _ _ _ SY D H1) as [g' [M E]]. destruct (IH _ H3) as [gs' [Ms Es]]. exists (g' :: gs'). now split; constructor. }
  destruct X as [gs' [FM' D]].
  assert (FS : Forall2 dropped (fields_s gs os2) (fields_s gs' (filter on_s os2))).
  { unfold fields_s. rewrite s_def. destruct (s_defaults os2); [|exact D]. now apply dropped_map; [apply dropped_filled|]. }
  exists (meaning_s (ss_shape i') gs' (filter on_s os2)). split.
  - apply (l_struct_ok sy SY). exists gs', (filter on_s os2). split; [exact FM'|]. split; [exact B|]. split; [|reflexivity].
    destruct C as [(o1 & o2 & o3 & o4) (t & u & df & nd & oc & dl)]. unfold consistent_s. rewrite SH, s_trans, s_unk, s_def, s_cra.
    repeat split; try (now apply once_filter); try assumption.
    + intros N. apply filter_ne in N. now apply (dropped_fits gs), t.
    + intros N. apply filter_ne in N. now apply u.
    + now rewrite (dropped_idents _ _ D).
    + now apply (dropped_one gs).
    + intros U. apply (dropped_last _ _ FS), dl, U.
  - split; [exact FS|]. unfold meaning_s, drop_s. cbn [i_fields i_shape i_default i_crate i_transparent i_unknown_ok i_attributes i_and_thens].
    destruct C as [(o1 & o2 & o3 & o4) _]. rewrite SH, s_def, s_cra, s_andt, s_attr, s_trans, s_unk, !first_filter by assumption. reflexivity.
Qed.

(** the code generated from it *)
Section L.
Context {V : Type}.
Variable ru : rust V.
Hypothesis RU : by_type ru.
Lemma off_lower own g g' : dropped g g' -> lower_field ru own g' = lower_field ru own g.
Proof.
  intros [[SI ST] E]. pose proof (RU _ _ SI ST) as T. unfold lower_field.
  replace (g_idents g') with (g_idents g) by (now rewrite E). replace (g_transforms g') with (g_transforms g) by (now rewrite E).
  replace (g_is_container g') with (g_is_container g) by (now rewrite E, drop_is_container).
  replace (sv_true (g_skip g')) with (sv_true (g_skip g)) by (rewrite E; cbn [g_skip drop_f]; now rewrite keep_sv).
  assert (DV : g_default_value ru g' = g_default_value ru g).
  { unfold g_default_value. rewrite T. now replace (g_default g') with (g_default g) by (now rewrite E). }
  assert (GT : g_type ru own g' = g_type ru own g).
  { unfold g_type. rewrite T. now replace (g_with g') with (g_with g) by (now rewrite E). }
  assert (GK : g_kind ru own g' = g_kind ru own g).
  { unfold g_kind. rewrite GT, SI. replace (flatten_true g') with (flatten_true g) by (now rewrite E, drop_flat).
    replace (sv_true (g_append g')) with (sv_true (g_append g)) by (rewrite E; cbn [g_append drop_f]; now rewrite keep_sv).
    replace (sv_true (g_rest g')) with (sv_true (g_rest g)) by (rewrite E; cbn [g_rest drop_f]; now rewrite keep_sv).
    destruct (sv_true (g_append g)); [reflexivity|]. destruct (sv_true (g_rest g)); [reflexivity|].
    destruct (flatten_true g) eqn:FT; [|reflexivity]. destruct (sf_ident (g_src g)); [|reflexivity].
    replace (g_flatten g') with (g_flatten g); [reflexivity|]. rewrite E. cbn [g_flatten drop_f].
    unfold flatten_true in FT. destruct (g_flatten g) as [x|]; [|reflexivity]. cbn. now rewrite FT. }
  rewrite DV, GK, T, SI. reflexivity.
Qed.
Lemma off_lowers own gs gs' : Forall2 dropped gs gs' -> map (lower_field ru own) gs' = map (lower_field ru own) gs.
Proof. intros F. induction F as [|g g' gs gs' D F IH]; [reflexivity|]. cbn [map]. now rewrite IH, (off_lower own g g' D). Qed.
Lemma off_lower_s auto expr post d d' : dropped_s d d' -> lower_struct ru auto expr post d' = lower_struct ru auto expr post d.
Proof.
  intros [F E]. unfold lower_struct. rewrite (off_lowers false _ _ F). rewrite E at 1 2 3 4 5 6.
  cbn [i_shape i_default i_transparent i_unknown_ok i_and_thens i_attributes drop_s]. rewrite keep_b.
  f_equal. destruct (i_transparent d) as [t|]; cbn; [|reflexivity]. destruct (st_value t) eqn:S; [exact S|reflexivity].
Qed.
End L.
Lemma off_gen_fields sh gs gs' : Forall2 dropped gs gs' -> gen_fields sh gs' = gen_fields sh gs.
Proof.
  intros F. unfold gen_fields. destruct sh; try reflexivity. replace (forallb _ gs') with (forallb (fun f => opt_some (sf_ident (g_src f)) &&
                         (if plain_field f then match g_idents f with [] => false | _ => true end
                          else true)) gs); [reflexivity|].
  induction F as [|g g' gs gs' [[SI ST] E] F IH]; [reflexivity|]. cbn [forallb]. rewrite IH, SI.
  replace (plain_field g') with (plain_field g) by (now rewrite E, drop_plain). now replace (g_idents g') with (g_idents g) by (now rewrite E).
Qed.
Lemma off_find gs gs' : Forall2 dropped gs gs' -> opt_some (find plain_field gs') = opt_some (find plain_field gs).
Proof.
  intros F. induction F as [|g g' gs gs' [_ E] F IH]; [reflexivity|]. cbn [find].
  replace (plain_field g') with (plain_field g) by (now rewrite E, drop_plain). now destruct (plain_field g).
Qed.
Lemma off_gen_struct d d' : dropped_s d d' -> gen_struct d' = gen_struct d.
Proof.
  intros [F E]. unfold gen_struct. rewrite (off_gen_fields _ _ _ F).
  assert (T : i_is_transparent d' = i_is_transparent d).
  { unfold i_is_transparent. f_equal.
    - rewrite E. cbn [i_transparent drop_s]. destruct (i_transparent d) as [t|]; cbn; [|reflexivity]. destruct (st_value t) eqn:S; [exact S|reflexivity].
    - pose proof (dropped_filter _ drop_plain _ _ F) as FF. assert (LL : forall A B (R : A -> B -> Prop) x y, Forall2 R x y -> length y = length x) by (induction 1; cbn; congruence).
      apply LL in FF. now rewrite !firstn_length, FF. }
  rewrite T. replace (i_shape d') with (i_shape d) by (now rewrite E).
  destruct (gen_fields (i_shape d) (i_fields d)); try reflexivity. cbn [rbind]. destruct (i_is_transparent d); [|reflexivity].
  pose proof (off_find _ _ F) as Q. destruct (find plain_field (i_fields d')), (find plain_field (i_fields d)); try reflexivity; discriminate Q.
Qed.
Lemma off_fill d d' : dropped_s d d' -> dropped_s (fill_struct d) (fill_struct d').
Proof.
  intros [F E]. split.
  - cbn [i_fields fill_struct]. now apply dropped_map; [apply dropped_cfill|].
  - unfold fill_struct, drop_s at 1. cbn [i_fields i_shape i_default i_crate i_transparent i_unknown_ok i_attributes i_and_thens]. rewrite E at 1 3 4 5 6 7 8. reflexivity.
Qed.
