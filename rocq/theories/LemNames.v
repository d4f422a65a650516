(** Proofs for C71 and C72. *)
From Verif Require Import LemFlat2 LemSchema5.
From Verif Require Export SpecNames.

Lemma calls_filled code l cs insts :
  (forall a, code <> NArray a) ->
  names_calls code insts (mkCells (Some l) cs) = map (fun _ => l) insts.
Proof.
  intro H. induction insts as [|n insts IH]; cbn [names_calls map]; auto.
  destruct code as [a|ps]; [now destruct (H a)|]. cbn [names_call c_outer]. now rewrite IH.
Qed.
Lemma calls_first code n insts :
  names_calls code (n :: insts) no_cells = map (fun _ => fst (names_call code n no_cells)) (n :: insts).
Proof.
  cbn [names_calls map]. destruct code as [a|ps].
  - cbn [names_call fst]. f_equal. induction insts as [|m insts IH]; cbn [names_calls map]; auto.
    cbn [names_call]. now rewrite IH.
  - cbn [names_call no_cells c_outer c_inner]. destruct (pieces_run n ps []) as [l cs] eqn:E.
    cbn [fst]. f_equal. apply calls_filled. discriminate.
Qed.
Definition piece_names (n : src_field -> list string) (p : piece) : list string := fst (piece_run n p None).
Lemma pieces_fresh n : forall ps, fst (pieces_run n ps []) = flat_map (piece_names n) ps.
Proof.
  induction ps as [|p ps IH]; cbn [pieces_run flat_map fst tl]; auto.
  unfold piece_names at 1. destruct (piece_run n p None) as [l c]. cbn [tl] in *. destruct (pieces_run n ps []) as [l' cs]. cbn [fst] in *. now rewrite IH.
Qed.
Definition code_names (code : names_code) (n : src_field -> list string) : list string :=
  match code with NArray l => l | NVec ps => flat_map (piece_names n) ps end.
Lemma call_fresh code n : fst (names_call code n no_cells) = code_names code n.
Proof.
  destruct code as [l|ps]; auto. cbn [names_call no_cells c_outer c_inner code_names]. rewrite <- pieces_fresh.
  now destruct (pieces_run n ps []).
Qed.
Lemma l_names_first : forall code n insts,
  exists l, names_calls code (n :: insts) no_cells = map (fun _ => l) (n :: insts) /\
            names_calls code [n] no_cells = [l].
Proof.
  intros code n insts. exists (code_names code n). split.
  - now rewrite calls_first, call_fresh.
  - rewrite calls_first, call_fresh. reflexivity.
Qed.

Section L.
Context {env : Env}.
Variable sy : synlib.

(** *** flatten excludes the other kinds *)
Definition apart (g : sfield) : Prop := flatten_true g = true -> g_append g = None /\ g_rest g = None.
Lemma read_apart f g : read_field sy f = Ok g -> apart g.
Proof.
  intros H X. apply field_ok in H. unfold flatten_true in X. destruct (g_flatten g) eqn:E; [|discriminate X].
  destruct (ff_flat_append _ _ H) as [A|A], (ff_flat_rest _ _ H) as [B|B]; try congruence. auto.
Qed.
Lemma skip_apart g : apart g -> apart (skip_fill g).
Proof. unfold apart, flatten_true. now rewrite sk_flatten, sk_append, sk_rest. Qed.
Lemma cont_apart g : apart g -> apart (container_fill g).
Proof.
  destruct (co_same g) as [E1 [E2 [E3 [E4 [E5 _]]]]]. unfold apart, flatten_true. now rewrite E3, E4, E5.
Qed.
Lemma reads_apart l fs : Forall2 (fun f g => read_field sy f = Ok g) l fs -> Forall apart fs.
Proof. induction 1; constructor; auto. eapply read_apart; eauto. Qed.
Lemma map_apart h fs : (forall g, apart g -> apart (h g)) -> Forall apart fs -> Forall apart (map h fs).
Proof. intros H F. induction F; cbn [map]; constructor; auto. Qed.
Lemma struct_apart i d : read_struct sy i = Ok d -> Forall apart (i_fields d).
Proof.
  intro H. apply struct_ok in H as [fs [R SH F _ _ _ _ _ _]]. apply reads_apart in R. rewrite F.
  destruct (opt_some (i_default d)); auto. apply map_apart; auto. apply skip_apart.
Qed.
Lemma variant_apart v h : read_variant sy v = Ok h -> Forall apart (h_fields h).
Proof.
  intro H. apply variant_ok in H as [fs [A R F _ _ _ _ _ _]]. rewrite F. apply map_apart; [apply skip_apart|]. eapply reads_apart; eauto.
Qed.
Definition named_field (f : sfield) : Prop := sf_ident (g_src f) <> None.
Lemma fit_named l fs : fields_fit ShNamed l -> Forall2 shape_facts l fs -> Forall named_field fs.
Proof.
  cbn [fields_fit]. intros W F. induction F as [|f g l fs H F IH]; constructor; inversion W; subst; auto.
  unfold named_field. now rewrite (hf_src _ _ H).
Qed.

Context {V : Type}.
Lemma flat_names (ru : rust V) own f e : apart f -> named_field f -> flatten_true f = true ->
  piece_names (names_of ru) (flat_piece e f) =
  match f_kind (lower_field ru own f) with
  | KFlatN (Some p) u => join_paths p (fn_names u)
  | KFlatN None u => fn_names u
  | _ => []
  end /\
  exists p u, f_kind (lower_field ru own f) = KFlatN p u.
Proof.
  intros A N T. destruct (A T) as [Ap Re]. cbn [lower_field f_kind]. unfold g_kind. rewrite Ap, Re, T. cbn [sv_true].
  unfold named_field in N. destruct (sf_ident (g_src f)); [|congruence].
  split; [|eauto].
  assert (E : fn_names (rt_fn (g_type ru own f)) = names_of ru (g_src f)).
  { unfold g_type, names_of. destruct (g_with f); auto. destruct own; auto. }
  rewrite E. unfold flat_piece, flatten_true in *. destruct (g_flatten f) as [x|]; [|discriminate T].
  destruct (ff_prefix x); reflexivity.
Qed.
Lemma flat_kind (ru : rust V) own f : flatten_true f = false -> forall p u, f_kind (lower_field ru own f) <> KFlatN p u.
Proof.
  intros T p u. cbn [lower_field f_kind]. unfold g_kind. rewrite T.
  destruct (sv_true (g_append f)); [discriminate|]. destruct (sv_true (g_rest f)); discriminate.
Qed.
Lemma field_names_eq (ru : rust V) own f : apart f -> named_field f ->
  piece_names (names_of ru) (field_piece f) = field_key_names (lower_field ru own f).
Proof.
  intros A N. unfold field_piece. destruct (flatten_true f) eqn:T.
  - destruct (flat_names ru own f ECow A N T) as [-> [p [u E]]]. unfold field_key_names. now rewrite E.
  - unfold field_key_names. pose proof (flat_kind ru own f T) as K.
    destruct (f_kind (lower_field ru own f)) as [ |pf u| | | ] eqn:E; try reflexivity. now destruct (K pf u).
Qed.
Lemma fields_code_names (ru : rust V) own fs : Forall apart fs -> Forall named_field fs ->
  code_names (fields_code fs) (names_of ru) = fields_names (map (lower_field ru own) fs).
Proof.
  intros A N. unfold fields_code, fields_names. destruct (existsb flatten_true fs) eqn:X; cbn [code_names].
  - clear X. induction fs as [|f fs IH]; cbn [filter map flat_map]; auto.
    apply Forall_cons_iff in A as [A1 A]. apply Forall_cons_iff in N as [N1 N]. rewrite lower_parsable.
    destruct (g_is_parsable f); cbn [map flat_map]; rewrite IH by auto; auto.
    now rewrite (field_names_eq ru own f A1 N1).
  - induction fs as [|f fs IH]; cbn [filter map flat_map]; auto.
    apply Forall_cons_iff in A as [A1 A]. apply Forall_cons_iff in N as [N1 N]. rewrite lower_parsable.
    cbn [existsb] in X. apply orb_false_iff in X as [T X].
    destruct (g_is_parsable f); cbn [map flat_map]; rewrite IH by auto; auto. f_equal.
    rewrite <- (field_names_eq ru own f A1 N1). unfold field_piece. now rewrite T.
Qed.

(** *** only the types of the flattened fields matter *)
Lemma piece_agree (ru ru' : rust V) f : (flatten_true f = true -> names_of ru (g_src f) = names_of ru' (g_src f)) ->
  piece_names (names_of ru) (field_piece f) = piece_names (names_of ru') (field_piece f).
Proof.
  intro H. unfold field_piece. destruct (flatten_true f); auto. specialize (H eq_refl). unfold flat_piece.
  destruct (g_flatten f) as [x|]; auto. destruct (ff_prefix x); unfold piece_names; cbn [piece_run fst]; now rewrite H.
Qed.
Lemma struct_agree (ru ru' : rust V) fs : agree_on (asked fs) ru ru' ->
  code_names (fields_code fs) (names_of ru) = code_names (fields_code fs) (names_of ru').
Proof.
  intro H. unfold fields_code. destruct (existsb flatten_true fs); auto. cbn [code_names].
  assert (X : forall l, incl l fs -> flat_map (piece_names (names_of ru)) (map field_piece l) = flat_map (piece_names (names_of ru')) (map field_piece l)).
  { induction l as [|f l IH]; cbn [map flat_map]; auto. intro I. rewrite IH by (intros a Ia; apply I; now right). f_equal.
    apply piece_agree. intro T. apply H. unfold asked. apply in_map, filter_In. split; auto. apply I. now left. }
  apply X. intros a I. now apply filter_In in I.
Qed.

Lemma calls_agree {A} code (rus : list A) (h : A -> src_field -> list string) (want : A -> list string) :
  (forall a, In a rus -> code_names code (h a) = want a) ->
  (forall a b, In a rus -> In b rus -> want a = want b) ->
  names_calls code (map h rus) no_cells = map want rus.
Proof.
  intros H G. destruct rus as [|a rus]; auto. change (map h (a :: rus)) with (h a :: map h rus). rewrite calls_first, call_fresh, H by now left.
  change (h a :: map h rus) with (map h (a :: rus)). rewrite map_map. apply map_ext_in. intros b I. apply G; auto. now left.
Qed.

Lemma struct_facts2 i d : written_struct i -> ss_shape i = ShNamed ->
  derive_meta_struct sy i = Ok d \/ derive_attr_struct sy i = Ok d ->
  Forall apart (i_fields d) /\ Forall named_field (i_fields d).
Proof.
  intros W SH H. unfold written_struct in W. rewrite SH in W.
  assert (X : exists d0, read_struct sy i = Ok d0 /\ (d = d0 \/ d = fill_struct d0)).
  { unfold derive_meta_struct, derive_attr_struct in H. destruct (read_struct sy i) as [d0|e|b]; cbn [rbind] in H; try (destruct H; discriminate).
    exists d0. split; auto. destruct H as [H|H].
    - destruct (gen_struct (fill_struct d0)); cbn [rmap] in H; try discriminate. injection H as <-. auto.
    - destruct (gen_struct d0); cbn [rmap] in H; try discriminate. injection H as <-. auto. }
  destruct X as [d0 [R [->| ->]]].
  - split; [eapply struct_apart; eauto|]. apply struct_shape in R as [_ R]. eapply fit_named; eauto.
  - split.
    + cbn [fill_struct i_fields]. apply map_apart; [apply cont_apart|]. eapply struct_apart; eauto.
    + apply struct_shape, fill_shape in R as [_ R]. eapply fit_named; eauto.
Qed.

Lemma l_names_struct i d auto expr post : written_struct i -> ss_shape i = ShNamed ->
  derive_meta_struct sy i = Ok d \/ derive_attr_struct sy i = Ok d ->
  forall rus : list (rust V), all_agree (asked (i_fields d)) rus ->
  names_calls (fields_code (i_fields d)) (map names_of rus) no_cells =
  map (fun ru => s_names (lower_struct ru auto expr post d)) rus.
Proof.
  intros W SH H rus AG. destruct (struct_facts2 i d W SH H) as [A N].
  assert (E : forall ru : rust V, code_names (fields_code (i_fields d)) (names_of ru) = s_names (lower_struct ru auto expr post d)).
  { intro ru. exact (fields_code_names ru false _ A N). }
  apply calls_agree; [intros; apply E|]. intros a b Ia Ib. rewrite <- !E. apply struct_agree. now apply AG.
Qed.

(** *** variants *)
Lemma skip_keeps (f : field V) : f_names (skip_default f) = f_names f /\ f_kind (skip_default f) = f_kind f /\
  is_parsable (skip_default f) = is_parsable f.
Proof.
  unfold skip_default. destruct (f_default f); auto. destruct (f_skip f) eqn:E; auto.
  repeat split; auto. unfold is_parsable. cbn. now rewrite E.
Qed.
Lemma skip_flat_map (h : field V -> list string) fs : (forall f, h (skip_default f) = h f) ->
  flat_map h (map skip_default fs) = flat_map h fs.
Proof. intro H. induction fs as [|f fs IH]; cbn [map flat_map]; auto. now rewrite H, IH. Qed.
Lemma variant_names (ru : rust V) v : Forall apart (h_fields v) -> (b_true (h_flatten v) = true -> Forall named_field (h_fields v)) ->
  flat_map (piece_names (names_of ru)) (variant_pieces v) =
  (let w := lower_variant ru v in
    (if v_flatten w || v_skip w then [] else v_names w) ++
    (if v_flatten w then
       flat_map (fun f => match f_kind f with
                          | KFlatN (Some p) u => join_paths p (fn_names u)
                          | KFlatN None u => fn_names u
                          | _ => []
                          end) (v_fields w) ++
       flat_map (fun f => match f_kind f with
                          | KFlatN _ _ => []
                          | _ => f_names f
                          end) (v_fields w)
     else [])).
Proof.
  intros A N. unfold variant_pieces. cbn [flat_map]. unfold lower_variant. cbn [v_flatten v_skip v_names v_fields].
  f_equal.
  destruct (b_true (h_flatten v)); auto. specialize (N eq_refl). rewrite flat_map_app. unfold v_fields. cbn [v_raw].
  rewrite !skip_flat_map by (intro f; destruct (skip_keeps f) as [E1 [E2 _]]; rewrite ?E1, ?E2; reflexivity). f_equal.
  - clear - A N. generalize (b_true (h_transparent v)) as own. intro own. induction (h_fields v) as [|f fs IH]; cbn [filter map flat_map]; auto.
    apply Forall_cons_iff in A as [A1 A]. apply Forall_cons_iff in N as [N1 N]. destruct (flatten_true f) eqn:T; cbn [map flat_map].
    + rewrite IH by auto. f_equal. exact (proj1 (flat_names ru own f EString A1 N1 T)).
    + rewrite IH by auto. pose proof (flat_kind ru own f T) as K. destruct (f_kind (lower_field ru own f)) as [ |pf u| | | ] eqn:E; try reflexivity. now destruct (K pf u).
  - cbn [flat_map piece_names piece_run fst]. unfold piece_names. cbn [piece_run fst]. rewrite app_nil_r. unfold own_names.
    clear - A N. generalize (b_true (h_transparent v)) as own. intro own. induction (h_fields v) as [|f fs IH]; cbn [filter map flat_map]; auto.
    apply Forall_cons_iff in A as [A1 A]. apply Forall_cons_iff in N as [N1 N]. rewrite IH by auto. f_equal. destruct (flatten_true f) eqn:T.
    + destruct (flat_names ru own f EString A1 N1 T) as [_ [p [u ->]]]. reflexivity.
    + pose proof (flat_kind ru own f T) as K. destruct (f_kind (lower_field ru own f)) as [ |pf u| | | ] eqn:E; try reflexivity. now destruct (K pf u).
Qed.
Lemma array_names n vs : any_flat_nested vs = false ->
  flat_map (fun v => tag_names v ++ (if b_true (h_flatten v) then own_names v else [])) vs =
  flat_map (piece_names n) (flat_map variant_pieces vs).
Proof.
  induction vs as [|v vs IH]; cbn [flat_map any_flat_nested existsb]; auto. intro H. apply orb_false_iff in H as [H1 H2].
  rewrite IH by exact H2. rewrite flat_map_app. f_equal. unfold variant_pieces. cbn [flat_map]. f_equal.
  destruct (b_true (h_flatten v)); auto. cbn [andb] in H1.
  assert (X : filter flatten_true (h_fields v) = []).
  { clear - H1. induction (h_fields v) as [|f fs IH]; auto. cbn [existsb filter] in *. apply orb_false_iff in H1 as [H1 H2].
    unfold g_is_flat in H1. apply orb_false_iff in H1 as [H1 _]. apply orb_false_iff in H1 as [-> _]. auto. }
  rewrite X. cbn [map app flat_map]. unfold piece_names. cbn [piece_run fst]. now rewrite app_nil_r.
Qed.
Definition vfacts (v : svariant) : Prop := Forall apart (h_fields v) /\ (b_true (h_flatten v) = true -> Forall named_field (h_fields v)).
Lemma variants_code_names (ru : rust V) auto expr post d : Forall vfacts (j_variants d) ->
  code_names (variants_code (j_variants d)) (names_of ru) = e_names (lower_enum ru auto expr post d).
Proof.
  intro F. assert (X : flat_map (piece_names (names_of ru)) (flat_map variant_pieces (j_variants d)) = e_names (lower_enum ru auto expr post d)).
  { unfold e_names. cbn [lower_enum e_variants]. induction F as [|v vs [A N] F IH]; cbn [flat_map map]; auto.
    rewrite flat_map_app, IH, variant_names by auto. reflexivity. }
  rewrite <- X. unfold variants_code. destruct (any_flat_nested (j_variants d)) eqn:Y; auto. cbn [code_names]. now apply array_names.
Qed.
Definition enum_asked (d : senum) : list src_field :=
  flat_map (fun v => if b_true (h_flatten v) then asked (h_fields v) else []) (j_variants d).
Lemma flat_piece_agree (ru ru' : rust V) e f : names_of ru (g_src f) = names_of ru' (g_src f) ->
  piece_names (names_of ru) (flat_piece e f) = piece_names (names_of ru') (flat_piece e f).
Proof.
  intro H. unfold flat_piece. destruct (g_flatten f) as [x|]; auto. destruct (ff_prefix x); unfold piece_names; cbn [piece_run fst]; now rewrite H.
Qed.
Lemma flat_pieces_agree (ru ru' : rust V) e fs : agree_on (asked fs) ru ru' ->
  flat_map (piece_names (names_of ru)) (map (flat_piece e) (filter flatten_true fs)) =
  flat_map (piece_names (names_of ru')) (map (flat_piece e) (filter flatten_true fs)).
Proof.
  unfold asked. induction (filter flatten_true fs) as [|f l IH]; cbn [map flat_map]; auto. intro H.
  rewrite IH by (intros a I; apply H; now right). f_equal. apply flat_piece_agree, H. now left.
Qed.
Lemma enum_agree (ru ru' : rust V) d : agree_on (enum_asked d) ru ru' ->
  code_names (variants_code (j_variants d)) (names_of ru) = code_names (variants_code (j_variants d)) (names_of ru').
Proof.
  unfold variants_code, enum_asked. destruct (any_flat_nested (j_variants d)); auto. cbn [code_names].
  induction (j_variants d) as [|v vs IH]; cbn [flat_map]; auto. intro H. rewrite !flat_map_app.
  rewrite IH by (intros a I; apply H, in_app_iff; now right). f_equal. unfold variant_pieces. cbn [flat_map]. f_equal.
  destruct (b_true (h_flatten v)); auto. rewrite !flat_map_app. f_equal.
  apply flat_pieces_agree. intros a I. apply H, in_app_iff. now left.
Qed.
Lemma enum_derived i d : derive_meta_enum sy i = Ok d \/ derive_attr_enum sy i = Ok d -> read_enum sy i = Ok d.
Proof.
  unfold derive_meta_enum, derive_attr_enum. destruct (read_enum sy i) as [d0|e|b]; cbn [rbind]; try (intros [H|H]; discriminate H).
  intros [H|H].
  - destruct (gen_variants (j_variants d0)); cbn [rbind rmap] in H; try discriminate.
    destruct (check (meta_container_check d0)); cbn [rmap] in H; try discriminate. now injection H as <-.
  - destruct (gen_variants (j_variants d0)); cbn [rmap] in H; try discriminate. now injection H as <-.
Qed.
Lemma enum_vfacts i d : written_enum i -> read_enum sy i = Ok d -> Forall vfacts (j_variants d).
Proof.
  intros W H. apply enum_ok in H. apply Forall_forall. intros h I.
  destruct (Forall2_in_r _ _ _ _ (ef_read _ _ _ H) I) as [v [Iv R]]. split; [eapply variant_apart; eauto|]. intro T.
  pose proof (ef_flat _ _ _ H) as FL. rewrite Forall_forall in FL. specialize (FL h I T).
  destruct (variant_shape sy v h R) as [E S]. unfold written_enum in W. rewrite Forall_forall in W. specialize (W v Iv).
  rewrite E in FL. rewrite FL in W. eapply fit_named; eauto.
Qed.
Lemma l_names_enum i d auto expr post : written_enum i ->
  derive_meta_enum sy i = Ok d \/ derive_attr_enum sy i = Ok d ->
  forall rus : list (rust V), all_agree (asked (flat_map h_fields (j_variants d))) rus ->
  names_calls (variants_code (j_variants d)) (map names_of rus) no_cells =
  map (fun ru => e_names (lower_enum ru auto expr post d)) rus.
Proof.
  intros W H rus AG. apply enum_derived in H. pose proof (enum_vfacts i d W H) as F.
  assert (E : forall ru : rust V, code_names (variants_code (j_variants d)) (names_of ru) = e_names (lower_enum ru auto expr post d)).
  { intro ru. now apply variants_code_names. }
  apply calls_agree; [intros; apply E|]. intros a b Ia Ib. rewrite <- !E. apply enum_agree.
  intros f I. apply (AG a b Ia Ib). unfold enum_asked in I. apply in_flat_map in I as [v [Iv I]].
  destruct (b_true (h_flatten v)); [|destruct I]. unfold asked in *. apply in_map_iff in I as [g [<- I]].
  apply filter_In in I as [I T]. apply in_map, filter_In. split; auto. apply in_flat_map. eauto.
Qed.
(** the names a flattened variant allows (variant.rs 120) are those of its fields *)
Lemma l_names_variant i d : written_enum i ->
  derive_meta_enum sy i = Ok d \/ derive_attr_enum sy i = Ok d ->
  forall v, In v (j_variants d) -> h_flatten v = Some true ->
  forall rus : list (rust V), all_agree (asked (h_fields v)) rus ->
  names_calls (fields_code (h_fields v)) (map names_of rus) no_cells =
  map (fun ru => v_allowed (lower_variant ru v)) rus.
Proof.
  intros W H v I T rus AG. apply enum_derived in H. pose proof (enum_vfacts i d W H) as F. rewrite Forall_forall in F.
  destruct (F v I) as [A N]. rewrite T in N. specialize (N eq_refl).
  assert (E : forall ru : rust V, code_names (fields_code (h_fields v)) (names_of ru) = v_allowed (lower_variant ru v)).
  { intro ru. unfold v_allowed, v_fields, fields_names. rewrite skip_flat_map.
    - exact (fields_code_names ru _ _ A N).
    - intro f. unfold field_key_names. destruct (skip_keeps f) as [-> [-> ->]]. reflexivity. }
  apply calls_agree; [intros; apply E|]. intros a b Ia Ib. rewrite <- !E. apply struct_agree. now apply AG.
Qed.
End L.

(** *** the types of the cells *)
Lemma l_typed_fields fs : code_typed (fields_code fs).
Proof.
  unfold fields_code. destruct (existsb flatten_true fs); cbn [code_typed]; auto. apply Forall_map, Forall_forall. intros f _.
  unfold field_piece. destruct (flatten_true f); [|exact I]. unfold flat_piece. destruct (g_flatten f) as [x|]; [|exact I].
  destruct (ff_prefix x); exact eq_refl || exact I.
Qed.
Lemma l_typed_enum d : no_nested_prefix d -> code_typed (variants_code (j_variants d)).
Proof.
  intro H. unfold variants_code. destruct (any_flat_nested (j_variants d)); cbn [code_typed]; auto.
  apply Forall_flat_map, Forall_forall. intros v Iv. unfold variant_pieces. constructor; [exact I|].
  destruct (h_flatten v) as [[|]|] eqn:T; cbn [b_true]; auto. apply Forall_app. split; [|repeat constructor].
  apply Forall_map, Forall_forall. intros f If. apply filter_In in If as [If X]. unfold flat_piece, flatten_true in *.
  destruct (g_flatten f) as [x|] eqn:G; [|discriminate X]. now rewrite (H v f x Iv T If G X).
Qed.
