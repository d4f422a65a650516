(** A concrete enum for the example of C99. *)
From Verif Require Import LemWf LemSmall WfMore LemLocalD ExStruct LemOpts5.
From Verif Require Export ExESource.

Definition simple_fh (h : svariant) : bool :=
  negb (b_true (h_transparent h)) && forallb simple_g (h_fields h) && distinctb (map fst (flat_map g_idents (h_fields h))).
Definition nice_fv (v : src_variant) (oss : list (list fopt)) (vo : list vopt) : Prop :=
  Forall plain oss /\
  (transparent_v vo = true -> is_flattened_v vo = false /\ forall os e, In os oss -> ~ In (OAndThen e) os) /\
  typed_variant xru v oss vo /\ (sv_shape v = ShNamed -> transparent_v vo = false -> distinct_in v oss).
Lemma read_fnice v : rmap simple_fh (read_variant xsy v) = Ok true ->
  exists oss vo, Forall2 (fun f os => has_options (spells_f xsy) (sf_attrs f) os) (sv_fields v) oss /\ has_options spells_v (sv_attrs v) vo /\ nice_fv v oss vo.
Proof.
  intro H. apply use_ok in H as [h [R Q]]. apply (l_variant_ok xsy xsy_good) in R as [gs [vo [F [O [C [_ ->]]]]]].
  assert (X : exists oss, Forall2 (fun f os => has_options (spells_f xsy) (sf_attrs f) os) (sv_fields v) oss /\ gs = map (fun p => meaning_f (fst p) (snd p)) (combine (sv_fields v) oss) /\ length (sv_fields v) = length oss).
  { clear -F. induction F as [|f g l l' [os [A [B ->]]] F [oss [I1 [-> I2]]]]; [exists []; repeat split; constructor|]. exists (os :: oss). repeat split; auto. cbn. congruence. }
  destruct X as [oss [FO [-> LEN]]]. exists oss, vo. split; auto. split; auto.
  unfold simple_fh in Q. cbn [meaning_v h_transparent h_fields] in Q. apply andb_true_iff in Q as [Q Q3]. apply andb_true_iff in Q as [Q1 Q2].
  rewrite (once_first v oss LEN) in Q1 by apply C. apply negb_true_iff in Q1. rewrite map_map, forallb_forall in Q2.
  assert (IN : forall os, In os oss -> exists f, In (f, os) (combine (sv_fields v) oss)).
  { intros os I. apply In_nth_error in I as [n N]. assert (L : n < length (sv_fields v)) by (rewrite LEN; apply nth_error_Some; congruence).
    destruct (nth_error (sv_fields v) n) as [f|] eqn:A; [|apply nth_error_None in A; lia]. exists f. apply (nth_error_In _ n). now apply (nth_ps _ _ LEN). }
  split; [|split; [|split]].
  - apply Forall_forall. intros os I. destruct (IN os I) as [f J]. assert (S : simple_g (filled (meaning_f f os)) = true) by (apply Q2; apply in_map_iff; exists (f, os); auto).
    rewrite (proj1 (proj2 (filled_names _))) in S. unfold simple_g in S. cbn [meaning_f g_flatten g_append g_rest] in S.
    apply plain_none; [destruct (flattens os)|destruct (flattens os); [|discriminate S]; destruct (appends os)|destruct (flattens os); [|discriminate S]; destruct (appends os); [|discriminate S]; destruct (rests os)]; auto; discriminate S.
  - unfold transparent_v. rewrite Q1. discriminate.
  - unfold typed_variant. clear -FO. induction FO; constructor; auto. unfold impl_in. split; [|intros; apply fine_impl]. destruct (transparent_v vo); apply fine_impl || apply fine_i32.
  - intros _ _. unfold distinct_in. apply distinctb_ok. rewrite map_map in Q3. rewrite flat_map_concat_map, map_map in Q3.
    rewrite (map_ext _ (fun p => names_f (fst p) (snd p))) in Q3 by (intros [f os]; apply (filled_names (meaning_f f os))). rewrite <- flat_map_concat_map in Q3. exact Q3.
Qed.
Lemma read_all_fnice vs : Forall (fun v => rmap simple_fh (read_variant xsy v) = Ok true) vs ->
  exists osss vos, Forall2 (fun v oss => Forall2 (fun f os => has_options (spells_f xsy) (sf_attrs f) os) (sv_fields v) oss) vs osss /\
    Forall2 (fun v vo => has_options spells_v (sv_attrs v) vo) vs vos /\
    forall n v oss vo, nth_error vs n = Some v -> nth_error osss n = Some oss -> nth_error vos n = Some vo -> nice_fv v oss vo.
Proof.
  induction 1 as [|v vs H F [osss [vos [A [B C]]]]]; [exists [], []; split; [constructor|split; [constructor|intros [|n] ? ? ? X; discriminate X]]|].
  destruct (read_fnice v H) as [oss [vo [D [E G]]]]. exists (oss :: osss), (vo :: vos). split; [constructor; auto|]. split; [constructor; auto|].
  intros [|n] v' oss' vo' X Y Z; cbn in *; [|eapply C; eauto]. congruence.
Qed.

(** a flattened variant with required fields, all of them among the keys *)
Definition req_b (f : field val) : bool := pitem f && match f_default f with None => true | _ => false end.
Definition chosen_b (keys : list string) (w : vdef val) : bool :=
  v_flatten w && negb (v_skip w) && existsb req_b (v_raw w) &&
  forallb (fun f => negb (req_b f) || existsb (fun n => existsb (String.eqb n) keys) (f_names f)) (v_raw w).
Lemma req_ok f : req_b f = true <-> SpecEnum.required f.
Proof. unfold req_b, SpecEnum.required. rewrite andb_true_iff. destruct (f_default f); intuition discriminate. Qed.
Lemma chosen_ok (e : edef val) inputs n w : nth_error (e_variants e) n = Some w -> chosen_b (map fst (keys_in inputs)) w = true -> chosen e "" inputs n w.
Proof.
  intros N H. unfold chosen_b in H. apply andb_true_iff in H as [H H4]. apply andb_true_iff in H as [H H3]. apply andb_true_iff in H as [H1 H2]. apply negb_true_iff in H2.
  split; [split; auto|]. split.
  - intros f I R. rewrite forallb_forall in H4. specialize (H4 f I). apply req_ok in R. rewrite R in H4. cbn in H4. apply existsb_exists in H4 as [k [J H4]]. apply existsb_exists in H4 as [k' [K E]].
    apply String.eqb_eq in E. subst k'. apply in_map_iff in K as [[k0 ksp] [E K]]. cbn in E. subst k0. exists k, ksp. split; auto. exists k. auto.
  - left. apply existsb_exists in H3 as [f [I R]]. exists f. split; auto. now apply req_ok.
Qed.

(** enum { A, #[deluxe(flatten)] X { x, #[deluxe(default = 1)] y },
           #[deluxe(flatten)] Z { #[deluxe(rename = w)] z, #[deluxe(skip)] t },
           #[deluxe(flatten)] D { #[deluxe(default = 1)] d },
           #[deluxe(flatten)] Y { y, x } }
    X is first in the order, so that Y is never taken *)
Definition x_fsrc : src_enum :=
  mkSrcEnum [sv "A" ShUnit [] ""; sv "X" ShNamed [nf "x" ""; nf "y" "default = 1"] "flatten";
             sv "Z" ShNamed [nf "z" "rename = w"; nf "t" "skip"] "flatten";
             sv "D" ShNamed [nf "d" "default = 1"] "flatten";
             sv "Y" ShNamed [nf "y" ""; nf "x" ""] "flatten"] [].
Definition x_foutcomes : list (string * res (evalue val)) :=
  [("a", Ok (0, [])); ("y = 5, x = 6", Ok (1, [VI 6; VI 5])); ("x = 5", Ok (1, [VI 5; VI 1]));
   ("w = 3", Ok (2, [VI 3; VI 0])); ("", Ok (3, [VI 1])); ("d = 4", Ok (3, [VI 4])); ("a, x = 6", Ok (0, []))].
Lemma x_fsrc_ok : exists d osss vos,
  good_syn_lib xsy /\ good_rust xru /\ written_enum x_fsrc /\ derived_enum xsy (@TMeta val) x_fsrc d /\
  enum_options xsy x_fsrc osss vos [] /\ plain_flat_enum xru x_fsrc osss vos /\
  (exists v oss vo v' oss' vo', meant x_fsrc osss vos (items_of (x_ine "y = 5, x = 6")) 1 v oss vo /\
     meant x_fsrc osss vos (items_of (x_ine "y = 5, x = 6")) 4 v' oss' vo') /\
  Forall (fun p => enum_run (x_lowe d) TMeta "" true (to_full_span Unnamed (x_ine (fst p))) (x_ine (fst p)) (snd p)) x_foutcomes.
Proof.
  destruct (use_ok (derive_meta_enum xsy x_fsrc)
    (fun d => (map (fun p => fst (d_inline (enum_dict (x_lowe d)) Unnamed (x_ine (fst p)))) x_foutcomes,
               map (chosen_b (map fst (keys_in (x_ine "y = 5, x = 6")))) (e_variants (x_lowe d))))
    (map snd x_foutcomes, [false; true; false; false; true])) as [d [R Q]]; [vm_compute; reflexivity|].
  assert (QV : map (chosen_b (map fst (keys_in (x_ine "y = 5, x = 6")))) (e_variants (x_lowe d)) = [false; true; false; false; true]) by exact (f_equal snd Q).
  apply (f_equal fst) in Q. cbn [fst] in Q.
  destruct (read_all_fnice (se_variants x_fsrc)) as [osss [vos [A [B C]]]]; [repeat constructor; vm_compute; reflexivity|].
  assert (W : written_enum x_fsrc) by (repeat constructor; discriminate).
  assert (EO : enum_options xsy x_fsrc osss vos []) by (split; [exact A|split; [exact B|apply no_options]]).
  assert (P : plain_flat_enum xru x_fsrc osss vos) by (intros n v oss vo [X [Y Z]]; exact (C n v oss vo X Y Z)).
  exists d, osss, vos. split; [exact xsy_good|]. split; [exact xru_good|]. split; [exact W|]. split; [exact R|].
  split; [exact EO|]. split; [exact P|]. split.
  - assert (CL : forall n w, chosen (x_lowe d) "" (x_ine "y = 5, x = 6") n w <-> exists v oss vo, meant x_fsrc osss vos (items_of (x_ine "y = 5, x = 6")) n v oss vo /\ w = lower_variant xru (schema_v v oss vo)).
    { intros n w. apply (chosen_low xru xsy xsy_good (0, []) (fun _ => (0, [])) (fun _ v => inl v) x_fsrc osss vos [] EO TMeta d W R).
      - intros m oss vo X Y. assert (V : exists v, nth_error (se_variants x_fsrc) m = Some v).
        { clear - A X. revert m X. induction A; intros [|m] X; cbn in *; try discriminate; eauto. }
        destruct V as [v V]. destruct (C m v oss vo V X Y) as [P1 [P2 _]]. split; auto. intro T. now apply P2. }
    assert (ROW : forall n, nth_error [false; true; false; false; true] n = Some true -> exists v oss vo, meant x_fsrc osss vos (items_of (x_ine "y = 5, x = 6")) n v oss vo).
    { intros n N. rewrite <- QV, nth_error_map in N. destruct (nth_error (e_variants (x_lowe d)) n) as [w|] eqn:NW; [|discriminate N]. apply (f_equal (fun o => match o with Some b => b | None => false end)) in N.
      pose proof (chosen_ok (x_lowe d) (x_ine "y = 5, x = 6") n w NW N) as CH. apply CL in CH as [v [oss [vo [M _]]]]. eauto. }
    destruct (ROW 1 eq_refl) as [v [oss [vo M]]]. destruct (ROW 4 eq_refl) as [v' [oss' [vo' M']]]. exists v, oss, vo, v', oss', vo'. auto.
  - clear - Q. revert Q. generalize x_foutcomes. induction l as [|p l IH]; intro Q; constructor.
    + cbn [map] in Q. injection Q as <- _. exact (E_list (x_lowe d) Unnamed (x_ine (fst p))).
    + cbn [map] in Q. injection Q as _ Q. auto.
Qed.
