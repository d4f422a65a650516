(** A concrete enum for the example of C66. *)
From Verif Require Import LemWf LemSmall WfMore LemLocalD ExStruct LemOpts5.
From Verif Require Export LemSource4 ExSource.

Fixpoint distinctb (l : list string) : bool :=
  match l with [] => true | x :: r => negb (existsb (String.eqb x) r) && distinctb r end.
Lemma distinctb_ok l : distinctb l = true -> NoDup l.
Proof.
  induction l as [|x l IH]; cbn; [constructor|]. intro H. apply andb_true_iff in H as [A B]. constructor; auto. intro I.
  apply negb_true_iff in A. assert (X : existsb (String.eqb x) l = true) by (apply existsb_exists; exists x; split; [auto|apply String.eqb_refl]). congruence.
Qed.
Definition simple_h (h : svariant) : bool :=
  negb (b_true (h_flatten h)) && forallb simple_g (h_fields h) &&
  forallb (fun g => match g_transforms g with [] => true | _ => false end) (h_fields h) &&
  distinctb (map fst (flat_map g_idents (h_fields h))).
Definition nice_v (v : src_variant) (oss : list (list fopt)) (vo : list vopt) : Prop :=
  plain_v oss vo /\ typed_variant xru v oss vo /\ (sv_shape v = ShNamed -> transparent_v vo = false -> distinct_in v oss).
Lemma filled_names g : g_idents (filled g) = g_idents g /\ simple_g (filled g) = simple_g g /\ g_transforms (filled g) = g_transforms g.
Proof. rewrite filled_re. destruct (g_skip g) as [[[|] ?]|]; auto. destruct (g_default g); auto. Qed.
Lemma read_nice v : rmap simple_h (read_variant xsy v) = Ok true ->
  exists oss vo, Forall2 (fun f os => has_options (spells_f xsy) (sf_attrs f) os) (sv_fields v) oss /\ has_options spells_v (sv_attrs v) vo /\ nice_v v oss vo.
Proof.
  intro H. apply use_ok in H as [h [R Q]]. apply (l_variant_ok xsy xsy_good) in R as [gs [vo [F [O [C [_ ->]]]]]].
  assert (X : exists oss, Forall2 (fun f os => has_options (spells_f xsy) (sf_attrs f) os) (sv_fields v) oss /\ gs = map (fun p => meaning_f (fst p) (snd p)) (combine (sv_fields v) oss) /\ length (sv_fields v) = length oss).
  { clear -F. induction F as [|f g l l' [os [A [B ->]]] F [oss [I1 [-> I2]]]]; [exists []; repeat split; constructor|]. exists (os :: oss). repeat split; auto. cbn. congruence. }
  destruct X as [oss [FO [-> LEN]]]. exists oss, vo. split; auto. split; auto.
  unfold simple_h in Q. cbn [meaning_v h_flatten h_fields] in Q. apply andb_true_iff in Q as [Q Q4]. apply andb_true_iff in Q as [Q Q3]. apply andb_true_iff in Q as [Q1 Q2].
  rewrite (once_first v oss LEN) in Q1 by apply C. apply negb_true_iff in Q1. rewrite map_map, forallb_forall in Q2. rewrite map_map, forallb_forall in Q3.
  assert (IN : forall os, In os oss -> exists f, In (f, os) (combine (sv_fields v) oss)).
  { intros os I. apply In_nth_error in I as [n N]. assert (L : n < length (sv_fields v)) by (rewrite LEN; apply nth_error_Some; congruence).
    destruct (nth_error (sv_fields v) n) as [f|] eqn:A; [|apply nth_error_None in A; lia]. exists f. apply (nth_error_In _ n). now apply (nth_ps _ _ LEN). }
  split; [split; [exact Q1|split]|split].
  - apply Forall_forall. intros os I. destruct (IN os I) as [f J]. assert (S : simple_g (filled (meaning_f f os)) = true) by (apply Q2; apply in_map_iff; exists (f, os); auto).
    rewrite (proj1 (proj2 (filled_names _))) in S. unfold simple_g in S. cbn [meaning_f g_flatten g_append g_rest] in S.
    apply plain_none; [destruct (flattens os)|destruct (flattens os); [|discriminate S]; destruct (appends os)|destruct (flattens os); [|discriminate S]; destruct (appends os); [|discriminate S]; destruct (rests os)]; auto; discriminate S.
  - intros _ os e I J. destruct (IN os I) as [f K]. assert (S : match g_transforms (filled (meaning_f f os)) with [] => true | _ => false end = true) by (apply Q3; apply in_map_iff; exists (f, os); auto).
    rewrite (proj2 (proj2 (filled_names _))) in S. cbn [meaning_f g_transforms] in S. assert (Z : In (SAndThen e) (transforms os)) by (apply in_flat_map; exists (OAndThen e); split; [auto|now left]).
    destruct (transforms os); [destruct Z|discriminate S].
  - unfold typed_variant. clear -FO. induction FO; constructor; auto. unfold impl_in. split; [|intros; apply fine_impl]. destruct (transparent_v vo); apply fine_impl || apply fine_i32.
  - intros _ _. unfold distinct_in. apply distinctb_ok. rewrite map_map in Q4. rewrite flat_map_concat_map, map_map in Q4.
    rewrite (map_ext _ (fun p => names_f (fst p) (snd p))) in Q4 by (intros [f os]; apply (filled_names (meaning_f f os))). rewrite <- flat_map_concat_map in Q4. exact Q4.
Qed.
Lemma read_all_nice vs : Forall (fun v => rmap simple_h (read_variant xsy v) = Ok true) vs ->
  exists osss vos, Forall2 (fun v oss => Forall2 (fun f os => has_options (spells_f xsy) (sf_attrs f) os) (sv_fields v) oss) vs osss /\
    Forall2 (fun v vo => has_options spells_v (sv_attrs v) vo) vs vos /\
    forall n v oss vo, nth_error vs n = Some v -> nth_error osss n = Some oss -> nth_error vos n = Some vo -> nice_v v oss vo.
Proof.
  induction 1 as [|v vs H F [osss [vos [A [B C]]]]]; [exists [], []; split; [constructor|split; [constructor|intros [|n] ? ? ? X; discriminate X]]|].
  destruct (read_nice v H) as [oss [vo [D [E G]]]]. exists (oss :: osss), (vo :: vos). split; [constructor; auto|]. split; [constructor; auto|].
  intros [|n] v' oss' vo' X Y Z; cbn in *; [|eapply C; eauto]. congruence.
Qed.

(** enum { A, #[deluxe(rename = b)] B(_, #[deluxe(default = 1)] _),
           N { #[deluxe(alias = u)] s, #[deluxe(skip)] t }, #[deluxe(transparent)] TwoWords(_) } *)
Definition x_esrc : src_enum :=
  mkSrcEnum [sv "A" ShUnit [] ""; sv "B" ShUnnamed [tf ""; tf "default = 1"] "rename = b";
             sv "N" ShNamed [nf "s" "alias = u"; nf "t" "skip"] "";
             sv "TwoWords" ShUnnamed [tf ""] "transparent"] [].
Definition x_lowe (d : senum) : edef val := lower_enum xru (0, []) (fun _ => (0, [])) (fun _ v => inl v) d.
Definition x_ine (t : string) : list stream := [root_stream (tk t)].
Definition x_outcomes : list (string * res (evalue val)) :=
  [("a", Ok (0, [])); ("b(5)", Ok (1, [VI 5; VI 1])); ("b = (5, 6)", Ok (1, [VI 5; VI 6]));
   ("n(u = 3)", Ok (2, [VI 3; VI 0])); ("n = {s = 4}", Ok (2, [VI 4; VI 0])); ("two_words = 7", Ok (3, [VI 7]))].
Lemma x_esrc_ok : exists d osss vos,
  good_syn_lib xsy /\ good_rust xru /\ written_enum x_esrc /\ derived_enum xsy (@TMeta val) x_esrc d /\
  enum_options xsy x_esrc osss vos [] /\ plain_enum xru x_esrc osss vos /\
  Forall (fun p => enum_run (x_lowe d) TMeta "" true (to_full_span Unnamed (x_ine (fst p))) (x_ine (fst p)) (snd p)) x_outcomes.
Proof.
  destruct (use_ok (derive_meta_enum xsy x_esrc)
    (fun d => map (fun p => fst (d_inline (enum_dict (x_lowe d)) Unnamed (x_ine (fst p)))) x_outcomes) (map snd x_outcomes)) as [d [R Q]]; [vm_compute; reflexivity|].
  destruct (read_all_nice (se_variants x_esrc)) as [osss [vos [A [B C]]]]; [repeat constructor; vm_compute; reflexivity|].
  exists d, osss, vos. split; [exact xsy_good|]. split; [exact xru_good|]. split; [repeat constructor; discriminate|]. split; [exact R|].
  split; [split; [exact A|split; [exact B|apply no_options]]|]. split; [exact C|].
  clear - Q. revert Q. generalize x_outcomes. induction l as [|p l IH]; intro Q; constructor.
  - cbn [map] in Q. injection Q as <- _. exact (E_list (x_lowe d) Unnamed (x_ine (fst p))).
  - cbn [map] in Q. injection Q as _ Q. auto.
Qed.
