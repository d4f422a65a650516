(** Proofs for PropsHeader.v. *)
From Coq Require FinFun.
From Verif Require Export SpecHeader.

Lemma mem_str_In : forall x l, mem_str x l = true <-> In x l.
Proof.
  intros x l. unfold mem_str. rewrite existsb_exists. split.
  - intros [y [I E]]. apply String.eqb_eq in E. now subst.
  - intros I. exists x. split; [exact I|apply String.eqb_refl].
Qed.

Lemma app_length : forall a b : string, String.length (a ++ b)%string = String.length a + String.length b.
Proof. induction a as [|c a IH]; intros b; cbn; [reflexivity|]. now rewrite IH. Qed.
Lemma marked_length : forall base k, String.length (marked base k) = String.length base + k.
Proof.
  intros base. induction k as [|k IH]; cbn; [lia|]. rewrite app_length, IH. cbn. lia.
Qed.
Lemma marked_inj : forall base j k, marked base j = marked base k -> j = k.
Proof.
  intros base j k E. apply (f_equal String.length) in E. rewrite !marked_length in E. lia.
Qed.

Lemma fresh_from : forall used base fuel k,
  (forall j, j < k -> In (marked base j) used) -> k + fuel = length used ->
  exists n, fresh_loop fuel used (marked base k) = Ok n /\ first_free used base n.
Proof.
  intros used base. induction fuel as [|fuel IH]; intros k B L; cbn [fresh_loop].
  - destruct (mem_str (marked base k) used) eqn:M.
    + exfalso. apply mem_str_In in M.
      assert (C : incl (map (marked base) (seq 0 (S k))) used).
      { intros x I. apply in_map_iff in I as [j [<- I]]. apply in_seq in I.
        destruct (Nat.eq_dec j k) as [->|N]; [exact M|]. apply B. lia. }
      apply NoDup_incl_length in C.
      * rewrite map_length, seq_length in C. lia.
      * apply FinFun.Injective_map_NoDup; [|apply seq_NoDup]. intros a b. apply marked_inj.
    + exists (marked base k). split; [reflexivity|]. exists k. split; [reflexivity|]. split; [|exact B].
      rewrite <- mem_str_In, M. discriminate.
  - destruct (mem_str (marked base k) used) eqn:M.
    + apply mem_str_In in M. change (marked base k ++ "_")%string with (marked base (S k)).
      apply IH; [|lia]. intros j J. destruct (Nat.eq_dec j k) as [->|N]; [exact M|]. apply B. lia.
    + exists (marked base k). split; [reflexivity|]. exists k. split; [reflexivity|]. split; [|exact B].
      rewrite <- mem_str_In, M. discriminate.
Qed.
Lemma fresh_ok : forall used base, exists n, fresh_name used base = Ok n /\ first_free used base n.
Proof.
  intros used base. apply (fresh_from used base (length used) 0); [|reflexivity].
  intros j J. lia.
Qed.

Lemma type_params_In : forall l n, In n (type_params l) <-> In (PType n) l.
Proof.
  intros l n. unfold type_params. rewrite in_flat_map. split.
  - intros [p [I P]]. destruct p; cbn in P; try contradiction. destruct P as [<-|[]]. exact I.
  - intros I. exists (PType n). split; [exact I|]. now left.
Qed.
Lemma lifetimes_In : forall l n, In n (lifetimes l) <-> In (PLife n) l.
Proof.
  intros l n. unfold lifetimes. rewrite in_flat_map. split.
  - intros [p [I P]]. destruct p; cbn in P; try contradiction. destruct P as [<-|[]]. exact I.
  - intros I. exists (PLife n). split; [exact I|]. now left.
Qed.

Lemma rev_last : forall {A} (l : list A) x tl, rev l = x :: tl -> l = rev tl ++ [x].
Proof. intros A l x tl E. rewrite <- (rev_involutive l), E. reflexivity. Qed.

Lemma option_inner_some : forall t u, option_inner t = Some u <-> is_option_of t u.
Proof.
  intros t u. split.
  - unfold option_inner. destruct t as [q l segs| |]; try discriminate. destruct q; [discriminate|].
    destruct (rev segs) as [|[i a] tl] eqn:R; [discriminate|].
    destruct a as [|l0|]; try discriminate. destruct l0 as [|x [|]]; try discriminate; destruct x; try discriminate.
    destruct (String.eqb i "Option") eqn:E; [|discriminate]. intros X. inversion X; subst.
    apply String.eqb_eq in E. subst i. exists l, (rev tl). now rewrite (rev_last _ _ _ R).
  - intros [l [pre ->]]. unfold option_inner. rewrite rev_app_distr. cbn. reflexivity.
Qed.
Lemma option_inner_none : forall t, option_inner t = None <-> forall u, ~ is_option_of t u.
Proof.
  intros t. split.
  - intros N u I. apply option_inner_some in I. congruence.
  - intros H. destruct (option_inner t) as [u|] eqn:E; [|reflexivity].
    apply option_inner_some in E. now apply H in E.
Qed.
Lemma first_lifetime_some : forall t x, first_lifetime t = Some x <-> leads_with t x.
Proof.
  intros t x. split.
  - unfold first_lifetime. destruct t as [q l segs| |]; try discriminate.
    destruct (rev segs) as [|[i a] tl] eqn:R; [discriminate|].
    destruct a as [|l0|]; try discriminate. destruct l0 as [|y rest]; try discriminate; destruct y; try discriminate.
    intros X. inversion X; subst. exists q, l, (rev tl), i, rest. now rewrite (rev_last _ _ _ R).
  - intros [q [l [pre [i [rest ->]]]]]. unfold first_lifetime. rewrite rev_app_distr. reflexivity.
Qed.
Lemma first_lifetime_none : forall t, first_lifetime t = None <-> forall x, ~ leads_with t x.
Proof.
  intros t. split.
  - intros N u I. apply first_lifetime_some in I. congruence.
  - intros H. destruct (first_lifetime t) as [u|] eqn:E; [|reflexivity].
    apply first_lifetime_some in E. now apply H in E.
Qed.
Lemma implied_ok : forall lt0 rl t, implied lt0 rl t (or_else (or_else lt0 rl) (first_lifetime t)).
Proof.
  intros lt0 rl t. destruct lt0 as [x|]; cbn; [now apply IM_given|].
  destruct rl as [x|]; cbn; [now apply IM_ref|].
  destruct (first_lifetime t) as [x|] eqn:E.
  - apply IM_type; auto. now apply first_lifetime_some.
  - apply IM_none; auto. now apply first_lifetime_none.
Qed.
Lemma implied_unique : forall lt0 rl t a b, implied lt0 rl t a -> implied lt0 rl t b -> a = b.
Proof.
  intros lt0 rl t a b A B. pose proof (implied_ok lt0 rl t) as E.
  assert (U : forall c, implied lt0 rl t c -> c = or_else (or_else lt0 rl) (first_lifetime t)).
  { intros c C. inversion C as [x H|x H R|x H R L|H R L]; subst; cbn; try reflexivity.
    - symmetry. now apply first_lifetime_some.
    - symmetry. now apply first_lifetime_none. }
  now rewrite (U a A), (U b B).
Qed.

Lemma plain_param : forall ps t,
  match plain_ident t with Some i => mem_str i (type_params ps) | None => false end = true <-> is_param ps t.
Proof.
  intros ps t. split.
  - destruct (plain_ident t) as [i|] eqn:E; [|discriminate]. intros M.
    exists i. split; [|now apply type_params_In, mem_str_In].
    destruct t as [[|] [|] [|[j [| |]] [|]]| |]; cbn in E; try discriminate. now inversion E.
  - intros [i [-> I]]. cbn. now apply mem_str_In, type_params_In.
Qed.

(** the field's type, decomposed *)
Lemma guess_inside : forall ps fty lt0 ty0 ref rl t, inside fty ref rl t ->
  guess_container ps fty lt0 ty0 =
  mkGuess (or_else (or_else lt0 rl) (first_lifetime t)) ref
          (match ty0 with Some ty => ty | None => t end)
          (match ty0 with
           | Some _ => false
           | None => match plain_ident t with Some i => mem_str i (type_params ps) | None => false end
           end).
Proof.
  intros ps fty lt0 ty0 ref rl t I. unfold guess_container.
  assert (OL : forall o : option string, or_else o None = o) by (intros [x|]; reflexivity).
  inversion I as [t0 N R|lt m t0|t0 u O R|t0 lt m u O]; subst.
  - rewrite (proj2 (option_inner_none _) N). rewrite OL.
    destruct t as [q l segs|lt m e|ts]; [destruct ty0; reflexivity|exfalso; apply R; now exists lt, m, e|destruct ty0; reflexivity].
  - cbn [option_inner]. destruct ty0; reflexivity.
  - rewrite (proj2 (option_inner_some _ _) O). rewrite OL.
    destruct t as [q l segs|lt m e|ts]; [destruct ty0; reflexivity|exfalso; apply R; now exists lt, m, e|destruct ty0; reflexivity].
  - rewrite (proj2 (option_inner_some _ _) O). destruct ty0; reflexivity.
Qed.
Lemma inside_total : forall fty, exists ref rl t, inside fty ref rl t.
Proof.
  intros fty. destruct (option_inner fty) as [u|] eqn:O.
  - apply option_inner_some in O.
    destruct u as [q l segs|lt m e|ts]; [| |].
    + exists false, None, (SPath q l segs). apply I_some; [exact O|]. intros [a [b [c E]]]. discriminate E.
    + exists true, lt, e. now apply (I_some_ref _ lt m).
    + exists false, None, (SOther ts). apply I_some; [exact O|]. intros [a [b [c E]]]. discriminate E.
  - pose proof (proj1 (option_inner_none fty) O) as N.
    destruct fty as [q l segs|lt m e|ts].
    + exists false, None, (SPath q l segs). apply I_value; [exact N|]. intros [a [b [c E]]]. discriminate E.
    + exists true, lt, e. constructor.
    + exists false, None, (SOther ts). apply I_value; [exact N|]. intros [a [b [c E]]]. discriminate E.
Qed.

(** the lifetime step at the end *)
Lemma lifetime_step : forall m ps (w : list wpred) lt ty,
  exists h, match m, lt with
            | MParse, None => rmap (fun n => mkHeader (PLife n :: ps) w (Some n) ty) (fresh_name (lifetimes ps) "t")
            | _, _ => Ok (mkHeader ps w lt ty)
            end = Ok h /\
    hd_ty h = ty /\ hd_where h = w /\ with_lifetime m ps lt (hd_lifetime h) (hd_params h).
Proof.
  intros m ps w lt ty. destruct m, lt as [x|].
  - eexists. split; [reflexivity|]. repeat split. cbn. constructor.
  - destruct (fresh_ok (lifetimes ps) "t") as [n [E F]]. rewrite E. cbn [rmap].
    eexists. split; [reflexivity|]. repeat split. cbn. now apply WL_new.
  - eexists. split; [reflexivity|]. repeat split. cbn. constructor.
  - eexists. split; [reflexivity|]. repeat split. cbn. now apply WL_none.
Qed.

Lemma l_container : forall m g fty lt0 ty0 ref rl t lt, inside fty ref rl t -> implied lt0 rl t lt ->
  let ty := match ty0 with Some ty => ty | None => t end in
  exists h, make_header m g (Some (fty, lt0, ty0)) = Ok h /\ hd_ty h = ty /\
    with_lifetime m (gn_params g) lt (hd_lifetime h) (hd_params h) /\
    exists more, hd_where h = gn_where g ++ more /\
      (In (WClone ty) more <-> ref = false) /\
      (In (WAttrs ty) more <-> ty0 = None /\ is_param (gn_params g) t) /\
      (forall p, In p more -> p = WClone ty \/ p = WAttrs ty).
Proof.
  intros m g fty lt0 ty0 ref rl t lt I IM ty.
  rewrite (implied_unique _ _ _ _ _ IM (implied_ok lt0 rl t)).
  unfold make_header. rewrite (guess_inside (gn_params g) fty lt0 ty0 ref rl t I). cbn [gs_lifetime gs_ref gs_ty gs_generic rbind].
  fold ty. set (gen := match ty0 with Some _ => false | None => match plain_ident t with Some i => mem_str i (type_params (gn_params g)) | None => false end end).
  destruct (lifetime_step m (gn_params g)
              ((gn_where g ++ (if negb ref then [WClone ty] else [])) ++ (if gen then [WAttrs ty] else []))
              (or_else (or_else lt0 rl) (first_lifetime t)) ty) as [h [E [T [W L]]]].
  exists h. split; [exact E|]. split; [exact T|]. split; [exact L|].
  exists ((if negb ref then [WClone ty] else []) ++ (if gen then [WAttrs ty] else [])).
  split; [now rewrite W, app_assoc|].
  assert (G : gen = true <-> ty0 = None /\ is_param (gn_params g) t).
  { unfold gen. destruct ty0 as [y|]; [split; [discriminate|intros [X _]; discriminate X]|].
    rewrite (plain_param (gn_params g) t). tauto. }
  repeat split.
  - intros H. apply in_app_or in H as [H|H]; [destruct ref; [contradiction|reflexivity]|].
    destruct gen; [|contradiction]. destruct H as [H|[]]. discriminate H.
  - intros ->. now left.
  - apply in_app_or in H as [H|H].
    + destruct ref; cbn in H; [contradiction|]. destruct H as [H|[]]. discriminate H.
    + destruct gen eqn:GE; [|contradiction]. now apply G.
  - apply in_app_or in H as [H|H].
    + destruct ref; cbn in H; [contradiction|]. destruct H as [H|[]]. discriminate H.
    + destruct gen eqn:GE; [|contradiction]. now apply G.
  - intros H. apply G in H. rewrite H. apply in_or_app. right. now left.
  - intros p H. apply in_app_or in H as [H|H].
    + destruct ref; cbn in H; [contradiction|]. destruct H as [H|[]]. now left.
    + destruct gen; [|contradiction]. destruct H as [H|[]]. now right.
Qed.

Lemma l_inside : forall fty, (exists ref rl t, inside fty ref rl t) /\
  (forall ref rl t ref' rl' t', inside fty ref rl t -> inside fty ref' rl' t' -> ref = ref' /\ rl = rl' /\ t = t') /\
  (forall lt0 rl t, exists lt, implied lt0 rl t lt).
Proof.
  intros fty. split; [apply inside_total|]. split; [|intros; eexists; apply implied_ok].
  intros ref rl t ref' rl' t' A B.
  assert (OU : forall u u', is_option_of fty u -> is_option_of fty u' -> u = u').
  { intros u u' X Y. apply option_inner_some in X, Y. congruence. }
  assert (OR : forall lt m u v, fty = SRef lt m u -> ~ is_option_of fty v).
  { intros lt m u v -> [q [l E]]. discriminate E. }
  inversion A as [t0 N R|lt m t0|t0 u O R|t0 lt m u O]; subst;
  inversion B as [t1 N' R'|lt' m' t1|t1 u' O' R'|t1 lt' m' u' O']; subst; auto.
  all: first
    [ exfalso; apply R; now eexists; eexists; eexists
    | exfalso; apply R'; now eexists; eexists; eexists
    | exfalso; exact (N _ O')
    | exfalso; exact (N' _ O)
    | exfalso; exact (OR _ _ _ _ eq_refl O')
    | exfalso; exact (OR _ _ _ _ eq_refl O)
    | exfalso; apply R; rewrite (OU _ _ O O'); now eexists; eexists; eexists
    | exfalso; apply R'; rewrite (OU _ _ O' O); now eexists; eexists; eexists
    | pose proof (OU _ _ O O') as E; inversion E; auto ].
Qed.

Lemma l_no_container : forall m g, exists h n, make_header m g None = Ok h /\
  first_free (type_params (gn_params g)) "T" n /\
  hd_ty h = SPath false false [mkSeg n ANone] /\
  hd_where h = gn_where g ++ [WAttrs (hd_ty h)] /\
  with_lifetime m (PType n :: gn_params g) None (hd_lifetime h) (hd_params h).
Proof.
  intros m g. destruct (fresh_ok (type_params (gn_params g)) "T") as [n [E F]].
  unfold make_header. rewrite E. cbn [rmap rbind].
  destruct (lifetime_step m (PType n :: gn_params g) ((gn_where g ++ []) ++ [WAttrs (SPath false false [mkSeg n ANone])]) None
              (SPath false false [mkSeg n ANone])) as [h [EH [T [W L]]]].
  exists h, n. split; [exact EH|]. split; [exact F|]. split; [exact T|].
  split; [|exact L]. rewrite W, T, app_nil_r. reflexivity.
Qed.

(** parameters *)
Lemma with_lifetime_distinct : forall m ps lt lt' ps',
  with_lifetime m ps lt lt' ps' -> distinct_params ps -> distinct_params ps'.
Proof.
  intros m ps lt lt' ps' W D. inversion W as [x|M|n M F]; subst; try exact D.
  destruct F as [k [_ [N _]]]. constructor; [|exact D].
  intros I. apply in_map_iff in I as [p [E I]]. destruct p as [a|a|a]; cbn in E; inversion E; subst.
  apply N. now apply lifetimes_In.
Qed.
Lemma with_lifetime_incl : forall m ps lt lt' ps', with_lifetime m ps lt lt' ps' -> incl ps ps'.
Proof.
  intros m ps lt lt' ps' W. inversion W; subst; try apply incl_refl. now apply incl_tl, incl_refl.
Qed.

Lemma l_distinct : forall m g cont h, distinct_params (gn_params g) ->
  (forall k, ~ In (PConst (marked "T" k)) (gn_params g)) ->
  make_header m g cont = Ok h -> distinct_params (hd_params h) /\ incl (gn_params g) (hd_params h).
Proof.
  intros m g cont h D NC E. destruct cont as [[[fty lt0] ty0]|].
  - destruct (inside_total fty) as [ref [rl [t I]]].
    destruct (l_container m g fty lt0 ty0 ref rl t _ I (implied_ok lt0 rl t)) as [h' [E' [_ [W _]]]].
    rewrite E in E'. inversion E'; subst h'. split; [exact (with_lifetime_distinct _ _ _ _ _ W D)|exact (with_lifetime_incl _ _ _ _ _ W)].
  - destruct (l_no_container m g) as [h' [n [E' [F [_ [_ W]]]]]].
    rewrite E in E'. inversion E'; subst h'. split.
    + apply (with_lifetime_distinct _ _ _ _ _ W). destruct F as [k [-> [N _]]].
      constructor; [|exact D]. intros I. apply in_map_iff in I as [p [X I]].
      destruct p as [a|a|a]; cbn in X; inversion X; subst.
      * apply N. now apply type_params_In.
      * exact (NC _ I).
    + eapply incl_tran; [|exact (with_lifetime_incl _ _ _ _ _ W)]. apply incl_tl, incl_refl.
Qed.

Lemma l_distinct_refuted : exists m g h, distinct_params (gn_params g) /\
  make_header m g None = Ok h /\ ~ distinct_params (hd_params h).
Proof.
  exists MExtract, (mkGen [PConst "T"] []).
  eexists. split; [repeat constructor; intros []|]. split; [vm_compute; reflexivity|].
  intros D. inversion D as [|x l N _]; subst. apply N. now left.
Qed.

Lemma l_scoped : forall m g cont h, make_header m g cont = Ok h ->
  (forall fty lt0 ty0 ref rl t x, cont = Some (fty, lt0, ty0) -> inside fty ref rl t ->
     lt0 = Some x \/ rl = Some x \/ leads_with t x -> declared (gn_params g) x) ->
  (forall x, hd_lifetime h = Some x -> declared (hd_params h) x) /\
  (m = MParse -> hd_lifetime h <> None) /\
  (cont = None -> is_param (hd_params h) (hd_ty h)).
Proof.
  intros m g cont h E H.
  assert (P : forall ps lt lt' ps', with_lifetime m ps lt lt' ps' ->
     (forall x, lt = Some x -> declared ps x) ->
     (forall x, lt' = Some x -> declared ps' x) /\ (m = MParse -> lt' <> None)).
  { intros ps lt lt' ps' W K. inversion W as [x|M|n M F]; subst.
    - split; [exact K|discriminate].
    - split; [intros x X; discriminate X|discriminate].
    - split; [|discriminate]. intros x X. inversion X; subst. right. now left. }
  destruct cont as [[[fty lt0] ty0]|].
  - destruct (inside_total fty) as [ref [rl [t I]]].
    destruct (l_container m g fty lt0 ty0 ref rl t _ I (implied_ok lt0 rl t)) as [h' [E' [_ [W _]]]].
    rewrite E in E'. inversion E'; subst h'.
    destruct (P _ _ _ _ W) as [A B]; [|split; [exact A|split; [exact B|discriminate]]].
    intros x X. apply (H fty lt0 ty0 ref rl t x eq_refl I).
    pose proof (implied_ok lt0 rl t) as IM. rewrite X in IM. inversion IM; subst; auto.
  - destruct (l_no_container m g) as [h' [n [E' [F [T [_ W]]]]]].
    rewrite E in E'. inversion E'; subst h'.
    destruct (P _ _ _ _ W) as [A B]; [intros x X; discriminate X|].
    split; [exact A|]. split; [exact B|]. intros _. exists n. split; [exact T|].
    apply (with_lifetime_incl _ _ _ _ _ W). now left.
Qed.

Lemma l_bound_refuted : exists m g fty lt0 ty0 h,
  make_header m g (Some (fty, lt0, ty0)) = Ok h /\
  is_param (gn_params g) (hd_ty h) /\ ~ In (WAttrs (hd_ty h)) (hd_where h).
Proof.
  exists MExtract, (mkGen [PType "T"] []), (SPath false false [mkSeg "Held" (AAngle [GTy (SPath false false [mkSeg "T" ANone])])]), None, (Some (SPath false false [mkSeg "T" ANone])).
  eexists. split; [vm_compute; reflexivity|]. split.
  - exists "T". split; [reflexivity|now left].
  - cbn. intros [X|[]]. discriminate X.
Qed.

Lemma l_fill : forall A m h (obj : A), (m = MExtract \/ (h <> HMut /\ h <> HSomeMut)) ->
  exists st, container_from m h obj = Ok st /\ fills h obj st.
Proof.
  intros A m h obj H. destruct h, m; cbn; try (eexists; split; [reflexivity|constructor]);
  exfalso; destruct H as [H|[H1 H2]]; congruence.
Qed.
Lemma l_fill_refuted : exists m h (obj : nat), container_from m h obj = Bad Panic.
Proof. now exists MParse, HMut, 0. Qed.

(** *** From the fields *)
Lemma first_container_says : forall ty_of fs f c, first_says fs f c ->
  first_container ty_of fs = Some (ty_of (sf_ty (g_src f)), fc_lifetime c, option_map ty_of (fc_ty c)).
Proof.
  intros ty_of fs f c [pre [post [-> [F N]]]]. induction pre as [|x pre IH]; cbn.
  - unfold field_container. now rewrite F.
  - unfold field_container. rewrite (N x (or_introl eq_refl)). cbn. apply IH. intros y I. apply N. now right.
Qed.
Lemma first_container_none : forall ty_of fs, none_says fs -> first_container ty_of fs = None.
Proof.
  intros ty_of fs. induction fs as [|x fs IH]; intros N; cbn; [reflexivity|].
  unfold field_container. rewrite (N x (or_introl eq_refl)). cbn. apply IH. intros y I. apply N. now right.
Qed.
Lemma first_container_cases : forall fs, none_says fs \/ exists f c, first_says fs f c.
Proof.
  induction fs as [|x fs IH].
  - left. intros f [].
  - destruct (g_container x) as [c|] eqn:G.
    + right. exists x, c, [], fs. repeat split; [exact G|]. intros y [].
    + destruct IH as [N|[f [c [pre [post [-> [F N]]]]]]].
      * left. intros f [<-|I]; auto.
      * right. exists f, c, (x :: pre), post. repeat split; [exact F|]. intros y [<-|I]; auto.
Qed.

Lemma l_says : forall ty_of m g f c,
  let cont := Some (ty_of (sf_ty (g_src f)), fc_lifetime c, option_map ty_of (fc_ty c)) in
  exists h, make_header m g cont = Ok h /\ header_holding ty_of m g (ty_of (sf_ty (g_src f))) c h.
Proof.
  intros ty_of m g f c cont. destruct (inside_total (ty_of (sf_ty (g_src f)))) as [ref [rl [t I]]].
  destruct (l_container m g _ (fc_lifetime c) (option_map ty_of (fc_ty c)) ref rl t _ I (implied_ok _ rl t))
    as [h [E [T [W [more [H1 [H2 [H3 H4]]]]]]]].
  exists h. split; [exact E|]. exists ref, rl, t. eexists. split; [exact I|]. split; [apply implied_ok|].
  destruct (fc_ty c) as [ts|]; cbn [option_map] in *; (split; [exact T|]; split; [exact W|]; exists more; split; [exact H1|]; split; [exact H2|]; split; [|exact H4]).
  - rewrite H3. split; intros [X _]; discriminate X.
  - rewrite H3. tauto.
Qed.

Lemma l_struct_header : forall ty_of m g d,
  (forall f c, first_says (i_fields d) f c ->
     exists h, struct_header ty_of m g d = Ok h /\ header_holding ty_of m g (ty_of (sf_ty (g_src f))) c h) /\
  (none_says (i_fields d) -> exists h, struct_header ty_of m g d = Ok h /\ header_for_all m g h).
Proof.
  intros ty_of m g d. unfold struct_header. split.
  - intros f c F. rewrite (first_container_says ty_of _ _ _ F). apply l_says.
  - intros N. rewrite (first_container_none ty_of _ N). destruct (l_no_container m g) as [h [n [E H]]].
    exists h. split; [exact E|]. now exists n.
Qed.
Lemma l_enum_header : forall ty_of m g d, let fs := flat_map h_fields (j_variants d) in
  (forall f c, first_says fs f c ->
     exists h, enum_header ty_of m g d = Ok h /\ header_holding ty_of m g (ty_of (sf_ty (g_src f))) c h) /\
  (none_says fs -> exists h, enum_header ty_of m g d = Ok h /\ header_for_all m g h).
Proof.
  intros ty_of m g d fs. unfold enum_header. fold fs. split.
  - intros f c F. rewrite (first_container_says ty_of _ _ _ F). apply l_says.
  - intros N. rewrite (first_container_none ty_of _ N). destruct (l_no_container m g) as [h [n [E H]]].
    exists h. split; [exact E|]. now exists n.
Qed.

Lemma impl_header_make : forall ty_of m g fs h, impl_header ty_of m g fs h ->
  make_header m g (first_container ty_of fs) = Ok h.
Proof. intros ty_of m g fs h [[d [-> E]]|[d [-> E]]]; exact E. Qed.
Lemma l_header_params : forall ty_of m g fs h,
  impl_header ty_of m g fs h ->
  distinct_params (gn_params g) -> (forall k, ~ In (PConst (marked "T" k)) (gn_params g)) ->
  distinct_params (hd_params h) /\ incl (gn_params g) (hd_params h).
Proof. intros ty_of m g fs h E D N. exact (l_distinct m g _ h D N (impl_header_make _ _ _ _ _ E)). Qed.
Lemma l_header_params_refuted : forall ty_of d, none_says (i_fields d) ->
  exists m g h, distinct_params (gn_params g) /\ struct_header ty_of m g d = Ok h /\ ~ distinct_params (hd_params h).
Proof.
  intros ty_of d N. unfold struct_header. rewrite (first_container_none ty_of _ N). exact l_distinct_refuted.
Qed.

Lemma l_header_scoped : forall ty_of m g fs h,
  impl_header ty_of m g fs h ->
  (forall f c, first_says fs f c -> names_declared (ty_of (sf_ty (g_src f))) c g) ->
  (forall x, hd_lifetime h = Some x -> declared (hd_params h) x) /\
  (m = MParse -> hd_lifetime h <> None) /\
  (none_says fs -> is_param (hd_params h) (hd_ty h)).
Proof.
  intros ty_of m g fs h E H. apply impl_header_make in E.
  destruct (first_container_cases fs) as [N|[f [c F]]].
  - rewrite (first_container_none ty_of _ N) in E.
    destruct (l_scoped m g None h E) as [A [B C]].
    + intros fty lt0 ty0 ref rl t x X. discriminate X.
    + split; [exact A|]. split; [exact B|]. intros _. now apply C.
  - rewrite (first_container_says ty_of _ _ _ F) in E.
    destruct (l_scoped m g _ h E) as [A [B _]].
    + intros fty lt0 ty0 ref rl t x X I O. inversion X; subst. exact (H f c F ref rl t x I O).
    + split; [exact A|]. split; [exact B|]. intros N. exfalso.
      destruct F as [pre [post [P [G _]]]]. rewrite (N f) in G; [discriminate G|]. rewrite P. apply in_or_app. right. now left.
Qed.
