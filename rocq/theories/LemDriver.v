(** Proofs for PropsDriver.v. *)
From Verif Require Import LemSchema6.
From Verif Require Export SpecDriver.

Section L.
Context {env : Env}.
Variables (sy : synlib) (look : found).

Lemma known_path : forall p es q es', get_crate_path look (Some p) es = (Some q, es') ->
  es' = es /\ crate_known look p q.
Proof.
  intros p es q es'. unfold get_crate_path, crate_path. destruct p as [x|].
  - intros E. inversion E; subst. split; [reflexivity|constructor].
  - destruct look as [n| |m] eqn:L; intros E; inversion E; subst; split; try reflexivity; now constructor.
Qed.
Lemma known_path_conv : forall p es q, crate_known look p q -> get_crate_path look (Some p) es = (Some q, es).
Proof. intros p es q K. inversion K; subst; cbn; try rewrite H; reflexivity. Qed.
Lemma no_path : forall p es es', get_crate_path look (Some p) es = (None, es') ->
  p = None /\ exists m, look = FMissing m /\ es' = es ++ [mkErr SCall m].
Proof.
  intros p es es'. unfold get_crate_path, crate_path. destruct p as [x|]; [discriminate|].
  destruct look as [n| |m] eqn:L; intros E; inversion E; subst. split; [reflexivity|]. now exists m.
Qed.

(** a readable item *)
Lemma impl_for_ok : forall A (d : A) crate gen,
  impl_for look (Ok d) crate gen [] =
  match get_crate_path look (Some (crate d)) [] with
  | (None, es2) => Ok (None, es2)
  | (Some q, es2) => rmap (fun x => (Some (q, fst x), snd x)) (gen d es2)
  end.
Proof. intros. unfold impl_for. cbn [push_result]. destruct (get_crate_path look (Some (crate d)) []) as [[q|] es2]; reflexivity. Qed.
(** an item that cannot be read *)
Lemma impl_for_err : forall A (e : synerr) (crate : A -> option path) gen,
  exists im, impl_for look (Err e) crate gen [] = Ok (im, errs_of e) /\
  (im = None \/ exists q, im = Some (q, GUnreachable)).
Proof.
  intros. unfold impl_for. cbn [push_result push_syn app]. unfold get_crate_path, crate_path.
  destruct look; eexists; (split; [reflexivity|]); eauto.
Qed.

Lemma check_ok : forall es, check es = Ok tt <-> es = [].
Proof. intros [|e l]; cbn; split; try reflexivity; discriminate. Qed.

(** C70: no errors exactly for accepted items *)
Lemma l_clean : forall k i im, 
  derive sy look k (Ok i) = Ok (im, []) <->
  exists c p q, im = Some (q, c) /\ accepted sy k i c p /\ crate_known look p q.
Proof.
  intros k i im. split.
  - cbn [derive]. destruct i as [s|e|sp]; cbn [impl_derive].
    + destruct (read_struct sy s) as [d|e|b] eqn:R.
      * rewrite impl_for_ok. destruct (get_crate_path look (Some (i_crate d)) []) as [[q|] es2] eqn:P.
        -- destruct (known_path _ _ _ _ P) as [-> K]. unfold struct_code.
           destruct k; cbv zeta; (destruct (gen_struct _) as [u|e|b] eqn:G; cbn [rmap]; try discriminate); intros X; inversion X; subst; cbn [fst snd].
           ++ exists (GStruct (fill_struct d)), (i_crate d), q. split; [reflexivity|]. split; [|exact K].
              change (i_crate d) with (i_crate (fill_struct d)). apply AC_meta_struct. unfold derive_meta_struct. rewrite R. cbn [rbind]. cbv zeta. rewrite G. reflexivity.
           ++ exists (GStruct d), (i_crate d), q. split; [reflexivity|]. split; [|exact K].
              apply AC_attr_struct; [discriminate|]. unfold derive_attr_struct. rewrite R. cbn [rbind]. rewrite G. reflexivity.
           ++ exists (GStruct d), (i_crate d), q. split; [reflexivity|]. split; [|exact K].
              apply AC_attr_struct; [discriminate|]. unfold derive_attr_struct. rewrite R. cbn [rbind]. rewrite G. reflexivity.
        -- destruct (no_path _ _ _ P) as [_ [m [_ ->]]]. discriminate.
      * destruct (impl_for_err _ e i_crate (struct_code k)) as [im' [E _]]. rewrite E. intros X. inversion X as [[A B]].
      * discriminate.
    + destruct (read_enum sy e) as [d|x|b] eqn:R.
      * rewrite impl_for_ok. destruct (get_crate_path look (Some (j_crate d)) []) as [[q|] es2] eqn:P.
        -- destruct (known_path _ _ _ _ P) as [-> K]. unfold enum_code.
           destruct k; cbv zeta; (destruct (gen_variants _) as [u|x|b] eqn:G; cbn [rmap]; try discriminate); cbn [fst snd app]; intros X; injection X; [intros B A|intros A|intros A]; subst im.
           ++ exists (GEnum d), (j_crate d), q. split; [reflexivity|]. split; [|exact K].
              apply AC_meta_enum. unfold derive_meta_enum. rewrite R. cbn [rbind]. rewrite G. cbn [rbind].
              rewrite B. reflexivity.
           ++ exists (GEnum d), (j_crate d), q. split; [reflexivity|]. split; [|exact K].
              apply AC_attr_enum; [discriminate|]. unfold derive_attr_enum. rewrite R. cbn [rbind]. rewrite G. reflexivity.
           ++ exists (GEnum d), (j_crate d), q. split; [reflexivity|]. split; [|exact K].
              apply AC_attr_enum; [discriminate|]. unfold derive_attr_enum. rewrite R. cbn [rbind]. rewrite G. reflexivity.
        -- destruct (no_path _ _ _ P) as [_ [m [_ ->]]]. discriminate.
      * destruct (impl_for_err _ x j_crate (enum_code k)) as [im' [E _]]. rewrite E. intros X. inversion X as [[A B]].
      * discriminate.
    + discriminate.
  - intros [c [p [q [-> [A K]]]]]. cbn [derive]. inversion A as [s d D|e d D|k' s d N D|k' e d N D]; subst; cbn [impl_derive].
    + unfold derive_meta_struct in D. destruct (read_struct sy s) as [d0|x|b]; try discriminate D. cbn [rbind] in D. cbv zeta in D.
      destruct (gen_struct (fill_struct d0)) as [u|x|b] eqn:G; try discriminate D. cbn [rmap] in D. inversion D; subst d.
      rewrite impl_for_ok. cbn [i_crate fill_struct] in K. rewrite (known_path_conv _ [] _ K). unfold struct_code. cbv zeta. rewrite G. reflexivity.
    + unfold derive_meta_enum in D. destruct (read_enum sy e) as [d0|x|b]; try discriminate D. cbn [rbind] in D.
      destruct (gen_variants (j_variants d0)) as [u|x|b] eqn:G; try discriminate D. cbn [rbind] in D.
      destruct (meta_container_check d0) eqn:C; cbn in D; [|discriminate D]. inversion D; subst d.
      rewrite impl_for_ok. rewrite (known_path_conv _ [] _ K). unfold enum_code. cbv zeta. rewrite G, C. reflexivity.
    + unfold derive_attr_struct in D. destruct (read_struct sy s) as [d0|x|b]; try discriminate D. cbn [rbind] in D.
      destruct (gen_struct d0) as [u|x|b] eqn:G; try discriminate D. cbn [rmap] in D. inversion D; subst d.
      rewrite impl_for_ok. rewrite (known_path_conv _ [] _ K). unfold struct_code. cbv zeta. destruct k; [congruence| |]; rewrite G; reflexivity.
    + unfold derive_attr_enum in D. destruct (read_enum sy e) as [d0|x|b]; try discriminate D. cbn [rbind] in D.
      destruct (gen_variants (j_variants d0)) as [u|x|b] eqn:G; try discriminate D. cbn [rmap] in D. inversion D; subst d.
      rewrite impl_for_ok. rewrite (known_path_conv _ [] _ K). unfold enum_code. cbv zeta. destruct k; [congruence| |]; rewrite G; reflexivity.
Qed.

(** what is reported otherwise *)
Lemma l_reported : forall k input im es, derive sy look k input = Ok (im, es) ->
  (forall e, input = Err e -> im = None /\ es = errs_of e) /\
  (forall s e, input = Ok (DStruct s) -> read_struct sy s = Err e -> es = errs_of e) /\
  (forall s e, input = Ok (DEnum s) -> read_enum sy s = Err e -> es = errs_of e) /\
  (forall sp, input = Ok (DUnion sp) -> im = None /\ es = [mkErr sp (union_message k)]) /\
  (forall q, im = None \/ im = Some (q, GUnreachable) -> es <> []).
Proof.
  intros k input im es D. split; [|split; [|split; [|split]]].
  - intros e ->. cbn in D. inversion D; subst. auto.
  - intros s e -> R. cbn in D. rewrite R in D. destruct (impl_for_err _ e i_crate (struct_code k)) as [im' [E _]].
    rewrite E in D. now inversion D.
  - intros s e -> R. cbn in D. rewrite R in D. destruct (impl_for_err _ e j_crate (enum_code k)) as [im' [E _]].
    rewrite E in D. now inversion D.
  - intros sp ->. cbn in D. inversion D; subst. split; [reflexivity|now destruct k].
  - intros q H ->. destruct input as [i|e|b]; [|cbn in D; inversion D|discriminate D].
    apply l_clean in D as [c [p [q' [-> [A _]]]]]. destruct H as [H|H]; inversion H; subst. inversion A.
Qed.

(** the whole output *)
Lemma gen_variants_no_err : forall vs e, gen_variants vs <> Err e.
Proof.
  induction vs as [|v vs IH]; intros e G; cbn [gen_variants] in G; [discriminate G|].
  destruct (gen_variant v) as [[]|y|b] eqn:GV; cbn [rbind] in G; [exact (IH _ G)| |discriminate G].
  unfold gen_variant, gen_fields in GV. repeat (destruct (sv_true _) in GV || destruct (sv_shape _) in GV || destruct (forallb _ _) in GV || destruct (b_true _) in GV || destruct (find _ _) in GV; cbn [rbind] in GV); discriminate GV.
Qed.
Lemma impl_for_err_eq : forall A (e : synerr) (crate : A -> option path) gen,
  impl_for look (Err e) crate gen [] =
  Ok (match look with
      | FName n => Some (mkPath true [n] SCall, GUnreachable)
      | FItself => Some (mkPath true ["deluxe"] SCall, GUnreachable)
      | FMissing _ => None end, errs_of e).
Proof. intros. unfold impl_for, get_crate_path, crate_path. cbn [push_result push_syn app]. destruct look; reflexivity. Qed.

Lemma l_emits : forall k input im es,
  derive sy look k input = Ok (im, es) <-> emits sy look k input im es.
Proof.
  intros k input im es. split.
  - intros D. destruct es as [|e0 es0] eqn:ES.
    + destruct input as [i|e|b]; [|cbn in D; inversion D|discriminate D].
      apply l_clean in D as [c [p [q [-> [A K]]]]]. now apply (EM_impl _ _ _ _ _ p).
    + rewrite <- ES in *. assert (NE : es <> []) by congruence. clear ES e0 es0.
      destruct input as [[s|e|sp]|x|b]; cbn [derive impl_derive] in D.
      * destruct (read_struct sy s) as [d|x|b] eqn:R; [| |discriminate D].
        -- rewrite impl_for_ok in D. destruct (get_crate_path look (Some (i_crate d)) []) as [[q|] es2] eqn:P.
           ++ destruct (known_path _ _ _ _ P) as [-> K]. unfold struct_code in D. cbv zeta in D.
              destruct (gen_struct _) in D; cbn [rmap] in D; inversion D; subst. now contradiction NE.
           ++ destruct (no_path _ _ _ P) as [N [m [L ->]]]. inversion D; subst. apply EM_no_crate; [|reflexivity].
              rewrite <- N. now constructor.
        -- rewrite impl_for_err_eq in D. inversion D; subst. destruct look eqn:L; rewrite <- L in *.
           ++ apply EM_unreachable; [now constructor|now constructor].
           ++ apply EM_unreachable; [now constructor|now constructor].
           ++ eapply EM_nothing; [now constructor|exact L].
      * destruct (read_enum sy e) as [d|x|b] eqn:R; [| |discriminate D].
        -- rewrite impl_for_ok in D. destruct (get_crate_path look (Some (j_crate d)) []) as [[q|] es2] eqn:P.
           ++ destruct (known_path _ _ _ _ P) as [-> K]. unfold enum_code in D. cbv zeta in D.
              destruct (gen_variants (j_variants d)) as [u|y|b] eqn:G; cbn [rmap] in D; [|discriminate D|discriminate D].
              cbn [fst snd app] in D.
              destruct k; inversion D; subst; try (now contradiction NE).
              destruct (meta_container_check d) as [|c0 cs] eqn:C; [now contradiction NE|].
              change (c0 :: cs) with (errs_of (mkSyn c0 cs)). apply EM_container; [reflexivity|exact R|exact K|].
              unfold derive_meta_enum. rewrite R. cbn [rbind]. rewrite G. cbn [rbind]. rewrite C. reflexivity.
           ++ destruct (no_path _ _ _ P) as [N [m [L ->]]]. inversion D; subst. apply EM_no_crate; [|reflexivity].
              rewrite <- N. now constructor.
        -- rewrite impl_for_err_eq in D. inversion D; subst. destruct look eqn:L; rewrite <- L in *.
           ++ apply EM_unreachable; [now constructor|now constructor].
           ++ apply EM_unreachable; [now constructor|now constructor].
           ++ eapply EM_nothing; [now constructor|exact L].
      * inversion D; subst. replace (push [] sp _) with [mkErr sp (union_message k)] by (now destruct k). constructor.
      * inversion D; subst. constructor.
      * discriminate D.
  - intros E. destruct E as [i c p q A K|i m RD L|i e q U K|i e m U L|i d e q -> R K M|sp|e].
    + apply l_clean. exists c, p, q. auto.
    + cbn [derive]. inversion RD as [s d R I N|s d R I N]; rewrite <- I in *; cbn [impl_derive]; rewrite R, impl_for_ok, N; unfold get_crate_path, crate_path; rewrite L; reflexivity.
    + cbn [derive]. inversion U as [s x R I J|s x R I J]; rewrite <- I in *; cbn [impl_derive]; rewrite R, impl_for_err_eq; inversion K as [ |n L J2|L J2]; rewrite L; reflexivity.
    + cbn [derive]. inversion U as [s x R I J|s x R I J]; rewrite <- I in *; cbn [impl_derive]; rewrite R, impl_for_err_eq, L; reflexivity.
    + cbn [derive impl_derive]. rewrite R, impl_for_ok, (known_path_conv _ [] _ K). unfold enum_code. cbv zeta.
      unfold derive_meta_enum in M. rewrite R in M. cbn [rbind] in M.
      destruct (gen_variants (j_variants d)) as [u|y|b] eqn:G; cbn [rbind] in M; [|exfalso; exact (gen_variants_no_err _ _ G)|discriminate M].
      destruct (meta_container_check d) as [|c0 cs] eqn:C; cbn in M; [discriminate M|]. inversion M; subst. reflexivity.
    + cbn. destruct k; reflexivity.
    + reflexivity.
Qed.

(** and the macro does not panic *)
Lemma l_derive_returns : forall k i, good_syn_lib sy -> derivable sy i ->
  exists im es, derive sy look k (Ok i) = Ok (im, es).
Proof.
  intros k i SY W. cbn [derive]. destruct i as [s|e|sp]; cbn [impl_derive derivable] in *.
  - destruct (l_struct_front sy s SY W) as [M A]. unfold derive_meta_struct, derive_attr_struct in *.
    destruct (read_struct sy s) as [d|x|b]; cbn [rbind] in *; [| |contradiction].
    + rewrite impl_for_ok. destruct (get_crate_path look (Some (i_crate d)) []) as [[q|] es2]; [|eauto].
      unfold struct_code. cbv zeta in *. destruct k; cbv zeta.
      * destruct (gen_struct (fill_struct d)) as [u|x|b] eqn:G; cbn [rmap] in *; [eauto| |contradiction].
        exfalso. unfold gen_struct, gen_fields in G. repeat (destruct (i_shape _) in G || destruct (forallb _ _) in G || destruct (i_is_transparent _) in G || destruct (find _ _) in G; cbn [rbind] in G); discriminate G.
      * destruct (gen_struct d) as [u|x|b] eqn:G; cbn [rmap] in *; [eauto| |contradiction].
        exfalso. unfold gen_struct, gen_fields in G. repeat (destruct (i_shape _) in G || destruct (forallb _ _) in G || destruct (i_is_transparent _) in G || destruct (find _ _) in G; cbn [rbind] in G); discriminate G.
      * destruct (gen_struct d) as [u|x|b] eqn:G; cbn [rmap] in *; [eauto| |contradiction].
        exfalso. unfold gen_struct, gen_fields in G. repeat (destruct (i_shape _) in G || destruct (forallb _ _) in G || destruct (i_is_transparent _) in G || destruct (find _ _) in G; cbn [rbind] in G); discriminate G.
    + destruct (impl_for_err _ x i_crate (struct_code k)) as [im [E _]]. eauto.
  - destruct W as [W [SN NT]]. destruct (l_enum_front sy e SY W SN NT) as [_ A]. unfold derive_attr_enum in *.
    destruct (read_enum sy e) as [d|x|b]; cbn [rbind] in *; [| |contradiction].
    + rewrite impl_for_ok. destruct (get_crate_path look (Some (j_crate d)) []) as [[q|] es2]; [|eauto].
      unfold enum_code. cbv zeta. destruct (gen_variants (j_variants d)) as [u|x|b] eqn:G; cbn [rmap] in *; [eauto| |contradiction].
      exfalso. clear -G. induction (j_variants d) as [|v vs IH]; cbn [gen_variants] in G; [discriminate G|].
      destruct (gen_variant v) as [[]|y|b] eqn:GV; cbn [rbind] in G; [exact (IH G)| |discriminate G].
      unfold gen_variant, gen_fields in GV. repeat (destruct (sv_true _) in GV || destruct (sv_shape _) in GV || destruct (forallb _ _) in GV || destruct (b_true _) in GV || destruct (find _ _) in GV; cbn [rbind] in GV); discriminate GV.
    + destruct (impl_for_err _ x j_crate (enum_code k)) as [im [E _]]. eauto.
  - eauto.
Qed.
End L.
