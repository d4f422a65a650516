(** Sets and maps. *)
From Verif Require Export LemColl.

Section C.
Context {env : Env}.
Lemma ends_at x : mkStream (el_toks x ++ el_after x) (el_scope x) None = at_elem x.
Proof. reflexivity. Qed.
Lemma cut_rest {A} (p : parser A) x : stays p -> no_comma (el_toks x) -> ends (el_after x) ->
  exists rest, no_comma rest /\ toks (snd (p (at_elem x))) = rest ++ el_after x.
Proof.
  intros SP N E. destruct (stays_cut p (el_toks x) (el_after x) (el_scope x) None SP N E) as [rest [R [pre Q]]].
  exists rest. split; [rewrite Q in N; now apply nc_app in N|exact R].
Qed.
Lemma app_same (rest tl : list token) : rest ++ tl = tl -> rest = [].
Proof. intro H. apply (f_equal (@length token)) in H. rewrite app_length in H. destruct rest; auto. simpl in H. lia. Qed.
(** for a local parser, what happens on one element happens on its text *)
Lemma local_accepts {A} (p : parser A) x v : local p -> no_comma (el_toks x) -> ends (el_after x) ->
  fst (p (at_elem x)) = Ok v -> toks (snd (p (at_elem x))) = el_after x -> accepts p (el_toks x) v.
Proof.
  intros [_ L] N E H1 H2. destruct (L (el_toks x) N) as [[w [rest G]]|G].
  - destruct (G (el_after x) (el_scope x) None E) as [G1 G2]. rewrite ends_at in G1, G2.
    assert (w = v) by congruence. subst w. rewrite G2 in H2. apply app_same in H2. subst rest.
    intros tl sc c E2. apply (G tl sc c E2).
  - destruct (G (el_after x) (el_scope x) None E) as [e G1]. rewrite ends_at in G1. congruence.
Qed.
Lemma accepts_at {A} (p : parser A) x v : ends (el_after x) -> accepts p (el_toks x) v ->
  fst (p (at_elem x)) = Ok v /\ toks (snd (p (at_elem x))) = el_after x.
Proof. intros E H. exact (H (el_after x) (el_scope x) None E). Qed.

Section Set_.
Context {A : Type} (eqb : A -> A -> bool) (d : dict A).
Hypothesis F : fine d.
Local Notation p := (d_item d Unnamed).
Let SP : stays p := proj1 (fi_item d F Unnamed).
Lemma set_u : ustep (set_step eqb d).
Proof.
  intros st s s' E. unfold set_step. rewrite (fork_in_span _ _ E). step1 (ud_item d (fi_unaware d F) Unnamed _ _ E).
  destruct r; try (split; cbn [fst snd]; auto using fork_skip; fail).
  destruct (set_ins eqb a (fst st)). split; auto. cbn [fst]. now rewrite (fork_in_span _ _ EQ).
Qed.
Lemma set_st st : stays (set_step eqb d st).
Proof.
  intro s. unfold set_step. destruct (SP s) as [a [E N]]. destruct (p s) as [r s1]. cbn [snd] in *.
  destruct r as [v|e|b]; [destruct (set_ins eqb v (fst st)); exists a; auto| |exists a; auto].
  destruct (stays_skip s1) as [b [E2 N2]]. exists (a ++ b).
  split; [rewrite E at 1; rewrite E2 at 1; now rewrite app_assoc|apply nc_app; auto].
Qed.
Lemma set_kp st s : scope (snd (set_step eqb d st s)) = scope s.
Proof.
  unfold set_step. pose proof (fi_keeps d F Unnamed s) as K. destruct (p s) as [[v|e|b] s1]; auto.
  destruct (set_ins eqb v (fst st)). exact K.
Qed.
Lemma set_steps xs : (forall x, In x xs -> no_comma (el_toks x) /\ ends (el_after x)) ->
  Forall (clean p) xs -> forall seen es,
  steps (set_step eqb d) (seen, es) xs (once eqb seen (values p xs), es ++ set_errors eqb p seen xs).
Proof.
  intros W C. induction C as [|x xs H C IH]; intros seen es; cbn [set_errors].
  { rewrite app_nil_r. constructor. }
  destruct (W x (or_introl eq_refl)) as [N E]. specialize (IH (fun y I => W y (or_intror I))).
  unfold clean in H. pose proof (proj1 (gd_item d (fi_good d F) Unnamed (at_elem x))) as G.
  destruct (cut_rest p x SP N E) as [rest [NR R]].
  cbn [values flat_map]. fold (values p xs). destruct (p (at_elem x)) as [r s1] eqn:PX. cbn [fst snd] in *. destruct r as [v|e|b]; [| |destruct G].
  - cbn [app once]. specialize (H v eq_refl).
    assert (X : set_step eqb d (seen, es) (at_elem x) =
       (Ok (if existsb (eqb v) seen then seen else seen ++ [v],
            if existsb (eqb v) seen then es ++ [mkErr (span_upto x s1) "Duplicate key"] else es), s1)).
    { unfold set_step, set_ins. rewrite PX. cbn [fst snd]. destruct (existsb (eqb v) seen); reflexivity. }
    eapply St_more; [rewrite X; reflexivity|rewrite X; exact H|]. destruct (existsb (eqb v) seen).
    + specialize (IH seen (es ++ [mkErr (span_upto x s1) "Duplicate key"])). now rewrite <- app_assoc in IH.
    + apply IH.
  - cbn [app]. assert (X : set_step eqb d (seen, es) (at_elem x) = (Ok (seen, es ++ errs_of e), skip_item s1)).
    { unfold set_step. rewrite PX. reflexivity. }
    eapply St_more; [rewrite X; reflexivity|rewrite X; cbn [snd skip_item set_toks toks]; rewrite R; now apply skip_toks_app|].
    specialize (IH seen (es ++ errs_of e)). now rewrite <- app_assoc in IH.
Qed.
Lemma set_exact l : Forall (clean p) (elems l) ->
  fst (set_flat eqb d l) = outcome (set_errors eqb p [] (elems l)) (once eqb [] (values p (elems l))).
Proof.
  intro C. unfold set_flat. pose proof (set_steps (elems l) (fun x I => elem_of l x I) C [] []) as H.
  exact (finish_steps (set_step eqb d) l _ set_u set_st set_kp H).
Qed.
Lemma set_steps_inv xs : forall st st', steps (set_step eqb d) st xs st' -> snd st' = [] ->
  snd st = [] /\ exists vs, fst st' = fst st ++ vs /\
   Forall2 (fun x v => fst (p (at_elem x)) = Ok v /\ toks (snd (p (at_elem x))) = el_after x) xs vs /\
   all_different eqb vs /\ Forall (fun v => existsb (eqb v) (fst st) = false) vs.
Proof.
  intros st st' H. induction H as [st|st x st1 xs st2 H1 H2 H IH]; intro Z.
  - split; auto. exists []. rewrite app_nil_r. repeat split; auto. constructor.
  - destruct (IH Z) as [Z1 [vs [E [G [AD NF]]]]]. unfold set_step, set_ins in H1, H2.
    destruct (p (at_elem x)) as [[v|e|b] s1] eqn:D; cbn [fst snd] in *.
    + destruct (existsb (eqb v) (fst st)) eqn:X; cbn [fst snd] in *; injection H1 as <-; cbn [fst snd] in *.
      { unfold push in Z1. destruct (snd st); discriminate. }
      split; auto. exists (v :: vs). split; [now rewrite E, <- app_assoc|]. split; [constructor; auto; rewrite D; auto|].
      split.
      * constructor; auto. rewrite Forall_forall in NF |- *. intros w I. specialize (NF w I). rewrite existsb_app in NF.
        apply orb_false_iff in NF as [_ NF]. cbn in NF. now rewrite orb_false_r in NF.
      * constructor; auto. rewrite Forall_forall in NF |- *. intros w I. specialize (NF w I). rewrite existsb_app in NF.
        now apply orb_false_iff in NF as [NF _].
    + injection H1 as <-. cbn [snd] in Z1. unfold push_syn in Z1. destruct (snd st); discriminate.
    + discriminate.
Qed.
Lemma once_different vs : forall seen, all_different eqb vs -> Forall (fun v => existsb (eqb v) seen = false) vs ->
  once eqb seen vs = seen ++ vs.
Proof.
  induction vs as [|v vs IH]; intros seen AD NF; cbn [once]; [now rewrite app_nil_r|].
  inversion AD as [|? ? HD AD']; subst. inversion NF as [|? ? N1 NF']; subst. rewrite N1. rewrite IH; auto; [now rewrite <- app_assoc|].
  rewrite Forall_forall in *. intros w I. rewrite existsb_app. apply orb_false_iff. split; auto. cbn. rewrite orb_false_r. auto.
Qed.
Lemma set_errors_different xs : forall vs seen,
  Forall2 (fun x v => fst (p (at_elem x)) = Ok v) xs vs -> all_different eqb vs ->
  Forall (fun v => existsb (eqb v) seen = false) vs -> set_errors eqb p seen xs = [].
Proof.
  induction xs as [|x xs IH]; intros vs seen G AD NF; [reflexivity|]. inversion G; subst. cbn [set_errors].
  destruct (p (at_elem x)) as [r s1]. cbn [fst] in H1. subst r. inversion NF as [|? ? N1 NF']; subst. rewrite N1.
  inversion AD as [|? ? HD AD']; subst. apply (IH l'); auto. rewrite Forall_forall in *. intros w I. rewrite existsb_app. apply orb_false_iff.
  split; auto. cbn. rewrite orb_false_r. auto.
Qed.
Lemma set_ok l vs : fst (set_flat eqb d l) = Ok vs <->
  Forall2 (accepts p) (items_of l) vs /\ all_different eqb vs.
Proof.
  rewrite <- elems_items. split.
  - unfold set_flat. rewrite (finish_steps_ok _ _ _ set_u set_st set_kp). intro H.
    destruct (set_steps_inv _ _ _ H eq_refl) as [_ [ws [E [G [AD _]]]]]. cbn [fst app] in E. subst ws. split; auto. clear H.
    pose proof (fun x I => elem_of l x I) as W. revert W. induction G as [|x v xs vs [H1 H2] G IH]; cbn [map]; intro W; constructor.
    + destruct (W x (or_introl eq_refl)) as [N E]. apply local_accepts; auto. apply (fi_item d F).
    + apply IH; [now inversion AD|]. intros y I. apply W. now right.
  - intros [G AD]. assert (X : Forall2 (fun x v => fst (p (at_elem x)) = Ok v /\ toks (snd (p (at_elem x))) = el_after x) (elems l) vs).
    { pose proof (fun x I => elem_of l x I) as W. revert W vs G AD. generalize (elems l). intro xs. induction xs as [|x xs IH]; intros W vs G AD; inversion G; subst; constructor.
      - apply accepts_at; auto. apply W. now left.
      - inversion AD; subst. apply IH; auto. intros z I. apply W. now right. }
    assert (V : values p (elems l) = vs).
    { clear G AD. induction X as [|x v xs vs [H1 _] X IH]; [reflexivity|]. cbn [values flat_map]. rewrite H1. fold (values p xs). now rewrite IH. }
    rewrite set_exact.
    + rewrite V, (once_different vs []); auto; [|rewrite Forall_forall; auto]. rewrite (set_errors_different _ vs []); auto.
      * clear -X. induction X; constructor; tauto.
      * rewrite Forall_forall. auto.
    + clear -X. induction X as [|x v xs vs [H1 H2] X IH]; constructor; auto. intros w _. exact H2.
Qed.
End Set_.
End C.
