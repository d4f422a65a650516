(** Inversion lemmas: what is known when the front end of the derive reports nothing. *)
From Verif Require Import LemWf LemWfD LemWfE LemSmall LemEnum4 SpecSmall LemAttr.
From Verif Require Export Schema LemSchema.

Lemma push_syn_nil es e : push_syn es e <> [].
Proof. unfold push_syn, errs_of. destruct es; discriminate. Qed.
Lemma push_nil es sp m : push es sp m <> [].
Proof. apply push_syn_nil. Qed.

Lemma mbind_inv {S A B} (p : pm S A) (q : A -> pm S B) l v l' : pbind p q l = (Ok v, l') ->
  exists a l1, p l = (Ok a, l1) /\ q a l1 = (Ok v, l').
Proof. unfold pbind. destruct (p l) as [[a|e|b] l1]; intro H; try discriminate H. eauto. Qed.
Section I.
Context {env : Env}.

(** an arm that, when no error is left at the end, had none before and keeps P *)
Definition keeps {St} (P : St -> Prop)
           (arm : string -> span -> St -> errors -> parser (St * errors)) : Prop :=
  forall k sp st es s st' es' s', arm k sp st es s = (Ok (st', es'), s') -> es' = [] ->
    es = [] /\ (P st -> P st').
Definition keeps1 {St} (P : St -> Prop) (st : St) (es : errors) (p : parser (St * errors)) : Prop :=
  forall s st' es' s', p s = (Ok (st', es'), s') -> es' = [] -> es = [] /\ (P st -> P st').

Lemma struct_loop_inv {St} (Q : St -> Prop) (func : string -> span -> St -> stream -> res unit * St * stream) :
  (forall k sp q s r q' s', func k sp q s = (r, q', s') -> Q q' -> Q q) ->
  forall n st s, Q (snd (fst (struct_loop func n st s))) -> Q st.
Proof.
  intro F. induction n as [|n IH]; intros st s; [auto|]. cbn [struct_loop].
  destruct (is_empty s); [auto|]. destruct (parse_any_path s) as [[p|e|b] s1]; auto.
  destruct (func (path_key p) (p_span p) st s1) as [[[u|e|b] st1] s2] eqn:E; cbn [fst snd]; eauto.
  destruct (is_empty s2); cbn [fst snd]; eauto.
  destruct (parse_comma s2) as [[u2|e|b] s3]; cbn [fst snd]; eauto.
Qed.
Lemma parse_struct_inv {St} (Q : St -> Prop) (func : string -> span -> St -> stream -> res unit * St * stream) :
  (forall k sp q s r q' s', func k sp q s = (r, q', s') -> Q q' -> Q q) ->
  forall l st, Q (snd (fst (parse_struct func st l))) -> Q st.
Proof.
  intro F. induction l as [|s l IH]; intros st; [auto|]. cbn [parse_struct].
  pose proof (struct_loop_inv Q func F (S (length (toks s))) st s) as L.
  destruct (struct_loop func (S (length (toks s))) st s) as [[[u|e|b] st1] s1]; cbn [fst snd] in *; auto.
  specialize (IH st1). destruct (parse_struct func st1 l) as [[r st2] l2]. cbn [fst snd] in *. auto.
Qed.

Lemma read_items_inv {St} (P : St -> Prop) arm st es l st' es' l' :
  keeps P arm -> read_items arm st es l = (Ok (st', es'), l') -> es' = [] -> es = [] /\ (P st -> P st').
Proof.
  intros K H E. unfold read_items in H.
  match type of H with context [parse_struct ?f _ _] => set (func := f) in H end.
  pose proof (parse_struct_inv (fun q : St * errors => snd q = [] /\ (P (fst q) -> P st')) func) as I.
  assert (F : forall k sp q s r q' s', func k sp q s = (r, q', s') ->
              snd q' = [] /\ (P (fst q') -> P st') -> snd q = [] /\ (P (fst q) -> P st')).
  { intros k sp q s r q' s' X [Y Z]. unfold func in X.
    destruct (arm k sp (fst q) (snd q) s) as [[[st1 es1]|e|b] s1] eqn:A; injection X as <- <- <-; cbn [fst snd] in *; auto.
    destruct (K _ _ _ _ _ _ _ _ A Y). split; auto. }
  specialize (I F l (st, es)).
  destruct (parse_struct func (st, es) l) as [[[u|e|b] q] l1]; cbn [fst snd] in *; try discriminate H.
  - injection H as -> <-. cbn [fst snd] in I. apply I. split; [exact E|tauto].
  - injection H as _ H _. rewrite <- H in E. apply push_syn_nil in E. contradiction.
Qed.

Lemma keeps_slot {St A} (P : St -> Prop) st nm sp (p : string -> span -> parser A) v set es :
  (forall a, v = FNone -> P st -> P (set (FSome a))) -> keeps1 P st es (slot nm sp p v set es).
Proof.
  intros K s st' es' s' H E. unfold slot, fs_parse_named in H.
  destruct (p nm sp s) as [[a|e|b] s1]; cbn [rmap] in H; try discriminate H; injection H as <- <- <-; cbn [fst snd] in *.
  - destruct v; cbn [fs_is_none] in *.
    + split; auto.
    + apply push_nil in E. contradiction.
    + apply push_nil in E. contradiction.
  - apply push_syn_nil in E. contradiction.
Qed.
Lemma slot_inv {St A} nm sp (p : string -> span -> parser A) v (set : fstatus A -> St) es s st' s' :
  slot nm sp p v set es s = (Ok (st', []), s') ->
  es = [] /\ v = FNone /\ exists a, p nm sp s = (Ok a, s') /\ st' = set (FSome a).
Proof.
  intro H. unfold slot, fs_parse_named in H.
  destruct (p nm sp s) as [[a|e|b] s1]; cbn [rmap] in H; try discriminate H; injection H as <- E <-; cbn [fst snd] in *.
  - destruct v; cbn [fs_is_none] in *; try (apply push_nil in E; contradiction). subst. eauto 6.
  - apply push_syn_nil in E. contradiction.
Qed.
Lemma keeps_collect {St A} (P : St -> Prop) (st : St) (p : parser A) add es :
  (forall a, P st -> P (add a)) -> keeps1 P st es (collect st p add es).
Proof.
  intros K s st' es' s' H E. unfold collect in H.
  destruct (p s) as [[a|e|b] s1]; try discriminate H; injection H as <- <- <-; auto.
  apply push_syn_nil in E. contradiction.
Qed.
Lemma keeps_refuse {St} (P : St -> Prop) (st : St) es es2 : (es2 = [] -> es = []) -> keeps1 P st es (refuse st es2).
Proof. intros H s st' es' s' X E. unfold refuse in X. injection X as <- <- <-. auto. Qed.
Lemma keeps_same {St} (P : St -> Prop) (st : St) es es2 : (es2 = [] -> es = []) -> keeps1 P st es (fun s => (Ok (st, es2), s)).
Proof. intros H s st' es' s' X E. injection X as <- <- <-. auto. Qed.
Lemma push_syn_nil2 es e : push_syn es e = [] -> es = [].
Proof. intro H. apply push_syn_nil in H. contradiction. Qed.
Lemma push_nil2 es sp m : push es sp m = [] -> es = [].
Proof. apply push_syn_nil2. Qed.
Lemma check_unknown_nil2 k sp l es : check_unknown k sp l es = [] -> es = [].
Proof. unfold check_unknown. destruct (mem_str k l); [auto|apply push_syn_nil2]. Qed.

Definition own_is (own : option string) (x : name) : bool :=
  match own with Some o => String.eqb o (fst x) | None => false end.
Lemma rename_inv what own sp n es s n' s' : rename_arm what own sp n es s = (Ok (n', []), s') ->
  es = [] /\ n_rename n = FNone /\
  exists x, d_named ident_dict "rename" sp s = (Ok x, s') /\ own_is own x = false /\
            has_name x (n_idents n) = false /\
            n' = mkNst (x :: n_idents n) (FSome sp) (n_alias n).
Proof.
  unfold rename_arm. destruct (d_named ident_dict "rename" sp s) as [[x|e|b] s1] eqn:D; [| |discriminate].
  - fold (own_is own x). destruct (own_is own x) eqn:O; [|destruct (has_name x (n_idents n)) eqn:HN]; intro H; injection H as H1 H2 <-; subst n'; try (apply push_syn_nil in H2; contradiction).
    destruct (n_rename n); cbn [fs_is_none] in *; try (apply push_nil in H2; contradiction). eauto 8.
  - intro H; injection H as H1 H2 <-. apply push_syn_nil in H2; contradiction.
Qed.
Lemma alias_inv what own sp n es s n' s' : alias_arm what own sp n es s = (Ok (n', []), s') ->
  es = [] /\
  exists x, d_named ident_dict "alias" sp s = (Ok x, s') /\ own_is own x = false /\
            has_name x (n_idents n) = false /\
            n' = mkNst (n_idents n ++ [x]) (n_rename n) (if fs_is_none (n_alias n) then FSome sp else n_alias n).
Proof.
  unfold alias_arm. destruct (d_named ident_dict "alias" sp s) as [[x|e|b] s1] eqn:D; [| |discriminate].
  - fold (own_is own x). destruct (own_is own x) eqn:O; [|destruct (has_name x (n_idents n)) eqn:HN]; intro H; injection H as H1 H2 <-; subst n'; try (apply push_nil in H2; contradiction). eauto 8.
  - intro H; injection H as H1 H2 <-. apply push_syn_nil in H2; contradiction.
Qed.
Lemma on_names_inv {St} (set : nst -> St) p s st' es' s' : on_names set p s = (Ok (st', es'), s') ->
  exists n', p s = (Ok (n', es'), s') /\ st' = set n'.
Proof.
  unfold on_names. destruct (p s) as [[[n es]|e|b] s1]; cbn [rmap]; intro H; try discriminate H.
  injection H as <- <- <-. eauto.
Qed.
Lemma keeps_rename {St} (P : St -> Prop) (st : St) set what own sp n es :
  (forall x, n_rename n = FNone -> own_is own x = false -> has_name x (n_idents n) = false ->
             P st -> P (set (mkNst (x :: n_idents n) (FSome sp) (n_alias n)))) ->
  keeps1 P st es (on_names set (rename_arm what own sp n es)).
Proof.
  intros K s st' es' s' H ->. apply on_names_inv in H as [n' [H ->]].
  apply rename_inv in H as [-> [R [x [_ [O [HN ->]]]]]]. auto.
Qed.
Lemma keeps_alias {St} (P : St -> Prop) (st : St) set what own sp n es :
  (forall x, own_is own x = false -> has_name x (n_idents n) = false ->
             P st -> P (set (mkNst (n_idents n ++ [x]) (n_rename n) (if fs_is_none (n_alias n) then FSome sp else n_alias n)))) ->
  keeps1 P st es (on_names set (alias_arm what own sp n es)).
Proof.
  intros K s st' es' s' H ->. apply on_names_inv in H as [n' [H ->]].
  apply alias_inv in H as [-> [x [_ [O [HN ->]]]]]. auto.
Qed.

(** *** the attribute list around the body *)
Lemma next_inv {R} (func : list (string * span) -> mparser R) : forall l bufs paths v b,
  parse_next l bufs paths func = (Ok v, b) ->
  exists paths' bufs' bufs2, func paths' bufs' = (Ok v, bufs2).
Proof.
  induction l as [|[[ts n] sp] l IH]; intros bufs paths v b; cbn [parse_next].
  - destruct (func paths bufs) as [[w|e|x] bufs1] eqn:F; try discriminate.
    destruct (each_eof bufs1) as [[u|e|x] bufs2]; cbn [rbind]; intro H; try discriminate H.
    injection H as <- <-. eauto.
  - destruct ts as [|t ts].
    + destruct (parse_next l _ _ func) as [r B] eqn:P. intro H. apply pair_fst in H. apply close_ok in H as [-> _]. eauto.
    + destruct t as [| | |d content gsp]; try (intro H; apply pair_fst in H; apply close_ok in H as [H _]; discriminate H).
      destruct d; try (intro H; apply pair_fst in H; apply close_ok in H as [H _]; discriminate H).
      destruct (parse_next l _ _ func) as [r B] eqn:P. intro H. apply pair_fst in H. apply close_ok in H as [-> _]. eauto.
Qed.
Lemma attrs_inv {R} l (func : list (string * span) -> mparser R) v :
  parse_struct_attr_tokens l func = Ok v -> exists paths bufs bufs2, func paths bufs = (Ok v, bufs2).
Proof.
  unfold parse_struct_attr_tokens. destruct (parse_next l [] [] func) as [r B] eqn:P. cbn [fst]. intros ->. eauto using next_inv.
Qed.

Lemma read_all_inv {A B} (rd : A -> res B) : forall l es bs, read_all rd l es = Ok (bs, []) ->
  es = [] /\ Forall2 (fun a b => rd a = Ok b) l bs.
Proof.
  induction l as [|a l IH]; intros es bs; cbn [read_all].
  - intro H. injection H as <- <-. auto.
  - destruct (rd a) as [b|e|x] eqn:R; [| |discriminate].
    + destruct (read_all rd l es) as [[cs es1]|e|x] eqn:RA; cbn [rmap]; intro H; try discriminate H.
      cbn [fst snd] in H. injection H as <- ->. destruct (IH _ _ RA) as [-> F]. auto.
    + intro H. apply IH in H as [H _]. apply push_syn_nil in H. contradiction.
Qed.

Lemma only_one_inv attrs prefix es : only_one attrs prefix es = [] ->
  es = [] /\ length (present_spans attrs) <= 1.
Proof.
  intro H. destruct (l_only_one attrs prefix es) as [A B].
  destruct (Nat.le_gt_cases (length (present_spans attrs)) 1) as [L|L].
  - rewrite A in H by auto. auto.
  - rewrite B in H by lia. apply app_eq_nil in H as [_ H]. destruct (present_spans attrs); [cbn in L; lia|discriminate H].
Qed.
Lemma check_ok es u : check es = Ok u -> es = [].
Proof. unfold check, into_result. destruct es; [auto|discriminate]. Qed.

(** *** dup_names, dup_container, default_gaps *)
Lemma has_name_in x l : has_name x l = true <-> In (fst x) (map fst l).
Proof.
  unfold has_name, mem_str. rewrite existsb_exists. split.
  - intros [y [I E]]. apply String.eqb_eq in E. congruence.
  - intro I. exists (fst x). split; auto. apply String.eqb_refl.
Qed.
Lemma dup_names_inv msg : forall ids seen es seen', dup_names msg ids seen es = (seen', []) ->
  es = [] /\ seen' = seen ++ ids /\ (NoDup (map fst seen) -> NoDup (map fst (seen ++ ids))).
Proof.
  unfold dup_names. induction ids as [|x ids IH]; intros seen es seen'; cbn [fold_left].
  - intro H. injection H as <- ->. rewrite app_nil_r. auto.
  - cbn [fst snd]. destruct (has_name x seen) eqn:HN; intro H.
    + apply IH in H as [H _]. apply push_nil in H. contradiction.
    + apply IH in H as [-> [-> ND]]. rewrite <- app_assoc in *. cbn [app] in *. repeat split; auto.
      intro N. apply ND. rewrite map_app. cbn [map]. apply NoDup_Add with (a := fst x) (l := map fst seen).
      * rewrite <- (app_nil_r (map fst seen)) at 1. apply Add_app.
      * split; auto. intro I. apply has_name_in in I. congruence.
Qed.
Lemma field_list_inv : forall fs seen cont es, field_list_checks fs seen cont es = [] ->
  es = [] /\ (NoDup (map fst seen) -> NoDup (map fst (seen ++ flat_map g_idents fs))) /\
  length (filter (fun f => opt_some (g_container f)) fs) <= (if cont then 0 else 1).
Proof.
  induction fs as [|f fs IH]; intros seen cont es; cbn [field_list_checks].
  - intros ->. cbn. rewrite app_nil_r. repeat split; auto. destruct cont; auto.
  - destruct (dup_names "duplicate field name for " (g_idents f) seen es) as [seen1 es1] eqn:D.
    unfold dup_container. cbn [filter flat_map].
    assert (G : es1 = [] -> es = [] /\ seen1 = seen ++ g_idents f /\
                (NoDup (map fst seen) -> NoDup (map fst seen1))).
    { intros ->. apply dup_names_inv in D as [-> [-> N]]. auto. }
    destruct (g_container f) as [c|]; cbn [opt_some]; [destruct cont|]; intro H; apply IH in H as [E [N L]].
    + apply push_nil in E. contradiction.
    + apply G in E as [-> [-> N1]]. rewrite app_assoc. repeat split; auto. cbn [length]. lia.
    + apply G in E as [-> [-> N1]]. rewrite app_assoc. repeat split; auto.
Qed.
Lemma container_checks_inv : forall fs cont es, container_checks fs cont es = [] ->
  es = [] /\ length (filter (fun f => opt_some (g_container f)) fs) <= (if cont then 0 else 1).
Proof.
  induction fs as [|f fs IH]; intros cont es; cbn [container_checks].
  - intros ->. cbn. split; auto. destruct cont; auto.
  - unfold dup_container. cbn [filter].
    destruct (g_container f) as [c|]; cbn [opt_some]; [destruct cont|]; intro H; apply IH in H as [E L].
    + apply push_nil in E. contradiction.
    + cbn [length]. split; auto. lia.
    + auto.
Qed.
(** a field that takes a position of its own, without a default *)
Definition needs_value (f : sfield) : bool :=
  g_is_parsable f && negb (g_is_flat f) && negb (opt_some (g_default f)).
Definition may_be_left_out (f : sfield) : bool :=
  g_is_parsable f && negb (g_is_flat f) && opt_some (g_default f).
Lemma default_gaps_inv what : forall fs gap es, default_gaps what fs gap es = [] ->
  es = [] /\ (gap = true -> forall f, In f fs -> may_be_left_out f = false) /\
  (forall l1 f l2 g l3, fs = l1 ++ f :: l2 ++ g :: l3 -> needs_value f = true -> may_be_left_out g = false).
Proof.
  induction fs as [|f fs IH]; intros gap es; cbn [default_gaps].
  - intros ->. split; auto. split; [intros _ f []|]. intros [|? l1] ? ? ? ? H; discriminate H.
  - intro H.
    assert (C : (es = [] /\ (gap = true -> forall g, In g (f :: fs) -> may_be_left_out g = false) /\
                 (needs_value f = true -> forall g, In g fs -> may_be_left_out g = false)) /\
            (forall l1 f0 l2 g l3, fs = l1 ++ f0 :: l2 ++ g :: l3 -> needs_value f0 = true -> may_be_left_out g = false)).
    { unfold needs_value, may_be_left_out in *. destruct (g_is_parsable f && negb (g_is_flat f)) eqn:PF; cbn [andb].
      - destruct (g_default f) as [d|] eqn:D; apply IH in H as [E [G R]]; (split; [|exact R]); cbn [opt_some negb] in *.
        + destruct gap; [apply push_nil in E; contradiction|]. repeat split; auto; discriminate.
        + repeat split; auto. intros _ g [<-|I]; [rewrite D, PF|]; auto.
      - apply IH in H as [E [G R]]. split; [|exact R]. repeat split; auto; [|discriminate].
        intros E2 g [<-|I]; [rewrite PF; reflexivity|auto]. }
    destruct C as [[E [G N]] R]. repeat split; auto.
    intros [|x l1] f0 l2 g l3 H0 Nf; cbn [app] in H0; injection H0 as -> H0; [|eauto].
    apply N; auto. rewrite H0. apply in_or_app. right. now left.
Qed.
End I.
