(** What is known of a struct, a field, a variant and an enum that the front end accepts. *)
From Verif Require Import LemWf LemWfD LemWfE LemSmall LemEnum4 SpecSmall LemAttr.
From Verif Require Export LemSchema2 Lower.

Section J.
Context {env : Env}.
Variable sy : synlib.

Definition names_inv (own : option string) (n : nst) : Prop :=
  (n_idents n <> [] -> (exists sp, n_rename n = FSome sp) \/ (exists sp, n_alias n = FSome sp)) /\
  NoDup (map fst (n_idents n)) /\
  (forall o, own = Some o -> ~ In o (map fst (n_idents n))) /\
  n_rename n <> FParseError /\ n_alias n <> FParseError /\
  (n_rename n <> FNone -> n_idents n <> []).
Lemma names_inv_init own : names_inv own (mkNst [] FNone FNone).
Proof. repeat split; cbn; try congruence; auto. constructor. Qed.
Lemma own_is_neq own x o : own_is own x = false -> own = Some o -> o <> fst x.
Proof. intros H ->. cbn in H. now apply String.eqb_neq. Qed.
Lemma has_name_out x l : has_name x l = false -> ~ In (fst x) (map fst l).
Proof. intros H I. apply has_name_in in I. congruence. Qed.
Lemma names_inv_rename own n x sp : own_is own x = false -> has_name x (n_idents n) = false ->
  names_inv own n -> names_inv own (mkNst (x :: n_idents n) (FSome sp) (n_alias n)).
Proof.
  intros O H [A [B [C [D [E G]]]]]. apply has_name_out in H. unfold names_inv. cbn [n_idents n_rename n_alias map].
  split; [intros _; left; eauto|]. split; [constructor; auto|]. split; [|split; [discriminate|split; [auto|discriminate]]].
  intros o Ho [I|I]; [|apply (C o); auto]. apply (own_is_neq own x o); auto.
Qed.
Lemma names_inv_alias own n x sp : own_is own x = false -> has_name x (n_idents n) = false ->
  names_inv own n -> names_inv own (mkNst (n_idents n ++ [x]) (n_rename n) (if fs_is_none (n_alias n) then FSome sp else n_alias n)).
Proof.
  intros O H [A [B [C [D [E G]]]]]. apply has_name_out in H. unfold names_inv. cbn [n_idents n_rename n_alias].
  split; [intros _; right; destruct (n_alias n) as [| |a]; cbn [fs_is_none]; eauto; congruence|].
  rewrite map_app. cbn [map].
  split. { apply NoDup_Add with (a := fst x) (l := map fst (n_idents n)); [|split; auto].
           rewrite <- (app_nil_r (map fst (n_idents n))) at 1. apply Add_app. }
  split; [|split; [auto|split; [destruct (n_alias n); cbn [fs_is_none]; congruence|intros _ X; apply app_eq_nil in X as [_ X]; discriminate X]]].
  intros o Ho I. apply in_app_or in I as [I|[I|[]]]; [apply (C o); auto|]. apply (own_is_neq own x o); auto.
Qed.

(** *** Fields *)
Definition field_inv (f : src_field) (st : fst_) : Prop :=
  names_inv (option_map fst (sf_ident f)) (v_names_ st) /\
  (sf_ident f = None -> v_append st = FNone /\ v_rest st = FNone /\ n_idents (v_names_ st) = []).

Ltac kstep := repeat match goal with |- keeps1 _ _ _ (if ?b then _ else _) => destruct b eqn:? end.
Lemma keeps_field f : keeps (field_inv f) (field_arm sy f).
Proof.
  intros k sp st es. change (keeps1 (field_inv f) st es (field_arm sy f k sp st es)).
  unfold field_arm. destruct st as [d w fl ap re co sk ns tr].
  destruct (sf_ident f) as [[x xsp]|] eqn:SF.
  - kstep; try (apply keeps_slot; intros a _ [H1 H2]; split; cbn in *; congruence);
      try (apply keeps_collect; intros a [H1 H2]; split; cbn in *; congruence).
    + apply keeps_rename. intros y R O H [H1 H2]. split; cbn [v_names_ v_append v_rest] in *; [|congruence].
      apply names_inv_rename; auto; rewrite SF; auto.
    + apply keeps_alias. intros y O H [H1 H2]. split; cbn [v_names_ v_append v_rest] in *; [|congruence].
      apply names_inv_alias; auto; rewrite SF; auto.
    + apply keeps_refuse, check_unknown_nil2.
  - kstep; try (apply keeps_slot; intros a _ [H1 H2]; split; cbn in *; auto; fail);
      try (apply keeps_collect; intros a [H1 H2]; split; cbn in *; auto; fail);
      try (apply keeps_refuse, push_nil2); try (apply keeps_same, push_nil2).
    apply keeps_refuse, check_unknown_nil2.
Qed.

(** what only_one says about two or three statuses *)
Lemma span_if_none {A} (f : A -> span) v : span_if f v = None <-> fs_into_option v = None.
Proof. destruct v; cbn; split; congruence. Qed.
Lemma only2 a b sa sb es : only_one [(a, sa); (b, sb)] "" es = [] -> es = [] /\ (sa = None \/ sb = None).
Proof. intro H. apply only_one_inv in H as [E L]. split; auto. destruct sa, sb; auto. cbn in L. lia. Qed.
Lemma only3 a b c sa sb sc es : only_one [(a, sa); (b, sb); (c, sc)] "" es = [] ->
  es = [] /\ (sa = None \/ sb = None) /\ (sa = None \/ sc = None) /\ (sb = None \/ sc = None).
Proof. intro H. apply only_one_inv in H as [E L]. split; auto. destruct sa, sb, sc; auto; cbn in L; lia. Qed.

Record field_facts (f : src_field) (g : sfield) : Prop := mkFacts {
  ff_src : g_src g = f;
  ff_tuple : sf_ident f = None -> g_append g = None /\ g_rest g = None /\ g_idents g = [];
  ff_flat_append : g_flatten g = None \/ g_append g = None;
  ff_flat_rest : g_flatten g = None \/ g_rest g = None;
  ff_append_rest : g_append g = None \/ g_rest g = None;
  ff_cont_flat : g_container g = None \/ g_flatten g = None;
  ff_cont_with : g_container g = None \/ g_with g = None;
  ff_flat_default : g_default g = None \/ g_flatten g = None;
  ff_flat_names : flatten_true g = true -> g_idents g = [];
  ff_cont_names : g_container g <> None -> forall x, In x (g_idents g) -> exists i sp, sf_ident f = Some (i, sp) /\ x = (unraw i, sp);
  ff_first : sf_ident f <> None -> flatten_true g = false -> g_idents g <> []
}.
Lemma field_ok f g : read_field sy f = Ok g -> field_facts f g.
Proof.
  unfold read_field. intro H. apply attrs_inv in H as [paths [bufs [bufs2 H]]]. unfold field_body in H.
  apply mbind_inv in H as [q [l1 [H1 H2]]]. destruct q as [st es]. cbn [fst snd] in H2.
  destruct (check (field_checks st es)) as [u|e|b] eqn:CH; cbn [rmap] in H2; try discriminate H2. injection H2 as <- <-.
  apply check_ok in CH. unfold field_checks in CH.
  apply only2 in CH as [CH F1]. apply only2 in CH as [CH F2]. apply only2 in CH as [CH F3]. apply only2 in CH as [CH F4].
  apply only2 in CH as [CH F5]. apply only2 in CH as [CH F6]. apply only2 in CH as [CH F7]. apply only3 in CH as [CH [F8 [F9 F10]]].
  subst es. destruct (read_items_inv _ _ _ _ _ _ _ _ (keeps_field f) H1 eq_refl) as [_ I].
  assert (I0 : field_inv f fst_init). { split; [apply names_inv_init|auto]. }
  apply I in I0 as [[N1 [N2 [N3 [N4 [N5 N6]]]]] T]. clear I.
  rewrite !span_if_none in *.
  assert (NN : (exists x, v_flat st = FSome x) \/ (exists x, v_container st = FSome x) -> n_idents (v_names_ st) = []).
  { intro E. destruct (n_idents (v_names_ st)) as [|y l] eqn:NI; auto.
    destruct N1 as [[sp R]|[sp R]]; try discriminate; rewrite R in *; cbn [fs_into_option] in *;
      destruct E as [[x E]|[x E]]; rewrite E in *; cbn [fs_into_option] in *;
      repeat match goal with H : _ \/ _ |- _ => destruct H as [H|H] end; discriminate. }
  constructor; cbn [g_src g_append g_rest g_idents g_flatten g_container g_with g_default]; auto.
  - intro E. destruct (T E) as [A [B C]]. rewrite A, B. unfold field_idents. rewrite C, E. cbn. destruct (_ && _); auto.
  - unfold flatten_true, field_idents. cbn [g_flatten]. destruct (v_flat st) as [| |x] eqn:E; cbn [fs_into_option]; try discriminate.
    intros ->. cbn [negb]. rewrite andb_false_r. apply NN. eauto.
  - intros C x. unfold field_idents. rewrite NN.
    2: { right. destruct (v_container st); cbn in C; try congruence. eauto. }
    destruct (_ && _); [|intros []]. destruct (sf_ident f) as [[i sp]|]; [|intros []]. intros [<-|[]]. eauto.
  - unfold flatten_true, field_idents. cbn [g_flatten]. intros SF FT.
    destruct (fs_is_none (n_rename (v_names_ st))) eqn:RN; cbn [andb].
    + replace (match v_flat st with FSome x => ff_value x | _ => false end) with false by (destruct (v_flat st); auto).
      cbn [negb]. destruct (sf_ident f) as [[i sp]|]; congruence.
    + apply N6. intro X. rewrite X in RN. discriminate RN.
Qed.

(** *** Structs *)
Lemma keeps_slot2 {St A} (P : St -> Prop) st nm sp (p : string -> span -> parser A) v set es :
  (forall a s s', p nm sp s = (Ok a, s') -> v = FNone -> P st -> P (set (FSome a))) -> keeps1 P st es (slot nm sp p v set es).
Proof.
  intros K s st' es' s' H ->. apply slot_inv in H as [-> [-> [a [H ->]]]]. split; auto. eauto.
Qed.
Lemma transparent_item_ok {A} what fs (p : string -> span -> parser A) nm sp s a s' :
  transparent_item what fs p nm sp s = (Ok a, s') -> transparent_check what fs = None.
Proof. unfold transparent_item. destruct (transparent_check what fs); [discriminate|auto]. Qed.

Definition struct_inv (sh : shape) (fs : list sfield) (st : sst) : Prop :=
  (forall t, w_transparent st = FSome t -> transparent_check "struct" fs = None) /\
  (sh = ShUnnamed -> w_unknown st = FNone) /\ (sh = ShUnit -> w_default st = FNone).
Lemma keeps_struct sh fs : keeps (struct_inv sh fs) (struct_arm sy sh fs).
Proof.
  intros k sp st es. change (keeps1 (struct_inv sh fs) st es (struct_arm sy sh fs k sp st es)).
  unfold struct_arm. destruct st as [t u d c a p].
  destruct (String.eqb k "transparent").
  { apply keeps_slot2. intros x s s' H _ [P1 P2]. apply transparent_item_ok in H. split; cbn in *; auto. }
  destruct (String.eqb k "allow_unknown_fields").
  { destruct sh; try (apply keeps_slot; intros x _ [P1 [P2 P3]]; repeat split; cbn in *; auto; discriminate).
    apply keeps_refuse, push_nil2. }
  destruct (String.eqb k "default").
  { destruct sh; try (apply keeps_slot; intros x _ [P1 [P2 P3]]; repeat split; cbn in *; auto; discriminate).
    apply keeps_refuse, push_nil2. }
  kstep; try (apply keeps_slot; intros x _ H; exact H); try (apply keeps_collect; intros x H; exact H).
  apply keeps_refuse, check_unknown_nil2.
Qed.

Record struct_facts (i : src_struct) (fs : list sfield) (d : sstruct) : Prop := mkSFacts {
  sf_read : Forall2 (fun f g => read_field sy f = Ok g) (ss_fields i) fs;
  sf_shape : i_shape d = ss_shape i;
  sf_fields : i_fields d = if opt_some (i_default d) then fs else map skip_fill fs;
  sf_names : NoDup (map fst (flat_map g_idents (i_fields d)));
  sf_container : length (filter (fun f => opt_some (g_container f)) (i_fields d)) <= 1;
  sf_gaps : i_shape d = ShUnnamed -> forall l1 f l2 g l3, i_fields d = l1 ++ f :: l2 ++ g :: l3 ->
            needs_value g = true -> may_be_left_out f = false;
  sf_transparent : i_transparent d <> None -> transparent_check "struct" fs = None;
  sf_unknown : i_shape d = ShUnnamed -> i_unknown_ok d = None;
  sf_default : i_shape d = ShUnit -> i_default d = None
}.
(** a status that is set or not: never a parse error when nothing was reported *)
Definition clean {A} (v : fstatus A) : Prop := v <> FParseError.
Lemma keeps_clean sh fs : keeps (fun st => clean (w_default st)) (struct_arm sy sh fs).
Proof.
  intros k sp st es. change (keeps1 (fun st => clean (w_default st)) st es (struct_arm sy sh fs k sp st es)).
  unfold struct_arm. destruct st as [t u d c a p].
  destruct (String.eqb k "transparent").
  { apply keeps_slot. cbn. auto. }
  destruct (String.eqb k "allow_unknown_fields").
  { destruct sh; try (apply keeps_slot; cbn; auto; fail). apply keeps_refuse, push_nil2. }
  destruct (String.eqb k "default").
  { destruct sh; try (apply keeps_slot; cbn; unfold clean; discriminate). apply keeps_refuse, push_nil2. }
  kstep; try (apply keeps_slot; intros x _ H; exact H); try (apply keeps_collect; intros x H; exact H).
  apply keeps_refuse, check_unknown_nil2.
Qed.
Lemma struct_ok i d : read_struct sy i = Ok d -> exists fs, struct_facts i fs d.
Proof.
  unfold read_struct. intro H. apply attrs_inv in H as [paths [bufs [bufs2 H]]]. unfold struct_body in H.
  destruct (read_all (read_field sy) (ss_fields i) []) as [[fs es0]|e|b] eqn:RA; try discriminate H.
  apply mbind_inv in H as [[st es] [l1 [H1 H2]]]. cbn [fst snd] in H2.
  set (fs1 := if fs_is_none (w_default st) then map skip_fill fs else fs) in *.
  destruct (check (struct_checks (ss_shape i) fs1 es)) as [u|e|b] eqn:CH; cbn [rmap] in H2; try discriminate H2. injection H2 as <- <-.
  apply check_ok in CH. unfold struct_checks in CH.
  assert (G : field_list_checks fs1 [] false es = [] /\
              (ss_shape i = ShUnnamed -> forall l1 f l2 g l3, rev fs1 = l1 ++ f :: l2 ++ g :: l3 -> needs_value f = true -> may_be_left_out g = false)).
  { destruct (ss_shape i); try (split; [exact CH|discriminate]).
    apply default_gaps_inv in CH as [CH [_ G]]. auto. }
  clear CH. destruct G as [CH GAP]. apply field_list_inv in CH as [E [ND C]]. subst es.
  destruct (read_items_inv _ _ _ _ _ _ _ _ (keeps_struct (ss_shape i) fs) H1 eq_refl) as [-> I].
  destruct (read_items_inv _ _ _ _ _ _ _ _ (keeps_clean (ss_shape i) fs) H1 eq_refl) as [_ K].
  assert (I0 : struct_inv (ss_shape i) fs sst_init). { repeat split; cbn; auto; discriminate. }
  assert (K0 : clean (w_default sst_init)) by (cbn; discriminate).
  apply I in I0 as [I1 [I2 I3]]. apply K in K0. apply read_all_inv in RA as [_ RA].
  exists fs. constructor; cbn [i_shape i_fields i_default i_transparent i_unknown_ok]; auto.
  - unfold fs1. destruct (w_default st); cbn; auto. now destruct K0.
  - apply ND. constructor.
  - intros SH l2 f l3 g l4 EF NV. apply (GAP SH (rev l4) g (rev l3) f (rev l2)); auto.
    rewrite EF, rev_app_distr. cbn [rev]. rewrite rev_app_distr. cbn [rev]. rewrite <- !app_assoc. reflexivity.
  - destruct (w_transparent st); cbn; try congruence. eauto.
  - intro SH. now rewrite I2.
  - intro SH. now rewrite I3.
Qed.
End J.
