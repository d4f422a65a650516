(** From the source of a struct with flattened, append and rest fields to the values it parses *)
From Verif Require Import LemLocal LemMap LemWf LemWfD LemSmall LemStruct LemStructP LemNamed LemRun LemSchema LemSchema5 LemSchema6 LemOpts4 LemOpts7 LemSplit LemFlat.
From Verif Require Export LemSource SpecFSource.

Section A.
Context {env : Env} {V : Type}.
Variable ru : rust V.
Definition kind_by (f : src_field) (os : list fopt) : fkind V :=
  match role_of os with
  | Single => KItem (impl_of ru f os)
  | Flattened p => KFlatN p (flat_of ru f os)
  | Appended => KAppend (append_of ru f os)
  | Rest => KRest (rest_of ru f os)
  end.
Lemma first_true l : SpecOpts.once l -> sv_true (first_of l) = existsb fst l.
Proof. unfold SpecOpts.once. destruct l as [|[b sp] [|y l]]; cbn; intro; auto; try lia. now rewrite orb_false_r. Qed.
Lemma kind_as f os : consistent_f f os -> sf_ident f <> None -> g_kind ru false (meaning_f f os) = kind_by f os.
Proof.
  intros [[O1 [O2 [O3 _]]] _] NI. unfold g_kind, kind_by, role_of, flatten_true. cbn [meaning_f g_append g_rest g_flatten g_src].
  rewrite !first_true by auto. destruct (existsb fst (appends os)).
  { unfold g_type, append_of. cbn [meaning_f g_with g_src]. destruct (withs os); reflexivity. }
  destruct (existsb fst (rests os)).
  { unfold g_type, rest_of. cbn [meaning_f g_with g_src]. destruct (withs os); reflexivity. }
  unfold SpecOpts.once in O1. destruct (flattens os) as [|x [|y l]]; cbn [first_of filter length] in *; try lia.
  - unfold g_type, impl_of. cbn [meaning_f g_with g_src]. destruct (withs os); reflexivity.
  - destruct (ff_value x).
    + destruct (sf_ident f); [|congruence]. unfold g_type, flat_of. cbn [meaning_f g_with g_src]. destruct (withs os); reflexivity.
    + unfold g_type, impl_of. cbn [meaning_f g_with g_src]. destruct (withs os); reflexivity.
Qed.

Variables (whole : option (list V)) (tm : tmode V).
Variable s : sdef V.
Variables (fs : list src_field) (oss : list (list fopt)).
Hypothesis LEN : length fs = length oss.
Hypothesis LF : s_fields tm s = map (made_as ru whole tm kind_by) (combine fs oss).
Hypothesis LD : s_default s = whole.
Lemma nth_as n g : nth_error (map (made_as ru whole tm kind_by) (combine fs oss)) n = Some g -> exists f os, nth_error fs n = Some f /\ nth_error oss n = Some os /\ g = made_as ru whole tm kind_by (f, os).
Proof.
  rewrite nth_error_map. destruct (nth_error (combine fs oss) n) as [[f os]|] eqn:N; [|discriminate]. injection 1 as <-. apply nth_ps in N as [A B]; auto. exists f, os. auto.
Qed.
Lemma raw_as n f : nth_error (s_raw s) n = Some f -> exists g os, nth_error fs n = Some g /\ nth_error oss n = Some os /\
  field_default s tm f = default_for ru whole tm g os /\ f_kind f = kind_by g os /\
  f_transforms f = map (lower_transform ru) (transforms os) /\ f_container f = is_object os /\
  f_ident f = match sf_ident g with Some x => fst x | None => "" end /\ is_parsable f = takes os /\
  f_names f = map fst (names_f g os) /\ f_skip f = is_skipped os.
Proof.
  intro N. destruct (s_fields_eff tm s n f N) as [g [N2 [A [B [C [D [E1 [E2 F]]]]]]]].
  destruct (fields_same s tm) as [h [H1 H2]]. assert (g = h f). { rewrite H1, nth_error_map, N in N2. now injection N2 as <-. }
  rewrite LF in N2. apply nth_as in N2 as [sf [os [N3 [N4 ->]]]]. exists sf, os. split; auto. split; auto.
  destruct (H2 f) as [_ [Q1 [Q2 Q3]]]. rewrite <- H in Q1, Q2, Q3.
  cbn in A, B, C, D, F, Q1, Q2, Q3. repeat split; auto.
  unfold is_parsable, takes. rewrite <- Q2, <- Q3. apply andb_comm.
Qed.
Lemma as_raw n g os : nth_error fs n = Some g -> nth_error oss n = Some os -> exists f, nth_error (s_raw s) n = Some f.
Proof.
  intros A B. destruct (nth_error (s_raw s) n) as [f|] eqn:E; [eauto|]. exfalso. apply nth_error_None in E. rewrite <- (s_fields_len tm s), LF, map_length, combine_length in E.
  assert (n < length fs) by (apply nth_error_Some; congruence). lia.
Qed.

Hypothesis KP : Forall2 (keeps_to_part ru) fs oss.
Lemma kp_nth n g os : nth_error fs n = Some g -> nth_error oss n = Some os -> keeps_to_part ru g os.
Proof. clear LEN LF. intros A B. revert n A B. induction KP; intros [|n] N1 N2; cbn in *; try discriminate; eauto. injection N1 as <-. injection N2 as <-. auto. Qed.
Lemma keys_kind g os : keeps_to_part ru g os -> takes os = true ->
  keys_of ru g os = match kind_by g os with KFlatN (Some p) u => join_paths p (fn_names u) | KFlatN None u => fn_names u | _ => map fst (names_f g os) end.
Proof.
  intros K T. specialize (K T). unfold keys_of, kind_by. rewrite T. destruct (role_of os) as [|[p|]| |]; auto.
  - destruct K as [PL _]. unfold join_paths. apply map_ext. intro n. rewrite join_path_like by (apply PL; auto). cbn [prefix_text]. now rewrite app_str_assoc.
  - cbn [prefix_text]. rewrite <- (map_id (fn_names (flat_of ru g os))) at 2. apply map_ext. reflexivity.
Qed.
Lemma names_keys n f g os : nth_error (s_raw s) n = Some f -> nth_error fs n = Some g -> nth_error oss n = Some os -> names_of f = keys_of ru g os.
Proof.
  intros N N1 N2. destruct (raw_as n f N) as [g' [os' [N1' [N2' [_ [K [_ [_ [_ [P [NM _]]]]]]]]]]]. assert (g' = g) by congruence. assert (os' = os) by congruence. subst g' os'.
  unfold names_of. rewrite P. destruct (takes os) eqn:T; [|unfold keys_of; now rewrite T].
  rewrite (keys_kind g os (kp_nth n g os N1 N2) T). unfold field_key_names. rewrite K. destruct (kind_by g os) as [d|[p|] u|u|a|r]; auto.
Qed.
Lemma list_nth_ext {A B C} (p : A -> list C) (q : B -> list C) : forall (l : list A) (m : list B), length l = length m ->
  (forall n x y, nth_error l n = Some x -> nth_error m n = Some y -> p x = q y) -> flat_map p l = flat_map q m.
Proof.
  induction l as [|a l IH]; intros [|b m] L H; cbn in *; try discriminate; auto. injection L as L. rewrite (H 0 a b eq_refl eq_refl). f_equal. apply IH; auto. intros n x y. apply (H (S n)).
Qed.
Lemma all_names : s_names s = all_keys ru fs oss.
Proof.
  unfold s_names, fields_names, all_keys. apply (list_nth_ext _ (fun p => keys_of ru (fst p) (snd p))).
  - rewrite <- (s_fields_len tm s), LF, map_length. reflexivity.
  - intros n f [g os] N M. apply nth_ps in M as [N1 N2]; auto. exact (names_keys n f g os N N1 N2).
Qed.

Hypothesis ND : NoDup (map fst (flat_map g_idents (map (fun p => meaning_f (fst p) (snd p)) (combine fs oss)))).
Hypothesis FA : flat_apart ru fs oss.
Lemma keys_apart i j f g os os' k : nth_error fs i = Some f -> nth_error oss i = Some os -> nth_error fs j = Some g -> nth_error oss j = Some os' ->
  In k (keys_of ru f os) -> In k (keys_of ru g os') -> i = j.
Proof.
  intros N1 N2 M1 M2 I J. destruct (Nat.eq_dec i j) as [|NE]; auto. exfalso.
  assert (NF : forall f os, (forall p, role_of os <> Flattened p) -> In k (keys_of ru f os) -> In k (map fst (names_f f os))).
  { intros f0 os0 NF X. unfold keys_of in X. destruct (takes os0); [|destruct X]. destruct (role_of os0) as [|p| |]; auto. now elim (NF p). }
  assert (DEC : forall os, (exists p, role_of os = Flattened p) \/ (forall p, role_of os <> Flattened p)).
  { intro os0. destruct (role_of os0) as [|p| |]; [right; discriminate|left; eauto|right; discriminate|right; discriminate]. }
  destruct (DEC os) as [[p R]|R]; [exact (FA i j f g os os' p k N1 N2 M1 M2 NE R I J)|].
  destruct (DEC os') as [[p R']|R']; [exact (FA j i g f os' os p k M1 M2 N1 N2 (not_eq_sym NE) R' J I)|].
  apply NE, (names_apart fs oss LEN ND i j f os g os' k); auto.
Qed.
Lemma source_separate : separate s.
Proof.
  intros i j f g n N M I J. destruct (raw_as i f N) as [f' [os [N1 [N2 _]]]]. destruct (raw_as j g M) as [g' [os' [M1 [M2 _]]]].
  rewrite (names_keys i f f' os) in I by auto. rewrite (names_keys j g g' os') in J by auto. eapply keys_apart; eauto.
Qed.

Definition pt (f : field V) (its : list (list token)) : list (list token) :=
  match f_kind f with KRest _ => unclaimed (s_names s) its | _ => part "" (names_of f) its end.
Lemma pt_in f its seg : In seg (pt f its) -> In seg its.
Proof. unfold pt, part, unclaimed. destruct (f_kind f); intro I; now apply filter_In in I. Qed.
Lemma pt_idem f its : pt f (pt f its) = pt f its.
Proof. unfold pt, part, unclaimed. destruct (f_kind f); apply filter_filter; auto. Qed.
Lemma pt_call sp f l l' w : In f (s_raw s) -> pflat f = true -> keyed l -> keyed l' -> pt f (items_of l) = pt f (items_of l') ->
  fst (flat_call f "" sp (s_names s) l) = Ok w <-> fst (flat_call f "" sp (s_names s) l') = Ok w.
Proof.
  intros I PF K K' E. apply In_nth_error in I as [n N]. destruct (raw_as n f N) as [g [os [N1 [N2 [_ [KD [_ [_ [_ [P _]]]]]]]]]].
  pose proof (kp_nth n g os N1 N2) as KO. rewrite (pflat_parsable f PF) in P. specialize (KO (eq_sym P)). unfold kind_by in KD.
  assert (RT : (forall r, f_kind f <> KRest r) -> routes "" f -> fst (flat_call f "" sp (s_names s) l) = Ok w <-> fst (flat_call f "" sp (s_names s) l') = Ok w).
  { intros NR RT. apply flat_call_routes; auto; [now left|]. unfold pt in E. destruct (f_kind f); auto. now elim (NR r). }
  destruct (role_of os) as [|[p|]| |].
  - exfalso. unfold pflat, is_flat in PF. rewrite KD in PF. rewrite andb_false_r in PF. discriminate.
  - apply RT; [congruence|]. intros _. rewrite KD. destruct KO as [PL BK]. split; auto.
  - apply RT; [congruence|]. intros _. rewrite KD. destruct KO as [PL BK]. split; auto.
  - apply RT; [congruence|]. intros _. rewrite KD. exact KO.
  - unfold flat_call. rewrite KD. apply KO; auto. unfold pt in E. now rewrite KD in E.
Qed.
Lemma written_holds n f g os seg w : nth_error (s_raw s) n = Some f -> nth_error fs n = Some g -> nth_error oss n = Some os -> role_of os = Single -> takes os = true ->
  written "" f seg w <-> holds_value ru g os seg w.
Proof.
  intros N N1 N2 RO T. destruct (raw_as n f N) as [g' [os' [N1' [N2' [_ [K [_ [_ [_ [P [NM SK]]]]]]]]]]]. assert (g' = g) by congruence. assert (os' = os) by congruence. subst g' os'.
  unfold written, holds_value, named_by, names_it, item_named, first_name. rewrite K, NM. unfold kind_by. rewrite RO.
  unfold takes in T. apply andb_true_iff in T as [T1 T2]. apply negb_true_iff in T1, T2.
  split; intros [k [ksp [body [A [B C]]]]]; exists k, ksp, body; split; auto.
  - destruct B as [x [I ->]]. auto.
  - destruct B as [_ [_ I]]. split; auto. exists k. auto.
Qed.
Lemma left_without sp n f g os v : nth_error (s_raw s) n = Some f -> nth_error fs n = Some g -> nth_error oss n = Some os ->
  (takes os = true -> role_of os = Single) ->
  left_out s tm "" sp n f v <-> obtains ru whole tm sp [] n g os v.
Proof.
  intros N1 N2 N3 RS. destruct (raw_as n f N1) as [g' [os' [N2' [N3' [A [B [C [D [E [F _]]]]]]]]]]. assert (g' = g) by congruence. assert (os' = os) by congruence. subst g' os'.
  assert (LB : missing_name_named tm "" f = label_of tm g).
  { unfold missing_name_named, label_of, join_path. cbn [is_empty_str]. rewrite E. destruct (sf_ident g) as [[x q]|]; destruct tm as [|[p|] o]; reflexivity. }
  assert (NI : forall seg, In seg [] -> ~ is_for g os seg) by (intros ? []).
  assert (SG : is_object os = false -> default_for ru whole tm g os = None -> whole = None -> role_of os = Single).
  { intros O DN WN. apply RS. unfold takes. rewrite O. destruct (is_skipped os) eqn:SK; auto. exfalso. unfold default_for in DN. rewrite SK, WN in DN. destruct (default_by _ _ _); discriminate DN. }
  split.
  - intros [pn obj E1 E2 T|w E1 E2 T|t E1 E2 E3 E4|d w E1 E2 E3 E4 E5 T].
    + apply (Ob_object ru whole tm sp [] n g os v pn obj); auto; [congruence|]. apply converted_ok. congruence.
    + apply (Ob_default ru whole tm sp [] n g os v w); auto; [intro; rewrite <- D; auto|congruence|]. apply converted_ok. congruence.
    + apply (Ob_whole ru whole tm sp [] n g os v t); auto; [intro; rewrite <- D; auto|congruence|congruence].
    + assert (RO : role_of os = Single) by (apply SG; congruence). unfold kind_by in B. rewrite RO in B.
      apply (Ob_missing ru whole tm sp [] n g os v w); auto; try congruence. apply converted_ok. congruence.
  - intros [seg w I G T|pn obj E1 E2 T|w NO E1 E2 T|t NO E1 E2 E3 E4|w NO E1 E2 E3 E4 T].
    + destruct I.
    + apply (LO_container s tm "" sp n f v pn obj); auto; [congruence|]. rewrite C. now apply converted_ok.
    + apply (LO_default s tm "" sp n f v w); [intro; rewrite D; auto|congruence|]. rewrite C. now apply converted_ok.
    + apply (LO_struct s tm "" sp n f v t); [intro; rewrite D; auto|congruence|congruence|auto].
    + assert (RO : role_of os = Single) by auto. unfold kind_by in B. rewrite RO in B.
      apply (LO_missing s tm "" sp n f v (impl_of ru g os) w); try congruence. rewrite C. now apply converted_ok.
Qed.
Lemma part_draws sp its n f g os v : nth_error (s_raw s) n = Some f -> nth_error fs n = Some g -> nth_error oss n = Some os ->
  field_part_of pt s tm "" sp its n f v <-> draws ru (all_keys ru fs oss) whole tm sp its n g os v.
Proof.
  intros N N1 N2. pose proof (names_keys n f g os N N1 N2) as NK. pose proof (written_holds n f g os) as WH. pose proof (left_without sp n f g os v N N1 N2) as LW.
  destruct (raw_as n f N) as [g' [os' [N1' [N2' [_ [K [TR [_ [_ [P [NM _]]]]]]]]]]]. assert (g' = g) by congruence. assert (os' = os) by congruence. subst g' os'.
  assert (PF : pflat f = (takes os && match role_of os with Single => false | _ => true end)%bool).
  { unfold pflat, is_flat. rewrite P, K. unfold kind_by. destruct (role_of os) as [|p| |]; reflexivity. }
  assert (PI : pitem f = (takes os && match role_of os with Single => true | _ => false end)%bool).
  { unfold pitem, is_flat. rewrite P, K. unfold kind_by. destruct (role_of os) as [|p| |]; reflexivity. }
  rewrite <- all_names. split.
  - intros [seg w A B C T|A B C|l w A B C T].
    + rewrite PI in A. apply andb_true_iff in A as [A1 A2]. assert (RO : role_of os = Single) by (destruct (role_of os); discriminate || auto).
      rewrite NK in B. apply (Dr_item ru _ whole tm sp its n g os v seg w); auto; [now apply WH|]. apply converted_ok. congruence.
    + rewrite NK in B. rewrite PF in A. assert (RS : takes os = true -> role_of os = Single). { intro TT. rewrite TT in A. destruct (role_of os); discriminate || auto. }
      apply Dr_without; auto. now apply LW.
    + rewrite PF in A. apply andb_true_iff in A as [A1 A2]. unfold flat_call in C. unfold pt in B. rewrite TR in T. apply converted_ok in T.
      rewrite K in B, C. unfold kind_by in B, C. destruct (role_of os) as [|p| |] eqn:RO; try discriminate.
      * rewrite NK in B. apply (Dr_flatten ru _ whole tm sp its n g os v p l w); auto; destruct p; exact C.
      * rewrite NK in B. apply (Dr_append ru _ whole tm sp its n g os v l w); auto.
        unfold join_paths in C. rewrite NM in C. unfold keys_of. rewrite A1, RO. rewrite <- C. change (map (join_path "")) with (map (fun x : string => x)). now rewrite map_id.
      * apply (Dr_rest ru _ whole tm sp its n g os v l w); auto.
  - intros [seg w RO B C T|RS B C|p l w T1 RO B C T|l w T1 RO B C T|l w T1 RO B C T]; try (rewrite converted_ok, <- TR in T); try rewrite <- NK in B.
    + assert (T1 : takes os = true). { destruct C as [k [ksp [body [_ [[C1 [C2 _]] _]]]]]. unfold takes. now rewrite C1, C2. }
      apply (FG_item pt s tm "" sp its n f v seg w); auto; [rewrite PI, T1, RO; reflexivity|now apply WH].
    + apply (FG_none pt s tm "" sp its n f v); auto; [|now apply LW]. rewrite PF. destruct (takes os); auto. now rewrite RS.
    + apply (FG_flat pt s tm "" sp its n f v l w); auto; [rewrite PF, T1, RO; reflexivity|unfold pt; rewrite K; unfold kind_by; rewrite RO; exact B|].
      unfold flat_call. rewrite K. unfold kind_by. rewrite RO. destruct p; exact C.
    + apply (FG_flat pt s tm "" sp its n f v l w); auto; [rewrite PF, T1, RO; reflexivity|unfold pt; rewrite K; unfold kind_by; rewrite RO; exact B|].
      unfold flat_call. rewrite K. unfold kind_by. rewrite RO. rewrite NM. unfold keys_of in C. rewrite T1, RO in C. rewrite <- C. f_equal. f_equal. unfold join_paths.
      rewrite <- (map_id (map fst (names_f g os))) at 2. apply map_ext. reflexivity.
    + apply (FG_flat pt s tm "" sp its n f v l w); auto; [rewrite PF, T1, RO; reflexivity|unfold pt; rewrite K; unfold kind_by; rewrite RO; exact B|].
      unfold flat_call. rewrite K. unfold kind_by. rewrite RO. exact C.
Qed.
End A.

Section F.
Context {env : Env} {V : Type}.
Variable ru : rust V.
Variable sy : synlib.
Hypothesis SY : good_syn_lib sy.
Variables (auto : list V) (expr : list token -> list V) (post : list token -> list V -> list V + synerr).
Lemma l_source_parts (tm : tmode V) i d oss so inputs sp v r ws : good_rust ru -> written_struct i -> ss_shape i = ShNamed -> derived sy tm i d ->
  Forall2 (fun f os => has_options (spells_f sy) (sf_attrs f) os) (ss_fields i) oss -> has_options (spells_s sy) (ss_attrs i) so ->
  (forall x, In (STransparent x) so -> st_value x = false) ->
  Forall2 (keeps_to_part ru) (ss_fields i) oss -> flat_apart ru (ss_fields i) oss ->
  (forall t, default_by auto expr (s_defaults so) = Some t -> length t = length (ss_fields i)) ->
  parse_run (lower_struct ru auto expr post d) tm "" v sp inputs r ->
  r = Ok ws <-> exists vs,
    source_parts ru (ss_fields i) oss (default_by auto expr (s_defaults so)) (existsb (fun b => b) (s_unknowns so) || negb v)%bool tm sp (items_of inputs) vs /\
    chained (map post (s_and_thens_of so)) vs ws.
Proof.
  intros G W SH D F H T KP FA TL RU.
  assert (LF : s_fields tm (lower_struct ru auto expr post d) = map (made_as ru (default_by auto expr (s_defaults so)) tm (kind_by ru)) (combine (ss_fields i) oss)).
  { apply (lowered_as ru sy SY); auto. intros f os I C. apply kind_as; auto. apply in_combine_l in I. unfold written_struct, fields_fit in W. rewrite SH in W. rewrite Forall_forall in W. exact (W f I). }
  pose proof (lowered_default ru sy SY auto expr post _ _ _ _ _ D F H) as LD. destruct (derived_schema sy SY _ _ _ _ _ D F H) as [FC [CS DE]].
  set (s := lower_struct ru auto expr post d) in *. set (whole := default_by auto expr (s_defaults so)) in *.
  assert (LEN : length (ss_fields i) = length oss) by (clear - F; induction F; cbn; auto).
  assert (DF : i_shape d = ss_shape i /\ i_transparent d = first_of (s_transparents so) /\ i_unknown_ok d = first_of (s_unknowns so) /\ i_and_thens d = s_and_thens_of so) by (rewrite DE; destruct tm; auto).
  destruct DF as [DS [DT [DU DA]]].
  assert (SHP : s_shape s = ShNamed) by (cbn; congruence).
  assert (TR : st_true (i_transparent d) = false).
  { rewrite DT. destruct (s_transparents so) as [|x l] eqn:E; auto. cbn. apply T. assert (I : In x (s_transparents so)) by (rewrite E; now left).
    unfold s_transparents in I. apply in_flat_map in I as [o [I J]]. destruct o; cbn in J; try contradiction. destruct J as [->|[]]. exact I. }
  assert (UO : s_unknown_ok s = existsb (fun b => b) (s_unknowns so)).
  { cbn [s lower_struct s_unknown_ok]. rewrite DU. destruct CS as [[_ [O _]] _]. unfold SpecOpts.once in O. destruct (s_unknowns so) as [|b [|c l]]; cbn in *; try lia; auto. now destruct b. }
  assert (LR : length (s_raw s) = length (ss_fields i)) by (rewrite <- (s_fields_len tm s), LF, map_length, combine_length; lia).
  assert (NS : named_struct s).
  { split; [|split; auto].
    - apply (l_struct_bridge sy ru i d); [exact G|exact W| |rewrite TR; discriminate]. unfold derived in D. destruct tm; auto.
    - rewrite LD, LR. exact TL. }
  pose proof (raw_as ru whole tm s (ss_fields i) oss LEN LF) as RA.
  assert (LFd : Forall local_field (s_raw s)).
  { apply Forall_forall. intros f I PI n nsp. apply In_nth_error in I as [m N]. destruct (RA m f N) as [g [os [N1 [N2 [_ [K [_ [_ [_ [P _]]]]]]]]]].
    pose proof (kp_nth ru _ _ KP m g os N1 N2) as KO. rewrite (pitem_parsable f PI) in P. specialize (KO (eq_sym P)).
    unfold item_named. rewrite K. unfold kind_by. unfold pitem, is_flat in PI. rewrite K in PI. unfold kind_by in PI.
    destruct (role_of os) as [|p| |]; try (rewrite andb_false_r in PI; discriminate). exact (ld_named _ KO n nsp). }
  assert (ND : NoDup (map fst (flat_map g_idents (map (fun p => meaning_f (fst p) (snd p)) (combine (ss_fields i) oss))))) by apply CS.
  pose proof (source_separate ru whole tm s _ _ LEN LF KP ND FA) as SE.
  pose proof (all_names ru whole tm s _ _ LEN LF KP) as AN.
  rewrite (l_split_of (pt s) s tm "" v sp inputs r ws RU NS LFd (pt_in s) (pt_idem s) (pt_call ru whole tm s _ _ LEN LF KP sp) SE (or_introl eq_refl) (fun _ => eq_refl)).
  assert (AT : s_and_thens s = map post (s_and_thens_of so)) by (cbn; now rewrite DA). rewrite AT, <- UO, AN.
  pose proof (fun its n f g os x => part_draws ru whole tm s _ _ LEN LF LD KP sp its n f g os x) as PD.
  assert (KE : keyed inputs <-> forall seg, In seg (items_of inputs) -> item_key seg <> None).
  { unfold keyed. rewrite Forall_forall. split; intros X seg I; specialize (X seg I).
    - destruct X as [k [ksp [body E]]]. congruence.
    - destruct (item_key seg) as [[[k ksp] body]|]; [eauto|now elim X]. }
  unfold source_parts. split.
  - intros [vs [A [B [C [E I]]]]]. exists vs. split; auto. split; [now apply KE|]. split; [|split; [congruence|]].
    + intro L. apply orb_false_iff in L as [L1 L2]. apply negb_false_iff in L2. auto.
    + intros n g os x N1 N2 N3. destruct (as_raw ru whole tm s _ _ LEN LF n g os N1 N2) as [f N]. apply (PD _ n f g os x N N1 N2). auto.
  - intros [vs [[C [E [B I]]] A]]. exists vs. split; auto. split; [congruence|]. split; [now apply KE|]. split.
    + intros V1 U1. apply E. now rewrite U1, V1.
    + intros n f x N N3. destruct (RA n f N) as [g [os [N1 [N2 _]]]]. apply (PD _ n f g os x N N1 N2). auto.
Qed.
End F.

(** *** rest *)
Section R.
Context {env : Env}.
Lemma selected_unclaimed {K} (kstr : K -> string) (dk : dict K) ex its sel : keys_as_written kstr dk ->
  Forall (fun seg => exists k ksp body, item_key seg = Some (k, ksp, body)) its ->
  selected kstr dk ex its sel <-> sel = unclaimed ex its.
Proof.
  intros RK F. assert (S1 : selected kstr dk ex its (unclaimed ex its)).
  { induction F as [|seg its [k [ksp [body E]]] F IH]; [constructor|]. destruct (RK seg k ksp body E) as [x [b' [KO <-]]].
    unfold unclaimed in *. cbn [filter]. destruct (addressed "" ex seg) eqn:AD; cbn [negb].
    - apply addressed_spec in AD as [k' [ksp' [body' [n [E' [I ->]]]]]]. rewrite E in E'. injection E' as E1 _ _.
      eapply Sel_skip; eauto. rewrite E1. exact I.
    - eapply Sel_take; eauto. intro I. enough (addressed "" ex seg = true) by congruence. apply addressed_spec. exists (kstr x), ksp, body, (kstr x). auto. }
  split; [intro S2; exact (selected_det (fun _ _ => true) kstr dk ex its _ _ S2 S1)|intros ->; exact S1].
Qed.
Lemma l_map_rest_keys {K A B} eqb (kstr : K -> string) (dk : dict K) (dv : dict A) (g : list (K * A) -> B) : fine dk -> fine dv -> nonempty_keys dk -> keys_as_written kstr dk ->
  rest_by_keys (fun ex => pmap g (map_rest eqb kstr dk dv ex)).
Proof.
  intros FK FV NE RK names l l' v KL KL' E.
  assert (X : forall kvs, fst (map_rest eqb kstr dk dv names l) = Ok kvs <-> fst (map_rest eqb kstr dk dv names l') = Ok kvs).
  { intro kvs. rewrite !rest_ok by auto. split; intros [sel [S1 S2]]; exists sel; split; auto; apply selected_unclaimed in S1; auto; apply selected_unclaimed; auto; congruence. }
  rewrite !pmap_ok. split; intros [kvs [H1 H2]]; exists kvs; split; auto; now apply X.
Qed.
Lemma l_path_reads {K} (kstr : K -> string) (g : path -> K) : (forall p, kstr (g p) = path_key p) ->
  keys_as_written kstr (dict_map g (syn_dict parse_any_path)).
Proof.
  intros H seg k ksp body E. unfold item_key in E. destruct (parse_any_path (root_stream seg)) as [[p|e|b] s1] eqn:P; try discriminate.
  injection E as <- <- <-. exists (g p), (toks s1). split; [|apply H]. intros tl sc c EN. pose proof (path_item seg tl sc c EN) as Q. rewrite P in Q.
  cbn [dict_map d_item]. unfold pmap. change (d_item (syn_dict parse_any_path) Unnamed) with parse_any_path. unfold pbind. rewrite Q. auto.
Qed.
End R.
