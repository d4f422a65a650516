(** From the source of a tuple struct to the values it parses *)
From Verif Require Import LemWf LemWfD LemSmall LemStruct LemStructP LemNamed LemRun LemSchema LemSchema5 LemSchema6 LemOpts4 LemOpts7 LemTStruct LemSplit.
From Verif Require Export LemSource.
From Verif Require Import SpecColl.

Section K.
Context {env : Env} {V : Type}.
Variable ru : rust V.
Variables (whole : option (list V)) (tm : tmode V).
Lemma in_order_made fs : forall oss its gs, length fs = length oss ->
  positional (map (made ru whole tm) (combine fs oss)) its gs <-> in_order ru fs oss its gs.
Proof.
  assert (PM : forall f os, is_parsable (made ru whole tm (f, os)) = takes os) by (intros; unfold is_parsable, takes; cbn; apply andb_comm).
  induction fs as [|f fs IH]; intros [|os oss] its gs L; try discriminate; cbn [combine map].
  - split; intro H; inversion H; constructor.
  - injection L as L. split; intro H; inversion H; subst.
    + match goal with P : is_parsable ?x = _ |- _ => change x with (made ru whole tm (f, os)) in P; rewrite PM in P end. match goal with K : f_kind _ = KItem _ |- _ => cbn in K; injection K as <- end. apply IO_value; auto. now apply IH.
    + match goal with P : is_parsable ?x = _ |- _ => change x with (made ru whole tm (f, os)) in P; rewrite PM in P end. apply IO_short; auto. now apply IH.
    + match goal with P : is_parsable ?x = _ |- _ => change x with (made ru whole tm (f, os)) in P; rewrite PM in P end. apply IO_other; auto. now apply IH.
    + apply (Po_item _ (impl_of ru f os)); auto; [now rewrite PM|now apply IH].
    + apply Po_short; [now rewrite PM|now apply IH].
    + apply Po_other; [now rewrite PM|now apply IH].
Qed.

Variable s : sdef V.
Variables (fs : list src_field) (oss : list (list fopt)).
Hypothesis LEN : length fs = length oss.
Hypothesis LF : s_fields tm s = map (made ru whole tm) (combine fs oss).
Hypothesis LD : s_default s = whole.
Lemma raw_made n f : nth_error (s_raw s) n = Some f -> exists g os, nth_error fs n = Some g /\ nth_error oss n = Some os /\
  field_default s tm f = default_for ru whole tm g os /\ f_kind f = KItem (impl_of ru g os) /\
  f_transforms f = map (lower_transform ru) (transforms os) /\ f_container f = is_object os /\
  f_ident f = match sf_ident g with Some x => fst x | None => "" end /\ is_parsable f = takes os.
Proof.
  intro N. destruct (s_fields_eff tm s n f N) as [g [N2 [A [B [C [D [E1 [E2 F]]]]]]]]. rewrite LF in N2.
  apply (nth_ms ru whole tm fs oss LEN) in N2 as [sf [os [N3 [N4 ->]]]]. exists sf, os. split; auto. split; auto.
  cbn in A, B, C, D, F. repeat split; auto.
  unfold pitem, pflat, is_flat in E1, E2. rewrite <- B in E1, E2. cbn in E1, E2. rewrite !andb_true_r in E1. rewrite <- E1. unfold takes, is_parsable. cbn. apply andb_comm.
Qed.
Lemma made_raw n g os : nth_error fs n = Some g -> nth_error oss n = Some os -> exists f, nth_error (s_raw s) n = Some f.
Proof.
  intros A B. destruct (nth_error (s_raw s) n) as [f|] eqn:E; [eauto|]. exfalso. apply nth_error_None in E. rewrite <- (s_fields_len tm s), LF, map_length, combine_length in E.
  assert (n < length fs) by (apply nth_error_Some; congruence). lia.
Qed.
Lemma left_obtains n f g os v : nth_error (s_raw s) n = Some f -> nth_error fs n = Some g -> nth_error oss n = Some os ->
  left_out s tm "" SCall n f v <-> without_item ru whole tm n g os v.
Proof.
  intros N1 N2 N3. destruct (raw_made n f N1) as [g' [os' [N2' [N3' [A [B [C [D [E F]]]]]]]]]. assert (g' = g) by congruence. assert (os' = os) by congruence. subst g' os'.
  assert (LB : missing_name_named tm "" f = label_of tm g).
  { unfold missing_name_named, label_of, join_path. cbn [is_empty_str]. rewrite E. destruct (sf_ident g) as [[x q]|]; destruct tm as [|[p|] o]; reflexivity. }
  assert (NI : forall seg, In seg [] -> ~ is_for g os seg) by (intros ? []).
  unfold without_item. split.
  - intros [pn obj E1 E2 T|w E1 E2 T|t E1 E2 E3 E4|d w E1 E2 E3 E4 E5 T].
    + apply (Ob_object ru whole tm SCall [] n g os v pn obj); auto; [congruence|]. apply converted_ok. congruence.
    + apply (Ob_default ru whole tm SCall [] n g os v w); auto; [intro; rewrite <- D; auto|congruence|]. apply converted_ok. congruence.
    + apply (Ob_whole ru whole tm SCall [] n g os v t); auto; [intro; rewrite <- D; auto|congruence|congruence].
    + apply (Ob_missing ru whole tm SCall [] n g os v w); auto; try congruence. apply converted_ok. congruence.
  - intros [seg w I G T|pn obj E1 E2 T|w NO E1 E2 T|t NO E1 E2 E3 E4|w NO E1 E2 E3 E4 T].
    + destruct I.
    + apply (LO_container s tm "" SCall n f v pn obj); auto; [congruence|]. rewrite C. now apply converted_ok.
    + apply (LO_default s tm "" SCall n f v w); [intro; rewrite D; auto|congruence|]. rewrite C. now apply converted_ok.
    + apply (LO_struct s tm "" SCall n f v t); [intro; rewrite D; auto|congruence|congruence|auto].
    + apply (LO_missing s tm "" SCall n f v (impl_of ru g os) w); try congruence. rewrite C. now apply converted_ok.
Qed.
Lemma tuple_source its vs : (forall its gs, positional (s_fields tm s) its gs <-> positional (s_raw s) its gs) ->
  (exists gs, positional (s_raw s) its gs /\ tuple_values s tm gs vs) <-> source_tuple ru fs oss whole tm its vs.
Proof.
  intro PP. assert (LR : length (s_raw s) = length fs) by (rewrite <- (s_fields_len tm s), LF, map_length, combine_length; lia).
  unfold source_tuple, tuple_values. split.
  - intros [gs [PO [L H]]]. exists gs. rewrite <- PP, LF, in_order_made in PO by auto. split; auto. split; [congruence|].
    intros n g os o v N1 N2 N3 N4. destruct (made_raw n g os N1 N2) as [f N]. specialize (H n f o v N N3 N4).
    destruct o as [w|].
    + destruct (raw_made n f N) as [g' [os' [N1' [N2' [_ [_ [C _]]]]]]]. assert (os' = os) by congruence. subst. apply converted_ok. congruence.
    + now apply (left_obtains n f g os v N N1 N2).
  - intros [gs [IO [L H]]]. exists gs. rewrite <- PP, LF, in_order_made by auto. split; auto. split; [congruence|].
    intros n f o v N N3 N4. destruct (raw_made n f N) as [g [os [N1 [N2 [_ [_ [C _]]]]]]]. specialize (H n g os o v N1 N2 N3 N4).
    destruct o as [w|].
    + rewrite C. now apply converted_ok.
    + now apply (left_obtains n f g os v N N1 N2).
Qed.
End K.

Section F.
Context {env : Env} {V : Type}.
Variable ru : rust V.
Variable sy : synlib.
Hypothesis SY : good_syn_lib sy.
Variables (auto : list V) (expr : list token -> list V) (post : list token -> list V -> list V + synerr).
Lemma l_source_tuple (tm : tmode V) i d oss so p inputs ws : good_rust ru -> written_struct i -> ss_shape i = ShUnnamed -> derived sy tm i d ->
  Forall2 (fun f os => has_options (spells_f sy) (sf_attrs f) os) (ss_fields i) oss -> has_options (spells_s sy) (ss_attrs i) so ->
  Forall plain oss -> (forall x, In (STransparent x) so -> st_value x = false) ->
  Forall2 (fun f os => fine (impl_of ru f os) /\ uniform ru f os) (ss_fields i) oss ->
  (forall t, default_by auto expr (s_defaults so) = Some t -> length t = length (ss_fields i)) ->
  tuple_run (lower_struct ru auto expr post d) tm p -> no_blank inputs ->
  whole p inputs ws <-> exists vs,
    source_tuple ru (ss_fields i) oss (default_by auto expr (s_defaults so)) tm (items_of inputs) vs /\
    chained (map post (s_and_thens_of so)) vs ws.
Proof.
  intros G W SH D F H P T FU TL RU NB. pose proof (lowered_fields ru sy SY auto expr post _ _ _ _ _ D F H P) as LF.
  pose proof (lowered_default ru sy SY auto expr post _ _ _ _ _ D F H) as LD. destruct (derived_schema sy SY _ _ _ _ _ D F H) as [FC [CS DE]].
  set (s := lower_struct ru auto expr post d) in *. set (dflt := default_by auto expr (s_defaults so)) in *.
  assert (LEN : length (ss_fields i) = length oss) by (clear - F; induction F; cbn; auto).
  assert (DF : i_shape d = ss_shape i /\ i_transparent d = first_of (s_transparents so) /\ i_and_thens d = s_and_thens_of so) by (rewrite DE; destruct tm; auto).
  destruct DF as [DS [DT DA]].
  assert (SHP : s_shape s = ShUnnamed) by (cbn; congruence).
  assert (TR : st_true (i_transparent d) = false).
  { rewrite DT. destruct (s_transparents so) as [|x l] eqn:E; auto. cbn. apply T. assert (I : In x (s_transparents so)) by (rewrite E; now left).
    unfold s_transparents in I. apply in_flat_map in I as [o [I J]]. destruct o; cbn in J; try contradiction. destruct J as [->|[]]. exact I. }
  assert (LR : length (s_raw s) = length (ss_fields i)) by (rewrite <- (s_fields_len tm s), LF, map_length, combine_length; lia).
  assert (RM := raw_made ru dflt tm s (ss_fields i) oss LEN LF).
  assert (EACH : forall f, In f (s_raw s) -> exists g os, f_kind f = KItem (impl_of ru g os) /\ fine (impl_of ru g os) /\ uniform ru g os).
  { intros f I. apply In_nth_error in I as [n N]. destruct (RM n f N) as [g [os [N1 [N2 [_ [K _]]]]]]. exists g, os. split; auto.
    clear -FU N1 N2. revert n N1 N2. induction FU; intros [|n] N1 N2; cbn in *; try discriminate; eauto. injection N1 as <-. injection N2 as <-. auto. }
  assert (TS : tuple_struct s).
  { split; [|split; [auto|split]].
    - apply (l_struct_bridge sy ru i d); [exact G|exact W| |rewrite TR; discriminate]. unfold derived in D. destruct tm; auto.
    - unfold no_flat. destruct (existsb pflat (s_raw s)) eqn:E; auto. apply existsb_exists in E as [f [I PF]]. destruct (EACH f I) as [g [os [K _]]].
      unfold pflat, is_flat in PF. rewrite K in PF. rewrite andb_false_r in PF. discriminate.
    - rewrite LD, LR. auto. }
  assert (FI : fine_items s).
  { apply Forall_forall. intros f I d0 _ K. destruct (EACH f I) as [g [os [K2 [FN _]]]]. congruence. }
  assert (UM : Forall uniform_missing (s_raw s)).
  { apply Forall_forall. intros f I d0 n sp w n' sp' K M. destruct (EACH f I) as [g [os [K2 [_ UN]]]]. assert (d0 = impl_of ru g os) by congruence. subst d0. eapply UN; eauto. }
  rewrite (l_tuple_struct s tm p inputs ws RU TS FI UM NB).
  destruct (tuple_fields_ok s tm TS FI UM) as [_ [_ [_ PP]]].
  pose proof (fun vs => tuple_source ru dflt tm s (ss_fields i) oss LEN LF LD (items_of inputs) vs PP) as X.
  assert (AT : s_and_thens s = map post (s_and_thens_of so)) by (cbn; now rewrite DA). rewrite AT.
  split.
  - intros [gs [vs [A [B C]]]]. exists vs. split; auto. apply X. eauto.
  - intros [vs [A C]]. apply X in A as [gs [A B]]. eauto.
Qed.
End F.
