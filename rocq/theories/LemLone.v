(** Proofs for PropsLone.v: an enum with one variant, which is flattened. *)
From Verif Require Import LemWf LemItems LemSmall LemNamed LemStruct LemStructP LemRun LemFlat.
From Verif Require Import LemEnum2 LemEnum3 LemEnum4 LemEnum5 LemEnum6 LemEnum7 LemVariant.
From Verif Require Export SpecVariant SpecEnum.

Section L.
Context {env : Env} {V : Type}.
Implicit Types (v : vdef V) (e : edef V).

Lemma as_struct_reader tm v prefix validate : accepted_variant tm v ->
  struct_reader (as_struct v) tm prefix validate = variant_reader v prefix (negb (v_unknown_ok v) && validate).
Proof.
  intro A. unfold struct_reader, variant_reader. rewrite (as_struct_fields tm v A). cbn [s_unknown_ok as_struct]. f_equal.
Qed.
Lemma gets_check v a b tm sp inputs its i (f : field V) x :
  field_gets (variant_reader v "" a) tm None sp inputs its i f x ->
  field_gets (variant_reader v "" b) tm None sp inputs its i f x.
Proof.
  intros [seg w I G T|w P F T|pn obj E C T|w O P C D T|t O P C D T E|d w O C D T K M T2].
  - exact (G_item (variant_reader v "" b) tm None sp inputs its i f x seg w I G T).
  - exact (G_flat (variant_reader v "" b) tm None sp inputs its i f x w P F T).
  - exact (G_container (variant_reader v "" b) tm None sp inputs its i f x pn obj E C T).
  - exact (G_default (variant_reader v "" b) tm None sp inputs its i f x w O P C D T).
  - discriminate.
  - exact (G_missing (variant_reader v "" b) tm None sp inputs its i f x d w O C D T K M T2).
Qed.
(** a reader that checks the keys, and one that does not *)
Lemma reader_check v tm sp inputs vs :
  parses_to (variant_reader v "" true) tm None sp inputs (items_of inputs) vs <->
  parses_to (variant_reader v "" false) tm None sp inputs (items_of inputs) vs /\
  forall k ksp, In (k, ksp) (keys_in inputs) -> In k (flat_names_of v).
Proof.
  assert (OW : forall k i f, owner_in (variant_reader v "" false) k = Some (i, f) -> In k (flat_names_of v)).
  { intros k i f O. unfold owner_in in O. cbn [r_prefix r_fields variant_reader] in O.
    destruct (strip_prefix "" k) as [k'|] eqn:S; [|discriminate O].
    assert (k' = k) by (cbn in S; congruence). subst k'.
    apply LemNamed.find_field_spec in O as (_ & N & P & I & _). apply nth_error_In in N. unfold v_fields in N.
    apply in_map_iff in N as [g [<- Ig]]. unfold flat_names_of. apply in_flat_map. exists g. split; auto.
    assert (E : f_names (skip_default g) = f_names g /\ pitem (skip_default g) = pitem g).
    { unfold skip_default. destruct (f_default g); [auto|]. destruct (f_skip g) eqn:E; [|auto]. split; [reflexivity|]. unfold pitem, is_parsable, is_flat. cbn. now rewrite E. }
    destruct E as [E1 E2]. rewrite E1 in I. rewrite E2 in P. unfold names_of. unfold pitem in P. apply andb_true_iff in P as [P1 P2]. rewrite P1.
    unfold field_key_names, is_flat in *. destruct (f_kind g); try discriminate P2; exact I. }
  split.
  - intros (H1 & H2 & H3 & H4). split; [split; [|split; [exact H2|split; [exact H3|intros i f x N1 N2; exact (gets_check v true false _ _ _ _ _ _ _ (H4 i f x N1 N2))]]]|].
    + rewrite Forall_forall in *. intros seg I. destruct (H1 seg I) as [G|(k & ksp & body & E & O & A)]; [left; exact G|].
      right. exists k, ksp, body. split; [exact E|split; [exact O|discriminate]].
    + intros k ksp I. apply in_keys_pieces in I as (pc & body & Ip & E).
      rewrite Forall_forall in H1. destruct (H1 (fst pc)) as [(i & x & k' & ksp' & body' & f & E' & O & _)|(k' & ksp' & body' & E' & O & A)].
      * unfold items_of. now apply in_map.
      * assert (k' = k) by congruence. subst k'. exact (OW k i f O).
      * assert (k' = k) by congruence. subst k'. exact (A eq_refl).
  - intros [(H1 & H2 & H3 & H4) K]. split; [|split; [exact H2|split; [exact H3|intros i f x N1 N2; exact (gets_check v false true _ _ _ _ _ _ _ (H4 i f x N1 N2))]]].
    rewrite Forall_forall in *. intros seg I. destruct (H1 seg I) as [G|(k & ksp & body & E & O & A)]; [left; exact G|].
    right. exists k, ksp, body. split; [exact E|split; [exact O|]]. intros _. apply (K k ksp). apply in_keys_pieces.
    unfold items_of in I. apply in_map_iff in I as [pc [<- Ip]]. exists pc, body. auto.
Qed.

Lemma parses_keyed R tm target sp inputs (vs : list V) :
  parses_to R tm target sp inputs (items_of inputs) vs -> keyed inputs.
Proof.
  intros (H & _). unfold keyed. rewrite Forall_forall in *. intros seg I.
  destruct (H seg I) as [(i & x & k & ksp & body & f & E & _)|(k & ksp & body & E & _)]; eauto.
Qed.

Lemma takes_lenient v : takes_all v <-> lenient (as_struct v).
Proof. reflexivity. Qed.
Lemma required_dec (fs : list (field V)) : (exists f, In f fs /\ required f) \/ ~ (exists f, In f fs /\ required f).
Proof.
  induction fs as [|f fs IH]; [right; intros (f & [] & _)|].
  destruct IH as [(g & I & R)|N]; [left; exists g; split; [right|]; auto|].
  destruct (pitem f) eqn:P; [destruct (f_default f) eqn:D|].
  2: { left. exists f. split; [left; auto|split; auto]. }
  all: right; intros (g & [<-|I] & R); [destruct R; congruence|apply N; eauto].
Qed.

Lemma l_lone : forall e v tm validate validate' sp inputs r r' x,
  e_variants e = [v] -> v_flatten v = true -> v_skip v = false ->
  proper_enum tm e -> flat_local e ->
  enum_run e tm "" validate sp inputs r ->
  parse_run (as_struct v) tm "" validate' sp inputs r' -> (validate' = false <-> lenient (as_struct v)) ->
  r = Ok x <-> exists y, chained (e_and_thens e) y x /\
    ((exists vs, y = (0, vs) /\ r' = Ok vs /\ all_present v "" inputs) \/
     (~ all_present v "" inputs /\ keyed inputs /\ e_default e = Some y)).
Proof.
  intros e v tm validate validate' sp inputs r r' x EV FL SK P LO ER SR LN.
  assert (AV : accepted_variant tm v).
  { destruct P as [A _]. unfold accepted_enum in A. rewrite EV in A. now inversion A. }
  assert (SH : v_shape v = ShNamed) by (apply AV; exact FL).
  destruct (LO v) as [LF NM]; [rewrite EV; left; reflexivity|exact FL|].
  assert (NS : named_struct (as_struct v)).
  { split; [split; [|discriminate]|split; [exact SH|discriminate]]. cbn. apply AV. }
  destruct (LemRun.run_body _ _ _ _ _ _ _ SR SH) as [m ->].
  assert (ST : forall vs, fst (s_body (as_struct v) tm m sp "" validate' 0 inputs) = Ok vs <->
    parses_to (variant_reader v "" (negb (v_unknown_ok v) && validate')) tm None sp inputs (items_of inputs) vs).
  { intro vs. rewrite (struct_text (as_struct v) tm m sp "" validate' inputs vs NS LF). cbn [s_default s_and_thens as_struct].
    rewrite (as_struct_reader tm v "" validate' AV). split; [intros (us & Q & CH); inversion CH; now subst|]. intro Q. exists vs. split; [exact Q|constructor]. }
  assert (FA : flattened e 0 v) by (split; [now rewrite EV|auto]).
  assert (ONE : forall j w, flattened e j w -> j = 0 /\ w = v).
  { intros j w [N _]. rewrite EV in N. destruct j as [|j]; cbn in N; [injection N as <-; auto|destruct j; discriminate N]. }
  assert (CHO : forall j w, chosen e "" inputs j w <-> j = 0 /\ w = v /\ all_present v "" inputs).
  { intros j w. split.
    - intros (F & A & _). destruct (ONE j w F) as [-> ->]. auto.
    - intros (-> & -> & A). split; auto. split; auto.
      destruct (required_dec (v_raw v)) as [N|N]; [left; exact N|right]. intros j w F Nw. destruct (ONE j w F) as [-> ->]. now destruct N. }
  assert (VI : variant_items e "" (items_of inputs) = []).
  { unfold variant_items, variant_names. rewrite EV. cbn [flat_map]. rewrite FL. cbn [orb app].
    unfold part. generalize (items_of inputs). induction l as [|seg l IH]; [reflexivity|]. cbn [filter]. unfold addressed at 1.
    destruct (item_key seg) as [[[? ?] ?]|]; exact IH. }
  assert (FO : forall k, ~ foreign e "" 0 v k).
  { intros k (j & w & n & N & _ & J & _). rewrite EV in N. destruct j as [|j]; [now apply J|destruct j; discriminate N]. }
  assert (FW : forall vs, flat_written e tm "" sp inputs 0 v vs <->
    parses_to (variant_reader v "" (negb (v_unknown_ok v) && validate')) tm None sp inputs (items_of inputs) vs).
  { intro vs. assert (CK : (negb (v_unknown_ok v) && validate')%bool = true <-> ~ takes_all v).
    { rewrite takes_lenient. destruct validate'.
      - rewrite andb_true_r. split.
        + intros _ L. apply LN in L. discriminate.
        + intro N. destruct (v_unknown_ok v) eqn:U; auto. destruct N. left. exact U.
      - rewrite andb_false_r. split; [discriminate|]. intro N. destruct N. now apply LN. }
    destruct (required_dec (v_raw v)) as [N|N].
    - split.
      + intros (c & C & Q & _). replace (negb (v_unknown_ok v) && validate')%bool with c; auto.
        destruct c, (negb (v_unknown_ok v) && validate')%bool; auto; symmetry.
        * apply CK, C. reflexivity.
        * exfalso. assert (X : false = true) by (apply C; split; [exact N|apply CK; reflexivity]). discriminate.
      + intro Q. exists (negb (v_unknown_ok v) && validate')%bool. split; [rewrite CK; split; [intro; split; [exact N|auto]|intros [_ H]; exact H]|].
        split; [exact Q|]. split; [intro X; destruct (X N)|]. intros _ _ _ k ksp _. apply FO.
    - destruct (negb (v_unknown_ok v) && validate')%bool eqn:C0.
      + pose proof (proj1 CK eq_refl) as NT. rewrite reader_check. split.
        * intros (c & C & Q & K & _). destruct c; [destruct N; apply C; reflexivity|]. split; [exact Q|]. exact (K N NT).
        * intros [Q K]. exists false. split; [split; [discriminate|intros [X _]; destruct (N X)]|]. split; [exact Q|].
          split; [intros _ _; exact K|]. intros _ _ _ k ksp _. apply FO.
      + split.
        * intros (c & C & Q & _). destruct c; [destruct N; apply C; reflexivity|exact Q].
        * intro Q. exists false. split; [split; [discriminate|intros [X _]; destruct (N X)]|]. split; [exact Q|].
          split; [intros _ NT; assert (X : false = true) by (apply CK; exact NT); discriminate|]. intros _ _ _ k ksp _. apply FO. }
  split.
  - intro R. destruct (l_flat_run e tm "" validate sp inputs r x ER P LO VI R) as (KY & y & CH & H). exists y. split; [exact CH|].
    destruct H as [(i & w & us & C & E & W)|[N D]].
    + left. apply CHO in C as (-> & -> & AP). exists us. split; [exact E|]. split; [|exact AP]. now apply ST, FW.
    + right. split; [|auto]. intro AP. apply (N 0 v). apply CHO. auto.
  - intros (y & CH & [(vs & -> & R & AP)|(AP & KY & D)]).
    + apply ST in R. apply (l_flat_accepts e tm "" validate sp inputs r 0 v vs x ER P LO VI); auto.
      * apply CHO. auto.
      * intros j w C. now apply CHO in C.
      * eapply parses_keyed; exact R.
      * now apply FW.
    + apply (l_flat_default e tm "" validate sp inputs r x y ER P LO VI); auto.
      intros j w C. apply AP. now apply CHO in C.
Qed.
End L.
