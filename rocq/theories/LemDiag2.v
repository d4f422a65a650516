(** The errors about the attributes of a field. *)
From Verif Require Import LemWf LemWfD LemWfE LemSmall LemItems LemAttr.
From Verif Require Export LemDiag.

Lemma clash_ok l es : only_one l "" es = es ++ clash l.
Proof.
  destruct (l_only_one l "" es) as [L1 L2]. unfold clash. destruct (present_spans l) as [|a [|b r]] eqn:P.
  - rewrite app_nil_r. apply L1. cbn. lia.
  - rewrite app_nil_r. apply L1. cbn. lia.
  - rewrite L2 by (cbn; lia). reflexivity.
Qed.

(** *** rename and alias *)
Section N.
Context {env : Env} {O : Type}.
Variable G : grammar O.
Variable what : string.
Variable own : option string.
Variable name_of : O -> option (bool * string).
Variable CR CA : name -> O.
Hypothesis ND : NoDup (map fst (gr_keys G)).
Hypothesis NR1 : forall x, name_of (CR x) = Some (true, fst x).
Hypothesis NA1 : forall x, name_of (CA x) = Some (false, fst x).
Hypothesis MORE : gr_more G = name_faults what own name_of.
Hypothesis IR : In ("rename", fun k sp => pmap CR (d_named ident_dict k sp)) (gr_keys G).
Hypothesis IA : In ("alias", fun k sp => pmap CA (d_named ident_dict k sp)) (gr_keys G).
Hypothesis MR : listed_in "rename" (gr_many G) = false.
Hypothesis MA : listed_in "alias" (gr_many G) = true.
Hypothesis SR : gr_shown G "rename" = "rename".
Hypothesis BB : listed_in "alias" (map fst (gr_barred G)) = listed_in "rename" (map fst (gr_barred G)).

Definition rstat (l : list (option span)) : fstatus span :=
  match l with [] => FNone | Some sp :: _ => FSome sp | None :: _ => FParseError end.
Definition astat (l : list (option span)) : fstatus span :=
  match somes l with [] => FNone | sp :: _ => FSome sp end.
Definition names_st (before : list (aentry O)) (n : nst) : Prop :=
  (forall y, own_is own y = false -> has_name y (n_idents n) = listed_in (fst y) (given name_of before)) /\
  n_rename n = rstat (attempts what own name_of true "rename" before) /\
  n_alias n = astat (attempts what own name_of false "alias" before) /\
  (listed_in "rename" (map fst (gr_barred G)) = false -> fs_is_none (n_rename n) = negb (listed_in "rename" (map entry_key before))).
Lemma names_init : names_st [] (mkNst [] FNone FNone).
Proof. repeat split. Qed.
Lemma rstat_snoc l o : rstat (l ++ [o]) = if fs_is_none (rstat l) then match o with Some sp => FSome sp | None => FParseError end else rstat l.
Proof. destruct l as [|[sp|] l]; cbn; auto. Qed.
Lemma somes_app {A} (a b : list (option A)) : somes (a ++ b) = somes a ++ somes b.
Proof. apply flat_map_app. Qed.
Lemma astat_snoc l o : astat (l ++ [o]) = if fs_is_none (astat l) then match o with Some sp => FSome sp | None => FNone end else astat l.
Proof. unfold astat. rewrite somes_app. destruct (somes l) as [|sp r]; cbn; auto. destruct o; reflexivity. Qed.
Lemma given_snoc before x : given name_of (before ++ [x]) = given name_of before ++ given name_of [x].
Proof. unfold given. now rewrite flat_map_app. Qed.
Lemma att_snoc r k before x : attempts what own name_of r k (before ++ [x]) =
  attempts what own name_of r k before ++
    match x with
    | Good _ sp o =>
      match name_of o with
      | Some (r', _) => if Bool.eqb r' r then [match name_faults what own name_of before sp o with [] => Some sp | _ => None end] else []
      | None => []
      end
    | Wrong k' _ _ => if is_key k k' then [None] else []
    | _ => []
    end.
Proof. unfold attempts. rewrite wb_snoc. reflexivity. Qed.
(** an entry with another key *)
Lemma names_other before n x : names_st before n -> is_key "rename" (entry_key x) = false -> is_key "alias" (entry_key x) = false ->
  (forall k sp o, x = Good k sp o -> name_of o = None) -> names_st (before ++ [x]) n.
Proof.
  intros [N1 [N2 [N3 N4]]] KR KA NO. split; [|split; [|split]].
  - intros y E. rewrite given_snoc, (N1 y E). cbn. destruct x; cbn; rewrite ?app_nil_r; auto. rewrite (NO _ _ _ eq_refl). now rewrite !app_nil_r.
  - rewrite att_snoc, N2. destruct x; cbn [entry_key] in *; rewrite ?KR, ?app_nil_r; auto. rewrite (NO _ _ _ eq_refl). now rewrite app_nil_r.
  - rewrite att_snoc, N3. destruct x; cbn [entry_key] in *; rewrite ?KA, ?app_nil_r; auto. rewrite (NO _ _ _ eq_refl). now rewrite app_nil_r.
  - intro B. rewrite (N4 B), map_app. cbn [map]. rewrite lin_app. cbn [listed_in existsb]. rewrite KR. cbn. now rewrite orb_false_r.
Qed.
(** one that is not allowed *)
Lemma names_barred before n k sp msg : names_st before n -> listed_in "rename" (map fst (gr_barred G)) = true -> names_st (before ++ [Barred k sp msg]) n.
Proof.
  intros [N1 [N2 [N3 N4]]] B. split; [|split; [|split]].
  - intros y E. rewrite given_snoc, (N1 y E). cbn. now rewrite app_nil_r.
  - rewrite att_snoc, N2. now rewrite app_nil_r.
  - rewrite att_snoc, N3. now rewrite app_nil_r.
  - congruence.
Qed.
Lemma has_cons y x l : has_name y (x :: l) = String.eqb (fst y) (fst x) || has_name y l.
Proof. reflexivity. Qed.
Lemma has_snoc y x l : has_name y (l ++ [x]) = has_name y l || String.eqb (fst y) (fst x).
Proof. unfold has_name, mem_str. rewrite map_app, existsb_app. cbn. now rewrite orb_false_r. Qed.
Lemma rename_diag sp n es s x s' before : names_st before n -> Forall (valid G) before ->
  listed_in "rename" (map fst (gr_barred G)) = false ->
  entry_rest G "rename" sp s x s' -> ends (toks s') ->
  exists n', rename_arm what own sp n es s = (Ok (n', es ++ judge G before x), s') /\ names_st (before ++ [x]) n'.
Proof.
  intros [N1 [N2 [N3 N4]]] V B ER EN. specialize (N4 B). unfold rename_arm.
  assert (AG : again G "rename" sp before = if fs_is_none (n_rename n) then [] else [mkErr sp "duplicate attribute for `rename`"]).
  { unfold again. rewrite MR, N4, SR. destruct (listed_in "rename" (map entry_key before)); reflexivity. }
  assert (KEY : forall k, k = "rename" -> negb (listed_in "rename" (map entry_key before ++ [k])) = false).
  { intros k ->. rewrite lin_app. cbn. now rewrite orb_true_r. }
  assert (FST : fs_is_none (if fs_is_none (n_rename n) then FParseError else n_rename n) = false) by (destruct (n_rename n); reflexivity).
  assert (FST2 : fs_is_none (if fs_is_none (n_rename n) then FSome sp else n_rename n) = false) by (destruct (n_rename n); reflexivity).
  destruct ER as [q o s' B2 I2 Q|q e s1 s' B2 I2 Q TC|msg s' B2 _|s' K2 _ _].
  - rewrite (keys_fun G ND _ _ _ I2 IR) in Q. apply pmap_inv in Q as [[y|e|b] [Q E]]; try discriminate E. cbn in E. injection E as ->. rewrite Q.
    cbn [judge]. rewrite AG, MORE. unfold name_faults. rewrite NR1. cbn [fst]. fold (own_is own y).
    change (match own with Some z => is_key z (fst y) | None => false end) with (own_is own y).
    destruct (own_is own y) eqn:OW; [|rewrite (N1 y OW); destruct (listed_in (fst y) (given name_of before)) eqn:GV].
    + rewrite (skip_ends _ EN). eexists. split.
      { do 3 f_equal. unfold push, push_syn. destruct (fs_is_none (n_rename n)); cbn; rewrite <- ?app_assoc; reflexivity. }
      split; [|split; [|split]]; cbn [n_idents n_rename n_alias].
      * intros z OZ. rewrite given_snoc, lin_app, (N1 z OZ). cbn. rewrite NR1. cbn. unfold is_key.
        destruct (String.eqb_spec (fst z) (fst y)) as [E|]; [|now rewrite !orb_false_r].
        unfold own_is in *. rewrite E in OZ. congruence.
      * rewrite att_snoc, NR1. cbn [Bool.eqb fst]. rewrite rstat_snoc, <- N2. unfold name_faults. rewrite NR1.
        change (match own with Some z => is_key z (fst y) | None => false end) with (own_is own y). now rewrite OW.
      * rewrite att_snoc, NR1. cbn [Bool.eqb]. now rewrite app_nil_r.
      * intros _. rewrite map_app. cbn [map entry_key]. rewrite KEY by reflexivity. exact FST.
    + rewrite (skip_ends _ EN). eexists. split.
      { do 3 f_equal. unfold push, push_syn. destruct (fs_is_none (n_rename n)); cbn; rewrite <- ?app_assoc; reflexivity. }
      split; [|split; [|split]]; cbn [n_idents n_rename n_alias].
      * intros z OZ. rewrite given_snoc, lin_app, (N1 z OZ). cbn. rewrite NR1. cbn. unfold is_key.
        destruct (String.eqb_spec (fst z) (fst y)) as [E|]; [|now rewrite !orb_false_r].
        rewrite E, GV. reflexivity.
      * rewrite att_snoc, NR1. cbn [Bool.eqb fst]. rewrite rstat_snoc, <- N2. unfold name_faults. rewrite NR1.
        change (match own with Some z => is_key z (fst y) | None => false end) with (own_is own y). now rewrite OW, GV.
      * rewrite att_snoc, NR1. cbn [Bool.eqb]. now rewrite app_nil_r.
      * intros _. rewrite map_app. cbn [map entry_key]. rewrite KEY by reflexivity. exact FST.
    + eexists. split.
      { do 3 f_equal. unfold push, push_syn. destruct (fs_is_none (n_rename n)); cbn; rewrite ?app_nil_r; reflexivity. }
      split; [|split; [|split]]; cbn [n_idents n_rename n_alias].
      * intros z OZ. rewrite given_snoc, lin_app, has_cons, (N1 z OZ). cbn. rewrite NR1. cbn. rewrite orb_false_r. apply orb_comm.
      * rewrite att_snoc, NR1. cbn [Bool.eqb fst]. rewrite rstat_snoc, <- N2. unfold name_faults. rewrite NR1.
        change (match own with Some z => is_key z (fst y) | None => false end) with (own_is own y). now rewrite OW, GV.
      * rewrite att_snoc, NR1. cbn [Bool.eqb]. now rewrite app_nil_r.
      * intros _. rewrite map_app. cbn [map entry_key]. rewrite KEY by reflexivity. exact FST2.
  - rewrite (keys_fun G ND _ _ _ I2 IR) in Q. apply pmap_inv in Q as [[y|e'|b] [Q E]]; try discriminate E. cbn in E. injection E as ->. rewrite Q.
    cbn [judge]. rewrite AG, (skip_to _ _ TC). eexists. split.
    { do 3 f_equal. unfold push, push_syn. destruct (fs_is_none (n_rename n)); cbn; rewrite <- ?app_assoc; reflexivity. }
    split; [|split; [|split]]; cbn [n_idents n_rename n_alias].
    + intros z OZ. rewrite given_snoc. cbn. rewrite app_nil_r. auto.
    + rewrite att_snoc. cbn [is_key String.eqb Ascii.eqb Bool.eqb]. rewrite rstat_snoc, <- N2. reflexivity.
    + rewrite att_snoc. cbn. now rewrite app_nil_r.
    + intros _. rewrite map_app. cbn [map entry_key]. rewrite KEY by reflexivity. exact FST.
  - apply in_key in B2. congruence.
  - assert (X : listed_in "rename" (map fst (gr_keys G)) = true) by exact (in_key _ _ _ IR). congruence.
Qed.
Lemma alias_diag sp n es s x s' before : names_st before n ->
  listed_in "rename" (map fst (gr_barred G)) = false ->
  entry_rest G "alias" sp s x s' -> 
  exists n', alias_arm what own sp n es s = (Ok (n', es ++ judge G before x), s') /\ names_st (before ++ [x]) n'.
Proof.
  intros [N1 [N2 [N3 N4]]] B ER. specialize (N4 B). unfold alias_arm.
  assert (AG : again G "alias" sp before = []). { unfold again. now rewrite MA. }
  assert (KEY : forall k, k = "alias" -> negb (listed_in "rename" (map entry_key before ++ [k])) = negb (listed_in "rename" (map entry_key before))).
  { intros k ->. rewrite lin_app. cbn. now rewrite orb_false_r. }
  rewrite <- BB in B.
  destruct ER as [q o s' B2 I2 Q|q e s1 s' B2 I2 Q TC|msg s' B2 _|s' K2 _ _].
  - rewrite (keys_fun G ND _ _ _ I2 IA) in Q. apply pmap_inv in Q as [[y|e|b] [Q E]]; try discriminate E. cbn in E. injection E as ->. rewrite Q.
    cbn [judge]. rewrite AG, MORE. unfold name_faults. rewrite NA1. cbn [fst app]. fold (own_is own y).
    change (match own with Some z => is_key z (fst y) | None => false end) with (own_is own y).
    destruct (own_is own y) eqn:OW; [|rewrite (N1 y OW); destruct (listed_in (fst y) (given name_of before)) eqn:GV].
    + eexists. split.
      { do 3 f_equal. }
      split; [|split; [|split]]; cbn [n_idents n_rename n_alias].
      * intros z OZ. rewrite given_snoc, lin_app, (N1 z OZ). cbn. rewrite NA1. cbn. unfold is_key.
        destruct (String.eqb_spec (fst z) (fst y)) as [E|]; [|now rewrite !orb_false_r].
        unfold own_is in *. rewrite E in OZ. congruence.
      * rewrite att_snoc, NA1. cbn [Bool.eqb]. now rewrite app_nil_r.
      * rewrite att_snoc, NA1. cbn [Bool.eqb fst]. rewrite astat_snoc, <- N3. unfold name_faults. rewrite NA1.
        change (match own with Some z => is_key z (fst y) | None => false end) with (own_is own y). rewrite OW.
        rewrite N3. unfold astat. destruct (somes _); reflexivity.
      * intros _. rewrite map_app. cbn [map entry_key]. rewrite KEY by reflexivity. exact N4.
    + eexists. split.
      { do 3 f_equal. }
      split; [|split; [|split]]; cbn [n_idents n_rename n_alias].
      * intros z OZ. rewrite given_snoc, lin_app, (N1 z OZ). cbn. rewrite NA1. cbn. unfold is_key.
        destruct (String.eqb_spec (fst z) (fst y)) as [E|]; [|now rewrite !orb_false_r].
        rewrite E, GV. reflexivity.
      * rewrite att_snoc, NA1. cbn [Bool.eqb]. now rewrite app_nil_r.
      * rewrite att_snoc, NA1. cbn [Bool.eqb fst]. rewrite astat_snoc, <- N3. unfold name_faults. rewrite NA1.
        change (match own with Some z => is_key z (fst y) | None => false end) with (own_is own y). rewrite OW, GV.
        rewrite N3. unfold astat. destruct (somes _); reflexivity.
      * intros _. rewrite map_app. cbn [map entry_key]. rewrite KEY by reflexivity. exact N4.
    + eexists. split.
      { rewrite app_nil_r. reflexivity. }
      split; [|split; [|split]]; cbn [n_idents n_rename n_alias].
      * intros z OZ. rewrite given_snoc, lin_app, has_snoc, (N1 z OZ). cbn. rewrite NA1. cbn. now rewrite orb_false_r.
      * rewrite att_snoc, NA1. cbn [Bool.eqb]. now rewrite app_nil_r.
      * rewrite att_snoc, NA1. cbn [Bool.eqb fst]. rewrite astat_snoc, <- N3. unfold name_faults. rewrite NA1.
        change (match own with Some z => is_key z (fst y) | None => false end) with (own_is own y). now rewrite OW, GV.
      * intros _. rewrite map_app. cbn [map entry_key]. rewrite KEY by reflexivity. exact N4.
  - rewrite (keys_fun G ND _ _ _ I2 IA) in Q. apply pmap_inv in Q as [[y|e'|b] [Q E]]; try discriminate E. cbn in E. injection E as ->. rewrite Q.
    cbn [judge]. rewrite AG, (skip_to _ _ TC). eexists. split; [reflexivity|].
    split; [|split; [|split]]; cbn [n_idents n_rename n_alias].
    + intros z OZ. rewrite given_snoc. cbn. rewrite app_nil_r. auto.
    + rewrite att_snoc. cbn. now rewrite app_nil_r.
    + rewrite att_snoc. cbn [is_key String.eqb Ascii.eqb Bool.eqb]. rewrite astat_snoc, <- N3. rewrite N3. unfold astat. destruct (somes _); reflexivity.
    + intros _. rewrite map_app. cbn [map entry_key]. rewrite KEY by reflexivity. exact N4.
  - apply in_key in B2. congruence.
  - assert (X : listed_in "alias" (map fst (gr_keys G)) = true) by exact (in_key _ _ _ IA). congruence.
Qed.
Lemma renamed_ok before n : names_st before n -> span_if (fun x => x) (n_rename n) = renamed_at what own name_of before.
Proof. intros [_ [N _]]. rewrite N. unfold renamed_at, rstat. destruct (attempts _ _ _ _ _ _) as [|[sp|] l]; reflexivity. Qed.
Lemma aliased_ok before n : names_st before n -> span_if (fun x => x) (n_alias n) = alias_at what own name_of before.
Proof. intros [_ [_ [N _]]]. rewrite N. unfold alias_at, astat. destruct (somes _) as [|sp l]; reflexivity. Qed.
End N.
