(** Several streams are as good as one (C12); arity of tuples and arrays (C13, C14); values
    in a delimited group. *)
From Verif Require Export LemRun LemMap LemTStruct.

Section S.
Context {env : Env}.
Lemma same_items {A B} (q : list (list token) -> B -> Prop) (p : mparser A) (g : A -> B) :
  (forall l v, fst (p l) = Ok v <-> q (items_of l) (g v)) -> textual p.
Proof. intros H l l' E v. rewrite !H, E. reflexivity. Qed.
Lemma l_vec_textual {A} (d : dict A) : fine d -> textual (vec_flat d).
Proof.
  intro F. apply (same_items (Forall2 (accepts (d_item d Unnamed))) _ (fun v => v)). intros l v.
  apply vec_ok; apply F.
Qed.
Lemma l_set_textual {A} eqb (d : dict A) : fine d -> textual (set_flat eqb d).
Proof.
  intro F. apply (same_items (fun its vs => Forall2 (accepts (d_item d Unnamed)) its vs /\ all_different eqb vs) _ (fun v => v)). intros l v.
  now apply set_ok.
Qed.
Lemma l_map_textual {K A} eqb (kstr : K -> string) dk (dv : dict A) : fine dk -> fine dv -> nonempty_keys dk ->
  textual (map_flat eqb kstr dk dv).
Proof.
  intros FK FV NE. apply (same_items (fun its vs => Forall2 (accepts (map_entry kstr dk dv)) its vs /\ all_different eqb (map fst vs)) _ (fun v => v)). intros l v.
  now apply map_ok.
Qed.
Lemma l_rest_textual {K A} eqb (kstr : K -> string) dk (dv : dict A) ex : fine dk -> fine dv -> nonempty_keys dk ->
  textual (map_rest eqb kstr dk dv ex).
Proof.
  intros FK FV NE. apply (same_items (fun its vs => exists sel, selected kstr dk ex its sel /\ Forall2 (accepts (map_entry kstr dk dv)) sel vs /\ all_different eqb (map fst vs)) _ (fun v => v)). intros l v.
  now apply rest_ok.
Qed.

(** *** positional *)
Lemma elems_len l : length (elems l) = length (items_of l).
Proof. now rewrite <- elems_items, map_length. Qed.
Lemma used_up_no_blank l2 : Forall used_up l2 -> ~ In [] (items_of l2) -> items_of l2 = [].
Proof.
  induction 1 as [|s l2 U H IH]; auto. change (s :: l2) with ([s] ++ l2). rewrite items_of_app. destruct s as [ts sc c]. rewrite items_of_one.
  destruct U as [U|[t [U C]]]; cbn [toks] in U; subst ts.
  - cbn. exact IH.
  - intro N. exfalso. apply N. apply in_or_app. left. unfold items. cbn [pieces]. rewrite C. now left.
Qed.
Lemma supplies_items n l l1 : no_blank l -> supplies n 0 l l1 -> items_of l1 = items_of l.
Proof.
  intros NB [l2 [-> [_ [U _]]]]. unfold no_blank in NB. rewrite items_of_app in *. rewrite (used_up_no_blank l2); auto.
  - now rewrite app_nil_r.
  - intro I. apply NB, in_or_app. now right.
Qed.
Lemma supplies_all n l : length (items_of l) <= n -> supplies n 0 l l.
Proof. intro H. exists []. rewrite app_nil_r, elems_len. repeat split; auto. Qed.
Lemma Forall2_len {A B} (R : A -> B -> Prop) l l' : Forall2 R l l' -> length l = length l'.
Proof. induction 1; simpl; auto. Qed.
Lemma each_accepts_len {A} (ds : list (dict A)) segs vs : each_accepts ds segs vs -> length segs = length ds /\ length vs = length ds.
Proof. induction 1; simpl; intuition. Qed.
Lemma positional_len {V} (fs : list (field V)) segs os : positional fs segs os -> length segs <= length (filter is_parsable fs).
Proof.
  induction 1 as [|f d fs seg segs v os P K A H IH|f fs os P H IH|f fs segs os P H IH]; simpl; auto.
  - rewrite P. simpl. lia.
  - rewrite P. simpl. lia.
  - now rewrite P.
Qed.

Lemma l_array {A} N (d : dict A) index l vs : fine d -> no_blank l ->
  whole (array_flat N d index) l vs <-> Forall2 (accepts (d_item d Unnamed)) (items_of l) vs /\ length vs = N.
Proof.
  intros F NB. unfold whole. rewrite array_ok by exact F. split.
  - intros [l1 [S [H L]]]. now rewrite (supplies_items _ _ _ NB S) in H.
  - intros [H L]. exists l. split; auto. apply supplies_all. rewrite (Forall2_len _ _ _ H). lia.
Qed.
Lemma l_tuple {A} (ds : list (dict A)) l vs : Forall fine ds -> no_blank l ->
  whole (tuple_flat ds) l vs <-> each_accepts ds (items_of l) vs.
Proof.
  intros F NB. unfold whole. rewrite tuple_ok by exact F. split.
  - intros [l1 [S H]]. now rewrite (supplies_items _ _ _ NB S) in H.
  - intros H. exists l. split; auto. apply supplies_all. destruct (each_accepts_len _ _ _ H). lia.
Qed.
Lemma tuple_run_body {V} (s : sdef V) tm p : tuple_run s tm p -> s_shape s = ShUnnamed ->
  exists m sp prefix v index, forall l, p l = s_body s tm m sp prefix v index l.
Proof.
  intros H SH. destruct H as [m NT|m index|obj spans pn sp NT AB].
  - unfold struct_dict. rewrite NT. cbn [d_inline]. unfold s_inline. rewrite SH. unfold struct_fu. rewrite SH. cbn [fu_parse].
    repeat eexists.
  - unfold struct_fu. rewrite SH. cbn [fu_parse]. repeat eexists.
  - destruct (about_eq _ _ _ _ AB) as [-> ->]. unfold struct_attr_body. rewrite NT. repeat eexists.
Qed.
Lemma l_tuple_struct {V} (s : sdef V) tm p l ws : tuple_run s tm p -> tuple_struct s -> fine_items s -> Forall uniform_missing (s_raw s) -> no_blank l ->
  whole p l ws <->
  exists os vs, positional (s_raw s) (items_of l) os /\ tuple_values s tm os vs /\ chained (s_and_thens s) vs ws.
Proof.
  intros R TS FI UM NB. destruct (tuple_run_body s tm p R (proj1 (proj2 TS))) as [m [sp [prefix [v [index E]]]]].
  unfold whole. rewrite E. rewrite (tuple_struct_ok s tm m sp prefix v index l ws TS FI UM). split.
  - intros [l1 [os [vs [S [H1 H2]]]]]. rewrite (supplies_items _ _ _ NB S) in H1. eauto.
  - intros [os [vs [H1 H2]]]. exists l, os, vs. split; auto. apply supplies_all. now apply positional_len in H1.
Qed.

(** *** in a delimited group *)
Lemma used_up_eof s : used_up s <-> fst (parse_eof s) = Ok tt.
Proof.
  pose proof (each_eof_ok [s]) as H. cbn [each_eof] in H. destruct (parse_eof s) as [[[]|e|b] s1]; cbn [fst] in *.
  - split; auto. intros _. assert (X : Forall used_up [s]) by (apply H; reflexivity). now inversion X.
  - split; [|discriminate]. intro U. assert (X : Err e = Ok tt) by (apply H; auto). discriminate.
  - split; [|discriminate]. intro U. assert (X : Bad b = Ok tt) by (apply H; auto). discriminate.
Qed.
Lemma delimited_ok {A} dl (p : mparser A) s v : well_behaved_m p ->
  fst (parse_delimited_with dl (on_single p) s) = Ok v <->
  exists ts gsp rest, toks s = TGroup dl ts gsp :: rest /\ whole p [mkStream ts (SClose gsp) (cell s)] v.
Proof.
  intro W. split.
  - intro H. destruct (toks s) as [|[| | |d' ts gsp] rest] eqn:E; try (unfold parse_delimited_with, with_group in H; rewrite E in H; discriminate).
    assert (d' = dl). { unfold parse_delimited_with, with_group in H. rewrite E in H. destruct dl, d'; auto; discriminate. }
    subst d'. exists ts, gsp, rest. split; auto. rewrite (delimited_case env A _ dl s ts gsp rest E) in H. unfold on_single in H.
    pose proof (proj2 (W [mkStream ts (SClose gsp) (cell s)])) as L. unfold whole.
    destruct (p [mkStream ts (SClose gsp) (cell s)]) as [r l]. cbn [fst snd] in *. inversion L as [|? s1 ? l' _ L']; subst. inversion L'; subst. cbn [hd] in H.
    destruct r as [x|e|b]; try discriminate. destruct (parse_eof s1) as [[[]|e|b] s2] eqn:P; try discriminate. cbn in H. injection H as ->. split; auto.
    constructor; auto. apply used_up_eof. now rewrite P.
  - intros [ts [gsp [rest [E [H U]]]]]. rewrite (delimited_case env A _ dl s ts gsp rest E). unfold on_single.
    pose proof (proj2 (W [mkStream ts (SClose gsp) (cell s)])) as L.
    destruct (p [mkStream ts (SClose gsp) (cell s)]) as [r l]. cbn [fst snd] in *. inversion L as [|? s1 ? l' _ L']; subst. inversion L'; subst. cbn [hd].
    inversion U as [|? ? U1 _]; subst. apply used_up_eof in U1. destruct (parse_eof s1) as [r2 c2]. cbn [fst] in U1. now subst.
Qed.
Lemma comma_loop_end {St} (step : St -> stream -> res St * stream) : forall fuel st s st' s', comma_loop step fuel st s = (Ok st', s') -> toks s' = [].
Proof.
  assert (E : forall s, is_empty s = true -> toks s = []) by (intros [[|] ? ?]; cbn; auto; discriminate).
  induction fuel as [|n IH]; intros st s st' s'; cbn [comma_loop]; [discriminate|]. destruct (is_empty s) eqn:I; [intro H; injection H as _ <-; auto|].
  destruct (step st s) as [[st1|e|b] s1]; try discriminate. destruct (is_empty s1) eqn:I1; [intro H; injection H as _ <-; auto|].
  destruct (parse_comma s1) as [[u|e|b] s2]; try discriminate. apply IH.
Qed.
Lemma over_streams_end {St} (body : St -> stream -> res St * stream) :
  (forall st s st' s', body st s = (Ok st', s') -> toks s' = []) ->
  forall l st st' l', over_streams body st l = (Ok st', l') -> Forall (fun s => toks s = []) l'.
Proof.
  intros B. induction l as [|s l IH]; intros st st' l'; cbn [over_streams]; [intro H; injection H as _ <-; auto|].
  destruct (body st s) as [[st1|e|b] s1] eqn:X; try discriminate. destruct (over_streams body st1 l) as [r l1] eqn:Y. intro H. injection H as -> <-. constructor; eauto.
Qed.
Lemma comma_whole {A St} (get : St -> A) es (step : St -> stream -> res St * stream) st0 (p : mparser A) l v :
  (forall l, p l = finish get es (over_streams (comma_stream step) st0 l)) ->
  whole p l v <-> fst (p l) = Ok v.
Proof.
  intro E. unfold whole. split; [tauto|]. intro H. split; auto. rewrite E in *. unfold finish in *.
  destruct (over_streams (comma_stream step) st0 l) as [r l'] eqn:O. cbn [fst snd] in *. destruct r as [st|e|b]; try discriminate.
  apply over_streams_end in O. { eapply Forall_impl; [|exact O]. intros s X. now left. }
  intros st1 s st' s'. apply comma_loop_end.
Qed.
Lemma vec_whole {A} (d : dict A) l v : whole (vec_flat d) l v <-> fst (vec_flat d l) = Ok v.
Proof. now apply comma_whole with (get := fst) (es := snd) (step := vec_step d) (st0 := ([], [])). Qed.
Lemma set_whole {A} eqb (d : dict A) l v : whole (set_flat eqb d) l v <-> fst (set_flat eqb d l) = Ok v.
Proof. now apply comma_whole with (get := fst) (es := snd) (step := set_step eqb d) (st0 := ([], [])). Qed.
Lemma map_whole {K A} eqb (kstr : K -> string) dk (dv : dict A) l v : whole (map_flat eqb kstr dk dv) l v <-> fst (map_flat eqb kstr dk dv l) = Ok v.
Proof. now apply comma_whole with (get := fst) (es := snd) (step := map_step eqb kstr dk dv) (st0 := ([], [])). Qed.

(** the value after `=`, in a list, ... *)
Lemma l_vec_item {A} (d : dict A) m s vs : fine d ->
  fst (d_item (vec_dict d) m s) = Ok vs <->
  exists ts gsp rest, toks s = TGroup Bracket ts gsp :: rest /\ Forall2 (accepts (d_item d Unnamed)) (items ts) vs.
Proof.
  intro F. cbn [vec_dict dict_inline d_item]. rewrite delimited_ok by (apply wbm_vec; apply F).
  split; intros [ts [gsp [rest [E H]]]]; exists ts, gsp, rest; (split; [exact E|]).
  - apply vec_whole in H. rewrite <- (items_of_one ts (SClose gsp) (cell s)). apply vec_ok in H; auto; apply F.
  - apply vec_whole. apply vec_ok; try apply F. now rewrite items_of_one.
Qed.
Lemma l_set_item {A} eqb (d : dict A) m s vs : fine d ->
  fst (d_item (set_dict eqb d) m s) = Ok vs <->
  exists ts gsp rest, toks s = TGroup Bracket ts gsp :: rest /\ Forall2 (accepts (d_item d Unnamed)) (items ts) vs /\ all_different eqb vs.
Proof.
  intro F. cbn [set_dict dict_inline d_item]. rewrite delimited_ok by (apply wbm_set; apply F).
  split; intros [ts [gsp [rest [E H]]]]; exists ts, gsp, rest; (split; [exact E|]).
  - apply set_whole in H. rewrite <- (items_of_one ts (SClose gsp) (cell s)). now apply set_ok in H.
  - apply set_whole. apply set_ok; auto. now rewrite items_of_one.
Qed.
Lemma l_map_item {K A} eqb (kstr : K -> string) dk (dv : dict A) m s kvs : fine dk -> fine dv -> nonempty_keys dk ->
  fst (d_item (map_dict eqb kstr dk dv) m s) = Ok kvs <->
  exists ts gsp rest, toks s = TGroup Brace ts gsp :: rest /\
    Forall2 (accepts (map_entry kstr dk dv)) (items ts) kvs /\ all_different eqb (map fst kvs).
Proof.
  intros FK FV NE. cbn [map_dict dict_inline d_item]. rewrite delimited_ok by (apply wbm_mapf; [apply FK|apply FV]).
  split; intros [ts [gsp [rest [E H]]]]; exists ts, gsp, rest; (split; [exact E|]).
  - apply map_whole in H. rewrite <- (items_of_one ts (SClose gsp) (cell s)). now apply map_ok in H.
  - apply map_whole. apply map_ok; auto. now rewrite items_of_one.
Qed.
Lemma l_coll_textual {A} (d : dict A) K eqb keqb (kstr : K -> string) (dk : dict K) ex :
  fine d -> fine dk -> nonempty_keys dk ->
  textual (vec_flat d) /\ textual (set_flat eqb d) /\ textual (map_flat keqb kstr dk d) /\
  textual (map_rest keqb kstr dk d ex).
Proof.
  intros F FK NE. refine (conj (l_vec_textual d F) (conj (l_set_textual eqb d F) (conj (l_map_textual keqb kstr dk d FK F NE) (l_rest_textual keqb kstr dk d ex FK F NE)))).
Qed.
Lemma l_tuples_split {A} (d : dict A) (ds : list (dict A)) N index V (s : sdef V) tm p :
  fine d -> Forall fine ds ->
  tuple_run s tm p -> tuple_struct s -> fine_items s -> Forall uniform_missing (s_raw s) ->
  forall l l', items_of l = items_of l' -> no_blank l ->
  (forall vs, whole (array_flat N d index) l vs <-> whole (array_flat N d index) l' vs) /\
  (forall vs, whole (tuple_flat ds) l vs <-> whole (tuple_flat ds) l' vs) /\
  (forall ws, whole p l ws <-> whole p l' ws).
Proof.
  intros F FS R TS FI UM l l' E NB. assert (NB' : no_blank l') by (unfold no_blank in *; now rewrite <- E).
  refine (conj _ (conj _ _)).
  - intro vs. rewrite !l_array by assumption. now rewrite E.
  - intro vs. rewrite !l_tuple by assumption. now rewrite E.
  - intro ws. rewrite (l_tuple_struct s tm p l ws R TS FI UM NB), (l_tuple_struct s tm p l' ws R TS FI UM NB'). now rewrite E.
Qed.
End S.
