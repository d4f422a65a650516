(** A concrete source for the example of C73:

    struct {
      a: i32,
      #[deluxe(flatten)] c: C,
      #[deluxe(flatten(prefix = p))] d: D,
      #[deluxe(append, alias = w)] v: Vec<i32>,
      #[deluxe(rest)] m: HashMap<Path, i32>,
    }

    with C and D of ExFlat.v *)
From Verif Require Import LemWf LemSmall WfMore LemLocalD ExStruct LemLocal LemMap.
From Verif Require Export LemFSource ExSource ExFlat.

Definition frt (u : flat_named val) : rtype val :=
  mkRtype i32 u (mkFU (Some 1) (fun _ _ l => (Ok VU, l))) (append_ i32) (rest_ path_ i32) (VI 0).
Definition is_d (f : src_field) : bool := match sf_ident f with Some x => String.eqb (fst x) "d" | None => false end.
Definition fru : rust val :=
  mkRust (fun f => frt (if is_d f then sfn fx_d else sfn fx_c)) (fun _ => frt (sfn fx_c))
         (fun _ => VI 1) (fun _ v => v) (fun _ v => inl v).
Lemma fru_good : good_rust fru.
Proof.
  assert (G : forall u, good_fn u -> good_type (frt u)).
  { intros u GU. assert (A : forall l : list stream, Forall2 advances l l).
    { intro l. induction l as [|st l IH]; constructor; [exists []; reflexivity|exact IH]. }
    refine (conj good_i32 (conj GU (conj _ (conj _ _)))).
    - repeat intro; (split; [exact I|apply A]).
    - apply good_append_, good_i32.
    - apply good_rest_; [apply good_path_|apply good_i32]. }
  split; intros; apply G; [|apply good_fn_map, good_struct_fn, fx_c_named].
  destruct (is_d f); [apply good_fn_map, good_struct_fn, fx_d_named|apply good_fn_map, good_struct_fn, fx_c_named].
Qed.
Definition f_src : src_struct :=
  mkSrcStruct ShNamed [nf "a" ""; nf "c" "flatten"; nf "d" "flatten(prefix = p)"; nf "v" "append, alias = w"; nf "m" "rest"] [].
Definition f_ins : list stream := [root_stream (tk "p::q::z = 4, n = 7, v = 5, x = 2, a(1), p::x = 3, w = 6, b::c = 8")].
Definition f_out : list val := [VI 1; VS [VI 2; VO None]; VS [VI 3; VS [VI 4]]; VL [VI 5; VI 6]; VM [("n", VI 7); ("b::c", VI 8)]].
Definition f_low (d : sstruct) : sdef val := lower_struct fru [] (fun _ => []) (fun _ v => inl v) d.

Definition role_g (g : sfield) : role :=
  if sv_true (g_append g) then Appended else if sv_true (g_rest g) then Rest
  else if flatten_true g then Flattened (match g_flatten g with Some x => option_map path_key (ff_prefix x) | None => None end) else Single.
Definition look_g (g : sfield) : role * list string * bool :=
  (role_g g, map fst (g_idents g), match g_with g, g_skip g, g_container g with None, None, None => true | _, _, _ => false end).
Lemma read_role f R l : rmap look_g (read_field xsy f) = Ok (R, l, true) ->
  exists os, has_options (spells_f xsy) (sf_attrs f) os /\ role_of os = R /\ map fst (names_f f os) = l /\ withs os = [] /\ takes os = true.
Proof.
  intro H. apply use_ok in H as [g [E Q]]. apply (l_field_ok xsy xsy_good) in E as [os [O [C ->]]]. exists os. split; auto.
  unfold look_g in Q. injection Q as Q1 Q2 Q3. unfold role_g, flatten_true in Q1. cbn [meaning_f g_append g_rest g_flatten g_with g_skip g_container] in *.
  destruct C as [[O1 [O2 [O3 _]]] _]. split.
  - unfold role_of. rewrite <- Q1, !first_true by auto. destruct (existsb fst (appends os)); auto. destruct (existsb fst (rests os)); auto.
    unfold SpecOpts.once in O1. destruct (flattens os) as [|x [|y z]]; cbn [first_of filter length] in *; try lia; auto. destruct (ff_value x); auto.
  - split; auto. unfold takes. rewrite skipped_all, object_all.
    destruct (withs os), (skips os), (containers os); try discriminate Q3. auto.
Qed.
Definition known_field (f : src_field) (os : list fopt) : Prop :=
  has_options (spells_f xsy) (sf_attrs f) os /\ withs os = [] /\ takes os = true /\ (forall p, role_of os = Flattened (Some p) -> path_like p).
Lemma sfn_d P : is_prefix P -> by_keys P (sfn fx_d).
Proof. intro H. apply l_by_keys_map, l_struct_by_keys; [apply fx_d_named|apply fx_d_local|exact H|apply fx_d_routes]. Qed.
Lemma sfn_c P : is_prefix P -> by_keys P (sfn fx_c).
Proof. intro H. apply l_by_keys_map, l_struct_by_keys; [apply fx_c_named|apply fx_c_local|exact H|apply fx_c_routes]. Qed.
Lemma path_reads : keys_as_written vstr path_.
Proof. apply (l_path_reads vstr (fun p => VT (path_key p))). reflexivity. Qed.
Lemma known_keeps f os : known_field f os -> keeps_to_part fru f os.
Proof.
  intros [_ [W [_ PL]]] _. destruct (role_of os) as [|p| |] eqn:R.
  - unfold impl_of. rewrite W. apply fine_local, fine_i32.
  - split; [intros x ->; auto|]. assert (IP : is_prefix (prefix_text p)) by (destruct p as [x|]; [right; exists x; reflexivity|now left]).
    unfold flat_of. rewrite W. cbn [fru ru_type frt rt_fn]. destruct (is_d f); [now apply sfn_d|now apply sfn_c].
  - unfold append_of. rewrite W. apply (l_vec_append_keys i32 VL), fine_i32.
  - unfold rest_of. rewrite W. apply (l_map_rest_keys veq vstr path_ i32 pmap_val); [apply fine_path_|apply fine_i32|apply path_keys|apply path_reads].
Qed.
Lemma nodup_apart fs oss : length fs = length oss -> NoDup (all_keys fru fs oss) -> flat_apart fru fs oss.
Proof.
  intros L ND i j f g os os' p k N1 N2 M1 M2 NE _ I J. apply NE.
  assert (A : nth_error (combine fs oss) i = Some (f, os)) by now apply nth_ps. assert (B : nth_error (combine fs oss) j = Some (g, os')) by now apply nth_ps.
  clear N1 N2 M1 M2 NE L. unfold all_keys in ND. revert i j A B ND. generalize (combine fs oss). intro l.
  induction l as [|x l IH]; intros [|i] [|j] A B ND; cbn in A, B; try discriminate; auto; cbn [flat_map] in ND.
  - exfalso. injection A as ->. apply (NoDup_app_disj _ _ ND k); auto. apply in_flat_map. exists (g, os'). split; auto. eapply nth_error_In; eauto.
  - exfalso. injection B as ->. apply (NoDup_app_disj _ _ ND k); auto. apply in_flat_map. exists (f, os). split; auto. eapply nth_error_In; eauto.
  - f_equal. apply IH; auto. now apply NoDup_app_r in ND.
Qed.
Lemma f_src_ok : exists d oss,
  good_syn_lib xsy /\ good_rust fru /\ written_struct f_src /\ ss_shape f_src = ShNamed /\
  derived xsy (@TMeta val) f_src d /\
  Forall2 (fun f os => has_options (spells_f xsy) (sf_attrs f) os) (ss_fields f_src) oss /\
  has_options (spells_s xsy) (ss_attrs f_src) [] /\
  map role_of oss = [Single; Flattened None; Flattened (Some "p"); Appended; Rest] /\
  Forall2 (keeps_to_part fru) (ss_fields f_src) oss /\ flat_apart fru (ss_fields f_src) oss /\
  parse_run (f_low d) TMeta "" false (to_full_span Unnamed f_ins) f_ins (Ok f_out).
Proof.
  destruct (use_ok (derive_meta_struct xsy f_src)
    (fun d => (fst (d_inline (struct_dict (f_low d)) Unnamed f_ins), s_accepts_all (f_low d), s_is_transparent (f_low d)))
    (Ok f_out, true, false)) as [d [R Q]]; [vm_compute; reflexivity|].
  injection Q as Q1 Q2 Q3.
  destruct (read_role (nf "a" "") Single ["a"]) as [o1 [A1 [B1 [C1 [D1 E1]]]]]; [vm_compute; reflexivity|].
  destruct (read_role (nf "c" "flatten") (Flattened None) []) as [o2 [A2 [B2 [C2 [D2 E2]]]]]; [vm_compute; reflexivity|].
  destruct (read_role (nf "d" "flatten(prefix = p)") (Flattened (Some "p")) []) as [o3 [A3 [B3 [C3 [D3 E3]]]]]; [vm_compute; reflexivity|].
  destruct (read_role (nf "v" "append, alias = w") Appended ["v"; "w"]) as [o4 [A4 [B4 [C4 [D4 E4]]]]]; [vm_compute; reflexivity|].
  destruct (read_role (nf "m" "rest") Rest ["m"]) as [o5 [A5 [B5 [C5 [D5 E5]]]]]; [vm_compute; reflexivity|].
  exists d, [o1; o2; o3; o4; o5]. split; [exact xsy_good|]. split; [exact fru_good|]. split; [repeat constructor; discriminate|].
  split; [reflexivity|]. split; [exact R|]. split; [repeat constructor; assumption|]. split; [apply no_options|].
  split; [cbn [map]; now rewrite B1, B2, B3, B4, B5|].
  assert (PL : path_like "p") by apply pl_p.
  split; [|split].
  - repeat (apply Forall2_cons; [apply known_keeps; unfold known_field; intuition congruence|]). apply Forall2_nil.
  - assert (K1 : keys_of fru (nf "a" "") o1 = ["a"]) by (unfold keys_of; now rewrite E1, B1, C1).
    assert (K2 : keys_of fru (nf "c" "flatten") o2 = ["x"; "y"]) by (unfold keys_of, flat_of; rewrite E2, B2, D2; reflexivity).
    assert (K3 : keys_of fru (nf "d" "flatten(prefix = p)") o3 = ["p::x"; "p::q::z"]) by (unfold keys_of, flat_of; rewrite E3, B3, D3; reflexivity).
    assert (K4 : keys_of fru (nf "v" "append, alias = w") o4 = ["v"; "w"]) by (unfold keys_of; now rewrite E4, B4, C4).
    assert (K5 : keys_of fru (nf "m" "rest") o5 = ["m"]) by (unfold keys_of; now rewrite E5, B5, C5).
    apply nodup_apart; [reflexivity|]. unfold all_keys, f_src. cbn [ss_fields combine flat_map fst snd]. rewrite K1, K2, K3, K4, K5.
    repeat (constructor; [cbn; intuition discriminate|]). constructor.
  - rewrite <- Q1. change false with (negb true) at 1. rewrite <- Q2. now apply run_list.
Qed.
