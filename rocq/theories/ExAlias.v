(** Types and inputs for the examples beside the theorems of PropsAlias.v:

    struct C { #[deluxe(alias = y)] x: i32 }
    struct P { #[deluxe(alias = b)] a: i32, #[deluxe(flatten(prefix = p))] c: C }
    enum E { #[deluxe(alias = k)] N(i32), Other } *)
From Verif Require Export LemAlias ExMove.

Definition xl_c := named [fld "x" ["x"; "y"] (KItem i32) None].
Definition xl := named [fld "a" ["a"; "b"] (KItem i32) None; flatn "c" (Some "p") (sfn xl_c)].
Definition xl_in (k1 k2 : string) := xin (k1 ++ " = 1, p::" ++ k2 ++ " = 2").
Lemma xl_c_named : named_struct xl_c. Proof. fxn. ga. Qed.
Lemma xl_c_local : Forall local_field (s_raw xl_c). Proof. fxl. Qed.
Lemma xl_c_routes P : Forall (routes P) (s_raw xl_c). Proof. repeat constructor. discriminate. Qed.
Lemma xl_c_separate : separate xl_c.
Proof. intros [|[|i]] [|[|j]] f g n Ni Nj; cbn in Ni, Nj; try discriminate; auto. Qed.
Lemma xl_named : named_struct xl.
Proof. fxn. ga. apply good_fn_map, good_struct_fn, xl_c_named. Qed.
Lemma xl_local : Forall local_field (s_raw xl). Proof. fxl. Qed.
Lemma xl_routes : Forall (routes "") (s_raw xl).
Proof.
  apply Forall_cons; [discriminate|]. apply Forall_cons; [|apply Forall_nil]. intros _. cbn [f_kind flatn fld]. split; [apply pl_p|].
  apply l_by_keys_map, l_struct_by_keys; [apply xl_c_named|apply xl_c_local|apply is_prefix_like|apply xl_c_routes].
Qed.
Lemma xl_separate : separate xl.
Proof.
  intros i j f g n Ni Nj If Ig.
  assert (Q : forall k h, nth_error (s_raw xl) k = Some h -> (k = 0 /\ names_of h = ["a"; "b"]) \/ (k = 1 /\ names_of h = ["p::x"; "p::y"])).
  { intros [|[|[|k]]] h H; cbn in H; try discriminate; injection H as <-; cbn; tauto. }
  destruct (Q i f Ni) as [[-> E]|[-> E]]; destruct (Q j g Nj) as [[-> E']|[-> E']];
    auto; rewrite E in If; rewrite E' in Ig; cbn in If, Ig; intuition congruence.
Qed.
Lemma xl_own : Forall2 (rekeyed (aliases xl "")) (items_of (xl_in "a" "x")) (items_of (xl_in "b" "x")).
Proof.
  assert (E : exists t1 t2 u, items_of (xl_in "a" "x") = [t1; u] /\ items_of (xl_in "b" "x") = [t2; u] /\
    exists ksp body, item_key t1 = Some ("a", ksp, body) /\ item_key t2 = Some ("b", ksp, body)).
  { do 3 eexists. split; [vm_compute; reflexivity|]. split; [vm_compute; reflexivity|]. do 2 eexists. split; vm_compute; reflexivity. }
  destruct E as [t1 [t2 [u [-> [-> [ksp [body [K1 K2]]]]]]]]. constructor; [right|constructor; [now left|constructor]].
  exists "a", "b", ksp, body. split; auto. split; auto. eexists. split; [now left|]. split; [reflexivity|].
  split; [exists "a"|exists "b"]; cbn; auto.
Qed.
Lemma xl_inner : Forall2 (rekeyed (aliases xl_c "p::")) (items_of (xl_in "a" "x")) (items_of (xl_in "a" "y")).
Proof.
  assert (E : exists t1 t2 u, items_of (xl_in "a" "x") = [u; t1] /\ items_of (xl_in "a" "y") = [u; t2] /\
    exists ksp body, item_key t1 = Some ("p::x", ksp, body) /\ item_key t2 = Some ("p::y", ksp, body)).
  { do 3 eexists. split; [vm_compute; reflexivity|]. split; [vm_compute; reflexivity|]. do 2 eexists. split; vm_compute; reflexivity. }
  destruct E as [t1 [t2 [u [-> [-> [ksp [body [K1 K2]]]]]]]]. constructor; [now left|constructor; [right|constructor]].
  exists "p::x", "p::y", ksp, body. split; auto. split; auto. eexists. split; [now left|]. split; [reflexivity|].
  split; [exists "x"|exists "y"]; cbn; auto.
Qed.
Lemma xl_inner_ok : interchangeable (below "" (Some "p")) (sfn xl_c) (aliases xl_c "p::") /\ among (below "" (Some "p")) (sfn xl_c) (aliases xl_c "p::").
Proof.
  split.
  - apply l_alias_map, l_alias_flattened; [apply xl_c_named|apply xl_c_local|apply (is_prefix_like "" "p")|apply xl_c_routes|apply xl_c_separate].
  - exact (l_alias_among xl_c "p::").
Qed.

Definition xk : edef val :=
  mkEnum [mkVariant "N" ["n"; "k"] ShUnnamed [pos i32] false false false false; mkVariant "Other" ["other"] ShUnit [] false false false false] None [] false [].
Lemma xk_proper : proper_enum TMeta xk.
Proof.
  refine (conj _ (conj _ (conj _ (conj _ _)))).
  - repeat (apply Forall_cons; [split; [ga|split; [ga|split; ga0]]|]); try apply Forall_nil.
  - intros v f [<-|[<-|[]]]; discriminate.
  - intros i j v w n Ni Nj [O1 O2] [P1 P2] I J. destruct i as [|[|i]]; cbn in Ni; try (injection Ni as <-); try discriminate; try (destruct i; discriminate);
    destruct j as [|[|j]]; cbn in Nj; try (injection Nj as <-); try discriminate; auto; try (destruct j; discriminate); cbn in I, J; intuition congruence.
  - intros v f [<-|[<-|[]]] I; repeat (destruct I as [<-|I]; [apply unaware_fine, fine_i32|]); destruct I.
  - intros v f [<-|[<-|[]]]; discriminate.
Qed.
Lemma xk_local : flat_local xk. Proof. intros v [<-|[<-|[]]]; discriminate. Qed.
Lemma xk_textual : forall v, In v (e_variants xk) -> v_flatten v = true -> Forall textual_field (v_raw v).
Proof. intros v [<-|[<-|[]]]; discriminate. Qed.
Lemma xk_any : forall v, In v (e_variants xk) -> any_name v.
Proof. intros v [<-|[<-|[]]]; discriminate. Qed.
Lemma xk_items : Forall2 (rekeyed (variant_aliases xk "")) (items_of (xin "n(5)")) (items_of (xin "k(5)")).
Proof.
  assert (E : exists t1 t2, items_of (xin "n(5)") = [t1] /\ items_of (xin "k(5)") = [t2] /\
    exists ksp body, item_key t1 = Some ("n", ksp, body) /\ item_key t2 = Some ("k", ksp, body)).
  { do 2 eexists. split; [vm_compute; reflexivity|]. split; [vm_compute; reflexivity|]. do 2 eexists. split; vm_compute; reflexivity. }
  destruct E as [t1 [t2 [-> [-> [ksp [body [K1 K2]]]]]]]. constructor; [right|constructor].
  exists "n", "k", ksp, body. split; auto. split; auto. exists 0. eexists. split; (split; [reflexivity|split; [split; reflexivity|]]); [exists "n"|exists "k"]; cbn; auto.
Qed.
Lemma nameless_i32 : nameless_value i32. Proof. intros k k' ksp body x H. exact H. Qed.
(** struct A { a: i32, #[deluxe(append, alias = w)] v: Vec<i32> } *)
Lemma xapp_any : append_any_name (fun ps => pmap VL (vec_append i32 ps)).
Proof. apply l_alias_vec; [apply fine_i32|apply nameless_i32]. Qed.
Lemma xapp_routes : Forall (routes "") (s_raw ex_app).
Proof.
  apply Forall_cons; [discriminate|]. apply Forall_cons; [|apply Forall_nil]. intros _. cbn [f_kind]. apply (l_vec_append_keys i32 VL), fine_i32.
Qed.
Lemma xapp_separate : separate ex_app.
Proof.
  intros i j f g n Ni Nj If Ig.
  assert (Q : forall k h, nth_error (s_raw ex_app) k = Some h -> (k = 0 /\ names_of h = ["a"]) \/ (k = 1 /\ names_of h = ["v"; "w"])).
  { intros [|[|[|k]]] h H; cbn in H; try discriminate; injection H as <-; cbn; tauto. }
  destruct (Q i f Ni) as [[-> E]|[-> E]]; destruct (Q j g Nj) as [[-> E']|[-> E']];
    auto; rewrite E in If; rewrite E' in Ig; cbn in If, Ig; intuition congruence.
Qed.
From Verif Require Import SourceKit.
Lemma ex_alias_flat : exists (env : Env) (e : edef val), e = src_edef lone_types ex0
    "enum E { #[deluxe(flatten)] V { #[deluxe(alias = z)] y: i32 }, #[deluxe(flatten)] W { #[deluxe(alias = x)] z: i32 } }" /\
  deluxe_parse2 (enum_dict e) (tk "y = 1") = Ok (0, [VI 1]) /\
  deluxe_parse2 (enum_dict e) (tk "z = 1") = Ok (1, [VI 1]).
Proof. exists lexer_env. eexists. split; [reflexivity|]. split; vm_compute; reflexivity. Qed.
