(** Types for the examples beside the theorems of PropsGrow.v: the struct P of ExFlat.v with the
    field `#[deluxe(default = 9)] k: i32` after its first field, and the enum C of ExMove.v
    with the variant `N(i32)` *)
From Verif Require Import SourceKit.
From Verif Require Export LemGrow ExMove.

Definition xg_f := itd "k" i32 (VI 9).
Definition xg := named [it "a" i32; xg_f; flatn "c" None (sfn fx_c); flatn "d" (Some "p") (sfn fx_d);
                        fld "v" ["v"] (KAppend (append_ i32)) None].
Lemma xg_named : named_struct xg.
Proof.
  fxn. repeat apply Forall_cons; try apply Forall_nil; unfold good_field; cbn.
  - ga0.
  - ga0.
  - intros. apply good_fn_map, good_struct_fn, fx_c_named.
  - intros. apply good_fn_map, good_struct_fn, fx_d_named.
  - intros _ l. apply wbm_map. apply (good_vec_append i32 good_i32).
Qed.
Lemma xg_local : Forall local_field (s_raw xg). Proof. fxl. Qed.
Lemma xg_with : with_field fx_p 1 xg_f xg.
Proof.
  constructor; auto. exists [it "a" i32], [flatn "c" None (sfn fx_c); flatn "d" (Some "p") (sfn fx_d); fld "v" ["v"] (KAppend (append_ i32)) None].
  auto.
Qed.
Lemma xg_optional : optional_field xg_f (VI 9) (VI 9).
Proof. refine (conj eq_refl (conj eq_refl (conj eq_refl _))). constructor. Qed.
Lemma xg_no_rest : forall g q, In g (s_raw fx_p) -> f_kind g <> KRest q.
Proof. intros g q I. repeat (destruct I as [<-|I]; [discriminate|]). destruct I. Qed.
Lemma xg_new : forall m, In m (f_names xg_f) -> ~ In m (s_names fx_p).
Proof. intros m [<-|[]] I. cbn in I. intuition discriminate. Qed.

Definition xh_v := mkVariant "N" ["n"] ShUnnamed [pos i32] false false false false.
Definition xh : edef val := mkEnum [mkVariant "A" ["a"] ShUnit [] false false false false; xc_b; xh_v] None [] false [].
Lemma xh_proper : proper_enum TMeta xh.
Proof.
  refine (conj _ (conj _ (conj _ (conj _ _)))).
  - repeat (apply Forall_cons; [split; [ga|split; [ga|split; ga0]]|]); try apply Forall_nil.
  - intros v f [<-|[<-|[<-|[]]]]; discriminate.
  - intros i j v w n Ni Nj [O1 O2] [P1 P2] I J. destruct i as [|[|[|i]]]; cbn in Ni; try (injection Ni as <-); try discriminate; try (destruct i; discriminate);
    destruct j as [|[|[|j]]]; cbn in Nj; try (injection Nj as <-); try discriminate; auto; try (destruct j; discriminate); cbn in I, J; intuition congruence.
  - intros v f [<-|[<-|[<-|[]]]] I; repeat (destruct I as [<-|I]; [apply unaware_fine, fine_i32|]); destruct I.
  - intros v f [<-|[<-|[<-|[]]]]; discriminate.
Qed.
Lemma xh_with : with_variant xc xh_v xh.
Proof. constructor; reflexivity. Qed.
Lemma xc_closed : forall w, In w (e_variants xc) -> v_flatten w = true -> ~ takes_all w.
Proof.
  intros w I F. destruct I as [<-|[<-|[]]]; [discriminate|]. intros [T|[f [J T]]]; [discriminate|].
  repeat (destruct J as [<-|J]; [destruct T|]). destruct J.
Qed.
Lemma xh_new : forall n, In n (v_names xh_v) -> ~ In n (fn_names (enum_fn xc)).
Proof. intros n [<-|[]] I. cbn in I. intuition discriminate. Qed.
Lemma xc_run : exists sp, enum_run xc TMeta "" true sp (xin "c = 3, b = 1") (Ok (1, [VI 1; VI 3])).
Proof.
  exists (to_full_span Unnamed (xin "c = 3, b = 1")).
  assert (E : fst (d_inline (enum_dict xc) Unnamed (xin "c = 3, b = 1")) = Ok (1, [VI 1; VI 3])) by (vm_compute; reflexivity).
  rewrite <- E. apply E_list.
Qed.
Lemma ex_grow_flat : exists env : Env,
  deluxe_parse2 (enum_dict (src_edef lone_types ex0 "enum E { #[deluxe(flatten)] V { c: i32, #[deluxe(default)] b: i32 } }")) (tk "b = 1, c = 2") =
  Ok (0, [VI 2; VI 1]) /\
  deluxe_parse2 (enum_dict (src_edef lone_types ex0 "enum E { #[deluxe(flatten)] V { c: i32, #[deluxe(default)] b: i32 }, #[deluxe(flatten)] W { b: i32, #[deluxe(default)] c: i32 } }")) (tk "b = 1, c = 2") =
  Ok (1, [VI 1; VI 2]).
Proof. exists lexer_env. split; vm_compute; reflexivity. Qed.
