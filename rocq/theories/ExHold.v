(** Inputs of the examples in PropsHold.v. *)
From Verif Require Export LemHold LemHold2 TestKit.
From Verif Require Import SourceKit ExIdle WfMore.
Local Open Scope string_scope.
Local Open Scope list_scope.

(** struct S { #[deluxe(container, map = ..)] c: .., a: i32 } on #[my(..)]; the toy object is
    the number of attributes *)
Definition xh_map (v : val) : val := VL [v].
Definition xh_cont : field val := mkField "c" ["c"] (KItem i32) None (VX "default") [TMap xh_map] false true.
Definition xh_s : sdef val := withattrs (named [xh_cont; it "a" i32]) [["my"]].
Lemma xh_fits : fits xh_s.
Proof. split; [discriminate|]. split; [discriminate|]. discriminate. Qed.
Definition xh_o : owner := ONode [al ["my"] "a = 1"; ap ["other"]; ap ["my"]].
Lemma xh_runs : struct_parse_attributes xh_s cv xh_o = Ok [VL [VX "3"]; VI 1] /\
  struct_extract_attributes xh_s cv xh_o = (Ok [VL [VX "1"]; VI 1], ONode [ap ["other"]]) /\
  deluxe_parse2 (struct_dict xh_s) (tk "a = 1") = Ok [VL [VX "default"]; VI 1] /\
  is_ok (deluxe_parse2 (struct_dict xh_s) (tk "a = 1, c = 2")) = false.
Proof. repeat split; vm_compute; reflexivity. Qed.
(** enum E { A { #[deluxe(container, default)] c: .., a: i32 }, B(i32), #[deluxe(flatten)] C { #[deluxe(container, default)] c: .., x: i32 } } *)
Definition xh_contd : field val := mkField "c" ["c"] (KItem i32) (Some (VX "none")) (VX "none") [] false true.
Definition xh_e (d : option (evalue val)) : edef val :=
  mkEnum [mkVariant "A" ["a"] ShNamed [xh_contd; it "a" i32] false false false false;
          mkVariant "B" ["b"] ShUnnamed [pos i32] false false false false;
          mkVariant "C" ["c"] ShNamed [it "x" i32; xh_contd] true false false false] d [] false [["my"]].
Lemma xh_efits d tm : fits_enum tm (xh_e d).
Proof.
  intros v [<-|[<-|[<-|[]]]]; (split; [discriminate|]); intros _; repeat constructor; discriminate.
Qed.
Lemma xh_eruns : enum_parse_attributes (xh_e None) cv (ONode [al ["my"] "a(a = 1)"; ap ["other"]]) = Ok (0, [VX "2"; VI 1]) /\
  enum_extract_attributes (xh_e None) cv (ONode [al ["my"] "x = 1"; ap ["other"]]) = (Ok (2, [VI 1; VX "1"]), ONode [ap ["other"]]) /\
  deluxe_parse2 (enum_dict (xh_e None)) (tk "x = 1") = Ok (2, [VI 1; VX "none"]).
Proof. repeat split; vm_compute; reflexivity. Qed.

(** the default of an enum is returned as it is *)
Lemma ex_hold_default : exists (env : Env) (e : edef val) conv o x v i f,
  (forall pn obj, fits_enum (TAttrs pn obj) e) /\ enum_parse_attributes e conv o = Ok x /\
  nth_error (e_variants e) (fst x) = Some v /\ nth_error (v_raw v) i = Some f /\ f_container f = true /\ f_transforms f = [] /\
  nth_error (snd x) i <> Some (conv o).
Proof.
  exists lexer_env, (xh_e (Some (0, [VX "none"; VI 5]))), cv, (ONode [ap ["my"]]), (0, [VX "none"; VI 5]).
  eexists _, 0, _. split; [intros; apply xh_efits|]. split; [vm_compute; reflexivity|]. repeat split. discriminate.
Qed.
(** `default` is implied for the container field of a struct, not for that of an enum *)
Lemma ex_hold_implied : exists (env : Env) sy (ss : src_struct) (se : src_enum) ds de f h g err,
  derive_meta_struct sy ss = Ok ds /\ In f (i_fields ds) /\ g_is_container f = true /\ g_default f <> None /\
  derive_attr_enum sy se = Ok de /\ In h (j_variants de) /\ In g (h_fields h) /\ g_is_container g = true /\ g_default g = None /\
  derive_meta_enum sy se = Err err /\
  map e_msg (errs_of err) = ["derive(ParseMetaItem) requires container field to have `default`"].
Proof.
  eexists lexer_env, toy_syn, (struct_src "struct S { #[deluxe(container)] c: Object, a: i32 }"),
    (enum_src "enum E { A { #[deluxe(container)] c: Object, a: i32 } }").
  destruct (derive_meta_struct toy_syn _) as [ds|e|b] eqn:E; vm_compute in E; try discriminate E. injection E as <-.
  destruct (derive_attr_enum toy_syn _) as [de|e|b] eqn:E; vm_compute in E; try discriminate E. injection E as <-.
  destruct (derive_meta_enum toy_syn _) as [d2|e|b] eqn:E; vm_compute in E; try discriminate E. injection E as <-.
  eexists _, _, _, _, _, _. split; [reflexivity|]. split; [left; reflexivity|]. split; [vm_compute; reflexivity|]. split; [discriminate|].
  split; [reflexivity|]. split; [left; reflexivity|]. split; [left; reflexivity|]. split; [vm_compute; reflexivity|]. split; [reflexivity|].
  split; [reflexivity|]. vm_compute. reflexivity.
Qed.

(** from the source: struct S { #[deluxe(container)] c: Object, a: i32 } *)
Lemma ex_hold_source : exists (env : Env) sy (ru : rust val) ss auto expr d f,
  derive_attr_struct sy ss = Ok d /\ written_struct ss /\ sound_defaults ru d auto expr /\ In f (i_fields d) /\ g_is_container f = true.
Proof.
  eexists lexer_env, toy_syn, (rust_of idle_world), (struct_src "struct S { #[deluxe(container)] c: Object, a: i32 }"), [VU; VU], (fun _ => [VU; VU]).
  destruct (derive_attr_struct toy_syn _) as [ds|e|b] eqn:E; vm_compute in E; try discriminate E. injection E as <-.
  eexists _, _. split; [reflexivity|]. split; [vm_compute; repeat constructor; discriminate|]. split; [split; [reflexivity|split; [reflexivity|intro X; now destruct X]]|].
  split; [left; reflexivity|vm_compute; reflexivity].
Qed.
