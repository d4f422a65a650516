(** Concrete cases for C95 and for the transparent structs of C91. *)
From Verif Require Import SourceKit ExIdle ExAttr ExEnum.
From Verif Require Export LemFirst LemIdle2.

(** #[deluxe(transparent, attributes(x))] struct N(i32); *)
Definition xone : sdef val := mkStruct ShUnnamed [it "0" i32] None true false [] [["x"]].
Lemma xone_ok : accepted_struct xone.
Proof.
  split; [cbn [s_shape s_raw xone]; ga|]. intros _. split; [reflexivity|]. constructor; [|constructor]. intros g H. destruct H.
Qed.
Lemma first_map {A B} (h : A -> B) m (f : mode -> parser A) l :
  pmap h (parse_first m f) l = parse_first m (fun m => pmap h (f m)) l.
Proof.
  unfold pmap, parse_first, pbind, pret. destruct l as [|s l].
  - unfold parse_empty, parse2. destruct (f m (root_stream [])) as [[v|e|b] s1]; cbn; try reflexivity.
    destruct (cell s1); [reflexivity|]. destruct (toks s1); reflexivity.
  - destruct (f m s) as [[v|e|b] s1]; cbn; try reflexivity. destruct (parse_eof s1) as [[u|e|b] s2]; reflexivity.
Qed.
Lemma xone_first m l : d_inline (snd (s_inner xone)) m l = parse_first m (d_item i32) l.
Proof. exact (first_map VI m (d_item (int_dict k_i32)) l). Qed.

Definition xtwo (a b : string) : owner := ONode [xattr a; mkAttr (mkPath false ["y"] SCall) (MNameValue []) SCall; xattr b].
Lemma ex_first : let env := lexer_env in
  struct_parse_attributes xone (fun _ => VU) (xtwo "1" "") = Ok [VI 1] /\
  struct_parse_attributes xone (fun _ => VU) (xtwo "1" ",") = Ok [VI 1] /\
  is_ok (struct_parse_attributes xone (fun _ => VU) (xtwo "1" "2")) = false /\
  is_ok (struct_parse_attributes xone (fun _ => VU) (xtwo "" "2")) = false.
Proof. repeat split; vm_compute; reflexivity. Qed.

Lemma ex_first_rest : exists (env : Env) (f : mode -> parser Z) m s other v, toks other <> [] /\
  parse_first m f [s; other] = (Ok v, [mkStream [] (scope s) None; other]).
Proof.
  exists lexer_env, (d_item (int_dict k_i32)), Unnamed, (root_stream (tk "1")), (root_stream (tk "2")), 1%Z.
  split; [discriminate|]. vm_compute. reflexivity.
Qed.

(** *** C91: the default of the field of a transparent struct *)
Definition seven_world : world := mkWorld [("i32", rt i32 (VI 0))] [] [("7", VI 7)] [] [].
Lemma ex_idle_transparent : exists env : Env,
  deluxe_parse2 (struct_dict (src_sdef seven_world sx0 "struct S { #[deluxe(default = 7)] a: i32 }")) [] = Ok [VI 7] /\
  xmsgs (deluxe_parse2 (struct_dict (src_sdef seven_world sx0 "#[deluxe(transparent)] struct S { #[deluxe(default = 7)] a: i32 }")) []) =
  ["unexpected end of input, expected integer literal"].
Proof. exists lexer_env. split; vm_compute; reflexivity. Qed.
Definition seven (o : option val) : sdef val := mkStruct ShUnnamed [mkField "0" ["0"] (KItem i32) o VU [] false false] None true false [] [].
Lemma seven_alike : alike_transparent (seven None) (seven (Some (VI 7))).
Proof.
  constructor; try reflexivity; [split; reflexivity|].
  exists [], (mkField "0" ["0"] (KItem i32) None VU [] false false), (Some (VI 7)), []. repeat split.
Qed.
