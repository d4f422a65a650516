(** C99: what the parser of an enum with flattened variants accepts, in terms of its source. *)
From Verif Require Export SpecVSource.
From Verif Require Import LemSource4 ExVSource.

(** ** C99 From the source of an enum with flattened variants to the values it parses *)
(** The derived parser accepts exactly the values of the enum according to the options written in
    the source: that of the variant that is called for, or of the flattened variant that is taken
    for its fields, or the default. *)
Theorem C99_enum : forall (env : Env) V (ru : rust V) (sy : synlib), good_syn_lib sy ->
  forall (auto : evalue V) (expr : list token -> evalue V)
         (post : list token -> evalue V -> evalue V + synerr) (tm : tmode V) (i : src_enum) (d : senum)
         (osss : list (list (list fopt))) (vos : list (list vopt)) (eo : list eopt)
         validate sp inputs r x,
  good_rust ru -> written_enum i -> derived_enum sy tm i d -> enum_options sy i osss vos eo ->
  plain_flat_enum ru i osss vos ->
  enum_run (lower_enum ru auto expr post d) tm "" validate sp inputs r ->
  r = Ok x <-> exists y,
    source_flat_enum ru i osss vos (default_by auto expr (e_defaults eo))
                     (existsb (fun b => b) (e_unknowns eo)) validate tm sp (items_of inputs) y /\
    chained (map post (e_and_thens_of eo)) y x.
Proof. exact @l_flat_source. Qed.
Print Assumptions C99_enum.

(** If the items can be meant for flattened variants, exactly one of these is taken. *)
Theorem C99_taken : forall (env : Env) V (ru : rust V) (sy : synlib), good_syn_lib sy ->
  forall (tm : tmode V) (i : src_enum) (d : senum) (osss : list (list (list fopt)))
         (vos : list (list vopt)) (eo : list eopt) inputs n v oss vo,
  good_rust ru -> written_enum i -> derived_enum sy tm i d -> enum_options sy i osss vos eo ->
  plain_flat_enum ru i osss vos -> meant i osss vos (items_of inputs) n v oss vo ->
  exists n1 v1 oss1 vo1, taken i osss vos (items_of inputs) n1 v1 oss1 vo1 /\
    forall n2 v2 oss2 vo2, taken i osss vos (items_of inputs) n2 v2 oss2 vo2 -> n2 = n1.
Proof. exact @l_flat_taken. Qed.
Print Assumptions C99_taken.

Example C99_ex : exists d osss vos,
  good_syn_lib xsy /\ good_rust xru /\ written_enum x_fsrc /\ derived_enum xsy (@TMeta val) x_fsrc d /\
  enum_options xsy x_fsrc osss vos [] /\ plain_flat_enum xru x_fsrc osss vos /\
  (exists v oss vo v' oss' vo', meant x_fsrc osss vos (items_of (x_ine "y = 5, x = 6")) 1 v oss vo /\
     meant x_fsrc osss vos (items_of (x_ine "y = 5, x = 6")) 4 v' oss' vo') /\
  Forall (fun p => enum_run (x_lowe d) TMeta "" true (to_full_span Unnamed (x_ine (fst p))) (x_ine (fst p)) (snd p)) x_foutcomes.
Proof. exact x_fsrc_ok. Qed.
