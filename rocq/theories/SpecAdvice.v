(** Vocabulary for the suggestions of the derive macros (C93). *)
From Verif Require Export SpecDiag.

(** the options of each kind of item *)
Definition options_of_field : list string :=
  ["rename"; "alias"; "default"; "with"; "flatten"; "append"; "rest"; "container"; "skip"; "map"; "and_then"].
Definition options_of_struct : list string :=
  ["transparent"; "allow_unknown_fields"; "default"; "crate"; "and_then"; "attributes"].
Definition options_of_variant : list string :=
  ["transparent"; "allow_unknown_fields"; "flatten"; "rename"; "alias"; "skip"].
Definition options_of_enum : list string :=
  ["default"; "crate"; "and_then"; "attributes"; "allow_unknown_fields"].

(** [advised options k sp l]: one of the errors [l] says that there is no option [k].  If one
    of the [options] is similar enough to [k], the error names the most similar one (or
    one of those). *)
Definition advised {env : Env} (options : list string) (k : string) (sp : span) (l : list err) : Prop :=
  ((forall x, In x options -> (env_sim k x <= 800)%N) /\
   In (mkErr sp ("unknown field `" ++ k ++ "`")%string) l) \/
  (exists x, In x options /\ (800 < env_sim k x)%N /\
     (forall y, In y options -> (env_sim k y <= env_sim k x)%N) /\
     In (mkErr sp ("unknown field `" ++ k ++ "`, did you mean `" ++ x ++ "`?")%string) l).
