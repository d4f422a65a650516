(** What a derive should emit. *)
From Verif Require Export Driver SpecSchema.

(** the item is accepted, and [c] is the schema its code is generated from *)
Inductive accepted {env : Env} (sy : synlib) : dkind -> dinput -> code -> option path -> Prop :=
| AC_meta_struct i d : derive_meta_struct sy i = Ok d -> accepted sy KMeta (DStruct i) (GStruct d) (i_crate d)
| AC_meta_enum i d : derive_meta_enum sy i = Ok d -> accepted sy KMeta (DEnum i) (GEnum d) (j_crate d)
| AC_attr_struct k i d : k <> KMeta -> derive_attr_struct sy i = Ok d ->
    accepted sy k (DStruct i) (GStruct d) (i_crate d)
| AC_attr_enum k i d : k <> KMeta -> derive_attr_enum sy i = Ok d ->
    accepted sy k (DEnum i) (GEnum d) (j_crate d).

(** how the emitted code refers to the library: as the item says, else as Cargo does *)
Inductive crate_known (look : found) : option path -> path -> Prop :=
| CK_given p : crate_known look (Some p) p
| CK_name n : look = FName n -> crate_known look None (mkPath true [n] SCall)
| CK_self : look = FItself -> crate_known look None (mkPath true ["deluxe"] SCall).

(** the item is a Rust item on which the macro does not panic (C57) *)
Definition derivable {env : Env} (sy : synlib) (i : dinput) : Prop :=
  match i with
  | DStruct s => written_struct s
  | DEnum e => written_enum e /\ Forall snake_ok (se_variants e) /\
               (forall d, read_enum sy e = Ok d -> ~ transparent_with_rest d)
  | DUnion _ => True
  end.

(** the item was read: how it names the library *)
Inductive readable {env : Env} (sy : synlib) : dinput -> option path -> Prop :=
| RD_struct i d : read_struct sy i = Ok d -> readable sy (DStruct i) (i_crate d)
| RD_enum i d : read_enum sy i = Ok d -> readable sy (DEnum i) (j_crate d).
(** the item was not read, with these errors *)
Inductive unreadable {env : Env} (sy : synlib) : dinput -> synerr -> Prop :=
| UR_struct i e : read_struct sy i = Err e -> unreadable sy (DStruct i) e
| UR_enum i e : read_enum sy i = Err e -> unreadable sy (DEnum i) e.

Definition union_message (k : dkind) : string :=
  match k with
  | KMeta => "union not supported with derive(ParseMetaItem)"
  | KParse => "union not supported with derive(ParseAttributes)"
  | KExtract => "union not supported with derive(ExtractAttributes)"
  end.

(** everything a derive emits: the impl, if any, and the errors *)
Inductive emits {env : Env} (sy : synlib) (look : found) (k : dkind)
  : res dinput -> option impl -> errors -> Prop :=
| EM_impl i c p q : accepted sy k i c p -> crate_known look p q ->
    emits sy look k (Ok i) (Some (q, c)) []
| EM_no_crate i m : readable sy i None -> look = FMissing m ->
    emits sy look k (Ok i) None [mkErr SCall m]
| EM_unreachable i e q : unreadable sy i e -> crate_known look None q ->
    emits sy look k (Ok i) (Some (q, GUnreachable)) (errs_of e)
| EM_nothing i e m : unreadable sy i e -> look = FMissing m ->
    emits sy look k (Ok i) None (errs_of e)
| EM_container i d e q : k = KMeta -> read_enum sy i = Ok d -> crate_known look (j_crate d) q ->
    derive_meta_enum sy i = Err e ->
    emits sy look k (Ok (DEnum i)) (Some (q, GEnum d)) (errs_of e)
| EM_union sp : emits sy look k (Ok (DUnion sp)) None [mkErr sp (union_message k)]
| EM_syntax e : emits sy look k (Err e) None (errs_of e).
