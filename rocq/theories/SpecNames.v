(** What the names an item reports are to be. *)
From Verif Require Export NamesCode.

(** what the implementations of two programs' types have in common: the names of every type
    that is flattened *)
Definition names_of {V} (ru : rust V) (f : src_field) : list string := fn_names (rt_fn (ru_type ru f)).
Definition agree_on {V} (fs : list src_field) (ru ru' : rust V) : Prop :=
  forall f, In f fs -> names_of ru f = names_of ru' f.
(** the fields whose types' names an item asks for *)
Definition asked (fs : list sfield) : list src_field := map g_src (filter flatten_true fs).
(** all programs agree with one another *)
Definition all_agree {V} (fs : list src_field) (rus : list (rust V)) : Prop :=
  forall ru ru', In ru rus -> In ru' rus -> agree_on fs ru ru'.
(** no flattened variant has a flattened field with a prefix *)
Definition no_nested_prefix (d : senum) : Prop :=
  forall v f x, In v (j_variants d) -> h_flatten v = Some true ->
  In f (h_fields v) -> g_flatten f = Some x -> ff_value x = true -> ff_prefix x = None.
