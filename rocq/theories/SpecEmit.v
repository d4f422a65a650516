(** When a piece of emitted code mentions no variable that is not in scope. *)
From Verif Require Export Emit SpecSchema.

(** [scoped vars c vars']: with the variables [vars] in scope, every variable mentioned in
    [c] is in scope where it is mentioned, and after [c] the variables [vars'] are. *)
Inductive scoped : list string -> code -> list string -> Prop :=
| SC_nop E : scoped E CNop E
| SC_use E x : In x E -> scoped E (CUse x) E
| SC_let E x e E' : scoped E e E' -> scoped E (CLet x e) (x :: E)
| SC_seq E a E1 b E2 : scoped E a E1 -> scoped E1 b E2 -> scoped E (CSeq a b) E2
| SC_block E a E' : scoped E a E' -> scoped E (CBlock a) E
| SC_fn E ps b E' : scoped (ps ++ E) b E' -> scoped E (CFn ps b) E.
(** a function mentions only its own variables *)
Definition self_contained (c : code) : Prop := exists E, scoped [] c E.

(** a field whose value is read under its name or at its place *)
Definition plainly_read (f : sfield) : Prop :=
  g_is_container f = false /\ sv_true (g_skip f) = false /\ flatten_true f = false /\
  sv_true (g_append f) = false /\ sv_true (g_rest f) = false.
(** the struct is read as its only field *)
Definition passes_on (d : sstruct) : Prop :=
  st_true (i_transparent d) = true /\ exists f, In f (i_fields d) /\ plainly_read f.
(** a variant is both flattened and read as its only field *)
Definition flat_and_transparent (d : senum) : Prop :=
  exists v, In v (j_variants d) /\ sv_true (h_skip v) = false /\
            b_true (h_flatten v) = true /\ b_true (h_transparent v) = true.
