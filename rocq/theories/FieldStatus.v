(** FieldStatus<T>.  Models core/parse_helpers.rs 21-236 (the methods that take
    parsers are in Helpers.v). *)
From Verif Require Export Base.

(** 21-30 *)
Inductive fstatus (A : Type) : Type :=
| FNone
| FParseError
| FSome (a : A).
Arguments FNone {A}.
Arguments FParseError {A}.
Arguments FSome {A} a.

Section FS.
  Context {A B : Type}.
  (** 34-41 as_ref *)
  Definition fs_as_ref (s : fstatus A) : fstatus A :=
    match s with FSome x => FSome x | FParseError => FParseError | FNone => FNone end.
  (** 44-50 and *)
  Definition fs_and (s : fstatus A) (b : fstatus B) : fstatus B :=
    match s with FSome _ => b | FParseError => FParseError | FNone => FNone end.
  (** 54-60 and_then *)
  Definition fs_and_then (s : fstatus A) (f : A -> fstatus B) : fstatus B :=
    match s with FSome x => f x | FParseError => FParseError | FNone => FNone end.
  (** 63-69 map *)
  Definition fs_map (s : fstatus A) (f : A -> B) : fstatus B :=
    match s with FSome x => FSome (f x) | FParseError => FParseError | FNone => FNone end.
  (** 72-74 *)
  Definition fs_is_none (s : fstatus A) : bool := match s with FNone => true | _ => false end.
  (** 77-79 *)
  Definition fs_is_parse_error (s : fstatus A) : bool :=
    match s with FParseError => true | _ => false end.
  (** 82-84 *)
  Definition fs_is_some (s : fstatus A) : bool := match s with FSome _ => true | _ => false end.
  (** 87-93 or *)
  Definition fs_or (s b : fstatus A) : fstatus A :=
    match s with FSome x => FSome x | FParseError => FParseError | FNone => b end.
  (** 97-103 or_else *)
  Definition fs_or_else (s : fstatus A) (f : unit -> fstatus A) : fstatus A :=
    match s with FSome x => FSome x | FParseError => FParseError | FNone => f tt end.
  (** 111-116 unwrap (inr = panic) *)
  Definition fs_unwrap (s : fstatus A) : A + bad :=
    match s with FSome x => inl x | _ => inr Panic end.
  (** 119-124 unwrap_or *)
  Definition fs_unwrap_or (s : fstatus A) (d : A) : A :=
    match s with FSome x => x | _ => d end.
  (** 127-132 unwrap_or_else *)
  Definition fs_unwrap_or_else (s : fstatus A) (f : unit -> A) : A :=
    match s with FSome x => x | _ => f tt end.
  (** 135-144 flatten *)
  Definition fs_flatten (into : A -> fstatus B) (s : fstatus A) : fstatus B :=
    match s with FSome x => into x | FParseError => FParseError | FNone => FNone end.
  (** 206-211 into_option, 221-226 From<FieldStatus> for Option *)
  Definition fs_into_option (s : fstatus A) : option A :=
    match s with FSome x => Some x | _ => None end.
  (** 228-236 From<Option> *)
  Definition fs_from (o : option A) : fstatus A :=
    match o with Some x => FSome x | None => FNone end.
End FS.
