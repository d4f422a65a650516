(** The parsing traits as dictionaries.  Models core/parse_meta.rs 65-248. *)
From Verif Require Export Helpers.

(** 76-143 trait ParseMetaItem *)
Record dict (A : Type) : Type := mkDict {
  d_item : mode -> parser A;                 (* parse_meta_item *)
  d_inline : mode -> mparser A;              (* parse_meta_item_inline *)
  d_flag : span -> res A;                    (* parse_meta_item_flag *)
  d_named : string -> span -> parser A;      (* parse_meta_item_named *)
  d_missing : string -> span -> res A        (* missing_meta_item *)
}.
Arguments mkDict {A}.
Arguments d_item {A}.
Arguments d_inline {A}.
Arguments d_flag {A}.
Arguments d_named {A}.
Arguments d_missing {A}.

(** 152-180 trait ParseMetaFlatUnnamed *)
Record flat_unnamed (A : Type) : Type := mkFU {
  fu_count : option nat;                     (* field_count *)
  fu_parse : mode -> nat -> mparser A        (* parse_meta_flat_unnamed *)
}.
Arguments mkFU {A}.
Arguments fu_count {A}.
Arguments fu_parse {A}.

(** 189-216 trait ParseMetaFlatNamed *)
Record flat_named (A : Type) : Type := mkFN {
  fn_names : list string;                    (* field_names *)
  fn_accepts_all : bool;                     (* ACCEPTS_ALL *)
  fn_parse : mode -> string -> bool -> mparser A  (* parse_meta_flat_named mode prefix validate *)
}.
Arguments mkFN {A}.
Arguments fn_names {A}.
Arguments fn_accepts_all {A}.
Arguments fn_parse {A}.

(** 222-233 trait ParseMetaAppend: paths -> inputs *)
Definition append_fn (A : Type) : Type := list string -> mparser A.
(** 239-248 trait ParseMetaRest: exclude -> inputs *)
Definition rest_fn (A : Type) : Type := list string -> mparser A.

Section M.
Context {env : Env}.

(** 104-110 default parse_meta_item_inline *)
Definition def_inline {A} (item : mode -> parser A) : mode -> mparser A :=
  fun m => parse_first m item.
(** 117-120 default parse_meta_item_flag *)
Definition def_flag {A} : span -> res A := fun sp => Err (flag_disallowed_error sp).
(** 128-131 default parse_meta_item_named; 400-409 of parse_helpers.rs *)
Definition def_named {A} (item : mode -> parser A) (inline : mode -> mparser A)
           (flag : span -> res A) : string -> span -> parser A :=
  fun _ sp => parse_named_with item inline flag sp.
(** 139-142 default missing_meta_item *)
Definition def_missing {A} : string -> span -> res A :=
  fun n sp => Err (missing_field_error n sp).

(** an impl that overrides nothing / the flag / flag and missing / inline *)
Definition dict_item {A} (item : mode -> parser A) : dict A :=
  mkDict item (def_inline item) def_flag
         (def_named item (def_inline item) def_flag) def_missing.
Definition dict_item_flag {A} (item : mode -> parser A) (flag : span -> res A) : dict A :=
  mkDict item (def_inline item) flag
         (def_named item (def_inline item) flag) def_missing.
Definition dict_item_flag_missing {A} (item : mode -> parser A) (flag : span -> res A)
           (missing : string -> span -> res A) : dict A :=
  mkDict item (def_inline item) flag
         (def_named item (def_inline item) flag) missing.
Definition dict_inline {A} (item : mode -> parser A) (inline : mode -> mparser A) : dict A :=
  mkDict item inline def_flag (def_named item inline def_flag) def_missing.

(** Change of the value type by a total function (Result::map on every method). *)
Definition dict_map {A B} (f : A -> B) (d : dict A) : dict B :=
  mkDict (fun m => pmap f (d_item d m))
         (fun m => pmap f (d_inline d m))
         (fun sp => rmap f (d_flag d sp))
         (fun n sp => pmap f (d_named d n sp))
         (fun n sp => rmap f (d_missing d n sp)).
Definition fu_map {A B} (f : A -> B) (u : flat_unnamed A) : flat_unnamed B :=
  mkFU (fu_count u) (fun m i => pmap f (fu_parse u m i)).
Definition fn_map {A B} (f : A -> B) (u : flat_named A) : flat_named B :=
  mkFN (fn_names u) (fn_accepts_all u) (fun m p v => pmap f (fn_parse u m p v)).
End M.
