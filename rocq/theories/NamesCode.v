(** The code emitted for `field_names()`: which names it holds, and the cells it keeps them
    in.  Models macros/types/field.rs 315-388, macros/types/enum.rs 68-165 and the cells of
    core/util.rs (SyncOnceCell is once_cell::sync::OnceCell).

    The rest of the model works with the names themselves ([s_names], [e_names]); this file
    models how the emitted code obtains them.  A `static` inside a function or a block is one
    object per program, also when the enclosing function or impl is generic: the emitted cells
    are shared by all instantiations of the item.
    Simplifications: calls are sequential (get_or_init runs one initialiser); that the
    elements of the outer vector borrow from the inner cells is not tracked. *)
From Verif Require Export Lower.

(** the element types the emitted `static CELL: SyncOnceCell<Vec<..>>` declares *)
Inductive elem : Type := EString | ECow.
(** core/parse_helpers.rs 780 join_paths returns Vec<Cow<str>> *)
Definition join_paths_elem : elem := ECow.

(** one statement filling the vector: `vec.push(name);` for each name, `vec.extend_from_slice
    (<ty>::field_names())`, or the names under a prefix, kept in a cell of their own *)
Inductive piece : Type :=
| PNames (l : list string)
| PSlice (f : src_field)
| PCell (declared made : elem) (prefix : string) (f : src_field).
(** the body of `field_names()`: a constant array, or a vector kept in a cell *)
Inductive names_code : Type :=
| NArray (l : list string)
| NVec (ps : list piece).

(** the statement for a field with `flatten` set, with the declared element type *)
Definition flat_piece (declared : elem) (f : sfield) : piece :=
  match g_flatten f with
  | Some x => match ff_prefix x with
              | Some p => PCell declared join_paths_elem (path_key p) (g_src f)
              | None => PSlice (g_src f)
              end
  | None => PNames []
  end.
(** field.rs 325-364 *)
Definition field_piece (f : sfield) : piece :=
  if flatten_true f then flat_piece ECow f else PNames (map fst (g_idents f)).
(** field.rs 315-388 *)
Definition fields_code (fs : list sfield) : names_code :=
  if existsb flatten_true fs then NVec (map field_piece (filter g_is_parsable fs))
  else NArray (flat_map (fun f => map fst (g_idents f)) (filter g_is_parsable fs)).

(** enum.rs 74-143: the names of an ordinary variant; for a flattened variant, first its
    flattened fields and then the names of the others *)
Definition tag_names (v : svariant) : list string :=
  if b_true (h_flatten v) || sv_true (h_skip v) then [] else map fst (h_idents v).
Definition own_names (v : svariant) : list string :=
  flat_map (fun f => if flatten_true f then [] else map fst (g_idents f)) (h_fields v).
Definition variant_pieces (v : svariant) : list piece :=
  PNames (tag_names v) ::
  (if b_true (h_flatten v)
   then map (flat_piece EString) (filter flatten_true (h_fields v)) ++ [PNames (own_names v)]
   else []).
(** enum.rs 69-72 *)
Definition any_flat_nested (vs : list svariant) : bool :=
  existsb (fun v => b_true (h_flatten v) && existsb g_is_flat (h_fields v)) vs.
(** enum.rs 68-165 *)
Definition variants_code (vs : list svariant) : names_code :=
  if any_flat_nested vs then NVec (flat_map variant_pieces vs)
  else NArray (flat_map (fun v => tag_names v ++ (if b_true (h_flatten v) then own_names v else [])) vs).

(** the statics: the outer cell and, for each statement, the cell it may have *)
Record cells : Type := mkCells {
  c_outer : option (list string);
  c_inner : list (option (list string)) }.
Definition no_cells : cells := mkCells None [].

(** [names] gives `<ty as ParseMetaFlatNamed>::field_names()` for the type of a field, in the
    instantiation at hand *)
Definition piece_run (names : src_field -> list string) (p : piece) (c : option (list string))
  : list string * option (list string) :=
  match p with
  | PNames l => (l, c)
  | PSlice f => (names f, c)
  | PCell _ _ prefix f =>
    let l := match c with Some l => l | None => join_paths prefix (names f) end in (l, Some l)
  end.
Fixpoint pieces_run (names : src_field -> list string) (ps : list piece)
         (cs : list (option (list string))) : list string * list (option (list string)) :=
  match ps with
  | [] => ([], cs)
  | p :: ps' =>
    let (l, c) := piece_run names p (match cs with c :: _ => c | [] => None end) in
    let (l', cs') := pieces_run names ps' (tl cs) in
    (l ++ l', c :: cs')
  end.
(** one call of `field_names()` *)
Definition names_call (code : names_code) (names : src_field -> list string) (st : cells)
  : list string * cells :=
  match code with
  | NArray l => (l, st)
  | NVec ps =>
    match c_outer st with
    | Some l => (l, st)
    | None => let (l, cs) := pieces_run names ps (c_inner st) in (l, mkCells (Some l) cs)
    end
  end.
(** the calls a program makes, one after the other, each in some instantiation *)
Fixpoint names_calls (code : names_code) (insts : list (src_field -> list string)) (st : cells)
  : list (list string) :=
  match insts with
  | [] => []
  | names :: insts' =>
    let (l, st') := names_call code names st in l :: names_calls code insts' st'
  end.

(** the cells of the code have the type their initialisers produce *)
Definition piece_typed (p : piece) : Prop :=
  match p with PCell declared made _ _ => declared = made | _ => True end.
Definition code_typed (code : names_code) : Prop :=
  match code with NArray _ => True | NVec ps => Forall piece_typed ps end.
