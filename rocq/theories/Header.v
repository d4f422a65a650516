(** The headers of the generated ParseAttributes and ExtractAttributes impls: for which
    type of object, with which generic parameters and bounds.  Models
    macros/parse_attributes.rs 8-31, 86-103, 141-160, 195-300, 314-345 and
    ContainerFrom (core/parse_attributes.rs 513-627).

    Simplifications: a syn::Type is a path, a reference or anything else; of the generic
    arguments only types and lifetimes matter; the item's own where clause is kept as
    tokens.  Identifiers and lifetimes are compared by their text (the spans here are
    mixed-site ones, which rustc resolves at the call site for generic parameters). *)
From Verif Require Export Schema.

(** syn::Type *)
Inductive sty : Type :=
| SPath (qself leading : bool) (segs : list sseg)
| SRef (lt : option string) (mt : bool) (elem : sty)
| SOther (ts : list token)
with sseg : Type := mkSeg (id : string) (args : sargs)
with sargs : Type := ANone | AAngle (l : list sarg) | AParen
with sarg : Type := GLt (lt : string) | GTy (t : sty) | GElse.

(** syn::Generics *)
Inductive gparam : Type := PLife (n : string) | PType (n : string) | PConst (n : string).
Inductive wpred : Type := WClone (t : sty) | WAttrs (t : sty) | WOwn (ts : list token).
Record generics : Type := mkGen { gn_params : list gparam; gn_where : list wpred }.

(** generics.type_params(), generics.lifetimes() *)
Definition type_params (l : list gparam) : list string :=
  flat_map (fun p => match p with PType n => [n] | _ => [] end) l.
Definition lifetimes (l : list gparam) : list string :=
  flat_map (fun p => match p with PLife n => [n] | _ => [] end) l.

(** 8-12 Mode *)
Inductive amode : Type := MParse | MExtract.

(** 257-259 and 284-286: `while generics...any(|p| p.ident == ty) { ty.push('_') }` *)
Fixpoint fresh_loop (fuel : nat) (used : list string) (s : string) : res string :=
  if mem_str s used then
    match fuel with
    | 0 => Bad Diverge
    | S n => fresh_loop n used (s ++ "_")
    end
  else Ok s.
Definition fresh_name (used : list string) (s : string) : res string :=
  fresh_loop (length used) used s.

(** 205-216: the inner type of an Option *)
Definition option_inner (t : sty) : option sty :=
  match t with
  | SPath false _ segs =>
    match rev segs with
    | mkSeg i (AAngle [GTy u]) :: _ => if String.eqb i "Option" then Some u else None
    | _ => None
    end
  | _ => None
  end.
(** 226-234: the first generic argument of the last segment, if a lifetime *)
Definition first_lifetime (t : sty) : option string :=
  match t with
  | SPath _ _ segs =>
    match rev segs with
    | mkSeg _ (AAngle (GLt lt :: _)) :: _ => Some lt
    | _ => None
    end
  | _ => None
  end.
(** 239-242: qself.is_none() and Path::get_ident *)
Definition plain_ident (t : sty) : option string :=
  match t with
  | SPath false false [mkSeg i ANone] => Some i
  | _ => None
  end.

(** 199-248: what is guessed from the container field of type [fty]; [lt0] and [ty0] are
    the ones given in the attribute *)
Record guess : Type := mkGuess {
  gs_lifetime : option string; gs_ref : bool; gs_ty : sty; gs_generic : bool }.
Definition or_else {A} (a b : option A) : option A := match a with Some _ => a | None => b end.
Definition guess_container (params : list gparam) (fty : sty) (lt0 : option string)
           (ty0 : option sty) : guess :=
  let t1 := match option_inner fty with Some u => u | None => fty end in
  let '(lt1, isref, t2) :=
    match t1 with SRef lt _ u => (or_else lt0 lt, true, u) | _ => (lt0, false, t1) end in
  let lt2 := or_else lt1 (first_lifetime t2) in
  match ty0 with
  | Some ty => mkGuess lt2 isref ty false
  | None => mkGuess lt2 isref t2
                    match plain_ident t2 with
                    | Some i => mem_str i (type_params params)
                    | None => false
                    end
  end.

(** the impl's generics, its lifetime argument and the type of the object *)
Record header : Type := mkHeader {
  hd_params : list gparam; hd_where : list wpred; hd_lifetime : option string; hd_ty : sty }.

(** 195-291.  [cont] is the container field's type with the lifetime and the type given in
    its attribute. *)
Definition make_header (m : amode) (g : generics)
           (cont : option (sty * option string * option sty)) : res header :=
  rbind
    (match cont with
     | Some (fty, lt0, ty0) =>
       let x := guess_container (gn_params g) fty lt0 ty0 in
       Ok (gs_lifetime x, gs_ref x, gs_ty x, gs_generic x, gn_params g)
     | None =>
       rmap (fun n => (None, false, SPath false false [mkSeg n ANone], true,
                       PType n :: gn_params g))
            (fresh_name (type_params (gn_params g)) "T")
     end)
    (fun q =>
       let '(lt, isref, ty, isgen, ps) := q in
       let w1 := gn_where g ++ (if match cont with Some _ => negb isref | None => false end
                                then [WClone ty] else []) in
       let w2 := w1 ++ (if isgen then [WAttrs ty] else []) in
       match m, lt with
       | MParse, None =>
         rmap (fun n => mkHeader (PLife n :: ps) w2 (Some n) ty)
              (fresh_name (lifetimes ps) "t")
       | _, _ => Ok (mkHeader ps w2 lt ty)
       end).

(** 86-97, 141-154: `find_map(|f| f.container.as_ref().map(..))`: the first field with the
    option, whatever its value *)
Section C.
Variable ty_of : list token -> sty.
Definition field_container (f : sfield) : option (sty * option string * option sty) :=
  option_map (fun c => (ty_of (sf_ty (g_src f)), fc_lifetime c, option_map ty_of (fc_ty c)))
             (g_container f).
Fixpoint first_container (fs : list sfield) : option (sty * option string * option sty) :=
  match fs with
  | [] => None
  | f :: fs' => or_else (field_container f) (first_container fs')
  end.
Definition struct_header (m : amode) (g : generics) (d : sstruct) : res header :=
  make_header m g (first_container (i_fields d)).
Definition enum_header (m : amode) (g : generics) (d : senum) : res header :=
  make_header m g (first_container (flat_map h_fields (j_variants d))).
End C.

(** core/parse_attributes.rs 541-560, 562-627: ContainerFrom for the types the library
    implements it for; [hold] is what the field then holds.  The default methods are
    `unimplemented!()`. *)
Inductive held : Type := HOwned | HSomeOwned | HRef | HSomeRef | HMut | HSomeMut.
Inductive stored {A} : Type := StClone (x : A) | StSomeClone (x : A) | StRef (x : A) | StSomeRef (x : A).
Arguments stored A : clear implicits.
Definition container_from {A} (m : amode) (h : held) (obj : A) : res (stored A) :=
  match h, m with
  | HOwned, _ => Ok (StClone obj)
  | HSomeOwned, _ => Ok (StSomeClone obj)
  | HRef, _ => Ok (StRef obj)
  | HSomeRef, _ => Ok (StSomeRef obj)
  | HMut, MExtract => Ok (StRef obj)
  | HSomeMut, MExtract => Ok (StSomeRef obj)
  | HMut, MParse => Bad Panic
  | HSomeMut, MParse => Bad Panic
  end.
