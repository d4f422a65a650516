(** What the impl generated for an item should look like, seen from the item. *)
From Verif Require Export Header.

(** [base] followed by [k] underscores *)
Fixpoint marked (base : string) (k : nat) : string :=
  match k with 0 => base | S j => (marked base j ++ "_")%string end.
(** the first of T, T_, T__, .. that is not in use *)
Definition first_free (used : list string) (base n : string) : Prop :=
  exists k, n = marked base k /\ ~ In n used /\ forall j, j < k -> In (marked base j) used.

(** generic parameters share one namespace, lifetimes have their own *)
Definition pkey (p : gparam) : bool * string :=
  match p with PLife n => (true, n) | PType n => (false, n) | PConst n => (false, n) end.
Definition distinct_params (l : list gparam) : Prop := NoDup (map pkey l).

(** `Option<u>`, under any path *)
Definition is_option_of (t u : sty) : Prop :=
  exists leading pre, t = SPath false leading (pre ++ [mkSeg "Option" (AAngle [GTy u])]).
Definition is_reference (t : sty) : Prop := exists lt m u, t = SRef lt m u.
(** `a::B<'lt, ..>` *)
Definition leads_with (t : sty) (lt : string) : Prop :=
  exists q l pre i rest, t = SPath q l (pre ++ [mkSeg i (AAngle (GLt lt :: rest))]).
(** a type parameter of the item, by its bare name *)
Definition is_param (ps : list gparam) (t : sty) : Prop :=
  exists i, t = SPath false false [mkSeg i ANone] /\ In (PType i) ps.

(** [inside fty ref lt t]: a container field of type [fty] holds an object of type [t], by
    value or behind a reference with lifetime [lt] *)
Inductive inside : sty -> bool -> option string -> sty -> Prop :=
| I_value t : (forall u, ~ is_option_of t u) -> ~ is_reference t -> inside t false None t
| I_ref lt m t : inside (SRef lt m t) true lt t
| I_some t u : is_option_of t u -> ~ is_reference u -> inside t false None u
| I_some_ref t lt m u : is_option_of t (SRef lt m u) -> inside t true lt u.

(** the lifetime the user gave or implied: the one of the attribute, else the
    reference's, else the first one of the object's type *)
Inductive implied (lt0 rl : option string) (t : sty) : option string -> Prop :=
| IM_given x : lt0 = Some x -> implied lt0 rl t (Some x)
| IM_ref x : lt0 = None -> rl = Some x -> implied lt0 rl t (Some x)
| IM_type x : lt0 = None -> rl = None -> leads_with t x -> implied lt0 rl t (Some x)
| IM_none : lt0 = None -> rl = None -> (forall x, ~ leads_with t x) -> implied lt0 rl t None.

(** the impl's lifetime: the implied one; parsing needs one, so a new parameter stands in *)
Inductive with_lifetime (m : amode) (ps : list gparam) : option string -> option string -> list gparam -> Prop :=
| WL_implied x : with_lifetime m ps (Some x) (Some x) ps
| WL_none : m = MExtract -> with_lifetime m ps None None ps
| WL_new n : m = MParse -> first_free (lifetimes ps) "t" n ->
    with_lifetime m ps None (Some n) (PLife n :: ps).

Definition declared (ps : list gparam) (x : string) : Prop := x = "static" \/ In (PLife x) ps.

(** [f] is the first of the fields whose attributes say something about `container`: [c] *)
Definition first_says (fs : list sfield) (f : sfield) (c : fcontainer) : Prop :=
  exists pre post, fs = pre ++ f :: post /\ g_container f = Some c /\
  forall x, In x pre -> g_container x = None.
Definition none_says (fs : list sfield) : Prop := forall f, In f fs -> g_container f = None.
(** the header of an impl for the objects held in a field of type [fty], under `container`
    options [c] *)
Definition header_holding (ty_of : list token -> sty) (m : amode) (g : generics) (fty : sty)
           (c : fcontainer) (h : header) : Prop :=
  exists ref rl t lt, inside fty ref rl t /\ implied (fc_lifetime c) rl t lt /\
    let ty := match fc_ty c with Some ts => ty_of ts | None => t end in
    hd_ty h = ty /\
    with_lifetime m (gn_params g) lt (hd_lifetime h) (hd_params h) /\
    exists more, hd_where h = gn_where g ++ more /\
      (In (WClone ty) more <-> ref = false) /\
      (In (WAttrs ty) more <-> fc_ty c = None /\ is_param (gn_params g) t) /\
      (forall p, In p more -> p = WClone ty \/ p = WAttrs ty).
(** the header of an impl for every type of object with attributes *)
Definition header_for_all (m : amode) (g : generics) (h : header) : Prop :=
  exists n, first_free (type_params (gn_params g)) "T" n /\
  hd_ty h = SPath false false [mkSeg n ANone] /\
  hd_where h = gn_where g ++ [WAttrs (hd_ty h)] /\
  with_lifetime m (PType n :: gn_params g) None (hd_lifetime h) (hd_params h).
(** the lifetimes that the container field names are ones of the item *)
Definition names_declared (fty : sty) (c : fcontainer) (g : generics) : Prop :=
  forall ref rl t x, inside fty ref rl t ->
  fc_lifetime c = Some x \/ rl = Some x \/ leads_with t x -> declared (gn_params g) x.
(** [h] is the header generated for a struct or enum whose fields, over all variants, are
    [fs] *)
Definition impl_header (ty_of : list token -> sty) (m : amode) (g : generics) (fs : list sfield)
           (h : header) : Prop :=
  (exists d, fs = i_fields d /\ struct_header ty_of m g d = Ok h) \/
  (exists d, fs = flat_map h_fields (j_variants d) /\ enum_header ty_of m g d = Ok h).

(** *** What a container field holds: a clone of the object or the reference to it, by the
    type of the field, in `Some` if that is an Option *)
Inductive fills {A} : held -> A -> stored A -> Prop :=
| Fills_owned x : fills HOwned x (StClone x)
| Fills_some_owned x : fills HSomeOwned x (StSomeClone x)
| Fills_ref x : fills HRef x (StRef x)
| Fills_some_ref x : fills HSomeRef x (StSomeRef x)
| Fills_mut x : fills HMut x (StRef x)
| Fills_some_mut x : fills HSomeMut x (StSomeRef x).
