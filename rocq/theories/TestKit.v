(** A concrete value universe, a toy environment and shorthands to write schemas: used by
    the conformance tests and by the examples and counterexamples beside the theorems. *)
From Verif Require Export Attrs With Validations Lexer.

Inductive val : Type :=
| VI (z : Z) | VB (b : bool) | VT (s : string) | VF (s : string) | VC (c : N)
| VO (o : option val) | VL (l : list val) | VM (l : list (string * val))
| VU | VS (l : list val) | VE (i : nat) (l : list val) | VX (s : string).

#[export] Existing Instance lexer_env.

Definition out {A} (r : res A) : A + string :=
  match r with
  | Ok v => inl v
  | Err e => inr (join_strs ", " (map e_msg (errs_of e)))
  | Bad Panic => inr "PANIC"
  | Bad Diverge => inr "DIVERGE"
  end.
(** tests/test_util/mod.rs 20-36 *)
Definition pmeta {A} (d : dict A) (txt : string) : A + string :=
  out (parse2 (d_item d Unnamed) (tk txt)).
Definition pflag {A} (d : dict A) : A + string := out (d_flag d SCall).

Definition i32 : dict val := dict_map VI (int_dict k_i32).
Definition u16 : dict val := dict_map VI (int_dict k_u16).
Definition u32 : dict val := dict_map VI (int_dict k_u32).
Definition u64 : dict val := dict_map VI (int_dict k_u64).
Definition f64 : dict val := dict_map (fun x => VF (snd x)) float_dict.
Definition bool_ : dict val := dict_map VB bool_dict.
Definition char_ : dict val := dict_map VC char_dict.
Definition string_ : dict val := dict_map VT string_dict.
Definition ident_ : dict val := dict_map (fun x => VT (fst x)) ident_dict.
Definition path_ : dict val := dict_map (fun p => VT (path_key p)) (syn_dict parse_any_path).
Definition flag_ : dict val :=
  dict_map (fun o => VB (match o with Some _ => true | None => false end)) flag_dict.
Definition opt_ (d : dict val) : dict val := dict_map VO (option_dict d).
Definition vec_ (d : dict val) : dict val := dict_map VL (vec_dict d).

Definition expr_toy : parser val :=
  fun s => match until_comma (toks s) with
           | [] => (Err (error_at s "expected an expression"), s)
           | [TPunct "!" _ _] =>
             let s1 := skip_item s in (Err (error_at s1 "expected an expression"), s1)
           | l => (Ok (VX (env_shows l)), skip_item s)
           end.
Definition expr_ : dict val := syn_dict expr_toy.

(** fields *)
Definition fld (n : string) (names : list string) (k : fkind val) (dflt : option val) :=
  mkField n names k dflt VU [] false false.
Definition it (n : string) (d : dict val) := fld n [n] (KItem d) None.
Definition itd (n : string) (d : dict val) (v : val) := fld n [n] (KItem d) (Some v).
Definition pos (d : dict val) := fld "" [] (KItem d) None.
Definition posd (d : dict val) (v : val) := fld "" [] (KItem d) (Some v).
Definition flatn (n : string) (p : option string) (u : flat_named val) :=
  fld n [n] (KFlatN p u) None.
Definition flatu (u : flat_unnamed val) := fld "" [] (KFlatU u) None.
Definition skipf (n : string) (d : dict val) (v : val) :=
  mkField n [n] (KItem d) None v [] true false.
Definition contf (n : string) := mkField n [n] (KItem i32) None (VX "default") [] false true.

Definition named (fs : list (field val)) := mkStruct ShNamed fs None false false [] [].
Definition tuple (fs : list (field val)) := mkStruct ShUnnamed fs None false false [] [].
Definition sd (s : sdef val) : dict val := dict_map VS (struct_dict s).
Definition sfn (s : sdef val) : flat_named val := fn_map VS (struct_fn s).
Definition sfu (s : sdef val) : flat_unnamed val := fu_map VS (struct_fu s).
Definition ve (x : nat * list val) : val := VE (fst x) (snd x).
Definition ed (e : edef val) : dict val := dict_map ve (enum_dict e).
Definition efn (e : edef val) : flat_named val := fn_map ve (enum_fn e).

Definition okS (l : list val) : val + string := inl (VS l).
Definition okE (i : nat) (l : list val) : val + string := inl (VE i l).
Definition er (s : string) : val + string := inr s.
Definition q (s : string) : string := s.

Definition pmap_val (l : list (val * val)) : val :=
  VM (map (fun kv => (match fst kv with VT s => s | _ => "" end, snd kv)) l).
Definition veq (a b : val) : bool :=
  match a, b with VT x, VT y => String.eqb x y | _, _ => false end.
Definition vstr (a : val) : string := match a with VT x => x | _ => "" end.
Definition rest_ (dk dv : dict val) : rest_fn val :=
  fun ex => pmap pmap_val (map_rest veq vstr dk dv ex).
Definition append_ (d : dict val) : append_fn val := fun ps => pmap VL (vec_append d ps).
Definition mkp (l : list string) : path := mkPath false l SCall.
Definition al (p : list string) (txt : string) : attr := mkAttr (mkp p) (MList Paren (tk txt)) SCall.
Definition ap (p : list string) : attr := mkAttr (mkp p) MPath SCall.
Definition withattrs (s : sdef val) (l : list (list string)) : sdef val :=
  mkStruct (s_shape s) (s_raw s) (s_default s) (s_transparent s) (s_unknown_ok s) (s_and_thens s) l.
Definition cv (o : owner) : val := VX (show_nat (length (attrs o))).
Definition pattrs (s : sdef val) (l : list attr) : list val + string :=
  out (struct_parse_attributes s cv (ONode l)).
Definition okA (l : list val) : list val + string := inl l.
Definition erA (s : string) : list val + string := inr s.

Ltac t := vm_compute; reflexivity.

