(** The error accumulator.  Models core/util.rs 19-239 (struct Errors).

    First part: the accumulator as it is stored, a RefCell<Option<syn::Error>>.
    Second part: the same operations on the plain list of collected messages, which is
    what the rest of the model uses (LemSmall.v proves the two agree). *)
From Verif Require Export Base.

(** syn::Error::combine: append the other error's messages (dependency). *)
Definition syn_combine (a b : synerr) : synerr := mkSyn (se_hd a) (se_tl a ++ errs_of b).
(** syn::Error as Extend<Error>: combine with every item (dependency). *)
Definition syn_extend (a : synerr) (l : list synerr) : synerr := fold_left syn_combine l a.
(** syn::Error::into_iter: one single-message error per message (dependency). *)
Definition syn_iter (e : synerr) : list synerr :=
  map (fun x => mkSyn x []) (errs_of e).
(** syn::Error::into_compile_error: one `compile_error!` invocation per message;
    the model keeps the list of (span, message) pairs (dependency). *)
Definition compile_error (e : synerr) : list err := errs_of e.

(** core/util.rs 22-25 struct Errors *)
Definition cerrors : Type := option synerr.
(** core/util.rs 28-33 new *)
Definition c_new : cerrors := None.
(** core/util.rs 35-38 is_empty *)
Definition c_is_empty (c : cerrors) : bool := match c with None => true | _ => false end.
(** core/util.rs 40-43 clear *)
Definition c_clear (c : cerrors) : cerrors := None.
(** core/util.rs 68-75 push_syn *)
Definition c_push_syn (c : cerrors) (e : synerr) : cerrors :=
  match c with Some s => Some (syn_combine s e) | None => Some e end.
(** core/util.rs 46-48 push *)
Definition c_push (c : cerrors) (sp : span) (m : string) : cerrors :=
  c_push_syn c (err1 sp m).
(** core/util.rs 52-54 push_call_site *)
Definition c_push_call_site (c : cerrors) (m : string) : cerrors := c_push c SCall m.
(** core/util.rs 81-89 push_result; returns the Option and the new contents *)
Definition c_push_result {A} (c : cerrors) (r : res A) : option A * cerrors :=
  match r with
  | Ok a => (Some a, c)
  | Err e => (None, c_push_syn c e)
  | Bad _ => (None, c)
  end.
(** core/util.rs 92-103 extend *)
Definition c_extend (c : cerrors) (l : list synerr) : cerrors :=
  match c with
  | Some e => Some (syn_extend e l)
  | None => match l with
            | [] => None
            | x :: l' => Some (syn_extend x l')
            end
  end.
(** core/util.rs 109-115 into_result *)
Definition c_into_result {A} (c : cerrors) (v : A) : res A :=
  match c with Some e => Err e | None => Ok v end.
(** core/util.rs 121-123 check *)
Definition c_check (c : cerrors) : res unit := c_into_result c tt.
(** core/util.rs 130-136 unwrap_err; inr = panic *)
Definition c_unwrap_err (c : cerrors) : synerr + bad :=
  match c with Some e => inl e | None => inr Panic end.
(** core/util.rs 143-145 bail *)
Definition c_bail {A} (c : cerrors) : res A :=
  match c with Some e => Err e | None => Bad Panic end.
(** core/util.rs 152-154 into_compile_error *)
Definition c_into_compile_error (c : cerrors) : option (list err) :=
  option_map compile_error c.
(** core/util.rs 160-165 into_compile_errors: iterates the Option, not the
    messages. *)
Definition c_into_compile_errors (c : cerrors) : list (list err) :=
  match c with Some e => [compile_error e] | None => [] end.
(** core/util.rs 179-185 ToTokens::to_token_stream *)
Definition c_to_tokens (c : cerrors) : list err :=
  match c with Some e => compile_error e | None => [] end.
(** core/util.rs 167-171 output_with: the item's tokens, then the errors'. *)
Definition c_output_with {Q} (c : cerrors) (item : list Q) : list (Q + err) :=
  map inl item ++ map inr (c_to_tokens c).
(** core/util.rs 195-202 From<Error> *)
Definition c_from (e : synerr) : cerrors := Some e.
(** core/util.rs 204-216 FromIterator<Error> *)
Definition c_from_iter (l : list synerr) : cerrors :=
  match l with [] => None | x :: l' => Some (syn_extend x l') end.
(** core/util.rs 218-239 IntoIterator *)
Definition c_into_iter (c : cerrors) : list synerr :=
  match c with Some e => syn_iter e | None => [] end.

(** *** The list view used by the parser models. *)
Definition errors : Type := list err.

Definition errors_is_empty (es : errors) : bool :=
  match es with [] => true | _ => false end.
(** core/util.rs 68-75 *)
Definition push_syn (es : errors) (e : synerr) : errors := es ++ errs_of e.
(** core/util.rs 46-48 *)
Definition push (es : errors) (sp : span) (m : string) : errors :=
  push_syn es (err1 sp m).
(** core/util.rs 81-89 (the contents; the Option is matched by the caller) *)
Definition push_result {A} (es : errors) (r : res A) : errors :=
  match r with Ok _ => es | Err e => push_syn es e | Bad _ => es end.
(** core/util.rs 109-123 into_result / check *)
Definition into_result {A} (es : errors) (v : A) : res A :=
  match es with [] => Ok v | e :: l => Err (mkSyn e l) end.
Definition check (es : errors) : res unit := into_result es tt.
(** core/util.rs 143-145 bail *)
Definition bail {A} (es : errors) : res A :=
  match es with [] => Bad Panic | e :: l => Err (mkSyn e l) end.
