(** * Bounds: the where-clauses of the derived impls
    (parsel_derive/src/util.rs:13-90, parse.rs:13-37, to_tokens.rs:13-36, display.rs:9-34, from_str.rs:9-36).

    Types, predicates given by the user and errors are opaque; types are compared for equality
    ([syn::Type: Eq + Hash]; spans are not compared).  Not modelled: parsing of the item and of the attribute
    ([deluxe::extract_attributes]), whose result is part of the input. *)
From Verif Require Import Base.
Local Open Scope nat_scope.

Section Bounds.
Context {ty pred err : Type} (ty_eq_dec : forall a b : ty, {a = b} + {a <> b}) (union_error : err).

(** a field: its type and the result of reading its [#[parsel(..)]] attributes, [Attrs] with the one flag
    [recursive] (parsel_derive/src/util.rs:101-117) *)
Record field := Field { f_ty : ty; f_attrs : bool + err }.
(** [syn::Fields], [syn::Data] *)
Inductive fields := FUnit | FNamed (fs : list field) | FUnnamed (fs : list field).
Inductive data := DStruct (fs : fields) | DEnum (vs : list fields) | DUnion.
(** a predicate: the user's own, the bound on a field type, the bound on [Self] *)
Inductive trait := TParse | TToTokens.
Inductive predicate := User (p : pred) | TypeBound (t : ty) (b : trait) | SelfBound (b : trait).

(** [field_type] (parsel_derive/src/util.rs:78-90) *)
Definition field_type (f : field) : option ty + err :=
  match f_attrs f with
  | inl recursive => inl (if recursive then None else Some (f_ty f))
  | inr e => inr e
  end.
(** [.filter_map(|f| field_type(f).transpose())] *)
Definition field_results (fs : list field) : list (ty + err) :=
  flat_map (fun f => match field_type f with inl (Some t) => [inl t] | inl None => [] | inr e => [inr e] end) fs.
(** [collect::<Result<_>>()]: the first error, or all values *)
Fixpoint collect_result (l : list (ty + err)) : list ty + err :=
  match l with
  | [] => inl []
  | inl t :: r => match collect_result r with inl ts => inl (t :: ts) | inr e => inr e end
  | inr e :: _ => inr e
  end.
Definition fields_list (fs : fields) : list field :=
  match fs with FUnit => [] | FNamed l => l | FUnnamed l => l end.
(** the types collected into the [HashSet] (parsel_derive/src/util.rs:19-57) *)
Definition collect_types (d : data) : list ty + err :=
  match d with
  | DUnion => inr union_error
  | DStruct fs => match fs with FUnit => inl [] | _ => collect_result (field_results (fields_list fs)) end
  | DEnum vs => collect_result (flat_map (fun fs => match fs with FUnit => [] | _ => field_results (fields_list fs) end) vs)
  end.
(** [add_bounds] (parsel_derive/src/util.rs:13-75).  [order] is the iteration order of the
    [HashSet] (unspecified). *)
Definition add_bounds (order : list ty -> list ty) (d : data) (where_ : option (list predicate)) (b : trait) : list predicate + err :=
  match collect_types d with
  | inr e => inr e
  | inl ts =>
      let wc := match where_ with Some w => w | None => [] end in
      inl (wc ++ map (fun t => TypeBound t b) (order (nodup ty_eq_dec ts)))
  end.

(** The four derives.  [expand_struct] and [expand_enum] of the first two fail only for a named field without a name,
    which [syn] does not produce. *)
Definition derive_parse (order : list ty -> list ty) (d : data) (where_ : option (list predicate)) : list predicate + err :=
  match d with DUnion => inr union_error | _ => add_bounds order d where_ TParse end.
Definition derive_to_tokens (order : list ty -> list ty) (d : data) (where_ : option (list predicate)) : list predicate + err :=
  match d with DUnion => inr union_error | _ => add_bounds order d where_ TToTokens end.
Definition derive_display (where_ : option (list predicate)) : list predicate :=
  match where_ with Some w => w | None => [] end ++ [SelfBound TToTokens].
Definition derive_from_str (where_ : option (list predicate)) : list predicate :=
  match where_ with Some w => w | None => [] end ++ [SelfBound TParse].
End Bounds.
