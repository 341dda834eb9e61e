(** * Derive: what [#[derive(Parse)]] and [#[derive(ToTokens)]] generate.

    Field values of one definition have different Rust types; they are values of one
    (arbitrary) type [V] here. *)
From Verif Require Import Base Float Literal Syn Ast.

(** Labels passed to [chain_error]: a field name, or its index
    (parsel_derive/src/parse.rs:63-66 and 82-86) *)
Inductive label := LName (n : text) | LIndex (i : nat).
Definition show_label (l : label) : text :=
  match l with LName n => n | LIndex i => dec (N.of_nat i) end.

(** parsel/src/util.rs:294-317 [chain_error] *)
Definition chain_error (enum_ ctor : text) (field : label) (cause : error) : error :=
  Err (e_span cause)
      (match enum_ with
       | [] => T "error parsing " ++ ctor ++ T "::" ++ show_label field
               ++ T ", caused by:" ++ [10%N] ++ e_msg cause
       | _ => T "error parsing " ++ enum_ ++ T "::" ++ ctor ++ T "::" ++ show_label field
              ++ T ", caused by:" ++ [10%N] ++ e_msg cause
       end).

Section Derive.
Context {V : Type}.

(** parsel_derive/src/parse.rs:44-97 [expand_fields]: parse every field in sequence in
    declaration order.  A unit constructor is the empty list of fields. *)
Fixpoint p_fields (enum_ ctor : text) (fs : list (label * parser V)) : parser (list V) :=
  match fs with
  | [] => ret []
  | (l, p) :: r =>
      bind (map_err (chain_error enum_ ctor l) p)
           (fun v => bind (p_fields enum_ ctor r) (fun vs => ret (v :: vs)))
  end.

(** parse.rs:39-41 [expand_struct] *)
Definition p_struct (name : text) (fs : list (label * parser V)) : parser (list V) :=
  p_fields [] name fs.

(** parsel/src/util.rs:331-354 [try_parse_variant] *)
Definition try_parse_variant {A} (acc : option error) (p : parser A) : parser A := fun s =>
  let '(o, fk) := p (fork s) in
  match o with
  | OOk v => (OOk v, advance_to s fk)
  | OErr e => (OErr (match acc with Some a => max_error a e | None => e end), s)
  | OPanic => (OPanic, s)
  | ODiverge => (ODiverge, s)
  end.

(** parse.rs:99-136 [expand_enum], [expand_variants]: [k] is the index of the first
    variant of the list, [acc] the Rust variable [error]. *)
Fixpoint p_variants (ename : text) (k : nat) (acc : option error)
         (vs : list (text * list (label * parser V))) : parser (nat * list V) :=
  match vs with
  | [] => fun s =>
      (OErr (match acc with
             | Some e => e
             | None => error_at s (T "parsing an empty choice (enum) always fails")
             end), s)
  | (ctor, fs) :: r => fun s =>
      match try_parse_variant acc (p_fields ename ctor fs) s with
      | (OOk v, s') => (OOk (k, v), s')
      | (OErr e, s') => p_variants ename (S k) (Some e) r s'
      | (OPanic, s') => (OPanic, s')
      | (ODiverge, s') => (ODiverge, s')
      end
  end.
Definition p_enum (ename : text) (vs : list (text * list (label * parser V)))
  : parser (nat * list V) := p_variants ename 0 None vs.

(** parsel_derive/src/to_tokens.rs:42-73 [expand_struct] (and one arm of 87-123): the fields of
    the active constructor, in order. *)
Fixpoint print_fields (ps : list (printer V)) (vs : list V) : option (list tt) :=
  match ps, vs with
  | p :: ps', v :: vs' => oapp (p v) (print_fields ps' vs')
  | _, _ => Some []
  end.
(** to_tokens.rs:75-123: match on the active variant *)
Definition print_enum (pss : list (list (printer V))) (v : nat * list V) : option (list tt) :=
  match nth_error pss (fst v) with
  | Some ps => print_fields ps (snd v)
  | None => Some []
  end.
End Derive.
