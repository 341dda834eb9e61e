(** * Expand: the code that [#[derive(Parse)]] and [#[derive(ToTokens)]] write.

    [Derive.v] says what the derived impls do.  Here the procedural macros themselves are modelled:
    the functions of parsel_derive/src/parse.rs and to_tokens.rs produce a syntax tree of Rust code,
    with variable names as written, and a small semantics of that fragment of Rust runs it.  The
    correspondence is proved in [PropExpand.v].

    Not modelled: moves and borrows, attributes on the impl, generics and lifetimes (see Bounds.v for
    the where-clauses), resolution of type names. *)
From Verif Require Import Base Float Literal Syn Ast Derive.
Local Open Scope nat_scope.

(** ** The item: [syn::DeriveInput] (data.rs of syn).  A field's type only matters through the
    [Parse] or [ToTokens] impl that rustc finds for it: that is [X]. *)
Inductive ifields (X : Type) := INamed (fs : list (text * X)) | IUnnamed (fs : list X) | IUnit.
Arguments INamed {X}. Arguments IUnnamed {X}. Arguments IUnit {X}.
Inductive item (X : Type) := IStruct (name : text) (fs : ifields X) | IEnum (name : text) (vs : list (text * ifields X)) | IUnion.
Arguments IStruct {X}. Arguments IEnum {X}. Arguments IUnion {X}.

(** ** A fragment of Rust, enough for the generated [parse] functions *)
Inductive expr :=
| EVar (x : text)                                   (* a path of one segment *)
| ENone | ESome (e : expr)                          (* ::core::option::Option::{None, Some(e)} *)
| EParse (e : expr)                                 (* e.parse(), at the type expected by the context *)
| EMapErr (e : expr) (x : text) (body : expr)       (* e.map_err(|x| { body }) *)
| ETry (e : expr)                                   (* e? *)
| EChain (cause : expr) (enum_ ctor : text) (field : label)   (* ::parsel::util::chain_error(cause, "..", "..", field) *)
| ENode (path : list text) (a : args)               (* Ty { .. }, Ty::Variant(..), ... *)
| EOk (e : expr)                                    (* ::parsel::Result::Ok(e) *)
| ECallErr (f : text) (e : expr)                    (* f(e), [f] looked up in the scope of the item *)
| EVariant (input acc : expr) (x : text) (body : block)  (* ::parsel::util::try_parse_variant(input, acc, |x| { body }) *)
| EOrElse (e body : expr)                           (* e.unwrap_or_else(|| { body }) *)
| EError (e : expr) (msg : text)                    (* e.error("..") *)
with args := ANamed (l : inits) | ATuple (l : exprs) | AUnit
with inits := NNil | NCons (f : text) (e : expr) (r : inits)
with exprs := XNil | XCons (e : expr) (r : exprs)
with stmt :=
| SLet (mut : bool) (x : text) (e : expr)
  (* match e { ::parsel::Result::Ok(_) => return ret, ::parsel::Result::Err(x) => { target = v; } } *)
| SMatch (e ret : expr) (x target : text) (v : expr)
with block := BEnd (e : expr) | BStmt (s : stmt) (b : block).

Fixpoint inits_of (l : list (text * expr)) : inits := match l with [] => NNil | (f, e) :: r => NCons f e (inits_of r) end.
Fixpoint exprs_of (l : list expr) : exprs := match l with [] => XNil | e :: r => XCons e (exprs_of r) end.
Fixpoint stmts_then (l : list stmt) (b : block) : block := match l with [] => b | s :: r => BStmt s (stmts_then r b) end.

(** the names the macros use *)
Definition n_input : text := Eval compute in T "input".
Definition n_cause : text := Eval compute in T "cause".
Definition n_node : text := Eval compute in T "ast_node".
Definition n_error : text := Eval compute in T "error".
Definition n_result : text := Eval compute in T "result".
Definition n_err : text := Eval compute in T "err".
Definition n_Err : text := Eval compute in T "Err".
Definition n_tokens : text := Eval compute in T "tokens".

(** *** parsel_derive/src/parse.rs *)
Section ParseMacro.
Context {X : Type}.
(** parse.rs:65-69, 82-86: [input.parse().map_err(|cause| { chain_error(cause, ..) })?] *)
Definition m_init (enum_str ctor_str : text) (field : label) : expr :=
  ETry (EMapErr (EParse (EVar n_input)) n_cause (EChain (EVar n_cause) enum_str ctor_str field)).
(** [fields.unnamed.iter().enumerate()] *)
Fixpoint enum_from {A} (i : nat) (l : list A) : list (nat * A) := match l with [] => [] | a :: r => (i, a) :: enum_from (S i) r end.
(** parse.rs:44-97 [expand_fields].  syn never makes a named field without a name (57-59). *)
Definition m_fields (enum_name : option text) (ctor_name : text) (fs : ifields X) : block :=
  let enum_str := match enum_name with Some n => n | None => [] end in
  let path := match enum_name with Some n => [n] | None => [] end ++ [ctor_name] in
  match fs with
  | INamed fs =>
      BStmt (SLet false n_node (ENode path (ANamed (inits_of (map (fun f => (fst f, m_init enum_str ctor_name (LName (fst f)))) fs)))))
        (BEnd (EOk (EVar n_node)))
  | IUnnamed fs =>
      BStmt (SLet false n_node (ENode path (ATuple (exprs_of (map (fun f => m_init enum_str ctor_name (LIndex (fst f))) (enum_from 0 fs))))))
        (BEnd (EOk (EVar n_node)))
  | IUnit => BEnd (EOk (ENode path AUnit))
  end.
(** parse.rs:39-41 *)
Definition m_struct (name : text) (fs : ifields X) : block := m_fields None name fs.
(** parse.rs:118-136 [expand_variants] *)
Definition m_variants (name : text) (vs : list (text * ifields X)) : list stmt :=
  flat_map (fun v =>
    [SLet false n_result (EVariant (EVar n_input) (EVar n_error) n_input (m_fields (Some name) (fst v) (snd v)));
     SMatch (EVar n_result) (EVar n_result) n_err n_error (ESome (EVar n_err))]) vs.
(** parse.rs:99-114 [expand_enum] *)
Definition m_enum (name : text) (vs : list (text * ifields X)) : block :=
  BStmt (SLet true n_error ENone)
    (stmts_then (m_variants name vs)
      (BEnd (ECallErr n_Err (EOrElse (EVar n_error) (EError (EVar n_input) (T "parsing an empty choice (enum) always fails")))))).
(** parse.rs:13-37 [expand]: the body of [fn parse(input: ParseStream<'_>) -> Result<Self>]; [None]: the error
    "unions are not supported" *)
Definition m_parse (i : item X) : option block :=
  match i with
  | IUnion => None
  | IEnum name vs => Some (m_enum name vs)
  | IStruct name fs => Some (m_struct name fs)
  end.
End ParseMacro.

(** ** Running a [parse] function *)
Section Run.
Context {V : Type}.
(** the item being derived, with the parser of each field's type *)
Context (it : item (parser V)).
(** the names of constants, statics, functions, unit and tuple structs and variants in the scope of the item,
    other than those of the standard prelude *)
Context (scope : text -> bool).

(** values: the [k]-th constructor of the item with its fields; streams are references *)
Inductive rv :=
| RIn (i : nat)
| RNode (k : nat) (vs : list V)
| RVal (v : V)
| RError (e : error)
| RNone | RSome (e : error)
| ROk' (v : rv) | RErr' (e : error).
(** [NNorm]: a value; [NReturn]: [return] or [?] leaves the function; [NStuck]: rustc refuses the
    code, or it means something else than the prelude's names *)
Inductive eout := NNorm (v : rv) | NReturn (v : rv) | NPanic | NDiverge | NStuck.

Definition store := list pstate.
Fixpoint upd (st : store) (i : nat) (s : pstate) : store :=
  match st, i with
  | _ :: r, O => s :: r
  | x :: r, S j => x :: upd r j s
  | [], _ => []
  end.
(** local variables, innermost first: name, mutability, value *)
Definition locals := list (text * (bool * rv)).
Fixpoint lookup {A} (l : list (text * A)) (x : text) : option A :=
  match l with [] => None | (y, a) :: r => if text_eqb y x then Some a else lookup r x end.
Fixpoint assign (l : locals) (x : text) (v : rv) : option locals :=
  match l with
  | [] => None
  | (y, (mut, w)) :: r =>
      if text_eqb y x then if mut then Some ((y, (mut, v)) :: r) else None
      else option_map (cons (y, (mut, w))) (assign r x v)
  end.

(** the constructor a path names: its index and its fields *)
Fixpoint find_variant (k : nat) (vs : list (text * ifields (parser V))) (n : text) : option (nat * ifields (parser V)) :=
  match vs with [] => None | (m, fs) :: r => if text_eqb m n then Some (k, fs) else find_variant (S k) r n end.
Definition resolve (path : list text) : option (nat * ifields (parser V)) :=
  match it, path with
  | IStruct name fs, [n] => if text_eqb name n then Some (0, fs) else None
  | IEnum name vs, [n; m] => if text_eqb name n then find_variant 0 vs m else None
  | _, _ => None
  end.
(** the fields of a struct expression in declaration order: all of them must be given *)
Fixpoint in_order (fs : list (text * parser V)) (given : list (text * V)) : option (list V) :=
  match fs with
  | [] => Some []
  | (f, _) :: r => match lookup given f, in_order r given with Some v, Some vs => Some (v :: vs) | _, _ => None end
  end.

(** a closure or function body is left by [return] and [?] as well *)
Definition leave (o : eout) : eout := match o with NReturn v => NNorm v | o => o end.
Definition then_ (r : eout * store) (k : rv -> store -> eout * store) : eout * store :=
  match r with (NNorm v, st) => k v st | (o, st) => (o, st) end.

(** [want]: the parser of the type expected by the context, if that is the type of a field *)
Fixpoint eval (want : option (parser V)) (l : locals) (e : expr) (st : store) {struct e} : eout * store :=
  match e with
  | EVar x => match lookup l x with Some (_, v) => (NNorm v, st) | None => (NStuck, st) end
  | ENone => (NNorm RNone, st)
  | ESome e => then_ (eval None l e st) (fun v st => match v with RError er => (NNorm (RSome er), st) | _ => (NStuck, st) end)
  | EParse e =>
      then_ (eval None l e st) (fun v st =>
        match v, want with
        | RIn i, Some p =>
            match nth_error st i with
            | Some s => let '(o, s') := p s in
                        (match o with
                         | OOk v => NNorm (ROk' (RVal v))
                         | OErr er => NNorm (RErr' er)
                         | OPanic => NPanic
                         | ODiverge => NDiverge
                         end, upd st i s')
            | None => (NStuck, st)
            end
        | _, _ => (NStuck, st)
        end)
  | EMapErr e x body =>
      then_ (eval want l e st) (fun v st =>
        match v with
        | ROk' v => (NNorm (ROk' v), st)
        | RErr' er =>
            if scope x then (NStuck, st)
            else match eval None ((x, (false, RError er)) :: l) body st with
                 | (o, st) => then_ (leave o, st) (fun v st => match v with RError er' => (NNorm (RErr' er'), st) | _ => (NStuck, st) end)
                 end
        | _ => (NStuck, st)
        end)
  | ETry e => then_ (eval want l e st) (fun v st =>
        match v with ROk' v => (NNorm v, st) | RErr' er => (NReturn (RErr' er), st) | _ => (NStuck, st) end)
  | EChain c a b f => then_ (eval None l c st) (fun v st => match v with RError er => (NNorm (RError (chain_error a b f er)), st) | _ => (NStuck, st) end)
  | ENode path a =>
      match resolve path with
      | None => (NStuck, st)
      | Some (k, fs) =>
          match a, fs with
          | ANamed l1, INamed fs =>
              match eval_inits fs l l1 st with
              | (inl vs, st) => match in_order fs vs with
                                | Some ws => if Nat.eqb (List.length vs) (List.length fs) then (NNorm (RNode k ws), st) else (NStuck, st)
                                | None => (NStuck, st)
                                end
              | (inr o, st) => (o, st)
              end
          | ATuple l1, IUnnamed fs =>
              match eval_args fs l l1 st with
              | (inl vs, st) => (NNorm (RNode k vs), st)
              | (inr o, st) => (o, st)
              end
          | AUnit, IUnit => (NNorm (RNode k []), st)
          | _, _ => (NStuck, st)
          end
      end
  | EOk e => then_ (eval None l e st) (fun v st => (NNorm (ROk' v), st))
  | ECallErr f e =>
      if scope f then (NStuck, st)
      else then_ (eval None l e st) (fun v st => match v with RError er => (NNorm (RErr' er), st) | _ => (NStuck, st) end)
  | EVariant input acc x body =>
      then_ (eval None l input st) (fun i st => then_ (eval None l acc st) (fun a st =>
        match i, (match a with RNone => Some None | RSome er => Some (Some er) | _ => None end) with
        | RIn i, Some acc =>
            match nth_error st i with
            | Some s =>
                (* parsel/src/util.rs:331-354: [body] runs on a fork, a new stream *)
                let j := List.length st in
                if scope x then (NStuck, st)
                else match run_block ((x, (false, RIn j)) :: l) body (st ++ [fork s]) with
                     | (o, st) => then_ (leave o, st) (fun v st =>
                         match v, nth_error st j with
                         | ROk' v, Some fk => (NNorm (ROk' v), upd st i (advance_to s fk))
                         | RErr' er, _ => (NNorm (RErr' (match acc with Some a => max_error a er | None => er end)), st)
                         | _, _ => (NStuck, st)
                         end)
                     end
            | None => (NStuck, st)
            end
        | _, _ => (NStuck, st)
        end))
  | EOrElse e body =>
      then_ (eval None l e st) (fun v st =>
        match v with
        | RSome er => (NNorm (RError er), st)
        | RNone => match eval None l body st with (o, st) => (leave o, st) end
        | _ => (NStuck, st)
        end)
  | EError e msg =>
      then_ (eval None l e st) (fun v st =>
        match v with
        | RIn i => match nth_error st i with Some s => (NNorm (RError (error_at s msg)), st) | None => (NStuck, st) end
        | _ => (NStuck, st)
        end)
  end
(** the field expressions of a struct expression, in source order; a field may be given once *)
with eval_inits (fs : list (text * parser V)) (l : locals) (es : inits) (st : store) {struct es} : (list (text * V) + eout) * store :=
  match es with
  | NNil => (inl [], st)
  | NCons f e r =>
      match lookup fs f with
      | None => (inr NStuck, st)
      | Some p =>
          match eval (Some p) l e st with
          | (NNorm (RVal v), st) =>
              match eval_inits fs l r st with
              | (inl vs, st) => match lookup vs f with None => (inl ((f, v) :: vs), st) | Some _ => (inr NStuck, st) end
              | (inr o, st) => (inr o, st)
              end
          | (NNorm _, st) => (inr NStuck, st)
          | (o, st) => (inr o, st)
          end
      end
  end
with eval_args (fs : list (parser V)) (l : locals) (es : exprs) (st : store) {struct es} : (list V + eout) * store :=
  match es, fs with
  | XNil, [] => (inl [], st)
  | XCons e r, p :: fs =>
      match eval (Some p) l e st with
      | (NNorm (RVal v), st) =>
          match eval_args fs l r st with
          | (inl vs, st) => (inl (v :: vs), st)
          | (inr o, st) => (inr o, st)
          end
      | (NNorm _, st) => (inr NStuck, st)
      | (o, st) => (inr o, st)
      end
  | _, _ => (inr NStuck, st)
  end
with run_block (l : locals) (b : block) (st : store) {struct b} : eout * store :=
  match b with
  | BEnd e => eval None l e st
  | BStmt (SLet mut x e) b =>
      if scope x then (NStuck, st)
      else then_ (eval None l e st) (fun v st => run_block ((x, (mut, v)) :: l) b st)
  | BStmt (SMatch e ret x target v) b =>
      then_ (eval None l e st) (fun r st =>
        match r with
        | ROk' _ => match eval None l ret st with (NNorm v, st) => (NReturn v, st) | (o, st) => (o, st) end
        | RErr' er =>
            if scope x then (NStuck, st)
            else let l' := (x, (false, RError er)) :: l in
                 then_ (eval None l' v st) (fun w st =>
                   match assign l' target w with
                   | Some (_ :: l'') => run_block l'' b st
                   | _ => (NStuck, st)
                   end)
        | _ => (NStuck, st)
        end)
  end.

(** calling the generated function on a stream: the outcome and the stream afterwards; [None]: rustc refuses it *)
Definition call (b : block) (s : pstate) : option (outcome (nat * list V) * pstate) :=
  if scope n_input then None else
  match run_block [(n_input, (false, RIn 0))] b [s] with
  | (o, st) =>
      match leave o, nth_error st 0 with
      | NNorm (ROk' (RNode k vs)), Some s' => Some (OOk (k, vs), s')
      | NNorm (RErr' e), Some s' => Some (OErr e, s')
      | NPanic, Some s' => Some (OPanic, s')
      | NDiverge, Some s' => Some (ODiverge, s')
      | _, _ => None
      end
  end.
End Run.

(** ** [#[derive(ToTokens)]] *)
(** what is printed: [&self.name], [&self.0], or a variable; each call is
    [::parsel::ToTokens::to_tokens(arg, &mut *dest);] *)
Inductive targ := TField (f : text) | TIndex (i : nat) | TVar (x : text).
Record tcall := TCall { t_arg : targ; t_dest : text }.
(** an arm [Ty::Variant pattern => { calls }] *)
Inductive tpat := PNamed (fields : list text) | PTuple (vars : list text) | PUnit.
Record tarm := TArm { t_path : list text; t_pat : tpat; t_calls : list tcall }.
(** the body of [fn to_tokens(&self, tokens: &mut TokenStream)] *)
Inductive tbody := TCalls (l : list tcall) | TMatch (arms : list tarm).   (* match self { .. } *)

(** *** parsel_derive/src/to_tokens.rs *)
Section PrintMacro.
Context {X : Type}.
(** to_tokens.rs:39-72 [expand_struct] *)
Definition m_print_struct (fs : ifields X) : tbody :=
  TCalls (match fs with
          | INamed fs => map (fun f => TCall (TField (fst f)) n_tokens) fs
          | IUnnamed fs => map (fun f => TCall (TIndex (fst f)) n_tokens) (enum_from 0 fs)
          | IUnit => []
          end).
(** [format_ident!("parsel_field_{}_{}", variant_name, i)]: [r#] of a raw identifier is left out *)
Definition strip_raw (n : text) : text := match n with a :: b :: r => if (a =? 114)%N && (b =? 35)%N then r else n | _ => n end.
Definition field_var (variant : text) (i : nat) : text := T "parsel_field_" ++ strip_raw variant ++ T "_" ++ dec (N.of_nat i).
(** to_tokens.rs:84-123 [expand_variants] *)
Definition m_arm (name : text) (v : text * ifields X) : tarm :=
  let field_names := match snd v with
                     | IUnit => []
                     | INamed fs => map fst fs
                     | IUnnamed fs => map (fun f => field_var (fst v) (fst f)) (enum_from 0 fs)
                     end in
  let bindings := match snd v with IUnit => PUnit | INamed _ => PNamed field_names | IUnnamed _ => PTuple field_names end in
  TArm [name; fst v] bindings (map (fun x => TCall (TVar x) n_tokens) field_names).
(** to_tokens.rs:74-82 [expand_enum] *)
Definition m_print_enum (name : text) (vs : list (text * ifields X)) : tbody := TMatch (map (m_arm name) vs).
(** to_tokens.rs:13-36 [expand]; [None]: "unions are not supported" *)
Definition m_to_tokens (i : item X) : option tbody :=
  match i with
  | IUnion => None
  | IEnum name vs => Some (m_print_enum name vs)
  | IStruct _ fs => Some (m_print_struct fs)
  end.
End PrintMacro.

(** ** Running a [to_tokens] function *)
Section RunPrint.
Context {V : Type}.
Context (it : item (printer V)) (scope : text -> bool).
(** a variable holds a reference to a field or the stream that is written *)
Inductive pv := PField (q : printer V) (v : V) | PTokens.
Definition plocals := list (text * pv).
Inductive pout := PDone (ts : list tt) | PPanic | PStuck.

(** the fields of the value with their printers *)
Definition field_types (fs : ifields (printer V)) : list (printer V) :=
  match fs with INamed fs => map snd fs | IUnnamed fs => fs | IUnit => [] end.
Definition field_names (fs : ifields (printer V)) : list text := match fs with INamed fs => map fst fs | _ => [] end.
(** [self]: fields are accessible on a struct only *)
Definition arg_of (fs : option (ifields (printer V))) (vs : list V) (l : plocals) (a : targ) : option pv :=
  match a, fs with
  | TVar x, _ => lookup l x
  | TField f, Some (INamed fs) => lookup (combine (map fst fs) (map (fun q => PField (fst q) (snd q)) (combine (map snd fs) vs))) f
  | TIndex i, Some (IUnnamed fs) =>
      match nth_error fs i, nth_error vs i with Some q, Some v => Some (PField q v) | _, _ => None end
  | _, _ => None
  end.
Fixpoint run_calls (fs : option (ifields (printer V))) (vs : list V) (l : plocals) (cs : list tcall) (out : list tt) : pout :=
  match cs with
  | [] => PDone out
  | c :: r =>
      match arg_of fs vs l (t_arg c), lookup l (t_dest c) with
      | Some (PField q v), Some PTokens => match q v with Some ts => run_calls fs vs l r (out ++ ts) | None => PPanic end
      | _, _ => PStuck      (* not a printable reference, or [&mut *dest] is not a token stream *)
      end
  end.
Fixpoint nodupb (l : list text) : bool := match l with [] => true | x :: r => negb (text_mem x r) && nodupb r end.
(** the variables a pattern binds; [None]: it does not fit the variant.  A pattern must name every
    field once, and a name of a constant in scope is not a binding. *)
Definition bindings (fs : ifields (printer V)) (p : tpat) (vs : list V) : option plocals :=
  let fields := map (fun q => PField (fst q) (snd q)) (combine (field_types fs) vs) in
  match p, fs with
  | PUnit, IUnit => Some []
  | PNamed names, INamed _ =>
      if nodupb names && negb (existsb scope names) && forallb (fun f => text_mem f names) (field_names fs) && forallb (fun f => text_mem f (field_names fs)) names
      then Some (combine (field_names fs) fields) else None
  | PTuple vars, IUnnamed _ =>
      if nodupb vars && negb (existsb scope vars) && Nat.eqb (List.length vars) (List.length fields) then Some (combine vars fields) else None
  | _, _ => None
  end.
(** [match self { arms }] where [self] is a reference: with no arms rustc refuses it even if the enum
    has no variants (references are never empty).  The first arm for the variant is taken. *)
Fixpoint find_arm (arms : list tarm) (path : list text) : option tarm :=
  match arms with [] => None | a :: r => if list_eq_dec text_eq_dec (t_path a) path then Some a else find_arm r path end.

(** calling the generated function on a value (constructor and fields): the tokens appended to the stream *)
Definition call_print (b : tbody) (k : nat) (vs : list V) (out : list tt) : pout :=
  if scope n_tokens then PStuck else
  match it, b with
  | IStruct _ fs, TCalls cs => run_calls (Some fs) vs [(n_tokens, PTokens)] cs out
  | IEnum name variants, TMatch (a :: arms) =>
      match nth_error variants k with
      | Some (n, fs) =>
          match find_arm (a :: arms) [name; n] with
          | Some arm =>
              match bindings fs (t_pat arm) vs with
              | Some l => run_calls None vs (l ++ [(n_tokens, PTokens)]) (t_calls arm) out
              | None => PStuck
              end
          | None => PStuck
          end
      | None => PStuck
      end
  | _, _ => PStuck
  end.
End RunPrint.
