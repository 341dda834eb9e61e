(** * Grammar: every grammar that derived types and the [ast] module can express.

    A deep embedding of Rust types that implement [Parse] and [ToTokens] by the means of
    parsel.  [TyRef i] names a derived struct or enum; the environment gives the definition
    of every name, so recursion, mutual recursion and (monomorphised) generics are all
    covered.  Not covered: [Parse] impls written by hand, and syn's own AST types. *)
From Verif Require Import Base Float Literal Syn Ast Derive.

(** The literal node types of ast.rs:2463-2472 *)
Inductive litty := LtBool | LtByte | LtInt | LtUint | LtFloat | LtChar | LtStr | LtByteStr.

Inductive ty :=
| TyIdent                              (* proc_macro2::Ident, re-exported at ast.rs:27 *)
| TyCustomIdent (kws : list text)      (* CustomIdent<K>, ast.rs:50; Word is [] *)
| TyKeyword (kw : text)                (* a type made by define_keywords!, ast.rs:263 *)
| TyTokenKw (kw : text)                (* Token![kw], ast.rs:28 *)
| TyToken (op : list char)             (* Token![op], ast.rs:28 *)
| TyLit (k : litty)                    (* ast.rs:2463 *)
| TyAnyLit                             (* Lit, ast.rs:2972 *)
| TyEmpty | TyEof | TyNotEof           (* ast.rs:420, 503, 591 *)
| TyMaybe (p t : ty)                   (* ast.rs:729 *)
| TyParen (t : ty) | TyBracket (t : ty) | TyBrace (t : ty)   (* ast.rs:979, 1107, 1242 *)
| TyPunctuated (t p : ty)              (* ast.rs:1365 *)
| TySeparated (t p : ty)               (* ast.rs:1691 *)
| TyAny (t : ty)                       (* ast.rs:2085 *)
| TyLeftAssoc (o r : ty)               (* ast.rs:3360 *)
| TyRightAssoc (o l : ty)              (* ast.rs:3553 *)
| TyEither (l r : ty)                  (* ast.rs:3683 *)
| TyBox (t : ty)                       (* Box<T>: syn parses and prints the contents *)
| TyRef (i : nat).                     (* a type with #[derive(Parse, ToTokens)] *)

(** ast.rs:1648 *)
Definition TyMany (t : ty) : ty := TyPunctuated t TyNotEof.

(** Derived definitions: constructor name and labelled fields. *)
Record ctor := Ctor { c_name : text; c_fields : list (label * ty) }.
Inductive tdef :=
| DStruct (c : ctor)
| DEnum (name : text) (cs : list ctor).
Definition env := nat -> tdef.

(** The AST values. *)
Inductive val :=
| VIdent (n : text) (sp : span)                  (* Ident, CustomIdent *)
| VKw (kw : text) (sp : span)                    (* keyword types, Token![kw] *)
| VOp (op : list char) (sps : list span)         (* Token![op] *)
| VLit (l : lit) (sp : span)
| VUnit                                          (* Empty, Eof, NotEof *)
| VNothing                                       (* Maybe: absent *)
| VJust (p v : val)                              (* Maybe: present *)
| VGroup (d : delim) (sp : span) (v : val)       (* Paren, Bracket, Brace *)
| VPunct (inner : list (val * val)) (last : option val)   (* Punctuated, Separated *)
| VList (l : list val)                           (* Any *)
| VBinL (lhs op rhs : val) | VRhs (rhs : val)    (* LeftAssoc *)
| VBinR (lhs op rhs : val) | VLhs (lhs : val)    (* RightAssoc *)
| VLeft (v : val) | VRight (v : val)             (* Either *)
| VStruct (fs : list val)                        (* derived struct *)
| VVariant (k : nat) (fs : list val).            (* derived enum: variant index *)

Fixpoint val_of_left (t : left_assoc val val) : val :=
  match t with
  | LBinary l o r => VBinL (val_of_left l) o r
  | LRhs r => VRhs r
  end.
Fixpoint val_of_right (t : right_assoc val val) : val :=
  match t with
  | RBinary l o r => VBinR l o (val_of_right r)
  | RLhs l => VLhs l
  end.

Section Grammar.
Context {U : unicode}.

Definition p_litty (k : litty) : parser (lit * span) :=
  match k with
  | LtBool => p_lit_bool | LtByte => p_lit_byte | LtInt => p_lit_int | LtUint => p_lit_uint
  | LtFloat => p_lit_float | LtChar => p_lit_char | LtStr => p_lit_str
  | LtByteStr => p_lit_byte_str
  end.

(** The parser of a definition, given the parser [p] of its field types. *)
Definition p_def (p : ty -> parser val) (d : tdef) : parser val :=
  match d with
  | DStruct c => pmap VStruct (p_struct (c_name c) (map (fun '(l, t) => (l, p t)) (c_fields c)))
  | DEnum name cs =>
      pmap (fun '(k, vs) => VVariant k vs)
           (p_enum name (map (fun c => (c_name c, map (fun '(l, t) => (l, p t)) (c_fields c))) cs))
  end.

(** One layer of a type's parser: [n] is the fuel for loops, [p] parses the parts. *)
Definition p_layer (E : env) (n : nat) (p : ty -> parser val) (t : ty) : parser val :=
  match t with
  | TyIdent => pmap (fun i => VIdent (fst i) (snd i)) p_ident
  | TyCustomIdent kws => pmap (fun i => VIdent (fst i) (snd i)) (p_custom_ident kws)
  | TyKeyword kw => pmap (VKw kw) (p_keyword kw)
  | TyTokenKw kw => pmap (VKw kw) (p_token_kw kw)
  | TyToken op => pmap (VOp op) (p_token op)
  | TyLit k => pmap (fun x => VLit (fst x) (snd x)) (p_litty k)
  | TyAnyLit => pmap (fun x => VLit (fst x) (snd x)) p_any_lit
  | TyEmpty => pmap (fun _ => VUnit) p_empty
  | TyEof => pmap (fun _ => VUnit) p_eof
  | TyNotEof => pmap (fun _ => VUnit) p_not_eof
  | TyMaybe a b => pmap (fun o => match o with Some (x, y) => VJust x y | None => VNothing end)
                        (p_maybe (p a) (p b))
  | TyParen a => pmap (fun x => VGroup DParen (fst x) (snd x)) (p_paren (p a))
  | TyBracket a => pmap (fun x => VGroup DBracket (fst x) (snd x)) (p_bracket (p a))
  | TyBrace a => pmap (fun x => VGroup DBrace (fst x) (snd x)) (p_brace (p a))
  | TyPunctuated a b => pmap (fun x => VPunct (pn_inner x) (pn_last x)) (p_punctuated n (p a) (p b))
  | TySeparated a b => pmap (fun x => VPunct (pn_inner x) (pn_last x)) (p_separated n (p a) (p b))
  | TyAny a => pmap VList (p_any n (p a))
  | TyLeftAssoc o r => pmap val_of_left (p_left_assoc n (p o) (p r))
  | TyRightAssoc o l => pmap val_of_right (p_right_assoc n (p o) (p l))
  | TyEither a b => pmap (fun x => match x with ELeft v => VLeft v | ERight v => VRight v end)
                         (p_either (p a) (p b))
  | TyBox a => p a
  | TyRef i => p_def p (E i)
  end.

(** [<t as Parse>::parse] with fuel [n] bounding nesting depth and loop iterations. *)
Fixpoint pty (E : env) (n : nat) (t : ty) : parser val :=
  match n with
  | O => fun s => (ODiverge, s)
  | S m => p_layer E m (pty E m) t
  end.

(** ** Printing: [ToTokens::to_tokens], per node as in [Ast.v] and [Derive.v] (see
    [print_unfold_left], [print_unfold_right] in [Sound.v] for the associative lists); [None] is a panic.  What Rust
    keeps in the type (the keyword, the operator, the delimiter) the value carries. *)
Fixpoint print (v : val) : option (list tt) :=
  match v with
  | VIdent n sp => print_ident (n, sp)
  | VKw kw sp => print_keyword kw sp
  | VOp op sps => print_token op sps
  | VLit l sp => print_lit l sp
  | VUnit => print_unit Datatypes.tt
  | VNothing => Some []
  | VJust x y => oapp (print x) (print y)
  | VGroup d sp x => option_map (fun ts => [TGroup d sp ts]) (print x)
  | VPunct inner last =>
      oapp (oconcat (map (fun '(x, y) => oapp (print x) (print y)) inner))
           (match last with Some x => print x | None => Some [] end)
  | VList l => oconcat (map print l)
  | VBinL l o r | VBinR l o r => oapp (print l) (oapp (print o) (print r))
  | VRhs x | VLhs x | VLeft x | VRight x => print x
  | VStruct vs | VVariant _ vs => oconcat (map print vs)
  end.
End Grammar.
