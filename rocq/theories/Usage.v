(** * Usage: the grammars that the README, the documentation and the test-suite of parsel define
    (C48).  Each [list tdef] is a set of derived types, in the order of the source; the second
    component is the type that the text parses.  Generic types are instantiated as in the
    source.  Field names are those of the source, since they appear in error messages. *)
From Verif Require Import Base Float Literal Syn Ast Derive Grammar.
Local Open Scope nat_scope.

Definition named (n : string) (t : ty) : label * ty := (LName (T n), t).
Fixpoint indexed (k : nat) (ts : list ty) : list (label * ty) :=
  match ts with [] => [] | t :: r => (LIndex k, t) :: indexed (S k) r end.
(** a struct or variant with named fields, with indexed fields *)
Definition rec_ (n : string) (fs : list (label * ty)) : ctor := Ctor (T n) fs.
Definition tup (n : string) (ts : list ty) : ctor := Ctor (T n) (indexed 0 ts).
Definition enum (n : string) (cs : list ctor) : tdef := DEnum (T n) cs.
Definition op (s : string) : ty := TyToken (T s).

Record grammar := Grammar { g_name : string; g_defs : list tdef; g_root : ty }.

(** README.md:52-81 (and parsel/README.md): the JSON-like language.  [kw::null] is made by
    [syn::custom_keyword!], which parses like [Token![kw]]. *)
Definition json : grammar := Grammar "README.md: Value"
  [(* 0 *) enum "Value" [tup "Null" [TyTokenKw (T "null")]; tup "Bool" [TyLit LtBool]; tup "Int" [TyLit LtInt];
      tup "Float" [TyLit LtFloat]; tup "Str" [TyLit LtStr];
      tup "Array" [TyBracket (TyPunctuated (TyRef 0) (op ","))];
      tup "Object" [TyBrace (TyPunctuated (TyRef 1) (op ","))]];
   (* 1 *) DStruct (rec_ "KeyValue" [named "key" (TyLit LtStr); named "colon" (op ":"); named "value" (TyRef 0)])]
  (TyRef 0).

(** README.md:169-207: Boolean expressions *)
Definition boolean : grammar := Grammar "README.md: Expr"
  [(* 0 *) enum "Expr" [rec_ "Or" [named "lhs" (TyRef 1); named "op" (op "|"); named "rhs" (TyBox (TyRef 0))];
      tup "Conjunction" [TyRef 1]];
   (* 1 *) enum "Conjunction" [rec_ "And" [named "lhs" (TyRef 2); named "op" (op "&"); named "rhs" (TyBox (TyRef 1))];
      tup "Term" [TyRef 2]];
   (* 2 *) enum "Term" [tup "Literal" [TyLit LtBool]; tup "Not" [op "!"; TyBox (TyRef 2)];
      tup "Group" [TyParen (TyBox (TyRef 0))]]]
  (TyRef 0).

(** ast.rs:2046-2053 *)
Definition words_and_numbers : grammar := Grammar "ast.rs: WordsAndNumbers"
  [DStruct (rec_ "WordsAndNumbers" [named "words" (TyAny (TyCustomIdent [])); named "numbers" (TyAny (TyLit LtInt))])]
  (TyRef 0).

(** ast.rs:632-664: [Maybe] *)
Definition function : grammar := Grammar "ast.rs: Function"
  [(* 0 *) enum "Ty" [tup "Named" [TyIdent]; tup "Ref" [op "&"; TyBox (TyRef 0)]; tup "Opt" [op "?"; TyBox (TyRef 0)]];
   (* 1 *) DStruct (rec_ "TyAnnot" [named "colon" (op ":"); named "ty" (TyRef 0)]);
   (* 2 *) DStruct (rec_ "Function" [named "kw_fn" (TyTokenKw (T "fn")); named "name" TyIdent;
      named "argument" (TyParen (TyMaybe TyIdent (TyRef 1))); named "return_ty" (TyMaybe (op "->") (TyRef 0));
      named "body" (TyBrace TyEmpty)])]
  (TyRef 2).

(** ast.rs:550-556: [NotEof] *)
Definition simple_block : grammar := Grammar "ast.rs: SimpleBlock"
  [DStruct (rec_ "SimpleBlockBody" [named "statement" TyAnyLit; named "semicolon" (op ";");
      named "expression" (TyMaybe TyNotEof TyAnyLit)])]
  (TyBrace (TyRef 0)).

(** ast.rs:1215-1221: [Brace] *)
Definition brace_key_value : grammar := Grammar "ast.rs: Brace<KeyValue>"
  [DStruct (rec_ "KeyValue" [named "key" (TyLit LtStr); named "eq" (op "="); named "value" TyAnyLit])]
  (TyBrace (TyRef 0)).

(** ast.rs:1616-1627: [Many] *)
Definition many_key_value : grammar := Grammar "ast.rs: Many<KeyValue>"
  [DStruct (rec_ "KeyValue" [named "key" TyIdent; named "arrow" (op "->"); named "value" TyAnyLit])]
  (TyMany (TyRef 0)).

(** ast.rs:1663-1686: [Separated] *)
Definition sum : grammar := Grammar "ast.rs: Separated<LitInt, Plus>" [] (TySeparated (TyLit LtInt) (op "+")).
Definition path : grammar := Grammar "ast.rs: Separated<Ident, PathSep>" [] (TySeparated TyIdent (op "::")).

(** ast.rs:3274-3304: [LeftAssoc] *)
Definition left_expr_ty : ty := TyLeftAssoc (TyRef 0) (TyLeftAssoc (TyRef 1) (TyRef 2)).
Definition left_expr : grammar := Grammar "ast.rs: LeftAssoc"
  [(* 0 *) enum "AddOp" [tup "Add" [op "+"]; tup "Sub" [op "-"]];
   (* 1 *) enum "MulOp" [tup "Mul" [op "*"]; tup "Div" [op "/"]];
   (* 2 *) enum "Term" [tup "Literal" [TyAnyLit]; tup "Variable" [TyIdent]; tup "Group" [TyParen (TyBox left_expr_ty)]]]
  left_expr_ty.

(** ast.rs:3489-3511: [RightAssoc] *)
Definition right_expr_ty : ty := TyRightAssoc (op "|") (TyRightAssoc (op "&") (TyRef 0)).
Definition right_expr : grammar := Grammar "ast.rs: RightAssoc"
  [enum "Term" [tup "Lit" [TyLit LtBool]; tup "Var" [TyIdent]; tup "Not" [op "~"; TyBox (TyRef 0)];
      tup "Group" [TyBox (TyParen right_expr_ty)]]]
  right_expr_ty.

(** ast.rs:3660-3680: [Either] *)
Definition int_or_word : grammar := Grammar "ast.rs: Either<LitInt, Word>" [] (TyEither (TyLit LtInt) (TyCustomIdent [])).

(** parsel/tests/roundtrip.rs:8-36 *)
Definition items : grammar := Grammar "roundtrip.rs: Many<Item>"
  [(* 0 *) DStruct (rec_ "Struct" [named "struct_kw" (TyTokenKw (T "struct")); named "name" TyIdent; named "fields" (TyBrace (TyMany (TyRef 1)))]);
   (* 1 *) DStruct (rec_ "Field" [named "name" TyIdent; named "colon" (op ":"); named "ty" TyIdent; named "comma" (op ",")]);
   (* 2 *) DStruct (rec_ "Enum" [named "enum_kw" (TyTokenKw (T "enum")); named "name" TyIdent; named "variants" (TyBrace (TyMany (TyRef 3)))]);
   (* 3 *) DStruct (tup "Variant" [TyIdent; op ","]);
   (* 4 *) enum "Item" [tup "Struct" [TyRef 0]; tup "Enum" [TyRef 2]]]
  (TyMany (TyRef 4)).

(** parsel/tests/parse.rs:23-27, 44 *)
Definition assignment : grammar := Grammar "parse.rs: Assignment {}"
  [DStruct (rec_ "Assignment" [named "name" TyIdent; named "eq" (op "="); named "value" TyAnyLit])] (TyRef 0).
Definition assignment_tuple : grammar := Grammar "parse.rs: Assignment ()"
  [DStruct (tup "Assignment" [TyIdent; op "="; TyAnyLit])] (TyRef 0).
(** parsel/tests/parse.rs:61-68 *)
Definition foo : grammar := Grammar "parse.rs: Foo"
  [enum "Foo" [rec_ "Qux" [named "first" TyAnyLit; named "comma" (op ","); named "second" TyAnyLit]; tup "Bar" [TyIdent; TyAnyLit]]] (TyRef 0).
(** parsel/tests/parse.rs:110-114, with [T = DoesNotImplParse], so [T::Assoc = LitStr], and [U = Ident] *)
Definition generic_struct : grammar := Grammar "parse.rs: GenericStruct"
  [DStruct (rec_ "GenericStruct" [named "namespace" TyIdent; named "path_sep" (op "::"); named "name" (TyLit LtStr)])] (TyRef 0).
(** parsel/tests/parse.rs:126-135, with [X = LitUint], [Y::Assoc = LitStr], [Q = Token![=>]] *)
Definition generic_enum : grammar := Grammar "parse.rs: GenericEnum"
  [enum "GenericEnum" [tup "X1" [TyLit LtUint]; tup "Y2" [TyLit LtStr; TyLit LtStr];
      rec_ "YQ" [named "y" (TyLit LtStr); named "semi" (op ";"); named "q" (op "=>")]]] (TyRef 0).
(** parsel/tests/parse.rs:157-194 *)
Definition arith : grammar := Grammar "parse.rs: Expr"
  [(* 0 *) enum "Expr" [rec_ "Add" [named "lhs" (TyRef 1); named "op" (op "+"); named "rhs" (TyRef 1)];
      rec_ "Sub" [named "lhs" (TyRef 1); named "op" (op "-"); named "rhs" (TyRef 1)]; tup "Mul" [TyRef 1]];
   (* 1 *) enum "MulExpr" [rec_ "Mul" [named "lhs" (TyRef 2); named "op" (op "*"); named "rhs" (TyRef 2)];
      rec_ "Div" [named "lhs" (TyRef 2); named "op" (op "/"); named "rhs" (TyRef 2)]; tup "Term" [TyRef 2]];
   (* 2 *) enum "Term" [tup "Lit" [TyAnyLit]; tup "Var" [TyIdent]; tup "Paren" [TyBox (TyParen (TyRef 0))]]]
  (TyRef 0).
(** parsel/tests/parse.rs:214-246 *)
Definition cond : grammar := Grammar "parse.rs: Cond"
  [(* 0 *) enum "Cond" [rec_ "Or" [named "lhs" (TyRef 1); named "op" (op "|"); named "rhs" (TyRef 1)]; tup "And" [TyRef 1]];
   (* 1 *) enum "AndExpr" [rec_ "And" [named "lhs" (TyRef 2); named "op" (op "&"); named "rhs" (TyRef 2)]; tup "Term" [TyRef 2]];
   (* 2 *) enum "Predicate" [tup "Lit" [TyLit LtBool]; tup "Var" [TyIdent]; rec_ "Neg" [named "bang" (op "!"); named "subexpr" (TyBox (TyRef 2))];
      tup "Paren" [TyBox (TyParen (TyRef 0))]]]
  (TyRef 0).

(** ast.rs:468-478: [Eof].  The only published grammar with values that are not read back: a
    [BoolAtEnd] that is not the last item. *)
Definition bool_at_end : grammar := Grammar "ast.rs: Punctuated<BoolAtEndOrInt, Comma>"
  [(* 0 *) DStruct (rec_ "BoolAtEnd" [named "value" (TyLit LtBool); named "eof" TyEof]);
   (* 1 *) enum "BoolAtEndOrInt" [tup "Bool" [TyRef 0]; tup "Int" [TyLit LtInt]]]
  (TyPunctuated (TyRef 1) (op ",")).

(** the grammars of which every value is read back *)
Definition round_trip_grammars : list grammar :=
  [json; boolean; words_and_numbers; function; simple_block; brace_key_value; many_key_value; sum; path; left_expr; right_expr;
   int_or_word; items; assignment; assignment_tuple; foo; generic_struct; generic_enum; arith; cond].
Definition published_grammars : list grammar := round_trip_grammars ++ [bool_at_end].
