(** * Display: the [Display] impls of the nodes, by type (C54). *)
From Verif Require Import Base Float Literal Syn Ast Derive Grammar Fmt.
Local Open Scope nat_scope.

Section Display.
Context {U : unicode}.
(** [Display for proc_macro2::Literal] / [Ident] of [LitX::token()] (ast.rs:2441-2445, the [token] methods at
    ast.rs:2475-2582): the text of the token, a minus sign included; [None] = panic (infinite float) *)
Definition token_text (l : lit) : option text :=
  match l with
  | LBool b => Some (if b then T "true" else T "false")
  | LByte b => lit_byte_repr b
  | LInt z => Some (show_int z)
  | LUint z => Some (show_int z)
  | LFloat f => float_show f
  | LChar c => Some (show_char c)
  | LStr s => Some (show_str s)
  | LByteStr s => Some (show_byte_str s)
  end.
(** util.rs:671-680 [format_ast_node]: the tokens of the node, through [TokenStreamFormatter] ([{:#}] is compact) *)
Definition format_node (alternate : bool) (v : val) : option text := option_map (to_text alternate) (print v).
(** [Display] by type:
    - [Ident] (proc_macro2), [CustomIdent] (ast.rs:108-112): the word;
    - keyword types (375-379): the word ([pad] without width or precision);
    - [LitX] (2441-2445), [Lit] (3207-3221): the token;
    - [Empty], [Eof], [NotEof] (436-440, 519-523, 607-611): nothing;
    - [Either] (3942-3953), [Box]: the contents;
    - [Maybe] (893-901), groups (1052-1056, 1180-1184, 1315-1319), [Punctuated] (1565-1573), [Separated] (1979-1987), [Any] (2287-2294), [LeftAssoc] (3401-3409),
      [RightAssoc] (3594-3602), and types with [#[derive(Display)]]: [format_ast_node];
    - [Token!] types have none. *)
Fixpoint display (alternate : bool) (t : ty) (v : val) : option text :=
  match t, v with
  | TyIdent, VIdent n _ | TyCustomIdent _, VIdent n _ => Some n
  | TyKeyword _, VKw k _ => Some k
  | TyLit _, VLit l _ | TyAnyLit, VLit l _ => token_text l
  | TyEmpty, _ | TyEof, _ | TyNotEof, _ => Some []
  | TyEither a _, VLeft x => display alternate a x
  | TyEither _ b, VRight x => display alternate b x
  | TyBox a, _ => display alternate a v
  | TyToken _, _ | TyTokenKw _, _ => None
  | _, _ => format_node alternate v
  end.
End Display.
