(** * Debug: the [Debug] impls of the nodes (C65).

    Two steps, as in Rust: a node tells the builders of [core::fmt] what it consists of, and these write the text,
    on one line for [{:?}] and indented for [{:#?}]. *)
From Verif Require Import Base Float Literal Syn Ast Derive Grammar Lexer Offsets HashCalls.
Local Open Scope nat_scope.

(** What is handed to [core::fmt]. *)
Inductive doc :=
| GWord (w : text)                              (* [write_str], numbers, [debug_tuple]/[debug_struct] without fields *)
| GStr (s : text) | GChar (c : char)            (* [Debug] for [str] and [char] *)
| GSpan (a b : N)                               (* [Debug] for a span of proc_macro2 with span-locations *)
| GRecord (name : text) (fs : list (text * doc))   (* [debug_struct] *)
| GTuple (name : text) (l : list doc)           (* [debug_tuple]; a tuple if the name is empty *)
| GList (l : list doc)                          (* [debug_list] *)
| GBinary (op l r : doc).                       (* the [debug_struct] of ast.rs:3388-3393, 3581-3586, whose name contains a text *)

Section Debug.
Context {U : unicode}.
(** [Debug for str] of core; a quote that cannot end the text is not escaped *)
Definition debug_str (s : text) : text := [34%N] ++ flat_map (fun c => if (c =? 39)%N then [c] else escape_debug c) s ++ [34%N].
(** [Debug for char] of core *)
Definition debug_char (c : char) : text := [39%N] ++ (if (c =? 34)%N then [c] else escape_debug c) ++ [39%N].
(** [core::fmt::builders::PadAdapter]: four spaces before every line *)
Definition indent (s : text) : text := flat_map (fun l => T "    " ++ l) (split_inclusive s).
Definition commas (l : list text) : text := match l with [] => [] | x :: r => x ++ flat_map (fun y => T ", " ++ y) r end.
(** the items of a builder, [alternate] being [f.alternate()]: core::fmt::builders ([DebugStruct::field], [DebugInner::entry], ...) *)
Definition items (alternate : bool) (l : list text) : text :=
  if alternate then [10%N] ++ flat_map (fun x => indent (x ++ [44; 10]%N)) l else commas l.
(** The texts written.  Simplification: a record or tuple has at least one field (without fields the name alone is written: [GWord]);
    no tuples of one. *)
Fixpoint show (alternate : bool) (d : doc) : text :=
  match d with
  | GWord w => w
  | GStr s => debug_str s
  | GChar c => debug_char c
  | GSpan a b => T "bytes(" ++ dec a ++ T ".." ++ dec b ++ T ")"
  | GRecord n fs =>
      let l := map (fun '(f, x) => f ++ T ": " ++ show alternate x) fs in
      n ++ if alternate then T " {" ++ items true l ++ T "}" else T " { " ++ items false l ++ T " }"
  | GTuple n l => n ++ T "(" ++ items alternate (map (show alternate) l) ++ T ")"
  | GList l => match l with [] => T "[]" | _ => T "[" ++ items alternate (map (show alternate) l) ++ T "]" end
  | GBinary o x y =>
      let l := [T "lhs: " ++ show alternate x; T "rhs: " ++ show alternate y] in
      (T "Binary<" ++ show false o ++ T ">") ++ if alternate then T " {" ++ items true l ++ T "}" else T " { " ++ items false l ++ T " }"
  end.

(** What the model leaves open: the offsets proc_macro2 has for a span in its map of all sources; the names of syn's token types
    ([Plus], [If], ...); the digits [Debug for f64] writes. *)
Record shown := Shown { offsets : span -> N * N; token_name : text -> text; float_text : f64 -> text }.

(** [Debug] of the raw values in literals (ast.rs:2340, the derive; types at 2463-2472) *)
Definition lit_doc (S : shown) (l : lit) : doc :=
  match l with
  | LBool b => GWord (if b then T "true" else T "false")
  | LByte b => GWord (dec b)
  | LInt z | LUint z => GWord (show_int z)
  | LFloat x => GWord (float_text S x)
  | LChar c => GChar c
  | LStr s => GStr s
  | LByteStr s => GList (map (fun b => GWord (dec b)) s)
  end.
Definition lit_name (l : lit) : text :=
  match l with
  | LBool _ => T "LitBool" | LByte _ => T "LitByte" | LInt _ => T "LitInt" | LUint _ => T "LitUint"
  | LFloat _ => T "LitFloat" | LChar _ => T "LitChar" | LStr _ => T "LitStr" | LByteStr _ => T "LitByteStr"
  end.
(** proc_macro2 fallback [Debug for Ident] with span-locations: the span unless it is the call site ([debug_span_field_if_nontrivial]) *)
Definition ident_doc (S : shown) (n : text) (sp : span) : doc :=
  GRecord (T "Ident") ((T "sym", GWord n) :: match offsets S sp with (0%N, 0%N) => [] | (a, b) => [(T "span", GSpan a b)] end).
(** [#[derive(Debug)]] *)
Definition ctor_doc (n : text) (fs : list (label * doc)) : doc :=
  match fs with
  | [] => GWord n
  | (LName _, _) :: _ => GRecord n (map (fun f => (show_label (fst f), snd f)) fs)
  | (LIndex _, _) :: _ => GTuple n (map snd fs)
  end.
Definition g_fields (g : ty -> val -> doc) : list (label * ty) -> list val -> list (label * doc) :=
  fix go fs l {struct l} := match l with x :: l' => match fs with f :: fs' => (fst f, g (snd f) x) :: go fs' l' | [] => [] end | [] => [] end.
(** [Debug], by type: ast.rs:102-106 ([CustomIdent]), 369-373 (keywords), syn's tokens (their names), 2340 and 3192-3205 (literals; [Lit] shows
    its contents), 419, 502, 590 (unit structs), 883-891 ([Maybe]: its [Option] of a pair), 978-982, 1106-1110, 1241-1245 (groups, derived),
    1555-1563 and 1969-1977 (syn's [Punctuated]: a list of values and separators), 2278-2285 ([Vec]), 3381-3399, 3574-3592 (associations),
    3929-3940 ([Either] shows its contents), [Box], and what [#[derive(Debug)]] generates for the user's types.
    A value that does not have the type gives nothing sensible. *)
Fixpoint dbg (S : shown) (E : env) (t : ty) (v : val) : doc :=
  match v with
  | VIdent n sp => ident_doc S n sp
  | VKw k _ => match unbox t with TyTokenKw _ => GWord (token_name S k) | _ => GWord k end
  | VOp op _ => GWord (token_name S op)
  | VLit l sp => GRecord (lit_name l) [(T "value", lit_doc S l); (T "span", GSpan (fst (offsets S sp)) (snd (offsets S sp)))]
  | VUnit => GWord match unbox t with TyEof => T "Eof" | TyNotEof => T "NotEof" | _ => T "Empty" end
  | VNothing => GWord (T "None")
  | VJust p x => match unbox t with TyMaybe a b => GTuple (T "Some") [GTuple [] [dbg S E a p; dbg S E b x]] | _ => GWord [] end
  | VGroup _ _ x =>
      match unbox t with
      | TyParen a => GRecord (T "Paren") [(T "parens", GWord (T "Paren")); (T "inner", dbg S E a x)]
      | TyBracket a => GRecord (T "Bracket") [(T "brackets", GWord (T "Bracket")); (T "inner", dbg S E a x)]
      | TyBrace a => GRecord (T "Brace") [(T "braces", GWord (T "Brace")); (T "inner", dbg S E a x)]
      | _ => GWord []
      end
  | VPunct i l =>
      match unbox t with
      | TyPunctuated a p | TySeparated a p =>
          GList (List.concat (map (fun '(x, y) => [dbg S E a x; dbg S E p y]) i) ++ match l with Some x => [dbg S E a x] | None => [] end)
      | _ => GWord []
      end
  | VList l => match unbox t with TyAny a => GList (map (dbg S E a) l) | _ => GWord [] end
  | VBinL a o b => match unbox t with TyLeftAssoc p r => GBinary (dbg S E p o) (dbg S E (TyLeftAssoc p r) a) (dbg S E r b) | _ => GWord [] end
  | VRhs a => match unbox t with TyLeftAssoc p r => dbg S E r a | _ => GWord [] end
  | VBinR a o b => match unbox t with TyRightAssoc p r => GBinary (dbg S E p o) (dbg S E r a) (dbg S E (TyRightAssoc p r) b) | _ => GWord [] end
  | VLhs a => match unbox t with TyRightAssoc p r => dbg S E r a | _ => GWord [] end
  | VLeft a => match unbox t with TyEither p r => dbg S E p a | _ => GWord [] end
  | VRight a => match unbox t with TyEither p r => dbg S E r a | _ => GWord [] end
  | VStruct l => match unbox t with TyRef i => match E i with DStruct c => ctor_doc (c_name c) (g_fields (fun a x => dbg S E a x) (c_fields c) l) | _ => GWord [] end | _ => GWord [] end
  | VVariant k l =>
      match unbox t with
      | TyRef i =>
          match E i with
          | DEnum _ cs => match nth_error cs k with Some c => ctor_doc (c_name c) (g_fields (fun a x => dbg S E a x) (c_fields c) l) | None => GWord [] end
          | _ => GWord []
          end
      | _ => GWord []
      end
  end.
(** [format!("{:?}", v)] and [format!("{:#?}", v)] *)
Definition debug (S : shown) (alternate : bool) (E : env) (t : ty) (v : val) : text := show alternate (dbg S E t v).
End Debug.
