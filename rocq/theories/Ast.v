(** * Ast: the parsers and printers of parsel/src/ast.rs.

    One combinator per [impl Parse], generic in the parsers of the type parameters, so that
    everything proved about them also holds for hand-written [Parse] impls.
    Loops take fuel; running out of it is the outcome [ODiverge]. *)
From Verif Require Import Base Float Literal Syn.

(** ** Words and keywords. *)

(** ast.rs:78-94 [TryFrom<Ident> for CustomIdent<K>], ast.rs:125-132 [Parse for CustomIdent].
    Note: the identifier has been consumed when the keyword check fails. *)
Definition p_custom_ident (kws : list text) : parser (text * span) :=
  bind p_ident_any (fun i =>
    if text_mem (fst i) kws
    then fail (Err (snd i) (T "expected identifier, found keyword"))
    else ret i).

(** ast.rs:389-404 the [Parse] impl that [define_keywords!] generates for one keyword *)
Definition p_keyword (kw : text) : parser span :=
  bind p_ident_any (fun i =>
    if text_eqb (fst i) kw then ret (snd i)
    else fail (Err (snd i) (T "expected keyword `" ++ kw ++ T "`"))).

(** ast.rs:263-287: the words of the [KEYWORDS] list generated by
    [define_keywords!{ mod m { k1 => N1; ... ; _ => U; } }] *)
Definition keyword_list (kws : list text) (underscore : bool) : list text :=
  kws ++ (if underscore then [[95%N]] else []).

(** ** Assertions. *)

(** ast.rs:442-446 *)
Definition p_empty : parser unit := ret Datatypes.tt.
(** ast.rs:525-533 *)
Definition p_eof : parser unit := fun s =>
  if is_empty s then (OOk Datatypes.tt, s)
  else (OErr (error_at s (T "expected end of input or group, found garbage")), s).
(** ast.rs:613-621 *)
Definition p_not_eof : parser unit := fun s =>
  if is_empty s then (OErr (error_at s (T "unexpected end of input")), s)
  else (OOk Datatypes.tt, s).

(** ** [Maybe<P, T>], ast.rs:915-939 *)
Definition p_maybe {P A} (pp : parser P) (pa : parser A) : parser (option (P * A)) := fun s =>
  let '(o, fk) := pp (fork s) in
  match o with
  | OOk prefix => bind pa (fun v => ret (Some (prefix, v))) (advance_to s fk)
  | OErr _ => (OOk None, s)
  | OPanic => (OPanic, s)
  | ODiverge => (ODiverge, s)
  end.

(** ** [Paren<T>] ast.rs:1066-1074, [Bracket<T>] 1194-1202, [Brace<T>] 1329-1337 *)
Definition p_paren {A} (p : parser A) : parser (span * A) := p_group DParen p.
Definition p_bracket {A} (p : parser A) : parser (span * A) := p_group DBracket p.
Definition p_brace {A} (p : parser A) : parser (span * A) := p_group DBrace p.

(** ** [Punctuated<T, P>], ast.rs:1587-1596 *)
Definition p_punctuated {A P} (fuel : nat) (pa : parser A) (pp : parser P)
  : parser (punctuated A P) := p_terminated fuel pa pp.

(** ** [Separated<T, P>], ast.rs:2001-2028.  [acc] holds the pairs read so far (reversed),
    [cur] the value after the last separator: together the [inner] of the Rust code. *)
Fixpoint separated_loop {A P} (fuel : nat) (pa : parser A) (pp : parser P)
         (acc : list (A * P)) (cur : A) : parser (punctuated A P) := fun s =>
  match fuel with
  | O => (ODiverge, s)
  | S f =>
      let '(o, fk) := pp (fork s) in
      match o with
      | OOk p => bind pa (fun v => separated_loop f pa pp ((cur, p) :: acc) v) (advance_to s fk)
      | OErr _ => (OOk (Pn (rev acc) (Some cur)), s)
      | OPanic => (OPanic, s)
      | ODiverge => (ODiverge, s)
      end
  end.
Definition p_separated {A P} (fuel : nat) (pa : parser A) (pp : parser P)
  : parser (punctuated A P) :=
  bind pa (fun head => separated_loop fuel pa pp [] head).

(** ** [Any<T>], ast.rs:2307-2327 *)
Fixpoint any_loop {A} (fuel : nat) (pa : parser A) (acc : list A) : parser (list A) := fun s =>
  match fuel with
  | O => (ODiverge, s)
  | S f =>
      let '(o, fk) := pa (fork s) in
      match o with
      | OOk v => any_loop f pa (v :: acc) (advance_to s fk)
      | OErr _ => (OOk (rev acc), s)
      | OPanic => (OPanic, s)
      | ODiverge => (ODiverge, s)
      end
  end.
Definition p_any {A} (fuel : nat) (pa : parser A) : parser (list A) := any_loop fuel pa [].

(** ** [into_first_rest] ast.rs:1786-1811 and [into_last_rest] ast.rs:1831-1847.
    Input: the pairs iterator; [None] is a panic ("empty Separated" / unreachable!). *)
Inductive pair (A P : Type) := PPunctuated (v : A) (p : P) | PEnd (v : A).
Arguments PPunctuated {A P}. Arguments PEnd {A P}.

(** [Punctuated::into_pairs] *)
Definition into_pairs {A P} (x : punctuated A P) : list (pair A P) :=
  map (fun '(v, p) => PPunctuated v p) (pn_inner x)
  ++ match pn_last x with Some v => [PEnd v] | None => [] end.

Fixpoint first_rest_loop {A P} (punct : P) (l : list (pair A P)) (acc : list (P * A))
  : list (P * A) :=
  match l with
  | [] => rev acc
  | PPunctuated v next :: r => first_rest_loop next r ((punct, v) :: acc)
  | PEnd v :: _ => rev ((punct, v) :: acc)
  end.
Definition into_first_rest {A P} (x : punctuated A P) : option (A * list (P * A)) :=
  match into_pairs x with
  | [] => None
  | PPunctuated v p :: r => Some (v, first_rest_loop p r [])
  | PEnd v :: _ => Some (v, [])
  end.

Fixpoint last_rest_loop {A P} (l : list (pair A P)) (acc : list (A * P))
  : option (A * list (A * P)) :=
  match l with
  | [] => None
  | PPunctuated v p :: r => last_rest_loop r ((v, p) :: acc)
  | PEnd v :: _ => Some (v, rev acc)
  end.
Definition into_last_rest {A P} (x : punctuated A P) : option (A * list (A * P)) :=
  last_rest_loop (into_pairs x) [].

(** ** [LeftAssoc<O, R>], ast.rs:3359-3373, parse 3423-3446 *)
Inductive left_assoc (O R : Type) :=
| LBinary (lhs : left_assoc O R) (op : O) (rhs : R)
| LRhs (rhs : R).
Arguments LBinary {O R}. Arguments LRhs {O R}.
Definition build_left {O R} (first : R) (rest : list (O * R)) : left_assoc O R :=
  fold_left (fun expr '(op, rhs) => LBinary expr op rhs) rest (LRhs first).
Definition p_left_assoc {O R} (fuel : nat) (po : parser O) (pr : parser R)
  : parser (left_assoc O R) :=
  bind (p_separated fuel pr po) (fun seq => fun s =>
    match into_first_rest seq with
    | Some (first, rest) => (OOk (build_left first rest), s)
    | None => (OPanic, s)
    end).

(** ** [RightAssoc<O, L>], ast.rs:3552-3566, parse 3616-3639 *)
Inductive right_assoc (O L : Type) :=
| RBinary (lhs : L) (op : O) (rhs : right_assoc O L)
| RLhs (lhs : L).
Arguments RBinary {O L}. Arguments RLhs {O L}.
Definition build_right {O L} (last : L) (rest : list (L * O)) : right_assoc O L :=
  fold_left (fun expr '(lhs, op) => RBinary lhs op expr) (rev rest) (RLhs last).
Definition p_right_assoc {O L} (fuel : nat) (po : parser O) (pl : parser L)
  : parser (right_assoc O L) :=
  bind (p_separated fuel pl po) (fun seq => fun s =>
    match into_last_rest seq with
    | Some (last, rest) => (OOk (build_right last rest), s)
    | None => (OPanic, s)
    end).

(** ** [core::cmp::max_by_key] on the error's span end (util.rs:345, ast.rs:3979):
    the second argument unless the first is strictly greater. *)
Definition max_error (a b : error) : error :=
  if lc_ltb (sp_end (e_span b)) (sp_end (e_span a)) then a else b.

(** ** [Either<L, R>], ast.rs:3955-3981 *)
Inductive either (L R : Type) := ELeft (l : L) | ERight (r : R).
Arguments ELeft {L R}. Arguments ERight {L R}.
Definition p_either {L R} (pl : parser L) (pr : parser R) : parser (either L R) := fun s =>
  let '(o, fk) := pl (fork s) in
  match o with
  | OOk v => (OOk (ELeft v), advance_to s fk)
  | OErr e1 =>
      let '(o2, fk2) := pr (fork s) in
      match o2 with
      | OOk v => (OOk (ERight v), advance_to s fk2)
      | OErr e2 => (OErr (max_error e1 e2), s)
      | OPanic => (OPanic, s)
      | ODiverge => (ODiverge, s)
      end
  | OPanic => (OPanic, s)
  | ODiverge => (ODiverge, s)
  end.

(** ** Literals, ast.rs:2463-2472: the value held by each node (the span is separate). *)
Inductive lit :=
| LBool (b : bool)
| LByte (b : N)
| LInt (z : Z)
| LUint (z : Z)
| LFloat (f : f64)
| LChar (c : char)
| LStr (s : text)
| LByteStr (s : list N).

Section Lits.
Context {U : unicode}.

(** [base10_parse]'s error texts ([core::num::ParseIntError]) *)
Definition int_error (ds : text) : text :=
  match ds with
  | c :: _ => if (c =? 45)%N then T "number too small to fit in target type"
              else T "number too large to fit in target type"
  | [] => T "cannot parse integer from empty string"
  end.
Definition uint_error (ds : text) : text :=
  match ds with
  | c :: _ => if (c =? 45)%N then T "invalid digit found in string"
              else T "number too large to fit in target type"
  | [] => T "cannot parse integer from empty string"
  end.

(** ast.rs:2614-2622 [TryFrom<syn::LitInt> for LitInt] *)
Definition int_try_from (ds : text) (sp : span) : outcome (lit * span) :=
  match read_i64 ds with
  | Some z => OOk (LInt z, sp)
  | None => OErr (Err sp (int_error ds))
  end.
(** ast.rs:2630-2638 [TryFrom<syn::LitInt> for LitUint] *)
Definition uint_try_from (ds : text) (sp : span) : outcome (lit * span) :=
  match read_u64 ds with
  | Some z => OOk (LUint z, sp)
  | None => OErr (Err sp (uint_error ds))
  end.
(** ast.rs:2646-2654 [TryFrom<syn::LitFloat> for LitFloat].  [NotNan]: no literal reads
    as NaN, see [Float.v]. *)
Definition float_try_from (ds : text) (sp : span) : outcome (lit * span) :=
  match float_read ds with
  | Some f => OOk (LFloat f, sp)
  | None => OErr (Err sp (T "invalid float literal"))
  end.
Definition and_then {A B} (p : parser A) (k : A -> outcome B) : parser B :=
  bind p (fun v s => (k v, s)).

(** ast.rs:2857-2903 *)
Definition p_lit_bool : parser (lit * span) := pmap (fun x => (LBool (fst x), snd x)) p_syn_bool.
Definition p_lit_byte : parser (lit * span) := pmap (fun x => (LByte (fst x), snd x)) p_syn_byte.
Definition p_lit_int : parser (lit * span) :=
  and_then p_syn_int (fun x => int_try_from (fst x) (snd x)).
Definition p_lit_uint : parser (lit * span) :=
  and_then p_syn_int (fun x => uint_try_from (fst x) (snd x)).
Definition p_lit_float : parser (lit * span) :=
  and_then p_syn_float (fun x => float_try_from (fst x) (snd x)).
Definition p_lit_char : parser (lit * span) := pmap (fun x => (LChar (fst x), snd x)) p_syn_char.
Definition p_lit_str : parser (lit * span) := pmap (fun x => (LStr (fst x), snd x)) p_syn_str.
Definition p_lit_byte_str : parser (lit * span) :=
  pmap (fun x => (LByteStr (fst x), snd x)) p_syn_byte_str.

(** ast.rs:3166-3190 [TryFrom<syn::Lit> for Lit].  The debug rendering of the literal inside
    the "unhandled literal" message is left out. *)
Definition lit_try_from (x : slit * span) : outcome (lit * span) :=
  let '(k, sp) := x in
  match k with
  | SLBool b => OOk (LBool b, sp)
  | SLTok (KByte b) => OOk (LByte b, sp)
  | SLTok (KInt ds) =>
      match ds with
      | c :: _ => if (c =? 45)%N then int_try_from ds sp else uint_try_from ds sp
      | [] => uint_try_from ds sp
      end
  | SLTok (KFloat ds) => float_try_from ds sp
  | SLTok (KChar c) => OOk (LChar c, sp)
  | SLTok (KStr v) => OOk (LStr v, sp)
  | SLTok (KByteStr v) => OOk (LByteStr v, sp)
  | SLTok KCStr => OErr (Err sp (T "unhandled literal"))
  end.
(** ast.rs:3230-3234 *)
Definition p_any_lit : parser (lit * span) := and_then p_lit lit_try_from.

(** The [token()] of each literal node and its appending to a stream:
    ast.rs:2474-2583, 2455-2459, 3236-3249. [None]: the Rust code panics. *)
Definition print_lit (l : lit) (sp : span) : option (list tt) :=
  match l with
  | LBool b => Some [TIdent (if b then T "true" else T "false") sp]
  | LByte b => option_map (fun r => push_lit r sp) (lit_byte_repr b)
  | LInt z => Some (push_lit (show_int z) sp)
  | LUint z => Some (push_lit (show_int z) sp)
  | LFloat f => option_map (fun r => push_lit r sp) (float_show f)
  | LChar c => Some (push_lit (show_char c) sp)
  | LStr s => Some (push_lit (show_str s) sp)
  | LByteStr s => Some (push_lit (show_byte_str s) sp)
  end.
End Lits.

(** ** Printers of the generic nodes. A printer maps a value to tokens; [None] = panic. *)
Definition printer (A : Type) := A -> option (list tt).
Definition oapp (a b : option (list tt)) : option (list tt) :=
  match a, b with Some x, Some y => Some (x ++ y) | _, _ => None end.
Definition oconcat (l : list (option (list tt))) : option (list tt) :=
  fold_right oapp (Some []) l.

(** ast.rs:134-138 *)
Definition print_ident : printer (text * span) := fun i => Some [TIdent (fst i) (snd i)].
(** ast.rs:406-410, [token()] at 313-315 *)
Definition print_keyword (kw : text) : printer span := fun sp => Some [TIdent kw sp].
(** quote's [ToTokens] for [Token![..]] punctuation ([syn::token::printing::punct]): all
    characters are joint but the last, which is alone. *)
Fixpoint print_op (op : list char) (sps : list span) : list tt :=
  match op, sps with
  | [c], sp :: _ => [TPunct c Alone sp]
  | c :: op', sp :: sps' => TPunct c Joint sp :: print_op op' sps'
  | _, _ => []
  end.
Definition print_token (op : list char) : printer (list span) := fun sps => Some (print_op op sps).
(** ast.rs:448-450, 535-537, 623-625 *)
Definition print_unit : printer unit := fun _ => Some [].
(** ast.rs:941-952 *)
Definition print_maybe {P A} (pp : printer P) (pa : printer A) : printer (option (P * A)) :=
  fun o => match o with
           | Some (h, t) => oapp (pp h) (pa t)
           | None => Some []
           end.
(** ast.rs:1076-1080, 1204-1208, 1339-1343 *)
Definition print_group {A} (d : delim) (pa : printer A) : printer (span * A) :=
  fun x => option_map (fun ts => [TGroup d (fst x) ts]) (pa (snd x)).
(** ast.rs:1598-1607, 2030-2039: syn's [ToTokens for Punctuated] *)
Definition print_punctuated {A P} (pa : printer A) (pp : printer P) : printer (punctuated A P) :=
  fun x => oapp (oconcat (map (fun '(v, p) => oapp (pa v) (pp p)) (pn_inner x)))
                (match pn_last x with Some v => pa v | None => Some [] end).
(** ast.rs:2329-2336 *)
Definition print_any {A} (pa : printer A) : printer (list A) := fun l => oconcat (map pa l).
(** ast.rs:3448-3465 *)
Fixpoint print_left {O R} (po : printer O) (pr : printer R) (t : left_assoc O R)
  : option (list tt) :=
  match t with
  | LBinary l o r => oapp (print_left po pr l) (oapp (po o) (pr r))
  | LRhs r => pr r
  end.
(** ast.rs:3641-3658 *)
Fixpoint print_right {O L} (po : printer O) (pl : printer L) (t : right_assoc O L)
  : option (list tt) :=
  match t with
  | RBinary l o r => oapp (pl l) (oapp (po o) (print_right po pl r))
  | RLhs l => pl l
  end.
(** ast.rs:3983-3994 *)
Definition print_either {L R} (pl : printer L) (pr : printer R) : printer (either L R) :=
  fun x => match x with ELeft l => pl l | ERight r => pr r end.
