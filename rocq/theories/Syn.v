(** * Syn: the part of [syn] 2 that parsel's parsers are written against.

    parsel/src/ast.rs:17-24 and parsel/src/util.rs:7 import these names; they are not in
    /repo.  A [ParseStream] is modelled as the tokens left to read, the span used for errors
    at the end of the stream, and the cell in which [syn] records the first unread token
    of a group whose parser has been dropped. *)
From Verif Require Import Base Float Literal.

(** [syn::Error]: parsel only ever reads the span and the message of the first entry
    (util.rs:294-317: [cause.span()], [{cause}]). *)
Record error := Err { e_span : span; e_msg : text }.

Record pstate := PS {
  ps_rest : list tt;          (* the cursor: what is left of the stream, invisible groups
                                 that were entered are spliced in *)
  ps_scope : span;            (* span reported at the end of the stream *)
  ps_unexp : option span      (* the [unexpected] cell *)
}.

(** Outcome of running a parser. [OPanic]: the Rust code panics. [ODiverge]: the fuel that
    bounds loops and recursion ran out (see [Grammar.v]); never a result of the Rust code. *)
Inductive outcome (A : Type) :=
| OOk (v : A)
| OErr (e : error)
| OPanic
| ODiverge.
Arguments OOk {A}. Arguments OErr {A}. Arguments OPanic {A}. Arguments ODiverge {A}.

(** [Parse::parse]: the stream after the call is visible also when the call failed. *)
Definition parser (A : Type) := pstate -> outcome A * pstate.

Definition ret {A} (v : A) : parser A := fun s => (OOk v, s).
Definition fail {A} (e : error) : parser A := fun s => (OErr e, s).
(** the [?] operator *)
Definition bind {A B} (p : parser A) (k : A -> parser B) : parser B :=
  fun s => match p s with
           | (OOk v, s') => k v s'
           | (OErr e, s') => (OErr e, s')
           | (OPanic, s') => (OPanic, s')
           | (ODiverge, s') => (ODiverge, s')
           end.
Definition pmap {A B} (f : A -> B) (p : parser A) : parser B := bind p (fun v => ret (f v)).
(** [Result::map_err] *)
Definition map_err {A} (f : error -> error) (p : parser A) : parser A :=
  fun s => match p s with
           | (OErr e, s') => (OErr (f e), s')
           | r => r
           end.

(** ** Cursors. *)

(** [Cursor::ignore_none]: enter invisible groups at the head.  [open_none t] is what is
    left of [t] when its leading invisible delimiters are skipped. *)
Fixpoint open_none (t : tt) : list tt :=
  match t with
  | TGroup DNone _ l =>
      (fix go (l : list tt) : list tt :=
         match l with
         | [] => []
         | x :: r => match open_none x with
                     | [] => go r
                     | y :: ys => y :: ys ++ r
                     end
         end) l
  | _ => [t]
  end.
Fixpoint ignore_none (l : list tt) : list tt :=
  match l with
  | [] => []
  | x :: r => match open_none x with
              | [] => ignore_none r
              | y :: ys => y :: ys ++ r
              end
  end.

(** [span_of_unexpected_ignoring_nones]: the first visible token left *)
Fixpoint tt_leftover (t : tt) : option span :=
  match t with
  | TGroup DNone _ l =>
      (fix go (l : list tt) : option span :=
         match l with
         | [] => None
         | x :: r => match tt_leftover x with Some sp => Some sp | None => go r end
         end) l
  | _ => Some (tt_span t)
  end.
Fixpoint leftover (l : list tt) : option span :=
  match l with
  | [] => None
  | x :: r => match tt_leftover x with Some sp => Some sp | None => leftover r end
  end.

(** [open_span_of_group] *)
Definition head_span (t : tt) : span :=
  match t with TGroup _ sp _ => open_span sp | _ => tt_span t end.

(** [ParseBuffer::error] / [StepCursor::error] = [error::new_at] *)
Definition error_at (s : pstate) (msg : text) : error :=
  match ps_rest s with
  | [] => Err (ps_scope s) (T "unexpected end of input, " ++ msg)
  | t :: _ => Err (head_span t) msg
  end.
(** [ParseBuffer::span] *)
Definition stream_span (s : pstate) : span :=
  match ps_rest s with [] => ps_scope s | t :: _ => head_span t end.

Definition is_empty (s : pstate) : bool := match ps_rest s with [] => true | _ => false end.

Definition set_rest (s : pstate) (r : list tt) : pstate := PS r (ps_scope s) (ps_unexp s).

(** ** Speculation. *)

(** [ParseBuffer::fork]: same position, a fresh [unexpected] cell *)
Definition fork (s : pstate) : pstate := PS (ps_rest s) (ps_scope s) None.

(** [Speculative::advance_to].  The scope check cannot fail here: all forks in parsel are
    forks of the stream they advance, and no modelled parser leaves its scope. *)
Definition advance_to (s fk : pstate) : pstate :=
  PS (ps_rest fk) (ps_scope s)
     (match ps_unexp s with Some sp => Some sp | None => ps_unexp fk end).

(** ** Leaf parsers. *)

(** [syn::ext::IdentExt::parse_any] *)
Definition p_ident_any : parser (text * span) := fun s =>
  match ignore_none (ps_rest s) with
  | TIdent n sp :: r => (OOk (n, sp), set_rest s r)
  | _ => (OErr (error_at s (T "expected ident")), s)
  end.

(** Words [syn]'s [Ident::parse] refuses ([accept_as_ident]). *)
Definition rust_keywords : list text := Eval compute in
  map T [ "_"; "abstract"; "as"; "async"; "await"; "become"; "box"; "break"; "const";
          "continue"; "crate"; "do"; "dyn"; "else"; "enum"; "extern"; "false"; "final"; "fn";
          "for"; "if"; "impl"; "in"; "let"; "loop"; "macro"; "match"; "mod"; "move"; "mut";
          "override"; "priv"; "pub"; "ref"; "return"; "Self"; "self"; "static"; "struct";
          "super"; "trait"; "true"; "try"; "type"; "typeof"; "unsafe"; "unsized"; "use";
          "virtual"; "where"; "while"; "yield" ]%string.

(** [<Ident as Parse>::parse] *)
Definition p_ident : parser (text * span) := fun s =>
  match ignore_none (ps_rest s) with
  | TIdent n sp :: r =>
      if text_mem n rust_keywords
      then (OErr (error_at s (T "expected identifier, found keyword `" ++ n ++ T "`")), s)
      else (OOk (n, sp), set_rest s r)
  | _ => (OErr (error_at s (T "expected identifier")), s)
  end.

(** [Token![kw]] for a Rust keyword (and [_]): [syn::token::parsing::keyword] *)
Definition p_token_kw (kw : text) : parser span := fun s =>
  match ignore_none (ps_rest s) with
  | TIdent n sp :: r =>
      if text_eqb n kw then (OOk sp, set_rest s r)
      else (OErr (error_at s (T "expected `" ++ kw ++ T "`")), s)
  | _ => (OErr (error_at s (T "expected `" ++ kw ++ T "`")), s)
  end.

(** [Token![+=]] etc.: [syn::token::parsing::punct].  All characters but the last must be
    joint to the next one; an apostrophe is never read as punctuation. *)
Fixpoint take_op (op : list char) (l : list tt) : option (list span * list tt) :=
  match op with
  | [] => Some ([], l)
  | c :: op' =>
      match ignore_none l with
      | TPunct c' sg sp :: r =>
          if (c =? c')%N && negb (c' =? 39)%N &&
             (match op' with [] => true | _ => spacing_eqb sg Joint end)
          then match take_op op' r with
               | Some (sps, r') => Some (sp :: sps, r')
               | None => None
               end
          else None
      | _ => None
      end
  end.
Definition op_error_span (s : pstate) : span :=
  match ignore_none (ps_rest s) with
  | TPunct c _ sp :: _ => if (c =? 39)%N then stream_span s else sp
  | _ => stream_span s
  end.
Definition p_token (op : list char) : parser (list span) := fun s =>
  match take_op op (ps_rest s) with
  | Some (sps, r) => (OOk sps, set_rest s r)
  | None => (OErr (Err (op_error_span s) (T "expected `" ++ op ++ T "`")), s)
  end.

(** ** Groups: [parenthesized!], [bracketed!], [braced!] followed by [contents.parse()?]
    and the drop of [contents]. *)
Definition delim_msg (d : delim) : text :=
  match d with
  | DParen => T "expected parentheses"
  | DBracket => T "expected square brackets"
  | DBrace => T "expected curly braces"
  | DNone => T "expected invisible group"
  end.
(** [Drop for ParseBuffer] *)
Definition drop_unexp (u : option span) (rest : list tt) : option span :=
  match u with Some sp => Some sp | None => leftover rest end.
Definition p_group {A} (d : delim) (p : parser A) : parser (span * A) := fun s =>
  match ignore_none (ps_rest s) with
  | TGroup d' sp inner :: r =>
      if delim_eqb d d' then
        let '(o, si) := p (PS inner (close_span sp) (ps_unexp s)) in
        let s' := PS r (ps_scope s) (drop_unexp (ps_unexp si) (ps_rest si)) in
        match o with
        | OOk v => (OOk (sp, v), s')
        | OErr e => (OErr e, s')
        | OPanic => (OPanic, s')
        | ODiverge => (ODiverge, s')
        end
      else (OErr (error_at s (delim_msg d)), s)
  | _ => (OErr (error_at s (delim_msg d)), s)
  end.

(** ** Literals. *)
Section Lits.
Context {U : unicode}.

(** [syn::Lit] as far as parsel looks at it. *)
Inductive slit :=
| SLBool (b : bool)
| SLTok (k : lkind).

(** [<syn::Lit as Parse>::parse] *)
Definition p_lit : parser (slit * span) := fun s =>
  match ignore_none (ps_rest s) with
  | TLit repr sp :: r =>
      match lit_new repr with
      | Some k => (OOk (SLTok k, sp), set_rest s r)
      | None => (OPanic, s)
      end
  | TIdent n sp :: r =>
      if text_eqb n (T "true") then (OOk (SLBool true, sp), set_rest s r)
      else if text_eqb n (T "false") then (OOk (SLBool false, sp), set_rest s r)
      else (OErr (error_at s (T "expected literal")), s)
  | TPunct c _ sp :: r =>
      if (c =? 45)%N then
        match ignore_none r with
        | TLit repr sp2 :: r' =>
            match lit_num (45%N :: repr) with       (* [parse_negative_lit] *)
            | Some k => (OOk (SLTok k, join_or sp sp2), set_rest s r')
            | None => (OErr (error_at s (T "expected literal")), s)
            end
        | _ => (OErr (error_at s (T "expected literal")), s)
        end
      else (OErr (error_at s (T "expected literal")), s)
  | _ => (OErr (error_at s (T "expected literal")), s)
  end.

(** [<syn::LitInt as Parse>::parse] and its siblings: parse any [Lit]; if it is of another
    kind, report an error at the head (the stream stays where the literal ended). *)
Definition p_typed {A} (sel : slit -> option A) (what : text) : parser (A * span) := fun s =>
  match p_lit s with
  | (OOk (k, sp), s') =>
      match sel k with
      | Some v => (OOk (v, sp), s')
      | None => (OErr (error_at s (T "expected " ++ what)), s')
      end
  | (OErr _, s') => (OErr (error_at s (T "expected " ++ what)), s')
  | (OPanic, s') => (OPanic, s')
  | (ODiverge, s') => (ODiverge, s')
  end.
Definition p_syn_bool := p_typed (fun k => match k with SLBool b => Some b | _ => None end)
                                 (T "boolean literal").
Definition p_syn_byte := p_typed (fun k => match k with SLTok (KByte b) => Some b | _ => None end)
                                 (T "byte literal").
Definition p_syn_int := p_typed (fun k => match k with SLTok (KInt d) => Some d | _ => None end)
                                (T "integer literal").
Definition p_syn_float := p_typed (fun k => match k with SLTok (KFloat d) => Some d | _ => None end)
                                  (T "floating point literal").
Definition p_syn_char := p_typed (fun k => match k with SLTok (KChar c) => Some c | _ => None end)
                                 (T "character literal").
Definition p_syn_str := p_typed (fun k => match k with SLTok (KStr v) => Some v | _ => None end)
                                (T "string literal").
Definition p_syn_byte_str :=
  p_typed (fun k => match k with SLTok (KByteStr v) => Some v | _ => None end)
          (T "byte string literal").
End Lits.

(** ** [syn::punctuated::Punctuated] as data: (value, punct) pairs and a possible last value. *)
Record punctuated (A P : Type) := Pn { pn_inner : list (A * P); pn_last : option A }.
Arguments Pn {A P}. Arguments pn_inner {A P}. Arguments pn_last {A P}.

(** [Punctuated::parse_terminated].  [fuel] bounds the number of iterations. *)
Fixpoint terminated_loop {A P} (fuel : nat) (pa : parser A) (pp : parser P)
         (acc : list (A * P)) : parser (punctuated A P) := fun s =>
  match fuel with
  | O => (ODiverge, s)
  | S f =>
      if is_empty s then (OOk (Pn (rev acc) None), s)
      else bind pa (fun v => fun s1 =>
             if is_empty s1 then (OOk (Pn (rev acc) (Some v)), s1)
             else bind pp (fun p => terminated_loop f pa pp ((v, p) :: acc)) s1) s
  end.
Definition p_terminated {A P} (fuel : nat) (pa : parser A) (pp : parser P)
  : parser (punctuated A P) := terminated_loop fuel pa pp [].

(** ** Whole-input parsing: [syn::parse2] (parsel/src/lib.rs:65). *)
Inductive result (A : Type) :=
| ROk (v : A) | RErr (e : error) | RPanic | RDiverge.
Arguments ROk {A}. Arguments RErr {A}. Arguments RPanic {A}. Arguments RDiverge {A}.

Definition start (ts : list tt) : pstate := PS ts call_site None.
Definition unexpected_token : text := Eval compute in T "unexpected token".
Definition parse2 {A} (p : parser A) (ts : list tt) : result A :=
  match p (start ts) with
  | (OOk v, s') =>
      match ps_unexp s' with
      | Some sp => RErr (Err sp unexpected_token)
      | None => match leftover (ps_rest s') with
                | Some sp => RErr (Err sp unexpected_token)
                | None => ROk v
                end
      end
  | (OErr e, _) => RErr e
  | (OPanic, _) => RPanic
  | (ODiverge, _) => RDiverge
  end.
