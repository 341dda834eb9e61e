(** * Lexer: [TokenStream::from_str] and [syn::parse_str].

    parsel reads source text through [syn::parse_str] (re-exported at parsel/src/lib.rs:65, used by
    every [FromStr] impl: parsel_derive/src/from_str.rs:29-31, parsel/src/ast.rs:114-120, 381-387, ...),
    which lexes with proc_macro2's own lexer (1.0.85, src/parse.rs).  That lexer is modelled here,
    function by function under its own names; it is not part of /repo, so the model is written from
    knowledge of the published source.  A [Cursor] is the remaining text; its character offset
    is the length of the whole text minus the length of the remaining text.  [None] is [Reject].
    Bytes and characters are identified: the lexer looks at bytes only where the
    character is ASCII, except where noted. *)
From Verif Require Import Base Float Literal Syn Fmt.
Local Open Scope nat_scope.

Section Lexer.
Context {U : unicode}.

(** [Cursor::parse]/[starts_with] *)
Fixpoint strip_prefix (p s : text) : option text :=
  match p, s with
  | [], _ => Some s
  | a :: p', b :: s' => if (a =? b)%N then strip_prefix p' s' else None
  | _ :: _, [] => None
  end.
Definition starts_with (p s : text) : bool := match strip_prefix p s with Some _ => true | None => false end.

(** [is_whitespace]: also the left-to-right and right-to-left marks *)
Definition lex_white (c : char) : bool := is_white c || (c =? 8206)%N || (c =? 8207)%N.
(** [is_ident_start], [is_ident_continue] *)
Definition ident_start (c : char) : bool := (c =? 95)%N || xid_start c.

(** [block_comment], after the characters before: [depth] comments are open *)
Fixpoint block_end (s : text) (depth : nat) : option text :=
  match s with
  | a :: t =>
      match t with
      | b :: r =>
          if (a =? 47)%N && (b =? 42)%N then block_end r (S depth)
          else if (a =? 42)%N && (b =? 47)%N then
            if Nat.leb depth 1 then Some r else block_end r (pred depth)
          else block_end t depth
      | [] => None
      end
  | [] => None
  end.
Definition block_comment (s : text) : option text :=
  if starts_with [47; 42]%N s then block_end s 0 else None.
(** [take_until_newline_or_eof]: the rest and the text taken *)
Fixpoint take_line (s : text) : text * text :=
  match s with
  | [] => ([], [])
  | c :: r =>
      if (c =? 10)%N then (s, [])
      else if (c =? 13)%N && starts_with [10%N] r then (r, [])
      else let '(rest, taken) := take_line r in (rest, c :: taken)
  end.

(** [skip_whitespace]; every round removes something, so the length is enough fuel *)
Fixpoint skip_ws (fuel : nat) (s : text) : text :=
  match fuel with
  | O => s
  | S f =>
      match s with
      | [] => []
      | c :: r =>
          let white := if lex_white c then skip_ws f r else s in
          if (c =? 47)%N then
            if starts_with [47; 47]%N s && (negb (starts_with [47; 47; 47]%N s) || starts_with [47; 47; 47; 47]%N s)
               && negb (starts_with [47; 47; 33]%N s) then skip_ws f (fst (take_line s))
            else if starts_with [47; 42; 42; 47]%N s then skip_ws f (skipn 4 s)
            else if starts_with [47; 42]%N s && (negb (starts_with [47; 42; 42]%N s) || starts_with [47; 42; 42; 42]%N s)
               && negb (starts_with [47; 42; 33]%N s) then
              match block_comment s with Some rest => skip_ws f rest | None => s end
            else white
          else white
      end
  end.
Definition skip_whitespace (s : text) : text := skip_ws (List.length s) s.

(** [word_break] *)
Definition word_break (s : text) : option text :=
  match s with
  | c :: _ => if xid_continue c then None else Some s
  | [] => Some s
  end.

(** [ident_not_raw]: the identifier and the rest *)
Fixpoint take_continue (s : text) : text * text :=
  match s with
  | c :: r => if xid_continue c then let '(a, b) := take_continue r in (c :: a, b) else ([], s)
  | [] => ([], [])
  end.
Definition ident_not_raw (s : text) : option (text * text) :=
  match s with
  | c :: r => if ident_start c then let '(a, b) := take_continue r in Some (c :: a, b) else None
  | [] => None
  end.
(** [ident_any] *)
Definition no_raw : list text := Eval compute in [T "_"; T "super"; T "self"; T "Self"; T "crate"].
Definition ident_any (s : text) : option (text * text) :=
  match strip_prefix [114; 35]%N s with
  | None => ident_not_raw s
  | Some r =>
      match ident_not_raw r with
      | Some (sym, rest) => if text_mem sym no_raw then None else Some ([114; 35]%N ++ sym, rest)
      | None => None
      end
  end.
(** [ident] *)
Definition not_ident : list text := Eval compute in
  map (fun s => map (fun c => if (c =? 96)%N then 34%N else c) (T s))   (* ` stands for the double quote *)
    ["r`"; "r#`"; "r##"; "b`"; "b'"; "br`"; "br#"; "c`"; "cr`"; "cr#"]%string.
Definition ident (s : text) : option (text * text) :=
  if existsb (fun p => starts_with p s) not_ident then None else ident_any s.

(** [literal_suffix] *)
Definition literal_suffix (s : text) : text :=
  match ident_not_raw s with Some (_, r) => r | None => s end.

(** the three dialects of strings *)
Inductive dialect := DStr | DByte | DC.

(** [backslash_x_char], [backslash_x_byte], [backslash_x_nonzero] *)
Definition lex_x (d : dialect) (s : text) : option text :=
  match s with
  | a :: b :: r =>
      match hex_val a, hex_val b with
      | Some x, Some y =>
          match d with
          | DStr => if is_digit a && (x <=? 7)%N then Some r else None
          | DByte => Some r
          | DC => if (a =? 48)%N && (b =? 48)%N then None else Some r
          end
      | _, _ => None
      end
  | _ => None
  end.
(** [backslash_u] is the function of the same name in Literal.v (both crates have the same code) *)
(** [trailing_backslash]: [cr] is [last == b'\r'] *)
Fixpoint trailing_backslash (cr : bool) (s : text) : option text :=
  match s with
  | [] => None
  | c :: r =>
      if cr then if (c =? 10)%N then trailing_backslash false r else None
      else if (c =? 32)%N || (c =? 9)%N || (c =? 10)%N || (c =? 13)%N then trailing_backslash (c =? 13)%N r
      else Some s
  end.
(** the characters after a backslash that stand for themselves *)
Definition lex_simple (d : dialect) (c : char) : bool :=
  existsb (N.eqb c) [110; 114; 116; 92; 39; 34]%N || ((c =? 48)%N && match d with DC => false | _ => true end).
(** [cooked_string], [cooked_byte_string], [cooked_c_string], after the opening quote *)
Fixpoint lex_cooked (fuel : nat) (d : dialect) (s : text) : option text :=
  match fuel with
  | O => None
  | S f =>
      match s with
      | [] => None
      | c :: r =>
          if (c =? 34)%N then Some (literal_suffix r)
          else if (c =? 13)%N then
            match r with n :: r' => if (n =? 10)%N then lex_cooked f d r' else None | [] => None end
          else if (c =? 92)%N then
            match r with
            | [] => None
            | b :: r' =>
                if (b =? 120)%N then
                  match lex_x d r' with Some r'' => lex_cooked f d r'' | None => None end
                else if lex_simple d b then lex_cooked f d r'
                else if (b =? 117)%N && match d with DByte => false | _ => true end then
                  match backslash_u r' with
                  | Some (v, r'') => if (v =? 0)%N && match d with DC => true | _ => false end then None else lex_cooked f d r''
                  | None => None
                  end
                else if (b =? 10)%N || (b =? 13)%N then
                  match trailing_backslash (b =? 13)%N r' with Some r'' => lex_cooked f d r'' | None => None end
                else None
            end
          else match d with
               | DStr => lex_cooked f d r
               | DByte => if (c <? 128)%N then lex_cooked f d r else None
               | DC => if (c =? 0)%N then None else lex_cooked f d r
               end
      end
  end.
(** [delimiter_of_raw_string]: the number of pounds and the text after the quote *)
Definition raw_delimiter (s : text) : option (nat * text) :=
  let '(n, t) := count_pounds s in
  match t with
  | c :: r => if (c =? 34)%N && Nat.leb n 255 then Some (n, r) else None
  | [] => None
  end.
(** the loop of [raw_string], [raw_byte_string], [raw_c_string] *)
Fixpoint raw_scan (d : dialect) (n : nat) (s : text) : option text :=
  match s with
  | [] => None
  | c :: r =>
      let other :=
        if (c =? 13)%N then
          match r with b :: r' => if (b =? 10)%N then raw_scan d n r' else None | [] => None end
        else match d with
             | DStr => raw_scan d n r
             | DByte => if (c <? 128)%N then raw_scan d n r else None
             | DC => if (c =? 0)%N then None else raw_scan d n r
             end in
      if (c =? 34)%N then
        match strip_pounds n r with Some rest => Some (literal_suffix rest) | None => other end
      else other
  end.
Definition lex_raw (d : dialect) (s : text) : option text :=
  match raw_delimiter s with Some (n, r) => raw_scan d n r | None => None end.
(** [string], [byte_string], [c_string]: the prefix is empty, [b], [c] *)
Definition lex_string (d : dialect) (s : text) : option text :=
  let p := match d with DStr => [] | DByte => [98%N] | DC => [99%N] end in
  match strip_prefix (p ++ [34%N]) s with
  | Some r => lex_cooked (List.length r) d r
  | None => match strip_prefix (p ++ [114%N]) s with Some r => lex_raw d r | None => None end
  end.
(** [byte] and [character], after the opening quote.  [byte] takes one byte: a non-ASCII character
    fails the test for a character boundary. *)
Definition lex_quoted (bytes : bool) (s : text) : option text :=
  let close r := match r with c :: r' => if (c =? 39)%N then Some (literal_suffix r') else None | [] => None end in
  match s with
  | [] => None
  | c :: r =>
      if (c =? 92)%N then
        match r with
        | [] => None
        | b :: r' =>
            if (b =? 120)%N then match lex_x (if bytes then DByte else DStr) r' with Some r'' => close r'' | None => None end
            else if (b =? 117)%N && negb bytes then match backslash_u r' with Some (_, r'') => close r'' | None => None end
            else if lex_simple DStr b then close r' else None
        end
      else if bytes && negb (c <? 128)%N then None else close r
  end.
Definition lex_byte (s : text) : option text :=
  match strip_prefix [98; 39]%N s with Some r => lex_quoted true r | None => None end.
Definition lex_character (s : text) : option text :=
  match strip_prefix [39%N] s with Some r => lex_quoted false r | None => None end.

(** [float_digits]: the mantissa after the first digit; returns [has_dot], where it ended, and the
    text after the [e] if it ended there *)
Fixpoint mantissa (s : text) (has_dot : bool) : option (bool * text * option text) :=
  match s with
  | c :: r =>
      if is_digit c || (c =? 95)%N then mantissa r has_dot
      else if (c =? 46)%N then
        if has_dot then Some (has_dot, s, None)
        else if match r with c2 :: _ => (c2 =? 46)%N || ident_start c2 | [] => false end then None
        else mantissa r true
      else if (c =? 101)%N || (c =? 69)%N then Some (has_dot, s, Some r)
      else Some (has_dot, s, None)
  | [] => Some (has_dot, [], None)
  end.
(** the exponent; [before]: [token_before_exp] *)
Fixpoint exponent (s : text) (has_sign has_value : bool) (before : option text) : option text :=
  let finish := if has_value then Some s else before in
  match s with
  | c :: r =>
      if (c =? 43)%N || (c =? 45)%N then
        if has_value then finish
        else if has_sign then before
        else exponent r true has_value before
      else if is_digit c then exponent r has_sign true before
      else if (c =? 95)%N then exponent r has_sign has_value before
      else finish
  | [] => finish
  end.
Definition float_digits (s : text) : option text :=
  match s with
  | c :: r =>
      if is_digit c then
        match mantissa r false with
        | Some (has_dot, before, Some after) => exponent after false false (if has_dot then Some before else None)
        | Some (true, rest, None) => Some rest
        | _ => None
        end
      else None
  | [] => None
  end.
(** [digits] *)
Fixpoint digit_run (base : N) (s : text) (empty : bool) : option text :=
  let finish := if empty then None else Some s in
  match s with
  | c :: r =>
      if is_digit c then if (digit_val c <? base)%N then digit_run base r false else None
      else if (97 <=? c)%N && (c <=? 102)%N then if (c - 87 <? base)%N then digit_run base r false else finish
      else if (65 <=? c)%N && (c <=? 70)%N then if (c - 55 <? base)%N then digit_run base r false else finish
      else if (c =? 95)%N then if empty && (base =? 10)%N then None else digit_run base r empty
      else finish
  | [] => finish
  end.
Definition digits (s : text) : option text :=
  match strip_prefix [48; 120]%N s with
  | Some r => digit_run 16 r true
  | None => match strip_prefix [48; 111]%N s with
            | Some r => digit_run 8 r true
            | None => match strip_prefix [48; 98]%N s with
                      | Some r => digit_run 2 r true
                      | None => digit_run 10 s true
                      end
            end
  end.
(** the common end of [float] and [int] *)
Definition number_end (s : text) : option text :=
  match s with
  | c :: _ => if ident_start c then match ident_not_raw s with Some (_, r) => word_break r | None => None end else word_break s
  | [] => word_break s
  end.
Definition lex_float (s : text) : option text := match float_digits s with Some r => number_end r | None => None end.
Definition lex_int (s : text) : option text := match digits s with Some r => number_end r | None => None end.

(** [literal_nocapture] *)
Definition orelse {A} (a b : option A) : option A := match a with Some _ => a | None => b end.
Definition literal_nocapture (s : text) : option text :=
  orelse (lex_string DStr s) (orelse (lex_string DByte s) (orelse (lex_string DC s)
    (orelse (lex_byte s) (orelse (lex_character s) (orelse (lex_float s) (lex_int s)))))).
(** [literal]: the spelling and the rest *)
Definition literal (s : text) : option (text * text) :=
  match literal_nocapture s with
  | Some r => Some (firstn (List.length s - List.length r) s, r)
  | None => None
  end.

(** [punct_char]: the punctuation characters of Rust *)
Definition punct_chars : list char := Eval compute in T "~!@#$%^&*-=+|;:,<.>/?'".
Definition punct_char (s : text) : option (char * text) :=
  if starts_with [47; 47]%N s || starts_with [47; 42]%N s then None
  else match s with
       | c :: r => if existsb (N.eqb c) punct_chars then Some (c, r) else None
       | [] => None
       end.
(** [punct] *)
Definition lex_punct (s : text) : option (char * spacing * text) :=
  match punct_char s with
  | None => None
  | Some (c, r) =>
      if (c =? 39)%N then
        match ident_any r with
        | Some (_, r') => if starts_with [39%N] r' then None else Some (c, Joint, r)
        | None => None
        end
      else Some (c, match punct_char r with Some _ => Joint | None => Alone end, r)
  end.

(** [leaf_token]; the span is set by the caller *)
Definition leaf_token (s : text) : option ((span -> tt) * text) :=
  match literal s with
  | Some (r, rest) => Some (TLit r, rest)
  | None =>
      match lex_punct s with
      | Some (c, g, rest) => Some (TPunct c g, rest)
      | None =>
          match ident s with
          | Some (n, rest) => Some (TIdent n, rest)
          | None =>
              match strip_prefix error_repr s with
              | Some rest => Some (TLit error_repr, rest)
              | None => None
              end
          end
      end
  end.

(** [doc_comment_contents]: the text, whether it is an inner doc comment, and the rest *)
Definition drop_last2 (s : text) : text := firstn (List.length s - 2) s.
Definition doc_comment_contents (s : text) : option (text * bool * text) :=
  let block inner :=
    match block_comment s with
    | Some rest => Some (drop_last2 (skipn 3 (firstn (List.length s - List.length rest) s)), inner, rest)
    | None => None
    end in
  if starts_with [47; 47; 33]%N s then let '(rest, t) := take_line (skipn 3 s) in Some (t, true, rest)
  else if starts_with [47; 42; 33]%N s then block true
  else if starts_with [47; 47; 47]%N s then
    if starts_with [47%N] (skipn 3 s) then None else let '(rest, t) := take_line (skipn 3 s) in Some (t, false, rest)
  else if starts_with [47; 42; 42]%N s && negb (starts_with [42%N] (skipn 3 s)) then block false
  else None.
(** no carriage return without a newline *)
Fixpoint no_bare_cr (s : text) : bool :=
  match s with
  | c :: r => (negb (c =? 13)%N || starts_with [10%N] r) && no_bare_cr r
  | [] => true
  end.
(** [doc_comment]: the attribute tokens, given the span *)
Definition doc_ident : text := Eval compute in T "doc".
Definition doc_comment (s : text) : option ((span -> list tt) * text) :=
  match doc_comment_contents s with
  | Some (t, inner, rest) =>
      if no_bare_cr t then
        Some (fun sp =>
          [TPunct 35 Alone sp] ++ (if inner then [TPunct 33 Alone sp] else []) ++
          [TGroup DBracket sp [TIdent doc_ident sp; TPunct 61 Alone sp; TLit (show_str t) sp]], rest)
      else None
  | None => None
  end.

(** ** Positions: proc_macro2's source map (fallback.rs: [lines_offsets], [FileInfo::offset_line_column]) *)
Fixpoint line_starts (s : text) (total : nat) : list nat :=
  match s with
  | [] => []
  | c :: r => if (c =? 10)%N then S total :: line_starts r (S total) else line_starts r (S total)
  end.
(** the binary search finds the last line start not after the offset *)
Definition line_column (src : text) (off : nat) : lc :=
  let before := filter (fun o => Nat.leb o off) (0 :: line_starts src 0) in
  LC (List.length before) (off - last before 0).

(** ** [token_stream].  The state: remaining text, tokens of the innermost open group, and the
    enclosing frames with the offset of their opening delimiter. *)
Record lstate := LS { l_rest : text; l_trees : list tt; l_stack : list (nat * delim * list tt) }.
Inductive lresult := LOk (ts : list tt) | LErr (sp : span).
Definition open_delim (s : text) : option delim :=
  match s with
  | c :: _ =>
      if (c =? 40)%N && negb (starts_with error_repr s) then Some DParen
      else if (c =? 91)%N then Some DBracket
      else if (c =? 123)%N then Some DBrace
      else None
  | [] => None
  end.
Definition close_delim (c : char) : option delim :=
  if (c =? 41)%N then Some DParen else if (c =? 93)%N then Some DBracket else if (c =? 125)%N then Some DBrace else None.

Section Stream.
(** number of the source file (its span range in proc_macro2) and its text *)
Context (file : nat) (src : text).
Definition offset (rest : text) : nat := List.length src - List.length rest.
Definition mk_span (lo hi : nat) : span := Span file (line_column src lo) (line_column src hi).

(** one round of the loop *)
Definition lex_step (st : lstate) : lstate + lresult :=
  let s := skip_whitespace (l_rest st) in
  let lo := offset s in
  match doc_comment s with
  | Some (f, rest) => inl (LS rest (l_trees st ++ f (mk_span lo (offset rest))) (l_stack st))
  | None =>
      match s with
      | [] => inr match l_stack st with
                  | [] => LOk (l_trees st)
                  | (lo, _, _) :: _ => LErr (mk_span lo lo)
                  end
      | c :: r =>
          match open_delim s with
          | Some d => inl (LS r [] ((lo, d, l_trees st) :: l_stack st))
          | None =>
              match close_delim c with
              | Some d =>
                  match l_stack st with
                  | (lo', d', outer) :: stk =>
                      if delim_eqb d' d
                      then inl (LS r (outer ++ [TGroup d (mk_span lo' (offset r)) (l_trees st)]) stk)
                      else inr (LErr (mk_span lo lo))
                  | [] => inr (LErr (mk_span lo lo))
                  end
              | None =>
                  match leaf_token s with
                  | Some (f, rest) => inl (LS rest (l_trees st ++ [f (mk_span lo (offset rest))]) (l_stack st))
                  | None => inr (LErr (mk_span lo lo))
                  end
              end
          end
      end
  end.
(** every round removes a character (theorem below), so the length is enough fuel *)
Fixpoint lex_loop (fuel : nat) (st : lstate) : lresult :=
  match lex_step st with
  | inr r => r
  | inl st' => match fuel with O => LErr (mk_span 0 0) | S f => lex_loop f st' end
  end.
(** [TokenStream::from_str]: a byte order mark is skipped *)
Definition lex : lresult :=
  let s := match src with c :: r => if (c =? 65279)%N then r else src | [] => src end in
  lex_loop (List.length s) (LS s [] []).
End Stream.

(** [syn::parse_str] (syn 2.0.66, src/parse.rs and src/error.rs): lex, then [parse2]. *)
Definition lex_error_msg : text := Eval compute in T "cannot parse string into token stream".
Definition parse_str {A} (p : parser A) (file : nat) (src : text) : result A :=
  match lex file src with
  | LOk ts => parse2 p ts
  | LErr sp => RErr (Err sp lex_error_msg)
  end.
End Lexer.
