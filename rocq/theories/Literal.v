(** * Literal: spellings of literals.

    Decoding models [syn::Lit::new] and [syn]'s [value] module (called from
    parsel/src/ast.rs:2857-2903 and 3166-3190 through [syn::LitStr::value()] etc.);
    encoding models [proc_macro2::Literal]'s constructors (called from ast.rs:2474-2581) and
    [LitByte::token] (ast.rs:2515-2531), which is parsel's own. *)
From Verif Require Import Base Float.

(** Unicode tables used by the dependencies.  They are a parameter of the model: every
    theorem holds for all tables (outside ASCII, where they are fixed below). *)
Class unicode := {
  u_printable : char -> bool;      (* core: printable and not grapheme-extending *)
  u_xid_start : char -> bool;
  u_xid_continue : char -> bool;
  u_white : char -> bool           (* char::is_whitespace *)
}.

Section Literal.
Context {U : unicode}.

Definition is_lower (c : char) : bool := (97 <=? c)%N && (c <=? 122)%N.
Definition is_upper (c : char) : bool := (65 <=? c)%N && (c <=? 90)%N.
Definition is_alpha (c : char) : bool := is_lower c || is_upper c.

Definition xid_start (c : char) : bool :=
  if (c <? 128)%N then is_alpha c else u_xid_start c.
Definition xid_continue (c : char) : bool :=
  if (c <? 128)%N then is_alpha c || is_digit c || (c =? 95)%N else u_xid_continue c.

(** syn::ident::xid_ok: a non-empty identifier *)
Definition xid_ok (s : text) : bool :=
  match s with
  | [] => false
  | c :: r => ((c =? 95)%N || xid_start c) && forallb xid_continue r
  end.

(** a Unicode scalar value *)
Definition valid_char (c : char) : bool :=
  (c <? 55296)%N || ((57343 <? c)%N && (c <? 1114112)%N).

(** ** Hexadecimal. *)
Definition hex_val (c : char) : option N :=
  if is_digit c then Some (digit_val c)
  else if (97 <=? c)%N && (c <=? 102)%N then Some (c - 87)%N
  else if (65 <=? c)%N && (c <=? 70)%N then Some (c - 55)%N
  else None.
Definition hex_lower (d : N) : char := if (d <? 10)%N then (48 + d)%N else (87 + d)%N.
Definition hex_upper (d : N) : char := if (d <? 10)%N then (48 + d)%N else (55 + d)%N.

Fixpoint show_hex (fuel : nat) (n : N) (acc : text) : text :=
  match fuel with
  | O => acc
  | S f => if (n <? 16)%N then hex_lower n :: acc
           else show_hex f (n / 16) (hex_lower (n mod 16) :: acc)
  end.

(** ** Integers: syn::value::parse_lit_int. Returns the decimal digits (with sign) and suffix. *)

(** scan of what follows an 'e' in a base 10 literal: [true] = it is a float, reject *)
Fixpoint exp_scan (s : text) (has_exp : bool) : bool :=
  match s with
  | [] => has_exp
  | c :: r =>
      if (c =? 95)%N then exp_scan r has_exp
      else if (c =? 45)%N || (c =? 43)%N then true
      else if is_digit c then exp_scan r true
      else has_exp && xid_ok s
  end.

Fixpoint int_loop (base : N) (s : text) (value : N) (has : bool) : option (N * bool * text) :=
  match s with
  | [] => Some (value, has, [])
  | c :: r =>
      let take d := if (d <? base)%N then int_loop base r (value * base + d)%N true else None in
      if is_digit c then take (digit_val c)
      else if (10 <? base)%N && (97 <=? c)%N && (c <=? 102)%N then take (c - 87)%N
      else if (10 <? base)%N && (65 <=? c)%N && (c <=? 70)%N then take (c - 55)%N
      else if (c =? 95)%N then int_loop base r value has
      else if (base =? 10)%N && (c =? 46)%N then None
      else if (base =? 10)%N && ((c =? 101)%N || (c =? 69)%N) then
             if exp_scan r false then None else Some (value, has, s)
      else Some (value, has, s)
  end.

Definition parse_lit_int (s : text) : option (text * text) :=
  let '(neg, s) := match s with c :: r => if (c =? 45)%N then (true, r) else (false, s)
                              | [] => (false, s) end in
  let run base s :=
    match int_loop base s 0 false with
    | Some (v, true, suffix) =>
        if (match suffix with [] => true | _ => xid_ok suffix end)
        then Some ((if neg then [45%N] else []) ++ dec v, suffix)
        else None
    | _ => None
    end in
  match s with
  | c :: x :: r =>
      if (c =? 48)%N && (x =? 120)%N then run 16%N r
      else if (c =? 48)%N && (x =? 111)%N then run 8%N r
      else if (c =? 48)%N && (x =? 98)%N then run 2%N r
      else if is_digit c then run 10%N s else None
  | [c] => if is_digit c then run 10%N s else None
  | [] => None
  end.

(** ** Floats: syn::value::parse_lit_float. *)
Fixpoint first_non_underscore (s : text) : char :=
  match s with
  | [] => 0%N
  | c :: r => if (c =? 95)%N then first_non_underscore r else c
  end.

(** returns (digits, rest) ; [out] is reversed *)
Fixpoint float_scan (s : text) (out : text) (has_dot has_e has_sign has_exp : bool)
  : option (text * text * bool * bool) :=
  match s with
  | [] => Some (rev out, [], has_e, has_exp)
  | c :: r =>
      if (c =? 95)%N then float_scan r out has_dot has_e has_sign has_exp
      else if is_digit c then
        float_scan r (c :: out) has_dot has_e has_sign (has_e || has_exp)
      else if (c =? 46)%N then
        if has_e || has_dot then None
        else float_scan r (c :: out) true has_e has_sign has_exp
      else if (c =? 101)%N || (c =? 69)%N then
        let nx := first_non_underscore r in
        if (nx =? 45)%N || (nx =? 43)%N || is_digit nx then
          if has_e then
            if has_exp then Some (rev out, s, has_e, has_exp) else None
          else float_scan r (101%N :: out) has_dot true has_sign has_exp
        else Some (rev out, s, has_e, has_exp)
      else if (c =? 45)%N || (c =? 43)%N then
        if has_sign || has_exp || negb has_e then None
        else float_scan r (if (c =? 45)%N then c :: out else out) has_dot has_e true has_exp
      else Some (rev out, s, has_e, has_exp)
  end.

Definition parse_lit_float (s : text) : option (text * text) :=
  let '(sign, body) := match s with c :: r => if (c =? 45)%N then ([45%N], r) else ([], s)
                                  | [] => ([], s) end in
  match body with
  | c :: _ =>
      if is_digit c then
        match float_scan body [] false false false false with
        | Some (ds, suffix, has_e, has_exp) =>
            if has_e && negb has_exp then None
            else if (match suffix with [] => true | _ => xid_ok suffix end)
                 then Some (sign ++ ds, suffix) else None
        | None => None
        end
      else None
  | [] => None
  end.

(** ** Escapes. [None] stands for the panics of syn's value module. *)
Definition backslash_x (s : text) : option (N * text) :=
  match s with
  | a :: b :: r =>
      match hex_val a, hex_val b with
      | Some x, Some y => Some ((x * 16 + y)%N, r)
      | _, _ => None
      end
  | _ => None
  end.

Fixpoint backslash_u_loop (s : text) (v : N) (digits : nat) : option (char * text) :=
  match s with
  | [] => None
  | c :: r =>
      match hex_val c with
      | Some d => if Nat.eqb digits 6 then None else backslash_u_loop r (v * 16 + d)%N (S digits)
      | None =>
          if (c =? 95)%N && Nat.ltb 0 digits then backslash_u_loop r v digits
          else if (c =? 125)%N && Nat.ltb 0 digits then
                 if valid_char v then Some (v, r) else None
          else None
      end
  end.
Definition backslash_u (s : text) : option (char * text) :=
  match s with
  | c :: r => if (c =? 123)%N then backslash_u_loop r 0 0 else None
  | [] => None
  end.

(** one-character escapes shared by strings, chars, bytes *)
Definition simple_escape (c : char) : option char :=
  if (c =? 110)%N then Some 10%N                 (* \n *)
  else if (c =? 114)%N then Some 13%N            (* \r *)
  else if (c =? 116)%N then Some 9%N             (* \t *)
  else if (c =? 92)%N then Some 92%N
  else if (c =? 48)%N then Some 0%N
  else if (c =? 39)%N then Some 39%N
  else if (c =? 34)%N then Some 34%N
  else None.

(** skip the whitespace after a line continuation *)
Fixpoint skip_cont (s : text) : text :=
  match s with
  | c :: r => if (c =? 32)%N || (c =? 9)%N || (c =? 10)%N || (c =? 13)%N then skip_cont r else s
  | [] => []
  end.

(** body of a cooked string after the opening quote: content and suffix.
    [bytes] selects the byte-string dialect. Fuel: the remaining length. *)
Fixpoint cooked (fuel : nat) (bytes : bool) (s : text) (out : text) : option (text * text) :=
  match fuel with
  | O => None
  | S f =>
      match s with
      | [] => None
      | c :: r =>
          if (c =? 34)%N then Some (rev out, r)
          else if (c =? 92)%N then
            match r with
            | [] => None
            | b :: r' =>
                if (b =? 120)%N then
                  match backslash_x r' with
                  | Some (v, r'') =>
                      if bytes || (v <=? 127)%N then cooked f bytes r'' (v :: out) else None
                  | None => None
                  end
                else if (b =? 117)%N && negb bytes then
                  match backslash_u r' with
                  | Some (v, r'') => cooked f bytes r'' (v :: out)
                  | None => None
                  end
                else match simple_escape b with
                     | Some v => cooked f bytes r' (v :: out)
                     | None => if (b =? 10)%N || (b =? 13)%N then cooked f bytes (skip_cont r') out
                               else None
                     end
            end
          else if (c =? 13)%N then
            match r with
            | n :: r' => if (n =? 10)%N then cooked f bytes r' (10%N :: out) else None
            | [] => None
            end
          else if bytes && negb (c <? 128)%N then None
          else cooked f bytes r (c :: out)
      end
  end.

(** raw strings: r##"..."## *)
Fixpoint count_pounds (s : text) : nat * text :=
  match s with
  | c :: r => if (c =? 35)%N then let '(n, t) := count_pounds r in (S n, t) else (0, s)
  | [] => (0, [])
  end.
(** split at the last quote character *)
Fixpoint rsplit_quote (s : text) : option (text * text) :=
  match s with
  | [] => None
  | c :: r =>
      match rsplit_quote r with
      | Some (a, b) => Some (c :: a, b)
      | None => if (c =? 34)%N then Some ([], r) else None
      end
  end.
Fixpoint strip_pounds (n : nat) (s : text) : option text :=
  match n with
  | O => Some s
  | S n' => match s with c :: r => if (c =? 35)%N then strip_pounds n' r else None | [] => None end
  end.
(** after the leading [r] *)
Definition raw_str (s : text) : option (text * text) :=
  let '(n, s) := count_pounds s in
  match s with
  | c :: r =>
      if (c =? 34)%N then
        match rsplit_quote r with
        | Some (content, tail) =>
            match strip_pounds n tail with Some suffix => Some (content, suffix) | None => None end
        | None => None
        end
      else None
  | [] => None
  end.

(** one (possibly escaped) character followed by a closing apostrophe *)
Definition quoted_char (bytes : bool) (s : text) : option (char * text) :=
  let close v r := match r with c :: suffix => if (c =? 39)%N then Some (v, suffix) else None
                              | [] => None end in
  match s with
  | [] => None
  | c :: r =>
      if (c =? 92)%N then
        match r with
        | [] => None
        | b :: r' =>
            if (b =? 120)%N then
              match backslash_x r' with
              | Some (v, r'') => if bytes || (v <=? 128)%N then close v r'' else None
              | None => None
              end
            else if (b =? 117)%N && negb bytes then
              match backslash_u r' with Some (v, r'') => close v r'' | None => None end
            else match simple_escape b with Some v => close v r' | None => None end
        end
      else close c r
  end.

(** ** syn::Lit::new *)
Inductive lkind :=
| KStr (v : text)
| KByteStr (v : list N)
| KCStr                        (* Lit::Verbatim: C strings, and the placeholder of rustc for macro errors *)
| KByte (b : N)
| KChar (c : char)
| KInt (digits : text)         (* base 10 digits, with a leading '-' if negative *)
| KFloat (digits : text).

Definition lit_str (s : text) : option text :=
  match s with
  | c :: r =>
      if (c =? 34)%N then option_map fst (cooked (List.length s) false r [])
      else if (c =? 114)%N then option_map fst (raw_str r)
      else None
  | [] => None
  end.
Definition lit_byte_str (s : text) : option (list N) :=      (* after the leading [b] *)
  match s with
  | c :: r =>
      if (c =? 34)%N then option_map fst (cooked (List.length s) true r [])
      else if (c =? 114)%N then option_map fst (raw_str r)
      else None
  | [] => None
  end.

Definition lit_num (s : text) : option lkind :=
  match parse_lit_int s with
  | Some (ds, _) => Some (KInt ds)
  | None => match parse_lit_float s with
            | Some (ds, _) => Some (KFloat ds)
            | None => None
            end
  end.

(** the placeholder rustc prints for a macro expansion error; a literal token for the lexer *)
Definition error_repr : text := [40; 47; 42; 69; 82; 82; 79; 82; 42; 47; 41]%N.

(** [None] is the panic "Unrecognized literal" (or a malformed escape): no token produced by
    the lexer or by [proc_macro2::Literal]'s constructors is spelled like that. *)
Definition lit_new (repr : text) : option lkind :=
  match repr with
  | [] => None
  | c :: r =>
      if (c =? 34)%N || (c =? 114)%N then option_map KStr (lit_str repr)
      else if (c =? 98)%N then
        match r with
        | x :: r' =>
            if (x =? 34)%N || (x =? 114)%N then option_map KByteStr (lit_byte_str r)
            else if (x =? 39)%N then option_map (fun p => KByte (fst p)) (quoted_char true r')
            else None
        | [] => None
        end
      else if (c =? 99)%N then Some KCStr
      else if (c =? 40)%N then if text_eqb repr error_repr then Some KCStr else None
      else if (c =? 39)%N then option_map (fun p => KChar (fst p)) (quoted_char false r)
      else if is_digit c || (c =? 45)%N then lit_num repr
      else None
  end.

(** ** Encoding. *)

(** integers: [Literal::i64_unsuffixed], [u64_unsuffixed] = [to_string] *)
Definition show_int (z : Z) : text :=
  (if (z <? 0)%Z then [45%N] else []) ++ dec (Z.abs_N z).

(** [char::escape_unicode]: \u{...} *)
Definition escape_unicode (c : char) : text :=
  [92; 117; 123]%N ++ show_hex 8 c [] ++ [125%N].

(** [char::escape_debug] *)
Definition escape_debug (c : char) : text :=
  if (c =? 0)%N then [92; 48]%N
  else if (c =? 9)%N then [92; 116]%N
  else if (c =? 13)%N then [92; 114]%N
  else if (c =? 10)%N then [92; 110]%N
  else if (c =? 39)%N || (c =? 34)%N || (c =? 92)%N then [92%N; c]
  else if (if (c <? 128)%N then (32 <=? c)%N && (c <? 127)%N else u_printable c) then [c]
  else escape_unicode c.

Definition is_octal (c : char) : bool := (48 <=? c)%N && (c <=? 55)%N.
Definition octal_next (s : text) : bool := match s with c :: _ => is_octal c | [] => false end.

(** proc_macro2 fallback [escape_utf8] *)
Fixpoint escape_utf8 (s : text) : text :=
  match s with
  | [] => []
  | c :: r =>
      (if (c =? 0)%N then
         if octal_next r then [92; 120; 48; 48]%N else [92; 48]%N
       else if (c =? 39)%N then [c]
       else escape_debug c) ++ escape_utf8 r
  end.
Definition show_str (s : text) : text := [34%N] ++ escape_utf8 s ++ [34%N].

(** [Literal::character] *)
Definition show_char (c : char) : text :=
  [39%N] ++ (if (c =? 34)%N then [c] else escape_debug c) ++ [39%N].

(** [Literal::byte_string] *)
Fixpoint escape_bytes (s : list N) : text :=
  match s with
  | [] => []
  | b :: r =>
      (if (b =? 0)%N then if octal_next r then [92; 120; 48; 48]%N else [92; 48]%N
       else if (b =? 9)%N then [92; 116]%N
       else if (b =? 10)%N then [92; 110]%N
       else if (b =? 13)%N then [92; 114]%N
       else if (b =? 34)%N then [92; 34]%N
       else if (b =? 92)%N then [92; 92]%N
       else if (32 <=? b)%N && (b <=? 126)%N then [b]
       else [92; 120]%N ++ [hex_upper (b / 16); hex_upper (b mod 16)]) ++ escape_bytes r
  end.
Definition show_byte_str (s : list N) : text := [98; 34]%N ++ escape_bytes s ++ [34%N].

(** [core::ascii::escape_default] *)
Definition ascii_escape_default (b : N) : text :=
  if (b =? 9)%N then [92; 116]%N
  else if (b =? 13)%N then [92; 114]%N
  else if (b =? 10)%N then [92; 110]%N
  else if (b =? 39)%N || (b =? 34)%N || (b =? 92)%N then [92%N; b]
  else if (32 <=? b)%N && (b <=? 126)%N then [b]
  else [92; 120]%N ++ [hex_lower (b / 16); hex_lower (b mod 16)].

(** parsel/src/ast.rs:2515-2531 [LitByte::token]: [write!] into a [Cursor] over a fixed
    8-byte buffer; writing past the end is an error, which [expect] turns into a panic
    ([None]).  All characters written are ASCII, one byte each. *)
Definition lit_byte_buf : nat := 8.
Definition cursor_write (buf_len : nat) (s : text) : option text :=
  if Nat.leb (List.length s) buf_len then Some s else None.
Definition lit_byte_repr (b : N) : option text :=
  cursor_write lit_byte_buf ([98; 39]%N ++ ascii_escape_default b ++ [39%N]).

(** Appending a literal to a [TokenStream] splits a leading minus sign off as a separate
    [Punct] (proc_macro2 [push_token_from_proc_macro]). *)
Definition push_lit (repr : text) (sp : span) : list tt :=
  match repr with
  | c :: r => if (c =? 45)%N then [TPunct 45%N Alone sp; TLit r sp] else [TLit repr sp]
  | [] => [TLit repr sp]
  end.

(** [i64::from_str] / [u64::from_str] on base 10 digits with optional sign *)
Definition all_digits (s : text) : bool :=
  match s with [] => false | _ => forallb is_digit s end.
Definition i64_min : Z := -9223372036854775808.
Definition i64_max : Z := 9223372036854775807.
Definition u64_max : Z := 18446744073709551615.
Definition read_i64 (s : text) : option Z :=
  let '(neg, ds) := match s with c :: r => if (c =? 45)%N then (true, r) else (false, s)
                               | [] => (false, s) end in
  if all_digits ds then
    let n := Z.of_N (read_digits 0 ds) in
    let z := if neg then (- n)%Z else n in
    if (i64_min <=? z)%Z && (z <=? i64_max)%Z then Some z else None
  else None.
Definition read_u64 (s : text) : option Z :=
  if all_digits s then
    let z := Z.of_N (read_digits 0 s) in
    if (z <=? u64_max)%Z then Some z else None
  else None.

End Literal.
