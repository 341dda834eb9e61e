(** * Conv: conversions between parsel's and syn's literal nodes, and equality, ordering and
    hashing of literal nodes. *)
From Verif Require Import Base Float Literal Syn Ast.
Open Scope N_scope.

(** A node of [syn::Lit]: the spelling of its token ([LitInt]/[LitFloat] keep the base 10 digits). *)
Inductive syn_node :=
| SyBool (b : bool) (sp : span)
| SyByte (repr : text) (sp : span)
| SyInt (digits : text) (sp : span)
| SyFloat (digits : text) (sp : span)
| SyChar (repr : text) (sp : span)
| SyStr (repr : text) (sp : span)
| SyByteStr (repr : text) (sp : span).
Definition syn_span (n : syn_node) : span :=
  match n with
  | SyBool _ sp | SyByte _ sp | SyInt _ sp | SyFloat _ sp | SyChar _ sp | SyStr _ sp
  | SyByteStr _ sp => sp
  end.

Section Conv.
Context {U : unicode}.
(** the token [syn::LitByte::new] makes from a byte; syn's choice *)
Variable byte_token : N -> text.

(** ast.rs:2590-2770 [From<LitX> for syn::LitX], ast.rs:3150-3163 [From<Lit> for syn::Lit].
    [None]: a panic. *)
Definition to_syn (l : lit) (sp : span) : option syn_node :=
  match l with
  | LBool b => Some (SyBool b sp)                                    (* ast.rs:2596-2600 *)
  | LByte b => Some (SyByte (byte_token b) sp)                       (* ast.rs:2608-2612 *)
  | LInt z | LUint z =>                                              (* ast.rs:2624-2628, 2640-2644 *)
      match parse_lit_int (show_int z) with
      | Some (ds, _) => Some (SyInt ds sp)
      | None => None
      end
  | LFloat f =>                                                      (* ast.rs:2656-2660 *)
      match float_show f with
      | Some r => match parse_lit_float r with
                  | Some (ds, _) => Some (SyFloat ds sp)
                  | None => None
                  end
      | None => None
      end
  | LChar c => Some (SyChar (show_char c) sp)                        (* ast.rs:2685-2689 *)
  | LStr s => Some (SyStr (show_str s) sp)                           (* ast.rs:2697-2701 *)
  | LByteStr s => Some (SyByteStr (show_byte_str s) sp)              (* ast.rs:2767-2771 *)
  end.

(** [value()] / [base10_digits()] of a syn node *)
Definition syn_value (n : syn_node) : option (slit * span) :=
  match n with
  | SyBool b sp => Some (SLBool b, sp)
  | SyByte r sp => match lit_new r with Some (KByte b) => Some (SLTok (KByte b), sp) | _ => None end
  | SyInt ds sp => Some (SLTok (KInt ds), sp)
  | SyFloat ds sp => Some (SLTok (KFloat ds), sp)
  | SyChar r sp => match lit_new r with Some (KChar c) => Some (SLTok (KChar c), sp) | _ => None end
  | SyStr r sp => match lit_new r with Some (KStr s) => Some (SLTok (KStr s), sp) | _ => None end
  | SyByteStr r sp =>
      match lit_new r with Some (KByteStr s) => Some (SLTok (KByteStr s), sp) | _ => None end
  end.

(** ast.rs:3166-3190 [TryFrom<syn::Lit> for Lit] *)
Definition lit_from_syn (n : syn_node) : outcome (lit * span) :=
  match syn_value n with Some x => lit_try_from x | None => OPanic end.

(** ast.rs:2590-2771 [From/TryFrom<syn::LitX> for LitX]; [signed] selects [LitInt] over
    [LitUint], the two targets of [syn::LitInt] *)
Definition typed_from_syn (int_signed : bool) (n : syn_node) : outcome (lit * span) :=
  match n, syn_value n with
  | SyInt ds sp, _ => if int_signed then int_try_from ds sp else uint_try_from ds sp
  | _, Some x => lit_try_from x
  | _, None => OPanic
  end.
End Conv.

(** ** Equality, order, hash: ast.rs:2402-2443 (on the value only), ast.rs:2971 (derived for [Lit]). *)

(** numeric value of a finite double in units of 2^emin *)
Definition f64_num (neg : bool) (m : N) (e : Z) : Z :=
  ((if neg then -1 else 1) * (Z.of_N m * 2 ^ (e - emin)))%Z.
(** [NotNan<f64>: Ord] is the numeric order *)
Definition f64_cmp (x y : f64) : comparison :=
  match x, y with
  | FFin n1 m1 e1, FFin n2 m2 e2 => Z.compare (f64_num n1 m1 e1) (f64_num n2 m2 e2)
  | FInf false, FInf false | FInf true, FInf true => Eq
  | FInf false, _ => Gt
  | FInf true, _ => Lt
  | _, FInf false => Lt
  | _, FInf true => Gt
  end.
Fixpoint list_cmp (a b : list N) : comparison :=
  match a, b with
  | [], [] => Eq
  | [], _ => Lt
  | _, [] => Gt
  | x :: a', y :: b' => match N.compare x y with Eq => list_cmp a' b' | c => c end
  end.
Definition bool_cmp (a b : bool) : comparison :=
  match a, b with false, true => Lt | true, false => Gt | _, _ => Eq end.
(** [Ord for LitX] (ast.rs:2430-2434): only nodes of one type are comparable. Simplification:
    strings are compared by code points; Rust compares UTF-8 bytes, the same order. *)
Definition node_cmp (a b : lit * span) : option comparison :=
  match fst a, fst b with
  | LBool x, LBool y => Some (bool_cmp x y)
  | LByte x, LByte y => Some (N.compare x y)
  | LInt x, LInt y => Some (Z.compare x y)
  | LUint x, LUint y => Some (Z.compare x y)
  | LFloat x, LFloat y => Some (f64_cmp x y)
  | LChar x, LChar y => Some (N.compare x y)
  | LStr x, LStr y => Some (list_cmp x y)
  | LByteStr x, LByteStr y => Some (list_cmp x y)
  | _, _ => None
  end.
(** [PartialEq for LitX] (ast.rs:2402-2406) and for [Lit] (ast.rs:2971) *)
Definition node_eqb (a b : lit * span) : bool :=
  match fst a, fst b with
  | LBool x, LBool y => Bool.eqb x y
  | LByte x, LByte y => x =? y
  | LInt x, LInt y => (x =? y)%Z
  | LUint x, LUint y => (x =? y)%Z
  | LFloat x, LFloat y => match f64_cmp x y with Eq => true | _ => false end
  | LChar x, LChar y => x =? y
  | LStr x, LStr y => text_eqb x y
  | LByteStr x, LByteStr y => text_eqb x y
  | _, _ => false
  end.
(** [Hash for LitX] (ast.rs:2436-2440), what is fed to the hasher.  [NotNan] hashes both zeros
    alike; the double is hashed as (sign, mantissa, exponent) here, for its bits. *)
Definition node_hash (a : lit * span) : list Z :=
  match fst a with
  | LBool b => [0; if b then 1 else 0]%Z
  | LByte b => [1; Z.of_N b]%Z
  | LInt z => [2; z]%Z
  | LUint z => [3; z]%Z
  | LFloat (FFin n m e) => if m =? 0 then [4; 0; 0]%Z else [4; if n then 1 else 0; Z.of_N m; e]%Z
  | LFloat (FInf n) => [4; if n then 1 else 0]%Z
  | LChar c => [5; Z.of_N c]%Z
  | LStr s => 6%Z :: map Z.of_N s
  | LByteStr s => 7%Z :: map Z.of_N s
  end.
