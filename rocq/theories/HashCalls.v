(** * HashCalls: what the [Hash] implementations feed to a [Hasher], call by call (C64).

    [NodeEq.vhash] abstracts from encodings; here hashing follows the types, as in Rust, and every call of a method of
    [core::hash::Hasher] is recorded with its argument. *)
From Verif Require Import Base Float Literal Syn Ast Derive Grammar Conv PropSpan.
Local Open Scope nat_scope.

(** The methods of [core::hash::Hasher] that are called. *)
Inductive call :=
| CWrite (l : list N)          (* write(&[u8]) *)
| CU8 (n : N) | CU32 (n : N) | CU64 (n : N) | CI64 (z : Z)
| CUsize (n : nat)             (* write_length_prefix, by default write_usize *)
| CIsize (n : nat).            (* discriminants *)

(** [Hash for str] of core: [write_str], by default the bytes and 0xff *)
Definition h_str (s : text) : list call := [CWrite (flat_map utf8 s); CU8 255%N].
(** [Hash for [u8]] of core: the length, then all bytes in one call ([hash_slice]) *)
Definition h_bytes (s : list N) : list call := [CUsize (List.length s); CWrite s].
(** [num_traits::float::FloatCore::integer_decode] on [f64]: mantissa, exponent, is it positive *)
Definition integer_decode (x : f64) : N * Z * bool :=
  match x with
  | FFin n m e => if (m <? two52)%N then ((2 * m)%N, (-1075)%Z, negb n) else (m, e, negb n)
  | FInf n => (two52, 972%Z, negb n)
  end.
(** [ordered_float::raw_double_bits]: the mantissa without bit 52, eleven bits of the exponent, the sign *)
Definition raw_double_bits (x : f64) : N :=
  let '(man, exp, pos) := integer_decode x in
  (man mod two52 + Z.to_N (exp mod 2048) * two52 + (if pos then 9223372036854775808 else 0))%N.
(** [ordered_float::canonicalize_signed_zero]: [x + 0.0] *)
Definition canonicalize_signed_zero (x : f64) : f64 := match x with FFin _ 0%N e => FFin false 0%N e | _ => x end.
(** [Hash for NotNan<f64>] of ordered_float *)
Definition h_f64 (x : f64) : list call := [CU64 (raw_double_bits (canonicalize_signed_zero x))].
(** [Hash for LitX]: the value's (ast.rs:2436-2440, types at 2463-2472) *)
Definition h_lit (l : lit) : list call :=
  match l with
  | LBool b => [CU8 (if b then 1 else 0)%N]
  | LByte b => [CU8 b]
  | LInt z => [CI64 z]
  | LUint z => [CU64 (Z.to_N z)]
  | LFloat x => h_f64 x
  | LChar c => [CU32 c]
  | LStr s => h_str s
  | LByteStr s => h_bytes s
  end.
(** the variants of [Lit] in order (ast.rs:2971-2981) *)
Definition lit_index (l : lit) : nat :=
  match l with LBool _ => 0 | LByte _ => 1 | LInt _ => 2 | LUint _ => 3 | LFloat _ => 4 | LChar _ => 5 | LStr _ => 6 | LByteStr _ => 7 end.
(** [#[derive(Hash)]] for an enum: the discriminant if there is more than one variant.
    Simplification: no explicit discriminants ([A = 5]). *)
Definition h_discr (variants k : nat) : list call := if variants <=? 1 then [] else [CIsize k].

(** [Hash for Box<T>] is that of [T] *)
Fixpoint unbox (t : ty) : ty := match t with TyBox a => unbox a | _ => t end.
Definition h_fields (h : ty -> val -> list call) : list (label * ty) -> list val -> list call :=
  fix go fs l {struct l} := match l with x :: l' => match fs with f :: fs' => h (snd f) x ++ go fs' l' | [] => [] end | [] => [] end.
(** [Hash], by type: ast.rs:49 ([CustomIdent]: [proc_macro2::Ident: Hash] hashes the text; the marker is a unit struct),
    365-367 (keywords: nothing), [Token!] types of syn (nothing), 419, 502, 590 (unit structs), 728 ([Maybe]: the derived [Hash] of an
    [Option] of a pair), 978, 1106, 1241 (groups; syn's delimiter tokens hash nothing), 1364, 1690 (syn's [Punctuated] hashes [inner], a
    [Vec] of pairs, and [last], an [Option<Box<T>>]), 2084 ([Vec]), 2436-2440 and 2971 (literals), 3359, 3552, 3682 (enums with two
    variants), and what [#[derive(Hash)]] generates for the user's structs and enums.  A value that does not have the type gives
    nothing; no such value is hashed. *)
Fixpoint hv (E : env) (t : ty) (v : val) : list call :=
  match v with
  | VIdent n _ => h_str n
  | VKw _ _ | VOp _ _ | VUnit => []
  | VLit l _ => match unbox t with TyAnyLit => h_discr 8 (lit_index l) ++ h_lit l | _ => h_lit l end
  | VNothing => h_discr 2 0
  | VJust p x => match unbox t with TyMaybe a b => h_discr 2 1 ++ hv E a p ++ hv E b x | _ => [] end
  | VGroup _ _ x => match unbox t with TyParen a | TyBracket a | TyBrace a => hv E a x | _ => [] end
  | VPunct i l =>
      match unbox t with
      | TyPunctuated a p | TySeparated a p =>
          CUsize (List.length i) :: List.concat (map (fun '(x, y) => hv E a x ++ hv E p y) i)
          ++ match l with Some x => h_discr 2 1 ++ hv E a x | None => h_discr 2 0 end
      | _ => []
      end
  | VList l => match unbox t with TyAny a => CUsize (List.length l) :: List.concat (map (hv E a) l) | _ => [] end
  | VBinL a o b => match unbox t with TyLeftAssoc p r => h_discr 2 0 ++ hv E (TyLeftAssoc p r) a ++ hv E p o ++ hv E r b | _ => [] end
  | VRhs a => match unbox t with TyLeftAssoc p r => h_discr 2 1 ++ hv E r a | _ => [] end
  | VBinR a o b => match unbox t with TyRightAssoc p r => h_discr 2 0 ++ hv E r a ++ hv E p o ++ hv E (TyRightAssoc p r) b | _ => [] end
  | VLhs a => match unbox t with TyRightAssoc p r => h_discr 2 1 ++ hv E r a | _ => [] end
  | VLeft a => match unbox t with TyEither p r => h_discr 2 0 ++ hv E p a | _ => [] end
  | VRight a => match unbox t with TyEither p r => h_discr 2 1 ++ hv E r a | _ => [] end
  | VStruct l => match unbox t with TyRef i => match E i with DStruct c => h_fields (fun a x => hv E a x) (c_fields c) l | _ => [] end | _ => [] end
  | VVariant k l =>
      match unbox t with
      | TyRef i =>
          match E i with
          | DEnum _ cs => match nth_error cs k with Some c => h_discr (List.length cs) k ++ h_fields (fun a x => hv E a x) (c_fields c) l | None => [] end
          | _ => []
          end
      | _ => []
      end
  end.

(** ** Bytes: what a hasher sees that only implements [write] (core's default methods).
    64-bit targets, of either byte order. *)
Fixpoint le (k : nat) (n : N) : list N := match k with O => [] | S k' => (n mod 256)%N :: le k' (n / 256)%N end.
Definition num (big : bool) (k : nat) (n : N) : list N := if big then rev (le k n) else le k n.
Definition two64 : N := 18446744073709551616.
Definition call_bytes (big : bool) (c : call) : list N :=
  match c with
  | CWrite l => l
  | CU8 n => num big 1 n
  | CU32 n => num big 4 n
  | CU64 n => num big 8 n
  | CI64 z => num big 8 (Z.to_N (z mod Z.of_N two64))
  | CUsize n | CIsize n => num big 8 (N.of_nat n)
  end.
Definition hash_bytes (big : bool) (l : list call) : list N := flat_map (call_bytes big) l.
