(** * Float: the finite-precision arithmetic behind [LitFloat].

    parsel stores a float literal as [NotNan<f64>] (parsel/src/ast.rs:2468) and relies on
    [core]'s [f64::from_str] (through syn's [base10_parse], ast.rs:2646-2654) and on [f64]'s
    [Display] (through [Literal::f64_unsuffixed], ast.rs:2551-2557).  Neither is in
    /repo; both are modelled here on exact integers: reading is correct
    rounding (nearest, ties to even), printing is the shortest decimal that reads back. *)
From Verif Require Import Base.

(** An IEEE binary64 datum that is not NaN: [FFin neg m e] is (-1)^neg * m * 2^e. *)
Inductive f64 :=
| FFin (neg : bool) (m : N) (e : Z)
| FInf (neg : bool).

Definition two52 : N := 4503599627370496.
Definition two53 : N := 9007199254740992.
Definition emin : Z := -1074.
Definition emax : Z := 971.

(** Canonical representation: normal, or subnormal (incl. zero) with the least exponent. *)
Definition f64_valid (x : f64) : bool :=
  match x with
  | FInf _ => true
  | FFin _ m e =>
      (m <? two53)%N && (emin <=? e)%Z && (e <=? emax)%Z && ((two52 <=? m)%N || (e =? emin)%Z)
  end.
Definition f64_finite (x : f64) : bool := match x with FFin _ _ _ => true | FInf _ => false end.

Definition f64_eqb (x y : f64) : bool :=
  match x, y with
  | FFin n1 m1 e1, FFin n2 m2 e2 => Bool.eqb n1 n2 && (m1 =? m2)%N && (e1 =? e2)%Z
  | FInf n1, FInf n2 => Bool.eqb n1 n2
  | _, _ => false
  end.

Definition f64_opp (x : f64) : f64 :=
  match x with FFin n m e => FFin (negb n) m e | FInf n => FInf (negb n) end.

(** ** Rounding the positive rational n/d to nearest-even. *)

(** n / (d * 2^e) as a fraction *)
Definition scaled (n d : N) (e : Z) : N * N :=
  match e with
  | Z0 => (n, d)
  | Zpos p => (n, (d * 2 ^ Npos p)%N)
  | Zneg p => ((n * 2 ^ Npos p)%N, d)
  end.

(** the exponent e with 2^52 <= n/(d 2^e) < 2^53, or [emin] if that is smaller *)
Definition pick_exp (n d : N) : Z :=
  let e1 := (Z.of_N (N.log2 n) - Z.of_N (N.log2 d) - 53)%Z in
  let '(a, b) := scaled n d e1 in
  let e2 := if (a / b <? two53)%N then e1 else (e1 + 1)%Z in
  Z.max e2 emin.

Definition round_rat (neg : bool) (n d : N) : f64 :=
  if (n =? 0)%N then FFin neg 0 emin else
  let e := pick_exp n d in
  let '(a, b) := scaled n d e in
  let q := (a / b)%N in
  let r := (a mod b)%N in
  let up := (b <? 2 * r)%N || ((b =? 2 * r)%N && N.odd q) in
  let q' := if up then (q + 1)%N else q in
  let '(m, e') := if (q' =? two53)%N then (two52, (e + 1)%Z) else (q', e) in
  if (emax <? e')%Z then FInf neg else FFin neg m e'.

(** D * 10^k rounded *)
Definition round_dec (neg : bool) (D : N) (k : Z) : f64 :=
  match k with
  | Z0 => round_rat neg D 1
  | Zpos p => round_rat neg (D * 10 ^ Npos p) 1
  | Zneg p => round_rat neg D (10 ^ Npos p)
  end.

(** ** Decimal text. *)
Definition is_digit (c : char) : bool := (48 <=? c)%N && (c <=? 57)%N.
Definition digit_val (c : char) : N := (c - 48)%N.
Definition digit_char (d : N) : char := (48 + d)%N.

(** value of a run of decimal digits, most significant first *)
Definition read_digits (acc : N) (ds : text) : N :=
  fold_left (fun a c => (a * 10 + digit_val c)%N) ds acc.

Fixpoint show_digits (fuel : nat) (n : N) (acc : text) : text :=
  match fuel with
  | O => acc
  | S f => if (n <? 10)%N then digit_char n :: acc
           else show_digits f (n / 10) (digit_char (n mod 10) :: acc)
  end.
(** [n.to_string()] for an unsigned integer *)
Definition dec (n : N) : text := show_digits (S (N.size_nat n)) n [].

(** longest prefix of decimal digits *)
Fixpoint span_digits (s : text) : text * text :=
  match s with
  | c :: r => if is_digit c then let '(a, b) := span_digits r in (c :: a, b) else ([], s)
  | [] => ([], [])
  end.

(** [f64::from_str] restricted to what syn's [parse_lit_float] hands it: optional '-', digits,
    optional fraction, optional exponent. (It also accepts "inf"/"nan", which no literal
    spells.) *)
Definition float_read (s : text) : option f64 :=
  let '(neg, s) := match s with c :: r => if (c =? 45)%N then (true, r) else (false, s)
                              | [] => (false, s) end in
  let '(ip, s) := span_digits s in
  let '(fp, s) := match s with
                  | c :: r => if (c =? 46)%N then span_digits r else ([], s)
                  | [] => ([], []) end in
  if (match ip, fp with [], [] => true | _, _ => false end) then None else
  let D := read_digits 0 (ip ++ fp) in
  let k := (- Z.of_nat (List.length fp))%Z in
  match s with
  | [] => Some (round_dec neg D k)
  | c :: r =>
      if (c =? 101)%N || (c =? 69)%N then
        let '(eneg, r) := match r with
                          | c :: r' => if (c =? 45)%N then (true, r')
                                       else if (c =? 43)%N then (false, r') else (false, r)
                          | [] => (false, r) end in
        let '(ep, rest) := span_digits r in
        match ep, rest with
        | _ :: _, [] =>
            let x := Z.of_N (read_digits 0 ep) in
            Some (round_dec neg D (k + (if eneg then - x else x))%Z)
        | _, _ => None
        end
      else None
  end.

(** ** Printing: positional notation of D * 10^k as [f64]'s [Display] lays it out,
    with the ".0" that [Literal::f64_unsuffixed] appends when there is no point. *)
Definition zeros (n : nat) : text := repeat 48%N n.
Definition render (neg : bool) (D : N) (k : Z) : text :=
  (if neg then [45%N] else []) ++
  match k with
  | Zneg p =>
      let ds := dec D in
      let fl := Pos.to_nat p in
      if Nat.ltb fl (List.length ds)
      then firstn (List.length ds - fl) ds ++ [46%N] ++ skipn (List.length ds - fl) ds
      else [48%N; 46%N] ++ zeros (fl - List.length ds) ++ ds
  | _ => dec D ++ (if (D =? 0)%N then [] else zeros (Z.to_nat k)) ++ [46%N; 48%N]
  end.

(** exact decimal expansion of m * 2^e *)
Definition exact_dec (m : N) (e : Z) : N * Z :=
  match e with
  | Z0 => (m, 0%Z)
  | Zpos p => ((m * 2 ^ Npos p)%N, 0%Z)
  | Zneg p => ((m * 5 ^ Npos p)%N, Zneg p)
  end.

Definition reads_as (x : f64) (s : text) : bool :=
  match float_read s with Some y => f64_eqb x y | None => false end.

(** m*2^e / 10^k as a fraction *)
Definition dec_scaled (m : N) (e k : Z) : N * N :=
  let '(a, b) := match e with
                 | Z0 => (m, 1%N) | Zpos p => ((m * 2 ^ Npos p)%N, 1%N)
                 | Zneg p => (m, (2 ^ Npos p)%N) end in
  match k with
  | Z0 => (a, b) | Zpos p => (a, (b * 10 ^ Npos p)%N) | Zneg p => ((a * 10 ^ Npos p)%N, b) end.

(** drop one trailing zero (a carry such as 9 -> 10 produces it) *)
Definition render_norm (neg : bool) (D : N) (k : Z) : text :=
  if (D mod 10 =? 0)%N then render neg (D / 10) (k + 1) else render neg D k.

(** candidates with the given number of digits: the closer neighbour first *)
Definition candidates (neg : bool) (m : N) (e : Z) (p : Z) (n : nat) : list text :=
  let k := (p - Z.of_nat n)%Z in
  let '(a, b) := dec_scaled m e k in
  let q := (a / b)%N in
  let r := (a mod b)%N in
  let lo := render_norm neg q k in
  let hi := render_norm neg (q + 1) k in
  if (b <? 2 * r)%N then [hi; lo] else [lo; hi].

Definition dec_len (n : N) : Z := Z.of_nat (List.length (dec n)).

(** p with 10^(p-1) <= m*2^e < 10^p *)
Definition dec_exp (m : N) (e : Z) : Z :=
  let '(a, b) := dec_scaled m e 0 in
  let g := (dec_len a - dec_len b)%Z in
  let '(u, v) := dec_scaled m e g in
  if (u <? v)%N then g else (g + 1)%Z.

Definition shortest (neg : bool) (m : N) (e : Z) : list text :=
  let p := dec_exp m e in
  flat_map (candidates neg m e p) (seq 1 17).

(** [f64::to_string] + ".0" for finite values (Literal::f64_unsuffixed). *)
Definition float_show (x : f64) : option text :=
  match x with
  | FInf _ => None            (* [f64_unsuffixed] asserts finiteness: a panic *)
  | FFin neg m e =>
      if (m =? 0)%N then Some (render neg 0 0) else
      match find (reads_as x) (shortest neg m e) with
      | Some s => Some s
      | None => let '(D, k) := exact_dec m e in Some (render neg D k)
      end
  end.
