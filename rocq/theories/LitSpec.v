(** * LitSpec: what literals mean, independently of how they are decoded. *)
From Verif Require Import Base Float Literal Syn Ast.
Open Scope N_scope.

Section LitSpec.
Context {U : unicode}.
(** ** Integers: the value of a run of digits in a radix, underscores ignored. *)
Definition radix_digit (base : N) (c : char) : option N :=
  if base =? 16 then hex_val c
  else if is_digit c && (digit_val c <? base) then Some (digit_val c) else None.
Fixpoint body_value (base : N) (acc : N) (s : text) : option N :=
  match s with
  | [] => Some acc
  | c :: r => if c =? 95 then body_value base acc r
              else match radix_digit base c with
                   | Some d => body_value base (acc * base + d) r
                   | None => None
                   end
  end.
Definition is_radix (base : N) : Prop := base = 2 \/ base = 8 \/ base = 10 \/ base = 16.
Definition has_digit (base : N) (s : text) : bool :=
  existsb (fun c => match radix_digit base c with Some _ => true | None => false end) s.

(** what may follow the digits *)
Definition suffix_ok (base : N) (s : text) : bool :=
  match s with
  | [] => true
  | c :: _ => xid_ok s && negb (c =? 95)
              && match radix_digit 16 c with Some _ => negb (base =? 16) | None => true end
              && negb ((base =? 10) && ((c =? 101) || (c =? 69)))
  end.

Definition radix_prefix (base : N) : text :=
  if base =? 16 then T "0x" else if base =? 8 then T "0o" else if base =? 2 then T "0b" else [].

(** The integer literals of Rust: radix prefix, digits and underscores, suffix. *)
Definition int_spelling (repr : text) (n : N) : Prop :=
  exists base ds sfx, is_radix base /\ repr = radix_prefix base ++ ds ++ sfx /\
    body_value base 0 ds = Some n /\ has_digit base ds = true /\ suffix_ok base sfx = true /\
    (base = 10 -> match ds with c :: _ => is_digit c = true | [] => False end /\
       forall x r, repr = 48 :: x :: r -> x <> 120 /\ x <> 111 /\ x <> 98).

Definition sign (neg : bool) : text := if neg then [45] else [].

(** An integer literal with an optional minus sign stands at the head of the stream. *)
Definition int_at (s : pstate) (neg : bool) (n : N) (sp : span) (r : list tt) : Prop :=
  exists repr, int_spelling repr n /\
    if neg then exists g sp1 sp2 r1, ignore_none (ps_rest s) = TPunct 45 g sp1 :: r1 /\
                  ignore_none r1 = TLit repr sp2 :: r /\ sp = join_or sp1 sp2
    else ignore_none (ps_rest s) = TLit repr sp :: r.
Definition signed (neg : bool) (n : N) : Z := if neg then (- Z.of_N n)%Z else Z.of_N n.

(** The values the Rust types can hold. *)
Definition lit_valid (l : lit) : Prop :=
  match l with
  | LBool _ => True
  | LByte b => b < 256
  | LInt z => (i64_min <= z <= i64_max)%Z
  | LUint z => (0 <= z <= u64_max)%Z
  | LFloat f => f64_valid f = true
  | LChar c => valid_char c = true
  | LStr s => forallb valid_char s = true
  | LByteStr s => forallb (fun b => b <? 256) s = true
  end.
(** can be printed *)
Definition lit_finite (l : lit) : Prop :=
  match l with LFloat f => f64_finite f = true | _ => True end.

(** what [Lit] makes of an integer *)
Definition by_sign (l : lit) : lit :=
  match l with LInt z => if (z <? 0)%Z then LInt z else LUint z | _ => l end.

End LitSpec.
