(** * NodeEq: equality, order and hashing of whole syntax trees (C53).

    In Rust two values are only compared when they have the same type, so the cases in which the
    two sides have different shapes never arise for values of one type, except between the variants
    of an [enum] and the two states of a [Maybe]. *)
From Verif Require Import Base Float Literal Syn Ast Derive Grammar Conv.
Local Open Scope nat_scope.

(** [Vec<T>: PartialEq] of core: same length, equal elements *)
Definition list_eqb {A} (f : A -> A -> bool) : list A -> list A -> bool :=
  fix go a b :=
    match a, b with
    | [], [] => true
    | x :: a', y :: b' => f x y && go a' b'
    | _, _ => false
    end.
(** the derived [PartialEq] of every node: ast.rs:49 (with [proc_macro2::Ident: PartialEq], which compares the
    text), 338-346 (keywords), 419, 502, 590 (unit structs), 728 ([Maybe]), 978, 1106, 1241 (groups;
    [syn]'s delimiter tokens and [Token!] types are always equal), 1364, 1690 ([syn]'s [Punctuated] compares
    [inner] and [last]), 2084, 2402-2406 and 2971 (literals), 3359, 3552, 3682, and what
    [#[derive(PartialEq)]] generates for the user's structs and enums *)
Fixpoint veqb (v w : val) : bool :=
  match v, w with
  | VIdent n _, VIdent m _ => text_eqb n m
  | VKw n _, VKw m _ => text_eqb n m
  | VOp n _, VOp m _ => text_eqb n m
  | VLit a sp1, VLit b sp2 => node_eqb (a, sp1) (b, sp2)
  | VUnit, VUnit => true
  | VNothing, VNothing => true
  | VJust p x, VJust q y => veqb p q && veqb x y
  | VGroup d _ x, VGroup d' _ y => delim_eqb d d' && veqb x y
  | VPunct i l, VPunct i' l' =>
      list_eqb (fun a b => let '(x, p) := a in let '(y, q) := b in veqb x y && veqb p q) i i'
      && match l, l' with Some x, Some y => veqb x y | None, None => true | _, _ => false end
  | VList l, VList l' => list_eqb (fun a b => veqb a b) l l'
  | VBinL a o b, VBinL a' o' b' => veqb a a' && veqb o o' && veqb b b'
  | VRhs a, VRhs b => veqb a b
  | VBinR a o b, VBinR a' o' b' => veqb a a' && veqb o o' && veqb b b'
  | VLhs a, VLhs b => veqb a b
  | VLeft a, VLeft b => veqb a b
  | VRight a, VRight b => veqb a b
  | VStruct l, VStruct l' => list_eqb (fun a b => veqb a b) l l'
  | VVariant k l, VVariant k' l' => (k =? k') && list_eqb (fun a b => veqb a b) l l'
  | _, _ => false
  end.

(** [#[derive(Ord)]]: fields in order, the first difference decides *)
Definition lex_cmp {A} (f : A -> A -> option comparison) : list A -> list A -> option comparison :=
  fix go a b :=
    match a, b with
    | [], [] => Some Eq
    | x :: a', y :: b' => match f x y with Some Eq => go a' b' | c => c end
    | _, _ => None
    end.
(** [Ord] of the nodes that have it: ast.rs:49 ([CustomIdent]; [Ident: Ord] compares the text),
    359-363 (keywords: always [Equal] within the type), 419, 502, 590, 2430-2434 (literals; not [Lit]), 3682
    ([Either]), and what [#[derive(Ord)]] generates for structs and enums made of them.
    [None]: this kind of node has no order, or the types differ.
    Simplification: text is compared by code points; C44_strings_compare_as_utf8 shows it is the order Rust
    uses. *)
Fixpoint vcmp (v w : val) : option comparison :=
  match v, w with
  | VIdent n _, VIdent m _ => Some (list_cmp n m)
  | VKw n _, VKw m _ => if text_eqb n m then Some Eq else None
  | VLit a sp1, VLit b sp2 => node_cmp (a, sp1) (b, sp2)
  | VUnit, VUnit => Some Eq
  | VLeft a, VLeft b => vcmp a b
  | VLeft _, VRight _ => Some Lt
  | VRight _, VLeft _ => Some Gt
  | VRight a, VRight b => vcmp a b
  | VStruct l, VStruct l' => lex_cmp (fun a b => vcmp a b) l l'
  | VVariant k l, VVariant k' l' =>
      match Nat.compare k k' with Eq => lex_cmp (fun a b => vcmp a b) l l' | c => Some c end
  | _, _ => None
  end.

(** What the derived [Hash] of every node feeds to the hasher, same lines as [veqb]: the text of an identifier, nothing
    for keywords (365-367), tokens and unit structs, the discriminant of an [enum] or [Option], the length and
    the elements of a [Vec]. *)
Fixpoint vhash (v : val) : list Z :=
  match v with
  | VIdent n _ => map Z.of_N n ++ [255%Z]
  | VKw _ _ | VOp _ _ | VUnit => []
  | VLit l sp => node_hash (l, sp)
  | VNothing => [0%Z]
  | VJust p x => 1%Z :: vhash p ++ vhash x
  | VGroup _ _ x => vhash x
  | VPunct i l =>
      Z.of_nat (List.length i) :: List.concat (map (fun '(x, p) => vhash x ++ vhash p) i)
      ++ match l with Some x => 1%Z :: vhash x | None => [0%Z] end
  | VList l => Z.of_nat (List.length l) :: List.concat (map vhash l)
  | VBinL a o b | VBinR a o b => 0%Z :: vhash a ++ vhash o ++ vhash b
  | VRhs a | VLhs a | VRight a => 1%Z :: vhash a
  | VLeft a => 0%Z :: vhash a
  | VStruct l => List.concat (map vhash l)
  | VVariant k l => Z.of_nat k :: List.concat (map vhash l)
  end.
