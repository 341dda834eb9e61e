(** * Punctuated: [syn::punctuated::Punctuated], parsel's [Punctuated] and [Separated] as
    mutable containers (C22, C46).

    A method is a function on the container: what it returns ([None] = panic) and the
    container afterwards, which a caller that catches the panic can still look at. *)
From Verif Require Import Base Float Literal Syn Ast Derive Grammar Spec.
Local Open Scope nat_scope.

Notation done := Datatypes.tt.
Definition method (S R : Type) := S -> option R * S.
Definition mret {S R} (v : R) : method S R := fun s => (Some v, s).
Definition mpanic {S R} : method S R := fun s => (None, s).
Definition mbind {S R Q} (m : method S R) (k : R -> method S Q) : method S Q := fun s =>
  match m s with (Some v, s') => k v s' | (None, s') => (None, s') end.
(** calling user code ([P::default()], an iterator): it returns something or panics *)
Definition muser {S R} (o : option R) : method S R := fun s => (o, s).

(** ** syn 2.0.66, src/punctuated.rs (a dependency: modelled from its documentation) *)
Section Syn.
Context {A P : Type}.
Notation seq := (punctuated A P).
Definition pn_new : seq := Pn [] None.
Definition pn_is_empty (x : seq) : bool :=
  match pn_inner x, pn_last x with [], None => true | _, _ => false end.
Definition pn_len (x : seq) : nat := List.length (pn_inner x) + match pn_last x with Some _ => 1 | None => 0 end.
(** [empty_or_trailing]: there is no last value without separator *)
Definition empty_or_trailing (x : seq) : bool := match pn_last x with None => true | Some _ => false end.
(** [iter]: the values in order *)
Definition pn_iter (x : seq) : list A := map fst (pn_inner x) ++ match pn_last x with Some v => [v] | None => [] end.
Definition pn_first (x : seq) : option A := hd_error (pn_iter x).
Definition pn_last_value (x : seq) : option A := hd_error (rev (pn_iter x)).
(** [push_value]: asserts that there is no last value *)
Definition push_value (v : A) : method seq unit := fun x =>
  if empty_or_trailing x then (Some done, Pn (pn_inner x) (Some v)) else (None, x).
(** [push_punct]: asserts that there is a last value *)
Definition push_punct (p : P) : method seq unit := fun x =>
  match pn_last x with Some v => (Some done, Pn (pn_inner x ++ [(v, p)]) None) | None => (None, x) end.
(** [push]: a default separator where needed, then the value *)
Definition pn_push (v : A) (dflt : option P) : method seq unit := fun x =>
  if empty_or_trailing x then push_value v x
  else mbind (muser dflt) (fun p => mbind (push_punct p) (fun _ => push_value v)) x.
(** [insert]: asserts [index <= len] *)
Definition pn_insert (i : nat) (v : A) (dflt : option P) : method seq unit := fun x =>
  if i <=? pn_len x then
    if i =? pn_len x then pn_push v dflt x
    else mbind (muser dflt) (fun p => fun x =>
           (Some done, Pn (firstn i (pn_inner x) ++ (v, p) :: skipn i (pn_inner x)) (pn_last x))) x
  else (None, x).
(** [Extend<T>]: pushes item after item.  [items]: what the iterator yields, with the result of
    [P::default()] if it is asked for; [stop]: the iterator ends ([true]) or panics. *)
Fixpoint pn_extend (items : list (A * option P)) (stop : bool) : method seq unit :=
  match items with
  | [] => muser (if stop then Some done else None)
  | (v, d) :: r => mbind (pn_push v d) (fun _ => pn_extend r stop)
  end.
(** [do_extend]: panics on items after a [Pair::End] *)
Fixpoint do_extend (nomore : bool) (l : list (pair A P)) (stop : bool) : method seq unit :=
  match l with
  | [] => muser (if stop then Some done else None)
  | x :: r =>
      if nomore then mpanic
      else match x with
           | PPunctuated v p => fun s => do_extend false r stop (Pn (pn_inner s ++ [(v, p)]) (pn_last s))
           | PEnd v => fun s => do_extend true r stop (Pn (pn_inner s) (Some v))
           end
  end.
(** [Extend<Pair<T, P>>] *)
Definition pn_extend_pairs (l : list (pair A P)) (dflt : option P) (stop : bool) : method seq unit := fun x =>
  if empty_or_trailing x then do_extend false l stop x
  else mbind (muser dflt) (fun p => mbind (push_punct p) (fun _ => do_extend false l stop)) x.
(** [FromIterator]: [new], then the same *)
Definition pn_collect (items : list (A * option P)) : option seq :=
  match pn_extend items true pn_new with (Some _, x) => Some x | (None, _) => None end.
Definition pn_collect_pairs (l : list (pair A P)) : option seq :=
  match do_extend false l true pn_new with (Some _, x) => Some x | (None, _) => None end.
(** [IndexMut], [iter_mut], [pairs_mut]: writing through a reference to a value or separator *)
Definition pn_set (i : nat) (v : A) : method seq unit := fun x =>
  if i <? List.length (pn_inner x) then
    (Some done, Pn (firstn i (pn_inner x) ++ match nth_error (pn_inner x) i with Some (_, p) => (v, p) :: skipn (S i) (pn_inner x) | None => [] end) (pn_last x))
  else match pn_last x with
       | Some _ => if i =? List.length (pn_inner x) then (Some done, Pn (pn_inner x) (Some v)) else (None, x)
       | None => (None, x)
       end.
Definition pn_set_punct (i : nat) (p : P) : method seq unit := fun x =>
  match nth_error (pn_inner x) i with
  | Some (v, _) => (Some done, Pn (firstn i (pn_inner x) ++ (v, p) :: skipn (S i) (pn_inner x)) (pn_last x))
  | None => (None, x)
  end.
End Syn.

(** ** parsel's [Separated], ast.rs:1690-2039 *)
Section Separated.
Context {A P : Type}.
Notation seq := (punctuated A P).
(** ast.rs:1696-1698, [NonZeroUsize::new(..).expect(..)] *)
Definition sep_len : method seq nat := fun x => (if pn_len x =? 0 then None else Some (pn_len x), x).
(** ast.rs:1704-1706, 1712-1714 *)
Definition sep_first : method seq A := fun x => (pn_first x, x).
Definition sep_last : method seq A := fun x => (pn_last_value x, x).
(** ast.rs:1708-1710: [*x.first_mut() = v] *)
Definition sep_set_first (v : A) : method seq unit := fun x =>
  match pn_first x with Some _ => pn_set 0 v x | None => (None, x) end.
(** ast.rs:1716-1718: [*x.last_mut() = v] *)
Definition sep_set_last (v : A) : method seq unit := fun x =>
  match pn_last_value x with Some _ => pn_set (pn_len x - 1) v x | None => (None, x) end.
(** ast.rs:1723-1728 *)
Definition sep_insert (i : nat) (v : A) (dflt : option P) : method seq unit := pn_insert i v dflt.
(** ast.rs:1733-1736 *)
Definition sep_push (p : P) (v : A) : method seq unit := mbind (push_punct p) (fun _ => push_value v).
(** ast.rs:1741-1746 *)
Definition sep_push_value (v : A) (dflt : option P) : method seq unit := mbind (muser dflt) (fun p => sep_push p v).
(** ast.rs:1903-1913 *)
Definition sep_extend (items : list (A * option P)) (stop : bool) : method seq unit := pn_extend items stop.
(** ast.rs:1917-1926 *)
Fixpoint sep_extend_pairs (items : list (P * A)) (stop : bool) : method seq unit :=
  match items with
  | [] => muser (if stop then Some done else None)
  | (p, v) :: r => mbind (sep_push p v) (fun _ => sep_extend_pairs r stop)
  end.
(** ast.rs:1963-1967 ([IndexMut]); 1752-1754, 1946-1953 ([iter_mut]); 1764-1766 ([pairs_mut]) *)
Definition sep_set (i : nat) (v : A) : method seq unit := pn_set i v.
Definition sep_set_punct (i : nat) (p : P) : method seq unit := pn_set_punct i p.
(** ast.rs:1850-1864 *)
Definition sep_try_from (x : seq) : option seq := if empty_or_trailing x then None else Some x.
(** ast.rs:2006-2028: the parse loop, as written, with [inner.push_value]/[push_punct] on the way
    (Ast.p_separated carries the pairs instead; [parse_builds] shows they agree) *)
Fixpoint build_tail (l : list (P * A)) : method seq unit :=
  match l with
  | [] => mret done
  | (p, v) :: r => mbind (push_punct p) (fun _ => mbind (push_value v) (fun _ => build_tail r))
  end.
Definition build (x : A) (l : list (P * A)) : method seq unit := mbind (push_value x) (fun _ => build_tail l).
End Separated.
