(** * EitherIter: [Either] as an iterator (parsel/src/ast.rs:3688-3915). *)
From Verif Require Import Base.
Local Open Scope nat_scope.

(** [Either<L, R>] (parsel/src/ast.rs:3683-3686) *)
Inductive either (L R : Type) := Left (l : L) | Right (r : R).
Arguments Left {L R}. Arguments Right {L R}.

Section Adapters.
Context {L R : Type}.
(** [left], [right], [is_left], [is_right] (parsel/src/ast.rs:3689-3709) *)
Definition e_left (e : either L R) : option L := match e with Left l => Some l | Right _ => None end.
Definition e_right (e : either L R) : option R := match e with Left _ => None | Right r => Some r end.
Definition e_is_left (e : either L R) : bool := match e with Left _ => true | Right _ => false end.
Definition e_is_right (e : either L R) : bool := match e with Left _ => false | Right _ => true end.
(** [flip] (parsel/src/ast.rs:3718-3723) *)
Definition e_flip (e : either L R) : either R L := match e with Left l => Right l | Right r => Left r end.
(** [map] (parsel/src/ast.rs:3751-3760) *)
Definition e_map {T U} (f : L -> T) (g : R -> U) (e : either L R) : either T U :=
  match e with Left l => Left (f l) | Right r => Right (g r) end.
(** [as_mut] followed by [map]: each function may change what it is given *)
Definition e_map_mut {T U} (f : L -> T * L) (g : R -> U * R) (e : either L R) : either T U * either L R :=
  match e with
  | Left l => let '(t, l') := f l in (Left t, Left l')
  | Right r => let '(u, r') := g r in (Right u, Right r')
  end.
(** [transpose] for [Option] (parsel/src/ast.rs:3776-3783) and for [Result] (3785-3792) *)
Definition e_transpose (e : either (option L) (option R)) : option (either L R) :=
  match e with Left l => option_map Left l | Right r => option_map Right r end.
Definition e_transpose_result {X} (e : either (L + X) (R + X)) : either L R + X :=
  match e with
  | Left l => match l with inl v => inl (Left v) | inr x => inr x end
  | Right r => match r with inl v => inl (Right v) | inr x => inr x end
  end.
End Adapters.
(** [into_inner] (parsel/src/ast.rs:3794-3801) *)
Definition e_into_inner {T} (e : either T T) : T := match e with Left l => l | Right r => r end.

(** An iterator: its state and its methods.  [Iterator] lets an implementation override every
    method, so none is defined by the others.  A method on [&mut self] returns the new state;
    [i_count] and [i_last] consume the iterator and need not terminate ([None]). *)
Record iter := Iter {
  i_state : Type;
  i_item : Type;
  i_next : i_state -> option i_item * i_state;
  i_next_back : i_state -> option i_item * i_state;
  i_nth : nat -> i_state -> option i_item * i_state;
  i_size_hint : i_state -> nat * option nat;
  i_count : i_state -> option nat;
  i_last : i_state -> option (option i_item) }.

(** [Iterator for Either], [DoubleEndedIterator for Either] (parsel/src/ast.rs:3841-3885) *)
Definition either_iter (I J : iter) : iter := {|
  i_state := either (i_state I) (i_state J);
  i_item := either (i_item I) (i_item J);
  i_next := fun s => let '(r, s') := e_map_mut (i_next I) (i_next J) s in (e_transpose r, s');
  i_next_back := fun s => let '(r, s') := e_map_mut (i_next_back I) (i_next_back J) s in (e_transpose r, s');
  i_nth := fun n s => let '(r, s') := e_map_mut (i_nth I n) (i_nth J n) s in (e_transpose r, s');
  i_size_hint := fun s => e_into_inner (e_map (i_size_hint I) (i_size_hint J) s);
  i_count := fun s => e_into_inner (e_map (i_count I) (i_count J) s);
  i_last := fun s =>
    match s with   (* a diverging call leaves nothing to transpose *)
    | Left l => option_map (fun r => e_transpose (Left r)) (i_last I l)
    | Right r => option_map (fun r => e_transpose (Right r)) (i_last J r)
    end |}.

(** [Extend for Either] (parsel/src/ast.rs:3901-3915), given [extend] of the two sides *)
Definition e_extend {L R T} (fl : L -> list T -> L) (fr : R -> list T -> R) (e : either L R) (items : list T) : either L R :=
  match e with Left l => Left (fl l items) | Right r => Right (fr r items) end.
