(** * C37: [Either] as an iterator is the iterator of its active side *)
From Verif Require Import Base EitherIter.
Local Open Scope nat_scope.

(** ** Specification: what a client sees of an iterator *)
Inductive call := Next | NextBack | Nth (n : nat) | SizeHint.
Inductive seen (A : Type) := Item (x : option A) | Hint (h : nat * option nat).
Arguments Item {A}. Arguments Hint {A}.
Definition retag {A B} (f : A -> B) (o : seen A) : seen B :=
  match o with Item x => Item (option_map f x) | Hint h => Hint h end.

(** the answers to a sequence of calls, and the state after them *)
Fixpoint trace (I : iter) (cs : list call) (s : i_state I) : list (seen (i_item I)) * i_state I :=
  match cs with
  | [] => ([], s)
  | c :: cs' =>
      let '(o, s') := match c with
                      | Next => let '(x, s') := i_next I s in (Item x, s')
                      | NextBack => let '(x, s') := i_next_back I s in (Item x, s')
                      | Nth n => let '(x, s') := i_nth I n s in (Item x, s')
                      | SizeHint => (Hint (i_size_hint I s), s)
                      end in
      let '(os, s'') := trace I cs' s' in (o :: os, s'')
  end.

(** Every call sequence, possibly ended by a consuming call: the answers are those of the active
    side, tagged; no assumption on the two iterators. *)
Theorem C37_left I J cs (s : i_state I) :
  let '(os, s') := trace I cs s in
  trace (either_iter I J) cs (Left s) = (map (retag Left) os, Left s') /\
  i_count (either_iter I J) (Left s') = i_count I s' /\
  i_last (either_iter I J) (Left s') = option_map (option_map Left) (i_last I s').
Proof.
  revert s. induction cs as [|c cs IH]; intro s; cbn [trace]; [auto|].
  destruct c; cbn -[trace].
  - destruct (i_next I s) as (x & s1). specialize (IH s1). destruct (trace I cs s1) as (os & s2). destruct IH as (E & H). rewrite E. auto.
  - destruct (i_next_back I s) as (x & s1). specialize (IH s1). destruct (trace I cs s1) as (os & s2). destruct IH as (E & H). rewrite E. auto.
  - destruct (i_nth I n s) as (x & s1). specialize (IH s1). destruct (trace I cs s1) as (os & s2). destruct IH as (E & H). rewrite E. auto.
  - specialize (IH s). destruct (trace I cs s) as (os & s2). destruct IH as (E & H). rewrite E. auto.
Qed.
Theorem C37_right I J cs (s : i_state J) :
  let '(os, s') := trace J cs s in
  trace (either_iter I J) cs (Right s) = (map (retag Right) os, Right s') /\
  i_count (either_iter I J) (Right s') = i_count J s' /\
  i_last (either_iter I J) (Right s') = option_map (option_map Right) (i_last J s').
Proof.
  revert s. induction cs as [|c cs IH]; intro s; cbn [trace]; [auto|].
  destruct c; cbn -[trace].
  - destruct (i_next J s) as (x & s1). specialize (IH s1). destruct (trace J cs s1) as (os & s2). destruct IH as (E & H). rewrite E. auto.
  - destruct (i_next_back J s) as (x & s1). specialize (IH s1). destruct (trace J cs s1) as (os & s2). destruct IH as (E & H). rewrite E. auto.
  - destruct (i_nth J n s) as (x & s1). specialize (IH s1). destruct (trace J cs s1) as (os & s2). destruct IH as (E & H). rewrite E. auto.
  - specialize (IH s). destruct (trace J cs s) as (os & s2). destruct IH as (E & H). rewrite E. auto.
Qed.

(** The laws of [Iterator], [DoubleEndedIterator], [ExactSizeIterator] and [FusedIterator]: in
    each state a list of items remains; [next] takes the first, [next_back] the last, [nth n] drops [n] and takes
    the next, [size_hint] is exact, [count] and [last] are those of the list. *)
Definition lawful (I : iter) (items : i_state I -> list (i_item I)) : Prop :=
  forall s,
    (let '(x, s') := i_next I s in x = hd_error (items s) /\ items s' = tl (items s)) /\
    (let '(x, s') := i_next_back I s in x = hd_error (rev (items s)) /\ items s' = removelast (items s)) /\
    (forall n, let '(x, s') := i_nth I n s in x = nth_error (items s) n /\ items s' = skipn (S n) (items s)) /\
    i_size_hint I s = (List.length (items s), Some (List.length (items s))) /\
    i_count I s = Some (List.length (items s)) /\
    i_last I s = Some (hd_error (rev (items s))).
(** the items of the active side, tagged *)
Definition tagged {I J : iter} (f : i_state I -> list (i_item I)) (g : i_state J -> list (i_item J))
    (s : either (i_state I) (i_state J)) : list (either (i_item I) (i_item J)) :=
  match s with Left l => map Left (f l) | Right r => map Right (g r) end.

Lemma hd_map {A B} (f : A -> B) l : hd_error (map f l) = option_map f (hd_error l).
Proof. destruct l; reflexivity. Qed.
Lemma tl_map {A B} (f : A -> B) l : tl (map f l) = map f (tl l).
Proof. destruct l; reflexivity. Qed.
Lemma removelast_map {A B} (f : A -> B) l : removelast (map f l) = map f (removelast l).
Proof. induction l as [|a [|b l] IH]; [reflexivity|reflexivity|]. cbn [map removelast] in *. rewrite IH. reflexivity. Qed.

Lemma option_map_Some {A B} (f : A -> B) (x : A) : option_map f (Some x) = Some (f x).
Proof. reflexivity. Qed.
Theorem C37_lawful I J f g : lawful I f -> lawful J g -> lawful (either_iter I J) (tagged f g).
Proof.
  intros HI HJ [s|s]; cbn [either_iter i_next i_next_back i_nth i_size_hint i_count i_last e_map_mut e_map e_into_inner e_transpose tagged].
  - destruct (HI s) as (H1 & H2 & H3 & H4 & H5 & H6). rewrite H4, H5, H6, map_length, <- map_rev, !hd_map, tl_map, removelast_map.
    split; [|split; [|split; [|auto]]].
    + destruct (i_next I s) as (x & s'). destruct H1 as (-> & E). cbn [tagged]. rewrite E. auto.
    + destruct (i_next_back I s) as (x & s'). destruct H2 as (-> & E). cbn [tagged]. rewrite E. auto.
    + intro n. specialize (H3 n). destruct (i_nth I n s) as (x & s'). destruct H3 as (-> & E). cbn [tagged]. rewrite E, skipn_map. split; [|reflexivity].
      rewrite nth_error_map. reflexivity.
  - destruct (HJ s) as (H1 & H2 & H3 & H4 & H5 & H6). rewrite H4, H5, H6, map_length, <- map_rev, !hd_map, tl_map, removelast_map.
    split; [|split; [|split; [|auto]]].
    + destruct (i_next J s) as (x & s'). destruct H1 as (-> & E). cbn [tagged]. rewrite E. auto.
    + destruct (i_next_back J s) as (x & s'). destruct H2 as (-> & E). cbn [tagged]. rewrite E. auto.
    + intro n. specialize (H3 n). destruct (i_nth J n s) as (x & s'). destruct H3 as (-> & E). cbn [tagged]. rewrite E, skipn_map. split; [|reflexivity].
      rewrite nth_error_map. reflexivity.
Qed.
(** the iterator of a list ([std::vec::IntoIter], [slice::Iter]) is lawful *)
Definition list_iter (A : Type) : iter := {|
  i_state := list A; i_item := A;
  i_next := fun l => (hd_error l, tl l);
  i_next_back := fun l => (hd_error (rev l), removelast l);
  i_nth := fun n l => (nth_error l n, skipn (S n) l);
  i_size_hint := fun l => (List.length l, Some (List.length l));
  i_count := fun l => Some (List.length l);
  i_last := fun l => Some (hd_error (rev l)) |}.
Example list_iter_lawful A : lawful (list_iter A) (fun l => l).
Proof. intro s. cbn. repeat split. Qed.
Example C37_example :
  trace (either_iter (list_iter nat) (list_iter bool)) [Next; SizeHint; NextBack; Nth 1; Next] (Left [1; 2; 3; 4; 5]) =
  ([Item (Some (Left 1)); Hint (4, Some 4); Item (Some (Left 5)); Item (Some (Left 3)); Item (Some (Left 4))], Left []).
Proof. reflexivity. Qed.

(** The side and the value are preserved by the adapters. *)
Theorem C37_flip_involution {L R} (e : either L R) : e_flip (e_flip e) = e.
Proof. destruct e; reflexivity. Qed.
Theorem C37_flip_swaps {L R} (e : either L R) : e_left (e_flip e) = e_right e /\ e_right (e_flip e) = e_left e /\
  e_is_left (e_flip e) = e_is_right e /\ e_is_right (e_flip e) = e_is_left e.
Proof. destruct e; repeat split. Qed.
Theorem C37_map_side {L R T U} (f : L -> T) (g : R -> U) e :
  e_left (e_map f g e) = option_map f (e_left e) /\ e_right (e_map f g e) = option_map g (e_right e).
Proof. destruct e; repeat split. Qed.
Theorem C37_transpose_side {L R} (e : either (option L) (option R)) (v : either L R) :
  e_transpose e = Some v <-> e_left e = option_map Some (e_left v) /\ e_right e = option_map Some (e_right v).
Proof. destruct e as [[l|]|[r|]], v; cbn; split; intros; firstorder congruence. Qed.
Theorem C37_transpose_result_side {L R X} (e : either (L + X) (R + X)) :
  match e_transpose_result e with
  | inl (Left v) => e = Left (inl v)
  | inl (Right v) => e = Right (inl v)
  | inr x => e = Left (inr x) \/ e = Right (inr x)
  end.
Proof. destruct e as [[l|x]|[r|x]]; cbn; auto. Qed.
Theorem C37_extend_side {L R T} (fl : L -> list T -> L) (fr : R -> list T -> R) e items :
  e_left (e_extend fl fr e items) = option_map (fun l => fl l items) (e_left e) /\
  e_right (e_extend fl fr e items) = option_map (fun r => fr r items) (e_right e).
Proof. destruct e; repeat split. Qed.

Print Assumptions C37_left.
Print Assumptions C37_right.
Print Assumptions C37_lawful.
Print Assumptions C37_flip_involution.
Print Assumptions C37_flip_swaps.
Print Assumptions C37_map_side.
Print Assumptions C37_transpose_side.
Print Assumptions C37_transpose_result_side.
Print Assumptions C37_extend_side.
