(** * PropTree: C19 and C20 about the values themselves.

    The theorems of [PropParse.v] describe the parsed tree through the embedding of trees in values;
    here the meaning of an operator expression is computed on the value a user gets, constructor by
    constructor, and compared with folding the operands in the order of the text. *)
From Verif Require Import Base Float Literal Syn Ast Derive Grammar Spec SynFacts Lawful Mono
  Combinators GrammarBeh Assoc Examples.

(** the meaning of a [LeftAssoc] value: [Binary { lhs, op, rhs }] applies the operator to the meaning of
    the subtree [lhs] and of the operand [rhs]; [Rhs(r)] is the operand *)
Fixpoint meaning_left {B} (operand : val -> B) (apply : B -> val -> B -> B) (v : val) : option B :=
  match v with
  | VBinL lhs op rhs => option_map (fun b => apply b op (operand rhs)) (meaning_left operand apply lhs)
  | VRhs r => Some (operand r)
  | _ => None
  end.
(** the meaning of a [RightAssoc] value: there the subtree is [rhs] *)
Fixpoint meaning_right {B} (operand : val -> B) (apply : B -> val -> B -> B) (v : val) : option B :=
  match v with
  | VBinR lhs op rhs => option_map (fun b => apply (operand lhs) op b) (meaning_right operand apply rhs)
  | VLhs l => Some (operand l)
  | _ => None
  end.
(** the operands [x, y1, y2, ...] with the operators between them, folded from the left:
    [((x o1 y1) o2 y2) ...], and from the right: [x o1 (y1 o2 (y2 ...))] *)
Definition from_the_left {B} (operand : val -> B) (apply : B -> val -> B -> B) (x : val) (l : list (val * val)) : B :=
  fold_left (fun b '(o, y) => apply b o (operand y)) l (operand x).
Fixpoint from_the_right {B} (operand : val -> B) (apply : B -> val -> B -> B) (x : val) (l : list (val * val)) : B :=
  match l with
  | [] => operand x
  | (o, y) :: l => apply (operand x) o (from_the_right operand apply y l)
  end.

Theorem C19_values_mean_the_left_fold : forall (U : unicode) E o r s v s', yes (tbeh E (TyLeftAssoc o r)) s v s' ->
  exists x s1 l, yes (tbeh E r) s x s1 /\ tail_yes (tbeh E r) (tbeh E o) s1 l s' /\
    forall B (operand : val -> B) apply, meaning_left operand apply v = Some (from_the_left operand apply x l).
Proof.
  intros U E o r s v s' H. apply left_yes in H as (x & s1 & l & t & H1 & H2 & H3 & ->). exists x, s1, l. split; [exact H1|]. split; [exact H2|].
  intros B operand apply. clear H1 H2. unfold from_the_left. induction H3 as [|l t o' y H3 IH]; cbn [val_of_left meaning_left]; [reflexivity|].
  rewrite IH, fold_left_app. reflexivity.
Qed.
Theorem C20_values_mean_the_right_fold : forall (U : unicode) E o r s v s', yes (tbeh E (TyRightAssoc o r)) s v s' ->
  exists x s1 l, yes (tbeh E r) s x s1 /\ tail_yes (tbeh E r) (tbeh E o) s1 l s' /\
    forall B (operand : val -> B) apply, meaning_right operand apply v = Some (from_the_right operand apply x l).
Proof.
  intros U E o r s v s' H. apply right_yes in H as (x & s1 & l & t & H1 & H2 & H3 & ->). exists x, s1, l. split; [exact H1|]. split; [exact H2|].
  intros B operand apply. clear H1 H2. induction H3 as [x|x o' y l t H3 IH]; cbn [val_of_right meaning_right from_the_right]; [reflexivity|].
  rewrite IH. reflexivity.
Qed.
Section WithTables.
Local Existing Instance ascii_only.
(** [8 - 4 - 2]: the tree read from the left means 2, the tree read from the right means 6 *)
Definition num_of (v : val) : Z := match v with VLit (LInt z) _ => z | _ => 0%Z end.
Definition minus (a : Z) (_ : val) (b : Z) : Z := (a - b)%Z.
Definition nums := start [num "8" 0; punct "-" Alone 2; num "4" 4; punct "-" Alone 6; num "2" 8].
Example C19_ex_meaning : exists v s', yes (tbeh GE (TyLeftAssoc (TyToken [45%N]) (TyLit LtInt))) nums v s' /\ meaning_left num_of minus v = Some 2%Z.
Proof. eexists. eexists. split; [exists 9; vm_compute; reflexivity|vm_compute; reflexivity]. Qed.
Example C20_ex_meaning : exists v s', yes (tbeh GE (TyRightAssoc (TyToken [45%N]) (TyLit LtInt))) nums v s' /\ meaning_right num_of minus v = Some 6%Z.
Proof. eexists. eexists. split; [exists 9; vm_compute; reflexivity|vm_compute; reflexivity]. Qed.
End WithTables.
Print Assumptions C19_values_mean_the_left_fold.
Print Assumptions C20_values_mean_the_right_fold.
