(** * Typed: the values a Rust program can build for each type of a grammar (C10).

    [typed E t v]: [v] is a value of type [t].  The Rust type system guarantees this shape; three
    conditions are about contents, not types, and are what makes a value one that can be
    written down:
    - an [Ident] or [CustomIdent] is not one of the words its type excludes;
    - an integer below a [Lit] is [Lit::Int] only if negative (C26: [Lit::Int(5)] reads back as [Lit::Uint(5)]);
    - a [Many] does not end in a separator. *)
From Verif Require Import Base Float Literal Syn Ast Derive Grammar Spec LitSpec PropLit.

Section Typed.
Context {U : unicode}.
Variable E : env.
Inductive typed : ty -> val -> Prop :=
| td_ident n sp : ~ In n rust_keywords -> typed TyIdent (VIdent n sp)
| td_custom kws n sp : ~ In n kws -> typed (TyCustomIdent kws) (VIdent n sp)
| td_keyword kw sp : typed (TyKeyword kw) (VKw kw sp)
| td_token_kw kw sp : typed (TyTokenKw kw) (VKw kw sp)
| td_token op sps : List.length sps = List.length op -> typed (TyToken op) (VOp op sps)
| td_lit l sp : lit_valid l -> typed (TyLit (litty_of l)) (VLit l sp)
| td_any_lit l sp : lit_valid l -> by_sign l = l -> typed TyAnyLit (VLit l sp)
| td_empty : typed TyEmpty VUnit
| td_eof : typed TyEof VUnit
| td_not_eof : typed TyNotEof VUnit
| td_nothing a b : typed (TyMaybe a b) VNothing
| td_just a b x v : typed a x -> typed b v -> typed (TyMaybe a b) (VJust x v)
| td_group d t sp v : d <> DNone -> typed t v -> typed (TyGroup d t) (VGroup d sp v)
| td_punctuated a p inner last : typed_pairs a p inner -> typed_opt a last ->
    (p = TyNotEof -> last = None -> inner = []) -> typed (TyPunctuated a p) (VPunct inner last)
| td_separated a p inner v : typed_pairs a p inner -> typed a v -> typed (TySeparated a p) (VPunct inner (Some v))
| td_any a l : typed_list a l -> typed (TyAny a) (VList l)
| td_left o r x l t : typed r x -> typed_pairs o r l -> left_form x l t -> typed (TyLeftAssoc o r) (val_of_left t)
| td_right o r x l t : typed r x -> typed_pairs o r l -> right_form x l t -> typed (TyRightAssoc o r) (val_of_right t)
| td_either_l a b v : typed a v -> typed (TyEither a b) (VLeft v)
| td_either_r a b v : typed b v -> typed (TyEither a b) (VRight v)
| td_box a v : typed a v -> typed (TyBox a) v
| td_struct i c vs : E i = DStruct c -> typed_fields (c_fields c) vs -> typed (TyRef i) (VStruct vs)
| td_enum i en cs k c vs : E i = DEnum en cs -> nth_error cs k = Some c -> typed_fields (c_fields c) vs ->
    typed (TyRef i) (VVariant k vs)
with typed_fields : list (label * ty) -> list val -> Prop :=
| tf_nil : typed_fields [] []
| tf_cons l t fs v vs : typed t v -> typed_fields fs vs -> typed_fields ((l, t) :: fs) (v :: vs)
with typed_list : ty -> list val -> Prop :=
| tl_nil t : typed_list t []
| tl_cons t v l : typed t v -> typed_list t l -> typed_list t (v :: l)
with typed_pairs : ty -> ty -> list (val * val) -> Prop :=
| tp_nil a b : typed_pairs a b []
| tp_cons a b x y l : typed a x -> typed b y -> typed_pairs a b l -> typed_pairs a b ((x, y) :: l)
with typed_opt : ty -> option val -> Prop :=
| to_none t : typed_opt t None
| to_some t v : typed t v -> typed_opt t (Some v).

Scheme typed_ind2 := Minimality for typed Sort Prop
  with typed_fields_ind2 := Minimality for typed_fields Sort Prop
  with typed_list_ind2 := Minimality for typed_list Sort Prop
  with typed_pairs_ind2 := Minimality for typed_pairs Sort Prop
  with typed_opt_ind2 := Minimality for typed_opt Sort Prop.

(** Induction: a property of the parts, elementwise, gives it for the whole. *)
Section Ind.
Variable P : ty -> val -> Prop.
Notation Pf := (fun fs vs => Forall2 (fun (f : label * ty) v => P (snd f) v) fs vs).
Notation Pl := (fun t l => Forall (P t) l).
Notation Pp := (fun a b l => Forall (fun x : val * val => P a (fst x) /\ P b (snd x)) l).
Notation Po := (fun t o => forall v : val, o = Some v -> P t v).
Hypothesis H1 : forall n sp, ~ In n rust_keywords -> P TyIdent (VIdent n sp).
Hypothesis H2 : forall kws n sp, ~ In n kws -> P (TyCustomIdent kws) (VIdent n sp).
Hypothesis H3 : forall kw sp, P (TyKeyword kw) (VKw kw sp).
Hypothesis H4 : forall kw sp, P (TyTokenKw kw) (VKw kw sp).
Hypothesis H5 : forall op sps, List.length sps = List.length op -> P (TyToken op) (VOp op sps).
Hypothesis H6 : forall l sp, lit_valid l -> P (TyLit (litty_of l)) (VLit l sp).
Hypothesis H7 : forall l sp, lit_valid l -> by_sign l = l -> P TyAnyLit (VLit l sp).
Hypothesis H8 : P TyEmpty VUnit.
Hypothesis H9 : P TyEof VUnit.
Hypothesis H10 : P TyNotEof VUnit.
Hypothesis H11 : forall a b, P (TyMaybe a b) VNothing.
Hypothesis H12 : forall a b x v, P a x -> P b v -> P (TyMaybe a b) (VJust x v).
Hypothesis H13 : forall d t sp v, d <> DNone -> P t v -> P (TyGroup d t) (VGroup d sp v).
Hypothesis H14 : forall a p inner last, Pp a p inner -> Po a last ->
    (p = TyNotEof -> last = None -> inner = []) -> P (TyPunctuated a p) (VPunct inner last).
Hypothesis H15 : forall a p inner v, Pp a p inner -> P a v -> P (TySeparated a p) (VPunct inner (Some v)).
Hypothesis H16 : forall a l, Pl a l -> P (TyAny a) (VList l).
Hypothesis H17 : forall o r x l t, P r x -> Pp o r l -> left_form x l t -> P (TyLeftAssoc o r) (val_of_left t).
Hypothesis H18 : forall o r x l t, P r x -> Pp o r l -> right_form x l t -> P (TyRightAssoc o r) (val_of_right t).
Hypothesis H19 : forall a b v, P a v -> P (TyEither a b) (VLeft v).
Hypothesis H20 : forall a b v, P b v -> P (TyEither a b) (VRight v).
Hypothesis H21 : forall a v, P a v -> P (TyBox a) v.
Hypothesis H22 : forall i c vs, E i = DStruct c -> Pf (c_fields c) vs -> P (TyRef i) (VStruct vs).
Hypothesis H23 : forall i en cs k c vs, E i = DEnum en cs -> nth_error cs k = Some c -> Pf (c_fields c) vs ->
    P (TyRef i) (VVariant k vs).
Lemma typed_rect : forall t v, typed t v -> P t v.
Proof.
  intros t v H. apply (typed_ind2 P Pf Pl Pp Po); auto.
  1: intros; eapply H17; eassumption.
  1: intros; eapply H18; eassumption.
  1: intros; eapply H22; eassumption.
  1: intros; eapply H23; eassumption.
  - discriminate.
  - intros t0 v0 _ Hp v1 Hv. injection Hv as <-. exact Hp.
Qed.
End Ind.
End Typed.
