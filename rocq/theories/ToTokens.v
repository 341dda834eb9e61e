(** * ToTokens: printing directed by the type, as Rust's trait dispatch does it.

    [Grammar.print] looks at the value only.  Here [<t as ToTokens>::to_tokens] is built from the
    printers of [Ast.v] (one per node type) and [Derive.v] (one per derived type), exactly as
    [Grammar.pty] is built from their parsers, and the two are shown to agree. *)
From Verif Require Import Base Float Literal Syn Ast Derive Grammar Spec LitSpec LiteralFacts Reprint LitDenote
  SynFacts Lawful Mono Combinators GrammarBeh Assoc ManyFacts Sound PropLit Typed ParsedTyped.
Local Open Scope nat_scope.

(** The associative nodes as the enums of ast.rs:3360-3372 and 3553-3565. *)
Fixpoint left_of (v : val) : left_assoc val val :=
  match v with VBinL l o r => LBinary (left_of l) o r | VRhs r => LRhs r | x => LRhs x end.
Fixpoint right_of (v : val) : right_assoc val val :=
  match v with VBinR l o r => RBinary l o (right_of r) | VLhs l => RLhs l | x => RLhs x end.

Section ToTokens.
Context {U : unicode}.
(** what a printer answers for a value that is not of its type, or without fuel *)
Variable d : option (list tt).
Variable E : env.

(** The printer of a definition, given the printer [q] of its field types:
    parsel_derive/src/to_tokens.rs:11-40 [expand], 42-73 [expand_struct], 75-123 [expand_enum] *)
Definition t_def (q : ty -> printer val) (x : tdef) : printer val := fun v =>
  match x, v with
  | DStruct c, VStruct vs => print_fields (map (fun f => q (snd f)) (c_fields c)) vs
  | DEnum _ cs, VVariant k vs => print_enum (map (fun c => map (fun f => q (snd f)) (c_fields c)) cs) (k, vs)
  | _, _ => d
  end.

(** One layer: the [ToTokens] impl of each node type (cited at the printers of [Ast.v]). [Box<T>] prints its contents (quote). *)
Definition t_layer (q : ty -> printer val) (t : ty) : printer val := fun v =>
  match t, v with
  | TyIdent, VIdent n sp | TyCustomIdent _, VIdent n sp => print_ident (n, sp)
  | TyKeyword kw, VKw _ sp | TyTokenKw kw, VKw _ sp => print_keyword kw sp
  | TyToken op, VOp _ sps => print_token op sps
  | TyLit _, VLit l sp | TyAnyLit, VLit l sp => print_lit l sp
  | TyEmpty, VUnit | TyEof, VUnit | TyNotEof, VUnit => print_unit Datatypes.tt
  | TyMaybe a b, VNothing => print_maybe (q a) (q b) None
  | TyMaybe a b, VJust x y => print_maybe (q a) (q b) (Some (x, y))
  | TyParen a, VGroup _ sp x => print_group DParen (q a) (sp, x)
  | TyBracket a, VGroup _ sp x => print_group DBracket (q a) (sp, x)
  | TyBrace a, VGroup _ sp x => print_group DBrace (q a) (sp, x)
  | TyPunctuated a b, VPunct i l | TySeparated a b, VPunct i l => print_punctuated (q a) (q b) (Pn i l)
  | TyAny a, VList l => print_any (q a) l
  | TyLeftAssoc o r, _ => print_left (q o) (q r) (left_of v)
  | TyRightAssoc o l, _ => print_right (q o) (q l) (right_of v)
  | TyEither a b, VLeft x => print_either (q a) (q b) (ELeft x)
  | TyEither a b, VRight x => print_either (q a) (q b) (ERight x)
  | TyBox a, _ => q a v
  | TyRef i, _ => t_def q (E i) v
  | _, _ => d
  end.

(** [<t as ToTokens>::to_tokens] with fuel [n] bounding the nesting depth. *)
Fixpoint to_tokens (n : nat) (t : ty) : printer val := fun v =>
  match n with O => d | S m => t_layer (to_tokens m) t v end.
End ToTokens.

Section Agree.
Context {U : unicode}.
Variable E : env.
Definition agree (t : ty) (v : val) : Prop := exists n0, forall d n, n0 <= n -> to_tokens d E n t v = print v.
Notation Pp := (fun a b l => Forall (fun x : val * val => agree a (fst x) /\ agree b (snd x)) l).

Lemma agree_layer t v : (exists n0, forall d n, n0 <= n -> t_layer d E (to_tokens d E n) t v = print v) -> agree t v.
Proof.
  intros (n0 & H). exists (S n0). intros d [|n] Hn; [lia|]. cbn [to_tokens]. apply H. lia.
Qed.
Lemma agree_all a l : Forall (agree a) l -> exists n0, forall d n, n0 <= n -> map (to_tokens d E n a) l = map print l.
Proof.
  induction 1 as [|x l (n1 & H1) _ (n2 & H2)]; [exists 0; reflexivity|]. exists (n1 + n2). intros d n Hn. cbn [map]. rewrite H1, H2 by lia. reflexivity.
Qed.
Lemma agree_pairs a b l : Pp a b l -> exists n0, forall d n, n0 <= n ->
  map (fun '(x, y) => oapp (to_tokens d E n a x) (to_tokens d E n b y)) l = map (fun '(x, y) => oapp (print x) (print y)) l.
Proof.
  induction 1 as [|(x, y) l ((n1 & H1) & (n3 & H3)) _ (n2 & H2)]; [exists 0; reflexivity|]. exists (n1 + n2 + n3). intros d n Hn. cbn [map]. cbn [fst snd] in *. rewrite H1, H2, H3 by lia. reflexivity.
Qed.
Lemma agree_punct a b i l : Pp a b i -> (forall v, l = Some v -> agree a v) ->
  exists n0, forall d n, n0 <= n -> print_punctuated (to_tokens d E n a) (to_tokens d E n b) (Pn i l) = print (VPunct i l).
Proof.
  intros Hi Hl. destruct (agree_pairs _ _ _ Hi) as (n1 & H1). unfold print_punctuated. cbn [pn_inner pn_last print]. destruct l as [x|].
  - destruct (Hl x eq_refl) as (n2 & H2). exists (n1 + n2). intros d n Hn. rewrite H1, H2 by lia. reflexivity.
  - exists n1. intros d n Hn. rewrite H1 by lia. reflexivity.
Qed.
Lemma left_of_val (t : left_assoc val val) : left_of (val_of_left t) = t.
Proof. induction t as [l IH o r|r]; cbn; [rewrite IH|]; reflexivity. Qed.
Lemma right_of_val (t : right_assoc val val) : right_of (val_of_right t) = t.
Proof. induction t as [l o r IH|r]; cbn; [rewrite IH|]; reflexivity. Qed.
Lemma agree_left o r x l t : agree r x -> Pp o r l -> left_form x l t -> exists n0, forall d n, n0 <= n -> print_left (to_tokens d E n o) (to_tokens d E n r) t = print (val_of_left t).
Proof.
  intros (n1 & H1) Hl Hf. revert Hl. induction Hf as [|l t p y Hf IH]; intro Hl; [exists n1; intros d n Hn; cbn; auto|].
  apply Forall_app in Hl as (Hl & Hy). inversion Hy as [|? ? ((n3 & H3) & (n4 & H4)) _]; subst. destruct (IH Hl) as (n2 & H2).
  exists (n2 + n3 + n4). intros d n Hn. cbn [print_left val_of_left print]. cbn [fst snd] in *. rewrite H2, H3, H4 by lia. reflexivity.
Qed.
Lemma agree_right o r x l t : agree r x -> Pp o r l -> right_form x l t -> exists n0, forall d n, n0 <= n -> print_right (to_tokens d E n o) (to_tokens d E n r) t = print (val_of_right t).
Proof.
  intros H Hl Hf. revert H Hl. induction Hf as [x|x p y l t Hf IH]; intros (n1 & H1) Hl; [exists n1; intros d n Hn; cbn; auto|].
  inversion Hl as [|? ? ((n3 & H3) & Hy) Hl']; subst. cbn [fst snd] in *. destruct (IH Hy Hl') as (n2 & H2).
  exists (n1 + n2 + n3). intros d n Hn. cbn [print_right val_of_right print]. rewrite H1, H2, H3 by lia. reflexivity.
Qed.
Lemma agree_fields (fs : list (label * ty)) vs : Forall2 (fun f v => agree (snd f) v) fs vs ->
  exists n0, forall d n, n0 <= n -> print_fields (map (fun f => to_tokens d E n (snd f)) fs) vs = oconcat (map print vs).
Proof.
  induction 1 as [|f v fs vs (n1 & H1) _ (n2 & H2)]; [exists 0; reflexivity|]. exists (n1 + n2). intros d n Hn. cbn [map print_fields oconcat fold_right]. rewrite H1, H2 by lia. reflexivity.
Qed.

Ltac now_print := apply agree_layer; exists 0; intros; reflexivity.
Lemma agree_just a b x v : agree a x -> agree b v -> agree (TyMaybe a b) (VJust x v).
Proof. intros (n1 & H1) (n2 & H2). apply agree_layer. exists (n1 + n2). intros d n Hn. cbn [t_layer print_maybe print]. rewrite H1, H2 by lia. reflexivity. Qed.
Lemma agree_group d t sp v : d <> DNone -> agree t v -> agree (TyGroup d t) (VGroup d sp v).
Proof. intros Hd (n1 & H1). apply agree_layer. exists n1. intros z n Hn. destruct d; try congruence; cbn [TyGroup t_layer]; unfold print_group; cbn [print fst snd]; rewrite H1 by lia; reflexivity. Qed.
Lemma agree_punctuated a p i l : Pp a p i -> (forall v, l = Some v -> agree a v) -> agree (TyPunctuated a p) (VPunct i l).
Proof. intros H1 H2. apply agree_layer. exact (agree_punct _ _ _ _ H1 H2). Qed.
Lemma agree_separated a p i v : Pp a p i -> agree a v -> agree (TySeparated a p) (VPunct i (Some v)).
Proof. intros H1 H2. apply agree_layer. apply (agree_punct _ _ _ _ H1). intros w Hw. injection Hw as <-. exact H2. Qed.
Lemma agree_any a l : Forall (agree a) l -> agree (TyAny a) (VList l).
Proof. intro H. destruct (agree_all _ _ H) as (n1 & H1). apply agree_layer. exists n1. intros d n Hn. cbn [t_layer print]. unfold print_any. rewrite H1 by exact Hn. reflexivity. Qed.
Lemma agree_lassoc o r x l t : agree r x -> Pp o r l -> left_form x l t -> agree (TyLeftAssoc o r) (val_of_left t).
Proof. intros Hx Hl Hf. destruct (agree_left _ _ _ _ _ Hx Hl Hf) as (n1 & H1). apply agree_layer. exists n1. intros d n Hn. cbn [t_layer]. rewrite left_of_val. auto. Qed.
Lemma agree_rassoc o r x l t : agree r x -> Pp o r l -> right_form x l t -> agree (TyRightAssoc o r) (val_of_right t).
Proof. intros Hx Hl Hf. destruct (agree_right _ _ _ _ _ Hx Hl Hf) as (n1 & H1). apply agree_layer. exists n1. intros d n Hn. cbn [t_layer]. rewrite right_of_val. auto. Qed.
Lemma agree_either_l a b v : agree a v -> agree (TyEither a b) (VLeft v).
Proof. intros (n1 & H1). apply agree_layer. exists n1. intros d n Hn. cbn [t_layer print_either print]. apply H1. exact Hn. Qed.
Lemma agree_either_r a b v : agree b v -> agree (TyEither a b) (VRight v).
Proof. intros (n1 & H1). apply agree_layer. exists n1. intros d n Hn. cbn [t_layer print_either print]. apply H1. exact Hn. Qed.
Lemma agree_box a v : agree a v -> agree (TyBox a) v.
Proof. intros (n1 & H1). apply agree_layer. exists n1. intros d n Hn. cbn [t_layer]. apply H1. exact Hn. Qed.
Lemma agree_struct i c vs : E i = DStruct c -> Forall2 (fun (f : label * ty) v => agree (snd f) v) (c_fields c) vs -> agree (TyRef i) (VStruct vs).
Proof. intros Hi Hf. destruct (agree_fields _ _ Hf) as (n1 & H1). apply agree_layer. exists n1. intros d n Hn. cbn [t_layer]. rewrite Hi. cbn [t_def print]. apply H1. exact Hn. Qed.
Lemma agree_enum i en cs k c vs : E i = DEnum en cs -> nth_error cs k = Some c ->
  Forall2 (fun (f : label * ty) v => agree (snd f) v) (c_fields c) vs -> agree (TyRef i) (VVariant k vs).
Proof.
  intros Hi Hk Hf. destruct (agree_fields _ _ Hf) as (n1 & H1). apply agree_layer. exists n1. intros d n Hn. cbn [t_layer]. rewrite Hi. cbn [t_def print]. unfold print_enum.
  cbn [fst snd]. rewrite (map_nth_error _ _ _ Hk). apply H1. exact Hn.
Qed.

Theorem typed_agree t v : typed E t v -> agree t v.
Proof.
  apply typed_rect; try (intros; now_print).
  - exact agree_just.
  - exact agree_group.
  - intros a p i l H1 H2 _. apply agree_punctuated; assumption.
  - exact agree_separated.
  - exact agree_any.
  - exact agree_lassoc.
  - exact agree_rassoc.
  - exact agree_either_l.
  - exact agree_either_r.
  - exact agree_box.
  - exact agree_struct.
  - exact agree_enum.
Qed.
Lemma leaves_any t : leaves (fun _ => True) t.
Proof. induction t; cbn [leaves]; auto. Qed.
Lemma env_any : env_leaves (fun _ => True) E.
Proof.
  intro i. unfold def_leaves. destruct (E i) as [c|n cs].
  - apply Forall_forall. intros f _. apply leaves_any.
  - apply Forall_forall. intros c _. apply Forall_forall. intros f _. apply leaves_any.
Qed.
Theorem parsed_agree n t s v s' : pty E n t s = (OOk v, s') -> agree t v.
Proof.
  intro H. pose proof env_any as HE. pose proof (leaves_any t) as Ht. refine (parse_ind E (fun _ => True) (fun _ _ _ _ => I) (fun _ _ _ _ _ => I) (fun _ => True) HE agree _ _ _ _ _ _ _ _ _ _ _ _ _ _ _ _ _ _ _ _ _ _ _ n t Ht s v s' I H); clear n t s v s' Ht H; try (intros; now_print).
  - exact agree_just.
  - exact agree_group.
  - intros a p i l H1 H2 _. apply agree_punctuated; assumption.
  - exact agree_separated.
  - exact agree_any.
  - exact agree_lassoc.
  - exact agree_rassoc.
  - exact agree_either_l.
  - exact agree_either_r.
  - exact agree_box.
  - exact agree_struct.
  - exact agree_enum.
Qed.
End Agree.
