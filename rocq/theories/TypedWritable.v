(** * TypedWritable: values of a type can be written down if their identifiers can (C38, C48). *)
From Verif Require Import Base Float Literal Syn Ast Derive Grammar Spec LitSpec Reprint Sound PropLit Typed LL1 LL1Facts
  Lexer LexFacts LexWf LexOut LexPrint Writable ParsedTyped PropAgain.
Local Open Scope nat_scope.

(** the identifiers of a value *)
Fixpoint val_words (v : val) : list text :=
  match v with
  | VIdent n _ => [n]
  | VJust x y => val_words x ++ val_words y
  | VGroup _ _ x | VRhs x | VLhs x | VLeft x | VRight x => val_words x
  | VPunct inner last =>
      List.concat (map (fun '(x, y) => val_words x ++ val_words y) inner) ++ match last with Some x => val_words x | None => [] end
  | VList l | VStruct l | VVariant _ l => List.concat (map val_words l)
  | VBinL l o r | VBinR l o r => val_words l ++ val_words o ++ val_words r
  | _ => []
  end.

Section TW.
Context {U : unicode}.
(** operators are operators of Rust, keywords are words *)
Definition rust_leaf (t : ty) : Prop :=
  match t with TyToken op => op_ok op | TyKeyword kw | TyTokenKw kw => ident_ok kw | _ => True end.
Notation okw v := (Forall ident_ok (val_words v)).
Notation Q := (fun t v => leaves rust_leaf t -> okw v -> writable v).
Lemma words_left x l t : left_form x l t -> val_words (val_of_left t) = val_words x ++ List.concat (map (fun '(o, y) => val_words o ++ val_words y) l).
Proof.
  induction 1 as [|l t o y H IH]; cbn [val_of_left val_words]; [symmetry; apply app_nil_r|]. rewrite IH, map_app, List.concat_app. cbn. rewrite app_nil_r, <- app_assoc. reflexivity.
Qed.
Lemma words_right x l t : right_form x l t -> val_words (val_of_right t) = val_words x ++ List.concat (map (fun '(o, y) => val_words o ++ val_words y) l).
Proof.
  induction 1 as [|x o y l t H IH]; cbn [val_of_right val_words map List.concat]; [symmetry; apply app_nil_r|]. rewrite IH, <- app_assoc. reflexivity.
Qed.
Lemma pairs_w a b (l : list (val * val)) : leaves rust_leaf a -> leaves rust_leaf b -> Forall (fun x => Q a (fst x) /\ Q b (snd x)) l ->
  Forall ident_ok (List.concat (map (fun '(x, y) => val_words x ++ val_words y) l)) -> Forall (fun x => writable (fst x) /\ writable (snd x)) l.
Proof.
  intros Ha Hb H. induction H as [|(x, y) l (Hx & Hy) H IH]; intro Hf; [constructor|]. cbn [map List.concat] in Hf. apply Forall_app in Hf as (Hf1 & Hf2). apply Forall_app in Hf1 as (Hfx & Hfy).
  constructor; [split; auto|apply IH; exact Hf2].
Qed.
Lemma pairs_fix (l : list (val * val)) : Forall (fun x => writable (fst x) /\ writable (snd x)) l ->
  (fix pairs l := match l with [] => True | (x, y) :: r => writable x /\ writable y /\ pairs r end) l.
Proof. induction 1 as [|(x, y) l (Hx & Hy) _ IH]; [exact I|]. auto. Qed.
Lemma fields_w (fs : list (label * ty)) vs : Forall (fun f => leaves rust_leaf (snd f)) fs -> Forall2 (fun (f : label * ty) v => Q (snd f) v) fs vs ->
  Forall ident_ok (List.concat (map val_words vs)) -> (fix all l := match l with [] => True | x :: r => writable x /\ all r end) vs.
Proof.
  intros Hl H. revert Hl. induction H as [|f v fs vs Hv H IH]; intros Hl Hf; [exact I|]. cbn [map List.concat] in Hf. apply Forall_app in Hf as (H1 & H2).
  inversion Hl; subst. split; [auto|exact (IH H5 H2)].
Qed.
Theorem typed_writable E t v : env_leaves rust_leaf E -> leaves rust_leaf t -> typed E t v -> okw v -> writable v.
Proof.
  intros HE Ht H. revert Ht. revert t v H. apply (typed_rect E Q).
  - intros n sp _ _ H. inversion H; subst. assumption.
  - intros kws n sp _ _ H. inversion H; subst. assumption.
  - intros kw sp H _. exact H.
  - intros kw sp H _. exact H.
  - intros op sps Hl H _. split; assumption.
  - intros l sp Hv _ _. exact Hv.
  - intros l sp Hv _ _ _. exact Hv.
  - intros; exact I.
  - intros; exact I.
  - intros; exact I.
  - intros; exact I.
  - intros a b x v Hx Hv (Ha & Hb) Hf. apply Forall_app in Hf as (H1 & H2). split; auto.
  - intros d t sp v Hd Hv Ht Hf. split; [exact Hd|]. apply Hv; [|exact Hf]. destruct d; exact Ht.
  - intros a p inner last Hi Hl _ (Ha & Hb) Hf. cbn [val_words] in Hf. apply Forall_app in Hf as (H1 & H2). cbn [writable]. split.
    + apply pairs_fix. exact (pairs_w a p inner Ha Hb Hi H1).
    + destruct last as [v|]; [|exact I]. apply (Hl v eq_refl); assumption.
  - intros a p inner v Hi Hv (Ha & Hb) Hf. cbn [val_words] in Hf. apply Forall_app in Hf as (H1 & H2). cbn [writable]. split; [|auto].
    apply pairs_fix. exact (pairs_w a p inner Ha Hb Hi H1).
  - intros a l Hl Ha Hf. cbn [writable]. cbn [val_words] in Hf. cbn [leaves] in Ha. induction Hl as [|v l Hv Hl IH]; [exact I|]. cbn [map List.concat] in Hf. apply Forall_app in Hf as (H1 & H2). split; [auto|exact (IH H2)].
  - intros o r x l t Hx Hl Hform (Ho & Hr) Hf. rewrite (words_left _ _ _ Hform) in Hf. apply Forall_app in Hf as (H1 & H2).
    eapply writable_left; [exact Hform| |exact (pairs_w o r l Ho Hr Hl H2)]. auto.
  - intros o r x l t Hx Hl Hform (Ho & Hr) Hf. rewrite (words_right _ _ _ Hform) in Hf. apply Forall_app in Hf as (H1 & H2).
    eapply writable_right; [exact Hform| |exact (pairs_w o r l Ho Hr Hl H2)]. auto.
  - intros a b v Hv (Ha & Hb) Hf. cbn. auto.
  - intros a b v Hv (Ha & Hb) Hf. cbn. auto.
  - intros a v Hv Ha Hf. auto.
  - intros i c vs Hi Hfs _ Hf. pose proof (HE i) as L. rewrite Hi in L. exact (fields_w (c_fields c) vs L Hfs Hf).
  - intros i en cs k c vs Hi Hk Hfs _ Hf. pose proof (HE i) as L. rewrite Hi in L. cbn [def_leaves] in L. rewrite Forall_forall in L. apply nth_error_In in Hk. exact (fields_w (c_fields c) vs (L c Hk) Hfs Hf).
Qed.

(** The conditions on the leaves of a grammar can be computed. *)
Section Check.
Variable P : ty -> bool.
Fixpoint leavesb (t : ty) : bool :=
  match t with
  | TyMaybe a b | TyPunctuated a b | TySeparated a b | TyLeftAssoc a b | TyRightAssoc a b | TyEither a b => leavesb a && leavesb b
  | TyParen a | TyBracket a | TyBrace a | TyAny a | TyBox a => leavesb a
  | TyRef _ => true
  | _ => P t
  end.
Definition fieldsb (c : ctor) : bool := forallb (fun f => leavesb (snd f)) (c_fields c).
Definition defb (d : tdef) : bool := match d with DStruct c => fieldsb c | DEnum _ cs => forallb fieldsb cs end.
Variable R : ty -> Prop.
Hypothesis HP : forall t, P t = true -> R t.
Lemma leavesb_ok t : leavesb t = true -> leaves R t.
Proof. induction t; cbn [leavesb leaves]; intro H; auto; try (apply andb_true_iff in H as (H1 & H2); auto). Qed.
Lemma fieldsb_ok c : fieldsb c = true -> Forall (fun f => leaves R (snd f)) (c_fields c).
Proof. unfold fieldsb. rewrite forallb_forall. intro H. apply Forall_forall. intros f Hf. apply leavesb_ok. auto. Qed.
Lemma defb_ok d : defb d = true -> def_leaves R d.
Proof.
  destruct d as [c|n cs]; cbn [defb def_leaves]; [apply fieldsb_ok|]. rewrite forallb_forall. intro H. apply Forall_forall. intros c Hc. apply fieldsb_ok. auto.
Qed.
Lemma env_ok g : forallb defb g = true -> env_leaves R (TermCheck.env_of g).
Proof.
  rewrite forallb_forall. intros H i. apply defb_ok. unfold TermCheck.env_of.
  destruct (Nat.lt_ge_cases i (List.length g)) as [L|L]; [apply H; apply nth_In; exact L|]. rewrite nth_overflow by exact L. reflexivity.
Qed.
End Check.

(** ASCII words are words, whatever the Unicode tables *)
Definition ascii_word (n : text) : bool :=
  match n with
  | c :: r => ((c =? 95)%N || ((c <? 128)%N && is_alpha c)) && forallb (fun c => (c <? 128)%N && ((c =? 95)%N || is_alpha c || is_digit c)) r
  | [] => false
  end.
Lemma ascii_word_ok n : ascii_word n = true -> ident_ok n.
Proof.
  destruct n as [|c r]; [discriminate|]. cbn [ascii_word]. rewrite andb_true_iff. intros (Hc & Hr). left. exists c, r. split; [reflexivity|]. split.
  - unfold ident_start, xid_start. apply orb_true_iff in Hc as [-> |Hc]; [reflexivity|]. apply andb_true_iff in Hc as (-> & ->). apply orb_true_r.
  - rewrite forallb_forall in Hr. apply Forall_forall. intros d Hd. specialize (Hr d Hd). apply andb_true_iff in Hr as (Hd1 & Hd2).
    unfold xid_continue. rewrite Hd1. revert Hd2. clear. destruct (d =? 95)%N, (is_alpha d), (is_digit d); cbn; auto.
Qed.
Definition rust_leafb (t : ty) : bool :=
  match t with TyToken op => op_okb op | TyKeyword kw | TyTokenKw kw => ascii_word kw | _ => true end.
Lemma rust_leafb_ok t : rust_leafb t = true -> rust_leaf t.
Proof. destruct t; cbn; auto using op_okb_ok, ascii_word_ok. Qed.
End TW.
