(** * C35: derived where-clauses bound exactly the non-recursive field types *)
From Coq Require Import Permutation.
From Verif Require Import Base Bounds.
Local Open Scope nat_scope.

Section PropBounds.
Context {ty pred err : Type} (ty_eq_dec : forall a b : ty, {a = b} + {a <> b}) (union_error : err).
Notation field := (@field ty err).
Notation data := (@data ty err).

(** ** Specification *)
(** the fields of a definition, in source order *)
Inductive has_field : data -> field -> Prop :=
| hf_struct_named l f : In f l -> has_field (DStruct (FNamed l)) f
| hf_struct_tuple l f : In f l -> has_field (DStruct (FUnnamed l)) f
| hf_enum_named vs l f : In (FNamed l) vs -> In f l -> has_field (DEnum vs) f
| hf_enum_tuple vs l f : In (FUnnamed l) vs -> In f l -> has_field (DEnum vs) f.
(** a type that has to be bounded: that of a field not marked recursive *)
Definition bounded (d : data) (t : ty) : Prop := exists f, has_field d f /\ f_attrs f = inl false /\ f_ty f = t.
(** an iteration order of a hash set *)
Definition is_order (order : list ty -> list ty) : Prop := forall l, Permutation l (order l).
Definition given (w : option (list (@predicate ty pred))) := match w with Some l => l | None => [] end.

Lemma collect_ok l ts : collect_result l = inl ts <-> l = map inl ts :> list (ty + err).
Proof.
  revert ts. induction l as [|[t|e] l IH]; intro ts; cbn.
  - split; [injection 1 as <-; reflexivity|]. destruct ts; [reflexivity|discriminate].
  - destruct (collect_result l) as [us|e].
    + split; [injection 1 as <-; cbn; f_equal; apply IH; reflexivity|]. destruct ts as [|u ts]; [discriminate|]. cbn. injection 1 as -> E.
      f_equal. f_equal. apply IH in E. congruence.
    + split; [discriminate|]. destruct ts as [|u ts]; [discriminate|]. cbn. injection 1 as -> E. apply IH in E. discriminate.
  - split; [discriminate|]. destruct ts; discriminate.
Qed.
Lemma collect_err l e : collect_result l = inr e <-> exists ts r, l = map inl ts ++ inr e :: r :> list (ty + err).
Proof.
  induction l as [|[t|e'] l IH]; cbn.
  - split; [discriminate|]. intros (ts & r & E). destruct ts; discriminate.
  - destruct (collect_result l) as [us|e'].
    + split; [discriminate|]. intros (ts & r & E). destruct ts as [|u ts]; [discriminate|]. cbn in E. injection E as <- E. assert (F : inl us = inr e :> list ty + err) by (apply IH; eauto). discriminate.
    + split.
      * injection 1 as ->. destruct (proj1 IH eq_refl) as (ts & r & ->). exists (t :: ts), r. reflexivity.
      * intros (ts & r & E). destruct ts as [|u ts]; [discriminate|]. cbn in E. injection E as <- E. f_equal. assert (F : inr e' = inr e :> list ty + err) by (apply IH; eauto). congruence.
  - split.
    + injection 1 as ->. exists [], l. reflexivity.
    + intros (ts & r & E). destruct ts as [|u ts]; [cbn in E; congruence|discriminate].
Qed.
Lemma results_in (fs : list field) x : In x (field_results fs) <->
  exists f, In f fs /\ match x with inl t => f_attrs f = inl false /\ f_ty f = t | inr e => f_attrs f = inr e end.
Proof.
  unfold field_results. rewrite in_flat_map. split; intros (f & Hf & H); exists f; (split; [exact Hf|]); unfold field_type in *;
    destruct (f_attrs f) as [[|]|e]; cbn in *; destruct x; intuition congruence.
Qed.
Lemma all_results d : d <> DUnion -> exists rs, collect_types union_error d = collect_result rs /\
  forall x, In x rs <-> exists f, has_field d f /\ match x with inl t => f_attrs f = inl false /\ f_ty f = t | inr e => f_attrs f = inr e end.
Proof.
  destruct d as [fs|vs|]; intro H; [| |congruence].
  - destruct fs as [|l|l].
    + exists []. split; [reflexivity|]. intro x. split; [intros []|]. intros (f & F & _). inversion F.
    + exists (field_results l). split; [reflexivity|]. intro x. rewrite results_in. split; intros (f & Hf & Hx); exists f; (split; [|exact Hx]); [constructor; exact Hf|inversion Hf; assumption].
    + exists (field_results l). split; [reflexivity|]. intro x. rewrite results_in. split; intros (f & Hf & Hx); exists f; (split; [|exact Hx]); [constructor; exact Hf|inversion Hf; assumption].
  - eexists. split; [reflexivity|]. intro x. rewrite in_flat_map. split.
    + intros (fs & Hfs & Hx). destruct fs as [|l|l]; [destruct Hx| |]; apply results_in in Hx as (f & Hf & Hx); exists f; (split; [|exact Hx]).
      * eapply hf_enum_named; eassumption.
      * eapply hf_enum_tuple; eassumption.
    + intros (f & Hf & Hx). inversion Hf as [| |vs' l f' Hl Hi|vs' l f' Hl Hi]; subst.
      * exists (FNamed l). split; [exact Hl|]. apply results_in. exists f. auto.
      * exists (FUnnamed l). split; [exact Hl|]. apply results_in. exists f. auto.
Qed.

(** [Parse] and [ToTokens]: the user's predicates first and unchanged, then one bound for every type
    that has to be bounded, none twice, and nothing else; whatever the order of the hash set. *)
Theorem C35_bounds order d w b wc : is_order order -> add_bounds ty_eq_dec union_error order d w b = inl wc ->
  exists ts, wc = given w ++ map (fun t => TypeBound t b) ts /\ NoDup ts /\ forall t, In t ts <-> bounded d t.
Proof.
  intros Ho H. unfold add_bounds in H. destruct (collect_types union_error d) as [ts|e] eqn:E; [|discriminate]. injection H as <-.
  exists (order (nodup ty_eq_dec ts)). split; [reflexivity|]. split; [apply (Permutation_NoDup (Ho _)), NoDup_nodup|].
  assert (Hd : d <> DUnion) by (intros ->; discriminate).
  destruct (all_results d Hd) as (rs & Er & Hrs). rewrite E in Er. symmetry in Er. apply collect_ok in Er. subst rs.
  intro t. transitivity (In t ts).
  - split; intro H.
    + apply (nodup_In ty_eq_dec). apply (Permutation_in _ (Permutation_sym (Ho _))). exact H.
    + apply (Permutation_in _ (Ho _)). apply nodup_In. exact H.
  - transitivity (In (inl t) (map inl ts : list (ty + err))); [|apply (Hrs (inl t))].
    rewrite in_map_iff. split; [intro H; exists t; auto|]. intros (u & Eu & Hu). congruence.
Qed.
(** in particular, which predicates hold of the impl *)
Theorem C35_predicates order d w b wc : is_order order -> add_bounds ty_eq_dec union_error order d w b = inl wc ->
  forall p, In p wc <-> In p (given w) \/ exists t, bounded d t /\ p = TypeBound t b.
Proof.
  intros Ho H p. destruct (C35_bounds order d w b wc Ho H) as (ts & -> & _ & Ht). rewrite in_app_iff, in_map_iff.
  split; (intros [Hp|(t & A & B)]; [left; exact Hp|right; exists t]); [split; [apply Ht; exact B|symmetry; exact A]|split; [symmetry; exact B|apply Ht; exact A]].
Qed.
(** It is an error exactly for unions and for a field whose attributes are malformed. *)
Theorem C35_errors order d w b : (exists e, add_bounds (pred := pred) ty_eq_dec union_error order d w b = inr e) <->
  d = DUnion \/ exists f e, has_field d f /\ f_attrs f = inr e.
Proof.
  unfold add_bounds. split.
  - intros (e & H). destruct (collect_types union_error d) as [ts|e'] eqn:E; [discriminate|]. injection H as ->.
    destruct d as [fs|vs|]; [| |left; reflexivity]; right;
      (match goal with E : collect_types _ ?d = _ |- _ => destruct (all_results d) as (rs & Er & Hrs); [discriminate|]; rewrite E in Er; symmetry in Er; apply collect_err in Er as (ts & r & ->);
        destruct (proj1 (Hrs (inr e))) as (f & Hf & Ha); [apply in_or_app; right; left; reflexivity|]; exists f, e; auto end).
  - intros [->|(f & e & Hf & Ha)]; [cbn; eauto|]. destruct (collect_types union_error d) as [ts|e'] eqn:E; [|eauto]. exfalso.
    assert (Hd : d <> DUnion) by (intros ->; inversion Hf). destruct (all_results d Hd) as (rs & Er & Hrs). rewrite E in Er. symmetry in Er. apply collect_ok in Er. subst rs.
    assert (F : In (inr e) (map inl ts : list (ty + err))) by (apply (Hrs (inr e)); exists f; auto). apply in_map_iff in F as (u & F & _). discriminate.
Qed.
(** the error for a union is the documented one, and both derives report it *)
Theorem C35_union order w : derive_parse ty_eq_dec union_error order DUnion w = inr union_error :> list (@predicate ty pred) + err /\
  derive_to_tokens ty_eq_dec union_error order DUnion w = inr union_error :> list (@predicate ty pred) + err.
Proof. split; reflexivity. Qed.
Theorem C35_parse_and_to_tokens order d w : d <> DUnion ->
  derive_parse (pred := pred) ty_eq_dec union_error order d w = add_bounds ty_eq_dec union_error order d w TParse /\
  derive_to_tokens (pred := pred) ty_eq_dec union_error order d w = add_bounds ty_eq_dec union_error order d w TToTokens.
Proof. destruct d; intro H; [split; reflexivity|split; reflexivity|congruence]. Qed.
(** [Display] and [FromStr] add one bound on [Self] only. *)
Theorem C35_self_bounds w : derive_display (ty := ty) (pred := pred) w = given w ++ [SelfBound TToTokens] /\ derive_from_str (ty := ty) (pred := pred) w = given w ++ [SelfBound TParse].
Proof. split; reflexivity. Qed.
(** The set of bounds does not depend on the order of the hash set. *)
Theorem C35_order_irrelevant o1 o2 d (w : option (list (@predicate ty pred))) b w1 w2 : is_order o1 -> is_order o2 ->
  add_bounds ty_eq_dec union_error o1 d w b = inl w1 -> add_bounds ty_eq_dec union_error o2 d w b = inl w2 -> Permutation w1 w2.
Proof.
  intros H1 H2 E1 E2. unfold add_bounds in *. destruct (collect_types union_error d) as [ts|e]; [|discriminate]. injection E1 as <-. injection E2 as <-.
  apply Permutation_app_head, Permutation_map. transitivity (nodup ty_eq_dec ts); [symmetry; apply H1|apply H2].
Qed.
End PropBounds.

(** An enum with repeated, recursive and plain fields *)
Example C35_example :
  let e := DEnum [FNamed [Field 1 (inl false); Field 2 (inl true)]; FUnit; FUnnamed [Field 1 (inl false); Field 3 (inl false)]] in
  add_bounds Nat.eq_dec 0 (@rev nat) e (Some [User true]) TParse = inl [User true; TypeBound 3 TParse; TypeBound 1 TParse] /\
  is_order (@rev nat) /\ bounded e 3 /\ ~ bounded (err := nat) e 2.
Proof.
  split; [reflexivity|]. split; [intro l; apply Permutation_rev|]. split.
  - exists (Field 3 (inl false)). split; [|auto]. eapply hf_enum_tuple; [right; right; left; reflexivity|right; left; reflexivity].
  - intros (f & Hf & Ha & Ht). inversion Hf as [| |vs l f' Hl Hi|vs l f' Hl Hi]; subst; cbn in Hl; intuition (try discriminate); match goal with H : _ = _ |- _ => injection H as <- end; cbn in Hi; intuition (subst; discriminate).
Qed.

Print Assumptions C35_bounds.
Print Assumptions C35_predicates.
Print Assumptions C35_errors.
Print Assumptions C35_union.
Print Assumptions C35_parse_and_to_tokens.
Print Assumptions C35_self_bounds.
Print Assumptions C35_order_irrelevant.
