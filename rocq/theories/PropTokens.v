(** * C07, C43: what a value prints is decided by the [ToTokens] impls of its types.

    All properties about printing are stated with [Grammar.print], which looks at the value only.
    Rust selects the [ToTokens] impl by the type: these theorems say that both give the same tokens
    for every value a program can hold. *)
From Verif Require Import Base Float Literal Syn Ast Derive Grammar Spec LitSpec Reprint Sound Examples PropLit Typed ParsedTyped PropAgain ToTokens.
Local Open Scope nat_scope.

(** [d] is what the printer would answer for a value of another type or without fuel: the answer does not depend on it. *)
Theorem C07_to_tokens_by_type : forall (U : unicode) E t v, typed E t v ->
  exists n0, forall d n, n0 <= n -> to_tokens d E n t v = print v.
Proof. intros U E t v H. exact (typed_agree E t v H). Qed.
Print Assumptions C07_to_tokens_by_type.
Theorem C07_parsed_to_tokens_by_type : forall (U : unicode) E t s v s', (exists n, pty E n t s = (OOk v, s')) ->
  exists n0, forall d n, n0 <= n -> to_tokens d E n t v = print v.
Proof. intros U E t s v s' (n & H). exact (parsed_agree E n t s v s' H). Qed.
Print Assumptions C07_parsed_to_tokens_by_type.

(** ** C43 with the types of the fields *)
Lemma fields_by_type {U : unicode} E fs : forall vs, typed_fields E fs vs -> exists n0, forall d n, n0 <= n ->
  print (VStruct vs) = oconcat (map (fun fv => to_tokens d E n (snd (fst fv)) (snd fv)) (combine fs vs)).
Proof.
  induction fs as [|(l, t) fs IH]; intros vs H; inversion H as [|l0 t0 fs0 v vs' Hv Hf]; subst; [exists 0; reflexivity|].
  destruct (IH _ Hf) as (n1 & H1). destruct (typed_agree E t v Hv) as (n2 & H2). exists (n1 + n2). intros d n Hn.
  cbn [combine map fst snd oconcat fold_right print] in *. rewrite H2 by lia. unfold oconcat in H1. rewrite <- (H1 d n) by lia. reflexivity.
Qed.
(** A struct prints what its fields print under their own types, in declaration order; *)
Theorem C43_struct_by_type : forall (U : unicode) E i c vs, E i = DStruct c -> typed E (TyRef i) (VStruct vs) ->
  exists n0, forall d n, n0 <= n ->
    print (VStruct vs) = oconcat (map (fun fv => to_tokens d E n (snd (fst fv)) (snd fv)) (combine (c_fields c) vs)).
Proof.
  intros U E i c vs Hi H. inversion H; subst. match goal with K : E i = DStruct _, K2 : typed_fields _ _ _ |- _ => rename K2 into Hf end. match goal with K : E i = DStruct c0 |- _ => rename K into Hd end. rewrite Hi in Hd. injection Hd as <-.
  exact (fields_by_type E _ _ Hf).
Qed.
Print Assumptions C43_struct_by_type.
(** ... and an enum what the fields of its active variant print. *)
Theorem C43_enum_by_type : forall (U : unicode) E i en cs k c vs, E i = DEnum en cs -> nth_error cs k = Some c -> typed E (TyRef i) (VVariant k vs) ->
  exists n0, forall d n, n0 <= n ->
    print (VVariant k vs) = oconcat (map (fun fv => to_tokens d E n (snd (fst fv)) (snd fv)) (combine (c_fields c) vs)).
Proof.
  intros U E i en cs k c vs Hi Hk H. inversion H; subst. match goal with K2 : typed_fields _ _ _ |- _ => rename K2 into Hf end. match goal with K : E i = DEnum _ ?x, K1 : nth_error ?x k = Some ?y, _ : typed_fields _ (c_fields ?y) _ |- _ => rename K into Hd; rename K1 into Hk0 end. rewrite Hi in Hd. injection Hd as <- <-. rewrite Hk in Hk0. injection Hk0 as <-.
  exact (fields_by_type E _ _ Hf).
Qed.
Print Assumptions C43_enum_by_type.

(** An instance: the struct [Assign] of [Examples.v] (a struct, an enum, a group and a list), printed by its types. *)
Section WithTables.
Local Existing Instance ascii_only.
Example C07_ex_by_type : to_tokens None GE 20 (TyRef assign) val1 = print val1 /\ print val1 = Some src1.
Proof. vm_compute. auto. Qed.
End WithTables.
