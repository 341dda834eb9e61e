(** * Assoc: associative trees and flat operator sequences. *)
From Verif Require Import Base Float Literal Syn Ast Derive Grammar Spec SynFacts Lawful Mono Combinators GrammarBeh.

(** into_first_rest / into_last_rest *)
Lemma first_rest_loop_spec {A P} (l : list (P * A)) : forall (punct : P) (v : A) acc,
  let '(ps, z) := pairs_of v l in
  first_rest_loop punct (map (fun '(v, p) => PPunctuated v p) ps ++ [PEnd z]) acc
  = rev acc ++ (punct, v) :: l.
Proof.
  induction l as [|[p w] l IH]; intros punct v acc; cbn [pairs_of].
  - cbn. reflexivity.
  - specialize (IH p w ((punct, v) :: acc)). destruct (pairs_of w l) as [ps z]. cbn.
    rewrite IH. cbn. rewrite <- app_assoc. reflexivity.
Qed.
Lemma into_first_rest_spec {A P} (v : A) (l : list (P * A)) :
  into_first_rest (Pn (fst (pairs_of v l)) (Some (snd (pairs_of v l)))) = Some (v, l).
Proof.
  destruct l as [|[p w] l]; cbn; [reflexivity|].
  pose proof (first_rest_loop_spec l p w []) as H. destruct (pairs_of w l) as [ps z].
  cbn [fst snd]. unfold into_first_rest, into_pairs. cbn [pn_inner pn_last map app].
  rewrite H. reflexivity.
Qed.
Lemma last_rest_loop_spec {A P} (inner : list (A * P)) z : forall acc,
  last_rest_loop (map (fun '(v, p) => PPunctuated v p) inner ++ [PEnd z]) acc = Some (z, rev acc ++ inner).
Proof.
  induction inner as [|[v p] inner IH]; intro acc; cbn.
  - rewrite app_nil_r. reflexivity.
  - rewrite IH. cbn. rewrite <- app_assoc. reflexivity.
Qed.
Lemma into_last_rest_spec {A P} (inner : list (A * P)) z :
  into_last_rest (Pn inner (Some z)) = Some (z, inner).
Proof. unfold into_last_rest, into_pairs. cbn [pn_inner pn_last]. apply (last_rest_loop_spec inner z []). Qed.

(** every (pairs, last value) is an operand followed by (operator, operand)s *)
Fixpoint unpairs {A P} (inner : list (A * P)) (z : A) : A * list (P * A) :=
  match inner with
  | [] => (z, [])
  | (v, p) :: r => let '(w, l) := unpairs r z in (v, (p, w) :: l)
  end.
Lemma pairs_unpairs {A P} (inner : list (A * P)) z :
  pairs_of (fst (unpairs inner z)) (snd (unpairs inner z)) = (inner, z).
Proof.
  induction inner as [|[v p] r IH]; cbn; [reflexivity|].
  destruct (unpairs r z) as [w l]; cbn in *. rewrite IH. reflexivity.
Qed.
Lemma unpairs_pairs {A P} (v : A) (l : list (P * A)) :
  unpairs (fst (pairs_of v l)) (snd (pairs_of v l)) = (v, l).
Proof.
  revert v. induction l as [|[p w] l IH]; intro v; cbn; [reflexivity|].
  specialize (IH w). destruct (pairs_of w l) as [ps z]; cbn in *. rewrite IH. reflexivity.
Qed.

(** trees *)
Lemma build_left_form {O R} (x : R) (l : list (O * R)) : left_form x l (build_left x l).
Proof.
  induction l as [|[o y] l IH] using rev_ind; [constructor|].
  unfold build_left in *. rewrite fold_left_app. cbn. constructor. exact IH.
Qed.
Lemma left_form_unique {O R} (x : R) (l : list (O * R)) t : left_form x l t -> t = build_left x l.
Proof.
  induction 1 as [|l t o y H IH]; [reflexivity|]. unfold build_left in *. rewrite fold_left_app. cbn. congruence.
Qed.
Lemma left_form_inj {O R} (x y : R) (l m : list (O * R)) t : left_form x l t -> left_form y m t -> x = y /\ l = m.
Proof.
  intro H. revert y m. induction H as [|l t o z H IH]; intros y m H2; inversion H2; subst; auto.
  edestruct IH as [-> ->]; eauto.
Qed.
Lemma left_form_total {O R} (t : left_assoc O R) : exists x l, left_form x l t.
Proof.
  induction t as [l (x & m & IH) o r|r].
  - exists x, (m ++ [(o, r)]). constructor. exact IH.
  - exists r, []. constructor.
Qed.
Lemma build_right_cons {O L} (last : L) v o (l : list (L * O)) :
  build_right last ((v, o) :: l) = RBinary v o (build_right last l).
Proof. unfold build_right. cbn [rev]. rewrite fold_left_app. reflexivity. Qed.
Lemma build_right_form {O L} (x : L) (l : list (O * L)) :
  right_form x l (build_right (snd (pairs_of x l)) (fst (pairs_of x l))).
Proof.
  revert x. induction l as [|[o y] l IH]; intro x; cbn [pairs_of]; [constructor|].
  specialize (IH y). destruct (pairs_of y l) as [ps z]. cbn [fst snd] in *. rewrite build_right_cons.
  constructor. exact IH.
Qed.
Lemma right_form_unique {O L} (x : L) (l : list (O * L)) t u : right_form x l t -> right_form x l u -> t = u.
Proof.
  intro H. revert u. induction H; intros u H2; inversion H2; subst; [reflexivity|]. f_equal. auto.
Qed.
Lemma right_form_inj {O L} (x y : L) (l m : list (O * L)) t : right_form x l t -> right_form y m t -> x = y /\ l = m.
Proof.
  intro H. revert y m. induction H as [x|x o z l t H IH]; intros y m H2; inversion H2; subst; auto.
  edestruct IH as [-> ->]; eauto.
Qed.
Lemma right_form_total {O L} (t : right_assoc O L) : exists x l, right_form x l t.
Proof.
  induction t as [v o t (x & m & IH)|r].
  - exists v, ((o, x) :: m). constructor. exact IH.
  - exists r, []. constructor.
Qed.
Lemma eval_left_form {O R B} (leaf : R -> B) (ap : B -> O -> B -> B) x l t :
  left_form x l t -> eval_left leaf ap t = fold_left_ops leaf ap x l.
Proof.
  induction 1 as [|l t o y H IH]; [reflexivity|]. unfold fold_left_ops in *. rewrite fold_left_app. cbn. congruence.
Qed.
Lemma eval_right_form {O L B} (leaf : L -> B) (ap : B -> O -> B -> B) x l t :
  right_form x l t -> eval_right leaf ap t = fold_right_ops leaf ap x l.
Proof. induction 1 as [|x o y l t H IH]; [reflexivity|]. cbn. congruence. Qed.

(** parsing *)
Lemma left_assoc_ok {O R} n (po : parser O) (pr : parser R) s t s' : lawful po ->
  p_left_assoc n po pr s = (OOk t, s') <->
  exists x l, p_separated n pr po s = (OOk (Pn (fst (pairs_of x l)) (Some (snd (pairs_of x l)))), s') /\ left_form x l t.
Proof.
  intro Ho. unfold p_left_assoc. rewrite bind_ok. split.
  - intros (seq & s1 & H1 & H2).
    pose proof H1 as H1'. apply bind_ok in H1' as (v & s2 & Hv & Hl). apply separated_loop_ok in Hl as (l & Hl & ->); [|exact Ho].
    cbn [rev app] in H2. rewrite into_first_rest_spec in H2. injection H2 as <- <-.
    exists v, l. split; [exact H1|]. apply build_left_form.
  - intros (x & l & H & Hf). eexists _, s'. split; [exact H|]. cbn beta. rewrite into_first_rest_spec.
    apply left_form_unique in Hf. subst. reflexivity.
Qed.
Lemma right_assoc_ok {O L} n (po : parser O) (pl : parser L) s t s' : lawful po ->
  p_right_assoc n po pl s = (OOk t, s') <->
  exists x l, p_separated n pl po s = (OOk (Pn (fst (pairs_of x l)) (Some (snd (pairs_of x l)))), s') /\ right_form x l t.
Proof.
  intro Ho. unfold p_right_assoc. rewrite bind_ok. split.
  - intros (seq & s1 & H1 & H2).
    pose proof H1 as H1'. apply bind_ok in H1' as (v & s2 & Hv & Hl). apply separated_loop_ok in Hl as (l & Hl & ->); [|exact Ho].
    cbn [rev app] in H2. rewrite into_last_rest_spec in H2. injection H2 as <- <-.
    exists v, l. split; [exact H1|]. apply build_right_form.
  - intros (x & l & H & Hf). eexists _, s'. split; [exact H|]. cbn beta. rewrite into_last_rest_spec.
    f_equal. f_equal. eapply right_form_unique; [apply build_right_form|exact Hf].
Qed.
Lemma left_assoc_err {O R} n (po : parser O) (pr : parser R) s e s' : lawful po ->
  p_left_assoc n po pr s = (OErr e, s') <-> p_separated n pr po s = (OErr e, s').
Proof.
  intro Ho. unfold p_left_assoc. rewrite bind_err. split; [|auto]. intros [H|(x & s1 & H1 & H2)]; [exact H|].
  destruct (into_first_rest x) as [[a b]|]; discriminate.
Qed.
Lemma right_assoc_err {O R} n (po : parser O) (pr : parser R) s e s' : lawful po ->
  p_right_assoc n po pr s = (OErr e, s') <-> p_separated n pr po s = (OErr e, s').
Proof.
  intro Ho. unfold p_right_assoc. rewrite bind_err. split; [|auto]. intros [H|(x & s1 & H1 & H2)]; [exact H|].
  destruct (into_last_rest x) as [[a b]|]; discriminate.
Qed.

Section G.
Context {U : unicode}.
Variable E : env.
Lemma left_yes o r s v s' :
  yes (tbeh E (TyLeftAssoc o r)) s v s' <->
  exists x s1 l t, yes (tbeh E r) s x s1 /\ tail_yes (tbeh E r) (tbeh E o) s1 l s' /\
    left_form x l t /\ v = val_of_left t.
Proof.
  rewrite tbeh_yes_layer. cbn [p_layer]. split.
  - intros (n & H). apply pmap_ok in H as (t & H & ->). apply left_assoc_ok in H as (x & l & H & Hf); [|apply lawful_pty].
    destruct (proj1 (separated_run E r o s _ s') (ex_intro _ n H)) as (x' & s1 & l' & H1 & H2 & H3).
    injection H3 as Hp Hz. assert (HE : unpairs (fst (pairs_of x l)) (snd (pairs_of x l)) = unpairs (fst (pairs_of x' l')) (snd (pairs_of x' l'))) by congruence.
    rewrite !unpairs_pairs in HE. injection HE as <- <-. exists x, s1, l, t. auto.
  - intros (x & s1 & l & t & H1 & H2 & Hf & ->).
    destruct (proj2 (separated_run E r o s _ s') (ex_intro _ x (ex_intro _ s1 (ex_intro _ l (conj H1 (conj H2 eq_refl)))))) as (n & H).
    exists n. apply pmap_ok. exists t. split; [|reflexivity]. apply left_assoc_ok; [apply lawful_pty|]. exists x, l. auto.
Qed.
Lemma right_yes o r s v s' :
  yes (tbeh E (TyRightAssoc o r)) s v s' <->
  exists x s1 l t, yes (tbeh E r) s x s1 /\ tail_yes (tbeh E r) (tbeh E o) s1 l s' /\
    right_form x l t /\ v = val_of_right t.
Proof.
  rewrite tbeh_yes_layer. cbn [p_layer]. split.
  - intros (n & H). apply pmap_ok in H as (t & H & ->). apply right_assoc_ok in H as (x & l & H & Hf); [|apply lawful_pty].
    destruct (proj1 (separated_run E r o s _ s') (ex_intro _ n H)) as (x' & s1 & l' & H1 & H2 & H3).
    injection H3 as Hp Hz. assert (HE : unpairs (fst (pairs_of x l)) (snd (pairs_of x l)) = unpairs (fst (pairs_of x' l')) (snd (pairs_of x' l'))) by congruence.
    rewrite !unpairs_pairs in HE. injection HE as <- <-. exists x, s1, l, t. auto.
  - intros (x & s1 & l & t & H1 & H2 & Hf & ->).
    destruct (proj2 (separated_run E r o s _ s') (ex_intro _ x (ex_intro _ s1 (ex_intro _ l (conj H1 (conj H2 eq_refl)))))) as (n & H).
    exists n. apply pmap_ok. exists t. split; [|reflexivity]. apply right_assoc_ok; [apply lawful_pty|]. exists x, l. auto.
Qed.
Lemma left_no o r s e : no (tbeh E (TyLeftAssoc o r)) s e <-> no (tbeh E (TySeparated r o)) s e.
Proof.
  rewrite !tbeh_no_layer. cbn [p_layer of_parser no].
  split; intros (n & s' & H); exists n, s'.
  - apply pmap_err in H. apply left_assoc_err in H; [|apply lawful_pty]. apply pmap_err. exact H.
  - apply pmap_err in H. apply pmap_err. apply left_assoc_err; [apply lawful_pty|]. exact H.
Qed.
Lemma right_no o r s e : no (tbeh E (TyRightAssoc o r)) s e <-> no (tbeh E (TySeparated r o)) s e.
Proof.
  rewrite !tbeh_no_layer. cbn [p_layer of_parser no].
  split; intros (n & s' & H); exists n, s'.
  - apply pmap_err in H. apply right_assoc_err in H; [|apply lawful_pty]. apply pmap_err. exact H.
  - apply pmap_err in H. apply pmap_err. apply right_assoc_err; [apply lawful_pty|]. exact H.
Qed.

(** the naive right-recursive enum *)
Fixpoint as_variants (t : right_assoc val val) : val :=
  match t with
  | RBinary l o r => VVariant 0 [l; o; as_variants r]
  | RLhs l => VVariant 1 [l]
  end.
Lemma right_recursive i en b a l1 l2 l3 l4 o l :
  E i = DEnum en [Ctor b [(l1, l); (l2, o); (l3, TyBox (TyRef i))]; Ctor a [(l4, l)]] ->
  forall s x s1 m s' t, yes (tbeh E l) s x s1 -> tail_yes (tbeh E l) (tbeh E o) s1 m s' ->
  right_form x m t -> yes (tbeh E (TyRef i)) s (as_variants t) s'.
Proof.
  intros Hi s x s1 m s' t H1 H2. revert s x t H1.
  induction H2 as [s1 e He|s1 p s2 y s3 m s' Hp Hy Ht IH]; intros s x t H1 Hf; inversion Hf; subst.
  - apply (enum_yes E i _ _ Hi). exists 1, [x], (Ctor a [(l4, l)]).
    split; [reflexivity|]. split; [reflexivity|]. split.
    + cbn. econstructor; [exact H1|constructor].
    + intros j d Hj Hd. destruct j as [|j]; [|lia]. injection Hd as <-.
      eexists. exists 1, l2, o, e. split; [reflexivity|]. split; [|reflexivity].
      exists (tbeh E o), [x], s1. split; [reflexivity|]. split; [|exact He].
      cbn. econstructor; [exact H1|constructor].
  - apply (enum_yes E i _ _ Hi). exists 0. eexists [x; p; _], _.
    split; [reflexivity|]. split; [reflexivity|]. split.
    + cbn. econstructor; [exact H1|]. econstructor; [exact Hp|]. econstructor; [|constructor].
      apply box_yes. eapply IH; eassumption.
    + intros; lia.
Qed.
End G.
