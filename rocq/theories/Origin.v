(** * Origin: every error comes from one failing node, through a path of productions. *)
From Verif Require Import Base Float Literal Syn Ast Derive Grammar Spec SynFacts Lawful Mono Combinators GrammarBeh Assoc.

Lemma chained_cons h path e : chained (h :: path) e = chained [h] (chained path e).
Proof. unfold chained. cbn [e_span e_msg map List.concat]. rewrite app_nil_r, <- app_assoc. reflexivity. Qed.
Lemma chained_nil e : chained [] e = e.
Proof. destruct e. reflexivity. Qed.

Section G.
Context {U : unicode}.
Variable E : env.
Hypothesis HE : named E.

Definition traced (t : ty) (s : pstate) (e : error) : Prop :=
  exists path s0 e0, origin E t s path s0 e0 /\ e = chained path e0.

Lemma traced_leaf t s e : raises_itself t -> no (tbeh E t) s e -> traced t s e.
Proof. intros H1 H2. exists [], s, e. split; [constructor; assumption|]. symmetry. apply chained_nil. Qed.
Ltac lift H c := destruct H as (path & s0 & e0 & H & ->); exists path, s0, e0; split; [|reflexivity]; eapply c; eauto.

Lemma traced_fields en ct fs n s e s' :
  (forall t s e s', pty E n t s = (OErr e, s') -> traced t s e) ->
  p_fields en ct (inst E n fs) s = (OErr e, s') ->
  exists k l t vs s1 path s0 e0, nth_error fs k = Some (l, t) /\
    seq_yes (map (tbeh E) (map snd (firstn k fs))) s vs s1 /\
    origin E t s1 path s0 e0 /\ e = chained (context en ct l :: path) e0.
Proof.
  intros IH H.
  destruct (proj1 (fields_err en ct (inst E n fs) s e) (ex_intro _ s' H)) as (k & l & p & e1 & Hk & (b & vs & s1 & Hb & Hs & Hno) & ->).
  unfold inst in Hk. rewrite nth_error_map in Hk. destruct (nth_error fs k) as [[l' t]|] eqn:Ek; [|discriminate].
  injection Hk as -> <-. rewrite inst_beh in Hb, Hs.
  rewrite nth_error_map, nth_error_map, Ek in Hb. injection Hb as <-. destruct Hno as (s2 & Hno).
  apply IH in Hno as (path & s0 & e0 & Ho & ->).
  exists k, l, t, vs, s1, path, s0, e0. split; [exact Ek|]. split; [|split; [exact Ho|symmetry; apply chained_cons]].
  rewrite !firstn_map in Hs. eapply seq_yes_mono; [|exact Hs]. apply map_le. intro. apply pb_tbeh.
Qed.

Lemma traced_sep n a p s e :
  (forall t s e s', pty E n t s = (OErr e, s') -> traced t s e) ->
  no (of_parser (p_separated n (pty E n a) (pty E n p))) s e -> traced (TySeparated a p) s e.
Proof.
  intros IH (s' & H). apply bind_err in H as [H|(v & s1 & H1 & H2)].
  - apply IH in H. lift H or_first.
  - apply separated_loop_err in H2; [|apply lawful_pty].
    assert (HT : forall s1, tail_no (of_parser (pty E n a)) (of_parser (pty E n p)) s1 e ->
      exists y s2, yes (tbeh E p) s1 y s2 /\ traced (TySeparated a p) s2 e).
    { clear -IH. induction 1 as [s p0 s1 e H1 (s2 & H2)|s p0 s1 v s2 e H1 H2 Ht (y & s3 & IHy & IHt)].
      - exists p0, s1. split; [exists n; exact H1|]. apply IH in H2. lift H2 or_first.
      - exists p0, s1. split; [exists n; exact H1|]. lift IHt or_next. exists n. exact H2. }
    destruct (HT _ H2) as (y & s2 & Hy & Ht). lift Ht or_next. exists n. exact H1.
Qed.

Lemma traced_pty n : forall t s e s', pty E n t s = (OErr e, s') -> traced t s e.
Proof.
  induction n as [|n IH]; intros t s e s' H; [discriminate|].
  assert (Hno : no (tbeh E t) s e) by (exists (S n), s'; exact H).
  cbn [pty] in H.
  destruct t; cbn [p_layer] in H;
    try (apply traced_leaf; [exact I|exact Hno]).
  - discriminate.
  - apply pmap_err in H. destruct (proj1 (maybe_err _ (pty E n t2) s e (lawful_pty E n t1)) (ex_intro _ s' H)) as (x & s1 & H1 & (s2 & H2)).
    apply IH in H2. lift H2 or_maybe. exists n. exact H1.
  - apply pmap_err in H. destruct (proj1 (group_err DParen (pty E n t) s e) (ex_intro _ s' H)) as [(sp & inner & r & H1 & (s2 & H2))|(H1 & ->)].
    + apply IH in H2. lift H2 (or_in_group E DParen). discriminate.
    + exists [], s, (error_at s (delim_msg DParen)). split; [|symmetry; apply chained_nil]. apply (or_no_group E DParen); [discriminate|exact H1].
  - apply pmap_err in H. destruct (proj1 (group_err DBracket (pty E n t) s e) (ex_intro _ s' H)) as [(sp & inner & r & H1 & (s2 & H2))|(H1 & ->)].
    + apply IH in H2. lift H2 (or_in_group E DBracket). discriminate.
    + exists [], s, (error_at s (delim_msg DBracket)). split; [|symmetry; apply chained_nil]. apply (or_no_group E DBracket); [discriminate|exact H1].
  - apply pmap_err in H. destruct (proj1 (group_err DBrace (pty E n t) s e) (ex_intro _ s' H)) as [(sp & inner & r & H1 & (s2 & H2))|(H1 & ->)].
    + apply IH in H2. lift H2 (or_in_group E DBrace). discriminate.
    + exists [], s, (error_at s (delim_msg DBrace)). split; [|symmetry; apply chained_nil]. apply (or_no_group E DBrace); [discriminate|exact H1].
  - apply pmap_err in H. apply terminated_loop_err in H. clear Hno s'.
    induction H as [s e E0 (s2 & H)|s v s1 e E0 H1 E1 (s2 & H)|s v s1 x s2 e E0 H1 E1 H2 Hr IHr].
    + apply IH in H. lift H or_item.
    + apply IH in H. lift H or_punct. exists n. exact H1.
    + lift IHr or_more; exists n; [exact H1|exact H2].
  - apply (traced_sep n); [exact IH|]. apply pmap_err in H. exists s'. exact H.
  - apply pmap_err in H. exfalso. eapply any_never_err. exact H.
  - apply pmap_err in H. apply left_assoc_err in H; [|apply lawful_pty].
    assert (HT : traced (TySeparated t2 t1) s e) by (apply (traced_sep n); [exact IH|exists s'; exact H]).
    lift HT or_left_assoc.
  - apply pmap_err in H. apply right_assoc_err in H; [|apply lawful_pty].
    assert (HT : traced (TySeparated t2 t1) s e) by (apply (traced_sep n); [exact IH|exists s'; exact H]).
    lift HT or_right_assoc.
  - apply pmap_err in H. destruct (proj1 (either_err _ _ s e (lawful_pty E n t1) (lawful_pty E n t2)) (ex_intro _ s' H)) as (e1 & e2 & (s1 & H1) & (s2 & H2) & (i & Hi & _)).
    destruct i as [|[|i]]; cbn in Hi.
    + injection Hi as <-. apply IH in H1. lift H1 or_left.
    + injection Hi as <-. apply IH in H2. lift H2 or_right.
    + destruct i; discriminate.
  - apply IH in H. lift H or_box.
  - unfold p_def in H. destruct (E i) as [c|en cs] eqn:Ei.
    + apply pmap_err in H. apply (traced_fields [] (c_name c) (c_fields c) n s e s' IH) in H
        as (k & l & t & vs & s1 & path & s0 & e0 & Hk & Hs & Ho & ->).
      eexists (_ :: path), s0, e0. split; [|reflexivity]. eapply or_struct; eauto.
    + pose proof (HE _ _ _ Ei) as Hne.
      apply pmap_err in H. apply (variants_err en (insts E n cs) (insts_lawful E en n cs)) in H as (_ & errs & H1 & H2).
      destruct errs as [|x errs].
      * inversion H1. destruct cs; [|discriminate]. cbn in H2. exists [], s, e. split; [|symmetry; apply chained_nil].
        subst e. eapply or_no_variant; eassumption.
      * destruct (fold_reported0 x errs) as (r & Hr & (k & Hk & _)). rewrite Hr in H2. subst r.
        assert (HI : exists c, In c cs /\ exists s1, p_fields en (c_name c) (inst E n (c_fields c)) s = (OErr e, s1)).
        { clear -H1 Hk. remember (x :: errs) as es. clear Heqes. revert cs k H1 Hk.
          induction es as [|y es IH]; intros cs k H1 Hk; [destruct k; discriminate|].
          destruct cs as [|c cs]; [inversion H1|]. cbn in H1. inversion H1 as [|a0 b0 l0 m0 HR HRs]; subst.
          destruct k as [|k]; cbn in Hk.
          - injection Hk as <-. exists c. split; [left; reflexivity|]. exact HR.
          - destruct (IH cs k HRs Hk) as (c' & Hc' & Hs). exists c'. split; [right; exact Hc'|exact Hs]. }
        destruct HI as (c & Hin & s1 & Hf).
        apply (traced_fields en (c_name c) (c_fields c) n s e s1 IH) in Hf
          as (k' & l & t & vs & s2 & path & s0 & e0 & Hk' & Hs & Ho & ->).
        eexists (_ :: path), s0, e0. split; [|reflexivity].
        unfold context. destruct en as [|c0 en]; [contradiction|]. eapply or_variant; eauto.
Qed.
End G.
