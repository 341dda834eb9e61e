(** * NoPanic: parsing never panics on literals that syn can read (C45). *)
From Verif Require Import Base Float Literal Syn Ast Derive Grammar Spec Reprint SynFacts Lawful Mono Combinators GrammarBeh Assoc Sound.
Local Open Scope nat_scope.

(** Every literal token, at any depth, is one that [syn::Lit::new] accepts. *)
Definition readable {U : unicode} (l : list tt) : Prop := Forall (fun r => lit_new r <> None) (lits l).

Section NoPanic.
Context {U : unicode}.
Definition calm {A} (p : parser A) : Prop := forall s, readable (ps_rest s) -> fst (p s) <> OPanic.

Lemma lits_pops l l' : pops l l' -> forall r, In r (lits l') -> In r (lits l).
Proof.
  induction 1 as [l|x r l H IH|sp i r l H IH]; intros z Hz; auto.
  - cbn [lits]. apply in_or_app. right. auto.
  - cbn [lits]. rewrite lits1_group. apply IH in Hz. rewrite lits_app in Hz. exact Hz.
Qed.
Lemma readable_pops l l' : pops l l' -> readable l -> readable l'.
Proof.
  unfold readable. rewrite !Forall_forall. intros Hp H r Hr. apply H. eapply lits_pops; eassumption.
Qed.
Lemma readable_frame s s' : frame s s' -> readable (ps_rest s) -> readable (ps_rest s').
Proof. intros (H & _). apply readable_pops. exact H. Qed.
Lemma readable_ignore l : readable l -> readable (ignore_none l).
Proof. apply readable_pops. apply ignore_none_pops. Qed.
Lemma readable_cons t r : readable (t :: r) -> readable r.
Proof. apply readable_pops. apply pops_drop. apply pops_refl. Qed.
Lemma readable_group d sp i r : readable (TGroup d sp i :: r) -> readable i.
Proof. unfold readable. cbn [lits]. rewrite lits1_group. intro H. apply Forall_app in H. apply H. Qed.
Lemma readable_lit r sp l : readable (TLit r sp :: l) -> lit_new r <> None.
Proof. unfold readable. cbn. intro H. inversion H. assumption. Qed.
Lemma readable_app a b : readable (a ++ b) <-> readable a /\ readable b.
Proof. unfold readable. rewrite lits_app. apply Forall_app. Qed.

Lemma calm_ret {A} (v : A) : calm (ret v).
Proof. intros s _. discriminate. Qed.
Lemma calm_fail {A} e : calm (@fail A e).
Proof. intros s _. discriminate. Qed.
Lemma calm_bind {A B} (p : parser A) (k : A -> parser B) : wfp p -> calm p -> (forall v, calm (k v)) -> calm (bind p k).
Proof.
  intros Hw Hp Hk s Hs. unfold bind. specialize (Hp s Hs). destruct (p s) as ([v|e| |], s1) eqn:Ep; cbn in *; try discriminate; [|congruence].
  apply Hk. eapply readable_frame; [eapply Hw; exact Ep|exact Hs].
Qed.
Lemma calm_pmap {A B} (f : A -> B) p : wfp p -> calm p -> calm (pmap f p).
Proof. intros. apply calm_bind; auto. intro. apply calm_ret. Qed.
Lemma calm_map_err {A} f (p : parser A) : calm p -> calm (map_err f p).
Proof. intros Hp s Hs. specialize (Hp s Hs). unfold map_err. destruct (p s) as ([v|e| |], s1); cbn in *; congruence. Qed.
Lemma calm_speculate {A B} (p : parser A) (Y : A -> parser B) N : lawful p -> calm p -> (forall v, calm (Y v)) -> (forall e, calm (N e)) -> calm (speculate p Y N).
Proof.
  intros Hl Hp HY HN s Hs. rewrite speculate_spec by exact Hl. specialize (Hp s Hs). destruct (p s) as ([v|e| |], s1) eqn:Ep; cbn in *; try discriminate; try congruence.
  - apply HY. eapply readable_frame; [eapply Hl; exact Ep|exact Hs].
  - apply HN. exact Hs.
Qed.
Lemma calm_ext {A} (p q : parser A) : (forall s, p s = q s) -> calm q -> calm p.
Proof. intros H Hq s Hs. rewrite H. apply Hq. exact Hs. Qed.

Lemma calm_ident_any : calm p_ident_any.
Proof. intros s _. unfold p_ident_any. destruct (ignore_none (ps_rest s)) as [|[] ?]; discriminate. Qed.
Lemma calm_lit : calm p_lit.
Proof.
  intros s Hs. apply readable_ignore in Hs. unfold p_lit. destruct (ignore_none (ps_rest s)) as [|[n0 sp0|c0 g0 sp0|r0 sp0|d' sp' i] r1] eqn:Ei; try discriminate.
  - destruct (text_eqb n0 _); [discriminate|]. destruct (text_eqb n0 _); discriminate.
  - destruct (c0 =? 45)%N; [|discriminate]. destruct (ignore_none r1) as [|[n1 sp1|c1 g1 sp1|r2 sp1|d1 sp1 i1] r3]; try discriminate. destruct (lit_num _); discriminate.
  - apply readable_lit in Hs. destruct (lit_new r0); [discriminate|congruence].
Qed.
Lemma calm_typed {A} (sel : slit -> option A) w : calm (p_typed sel w).
Proof.
  intros s Hs. unfold p_typed. pose proof (calm_lit s Hs) as H. destruct (p_lit s) as ([(k, sp)|e| |], s1); cbn in *; try discriminate.
  - destruct (sel k); discriminate.
  - congruence.
Qed.
Lemma calm_litty k : calm (p_litty k).
Proof.
  destruct k; cbn [p_litty]; try (apply calm_pmap; [apply lawful_typed|apply calm_typed]);
    (apply calm_bind; [apply lawful_typed|apply calm_typed|]); intros v s _; cbn [fst].
  - unfold int_try_from. destruct (read_i64 _); discriminate.
  - unfold uint_try_from. destruct (read_u64 _); discriminate.
  - unfold float_try_from. destruct (float_read _); discriminate.
Qed.
Lemma calm_any_lit : calm p_any_lit.
Proof.
  apply calm_bind; [apply lawful_lit|apply calm_lit|]. intros (k, sp) s _. cbn [fst lit_try_from].
  destruct k as [b|[]]; try discriminate.
  - destruct digits as [|c r]; [|destruct (c =? 45)%N]; unfold int_try_from, uint_try_from;
      match goal with |- context [match ?x with _ => _ end] => destruct x end; discriminate.
  - unfold float_try_from. destruct (float_read _); discriminate.
Qed.
Lemma calm_group {A} d (p : parser A) : calm p -> calm (p_group d p).
Proof.
  intros Hp s Hs. apply readable_ignore in Hs. unfold p_group. destruct (ignore_none (ps_rest s)) as [|[n0 sp0|c0 g0 sp0|r0 sp0|d' sp' i] r1] eqn:Ei; try discriminate.
  destruct (delim_eqb d d'); [|discriminate]. apply readable_group in Hs.
  specialize (Hp (PS i (close_span sp') (ps_unexp s)) Hs). destruct (p _) as ([v|e| |], s1); cbn in *; congruence.
Qed.
Lemma calm_any {A} n (pa : parser A) : lawful pa -> calm pa -> forall acc, calm (any_loop n pa acc).
Proof.
  intros Hl Ha. induction n as [|n IH]; intro acc; [intros s _; discriminate|].
  eapply calm_ext; [intro; apply any_loop_speculate|]. apply calm_speculate; auto. intro. apply calm_ret.
Qed.
Lemma calm_separated {A P} n (pa : parser A) (pp : parser P) : lawful pa -> lawful pp -> calm pa -> calm pp -> calm (p_separated n pa pp).
Proof.
  intros La Lp Ha Hp. apply calm_bind; [apply La|exact Ha|].
  assert (G : forall n acc c, calm (separated_loop n pa pp acc c)).
  { clear n. induction n as [|n IH]; intros acc c; [intros s _; discriminate|].
    eapply calm_ext; [intro; apply separated_loop_speculate|]. apply calm_speculate; auto.
    - intro. apply calm_bind; [apply La|exact Ha|]. intro. apply IH.
    - intro. apply calm_ret. }
  intro. apply G.
Qed.
Lemma calm_terminated {A P} n (pa : parser A) (pp : parser P) : lawful pa -> lawful pp -> calm pa -> calm pp -> forall acc, calm (terminated_loop n pa pp acc).
Proof.
  intros La Lp Ha Hp. induction n as [|n IH]; intro acc; [intros s _; discriminate|].
  intros s Hs. rewrite terminated_loop_S. destruct (is_empty s); [discriminate|]. revert s Hs. apply calm_bind; [apply La|exact Ha|].
  intros v s Hs. destruct (is_empty s); [discriminate|]. revert s Hs. apply calm_bind; [apply Lp|exact Hp|]. intro. apply IH.
Qed.
Lemma calm_fields {V} en ct (fs : list (label * parser V)) : Forall (fun f => lawful (snd f)) fs -> Forall (fun f => calm (snd f)) fs -> calm (p_fields en ct fs).
Proof.
  intros Hl Hc. induction Hl as [|(l, p) fs Lp Lf IH]; cbn [p_fields]; [apply calm_ret|]. inversion Hc as [|? ? C1 C2]; subst. cbn in *.
  apply calm_bind; [apply lawful_map_err; exact Lp|apply calm_map_err; exact C1|]. intro.
  apply calm_bind; [apply lawful_fields; exact Lf|apply IH; exact C2|]. intro. apply calm_ret.
Qed.
Lemma calm_variants {V} en (vs : list (text * list (label * parser V))) : Forall (fun v => Forall (fun f => lawful (snd f)) (snd v)) vs ->
  Forall (fun v => Forall (fun f => calm (snd f)) (snd v)) vs -> forall k acc, calm (p_variants en k acc vs).
Proof.
  intros Hl Hc. induction Hl as [|(ct, fs) vs Lp Lf IH]; intros k acc; [intros s _; discriminate|]. inversion Hc as [|? ? C1 C2]; subst. cbn in *.
  eapply calm_ext; [intro; apply p_variants_speculate|]. apply calm_speculate.
  - apply lawful_fields. exact Lp.
  - apply calm_fields; assumption.
  - intro. apply calm_ret.
  - intro. apply IH. exact C2.
Qed.
Theorem calm_pty E n : forall t, calm (pty E n t).
Proof.
  induction n as [|n IH]; intro t; [intros s _; discriminate|]. rewrite pty_S.
  destruct t; cbn [p_layer].
  - apply calm_pmap; [apply lawful_ident|]. intros s _. unfold p_ident. destruct (ignore_none (ps_rest s)) as [|[n0 sp0| | |] ?]; try discriminate. destruct (text_mem n0 _); discriminate.
  - apply calm_pmap; [apply lawful_custom_ident|]. apply calm_bind; [apply lawful_ident_any|apply calm_ident_any|]. intros v s _. destruct (text_mem _ _); discriminate.
  - apply calm_pmap; [apply lawful_keyword|]. apply calm_bind; [apply lawful_ident_any|apply calm_ident_any|]. intros v s _. destruct (text_eqb _ _); discriminate.
  - apply calm_pmap; [apply lawful_token_kw|]. intros s _. unfold p_token_kw. destruct (ignore_none (ps_rest s)) as [|[n0 sp0| | |] ?]; try discriminate. destruct (text_eqb n0 _); discriminate.
  - apply calm_pmap; [apply lawful_token|]. intros s _. unfold p_token. destruct (take_op op (ps_rest s)) as [(?, ?)|]; discriminate.
  - apply calm_pmap; [apply lawful_litty|apply calm_litty].
  - apply calm_pmap; [apply lawful_any_lit|apply calm_any_lit].
  - apply calm_pmap; [apply lawful_empty|apply calm_ret].
  - apply calm_pmap; [apply lawful_eof|]. intros s _. unfold p_eof. destruct (is_empty s); discriminate.
  - apply calm_pmap; [apply lawful_not_eof|]. intros s _. unfold p_not_eof. destruct (is_empty s); discriminate.
  - apply calm_pmap; [apply lawful_maybe; apply lawful_pty|]. eapply calm_ext; [intro; apply p_maybe_speculate|].
    apply calm_speculate; [apply lawful_pty|apply IH| |intro; apply calm_ret]. intro. apply calm_bind; [apply lawful_pty|apply IH|intro; apply calm_ret].
  - apply calm_pmap; [apply lawful_group, lawful_pty|apply calm_group, IH].
  - apply calm_pmap; [apply lawful_group, lawful_pty|apply calm_group, IH].
  - apply calm_pmap; [apply lawful_group, lawful_pty|apply calm_group, IH].
  - apply calm_pmap; [apply lawful_terminated; apply lawful_pty|apply calm_terminated; auto; apply lawful_pty].
  - apply calm_pmap; [apply lawful_separated; apply lawful_pty|apply calm_separated; auto; apply lawful_pty].
  - apply calm_pmap; [apply lawful_any; apply lawful_pty|apply calm_any; auto; apply lawful_pty].
  - apply calm_pmap; [apply lawful_left_assoc; apply lawful_pty|]. intros s Hs. unfold p_left_assoc, bind.
    pose proof (calm_separated n (pty E n t2) (pty E n t1) (lawful_pty _ _ _) (lawful_pty _ _ _) (IH _) (IH _) s Hs) as Hc.
    destruct (p_separated n (pty E n t2) (pty E n t1) s) as ([x|e| |], s1) eqn:Ep; cbn in *; try congruence.
    apply bind_ok in Ep as (h & s2 & _ & Ep). apply separated_loop_ok in Ep as (l & _ & ->); [|apply lawful_pty]. cbn [rev app].
    rewrite into_first_rest_spec. discriminate.
  - apply calm_pmap; [apply lawful_right_assoc; apply lawful_pty|]. intros s Hs. unfold p_right_assoc, bind.
    pose proof (calm_separated n (pty E n t2) (pty E n t1) (lawful_pty _ _ _) (lawful_pty _ _ _) (IH _) (IH _) s Hs) as Hc.
    destruct (p_separated n (pty E n t2) (pty E n t1) s) as ([x|e| |], s1) eqn:Ep; cbn in *; try congruence.
    apply bind_ok in Ep as (h & s2 & _ & Ep). apply separated_loop_ok in Ep as (l & _ & ->); [|apply lawful_pty]. cbn [rev app].
    rewrite into_last_rest_spec. discriminate.
  - apply calm_pmap; [apply lawful_either; apply lawful_pty|]. eapply calm_ext; [intro; apply p_either_speculate|].
    apply calm_speculate; [apply lawful_pty|apply IH|intro; apply calm_ret|]. intro.
    apply calm_speculate; [apply lawful_pty|apply IH|intro; apply calm_ret|intro; apply calm_fail].
  - apply IH.
  - destruct (E i) as [c|en cs]; cbn [p_def].
    + apply calm_pmap.
      * apply lawful_fields, Forall_map, Forall_forall. intros (l, t0) _. apply lawful_pty.
      * apply calm_fields; apply Forall_map, Forall_forall; intros (l, t0) _; [apply lawful_pty|apply IH].
    + apply calm_pmap.
      * apply lawful_enum, Forall_map, Forall_forall. intros c _. cbn. apply Forall_map, Forall_forall. intros (l, t0) _. apply lawful_pty.
      * apply calm_variants; apply Forall_map, Forall_forall; intros c _; cbn; apply Forall_map, Forall_forall; intros (l, t0) _; [apply lawful_pty|apply IH].
Qed.
Theorem parse2_never_panics E n t ts : readable ts -> parse2 (pty E n t) ts <> RPanic.
Proof.
  intros H. unfold parse2. pose proof (calm_pty E n t (start ts) H) as Hc. destruct (pty E n t (start ts)) as ([v|e| |], s1); cbn in *; try congruence; try discriminate.
  destruct (ps_unexp s1); [discriminate|]. destruct (leftover _); discriminate.
Qed.
End NoPanic.
