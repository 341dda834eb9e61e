(** * Lawful: a parser's result does not depend on leftovers recorded before it ran. *)
From Verif Require Import Base Float Literal Syn Ast Derive Grammar Spec SynFacts.

Lemma advance_to_fork_self s : advance_to s (fork s) = s.
Proof. destruct s as [r sc [u|]]; reflexivity. Qed.
Lemma advance_to_assoc s a b : advance_to (advance_to s a) b = advance_to s (advance_to a b).
Proof. unfold advance_to; cbn. destruct (ps_unexp s), (ps_unexp a); reflexivity. Qed.
Lemma fork_fork s : fork (fork s) = fork s.
Proof. reflexivity. Qed.
Lemma advance_set_rest s r : advance_to s (set_rest (fork s) r) = set_rest s r.
Proof. unfold advance_to, set_rest, fork; cbn. destruct (ps_unexp s); reflexivity. Qed.

Lemma lawful_fork {A} (p : parser A) s o s' :
  lawful p -> p s = (o, s') -> exists fk, p (fork s) = (o, fk) /\ s' = advance_to s fk /\
     ps_rest fk = ps_rest s' /\ ps_scope fk = ps_scope s.
Proof.
  intros [Hw Ho] H. specialize (Ho s). rewrite H in Ho.
  destruct (p (fork s)) as [o1 fk] eqn:E. cbn in Ho. injection Ho as -> ->.
  exists fk. repeat split. apply Hw in E. destruct E as (_ & E & _). exact E.
Qed.
Lemma lawful_unfork {A} (p : parser A) s o fk :
  lawful p -> p (fork s) = (o, fk) -> p s = (o, advance_to s fk).
Proof. intros [Hw Ho] H. rewrite Ho, H. reflexivity. Qed.

Lemma lawful_bind {A B} (p : parser A) (k : A -> parser B) :
  lawful p -> (forall v, lawful (k v)) -> lawful (bind p k).
Proof.
  intros Hp Hk. split.
  - apply wfp_bind; [apply Hp|]. intro; apply Hk.
  - intro s. unfold bind. destruct (p s) as [o s1] eqn:E.
    destruct (lawful_fork p s o s1 Hp E) as (fk & Ef & -> & _ & Hsc). rewrite Ef.
    destruct o as [v|e| |]; try reflexivity.
    destruct Hk with v as [_ Ho]. rewrite (Ho fk). rewrite (Ho (advance_to s fk)).
    assert (E1 : fork (advance_to s fk) = fork fk) by (unfold fork; cbn; rewrite Hsc; reflexivity).
    rewrite E1. cbn. f_equal. apply advance_to_assoc.
Qed.
Lemma lawful_ret {A} (v : A) : lawful (ret v).
Proof. split; [apply wfp_ret|]. intro s. cbn. rewrite advance_to_fork_self. reflexivity. Qed.
Lemma lawful_fail {A} e : lawful (@fail A e).
Proof. split; [apply wfp_fail|]. intro s. cbn. rewrite advance_to_fork_self. reflexivity. Qed.
Lemma lawful_pure {A} (o : outcome A) : lawful (fun s => (o, s)).
Proof.
  split.
  - intros s o' s' H. injection H as <- <-. apply frame_refl.
  - intro s. cbn. rewrite advance_to_fork_self. reflexivity.
Qed.
Lemma lawful_pmap {A B} (f : A -> B) p : lawful p -> lawful (pmap f p).
Proof. intro H. apply lawful_bind; [exact H|]. intro. apply lawful_ret. Qed.
Lemma lawful_and_then {A B} (p : parser A) (k : A -> outcome B) : lawful p -> lawful (and_then p k).
Proof. intro H. apply lawful_bind; [exact H|]. intro. apply lawful_pure. Qed.
Lemma lawful_map_err {A} f (p : parser A) : lawful p -> lawful (map_err f p).
Proof.
  intros [Hw Ho]. split; [apply wfp_map_err; exact Hw|]. intro s. unfold map_err. rewrite (Ho s).
  destruct (p (fork s)) as [[v|e| |] fk]; reflexivity.
Qed.

Ltac obliv :=
  cbn [fork ps_rest ps_scope ps_unexp error_at];
  repeat match goal with
  | |- context [match ?x with _ => _ end] => destruct x eqn:?
  end;
  cbn [fst snd]; rewrite ?advance_set_rest, ?advance_to_fork_self; try reflexivity.

Lemma error_at_fork s m : error_at (fork s) m = error_at s m.
Proof. reflexivity. Qed.

Lemma lawful_ident_any : lawful p_ident_any.
Proof. split; [apply wfp_ident_any|]. intro s. unfold p_ident_any. rewrite error_at_fork. obliv. Qed.
Lemma lawful_ident : lawful p_ident.
Proof. split; [apply wfp_ident|]. intro s. unfold p_ident. cbn [fork ps_rest]. rewrite !error_at_fork.
  destruct (ignore_none (ps_rest s)) as [|[n sp|c sg sp|rp sp|d sp i] r];
    try (cbn [fst snd]; rewrite advance_to_fork_self; reflexivity).
  destruct (text_mem n rust_keywords).
  - cbn [fst snd]; rewrite advance_to_fork_self. reflexivity.
  - cbn [fst snd]. rewrite advance_set_rest. reflexivity.
Qed.
Lemma lawful_token_kw kw : lawful (p_token_kw kw).
Proof. split; [apply wfp_token_kw|]. intro s. unfold p_token_kw. rewrite error_at_fork.
  cbn [fork ps_rest].
  destruct (ignore_none (ps_rest s)) as [|[n sp|c sg sp|rp sp|d sp i] r];
    try (cbn [fst snd]; rewrite advance_to_fork_self; reflexivity).
  destruct (text_eqb n kw).
  - cbn [fst snd]. rewrite advance_set_rest. reflexivity.
  - cbn [fst snd]; rewrite advance_to_fork_self. reflexivity.
Qed.
Lemma lawful_token op : lawful (p_token op).
Proof. split; [apply wfp_token|]. intro s. unfold p_token.
  change (op_error_span (fork s)) with (op_error_span s). cbn [fork ps_rest].
  destruct (take_op op (ps_rest s)) as [[sps r]|]; cbn [fst snd].
  - rewrite advance_set_rest. reflexivity.
  - rewrite advance_to_fork_self. reflexivity.
Qed.
Lemma lawful_group {A} d (p : parser A) : lawful p -> lawful (p_group d p).
Proof.
  intros Hp. split; [apply wfp_group; apply Hp|]. intro s. unfold p_group.
  rewrite error_at_fork. cbn [fork ps_rest ps_scope ps_unexp].
  destruct (ignore_none (ps_rest s)) as [|[n sp|c sg sp|rp sp|d' sp i] r];
    try (cbn [fst snd]; rewrite advance_to_fork_self; reflexivity).
  destruct (delim_eqb d d'); [|cbn [fst snd]; rewrite advance_to_fork_self; reflexivity].
  destruct (p {| ps_rest := i; ps_scope := close_span sp; ps_unexp := ps_unexp s |}) as [o s1] eqn:E.
  destruct (lawful_fork p _ _ _ Hp E) as (fk & Ef & -> & _ & Hsc).
  change (fork (PS i (close_span sp) (ps_unexp s))) with (PS i (close_span sp) None) in Ef.
  rewrite Ef. unfold advance_to; cbn.
  assert (E2 : drop_unexp (match ps_unexp s with Some sp => Some sp | None => ps_unexp fk end) (ps_rest fk)
           = match ps_unexp s with Some sp => Some sp | None => drop_unexp (ps_unexp fk) (ps_rest fk) end)
    by (destruct (ps_unexp s); reflexivity).
  rewrite E2. destruct o; reflexivity.
Qed.
Lemma lawful_if_empty {A} (p q : parser A) :
  lawful p -> lawful q -> lawful (fun s => if is_empty s then p s else q s).
Proof.
  intros [Pw Po] [Qw Qo]. split.
  - intros s o s' H. destruct (is_empty s); [eapply Pw|eapply Qw]; exact H.
  - intro s. change (is_empty (fork s)) with (is_empty s). destruct (is_empty s); [apply Po|apply Qo].
Qed.
Lemma lawful_terminated {A P} n (pa : parser A) (pp : parser P) :
  lawful pa -> lawful pp -> lawful (p_terminated n pa pp).
Proof.
  intros Ha Hp. unfold p_terminated. generalize (@nil (A * P)).
  induction n as [|n IH]; intros acc; cbn [terminated_loop].
  - apply lawful_pure.
  - apply lawful_if_empty; [apply lawful_pure|].
    apply lawful_bind; [exact Ha|]. intro v.
    apply lawful_if_empty; [apply lawful_pure|].
    apply lawful_bind; [exact Hp|]. intro p. apply IH.
Qed.

Section Lits.
Context {U : unicode}.
Lemma lawful_lit : lawful p_lit.
Proof.
  split; [apply wfp_lit|]. intro s. unfold p_lit. rewrite error_at_fork. cbn [fork ps_rest].
  destruct (ignore_none (ps_rest s)) as [|[n sp|c sg sp|rp sp|d sp i] r];
    try (cbn [fst snd]; rewrite advance_to_fork_self; reflexivity).
  - destruct (text_eqb n (T "true"));
      [cbn [fst snd]; rewrite advance_set_rest; reflexivity|].
    destruct (text_eqb n (T "false"));
      cbn [fst snd]; rewrite ?advance_set_rest, ?advance_to_fork_self; reflexivity.
  - destruct (c =? 45)%N; [|cbn [fst snd]; rewrite advance_to_fork_self; reflexivity].
    destruct (ignore_none r) as [|[n' sp'|c' sg' sp'|rp' sp'|d' sp' i'] r'];
      try (cbn [fst snd]; rewrite advance_to_fork_self; reflexivity).
    destruct (lit_num _); cbn [fst snd]; rewrite ?advance_set_rest, ?advance_to_fork_self; reflexivity.
  - destruct (lit_new rp); cbn [fst snd]; rewrite ?advance_set_rest, ?advance_to_fork_self; reflexivity.
Qed.
Lemma lawful_typed {A} (sel : slit -> option A) w : lawful (p_typed sel w).
Proof.
  split; [apply wfp_typed|]. intro s. unfold p_typed. rewrite error_at_fork.
  destruct lawful_lit as [_ Ho]. rewrite (Ho s). destruct (p_lit (fork s)) as [[[k sp]|e| |] fk]; cbn [fst snd].
  - destruct (sel k); reflexivity.
  - reflexivity.
  - reflexivity.
  - reflexivity.
Qed.
Lemma lawful_any_lit : lawful p_any_lit.
Proof. apply lawful_and_then, lawful_lit. Qed.
End Lits.

Lemma lawful_custom_ident kws : lawful (p_custom_ident kws).
Proof. apply lawful_bind; [apply lawful_ident_any|]. intro v. destruct (text_mem _ _); [apply lawful_fail|apply lawful_ret]. Qed.
Lemma lawful_keyword kw : lawful (p_keyword kw).
Proof. apply lawful_bind; [apply lawful_ident_any|]. intro v. destruct (text_eqb _ _); [apply lawful_ret|apply lawful_fail]. Qed.
Lemma lawful_empty : lawful p_empty.
Proof. apply lawful_ret. Qed.
Lemma lawful_eof : lawful p_eof.
Proof. split; [apply wfp_eof|]. intro s. unfold p_eof. rewrite error_at_fork.
  change (is_empty (fork s)) with (is_empty s). destruct (is_empty s); cbn [fst snd]; rewrite advance_to_fork_self; reflexivity. Qed.
Lemma lawful_not_eof : lawful p_not_eof.
Proof. split; [apply wfp_not_eof|]. intro s. unfold p_not_eof. rewrite error_at_fork.
  change (is_empty (fork s)) with (is_empty s). destruct (is_empty s); cbn [fst snd]; rewrite advance_to_fork_self; reflexivity. Qed.

(** Generic shape of all speculative nodes: try [p] on a fork, then go on from the advanced
    stream or from the original one. *)
Definition speculate {A B} (p : parser A) (yes : A -> parser B) (no : error -> parser B)
  : parser B := fun s =>
  let '(o, fk) := p (fork s) in
  match o with
  | OOk v => yes v (advance_to s fk)
  | OErr e => no e s
  | OPanic => (OPanic, s)
  | ODiverge => (ODiverge, s)
  end.
Lemma lawful_speculate {A B} (p : parser A) (yes : A -> parser B) (no : error -> parser B) :
  lawful p -> (forall v, lawful (yes v)) -> (forall e, lawful (no e)) -> lawful (speculate p yes no).
Proof.
  intros Hp Hy Hn. split.
  - intros s o s' H. unfold speculate in H. destruct (p (fork s)) as [[v|e| |] fk] eqn:E.
    + eapply frame_trans; [eapply wfp_fork; [apply Hp|exact E]|]. eapply Hy; exact H.
    + eapply Hn; exact H.
    + injection H as <- <-. apply frame_refl.
    + injection H as <- <-. apply frame_refl.
  - intro s. unfold speculate. rewrite fork_fork. destruct (p (fork s)) as [[v|e| |] fk] eqn:E.
    + destruct Hp as [Hw Hp]. apply Hw in E. destruct E as (_ & Hsc & _). cbn in Hsc.
      destruct (Hy v) as [_ Ho]. rewrite (Ho (advance_to s fk)). rewrite (Ho (advance_to (fork s) fk)).
      assert (E1 : fork (advance_to s fk) = fork (advance_to (fork s) fk)) by reflexivity.
      rewrite E1. cbn. f_equal. rewrite <- advance_to_assoc. unfold advance_to; cbn. reflexivity.
    + apply Hn.
    + cbn. rewrite advance_to_fork_self. reflexivity.
    + cbn. rewrite advance_to_fork_self. reflexivity.
Qed.
Lemma lawful_ext {A} (p q : parser A) : (forall s, p s = q s) -> lawful p -> lawful q.
Proof.
  intros H [Hw Ho]. split.
  - intros s o s' E. rewrite <- H in E. eapply Hw; exact E.
  - intro s. rewrite <- !H. apply Ho.
Qed.
(** For a lawful parser speculation is: run it; if it fails, go on from where it started. *)
Lemma speculate_spec {A B} (p : parser A) (yes : A -> parser B) no s :
  lawful p ->
  speculate p yes no s =
  match p s with
  | (OOk v, s1) => yes v s1
  | (OErr e, _) => no e s
  | (OPanic, _) => (OPanic, s)
  | (ODiverge, _) => (ODiverge, s)
  end.
Proof.
  intros [_ Ho]. unfold speculate. rewrite (Ho s). destruct (p (fork s)) as [[v|e| |] fk]; reflexivity.
Qed.

Lemma p_maybe_speculate {P A} (pp : parser P) (pa : parser A) s :
  p_maybe pp pa s = speculate pp (fun x => bind pa (fun v => ret (Some (x, v)))) (fun _ => ret None) s.
Proof. reflexivity. Qed.
Lemma separated_loop_speculate {A P} n (pa : parser A) (pp : parser P) acc cur s :
  separated_loop (S n) pa pp acc cur s =
  speculate pp (fun p => bind pa (fun v => separated_loop n pa pp ((cur, p) :: acc) v))
            (fun _ => ret (Pn (rev acc) (Some cur))) s.
Proof. reflexivity. Qed.
Lemma any_loop_speculate {A} n (pa : parser A) acc s :
  any_loop (S n) pa acc s = speculate pa (fun v => any_loop n pa (v :: acc)) (fun _ => ret (rev acc)) s.
Proof. reflexivity. Qed.
Lemma p_either_speculate {L R} (pl : parser L) (pr : parser R) s :
  p_either pl pr s =
  speculate pl (fun v => ret (ELeft v))
    (fun e1 => speculate pr (fun v => ret (ERight v)) (fun e2 => fail (max_error e1 e2))) s.
Proof. reflexivity. Qed.
Lemma try_variant_speculate {A} acc (p : parser A) s :
  try_parse_variant acc p s =
  speculate p ret (fun e => fail (match acc with Some a => max_error a e | None => e end)) s.
Proof. reflexivity. Qed.
Lemma p_variants_speculate {V} en k acc ct (fs : list (label * parser V)) vs s :
  p_variants en k acc ((ct, fs) :: vs) s =
  speculate (p_fields en ct fs) (fun v => ret (k, v))
    (fun e => p_variants en (S k) (Some (match acc with Some a => max_error a e | None => e end)) vs) s.
Proof.
  cbn [p_variants]. unfold speculate, try_parse_variant, ret.
  destruct (p_fields en ct fs (fork s)) as [[v|e| |] fk]; reflexivity.
Qed.

Lemma lawful_maybe {P A} (pp : parser P) (pa : parser A) : lawful pp -> lawful pa -> lawful (p_maybe pp pa).
Proof.
  intros Hp Ha. eapply lawful_ext; [intro; symmetry; apply p_maybe_speculate|].
  apply lawful_speculate; [exact Hp| |intro; apply lawful_ret].
  intro. apply lawful_bind; [exact Ha|]. intro; apply lawful_ret.
Qed.
Lemma lawful_separated_loop {A P} n (pa : parser A) (pp : parser P) :
  lawful pa -> lawful pp -> forall acc cur, lawful (separated_loop n pa pp acc cur).
Proof.
  intros Ha Hp. induction n as [|n IH]; intros acc cur; [apply lawful_pure|].
  eapply lawful_ext; [intro; symmetry; apply separated_loop_speculate|].
  apply lawful_speculate; [exact Hp| |intro; apply lawful_ret].
  intro. apply lawful_bind; [exact Ha|]. intro; apply IH.
Qed.
Lemma lawful_separated {A P} n (pa : parser A) (pp : parser P) :
  lawful pa -> lawful pp -> lawful (p_separated n pa pp).
Proof. intros. apply lawful_bind; [assumption|]. intro; apply lawful_separated_loop; assumption. Qed.
Lemma lawful_any_loop {A} n (pa : parser A) : lawful pa -> forall acc, lawful (any_loop n pa acc).
Proof.
  intros Ha. induction n as [|n IH]; intros acc; [apply lawful_pure|].
  eapply lawful_ext; [intro; symmetry; apply any_loop_speculate|].
  apply lawful_speculate; [exact Ha| intro; apply IH |intro; apply lawful_ret].
Qed.
Lemma lawful_any {A} n (pa : parser A) : lawful pa -> lawful (p_any n pa).
Proof. intro; apply lawful_any_loop; assumption. Qed.
Lemma lawful_left_assoc {O R} n (po : parser O) (pr : parser R) : lawful po -> lawful pr -> lawful (p_left_assoc n po pr).
Proof.
  intros. apply lawful_bind; [apply lawful_separated; assumption|].
  intro v. destruct (into_first_rest v) as [[f r]|]; apply lawful_pure.
Qed.
Lemma lawful_right_assoc {O R} n (po : parser O) (pr : parser R) : lawful po -> lawful pr -> lawful (p_right_assoc n po pr).
Proof.
  intros. apply lawful_bind; [apply lawful_separated; assumption|].
  intro v. destruct (into_last_rest v) as [[f r]|]; apply lawful_pure.
Qed.
Lemma lawful_either {L R} (pl : parser L) (pr : parser R) : lawful pl -> lawful pr -> lawful (p_either pl pr).
Proof.
  intros Hl Hr. eapply lawful_ext; [intro; symmetry; apply p_either_speculate|].
  apply lawful_speculate; [exact Hl|intro; apply lawful_ret|]. intro.
  apply lawful_speculate; [exact Hr|intro; apply lawful_ret|]. intro. apply lawful_fail.
Qed.
Lemma lawful_fields {V} en ct (fs : list (label * parser V)) :
  Forall (fun f => lawful (snd f)) fs -> lawful (p_fields en ct fs).
Proof.
  induction 1 as [|[l p] fs Hp Hfs IH]; cbn; [apply lawful_ret|].
  apply lawful_bind; [apply lawful_map_err; exact Hp|]. intro v.
  apply lawful_bind; [exact IH|]. intro. apply lawful_ret.
Qed.
Lemma lawful_variants {V} en (vs : list (text * list (label * parser V))) :
  Forall (fun v => Forall (fun f => lawful (snd f)) (snd v)) vs ->
  forall k acc, lawful (p_variants en k acc vs).
Proof.
  induction 1 as [|[ct fs] vs Hf Hvs IH]; intros k acc.
  - cbn. split.
    + intros s o s' H. injection H as <- <-. apply frame_refl.
    + intro s. rewrite error_at_fork. cbn [fst snd]. rewrite advance_to_fork_self. reflexivity.
  - eapply lawful_ext; [intro; symmetry; apply p_variants_speculate|].
    apply lawful_speculate; [apply lawful_fields; exact Hf|intro; apply lawful_ret|].
    intro. apply IH.
Qed.
Lemma lawful_enum {V} en (vs : list (text * list (label * parser V))) :
  Forall (fun v => Forall (fun f => lawful (snd f)) (snd v)) vs -> lawful (p_enum en vs).
Proof. intro H. apply lawful_variants. exact H. Qed.
