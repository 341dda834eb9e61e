(** * Mono: more fuel never changes an outcome other than [ODiverge]. *)
From Verif Require Import Base Float Literal Syn Ast Derive Grammar Spec SynFacts Lawful.

Definition le {A} (p q : parser A) : Prop := forall s, fst (p s) = ODiverge \/ p s = q s.

Lemma le_refl {A} (p : parser A) : le p p.
Proof. intro s. right. reflexivity. Qed.
Lemma le_trans {A} (p q r : parser A) : le p q -> le q r -> le p r.
Proof.
  intros H1 H2 s. destruct (H1 s) as [H|H]; [left; exact H|].
  destruct (H2 s) as [H'|H']; [left; rewrite H; exact H'|right; congruence].
Qed.
Lemma le_bottom {A} (q : parser A) : le (fun s => (ODiverge, s)) q.
Proof. intro s. left. reflexivity. Qed.
Lemma le_bind {A B} (p q : parser A) (k l : A -> parser B) :
  le p q -> (forall v, le (k v) (l v)) -> le (bind p k) (bind q l).
Proof.
  intros H1 H2 s. unfold bind. destruct (H1 s) as [H|H].
  - destruct (p s) as [[v|e| |] s1]; cbn in H; try discriminate. left. reflexivity.
  - rewrite H. destruct (q s) as [[v|e| |] s1]; try (right; reflexivity). apply H2.
Qed.
Lemma le_pmap {A B} (f : A -> B) p q : le p q -> le (pmap f p) (pmap f q).
Proof. intro H. apply le_bind; [exact H|]. intro; apply le_refl. Qed.
Lemma le_map_err {A} f (p q : parser A) : le p q -> le (map_err f p) (map_err f q).
Proof.
  intros H s. unfold map_err. destruct (H s) as [E|E].
  - destruct (p s) as [[v|e| |] s1]; cbn in E; try discriminate. left. reflexivity.
  - rewrite E. right. reflexivity.
Qed.
Lemma le_group {A} d (p q : parser A) : le p q -> le (p_group d p) (p_group d q).
Proof.
  intros H s. unfold p_group.
  destruct (ignore_none (ps_rest s)) as [|[n sp|c sg sp|rp sp|d' sp i] r]; try (right; reflexivity).
  destruct (delim_eqb d d'); [|right; reflexivity].
  destruct (H (PS i (close_span sp) (ps_unexp s))) as [E|E].
  - destruct (p _) as [[v|e| |] s1]; cbn in E; try discriminate. left. reflexivity.
  - rewrite E. right. reflexivity.
Qed.
Lemma le_speculate {A B} (p q : parser A) (y y' : A -> parser B) n n' :
  le p q -> (forall v, le (y v) (y' v)) -> (forall e, le (n e) (n' e)) ->
  le (speculate p y n) (speculate q y' n').
Proof.
  intros H1 H2 H3 s. unfold speculate. destruct (H1 (fork s)) as [E|E].
  - destruct (p (fork s)) as [[v|e| |] s1]; cbn in E; try discriminate. left. reflexivity.
  - rewrite E. destruct (q (fork s)) as [[v|e| |] s1]; try (right; reflexivity); [apply H2|apply H3].
Qed.
Lemma le_ext {A} (p p' q q' : parser A) :
  (forall s, p' s = p s) -> (forall s, q' s = q s) -> le p q -> le p' q'.
Proof. intros H1 H2 H s. rewrite H1, H2. apply H. Qed.
Lemma le_if_empty {A} (p q p' q' : parser A) : le p p' -> le q q' ->
  le (fun s => if is_empty s then p s else q s) (fun s => if is_empty s then p' s else q' s).
Proof. intros H1 H2 s. destruct (is_empty s); [apply H1|apply H2]. Qed.

Lemma le_terminated {A P} n m (pa pa' : parser A) (pp pp' : parser P) :
  n <= m -> le pa pa' -> le pp pp' -> le (p_terminated n pa pp) (p_terminated m pa' pp').
Proof.
  intros Hn Ha Hp. unfold p_terminated. generalize (@nil (A * P)). revert m Hn.
  induction n as [|n IH]; intros m Hn acc.
  - intro s. left. reflexivity.
  - destruct m as [|m]; [lia|]. cbn [terminated_loop].
    apply le_if_empty; [apply le_refl|]. apply le_bind; [exact Ha|]. intro v.
    apply le_if_empty; [apply le_refl|]. apply le_bind; [exact Hp|]. intro p. apply IH. lia.
Qed.
Lemma le_maybe {P A} (pp pp' : parser P) (pa pa' : parser A) :
  le pp pp' -> le pa pa' -> le (p_maybe pp pa) (p_maybe pp' pa').
Proof.
  intros Hp Ha. eapply le_ext; [intro; apply p_maybe_speculate|intro; apply p_maybe_speculate|].
  apply le_speculate; [exact Hp| |intro; apply le_refl]. intro.
  apply le_bind; [exact Ha|]. intro; apply le_refl.
Qed.
Lemma le_separated_loop {A P} n m (pa pa' : parser A) (pp pp' : parser P) :
  n <= m -> le pa pa' -> le pp pp' -> forall acc cur,
  le (separated_loop n pa pp acc cur) (separated_loop m pa' pp' acc cur).
Proof.
  intros Hn Ha Hp. revert m Hn. induction n as [|n IH]; intros m Hn acc cur.
  - intro s. left. reflexivity.
  - destruct m as [|m]; [lia|].
    eapply le_ext; [intro; apply separated_loop_speculate|intro; apply separated_loop_speculate|].
    apply le_speculate; [exact Hp| |intro; apply le_refl]. intro.
    apply le_bind; [exact Ha|]. intro; apply IH. lia.
Qed.
Lemma le_separated {A P} n m (pa pa' : parser A) (pp pp' : parser P) :
  n <= m -> le pa pa' -> le pp pp' -> le (p_separated n pa pp) (p_separated m pa' pp').
Proof. intros. apply le_bind; [assumption|]. intro. apply le_separated_loop; assumption. Qed.
Lemma le_any {A} n m (pa pa' : parser A) : n <= m -> le pa pa' -> le (p_any n pa) (p_any m pa').
Proof.
  intros Hn Ha. unfold p_any. generalize (@nil A). revert m Hn.
  induction n as [|n IH]; intros m Hn acc.
  - intro s. left. reflexivity.
  - destruct m as [|m]; [lia|].
    eapply le_ext; [intro; apply any_loop_speculate|intro; apply any_loop_speculate|].
    apply le_speculate; [exact Ha| |intro; apply le_refl]. intro. apply IH. lia.
Qed.
Lemma le_left_assoc {O R} n m (po po' : parser O) (pr pr' : parser R) :
  n <= m -> le po po' -> le pr pr' -> le (p_left_assoc n po pr) (p_left_assoc m po' pr').
Proof. intros. apply le_bind; [apply le_separated; assumption|]. intro. apply le_refl. Qed.
Lemma le_right_assoc {O R} n m (po po' : parser O) (pr pr' : parser R) :
  n <= m -> le po po' -> le pr pr' -> le (p_right_assoc n po pr) (p_right_assoc m po' pr').
Proof. intros. apply le_bind; [apply le_separated; assumption|]. intro. apply le_refl. Qed.
Lemma le_either {L R} (pl pl' : parser L) (pr pr' : parser R) :
  le pl pl' -> le pr pr' -> le (p_either pl pr) (p_either pl' pr').
Proof.
  intros H1 H2. eapply le_ext; [intro; apply p_either_speculate|intro; apply p_either_speculate|].
  apply le_speculate; [exact H1|intro; apply le_refl|]. intro.
  apply le_speculate; [exact H2|intro; apply le_refl|]. intro. apply le_refl.
Qed.
Lemma le_fields {V} en ct (fs gs : list (label * parser V)) :
  Forall2 (fun f g => fst f = fst g /\ le (snd f) (snd g)) fs gs ->
  le (p_fields en ct fs) (p_fields en ct gs).
Proof.
  induction 1 as [|[l p] [l' q] fs gs [E H] Hfs IH]; cbn in *; [apply le_refl|]. subst l'.
  apply le_bind; [apply le_map_err; exact H|]. intro.
  apply le_bind; [exact IH|]. intro. apply le_refl.
Qed.
Lemma le_variants {V} en (vs ws : list (text * list (label * parser V))) :
  Forall2 (fun v w => fst v = fst w /\
             Forall2 (fun f g => fst f = fst g /\ le (snd f) (snd g)) (snd v) (snd w)) vs ws ->
  forall k acc, le (p_variants en k acc vs) (p_variants en k acc ws).
Proof.
  induction 1 as [|[ct fs] [ct' gs] vs ws [E H] Hvs IH]; intros k acc; cbn [fst snd] in *.
  - apply le_refl.
  - subst ct'. eapply le_ext; [intro; apply p_variants_speculate|intro; apply p_variants_speculate|].
    apply le_speculate; [apply le_fields; exact H|intro; apply le_refl|]. intro. apply IH.
Qed.

Section Grammar.
Context {U : unicode}.

Lemma Forall2_map_fields (p q : ty -> parser val) (fs : list (label * ty)) :
  (forall t, le (p t) (q t)) ->
  Forall2 (fun f g => fst f = fst g /\ le (snd f) (snd g))
          (map (fun '(l, t) => (l, p t)) fs) (map (fun '(l, t) => (l, q t)) fs).
Proof. intro H. induction fs as [|[l t] fs IH]; cbn; constructor; cbn; auto. Qed.

Lemma le_def (p q : ty -> parser val) d : (forall t, le (p t) (q t)) -> le (p_def p d) (p_def q d).
Proof.
  intro H. destruct d as [c|name cs]; cbn.
  - apply le_pmap. apply le_fields. apply Forall2_map_fields. exact H.
  - apply le_pmap. apply le_variants.
    induction cs as [|c cs IH]; cbn; constructor; auto. cbn. split; [reflexivity|].
    apply Forall2_map_fields. exact H.
Qed.

Lemma le_layer E n m (p q : ty -> parser val) t :
  n <= m -> (forall t, le (p t) (q t)) -> le (p_layer E n p t) (p_layer E m q t).
Proof.
  intros Hn H. destruct t; cbn [p_layer]; try apply le_refl; try apply le_pmap.
  - apply le_maybe; apply H.
  - apply le_group; apply H.
  - apply le_group; apply H.
  - apply le_group; apply H.
  - apply le_terminated; auto.
  - apply le_separated; auto.
  - apply le_any; auto.
  - apply le_left_assoc; auto.
  - apply le_right_assoc; auto.
  - apply le_either; apply H.
  - apply H.
  - apply le_def; exact H.
Qed.

Lemma le_pty E n m t : n <= m -> le (pty E n t) (pty E m t).
Proof.
  revert m t. induction n as [|n IH]; intros m t Hn.
  - apply le_bottom.
  - destruct m as [|m]; [lia|]. cbn [pty]. apply le_layer; [lia|]. intro t'. apply IH. lia.
Qed.

(** If the parse ends with fuel [n], it ends in the same way with any larger amount. *)
Lemma pty_mono E n m t s o s' :
  n <= m -> pty E n t s = (o, s') -> o <> ODiverge -> pty E m t s = (o, s').
Proof.
  intros Hn H Ho. destruct (le_pty E n m t Hn s) as [E1|E1].
  - rewrite H in E1. cbn in E1. contradiction.
  - congruence.
Qed.

(** ** All grammar parsers are lawful. *)
Lemma lawful_def (p : ty -> parser val) d : (forall t, lawful (p t)) -> lawful (p_def p d).
Proof.
  intro H. destruct d as [c|name cs]; cbn.
  - apply lawful_pmap, lawful_fields. apply Forall_map.
    apply Forall_forall. intros [l t] _. apply H.
  - apply lawful_pmap, lawful_enum. apply Forall_map. apply Forall_forall. intros c _. cbn.
    apply Forall_map. apply Forall_forall. intros [l t] _. apply H.
Qed.
Lemma lawful_litty k : lawful (p_litty k).
Proof.
  destruct k; cbn; first [apply lawful_pmap | apply lawful_and_then]; apply lawful_typed.
Qed.
Lemma lawful_layer E n (p : ty -> parser val) t : (forall t, lawful (p t)) -> lawful (p_layer E n p t).
Proof.
  intro H. destruct t; cbn [p_layer]; try apply lawful_pmap.
  - apply lawful_ident.
  - apply lawful_custom_ident.
  - apply lawful_keyword.
  - apply lawful_token_kw.
  - apply lawful_token.
  - apply lawful_litty.
  - apply lawful_any_lit.
  - apply lawful_empty.
  - apply lawful_eof.
  - apply lawful_not_eof.
  - apply lawful_maybe; apply H.
  - apply lawful_group; apply H.
  - apply lawful_group; apply H.
  - apply lawful_group; apply H.
  - apply lawful_terminated; apply H.
  - apply lawful_separated; apply H.
  - apply lawful_any; apply H.
  - apply lawful_left_assoc; apply H.
  - apply lawful_right_assoc; apply H.
  - apply lawful_either; apply H.
  - apply H.
  - apply lawful_def; exact H.
Qed.
Theorem lawful_pty E n t : lawful (pty E n t).
Proof.
  revert t. induction n as [|n IH]; intro t; cbn [pty].
  - apply lawful_pure.
  - apply lawful_layer. exact IH.
Qed.
Lemma wfp_pty E n t : wfp (pty E n t).
Proof. apply lawful_pty. Qed.
End Grammar.
