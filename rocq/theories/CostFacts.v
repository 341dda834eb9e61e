(** * CostFacts: counting does not change the parse; more fuel changes nothing; nesting is bounded by fuel. *)
From Verif Require Import Base Float Literal Syn Ast Derive Grammar Spec SynFacts Lawful Mono Combinators GrammarBeh Cost.
Local Open Scope nat_scope.

(** ** the result is that of the uncounted parser *)
Definition erases {A} (w : cparser A) (p : parser A) : Prop := forall s, fst (w s) = p s.
Lemma er_leaf {A} (p : parser A) : erases (w_leaf p) p.
Proof. intro s. reflexivity. Qed.
Lemma er_bind {A B} (w : cparser A) p (k : A -> cparser B) l : erases w p -> (forall v, erases (k v) (l v)) -> erases (w_bind w k) (bind p l).
Proof.
  intros H Hk s. unfold w_bind, bind. rewrite <- (H s). destruct (w s) as ((o, s1), c). cbn [fst]. destruct o; try reflexivity.
  rewrite <- (Hk v s1). destruct (k v s1). reflexivity.
Qed.
Lemma er_pmap {A B} (f : A -> B) w p : erases w p -> erases (w_pmap f w) (pmap f p).
Proof. intro H. apply er_bind; [exact H|]. intro. apply er_leaf. Qed.
Lemma er_map_err {A} f (w : cparser A) p : erases w p -> erases (w_map_err f w) (map_err f p).
Proof. intros H s. unfold w_map_err, map_err. rewrite <- (H s). destruct (w s) as ((o, s1), c). destruct o; reflexivity. Qed.
Lemma er_speculate {A B} (w : cparser A) p (y : A -> cparser B) y' n n' : erases w p -> (forall v, erases (y v) (y' v)) -> (forall e, erases (n e) (n' e)) ->
  erases (w_speculate w y n) (speculate p y' n').
Proof.
  intros H Hy Hn s. unfold w_speculate, speculate. rewrite <- (H (fork s)). destruct (w (fork s)) as ((o, s1), c). cbn [fst]. destruct o; try reflexivity.
  - rewrite <- (Hy v _). destruct (y v _). reflexivity.
  - rewrite <- (Hn e _). destruct (n e _). reflexivity.
Qed.
Lemma er_ext {A} (w : cparser A) p q : (forall s, q s = p s) -> erases w p -> erases w q.
Proof. intros E H s. rewrite E. apply H. Qed.
Lemma er_maybe {P A} (pp : cparser P) qp (pa : cparser A) qa : erases pp qp -> erases pa qa -> erases (w_maybe pp pa) (p_maybe qp qa).
Proof.
  intros Hp Ha. eapply er_ext; [intro; apply p_maybe_speculate|]. apply er_speculate; [exact Hp| |intro; apply er_leaf].
  intro. apply er_bind; [exact Ha|]. intro. apply er_leaf.
Qed.
Lemma er_group {A} d (w : cparser A) p : erases w p -> erases (w_group d w) (p_group d p).
Proof.
  intros H s. unfold w_group, p_group. destruct (ignore_none (ps_rest s)) as [|[n sp|c sg sp|rp sp|d' sp i] r]; try reflexivity.
  destruct (delim_eqb d d'); [|reflexivity]. rewrite <- (H (PS i (close_span sp) (ps_unexp s))). destruct (w _) as ((o, si), c). destruct o; reflexivity.
Qed.
Lemma er_terminated {A P} n (pa : cparser A) qa (pp : cparser P) qp : erases pa qa -> erases pp qp -> forall acc,
  erases (w_terminated n pa pp acc) (terminated_loop n qa qp acc).
Proof.
  intros Ha Hp. induction n as [|n IH]; intros acc s; [reflexivity|]. rewrite terminated_loop_S. cbn [w_terminated]. destruct (is_empty s); [reflexivity|].
  apply (er_bind pa qa); [exact Ha|]. intros v s1. destruct (is_empty s1); [reflexivity|]. apply (er_bind pp qp); [exact Hp|]. intro. apply IH.
Qed.
Lemma er_separated_loop {A P} n (pa : cparser A) qa (pp : cparser P) qp : erases pa qa -> erases pp qp -> forall acc c,
  erases (w_separated_loop n pa pp acc c) (separated_loop n qa qp acc c).
Proof.
  intros Ha Hp. induction n as [|n IH]; intros acc c; [intro; reflexivity|]. eapply er_ext; [intro; apply separated_loop_speculate|]. cbn [w_separated_loop].
  apply er_speculate; [exact Hp| |intro; apply er_leaf]. intro. apply er_bind; [exact Ha|]. intro. apply IH.
Qed.
Lemma er_separated {A P} n (pa : cparser A) qa (pp : cparser P) qp : erases pa qa -> erases pp qp -> erases (w_separated n pa pp) (p_separated n qa qp).
Proof. intros Ha Hp. apply er_bind; [exact Ha|]. intro. apply er_separated_loop; assumption. Qed.
Lemma er_any {A} n (pa : cparser A) qa : erases pa qa -> forall acc, erases (w_any n pa acc) (any_loop n qa acc).
Proof.
  intros Ha. induction n as [|n IH]; intros acc; [intro; reflexivity|]. eapply er_ext; [intro; apply any_loop_speculate|]. cbn [w_any].
  apply er_speculate; [exact Ha| |intro; apply er_leaf]. intro. apply IH.
Qed.
Lemma er_either {L R} (pl : cparser L) ql (pr : cparser R) qr : erases pl ql -> erases pr qr -> erases (w_either pl pr) (p_either ql qr).
Proof.
  intros Hl Hr. eapply er_ext; [intro; apply p_either_speculate|]. apply er_speculate; [exact Hl|intro; apply er_leaf|]. intro.
  apply er_speculate; [exact Hr|intro; apply er_leaf|]. intro. apply er_leaf.
Qed.
Lemma er_fields en ct (p : ty -> cparser val) q fs : (forall t, erases (p t) (q t)) ->
  erases (w_fields en ct (map (fun '(l, t) => (l, p t)) fs)) (p_fields en ct (map (fun '(l, t) => (l, q t)) fs)).
Proof.
  intro H. induction fs as [|(l, t) fs IH]; cbn [map w_fields p_fields]; [apply er_leaf|].
  apply er_bind; [apply er_map_err, H|]. intro. apply er_bind; [exact IH|]. intro. apply er_leaf.
Qed.
Lemma er_variants en (p : ty -> cparser val) q cs : (forall t, erases (p t) (q t)) -> forall k acc,
  erases (w_variants en k acc (map (fun c => (c_name c, map (fun '(l, t) => (l, p t)) (c_fields c))) cs))
         (p_variants en k acc (map (fun c => (c_name c, map (fun '(l, t) => (l, q t)) (c_fields c))) cs)).
Proof.
  intro H. induction cs as [|c cs IH]; intros k acc; cbn [map]; [apply er_leaf|]. eapply er_ext; [intro; apply p_variants_speculate|]. cbn [w_variants].
  apply er_speculate; [apply er_fields, H|intro; apply er_leaf|]. intro. apply IH.
Qed.
Section Grammar.
Context {U : unicode}.
Theorem cost_erase E n : forall t, erases (wty E n t) (pty E n t).
Proof.
  induction n as [|n IH]; intros t s; [reflexivity|]. cbn [wty]. rewrite pty_S.
  assert (G : erases (w_layer E n (wty E n) t) (p_layer E n (pty E n) t)).
  { destruct t; cbn [w_layer p_layer]; try (apply er_pmap); try apply er_leaf; try apply IH.
    - apply er_maybe; apply IH.
    - apply er_group, IH.
    - apply er_group, IH.
    - apply er_group, IH.
    - apply er_terminated; apply IH.
    - apply er_separated; apply IH.
    - apply er_any, IH.
    - apply er_bind; [apply er_separated; apply IH|]. intro. apply er_leaf.
    - apply er_bind; [apply er_separated; apply IH|]. intro. apply er_leaf.
    - apply er_either; apply IH.
    - destruct (E i) as [c|en cs]; cbn [w_def p_def]; apply er_pmap; [apply er_fields|apply er_variants]; exact IH. }
  specialize (G s). destruct (w_layer E n (wty E n) t s) as (r, c). exact G.
Qed.
End Grammar.

(** ** more fuel *)
Definition wle {A} (p q : cparser A) : Prop := forall s, fst (fst (p s)) = ODiverge \/ p s = q s.
Lemma wle_refl {A} (p : cparser A) : wle p p.
Proof. intro s. right. reflexivity. Qed.
Lemma wle_bind {A B} (p q : cparser A) (k l : A -> cparser B) : wle p q -> (forall v, wle (k v) (l v)) -> wle (w_bind p k) (w_bind q l).
Proof.
  intros H Hk s. unfold w_bind. destruct (H s) as [E|E].
  - left. destruct (p s) as ((o, s1), c). cbn in E. subst o. reflexivity.
  - rewrite <- E. destruct (p s) as ((o, s1), c). destruct o; try (right; reflexivity).
    destruct (Hk v s1) as [E1|E1]; [left|right]; [destruct (k v s1) as ((o, s2), c2); cbn in *; exact E1|rewrite E1; reflexivity].
Qed.
Lemma wle_pmap {A B} (f : A -> B) p q : wle p q -> wle (w_pmap f p) (w_pmap f q).
Proof. intro H. apply wle_bind; [exact H|]. intro. apply wle_refl. Qed.
Lemma wle_map_err {A} f (p q : cparser A) : wle p q -> wle (w_map_err f p) (w_map_err f q).
Proof.
  intros H s. unfold w_map_err. destruct (H s) as [E|E].
  - left. destruct (p s) as ((o, s1), c). cbn in E. subst o. reflexivity.
  - right. rewrite E. reflexivity.
Qed.
Lemma wle_speculate {A B} (p q : cparser A) (y y' : A -> cparser B) n n' : wle p q -> (forall v, wle (y v) (y' v)) -> (forall e, wle (n e) (n' e)) ->
  wle (w_speculate p y n) (w_speculate q y' n').
Proof.
  intros H Hy Hn s. unfold w_speculate. destruct (H (fork s)) as [E|E].
  - left. destruct (p (fork s)) as ((o, s1), c). cbn in E. subst o. reflexivity.
  - rewrite <- E. destruct (p (fork s)) as ((o, s1), c). destruct o; try (right; reflexivity).
    + destruct (Hy v (advance_to s s1)) as [E1|E1]; [left|right]; [destruct (y v _) as ((o, s2), c2); cbn in *; exact E1|rewrite E1; reflexivity].
    + destruct (Hn e s) as [E1|E1]; [left|right]; [destruct (n e s) as ((o, s2), c2); cbn in *; exact E1|rewrite E1; reflexivity].
Qed.
Lemma wle_maybe {P A} (pp pp' : cparser P) (pa pa' : cparser A) : wle pp pp' -> wle pa pa' -> wle (w_maybe pp pa) (w_maybe pp' pa').
Proof. intros Hp Ha. apply wle_speculate; [exact Hp| |intro; apply wle_refl]. intro. apply wle_bind; [exact Ha|]. intro. apply wle_refl. Qed.
Lemma wle_group {A} d (p q : cparser A) : wle p q -> wle (w_group d p) (w_group d q).
Proof.
  intros H s. unfold w_group. destruct (ignore_none (ps_rest s)) as [|[n sp|c sg sp|rp sp|d' sp i] r]; try (right; reflexivity).
  destruct (delim_eqb d d'); [|right; reflexivity]. destruct (H (PS i (close_span sp) (ps_unexp s))) as [E|E].
  - left. destruct (p _) as ((o, s1), c). cbn in E. subst o. reflexivity.
  - right. rewrite E. reflexivity.
Qed.
Lemma wle_terminated {A P} n m (pa pa' : cparser A) (pp pp' : cparser P) : n <= m -> wle pa pa' -> wle pp pp' -> forall acc,
  wle (w_terminated n pa pp acc) (w_terminated m pa' pp' acc).
Proof.
  intros Hn Ha Hp. revert m Hn. induction n as [|n IH]; intros m Hn acc s; [left; reflexivity|]. destruct m as [|m]; [lia|]. cbn [w_terminated].
  destruct (is_empty s); [right; reflexivity|]. apply (wle_bind pa pa'); [exact Ha|]. intros v s1. destruct (is_empty s1); [right; reflexivity|].
  apply (wle_bind pp pp'); [exact Hp|]. intro. apply IH. lia.
Qed.
Lemma wle_separated {A P} n m (pa pa' : cparser A) (pp pp' : cparser P) : n <= m -> wle pa pa' -> wle pp pp' -> wle (w_separated n pa pp) (w_separated m pa' pp').
Proof.
  intros Hn Ha Hp. apply wle_bind; [exact Ha|]. intro v. generalize (@nil (A * P)) as acc. revert m Hn v.
  induction n as [|n IH]; intros m Hn v acc; [intro; left; reflexivity|]. destruct m as [|m]; [lia|]. cbn [w_separated_loop].
  apply wle_speculate; [exact Hp| |intro; apply wle_refl]. intro. apply wle_bind; [exact Ha|]. intro. apply IH. lia.
Qed.
Lemma wle_any {A} n m (pa pa' : cparser A) : n <= m -> wle pa pa' -> forall acc, wle (w_any n pa acc) (w_any m pa' acc).
Proof.
  intros Hn Ha. revert m Hn. induction n as [|n IH]; intros m Hn acc; [intro; left; reflexivity|]. destruct m as [|m]; [lia|]. cbn [w_any].
  apply wle_speculate; [exact Ha| |intro; apply wle_refl]. intro. apply IH. lia.
Qed.
Lemma wle_either {L R} (pl pl' : cparser L) (pr pr' : cparser R) : wle pl pl' -> wle pr pr' -> wle (w_either pl pr) (w_either pl' pr').
Proof.
  intros Hl Hr. apply wle_speculate; [exact Hl|intro; apply wle_refl|]. intro. apply wle_speculate; [exact Hr|intro; apply wle_refl|]. intro. apply wle_refl.
Qed.
Lemma wle_fields en ct (p q : ty -> cparser val) fs : (forall t, wle (p t) (q t)) ->
  wle (w_fields en ct (map (fun '(l, t) => (l, p t)) fs)) (w_fields en ct (map (fun '(l, t) => (l, q t)) fs)).
Proof.
  intro H. induction fs as [|(l, t) fs IH]; cbn [map w_fields]; [apply wle_refl|].
  apply wle_bind; [apply wle_map_err, H|]. intro. apply wle_bind; [exact IH|]. intro. apply wle_refl.
Qed.
Lemma wle_variants en (p q : ty -> cparser val) cs : (forall t, wle (p t) (q t)) -> forall k acc,
  wle (w_variants en k acc (map (fun c => (c_name c, map (fun '(l, t) => (l, p t)) (c_fields c))) cs))
      (w_variants en k acc (map (fun c => (c_name c, map (fun '(l, t) => (l, q t)) (c_fields c))) cs)).
Proof.
  intro H. induction cs as [|c cs IH]; intros k acc; cbn [map w_variants]; [apply wle_refl|].
  apply wle_speculate; [apply wle_fields, H|intro; apply wle_refl|]. intro. apply IH.
Qed.
Section Grammar2.
Context {U : unicode}.
Lemma wle_wty E n : forall m t, n <= m -> wle (wty E n t) (wty E m t).
Proof.
  induction n as [|n IH]; intros m t Hn s; [left; reflexivity|]. destruct m as [|m]; [lia|]. cbn [wty]. assert (Hm : n <= m) by lia.
  assert (G : wle (w_layer E n (wty E n) t) (w_layer E m (wty E m) t)).
  { specialize (fun t => IH m t Hm) as I. destruct t; cbn [w_layer]; try (apply wle_pmap); try apply wle_refl; try apply I.
    - apply wle_maybe; apply I.
    - apply wle_group, I.
    - apply wle_group, I.
    - apply wle_group, I.
    - apply wle_terminated; [exact Hm|apply I|apply I].
    - apply wle_separated; [exact Hm|apply I|apply I].
    - apply wle_any; [exact Hm|apply I].
    - apply wle_bind; [apply wle_separated; [exact Hm|apply I|apply I]|]. intro. apply wle_refl.
    - apply wle_bind; [apply wle_separated; [exact Hm|apply I|apply I]|]. intro. apply wle_refl.
    - apply wle_either; apply I.
    - destruct (E i) as [c|en cs]; cbn [w_def]; apply wle_pmap; [apply wle_fields|apply wle_variants]; exact I. }
  destruct (G s) as [H|H]; [left|right].
  - destruct (w_layer E n (wty E n) t s) as (r, c). exact H.
  - rewrite H. reflexivity.
Qed.
Lemma wty_mono E n m t s o s' c : n <= m -> wty E n t s = (o, s', c) -> o <> ODiverge -> wty E m t s = (o, s', c).
Proof. intros Hn H Ho. destruct (wle_wty E n m t Hn s) as [E1|E1]; rewrite H in E1; [contradiction|symmetry; exact E1]. Qed.
End Grammar2.

(** ** nesting is bounded by the fuel *)
Definition shallow {A} (d : nat) (w : cparser A) : Prop := forall s, depth (snd (w s)) <= d.
Lemma sh_leaf {A} d (p : parser A) : shallow d (w_leaf p).
Proof. intro s. cbn. lia. Qed.
Lemma sh_bind {A B} d (p : cparser A) (k : A -> cparser B) : shallow d p -> (forall v, shallow d (k v)) -> shallow d (w_bind p k).
Proof.
  intros H Hk s. specialize (H s). unfold w_bind. destruct (p s) as ((o, s1), c). destruct o; try exact H.
  specialize (Hk v s1). destruct (k v s1) as (r, c2). cbn in *. lia.
Qed.
Lemma sh_pmap {A B} d (f : A -> B) p : shallow d p -> shallow d (w_pmap f p).
Proof. intro H. apply sh_bind; [exact H|]. intro. apply sh_leaf. Qed.
Lemma sh_map_err {A} d f (p : cparser A) : shallow d p -> shallow d (w_map_err f p).
Proof. intros H s. specialize (H s). unfold w_map_err. destruct (p s) as ((o, s1), c). exact H. Qed.
Lemma sh_speculate {A B} d (p : cparser A) (y : A -> cparser B) n : shallow d p -> (forall v, shallow d (y v)) -> (forall e, shallow d (n e)) -> shallow d (w_speculate p y n).
Proof.
  intros H Hy Hn s. specialize (H (fork s)). unfold w_speculate. destruct (p (fork s)) as ((o, s1), c). destruct o; try exact H.
  - specialize (Hy v (advance_to s s1)). destruct (y v _) as (r, c2). cbn in *. lia.
  - specialize (Hn e s). destruct (n e s) as (r, c2). cbn in *. lia.
Qed.
Lemma sh_group {A} d dl (p : cparser A) : shallow d p -> shallow d (w_group dl p).
Proof.
  intros H s. unfold w_group. destruct (ignore_none (ps_rest s)) as [|[n sp|c sg sp|rp sp|d' sp i] r]; try (cbn; lia).
  destruct (delim_eqb dl d'); [|cbn; lia]. specialize (H (PS i (close_span sp) (ps_unexp s))). destruct (p _) as ((o, s1), c). exact H.
Qed.
Lemma sh_terminated {A P} d n (pa : cparser A) (pp : cparser P) : shallow d pa -> shallow d pp -> forall acc, shallow d (w_terminated n pa pp acc).
Proof.
  intros Ha Hp. induction n as [|n IH]; intros acc s; [cbn; lia|]. cbn [w_terminated]. destruct (is_empty s); [cbn; lia|].
  apply (sh_bind d pa); [exact Ha|]. intros v s1. destruct (is_empty s1); [cbn; lia|]. apply (sh_bind d pp); [exact Hp|]. intro. apply IH.
Qed.
Lemma sh_separated {A P} d n (pa : cparser A) (pp : cparser P) : shallow d pa -> shallow d pp -> shallow d (w_separated n pa pp).
Proof.
  intros Ha Hp. apply sh_bind; [exact Ha|]. intro v. generalize (@nil (A * P)) as acc. revert v.
  induction n as [|n IH]; intros v acc; [intro; cbn; lia|]. cbn [w_separated_loop].
  apply sh_speculate; [exact Hp| |intro; apply sh_leaf]. intro. apply sh_bind; [exact Ha|]. intro. apply IH.
Qed.
Lemma sh_any {A} d n (pa : cparser A) : shallow d pa -> forall acc, shallow d (w_any n pa acc).
Proof.
  intros Ha. induction n as [|n IH]; intros acc; [intro; cbn; lia|]. cbn [w_any]. apply sh_speculate; [exact Ha| |intro; apply sh_leaf]. intro. apply IH.
Qed.
Lemma sh_fields d en ct (p : ty -> cparser val) fs : (forall t, shallow d (p t)) -> shallow d (w_fields en ct (map (fun '(l, t) => (l, p t)) fs)).
Proof.
  intro H. induction fs as [|(l, t) fs IH]; cbn [map w_fields]; [apply sh_leaf|].
  apply sh_bind; [apply sh_map_err, H|]. intro. apply sh_bind; [exact IH|]. intro. apply sh_leaf.
Qed.
Lemma sh_variants d en (p : ty -> cparser val) cs : (forall t, shallow d (p t)) -> forall k acc,
  shallow d (w_variants en k acc (map (fun c => (c_name c, map (fun '(l, t) => (l, p t)) (c_fields c))) cs)).
Proof.
  intro H. induction cs as [|c cs IH]; intros k acc; cbn [map w_variants]; [apply sh_leaf|].
  apply sh_speculate; [apply sh_fields, H|intro; apply sh_leaf|]. intro. apply IH.
Qed.
Section Grammar3.
Context {U : unicode}.
Lemma wty_shallow E n : forall t, shallow n (wty E n t).
Proof.
  induction n as [|n IH]; intros t s; [cbn; lia|]. cbn [wty].
  assert (G : shallow n (w_layer E n (wty E n) t)).
  { destruct t; cbn [w_layer]; try (apply sh_pmap); try apply sh_leaf; try apply IH.
    - apply sh_speculate; [apply IH| |intro; apply sh_leaf]. intro. apply sh_bind; [apply IH|]. intro. apply sh_leaf.
    - apply sh_group, IH.
    - apply sh_group, IH.
    - apply sh_group, IH.
    - apply sh_terminated; apply IH.
    - apply sh_separated; apply IH.
    - apply sh_any, IH.
    - apply sh_bind; [apply sh_separated; apply IH|]. intro. apply sh_leaf.
    - apply sh_bind; [apply sh_separated; apply IH|]. intro. apply sh_leaf.
    - apply sh_speculate; [apply IH|intro; apply sh_leaf|]. intro. apply sh_speculate; [apply IH|intro; apply sh_leaf|]. intro. apply sh_leaf.
    - destruct (E i) as [c|en cs]; cbn [w_def]; apply sh_pmap; [apply sh_fields|apply sh_variants]; exact IH. }
  specialize (G s). destruct (w_layer E n (wty E n) t s) as (r, c). cbn in *. lia.
Qed.
End Grammar3.
