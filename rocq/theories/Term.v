(** * Term: termination and divergence (C17, C18). *)
From Coq Require Import Wellfounded Relations.
From Verif Require Import Base Float Literal Syn Ast Derive Grammar Spec SynFacts Lawful Mono Combinators GrammarBeh.
Local Open Scope nat_scope.

(** ** vocabulary *)

(** A parser given by its fuel-bounded approximations returns, from [s]: with enough fuel the
    outcome is always the same, and it is not "out of fuel". *)
Definition returns {A} (F : nat -> parser A) (s : pstate) : Prop :=
  exists n0 o s', o <> ODiverge /\ forall n, n0 <= n -> F n s = (o, s').
(** No amount of fuel is enough. *)
Definition never_returns {A} (F : nat -> parser A) (s : pstate) : Prop :=
  forall n, fst (F n s) = ODiverge.
Definition terminates {U : unicode} (E : env) (t : ty) : Prop := forall s, returns (fun n => pty E n t) s.
Definition diverges {U : unicode} (E : env) (t : ty) : Prop := forall s, never_returns (fun n => pty E n t) s.

(** a parser without fuel that always returns, and one that always consumes something *)
Definition total {A} (p : parser A) : Prop := forall s, fst (p s) <> ODiverge.
Definition consumes {A} (p : parser A) : Prop := forall s v s', p s = (OOk v, s') -> ps_rest s' <> ps_rest s.
(** items that consume at least one token, at least one of the two *)
Definition progress {A P} (pa : parser A) (pp : parser P) : Prop := consumes pa \/ consumes pp.

Section Nullable.
Context {U : unicode}.
Variable E : env.
(** the type can match without consuming *)
Definition nullable (t : ty) : Prop := exists s v s', yes (tbeh E t) s v s' /\ ps_rest s' = ps_rest s.

(** [leftmost N t j]: parsing a [t] may begin to parse the production [j] before anything
    is consumed, where [N] are the types that can match nothing. *)
Section Leftmost.
Variable N : ty -> Prop.
Inductive leftmost : ty -> nat -> Prop :=
| lm_ref i : leftmost (TyRef i) i
| lm_box t j : leftmost t j -> leftmost (TyBox t) j
| lm_any t j : leftmost t j -> leftmost (TyAny t) j
| lm_either1 a b j : leftmost a j -> leftmost (TyEither a b) j
| lm_either2 a b j : leftmost b j -> leftmost (TyEither a b) j
| lm_maybe1 a b j : leftmost a j -> leftmost (TyMaybe a b) j
| lm_maybe2 a b j : N a -> leftmost b j -> leftmost (TyMaybe a b) j
| lm_sep1 a p j : leftmost a j -> leftmost (TySeparated a p) j
| lm_sep2 a p j : N a -> leftmost p j -> leftmost (TySeparated a p) j
| lm_punct1 a p j : leftmost a j -> leftmost (TyPunctuated a p) j
| lm_punct2 a p j : N a -> leftmost p j -> leftmost (TyPunctuated a p) j
| lm_left1 o r j : leftmost r j -> leftmost (TyLeftAssoc o r) j
| lm_left2 o r j : N r -> leftmost o j -> leftmost (TyLeftAssoc o r) j
| lm_right1 o r j : leftmost r j -> leftmost (TyRightAssoc o r) j
| lm_right2 o r j : N r -> leftmost o j -> leftmost (TyRightAssoc o r) j.
(** a field all of whose predecessors can match nothing *)
Definition leftmost_field (fs : list (label * ty)) (j : nat) : Prop :=
  exists pre f post, fs = pre ++ f :: post /\ Forall (fun g => N (snd g)) pre /\ leftmost (snd f) j.
(** the production [i] may begin with the production [j] *)
Definition begins (j i : nat) : Prop :=
  match E i with
  | DStruct c => leftmost_field (c_fields c) j
  | DEnum _ cs => exists c, In c cs /\ leftmost_field (c_fields c) j
  end.
(** no repetition whose iterations can match nothing *)
Fixpoint productive (t : ty) : Prop :=
  match t with
  | TyAny a => ~ N a /\ productive a
  | TySeparated a b | TyPunctuated a b => ~ (N a /\ N b) /\ productive a /\ productive b
  | TyLeftAssoc b a | TyRightAssoc b a => ~ (N a /\ N b) /\ productive a /\ productive b
  | TyMaybe a b | TyEither a b => productive a /\ productive b
  | TyParen a | TyBracket a | TyBrace a | TyBox a => productive a
  | _ => True
  end.
Definition productive_def (d : tdef) : Prop :=
  match d with
  | DStruct c => Forall (fun f => productive (snd f)) (c_fields c)
  | DEnum _ cs => Forall (fun c => Forall (fun f => productive (snd f)) (c_fields c)) cs
  end.
End Leftmost.
End Nullable.

(** ** sizes *)
Lemma pops_strict a b : pops a b -> a = b \/ ts_size b < ts_size a.
Proof.
  induction 1 as [l|x r l H IH|sp i r l H IH]; [left; reflexivity| |]; right; apply pops_size in H.
  - cbn [ts_size]. pose proof (tt_size_pos x). lia.
  - cbn [ts_size]. rewrite tt_size_group. rewrite ts_size_app in H. lia.
Qed.
Definition sz (s : pstate) : nat := ts_size (ps_rest s).
Lemma wfp_sz {A} (p : parser A) s o s' : lawful p -> p s = (o, s') -> sz s' <= sz s.
Proof. intros (Hw & _) H. apply Hw in H as (H & _). apply pops_size. exact H. Qed.
Lemma wfp_eq {A} (p : parser A) s o s' : lawful p -> p s = (o, s') -> sz s <= sz s' -> ps_rest s' = ps_rest s.
Proof. intros (Hw & _) H Hs. apply Hw in H as (H & _). apply pops_strict in H as [H|H]; [auto|]. unfold sz in Hs. lia. Qed.
Lemma consumes_sz {A} (p : parser A) s v s' : lawful p -> consumes p -> p s = (OOk v, s') -> sz s' < sz s.
Proof.
  intros Hl Hc H. destruct (Nat.lt_ge_cases (sz s') (sz s)) as [Hlt|Hge]; [exact Hlt|]. exfalso.
  eapply Hc; [exact H|]. eapply wfp_eq; eassumption.
Qed.

(** ** generic items (C17) *)
Lemma any_total {A} (pa : parser A) : lawful pa -> total pa -> consumes pa ->
  forall k s acc n, sz s < k -> k <= n -> fst (any_loop n pa acc s) <> ODiverge.
Proof.
  intros Hl Ht Hc. induction k as [|k IH]; intros s acc n Hs Hn; [lia|]. destruct n as [|n]; [lia|].
  rewrite any_loop_speculate, speculate_spec by exact Hl. specialize (Ht s). destruct (pa s) as ([v|e| |], s1) eqn:Ep; cbn in *; try congruence.
  apply IH; [|lia]. pose proof (consumes_sz _ _ _ _ Hl Hc Ep). lia.
Qed.
Lemma separated_total {A P} (pa : parser A) (pp : parser P) : lawful pa -> lawful pp -> total pa -> total pp -> progress pa pp ->
  forall k s acc c n, sz s < k -> k <= n -> fst (separated_loop n pa pp acc c s) <> ODiverge.
Proof.
  intros Ha Hp Ta Tp Hc. induction k as [|k IH]; intros s acc c n Hs Hn; [lia|]. destruct n as [|n]; [lia|].
  rewrite separated_loop_speculate, speculate_spec by exact Hp. specialize (Tp s). destruct (pp s) as ([q|e| |], s1) eqn:Ep; cbn in *; try congruence.
  unfold bind. specialize (Ta s1). destruct (pa s1) as ([v|e| |], s2) eqn:Ea; cbn in *; try congruence.
  apply IH; [|lia]. pose proof (wfp_sz _ _ _ _ Hp Ep). pose proof (wfp_sz _ _ _ _ Ha Ea). destruct Hc as [Hc|Hc].
  - pose proof (consumes_sz _ _ _ _ Ha Hc Ea). lia.
  - pose proof (consumes_sz _ _ _ _ Hp Hc Ep). lia.
Qed.
Lemma terminated_total {A P} (pa : parser A) (pp : parser P) : lawful pa -> lawful pp -> total pa -> total pp -> progress pa pp ->
  forall k s acc n, sz s < k -> k <= n -> fst (terminated_loop n pa pp acc s) <> ODiverge.
Proof.
  intros Ha Hp Ta Tp Hc. induction k as [|k IH]; intros s acc n Hs Hn; [lia|]. destruct n as [|n]; [lia|].
  rewrite terminated_loop_S. destruct (is_empty s); [discriminate|].
  unfold bind at 1. specialize (Ta s). destruct (pa s) as ([v|e| |], s1) eqn:Ea; cbn in *; try congruence.
  destruct (is_empty s1); [discriminate|].
  unfold bind. specialize (Tp s1). destruct (pp s1) as ([q|e| |], s2) eqn:Ep; cbn in *; try congruence.
  apply IH; [|lia]. pose proof (wfp_sz _ _ _ _ Hp Ep). pose proof (wfp_sz _ _ _ _ Ha Ea). destruct Hc as [Hc|Hc].
  - pose proof (consumes_sz _ _ _ _ Ha Hc Ea). lia.
  - pose proof (consumes_sz _ _ _ _ Hp Hc Ep). lia.
Qed.
(** an item that succeeds without consuming at [s] succeeds there forever *)
Lemma oblivious_again {A} (p : parser A) s s2 o s' : lawful p -> ps_rest s2 = ps_rest s -> ps_scope s2 = ps_scope s ->
  p s = (o, s') -> exists s3, p s2 = (o, s3) /\ ps_rest s3 = ps_rest s' /\ ps_scope s3 = ps_scope s'.
Proof.
  intros (Hw & Ho) Hr Hs H. rewrite (Ho s) in H. rewrite (Ho s2). unfold fork in *. rewrite Hr, Hs.
  destruct (p (PS (ps_rest s) (ps_scope s) None)) as (o1, fk). cbn [fst snd] in *. injection H as <- <-.
  eexists. split; [reflexivity|]. split; [reflexivity|]. exact Hs.
Qed.
Lemma any_diverges {A} (pa : parser A) s v s' : lawful pa -> pa s = (OOk v, s') -> ps_rest s' = ps_rest s ->
  forall n acc s0, ps_rest s0 = ps_rest s -> ps_scope s0 = ps_scope s -> fst (any_loop n pa acc s0) = ODiverge.
Proof.
  intros Hl H Hr. induction n as [|n IH]; intros acc s0 H0 Hs0; [reflexivity|].
  rewrite any_loop_speculate, speculate_spec by exact Hl.
  destruct (oblivious_again pa s s0 _ _ Hl H0 Hs0 H) as (s3 & E3 & R3 & S3). rewrite E3. apply IH; [congruence|].
  destruct Hl as (Hw & _). apply Hw in H as (_ & Hsc & _). congruence.
Qed.
Lemma separated_diverges {A P} (pa : parser A) (pp : parser P) s q s1 v s' : lawful pa -> lawful pp ->
  pp s = (OOk q, s1) -> pa s1 = (OOk v, s') -> ps_rest s' = ps_rest s ->
  forall n acc c s0, ps_rest s0 = ps_rest s -> ps_scope s0 = ps_scope s -> fst (separated_loop n pa pp acc c s0) = ODiverge.
Proof.
  intros Ha Hp H H' Hr. induction n as [|n IH]; intros acc c s0 H0 Hs0; [reflexivity|].
  rewrite separated_loop_speculate, speculate_spec by exact Hp.
  destruct (oblivious_again pp s s0 _ _ Hp H0 Hs0 H) as (s3 & E3 & R3 & S3). rewrite E3. unfold bind.
  destruct (oblivious_again pa s1 s3 _ _ Ha R3 S3 H') as (s4 & E4 & R4 & S4). rewrite E4. apply IH; [congruence|].
  destruct Ha as (Hwa & _). destruct Hp as (Hwp & _). apply Hwa in H' as (_ & Hsc & _). apply Hwp in H as (_ & Hsc2 & _). congruence.
Qed.

(** ** families *)
Lemma returns_pty {U : unicode} E t s n : fst (pty E n t s) <> ODiverge -> returns (fun n => pty E n t) s.
Proof.
  destruct (pty E n t s) as (o, s') eqn:Ep. cbn. intro H. exists n, o, s'. split; [exact H|].
  intros m Hm. eapply pty_mono; eassumption.
Qed.
Lemma returns_pure {A} (o : outcome A) s s' (F : nat -> parser A) : o <> ODiverge -> (forall n, F n s = (o, s')) -> returns F s.
Proof. intros Ho H. exists 0, o, s'. auto. Qed.
Lemma returns_bind {A B} (F : nat -> parser A) (G : nat -> A -> parser B) s : returns F s ->
  (forall n v s1, (forall m, n <= m -> F m s = (OOk v, s1)) -> returns (fun n => G n v) s1) -> returns (fun n => bind (F n) (G n)) s.
Proof.
  intros (n0 & o & s' & Ho & H) HG. destruct o as [v|e| |]; try congruence.
  - destruct (HG n0 v s' H) as (n1 & o & s2 & Ho2 & H2). exists (max n0 n1), o, s2. split; [exact Ho2|].
    intros n Hn. unfold bind. rewrite H by lia. apply H2. lia.
  - exists n0, (OErr e), s'. split; [discriminate|]. intros n Hn. unfold bind. rewrite H by lia. reflexivity.
  - exists n0, OPanic, s'. split; [discriminate|]. intros n Hn. unfold bind. rewrite H by lia. reflexivity.
Qed.
Lemma returns_pmap {A B} (f : A -> B) F s : returns F s -> returns (fun n => pmap f (F n)) s.
Proof.
  intro H. apply (returns_bind F (fun _ v => ret (f v))); [exact H|]. intros n v s1 _.
  apply (returns_pure (OOk (f v)) s1 s1); [discriminate|reflexivity].
Qed.
Lemma returns_map_err {A} f (F : nat -> parser A) s : returns F s -> returns (fun n => map_err f (F n)) s.
Proof.
  intros (n0 & o & s' & Ho & H). exists n0, (match o with OErr e => OErr (f e) | o => o end), s'. split; [destruct o; congruence|].
  intros n Hn. unfold map_err. rewrite H by lia. destruct o; reflexivity.
Qed.
Lemma returns_speculate {A B} (F : nat -> parser A) (Y : nat -> A -> parser B) (N : nat -> error -> parser B) s :
  (forall n, lawful (F n)) -> returns F s ->
  (forall n v s1, (forall m, n <= m -> F m s = (OOk v, s1)) -> returns (fun n => Y n v) s1) ->
  (forall e, returns (fun n => N n e) s) -> returns (fun n => speculate (F n) (Y n) (N n)) s.
Proof.
  intros Hl (n0 & o & s' & Ho & H) HY HN. destruct o as [v|e| |]; try congruence.
  - destruct (HY n0 v s' H) as (n1 & o & s2 & Ho2 & H2). exists (max n0 n1), o, s2. split; [exact Ho2|].
    intros n Hn. rewrite speculate_spec, H by (apply Hl || lia). apply H2. lia.
  - destruct (HN e) as (n1 & o & s2 & Ho2 & H2). exists (max n0 n1), o, s2. split; [exact Ho2|].
    intros n Hn. rewrite speculate_spec, H by (apply Hl || lia). apply H2. lia.
  - exists n0, OPanic, s. split; [discriminate|]. intros n Hn. rewrite speculate_spec, H by (apply Hl || lia). reflexivity.
Qed.
Lemma returns_ext {A} (F G : nat -> parser A) s : (forall n, F n s = G n s) -> returns G s -> returns F s.
Proof. intros HE (n0 & o & s' & Ho & H). exists n0, o, s'. split; [exact Ho|]. intros n Hn. rewrite HE. apply H. exact Hn. Qed.
Lemma returns_shift {A} (F : nat -> parser A) s : returns (fun n => F (S n)) s -> returns F s.
Proof.
  intros (n0 & o & s' & Ho & H). exists (S n0), o, s'. split; [exact Ho|]. intros [|n] Hn; [lia|]. apply H. lia.
Qed.
(** loops: fuel for the loop and for the items may grow independently *)
Definition returns2 {A} (F : nat -> nat -> parser A) (s : pstate) : Prop :=
  exists n0 o s', o <> ODiverge /\ forall k n, n0 <= k -> n0 <= n -> F k n s = (o, s').
Lemma returns2_diag {A} (F : nat -> nat -> parser A) s : returns2 F s -> returns (fun n => F n n) s.
Proof. intros (n0 & o & s' & Ho & H). exists n0, o, s'. split; [exact Ho|]. intros n Hn. apply H; lia. Qed.

Lemma returns2_spec {A B} (F : nat -> parser A) (Y : nat -> nat -> A -> parser B) (N : error -> parser B) s :
  (forall n, lawful (F n)) -> returns F s ->
  (forall n v s1, (forall m, n <= m -> F m s = (OOk v, s1)) -> returns2 (fun k n => Y k n v) s1) ->
  (forall e, exists o s', o <> ODiverge /\ N e s = (o, s')) ->
  exists n0 o s', o <> ODiverge /\ forall k n, n0 <= k -> n0 <= n -> speculate (F n) (Y k n) N s = (o, s').
Proof.
  intros Hl (n0 & o & s' & Ho & H) HY HN. destruct o as [v|e| |]; try congruence.
  - destruct (HY n0 v s' H) as (n1 & o & s2 & Ho2 & H2). exists (max n0 n1), o, s2. split; [exact Ho2|].
    intros k n Hk Hn. rewrite speculate_spec, H by (apply Hl || lia). apply H2; lia.
  - destruct (HN e) as (o & s2 & Ho2 & H2). exists n0, o, s2. split; [exact Ho2|].
    intros k n Hk Hn. rewrite speculate_spec, H by (apply Hl || lia). exact H2.
  - exists n0, OPanic, s. split; [discriminate|]. intros k n Hk Hn. rewrite speculate_spec, H by (apply Hl || lia). reflexivity.
Qed.
Lemma returns2_bind {A B} (F : nat -> parser A) (G : nat -> nat -> A -> parser B) s : returns F s ->
  (forall n v s1, (forall m, n <= m -> F m s = (OOk v, s1)) -> returns2 (fun k n => G k n v) s1) -> returns2 (fun k n => bind (F n) (G k n)) s.
Proof.
  intros (n0 & o & s' & Ho & H) HG. destruct o as [v|e| |]; try congruence.
  - destruct (HG n0 v s' H) as (n1 & o & s2 & Ho2 & H2). exists (max n0 n1), o, s2. split; [exact Ho2|].
    intros k n Hk Hn. unfold bind. rewrite H by lia. apply H2; lia.
  - exists n0, (OErr e), s'. split; [discriminate|]. intros k n Hk Hn. unfold bind. rewrite H by lia. reflexivity.
  - exists n0, OPanic, s'. split; [discriminate|]. intros k n Hk Hn. unfold bind. rewrite H by lia. reflexivity.
Qed.
Lemma returns2_shift {A} (F : nat -> nat -> parser A) s : returns2 (fun k n => F (S k) n) s -> returns2 F s.
Proof.
  intros (n0 & o & s' & Ho & H). exists (S n0), o, s'. split; [exact Ho|]. intros [|k] n Hk Hn; [lia|]. apply H; lia.
Qed.

Section Loops.
Context {A P : Type}.
Variable FA : nat -> parser A.
Variable FP : nat -> parser P.
Hypothesis LA : forall n, lawful (FA n).
Hypothesis LP : forall n, lawful (FP n).
Definition eventually {X} (F : nat -> parser X) s (v : X) s1 : Prop := exists n, forall m, n <= m -> F m s = (OOk v, s1).
Lemma eventually_sz {X} (F : nat -> parser X) (L : forall n, lawful (F n)) s v s1 : eventually F s v s1 -> sz s1 <= sz s.
Proof. intros (n & H). eapply wfp_sz; [apply L|apply (H n); lia]. Qed.
Lemma returns_any K : (forall s, sz s <= K -> returns FA s) ->
  (forall s v s1, eventually FA s v s1 -> sz s1 < sz s) ->
  forall s acc, sz s <= K -> returns2 (fun k n => any_loop k (FA n) acc) s.
Proof.
  intros HA Hc s. remember (sz s) as m eqn:Em. revert s Em. induction m as [m IH] using lt_wf_ind. intros s -> acc HK.
  apply returns2_shift. unfold returns2.
  edestruct (returns2_spec FA (fun k n v => any_loop k (FA n) (v :: acc)) (fun _ => ret (rev acc)) s LA) as (n0 & o & s' & Ho & H).
  - apply HA. exact HK.
  - intros n v s1 Hv. pose proof (Hc s v s1 (ex_intro _ n Hv)) as Hlt. eapply (IH (sz s1)); [exact Hlt|reflexivity|lia].
  - intro e. exists (OOk (rev acc)), s. split; [discriminate|reflexivity].
  - exists n0, o, s'. split; [exact Ho|]. intros k n Hk Hn. rewrite any_loop_speculate. apply H; assumption.
Qed.
Lemma returns_separated K : (forall s, sz s <= K -> returns FP s) ->
  (forall s p s1, sz s <= K -> eventually FP s p s1 -> returns FA s1) ->
  (forall s p s1 v s2, eventually FP s p s1 -> eventually FA s1 v s2 -> sz s2 < sz s) ->
  forall s acc c, sz s <= K -> returns2 (fun k n => separated_loop k (FA n) (FP n) acc c) s.
Proof.
  intros HP HA Hc s. remember (sz s) as m eqn:Em. revert s Em. induction m as [m IH] using lt_wf_ind. intros s -> acc c HK.
  apply returns2_shift. unfold returns2.
  edestruct (returns2_spec FP (fun k n q => bind (FA n) (fun v => separated_loop k (FA n) (FP n) ((c, q) :: acc) v)) (fun _ => ret (Pn (rev acc) (Some c))) s LP) as (n0 & o & s' & Ho & H).
  - apply HP. exact HK.
  - intros n q s1 Hq. apply returns2_bind; [eapply HA; [exact HK|exists n; exact Hq]|].
    intros n' v s2 Hv. pose proof (Hc s q s1 v s2 (ex_intro _ n Hq) (ex_intro _ n' Hv)) as Hlt. eapply (IH (sz s2)); [exact Hlt|reflexivity|lia].
  - intro e. exists (OOk (Pn (rev acc) (Some c))), s. split; [discriminate|reflexivity].
  - exists n0, o, s'. split; [exact Ho|]. intros k n Hk Hn. rewrite separated_loop_speculate. apply H; assumption.
Qed.
Lemma returns_terminated K : (forall s, sz s <= K -> returns FA s) ->
  (forall s v s1, sz s <= K -> eventually FA s v s1 -> returns FP s1) ->
  (forall s v s1 p s2, eventually FA s v s1 -> eventually FP s1 p s2 -> sz s2 < sz s) ->
  forall s acc, sz s <= K -> returns2 (fun k n => terminated_loop k (FA n) (FP n) acc) s.
Proof.
  intros HA HP Hc s. remember (sz s) as m eqn:Em. revert s Em. induction m as [m IH] using lt_wf_ind. intros s -> acc HK.
  apply returns2_shift. destruct (is_empty s) eqn:Es.
  - exists 0, (OOk (Pn (rev acc) None)), s. split; [discriminate|]. intros k n _ _. rewrite terminated_loop_S, Es. reflexivity.
  - destruct (returns2_bind FA (fun k n v s1 => if is_empty s1 then (OOk (Pn (rev acc) (Some v)), s1) else bind (FP n) (fun p => terminated_loop k (FA n) (FP n) ((v, p) :: acc)) s1) s) as (n0 & o & s' & Ho & H).
    + apply HA. exact HK.
    + intros n v s1 Hv. destruct (is_empty s1) eqn:Es1.
      * exists 0, (OOk (Pn (rev acc) (Some v))), s1. split; [discriminate|]. intros. rewrite Es1. reflexivity.
      * destruct (returns2_bind FP (fun k n p => terminated_loop k (FA n) (FP n) ((v, p) :: acc)) s1) as (n1 & o & s' & Ho & H).
        -- eapply HP; [exact HK|exists n; exact Hv].
        -- intros n' q s2 Hq. pose proof (Hc s v s1 q s2 (ex_intro _ n Hv) (ex_intro _ n' Hq)) as Hlt. eapply (IH (sz s2)); [exact Hlt|reflexivity|lia].
        -- exists n1, o, s'. split; [exact Ho|]. intros k m0 Hk Hm0. rewrite Es1. apply H; assumption.
    + exists n0, o, s'. split; [exact Ho|]. intros k n Hk Hn. rewrite terminated_loop_S, Es. apply H; assumption.
Qed.
End Loops.

(** ** every grammar (C18) *)
Section Grammars.
Context {U : unicode}.
Variable E : env.
Variable N : ty -> Prop.
Hypothesis HN : forall t, nullable E t -> N t.
Hypothesis HNdec : forall t, N t \/ ~ N t.
Hypothesis Hwf : well_founded (begins E N).
Hypothesis Hprod : forall i, productive_def N (E i).

Lemma ev_yes t s v s1 : eventually (fun n => pty E n t) s v s1 -> yes (tbeh E t) s v s1.
Proof. intros (n & H). exists n. apply H. lia. Qed.
Lemma not_null_sz t s v s1 : ~ N t -> eventually (fun n => pty E n t) s v s1 -> sz s1 < sz s.
Proof.
  intros Hn H. destruct (Nat.lt_ge_cases (sz s1) (sz s)) as [|Hge]; [assumption|]. exfalso. apply Hn, HN.
  exists s, v, s1. split; [apply ev_yes; exact H|]. destruct H as (n & H). eapply wfp_eq; [apply lawful_pty|apply (H n); lia|exact Hge].
Qed.
Lemma ev_le t s v s1 : eventually (fun n => pty E n t) s v s1 -> sz s1 <= sz s.
Proof. apply eventually_sz. intro. apply lawful_pty. Qed.

(** all streams smaller than [K] are fine for everything; of those of size [K], for the productions [B] *)
Variable K : nat.
Hypothesis IHK : forall t, productive N t -> forall s, sz s < K -> returns (fun n => pty E n t) s.
Section Below.
Variable B : nat -> Prop.
Hypothesis IHB : forall j, B j -> forall s, sz s <= K -> returns (fun n => pty E n (TyRef j)) s.

Lemma field_ev l en ct t n s v s1 : (forall m, n <= m -> map_err (chain_error en ct l) (pty E m t) s = (OOk v, s1)) ->
  eventually (fun n => pty E n t) s v s1.
Proof. intro H. exists n. intros m Hm. specialize (H m Hm). apply map_err_ok in H. exact H. Qed.
Lemma returns_fields_small en ct fs : Forall (fun f => productive N (snd f)) fs ->
  forall s, sz s < K -> returns (fun n => p_fields en ct (map (fun '(l, t) => (l, pty E n t)) fs)) s.
Proof.
  induction 1 as [|(l, t) fs Hpt Hpf IH]; intros s Hs.
  - apply (returns_pure (OOk []) s s); [discriminate|reflexivity].
  - cbn [map p_fields].
    apply (returns_bind (fun n => map_err (chain_error en ct l) (pty E n t)) (fun n v => bind (p_fields en ct (map (fun '(l, t) => (l, pty E n t)) fs)) (fun vs => ret (v :: vs)))).
    + apply returns_map_err, IHK; assumption.
    + intros n v s1 Hv. apply field_ev in Hv.
      apply (returns_bind (fun n => p_fields en ct (map (fun '(l, t) => (l, pty E n t)) fs)) (fun n vs => ret (v :: vs))).
      * apply IH. pose proof (ev_le _ _ _ _ Hv). lia.
      * intros n2 vs s4 _. apply (returns_pure (OOk (v :: vs)) s4 s4); [discriminate|reflexivity].
Qed.
Lemma returns_field_list en ct fs : Forall (fun f => productive N (snd f)) fs ->
  (forall pre f post, fs = pre ++ f :: post -> Forall (fun g => N (snd g)) pre -> forall s, sz s <= K -> returns (fun n => pty E n (snd f)) s) ->
  forall s, sz s <= K -> returns (fun n => p_fields en ct (map (fun '(l, t) => (l, pty E n t)) fs)) s.
Proof.
  induction fs as [|(l, t) fs IH]; intros Hp Hat s Hs.
  - apply (returns_pure (OOk []) s s); [discriminate|reflexivity].
  - inversion Hp as [|? ? Hpt Hpf]; subst. cbn [map p_fields].
    apply (returns_bind (fun n => map_err (chain_error en ct l) (pty E n t)) (fun n v => bind (p_fields en ct (map (fun '(l, t) => (l, pty E n t)) fs)) (fun vs => ret (v :: vs)))).
    + apply returns_map_err. apply (Hat [] (l, t) fs); [reflexivity|constructor|exact Hs].
    + intros n v s1 Hv. apply field_ev in Hv.
      apply (returns_bind (fun n => p_fields en ct (map (fun '(l, t) => (l, pty E n t)) fs)) (fun n vs => ret (v :: vs))).
      * destruct (HNdec t) as [Hn|Hn].
        -- apply IH; [exact Hpf| |].
           ++ intros pre f post -> Hpre s0 Hs0. apply (Hat ((l, t) :: pre) f post); [reflexivity|constructor; [exact Hn|exact Hpre]|exact Hs0].
           ++ pose proof (ev_le _ _ _ _ Hv). lia.
        -- apply returns_fields_small; [exact Hpf|]. pose proof (not_null_sz _ _ _ _ Hn Hv). lia.
      * intros n2 vs s4 _. apply (returns_pure (OOk (v :: vs)) s4 s4); [discriminate|reflexivity].
Qed.
Lemma lawful_field_list en ct n fs : lawful (p_fields en ct (map (fun '(l, t) => (l, pty E n t)) fs)).
Proof. apply lawful_fields. apply Forall_map, Forall_forall. intros (l, t0) _. apply lawful_pty. Qed.
Lemma returns_variant_list en cs : Forall (fun c => Forall (fun f => productive N (snd f)) (c_fields c)) cs ->
  (forall c, In c cs -> forall pre f post, c_fields c = pre ++ f :: post -> Forall (fun g => N (snd g)) pre -> forall s, sz s <= K -> returns (fun n => pty E n (snd f)) s) ->
  forall k acc s, sz s <= K -> returns (fun n => p_variants en k acc (map (fun c => (c_name c, map (fun '(l, t) => (l, pty E n t)) (c_fields c))) cs)) s.
Proof.
  induction cs as [|c cs IH]; intros Hp Hat k acc s Hs.
  - eapply returns_pure; [|intro; reflexivity]. discriminate.
  - inversion Hp as [|? ? Hpt Hpf]; subst. cbn [map]. refine (returns_ext _ (fun n => speculate _ _ _) s (fun n => p_variants_speculate _ _ _ _ _ _ _) _).
    apply (returns_speculate (fun n => p_fields en (c_name c) (map (fun '(l, t) => (l, pty E n t)) (c_fields c))) (fun n v => ret (k, v))
             (fun n e => p_variants en (S k) (Some match acc with Some a => max_error a e | None => e end) (map (fun c => (c_name c, map (fun '(l, t) => (l, pty E n t)) (c_fields c))) cs))).
    + intro n. apply lawful_field_list.
    + apply returns_field_list; [exact Hpt| |exact Hs]. apply Hat. left. reflexivity.
    + intros n v s1 _. apply (returns_pure (OOk (k, v)) s1 s1); [discriminate|reflexivity].
    + intro e. apply IH; [exact Hpf| |exact Hs]. intros c0 Hc0. apply Hat. right. exact Hc0.
Qed.
Lemma returns_group d t s : productive N t -> sz s <= K -> returns (fun n => p_group d (pty E n t)) s.
Proof.
  intros Hp Hs. unfold p_group. destruct (ignore_none (ps_rest s)) as [|[n0 sp0|c0 g0 sp0|r0 sp0|d' sp' i] r1] eqn:Ei;
    try (eapply returns_pure; [|intro; rewrite Ei; reflexivity]; discriminate).
  destruct (delim_eqb d d') eqn:Ed; [|eapply returns_pure; [|intro; rewrite Ei, Ed; reflexivity]; discriminate].
  destruct (IHK t Hp (PS i (close_span sp') (ps_unexp s))) as (n0 & o & si & Ho & H).
  - cbn. pose proof (ignore_none_pops (ps_rest s)) as Hpop. rewrite Ei in Hpop. apply pops_size in Hpop. cbn [ts_size] in Hpop. rewrite tt_size_group in Hpop. unfold sz in *. cbn. lia.
  - destruct o as [v|e| |]; try congruence;
      (eexists n0, _, _; split; [|intros n Hn; rewrite Ei, Ed, H by exact Hn; reflexivity]; discriminate).
Qed.
Lemma returns_leaf {A} (p : parser A) s : fst (p s) <> ODiverge -> returns (fun _ => p) s.
Proof. destruct (p s) as (o, s') eqn:Ep. intro H. apply (returns_pure o s s'); [exact H|intro; exact Ep]. Qed.
Lemma take_total op s : fst (p_token op s) <> ODiverge.
Proof. unfold p_token. destruct (take_op op (ps_rest s)) as [(?, ?)|]; discriminate. Qed.
Lemma ident_any_total s : fst (p_ident_any s) <> ODiverge.
Proof. unfold p_ident_any. destruct (ignore_none (ps_rest s)) as [|[] ?]; discriminate. Qed.
Lemma lit_total s : fst (p_lit s) <> ODiverge.
Proof.
  unfold p_lit. destruct (ignore_none (ps_rest s)) as [|[n0 sp0|c0 g0 sp0|r0 sp0|d' sp' i] r1]; try discriminate.
  - destruct (text_eqb n0 _); [discriminate|]. destruct (text_eqb n0 _); discriminate.
  - destruct (c0 =? 45)%N; [|discriminate]. destruct (ignore_none r1) as [|[n1 sp1|c1 g1 sp1|r2 sp1|d1 sp1 i1] r3]; try discriminate. destruct (lit_num _); discriminate.
  - destruct (lit_new r0); discriminate.
Qed.
Lemma typed_total {A} (sel : slit -> option A) w s : fst (p_typed sel w s) <> ODiverge.
Proof.
  unfold p_typed. pose proof (lit_total s) as H. destruct (p_lit s) as ([(k, sp)|e| |], s1); try discriminate.
  - destruct (sel k); discriminate.
  - contradiction H. reflexivity.
Qed.
Lemma bind_total {X Y} (p : parser X) (k : X -> parser Y) s : fst (p s) <> ODiverge -> (forall v s1, fst (k v s1) <> ODiverge) -> fst (bind p k s) <> ODiverge.
Proof. intros H Hk. unfold bind. destruct (p s) as ([v|e| |], s1); cbn in *; try discriminate; [apply Hk|congruence]. Qed.
Lemma litty_total k s : fst (p_litty k s) <> ODiverge.
Proof.
  destruct k; cbn [p_litty]; apply bind_total; try apply typed_total; intros; cbn; try discriminate.
  - unfold int_try_from. destruct (read_i64 _); discriminate.
  - unfold uint_try_from. destruct (read_u64 _); discriminate.
  - unfold float_try_from. destruct (float_read _); discriminate.
Qed.
Lemma any_lit_total s : fst (p_any_lit s) <> ODiverge.
Proof.
  apply bind_total; [apply lit_total|]. intros (k, sp) s1. cbn [fst lit_try_from].
  destruct k as [b|[]]; try discriminate.
  - destruct digits as [|c r]; [|destruct (c =? 45)%N]; unfold int_try_from, uint_try_from.
    + discriminate.
    + destruct (read_i64 (c :: r)); discriminate.
    + destruct (read_u64 (c :: r)); discriminate.
  - unfold float_try_from. destruct (float_read digits); discriminate.
Qed.

Lemma returns_sep a p : ~ (N a /\ N p) -> productive N p ->
  (forall s, sz s <= K -> returns (fun n => pty E n a) s) ->
  (N a -> forall s, sz s <= K -> returns (fun n => pty E n p) s) ->
  forall s, sz s <= K -> returns (fun n => p_separated n (pty E n a) (pty E n p)) s.
Proof.
  intros Hx Hpp Ra Rp s Hs. apply (returns_bind (fun n => pty E n a) (fun n v => separated_loop n (pty E n a) (pty E n p) [] v)); [apply Ra; exact Hs|].
  intros n v s1 Hv. apply (returns2_diag (fun k n => separated_loop k (pty E n a) (pty E n p) [] v)).
  assert (Hv' : eventually (fun n => pty E n a) s v s1) by (exists n; exact Hv).
  apply (returns_separated (fun n => pty E n a) (fun n => pty E n p) (fun n => lawful_pty E n p) (sz s1)); [| | |lia].
  - intros s0 Hs0. destruct (HNdec a) as [Hn|Hn].
    + apply Rp; [exact Hn|]. pose proof (ev_le _ _ _ _ Hv'). lia.
    + apply IHK; [exact Hpp|]. pose proof (not_null_sz _ _ _ _ Hn Hv'). lia.
  - intros s0 q s2 Hs0 Hq. apply Ra. pose proof (ev_le _ _ _ _ Hv'). pose proof (ev_le _ _ _ _ Hq). lia.
  - intros s0 q s2 w s3 Hq Hw. pose proof (ev_le _ _ _ _ Hq). pose proof (ev_le _ _ _ _ Hw). destruct (HNdec a) as [Hn|Hn].
    + assert (Hn2 : ~ N p) by tauto. pose proof (not_null_sz _ _ _ _ Hn2 Hq). lia.
    + pose proof (not_null_sz _ _ _ _ Hn Hw). lia.
Qed.
Theorem returns_at t : productive N t -> (forall j, leftmost N t j -> B j) -> forall s, sz s <= K -> returns (fun n => pty E n t) s.
Proof.
  assert (Hleaf : forall A (f : A -> val) (p : parser A) s, fst (p s) <> ODiverge -> returns (fun _ => pmap f p) s).
  { intros A f p s H. apply (returns_pmap f (fun _ => p)). apply returns_leaf. exact H. }
  induction t; intros Hp Hl s Hs; apply returns_shift; cbn [pty p_layer].
  - apply Hleaf. unfold p_ident. destruct (ignore_none (ps_rest s)) as [|[n0 sp0| | |] ?]; try discriminate. destruct (text_mem n0 _); discriminate.
  - apply Hleaf. apply bind_total; [apply ident_any_total|]. intros. destruct (text_mem _ _); discriminate.
  - apply Hleaf. apply bind_total; [apply ident_any_total|]. intros. destruct (text_eqb _ _); discriminate.
  - apply Hleaf. unfold p_token_kw. destruct (ignore_none (ps_rest s)) as [|[n0 sp0| | |] ?]; try discriminate. destruct (text_eqb n0 _); discriminate.
  - apply Hleaf, take_total.
  - apply Hleaf, litty_total.
  - apply Hleaf, any_lit_total.
  - apply Hleaf. discriminate.
  - apply Hleaf. unfold p_eof. destruct (is_empty s); discriminate.
  - apply Hleaf. unfold p_not_eof. destruct (is_empty s); discriminate.
  - (* Maybe *) apply returns_pmap. refine (returns_ext _ (fun n => speculate _ _ _) s (fun n => p_maybe_speculate _ _ _) _).
    apply (returns_speculate (fun n => pty E n t1) (fun n x => bind (pty E n t2) (fun v => ret (Some (x, v)))) (fun n _ => ret None)).
    + intro. apply lawful_pty.
    + apply IHt1; [apply Hp| |exact Hs]. intros j Hj. apply Hl. apply lm_maybe1. exact Hj.
    + intros n v s1 Hv. apply (returns_bind (fun n => pty E n t2) (fun n w => ret (Some (v, w)))).
      * destruct (HNdec t1) as [Hn|Hn].
        -- apply IHt2; [apply Hp| |]. { intros j Hj. apply Hl. apply lm_maybe2; assumption. } pose proof (ev_le t1 s v s1 (ex_intro _ n Hv)). lia.
        -- apply IHK; [apply Hp|]. pose proof (not_null_sz t1 s v s1 Hn (ex_intro _ n Hv)). lia.
      * intros n2 w s4 _. apply (returns_pure (OOk (Some (v, w))) s4 s4); [discriminate|reflexivity].
    + intro e. apply (returns_pure (OOk None) s s); [discriminate|reflexivity].
  - apply returns_pmap, returns_group; assumption.
  - apply returns_pmap, returns_group; assumption.
  - apply returns_pmap, returns_group; assumption.
  - (* Punctuated *) apply returns_pmap. unfold p_punctuated, p_terminated.
    apply (returns2_diag (fun k n => terminated_loop k (pty E n t1) (pty E n t2) [])).
    destruct Hp as (Hx & Hp1 & Hp2). apply (returns_terminated (fun n => pty E n t1) (fun n => pty E n t2) K); [| | |exact Hs].
    + intros s0 Hs0. apply IHt1; [exact Hp1| |exact Hs0]. intros j Hj. apply Hl, lm_punct1, Hj.
    + intros s0 v s1 Hs0 Hv. destruct (HNdec t1) as [Hn|Hn].
      * apply IHt2; [exact Hp2| |]. { intros j Hj. apply Hl. apply lm_punct2; assumption. } pose proof (ev_le t1 s0 v s1 Hv). lia.
      * apply IHK; [exact Hp2|]. pose proof (not_null_sz t1 s0 v s1 Hn Hv). lia.
    + intros s0 v s1 q s2 Hv Hq. pose proof (ev_le _ _ _ _ Hv). pose proof (ev_le _ _ _ _ Hq). destruct (HNdec t1) as [Hn|Hn].
      * assert (Hn2 : ~ N t2) by tauto. pose proof (not_null_sz _ _ _ _ Hn2 Hq). lia.
      * pose proof (not_null_sz _ _ _ _ Hn Hv). lia.
  - (* Separated *) apply returns_pmap. destruct Hp as (Hx & Hp1 & Hp2). apply returns_sep; [exact Hx|exact Hp2| | |exact Hs].
    + intros s0 Hs0. apply IHt1; [exact Hp1| |exact Hs0]. intros j Hj. apply Hl, lm_sep1, Hj.
    + intros Hn s0 Hs0. apply IHt2; [exact Hp2| |exact Hs0]. intros j Hj. apply Hl. apply lm_sep2; assumption.
  - (* Any *) apply returns_pmap. unfold p_any. apply (returns2_diag (fun k n => any_loop k (pty E n t) [])).
    destruct Hp as (Hx & Hp). apply (returns_any (fun n => pty E n t) (fun n => lawful_pty E n t) K); [| |exact Hs].
    + intros s0 Hs0. apply IHt; [exact Hp| |exact Hs0]. intros j Hj. apply Hl, lm_any, Hj.
    + intros s0 v s1 Hv. exact (not_null_sz _ _ _ _ Hx Hv).
  - (* LeftAssoc *) apply returns_pmap. destruct Hp as (Hx & Hp1 & Hp2).
    apply (returns_bind (fun n => p_separated n (pty E n t2) (pty E n t1)) (fun _ seq s => match into_first_rest seq with Some (first, rest) => (OOk (build_left first rest), s) | None => (OPanic, s) end)).
    + apply returns_sep; [exact Hx|exact Hp2| | |exact Hs].
      * intros s0 Hs0. apply IHt2; [exact Hp1| |exact Hs0]. intros j Hj. apply Hl, lm_left1, Hj.
      * intros Hn s0 Hs0. apply IHt1; [exact Hp2| |exact Hs0]. intros j Hj. apply Hl. apply lm_left2; assumption.
    + intros n v s1 _. destruct (into_first_rest v) as [(x, l)|].
      * apply (returns_pure (OOk (build_left x l)) s1 s1); [discriminate|reflexivity].
      * apply (returns_pure OPanic s1 s1); [discriminate|reflexivity].
  - (* RightAssoc *) apply returns_pmap. destruct Hp as (Hx & Hp1 & Hp2).
    apply (returns_bind (fun n => p_separated n (pty E n t2) (pty E n t1)) (fun _ seq s => match into_last_rest seq with Some (first, rest) => (OOk (build_right first rest), s) | None => (OPanic, s) end)).
    + apply returns_sep; [exact Hx|exact Hp2| | |exact Hs].
      * intros s0 Hs0. apply IHt2; [exact Hp1| |exact Hs0]. intros j Hj. apply Hl, lm_right1, Hj.
      * intros Hn s0 Hs0. apply IHt1; [exact Hp2| |exact Hs0]. intros j Hj. apply Hl. apply lm_right2; assumption.
    + intros n v s1 _. destruct (into_last_rest v) as [(x, l)|].
      * apply (returns_pure (OOk (build_right x l)) s1 s1); [discriminate|reflexivity].
      * apply (returns_pure OPanic s1 s1); [discriminate|reflexivity].
  - (* Either *) apply returns_pmap. refine (returns_ext _ (fun n => speculate _ _ _) s (fun n => p_either_speculate _ _ _) _).
    apply (returns_speculate (fun n => pty E n t1) (fun n v => ret (ELeft v)) (fun n e1 => speculate (pty E n t2) (fun v => ret (ERight v)) (fun e2 => fail (max_error e1 e2)))).
    + intro. apply lawful_pty.
    + apply IHt1; [apply Hp| |exact Hs]. intros j Hj. apply Hl, lm_either1, Hj.
    + intros n v s1 _. apply (returns_pure (OOk (ELeft v)) s1 s1); [discriminate|reflexivity].
    + intro e1. apply (returns_speculate (fun n => pty E n t2) (fun n v => ret (ERight v)) (fun n e2 => fail (max_error e1 e2))).
      * intro. apply lawful_pty.
      * apply IHt2; [apply Hp| |exact Hs]. intros j Hj. apply Hl, lm_either2, Hj.
      * intros n v s1 _. apply (returns_pure (OOk (ERight v)) s1 s1); [discriminate|reflexivity].
      * intro e2. apply (returns_pure (OErr (max_error e1 e2)) s s); [discriminate|reflexivity].
  - apply IHt; [exact Hp| |exact Hs]. intros j Hj. apply Hl, lm_box, Hj.
  - (* Ref *) destruct (IHB i) with (s := s) as (n0 & o & s' & Ho & H); [apply Hl, lm_ref|exact Hs|].
    exists n0, o, s'. split; [exact Ho|]. intros n Hn. apply (H (S n)). lia.
Qed.
End Below.
Lemma returns_ref : forall i s, sz s <= K -> returns (fun n => pty E n (TyRef i)) s.
Proof.
  intro i. induction i as [i IH] using (well_founded_ind Hwf). intros s Hs. apply returns_shift. cbn [pty p_layer].
  pose proof (Hprod i) as Hp.
  assert (Hb : forall t j, begins E N j i -> t = TyRef j -> forall s, sz s <= K -> returns (fun n => pty E n t) s) by (intros t j Hj -> s0 Hs0; apply IH; assumption).
  unfold begins in Hb, IH. destruct (E i) as [c|en cs]; cbn [p_def productive_def] in *.
  - apply returns_pmap. apply returns_field_list; [exact Hp| |exact Hs].
    intros pre f post Hf Hpre s0 Hs0. apply (returns_at (leftmost_field N (c_fields c)) IH); [| |exact Hs0].
    + rewrite Hf in Hp. apply Forall_app in Hp as (_ & Hp). inversion Hp; assumption.
    + intros j Hj. exists pre, f, post. auto.
  - apply returns_pmap. apply returns_variant_list; [exact Hp| |exact Hs].
    intros c Hc pre f post Hf Hpre s0 Hs0. apply (returns_at (fun j => exists c, In c cs /\ leftmost_field N (c_fields c) j) IH); [| |exact Hs0].
    + rewrite Forall_forall in Hp. specialize (Hp c Hc). rewrite Hf in Hp. apply Forall_app in Hp as (_ & Hp). inversion Hp; assumption.
    + intros j Hj. exists c. split; [exact Hc|]. exists pre, f, post. auto.
Qed.
End Grammars.

Theorem grammar_terminates {U : unicode} E (N : ty -> Prop) : (forall t, nullable E t -> N t) -> (forall t, N t \/ ~ N t) ->
  well_founded (begins E N) -> (forall i, productive_def N (E i)) ->
  forall t, productive N t -> terminates E t.
Proof.
  intros HN HD Hwf Hprod.
  assert (H : forall K t, productive N t -> forall s, sz s < K -> returns (fun n => pty E n t) s).
  { induction K as [|K IH]; intros t Hp s Hs; [lia|].
    apply (returns_at E N HN HD K IH (fun _ => True)); [|exact Hp|auto|lia].
    intros j _. apply (returns_ref E N HN HD Hwf Hprod K IH). }
  intros t Hp s. apply (H (S (sz s))); [exact Hp|lia].
Qed.
