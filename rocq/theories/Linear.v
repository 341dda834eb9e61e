(** * Linear: parsers that look one token ahead make linearly many calls (C55): the combinators. *)
From Verif Require Import Base Float Literal Syn Ast Derive Grammar Spec SynFacts Lawful Mono Combinators GrammarBeh Term TermCheck LL1 Cost.
Local Open Scope nat_scope.

(** ** Heads that no stream begins with both of. *)
Definition real (h : head) : bool := match h with HEnd | HOp [] => false | _ => true end.
Definition overlap (a b : head) : bool :=
  match a, b with
  | HWord n, HWord m => text_eqb n m
  | HWord n, HWordNot ks | HWordNot ks, HWord n => negb (text_mem n ks)
  | HWordNot _, HWordNot _ => true
  | HOp p, HOp q => prefixb p q || prefixb q p
  | HOp p, HNeg _ | HNeg _, HOp p => text_eqb p [45%N]
  | HNeg k, HNeg k' | HLit k, HLit k' => if kd_eq_dec k k' then true else false
  | HGroup d, HGroup d' => delim_eqb d d'
  | _, _ => false
  end.
Definition disjoint (A B : list head) : bool := forallb (fun a => forallb (fun b => negb (real a && real b && overlap a b)) B) A.

Section Hits.
Context {U : unicode}.
Lemma take_op_both p : forall q l x y, take_op p l = Some x -> take_op q l = Some y -> prefixb p q || prefixb q p = true.
Proof.
  induction p as [|c p IH]; intros [|d q] l x y Hx Hy; try reflexivity. cbn [take_op prefixb] in *.
  destruct (ignore_none l) as [|[n0 sp0|c0 g0 sp0|r0 sp0|d' sp' i] r1]; try discriminate.
  destruct (c =? c0)%N eqn:Ec; [|discriminate]. destruct (d =? c0)%N eqn:Ed; [|discriminate]. apply N.eqb_eq in Ec, Ed. subst c d. rewrite N.eqb_refl.
  destruct (_ && _) in Hx; [|discriminate]. destruct (_ && _) in Hy; [|discriminate]. cbn [andb].
  destruct (take_op p r1) eqn:E1; [|discriminate]. destruct (take_op q r1) eqn:E2; [|discriminate]. eapply IH; eassumption.
Qed.
Lemma take_op_head p l x : p <> [] -> take_op p l = Some x -> exists c g sp r, ignore_none l = TPunct c g sp :: r /\ hd_error p = Some c /\
  (forall t r', ignore_none r = t :: r' -> (forall c g sp, t <> TPunct c g sp) -> p = [c]).
Proof.
  intros Hp H. destruct p as [|c p]; [congruence|]. cbn [take_op] in H. destruct (ignore_none l) as [|[n0 sp0|c0 g0 sp0|r0 sp0|d' sp' i] r1]; try discriminate.
  destruct (c =? c0)%N eqn:Ec; [|discriminate]. apply N.eqb_eq in Ec. subst c0. exists c, g0, sp0, r1. split; [reflexivity|]. split; [reflexivity|]. intros t r' Ht Hn.
  destruct p as [|c2 p]; [reflexivity|]. exfalso. destruct (_ && _) in H; [|discriminate]. cbn [take_op] in H. rewrite Ht in H.
  destruct t; try discriminate. eapply Hn. reflexivity.
Qed.
Lemma overlap_ok a b l : real a = true -> real b = true -> starts a l -> starts b l -> overlap a b = true.
Proof.
  intros Ra Rb Ha Hb. destruct a as [n|ks|p|k|k|d|], b as [m|ks'|q|k'|k'|d'|]; cbn [starts overlap real] in *; try discriminate;
    repeat match goal with
    | H : exists _, _ |- _ => destruct H
    | H : _ /\ _ |- _ => destruct H
    end;
    repeat match goal with
    | H1 : ignore_none ?l = _, H2 : ignore_none ?l = _ |- _ => rewrite H1 in H2; try discriminate H2; injection H2; clear H2; intros; subst
    end;
    repeat match goal with H : take_op ?p ?l = Some _ |- _ => lazymatch goal with _ : p <> [] |- _ => fail | _ => assert (p <> []) by (destruct p; [discriminate|congruence]) end end;
    try (match goal with H : take_op ?p ?l = Some _, H2 : ignore_none ?l = _ |- _ => apply take_op_head in H as (? & ? & ? & ? & Hi & ? & ?); [|assumption]; rewrite H2 in Hi; discriminate Hi end).
  - apply text_eqb_refl.
  - apply negb_true_iff, text_mem_false. assumption.
  - apply negb_true_iff, text_mem_false. assumption.
  - reflexivity.
  - eapply take_op_both; eassumption.
  - match goal with H : take_op _ _ = Some _ |- _ => apply take_op_head in H as (? & ? & ? & ? & Hi & ? & Hq); [|assumption] end.
    match goal with H1 : ignore_none ?l = TPunct 45%N _ _ :: _ |- _ => rewrite H1 in Hi end. injection Hi as <- <- <- <-. apply text_eqb_eq. eapply Hq; [eassumption|intros; discriminate].
  - match goal with H : take_op _ _ = Some _ |- _ => apply take_op_head in H as (? & ? & ? & ? & Hi & ? & Hq); [|assumption] end.
    match goal with H1 : ignore_none ?l = TPunct 45%N _ _ :: _ |- _ => rewrite H1 in Hi end. injection Hi as <- <- <- <-. apply text_eqb_eq. eapply Hq; [eassumption|intros; discriminate].
  - match goal with H1 : ?a = Some _, H2 : ?a = Some _ |- _ => rewrite H1 in H2; injection H2 as -> end. destruct (kd_eq_dec _ _); congruence.
  - match goal with H1 : ?a = Some _, H2 : ?a = Some _ |- _ => rewrite H1 in H2; injection H2 as -> end. destruct (kd_eq_dec _ _); congruence.
  - apply delim_eqb_refl.
Qed.
(** the stream begins with one of [F] *)
Definition hit (F : list head) (l : list tt) : Prop := exists h, In h F /\ real h = true /\ starts h l.
Lemma hit_incl F G l : incl F G -> hit F l -> hit G l.
Proof. intros H (h & Hh & R & S). exists h. auto. Qed.
Lemma disjoint_ok F G l : disjoint F G = true -> hit F l -> hit G l -> False.
Proof.
  unfold disjoint. rewrite forallb_forall. intros H (a & Ha & Ra & Sa) (b & Hb & Rb & Sb). specialize (H a Ha). rewrite forallb_forall in H. specialize (H b Hb).
  rewrite Ra, Rb, (overlap_ok a b l Ra Rb Sa Sb) in H. discriminate.
Qed.
Lemma disjoint_nil F : disjoint F [] = true.
Proof. unfold disjoint. apply forallb_forall. reflexivity. Qed.
Lemma hit_app F G l : hit (F ++ G) l <-> hit F l \/ hit G l.
Proof.
  unfold hit. split.
  - intros (h & Hh & R). apply in_app_or in Hh as [Hh|Hh]; [left|right]; eauto.
  - intros [(h & Hh & R)|(h & Hh & R)]; exists h; (split; [apply in_or_app; auto|exact R]).
Qed.
End Hits.

(** ** The claim about a parser.  It has done nothing ([B] calls at most); or it went ahead and paid [A] per token and [G] for the
    beginning; or it failed, or stopped, before a token of [P] that will not be read by what follows, after having looked at most
    at everything.  [F] is what it can begin with, [n] whether it can match nothing. *)
Section Lin.
Context {U : unicode}.
Variable A : nat.
Definition idle (n : bool) (B : nat) (s s' : pstate) (k : nat) : Prop := ps_rest s' = ps_rest s /\ n = true /\ k <= B.
Definition ahead (G : nat) (F : list head) (s s' : pstate) (k : nat) : Prop := sz s' < sz s /\ hit F (ps_rest s) /\ k + A * sz s' + A <= A * sz s + G.
Definition dead (G : nat) (F : list head) (s : pstate) (k : nat) : Prop := hit F (ps_rest s) /\ k + A <= A * sz s + G.
Definition lin {V} (B G : nat) (n : bool) (F P : list head) (w : cparser V) : Prop := forall s o s' c, w s = (o, s', c) ->
  match o with
  | OOk _ => idle n B s s' (calls c) \/ ahead G F s s' (calls c) \/ (sz s' <= sz s /\ hit P (ps_rest s') /\ dead G F s (calls c))
  | ODiverge => True
  | _ => calls c <= B \/ dead G F s (calls c)
  end.
Lemma sz_mul s s' : sz s' <= sz s -> A * sz s' <= A * sz s.
Proof. apply Nat.mul_le_mono_l. Qed.
Lemma same_sz s s' : ps_rest s' = ps_rest s -> sz s' = sz s.
Proof. unfold sz. congruence. Qed.
Lemma lin_weaken {V} B G n F P B' G' n' F' P' (w : cparser V) : B <= B' -> G <= G' -> (n = true -> n' = true) -> incl F F' -> incl P P' -> lin B G n F P w -> lin B' G' n' F' P' w.
Proof.
  intros HB HG Hn HF HP H s o s' c E. specialize (H s o s' c E). unfold idle, ahead, dead in *.
  assert (I := hit_incl F F' (ps_rest s) HF). assert (J := hit_incl P P' (ps_rest s') HP).
  destruct o; [|destruct H as [H|H]; [left; lia|right; destruct H; split; [auto|lia]]|destruct H as [H|H]; [left; lia|right; destruct H; split; [auto|lia]]|exact Logic.I].
  destruct H as [(H1 & H2 & H3)|[(H1 & H2 & H3)|(H1 & H2 & H3 & H4)]]; [left|right; left|right; right]; repeat split; auto; lia.
Qed.
Lemma lin_idle {V} B G n n' F P (w : cparser V) : lin B G n F P w -> (forall s v s' c, w s = (OOk v, s', c) -> sz s' = sz s -> n' = true) -> lin B G n' F P w.
Proof.
  intros H Hn s o s' c E. specialize (H s o s' c E). destruct o; try exact H. destruct H as [(H1 & H2 & H3)|H]; [left|right; exact H].
  repeat split; auto. eapply Hn; [exact E|]. apply same_sz. exact H1.
Qed.
Lemma lin_ret {V} B G F P (v : V) : lin B G true F P (w_ret v).
Proof. intros s o s' c E. injection E as <- <- <-. left. repeat split. apply Nat.le_0_l. Qed.
Lemma lin_fail {V} B G n F P (p : parser V) : (forall s, exists o, p s = (o, s) /\ match o with OOk _ => False | _ => True end) -> lin B G n F P (w_leaf p).
Proof. intros H s o s' c E. unfold w_leaf in E. injection E as E <-. destruct (H s) as (o' & E' & Ho). rewrite E in E'. injection E' as <- _. destruct o; [contradiction| | |exact I]; left; apply Nat.le_0_l. Qed.
(** parsers that read without calling others *)
Lemma lin_leaf {V} B G n F P (p : parser V) : A <= A + G -> (forall s v s', p s = (OOk v, s') -> (ps_rest s' = ps_rest s /\ n = true) \/ (sz s' < sz s /\ hit F (ps_rest s))) -> lin B G n F P (w_leaf p).
Proof.
  intros _ H s o s' c E. unfold w_leaf in E. injection E as E <-. destruct o as [v| | |]; [|left; apply Nat.le_0_l|left; apply Nat.le_0_l|exact I].
  destruct (H s v s' E) as [(H1 & H2)|(H1 & H2)]; [left; repeat split; auto; apply Nat.le_0_l|right; left; repeat split; auto].
  cbn [calls free]. assert (A * S (sz s') <= A * sz s) by (apply Nat.mul_le_mono_l; lia). lia.
Qed.
Lemma lin_bind {V W} B1 G1 n1 F1 P1 B2 G2 b2 n2 F2 P2 B G (p : cparser V) (k : V -> cparser W) :
  lin B1 G1 n1 F1 P1 p -> (forall v, lin b2 A n2 F2 P2 (k v)) -> (n1 = true -> forall v, lin B2 G2 n2 F2 P2 (k v)) -> disjoint P1 F2 = true ->
  B1 <= B -> (n1 = true -> B1 + B2 <= B /\ B1 + G2 <= G) -> G1 + b2 <= G ->
  lin B G (n1 && n2) (F1 ++ (if n1 then F2 else [])) (P2 ++ (if n2 then P1 else [])) (w_bind p k).
Proof.
  intros Hp Hk Hl D HB Hn HG s o s' c E. unfold w_bind in E. destruct (p s) as ((o1, s1), c1) eqn:Ep. specialize (Hp s o1 s1 c1 Ep).
  destruct o1 as [v|e| |].
  2:{ injection E as <- <- <-. destruct Hp as [Hp|(Hp1 & Hp2)]; [left; lia|right; split; [apply hit_app; auto|lia]]. }
  2:{ injection E as <- <- <-. destruct Hp as [Hp|(Hp1 & Hp2)]; [left; lia|right; split; [apply hit_app; auto|lia]]. }
  2:{ injection E as <- <- <-. exact I. }
  destruct (k v s1) as ((o2, s2), c2) eqn:Ek. injection E as -> -> <-. cbn [calls then_].
  destruct Hp as [(R1 & N1 & C1)|[(Z1 & T1 & C1)|(Z1 & T1 & (T1' & C1))]].
  - (* nothing read yet *) specialize (Hl N1 v s1 _ _ _ Ek). destruct (Hn N1) as (Hn1 & Hn2). rewrite N1. cbn [andb]. pose proof (same_sz _ _ R1) as Es.
    unfold idle, ahead, dead in *. rewrite R1, Es in Hl. destruct o as [w|e| |]; [|destruct Hl as [Hl|(Hl1 & Hl2)]; [left; lia|right; split; [apply hit_app; auto|lia]]
      |destruct Hl as [Hl|(Hl1 & Hl2)]; [left; lia|right; split; [apply hit_app; auto|lia]]|exact I].
    destruct Hl as [(? & ? & ?)|[(? & ? & ?)|(? & ? & ? & ?)]]; [left|right; left|right; right].
    + repeat split; auto; lia.
    + split; [assumption|]. split; [apply hit_app; auto|lia].
    + split; [assumption|]. split; [apply hit_app; auto|]. split; [apply hit_app; auto|lia].
  - (* something read *) specialize (Hk v s1 _ _ _ Ek). unfold idle, ahead, dead in *. assert (A * S (sz s1) <= A * sz s) by (apply Nat.mul_le_mono_l; lia).
    assert (T : hit (F1 ++ (if n1 then F2 else [])) (ps_rest s)) by (apply hit_app; auto).
    destruct o as [w|e| |]; [|destruct Hk as [Hk|(Hk1 & Hk2)]; right; (split; [exact T|lia])|destruct Hk as [Hk|(Hk1 & Hk2)]; right; (split; [exact T|lia])|exact I].
    destruct Hk as [(R2 & ? & ?)|[(? & ? & ?)|(? & ? & ? & ?)]].
    + right; left. rewrite (same_sz _ _ R2). repeat split; auto. lia.
    + right; left. repeat split; auto; lia.
    + right; right. split; [lia|]. split; [apply hit_app; auto|]. split; [exact T|lia].
  - (* before something that will not be read *) specialize (Hk v s1 _ _ _ Ek). unfold idle, ahead, dead in *.
    assert (N2 : ~ hit F2 (ps_rest s1)) by (intro Hx; eapply disjoint_ok; eassumption).
    assert (T : hit (F1 ++ (if n1 then F2 else [])) (ps_rest s)) by (apply hit_app; auto).
    destruct o as [w|e| |]; [|destruct Hk as [Hk|(Hk1 & _)]; [right; split; [exact T|lia]|contradiction]|destruct Hk as [Hk|(Hk1 & _)]; [right; split; [exact T|lia]|contradiction]|exact I].
    destruct Hk as [(R2 & E2 & ?)|[(? & ? & ?)|(? & ? & ? & ?)]]; [|contradiction|contradiction].
    right; right. rewrite (same_sz _ _ R2), R2, E2. split; [exact Z1|]. split; [apply hit_app; auto|]. split; [exact T|lia].
Qed.
Lemma lin_map {V W} B G n F P (f : V -> W) (p : cparser V) : lin B G n F P p -> lin B G n F P (w_pmap f p).
Proof.
  intros H s o s' c E. unfold w_pmap, w_bind in E. destruct (p s) as ((o1, s1), c1) eqn:Ep. specialize (H s o1 s1 c1 Ep). destruct o1 as [v|e| |]; [|injection E as <- <- <-; exact H..].
  injection E as <- <- <-. cbn [calls then_ free]. rewrite Nat.add_0_r. exact H.
Qed.
Lemma lin_map_err {V} B G n F P f (p : cparser V) : lin B G n F P p -> lin B G n F P (w_map_err f p).
Proof.
  intros H s o s' c E. unfold w_map_err in E. destruct (p s) as ((o1, s1), c1) eqn:Ep. specialize (H s o1 s1 c1 Ep). injection E as <- <- <-. destruct o1; exact H.
Qed.
Lemma lin_then_pure {V W} B G n F P (p : cparser V) (k : V -> parser W) : lin B G n F P p -> (forall v s, exists o, k v s = (o, s) /\ match o with OErr _ => False | ODiverge => False | _ => True end) ->
  lin B G n F P (w_bind p (fun v => w_leaf (k v))).
Proof.
  intros H Hk s o s' c E. unfold w_bind in E. destruct (p s) as ((o1, s1), c1) eqn:Ep. specialize (H s o1 s1 c1 Ep). destruct o1 as [v|e| |]; [|injection E as <- <- <-; exact H..].
  unfold w_leaf in E. destruct (Hk v s1) as (o2 & E2 & Ho). rewrite E2 in E. injection E as <- <- <-. cbn [calls then_ free]. rewrite Nat.add_0_r. destruct o2; [exact H|contradiction| |exact I].
  destruct H as [(? & ? & ?)|[(H1 & H2 & H3)|(? & ? & ?)]]; [left; assumption|right|right; assumption]. split; [exact H2|]. lia.
Qed.
Lemma lin_speculate {V W} B1 G1 n1 F1 P1 B2 G2 b2 n2 F2 P2 B3 G3 n3 F3 P3 B G (p : cparser V) (y : V -> cparser W) (no : error -> cparser W) :
  lin B1 G1 n1 F1 P1 p -> (forall v, lin b2 A n2 F2 P2 (y v)) -> (n1 = true -> forall v, lin B2 G2 n2 F2 P2 (y v)) -> (forall e, lin B3 G3 n3 F3 P3 (no e)) ->
  disjoint P1 F2 = true -> disjoint F1 F3 = true ->
  B1 + B3 <= B -> (n1 = true -> B1 + B2 <= B /\ B1 + G2 <= G) -> G1 + b2 <= G -> G1 + B3 <= G -> B1 + G3 <= G ->
  lin B G ((n1 && n2) || n3) (F1 ++ (if n1 then F2 else []) ++ F3) (P2 ++ (if n2 then P1 else []) ++ P3 ++ (if n3 then F1 else [])) (w_speculate p y no).
Proof.
  intros Hp Hk Hl H3 D D' HB Hn HG HG3 HB3 s o s' c E. unfold w_speculate in E. destruct (p (fork s)) as ((o1, s1), c1) eqn:Ep. specialize (Hp (fork s) o1 s1 c1 Ep).
  change (ps_rest (fork s)) with (ps_rest s) in Hp. change (sz (fork s)) with (sz s) in Hp.
  assert (FT : forall l, hit F1 l -> hit (F1 ++ (if n1 then F2 else []) ++ F3) l) by (intros; apply hit_app; auto).
  destruct o1 as [v|e| |].
  3:{ injection E as <- <- <-. destruct Hp as [Hp|(Hp1 & Hp2)]; [left; lia|right; split; [auto|]]. change (sz (fork s)) with (sz s) in Hp2. lia. }
  3:{ injection E as <- <- <-. exact I. }
  - (* accepted *) destruct (y v (advance_to s s1)) as ((o2, s2), c2) eqn:Ek. injection E as -> -> <-. cbn [calls then_].
    set (s0 := advance_to s s1) in *. assert (R0 : ps_rest s0 = ps_rest s1) by reflexivity. assert (Z0 : sz s0 = sz s1) by reflexivity. clearbody s0.
    destruct Hp as [(R1 & N1 & C1)|[(Z1 & T1 & C1)|(Z1 & T1 & (T1' & C1))]]; change (sz (fork s)) with (sz s) in *; change (ps_rest (fork s)) with (ps_rest s) in *.
    + specialize (Hl N1 v s0 _ _ _ Ek). destruct (Hn N1) as (Hn1 & Hn2). rewrite N1. cbn [andb]. pose proof (same_sz _ _ R1) as Es. change (sz (fork s)) with (sz s) in Es. assert (R : ps_rest s0 = ps_rest s) by congruence. assert (Zs : sz s0 = sz s) by congruence.
      unfold idle, ahead, dead in *. rewrite R, Zs in Hl.
      assert (FT2 : forall l, hit F2 l -> hit (F1 ++ F2 ++ F3) l) by (intros; apply hit_app; right; apply hit_app; auto).
      destruct o as [w|e| |]; [|destruct Hl as [Hl|(Hl1 & Hl2)]; [left; lia|right; split; [auto|lia]]|destruct Hl as [Hl|(Hl1 & Hl2)]; [left; lia|right; split; [auto|lia]]|exact I].
      destruct Hl as [(? & E2 & ?)|[(? & ? & ?)|(? & ? & ? & ?)]]; [left|right; left|right; right].
      * repeat split; [assumption|rewrite E2; reflexivity|lia].
      * split; [assumption|]. split; [auto|lia].
      * split; [assumption|]. split; [apply hit_app; auto|]. split; [auto|lia].
    + specialize (Hk v s0 _ _ _ Ek). unfold idle, ahead, dead in *. rewrite R0, Z0 in Hk. assert (A * S (sz s1) <= A * sz s) by (apply Nat.mul_le_mono_l; lia).
      destruct o as [w|e| |]; [|destruct Hk as [Hk|(Hk1 & Hk2)]; right; (split; [auto|lia])|destruct Hk as [Hk|(Hk1 & Hk2)]; right; (split; [auto|lia])|exact I].
      destruct Hk as [(R2 & ? & ?)|[(? & ? & ?)|(? & ? & ? & ?)]].
      * right; left. assert (sz s' = sz s1) by (unfold sz; congruence). rewrite H2. repeat split; auto. lia.
      * right; left. repeat split; auto; lia.
      * right; right. split; [lia|]. split; [apply hit_app; auto|]. split; [auto|lia].
    + specialize (Hk v s0 _ _ _ Ek). unfold idle, ahead, dead in *. rewrite R0, Z0 in Hk.
      assert (N2 : ~ hit F2 (ps_rest s1)) by (intro Hx; eapply (disjoint_ok P1 F2); eassumption).
      destruct o as [w|e| |]; [|destruct Hk as [Hk|(Hk1 & _)]; [right; split; [auto|lia]|contradiction]|destruct Hk as [Hk|(Hk1 & _)]; [right; split; [auto|lia]|contradiction]|exact I].
      destruct Hk as [(R2 & E2 & ?)|[(? & ? & ?)|(? & ? & ? & ?)]]; [|contradiction|contradiction].
      right; right. assert (Zs : sz s' = sz s1) by (unfold sz; congruence). rewrite Zs, R2, E2. split; [exact Z1|]. split; [apply hit_app; right; apply hit_app; auto|]. split; [auto|lia].
  - (* refused *) destruct (no e s) as ((o2, s2), c2) eqn:Ek. injection E as -> -> <-. cbn [calls then_]. specialize (H3 e s _ _ _ Ek). unfold idle, ahead, dead in *.
    assert (FT3 : forall l, hit F3 l -> hit (F1 ++ (if n1 then F2 else []) ++ F3) l) by (intros; apply hit_app; right; apply hit_app; auto).
    change (sz (fork s)) with (sz s) in Hp. change (ps_rest (fork s)) with (ps_rest s) in Hp.
    destruct Hp as [Hp|(Hp1 & Hp2)].
    + destruct o as [w|e'| |]; [|destruct H3 as [H3|(? & ?)]; [left; lia|right; split; [auto|lia]]|destruct H3 as [H3|(? & ?)]; [left; lia|right; split; [auto|lia]]|exact I].
      destruct H3 as [(? & E2 & ?)|[(? & ? & ?)|(? & ? & ? & ?)]]; [left|right; left|right; right].
      * repeat split; [assumption|rewrite E2; apply orb_true_r|lia].
      * split; [assumption|]. split; [auto|lia].
      * split; [assumption|]. split; [apply hit_app; right; apply hit_app; right; apply hit_app; auto|]. split; [auto|lia].
    + assert (N2 : ~ hit F3 (ps_rest s)) by (intro Hx; eapply (disjoint_ok F1 F3); eassumption).
      destruct o as [w|e'| |]; [|destruct H3 as [H3|(? & ?)]; [right; split; [auto|lia]|contradiction]|destruct H3 as [H3|(? & ?)]; [right; split; [auto|lia]|contradiction]|exact I].
      destruct H3 as [(R2 & E2 & ?)|[(? & ? & ?)|(? & ? & ? & ?)]]; [|contradiction|contradiction].
      right; right. rewrite (same_sz _ _ R2), R2, E2. split; [lia|]. split; [apply hit_app; right; apply hit_app; right; apply hit_app; auto|]. split; [auto|lia].
Qed.
(** a group: its contents are paid by its size *)
Lemma lin_group {V} b n F P G d (p : cparser V) : lin b A n F P p -> b <= G -> lin 0 G false [HGroup d] [] (w_group d p).
Proof.
  intros H HG s o s' c E. unfold w_group in E. destruct (ignore_none (ps_rest s)) as [|[n0 sp0|c0 sg sp0|rp sp0|d' sp0 i] r] eqn:Ei; try (injection E as <- <- <-; left; apply le_n).
  destruct (delim_eqb d d') eqn:Ed; [|injection E as <- <- <-; left; apply le_n]. apply delim_eqb_eq in Ed. subst d'.
  destruct (p _) as ((o1, s1), c1) eqn:Ep. injection E as <- <- <-. specialize (H _ _ _ _ Ep). cbn [ps_rest] in H. change (sz (PS i (close_span sp0) (ps_unexp s))) with (ts_size i) in *.
  assert (Hz : S (ts_size i) + ts_size r <= sz s). { unfold sz. pose proof (ignore_none_pops (ps_rest s)) as Hp. rewrite Ei in Hp. apply pops_size in Hp. cbn [ts_size] in Hp. rewrite tt_size_group in Hp. lia. }
  assert (T : hit [HGroup d] (ps_rest s)). { exists (HGroup d). split; [left; reflexivity|]. split; [reflexivity|]. cbn [starts]. eauto. }
  assert (A * (S (ts_size i) + ts_size r) <= A * sz s) by (apply Nat.mul_le_mono_l; exact Hz).
  unfold idle, ahead, dead in *. change (ps_rest (PS i (close_span sp0) (ps_unexp s))) with i in H. change (sz (PS i (close_span sp0) (ps_unexp s))) with (ts_size i) in H.
  destruct o1 as [v|e| |]; [|right; split; [exact T|destruct H as [H|(? & H)]; lia]|right; split; [exact T|destruct H as [H|(? & H)]; lia]|exact I].
  right; left. change (sz (PS r (ps_scope s) (drop_unexp (ps_unexp s1) (ps_rest s1)))) with (ts_size r). split; [lia|]. split; [exact T|].
  destruct H as [(? & ? & H)|[(? & ? & H)|(? & ? & ? & H)]]; lia.
Qed.
Lemma lin_unless {V} B G n F P (x : V) (w : cparser V) : lin B G n F P w -> lin B G true F P (fun s => if is_empty s then (OOk x, s, free) else w s).
Proof.
  intros H s o s' c E. destruct (is_empty s).
  - injection E as <- <- <-. left. repeat split. apply Nat.le_0_l.
  - specialize (H s o s' c E). destruct o; try exact H. destruct H as [(? & ? & ?)|H]; [left; repeat split; auto|right; exact H].
Qed.
Lemma lin_inside E n t B G nl F P {U' : unicode} : lin B G nl F P (w_layer E n (wty E n) t) -> lin (S B) (S G) nl F P (wty E (S n) t).
Proof.
  intros H s o s' c Ec. cbn [wty] in Ec. destruct (w_layer E n (wty E n) t s) as ((o1, s1), c1) eqn:El. injection Ec as -> -> <-. specialize (H s o s' c1 El). unfold idle, ahead, dead in *. cbn [calls inside].
  destruct o; [|destruct H as [H|(? & ?)]; [left; lia|right; split; [assumption|lia]]|destruct H as [H|(? & ?)]; [left; lia|right; split; [assumption|lia]]|exact I].
  destruct H as [(? & ? & ?)|[(? & ? & ?)|(? & ? & ? & ?)]]; [left|right; left|right; right]; repeat split; auto; lia.
Qed.
End Lin.
