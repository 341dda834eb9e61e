(** * Sim: inputs that look the same to the parsers are parsed the same way.

    Spans never matter; the spelling of a literal does not matter; the spacing of an operator
    character matters only if some operator type needs it to be [Joint]. *)
From Verif Require Import Base Float Literal Syn Ast Derive Grammar Spec LitSpec LiteralFacts Reprint LitDenote
  SynFacts Lawful Mono Combinators GrammarBeh.

Section Sim.
Context {U : unicode}.
Variable K : char -> bool.     (* the characters whose spacing matters *)

Definition litsim (r1 r2 : text) : Prop :=
  r1 = r2 \/ (denotes r1 = denotes r2 /\ unsigned r1 /\ unsigned r2).
Inductive sim : list tt -> list tt -> Prop :=
| sim_nil : sim [] []
| sim_ident n sp1 sp2 a b : sim a b -> sim (TIdent n sp1 :: a) (TIdent n sp2 :: b)
| sim_punct c g1 g2 sp1 sp2 a b : (K c = true -> g1 = g2) -> sim a b ->
    sim (TPunct c g1 sp1 :: a) (TPunct c g2 sp2 :: b)
| sim_lit r1 r2 sp1 sp2 a b : litsim r1 r2 -> sim a b -> sim (TLit r1 sp1 :: a) (TLit r2 sp2 :: b)
| sim_group d sp1 sp2 i j a b : sim i j -> sim a b -> sim (TGroup d sp1 i :: a) (TGroup d sp2 j :: b).

Lemma sim_app a b c d : sim a b -> sim c d -> sim (a ++ c) (b ++ d).
Proof. intros H H2. induction H; cbn [app]; try (constructor; auto; fail). exact H2. Qed.
Lemma sim_ignore a b : sim a b -> sim (ignore_none a) (ignore_none b).
Proof.
  revert b. induction a as [|t r Hv IH|sp i r IH] using stream_ind; intros b H.
  - inversion H; subst. constructor.
  - rewrite (ignore_none_visible t r Hv). inversion H; subst; try (rewrite ignore_none_visible by discriminate; constructor; assumption).
    rewrite ignore_none_visible; [constructor; assumption|]. intros sp i0 E. injection E as -> -> ->. eapply Hv. reflexivity.
  - rewrite ignore_none_open. inversion H; subst. rewrite ignore_none_open. apply IH. apply sim_app; assumption.
Qed.
Lemma sim_flat a b : sim a b -> sim (flat a) (flat b).
Proof.
  induction 1 as [|n sp1 sp2 a b H IH|c g1 g2 sp1 sp2 a b Hg H IH|r1 r2 sp1 sp2 a b Hl H IH|d sp1 sp2 i j a b Hi IHi H IH];
    try (cbn; constructor; assumption).
  destruct (delim_eqb d DNone) eqn:Ed.
  - apply delim_eqb_eq in Ed. subst d. rewrite !flat_none, !flat_app. apply sim_app; assumption.
  - cbn [flat]. rewrite !flat1_group by (intros ->; discriminate). cbn [app]. constructor; assumption.
Qed.
Lemma sim_leftover a b : sim a b -> (leftover a = None <-> leftover b = None).
Proof.
  intro H. rewrite !leftover_none_flat. apply sim_flat in H. split; intro E; rewrite E in H; inversion H; reflexivity.
Qed.

Definition ssim (s1 s2 : pstate) : Prop :=
  sim (ps_rest s1) (ps_rest s2) /\ (ps_unexp s1 = None <-> ps_unexp s2 = None).
Lemma ssim_set_rest s1 s2 r1 r2 : ssim s1 s2 -> sim r1 r2 -> ssim (set_rest s1 r1) (set_rest s2 r2).
Proof. intros (_ & Hu) H. split; [exact H|exact Hu]. Qed.
Lemma ssim_empty s1 s2 : ssim s1 s2 -> is_empty s1 = is_empty s2.
Proof. intros (H & _). unfold is_empty. inversion H; reflexivity. Qed.
Lemma ssim_fork s1 s2 : ssim s1 s2 -> ssim (fork s1) (fork s2).
Proof. intros (H & _). split; [exact H|]. cbn. tauto. Qed.
Lemma ssim_advance s1 s2 f1 f2 : ssim s1 s2 -> ssim f1 f2 -> ssim (advance_to s1 f1) (advance_to s2 f2).
Proof.
  intros (_ & Hu) (H & Hu2). split; [exact H|]. cbn. destruct (ps_unexp s1), (ps_unexp s2); try tauto.
  - destruct Hu as (_ & Hu). discriminate Hu. reflexivity.
  - destruct Hu as (Hu & _). discriminate Hu. reflexivity.
Qed.

(** outcomes equal up to [f], errors apart *)
Definition orel {A B} (f : A -> B) (o1 o2 : outcome A) : Prop :=
  match o1, o2 with
  | OOk a, OOk b => f a = f b
  | OErr _, OErr _ | OPanic, OPanic | ODiverge, ODiverge => True
  | _, _ => False
  end.
Definition par {A B} (f : A -> B) (p q : parser A) : Prop :=
  forall s1 s2, ssim s1 s2 -> orel f (fst (p s1)) (fst (q s2)) /\ ssim (snd (p s1)) (snd (q s2)).

Lemma par_pure {A B} (f : A -> B) o1 o2 : orel f o1 o2 -> par f (fun s => (o1, s)) (fun s => (o2, s)).
Proof. intros H s1 s2 Hs. split; assumption. Qed.
Lemma par_ret {A B} (f : A -> B) a b : f a = f b -> par f (ret a) (ret b).
Proof. intro H. apply (par_pure f (OOk a) (OOk b)). exact H. Qed.
Lemma par_fail {A B} (f : A -> B) e1 e2 : par f (fail e1) (fail e2).
Proof. apply (par_pure f (OErr e1) (OErr e2)). exact I. Qed.
Lemma par_bind {A B A' B'} (f : A -> A') (g : B -> B') p q k l :
  par f p q -> (forall a b, f a = f b -> par g (k a) (l b)) -> par g (bind p k) (bind q l).
Proof.
  intros Hp Hk s1 s2 Hs. specialize (Hp s1 s2 Hs). unfold bind.
  destruct (p s1) as ([a|e| |], t1), (q s2) as ([b|e'| |], t2); cbn [fst snd orel] in Hp; destruct Hp as (Ho & Ht); try contradiction;
    try (split; [exact I|exact Ht]).
  apply Hk; assumption.
Qed.
Lemma par_pmap {A B A' B'} (f : A -> A') (g : B -> B') (h : A -> B) p q :
  (forall a b, f a = f b -> g (h a) = g (h b)) -> par f p q -> par g (pmap h p) (pmap h q).
Proof. intros Hh Hp. eapply par_bind; [exact Hp|]. intros a b Hab. apply par_ret. auto. Qed.
Lemma par_map_err {A B} (f : A -> B) e1 e2 p q : par f p q -> par f (map_err e1 p) (map_err e2 q).
Proof.
  intros Hp s1 s2 Hs. specialize (Hp s1 s2 Hs). unfold map_err.
  destruct (p s1) as ([a|e| |], t1), (q s2) as ([b|e'| |], t2); cbn [fst snd orel] in Hp; destruct Hp as (Ho & Ht); try contradiction; split; assumption.
Qed.
Lemma par_speculate {A B A' B'} (f : A -> A') (g : B -> B') p q y1 y2 n1 n2 :
  par f p q -> (forall a b, f a = f b -> par g (y1 a) (y2 b)) -> (forall e1 e2, par g (n1 e1) (n2 e2)) ->
  par g (speculate p y1 n1) (speculate q y2 n2).
Proof.
  intros Hp Hy Hn s1 s2 Hs. specialize (Hp _ _ (ssim_fork _ _ Hs)). unfold speculate.
  destruct (p (fork s1)) as ([a|e| |], t1), (q (fork s2)) as ([b|e'| |], t2); cbn [fst snd orel] in Hp; destruct Hp as (Ho & Ht); try contradiction;
    try (split; [exact I|exact Hs]).
  - apply Hy; [exact Ho|]. apply ssim_advance; assumption.
  - apply Hn. exact Hs.
Qed.
Lemma par_ext {A B} (f : A -> B) p p' q q' : (forall s, p s = p' s) -> (forall s, q s = q' s) -> par f p' q' -> par f p q.
Proof. intros H1 H2 H s1 s2 Hs. rewrite H1, H2. apply H. exact Hs. Qed.

(** ** leaves *)
Ltac head_sim Hs := let H := fresh "Hh" in
  pose proof (sim_ignore _ _ (proj1 Hs)) as H; inversion H; subst; clear H.
Lemma par_ident_any : par fst p_ident_any p_ident_any.
Proof.
  intros s1 s2 Hs. unfold p_ident_any. head_sim Hs; try (split; [exact I|exact Hs]).
  split; [reflexivity|]. apply ssim_set_rest; assumption.
Qed.
Lemma par_ident : par fst p_ident p_ident.
Proof.
  intros s1 s2 Hs. unfold p_ident. head_sim Hs; try (split; [exact I|exact Hs]).
  destruct (text_mem n rust_keywords); [split; [exact I|exact Hs]|]. split; [reflexivity|]. apply ssim_set_rest; assumption.
Qed.
Lemma par_token_kw kw : par (fun _ => call_site) (p_token_kw kw) (p_token_kw kw).
Proof.
  intros s1 s2 Hs. unfold p_token_kw. head_sim Hs; try (split; [exact I|exact Hs]).
  destruct (text_eqb n kw); [|split; [exact I|exact Hs]]. split; [reflexivity|]. apply ssim_set_rest; assumption.
Qed.
Lemma par_custom_ident kws : par fst (p_custom_ident kws) (p_custom_ident kws).
Proof.
  eapply par_bind; [apply par_ident_any|]. intros (n1, sp1) (n2, sp2) E. cbn in E. subst n2. cbn [fst snd].
  destruct (text_mem n1 kws); [apply par_fail|apply par_ret; reflexivity].
Qed.
Lemma par_keyword kw : par (fun _ => call_site) (p_keyword kw) (p_keyword kw).
Proof.
  eapply par_bind; [apply par_ident_any|]. intros (n1, sp1) (n2, sp2) E. cbn in E. subst n2. cbn [fst snd].
  destruct (text_eqb n1 kw); [apply par_ret; reflexivity|apply par_fail].
Qed.
(** all characters but the last need their spacing *)
Fixpoint op_sharp (op : list char) : Prop :=
  match op with
  | [] | [_] => True
  | c :: op' => K c = true /\ op_sharp op'
  end.
Lemma sim_take op : op_sharp op -> forall a b, sim a b ->
  match take_op op a, take_op op b with
  | Some (x, r1), Some (y, r2) => List.length x = List.length y /\ sim r1 r2
  | None, None => True
  | _, _ => False
  end.
Proof.
  induction op as [|c op IH]; intros Hk a b H; cbn [take_op]; [auto|].
  apply sim_ignore in H. inversion H as [E1 E2|n sp1 sp2 a1 b1 Ha E1 E2|c1 g1 g2 sp1 sp2 a1 b1 Hg Ha E1 E2|r1 r2 sp1 sp2 a1 b1 Hl Ha E1 E2|d sp1 sp2 i j a1 b1 Hi Ha E1 E2]; try exact I.
  assert (E : (c =? c1)%N && negb (c1 =? 39)%N && match op with [] => true | _ => spacing_eqb g1 Joint end
            = (c =? c1)%N && negb (c1 =? 39)%N && match op with [] => true | _ => spacing_eqb g2 Joint end).
  { destruct op as [|c2 op]; [reflexivity|]. destruct (N.eqb_spec c c1) as [->|]; [|reflexivity]. rewrite Hg by apply Hk. reflexivity. }
  rewrite <- E. destruct (_ && _ && _); [|exact I].
  assert (Hk' : op_sharp op). { destruct op as [|c2 op]; [exact I|apply Hk]. }
  specialize (IH Hk' a1 b1 Ha). destruct (take_op op a1) as [(x, r1)|], (take_op op b1) as [(y, r2)|]; try exact IH.
  destruct IH as (IH1 & IH2). split; [cbn; congruence|exact IH2].
Qed.
Lemma par_token op : op_sharp op -> par (@List.length span) (p_token op) (p_token op).
Proof.
  intros Hk s1 s2 Hs. unfold p_token. pose proof (sim_take op Hk _ _ (proj1 Hs)) as H.
  destruct (take_op op (ps_rest s1)) as [(x, r1)|], (take_op op (ps_rest s2)) as [(y, r2)|]; try contradiction.
  - split; [apply H|]. apply ssim_set_rest; [exact Hs|apply H].
  - split; [exact I|exact Hs].
Qed.

(** literals up to spelling: what every literal type looks at *)
Definition lview (k : slit) : option meaning * option bool :=
  match k with
  | SLBool b => (None, Some b)
  | SLTok (KFloat ds) => (Some (MFloat (float_read ds)), None)
  | SLTok k => (Some (MTok k), None)
  end.
Lemma neg_view k1 k2 ds1 ds2 : k1 = Some (KFloat ds1) -> k2 = Some (KFloat ds2) -> unsigned ds1 -> unsigned ds2 ->
  float_read ds1 = float_read ds2 -> float_read (45%N :: ds1) = float_read (45%N :: ds2).
Proof. intros _ _ H1 H2 E. rewrite !float_read_neg, E by assumption. reflexivity. Qed.
Lemma litsim_new r1 r2 : litsim r1 r2 ->
  match lit_new r1, lit_new r2 with
  | Some k1, Some k2 => lview (SLTok k1) = lview (SLTok k2)
  | None, None => True
  | _, _ => False
  end.
Proof.
  intros [->|(Hd & _ & _)]; [destruct (lit_new r2); auto|]. unfold denotes in Hd.
  destruct (lit_new r1) as [[]|], (lit_new r2) as [[]|]; try discriminate; try (injection Hd as ->); try (injection Hd as Hd); cbn; try exact I; congruence.
Qed.
Lemma litsim_neg r1 r2 : litsim r1 r2 ->
  match lit_num (45%N :: r1), lit_num (45%N :: r2) with
  | Some k1, Some k2 => lview (SLTok k1) = lview (SLTok k2)
  | None, None => True
  | _, _ => False
  end.
Proof.
  intros H. pose proof (litsim_new r1 r2 H) as Hn. destruct H as [->|(Hd & H1 & H2)]; [destruct (lit_num (45%N :: r2)); auto|].
  rewrite !lit_num_neg by assumption.
  pose proof (lit_new_digits_unsigned r1 H1) as U1. pose proof (lit_new_digits_unsigned r2 H2) as U2.
  destruct (lit_new r1) as [[]|], (lit_new r2) as [[]|]; cbn [lview neg_kind] in Hn |- *; try contradiction; try congruence; try exact I.
  injection Hn as Hn. rewrite !float_read_neg, Hn by assumption. reflexivity.
Qed.
Lemma par_lit : par (fun x => lview (fst x)) p_lit p_lit.
Proof.
  intros s1 s2 Hs. unfold p_lit. head_sim Hs; try (split; [exact I|exact Hs]).
  - destruct (text_eqb n (T "true")); [split; [reflexivity|apply ssim_set_rest; assumption]|].
    destruct (text_eqb n (T "false")); [split; [reflexivity|apply ssim_set_rest; assumption]|]. split; [exact I|exact Hs].
  - destruct (c =? 45)%N; [|split; [exact I|exact Hs]].
    match goal with H : sim a b |- _ => apply sim_ignore in H; inversion H; subst; try (split; [exact I|exact Hs]) end.
    match goal with H : litsim _ _ |- _ => apply litsim_neg in H as Hl end.
    destruct (lit_num (45%N :: r1)), (lit_num (45%N :: r2)); try contradiction; [|split; [exact I|exact Hs]].
    split; [exact Hl|apply ssim_set_rest; assumption].
  - match goal with H : litsim _ _ |- _ => apply litsim_new in H as Hl end.
    destruct (lit_new r1), (lit_new r2); try contradiction; [|split; [exact I|exact Hs]].
    split; [exact Hl|apply ssim_set_rest; assumption].
Qed.
Lemma par_typed {A B} (g : A -> B) (sel : slit -> option A) w1 w2 :
  (forall k1 k2, lview k1 = lview k2 -> option_map g (sel k1) = option_map g (sel k2)) ->
  par (fun x => g (fst x)) (p_typed sel w1) (p_typed sel w2).
Proof.
  intros Hsel s1 s2 Hs. pose proof (par_lit s1 s2 Hs) as H. unfold p_typed.
  destruct (p_lit s1) as ([(k1, sp1)|e| |], t1), (p_lit s2) as ([(k2, sp2)|e'| |], t2); cbn [fst snd orel] in H; destruct H as (Ho & Ht); try contradiction;
    try (split; [exact I|exact Ht]).
  apply Hsel in Ho. destruct (sel k1), (sel k2); cbn in Ho; try discriminate; [injection Ho as Ho|]; (split; [|exact Ht]); cbn; auto.
Qed.
Lemma par_and_then {A B A' B'} (f : A -> A') (g : B -> B') p q k1 k2 : par f p q ->
  (forall a b, f a = f b -> orel g (k1 a) (k2 b)) -> par g (and_then p k1) (and_then q k2).
Proof. intros Hp Hk. eapply par_bind; [exact Hp|]. intros a b Hab. apply par_pure. auto. Qed.
Lemma lview_inv k1 k2 : lview k1 = lview k2 ->
  k1 = k2 \/ exists d1 d2, k1 = SLTok (KFloat d1) /\ k2 = SLTok (KFloat d2) /\ float_read d1 = float_read d2.
Proof.
  destruct k1 as [b1|[]], k2 as [b2|[]]; cbn; intro H; try discriminate; try (left; congruence).
  right. injection H as H. eauto.
Qed.
Lemma par_litty k : par fst (p_litty k) (p_litty k).
Proof.
  assert (Hm : forall A (g : A -> lit) (sel : slit -> option A) w, (forall d1, sel (SLTok (KFloat d1)) = None) ->
     par fst (pmap (fun x => (g (fst x), snd x)) (p_typed sel w)) (pmap (fun x => (g (fst x), snd x)) (p_typed sel w))).
  { intros A g sel w Hf. eapply par_pmap; [|apply (par_typed (fun x => x))].
    - intros (a, sa) (b, sb) E. cbn in *. congruence.
    - intros k1 k2 E. apply lview_inv in E as [->|(d1 & d2 & -> & -> & _)]; [reflexivity|]. rewrite !Hf. reflexivity. }
  destruct k; cbn [p_litty]; try (apply Hm; reflexivity).
  - eapply par_and_then; [apply (par_typed (fun x => x))|].
    + intros k1 k2 E. apply lview_inv in E as [->|(d1 & d2 & -> & -> & _)]; reflexivity.
    + intros (a, sa) (b, sb) E. cbn in E. subst b. cbn. unfold int_try_from. destruct (read_i64 a); cbn; auto.
  - eapply par_and_then; [apply (par_typed (fun x => x))|].
    + intros k1 k2 E. apply lview_inv in E as [->|(d1 & d2 & -> & -> & _)]; reflexivity.
    + intros (a, sa) (b, sb) E. cbn in E. subst b. cbn. unfold uint_try_from. destruct (read_u64 a); cbn; auto.
  - eapply par_and_then; [apply (par_typed float_read)|].
    + intros k1 k2 E. apply lview_inv in E as [->|(d1 & d2 & -> & -> & E)]; [reflexivity|]. cbn. congruence.
    + intros (a, sa) (b, sb) E. cbn in E. cbn. unfold float_try_from. rewrite E. destruct (float_read b); cbn; auto.
Qed.
Lemma par_any_lit : par fst p_any_lit p_any_lit.
Proof.
  eapply par_and_then; [apply par_lit|]. intros (k1, sp1) (k2, sp2) E. cbn in E.
  apply lview_inv in E as [->|(d1 & d2 & -> & -> & E)].
  - destruct k2 as [b|[]]; cbn; try reflexivity; try exact I.
    + destruct digits as [|c r]; [|destruct (c =? 45)%N]; unfold int_try_from, uint_try_from.
      * exact I.
      * destruct (read_i64 (c :: r)); cbn; auto.
      * destruct (read_u64 (c :: r)); cbn; auto.
    + unfold float_try_from. destruct (float_read digits); cbn; auto.
  - cbn. unfold float_try_from. rewrite E. destruct (float_read d2); cbn; auto.
Qed.
Lemma par_eof : par (fun _ : unit => Datatypes.tt) p_eof p_eof.
Proof. intros s1 s2 Hs. unfold p_eof. rewrite (ssim_empty _ _ Hs). destruct (is_empty s2); split; cbn; auto. Qed.
Lemma par_not_eof : par (fun _ : unit => Datatypes.tt) p_not_eof p_not_eof.
Proof. intros s1 s2 Hs. unfold p_not_eof. rewrite (ssim_empty _ _ Hs). destruct (is_empty s2); split; cbn; auto. Qed.

(** ** nodes *)
Lemma par_group {A B} (f : A -> B) d p q : par f p q -> par (fun x => f (snd x)) (p_group d p) (p_group d q).
Proof.
  intros Hp s1 s2 Hs. unfold p_group. head_sim Hs; try (split; [exact I|exact Hs]).
  destruct (delim_eqb d d0); [|split; [exact I|exact Hs]].
  match goal with |- context [p ?x] => set (t1 := x) end. match goal with |- context [q ?x] => set (t2 := x) end.
  assert (Ht : ssim t1 t2) by (split; [assumption|apply Hs]). specialize (Hp t1 t2 Ht).
  assert (Hd : forall u1 u2, ssim u1 u2 -> ssim (PS a (ps_scope s1) (drop_unexp (ps_unexp u1) (ps_rest u1))) (PS b (ps_scope s2) (drop_unexp (ps_unexp u2) (ps_rest u2)))).
  { intros u1 u2 (Hu1 & Hu2). split; [assumption|]. cbn. apply sim_leftover in Hu1. unfold drop_unexp.
    destruct (ps_unexp u1), (ps_unexp u2); try tauto; (split; discriminate) || (exfalso; destruct Hu2 as (Hx & Hy); (discriminate Hx || discriminate Hy); reflexivity). }
  destruct (p t1) as ([v1|e1| |], u1), (q t2) as ([v2|e2| |], u2); cbn [fst snd orel] in Hp; destruct Hp as (Ho & Hu); try contradiction;
    (split; [cbn; auto|apply Hd; exact Hu]).
Qed.
Definition pn_map {A P A' P'} (f : A -> A') (g : P -> P') (x : punctuated A P) : punctuated A' P' :=
  Pn (map (fun '(a, p) => (f a, g p)) (pn_inner x)) (option_map f (pn_last x)).
Lemma par_terminated {A P A' P'} (f : A -> A') (g : P -> P') n (pa qa : parser A) (pp qp : parser P) :
  par f pa qa -> par g pp qp -> forall acc1 acc2, map (fun '(a, p) => (f a, g p)) acc1 = map (fun '(a, p) => (f a, g p)) acc2 ->
  par (pn_map f g) (terminated_loop n pa pp acc1) (terminated_loop n qa qp acc2).
Proof.
  intros Ha Hp. induction n as [|n IH]; intros acc1 acc2 Hacc.
  - apply (par_pure _ ODiverge ODiverge). exact I.
  - intros s1 s2 Hs. rewrite !terminated_loop_S. rewrite (ssim_empty _ _ Hs). destruct (is_empty s2).
    + split; [|exact Hs]. cbn. unfold pn_map. cbn. rewrite !map_rev, Hacc. reflexivity.
    + revert s1 s2 Hs. change (par (pn_map f g)
        (bind pa (fun v s1 => if is_empty s1 then (OOk (Pn (rev acc1) (Some v)), s1) else bind pp (fun p => terminated_loop n pa pp ((v, p) :: acc1)) s1))
        (bind qa (fun v s1 => if is_empty s1 then (OOk (Pn (rev acc2) (Some v)), s1) else bind qp (fun p => terminated_loop n qa qp ((v, p) :: acc2)) s1))).
      eapply par_bind; [exact Ha|]. intros v w Hvw s1 s2 Hs. rewrite (ssim_empty _ _ Hs). destruct (is_empty s2).
      * split; [|exact Hs]. cbn. unfold pn_map. cbn. rewrite !map_rev, Hacc, Hvw. reflexivity.
      * revert s1 s2 Hs. refine (par_bind g _ _ _ _ _ Hp _). intros x y Hxy. apply IH. cbn. congruence.
Qed.
Lemma par_separated_loop {A P A' P'} (f : A -> A') (g : P -> P') n (pa qa : parser A) (pp qp : parser P) :
  par f pa qa -> par g pp qp -> forall acc1 acc2 c1 c2, map (fun '(a, p) => (f a, g p)) acc1 = map (fun '(a, p) => (f a, g p)) acc2 -> f c1 = f c2 ->
  par (pn_map f g) (separated_loop n pa pp acc1 c1) (separated_loop n qa qp acc2 c2).
Proof.
  intros Ha Hp. induction n as [|n IH]; intros acc1 acc2 c1 c2 Hacc Hc.
  - apply (par_pure _ ODiverge ODiverge). exact I.
  - eapply par_ext; [apply separated_loop_speculate|apply separated_loop_speculate|]. eapply par_speculate; [exact Hp| |].
    + intros x y Hxy. eapply par_bind; [exact Ha|]. intros v w Hvw. apply IH; [cbn; congruence|exact Hvw].
    + intros e1 e2. apply par_ret. unfold pn_map. cbn. rewrite !map_rev, Hacc, Hc. reflexivity.
Qed.
Lemma par_separated {A P A' P'} (f : A -> A') (g : P -> P') n (pa qa : parser A) (pp qp : parser P) :
  par f pa qa -> par g pp qp -> par (pn_map f g) (p_separated n pa pp) (p_separated n qa qp).
Proof. intros Ha Hp. eapply par_bind; [exact Ha|]. intros a b Hab. apply par_separated_loop; auto. Qed.
Lemma par_any {A A'} (f : A -> A') n (pa qa : parser A) : par f pa qa -> forall acc1 acc2, map f acc1 = map f acc2 ->
  par (map f) (any_loop n pa acc1) (any_loop n qa acc2).
Proof.
  intros Ha. induction n as [|n IH]; intros acc1 acc2 Hacc.
  - apply (par_pure _ ODiverge ODiverge). exact I.
  - eapply par_ext; [apply any_loop_speculate|apply any_loop_speculate|]. eapply par_speculate; [exact Ha| |].
    + intros x y Hxy. apply IH. cbn. congruence.
    + intros e1 e2. apply par_ret. rewrite !map_rev, Hacc. reflexivity.
Qed.
Lemma par_maybe {P A P' A'} (g : P -> P') (f : A -> A') (pp qp : parser P) (pa qa : parser A) : par g pp qp -> par f pa qa ->
  par (option_map (fun '(p, a) => (g p, f a))) (p_maybe pp pa) (p_maybe qp qa).
Proof.
  intros Hp Ha. eapply par_ext; [apply p_maybe_speculate|apply p_maybe_speculate|]. eapply par_speculate; [exact Hp| |].
  - intros x y Hxy. eapply par_bind; [exact Ha|]. intros v w Hvw. apply par_ret. cbn. congruence.
  - intros. apply par_ret. reflexivity.
Qed.
Definition either_map {L R L' R'} (f : L -> L') (g : R -> R') (x : either L R) : either L' R' :=
  match x with ELeft l => ELeft (f l) | ERight r => ERight (g r) end.
Lemma par_either {L R L' R'} (f : L -> L') (g : R -> R') (pl ql : parser L) (pr qr : parser R) : par f pl ql -> par g pr qr ->
  par (either_map f g) (p_either pl pr) (p_either ql qr).
Proof.
  intros Hl Hr. eapply par_ext; [apply p_either_speculate|apply p_either_speculate|]. eapply par_speculate; [exact Hl| |].
  - intros. apply par_ret. cbn. congruence.
  - intros. eapply par_speculate; [exact Hr| |].
    + intros. apply par_ret. cbn. congruence.
    + intros. apply par_fail.
Qed.
Fixpoint left_map {O R O' R'} (f : O -> O') (g : R -> R') (t : left_assoc O R) : left_assoc O' R' :=
  match t with LBinary l o r => LBinary (left_map f g l) (f o) (g r) | LRhs r => LRhs (g r) end.
Fixpoint right_map {O R O' R'} (f : O -> O') (g : R -> R') (t : right_assoc O R) : right_assoc O' R' :=
  match t with RBinary l o r => RBinary (g l) (f o) (right_map f g r) | RLhs r => RLhs (g r) end.
Lemma into_pairs_map {A P A' P'} (f : A -> A') (g : P -> P') x :
  into_pairs (pn_map f g x) = map (fun q => match q with PPunctuated v p => PPunctuated (f v) (g p) | PEnd v => PEnd (f v) end) (into_pairs x).
Proof. destruct x as [l [v|]]; unfold into_pairs; cbn; rewrite map_app, !map_map; cbn; f_equal; apply map_ext; intros (?, ?); reflexivity. Qed.
Lemma first_rest_loop_map {A P A' P'} (f : A -> A') (g : P -> P') l : forall p acc,
  first_rest_loop (g p) (map (fun q => match q with PPunctuated v p => PPunctuated (f v) (g p) | PEnd v => PEnd (f v) end) l) (map (fun '(p, v) => (g p, f v)) acc)
  = map (fun '(p, v) => (g p, f v)) (first_rest_loop p l acc).
Proof.
  induction l as [|[v p'|v] l IH]; intros p acc; cbn.
  - rewrite map_rev. reflexivity.
  - apply (IH p' ((p, v) :: acc)).
  - rewrite map_app, map_rev. reflexivity.
Qed.
Lemma into_first_rest_map {A P A' P'} (f : A -> A') (g : P -> P') x :
  into_first_rest (pn_map f g x) = option_map (fun '(v, l) => (f v, map (fun '(p, v) => (g p, f v)) l)) (into_first_rest x).
Proof.
  unfold into_first_rest. rewrite into_pairs_map. destruct (into_pairs x) as [|[v p|v] l]; cbn; try reflexivity.
  rewrite <- (first_rest_loop_map f g l p []). reflexivity.
Qed.
Lemma last_rest_loop_map {A P A' P'} (f : A -> A') (g : P -> P') l : forall acc,
  last_rest_loop (map (fun q => match q with PPunctuated v p => PPunctuated (f v) (g p) | PEnd v => PEnd (f v) end) l) (map (fun '(v, p) => (f v, g p)) acc)
  = option_map (fun '(v, l) => (f v, map (fun '(v, p) => (f v, g p)) l)) (last_rest_loop l acc).
Proof.
  induction l as [|[v p'|v] l IH]; intros acc; cbn.
  - reflexivity.
  - apply (IH ((v, p') :: acc)).
  - rewrite map_rev. reflexivity.
Qed.
Lemma into_last_rest_map {A P A' P'} (f : A -> A') (g : P -> P') x :
  into_last_rest (pn_map f g x) = option_map (fun '(v, l) => (f v, map (fun '(v, p) => (f v, g p)) l)) (into_last_rest x).
Proof. unfold into_last_rest. rewrite into_pairs_map. apply (last_rest_loop_map f g _ []). Qed.
Lemma build_left_map {O R O' R'} (f : O -> O') (g : R -> R') x l :
  left_map f g (build_left x l) = build_left (g x) (map (fun '(o, r) => (f o, g r)) l).
Proof.
  unfold build_left. change (LRhs (g x)) with (left_map f g (LRhs x)). generalize (LRhs (O := O) x) as t.
  induction l as [|(o, r) l IH]; intro t; cbn; [reflexivity|]. rewrite IH. reflexivity.
Qed.
Lemma build_right_map {O R O' R'} (f : O -> O') (g : R -> R') x l :
  right_map f g (build_right x l) = build_right (g x) (map (fun '(r, o) => (g r, f o)) l).
Proof.
  unfold build_right. rewrite <- map_rev. change (RLhs (g x)) with (right_map f g (RLhs x)). generalize (RLhs (O := O) x) as t.
  induction (rev l) as [|(o, r) l' IH]; intro t; cbn; [reflexivity|]. rewrite IH. reflexivity.
Qed.
Lemma par_left_assoc {O R O' R'} (f : O -> O') (g : R -> R') n (po qo : parser O) (pr qr : parser R) : par f po qo -> par g pr qr ->
  par (left_map f g) (p_left_assoc n po pr) (p_left_assoc n qo qr).
Proof.
  intros Ho Hr. eapply par_bind; [apply (par_separated g f); eassumption|]. intros x y Hxy s1 s2 Hs.
  apply (f_equal into_first_rest) in Hxy. rewrite !into_first_rest_map in Hxy.
  destruct (into_first_rest x) as [(v, l)|], (into_first_rest y) as [(w, k)|]; cbn in Hxy; try discriminate; (split; [|exact Hs]).
  - cbn. rewrite !build_left_map. injection Hxy as E1 E2. rewrite E1. f_equal. exact E2.
  - exact I.
Qed.
Lemma par_right_assoc {O R O' R'} (f : O -> O') (g : R -> R') n (po qo : parser O) (pr qr : parser R) : par f po qo -> par g pr qr ->
  par (right_map f g) (p_right_assoc n po pr) (p_right_assoc n qo qr).
Proof.
  intros Ho Hr. eapply par_bind; [apply (par_separated g f); eassumption|]. intros x y Hxy s1 s2 Hs.
  apply (f_equal into_last_rest) in Hxy. rewrite !into_last_rest_map in Hxy.
  destruct (into_last_rest x) as [(v, l)|], (into_last_rest y) as [(w, k)|]; cbn in Hxy; try discriminate; (split; [|exact Hs]).
  - cbn. rewrite !build_right_map. injection Hxy as E1 E2. rewrite E1. f_equal. exact E2.
  - exact I.
Qed.
Lemma par_fields {V V'} (f : V -> V') en ct ct' (fs gs : list (label * parser V)) :
  Forall2 (fun x y => par f (snd x) (snd y)) fs gs -> par (map f) (p_fields en ct fs) (p_fields en ct' gs).
Proof.
  induction 1 as [|(l1, p1) (l2, p2) fs gs H _ IH]; cbn [p_fields]; [apply par_ret; reflexivity|].
  eapply par_bind; [apply par_map_err; exact H|]. intros a b Hab. eapply par_bind; [exact IH|]. intros l k Hlk. apply par_ret. cbn. congruence.
Qed.
Lemma par_variants {V V'} (f : V -> V') en (vs ws : list (text * list (label * parser V))) :
  Forall2 (fun x y => Forall2 (fun a b => par f (snd a) (snd b)) (snd x) (snd y)) vs ws ->
  forall k a1 a2, (a1 = None <-> a2 = None) -> par (fun '(k, l) => (k, map f l)) (p_variants en k a1 vs) (p_variants en k a2 ws).
Proof.
  induction 1 as [|(c1, f1) (c2, f2) vs ws H _ IH]; intros k a1 a2 Ha.
  - intros s1 s2 Hs. split; [exact I|exact Hs].
  - eapply par_ext; [apply p_variants_speculate|apply p_variants_speculate|]. eapply par_speculate.
    + apply (par_fields f). exact H.
    + intros l m Hlm. apply par_ret. congruence.
    + intros e1 e2. apply IH. split; discriminate.
Qed.

(** ** every grammar *)
Definition leaf_sharp (t : ty) : Prop := match t with TyToken op => op_sharp op | _ => True end.
Lemma strip_left t : strip (val_of_left t) = val_of_left (left_map strip strip t).
Proof. induction t as [l IH o r|r]; cbn; [rewrite IH|]; reflexivity. Qed.
Lemma strip_right t : strip (val_of_right t) = val_of_right (right_map strip strip t).
Proof. induction t as [l o r IH|r]; cbn; [rewrite IH|]; reflexivity. Qed.
Lemma par_field_tys (p : ty -> parser val) (fs : list (label * ty)) : (forall t, leaves leaf_sharp t -> par strip (p t) (p t)) ->
  Forall (fun f => leaves leaf_sharp (snd f)) fs ->
  Forall2 (fun x y => par strip (snd x) (snd y)) (map (fun '(l, t) => (l, p t)) fs) (map (fun '(l, t) => (l, p t)) fs).
Proof. intros H HF. induction HF as [|(l, t) fs Hf _ IH]; cbn; constructor; [apply H; exact Hf|exact IH]. Qed.
Theorem par_layer E n (p : ty -> parser val) t : env_leaves leaf_sharp E -> leaves leaf_sharp t ->
  (forall t, leaves leaf_sharp t -> par strip (p t) (p t)) -> par strip (p_layer E n p t) (p_layer E n p t).
Proof.
  intros HE Ht Hp. destruct t; cbn [p_layer]; cbn [leaves leaf_sharp] in Ht.
  - eapply par_pmap; [|apply par_ident]. intros (x, sx) (y, sy) E1. cbn in *. congruence.
  - eapply par_pmap; [|apply par_custom_ident]. intros (x, sx) (y, sy) E1. cbn in *. congruence.
  - eapply par_pmap; [|apply par_keyword]. intros x y _. reflexivity.
  - eapply par_pmap; [|apply par_token_kw]. intros x y _. reflexivity.
  - eapply par_pmap; [|apply par_token; exact Ht]. intros x y E1. cbn. f_equal. revert y E1. induction x as [|a x IH]; intros [|b y] E1; try discriminate; [reflexivity|].
    cbn. f_equal. apply IH. injection E1 as E1. exact E1.
  - eapply par_pmap; [|apply par_litty]. intros (x, sx) (y, sy) E1. cbn in *. congruence.
  - eapply par_pmap; [|apply par_any_lit]. intros (x, sx) (y, sy) E1. cbn in *. congruence.
  - eapply (par_pmap (fun _ : unit => Datatypes.tt)); [reflexivity|]. apply par_ret. reflexivity.
  - eapply par_pmap; [|apply par_eof]. reflexivity.
  - eapply par_pmap; [|apply par_not_eof]. reflexivity.
  - eapply par_pmap; [|apply (par_maybe strip strip); apply Hp, Ht]. intros [(a, b)|] [(a', b')|] E1; cbn in *; try discriminate; try reflexivity. injection E1 as -> ->. reflexivity.
  - eapply par_pmap; [|apply (par_group strip), Hp, Ht]. intros (a, b) (a', b') E1; cbn in *. congruence.
  - eapply par_pmap; [|apply (par_group strip), Hp, Ht]. intros (a, b) (a', b') E1; cbn in *. congruence.
  - eapply par_pmap; [|apply (par_group strip), Hp, Ht]. intros (a, b) (a', b') E1; cbn in *. congruence.
  - eapply par_pmap; [|apply (par_terminated strip strip n); [apply Hp, Ht|apply Hp, Ht|reflexivity]].
    intros [l o] [l' o'] E1. unfold pn_map in E1. cbn in *. injection E1 as -> ->. reflexivity.
  - eapply par_pmap; [|apply (par_separated strip strip n); apply Hp, Ht].
    intros [l o] [l' o'] E1. unfold pn_map in E1. cbn in *. injection E1 as -> ->. reflexivity.
  - eapply par_pmap; [|apply (par_any strip n); [apply Hp, Ht|reflexivity]]. intros a b E1. cbn. congruence.
  - eapply par_pmap; [|apply (par_left_assoc strip strip n); apply Hp, Ht]. intros a b E1. rewrite !strip_left. congruence.
  - eapply par_pmap; [|apply (par_right_assoc strip strip n); apply Hp, Ht]. intros a b E1. rewrite !strip_right. congruence.
  - eapply par_pmap; [|apply (par_either strip strip); apply Hp, Ht]. intros [a|a] [b|b] E1; cbn in *; congruence.
  - apply Hp, Ht.
  - pose proof (HE i) as Hi. destruct (E i) as [c|en cs]; cbn [p_def]; cbn [def_leaves] in Hi.
    + eapply par_pmap; [|apply (par_fields strip), par_field_tys; [exact Hp|exact Hi]]. intros a b E1. cbn. congruence.
    + eapply par_pmap; [|apply (par_variants strip); [|tauto]].
      * intros (a, l) (b, m) E1. cbn. injection E1 as -> ->. reflexivity.
      * induction Hi as [|c cs Hc _ IH]; cbn; constructor; [|exact IH]. cbn. apply par_field_tys; assumption.
Qed.
Theorem par_pty E n t : env_leaves leaf_sharp E -> leaves leaf_sharp t -> par strip (pty E n t) (pty E n t).
Proof.
  intro HE. revert t. induction n as [|n IH]; intros t Ht.
  - apply (par_pure _ ODiverge ODiverge). exact I.
  - rewrite pty_S. apply par_layer; assumption.
Qed.
(** whole inputs *)
Definition rrel (r1 r2 : result val) : Prop :=
  match r1, r2 with
  | ROk v1, ROk v2 => strip v1 = strip v2
  | RErr _, RErr _ | RPanic, RPanic | RDiverge, RDiverge => True
  | _, _ => False
  end.
Theorem sim_parse2 E n t a b : env_leaves leaf_sharp E -> leaves leaf_sharp t -> sim a b ->
  rrel (parse2 (pty E n t) a) (parse2 (pty E n t) b).
Proof.
  intros HE Ht H. assert (Hs : ssim (start a) (start b)) by (split; [exact H|cbn; tauto]).
  pose proof (par_pty E n t HE Ht _ _ Hs) as Hp. unfold parse2.
  destruct (pty E n t (start a)) as ([v|e| |], s1), (pty E n t (start b)) as ([w|e'| |], s2); cbn [fst snd orel] in Hp; destruct Hp as (Ho & Hr); try contradiction; try exact I.
  destruct Hr as (Hr & Hu). apply sim_leftover in Hr.
  destruct (ps_unexp s1), (ps_unexp s2); try exact I; try (exfalso; destruct Hu as (Hx & Hy); (discriminate Hx || discriminate Hy); reflexivity).
  destruct (leftover (ps_rest s1)), (leftover (ps_rest s2)); try exact I; try (exfalso; destruct Hr as (Hx & Hy); (discriminate Hx || discriminate Hy); reflexivity).
  exact Ho.
Qed.
End Sim.
