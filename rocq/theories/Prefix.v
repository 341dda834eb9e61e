(** * Prefix: the beginnings of what a grammar spells, and grammars in which every beginning can be completed (C63). *)
From Verif Require Import Base Float Literal Syn Ast Derive Grammar Spec LitSpec LiteralFacts Reprint LitDenote SynFacts Lawful Mono
  Combinators GrammarBeh Assoc ManyFacts Sound Sim RoundFacts Term TermCheck Typed PropLL1 PropRoundtrip ParsedTyped PropAgain PropEq Lang.
Local Open Scope nat_scope.

(** ** Specification *)
(** [until fresh ts r us]: the tokens [us] are the tokens [ts] up to the place where [r] is left of them, at the top or
    inside a group (which [us] then closes somehow), and then go on with [fresh] tokens. *)
Section Until.
Context (fresh : list tt -> Prop).
Inductive until : list tt -> list tt -> list tt -> Prop :=
| un_here r us : fresh us -> until r r us
| un_token x ts r us : until ts r us -> until (x :: ts) r (x :: us)
| un_inside d s ts r us ts' us' : until ts r us -> fresh us' -> until (TGroup d s ts :: ts') r (TGroup d s us :: us').
End Until.
(** [us] begins like [ts] up to [r] *)
Definition begins_like : list tt -> list tt -> list tt -> Prop := until (fun _ => True).

(** ** The check: every type has a value, and no operator contains a quote (which is no operator character) *)
Fixpoint opsb (t : ty) : bool :=
  match t with
  | TyToken op => forallb (fun c => negb (c =? 39)%N) op
  | TyMaybe a b | TyPunctuated a b | TySeparated a b | TyLeftAssoc a b | TyRightAssoc a b | TyEither a b => opsb a && opsb b
  | TyParen a | TyBracket a | TyBrace a | TyAny a | TyBox a => opsb a
  | _ => true
  end.
Fixpoint valuedb (P : nat -> bool) (t : ty) : bool :=
  match t with
  | TyRef i => P i
  | TyParen a | TyBracket a | TyBrace a | TyBox a | TySeparated a _ | TyLeftAssoc _ a | TyRightAssoc _ a => valuedb P a
  | TyEither a b => valuedb P a || valuedb P b
  | _ => true
  end.
Definition valued_ctor P (c : ctor) : bool := forallb (fun f => valuedb P (snd f)) (c_fields c).
Definition valued_def P (d : tdef) : bool := match d with DStruct c => valued_ctor P c | DEnum _ cs => existsb (valued_ctor P) cs end.
Definition ops_def (d : tdef) : bool :=
  match d with DStruct c => forallb (fun f => opsb (snd f)) (c_fields c) | DEnum _ cs => forallb (fun c => forallb (fun f => opsb (snd f)) (c_fields c)) cs end.
Definition values_of (g : list tdef) : list bool :=
  iter (S (List.length g)) (fun l => map (valued_def (look l true)) g) (map (fun _ => false) g).
Definition inhabited (g : list tdef) (t : ty) : bool := forallb (fun b => b) (values_of g) && forallb ops_def g && opsb t.

(** ** Ordinary completions *)
Section Fresh.
Context {U : unicode}.
Definition ordinary (r : text) : Prop := Reprint.lit_ok r /\ in_range r /\ denotes r <> Some (MTok (KInt (T "0"))).
Definition fresh (ts : list tt) : Prop := visible ts = true /\ Forall ordinary (lits ts).
Lemma lits_one d s ts : lits [TGroup d s ts] = lits ts.
Proof. cbn [lits]. rewrite lits1_group, app_nil_r. reflexivity. Qed.
Lemma fresh_nil : fresh [].
Proof. split; constructor. Qed.
Lemma fresh_app a b : fresh a -> fresh b -> fresh (a ++ b).
Proof. intros (A & B) (C & D). split; [rewrite visible_app, A, C; reflexivity|rewrite lits_app; apply Forall_app; auto]. Qed.
Lemma until_app ts r us f : until fresh ts r us -> fresh f -> until fresh ts r (us ++ f).
Proof. induction 1; intro F; cbn [app]; constructor; auto using fresh_app. Qed.
Lemma until_prefix c ts r us : until fresh ts r us -> until fresh (c ++ ts) r (c ++ us).
Proof. intro H. induction c; cbn [app]; [exact H|constructor; assumption]. Qed.
Lemma until_stop c r : until fresh (c ++ r) r c.
Proof. rewrite <- (app_nil_r c) at 2. apply until_prefix. constructor. apply fresh_nil. Qed.
Lemma until_begins ts r us : until fresh ts r us -> begins_like ts r us.
Proof. induction 1; constructor; auto. Qed.
Lemma until_visible ts r us : until fresh ts r us -> visible ts = true -> visible us = true.
Proof.
  induction 1 as [r us (H & _)|x ts r us H IH|d s ts r us ts' us' H IH (F & _)]; intro V; [exact H| |].
  - cbn [visible] in *. apply andb_true_iff in V as (V1 & V2). rewrite V1. auto.
  - cbn [visible] in *. apply andb_true_iff in V as (V1 & V2). rewrite F, andb_true_r. destruct d; try discriminate V1; apply IH; exact V1.
Qed.
Lemma until_lits (Q : text -> Prop) ts r us : (forall x, ordinary x -> Q x) -> until fresh ts r us -> Forall Q (lits ts) -> Forall Q (lits us).
Proof.
  intros HQ. induction 1 as [r us (_ & H)|x ts r us H IH|d s ts r us ts' us' H IH (_ & F)]; intro V.
  - eapply Forall_impl; [exact HQ|exact H].
  - change (x :: ts) with ([x] ++ ts) in V. change (x :: us) with ([x] ++ us). rewrite lits_app in *. apply Forall_app in V as (V1 & V2). apply Forall_app. auto.
  - change (TGroup d s ts :: ts') with ([TGroup d s ts] ++ ts') in V. change (TGroup d s us :: us') with ([TGroup d s us] ++ us'). rewrite lits_app in *. apply Forall_app in V as (V1 & V2). apply Forall_app. split; [|eapply Forall_impl; [exact HQ|exact F]].
    revert V1. rewrite !lits_one. exact IH.
Qed.
Lemma fresh_no_mz us : minus_zero us -> ~ fresh us.
Proof.
  induction 1 as [g s1 r s2 ts Hd|d s us ts H IH|x ts H IH]; intros (V & F).
  - change (TPunct 45 g s1 :: TLit r s2 :: ts) with ([TPunct 45 g s1; TLit r s2] ++ ts) in F. rewrite lits_app in F. apply Forall_app in F as (F & _). inversion F as [|? ? (_ & _ & O)]; subst. exact (O Hd).
  - apply IH. change (TGroup d s us :: ts) with ([TGroup d s us] ++ ts) in *. rewrite lits_app in F. apply Forall_app in F as (F & _). rewrite lits_one in F. split; [|exact F].
    rewrite visible_app in V. apply andb_true_iff in V as (V & _). cbn [visible] in V. rewrite visible1_group, andb_true_r in V. destruct d; try discriminate V; exact V.
  - apply IH. change (x :: ts) with ([x] ++ ts) in *. rewrite lits_app in F. apply Forall_app in F as (_ & F). split; [|exact F]. rewrite visible_app in V. apply andb_true_iff in V as (_ & V). exact V.
Qed.
Lemma until_mz ts r us : until fresh ts r us -> minus_zero us -> minus_zero ts.
Proof.
  induction 1 as [r us F|x ts r us H IH|d s ts r us ts' us' H IH F]; intro Z.
  - exfalso. exact (fresh_no_mz us Z F).
  - inversion Z as [g s1 r0 s2 ts0 Hd|d s us0 ts0 Hz|x0 ts0 Hz]; subst; [|apply mz_inside; exact Hz|apply mz_later; auto].
    inversion H as [r1 us1 F|x1 ts1 r1 us1 H1|]; subst; [|apply mz_here; exact Hd]. exfalso. destruct F as (_ & F).
    change (TLit r0 s2 :: ts0) with ([TLit r0 s2] ++ ts0) in F. rewrite lits_app in F. apply Forall_app in F as (F & _). inversion F as [|? ? (_ & _ & O)]; subst. exact (O Hd).
  - inversion Z as [|d0 s0 us0 ts0 Hz|x0 ts0 Hz]; subst; [apply mz_inside; auto|]. exfalso. exact (fresh_no_mz us' Hz F).
Qed.
Lemma until_fine ts r us : until fresh ts r us -> visible ts = true -> lits_ok ts -> tame ts -> visible us = true /\ lits_ok us /\ tame us.
Proof.
  intros H V L (Z & R). split; [eapply until_visible; eassumption|]. split; [eapply until_lits; [|exact H|exact L]; intros x O; apply O|].
  split; [intro Q; apply Z; eapply until_mz; eassumption|]. eapply until_lits; [|exact H|exact R]. intros x O. apply O.
Qed.
End Fresh.

(** ** In checked grammars every type has a value that can be written with ordinary tokens. *)
Section Filling.
Context {U : unicode} (E : env).
Definition fillable (t : ty) : Prop := exists v f, spells anyhow E t v f /\ fresh f.
Lemma fill_one (t : ty) v x : spells anyhow E t v [x] -> (forall d s l, x <> TGroup d s l) -> (forall r s, x = TLit r s -> ordinary r) -> fillable t.
Proof.
  intros H Hg Hl. exists v, [x]. split; [exact H|]. destruct x as [n s|c g s|r s|d s l]; [split; [reflexivity|constructor]..| |].
  - split; [reflexivity|]. constructor; [eapply Hl; reflexivity|constructor].
  - exfalso. exact (Hg _ _ _ eq_refl).
Qed.
Lemma fill_word (t : ty) (n : text) : (forall s, spells anyhow E t (VIdent n s) [TIdent n s]) -> fillable t.
Proof. intro H. eapply fill_one; [apply (H call_site)|discriminate|discriminate]. Qed.
(** a word longer than all of the given ones *)
Lemma another (kws : list text) : exists n : text, ~ In n kws.
Proof.
  exists (repeat 120%N (S (List.fold_right (fun k m => List.length k + m) 0 kws))). intro H.
  assert (L : forall k, In k kws -> List.length k <= List.fold_right (fun k m => List.length k + m) 0 kws).
  { clear. induction kws as [|x kws IH]; intros k []; cbn [fold_right]; [subst; lia|]. specialize (IH k H). lia. }
  apply L in H. rewrite repeat_length in H. lia.
Qed.
Lemma fill_op op : forallb (fun c => negb (c =? 39)%N) op = true -> fillable (TyToken op).
Proof.
  intro H. assert (X : exists sps f, op_tokens anyhow op sps f /\ fresh f).
  { induction op as [|c op IH]; [exists [], []; split; [constructor|apply fresh_nil]|]. cbn [forallb] in H. apply andb_true_iff in H as (H1 & H2).
    assert (Hc : c <> 39%N) by (intros ->; discriminate H1). destruct (IH H2) as (sps & f & O & F). destruct op as [|c2 op].
    - exists [call_site], [TPunct c Alone call_site]. split; [constructor; [exact Hc|discriminate]|]. split; [reflexivity|constructor].
    - exists (call_site :: sps), (TPunct c Joint call_site :: f). split; [constructor; [exact Hc|discriminate|exact O]|]. apply (fresh_app [_]); [split; [reflexivity|constructor]|exact F]. }
  destruct X as (sps & f & O & F). exists (VOp op sps), f. split; [constructor; exact O|exact F].
Qed.
Lemma fill_lit k : fillable (TyLit k).
Proof.
  destruct k;
  [eapply (fill_one _ _ (TIdent (T "true") call_site))|eapply (fill_one _ _ (TLit (T "b'a'") call_site))|eapply (fill_one _ _ (TLit (T "1") call_site))|eapply (fill_one _ _ (TLit (T "1") call_site))
  |eapply (fill_one _ _ (TLit (T "1.0") call_site))|eapply (fill_one _ _ (TLit (T "'a'") call_site))|eapply (fill_one _ _ (TLit (T """a""") call_site))|eapply (fill_one _ _ (TLit (T "b""a""") call_site))];
  try discriminate;
  (lazymatch goal with
   | |- spells _ _ _ _ _ => apply sp_lit; [reflexivity|exists 1; vm_compute; reflexivity|intros g s us Q; discriminate Q]
   | _ => intros r s Q; injection Q as <- _; split; [split; vm_compute; first [reflexivity|discriminate|repeat split; discriminate|idtac]|];
          split; [intros f Q; vm_compute in Q; first [discriminate Q|injection Q as <-; vm_compute; reflexivity]|vm_compute; discriminate]
   end).
Qed.
Lemma fill_any_lit : fillable TyAnyLit.
Proof.
  eapply (fill_one _ _ (TLit (T "1") call_site)); [apply sp_any_lit; [reflexivity|exists 1; vm_compute; reflexivity|intros g s us Q; discriminate Q]|discriminate|].
  intros r s Q; injection Q as <- _; split; [split; vm_compute; first [reflexivity|discriminate|repeat split; discriminate]|].
  split; [intros f Q; vm_compute in Q; discriminate Q|vm_compute; discriminate].
Qed.
Definition fillable_fields (fs : list (label * ty)) : Prop := exists vs f, spells_fields anyhow E fs vs f /\ fresh f.
Lemma fill_fields fs : Forall (fun f => fillable (snd f)) fs -> fillable_fields fs.
Proof.
  induction 1 as [|(l, t) fs (v & f & H & F) _ (vs & f' & H' & F')]; [exists [], []; split; [constructor|apply fresh_nil]|].
  exists (v :: vs), (f ++ f'). split; [constructor; assumption|apply fresh_app; assumption].
Qed.
Lemma fill_group d t : d <> DNone -> fillable t -> fillable (TyGroup d t).
Proof.
  intros Hd (v & f & H & (V & L)). exists (VGroup d call_site v), [TGroup d call_site f]. split; [constructor; assumption|]. split.
  - cbn [visible]. rewrite visible1_group, V. destruct d; try reflexivity. contradiction.
  - rewrite lits_one. exact L.
Qed.
Lemma fill_leaf t : match t with TyToken op => opsb t = true | TyIdent | TyCustomIdent _ | TyKeyword _ | TyTokenKw _ | TyLit _ | TyAnyLit | TyEmpty | TyEof | TyNotEof => True | _ => False end -> fillable t.
Proof.
  destruct t; intro H; try contradiction H.
  - destruct (another rust_keywords) as (n & Hn). apply (fill_word _ n). intro. constructor. exact Hn.
  - destruct (another kws) as (n & Hn). apply (fill_word _ n). intro. constructor. exact Hn.
  - eapply (fill_one _ _ (TIdent kw call_site)); [constructor|discriminate|discriminate].
  - eapply (fill_one _ _ (TIdent kw call_site)); [constructor|discriminate|discriminate].
  - apply fill_op. exact H.
  - apply fill_lit.
  - apply fill_any_lit.
  - exists VUnit, []. split; [constructor|apply fresh_nil].
  - exists VUnit, []. split; [constructor|apply fresh_nil].
  - exists VUnit, []. split; [constructor|apply fresh_nil].
Qed.
Lemma fill_valued P t : (forall i, P i = true -> fillable (TyRef i)) -> opsb t = true -> valuedb P t = true -> fillable t.
Proof.
  intros HP. induction t; intros Ho Hv; cbn [opsb valuedb] in *; try (apply fill_leaf; first [exact I|exact Ho]);
    repeat match goal with Ho : _ && _ = true |- _ => apply andb_true_iff in Ho; destruct Ho as (? & ?) end.
  - exists VNothing, []. split; [constructor|apply fresh_nil].
  - apply (fill_group DParen); [discriminate|auto].
  - apply (fill_group DBracket); [discriminate|auto].
  - apply (fill_group DBrace); [discriminate|auto].
  - exists (VPunct [] None), []. split; [apply (sp_punctuated anyhow E t1 t2 [] None [] []); [constructor|constructor|reflexivity]|apply fresh_nil].
  - destruct IHt1 as (v & f & H1 & F); [assumption|assumption|]. exists (VPunct [] (Some v)), f. split; [apply (sp_separated anyhow E t1 t2 [] v [] f); [constructor|exact H1]|exact F].
  - exists (VList []), []. split; [constructor; constructor|apply fresh_nil].
  - destruct IHt2 as (v & f & H1 & F); [assumption|assumption|]. exists (VRhs v), (f ++ []). split; [apply (sp_left anyhow E t1 t2 v [] (LRhs v)); [exact H1|constructor|constructor]|rewrite app_nil_r; exact F].
  - destruct IHt2 as (v & f & H1 & F); [assumption|assumption|]. exists (VLhs v), (f ++ []). split; [apply (sp_right anyhow E t1 t2 v [] (RLhs v)); [exact H1|constructor|constructor]|rewrite app_nil_r; exact F].
  - apply orb_true_iff in Hv as [Hv|Hv].
    + destruct IHt1 as (v & f & H1 & F); [assumption|assumption|]. exists (VLeft v), f. split; [constructor; exact H1|exact F].
    + destruct IHt2 as (v & f & H1 & F); [assumption|assumption|]. exists (VRight v), f. split; [constructor; exact H1|exact F].
  - destruct (IHt Ho Hv) as (v & f & H1 & F). exists v, f. split; [constructor; exact H1|exact F].
  - apply HP. exact Hv.
Qed.
Lemma fill_ctor P c : (forall i, P i = true -> fillable (TyRef i)) -> forallb (fun f => opsb (snd f)) (c_fields c) = true -> valued_ctor P c = true -> fillable_fields (c_fields c).
Proof.
  intros HP Ho Hv. apply fill_fields. unfold valued_ctor in Hv. rewrite forallb_forall in *. apply Forall_forall. intros f Hf. eapply fill_valued; eauto.
Qed.
Lemma fill_def P i : (forall i, P i = true -> fillable (TyRef i)) -> ops_def (E i) = true -> valued_def P (E i) = true -> fillable (TyRef i).
Proof.
  intros HP Ho Hv. destruct (E i) as [c|en cs] eqn:Hi; cbn [ops_def valued_def] in *.
  - destruct (fill_ctor P c HP Ho Hv) as (vs & f & H & F). exists (VStruct vs), f. split; [econstructor; eassumption|exact F].
  - apply existsb_exists in Hv as (c & Hc & Hv). rewrite forallb_forall in Ho. destruct (fill_ctor P c HP (Ho c Hc) Hv) as (vs & f & H & F).
    apply In_nth_error in Hc as (k & Hk). exists (VVariant k vs), f. split; [econstructor; eassumption|exact F].
Qed.
End Filling.
(** what the check gives *)
Section Checked.
Context {U : unicode} (g : list tdef).
Notation E := (env_of g).
Lemma ops_all : forallb ops_def g = true -> forall i, ops_def (E i) = true.
Proof.
  intros H i. unfold env_of. destruct (nth_in_or_default i g unit_def) as [Hi|Hi]; [rewrite forallb_forall in H; auto|rewrite Hi; reflexivity].
Qed.
Lemma values_sound n : forallb ops_def g = true -> forall l, (forall i, nth i l true = true -> fillable E (TyRef i)) -> List.length l = List.length g ->
  (forall i, nth i (iter n (fun l => map (valued_def (look l true)) g) l) true = true -> fillable E (TyRef i)).
Proof.
  intros Ho. induction n as [|n IH]; intros l Hl Hlen; [exact Hl|]. cbn [iter]. apply IH; [|apply map_length].
  intros i Hi. apply (fill_def E (look l true)); [exact Hl|apply ops_all; exact Ho|].
  destruct (Nat.lt_ge_cases i (List.length g)) as [Q|Q].
  - rewrite (nth_indep _ true (valued_def (look l true) unit_def)) in Hi by (rewrite map_length; exact Q). rewrite map_nth in Hi. exact Hi.
  - unfold env_of. rewrite nth_overflow by exact Q. reflexivity.
Qed.
Theorem inhabited_fillable t : inhabited g t = true -> (forall i, fillable E (TyRef i)) /\ (forall i, ops_def (E i) = true) /\ opsb t = true.
Proof.
  intro H. apply andb_true_iff in H as (H & Ht). apply andb_true_iff in H as (Hv & Ho). split; [|split; [apply ops_all; exact Ho|exact Ht]].
  intro i. apply (values_sound (S (List.length g)) Ho (map (fun _ => false) g)); [|apply map_length|].
  - clear i Hv. intros i Hi. destruct (Nat.lt_ge_cases i (List.length g)) as [Q|Q].
    + exfalso. rewrite (nth_indep _ true false) in Hi by (rewrite map_length; exact Q). rewrite (map_nth (fun _ => false) g unit_def) in Hi. discriminate Hi.
    + exists (VStruct []), []. split; [|apply fresh_nil]. eapply sp_struct; [unfold env_of; rewrite nth_overflow by exact Q; reflexivity|constructor].
  - destruct (nth_in_or_default i (values_of g) true) as [Hi|Hi]; [|exact Hi]. rewrite forallb_forall in Hv. exact (Hv _ Hi).
Qed.
End Checked.

(** ** What a parser has read, even if it left something unread in a group, is a beginning. *)
Section Goes.
Context {U : unicode} (E : env) (Href : forall i, fillable E (TyRef i)) (Hops : forall i, ops_def (E i) = true).
Definition of_type (t : ty) : list tt -> Prop := fun ts => exists v, spells anyhow E t v ts.
(** something unread, with its first token [u], was passed over on the way from [s]; up to it, what was read begins a [w] *)
Definition stuck (ts : list tt) (w : list tt -> Prop) (u : option span) : Prop :=
  exists x r us, u = Some (tt_span x) /\ w us /\ until fresh ts (x :: r) us.
Definition goes (s : pstate) (w : list tt -> Prop) (s' : pstate) : Prop :=
  cleanly s w s' /\ (ps_unexp s = None -> ps_unexp s' <> None -> stuck (flat (ps_rest s)) w (ps_unexp s')).
Definition can (w : list tt -> Prop) : Prop := exists f, w f /\ fresh f.
Lemma stuck_impl ts (w w' : list tt -> Prop) u : (forall a, w a -> w' a) -> stuck ts w u -> stuck ts w' u.
Proof. intros H (x & r & us & Hu & W & B). exists x, r, us. auto. Qed.
Lemma goes_impl s (w w' : list tt -> Prop) s' : goes s w s' -> (forall a, w a -> w' a) -> goes s w' s'.
Proof. intros (C & S) H. split; [eapply cleanly_impl; eassumption|]. intros N1 N2. eapply stuck_impl; [exact H|auto]. Qed.
Lemma goes_still s (w : list tt -> Prop) s' : cleanly s w s' -> ps_unexp s' = ps_unexp s -> goes s w s'.
Proof. intros C H. split; [exact C|]. intros N1 N2. congruence. Qed.
Lemma goes_refl s (w : list tt -> Prop) : w [] -> goes s w s.
Proof. intro H. apply goes_still; [apply cleanly_refl; exact H|reflexivity]. Qed.
Lemma goes_trans s (w1 w2 w : list tt -> Prop) s1 s2 : goes s w1 s1 -> goes s1 w2 s2 -> can w2 -> (forall a b, w1 a -> w2 b -> w (a ++ b)) -> goes s w s2.
Proof.
  intros (C1 & S1) (C2 & S2) (f & Wf & Ff) Hw. split; [eapply cleanly_trans; eassumption|]. intros N1 N2.
  destruct (ps_unexp s1) as [sp1|] eqn:E1.
  - assert (E2 : ps_unexp s2 = Some sp1). { destruct C2 as ((_ & _ & K & _) & _). apply K. exact E1. }
    rewrite E2. destruct (S1 N1 ltac:(discriminate)) as (x & r & us & Hu & W & B). exists x, r, (us ++ f). split; [exact Hu|]. split; [apply Hw; assumption|apply until_app; assumption].
  - destruct (S2 eq_refl N2) as (x & r & us & Hu & W & B). destruct C1 as (_ & C1). destruct (C1 E1) as (c & Ec & Wc).
    exists x, r, (c ++ us). split; [exact Hu|]. split; [apply Hw; assumption|]. rewrite Ec. apply until_prefix. exact B.
Qed.
Lemma leftover_flat l : leftover l = match flat l with [] => None | x :: _ => Some (tt_span x) end.
Proof.
  assert (G : forall t, tt_leftover t = match flat1 t with [] => None | x :: _ => Some (tt_span x) end).
  { induction t as [n s|c g s|n s|d s l0 IH] using tt_ind'; try reflexivity. destruct d; try reflexivity. cbn [tt_leftover flat1].
    clear s. induction IH as [|x l0 Hx _ IH]; [reflexivity|]. rewrite Hx. destruct (flat1 x) as [|y r]; [exact IH|reflexivity]. }
  induction l as [|x l IH]; [reflexivity|]. cbn [leftover flat]. rewrite G. destruct (flat1 x); [exact IH|reflexivity].
Qed.
Lemma goes_group {A} d (p : parser A) s sp v s' (w : list tt -> Prop) : d <> DNone -> (forall s0 s1, p s0 = (OOk v, s1) -> goes s0 w s1) ->
  p_group d p s = (OOk (sp, v), s') -> goes s (fun ts => exists sp us, ts = [TGroup d sp us] /\ w us) s'.
Proof.
  intros Hd Hp H. split.
  - eapply cleanly_impl; [eapply (cleanly_group d p s sp v s' w Hd); [intros s0 s1 H0; exact (proj1 (Hp s0 s1 H0))|exact H]|]. intros a (us & -> & Wu). eauto.
  - apply group_ok in H as (inner & r & si & Hi & H & ->). destruct (Hp _ _ H) as ((F & Hr) & St). cbn [ps_rest ps_unexp] in *. unfold drop_unexp. intros N1 N2.
    assert (Ef : flat (ps_rest s) = TGroup d sp (flat inner) :: flat r). { rewrite <- flat_ignore_none, Hi. cbn [flat]. rewrite flat1_group by exact Hd. reflexivity. }
    rewrite Ef. destruct (ps_unexp si) as [sp1|] eqn:Eu.
    + destruct (St N1 ltac:(discriminate)) as (x & r1 & us & Hu & W & B). exists x, r1, [TGroup d sp us]. split; [exact Hu|]. split; [eauto|]. apply un_inside; [exact B|apply fresh_nil].
    + destruct (Hr eq_refl) as (c & Ec & Wc). rewrite leftover_flat in *. destruct (flat (ps_rest si)) as [|x r1] eqn:El; [contradiction|].
      exists x, r1, [TGroup d sp c]. split; [reflexivity|]. split; [eauto|]. apply un_inside; [|apply fresh_nil]. rewrite Ec. apply until_stop.
Qed.
Lemma can_type t : opsb t = true -> can (of_type t).
Proof.
  intro Ho. assert (F : fillable E t).
  { apply (fill_valued E (fun _ => true)); [intros; apply Href|exact Ho|]. clear. induction t; cbn [valuedb]; auto. rewrite IHt1. reflexivity. }
  destruct F as (v & f & H & F). exists f. split; [exists v; exact H|exact F].
Qed.
Definition of_fields (fs : list (label * ty)) : list tt -> Prop := fun ts => exists vs, spells_fields anyhow E fs vs ts.
Lemma can_fields fs : forallb (fun f => opsb (snd f)) fs = true -> can (of_fields fs).
Proof.
  intro H. rewrite forallb_forall in H. destruct (fill_fields E fs) as (vs & f & S & F).
  - apply Forall_forall. intros f Hf. destruct (can_type (snd f) (H f Hf)) as (f0 & (v & W) & F). exists v, f0. auto.
  - exists f. split; [exists vs; exact S|exact F].
Qed.
Definition going (b : behaviour val) (t : ty) : Prop := opsb t = true -> forall s v s', yes b s v s' -> goes s (of_type t) s'.
Lemma going_seq (p : ty -> parser val) (fs : list (label * ty)) : (forall t, going (of_parser (p t)) t) -> forallb (fun f => opsb (snd f)) fs = true -> forall s vs s',
  seq_yes (map (fun x => of_parser (snd x)) (map (fun '(l, t) => (l, p t)) fs)) s vs s' -> goes s (of_fields fs) s'.
Proof.
  intro Hp. induction fs as [|(l, t) fs IH]; intros Ho s vs s' H; cbn [map snd] in H; inversion H; subst.
  - apply goes_refl. exists []. constructor.
  - cbn [forallb snd] in Ho. apply andb_true_iff in Ho as (Ho1 & Ho2). eapply goes_trans; [eapply (Hp t); eassumption|eapply IH; eassumption|apply can_fields; exact Ho2|]. intros a b (v0 & A) (vs9 & B). exists (v0 :: vs9). constructor; assumption.
Qed.
Lemma going_run b t s vs s' : going b t -> opsb t = true -> run_yes b s vs s' -> goes s (fun ts => exists l, spells_list anyhow E t l ts) s'.
Proof.
  intros Hb Ho H. induction H as [s e Hn|s v s1 vs s2 H1 Hs IH]; [apply goes_refl; exists []; constructor|].
  eapply goes_trans; [eapply Hb; eassumption|exact IH|exists []; split; [exists []; constructor|apply fresh_nil]|]. intros a c (v0 & A) (l & B). exists (v0 :: l). constructor; assumption.
Qed.
Definition of_pairs a p : list tt -> Prop := fun ts => exists l, spells_pairs anyhow E a p l ts.
Lemma can_pairs a p : can (of_pairs a p).
Proof. exists []. split; [exists []; constructor|apply fresh_nil]. Qed.
Lemma can_app (w1 w2 : list tt -> Prop) : can w1 -> can w2 -> can (fun z => exists a b, z = a ++ b /\ w1 a /\ w2 b).
Proof. intros (f1 & W1 & F1) (f2 & W2 & F2). exists (f1 ++ f2). split; [exists f1, f2; auto|apply fresh_app; assumption]. Qed.
Lemma going_tail a p ta tp s l s' : going a ta -> going p tp -> opsb ta = true -> opsb tp = true -> tail_yes a p s l s' -> goes s (of_pairs tp ta) s'.
Proof.
  intros HA HP Oa Op H. induction H as [s e Hn|s q s1 v s2 l s3 H1 H2 Hs IH]; [apply goes_refl; exists []; constructor|].
  eapply (goes_trans _ (of_type tp) (fun z => exists a b, z = a ++ b /\ of_type ta a /\ of_pairs tp ta b)); [eapply HP; eassumption|eapply (goes_trans _ (of_type ta) (of_pairs tp ta)); [eapply HA; eassumption|exact IH|apply can_pairs|]|apply can_app; [apply can_type; exact Oa|apply can_pairs]|].
  - intros x y X Y. eauto.
  - intros x z (q0 & X) (y & w & -> & (v0 & Y) & (l0 & W)). exists ((q0, v0) :: l0). constructor; assumption.
Qed.
(** what ends in an item *)
Definition of_items ta tp : list tt -> Prop := fun ts => exists l v x y, ts = x ++ y /\ spells_pairs anyhow E ta tp l x /\ spells anyhow E ta v y.
Lemma items_cons ta tp a b c : of_type ta a -> of_type tp b -> of_items ta tp c -> of_items ta tp (a ++ b ++ c).
Proof. intros (v & A) (q & B) (l & v0 & x & y & -> & P & V). exists ((v, q) :: l), v0, (a ++ b ++ x), y. split; [rewrite <- !app_assoc; reflexivity|]. split; [constructor; assumption|exact V]. Qed.
Lemma items_one ta tp a : of_type ta a -> of_items ta tp a.
Proof. intros (v & A). exists [], v, [], a. repeat split; [constructor|exact A]. Qed.
Lemma stuck_fill a p ta tp s l o s' : spelled E a ta -> spelled E p tp -> going a ta -> going p tp -> opsb ta = true -> opsb tp = true -> fill_yes a p s l o s' ->
  ps_unexp s = None -> ps_unexp s' <> None -> stuck (flat (ps_rest s)) (of_items ta tp) (ps_unexp s').
Proof.
  intros SA SP HA HP Oa Op H. induction H as [s Hn|s v s1 Hn H1 H2|s v s1 q s2 l o s3 Hn H1 Hn2 H2 Hs IH]; intros N1 N2.
  - contradiction.
  - destruct (HA Oa _ _ _ H1) as (_ & St). eapply stuck_impl; [apply items_one|apply St; assumption].
  - destruct (HA Oa _ _ _ H1) as ((_ & C1) & S1), (HP Op _ _ _ H2) as ((F2 & C2) & S2). pose proof (proj1 (spelled_fill E a p ta tp s2 l o s3 SA SP Hs)) as F3.
    destruct (ps_unexp s2) as [sp2|] eqn:E2.
    + assert (E3 : ps_unexp s3 = Some sp2) by (destruct F3 as (_ & _ & K & _); apply K; exact E2). rewrite E3. destruct (ps_unexp s1) as [sp1|] eqn:E1.
      * assert (E4 : ps_unexp s2 = Some sp1) by (destruct F2 as (_ & _ & K & _); apply K; exact E1). rewrite <- E2, E4. eapply stuck_impl; [apply items_one|]. apply S1; [exact N1|discriminate].
      * destruct (S2 eq_refl ltac:(discriminate)) as (x & r & us & Hu & W & B). destruct (C1 eq_refl) as (c & Ec & Wc). destruct (can_type ta Oa) as (f & Wf & Ff).
        exists x, r, (c ++ us ++ f). split; [exact Hu|]. split; [apply items_cons; [exact Wc|exact W|apply items_one; exact Wf]|]. rewrite Ec. apply until_prefix, until_app; assumption.
    + pose proof (frame_unexp_none _ _ F2 E2) as E1. destruct (C1 E1) as (c & Ec & Wc), (C2 eq_refl) as (d & Ed & Wd). destruct (IH eq_refl N2) as (x & r & us & Hu & W & B).
      exists x, r, (c ++ d ++ us). split; [exact Hu|]. split; [apply items_cons; assumption|]. rewrite Ec, Ed. apply until_prefix, until_prefix. exact B.
Qed.
Lemma items_punctuated ta tp a : of_items ta tp a -> of_type (TyPunctuated ta tp) a.
Proof. intros (l & v & x & y & -> & P & V). exists (VPunct l (Some v)). constructor; [exact P|constructor; exact V|discriminate]. Qed.
Lemma items_separated ta tp a : of_items ta tp a -> of_type (TySeparated ta tp) a.
Proof. intros (l & v & x & y & -> & P & V). exists (VPunct l (Some v)). constructor; assumption. Qed.
Lemma items_rotate ta tp a b : of_type ta a -> of_pairs tp ta b -> of_items ta tp (a ++ b).
Proof. intros (v & A) (l & B). destruct (spells_rotate E _ _ _ _ _ _ A B) as (u & w & -> & A' & B'). exists (fst (pairs_of v l)), (snd (pairs_of v l)), u, w. auto. Qed.
Lemma left_some {O R} (x : R) (l : list (O * R)) : exists t, left_form x l t.
Proof. induction l as [|(o, y) l (t & H)] using rev_ind; [exists (LRhs x); constructor|]. eexists. apply lf_snoc. exact H. Qed.
Lemma right_some {O L} (l : list (O * L)) : forall x, exists t, right_form x l t.
Proof. induction l as [|(o, y) l IH]; intro x; [exists (RLhs x); constructor|]. destruct (IH y) as (t & H). eexists. apply rf_cons. exact H. Qed.
Lemma leaf_quiet n t s v s' : pty E (S n) t s = (OOk v, s') ->
  match t with TyIdent | TyCustomIdent _ | TyKeyword _ | TyTokenKw _ | TyToken _ | TyLit _ | TyAnyLit | TyEmpty | TyEof | TyNotEof => ps_unexp s' = ps_unexp s | _ => True end.
Proof.
  rewrite pty_S. intro H. destruct t; try exact I; cbn [p_layer] in H; apply pmap_ok in H as (x & H & _).
  - unfold p_ident in H. destruct (ignore_none (ps_rest s)) as [|[n0 sp0|c0 g0 sp0|r0 sp0|d' sp' i] r1] eqn:Ei; try discriminate H. destruct (text_mem n0 rust_keywords); [discriminate H|]. injection H as _ <-. reflexivity.
  - unfold p_custom_ident in H. apply bind_ok in H as ((y & sp1) & s1 & H1 & H2). destruct (text_mem _ _); [discriminate H2|]. injection H2 as _ ->.
    unfold p_ident_any in H1. destruct (ignore_none (ps_rest s)) as [|[n0 sp0|c0 g0 sp0|r0 sp0|d' sp' i] r1] eqn:Ei; try discriminate H1. injection H1 as _ _ <-. reflexivity.
  - unfold p_keyword in H. apply bind_ok in H as ((y & sp1) & s1 & H1 & H2). destruct (text_eqb _ _); [|discriminate H2]. injection H2 as _ ->.
    unfold p_ident_any in H1. destruct (ignore_none (ps_rest s)) as [|[n0 sp0|c0 g0 sp0|r0 sp0|d' sp' i] r1] eqn:Ei; try discriminate H1. injection H1 as _ _ <-. reflexivity.
  - unfold p_token_kw in H. destruct (ignore_none (ps_rest s)) as [|[n0 sp0|c0 g0 sp0|r0 sp0|d' sp' i] r1] eqn:Ei; try discriminate H. destruct (text_eqb n0 kw); [|discriminate H]. injection H as _ <-. reflexivity.
  - unfold p_token in H. destruct (take_op op (ps_rest s)) as [(sps1, r)|]; [|discriminate H]. injection H as _ <-. reflexivity.
  - destruct x as (l & sp). apply p_litty_inv in H as (sl & H & _). apply p_lit_inv in H as (r & -> & _). reflexivity.
  - destruct x as (l & sp). apply p_any_lit_inv in H as (sl & H & _). apply p_lit_inv in H as (r & -> & _). reflexivity.
  - injection H as _ <-. reflexivity.
  - unfold p_eof in H. destruct (is_empty s); [|discriminate H]. injection H as _ <-. reflexivity.
  - unfold p_not_eof in H. destruct (is_empty s); [discriminate H|]. injection H as _ <-. reflexivity.
Qed.
Theorem going_pty n : forall t, going (of_parser (pty E n t)) t.
Proof.
  induction n as [|n Hs]; intros t Ho s v s' H; [discriminate H|]. pose proof (spelled_pty E (S n) t s v s' H) as Cl. cbn [yes of_parser] in H.
  assert (Cl' : cleanly s (of_type t) s') by (eapply cleanly_impl; [exact Cl|intros a A; exists v; exact A]). clear Cl.
  pose proof (leaf_quiet n t s v s' H) as Lf. rewrite pty_S in H. pose proof (fun t => lawful_pty E n t) as Hlaw.
  destruct t; try (apply goes_still; [exact Cl'|exact Lf]); clear Lf; cbn [p_layer opsb] in H, Ho; try (apply andb_true_iff in Ho; destruct Ho as (O1 & O2)).
  - apply pmap_ok in H as (x & H & ->). apply maybe_ok in H; [|apply Hlaw]. destruct x as [(x & y)|].
    + destruct H as (s1 & H1 & H2). eapply goes_trans; [eapply Hs; [exact O1|exact H1]|eapply Hs; [exact O2|exact H2]|apply can_type; exact O2|]. intros a b (x0 & A) (y0 & B). exists (VJust x0 y0). constructor; assumption.
    + destruct H as (_ & ->). apply goes_refl. exists VNothing. constructor.
  - apply pmap_ok in H as ((sp & x) & H & ->). eapply goes_impl; [eapply (goes_group DParen); [discriminate| |exact H]; intros s0 s1 H0; eapply Hs; [exact Ho|exact H0]|].
    intros a (sp1 & us & -> & v & Hu). exists (VGroup DParen sp1 v). apply (sp_group anyhow E DParen); [discriminate|exact Hu].
  - apply pmap_ok in H as ((sp & x) & H & ->). eapply goes_impl; [eapply (goes_group DBracket); [discriminate| |exact H]; intros s0 s1 H0; eapply Hs; [exact Ho|exact H0]|].
    intros a (sp1 & us & -> & v & Hu). exists (VGroup DBracket sp1 v). apply (sp_group anyhow E DBracket); [discriminate|exact Hu].
  - apply pmap_ok in H as ((sp & x) & H & ->). eapply goes_impl; [eapply (goes_group DBrace); [discriminate| |exact H]; intros s0 s1 H0; eapply Hs; [exact Ho|exact H0]|].
    intros a (sp1 & us & -> & v & Hu). exists (VGroup DBrace sp1 v). apply (sp_group anyhow E DBrace); [discriminate|exact Hu].
  - split; [exact Cl'|]. intros N1 N2. apply pmap_ok in H as (x & H & ->). apply terminated_loop_ok in H as (l & o & H & ->).
    eapply stuck_impl; [apply items_punctuated|]. eapply stuck_fill; [apply spelled_pty|apply spelled_pty|apply Hs|apply Hs|exact O1|exact O2|exact H|exact N1|exact N2].
  - apply pmap_ok in H as (x & H & ->). apply bind_ok in H as (y & s1 & H1 & H2). apply separated_loop_ok in H2 as (l & H2 & ->); [|apply Hlaw].
    eapply goes_trans; [eapply Hs; [exact O1|exact H1]|eapply going_tail; [apply Hs|apply Hs|exact O1|exact O2|exact H2]|apply can_pairs|]. intros a b A B. apply items_separated, items_rotate; assumption.
  - apply pmap_ok in H as (x & H & ->). apply any_loop_ok in H as (l & -> & H); [|apply Hlaw].
    eapply goes_impl; [eapply going_run; [apply Hs|exact Ho|exact H]|]. intros a (l0 & A). exists (VList l0). constructor. exact A.
  - apply pmap_ok in H as (x & H & ->). apply left_assoc_ok in H as (y & l & H & Hf); [|apply Hlaw]. apply separated_parts in H as (s1 & H1 & H2); [|apply Hlaw].
    eapply goes_trans; [eapply Hs; [exact O2|exact H1]|eapply going_tail; [apply Hs|apply Hs|exact O2|exact O1|exact H2]|apply can_pairs|]. intros a b (y0 & A) (l0 & B). destruct (left_some y0 l0) as (t & F). eexists. econstructor; eassumption.
  - apply pmap_ok in H as (x & H & ->). apply right_assoc_ok in H as (y & l & H & Hf); [|apply Hlaw]. apply separated_parts in H as (s1 & H1 & H2); [|apply Hlaw].
    eapply goes_trans; [eapply Hs; [exact O2|exact H1]|eapply going_tail; [apply Hs|apply Hs|exact O2|exact O1|exact H2]|apply can_pairs|]. intros a b (y0 & A) (l0 & B). destruct (right_some l0 y0) as (t & F). eexists. econstructor; eassumption.
  - apply pmap_ok in H as (x & H & ->). apply either_ok in H; [|apply Hlaw|apply Hlaw]. destruct x as [x|x].
    + eapply goes_impl; [eapply Hs; [exact O1|exact H]|]. intros a (v & A). exists (VLeft v). constructor. exact A.
    + destruct H as (_ & H). eapply goes_impl; [eapply Hs; [exact O2|exact H]|]. intros a (v & A). exists (VRight v). constructor. exact A.
  - eapply goes_impl; [eapply Hs; [exact Ho|exact H]|]. intros a (v0 & A). exists v0. constructor. exact A.
  - pose proof (Hops i) as Oi. destruct (E i) as [c|en cs] eqn:Hi; cbn [p_def ops_def] in H, Oi.
    + apply pmap_ok in H as (vs & H & ->). apply fields_ok in H. eapply goes_impl; [eapply going_seq; [exact Hs|exact Oi|exact H]|]. intros a (vs1 & A). exists (VStruct vs1). econstructor; eassumption.
    + apply pmap_ok in H as ((k & vs) & H & ->). apply variants_ok in H as (k' & w & -> & H1 & H2 & H3).
      * rewrite nth_error_map in H1. destruct (nth_error cs k') as [c|] eqn:Ek; [|discriminate]. cbn in H1. injection H1 as <-.
        apply fields_ok in H2. cbn [fst snd] in H2. rewrite forallb_forall in Oi. eapply goes_impl; [eapply going_seq; [exact Hs|apply Oi; eapply nth_error_In; exact Ek|exact H2]|]. intros a (vs1 & A). exists (VVariant k' vs1). econstructor; eassumption.
      * apply Forall_map, Forall_forall. intros c _. unfold vparser. cbn. apply lawful_fields. apply Forall_map, Forall_forall. intros (l, t0) _. apply Hlaw.
Qed.
Lemma going_ty t : going (tbeh E t) t.
Proof. intros Ho s v s' (n & H). exact (going_pty n t Ho s v s' H). Qed.
End Goes.

(** ** Wherever an error comes from: what is before is a beginning. *)
Section Reaches.
Context {U : unicode} (E : env) (Href : forall i, fillable E (TyRef i)) (Hops : forall i, ops_def (E i) = true).
Definition reaches (ts : list tt) (w : list tt -> Prop) (s0 : pstate) : Prop :=
  (ps_unexp s0 = None /\ exists us, w us /\ until fresh ts (flat (ps_rest s0)) us) \/ (ps_unexp s0 <> None /\ stuck ts w (ps_unexp s0)).
Lemma reaches_impl ts (w w' : list tt -> Prop) s0 : (forall a, w a -> w' a) -> reaches ts w s0 -> reaches ts w' s0.
Proof. intros H [(N & us & W & B)|(N & S)]; [left; split; [exact N|exists us; auto]|right; split; [exact N|eapply stuck_impl; eassumption]]. Qed.
Lemma reaches_app ts (w w2 w' : list tt -> Prop) s0 : can w2 -> (forall a b, w a -> w2 b -> w' (a ++ b)) -> reaches ts w s0 -> reaches ts w' s0.
Proof.
  intros (f & Wf & Ff) H [(N & us & W & B)|(N & x & r & us & Hu & W & B)]; [left; split; [exact N|exists (us ++ f)]|right; split; [exact N|exists x, r, (us ++ f); split; [exact Hu|]]];
    (split; [apply H; assumption|apply until_app; assumption]).
Qed.
Lemma reaches_after s (w1 w2 w : list tt -> Prop) s1 s0 : goes s w1 s1 -> (forall sp, ps_unexp s1 = Some sp -> ps_unexp s0 = Some sp) ->
  (ps_unexp s1 = None -> reaches (flat (ps_rest s1)) w2 s0) -> can w2 -> (forall a b, w1 a -> w2 b -> w (a ++ b)) -> ps_unexp s = None -> reaches (flat (ps_rest s)) w s0.
Proof.
  intros ((F & C) & St) K R (f & Wf & Ff) Hw N. destruct (ps_unexp s1) as [sp1|] eqn:E1.
  - rewrite <- (K _ eq_refl) in St. right. pose proof (K _ eq_refl) as K'. split; [congruence|]. destruct (St N ltac:(congruence)) as (x & r & us & Hu & W & B).
    exists x, r, (us ++ f). split; [exact Hu|]. split; [apply Hw; assumption|apply until_app; assumption].
  - destruct (C eq_refl) as (c & Ec & Wc). rewrite Ec. destruct (R eq_refl) as [(N0 & us & W & B)|(N0 & x & r & us & Hu & W & B)].
    + left. split; [exact N0|]. exists (c ++ us). split; [apply Hw; assumption|apply until_prefix; exact B].
    + right. split; [exact N0|]. exists x, r, (c ++ us). split; [exact Hu|]. split; [apply Hw; assumption|apply until_prefix; exact B].
Qed.
Lemma reaches_here s (w : list tt -> Prop) : can w -> ps_unexp s = None -> reaches (flat (ps_rest s)) w s.
Proof. intros (f & Wf & Ff) N. left. split; [exact N|]. exists f. split; [exact Wf|constructor; exact Ff]. Qed.
Lemma yes_keeps t s v s' sp : yes (tbeh E t) s v s' -> ps_unexp s = Some sp -> ps_unexp s' = Some sp.
Proof. intros (n & H) N. destruct (spelled_pty E n t s v s' H) as ((_ & _ & K & _) & _). apply K. exact N. Qed.
Lemma seq_keeps ts : forall s vs s' sp, seq_yes (map (tbeh E) ts) s vs s' -> ps_unexp s = Some sp -> ps_unexp s' = Some sp.
Proof.
  induction ts as [|t ts IH]; intros s vs s' sp H N; cbn [map] in H; inversion H; subst; [exact N|]. eapply IH; [eassumption|]. eapply yes_keeps; eassumption.
Qed.
Lemma origin_keeps t s path s0 e : origin E t s path s0 e -> forall sp, ps_unexp s = Some sp -> ps_unexp s0 = Some sp.
Proof.
  induction 1; intros sp1 N; eauto using yes_keeps, seq_keeps.
Qed.
Definition goal_of (t : ty) : list tt -> Prop := match t with TyPunctuated a p | TySeparated a p => of_items E a p | _ => of_type E t end.
Lemma goal_type t a : goal_of t a -> of_type E t a.
Proof. destruct t; cbn [goal_of]; auto; [apply items_punctuated|apply items_separated]. Qed.
Lemma can_items a p : opsb a = true -> can (of_items E a p).
Proof. intro O. destruct (can_type E Href a O) as (f & W & F). exists f. split; [apply items_one; exact W|exact F]. Qed.
Lemma seq_goes fs : forallb (fun f => opsb (snd f)) fs = true -> forall s vs s', seq_yes (map (tbeh E) (map snd fs)) s vs s' -> goes s (of_fields E fs) s'.
Proof.
  induction fs as [|(l, t) fs IH]; intros Ho s vs s' H; cbn [map snd] in H; inversion H; subst.
  - apply goes_refl. exists []. constructor.
  - cbn [forallb snd] in Ho. apply andb_true_iff in Ho as (Ho1 & Ho2). eapply goes_trans; [eapply (going_ty E Href Hops t); eassumption|eapply IH; eassumption|apply can_fields; [exact Href|exact Ho2]|]. intros a b (v0 & A) (vs9 & B). exists (v0 :: vs9). constructor; assumption.
Qed.
Lemma fields_app a : forall b x y, of_fields E a x -> of_fields E b y -> of_fields E (a ++ b) (x ++ y).
Proof.
  induction a as [|(l, t) a IH]; intros b x y (vs & A) B; inversion A; subst; [exact B|]. match goal with S : spells_fields _ _ a ?ws ?us |- _ => destruct (IH b us y (ex_intro _ ws S) B) as (us' & C) end.
  eexists. cbn [app]. rewrite <- app_assoc. constructor; eassumption.
Qed.
(** fields in front of the one that failed, the one that failed, and the rest *)
Lemma reaches_fields fs k l t s vs s1 s0 : forallb (fun f => opsb (snd f)) fs = true -> nth_error fs k = Some (l, t) -> seq_yes (map (tbeh E) (map snd (firstn k fs))) s vs s1 ->
  (forall sp, ps_unexp s1 = Some sp -> ps_unexp s0 = Some sp) -> (ps_unexp s1 = None -> reaches (flat (ps_rest s1)) (of_type E t) s0) -> ps_unexp s = None -> reaches (flat (ps_rest s)) (of_fields E fs) s0.
Proof.
  intros Ho Hk Hs K R N. rewrite <- (firstn_skipn k fs) in Ho. rewrite forallb_app in Ho. apply andb_true_iff in Ho as (Ho1 & Ho2).
  assert (Sk : skipn k fs = (l, t) :: skipn (S k) fs). { clear - Hk. revert fs Hk. induction k as [|k IH]; intros [|f fs] Hk; try discriminate Hk; [injection Hk as ->; reflexivity|]. cbn [skipn]. apply IH. exact Hk. }
  rewrite Sk in Ho2. pose proof Ho2 as Ho3. cbn [forallb snd] in Ho3. apply andb_true_iff in Ho3 as (Ho3 & Ho4).
  eapply (reaches_after s (of_fields E (firstn k fs)) (of_fields E (skipn k fs))); [eapply seq_goes; eassumption|exact K| |rewrite Sk; apply can_fields; [exact Href|exact Ho2]| |exact N].
  - intro N1. eapply (reaches_app _ (of_type E t) (of_fields E (skipn (S k) fs))); [apply can_fields; [exact Href|exact Ho4]| |apply R; exact N1].
    intros a b (v & A) (ws & B). rewrite Sk. exists (v :: ws). constructor; assumption.
  - intros a b A B. rewrite <- (firstn_skipn k fs). apply fields_app; assumption.
Qed.
Lemma items_back a p ts : of_items E a p ts -> exists u w x l, ts = u ++ w /\ spells anyhow E a x u /\ spells_pairs anyhow E p a l w.
Proof.
  intros (l & v & x & y & -> & P & V). revert x P. induction l as [|(q, z) l IH]; intros x P; inversion P; subst.
  - exists y, [], v, []. split; [symmetry; apply app_nil_r|]. split; [exact V|constructor].
  - match goal with A : spells _ _ a q ?u1, B : spells _ _ p z ?u2, C : spells_pairs _ _ a p l ?u3 |- _ => destruct (IH u3 C) as (u & w & x0 & l0 & Eq & A' & B'); exists u1, (u2 ++ u ++ w), q, ((z, x0) :: l0) end.
    split; [rewrite <- Eq, <- !app_assoc; reflexivity|]. split; [assumption|]. constructor; assumption.
Qed.
Theorem origin_reaches t s path s0 e : origin E t s path s0 e -> opsb t = true -> ps_unexp s = None -> reaches (flat (ps_rest s)) (goal_of t) s0.
Proof.
  induction 1 as [t s e Hr Hn|d t s Hd Hng|d t s sp inner r path s0 e Hd Hi H IH|a b s x s1 path s0 e Hy H IH|a b s path s0 e H IH|a b s path s0 e H IH
    |a p s path s0 e H IH|a p s x s1 y s2 path s0 e Ha Hp H IH|o r s path s0 e H IH|o r s path s0 e H IH|a p s path s0 e H IH|a p s x s1 path s0 e Ha H IH|a p s x s1 y s2 path s0 e Ha Hp H IH
    |t s path s0 e H IH|i c k l t s vs s1 path s0 e Hi Hk Hs H IH|i en cs c k l t s vs s1 path s0 e Hi Hc Hk Hs H IH|i en s Hi]; intros Ho N.
  - assert (G : goal_of t = of_type E t) by (destruct t; try reflexivity; contradiction Hr). rewrite G. apply reaches_here; [apply can_type; assumption|exact N].
  - assert (G : goal_of (TyGroup d t) = of_type E (TyGroup d t)) by (destruct d; reflexivity). rewrite G. apply reaches_here; [apply can_type; assumption|exact N].
  - assert (G : goal_of (TyGroup d t) = of_type E (TyGroup d t)) by (destruct d; reflexivity). rewrite G. clear G.
    assert (Ef : flat (ps_rest s) = TGroup d sp (flat inner) :: flat r). { rewrite <- flat_ignore_none, Hi. cbn [flat]. rewrite flat1_group by exact Hd. reflexivity. }
    assert (Ot : opsb t = true) by (destruct d; exact Ho || contradiction). rewrite Ef. cbn [ps_rest ps_unexp] in IH.
    assert (W : forall us, goal_of t us -> of_type E (TyGroup d t) [TGroup d sp us]). { intros us W. apply goal_type in W as (v & W). exists (VGroup d sp v). constructor; assumption. }
    destruct (IH Ot N) as [(N0 & us & Wu & B)|(N0 & x & r1 & us & Hu & Wu & B)].
    + left. split; [exact N0|]. exists [TGroup d sp us]. split; [apply W; exact Wu|]. apply un_inside; [exact B|apply fresh_nil].
    + right. split; [exact N0|]. exists x, r1, [TGroup d sp us]. split; [exact Hu|]. split; [apply W; exact Wu|]. apply un_inside; [exact B|apply fresh_nil].
  - cbn [opsb] in Ho. apply andb_true_iff in Ho as (O1 & O2). eapply (reaches_after s (of_type E a) (of_type E b)); [eapply going_ty; eassumption|eapply origin_keeps; exact H| |apply can_type; assumption| |exact N].
    + intro N1. eapply reaches_impl; [apply goal_type|apply IH; assumption].
    + intros u w (v1 & A) (v2 & B). exists (VJust v1 v2). constructor; assumption.
  - cbn [opsb] in Ho. apply andb_true_iff in Ho as (O1 & O2). eapply reaches_impl; [|apply IH; assumption]. intros u W. apply goal_type in W as (v & W). exists (VLeft v). constructor. exact W.
  - cbn [opsb] in Ho. apply andb_true_iff in Ho as (O1 & O2). eapply reaches_impl; [|apply IH; assumption]. intros u W. apply goal_type in W as (v & W). exists (VRight v). constructor. exact W.
  - cbn [opsb] in Ho. apply andb_true_iff in Ho as (O1 & O2). eapply reaches_impl; [|apply IH; assumption]. intros u W. apply items_one. apply goal_type. exact W.
  - pose proof Ho as Ho0. cbn [opsb] in Ho. apply andb_true_iff in Ho as (O1 & O2). cbn [goal_of] in *.
    eapply (reaches_after s (of_type E a) (fun z => exists u w, z = u ++ w /\ of_type E p u /\ of_items E a p w)); [eapply going_ty; eassumption| | | | |exact N].
    + intros sp Hsp. eapply origin_keeps; [exact H|]. eapply yes_keeps; eassumption.
    + intro N1. eapply (reaches_after s1 (of_type E p) (of_items E a p)); [eapply going_ty; eassumption|eapply origin_keeps; exact H|intro N2; apply IH; assumption|apply can_items; exact O1| |exact N1]. intros u w A B. eauto.
    + apply can_app; [apply can_type; assumption|apply can_items; exact O1].
    + intros u z A (v & w & -> & B & C). apply items_cons; assumption.
  - cbn [opsb] in Ho. apply andb_true_iff in Ho as (O1 & O2). eapply reaches_impl; [|apply IH; [cbn [opsb]; rewrite O1, O2; reflexivity|exact N]]. cbn [goal_of].
    intros u W. apply items_back in W as (u0 & w & x & l & -> & A & B). destruct (left_some x l) as (t & F). eexists. econstructor; eassumption.
  - cbn [opsb] in Ho. apply andb_true_iff in Ho as (O1 & O2). eapply reaches_impl; [|apply IH; [cbn [opsb]; rewrite O1, O2; reflexivity|exact N]]. cbn [goal_of].
    intros u W. apply items_back in W as (u0 & w & x & l & -> & A & B). destruct (right_some l x) as (t & F). eexists. econstructor; eassumption.
  - cbn [opsb] in Ho. apply andb_true_iff in Ho as (O1 & O2). eapply reaches_impl; [|apply IH; assumption]. intros u W. apply items_one. apply goal_type. exact W.
  - cbn [opsb] in Ho. apply andb_true_iff in Ho as (O1 & O2). cbn [goal_of]. eapply (reaches_after s (of_type E a) (fun z => exists u w, z = u ++ w /\ of_type E p u /\ of_type E a w)); [eapply going_ty; eassumption|eapply origin_keeps; exact H| | | |exact N].
    + intro N1. eapply (reaches_app _ (of_type E p) (of_type E a)); [apply can_type; assumption| |eapply reaches_impl; [apply goal_type|apply IH; assumption]]. intros u w A B. eauto.
    + apply can_app; apply can_type; assumption.
    + intros u z A (v & w & -> & B & C). apply items_cons; [exact A|exact B|apply items_one; exact C].
  - pose proof Ho as Ho0. cbn [opsb] in Ho. apply andb_true_iff in Ho as (O1 & O2). cbn [goal_of] in *.
    eapply (reaches_after s (of_type E a) (fun z => exists u w, z = u ++ w /\ of_type E p u /\ of_items E a p w)); [eapply going_ty; eassumption| | | | |exact N].
    + intros sp Hsp. eapply origin_keeps; [exact H|]. eapply yes_keeps; eassumption.
    + intro N1. eapply (reaches_after s1 (of_type E p) (of_items E a p)); [eapply going_ty; eassumption|eapply origin_keeps; exact H|intro N2; apply IH; assumption|apply can_items; exact O1| |exact N1]. intros u w A B. eauto.
    + apply can_app; [apply can_type; assumption|apply can_items; exact O1].
    + intros u z A (v & w & -> & B & C). apply items_cons; assumption.
  - eapply reaches_impl; [|apply IH; assumption]. intros u W. apply goal_type in W as (v & W). exists v. constructor. exact W.
  - pose proof (Hops i) as Oi. rewrite Hi in Oi. cbn [ops_def] in Oi. eapply reaches_impl; [|eapply reaches_fields; [exact Oi|exact Hk|exact Hs|eapply origin_keeps; exact H| |exact N]].
    + intros u (ws & W). exists (VStruct ws). econstructor; eassumption.
    + intro N1. eapply reaches_impl; [apply goal_type|apply IH; [|exact N1]]. rewrite forallb_forall in Oi. apply (Oi (l, t)). eapply nth_error_In; exact Hk.
  - pose proof (Hops i) as Oi. rewrite Hi in Oi. cbn [ops_def] in Oi. rewrite forallb_forall in Oi. specialize (Oi c Hc). apply In_nth_error in Hc as (j & Hj).
    eapply reaches_impl; [|eapply reaches_fields; [exact Oi|exact Hk|exact Hs|eapply origin_keeps; exact H| |exact N]].
    + intros u (ws & W). exists (VVariant j ws). econstructor; eassumption.
    + intro N1. eapply reaches_impl; [apply goal_type|apply IH; [|exact N1]]. rewrite forallb_forall in Oi. apply (Oi (l, t)). eapply nth_error_In; exact Hk.
  - exfalso. destruct (Href i) as (v & f & S & _). inversion S; subst; try (match goal with d : delim |- _ => destruct d; discriminate end); try congruence. match goal with A : E i = DEnum _ ?cs, B : nth_error ?cs ?k = Some _ |- _ => rewrite A in Hi; injection Hi as _ ->; destruct k; discriminate B end.
Qed.
End Reaches.
