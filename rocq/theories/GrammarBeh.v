(** * GrammarBeh: the specifications hold for every grammar, without mentioning fuel. *)
From Verif Require Import Base Float Literal Syn Ast Derive Grammar Spec SynFacts Lawful Mono Combinators.

Definition ble {A} (b c : behaviour A) : Prop :=
  (forall s v s', yes b s v s' -> yes c s v s') /\ (forall s e, no b s e -> no c s e).
Lemma ble_refl {A} (b : behaviour A) : ble b b.
Proof. split; auto. Qed.

Lemma seq_yes_mono {V} (bs cs : list (behaviour V)) s vs s' :
  Forall2 ble bs cs -> seq_yes bs s vs s' -> seq_yes cs s vs s'.
Proof.
  intros H H2. revert cs H. induction H2 as [s|b bs s v s1 vs s2 Hy Hs IH]; intros cs H; inversion H; subst.
  - constructor.
  - econstructor; [|apply IH; assumption]. match goal with H : ble _ _ |- _ => apply H end. exact Hy.
Qed.
Lemma Forall2_firstn {A B} (R : A -> B -> Prop) n l l' : Forall2 R l l' -> Forall2 R (firstn n l) (firstn n l').
Proof. intro H. revert n. induction H; intros [|n]; cbn; constructor; auto. Qed.
Lemma Forall2_nth {A B} (R : A -> B -> Prop) l l' : Forall2 R l l' ->
  forall k x, nth_error l k = Some x -> exists y, nth_error l' k = Some y /\ R x y.
Proof. induction 1; intros [|k] z Hz; cbn in *; try discriminate; eauto. injection Hz as <-. eauto. Qed.
Lemma seq_no_mono {V} (bs cs : list (behaviour V)) s k e :
  Forall2 ble bs cs -> seq_no bs s k e -> seq_no cs s k e.
Proof.
  intros H (b & vs & s1 & H1 & H2 & H3).
  destruct (Forall2_nth _ _ _ H _ _ H1) as (c & Hc & Hb). exists c, vs, s1.
  split; [exact Hc|]. split; [|apply Hb; exact H3]. eapply seq_yes_mono; [|exact H2]. apply Forall2_firstn. exact H.
Qed.
Lemma run_yes_mono {A} (b c : behaviour A) s l s' : ble b c -> run_yes b s l s' -> run_yes c s l s'.
Proof. intros [H1 H2]. induction 1; econstructor; eauto. Qed.
Lemma tail_yes_mono {A P} (b c : behaviour A) (p q : behaviour P) s l s' :
  ble b c -> ble p q -> tail_yes b p s l s' -> tail_yes c q s l s'.
Proof. intros [H1 H2] [H3 H4]. induction 1; econstructor; eauto. Qed.
Lemma tail_no_mono {A P} (b c : behaviour A) (p q : behaviour P) s e :
  ble b c -> ble p q -> tail_no b p s e -> tail_no c q s e.
Proof. intros [H1 H2] [H3 H4]. induction 1; [eapply tail_fail|eapply tail_later]; eauto. Qed.
Lemma fill_yes_mono {A P} (b c : behaviour A) (p q : behaviour P) s l o s' :
  ble b c -> ble p q -> fill_yes b p s l o s' -> fill_yes c q s l o s'.
Proof.
  intros [H1 H2] [H3 H4]. induction 1;
   [apply fill_end|apply fill_last|eapply fill_step]; eauto.
Qed.
Lemma fill_no_mono {A P} (b c : behaviour A) (p q : behaviour P) s e :
  ble b c -> ble p q -> fill_no b p s e -> fill_no c q s e.
Proof.
  intros [H1 H2] [H3 H4]. induction 1;
   [apply fill_no_item|eapply fill_no_punct|eapply fill_no_later]; eauto.
Qed.

Section G.
Context {U : unicode}.
Variable E : env.
Notation pb n t := (of_parser (pty E n t)).

Lemma pb_le n m t : n <= m -> ble (pb n t) (pb m t).
Proof.
  intro H. split.
  - intros s v s' Hy. cbn in *. eapply pty_mono; [exact H|exact Hy|discriminate].
  - intros s e (s' & Hn). exists s'. eapply pty_mono; [exact H|exact Hn|discriminate].
Qed.
Lemma pb_tbeh n t : ble (pb n t) (tbeh E t).
Proof. split; cbn; eauto. Qed.
Lemma map_le (f : ty -> behaviour val) (g : ty -> behaviour val) ts :
  (forall t, ble (f t) (g t)) -> Forall2 ble (map f ts) (map g ts).
Proof. intro H. induction ts; cbn; constructor; auto. Qed.

(** fuel is monotone, so finite derivations need finite fuel *)
Lemma tbeh_det_yes t s v s' v2 s2 : yes (tbeh E t) s v s' -> yes (tbeh E t) s v2 s2 -> v = v2 /\ s' = s2.
Proof.
  intros (n & H) (m & H2). assert (Ha : pty E (n+m) t s = (OOk v, s')) by (eapply pty_mono; [|exact H|discriminate]; lia).
  assert (Hb : pty E (n+m) t s = (OOk v2, s2)) by (eapply pty_mono; [|exact H2|discriminate]; lia).
  rewrite Ha in Hb. injection Hb as -> ->. auto.
Qed.
Lemma tbeh_excl t s v s' e : yes (tbeh E t) s v s' -> no (tbeh E t) s e -> False.
Proof.
  intros (n & H) (m & s2 & H2). assert (Ha : pty E (n+m) t s = (OOk v, s')) by (eapply pty_mono; [|exact H|discriminate]; lia).
  assert (Hb : pty E (n+m) t s = (OErr e, s2)) by (eapply pty_mono; [|exact H2|discriminate]; lia).
  rewrite Ha in Hb. discriminate.
Qed.
Lemma tbeh_det_no t s e e2 : no (tbeh E t) s e -> no (tbeh E t) s e2 -> e = e2.
Proof.
  intros (n & s1 & H) (m & s2 & H2). assert (Ha : pty E (n+m) t s = (OErr e, s1)) by (eapply pty_mono; [|exact H|discriminate]; lia).
  assert (Hb : pty E (n+m) t s = (OErr e2, s2)) by (eapply pty_mono; [|exact H2|discriminate]; lia).
  rewrite Ha in Hb. injection Hb as -> _. auto.
Qed.

Lemma seq_compact ts s vs s' : seq_yes (map (tbeh E) ts) s vs s' ->
  exists n, seq_yes (map (fun t => pb n t) ts) s vs s'.
Proof.
  revert s vs. induction ts as [|t ts IH]; intros s vs H; cbn in *.
  - inversion H; subst. exists 0. constructor.
  - inversion H as [|b bs s0 v s1 vs0 s2 Hy Hr]; subst. destruct Hy as (n & Hy). apply IH in Hr as (m & Hr).
    exists (n + m). econstructor.
    + apply (pb_le n); [lia|]. exact Hy.
    + eapply seq_yes_mono; [|exact Hr]. apply map_le. intro. apply pb_le. lia.
Qed.
Lemma seq_no_compact ts s k e : seq_no (map (tbeh E) ts) s k e ->
  exists n, seq_no (map (fun t => pb n t) ts) s k e.
Proof.
  intros (b & vs & s1 & Hb & Hs & Hn). rewrite firstn_map in Hs. apply seq_compact in Hs as (n & Hs).
  rewrite nth_error_map in Hb. destruct (nth_error ts k) as [t|] eqn:Et; [|discriminate]. cbn in Hb.
  injection Hb as <-. destruct Hn as (m & s2 & Hn). exists (n + m), (pb (n+m) t), vs, s1.
  split; [rewrite nth_error_map, Et; reflexivity|]. split.
  - rewrite firstn_map. eapply seq_yes_mono; [|exact Hs]. apply map_le. intro. apply pb_le. lia.
  - apply (pb_le m); [lia|]. exists s2. exact Hn.
Qed.
Lemma run_compact t s l s' : run_yes (tbeh E t) s l s' -> exists n, run_yes (pb n t) s l s'.
Proof.
  induction 1 as [s e (n & s1 & H)|s v s1 vs s2 (n & H) Hr (m & IH)].
  - exists n. econstructor. exists s1. exact H.
  - exists (n + m). econstructor; [apply (pb_le n); [lia|]; exact H|].
    eapply run_yes_mono; [|exact IH]. apply pb_le. lia.
Qed.
Lemma tail_compact a p s l s' : tail_yes (tbeh E a) (tbeh E p) s l s' ->
  exists n, tail_yes (pb n a) (pb n p) s l s'.
Proof.
  induction 1 as [s e (n & s1 & H)|s x s1 v s2 l s3 (n1 & H1) (n2 & H2) Hr (m & IH)].
  - exists n. econstructor. exists s1. exact H.
  - exists (n1 + n2 + m). econstructor; [apply (pb_le n1); [lia|]; exact H1|apply (pb_le n2); [lia|]; exact H2|].
    eapply tail_yes_mono; [| |exact IH]; apply pb_le; lia.
Qed.
Lemma tail_no_compact a p s e : tail_no (tbeh E a) (tbeh E p) s e ->
  exists n, tail_no (pb n a) (pb n p) s e.
Proof.
  induction 1 as [s x s1 e (n1 & H1) (n2 & s2 & H2)|s x s1 v s2 e (n1 & H1) (n2 & H2) Hr (m & IH)].
  - exists (n1 + n2). eapply tail_fail; [apply (pb_le n1); [lia|]; exact H1|apply (pb_le n2); [lia|]; exists s2; exact H2].
  - exists (n1 + n2 + m). eapply tail_later; [apply (pb_le n1); [lia|]; exact H1|apply (pb_le n2); [lia|]; exact H2|].
    eapply tail_no_mono; [| |exact IH]; apply pb_le; lia.
Qed.
Lemma fill_compact a p s l o s' : fill_yes (tbeh E a) (tbeh E p) s l o s' ->
  exists n, fill_yes (pb n a) (pb n p) s l o s'.
Proof.
  induction 1 as [s E0|s v s1 E0 (n & H1) E1|s v s1 x s2 l o s3 E0 (n1 & H1) E1 (n2 & H2) Hr (m & IH)].
  - exists 0. apply fill_end. exact E0.
  - exists n. apply fill_last; assumption.
  - exists (n1 + n2 + m). eapply fill_step;
      [exact E0|apply (pb_le n1); [lia|]; exact H1|exact E1|apply (pb_le n2); [lia|]; exact H2|].
    eapply fill_yes_mono; [| |exact IH]; apply pb_le; lia.
Qed.
Lemma fill_no_compact a p s e : fill_no (tbeh E a) (tbeh E p) s e ->
  exists n, fill_no (pb n a) (pb n p) s e.
Proof.
  induction 1 as [s e E0 (n & s' & H)|s v s1 e E0 (n1 & H1) E1 (n2 & s' & H)|s v s1 x s2 e E0 (n1 & H1) E1 (n2 & H2) Hr (m & IH)].
  - exists n. apply fill_no_item; [exact E0|]. exists s'. exact H.
  - exists (n1 + n2). eapply fill_no_punct;
      [exact E0|apply (pb_le n1); [lia|]; exact H1|exact E1|apply (pb_le n2); [lia|]; exists s'; exact H].
  - exists (n1 + n2 + m). eapply fill_no_later;
      [exact E0|apply (pb_le n1); [lia|]; exact H1|exact E1|apply (pb_le n2); [lia|]; exact H2|].
    eapply fill_no_mono; [| |exact IH]; apply pb_le; lia.
Qed.

Lemma pty_S n t : pty E (S n) t = p_layer E n (pty E n) t.
Proof. reflexivity. Qed.

(** unfolding one layer of a type *)
Lemma tbeh_yes_layer t s v s' :
  yes (tbeh E t) s v s' <-> exists n, p_layer E n (pty E n) t s = (OOk v, s').
Proof.
  split.
  - intros ([|n] & H); [discriminate|]. exists n. exact H.
  - intros (n & H). exists (S n). exact H.
Qed.
Lemma tbeh_no_layer t s e :
  no (tbeh E t) s e <-> exists n, no (of_parser (p_layer E n (pty E n) t)) s e.
Proof.
  split.
  - intros ([|n] & s' & H); [discriminate|]. exists n, s'. exact H.
  - intros (n & s' & H). exists (S n), s'. exact H.
Qed.

(** ** Derived definitions. *)
Definition tys (fs : list (label * ty)) : list (behaviour val) := map (tbeh E) (map snd fs).
Definition inst (n : nat) (fs : list (label * ty)) := map (fun '(l, t) => (l, pty E n t)) fs.
Lemma inst_beh n fs :
  map (fun f : label * parser val => of_parser (snd f)) (inst n fs) = map (fun t => pb n t) (map snd fs).
Proof. induction fs as [|[l t] fs IH]; cbn; [reflexivity|]. f_equal. exact IH. Qed.
Lemma inst_le n fs : Forall2 ble (map (fun t => pb n t) (map snd fs)) (tys fs).
Proof. apply map_le. intro. apply pb_tbeh. Qed.

Lemma fields_yes_iff en ct fs s vs s' :
  (exists n, p_fields en ct (inst n fs) s = (OOk vs, s')) <-> seq_yes (tys fs) s vs s'.
Proof.
  split.
  - intros (n & H). apply fields_ok in H. rewrite inst_beh in H. eapply seq_yes_mono; [apply inst_le|exact H].
  - intro H. apply seq_compact in H as (n & H). exists n. apply fields_ok. rewrite inst_beh. exact H.
Qed.
Lemma fields_no_iff en ct fs s e :
  (exists n s', p_fields en ct (inst n fs) s = (OErr e, s')) <->
  exists k l t e0, nth_error fs k = Some (l, t) /\ seq_no (tys fs) s k e0 /\
    e = chained [context en ct l] e0.
Proof.
  split.
  - intros (n & H). apply fields_err in H as (k & l & p & e0 & H1 & H2 & ->).
    rewrite inst_beh in H2. unfold inst in H1. rewrite nth_error_map in H1.
    destruct (nth_error fs k) as [[l' t]|] eqn:Ek; [|discriminate]. injection H1 as -> <-.
    exists k, l, t, e0. split; [exact Ek|]. split; [|reflexivity].
    eapply seq_no_mono; [apply inst_le|exact H2].
  - intros (k & l & t & e0 & H1 & H2 & ->). apply seq_no_compact in H2 as (n & H2). exists n.
    apply fields_err. exists k, l, (pty E n t), e0. split; [|split; [|reflexivity]].
    + unfold inst. rewrite nth_error_map, H1. reflexivity.
    + rewrite inst_beh. exact H2.
Qed.
Lemma fields_mono_ok en ct fs n m s o s' : n <= m -> o <> ODiverge ->
  p_fields en ct (inst n fs) s = (o, s') -> p_fields en ct (inst m fs) s = (o, s').
Proof.
  intros Hnm Ho H.
  destruct (le_fields en ct (inst n fs) (inst m fs)) with (s := s) as [H1|H1].
  - apply Forall2_map_fields. intro. apply le_pty. exact Hnm.
  - rewrite H in H1. cbn in H1. contradiction.
  - congruence.
Qed.

Lemma struct_yes i c : E i = DStruct c -> forall s v s',
  yes (tbeh E (TyRef i)) s v s' <-> exists vs, v = VStruct vs /\ seq_yes (tys (c_fields c)) s vs s'.
Proof.
  intros Hi s v s'. rewrite tbeh_yes_layer. cbn [p_layer]. rewrite Hi. cbn [p_def]. split.
  - intros (n & H). apply pmap_ok in H as (vs & H & ->). exists vs. split; [reflexivity|].
    apply (fields_yes_iff [] (c_name c)). exists n. exact H.
  - intros (vs & -> & H). apply (fields_yes_iff [] (c_name c)) in H as (n & H). exists n.
    apply pmap_ok. exists vs. split; [exact H|reflexivity].
Qed.
Lemma struct_no i c : E i = DStruct c -> forall s e,
  no (tbeh E (TyRef i)) s e <->
  exists k l t e0, nth_error (c_fields c) k = Some (l, t) /\ seq_no (tys (c_fields c)) s k e0 /\
    e = chained [Hop None (c_name c) l] e0.
Proof.
  intros Hi s e. rewrite tbeh_no_layer. rewrite <- (fields_no_iff [] (c_name c)). cbn [of_parser no p_layer]. rewrite Hi. cbn [p_def].
  split; intros (n & s' & H); exists n, s'; apply (pmap_err VStruct); exact H.
Qed.

(** the constructor [c] of the enum fails from [s] with error [e] *)
Definition ctor_no (en : text) (c : ctor) (s : pstate) (e : error) : Prop :=
  exists k l t e0, nth_error (c_fields c) k = Some (l, t) /\ seq_no (tys (c_fields c)) s k e0 /\
    e = chained [context en (c_name c) l] e0.

Definition insts n cs := map (fun c => (c_name c, inst n (c_fields c))) cs.
Lemma insts_lawful en n cs : Forall (fun v => lawful (vparser en v)) (insts n cs).
Proof.
  apply Forall_map, Forall_forall. intros c _. apply lawful_fields. apply Forall_map, Forall_forall.
  intros [l t] _. apply lawful_pty.
Qed.

Lemma enum_yes i en cs : E i = DEnum en cs -> forall s v s',
  yes (tbeh E (TyRef i)) s v s' <->
  exists k vs c, v = VVariant k vs /\ nth_error cs k = Some c /\ seq_yes (tys (c_fields c)) s vs s' /\
    forall j d, j < k -> nth_error cs j = Some d -> exists e, ctor_no en d s e.
Proof.
  intros Hi s v s'. rewrite tbeh_yes_layer. cbn [p_layer]. rewrite Hi. cbn [p_def]. split.
  - intros (n & H). apply pmap_ok in H as ([k vs] & H & ->).
    apply (variants_ok en (insts n cs) (insts_lawful en n cs)) in H as (k' & w & -> & H1 & H2 & H3).
    cbn [Nat.add]. unfold insts in H1. rewrite nth_error_map in H1.
    destruct (nth_error cs k') as [c|] eqn:Ec; [|discriminate]. injection H1 as <-.
    exists k', vs, c. split; [reflexivity|]. split; [exact Ec|]. split.
    + apply (fields_yes_iff en (c_name c)). exists n. exact H2.
    + intros j d Hj Hd. destruct (H3 j (c_name d, inst n (c_fields d)) Hj) as (e & s1 & He).
      { unfold insts. rewrite nth_error_map, Hd. reflexivity. }
      exists e. apply fields_no_iff. exists n, s1. exact He.
  - intros (k & vs & c & -> & Hc & Hy & Hpre).
    apply (fields_yes_iff en (c_name c)) in Hy as (n & Hy).
    assert (HN : exists m, forall j d, j < k -> nth_error cs j = Some d ->
              exists e s1, p_fields en (c_name d) (inst m (c_fields d)) s = (OErr e, s1)).
    { clear Hy Hc. revert Hpre. induction k as [|k IH]; intro Hpre; [exists 0; intros; lia|].
      destruct IH as (m & IH); [intros; apply (Hpre j); [lia|assumption]|].
      destruct (nth_error cs k) as [d|] eqn:Ed.
      - destruct (Hpre k d) as (e & He); [lia|exact Ed|]. apply fields_no_iff in He as (m2 & s1 & He).
        exists (m + m2). intros j d' Hj Hd'. destruct (Nat.eq_dec j k) as [->|].
        + rewrite Ed in Hd'. injection Hd' as <-. exists e, s1. eapply fields_mono_ok; [|discriminate|exact He]. lia.
        + destruct (IH j d') as (e' & s1' & He'); [lia|exact Hd'|]. exists e', s1'. eapply fields_mono_ok; [|discriminate|exact He']. lia.
      - exists m. intros j d' Hj Hd'. destruct (Nat.eq_dec j k) as [->|]; [congruence|]. apply (IH j); [lia|exact Hd']. }
    destruct HN as (m & HN). exists (n + m). apply pmap_ok. exists (k, vs). split; [|reflexivity].
    apply (variants_ok en (insts (n + m) cs) (insts_lawful en (n + m) cs)).
    exists k, (c_name c, inst (n + m) (c_fields c)). split; [reflexivity|].
    split; [unfold insts; rewrite nth_error_map, Hc; reflexivity|]. split.
    + eapply fields_mono_ok; [|discriminate|exact Hy]. lia.
    + intros j w Hj Hw. unfold insts in Hw. rewrite nth_error_map in Hw.
      destruct (nth_error cs j) as [d|] eqn:Ed; [|discriminate]. injection Hw as <-.
      destruct (HN j d Hj Ed) as (e & s1 & He). exists e, s1. eapply fields_mono_ok; [|discriminate|exact He]. lia.
Qed.

Lemma enum_no i en cs : E i = DEnum en cs -> forall s e,
  no (tbeh E (TyRef i)) s e <->
  exists errs, Forall2 (fun c x => ctor_no en c s x) cs errs /\
    (reported errs e \/
     cs = [] /\ e = error_at s (T "parsing an empty choice (enum) always fails")).
Proof.
  intros Hi s e. rewrite tbeh_no_layer. cbn [of_parser no p_layer]. rewrite Hi. cbn [p_def]. split.
  - intros (n & s' & H). apply pmap_err in H.
    apply (variants_err en (insts n cs) (insts_lawful en n cs)) in H as (-> & errs & H1 & H2).
    exists errs. split.
    + clear H2. unfold insts in H1. revert errs H1. induction cs as [|c cs IH]; intros errs H1; inversion H1; subst; constructor.
      * apply fields_no_iff. destruct H2 as (s1 & H2). exists n, s1. exact H2.
      * destruct (E i) as [|en' cs'] eqn:Ei; [discriminate|]. injection Hi as -> ->. clear -H4 U.
        revert l' H4. induction cs as [|d cs IH]; intros l' H4; inversion H4; subst; constructor.
        -- apply fields_no_iff. destruct H1 as (s1 & H1). exists n, s1. exact H1.
        -- apply IH. assumption.
    + destruct errs as [|x errs].
      * right. inversion H1. destruct cs; [|discriminate]. split; [reflexivity|]. exact H2.
      * left. destruct (fold_reported0 x errs) as (r & Hr & Hrep). rewrite Hr in H2. subst. exact Hrep.
  - intros (errs & H1 & H2).
    assert (HN : exists n, Forall2 (fun v x => exists s1, vparser en v s = (OErr x, s1)) (insts n cs) errs).
    { clear H2 Hi. induction H1 as [|c x cs errs Hc Hcs (n & IH)]; [exists 0; constructor|].
      apply fields_no_iff in Hc as (m & s1 & Hc). exists (n + m). cbn. constructor.
      - exists s1. eapply fields_mono_ok; [|discriminate|exact Hc]. lia.
      - clear -IH. revert errs IH. induction cs as [|d cs IHc]; intros errs IH; inversion IH; subst; constructor.
        + destruct H1 as (s2 & H1). exists s2. eapply fields_mono_ok; [|discriminate|exact H1]. lia.
        + apply IHc. assumption. }
    destruct HN as (n & HN).
    pose proof (variants_err_conv en (insts n cs) (insts_lawful en n cs) s errs HN 0 None) as HV.
    exists n, s. apply pmap_err. unfold p_enum. fold (insts n cs). fold (inst n).
    change (map (fun c => (c_name c, map (fun '(l, t) => (l, pty E n t)) (c_fields c))) cs) with (insts n cs).
    rewrite HV. f_equal. f_equal.
    destruct errs as [|x errs].
    + inversion H1; subst. destruct H2 as [(i0 & H2 & _)|(_ & ->)]; [destruct i0; discriminate|]. reflexivity.
    + destruct (fold_reported0 x errs) as (r & Hr & Hrep). rewrite Hr.
      destruct H2 as [H2|(-> & _)]; [|inversion H1]. eapply reported_unique; eassumption.
Qed.

(** ** The generic nodes. *)
Lemma maybe_yes a b s v s' :
  yes (tbeh E (TyMaybe a b)) s v s' <->
  (exists e, v = VNothing /\ s' = s /\ no (tbeh E a) s e) \/
  (exists x w s1, v = VJust x w /\ yes (tbeh E a) s x s1 /\ yes (tbeh E b) s1 w s').
Proof.
  rewrite tbeh_yes_layer. cbn [p_layer]. split.
  - intros (n & H). apply pmap_ok in H as (r & H & ->). apply maybe_ok in H; [|apply lawful_pty].
    destruct r as [[x w]|].
    + destruct H as (s1 & H1 & H2). right. exists x, w, s1. split; [reflexivity|]. split; eapply pb_tbeh; eassumption.
    + destruct H as ((e & H) & ->). left. exists e. repeat split. eapply pb_tbeh; exact H.
  - intros [(e & -> & -> & (n & s1 & H))|(x & w & s1 & -> & (n & H1) & (m & H2))].
    + exists n. apply pmap_ok. exists None. split; [|reflexivity]. apply maybe_ok; [apply lawful_pty|].
      split; [|reflexivity]. exists e, s1. exact H.
    + exists (n + m). apply pmap_ok. exists (Some (x, w)). split; [|reflexivity]. apply maybe_ok; [apply lawful_pty|].
      exists s1. split; [apply (pb_le n); [lia|]; exact H1|apply (pb_le m); [lia|]; exact H2].
Qed.
Lemma maybe_no a b s e :
  no (tbeh E (TyMaybe a b)) s e <-> exists x s1, yes (tbeh E a) s x s1 /\ no (tbeh E b) s1 e.
Proof.
  rewrite tbeh_no_layer. cbn [p_layer]. split.
  - intros (n & s' & H). apply pmap_err in H. destruct (proj1 (maybe_err (pty E n a) (pty E n b) s e (lawful_pty _ _ _)) (ex_intro _ s' H)) as (x & s1 & H1 & H2).
    exists x, s1. split; eapply pb_tbeh; eassumption.
  - intros (x & s1 & (n & H1) & (m & s2 & H2)). exists (n + m).
    destruct (proj2 (maybe_err (pty E (n+m) a) (pty E (n+m) b) s e (lawful_pty _ _ _))) as (s' & H).
    { exists x, s1. split; [apply (pb_le n); [lia|]; exact H1|apply (pb_le m); [lia|]; exists s2; exact H2]. }
    exists s'. apply pmap_err. exact H.
Qed.

Lemma either_yes a b s v s' :
  yes (tbeh E (TyEither a b)) s v s' <->
  (exists w, v = VLeft w /\ yes (tbeh E a) s w s') \/
  (exists e w, v = VRight w /\ no (tbeh E a) s e /\ yes (tbeh E b) s w s').
Proof.
  rewrite tbeh_yes_layer. cbn [p_layer]. split.
  - intros (n & H). apply pmap_ok in H as (r & H & ->). apply either_ok in H; [|apply lawful_pty..].
    destruct r as [w|w].
    + left. exists w. split; [reflexivity|]. eapply pb_tbeh; exact H.
    + destruct H as ((e & H1) & H2). right. exists e, w. split; [reflexivity|]. split; eapply pb_tbeh; eassumption.
  - intros [(w & -> & (n & H))|(e & w & -> & (n & s1 & H1) & (m & H2))].
    + exists n. apply pmap_ok. exists (ELeft w). split; [|reflexivity]. apply either_ok; [apply lawful_pty..|]. exact H.
    + exists (n + m). apply pmap_ok. exists (ERight w). split; [|reflexivity]. apply either_ok; [apply lawful_pty..|].
      split; [exists e; apply (pb_le n); [lia|]; exists s1; exact H1|apply (pb_le m); [lia|]; exact H2].
Qed.
Lemma either_no a b s e :
  no (tbeh E (TyEither a b)) s e <->
  exists e1 e2, no (tbeh E a) s e1 /\ no (tbeh E b) s e2 /\ reported [e1; e2] e.
Proof.
  rewrite tbeh_no_layer. cbn [p_layer]. split.
  - intros (n & s' & H). apply pmap_err in H. destruct (proj1 (either_err (pty E n a) (pty E n b) s e (lawful_pty _ _ _) (lawful_pty _ _ _)) (ex_intro _ s' H)) as (e1 & e2 & H1 & H2 & H3).
    exists e1, e2. split; [|split; [|exact H3]]; eapply pb_tbeh; eassumption.
  - intros (e1 & e2 & (n & s1 & H1) & (m & s2 & H2) & H3). exists (n + m).
    destruct (proj2 (either_err (pty E (n+m) a) (pty E (n+m) b) s e (lawful_pty _ _ _) (lawful_pty _ _ _))) as (s' & H).
    { exists e1, e2. split; [|split; [|exact H3]]; [apply (pb_le n); [lia|]; exists s1; exact H1|apply (pb_le m); [lia|]; exists s2; exact H2]. }
    exists s'. apply pmap_err. exact H.
Qed.

Lemma any_yes a s v s' :
  yes (tbeh E (TyAny a)) s v s' <-> exists l, v = VList l /\ run_yes (tbeh E a) s l s'.
Proof.
  rewrite tbeh_yes_layer. cbn [p_layer]. split.
  - intros (n & H). apply pmap_ok in H as (r & H & ->). apply any_loop_ok in H as (l & -> & H); [|apply lawful_pty].
    exists l. split; [reflexivity|]. eapply run_yes_mono; [apply pb_tbeh|exact H].
  - intros (l & -> & H). apply run_compact in H as (n & H).
    exists (n + S (List.length l)). apply pmap_ok. exists l. split; [|reflexivity].
    assert (H' : run_yes (pb (n + S (List.length l)) a) s l s') by (eapply run_yes_mono; [apply pb_le|exact H]; lia).
    pose proof (any_loop_ok_conv _ (lawful_pty E _ a) _ _ _ H' []) as Hc. cbn [rev app] in Hc.
    destruct (le_any (S (List.length l)) (n + S (List.length l)) _ _ ltac:(lia) (le_refl (pty E (n + S (List.length l)) a)) s) as [Hd|Hd].
    + unfold p_any in Hd. rewrite Hc in Hd. discriminate.
    + unfold p_any in *. congruence.
Qed.
Lemma any_no a s e : ~ no (tbeh E (TyAny a)) s e.
Proof.
  rewrite tbeh_no_layer. intros (n & s' & H). cbn [p_layer] in H. apply pmap_err in H.
  eapply any_never_err. exact H.
Qed.

Lemma separated_run a p s x s' :
  (exists n, p_separated n (pty E n a) (pty E n p) s = (OOk x, s')) <->
  exists v s1 l, yes (tbeh E a) s v s1 /\ tail_yes (tbeh E a) (tbeh E p) s1 l s' /\
    x = Pn (fst (pairs_of v l)) (Some (snd (pairs_of v l))).
Proof.
  split.
  - intros (n & H). apply bind_ok in H as (v & s1 & H1 & H2).
    apply separated_loop_ok in H2 as (l & H2 & ->); [|apply lawful_pty].
    exists v, s1, l. split; [exists n; exact H1|]. split; [|reflexivity].
    eapply tail_yes_mono; [apply pb_tbeh|apply pb_tbeh|exact H2].
  - intros (v & s1 & l & (n & H1) & H2 & ->). apply tail_compact in H2 as (m & H2).
    set (N := n + m + S (List.length l)). exists N. apply bind_ok. exists v, s1.
    split; [apply (pb_le n N); [lia|exact H1]|].
    assert (H' : tail_yes (pb N a) (pb N p) s1 l s') by (eapply tail_yes_mono; [apply pb_le|apply pb_le|exact H2]; lia).
    pose proof (separated_loop_ok_conv _ _ (lawful_pty E _ p) _ _ _ H' [] v) as Hc. cbn [rev app] in Hc.
    destruct (le_separated_loop (S (List.length l)) N _ _ _ _ ltac:(lia) (le_refl (pty E N a)) (le_refl (pty E N p)) [] v s1) as [Hd|Hd].
    + rewrite Hc in Hd. discriminate.
    + congruence.
Qed.
Lemma separated_run_no a p s e :
  (exists n, no (of_parser (p_separated n (pty E n a) (pty E n p))) s e) <->
  no (tbeh E a) s e \/
  exists v s1, yes (tbeh E a) s v s1 /\ tail_no (tbeh E a) (tbeh E p) s1 e.
Proof.
  split.
  - intros (n & s' & H). apply bind_err in H as [H|(v & s1 & H1 & H2)].
    + left. exists n, s'. exact H.
    + right. exists v, s1. split; [exists n; exact H1|].
      apply separated_loop_err in H2; [|apply lawful_pty].
      eapply tail_no_mono; [apply pb_tbeh|apply pb_tbeh|exact H2].
  - intros [(n & s' & H)|(v & s1 & (n & H1) & H2)].
    + exists n, s'. apply bind_err. left. exact H.
    + apply tail_no_compact in H2 as (m & H2).
      destruct (separated_loop_err_conv _ _ (lawful_pty E _ p) _ _ H2) as (k & Hk). destruct (Hk [] v) as (s' & Hk').
      exists (n + m + k), s'. apply bind_err. right. exists v, s1. split; [apply (pb_le n); [lia|exact H1]|].
      destruct (le_separated_loop k (n + m + k) _ _ _ _ ltac:(lia) (le_pty E m (n+m+k) a ltac:(lia)) (le_pty E m (n+m+k) p ltac:(lia)) [] v s1) as [Hd|Hd].
      * rewrite Hk' in Hd. discriminate.
      * congruence.
Qed.
Lemma separated_yes a p s v s' :
  yes (tbeh E (TySeparated a p)) s v s' <->
  exists x s1 l, yes (tbeh E a) s x s1 /\ tail_yes (tbeh E a) (tbeh E p) s1 l s' /\
    v = VPunct (fst (pairs_of x l)) (Some (snd (pairs_of x l))).
Proof.
  rewrite tbeh_yes_layer. cbn [p_layer]. split.
  - intros (n & H). apply pmap_ok in H as (r & H & ->).
    destruct (proj1 (separated_run a p s r s') (ex_intro _ n H)) as (x & s1 & l & H1 & H2 & ->). eauto 8.
  - intros (x & s1 & l & H1 & H2 & ->).
    destruct (proj2 (separated_run a p s _ s') (ex_intro _ x (ex_intro _ s1 (ex_intro _ l (conj H1 (conj H2 eq_refl)))))) as (n & H).
    exists n. apply pmap_ok. eexists. split; [exact H|reflexivity].
Qed.
Lemma separated_no a p s e :
  no (tbeh E (TySeparated a p)) s e <->
  no (tbeh E a) s e \/ exists x s1, yes (tbeh E a) s x s1 /\ tail_no (tbeh E a) (tbeh E p) s1 e.
Proof.
  rewrite tbeh_no_layer, <- separated_run_no. cbn [p_layer].
  split; intros (n & s' & H); exists n, s'.
  - apply pmap_err in H. exact H.
  - apply pmap_err. exact H.
Qed.

Lemma punctuated_yes a p s v s' :
  yes (tbeh E (TyPunctuated a p)) s v s' <->
  exists l o, v = VPunct l o /\ fill_yes (tbeh E a) (tbeh E p) s l o s'.
Proof.
  rewrite tbeh_yes_layer. cbn [p_layer]. split.
  - intros (n & H). apply pmap_ok in H as (r & H & ->). apply terminated_loop_ok in H as (l & o & H & ->).
    exists l, o. split; [reflexivity|]. eapply fill_yes_mono; [apply pb_tbeh|apply pb_tbeh|exact H].
  - intros (l & o & -> & H). apply fill_compact in H as (n & H).
    set (N := n + S (List.length l)). exists N. apply pmap_ok. exists (Pn l o). split; [|reflexivity].
    assert (H' : fill_yes (pb N a) (pb N p) s l o s') by (eapply fill_yes_mono; [apply pb_le|apply pb_le|exact H]; lia).
    pose proof (terminated_loop_ok_conv _ _ _ _ _ _ H' []) as Hc. cbn [rev app] in Hc.
    destruct (le_terminated (S (List.length l)) N _ _ _ _ ltac:(lia) (le_refl (pty E N a)) (le_refl (pty E N p)) s) as [Hd|Hd];
      unfold p_punctuated, p_terminated in *.
    + rewrite Hc in Hd. discriminate.
    + congruence.
Qed.
Lemma punctuated_no a p s e :
  no (tbeh E (TyPunctuated a p)) s e <-> fill_no (tbeh E a) (tbeh E p) s e.
Proof.
  rewrite tbeh_no_layer. cbn [p_layer]. split.
  - intros (n & s' & H). apply pmap_err in H. apply terminated_loop_err in H.
    eapply fill_no_mono; [apply pb_tbeh|apply pb_tbeh|exact H].
  - intro H. apply fill_no_compact in H as (n & H).
    destruct (terminated_loop_err_conv _ _ _ _ H) as (k & Hk). destruct (Hk []) as (s' & Hk').
    exists (n + k), s'. apply pmap_err.
    destruct (le_terminated k (n + k) _ _ _ _ ltac:(lia) (le_pty E n (n+k) a ltac:(lia)) (le_pty E n (n+k) p ltac:(lia)) s) as [Hd|Hd];
      unfold p_punctuated, p_terminated in *.
    + rewrite Hk' in Hd. discriminate.
    + congruence.
Qed.

Lemma group_yes d t s v s' : d <> DNone ->
  yes (tbeh E (TyGroup d t)) s v s' <->
  exists sp w inner r si, v = VGroup d sp w /\
    ignore_none (ps_rest s) = TGroup d sp inner :: r /\
    yes (tbeh E t) (PS inner (close_span sp) (ps_unexp s)) w si /\
    s' = PS r (ps_scope s) (drop_unexp (ps_unexp si) (ps_rest si)).
Proof.
  intro Hd. rewrite tbeh_yes_layer. split.
  - intros (n & H).
    assert (H' : pmap (fun x => VGroup d (fst x) (snd x)) (p_group d (pty E n t)) s = (OOk v, s'))
      by (destruct d; try exact H; contradiction).
    apply pmap_ok in H' as ([sp w] & H' & ->). apply group_ok in H' as (inner & r & si & H1 & H2 & ->).
    exists sp, w, inner, r, si. split; [reflexivity|]. split; [exact H1|]. split; [exists n; exact H2|reflexivity].
  - intros (sp & w & inner & r & si & -> & H1 & (n & H2) & ->). exists n.
    assert (H' : pmap (fun x => VGroup d (fst x) (snd x)) (p_group d (pty E n t)) s =
                 (OOk (VGroup d sp w), PS r (ps_scope s) (drop_unexp (ps_unexp si) (ps_rest si)))).
    { apply pmap_ok. exists (sp, w). split; [|reflexivity]. apply group_ok. exists inner, r, si. auto. }
    destruct d; try exact H'; contradiction.
Qed.
Lemma group_no d t s e : d <> DNone ->
  no (tbeh E (TyGroup d t)) s e <->
  (exists sp inner r, ignore_none (ps_rest s) = TGroup d sp inner :: r /\
     no (tbeh E t) (PS inner (close_span sp) (ps_unexp s)) e) \/
  ((forall sp inner r, ignore_none (ps_rest s) <> TGroup d sp inner :: r) /\
   e = error_at s (delim_msg d)).
Proof.
  intro Hd. rewrite tbeh_no_layer. split.
  - intros (n & s' & H).
    assert (H' : pmap (fun x => VGroup d (fst x) (snd x)) (p_group d (pty E n t)) s = (OErr e, s'))
      by (destruct d; try exact H; contradiction).
    apply pmap_err in H'. destruct (proj1 (group_err d (pty E n t) s e) (ex_intro _ s' H')) as [(sp & inner & r & H1 & H2)|H1].
    + left. exists sp, inner, r. split; [exact H1|]. eapply pb_tbeh; exact H2.
    + right. exact H1.
  - intro H.
    assert (HH : exists n, no (of_parser (p_group d (pty E n t))) s e).
    { destruct H as [(sp & inner & r & H1 & (n & s1 & H2))|H].
      - exists n. apply group_err. left. exists sp, inner, r. split; [exact H1|]. exists s1. exact H2.
      - exists 0. apply group_err. right. exact H. }
    destruct HH as (n & s' & HH). exists n, s'.
    assert (H' : pmap (fun x => VGroup d (fst x) (snd x)) (p_group d (pty E n t)) s = (OErr e, s')) by (apply pmap_err; exact HH).
    destruct d; try exact H'; contradiction.
Qed.
Lemma box_yes t s v s' : yes (tbeh E (TyBox t)) s v s' <-> yes (tbeh E t) s v s'.
Proof.
  rewrite tbeh_yes_layer. cbn [p_layer]. reflexivity.
Qed.
Lemma box_no t s e : no (tbeh E (TyBox t)) s e <-> no (tbeh E t) s e.
Proof. rewrite tbeh_no_layer. cbn [p_layer]. reflexivity. Qed.
End G.
