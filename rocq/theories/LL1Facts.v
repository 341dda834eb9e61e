(** * LL1Facts: grammars decided by the next token read back what they print (C10). *)
From Verif Require Import Base Float Literal Syn Ast Derive Grammar Spec LitSpec Reprint SynFacts Lawful Mono Combinators GrammarBeh
  Assoc ManyFacts PropParse LiteralFacts LitDenote Sound Term TermCheck NoPanic PropLit Typed LL1.
Local Open Scope nat_scope.

Section Facts.
Context {U : unicode}.
Variable E : env.

(** ** what a parser accepts *)
Section Acc.
Variable an : nat -> bool.
Variable ac : nat -> list head.
Hypothesis Han : forall i, anull_def an (E i) = true -> an i = true.
Hypothesis Hac : forall i, incl (acc_def an ac (E i)) (ac i).
Notation anull := (anull an). Notation acc := (acc an ac).
Definition begun (A : list head) (nul : bool) (s s' : pstate) : Prop :=
  (exists a, In a A /\ starts a (ps_rest s)) \/ (nul = true /\ ps_rest s' = ps_rest s).
Lemma begun_one a A nul s s' : In a A -> starts a (ps_rest s) -> begun A nul s s'.
Proof. intros. left. eauto. Qed.
Lemma begun_incl A B m n s s' : incl A B -> (m = true -> n = true) -> begun A m s s' -> begun B n s s'.
Proof. intros HA Hm [(a & Ha & Hs)|(H & Hr)]; [left; eauto|right; auto]. Qed.
(** one after the other *)
Lemma begun_seq A m s s1 B n s2 : begun A m s s1 -> begun B n s1 s2 -> begun (A ++ (if m then B else [])) (m && n) s s2.
Proof.
  intros [(a & Ha & Hs)|(-> & Hr)] HB; [left; exists a; split; [apply in_or_app; auto|exact Hs]|].
  destruct HB as [(a & Ha & Hs)|(-> & Hr2)].
  - left. exists a. split; [apply in_or_app; auto|]. rewrite <- Hr. exact Hs.
  - right. split; [reflexivity|congruence].
Qed.
Lemma begun_first A m s s1 s2 B : begun A m s s1 -> (m = true -> ps_rest s1 = ps_rest s -> begun (A ++ B) m s1 s2) -> begun (A ++ (if m then B else [])) m s s2.
Proof.
  intros [(a & Ha & Hs)|(-> & Hr)] H; [left; exists a; split; [apply in_or_app; auto|exact Hs]|].
  destruct (H eq_refl Hr) as [(a & Ha & Hs)|(_ & Hr2)]; [left; exists a; rewrite Hr in Hs; eauto|right; split; [reflexivity|congruence]].
Qed.
Lemma lit_begun s l sp s' : p_lit s = (OOk (l, sp), s') ->
  match l with
  | SLBool b => starts (HWord (if b then T "true" else T "false")) (ps_rest s)
  | SLTok k => starts (HLit (kd_of k)) (ps_rest s) \/ starts (HNeg (kd_of k)) (ps_rest s)
  end.
Proof.
  intro H. apply p_lit_inv in H as (r & -> & [(b & Hb & ->)|[(repr & k & Hi & Hk & ->)|(g & sp1 & sp2 & repr & r1 & k & Hi & Hi2 & _ & Hk & ->)]]).
  - cbn. eauto.
  - left. cbn. eauto 7.
  - right. cbn. eauto 12.
Qed.
Lemma neg_kinds repr k : lit_num (45%N :: repr) = Some k -> kd_of k = KdInt \/ kd_of k = KdFloat.
Proof.
  unfold lit_num. destruct (parse_lit_int _) as [(d & x)|]; [|destruct (parse_lit_float _) as [(d & x)|]; [|discriminate]];
    intro H; repeat (match type of H with context [if ?b then _ else _] => destruct b end); try discriminate; injection H as <-; auto.
Qed.
Lemma neg_digits repr ds : lit_num (45%N :: repr) = Some (KInt ds) -> exists d, ds = 45%N :: d.
Proof.
  intro H. destruct repr as [|c r].
  - discriminate.
  - destruct (N.eqb_spec c 45) as [->|Hc].
    + exfalso. revert H. unfold lit_num, parse_lit_int, parse_lit_float. cbn. destruct r; discriminate.
    + rewrite lit_num_neg in H by exact Hc. destruct (lit_new (c :: r)) as [[]|]; try discriminate. cbn in H. injection H as <-. eauto.
Qed.
Lemma read_u64_neg_none d : read_u64 (45%N :: d) = None.
Proof. reflexivity. Qed.
Lemma lit_of_litty k s l sp s' : p_litty k s = (OOk (l, sp), s') -> k = litty_of l.
Proof.
  destruct k; cbn [p_litty]; intro H; apply bind_ok in H as (y & s1 & H1 & H2); cbn in H2.
  all: try (injection H2; intros; subst; reflexivity).
  - unfold int_try_from in H2. destruct (read_i64 _); [|discriminate]. injection H2; intros; subst; reflexivity.
  - unfold uint_try_from in H2. destruct (read_u64 _); [|discriminate]. injection H2; intros; subst; reflexivity.
  - unfold float_try_from in H2. destruct (float_read _); [|discriminate]. injection H2; intros; subst; reflexivity.
Qed.
Lemma conv_begun l sl s sp s' : p_lit s = (OOk (sl, sp), s') -> conv l sl -> exists a, In a (lit_heads (litty_of l)) /\ starts a (ps_rest s).
Proof.
  intros H Hc. apply p_lit_inv in H as (r & -> & [(b & Hb & ->)|[(repr & k & Hi & Hk & ->)|(g & sp1 & sp2 & repr & r1 & k & Hi & Hi2 & _ & Hk & ->)]]).
  - assert (l = LBool b) as ->. { destruct l; cbn in Hc; try discriminate; try (destruct Hc as (? & Hc & _); discriminate). congruence. }
    destruct b; [exists (HWord (T "true"))|exists (HWord (T "false"))]; cbn; eauto 6.
  - exists (HLit (kd_of k)). split; [|cbn; eauto 8].
    destruct l; cbn in Hc; try discriminate; try (destruct Hc as (? & Hc & _)); injection Hc as ->; cbn; auto.
  - pose proof (neg_kinds _ _ Hk) as Hkd. exists (HNeg (kd_of k)). split; [|cbn; eauto 12].
    destruct l; cbn in Hc; try discriminate; try (destruct Hc as (? & Hc & Hrd)); injection Hc as ->; cbn in *; try (destruct Hkd; discriminate); auto.
    destruct (neg_digits _ _ Hk) as (d & ->). rewrite read_u64_neg_none in Hrd. discriminate.
Qed.
Lemma heads_in_any k : incl (lit_heads k) any_lit_heads.
Proof. destruct k; intros a Ha; cbn in Ha; intuition subst; cbn; auto 12. Qed.
Lemma fields_begun n en ct fs : (forall t s v s', pty E n t s = (OOk v, s') -> begun (acc t) (anull t) s s') ->
  forall s vs s', p_fields en ct (map (fun '(l, t) => (l, pty E n t)) fs) s = (OOk vs, s') ->
  begun (acc_fields an ac fs) (anull_fields an fs) s s'.
Proof.
  intro IH. induction fs as [|(l, t) fs IHf]; intros s vs s' H; cbn [map p_fields] in H.
  - injection H as <- <-. right. auto.
  - apply bind_ok in H as (v & s1 & H1 & H2). apply map_err_ok in H1. apply bind_ok in H2 as (ws & s2 & H2 & H3). injection H3 as _ <-.
    cbn [acc_fields anull_fields forallb snd]. eapply begun_seq; [eapply IH; exact H1|eapply IHf; exact H2].
Qed.
Lemma tail_begun n a b : (forall t s v s', pty E n t s = (OOk v, s') -> begun (acc t) (anull t) s s') ->
  forall s l s', tail_yes (of_parser (pty E n a)) (of_parser (pty E n b)) s l s' -> begun (acc a ++ acc b) true s s'.
Proof.
  intros IH s l s' H. induction H as [s e H|s p s1 v s2 l s3 H1 H2 H IHt]; [right; auto|].
  apply IH in H1. apply IH in H2. destruct H1 as [(x & Hx & Hs)|(_ & Hr)]; [left; exists x; split; [apply in_or_app; auto|exact Hs]|].
  destruct H2 as [(x & Hx & Hs)|(_ & Hr2)]; [left; exists x; split; [apply in_or_app; auto|rewrite <- Hr; exact Hs]|].
  destruct IHt as [(x & Hx & Hs)|(_ & Hr3)]; [left; exists x; split; [exact Hx|rewrite <- Hr, <- Hr2; exact Hs]|right; split; [reflexivity|congruence]].
Qed.
Lemma sep_begun n a b : (forall t s v s', pty E n t s = (OOk v, s') -> begun (acc t) (anull t) s s') ->
  forall s x s', p_separated n (pty E n a) (pty E n b) s = (OOk x, s') -> begun (acc a ++ (if anull a then acc b else [])) (anull a) s s'.
Proof.
  intros IH s x s' H. apply bind_ok in H as (v & s1 & H1 & H2). apply IH in H1. apply separated_loop_ok in H2 as (l & H2 & _); [|apply lawful_pty].
  apply (tail_begun n a b IH) in H2. eapply begun_first; [exact H1|]. intros Ha _. rewrite Ha. exact H2.
Qed.
Theorem accepts_begun n : forall t s v s', pty E n t s = (OOk v, s') -> begun (acc t) (anull t) s s'.
Proof.
  induction n as [|n IH]; intros t s v s' H; [discriminate|]. rewrite pty_S in H.
  destruct t; cbn [p_layer] in H; cbn [LL1.acc LL1.anull];
    try (apply pmap_ok in H as (x & H & ->)).
  - eapply begun_one; [left; reflexivity|]. unfold p_ident in H. destruct (ignore_none (ps_rest s)) as [|[n0 sp0| | |] r] eqn:Ei; try discriminate.
    destruct (text_mem n0 _) eqn:Em; [discriminate|]. cbn [starts]. exists n0, sp0, r. split; [exact Ei|]. rewrite <- text_mem_false. exact Em.
  - apply bind_ok in H as (y & s1 & H1 & H2). unfold p_ident_any in H1. destruct (ignore_none (ps_rest s)) as [|[n0 sp0| | |] r] eqn:Ei; try discriminate.
    injection H1 as <- <-. destruct (text_mem _ _) eqn:Em; [discriminate|]. eapply begun_one; [left; reflexivity|]. cbn [starts]. exists n0, sp0, r. split; [exact Ei|]. rewrite <- text_mem_false. exact Em.
  - apply bind_ok in H as (y & s1 & H1 & H2). unfold p_ident_any in H1. destruct (ignore_none (ps_rest s)) as [|[n0 sp0| | |] r] eqn:Ei; try discriminate.
    injection H1 as <- <-. destruct (text_eqb _ _) eqn:Em; [|discriminate]. apply text_eqb_eq in Em. cbn in Em. subst n0. eapply begun_one; [left; reflexivity|]. cbn. eauto.
  - unfold p_token_kw in H. destruct (ignore_none (ps_rest s)) as [|[n0 sp0| | |] r] eqn:Ei; try discriminate. destruct (text_eqb n0 _) eqn:Em; [|discriminate].
    apply text_eqb_eq in Em. subst n0. eapply begun_one; [left; reflexivity|]. cbn. eauto.
  - unfold p_token in H. destruct (take_op op (ps_rest s)) as [x1|] eqn:Et; [|discriminate]. eapply begun_one; [left; reflexivity|]. cbn. eauto.
  - destruct x as (l & sp). cbn [fst snd] in *. pose proof (lit_of_litty _ _ _ _ _ H) as ->. apply p_litty_inv in H as (sl & Hp & Hc). left. eapply conv_begun; eassumption.
  - destruct x as (l & sp). cbn [fst snd] in *. apply p_any_lit_inv in H as (sl & Hp & Hc). left. destruct (conv_begun _ _ _ _ _ Hp Hc) as (a & Ha & Hs). exists a. split; [|exact Hs]. eapply heads_in_any; exact Ha.
  - injection H as _ <-. right. auto.
  - unfold p_eof in H. destruct (is_empty s) eqn:Ee; [|discriminate]. eapply begun_one; [left; reflexivity|]. apply is_empty_true. exact Ee.
  - unfold p_not_eof in H. destruct (is_empty s); [discriminate|]. injection H as _ <-. right. auto.
  - apply maybe_ok in H; [|apply lawful_pty]. destruct x as [(x & w)|].
    + destruct H as (s1 & H1 & H2). apply IH in H1. apply IH in H2. pose proof (begun_seq _ _ _ _ _ _ _ H1 H2) as G. eapply begun_incl; [apply incl_refl| |exact G]. auto.
    + destruct H as (_ & ->). right. auto.
  - destruct x as (sp0, x). apply group_ok in H as (inner & r & si & Hi & _ & ->). eapply begun_one; [left; reflexivity|]. cbn. eauto.
  - destruct x as (sp0, x). apply group_ok in H as (inner & r & si & Hi & _ & ->). eapply begun_one; [left; reflexivity|]. cbn. eauto.
  - destruct x as (sp0, x). apply group_ok in H as (inner & r & si & Hi & _ & ->). eapply begun_one; [left; reflexivity|]. cbn. eauto.
  - apply terminated_loop_ok in H as (l & o & H & _).
    assert (G : begun (HEnd :: acc t1 ++ (if anull t1 then acc t2 else [])) (anull t1) s s').
    { induction H as [s Hs|s v s1 Hs H1 Hr|s v s1 q s2 l o s3 Hs H1 Hr H2 H IHf].
      - left. exists HEnd. split; [left; reflexivity|exact Hs].
      - apply IH in H1. eapply begun_incl; [|intro X; exact X|exact H1]. intros a Ha. right. apply in_or_app. auto.
      - apply IH in H1. apply IH in H2. destruct H1 as [(a & Ha & Hst)|(Hn & Hr1)]; [left; exists a; split; [right; apply in_or_app; auto|exact Hst]|].
        destruct H2 as [(a & Ha & Hst)|(_ & Hr2)]; [left; exists a; rewrite Hn; split; [right; apply in_or_app; auto|rewrite <- Hr1; exact Hst]|].
        destruct IHf as [(a & Ha & Hst)|(_ & Hr3)]; [left; exists a; split; [exact Ha|rewrite <- Hr1, <- Hr2; exact Hst]|right; split; [exact Hn|congruence]]. }
    exact G.
  - eapply sep_begun; eassumption.
  - apply any_loop_ok in H as (r & _ & H); [|apply lawful_pty]. induction H as [s e H|s v s1 vs s2 H1 H IHr]; [right; auto|].
    apply IH in H1. destruct H1 as [(a & Ha & Hst)|(_ & Hr)]; [left; eauto|]. destruct IHr as [(a & Ha & Hst)|(_ & Hr2)]; [left; exists a; split; [exact Ha|rewrite <- Hr; exact Hst]|right; split; [reflexivity|congruence]].
  - apply bind_ok in H as (z & s0 & H & H3). assert (s0 = s') as ->. { destruct (into_first_rest z) as [(? & ?)|]; congruence. } eapply sep_begun; eassumption.
  - apply bind_ok in H as (z & s0 & H & H3). assert (s0 = s') as ->. { destruct (into_last_rest z) as [(? & ?)|]; congruence. } eapply sep_begun; eassumption.
  - apply either_ok in H; [|apply lawful_pty|apply lawful_pty]. destruct x as [x|x].
    + eapply begun_incl; [| |exact (IH _ _ _ _ H)]; [intros a Ha; apply in_or_app; auto|intros ->; reflexivity].
    + destruct H as (_ & H). eapply begun_incl; [| |exact (IH _ _ _ _ H)]; [intros a Ha; apply in_or_app; auto|intros ->; apply orb_true_r].
  - eapply IH; exact H.
  - assert (G : begun (acc_def an ac (E i)) (anull_def an (E i)) s s').
    { clear Hac Han. destruct (E i) as [c|en cs]; cbn [p_def acc_def anull_def] in *.
      - apply pmap_ok in H as (vs & H & ->). eapply fields_begun; eassumption.
      - apply pmap_ok in H as ((k & vs) & H & ->). apply variants_ok in H as (k' & w & -> & H1 & H2 & H3); [|apply insts_lawful].
        rewrite nth_error_map in H1. destruct (nth_error cs k') as [c|] eqn:Ek; [|discriminate]. cbn in H1. injection H1 as <-.
        apply (fields_begun n en (c_name c) (c_fields c) IH) in H2. apply nth_error_In in Ek. eapply begun_incl; [| |exact H2].
        + intros a Ha. apply in_concat. exists (acc_fields an ac (c_fields c)). split; [|exact Ha]. apply in_map_iff. eauto.
        + intro Hn. apply existsb_exists. eauto. }
    eapply begun_incl; [apply Hac|apply Han|exact G].
Qed.

(** ** what a parser refuses *)
Variable term : ty -> bool.
Hypothesis Hterm : forall t, term t = true -> terminates E t.
Lemma decided t s : term t = true -> readable (ps_rest s) -> (exists v s', yes (tbeh E t) s v s') \/ (exists e, no (tbeh E t) s e).
Proof.
  intros Ht Hs. destruct (Hterm t Ht s) as (n & o & s' & Ho & H). specialize (H n (le_n n)).
  pose proof (calm_pty E n t s Hs) as Hc. rewrite H in Hc. cbn in Hc. destruct o as [v|e| |]; try congruence.
  - left. exists v, s', n. exact H.
  - right. exists e, n, s'. exact H.
Qed.
Lemma yes_readable t s v s' : yes (tbeh E t) s v s' -> readable (ps_rest s) -> readable (ps_rest s').
Proof. intros (n & H) Hs. eapply readable_frame; [eapply lawful_pty; exact H|exact Hs]. Qed.
Lemma apart_no t F s : apart an ac term t F = true -> readable (ps_rest s) -> (exists h, In h F /\ sees h (ps_rest s)) -> exists e, no (tbeh E t) s e.
Proof.
  unfold apart. rewrite orb_true_iff, !andb_true_iff, negb_true_iff. intros [(Hne & Hend)|((Hn & Hc) & Ht)] Hs Hh.
  { destruct t; try discriminate Hne. destruct Hh as (h & Hh & Hsee). unfold only_end in Hend. rewrite forallb_forall in Hend. specialize (Hend h Hh).
    destruct h; try discriminate Hend. eexists. exists 1. eexists. rewrite pty_S. cbn [p_layer]. unfold pmap, bind, p_not_eof. rewrite (proj2 (is_empty_true s) Hsee). reflexivity. }
  destruct (decided t s Ht Hs) as [(v & s' & n & H)|H]; [|exact H]. exfalso. apply accepts_begun in H as [(a & Ha & Hst)|(Hn' & _)]; [|congruence].
  exact (no_clash_ok _ _ _ Hc Hh a Ha Hst).
Qed.
Lemma decided_fields fs : forall s, forallb (fun f => term (snd f)) fs = true -> readable (ps_rest s) ->
  (exists vs s', seq_yes (tys E fs) s vs s') \/ (exists k l t e, nth_error fs k = Some (l, t) /\ seq_no (tys E fs) s k e).
Proof.
  induction fs as [|(l, t) fs IH]; intros s Ht Hs.
  - left. exists [], s. constructor.
  - cbn in Ht. apply andb_true_iff in Ht as (Ht & Htf). destruct (decided t s Ht Hs) as [(v & s1 & Hy)|(e & Hn)].
    + destruct (IH s1 Htf (yes_readable _ _ _ _ Hy Hs)) as [(vs & s' & H)|(k & l0 & t0 & e & Hk & b & vs & s2 & Hb & Hq & Hn)].
      * left. exists (v :: vs), s'. econstructor; [exact Hy|exact H].
      * right. exists (S k), l0, t0, e. split; [exact Hk|]. exists b, (v :: vs), s2. split; [exact Hb|]. split; [|exact Hn]. econstructor; [exact Hy|exact Hq].
    + right. exists 0, l, t, e. split; [reflexivity|]. exists (tbeh E t), [], s. split; [reflexivity|]. split; [constructor|exact Hn].
Qed.
Lemma apart_fields_no en ct fs F s : apart_fields an ac term fs F = true -> readable (ps_rest s) -> (exists h, In h F /\ sees h (ps_rest s)) ->
  exists k l t e, nth_error fs k = Some (l, t) /\ seq_no (tys E fs) s k e /\ exists e', e' = chained [context en ct l] e.
Proof.
  unfold apart_fields. rewrite !andb_true_iff, negb_true_iff. intros ((Hn & Hc) & Ht) Hs Hh.
  destruct (decided_fields fs s Ht Hs) as [(vs & s' & H)|(k & l & t & e & Hk & H)]; [|exists k, l, t, e; eauto]. exfalso.
  apply (fields_yes_iff E [] []) in H as (n & H). apply (fields_begun n [] [] fs (accepts_begun n)) in H as [(a & Ha & Hst)|(Hn' & _)]; [|congruence].
  exact (no_clash_ok _ _ _ Hc Hh a Ha Hst).
Qed.

(** ** what a printer writes *)
Variable pn : nat -> bool.
Variable pf : nat -> list head.
Hypothesis Hpn : forall i, pnull_def pn (E i) = true -> pn i = true.
Hypothesis Hpf : forall i, incl (pfirst_def pn pf (E i)) (pf i).
Notation pnull := (pnull pn). Notation pfirst := (pfirst pn pf).
Definition seen (F : list head) (l : list tt) : Prop := exists h, In h F /\ sees h l.
Definition shown (A : list head) (nul : bool) (ts : list tt) : Prop :=
  readable ts /\ ((ts = [] /\ nul = true) \/ exists h, In h A /\ h <> HEnd /\ sees h ts).
Lemma readable_nil : readable [].
Proof. constructor. Qed.
Lemma shown_nil A : shown A true [].
Proof. split; [apply readable_nil|auto]. Qed.
Lemma shown_one h A nul ts : In h A -> h <> HEnd -> sees h ts -> readable ts -> shown A nul ts.
Proof. intros. split; [assumption|]. right. eauto. Qed.
Lemma shown_incl A B m n ts : incl A B -> (m = true -> n = true) -> shown A m ts -> shown B n ts.
Proof. intros HA Hm (Hr & [(-> & H)|(h & Hh & He & Hs)]); split; auto. right. exists h. auto. Qed.
Lemma shown_seq A m x B n y : shown A m x -> shown B n y -> shown (A ++ (if m then B else [])) (m && n) (x ++ y).
Proof.
  intros (Hr & H) (Hr2 & H2). split; [apply readable_app; auto|].
  destruct H as [(-> & ->)|(h & Hh & He & Hs)].
  - destruct H2 as [(-> & ->)|(h & Hh & He & Hs)]; [left; auto|]. right. exists h. split; [apply in_or_app; auto|auto].
  - right. exists h. split; [apply in_or_app; auto|]. split; [exact He|]. apply sees_app; assumption.
Qed.
Lemma shown_seen A m ts F rest : shown A m ts -> seen F rest -> seen (A ++ (if m then F else [])) (ts ++ rest).
Proof.
  intros (_ & [(-> & ->)|(h & Hh & He & Hs)]) (k & Hk & Hks).
  - exists k. split; [apply in_or_app; auto|exact Hks].
  - exists h. split; [apply in_or_app; auto|apply sees_app; assumption].
Qed.
Lemma seen_incl F G l : incl F G -> seen F l -> seen G l.
Proof. intros HF (h & Hh & Hs). exists h. auto. Qed.
Lemma shown_nonempty A ts : shown A false ts -> ts <> [].
Proof.
  intros (_ & [(_ & H)|(h & _ & He & Hs)]) ->; [discriminate|]. destruct h as [n|ks|op|k|k|d|]; cbn in Hs; try congruence.
  - destruct Hs as (? & ? & ?); discriminate.
  - destruct Hs as (? & ? & ? & ? & _); discriminate.
  - destruct Hs as (sps & r & Ho & Hl & E0). destruct op as [|c op]; [congruence|]. destruct (print_op_cons c op sps Hl) as (sp & sps' & g & -> & _ & Ep & _). rewrite Ep in E0. discriminate.
  - destruct Hs as (? & ? & ? & ? & ? & ? & _); discriminate.
  - destruct Hs as (? & ? & ? & ? & ? & _); discriminate.
  - destruct Hs as (_ & ? & ? & ? & ?); discriminate.
Qed.
Lemma readable_print_op op : forall sps, readable (print_op op sps).
Proof.
  induction op as [|c op IH]; intros [|sp sps]; try (constructor; fail); [destruct op; constructor|]. destruct op as [|c2 op]; [constructor|]. exact (IH sps).
Qed.
Lemma lit_shown l sp ts : lit_valid l -> print_lit l sp = Some ts -> shown (lit_heads (litty_of l)) false ts.
Proof.
  intros Hv Hp. assert (Hf : lit_finite l). { destruct l; try exact I. destruct f; [reflexivity|]. cbn in Hp. discriminate. }
  destruct (print_lit_parses l sp Hv Hf) as (ts' & k & Hp' & Hk & H). rewrite Hp in Hp'. injection Hp' as <-.
  specialize (H [] sp None). rewrite app_nil_r in H.
  assert (Hsh : (exists b, l = LBool b /\ ts = [TIdent (if b : bool then T "true" else T "false") sp]) \/ ((forall b, l <> LBool b) /\ exists r, ts = push_lit r sp)).
  { assert (inv : forall (x y : list tt), Some x = Some y -> y = x) by congruence.
    destruct l; cbn [print_lit] in Hp; try (apply inv in Hp; subst ts); eauto.
    - right. split; [discriminate|]. destruct (lit_byte_repr b); [|discriminate]. apply inv in Hp. eauto.
    - right. split; [discriminate|eauto].
    - right. split; [discriminate|eauto].
    - right. split; [discriminate|]. destruct (float_show f); [|discriminate]. apply inv in Hp. eauto.
    - right. split; [discriminate|eauto].
    - right. split; [discriminate|eauto].
    - right. split; [discriminate|eauto]. }
  destruct Hsh as [(b & -> & ->)|(Hb & r & ->)].
  - destruct b; eapply shown_one; try (constructor; fail); [left; reflexivity|discriminate|cbn; eauto|right; left; reflexivity|discriminate|cbn; eauto].
  - assert (Hneg : forall repr k', lit_num (45%N :: repr) = Some k' -> lit_new repr <> None).
    { intros repr k' Hn. destruct repr as [|c r0]; [discriminate|]. destruct (N.eqb_spec c 45) as [->|Hc].
      - revert Hn. unfold lit_num, parse_lit_int, parse_lit_float. cbn. destruct r0; discriminate.
      - rewrite lit_num_neg in Hn by exact Hc. intro Hl. rewrite Hl in Hn. discriminate. }
    assert (HK : forall repr k' (neg : bool), lit_num (45%N :: repr) = Some k' \/ lit_new repr = Some k' -> k = SLTok k' -> (k' = k' -> neg = true -> kd_of k' = KdInt \/ kd_of k' = KdFloat) -> True) by auto. clear HK.
    apply p_lit_inv in H as (r' & Es & [(b & Hi & ->)|[(repr & k' & Hi & Hn & ->)|(g & sp1 & sp2 & repr & r1 & k' & Hi & Hi2 & _ & Hn & ->)]]); cbn [ps_rest set_rest ps_scope ps_unexp] in *.
    + exfalso. destruct l; cbn in Hk; try discriminate; [|destruct Hk as (? & ? & _); discriminate]. eapply Hb. reflexivity.
    + assert (Et : push_lit r sp = [TLit repr sp]).
      { injection Es as <-. unfold push_lit in *. destruct r as [|c r]; [cbn in Hi; congruence|]. destruct (c =? 45)%N; cbn in Hi; [discriminate|congruence]. }
      rewrite Et. assert (Hr : readable [TLit repr sp]). { repeat constructor. congruence. }
      apply (shown_one (HLit (kd_of k'))); [|discriminate|cbn; eauto 8|exact Hr].
      destruct l; cbn in Hk; try discriminate; try (destruct Hk as (? & Hk & _)); injection Hk as ->; cbn; auto.
    + assert (Et : exists sp1' , push_lit r sp = [TPunct 45 Alone sp1'; TLit repr sp]).
      { injection Es as <-. unfold push_lit in *. destruct r as [|c r]; [cbn in Hi; congruence|]. destruct (c =? 45)%N; cbn in Hi; [|discriminate]. injection Hi as _ _ <-. cbn in Hi2. injection Hi2 as <- _. eauto. }
      destruct Et as (sp1' & Et). rewrite Et. assert (Hr : readable [TPunct 45 Alone sp1'; TLit repr sp]). { repeat constructor. eapply Hneg. exact Hn. }
      pose proof (neg_kinds _ _ Hn) as Hkd.
      apply (shown_one (HNeg (kd_of k'))); [|discriminate|cbn; eauto 12|exact Hr].
      destruct l; cbn in Hk; try discriminate; try (destruct Hk as (? & Hk & ?)); injection Hk as ->; cbn in *; try (destruct Hkd; discriminate); auto.
      destruct (neg_digits _ _ Hn) as (d & Ed). exfalso. destruct (show_int_head z) as (c & r2 & E2 & Ec). rewrite E2 in Ed. injection Ed as -> _.
      cbn in Ec. symmetry in Ec. apply Z.ltb_lt in Ec. cbn in Hv. lia.
Qed.
Definition shows (t : ty) (v : val) : Prop := forall ts, print v = Some ts -> shown (pfirst t) (pnull t) ts.
Lemma oconcat_cons a l ts : oconcat (a :: l) = Some ts -> exists x y, a = Some x /\ oconcat l = Some y /\ ts = x ++ y.
Proof. apply oapp_some. Qed.
(** a list of pairs, the first of which decides *)
Lemma pairs_shown a b (l : list (val * val)) ts : Forall (fun x => shows a (fst x) /\ shows b (snd x)) l ->
  oconcat (map (fun x => oapp (print (fst x)) (print (snd x))) l) = Some ts -> shown (pfirst a ++ (if pnull a then pfirst b else [])) true ts.
Proof.
  intro H. revert ts. induction H as [|(x, y) l (Hx & Hy) H IH]; intros ts Hp; cbn [map fst snd] in *.
  - injection Hp as <-. apply shown_nil.
  - apply oconcat_cons in Hp as (u & v & Hu & Hv & ->). apply oapp_some in Hu as (p & q & Hp & Hq & ->).
    pose proof (shown_seq _ _ _ _ _ _ (Hx _ Hp) (Hy _ Hq)) as H1. pose proof (shown_seq _ _ _ _ _ _ H1 (IH _ Hv)) as H2.
    eapply shown_incl; [| |exact H2]; [|auto]. intros h Hh. apply in_app_or in Hh as [Hh|Hh]; [exact Hh|]. destruct (pnull a && pnull b); [exact Hh|destruct Hh].
Qed.
Lemma pair_print (l : list (val * val)) : map (fun '(x, y) => oapp (print x) (print y)) l = map (fun x => oapp (print (fst x)) (print (snd x))) l.
Proof. apply map_ext. intros (x, y). reflexivity. Qed.
Lemma list_shown a (l : list val) ts : Forall (shows a) l -> oconcat (map print l) = Some ts -> shown (pfirst a) true ts.
Proof.
  intro H. revert ts. induction H as [|x l Hx H IH]; intros ts Hp; cbn [map] in *.
  - injection Hp as <-. apply shown_nil.
  - apply oconcat_cons in Hp as (u & v & Hu & Hv & ->). pose proof (shown_seq _ _ _ _ _ _ (Hx _ Hu) (IH _ Hv)) as H2.
    eapply shown_incl; [| |exact H2]; [|auto]. intros h Hh. apply in_app_or in Hh as [Hh|Hh]; [exact Hh|]. destruct (pnull a); [exact Hh|destruct Hh].
Qed.
Lemma fields_shown fs vs ts : Forall2 (fun (f : label * ty) v => shows (snd f) v) fs vs -> oconcat (map print vs) = Some ts ->
  shown (peek_fields pn pf fs []) (pnull_fields pn fs) ts.
Proof.
  intro H. revert ts. induction H as [|(l, t) v fs vs Hv H IH]; intros ts Hp; cbn [map] in *.
  - injection Hp as <-. apply shown_nil.
  - apply oconcat_cons in Hp as (u & w & Hu & Hw & ->). cbn [peek_fields pnull_fields forallb snd]. apply shown_seq; [apply Hv; exact Hu|apply IH; exact Hw].
Qed.
Lemma fields_seen fs vs ts F rest : Forall2 (fun (f : label * ty) v => shows (snd f) v) fs vs -> oconcat (map print vs) = Some ts -> seen F rest ->
  seen (peek_fields pn pf fs F) (ts ++ rest).
Proof.
  intro H. revert ts. induction H as [|(l, t) v fs vs Hv H IH]; intros ts Hp HF; cbn [map] in *.
  - injection Hp as <-. exact HF.
  - apply oconcat_cons in Hp as (u & w & Hu & Hw & ->). cbn [peek_fields]. rewrite <- app_assoc. apply shown_seen; [apply Hv; exact Hu|apply IH; assumption].
Qed.
Theorem typed_shows t v : typed E t v -> shows t v.
Proof.
  revert t v. apply typed_rect; unfold shows at 1.
  - intros n sp Hn ts H. injection H as <-. eapply shown_one; [left; reflexivity|discriminate|cbn [sees]; eauto 6|constructor].
  - intros kws n sp Hn ts H. injection H as <-. eapply shown_one; [left; reflexivity|discriminate|cbn [sees]; eauto 6|constructor].
  - intros kw sp ts H. injection H as <-. eapply shown_one; [left; reflexivity|discriminate|cbn [sees]; eauto 6|constructor].
  - intros kw sp ts H. injection H as <-. eapply shown_one; [left; reflexivity|discriminate|cbn [sees]; eauto 6|constructor].
  - intros op sps Hl ts H. injection H as <-. destruct op as [|c op].
    + destruct sps; [|discriminate]. apply shown_nil.
    + eapply shown_one; [left; reflexivity|discriminate| |apply readable_print_op]. exists sps, []. split; [discriminate|]. split; [exact Hl|]. symmetry. apply app_nil_r.
  - intros l sp Hv ts H. eapply lit_shown; eassumption.
  - intros l sp Hv _ ts H. eapply shown_incl; [apply heads_in_any| |eapply lit_shown; eassumption]. auto.
  - intros ts H. injection H as <-. apply shown_nil.
  - intros ts H. injection H as <-. apply shown_nil.
  - intros ts H. injection H as <-. apply shown_nil.
  - intros a b ts H. injection H as <-. apply shown_nil.
  - intros a b x v Hx Hv ts H. apply oapp_some in H as (p & q & Hp & Hq & ->). eapply shown_incl; [apply incl_refl| |apply shown_seq; [apply Hx; exact Hp|apply Hv; exact Hq]]. reflexivity.
  - intros d t sp v Hd Hv ts H. cbn [print] in H. destruct (print v) as [ts'|] eqn:Ev; [|discriminate]. injection H as <-.
    assert (Hr : readable [TGroup d sp ts']). { unfold readable. cbn [lits]. rewrite lits1_group, app_nil_r. apply (Hv ts' eq_refl). }
    destruct d; try congruence; (eapply shown_one; [left; reflexivity|discriminate|cbn [sees]; eauto 6|exact Hr]).
  - intros a p inner last Hi Hl _ ts H. cbn [print] in H. apply oapp_some in H as (x & y & Hx & Hy & ->).
    rewrite pair_print in Hx. pose proof (pairs_shown a p inner x Hi Hx) as H1.
    assert (H2 : shown (pfirst a) true y).
    { destruct last as [v|]; [|injection Hy as <-; apply shown_nil]. eapply shown_incl; [apply incl_refl| |eapply Hl; [reflexivity|exact Hy]]. reflexivity. }
    eapply shown_incl; [| |exact (shown_seq _ _ _ _ _ _ H1 H2)]; [|reflexivity]. cbn [LL1.pfirst]. intros h Hh. apply in_app_or in Hh as [Hh|Hh]; [exact Hh|apply in_or_app; auto].
  - intros a p inner v Hi Hv ts H. cbn [print] in H. apply oapp_some in H as (x & y & Hx & Hy & ->).
    rewrite pair_print in Hx. pose proof (pairs_shown a p inner x Hi Hx) as H1.
    cbn [LL1.pfirst LL1.pnull]. pose proof (shown_seq _ _ _ _ _ _ H1 (Hv _ Hy)) as H2. destruct inner as [|(i1, i2) inner].
    + injection Hx as <-. eapply shown_incl; [| |exact (Hv _ Hy)]; [intros h Hh; apply in_or_app; auto|auto].
    + inversion Hi as [|? ? (Hi1 & Hi2) Hi3]; subst. cbn [map fst snd] in *. apply oconcat_cons in Hx as (u & w & Hu & Hw & ->). apply oapp_some in Hu as (p1 & q1 & Hp1 & Hq1 & ->).
      apply Hi1 in Hp1. apply Hi2 in Hq1. pose proof (shown_seq _ _ _ _ _ _ Hp1 Hq1) as H3. destruct H2 as (Hr & H2). split; [exact Hr|].
      destruct (pnull a) eqn:Ea.
      * destruct H2 as [(H2 & _)|(h & Hh & He & Hs)]; [left; auto|]. right. exists h. split; [|auto]. apply in_app_or in Hh as [Hh|Hh]; [exact Hh|apply in_or_app; auto].
      * right. destruct Hp1 as (_ & [(_ & Hp1)|(h & Hh & He & Hs)]); [discriminate|]. exists h. split; [apply in_or_app; auto|]. split; [exact He|]. rewrite <- !app_assoc. apply sees_app; assumption.
  - intros a l Hl ts H. exact (list_shown a l ts Hl H).
  - intros o r x l t Hx Hl Hf ts H. rewrite (print_left_form _ _ _ Hf) in H. apply oapp_some in H as (p & q & Hp & Hq & ->).
    pose proof (shown_seq _ _ _ _ _ _ (Hx _ Hp) (pairs_shown o r l q Hl Hq)) as H2. cbn [LL1.pfirst LL1.pnull].
    eapply shown_incl; [| |exact H2]; [|rewrite andb_true_r; auto]. intros h Hh. apply in_app_or in Hh as [Hh|Hh]; [apply in_or_app; auto|].
    destruct (pnull r); [|destruct Hh]. apply in_app_or in Hh as [Hh|Hh]; [apply in_or_app; auto|]. destruct (pnull o); [apply in_or_app; auto|destruct Hh].
  - intros o r x l t Hx Hl Hf ts H. rewrite (print_right_form _ _ _ Hf) in H. apply oapp_some in H as (p & q & Hp & Hq & ->).
    pose proof (shown_seq _ _ _ _ _ _ (Hx _ Hp) (pairs_shown o r l q Hl Hq)) as H2. cbn [LL1.pfirst LL1.pnull].
    eapply shown_incl; [| |exact H2]; [|rewrite andb_true_r; auto]. intros h Hh. apply in_app_or in Hh as [Hh|Hh]; [apply in_or_app; auto|].
    destruct (pnull r); [|destruct Hh]. apply in_app_or in Hh as [Hh|Hh]; [apply in_or_app; auto|]. destruct (pnull o); [apply in_or_app; auto|destruct Hh].
  - intros a b v Hv ts H. eapply shown_incl; [| |apply Hv; exact H]; cbn; [intros h Hh; apply in_or_app; auto|intros ->; reflexivity].
  - intros a b v Hv ts H. eapply shown_incl; [| |apply Hv; exact H]; cbn; [intros h Hh; apply in_or_app; auto|intros ->; apply orb_true_r].
  - intros a v Hv ts H. apply Hv. exact H.
  - intros i c vs Hi Hf ts H. pose proof (fields_shown _ _ _ Hf H) as H1. pose proof (Hpf i) as G. pose proof (Hpn i) as G2. rewrite Hi in G, G2. eapply shown_incl; [exact G|exact G2|exact H1].
  - intros i en cs k c vs Hi Hk Hf ts H. pose proof (fields_shown _ _ _ Hf H) as H1. pose proof (Hpf i) as G. pose proof (Hpn i) as G2. rewrite Hi in G, G2. apply nth_error_In in Hk.
    eapply shown_incl; [| |exact H1]; cbn [LL1.pfirst LL1.pnull].
    + intros h Hh. apply G. cbn [pfirst_def]. apply in_concat. exists (peek_fields pn pf (c_fields c) []). split; [|exact Hh]. apply in_map_iff. eauto.
    + intro Hn. apply G2. cbn [pnull_def]. apply existsb_exists. eauto.
Qed.

(** ** what is printed is read back *)
Variable fo : nat -> list head.
Notation ok := (ok an ac pn pf fo term).
Hypothesis Hfo : forall i, ok_def an ac pn pf fo term (E i) (fo i) = true.
Definition reads (t : ty) (v : val) : Prop := forall F ts rest s,
  ok t F = true -> print v = Some ts -> seen F rest -> readable rest -> ps_rest s = ts ++ rest ->
  yes (tbeh E t) s v (set_rest s rest).
Notation good := (fun t v => typed E t v /\ reads t v).
Lemma good_shows t v : good t v -> shows t v.
Proof. intros (H & _). apply typed_shows. exact H. Qed.
Lemma good_list t l : Forall (good t) l -> typed_list E t l.
Proof. induction 1 as [|v l (H & _) _ IH]; constructor; assumption. Qed.
Lemma good_pairs a b l : Forall (fun x : val * val => good a (fst x) /\ good b (snd x)) l -> typed_pairs E a b l.
Proof. induction 1 as [|(x, y) l ((H & _) & (H2 & _)) _ IH]; constructor; assumption. Qed.
Lemma good_fields fs vs : Forall2 (fun (f : label * ty) v => good (snd f) v) fs vs -> typed_fields E fs vs.
Proof. induction 1 as [|(l, t) v fs vs (H & _) _ IH]; constructor; assumption. Qed.
Lemma good_shows_pairs a b l : Forall (fun x : val * val => good a (fst x) /\ good b (snd x)) l -> Forall (fun x => shows a (fst x) /\ shows b (snd x)) l.
Proof. apply Forall_impl. intros x (H1 & H2). split; apply good_shows; assumption. Qed.
Lemma good_shows_fields fs vs : Forall2 (fun (f : label * ty) v => good (snd f) v) fs vs -> Forall2 (fun (f : label * ty) v => shows (snd f) v) fs vs.
Proof. induction 1; constructor; [apply good_shows; assumption|assumption]. Qed.
Lemma shows_readable t v ts : good t v -> print v = Some ts -> readable ts.
Proof. intros H Hp. apply good_shows in H. apply (H ts Hp). Qed.
Lemma set_rest_twice s a b : set_rest (set_rest s a) b = set_rest s b.
Proof. reflexivity. Qed.
Lemma set_rest_same s r : ps_rest s = r -> set_rest s r = s.
Proof. destruct s. cbn. intros <-. reflexivity. Qed.
Lemma seen_peek t v ts F rest : good t v -> print v = Some ts -> seen F rest -> seen (peek pn pf t F) (ts ++ rest).
Proof. intros Hg Hp HF. apply good_shows in Hg. apply shown_seen; [apply Hg; exact Hp|exact HF]. Qed.
Lemma only_end_nil F rest : only_end F = true -> seen F rest -> rest = [].
Proof. unfold only_end. rewrite forallb_forall. intros H (h & Hh & Hs). specialize (H h Hh). destruct h; try discriminate. exact Hs. Qed.
Lemma seen_not_end F rest : existsb is_end F = false -> seen F rest -> rest <> [].
Proof.
  intros H (h & Hh & Hs) ->. assert (Hn : h <> HEnd).
  { intros ->. assert (existsb is_end F = true) by (apply existsb_exists; eauto). congruence. }
  apply (shown_nonempty [h] []); [|reflexivity]. split; [constructor|]. right. exists h. split; [left; reflexivity|]. auto.
Qed.
Lemma seen_end l : seen [HEnd] l <-> l = [].
Proof. split; [intros (h & [<-|[]] & H); exact H|intros ->; exists HEnd; split; [left; reflexivity|reflexivity]]. Qed.

(** the sequence of fields *)
Lemma fields_read fs vs : Forall2 (fun (f : label * ty) v => good (snd f) v) fs vs -> forall F ts rest s,
  ok_fields an ac pn pf fo term fs F = true -> oconcat (map print vs) = Some ts -> seen F rest -> readable rest -> ps_rest s = ts ++ rest ->
  seq_yes (tys E fs) s vs (set_rest s rest).
Proof.
  induction 1 as [|(l, t) v fs vs Hv Hf IH]; intros F ts rest s Hok Hp HF Hr Hs; cbn [map ok_fields snd] in *.
  - injection Hp as <-. rewrite set_rest_same by exact Hs. constructor.
  - apply andb_true_iff in Hok as (Hok1 & Hok2). apply oconcat_cons in Hp as (u & w & Hu & Hw & ->). rewrite <- app_assoc in Hs.
    assert (Hrw : readable w). { apply (fields_shown fs vs w (good_shows_fields _ _ Hf) Hw). }
    apply (seq_cons _ _ _ _ (set_rest s (w ++ rest))).
    + apply (proj2 Hv _ u _ s Hok1 Hu); [apply (fields_seen fs vs); [apply good_shows_fields; exact Hf|exact Hw|exact HF]|apply readable_app; auto|exact Hs].
    + apply (IH F w rest (set_rest s (w ++ rest))); auto.
Qed.
Lemma variants_check cs : forall before F k c, ok_variants an ac pn pf fo term before cs F = true -> nth_error cs k = Some c ->
  ok_fields an ac pn pf fo term (c_fields c) F = true /\
  forall d, In d before \/ (exists j, j < k /\ nth_error cs j = Some d) -> variant_refuses an ac pn pf term (c_fields d) (c_fields c) F = true.
Proof.
  induction cs as [|c0 cs IH]; intros before F [|k] c H Hk; try discriminate; cbn [ok_variants] in H; rewrite !andb_true_iff in H; destruct H as ((H1 & H2) & H3).
  - injection Hk as <-. split; [exact H1|]. intros d [Hd|(j & Hj & _)]; [|lia]. rewrite forallb_forall in H2. apply H2. exact Hd.
  - destruct (IH _ _ _ _ H3 Hk) as (G1 & G2). split; [exact G1|]. intros d [Hd|(j & Hj & Hd)]; apply G2.
    + left. apply in_or_app. auto.
    + destruct j as [|j]; [left; injection Hd as <-; apply in_or_app; right; left; reflexivity|right; exists j; split; [lia|exact Hd]].
Qed.
(** a variant refuses what a later one printed *)
Lemma variant_refuses_no en ct fc vs : Forall2 (fun (f : label * ty) v => good (snd f) v) fc vs -> forall fb F ts rest s,
  variant_refuses an ac pn pf term fb fc F = true -> ok_fields an ac pn pf fo term fc F = true -> oconcat (map print vs) = Some ts ->
  seen F rest -> readable rest -> ps_rest s = ts ++ rest ->
  exists k l t e, nth_error fb k = Some (l, t) /\ seq_no (tys E fb) s k e /\ exists e', e' = chained [context en ct l] e.
Proof.
  intro Hf. pose proof Hf as Hf0. induction Hf as [|(l', t') v fc vs Hv Hf IH]; intros fb F ts rest s Href Hok Hp HF Hr Hs.
  - assert (Ha : apart_fields an ac term fb (peek_fields pn pf [] F) = true).
    { destruct fb as [|(l, t) fb]; cbn [variant_refuses] in Href; apply orb_true_iff in Href as [H|H]; try exact H; discriminate H. }
    apply (apart_fields_no en ct fb _ s Ha); [rewrite Hs; apply readable_app; split; [apply (fields_shown _ _ _ (good_shows_fields _ _ Hf0) Hp)|exact Hr]|].
    rewrite Hs. apply (fields_seen _ _ _ _ _ (good_shows_fields _ _ Hf0) Hp HF).
  - assert (Hor : apart_fields an ac term fb (peek_fields pn pf ((l', t') :: fc) F) = true \/
        exists l fb', fb = (l, t') :: fb' /\ variant_refuses an ac pn pf term fb' fc F = true).
    { destruct fb as [|(l, t) fb]; cbn [variant_refuses] in Href; apply orb_true_iff in Href as [H|H]; auto; try discriminate H.
      apply andb_true_iff in H as (H1 & H2). unfold ty_eqb in H1. destruct (ty_eq_dec t t') as [->|]; [|discriminate H1]. right. eauto. }
    destruct Hor as [Ha|(l & fb' & -> & Href')].
    + apply (apart_fields_no en ct fb _ s Ha); [rewrite Hs; apply readable_app; split; [apply (fields_shown _ _ _ (good_shows_fields _ _ Hf0) Hp)|exact Hr]|].
      rewrite Hs. apply (fields_seen _ _ _ _ _ (good_shows_fields _ _ Hf0) Hp HF).
    + cbn [map ok_fields snd] in *. apply andb_true_iff in Hok as (Hok1 & Hok2). apply oconcat_cons in Hp as (u & w & Hu & Hw & ->). rewrite <- app_assoc in Hs.
      assert (Hrw : readable w) by (apply (fields_shown fc vs w (good_shows_fields _ _ Hf) Hw)).
      assert (Hy : yes (tbeh E t') s v (set_rest s (w ++ rest))).
      { apply (proj2 Hv _ u _ s Hok1 Hu); [apply (fields_seen fc vs); [apply good_shows_fields; exact Hf|exact Hw|exact HF]|apply readable_app; auto|exact Hs]. }
      destruct (IH Hf fb' F w rest (set_rest s (w ++ rest)) Href' Hok2 Hw HF Hr eq_refl) as (k & l2 & t2 & e & Hk & (b & vs' & s1 & Hb & Hyes & Hno) & He).
      exists (S k), l2, t2, e. split; [exact Hk|]. split; [|exact He]. exists b, (v :: vs'), s1. split; [exact Hb|]. split; [|exact Hno].
      cbn [tys map firstn]. econstructor; [exact Hy|exact Hyes].
Qed.
(** repetition *)
Lemma run_read a l : Forall (good a) l -> forall F ts rest s, pnull a = false -> ok a (pfirst a ++ F) = true -> apart an ac term a F = true ->
  oconcat (map print l) = Some ts -> seen F rest -> readable rest -> ps_rest s = ts ++ rest -> run_yes (tbeh E a) s l (set_rest s rest).
Proof.
  intro Hl. induction Hl as [|v l Hv Hl IH]; intros F ts rest s Hn Hok Hap Hp HF Hr Hs; cbn [map] in *.
  - injection Hp as <-. cbn [app] in Hs. rewrite set_rest_same by exact Hs.
    destruct (apart_no a F s Hap) as (e & He); [rewrite Hs; exact Hr|rewrite Hs; exact HF|]. eapply run_stop. exact He.
  - apply oconcat_cons in Hp as (u & w & Hu & Hw & ->). rewrite <- app_assoc in Hs.
    pose proof (list_shown a l w) as Hsh. specialize (Hsh (Forall_impl _ (good_shows a) Hl) Hw).
    apply (run_step _ _ _ (set_rest s (w ++ rest))).
    + apply (proj2 Hv (pfirst a ++ F) u _ s Hok Hu); [|apply readable_app; split; [apply Hsh|exact Hr]|exact Hs]. exact (shown_seen (pfirst a) true w F rest Hsh HF).
    + apply (IH F w rest (set_rest s (w ++ rest))); auto.
Qed.
Lemma tail_read a b l : Forall (fun x => good b (fst x) /\ good a (snd x)) l -> forall F ts rest s, pnull b = false ->
  ok a (pfirst b ++ F) = true -> ok b (peek pn pf a (pfirst b ++ F)) = true -> apart an ac term b F = true ->
  oconcat (map (fun x => oapp (print (fst x)) (print (snd x))) l) = Some ts -> seen F rest -> readable rest -> ps_rest s = ts ++ rest ->
  tail_yes (tbeh E a) (tbeh E b) s l (set_rest s rest) /\ seen (pfirst b ++ F) (ts ++ rest) /\ readable (ts ++ rest).
Proof.
  intro Hl. induction Hl as [|(p, v) l (Hgp & Hv) Hl IH]; intros F ts rest s Hn Hok1 Hok2 Hap Hp HF Hr Hs; cbn [map fst snd] in *.
  - injection Hp as <-. cbn [app] in *. split; [|split; [eapply seen_incl; [|exact HF]; intros h Hh; apply in_or_app; auto|exact Hr]].
    rewrite set_rest_same by exact Hs.
    destruct (apart_no b F s Hap) as (e & He); [rewrite Hs; exact Hr|rewrite Hs; exact HF|]. eapply tail_stop. exact He.
  - apply oconcat_cons in Hp as (u & w & Hu & Hw & ->). apply oapp_some in Hu as (x & y & Hx & Hy & ->). rewrite <- !app_assoc in *.
    destruct (IH F w rest (set_rest s (w ++ rest)) Hn Hok1 Hok2 Hap Hw HF Hr eq_refl) as (IH1 & IH2 & IH3).
    assert (Sy : seen (peek pn pf a (pfirst b ++ F)) (y ++ w ++ rest)) by (eapply seen_peek; eassumption).
    assert (Ry : readable (y ++ w ++ rest)) by (apply readable_app; split; [eapply shows_readable; eassumption|exact IH3]).
    split; [|split].
    + apply (tail_step _ _ _ _ (set_rest s (y ++ w ++ rest)) _ (set_rest s (w ++ rest))).
      * apply (proj2 Hgp _ x _ s Hok2 Hx Sy Ry Hs).
      * apply (proj2 Hv _ y _ (set_rest s (y ++ w ++ rest)) Hok1 Hy IH2 IH3). reflexivity.
      * exact IH1.
    + pose proof (good_shows _ _ Hgp _ Hx) as (_ & [(_ & Hc)|(h & Hh & He & Hsee)]); [congruence|].
      exists h. split; [apply in_or_app; auto|apply sees_app; assumption].
    + apply readable_app. split; [eapply shows_readable; [exact Hgp|exact Hx]|exact Ry].
Qed.
Lemma sep_read a b x l : good a x -> Forall (fun x => good b (fst x) /\ good a (snd x)) l -> forall F ts rest s,
  negb (pnull b) && ok a (pfirst b ++ F) && ok b (peek pn pf a (pfirst b ++ F)) && apart an ac term b F = true ->
  oapp (print x) (oconcat (map (fun x => oapp (print (fst x)) (print (snd x))) l)) = Some ts -> seen F rest -> readable rest -> ps_rest s = ts ++ rest ->
  exists s1, yes (tbeh E a) s x s1 /\ tail_yes (tbeh E a) (tbeh E b) s1 l (set_rest s rest).
Proof.
  intros Hx Hl F ts rest s Hok Hp HF Hr Hs. rewrite !andb_true_iff, negb_true_iff in Hok. destruct Hok as (((Hn & Hok1) & Hok2) & Hap).
  apply oapp_some in Hp as (u & w & Hu & Hw & ->). rewrite <- app_assoc in Hs.
  destruct (tail_read a b l Hl F w rest (set_rest s (w ++ rest)) Hn Hok1 Hok2 Hap Hw HF Hr eq_refl) as (H1 & H2 & H3).
  exists (set_rest s (w ++ rest)). split; [|exact H1]. apply (proj2 Hx _ u _ s Hok1 Hu H2 H3 Hs).
Qed.
Lemma not_eof_unit v : typed E TyNotEof v -> v = VUnit.
Proof. intro H. inversion H as [| | | | | | | | | | | |d t sp v' Hd Hv Hd' Hv'| | | | | | | | | | ]; [reflexivity|]. destruct d; discriminate. Qed.
Lemma fill_read a b inner : Forall (fun x => good a (fst x) /\ good b (snd x)) inner -> forall last, (forall v, last = Some v -> good a v) ->
  (b = TyNotEof -> last = None -> inner = []) -> pnull a = false ->
  (if not_eofb b then ok a (HEnd :: pfirst a) else negb (pnull b) && ok a (HEnd :: pfirst b) && ok b (HEnd :: pfirst a)) = true ->
  forall ts s, oapp (oconcat (map (fun x => oapp (print (fst x)) (print (snd x))) inner)) (match last with Some x => print x | None => Some [] end) = Some ts ->
  ps_rest s = ts -> fill_yes (tbeh E a) (tbeh E b) s inner last (set_rest s []) /\ readable ts /\ seen (HEnd :: pfirst a) ts.
Proof.
  intro Hi. induction Hi as [|(v, p) inner (Hv & Hp) Hi IH]; intros last Hl Hne Hn Hok ts s Hpr Hs; cbn [map fst snd] in *.
  - cbn [oconcat fold_right] in Hpr. destruct last as [v|].
    + assert (Hpv : print v = Some ts). { apply oapp_some in Hpr as (u & w & Hu & Hw & ->). injection Hu as <-. exact Hw. } clear Hpr.
      specialize (Hl v eq_refl). pose proof (good_shows _ _ Hl _ Hpv) as Hsh. rewrite Hn in Hsh. pose proof (shown_nonempty _ _ Hsh) as Hne1.
      split; [|split; [apply Hsh|]].
      * apply fill_last; [congruence| |reflexivity].
        assert (G : exists F, ok a F = true /\ In HEnd F). { destruct (not_eofb b); [|rewrite !andb_true_iff in Hok; destruct Hok as ((_ & Hok) & _)]; eexists; (split; [exact Hok|left; reflexivity]). }
        destruct G as (F & HokF & HinF). apply (proj2 Hl F ts [] s HokF Hpv); [exists HEnd; split; [exact HinF|reflexivity]|constructor|rewrite app_nil_r; exact Hs].
      * destruct Hsh as (_ & [(_ & Hc)|(h & Hh & He & Hsee)]); [discriminate|]. exists h. split; [right; exact Hh|exact Hsee].
    + injection Hpr as <-. split; [|split; [constructor|exists HEnd; split; [left; reflexivity|reflexivity]]].
      rewrite set_rest_same by exact Hs. apply fill_end. exact Hs.
  - apply oapp_some in Hpr as (uw & z & Huw & Hz & ->). apply oconcat_cons in Huw as (u & w & Hu & Hw & ->). apply oapp_some in Hu as (x & y & Hx & Hy & ->).
    rewrite <- !app_assoc in *. set (q := w ++ z) in *.
    assert (Hnelast : b = TyNotEof -> last = None -> inner = []) by (intros Hb Hlast; specialize (Hne Hb Hlast); discriminate).
    destruct (IH last Hl Hnelast Hn Hok q (set_rest s q)) as (IH1 & IH2 & IH3); [rewrite Hw, Hz; reflexivity|reflexivity|]. clear IH.
    pose proof (good_shows _ _ Hv _ Hx) as Hshx. rewrite Hn in Hshx. pose proof (shown_nonempty _ _ Hshx) as Hnx.
    assert (Ry : readable (y ++ q)) by (apply readable_app; split; [eapply shows_readable; eassumption|exact IH2]).
    split; [|split].
    + destruct (not_eofb b) eqn:Eb.
      * destruct b; try discriminate Eb. clear Eb. assert (y = []) as ->. { pose proof (not_eof_unit p (proj1 Hp)). subst p. injection Hy as <-. reflexivity. }
        cbn [app] in *. assert (Hq : q <> []).
        { intro Eq. destruct last as [lv|]; [|specialize (Hne eq_refl eq_refl); discriminate]. specialize (Hl lv eq_refl). pose proof (good_shows _ _ Hl _ Hz) as Hshz.
          rewrite Hn in Hshz. apply shown_nonempty in Hshz. apply Hshz. unfold q in Eq. apply app_eq_nil in Eq. apply Eq. }
        apply (fill_step _ _ _ _ (set_rest s q) _ (set_rest s q)).
        -- rewrite Hs. intro Hc. apply app_eq_nil in Hc. tauto.
        -- apply (proj2 Hv _ x _ s Hok Hx IH3 IH2 Hs).
        -- exact Hq.
        -- exists 1. pose proof (not_eof_unit p (proj1 Hp)). subst p. cbn. unfold pmap, bind, p_not_eof, is_empty. cbn [ps_rest set_rest]. destruct q; [congruence|reflexivity].
        -- exact IH1.
      * rewrite !andb_true_iff, negb_true_iff in Hok. destruct Hok as ((Hnb & Hok1) & Hok2).
        pose proof (good_shows _ _ Hp _ Hy) as Hshy. rewrite Hnb in Hshy. pose proof (shown_nonempty _ _ Hshy) as Hny.
        apply (fill_step _ _ _ _ (set_rest s (y ++ q)) _ (set_rest s q)).
        -- rewrite Hs. intro Hc. apply app_eq_nil in Hc. tauto.
        -- apply (proj2 Hv _ x _ s Hok1 Hx); [|exact Ry|exact Hs].
           destruct Hshy as (_ & [(_ & Hc)|(h & Hh & He & Hsee)]); [discriminate|]. exists h. split; [right; exact Hh|apply sees_app; assumption].
        -- cbn. intro Hc. apply app_eq_nil in Hc. tauto.
        -- apply (proj2 Hp _ y _ (set_rest s (y ++ q)) Hok2 Hy IH3 IH2). reflexivity.
        -- exact IH1.
    + apply readable_app. split; [apply Hshx|exact Ry].
    + destruct Hshx as (_ & [(_ & Hc)|(h & Hh & He & Hsee)]); [discriminate|]. exists h. split; [right; exact Hh|apply sees_app; assumption].
Qed.
Lemma take_print_op op : forallb (fun c => negb (c =? 39)%N) op = true -> op <> [] -> forall sps r, List.length sps = List.length op ->
  take_op op (print_op op sps ++ r) = Some (sps, r).
Proof.
  induction op as [|c op IH]; intros H Hn sps r Hl; [congruence|]. cbn [forallb] in H. apply andb_true_iff in H as (Hc & H).
  destruct (print_op_cons c op sps Hl) as (sp & sps' & g & -> & Hl' & -> & ->). cbn [take_op app ignore_none open_none].
  rewrite N.eqb_refl, Hc. cbn [andb]. destruct op as [|c2 op].
  - destruct sps'; [|discriminate]. reflexivity.
  - change (spacing_eqb Joint Joint) with true. rewrite IH; [reflexivity|exact H|discriminate|exact Hl'].
Qed.
Lemma leaf_reads (t : ty) v s s' : pty E 1 t s = (OOk v, s') -> yes (tbeh E t) s v s'.
Proof. intro H. exists 1. exact H. Qed.
Lemma pstate_eta s r : ps_rest s = r -> s = PS r (ps_scope s) (ps_unexp s).
Proof. destruct s. cbn. intros <-. reflexivity. Qed.
Theorem read_back t v : typed E t v -> reads t v.
Proof.
  intro H. apply (typed_rect E good); try exact H; clear t v H.
  - intros n sp Hn. split; [constructor; exact Hn|]. intros F ts rest s _ Hp _ _ Hs. injection Hp as <-. apply leaf_reads. cbn [pty p_layer]. unfold pmap, bind, p_ident. rewrite Hs. cbn [app ignore_none open_none].
    apply text_mem_false in Hn. rewrite Hn. reflexivity.
  - intros kws n sp Hn. split; [constructor; exact Hn|]. intros F ts rest s _ Hp _ _ Hs. injection Hp as <-. apply leaf_reads. cbn [pty p_layer]. unfold pmap, p_custom_ident, bind, p_ident_any. rewrite Hs. cbn [app ignore_none open_none fst snd].
    apply text_mem_false in Hn. rewrite Hn. reflexivity.
  - intros kw sp. split; [constructor|]. intros F ts rest s _ Hp _ _ Hs. injection Hp as <-. apply leaf_reads. cbn [pty p_layer]. unfold pmap, p_keyword, bind, p_ident_any. rewrite Hs. cbn [app ignore_none open_none fst snd].
    rewrite text_eqb_refl. reflexivity.
  - intros kw sp. split; [constructor|]. intros F ts rest s _ Hp _ _ Hs. injection Hp as <-. apply leaf_reads. cbn [pty p_layer]. unfold pmap, bind, p_token_kw. rewrite Hs. cbn [app ignore_none open_none fst snd].
    rewrite text_eqb_refl. reflexivity.
  - intros op sps Hl. split; [constructor; exact Hl|]. intros F ts rest s Hok Hp _ _ Hs. injection Hp as <-. apply leaf_reads. cbn [pty p_layer]. unfold pmap, bind, p_token. rewrite Hs.
    assert (G : op <> [] /\ forallb (fun c => negb (c =? 39)%N) op = true) by (destruct op; [discriminate|split; [discriminate|exact Hok]]).
    rewrite take_print_op; [reflexivity|apply G|apply G|exact Hl].
  - intros l sp Hv. split; [constructor; exact Hv|]. intros F ts rest s _ Hp _ _ Hs. apply leaf_reads. cbn [pty p_layer]. cbn [print] in Hp.
    assert (Hf : lit_finite l). { destruct l; try exact I. destruct f; [reflexivity|]. cbn in Hp. discriminate. }
    destruct (typed_round_trip l sp Hv Hf) as (ts' & Hp' & H). rewrite Hp in Hp'. injection Hp' as <-. rewrite (pstate_eta s _ Hs). unfold pmap, bind. rewrite H. reflexivity.
  - intros l sp Hv Hb. split; [constructor; assumption|]. intros F ts rest s _ Hp _ _ Hs. apply leaf_reads. cbn [pty p_layer]. cbn [print] in Hp.
    assert (Hf : lit_finite l). { destruct l; try exact I. destruct f; [reflexivity|]. cbn in Hp. discriminate. }
    destruct (any_lit_round_trip l sp Hv Hf) as (ts' & Hp' & H). rewrite Hp in Hp'. injection Hp' as <-. rewrite (pstate_eta s _ Hs). unfold pmap, bind. rewrite H, Hb. reflexivity.
  - split; [constructor|]. intros F ts rest s _ Hp _ _ Hs. injection Hp as <-. apply leaf_reads. cbn [app] in Hs. rewrite set_rest_same by exact Hs. reflexivity.
  - split; [constructor|]. intros F ts rest s Hok Hp HF _ Hs. injection Hp as <-. apply leaf_reads. cbn [app] in Hs. rewrite set_rest_same by exact Hs.
    pose proof (only_end_nil F rest Hok HF) as ->. cbn [pty p_layer]. unfold pmap, bind, p_eof, is_empty. rewrite Hs. reflexivity.
  - split; [constructor|]. intros F ts rest s Hok Hp HF _ Hs. injection Hp as <-. apply leaf_reads. cbn [app] in Hs. rewrite set_rest_same by exact Hs.
    cbn [LL1.ok] in Hok. apply negb_true_iff in Hok. pose proof (seen_not_end F rest Hok HF) as Hne. cbn [pty p_layer]. unfold pmap, bind, p_not_eof, is_empty. rewrite Hs. destruct rest; [congruence|reflexivity].
  - intros a b. split; [constructor|]. intros F ts rest s Hok Hp HF Hr Hs. injection Hp as <-. cbn [app] in Hs. cbn [LL1.ok] in Hok. rewrite !andb_true_iff in Hok. destruct Hok as (_ & Hap).
    rewrite set_rest_same by exact Hs. destruct (apart_no a F s Hap) as (e & He); [rewrite Hs; exact Hr|rewrite Hs; exact HF|]. apply maybe_yes. left. exists e. auto.
  - intros a b x v Hx Hv. split; [constructor; [apply Hx|apply Hv]|]. intros F ts rest s Hok Hp HF Hr Hs. cbn [LL1.ok] in Hok. rewrite !andb_true_iff in Hok. destruct Hok as ((Hok1 & Hok2) & _).
    apply oapp_some in Hp as (u & w & Hu & Hw & ->). rewrite <- app_assoc in Hs. apply maybe_yes. right. exists x, v, (set_rest s (w ++ rest)). split; [reflexivity|]. split.
    + apply (proj2 Hx _ u _ s Hok1 Hu); [eapply seen_peek; eassumption|apply readable_app; split; [eapply shows_readable; eassumption|exact Hr]|exact Hs].
    + apply (proj2 Hv F w rest (set_rest s (w ++ rest)) Hok2 Hw HF Hr). reflexivity.
  - intros d t sp v Hd Hv. split; [constructor; [exact Hd|apply Hv]|]. intros F ts rest s Hok Hp HF Hr Hs. cbn [print] in Hp. destruct (print v) as [ti|] eqn:Ev; [|discriminate]. injection Hp as <-.
    assert (Hok' : ok t [HEnd] = true) by (destruct d; try congruence; exact Hok).
    apply group_yes; [exact Hd|]. exists sp, v, ti, rest, (PS [] (close_span sp) (ps_unexp s)). split; [reflexivity|]. split; [|split].
    + rewrite Hs. cbn [app]. apply ignore_visible. congruence.
    + apply (proj2 Hv [HEnd] ti [] (PS ti (close_span sp) (ps_unexp s)) Hok' Ev); [apply seen_end; reflexivity|constructor|cbn; rewrite app_nil_r; reflexivity].
    + unfold set_rest. cbn [ps_unexp ps_rest]. destruct (ps_unexp s); reflexivity.
  - intros a p inner last Hi Hl Hne. split.
    + constructor; [apply good_pairs; exact Hi| |exact Hne]. destruct last as [v|]; constructor. apply (Hl v eq_refl).
    + intros F ts rest s Hok Hp HF Hr Hs. cbn [LL1.ok] in Hok. rewrite !andb_true_iff, negb_true_iff in Hok. destruct Hok as ((Hend & Hn) & Hok).
      pose proof (only_end_nil F rest Hend HF) as ->. rewrite app_nil_r in Hs. cbn [print] in Hp. rewrite pair_print in Hp. apply punctuated_yes. exists inner, last. split; [reflexivity|].
      apply (fill_read a p inner Hi last Hl Hne Hn Hok ts s Hp Hs).
  - intros a p inner v Hi Hv. split; [constructor; [apply good_pairs; exact Hi|apply Hv]|]. intros F ts rest s Hok Hp HF Hr Hs. cbn [LL1.ok] in Hok.
    pose proof (pairs_unpairs inner v) as Hu. set (x := fst (unpairs inner v)) in *. set (l := snd (unpairs inner v)) in *. assert (Hi' : inner = fst (pairs_of x l)) by (rewrite Hu; reflexivity). assert (Hv' : v = snd (pairs_of x l)) by (rewrite Hu; reflexivity).
    assert (Hxl : good a x /\ Forall (fun y => good p (fst y) /\ good a (snd y)) l).
    { clear - Hi Hv. subst x l. revert Hv. induction Hi as [|(i1, i2) inner (H1 & H2) Hi IH]; intro Hv; cbn [unpairs]; [split; [exact Hv|constructor]|].
      specialize (IH Hv). destruct (unpairs inner v) as (w, l). cbn [fst snd] in *. destruct IH as (IH1 & IH2). split; [exact H1|]. constructor; [split; [exact H2|exact IH1]|exact IH2]. }
    destruct Hxl as (Hx & Hl). rewrite Hi', Hv' in Hp. rewrite print_separated in Hp. destruct (sep_read a p x l Hx Hl F ts rest s Hok Hp HF Hr Hs) as (s1 & H1 & H2).
    apply separated_yes. exists x, s1, l. split; [exact H1|]. split; [exact H2|]. rewrite Hu. reflexivity.
  - intros a l Hl. split; [constructor; apply good_list; exact Hl|]. intros F ts rest s Hok Hp HF Hr Hs. cbn [LL1.ok] in Hok. rewrite !andb_true_iff, negb_true_iff in Hok. destruct Hok as ((Hn & Hok) & Hap).
    apply any_yes. exists l. split; [reflexivity|]. apply (run_read a l Hl F ts rest s Hn Hok Hap Hp HF Hr Hs).
  - intros o r x l t Hx Hl Hf. split; [eapply td_left; [apply Hx|apply good_pairs; exact Hl|exact Hf]|]. intros F ts rest s Hok Hp HF Hr Hs. cbn [LL1.ok] in Hok.
    rewrite (print_left_form _ _ _ Hf) in Hp. destruct (sep_read r o x l Hx Hl F ts rest s Hok Hp HF Hr Hs) as (s1 & H1 & H2). apply left_yes. exists x, s1, l, t. auto.
  - intros o r x l t Hx Hl Hf. split; [eapply td_right; [apply Hx|apply good_pairs; exact Hl|exact Hf]|]. intros F ts rest s Hok Hp HF Hr Hs. cbn [LL1.ok] in Hok.
    rewrite (print_right_form _ _ _ Hf) in Hp. destruct (sep_read r o x l Hx Hl F ts rest s Hok Hp HF Hr Hs) as (s1 & H1 & H2). apply right_yes. exists x, s1, l, t. auto.
  - intros a b v Hv. split; [constructor; apply Hv|]. intros F ts rest s Hok Hp HF Hr Hs. cbn [LL1.ok] in Hok. rewrite !andb_true_iff in Hok. destruct Hok as ((Hok1 & _) & _).
    apply either_yes. left. exists v. split; [reflexivity|]. apply (proj2 Hv F ts rest s Hok1 Hp HF Hr Hs).
  - intros a b v Hv. split; [constructor; apply Hv|]. intros F ts rest s Hok Hp HF Hr Hs. cbn [LL1.ok] in Hok. rewrite !andb_true_iff in Hok. destruct Hok as ((_ & Hok2) & Hap).
    apply either_yes. right. destruct (apart_no a _ s Hap) as (e & He).
    + rewrite Hs. apply readable_app. split; [eapply shows_readable; eassumption|exact Hr].
    + rewrite Hs. apply (seen_peek b v ts F rest Hv Hp HF).
    + exists e, v. split; [reflexivity|]. split; [exact He|]. apply (proj2 Hv F ts rest s Hok2 Hp HF Hr Hs).
  - intros a v Hv. split; [constructor; apply Hv|]. intros F ts rest s Hok Hp HF Hr Hs. apply box_yes. apply (proj2 Hv F ts rest s Hok Hp HF Hr Hs).
  - intros i c vs Hi Hf. split; [eapply td_struct; [exact Hi|apply good_fields; exact Hf]|]. intros F ts rest s Hok Hp HF Hr Hs. cbn [LL1.ok] in Hok. apply inclb_incl in Hok.
    pose proof (Hfo i) as G. rewrite Hi in G. cbn [ok_def] in G. apply (struct_yes E i c Hi). exists vs. split; [reflexivity|].
    apply (fields_read _ _ Hf (fo i) ts rest s G Hp); [eapply seen_incl; eassumption|exact Hr|exact Hs].
  - intros i en cs k c vs Hi Hk Hf. split; [eapply td_enum; [exact Hi|exact Hk|apply good_fields; exact Hf]|]. intros F ts rest s Hok Hp HF Hr Hs. cbn [LL1.ok] in Hok. apply inclb_incl in Hok.
    pose proof (Hfo i) as G. rewrite Hi in G. cbn [ok_def] in G. destruct (variants_check cs [] (fo i) k c G Hk) as (G1 & G2).
    pose proof (seen_incl _ _ _ Hok HF) as HF'. apply (enum_yes E i en cs Hi). exists k, vs, c. split; [reflexivity|]. split; [exact Hk|]. split.
    + apply (fields_read _ _ Hf (fo i) ts rest s G1 Hp HF' Hr Hs).
    + intros j d Hj Hd. assert (Ha : variant_refuses an ac pn pf term (c_fields d) (c_fields c) (fo i) = true) by (apply G2; right; eauto).
      destruct (variant_refuses_no en (c_name d) (c_fields c) vs Hf (c_fields d) (fo i) ts rest s Ha G1 Hp HF' Hr Hs) as (k' & l' & t' & e & Hk' & Hno & e' & He').
      exists e', k', l', t', e. auto.
Qed.
End Acc.
End Facts.
