(** * SynFacts: cursors only move forward; facts about invisible groups. *)
From Verif Require Import Base Float Literal Syn Ast Derive Grammar Spec.

Lemma pops_trans a b c : pops a b -> pops b c -> pops a c.
Proof.
  induction 1; intro H1; [exact H1| |].
  - apply pops_drop; auto.
  - apply pops_open; auto.
Qed.

Lemma pops_app_tail a b : pops (a ++ b) b.
Proof. induction a; cbn; [apply pops_refl | apply pops_drop; assumption]. Qed.

Lemma open_none_group sp l : open_none (TGroup DNone sp l) = ignore_none l.
Proof. induction l as [|x r IH]; cbn; [reflexivity|]. destruct (open_none x); [apply IH|reflexivity]. Qed.

Lemma ignore_none_app_nil a b : ignore_none a = [] -> ignore_none (a ++ b) = ignore_none b.
Proof.
  induction a as [|x r IH]; cbn; [reflexivity|]. destruct (open_none x); [apply IH|discriminate].
Qed.
Lemma ignore_none_app a b x r : ignore_none a = x :: r -> ignore_none (a ++ b) = x :: r ++ b.
Proof.
  induction a as [|y a IH]; cbn; [discriminate|].
  destruct (open_none y) as [|z zs]; [apply IH|].
  intro H; injection H as -> <-. rewrite <- app_assoc. reflexivity.
Qed.

(** Entering an invisible group at the head is splicing its contents in. *)
Lemma ignore_none_open sp i r :
  ignore_none (TGroup DNone sp i :: r) = ignore_none (i ++ r).
Proof.
  cbn [ignore_none]. rewrite open_none_group.
  destruct (ignore_none i) as [|x l] eqn:E.
  - symmetry. apply ignore_none_app_nil. exact E.
  - symmetry. apply ignore_none_app. exact E.
Qed.

Lemma ignore_none_visible t r :
  (forall sp i, t <> TGroup DNone sp i) -> ignore_none (t :: r) = t :: r.
Proof.
  intro H. destruct t as [n sp|c s sp|rp sp|d sp l]; try reflexivity.
  destruct d; try reflexivity. exfalso. eapply H. reflexivity.
Qed.

(** Induction on a token list that enters invisible groups at the head. *)
Lemma stream_ind (P : list tt -> Prop) :
  P [] ->
  (forall t r, (forall sp i, t <> TGroup DNone sp i) -> P r -> P (t :: r)) ->
  (forall sp i r, P (i ++ r) -> P (TGroup DNone sp i :: r)) ->
  forall l, P l.
Proof.
  intros H0 Hv Hn l.
  remember (ts_size l) as n eqn:E.
  assert (Hle : ts_size l <= n) by lia. clear E. revert l Hle.
  induction n as [|n IH]; intros l Hle.
  - destruct l as [|t r]; [exact H0|]. cbn in Hle. pose proof (tt_size_pos t). lia.
  - destruct l as [|t r]; [exact H0|]. cbn in Hle. pose proof (tt_size_pos t).
    destruct t as [nm sp|c s sp|rp sp|d sp i].
    1-3: apply Hv; [discriminate | apply IH; lia].
    destruct d.
    1-3: apply Hv; [discriminate | apply IH; lia].
    apply Hn. apply IH. rewrite tt_size_group in Hle. rewrite ts_size_app. lia.
Qed.

Lemma ignore_none_pops l : pops l (ignore_none l).
Proof.
  induction l as [|t r Hv IH|sp i r IH] using stream_ind.
  - apply pops_refl.
  - rewrite ignore_none_visible by assumption. apply pops_refl.
  - rewrite ignore_none_open. apply pops_open. exact IH.
Qed.

Lemma ignore_none_head l t r : ignore_none l = t :: r -> forall sp i, t <> TGroup DNone sp i.
Proof.
  induction l as [|t' r' Hv IH|sp i r' IH] using stream_ind.
  - discriminate.
  - rewrite ignore_none_visible by assumption. intros H; injection H as -> ->. exact Hv.
  - rewrite ignore_none_open. exact IH.
Qed.

Lemma ignore_none_idem l : ignore_none (ignore_none l) = ignore_none l.
Proof.
  destruct (ignore_none l) as [|t r] eqn:E; [reflexivity|].
  apply ignore_none_visible. eapply ignore_none_head. exact E.
Qed.

Lemma flat1_none sp l : flat1 (TGroup DNone sp l) = flat l.
Proof. induction l; cbn; [reflexivity|]. f_equal. Qed.
Lemma flat1_group d sp l : d <> DNone -> flat1 (TGroup d sp l) = [TGroup d sp (flat l)].
Proof. intro H. destruct d; try (contradiction H; reflexivity); reflexivity. Qed.
Lemma flat_app a b : flat (a ++ b) = flat a ++ flat b.
Proof. induction a; cbn; [reflexivity|]. rewrite IHa. apply app_assoc. Qed.
Lemma flat_none sp i r : flat (TGroup DNone sp i :: r) = flat (i ++ r).
Proof. cbn [flat]. rewrite flat1_none, flat_app. reflexivity. Qed.
Lemma flat_ignore_none l : flat (ignore_none l) = flat l.
Proof.
  induction l as [|t r Hv IH|sp i r IH] using stream_ind.
  - reflexivity.
  - rewrite ignore_none_visible by assumption. reflexivity.
  - rewrite ignore_none_open, flat_none. exact IH.
Qed.
Lemma pops_flat a b : pops a b -> exists c, flat a = c ++ flat b.
Proof.
  induction 1 as [l|x r l H [c IH]|sp i r l H [c IH]].
  - exists []. reflexivity.
  - exists (flat1 x ++ c). cbn. rewrite IH. apply app_assoc.
  - exists c. rewrite flat_none. exact IH.
Qed.
Lemma pops_size a b : pops a b -> ts_size b <= ts_size a.
Proof.
  induction 1; cbn [ts_size]; try lia.
  rewrite tt_size_group. rewrite ts_size_app in IHpops. lia.
Qed.

Lemma visible1_group d sp l : visible1 (TGroup d sp l) = match d with DNone => false | _ => visible l end.
Proof. destruct d; [| | |reflexivity]; induction l; cbn in *; try reflexivity; f_equal; assumption. Qed.
Lemma visible_app a b : visible (a ++ b) = visible a && visible b.
Proof. induction a; cbn; [reflexivity|]. rewrite IHa. apply andb_assoc. Qed.
Lemma visible_ignore_none l : visible l = true -> ignore_none l = l.
Proof.
  destruct l as [|t r]; [reflexivity|]. cbn [visible]. intro H. apply andb_true_iff in H as [H _].
  apply ignore_none_visible. intros sp i ->. discriminate.
Qed.
Lemma visible_flat l : visible l = true -> flat l = l.
Proof.
  assert (H1 : forall t, visible1 t = true -> flat1 t = [t]).
  { clear l. intro t. induction t as [n sp|c s sp|r sp|d sp l H] using tt_ind'; try reflexivity.
    rewrite visible1_group. destruct d; try discriminate; intro Hv;
    rewrite flat1_group by discriminate; do 2 f_equal;
    (induction l as [|x r IH]; [reflexivity|]; cbn in Hv; apply andb_true_iff in Hv as [Ha Hb];
     inversion H; subst; cbn; rewrite H2 by assumption; rewrite IH by assumption; reflexivity). }
  induction l as [|x r IH]; [reflexivity|]. cbn [visible flat]. intro H.
  apply andb_true_iff in H as [Ha Hb]. rewrite H1 by assumption. rewrite IH by assumption. reflexivity.
Qed.

Lemma leftover_none_flat l : leftover l = None <-> flat l = [].
Proof.
  induction l as [|t r Hv IH|sp i r IH] using stream_ind.
  - cbn. tauto.
  - destruct t as [n sp|c s sp|rp sp|d sp l]; try (cbn; split; discriminate).
    destruct d; try (cbn; split; discriminate). exfalso. eapply Hv. reflexivity.
  - rewrite flat_none. rewrite <- IH. clear IH. cbn [leftover].
    assert (E : tt_leftover (TGroup DNone sp i) = leftover i).
    { clear. induction i as [|x i IH]; cbn; [reflexivity|]. destruct (tt_leftover x); [reflexivity|exact IH]. }
    rewrite E. clear E.
    assert (E2 : leftover (i ++ r) = match leftover i with Some x => Some x | None => leftover r end).
    { clear. induction i as [|x i IH]; cbn; [reflexivity|]. destruct (tt_leftover x); [reflexivity|exact IH]. }
    rewrite E2. tauto.
Qed.

Lemma token_spans1_group d sp l : token_spans1 (TGroup d sp l) = sp :: token_spans l.
Proof. reflexivity. Qed.
Lemma token_spans_app a b : token_spans (a ++ b) = token_spans a ++ token_spans b.
Proof. apply flat_map_app. Qed.
Lemma token_spans_pops l l' : pops l l' -> incl (token_spans l') (token_spans l).
Proof.
  induction 1 as [l|x r l H IH|sp i r l H IH]; [apply incl_refl| |].
  - apply incl_appr. exact IH.
  - eapply incl_tran; [exact IH|]. rewrite token_spans_app. cbn [token_spans flat_map]. rewrite token_spans1_group. apply incl_app; [apply incl_tl, incl_appl, incl_refl|apply incl_tl, incl_appr, incl_refl].
Qed.
Lemma leftover_span l : forall sp, leftover l = Some sp -> In sp (token_spans l).
Proof.
  assert (A : forall a b, leftover (a ++ b) = match leftover a with Some x => Some x | None => leftover b end).
  { induction a as [|x a IH]; intro b; cbn; [reflexivity|]. destruct (tt_leftover x); [reflexivity|apply IH]. }
  induction l as [|t r Hv IH|sp0 i r IH] using stream_ind; intros sp H.
  - discriminate H.
  - cbn [leftover] in H. assert (E : tt_leftover t = Some (tt_span t)). { destruct t as [n s|c g s|rp s|d s i]; try reflexivity. destruct d; try reflexivity. exfalso. eapply Hv. reflexivity. }
    rewrite E in H. injection H as <-. apply in_or_app. left. destruct t; left; reflexivity.
  - assert (E : leftover (TGroup DNone sp0 i :: r) = leftover (i ++ r)).
    { rewrite A. cbn [leftover]. assert (T : tt_leftover (TGroup DNone sp0 i) = leftover i) by (cbn; clear; induction i as [|x i IHi]; cbn; [reflexivity|destruct (tt_leftover x); [reflexivity|exact IHi]]). rewrite T. reflexivity. }
    rewrite E in H. apply IH in H. rewrite token_spans_app in H. cbn [token_spans flat_map]. rewrite token_spans1_group. right. exact H.
Qed.
Lemma frame_refl s : frame s s.
Proof. repeat split; auto; [apply pops_refl|congruence]. Qed.
Lemma frame_trans a b c : frame a b -> frame b c -> frame a c.
Proof.
  intros (P1 & Q1 & R1 & S1) (P2 & Q2 & R2 & S2). repeat split.
  - eapply pops_trans; eassumption.
  - congruence.
  - auto.
  - intros sp H1 H2. destruct (ps_unexp b) as [sp'|] eqn:E.
    + rewrite (R2 _ eq_refl) in H2. injection H2 as <-. auto.
    + apply (token_spans_pops _ _ P1). auto.
Qed.
Lemma frame_set_rest s r : pops (ps_rest s) r -> frame s (set_rest s r).
Proof. intro H. repeat split; auto. cbn. congruence. Qed.
Lemma frame_fork s fk : frame (fork s) fk -> frame s (advance_to s fk).
Proof.
  intros (P & Q & R & S). repeat split; cbn.
  - exact P.
  - intros sp H. rewrite H. reflexivity.
  - intros sp H1 H2. rewrite H1 in H2. apply S; [reflexivity|exact H2].
Qed.
Lemma frame_unexp_none s s' : frame s s' -> ps_unexp s' = None -> ps_unexp s = None.
Proof. intros (_ & _ & R & _) H. destruct (ps_unexp s) eqn:E; [|reflexivity]. rewrite (R _ eq_refl) in H. discriminate. Qed.

Lemma wfp_ret {A} (v : A) : wfp (ret v).
Proof. intros s o s' H. injection H as <- <-. apply frame_refl. Qed.
Lemma wfp_fail {A} e : wfp (@fail A e).
Proof. intros s o s' H. injection H as <- <-. apply frame_refl. Qed.
Lemma wfp_bind {A B} (p : parser A) (k : A -> parser B) :
  wfp p -> (forall v, wfp (k v)) -> wfp (bind p k).
Proof.
  intros Hp Hk s o s' H. unfold bind in H.
  destruct (p s) as [[v|e| |] s1] eqn:E; apply Hp in E.
  - eapply frame_trans; [exact E|]. eapply Hk. exact H.
  - injection H as <- <-. exact E.
  - injection H as <- <-. exact E.
  - injection H as <- <-. exact E.
Qed.
Lemma wfp_pmap {A B} (f : A -> B) p : wfp p -> wfp (pmap f p).
Proof. intro H. apply wfp_bind; [exact H|]. intro. apply wfp_ret. Qed.
Lemma wfp_and_then {A B} (p : parser A) (k : A -> outcome B) : wfp p -> wfp (and_then p k).
Proof.
  intro H. apply wfp_bind; [exact H|]. intros v s o s' E. injection E as <- <-. apply frame_refl.
Qed.
Lemma wfp_map_err {A} f (p : parser A) : wfp p -> wfp (map_err f p).
Proof.
  intros Hp s o s' H. unfold map_err in H.
  destruct (p s) as [[v|e| |] s1] eqn:E; apply Hp in E; injection H as <- <-; exact E.
Qed.

Lemma ignore_none_pop l t r : ignore_none l = t :: r -> pops l r.
Proof.
  intro H. eapply pops_trans; [apply ignore_none_pops|]. rewrite H. apply pops_drop, pops_refl.
Qed.

Ltac leaf :=
  repeat match goal with
  | H : (match ?x with _ => _ end) = (_, _) |- _ => destruct x eqn:?
  | H : (_, _) = (_, _) |- _ => injection H as <- <-
  end; try discriminate;
  try (apply frame_refl);
  try (apply frame_set_rest; eapply ignore_none_pop; eassumption).

Lemma wfp_ident_any : wfp p_ident_any.
Proof. intros s o s' H. unfold p_ident_any in H. leaf. Qed.
Lemma wfp_ident : wfp p_ident.
Proof. intros s o s' H. unfold p_ident in H. leaf. Qed.
Lemma wfp_token_kw kw : wfp (p_token_kw kw).
Proof. intros s o s' H. unfold p_token_kw in H. leaf. Qed.
Lemma take_op_pops op l sps r : take_op op l = Some (sps, r) -> pops l r.
Proof.
  revert l sps r. induction op as [|c op IH]; cbn; intros l sps r H.
  - injection H as <- <-. apply pops_refl.
  - destruct (ignore_none l) as [|[n sp|c' sg sp|rp sp|d sp i] l'] eqn:E; try discriminate.
    destruct (_ && _); [|discriminate].
    destruct (take_op op l') as [[sps' r']|] eqn:E2; [|discriminate].
    injection H as <- <-. eapply pops_trans; [eapply ignore_none_pop; exact E|]. eapply IH; exact E2.
Qed.
Lemma wfp_token op : wfp (p_token op).
Proof.
  intros s o s' H. unfold p_token in H. destruct (take_op op (ps_rest s)) as [[sps r]|] eqn:E.
  - injection H as <- <-. apply frame_set_rest. eapply take_op_pops; exact E.
  - injection H as <- <-. apply frame_refl.
Qed.
Lemma frame_group s d sp i r sc si : ignore_none (ps_rest s) = TGroup d sp i :: r -> frame (PS i sc (ps_unexp s)) si ->
  frame s (PS r (ps_scope s) (drop_unexp (ps_unexp si) (ps_rest si))).
Proof.
  intros E (P & _ & R & S). cbn in P, R, S. repeat split; cbn.
  - eapply ignore_none_pop; exact E.
  - intros sp0 Hs. rewrite (R _ Hs). reflexivity.
  - intros sp0 Hs Hu. assert (Hin : In sp0 (token_spans i)).
    { unfold drop_unexp in Hu. destruct (ps_unexp si) as [x|].
      - injection Hu as ->. apply S; [exact Hs|reflexivity].
      - apply (token_spans_pops _ _ P). apply leftover_span. exact Hu. }
    apply (token_spans_pops _ _ (ignore_none_pops (ps_rest s))). rewrite E. cbn [token_spans flat_map]. rewrite token_spans1_group. right. apply in_or_app. left. exact Hin.
Qed.
Lemma wfp_group {A} d (p : parser A) : wfp p -> wfp (p_group d p).
Proof.
  intros Hp s o s' H. unfold p_group in H.
  destruct (ignore_none (ps_rest s)) as [|[n sp|c' sg sp|rp sp|d' sp i] l'] eqn:E;
    try (injection H as <- <-; apply frame_refl).
  destruct (delim_eqb d d'); [|injection H as <- <-; apply frame_refl].
  destruct (p _) as [o1 si] eqn:E1. apply Hp in E1. pose proof (frame_group _ _ _ _ _ _ _ E E1) as F.
  destruct o1; injection H as <- <-; exact F.
Qed.
Lemma wfp_terminated {A P} n (pa : parser A) (pp : parser P) :
  wfp pa -> wfp pp -> wfp (p_terminated n pa pp).
Proof.
  intros Ha Hp. unfold p_terminated. generalize (@nil (A * P)).
  induction n as [|n IH]; intros acc s o s' H; cbn in H.
  - injection H as <- <-. apply frame_refl.
  - destruct (is_empty s); [injection H as <- <-; apply frame_refl|].
    revert H. apply wfp_bind; [exact Ha|]. intros v s1 o1 s1' H.
    destruct (is_empty s1); [injection H as <- <-; apply frame_refl|].
    revert H. apply wfp_bind; [exact Hp|]. intro p. apply IH.
Qed.

Section Lits.
Context {U : unicode}.
Lemma wfp_lit : wfp p_lit.
Proof.
  intros s o s' H. unfold p_lit in H. leaf.
  apply frame_set_rest. eapply pops_trans; [eapply ignore_none_pop; eassumption|].
  eapply ignore_none_pop; eassumption.
Qed.
Lemma wfp_typed {A} (sel : slit -> option A) w : wfp (p_typed sel w).
Proof.
  intros s o s' H. unfold p_typed in H.
  destruct (p_lit s) as [[[k sp]|e| |] s1] eqn:E; apply wfp_lit in E.
  - destruct (sel k); injection H as <- <-; exact E.
  - injection H as <- <-; exact E.
  - injection H as <- <-; exact E.
  - injection H as <- <-; exact E.
Qed.
Lemma wfp_any_lit : wfp p_any_lit.
Proof. apply wfp_and_then, wfp_lit. Qed.
End Lits.

(** ** The combinators of [Ast.v] and [Derive.v]. *)
Lemma wfp_custom_ident kws : wfp (p_custom_ident kws).
Proof. apply wfp_bind; [apply wfp_ident_any|]. intro v. destruct (text_mem _ _); [apply wfp_fail|apply wfp_ret]. Qed.
Lemma wfp_keyword kw : wfp (p_keyword kw).
Proof. apply wfp_bind; [apply wfp_ident_any|]. intro v. destruct (text_eqb _ _); [apply wfp_ret|apply wfp_fail]. Qed.
Lemma wfp_empty : wfp p_empty.
Proof. apply wfp_ret. Qed.
Lemma wfp_eof : wfp p_eof.
Proof. intros s o s' H. unfold p_eof in H. leaf. Qed.
Lemma wfp_not_eof : wfp p_not_eof.
Proof. intros s o s' H. unfold p_not_eof in H. leaf. Qed.

Lemma wfp_fork {A} (p : parser A) s o fk : wfp p -> p (fork s) = (o, fk) -> frame s (advance_to s fk).
Proof. intros Hp H. apply frame_fork. eapply Hp. exact H. Qed.

Lemma wfp_maybe {P A} (pp : parser P) (pa : parser A) : wfp pp -> wfp pa -> wfp (p_maybe pp pa).
Proof.
  intros Hp Ha s o s' H. unfold p_maybe in H. destruct (pp (fork s)) as [o1 fk] eqn:E.
  destruct o1.
  - eapply frame_trans; [eapply wfp_fork; [exact Hp|exact E]|].
    eapply wfp_bind; [exact Ha| |exact H]. intro; apply wfp_ret.
  - injection H as <- <-. apply frame_refl.
  - injection H as <- <-. apply frame_refl.
  - injection H as <- <-. apply frame_refl.
Qed.
Lemma wfp_separated_loop {A P} n (pa : parser A) (pp : parser P) :
  wfp pa -> wfp pp -> forall acc cur, wfp (separated_loop n pa pp acc cur).
Proof.
  intros Ha Hp. induction n as [|n IH]; intros acc cur s o s' H; cbn in H.
  - injection H as <- <-. apply frame_refl.
  - destruct (pp (fork s)) as [o1 fk] eqn:E. destruct o1.
    + eapply frame_trans; [eapply wfp_fork; [exact Hp|exact E]|].
      eapply wfp_bind; [exact Ha| |exact H]. intro; apply IH.
    + injection H as <- <-. apply frame_refl.
    + injection H as <- <-. apply frame_refl.
    + injection H as <- <-. apply frame_refl.
Qed.
Lemma wfp_separated {A P} n (pa : parser A) (pp : parser P) : wfp pa -> wfp pp -> wfp (p_separated n pa pp).
Proof. intros Ha Hp. apply wfp_bind; [exact Ha|]. intro. apply wfp_separated_loop; assumption. Qed.
Lemma wfp_any_loop {A} n (pa : parser A) : wfp pa -> forall acc, wfp (any_loop n pa acc).
Proof.
  intros Ha. induction n as [|n IH]; intros acc s o s' H; cbn in H.
  - injection H as <- <-. apply frame_refl.
  - destruct (pa (fork s)) as [o1 fk] eqn:E. destruct o1.
    + eapply frame_trans; [eapply wfp_fork; [exact Ha|exact E]|]. eapply IH. exact H.
    + injection H as <- <-. apply frame_refl.
    + injection H as <- <-. apply frame_refl.
    + injection H as <- <-. apply frame_refl.
Qed.
Lemma wfp_any {A} n (pa : parser A) : wfp pa -> wfp (p_any n pa).
Proof. intro H. apply wfp_any_loop. exact H. Qed.
Lemma wfp_left_assoc {O R} n (po : parser O) (pr : parser R) : wfp po -> wfp pr -> wfp (p_left_assoc n po pr).
Proof.
  intros Ho Hr. apply wfp_bind; [apply wfp_separated; assumption|].
  intros v s o s' H. destruct (into_first_rest v) as [[f r]|]; injection H as <- <-; apply frame_refl.
Qed.
Lemma wfp_right_assoc {O R} n (po : parser O) (pr : parser R) : wfp po -> wfp pr -> wfp (p_right_assoc n po pr).
Proof.
  intros Ho Hr. apply wfp_bind; [apply wfp_separated; assumption|].
  intros v s o s' H. destruct (into_last_rest v) as [[f r]|]; injection H as <- <-; apply frame_refl.
Qed.
Lemma wfp_either {L R} (pl : parser L) (pr : parser R) : wfp pl -> wfp pr -> wfp (p_either pl pr).
Proof.
  intros Hl Hr s o s' H. unfold p_either in H.
  destruct (pl (fork s)) as [o1 fk] eqn:E. destruct o1;
    try (injection H as <- <-; apply frame_refl).
  - injection H as <- <-. eapply wfp_fork; [exact Hl|exact E].
  - destruct (pr (fork s)) as [o2 fk2] eqn:E2. destruct o2;
      injection H as <- <-; first [apply frame_refl | eapply wfp_fork; [exact Hr|exact E2]].
Qed.
Lemma wfp_fields {V} en ct (fs : list (label * parser V)) :
  Forall (fun f => wfp (snd f)) fs -> wfp (p_fields en ct fs).
Proof.
  induction 1 as [|[l p] fs Hp Hfs IH]; cbn; [apply wfp_ret|].
  apply wfp_bind; [apply wfp_map_err; exact Hp|]. intro v.
  apply wfp_bind; [exact IH|]. intro. apply wfp_ret.
Qed.
Lemma wfp_try_variant {A} acc (p : parser A) : wfp p -> wfp (try_parse_variant acc p).
Proof.
  intros Hp s o s' H. unfold try_parse_variant in H. destruct (p (fork s)) as [o1 fk] eqn:E.
  destruct o1; injection H as <- <-; first [apply frame_refl | eapply wfp_fork; eassumption].
Qed.
Lemma wfp_variants {V} en (vs : list (text * list (label * parser V))) :
  Forall (fun v => Forall (fun f => wfp (snd f)) (snd v)) vs ->
  forall k acc, wfp (p_variants en k acc vs).
Proof.
  induction 1 as [|[ct fs] vs Hf Hvs IH]; intros k acc s o s' H; cbn [p_variants] in H.
  - injection H as <- <-. apply frame_refl.
  - destruct (try_parse_variant acc (p_fields en ct fs) s) as [o1 s1] eqn:E.
    assert (F : frame s s1) by exact (wfp_try_variant acc _ (wfp_fields en ct fs Hf) _ _ _ E).
    destruct o1.
    + injection H as <- <-. exact F.
    + eapply frame_trans; [exact F|]. eapply IH. exact H.
    + injection H as <- <-. exact F.
    + injection H as <- <-. exact F.
Qed.
Lemma wfp_enum {V} en (vs : list (text * list (label * parser V))) :
  Forall (fun v => Forall (fun f => wfp (snd f)) (snd v)) vs -> wfp (p_enum en vs).
Proof. intro H. apply wfp_variants. exact H. Qed.
