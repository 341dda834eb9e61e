(** * RoundFacts: from re-printed to re-parsed (C07-C09, C40). *)
From Verif Require Import Base Float Literal Syn Ast Derive Grammar Spec LitSpec LiteralFacts Reprint LitDenote
  SynFacts Lawful Mono Combinators GrammarBeh Sound Sim.

Local Open Scope nat_scope.
Section RoundFacts.
Context {U : unicode}.

Lemma puncts1_group d sp l : puncts1 (TGroup d sp l) = puncts l.
Proof. cbn. induction l as [|x l IH]; cbn; [reflexivity|]. rewrite IH. reflexivity. Qed.
Lemma puncts_group d sp l r : puncts (TGroup d sp l :: r) = puncts l ++ puncts r.
Proof. cbn [puncts]. rewrite puncts1_group. reflexivity. Qed.
Lemma reprints_puncts Q a b : reprints Q nothing a b -> List.length (puncts b) <= List.length (puncts a).
Proof.
  induction 1 as [|n sp a b H IH|c g1 g2 sp a b Hq H IH|r1 r2 sp a b Hd H1 H2 Hwr H IH|g1 r1 r2 sp1 sp2 sp a b Hq Hd H1 H2 Hwr Hs H IH|g1 r1 sp1 sp2 sp a b Hd Hs H IH|d sp i left o a b Hi IHi Hl H IH];
    try (cbn in *; lia).
  unfold nothing in Hl. subst left. rewrite app_nil_r, !puncts_group, !app_length. lia.
Qed.
Lemma reprints_sim (Q : char -> spacing -> spacing -> Prop) (K : char -> bool) a b : (forall c g1 g2, Q c g1 g2 -> K c = true -> g1 = g2) -> reprints Q nothing a b ->
  List.length (puncts b) = List.length (puncts a) -> sim K a b.
Proof.
  intros HQ. induction 1 as [|n sp a b H IH|c g1 g2 sp a b Hq H IH|r1 r2 sp a b Hd H1 H2 Hwr H IH|g1 r1 r2 sp1 sp2 sp a b Hq Hd H1 H2 Hwr Hs H IH|g1 r1 sp1 sp2 sp a b Hd Hs H IH|d sp i left o a b Hi IHi Hl H IH]; intro HL.
  - constructor.
  - constructor. apply IH. exact HL.
  - constructor; [apply HQ; exact Hq|]. apply IH. cbn in HL. lia.
  - constructor; [right; auto|]. apply IH. exact HL.
  - constructor; [apply HQ; exact Hq|]. constructor; [right; auto|]. apply IH. cbn in HL. lia.
  - exfalso. apply reprints_puncts in H. cbn in HL. lia.
  - unfold nothing in Hl. subst left. rewrite app_nil_r in *. rewrite !puncts_group, !app_length in HL.
    apply reprints_puncts in H as H'. apply reprints_puncts in Hi as Hi'. constructor; [apply IHi; lia|apply IH; lia].
Qed.
Lemma reprints_exact Q a b : reprints Q nothing a b -> puncts a = puncts b -> reprints (fun _ g1 g2 => g1 = g2) nothing a b.
Proof.
  induction 1 as [|n sp a b H IH|c g1 g2 sp a b Hq H IH|r1 r2 sp a b Hd H1 H2 Hwr H IH|g1 r1 r2 sp1 sp2 sp a b Hq Hd H1 H2 Hwr Hs H IH|g1 r1 sp1 sp2 sp a b Hd Hs H IH|d sp i left o a b Hi IHi Hl H IH]; intro HL.
  - constructor.
  - constructor. apply IH. exact HL.
  - cbn in HL. injection HL as -> HL. constructor; [reflexivity|]. apply IH. exact HL.
  - constructor; auto.
  - cbn in HL. injection HL as -> HL. apply rp_neg; auto.
  - exfalso. apply reprints_puncts in H. apply (f_equal (@List.length _)) in HL. cbn in HL. lia.
  - unfold nothing in Hl. subst left. rewrite app_nil_r in *. rewrite !puncts_group in HL.
    apply reprints_puncts in H as H'. apply reprints_puncts in Hi as Hi'.
    assert (E : List.length (puncts i) = List.length (puncts o)). { apply (f_equal (@List.length _)) in HL. rewrite !app_length in HL. lia. }
    apply app_eq_app in HL as (m & [(E1 & E2)|(E1 & E2)]).
    + assert (m = []) as ->. { apply (f_equal (@List.length _)) in E1. rewrite app_length in E1. destruct m; [reflexivity|cbn in E1; lia]. }
      rewrite app_nil_r in E1. cbn in E2. rewrite <- (app_nil_r i). constructor; [apply IHi; exact E1|reflexivity|apply IH; auto].
    + assert (m = []) as ->. { apply (f_equal (@List.length _)) in E1. rewrite app_length in E1. destruct m; [reflexivity|cbn in E1; lia]. }
      rewrite app_nil_r in E1. cbn in E2. rewrite <- (app_nil_r i). constructor; [apply IHi; auto|reflexivity|apply IH; auto].
Qed.

(** all spacing matters: no condition on the grammar *)
Lemma op_sharp_all op : op_sharp (fun _ => true) op.
Proof. induction op as [|c [|c2 op] IH]; cbn; auto. Qed.
Lemma leaf_sharp_all t : leaf_sharp (fun _ => true) t.
Proof. destruct t; cbn; try exact I. apply op_sharp_all. Qed.

Lemma parse2_ok {A} (p : parser A) ts v : parse2 p ts = ROk v ->
  exists s', p (start ts) = (OOk v, s') /\ ps_unexp s' = None /\ flat (ps_rest s') = [].
Proof.
  unfold parse2. destruct (p (start ts)) as ([w|e| |], s1); try discriminate. destruct (ps_unexp s1) eqn:Eu; [discriminate|].
  destruct (leftover (ps_rest s1)) eqn:El; [discriminate|]. intro H. injection H as ->. exists s1. repeat split; [exact Eu|]. apply leftover_none_flat. exact El.
Qed.
Theorem whole_reprints Q E t ts v ts' : env_leaves (leaf_spacing Q) E -> leaves (leaf_spacing Q) t ->
  parses E t ts v -> lits_ok ts -> print v = Some ts' -> reprints Q nothing (flat ts) ts'.
Proof.
  intros HE Ht (n & H) Hl Hp. apply parse2_ok in H as (s' & H & Hu & Hr).
  destruct (sound_pty Q E n t HE Ht _ _ _ _ H Hp) as (_ & Hc). destruct (Hc Hl) as (c & Ec & R). cbn [start ps_rest] in Ec.
  rewrite Hr, app_nil_r in Ec. rewrite Ec. eapply reprints_mono; [|exact R]. intros x Hx. apply Hx. exact Hu.
Qed.
Lemma sim_parses K E t a b v : env_leaves (leaf_sharp K) E -> leaves (leaf_sharp K) t -> sim K a b -> parses E t a v ->
  exists w, parses E t b w /\ strip w = strip v.
Proof.
  intros HE Ht Hs (n & H). pose proof (sim_parse2 K E n t a b HE Ht Hs) as R. rewrite H in R.
  destruct (parse2 (pty E n t) b) as [w| | |] eqn:Eb; try contradiction. exists w. split; [exists n; exact Eb|]. symmetry. exact R.
Qed.
Lemma unspan_group d sp l : unspan (TGroup d sp l) = TGroup d call_site (map unspan l).
Proof. reflexivity. Qed.
Lemma unspan_sim : forall a b, map unspan a = map unspan b -> sim (fun _ => true) a b.
Proof.
  assert (H1 : forall t, forall u, unspan t = unspan u -> forall a b, sim (fun _ => true) a b -> sim (fun _ => true) (t :: a) (u :: b)).
  { intro t. induction t as [n sp|c g sp|r sp|d sp l IH] using tt_ind'; intros [n2 sp2|c2 g2 sp2|r2 sp2|d2 sp2 l2] E a b Hab; try discriminate.
    - cbn in E. injection E as ->. constructor. exact Hab.
    - cbn in E. injection E as -> ->. constructor; [reflexivity|exact Hab].
    - cbn in E. injection E as ->. constructor; [left; reflexivity|exact Hab].
    - rewrite !unspan_group in E. injection E as -> E. constructor; [|exact Hab].
      clear Hab. revert l2 E. induction IH as [|x l Hx _ IHl]; intros [|y l2] E; try discriminate; [constructor|].
      cbn in E. injection E as E1 E2. apply Hx; [exact E1|]. apply IHl. exact E2. }
  induction a as [|t a IH]; intros [|u b] E; try discriminate; [constructor|]. cbn [map] in E. injection E as E1 E2. apply H1; auto.
Qed.
End RoundFacts.
