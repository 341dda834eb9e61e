(** * PropCost: the work a parse does (C55).

    [costs E t ts c]: [t::parse] on the tokens [ts] comes to an end, [calls c] is the number of calls of
    [Parse::parse] on the way, and [depth c] how many of them were active at once: the part of the call stack that
    depends on the input. *)
From Verif Require Import Base Float Literal Syn Ast Derive Grammar Spec SynFacts Lawful Mono Combinators GrammarBeh Term TermCheck Usage Cost CostFacts Depth CostLow LL1 Linear LinearCheck PropUsage Examples.
Local Open Scope nat_scope.

Definition costs {U : unicode} (E : env) (t : ty) (ts : list tt) (c : cost) : Prop :=
  exists n o s', wty E n t (start ts) = (o, s', c) /\ o <> ODiverge.

(** Counting changes nothing: the instrumented parsers give the outcome and the state of the parsers. *)
Theorem C55_counting_changes_nothing : forall (U : unicode) E n t s, fst (wty E n t s) = pty E n t s.
Proof. intros. apply cost_erase. Qed.
(** A parse has one cost. *)
Theorem C55_one_cost : forall (U : unicode) E t ts c c', costs E t ts c -> costs E t ts c' -> c = c'.
Proof.
  intros U E t ts c c' (n & o & s' & H & Ho) (m & o' & s2 & H' & Ho').
  apply (wty_mono E n (n + m)) in H; [|lia|exact Ho]. apply (wty_mono E m (n + m)) in H'; [|lia|exact Ho']. congruence.
Qed.
(** For a grammar that passes the check of C45 every parse comes to an end; the calls of [Parse::parse] active at once are
    at most a constant of the grammar times the number of tokens and one: the call stack grows at most linearly. *)
Theorem C55_depth_linear : forall (U : unicode) g t, terminating g t = true ->
  forall ts, exists c, costs (env_of g) t ts c /\ depth c <= factor g t * (ts_size ts + 1).
Proof.
  intros U g t Ht ts. set (n := factor g t * (ts_size ts + 1)). assert (H := fuel_linear g t (start ts) n Ht (le_n _)).
  rewrite <- (cost_erase (env_of g) n t (start ts)) in H. assert (D := wty_shallow (env_of g) n t (start ts)). destruct (wty (env_of g) n t (start ts)) as ((o, s'), c) eqn:Ew.
  exists c. split; [|exact D]. exists n, o, s'. auto.
Qed.
Theorem C55_published_depth_linear : forall (U : unicode) gr, In gr published_grammars ->
  forall ts, exists c, costs (defs gr) (g_root gr) ts c /\ depth c <= factor (g_defs gr) (g_root gr) * (ts_size ts + 1).
Proof. intros U gr Hg ts. apply C55_depth_linear. apply published_terminate. exact Hg. Qed.
(** And at least as deep as brackets nest in the value: nesting in the input is nesting on the call stack. *)
Theorem C55_depth_at_least_nesting : forall (U : unicode) E t ts v c, parses E t ts v -> costs E t ts c -> brackets v < depth c.
Proof.
  intros U E t ts v c (n & Hp) (m & o & s' & Hw & Ho). unfold parse2 in Hp. destruct (pty E n t (start ts)) as (o2, s2) eqn:Ep. destruct o2 as [w| | |]; try discriminate Hp.
  assert (w = v) as -> by (destruct (ps_unexp s2); [discriminate Hp|]; destruct (leftover (ps_rest s2)); [discriminate Hp|congruence]).
  assert (E1 := cost_erase E n t (start ts)). unfold erases in E1. destruct (wty E n t (start ts)) as ((o1, s1), c1) eqn:Ew. cbn [fst] in E1. rewrite Ep in E1. injection E1 as -> ->.
  assert (c1 = c) as ->. { eapply C55_one_cost; [exists n; do 2 eexists; split; [exact Ew|discriminate]|exists m, o, s'; auto]. }
  eapply deep_wty. exact Ew.
Qed.

(** ** The number of calls is not linear: README.md:169-207 takes time exponential in the nesting of parentheses, since
    [Or] is tried before [Conjunction], and [And] before [Term], and all begin with the same term. *)
Fixpoint nest (d : nat) : list tt :=
  match d with O => [TIdent (T "true") call_site] | S d => [TGroup DParen call_site (nest d)] end.
Lemma nest_size d : ts_size (nest d) = S d.
Proof. induction d as [|d IH]; [reflexivity|]. change (nest (S d)) with [TGroup DParen call_site (nest d)]. cbn [ts_size]. rewrite tt_size_group, IH. lia. Qed.
Section Readme.
Context {U : unicode}.
Local Notation B := (defs boolean).
Lemma no_token s o n : take_op o (ps_rest s) = None -> stops (wty B (S n) (TyToken o)) s 1.
Proof. intro H. apply stops_wty. apply stops_pmap. unfold w_leaf, p_token. do 3 eexists. rewrite H. split; [reflexivity|cbn; lia]. Qed.
(** [X] op [Box<Self>], or else [X]: twice the work of [X] *)
Lemma twice i e c0 c1 l0 l1 l2 l3 x o r n s a : B i = DEnum e [Ctor c0 [(l0, x); (l1, TyToken o); (l2, r)]; Ctor c1 [(l3, x)]] -> take_op o [] = None ->
  (forall s', ps_rest s' = ps_rest s -> runs (wty B (S n) x) s' [] a) -> runs (wty B (S (S n)) (TyRef i)) s [] (a + a).
Proof.
  intros Hi Ho Hx. eapply runs_le; [|apply runs_wty]. 2:{ cbn [w_layer]. rewrite Hi. cbn [w_def]. apply runs_pmap. cbn [map c_name c_fields w_variants]. apply runs_no.
    - cbn [w_fields]. eapply stops_bind2; [apply runs_map_err, Hx; reflexivity|]. intro v. eapply stops_bind1, stops_bind1, stops_map_err, no_token. exact Ho.
    - intro e0. eapply runs_yes; [cbn [w_fields]; eapply runs_bind; [apply runs_map_err, Hx; reflexivity|]|].
      + intro v. eapply runs_bind; [apply runs_ret|]. intro vs. apply runs_ret.
      + intro v. apply runs_ret. }
  lia.
Qed.
Lemma term_work d : forall n s, ps_rest s = nest d -> runs (wty B (n + 5 * d + 2) (TyRef 2)) s [] (4 ^ d).
Proof.
  induction d as [|d IH]; intros n s Hs.
  - replace (n + 5 * 0 + 2) with (S (S n)) by lia. destruct s as [rs sc u]. cbn [ps_rest] in Hs. subst rs. eapply runs_le; [|apply runs_wty]. 2:{ cbn [w_layer nth boolean g_defs env_of enum w_def]. apply runs_pmap.
      cbn [map tup c_name c_fields indexed w_variants]. eapply runs_yes; [cbn [w_fields]; eapply runs_bind; [apply runs_map_err|]|].
      + apply runs_wty. cbn [w_layer]. apply runs_pmap. unfold w_leaf. do 2 eexists. split; [reflexivity|apply Nat.le_0_l].
      + intro v. eapply runs_bind; [apply runs_ret|]. intro. apply runs_ret.
      + intro v. apply runs_ret. }
    cbn. lia.
  - replace (n + 5 * S d + 2) with (S (S (S (S (S (S (S (n + 5 * d))))))))  by lia. destruct s as [rs sc u]. cbn [ps_rest] in Hs. subst rs.
    assert (Ht : forall s', ps_rest s' = nest d -> runs (wty B (S (S (n + 5 * d))) (TyRef 2)) s' [] (4 ^ d)).
    { intros s' H'. replace (S (S (n + 5 * d))) with (n + 5 * d + 2) by lia. apply IH. exact H'. }
    assert (Hc : forall s', ps_rest s' = nest d -> runs (wty B (S (S (S (n + 5 * d)))) (TyRef 1)) s' [] (4 ^ d + 4 ^ d)).
    { intros s' H'. eapply twice; [reflexivity|reflexivity|]. intros s2 H2. apply Ht. congruence. }
    assert (He : forall s', ps_rest s' = nest d -> runs (wty B (S (S (S (S (n + 5 * d))))) (TyRef 0)) s' [] ((4 ^ d + 4 ^ d) + (4 ^ d + 4 ^ d))).
    { intros s' H'. eapply twice; [reflexivity|reflexivity|]. intros s2 H2. apply Hc. congruence. }
    eapply runs_le; [|apply runs_wty]. 2:{ cbn [w_layer]. change (B 2) with (enum "Term" [tup "Literal" [TyLit LtBool]; tup "Not" [op "!"; TyBox (TyRef 2)]; tup "Group" [TyParen (TyBox (TyRef 0))]]). cbn [enum w_def]. apply runs_pmap.
      cbn [map tup c_name c_fields indexed w_variants]. apply runs_no; [|intro; apply runs_no; [|intro; eapply runs_yes]].
      + cbn [w_fields]. apply stops_bind1, stops_map_err, stops_wty, stops_pmap. do 3 eexists. split; [reflexivity|apply Nat.le_0_l].
      + cbn [w_fields]. apply stops_bind1, stops_map_err. apply no_token. reflexivity.
      + cbn [w_fields]. eapply runs_bind; [apply runs_map_err|].
        * apply runs_wty. cbn [w_layer]. apply runs_pmap. destruct (runs_wty B (S (S (S (S (n + 5 * d))))) (TyBox (TyRef 0)) _ [] _ (He (PS (nest d) (close_span call_site) None) eq_refl)) as (v & c & Ev & Hv).
          exists (call_site, v), c. split; [|exact Hv]. unfold w_group. change (nest (S d)) with [TGroup DParen call_site (nest d)]. cbn [fork ps_rest ps_scope ps_unexp ignore_none delim_eqb open_none]. rewrite Ev. reflexivity.
        * intro v. eapply runs_bind; [apply runs_ret|]. intro. apply runs_ret.
      + intro v. apply runs_ret. }
    rewrite Nat.pow_succ_r'. lia.
Qed.
End Readme.
(** [d] pairs of parentheses around [true] are [d + 1] tokens; the README's parser accepts them, with at least [4 ^ d]
    calls of [Parse::parse]. *)
Theorem C55_readme_exponential : forall (U : unicode) d,
  ts_size (nest d) = S d /\ exists v c, parses (defs boolean) (g_root boolean) (nest d) v /\ costs (defs boolean) (g_root boolean) (nest d) c /\ 4 ^ d <= calls c.
Proof.
  intros U d. split; [apply nest_size|].
  assert (He : runs (wty (defs boolean) (S (S (S (S (5 * d))))) (TyRef 0)) (start (nest d)) [] ((4 ^ d + 4 ^ d) + (4 ^ d + 4 ^ d))).
  { eapply twice; [reflexivity|reflexivity|]. intros s1 H1. eapply twice; [reflexivity|reflexivity|]. intros s2 H2. replace (S (S (5 * d))) with (0 + 5 * d + 2) by lia. apply term_work. rewrite H2. exact H1. }
  destruct He as (v & c & Ev & Hc). exists v, c. split; [|split; [|lia]].
  - exists (S (S (S (S (5 * d))))). unfold parse2. change (g_root boolean) with (TyRef 0). rewrite <- (cost_erase (defs boolean) _ _ (start (nest d))), Ev. reflexivity.
  - do 3 eexists. split; [exact Ev|discriminate].
Qed.
(** So no constant makes the number of calls linear in the number of tokens. *)
Theorem C55_linear_calls_refuted : forall (U : unicode), ~ exists k, forall ts c, costs (defs boolean) (g_root boolean) ts c -> calls c <= k * (ts_size ts + 1).
Proof.
  intros U (k & H). assert (P : forall d, d * d <= 4 ^ d /\ d < 4 ^ d) by (induction d as [|d (IH1 & IH2)]; [cbn; lia|rewrite Nat.pow_succ_r'; nia]).
  destruct (C55_readme_exponential U (4 * k + 4)) as (Hs & v & c & _ & Hc & Hl). apply H in Hc. rewrite Hs in Hc. destruct (P (4 * k + 4)) as (P1 & _). nia.
Qed.

(** ** For the grammars that are decided by the next token it is linear.  [predictive g t] (LinearCheck.v) is a check of the
    grammar alone: it terminates (C45); alternatives of an enum or [Either] begin with different tokens; and where a
    repetition or an option can stop, what follows cannot begin with a token the repetition or option would have begun to
    read.  Whatever the tokens, accepted or refused, the number of calls is at most a constant of the grammar times the
    number of tokens and one. *)
Theorem C55_calls_linear : forall g t, predictive g t = true ->
  exists k, forall (U : unicode) ts c, costs (env_of g) t ts c -> calls c <= k * (ts_size ts + 1).
Proof. intros g t Hp. exists (per_token g t). intros U ts c (n & o & s' & Hw & Ho). exact (predictive_linear g t n (start ts) o s' c Hp Hw Ho). Qed.
(** All published grammars but four pass the check, JSON and the expressions with [LeftAssoc] and [RightAssoc] among them.  The
    four have variants that begin alike: the README's [Expr], and [GenericEnum], [Expr] and [Cond] of parsel/tests/parse.rs. *)
Theorem C55_published_calls_linear : forall gr, In gr published_grammars -> ~ In gr [boolean; generic_enum; arith; cond] ->
  exists k, forall (U : unicode) ts c, costs (defs gr) (g_root gr) ts c -> calls c <= k * (ts_size ts + 1).
Proof.
  assert (C : forall gr, In gr published_grammars -> predictive (g_defs gr) (g_root gr) || existsb (fun x => String.eqb (g_name x) (g_name gr)) [boolean; generic_enum; arith; cond] = true).
  { apply forallb_forall. vm_compute. reflexivity. }
  assert (S : forall gr, In gr published_grammars -> forall x, In x [boolean; generic_enum; arith; cond] -> String.eqb (g_name x) (g_name gr) = true -> In gr [boolean; generic_enum; arith; cond]).
  { assert (In4 : forall x, In x [boolean; generic_enum; arith; cond] -> In x published_grammars) by (intros x Hx; repeat (destruct Hx as [<-|Hx]; [unfold published_grammars, round_trip_grammars; cbn [app In]; tauto|]); contradiction).
    intros gr Hg x Hx Hn. apply String.eqb_eq in Hn. assert (x = gr) as <-; [|exact Hx]. apply In4 in Hx.
    assert (N : NoDup (map g_name published_grammars)) by (apply (NoDup_nodup string_dec) || (repeat (constructor; [cbn; intuition discriminate|]); constructor)).
    revert N Hn Hx Hg. generalize published_grammars. clear. induction l as [|a l IH]; cbn [map In]; [contradiction|]. intro N. inversion N as [|y m Hni N']; subst. intros Hn [->|Hx] [->|Hg]; auto.
    - exfalso. apply Hni. rewrite Hn. apply in_map. exact Hg.
    - exfalso. apply Hni. rewrite <- Hn. apply in_map. exact Hx. }
  intros gr Hg Hne. specialize (C gr Hg). apply orb_true_iff in C as [C|C]; [exact (C55_calls_linear _ _ C)|]. exfalso. apply existsb_exists in C as (x & Hx & Hn). apply Hne. eapply S; eassumption.
Qed.

(** ** Concrete cases. *)
Section WithTables.
Local Existing Instance ascii_only.
(** [true], [(true)] and [((true))]: 14, 82 and 354 calls *)
Example readme_0 : costs (defs boolean) (g_root boolean) (nest 0) (Cost 14 4).
Proof. exists 20. do 2 eexists. split; [vm_compute; reflexivity|discriminate]. Qed.
Example readme_1 : costs (defs boolean) (g_root boolean) (nest 1) (Cost 82 9).
Proof. exists 20. do 2 eexists. split; [vm_compute; reflexivity|discriminate]. Qed.
Example readme_2 : costs (defs boolean) (g_root boolean) (nest 2) (Cost 354 14).
Proof. exists 20. do 2 eexists. split; [vm_compute; reflexivity|discriminate]. Qed.
(** the bound on the depth is a fixed number per token *)
Example readme_factor : factor (g_defs boolean) (g_root boolean) = 20.
Proof. vm_compute. reflexivity. Qed.
Example readme_checked : terminating (g_defs boolean) (g_root boolean) = true /\ In boolean published_grammars.
Proof. split; [vm_compute; reflexivity|right; left; reflexivity]. Qed.
(** JSON is decided by the next token, the README's [Expr] is not *)
Example json_predictive : predictive (g_defs json) (g_root json) = true /\ predictive (g_defs boolean) (g_root boolean) = false.
Proof. split; vm_compute; reflexivity. Qed.
(** and so is [RightAssoc], the list of the README's [Expr] without variants that begin alike; [((true))] is 26 calls, not 354 *)
Example right_assoc_2 : predictive (g_defs right_expr) (g_root right_expr) = true /\ costs (defs right_expr) (g_root right_expr) (nest 2) (Cost 26 14).
Proof. split; [vm_compute; reflexivity|]. exists 20. do 2 eexists. split; [vm_compute; reflexivity|discriminate]. Qed.
(** two pairs of brackets in the value *)
Example readme_nesting : exists v, parses (defs boolean) (g_root boolean) (nest 2) v /\ brackets v = 2.
Proof. eexists. split; [exists 20; vm_compute; reflexivity|reflexivity]. Qed.
End WithTables.

Print Assumptions C55_counting_changes_nothing.
Print Assumptions C55_one_cost.
Print Assumptions C55_depth_linear.
Print Assumptions C55_published_depth_linear.
Print Assumptions C55_depth_at_least_nesting.
Print Assumptions C55_readme_exponential.
Print Assumptions C55_linear_calls_refuted.
Print Assumptions C55_calls_linear.
Print Assumptions C55_published_calls_linear.
