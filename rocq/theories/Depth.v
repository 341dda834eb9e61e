(** * Depth: a grammar that passes the check of C18 needs fuel at most linear in the number of tokens. *)
From Verif Require Import Base Float Literal Syn Ast Derive Grammar Spec SynFacts Lawful Mono Combinators GrammarBeh Term TermCheck.
Local Open Scope nat_scope.

Definition nd {A} (p : parser A) (s : pstate) : Prop := fst (p s) <> ODiverge.
Lemma nd_bind {A B} (p : parser A) (k : A -> parser B) s : nd p s -> (forall v s1, p s = (OOk v, s1) -> nd (k v) s1) -> nd (bind p k) s.
Proof. unfold nd, bind. intros H Hk. destruct (p s) as ([v|e| |], s1) eqn:E; cbn in *; try discriminate; [apply Hk; reflexivity|congruence]. Qed.
Lemma nd_pmap {A B} (f : A -> B) p s : nd p s -> nd (pmap f p) s.
Proof. intro H. apply nd_bind; [exact H|]. intros. discriminate. Qed.
Lemma nd_map_err {A} f (p : parser A) s : nd p s -> nd (map_err f p) s.
Proof. unfold nd, map_err. destruct (p s) as ([v|e| |], s1); cbn; congruence. Qed.
Lemma nd_spec {A B} (p : parser A) (y : A -> parser B) n s : lawful p -> nd p s -> (forall v s1, p s = (OOk v, s1) -> nd (y v) s1) -> (forall e, nd (n e) s) -> nd (speculate p y n) s.
Proof.
  intros Hl H Hy Hn. unfold nd in *. rewrite speculate_spec by exact Hl. destruct (p s) as ([v|e| |], s1) eqn:E; cbn in *; try discriminate; [apply Hy; reflexivity|apply Hn|congruence].
Qed.
Lemma nd_any {A} (pa : parser A) K : lawful pa -> (forall s, sz s <= K -> nd pa s) -> (forall s v s', pa s = (OOk v, s') -> sz s' < sz s) ->
  forall k s acc, sz s < k -> sz s <= K -> nd (any_loop k pa acc) s.
Proof.
  intros Hl Ht Hc. induction k as [|k IH]; intros s acc Hs HK; [lia|]. unfold nd. rewrite any_loop_speculate. apply nd_spec; [exact Hl|apply Ht; exact HK| |discriminate].
  intros v s1 H. apply Hc in H. apply IH; lia.
Qed.
Lemma nd_separated_loop {A P} (pa : parser A) (pp : parser P) K : lawful pa -> lawful pp -> (forall s, sz s <= K -> nd pa s) -> (forall s, sz s <= K -> nd pp s) ->
  (forall s q s1 v s2, pp s = (OOk q, s1) -> pa s1 = (OOk v, s2) -> sz s2 < sz s) ->
  forall k s acc c, sz s < k -> sz s <= K -> nd (separated_loop k pa pp acc c) s.
Proof.
  intros La Lp Ha Hp Hc. induction k as [|k IH]; intros s acc c Hs HK; [lia|]. unfold nd. rewrite separated_loop_speculate. apply nd_spec; [exact Lp|apply Hp; exact HK| |discriminate].
  intros q s1 Hq. pose proof (wfp_sz _ _ _ _ Lp Hq). apply nd_bind; [apply Ha; lia|]. intros v s2 Hv. specialize (Hc _ _ _ _ _ Hq Hv). apply IH; lia.
Qed.
Lemma nd_terminated {A P} (pa : parser A) (pp : parser P) K : lawful pa -> lawful pp -> (forall s, sz s <= K -> nd pa s) ->
  (forall s v s1, sz s <= K -> pa s = (OOk v, s1) -> nd pp s1) ->
  (forall s v s1 q s2, pa s = (OOk v, s1) -> pp s1 = (OOk q, s2) -> sz s2 < sz s) ->
  forall k s acc, sz s < k -> sz s <= K -> nd (terminated_loop k pa pp acc) s.
Proof.
  intros La Lp Ha Hp Hc. induction k as [|k IH]; intros s acc Hs HK; [lia|]. unfold nd. rewrite terminated_loop_S. destruct (is_empty s); [discriminate|].
  apply nd_bind; [apply Ha; exact HK|]. intros v s1 Hv. unfold nd. destruct (is_empty s1); [discriminate|]. apply nd_bind; [eapply Hp; eassumption|].
  intros q s2 Hq. specialize (Hc _ _ _ _ _ Hv Hq). apply IH; lia.
Qed.

(** nesting of a type *)
Fixpoint height (t : ty) : nat :=
  match t with
  | TyMaybe a b | TySeparated a b | TyPunctuated a b | TyLeftAssoc a b | TyRightAssoc a b | TyEither a b => S (max (height a) (height b))
  | TyParen a | TyBracket a | TyBrace a | TyAny a | TyBox a => S (height a)
  | _ => 0
  end.
Definition def_height (d : tdef) : nat :=
  match d with
  | DStruct c => list_max (map (fun f => height (snd f)) (c_fields c))
  | DEnum _ cs => list_max (map (fun c => list_max (map (fun f => height (snd f)) (c_fields c))) cs)
  end.
Lemma list_max_In n l : In n l -> n <= list_max l.
Proof. induction l as [|m l IH]; cbn; [contradiction|]. intros [-> |H]; [lia|]. apply IH in H. unfold list_max in H. lia. Qed.
Lemma list_max_le l n : (forall m, In m l -> m <= n) -> list_max l <= n.
Proof. induction l as [|m l IH]; cbn; intro H; [lia|]. assert (fold_right max 0 l <= n) by (apply IH; auto). specialize (H m (or_introl eq_refl)). lia. Qed.

Section Bound.
Context {U : unicode}.
Variable E : env.
Variable nu : nat -> bool.
Variable rk : nat -> nat.
Variables H R : nat.
Hypothesis Hnu : forall i, nullb_def nu (E i) = true -> nu i = true.
Hypothesis Hrk : forall i j, In j (left_refs_def nu (E i)) -> rk j < rk i.
Hypothesis Hprod : forall i, productiveb_def nu (E i) = true.
Hypothesis Hh : forall i, def_height (E i) <= H.
Hypothesis HR : forall i, rk i < R.
(** one more than the highest rank among the productions a type can begin with *)
Definition lr (t : ty) : nat := list_max (map (fun j => S (rk j)) (left_refs nu t)).
Lemma lr_R t : lr t <= R.
Proof. apply list_max_le. intros m Hm. apply in_map_iff in Hm as (j & <- & _). pose proof (HR j). lia. Qed.
Lemma lr_incl t t' : incl (left_refs nu t') (left_refs nu t) -> lr t' <= lr t.
Proof. intro I. apply list_max_le. intros m Hm. apply in_map_iff in Hm as (j & <- & Hj). apply list_max_In. apply in_map_iff. eauto. Qed.
Definition C : nat := R * (H + 2) + H + 2.
Definition mu (t : ty) (s : pstate) : nat := sz s * C + lr t * (H + 2) + height t + 1.
Section Step.
Variable m : nat.
Hypothesis IH : forall t s, productiveb nu t = true -> height t <= H -> mu t s <= m -> nd (pty E m t) s.
Lemma small t s t' s' : mu t s <= S m -> sz s' < sz s -> productiveb nu t' = true -> height t' <= H -> nd (pty E m t') s'.
Proof.
  intros Hm Hs Hp Ht. apply IH; [exact Hp|exact Ht|]. unfold mu in *. pose proof (lr_R t').
  assert (S (sz s') * C <= sz s * C) by (apply Nat.mul_le_mono_r; lia). cbn [Nat.mul] in *. assert (lr t' * (H + 2) <= R * (H + 2)) by (apply Nat.mul_le_mono_r; lia). unfold C at 1 in H1. lia.
Qed.
Lemma left_part t s t' s' : mu t s <= S m -> sz s' <= sz s -> productiveb nu t' = true -> height t < S H -> height t' < height t -> incl (left_refs nu t') (left_refs nu t) ->
  nd (pty E m t') s'.
Proof.
  intros Hm Hs Hp Hht Hht' I. apply IH; [exact Hp|lia|]. unfold mu in *. apply lr_incl in I.
  assert (sz s' * C <= sz s * C) by (apply Nat.mul_le_mono_r; lia). assert (lr t' * (H + 2) <= lr t * (H + 2)) by (apply Nat.mul_le_mono_r; lia). lia.
Qed.
Lemma left_field i s t' s' : mu (TyRef i) s <= S m -> sz s' <= sz s -> productiveb nu t' = true -> height t' <= H -> (forall j, In j (left_refs nu t') -> rk j < rk i) ->
  nd (pty E m t') s'.
Proof.
  intros Hm Hs Hp Ht Hl. apply IH; [exact Hp|exact Ht|]. unfold mu in *. cbn [height] in Hm.
  assert (L : lr t' <= rk i). { apply list_max_le. intros x Hx. apply in_map_iff in Hx as (j & <- & Hj). apply Hl in Hj. lia. }
  assert (L2 : lr (TyRef i) = S (rk i)) by (unfold lr; cbn; lia). rewrite L2 in Hm.
  assert (sz s' * C <= sz s * C) by (apply Nat.mul_le_mono_r; lia). assert (lr t' * (H + 2) <= rk i * (H + 2)) by (apply Nat.mul_le_mono_r; lia). cbn [Nat.mul] in Hm. lia.
Qed.
Lemma pty_le t s v s' : pty E m t s = (OOk v, s') -> sz s' <= sz s.
Proof. intro Hx. eapply wfp_sz; [apply lawful_pty|exact Hx]. Qed.
Lemma pty_lt t s v s' : nullb nu t = false -> pty E m t s = (OOk v, s') -> sz s' < sz s.
Proof. intros Hn Hx. eapply (not_nullb E nu Hnu); eassumption. Qed.

(** a pair: [a], then [b] *)
Lemma second t a b s s0 v s' : mu t s <= S m -> sz s0 <= sz s -> productiveb nu b = true -> height t < S H -> height b < height t ->
  (nullb nu a = true -> incl (left_refs nu b) (left_refs nu t)) -> pty E m a s0 = (OOk v, s') -> nd (pty E m b) s'.
Proof.
  intros Hm Hs Hp Hht Hb I Hx. destruct (nullb nu a) eqn:En.
  - pose proof (pty_le _ _ _ _ Hx). eapply (left_part t s); try eassumption; [lia|]. apply I. reflexivity.
  - pose proof (pty_lt _ _ _ _ En Hx). eapply (small t s); try eassumption; lia.
Qed.
Lemma nd_sep t a b s : left_refs nu t = left_refs nu a ++ (if nullb nu a then left_refs nu b else []) -> height t = S (max (height b) (height a)) ->
  height t <= H -> productiveb nu a = true -> productiveb nu b = true -> nullb nu a && nullb nu b = false -> mu t s <= S m -> nd (p_separated m (pty E m a) (pty E m b)) s.
Proof.
  intros EL EH Ht Ha Hb Hx Hm. assert (Hfuel : sz s < m).
  { unfold mu in Hm. rewrite EH in Hm. assert (sz s * 1 <= sz s * C) by (apply Nat.mul_le_mono_l; unfold C; lia). lia. }
  apply nd_bind.
  - eapply (left_part t s); try eassumption; [lia|lia|lia|]. rewrite EL. apply incl_appl, incl_refl.
  - intros v s1 Hv. pose proof (pty_le _ _ _ _ Hv) as Hle.
    apply (nd_separated_loop (pty E m a) (pty E m b) (sz s1)); try apply lawful_pty; [| | |lia|lia].
    + intros s0 Hs0. eapply (left_part t s); try eassumption; [lia|lia|lia|]. rewrite EL. apply incl_appl, incl_refl.
    + intros s0 Hs0. destruct (nullb nu a) eqn:En.
      * eapply (left_part t s); try eassumption; [lia|lia|lia|]. rewrite EL. apply incl_appr, incl_refl.
      * pose proof (pty_lt _ _ _ _ En Hv). eapply (small t s); try eassumption; lia.
    + intros s0 q s2 w s3 Hq Hw. pose proof (pty_le _ _ _ _ Hq). pose proof (pty_le _ _ _ _ Hw). apply andb_false_iff in Hx as [Hx|Hx].
      * pose proof (pty_lt _ _ _ _ Hx Hw). lia.
      * pose proof (pty_lt _ _ _ _ Hx Hq). lia.
Qed.
Lemma nd_group d t a s : mu t s <= S m -> productiveb nu a = true -> height a <= H -> nd (p_group d (pty E m a)) s.
Proof.
  intros Hm Hp Ht. unfold nd, p_group. destruct (ignore_none (ps_rest s)) as [|[n0 sp0|c0 g0 sp0|r0 sp0|d' sp' i] r1] eqn:Ei; try discriminate.
  destruct (delim_eqb d d'); [|discriminate]. assert (N : nd (pty E m a) (PS i (close_span sp') (ps_unexp s))).
  { eapply (small t s); try eassumption. unfold sz. cbn [ps_rest]. pose proof (ignore_none_pops (ps_rest s)) as Hpop. rewrite Ei in Hpop. apply pops_size in Hpop.
    cbn [ts_size] in Hpop. rewrite tt_size_group in Hpop. lia. }
  unfold nd in N. destruct (pty E m a _) as ([v|e| |], si); cbn in N; try discriminate. congruence.
Qed.
Lemma nd_fields i en ct all : forall fs s s0, mu (TyRef i) s <= S m -> sz s0 <= sz s -> Forall (fun f => productiveb nu (snd f) = true /\ height (snd f) <= H) fs ->
  (sz s0 < sz s \/ all = left_refs_fields nu fs /\ forall j, In j all -> rk j < rk i) -> nd (p_fields en ct (map (fun '(l, t) => (l, pty E m t)) fs)) s0.
Proof.
  induction fs as [|(l, t) fs IHf] in all |- *; intros s s0 Hm Hs HF Hl; [discriminate|]. inversion HF as [|? ? (Hp & Ht) HF']; subst. cbn [snd] in *. cbn [map p_fields].
  apply nd_bind.
  - apply nd_map_err. destruct Hl as [Hl|(-> & Hl)].
    + eapply (small (TyRef i) s); eassumption.
    + eapply (left_field i s); try eassumption. intros j Hj. apply Hl. cbn [left_refs_fields]. apply in_or_app. left. exact Hj.
  - intros v s1 Hv. apply map_err_ok in Hv. pose proof (pty_le _ _ _ _ Hv). apply nd_bind; [|discriminate].
    destruct Hl as [Hl|(-> & Hl)]; [eapply (IHf all s); try eassumption; [lia|left; lia]|].
    destruct (nullb nu t) eqn:En.
    + eapply (IHf (left_refs_fields nu fs) s); try eassumption; [lia|]. right. split; [reflexivity|]. intros j Hj. apply Hl. cbn [left_refs_fields]. rewrite En. apply in_or_app. right. exact Hj.
    + pose proof (pty_lt _ _ _ _ En Hv). eapply (IHf [] s); try eassumption; [lia|left; lia].
Qed.
Lemma nd_variants i en : forall cs k acc s, mu (TyRef i) s <= S m ->
  Forall (fun c => Forall (fun f => productiveb nu (snd f) = true /\ height (snd f) <= H) (c_fields c) /\ forall j, In j (left_refs_fields nu (c_fields c)) -> rk j < rk i) cs ->
  nd (p_variants en k acc (map (fun c => (c_name c, map (fun '(l, t) => (l, pty E m t)) (c_fields c))) cs)) s.
Proof.
  induction cs as [|c cs IHc]; intros k acc s Hm HF; [discriminate|]. inversion HF as [|? ? (Hf & Hl) HF']; subst. cbn [map]. unfold nd. rewrite p_variants_speculate. apply nd_spec.
  - apply lawful_fields. apply Forall_map, Forall_forall. intros (l, t0) _. apply lawful_pty.
  - eapply (nd_fields i en (c_name c) (left_refs_fields nu (c_fields c)) _ s); try eassumption; [lia|]. right. split; [reflexivity|exact Hl].
  - discriminate.
  - intro e. apply IHc; assumption.
Qed.
Lemma step t s : productiveb nu t = true -> height t <= H -> mu t s <= S m -> nd (pty E (S m) t) s.
Proof.
  intros Hp Ht Hm. assert (Hfuel : 0 < height t -> sz s < m).
  { intro H0. unfold mu in Hm. assert (sz s * 1 <= sz s * C) by (apply Nat.mul_le_mono_l; unfold C; lia). lia. }
  unfold nd. rewrite pty_S. destruct t; cbn [p_layer]; try (apply nd_pmap); cbn [productiveb height left_refs] in *; rewrite ?andb_true_iff, ?negb_true_iff in Hp.
  - unfold nd, p_ident. destruct (ignore_none (ps_rest s)) as [|[n0 sp0| | |] ?]; try discriminate. destruct (text_mem n0 _); discriminate.
  - apply bind_total; [apply ident_any_total|]. intros. destruct (text_mem _ _); discriminate.
  - apply bind_total; [apply ident_any_total|]. intros. destruct (text_eqb _ _); discriminate.
  - unfold nd, p_token_kw. destruct (ignore_none (ps_rest s)) as [|[n0 sp0| | |] ?]; try discriminate. destruct (text_eqb n0 _); discriminate.
  - apply take_total.
  - apply litty_total.
  - apply any_lit_total.
  - discriminate.
  - unfold nd, p_eof. destruct (is_empty s); discriminate.
  - unfold nd, p_not_eof. destruct (is_empty s); discriminate.
  - (* Maybe *) destruct Hp as (Hp1 & Hp2). unfold nd. rewrite p_maybe_speculate. apply nd_spec; [apply lawful_pty| | |discriminate].
    + eapply (left_part (TyMaybe t1 t2) s); try eassumption; cbn [height left_refs]; try lia. apply incl_appl, incl_refl.
    + intros v s1 Hv. apply nd_bind; [|discriminate]. eapply (second (TyMaybe t1 t2) t1 t2 s s); try eassumption; cbn [height left_refs]; try lia.
      intros ->. apply incl_appr, incl_refl.
  - eapply nd_group; [exact Hm|exact Hp|lia].
  - eapply nd_group; [exact Hm|exact Hp|lia].
  - eapply nd_group; [exact Hm|exact Hp|lia].
  - (* Punctuated *) destruct Hp as (Hx & Hp1 & Hp2). unfold p_punctuated, p_terminated. apply (nd_terminated (pty E m t1) (pty E m t2) (sz s)); try apply lawful_pty; [| | |apply Hfuel; lia|lia].
    + intros s0 Hs0. eapply (left_part (TyPunctuated t1 t2) s); try eassumption; cbn [height left_refs]; try lia. apply incl_appl, incl_refl.
    + intros s0 v s1 Hs0 Hv. eapply (second (TyPunctuated t1 t2) t1 t2 s s0); try eassumption; cbn [height left_refs]; try lia. intros ->. apply incl_appr, incl_refl.
    + intros s0 v s1 q s2 Hv Hq. pose proof (pty_le _ _ _ _ Hv). pose proof (pty_le _ _ _ _ Hq). apply andb_false_iff in Hx as [Hx|Hx].
      * pose proof (pty_lt _ _ _ _ Hx Hv). lia.
      * pose proof (pty_lt _ _ _ _ Hx Hq). lia.
  - destruct Hp as (Hx & Hp1 & Hp2). eapply (nd_sep (TySeparated t1 t2)); try eassumption; try reflexivity; cbn [height]; lia.
  - destruct Hp as (Hx & Hp). unfold p_any. apply (nd_any (pty E m t) (sz s)); try apply lawful_pty; [| |apply Hfuel; lia|lia].
    + intros s0 Hs0. eapply (left_part (TyAny t) s); try eassumption; cbn [height left_refs]; try lia. apply incl_refl.
    + intros s0 v s1 Hv. eapply pty_lt; eassumption.
  - destruct Hp as (Hx & Hp1 & Hp2). apply nd_bind; [eapply (nd_sep (TyLeftAssoc t1 t2)); try eassumption; try reflexivity; cbn [height]; lia|].
    intros v s1 _. unfold nd. destruct (into_first_rest v) as [(? & ?)|]; discriminate.
  - destruct Hp as (Hx & Hp1 & Hp2). apply nd_bind; [eapply (nd_sep (TyRightAssoc t1 t2)); try eassumption; try reflexivity; cbn [height]; lia|].
    intros v s1 _. unfold nd. destruct (into_last_rest v) as [(? & ?)|]; discriminate.
  - destruct Hp as (Hp1 & Hp2). unfold nd. rewrite p_either_speculate. apply nd_spec; [apply lawful_pty| |discriminate|].
    + eapply (left_part (TyEither t1 t2) s); try eassumption; cbn [height left_refs]; try lia. apply incl_appl, incl_refl.
    + intro e. apply nd_spec; [apply lawful_pty| |discriminate|discriminate].
      eapply (left_part (TyEither t1 t2) s); try eassumption; cbn [height left_refs]; try lia. apply incl_appr, incl_refl.
  - eapply (left_part (TyBox t) s); try eassumption; cbn [height left_refs]; try lia. apply incl_refl.
  - pose proof (Hprod i) as Pi. pose proof (Hh i) as Hi. pose proof (Hrk i) as Ri. destruct (E i) as [c|en cs]; cbn [p_def productiveb_def def_height left_refs_def] in *; apply nd_pmap.
    + eapply (nd_fields i [] (c_name c) _ _ s); [exact Hm|lia| |right; split; [reflexivity|exact Ri]].
      apply Forall_forall. intros f Hf. rewrite forallb_forall in Pi. split; [apply Pi; exact Hf|].
      etransitivity; [|exact Hi]. apply list_max_In. apply in_map_iff. eauto.
    + apply (nd_variants i); [exact Hm|]. apply Forall_forall. intros c Hc. rewrite forallb_forall in Pi. specialize (Pi c Hc). rewrite forallb_forall in Pi. split.
      * apply Forall_forall. intros f Hf. split; [apply Pi; exact Hf|]. etransitivity; [|exact Hi]. etransitivity; [|apply list_max_In; apply in_map_iff; exists c; split; [reflexivity|exact Hc]].
        apply list_max_In. apply in_map_iff. eauto.
      * intros j Hj. apply Ri. apply in_concat. exists (left_refs_fields nu (c_fields c)). split; [|exact Hj]. apply in_map_iff. eauto.
Qed.
End Step.
Theorem enough n : forall t s, productiveb nu t = true -> height t <= H -> mu t s <= n -> nd (pty E n t) s.
Proof.
  induction n as [|n IHn]; intros t s Hp Ht Hm; [unfold mu in Hm; lia|]. apply step; assumption.
Qed.
End Bound.

(** the factor of a grammar *)
Definition max_height (g : list tdef) (t : ty) : nat := max (height t) (list_max (map def_height g)).
Definition max_rank (g : list tdef) : nat := S (list_max (map (rank_of g) (seq 0 (List.length g)))).
Definition factor (g : list tdef) (t : ty) : nat := (max_rank g + 1) * (max_height g t + 2).
Lemma terminating_facts g t : terminating g t = true ->
  (forall i, nullb_def (nu_of g) (env_of g i) = true -> nu_of g i = true) /\
  (forall i j, In j (left_refs_def (nu_of g) (env_of g i)) -> rank_of g j < rank_of g i) /\
  (forall i, productiveb_def (nu_of g) (env_of g i) = true) /\ productiveb (nu_of g) t = true.
Proof.
  unfold terminating. set (nu := nu_of g). set (rk := rank_of g). rewrite andb_true_iff, forallb_forall. intros (H & Ht).
  assert (Hout : forall i, List.length g <= i -> env_of g i = unit_def) by (intros i Hi; apply nth_overflow; exact Hi).
  assert (Hin : forall i, i < List.length g -> implb (nullb_def nu (env_of g i)) (nu i) = true /\ forallb (fun j => rk j <? rk i) (left_refs_def nu (env_of g i)) = true
                 /\ productiveb_def nu (env_of g i) = true).
  { intros i Hi. specialize (H i). rewrite !andb_true_iff in H. destruct H as ((? & ?) & ?); [apply in_seq; lia|auto]. }
  clear H. split; [|split; [|split; [|exact Ht]]].
  - intros i Hi. destruct (Nat.lt_ge_cases i (List.length g)) as [Hlt|Hge].
    + destruct (Hin i Hlt) as (H & _). rewrite Hi in H. exact H.
    + unfold nu, nu_of, look. apply nth_overflow.
      assert (G : forall n f (l : list bool), (forall l, List.length (f l) <= List.length g) -> List.length l <= List.length g -> List.length (iter n f l) <= List.length g).
      { induction n as [|n IH]; cbn; intros f l Hf Hl; [exact Hl|]. apply IH; auto. }
      etransitivity; [apply G|exact Hge]; intros; rewrite map_length; lia.
  - intros i j Hji. destruct (Nat.lt_ge_cases i (List.length g)) as [Hlt|Hge].
    + destruct (Hin i Hlt) as (_ & H & _). rewrite forallb_forall in H. apply Nat.ltb_lt. apply H. exact Hji.
    + rewrite (Hout i Hge) in Hji. destruct Hji.
  - intro i. destruct (Nat.lt_ge_cases i (List.length g)) as [Hlt|Hge]; [apply Hin; exact Hlt|]. rewrite (Hout i Hge). reflexivity.
Qed.
Lemma rank_lt g i : rank_of g i < max_rank g.
Proof.
  unfold max_rank. destruct (Nat.lt_ge_cases i (List.length g)) as [Hlt|Hge].
  - assert (rank_of g i <= list_max (map (rank_of g) (seq 0 (List.length g)))); [|lia]. apply list_max_In. apply in_map_iff. exists i. split; [reflexivity|apply in_seq; lia].
  - assert (E : rank_of g i = 0); [|lia]. unfold rank_of, look. apply nth_overflow.
    assert (G : forall n f (l : list nat), (forall l, List.length (f l) <= List.length g) -> List.length l <= List.length g -> List.length (iter n f l) <= List.length g).
    { induction n as [|n IH]; cbn; intros f l Hf Hl; [exact Hl|]. apply IH; auto. }
    etransitivity; [apply G|exact Hge]; intros; rewrite map_length; lia.
Qed.
Lemma height_le g t i : def_height (env_of g i) <= max_height g t.
Proof.
  unfold max_height, env_of. destruct (Nat.lt_ge_cases i (List.length g)) as [Hlt|Hge].
  - assert (def_height (nth i g unit_def) <= list_max (map def_height g)); [|lia]. apply list_max_In. apply in_map. apply nth_In. exact Hlt.
  - rewrite nth_overflow by exact Hge. cbn. lia.
Qed.
Theorem fuel_linear {U : unicode} g t s n : terminating g t = true -> factor g t * (sz s + 1) <= n -> fst (pty (env_of g) n t s) <> ODiverge.
Proof.
  intros HT Hn. destruct (terminating_facts g t HT) as (A & B & D & F).
  apply (enough (env_of g) (nu_of g) (rank_of g) (max_height g t) (max_rank g) A B D (height_le g t) (rank_lt g) n t s F); [unfold max_height; lia|].
  etransitivity; [|exact Hn]. unfold mu, C, factor. set (H := max_height g t). set (R := max_rank g).
  pose proof (lr_R (nu_of g) (rank_of g) R (rank_lt g) t) as HL. assert (height t <= H) by (unfold H, max_height; lia).
  assert (lr (nu_of g) (rank_of g) t * (H + 2) <= R * (H + 2)) by (apply Nat.mul_le_mono_r; exact HL).
  replace ((R + 1) * (H + 2)) with (R * (H + 2) + (H + 2)) by lia. replace (R * (H + 2) + H + 2) with (R * (H + 2) + (H + 2)) by lia.
  set (X := R * (H + 2)) in *. set (Y := H + 2) in *. rewrite (Nat.mul_add_distr_l (X + Y) (sz s) 1). rewrite (Nat.mul_comm (sz s)). lia.
Qed.
