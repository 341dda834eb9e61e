(** * CostLow: lower bounds: every group of the value is one level of nesting; work of a parse that tries and fails. *)
From Verif Require Import Base Float Literal Syn Ast Derive Grammar Spec SynFacts Lawful Mono Combinators GrammarBeh Cost CostFacts.
Local Open Scope nat_scope.

(** how deeply brackets nest in a value *)
Fixpoint brackets (v : val) : nat :=
  match v with
  | VGroup _ _ x => S (brackets x)
  | VJust x y => max (brackets x) (brackets y)
  | VPunct inner last => max (list_max (map (fun p => max (brackets (fst p)) (brackets (snd p))) inner)) (match last with Some x => brackets x | None => 0 end)
  | VList l => list_max (map brackets l)
  | VBinL a b c | VBinR a b c => max (brackets a) (max (brackets b) (brackets c))
  | VRhs x | VLhs x | VLeft x | VRight x => brackets x
  | VStruct fs | VVariant _ fs => list_max (map brackets fs)
  | _ => 0
  end.

(** [deep d f w]: what [w] returns measures at most [d], or the depth [w] reached *)
Definition deep {A} (d : nat) (f : A -> nat) (w : cparser A) : Prop := forall s v s' c, w s = (OOk v, s', c) -> f v <= max d (depth c).
Lemma deep_leaf {A} d f (p : parser A) : (forall v, f v <= d) -> deep d f (w_leaf p).
Proof. intros H s v s' c E. unfold w_leaf in E. injection E as E <-. cbn. specialize (H v). lia. Qed.
Lemma deep_ret {A} d f (v : A) : f v <= d -> deep d f (w_ret v).
Proof. intros H s w s' c E. injection E as <- <- <-. cbn. lia. Qed.
Lemma deep_more {A} d e f (w : cparser A) : d <= e -> deep d f w -> deep e f w.
Proof. intros Hd H s v s' c E. specialize (H s v s' c E). lia. Qed.
Lemma deep_bind {A B} d f g (p : cparser A) (k : A -> cparser B) : deep d f p -> (forall v, deep (max d (f v)) g (k v)) -> deep d g (w_bind p k).
Proof.
  intros H Hk s w s' c E. unfold w_bind in E. destruct (p s) as ((o, s1), c1) eqn:Ep. destruct o as [v|e| |]; try discriminate E.
  specialize (H s v s1 c1 Ep). destruct (k v s1) as ((o2, s2), c2) eqn:Ek. injection E as -> -> <-. specialize (Hk v s1 w s' c2 Ek). cbn. lia.
Qed.
Lemma deep_pmap {A B} d f g (h : A -> B) p : deep d f p -> (forall v, g (h v) <= f v) -> deep d g (w_pmap h p).
Proof. intros H Hh. eapply deep_bind; [exact H|]. intro v. apply deep_ret. specialize (Hh v). lia. Qed.
Lemma deep_map_err {A} d f e (p : cparser A) : deep d f p -> deep d f (w_map_err e p).
Proof.
  intros H s v s' c E. unfold w_map_err in E. destruct (p s) as ((o, s1), c1) eqn:Ep. destruct o as [w|x| |]; try discriminate E. injection E as -> -> ->. eapply H. exact Ep.
Qed.
Lemma deep_speculate {A B} d f g (p : cparser A) (y : A -> cparser B) n : deep d f p -> (forall v, deep (max d (f v)) g (y v)) -> (forall e, deep d g (n e)) -> deep d g (w_speculate p y n).
Proof.
  intros H Hy Hn s w s' c E. unfold w_speculate in E. destruct (p (fork s)) as ((o, s1), c1) eqn:Ep. destruct o as [v|e| |]; try discriminate E.
  - specialize (H _ v s1 c1 Ep). destruct (y v _) as ((o2, s2), c2) eqn:Ek. injection E as -> -> <-. specialize (Hy v _ w s' c2 Ek). cbn. lia.
  - destruct (n e s) as ((o2, s2), c2) eqn:Ek. injection E as -> -> <-. specialize (Hn e _ w s' c2 Ek). cbn. lia.
Qed.
Lemma deep_group {A} d f dl (p : cparser A) : deep d f p -> deep d (fun x => f (snd x)) (w_group dl p).
Proof.
  intros H s v s' c E. unfold w_group in E. destruct (ignore_none (ps_rest s)) as [|[n sp|c0 sg sp|rp sp|d' sp i] r]; try discriminate E.
  destruct (delim_eqb dl d'); [|discriminate E]. destruct (p _) as ((o, si), c1) eqn:Ep. destruct o as [w|e| |]; try discriminate E. injection E as <- <- <-. cbn. eapply H. exact Ep.
Qed.
Definition pn_brackets (x : punctuated val val) : nat := brackets (VPunct (pn_inner x) (pn_last x)).
Definition acc_brackets (l : list (val * val)) : nat := list_max (map (fun p => max (brackets (fst p)) (brackets (snd p))) l).
Lemma max_app l r : list_max (l ++ r) = max (list_max l) (list_max r).
Proof. induction l as [|x l IH]; [reflexivity|]. change (max x (list_max (l ++ r)) = max (max x (list_max l)) (list_max r)). lia. Qed.
Lemma max_rev l : list_max (rev l) = list_max l.
Proof. induction l as [|x l IH]; [reflexivity|]. cbn [rev]. rewrite max_app, IH. change (max (list_max l) (max x 0) = max x (list_max l)). lia. Qed.
Lemma acc_rev l : acc_brackets (rev l) = acc_brackets l.
Proof. unfold acc_brackets. rewrite map_rev. apply max_rev. Qed.
Lemma acc_cons x l : acc_brackets (x :: l) = max (max (brackets (fst x)) (brackets (snd x))) (acc_brackets l).
Proof. reflexivity. Qed.
Lemma deep_terminated d n (pa pp : cparser val) : deep d brackets pa -> deep d brackets pp -> forall acc e, d <= e -> acc_brackets acc <= e -> deep e pn_brackets (w_terminated n pa pp acc).
Proof.
  intros Ha Hp. induction n as [|n IH]; intros acc e Hd He s v s' c E; [discriminate E|]. cbn [w_terminated] in E. destruct (is_empty s).
  - injection E as <- <- <-. unfold pn_brackets. cbn [pn_inner pn_last brackets]. fold (acc_brackets (rev acc)). rewrite acc_rev. lia.
  - revert E. eapply (deep_bind e brackets pn_brackets pa); [exact (deep_more d e _ _ Hd Ha)|]. intros x s1 w s2 c2 E. destruct (is_empty s1).
    + injection E as <- <- <-. unfold pn_brackets. cbn [pn_inner pn_last brackets]. fold (acc_brackets (rev acc)). rewrite acc_rev. lia.
    + revert E. eapply (deep_bind _ brackets pn_brackets pp); [eapply deep_more; [|exact Hp]; lia|]. intro y. apply IH; [lia|]. rewrite acc_cons. cbn [fst snd]. lia.
Qed.
Lemma deep_separated d n (pa pp : cparser val) : deep d brackets pa -> deep d brackets pp -> deep d pn_brackets (w_separated n pa pp).
Proof.
  intros Ha Hp. eapply deep_bind; [exact Ha|]. intro v.
  assert (G : forall acc cur e, d <= e -> acc_brackets acc <= e -> brackets cur <= e -> deep e pn_brackets (w_separated_loop n pa pp acc cur)).
  { induction n as [|n IH]; intros acc cur e Hd He Hc; [intros s w s' c E; discriminate E|]. cbn [w_separated_loop]. eapply deep_speculate; [eapply deep_more; [|exact Hp]; lia| |].
    - intro q. eapply deep_bind; [eapply deep_more; [|exact Ha]; lia|]. intro x. apply IH; [lia| |lia]. rewrite acc_cons. cbn [fst snd]. lia.
    - intros _. apply deep_ret. unfold pn_brackets. cbn [pn_inner pn_last brackets]. fold (acc_brackets (rev acc)). rewrite acc_rev. lia. }
  apply G; [lia|cbn; lia|lia].
Qed.
Lemma deep_any d n (pa : cparser val) : deep d brackets pa -> forall acc e, d <= e -> list_max (map brackets acc) <= e -> deep e (fun l => list_max (map brackets l)) (w_any n pa acc).
Proof.
  intros Ha. induction n as [|n IH]; intros acc e Hd He; [intros s w s' c E; discriminate E|]. cbn [w_any]. eapply deep_speculate; [eapply deep_more; [|exact Ha]; lia| |].
  - intro x. apply IH; [lia|]. cbn [map list_max fold_right]. change (fold_right max 0 (map brackets acc)) with (list_max (map brackets acc)). lia.
  - intros _. apply deep_ret. rewrite map_rev, max_rev. exact He.
Qed.
Lemma first_rest_brackets : forall (l : list (pair val val)) p acc,
  list_max (map (fun x => max (brackets (fst x)) (brackets (snd x))) (first_rest_loop p l acc)) <=
  max (max (brackets p) (acc_brackets acc)) (list_max (map (fun x => match x with PPunctuated a b => max (brackets a) (brackets b) | PEnd a => brackets a end) l)).
Proof.
  induction l as [|[v q|v] l IH]; intros p acc; cbn [first_rest_loop].
  - fold (acc_brackets (rev acc)). rewrite acc_rev. lia.
  - etransitivity; [apply IH|]. rewrite acc_cons. cbn [fst snd map list_max fold_right]. fold (list_max (map (fun x : pair val val => match x with PPunctuated a b => max (brackets a) (brackets b) | PEnd a => brackets a end) l)). lia.
  - fold (acc_brackets (rev ((p, v) :: acc))). rewrite acc_rev, acc_cons. cbn [fst snd map list_max fold_right]. lia.
Qed.
Lemma pairs_brackets (x : punctuated val val) : list_max (map (fun x => match x with PPunctuated a b => max (brackets a) (brackets b) | PEnd a => brackets a end) (into_pairs x)) = pn_brackets x.
Proof.
  unfold into_pairs, pn_brackets. cbn [brackets]. rewrite map_app, max_app, map_map. f_equal.
  - f_equal. apply map_ext. intros (a, b). reflexivity.
  - destruct (pn_last x); cbn; lia.
Qed.
Lemma build_left_brackets (first : val) rest : brackets (val_of_left (build_left first rest)) <= max (brackets first) (list_max (map (fun x => max (brackets (fst x)) (brackets (snd x))) rest)).
Proof.
  unfold build_left. assert (G : forall rest e, brackets (val_of_left (fold_left (fun expr '(op, rhs) => LBinary expr op rhs) rest e)) <= max (brackets (val_of_left e)) (list_max (map (fun x => max (brackets (fst x)) (brackets (snd x))) rest))).
  { clear. induction rest as [|(o, r) rest IH]; intro e; cbn [fold_left]; [lia|]. etransitivity; [apply IH|]. cbn [val_of_left brackets map list_max fold_right fst snd].
    fold (list_max (map (fun x : val * val => max (brackets (fst x)) (brackets (snd x))) rest)). lia. }
  apply (G rest (LRhs first)).
Qed.
Lemma last_rest_brackets : forall (l : list (pair val val)) acc x r, last_rest_loop l acc = Some (x, r) ->
  max (brackets x) (acc_brackets r) <= max (acc_brackets acc) (list_max (map (fun x => match x with PPunctuated a b => max (brackets a) (brackets b) | PEnd a => brackets a end) l)).
Proof.
  induction l as [|[v q|v] l IH]; intros acc x r H; cbn [last_rest_loop] in H; [discriminate| |].
  - apply IH in H. etransitivity; [exact H|]. rewrite acc_cons. cbn [fst snd map list_max fold_right]. fold (list_max (map (fun x : pair val val => match x with PPunctuated a b => max (brackets a) (brackets b) | PEnd a => brackets a end) l)). lia.
  - injection H as <- <-. rewrite acc_rev. cbn [map list_max fold_right]. lia.
Qed.
Lemma build_right_brackets (last : val) rest : brackets (val_of_right (build_right last rest)) <= max (brackets last) (acc_brackets rest).
Proof.
  unfold build_right. rewrite <- acc_rev. generalize (rev rest) as l. clear rest. intro l.
  assert (G : forall l e, brackets (val_of_right (fold_left (fun expr '(lhs, op) => RBinary lhs op expr) l e)) <= max (brackets (val_of_right e)) (acc_brackets l)).
  { clear. induction l as [|(o, r) rest IH]; intro e; cbn [fold_left]; [lia|]. etransitivity; [apply IH|]. rewrite acc_cons. cbn [val_of_right brackets fst snd]. lia. }
  apply (G l (RLhs last)).
Qed.
Lemma deep_fields en ct d (p : ty -> cparser val) fs : (forall t, deep d brackets (p t)) -> deep d (fun l => list_max (map brackets l)) (w_fields en ct (map (fun '(l, t) => (l, p t)) fs)).
Proof.
  intro H. induction fs as [|(l, t) fs IH]; cbn [map w_fields]; [apply deep_ret; cbn; lia|].
  eapply deep_bind; [apply deep_map_err, H|]. intro v. eapply deep_bind; [eapply deep_more; [|exact IH]; lia|]. intro vs. apply deep_ret.
  cbn [map list_max fold_right]. fold (list_max (map brackets vs)). lia.
Qed.
Lemma deep_variants en d (p : ty -> cparser val) cs : (forall t, deep d brackets (p t)) -> forall k acc,
  deep d (fun x => list_max (map brackets (snd x))) (w_variants en k acc (map (fun c => (c_name c, map (fun '(l, t) => (l, p t)) (c_fields c))) cs)).
Proof.
  intro H. induction cs as [|c cs IH]; intros k acc; cbn [map w_variants].
  - intros s v s' c E. discriminate E.
  - eapply deep_speculate; [apply deep_fields, H| |intro; apply IH]. intro v. apply deep_ret. cbn [snd]. lia.
Qed.
Section Grammar.
Context {U : unicode}.
Theorem deep_wty E n : forall t s v s' c, wty E n t s = (OOk v, s', c) -> brackets v < depth c.
Proof.
  induction n as [|n IH]; intros t s v s' c Ht; [discriminate Ht|]. cbn [wty] in Ht. destruct (w_layer E n (wty E n) t s) as ((o, s1), c1) eqn:El. injection Ht as -> -> <-. cbn [depth inside].
  assert (I : forall t, deep 0 brackets (wty E n t)) by (intros t0 s0 v0 s0' c0 H0; apply IH in H0; lia).
  assert (G : (forall a, t <> TyParen a /\ t <> TyBracket a /\ t <> TyBrace a) -> deep 0 brackets (w_layer E n (wty E n) t)).
  { intro Hng. destruct t; cbn [w_layer]; try (eapply deep_pmap; [apply (deep_leaf 0 (fun _ => 0)); intro; lia|intro; cbn; lia]); try (exfalso; specialize (Hng t); intuition congruence).
    - eapply (deep_pmap 0 (fun o => match o with Some (x, y) => max (brackets x) (brackets y) | None => 0 end)); [|intros [(x, y)|]; cbn; lia].
      eapply deep_speculate; [apply I| |intro; apply deep_ret; lia]. intro x. eapply deep_bind; [eapply deep_more; [|apply I]; lia|]. intro y. apply deep_ret. lia.
    - eapply (deep_pmap 0 pn_brackets); [|intros; unfold pn_brackets; lia]. apply (deep_terminated 0); [apply I|apply I|lia|cbn; lia].
    - eapply (deep_pmap 0 pn_brackets); [|intros; unfold pn_brackets; lia]. apply deep_separated; apply I.
    - eapply (deep_pmap 0 (fun l => list_max (map brackets l))); [|intros; cbn; lia]. apply (deep_any 0); [apply I|lia|cbn; lia].

    - eapply (deep_pmap 0 (fun x => brackets (val_of_left x))); [|intros; lia]. eapply deep_bind; [apply deep_separated; apply I|]. intros x s0 w s2 c2 E0. unfold w_leaf in E0. injection E0 as E0 <-.
      destruct (into_first_rest x) as [(fst_, rest)|] eqn:Ef; [|discriminate E0]. injection E0 as <- <-. etransitivity; [apply build_left_brackets|]. rewrite <- pairs_brackets.
      unfold into_first_rest in Ef. destruct (into_pairs x) as [|[a q|a] l]; [discriminate Ef| |]; injection Ef as <- <-.
      + pose proof (first_rest_brackets l q []) as F. cbn [acc_brackets map list_max fold_right] in *. fold (list_max (map (fun x : pair val val => match x with PPunctuated a b => max (brackets a) (brackets b) | PEnd a => brackets a end) l)) in *. lia.
      + cbn. lia.
    - eapply (deep_pmap 0 (fun x => brackets (val_of_right x))); [|intros; lia]. eapply deep_bind; [apply deep_separated; apply I|]. intros x s0 w s2 c2 E0. unfold w_leaf in E0. injection E0 as E0 <-.
      destruct (into_last_rest x) as [(lst, rest)|] eqn:Ef; [|discriminate E0]. injection E0 as <- <-. etransitivity; [apply build_right_brackets|]. rewrite <- pairs_brackets.
      unfold into_last_rest in Ef. apply last_rest_brackets in Ef. change (acc_brackets []) with 0 in Ef. lia.
    - eapply (deep_pmap 0 (fun x => match x with ELeft v => brackets v | ERight v => brackets v end)); [|intros []; cbn; lia].
      eapply deep_speculate; [apply I|intro; apply deep_ret; lia|]. intro. eapply deep_speculate; [apply I|intro; apply deep_ret; lia|]. intro. intros s0 w s2 c2 E0. discriminate E0.
    - apply I.
    - destruct (E i) as [ct|en cs]; cbn [w_def].
      + eapply (deep_pmap 0 (fun l => list_max (map brackets l))); [apply deep_fields, I|]. intros; cbn; lia.
      + eapply (deep_pmap 0 (fun x => list_max (map brackets (snd x)))); [apply deep_variants, I|]. intros (?, ?). apply le_n. }
  assert (GG : forall d a, t = TyParen a /\ d = DParen \/ t = TyBracket a /\ d = DBracket \/ t = TyBrace a /\ d = DBrace -> brackets v <= depth c1).
  { intros d a Hta. assert (El' : w_pmap (fun x => VGroup d (fst x) (snd x)) (w_group d (wty E n a)) s = (OOk v, s', c1)) by (destruct Hta as [(-> & ->)|[(-> & ->)|(-> & ->)]]; exact El).
    unfold w_pmap, w_bind in El'. destruct (w_group d (wty E n a) s) as ((o, s2), c2) eqn:Eg. destruct o as [(sp, x)|e| |]; try discriminate El'. injection El' as <- _ <-. cbn [fst snd brackets].
    unfold w_group in Eg. destruct (ignore_none (ps_rest s)) as [|[n0 sp0|c0 sg sp0|rp sp0|d' sp0 i] r]; try discriminate Eg. destruct (delim_eqb d d'); [|discriminate Eg].
    destruct (wty E n a _) as ((o, si), c3) eqn:Ew. destruct o as [w|e| |]; try discriminate Eg. injection Eg as _ <- _ <-. apply IH in Ew. cbn. lia. }
  destruct t; try (apply Nat.lt_succ_r; rewrite <- (Nat.max_0_l (depth c1)); eapply G; [intro; repeat split; discriminate|exact El]).
  - apply Nat.lt_succ_r. apply (GG DParen t). auto.
  - apply Nat.lt_succ_r. apply (GG DBracket t). auto.
  - apply Nat.lt_succ_r. apply (GG DBrace t). auto.
Qed.
End Grammar.

(** ** Work of a parse that tries and fails. *)
(** [w] succeeds at [s], leaves [r], and makes at least [k] calls; [w] fails at [s] after at least [k] calls *)
Definition runs {A} (w : cparser A) (s : pstate) (r : list tt) (k : nat) : Prop := exists v c, w s = (OOk v, PS r (ps_scope s) (ps_unexp s), c) /\ k <= calls c.
Definition stops {A} (w : cparser A) (s : pstate) (k : nat) : Prop := exists e s' c, w s = (OErr e, s', c) /\ k <= calls c.
Lemma runs_ret {A} (v : A) s : runs (w_ret v) s (ps_rest s) 0.
Proof. exists v, free. split; [destruct s; reflexivity|cbn; lia]. Qed.
Lemma runs_bind {A B} (p : cparser A) (k : A -> cparser B) s r a r' b : runs p s r a -> (forall v, runs (k v) (PS r (ps_scope s) (ps_unexp s)) r' b) -> runs (w_bind p k) s r' (a + b).
Proof.
  intros (v & c & Ep & Hc) Hk. destruct (Hk v) as (w & c2 & Ek & H2). cbn [ps_scope ps_unexp] in Ek. exists w, (then_ c c2). split; [|cbn; lia]. unfold w_bind. rewrite Ep, Ek. reflexivity.
Qed.
Lemma runs_pmap {A B} (f : A -> B) p s r a : runs p s r a -> runs (w_pmap f p) s r a.
Proof. intro H. rewrite <- (Nat.add_0_r a). eapply runs_bind; [exact H|]. intro v. apply (runs_ret (f v) (PS r (ps_scope s) (ps_unexp s))). Qed.
Lemma stops_bind1 {A B} (p : cparser A) (k : A -> cparser B) s a : stops p s a -> stops (w_bind p k) s a.
Proof. intros (e & s' & c & Ep & Hc). exists e, s', c. split; [|exact Hc]. unfold w_bind. rewrite Ep. reflexivity. Qed.
Lemma stops_bind2 {A B} (p : cparser A) (k : A -> cparser B) s r a b : runs p s r a -> (forall v, stops (k v) (PS r (ps_scope s) (ps_unexp s)) b) -> stops (w_bind p k) s (a + b).
Proof.
  intros (v & c & Ep & Hc) Hk. destruct (Hk v) as (e & s' & c2 & Ek & H2). exists e, s', (then_ c c2). split; [|cbn; lia]. unfold w_bind. rewrite Ep, Ek. reflexivity.
Qed.
Lemma stops_pmap {A B} (f : A -> B) p s a : stops p s a -> stops (w_pmap f p) s a.
Proof. apply stops_bind1. Qed.
Lemma runs_map_err {A} f (p : cparser A) s r a : runs p s r a -> runs (w_map_err f p) s r a.
Proof. intros (v & c & Ep & Hc). exists v, c. split; [|exact Hc]. unfold w_map_err. rewrite Ep. reflexivity. Qed.
Lemma stops_map_err {A} f (p : cparser A) s a : stops p s a -> stops (w_map_err f p) s a.
Proof. intros (e & s' & c & Ep & Hc). exists (f e), s', c. split; [|exact Hc]. unfold w_map_err. rewrite Ep. reflexivity. Qed.
Lemma runs_yes {A B} (p : cparser A) (y : A -> cparser B) n s r a r' b : runs p (fork s) r a -> (forall v, runs (y v) (PS r (ps_scope s) (ps_unexp s)) r' b) -> runs (w_speculate p y n) s r' (a + b).
Proof.
  intros (v & c & Ep & Hc) Hk. destruct (Hk v) as (w & c2 & Ek & H2). exists w, (then_ c c2). split; [|cbn; lia]. unfold w_speculate. rewrite Ep. unfold advance_to. cbn [ps_rest ps_unexp fork].
  replace (match ps_unexp s with Some sp => Some sp | None => None end) with (ps_unexp s) by (destruct (ps_unexp s); reflexivity). rewrite Ek. reflexivity.
Qed.
Lemma runs_no {A B} (p : cparser A) (y : A -> cparser B) n s r a b : stops p (fork s) a -> (forall e, runs (n e) s r b) -> runs (w_speculate p y n) s r (a + b).
Proof.
  intros (e & s' & c & Ep & Hc) Hk. destruct (Hk e) as (w & c2 & Ek & H2). exists w, (then_ c c2). split; [|cbn; lia]. unfold w_speculate. rewrite Ep, Ek. reflexivity.
Qed.
Section Work.
Context {U : unicode}.
Lemma runs_wty E n t s r a : runs (w_layer E n (wty E n) t) s r a -> runs (wty E (S n) t) s r (S a).
Proof. intros (v & c & Ep & Hc). exists v, (inside c). split; [|cbn; lia]. cbn [wty]. rewrite Ep. reflexivity. Qed.
Lemma stops_wty E n t s a : stops (w_layer E n (wty E n) t) s a -> stops (wty E (S n) t) s (S a).
Proof. intros (e & s' & c & Ep & Hc). exists e, s', (inside c). split; [|cbn; lia]. cbn [wty]. rewrite Ep. reflexivity. Qed.
Lemma runs_le {A} (w : cparser A) s r a b : b <= a -> runs w s r a -> runs w s r b.
Proof. intros H (v & c & E & Hc). exists v, c. split; [exact E|lia]. Qed.
End Work.
