(** * Lang: the concrete syntax a grammar's types spell out, as a relation between values and tokens that knows
    nothing of parsing: no order of trying, no lookahead, no backtracking (C62). *)
From Verif Require Import Base Float Literal Syn Ast Derive Grammar Spec LitSpec LiteralFacts Reprint LitDenote SynFacts Lawful Mono
  Combinators GrammarBeh Assoc ManyFacts Sound Sim RoundFacts Typed PropLL1 PropRoundtrip ParsedTyped PropAgain PropEq.
Local Open Scope nat_scope.

(** ** Specification *)
(** [K]: the operator characters whose spacing matters (because some operator goes on after them).
    The tokens of an operator: all characters but the last are joined to the next one; the last one is not joined to
    what follows if its spacing matters. *)
Definition anyhow : char -> bool := fun _ => false.
Inductive op_tokens (K : char -> bool) : list char -> list span -> list tt -> Prop :=
| ot_nil : op_tokens K [] [] []
| ot_last c g s : c <> 39%N -> (K c = true -> g = Alone) -> op_tokens K [c] [s] [TPunct c g s]
| ot_next c op s sps ts : c <> 39%N -> op <> [] -> op_tokens K op sps ts -> op_tokens K (c :: op) (s :: sps) (TPunct c Joint s :: ts).
(** likewise for the minus sign in front of a number *)
Definition minus_apart (K : char -> bool) (ts : list tt) : Prop :=
  forall g s us, ts = TPunct 45 g s :: us -> K 45%N = true -> g = Alone.

Section Spells.
Context {U : unicode} (K : char -> bool) (E : env).
(** [spells t v ts]: the value [v] of type [t] is written [ts].
    Words and operators are spelled out; what a literal token may be is left to the literal types themselves
    (see C25 to C29). *)
Inductive spells : ty -> val -> list tt -> Prop :=
| sp_ident n s : ~ In n rust_keywords -> spells TyIdent (VIdent n s) [TIdent n s]
| sp_custom kws n s : ~ In n kws -> spells (TyCustomIdent kws) (VIdent n s) [TIdent n s]
| sp_keyword kw s : spells (TyKeyword kw) (VKw kw s) [TIdent kw s]
| sp_token_kw kw s : spells (TyTokenKw kw) (VKw kw s) [TIdent kw s]
| sp_token op sps ts : op_tokens K op sps ts -> spells (TyToken op) (VOp op sps) ts
| sp_lit k v ts : visible ts = true -> parses E (TyLit k) ts v -> minus_apart K ts -> spells (TyLit k) v ts
| sp_any_lit v ts : visible ts = true -> parses E TyAnyLit ts v -> minus_apart K ts -> spells TyAnyLit v ts
(** [Empty], [Eof] and [NotEof] are written as nothing *)
| sp_empty : spells TyEmpty VUnit []
| sp_eof : spells TyEof VUnit []
| sp_not_eof : spells TyNotEof VUnit []
| sp_nothing a b : spells (TyMaybe a b) VNothing []
| sp_just a b x v ts us : spells a x ts -> spells b v us -> spells (TyMaybe a b) (VJust x v) (ts ++ us)
| sp_group d t s v ts : d <> DNone -> spells t v ts -> spells (TyGroup d t) (VGroup d s v) [TGroup d s ts]
(** items followed by separators, the last separator optional; [NotEof] cannot come last, as nothing follows it *)
| sp_punctuated a p inner last ts us : spells_pairs a p inner ts -> spells_opt a last us ->
    (p = TyNotEof -> last = None -> inner = []) -> spells (TyPunctuated a p) (VPunct inner last) (ts ++ us)
| sp_separated a p inner v ts us : spells_pairs a p inner ts -> spells a v us ->
    spells (TySeparated a p) (VPunct inner (Some v)) (ts ++ us)
| sp_any a l ts : spells_list a l ts -> spells (TyAny a) (VList l) ts
| sp_left o r x l t ts us : spells r x ts -> spells_pairs o r l us -> left_form x l t ->
    spells (TyLeftAssoc o r) (val_of_left t) (ts ++ us)
| sp_right o r x l t ts us : spells r x ts -> spells_pairs o r l us -> right_form x l t ->
    spells (TyRightAssoc o r) (val_of_right t) (ts ++ us)
| sp_either_l a b v ts : spells a v ts -> spells (TyEither a b) (VLeft v) ts
| sp_either_r a b v ts : spells b v ts -> spells (TyEither a b) (VRight v) ts
| sp_box a v ts : spells a v ts -> spells (TyBox a) v ts
(** a struct: its fields, one after the other; an enum: the fields of any variant *)
| sp_struct i c vs ts : E i = DStruct c -> spells_fields (c_fields c) vs ts -> spells (TyRef i) (VStruct vs) ts
| sp_enum i en cs k c vs ts : E i = DEnum en cs -> nth_error cs k = Some c -> spells_fields (c_fields c) vs ts ->
    spells (TyRef i) (VVariant k vs) ts
with spells_fields : list (label * ty) -> list val -> list tt -> Prop :=
| sf_nil : spells_fields [] [] []
| sf_cons l t fs v vs ts us : spells t v ts -> spells_fields fs vs us -> spells_fields ((l, t) :: fs) (v :: vs) (ts ++ us)
with spells_list : ty -> list val -> list tt -> Prop :=
| sl_nil t : spells_list t [] []
| sl_cons t v l ts us : spells t v ts -> spells_list t l us -> spells_list t (v :: l) (ts ++ us)
with spells_pairs : ty -> ty -> list (val * val) -> list tt -> Prop :=
| sps_nil a b : spells_pairs a b [] []
| sps_cons a b x y l ts us vs : spells a x ts -> spells b y us -> spells_pairs a b l vs ->
    spells_pairs a b ((x, y) :: l) (ts ++ us ++ vs)
with spells_opt : ty -> option val -> list tt -> Prop :=
| so_none t : spells_opt t None []
| so_some t v ts : spells t v ts -> spells_opt t (Some v) ts.
Scheme spells_ind2 := Minimality for spells Sort Prop
  with spells_fields_ind2 := Minimality for spells_fields Sort Prop
  with spells_list_ind2 := Minimality for spells_list Sort Prop
  with spells_pairs_ind2 := Minimality for spells_pairs Sort Prop
  with spells_opt_ind2 := Minimality for spells_opt Sort Prop.
Combined Scheme spells_mut from spells_ind2, spells_fields_ind2, spells_list_ind2, spells_pairs_ind2, spells_opt_ind2.
End Spells.

(** ** What a literal type accepts on its own *)
Section Lits.
Context {U : unicode}.
(** only the literal counts *)
Definition head_only {A} (q : parser A) : Prop := forall s o s1 x s2 c c2, q s = (OOk o, s1) -> p_lit s = (OOk x, s2) -> p_lit c = (OOk x, c2) -> s1 = s2 /\ q c = (OOk o, c2).
Lemma head_typed {A} (sel : slit -> option A) w : head_only (p_typed sel w).
Proof.
  intros s o s1 (k, sp) s2 c c2 H Hs Hc. unfold p_typed in *. rewrite Hs in H. rewrite Hc. destruct (sel k); [|discriminate]. injection H as H1 H2. rewrite <- H1. auto.
Qed.
Lemma head_lit : head_only p_lit.
Proof. intros s o s1 x s2 c c2 H Hs Hc. rewrite Hs in H. injection H as H1 H2. rewrite <- H1. auto. Qed.
Lemma head_and_then {A B} (q : parser A) (k : A -> outcome B) : head_only q -> head_only (and_then q k).
Proof.
  intros Hq s o s1 x s2 c c2 H Hs Hc. unfold and_then in *. apply bind_ok in H as (a & s0 & H1 & H2). injection H2 as H2 H3.
  destruct (Hq _ _ _ _ _ _ _ H1 Hs Hc) as (H4 & H5). split; [congruence|]. unfold bind. rewrite H5, H2. reflexivity.
Qed.
Lemma head_pmap {A B} (f : A -> B) (q : parser A) : head_only q -> head_only (pmap f q).
Proof. intro Hq. exact (head_and_then q (fun a => OOk (f a)) Hq). Qed.
Lemma head_litty k : head_only (p_litty k).
Proof. destruct k; cbn [p_litty]; first [apply head_pmap|apply head_and_then]; apply head_typed. Qed.
Lemma head_any_lit : head_only p_any_lit.
Proof. apply head_and_then, head_lit. Qed.

Definition single (ts : list tt) : Prop :=
  (exists n s, ts = [TIdent n s]) \/ (exists r s, ts = [TLit r s]) \/ (exists g s r s2, ts = [TPunct 45 g s; TLit r s2]).
(** what a literal was read from, it is read from again *)
Lemma lit_again (q : parser (lit * span)) : head_only q -> (forall s l sp s', q s = (OOk (l, sp), s') -> exists sl, p_lit s = (OOk (sl, sp), s') /\ conv l sl) ->
  forall s l sp s', q s = (OOk (l, sp), s') -> exists ts, flat (ps_rest s) = ts ++ flat (ps_rest s') /\ visible ts = true /\ single ts /\ q (start ts) = (OOk (l, sp), start []).
Proof.
  intros Hq Hinv s l sp s' H. destruct (Hinv _ _ _ _ H) as (sl & Hp & _). pose proof Hp as Hp0.
  apply p_lit_inv in Hp as (r & -> & [(b & Hi & ->)|[(repr & k' & Hi & Hk & ->)|(g & sp1 & sp2 & repr & r1 & k' & Hi & Hi2 & -> & Hk & ->)]]).
  - exists [TIdent (if b then T "true" else T "false") sp]. split; [rewrite <- flat_ignore_none, Hi; reflexivity|]. split; [reflexivity|]. split; [left; eauto|].
    eapply Hq; [exact H|exact Hp0|]. destruct b; reflexivity.
  - exists [TLit repr sp]. split; [rewrite <- flat_ignore_none, Hi; reflexivity|]. split; [reflexivity|]. split; [right; left; eauto|].
    eapply Hq; [exact H|exact Hp0|]. unfold p_lit, start. cbn -[lit_new lit_num]. rewrite Hk. reflexivity.
  - exists [TPunct 45 g sp1; TLit repr sp2]. split; [rewrite <- flat_ignore_none, Hi; cbn [flat flat1 app]; f_equal; rewrite <- flat_ignore_none, Hi2; reflexivity|]. split; [reflexivity|]. split; [right; right; eauto|].
    eapply Hq; [exact H|exact Hp0|]. unfold p_lit, start. cbn -[lit_new lit_num]. rewrite Hk. reflexivity.
Qed.
Lemma parses_lit E k ts l sp : p_litty k (start ts) = (OOk (l, sp), start []) -> parses E (TyLit k) ts (VLit l sp).
Proof. intro H. exists 1. unfold parse2. rewrite pty_S. cbn [p_layer]. unfold pmap, bind. rewrite H. reflexivity. Qed.
Lemma parses_any_lit E ts l sp : p_any_lit (start ts) = (OOk (l, sp), start []) -> parses E TyAnyLit ts (VLit l sp).
Proof. intro H. exists 1. unfold parse2. rewrite pty_S. cbn [p_layer]. unfold pmap, bind. rewrite H. reflexivity. Qed.
Lemma flat_cancel a r : visible a = true -> flat a = flat r ++ [] -> flat r = a.
Proof. intros Hv H. rewrite app_nil_r, visible_flat in H by exact Hv. auto. Qed.
Lemma lit_value E t ts v : (exists k, t = TyLit k) \/ t = TyAnyLit -> visible ts = true -> parses E t ts v ->
  single ts /\ exists l sp, v = VLit l sp.
Proof.
  intros Ht Hv (n & H). apply parse2_ok in H as (s' & H & _ & Hf). destruct n as [|n]; [discriminate H|]. rewrite pty_S in H.
  assert (G : forall q, head_only q -> (forall s l sp s', q s = (OOk (l, sp), s') -> exists sl, p_lit s = (OOk (sl, sp), s') /\ conv l sl) ->
    pmap (fun x => VLit (fst x) (snd x)) q (start ts) = (OOk v, s') -> single ts /\ exists l sp, v = VLit l sp).
  { intros q Hq Hinv Hm. apply pmap_ok in Hm as ((l & sp) & Hm & ->). split; [|cbn; eauto].
    destruct (lit_again q Hq Hinv _ _ _ _ Hm) as (us & Hc & Hu & Hsi & _). rewrite Hf, app_nil_r in Hc. cbn [start ps_rest] in Hc. rewrite visible_flat in Hc by exact Hv. subst us. exact Hsi. }
  destruct Ht as [(k & ->)| ->]; cbn [p_layer] in H.
  - eapply G; [apply (head_litty k)| |exact H]. intros. eapply p_litty_inv. eassumption.
  - eapply G; [apply head_any_lit| |exact H]. intros. eapply p_any_lit_inv. eassumption.
Qed.
End Lits.

(** ** What is parsed is spelled. *)
Section Parsed.
Context {U : unicode} (E : env).
(** a behaviour whose values are spelled by what was consumed *)
Definition cleanly (s : pstate) (w : list tt -> Prop) (s' : pstate) : Prop :=
  frame s s' /\ (ps_unexp s' = None -> exists c, flat (ps_rest s) = c ++ flat (ps_rest s') /\ w c).
Definition spelled (b : behaviour val) (t : ty) : Prop := forall s v s', yes b s v s' -> cleanly s (spells anyhow E t v) s'.
Lemma cleanly_refl s (w : list tt -> Prop) : w [] -> cleanly s w s.
Proof. intro H. split; [apply frame_refl|]. intros _. exists []. auto. Qed.
Lemma cleanly_trans s (w1 w2 w : list tt -> Prop) s1 s2 : cleanly s w1 s1 -> cleanly s1 w2 s2 -> (forall a b, w1 a -> w2 b -> w (a ++ b)) -> cleanly s w s2.
Proof.
  intros (F1 & H1) (F2 & H2) Hw. split; [eapply frame_trans; eassumption|]. intro Hn. destruct (H2 Hn) as (b & Eb & Wb).
  destruct (H1 (frame_unexp_none _ _ F2 Hn)) as (a & Ea & Wa). exists (a ++ b). split; [rewrite Ea, Eb, app_assoc; reflexivity|auto].
Qed.
Lemma cleanly_impl s (w w' : list tt -> Prop) s' : cleanly s w s' -> (forall a, w a -> w' a) -> cleanly s w' s'.
Proof. intros (F & H) Hw. split; [exact F|]. intro Hn. destruct (H Hn) as (c & Ec & Wc). eauto. Qed.
Lemma cleanly_one s x r (w : list tt -> Prop) : ignore_none (ps_rest s) = x :: r -> w (flat1 x) -> cleanly s w (set_rest s r).
Proof.
  intros Hi Hw. split; [apply frame_set_rest; eapply ignore_none_pop; exact Hi|]. intros _. exists (flat1 x). split; [|exact Hw].
  rewrite <- flat_ignore_none, Hi. reflexivity.
Qed.
Lemma cleanly_op op : forall s sps r, take_op op (ps_rest s) = Some (sps, r) -> cleanly s (op_tokens anyhow op sps) (set_rest s r).
Proof.
  induction op as [|c op IH]; intros s sps r H; cbn [take_op] in H.
  - injection H as <- <-. destruct s. apply cleanly_refl. constructor.
  - destruct (ignore_none (ps_rest s)) as [|[n0 sp0|c0 g0 sp0|r0 sp0|d' sp' i] r1] eqn:Ei; try discriminate.
    destruct ((c =? c0)%N && negb (c0 =? 39)%N && _) eqn:Ec; [|discriminate].
    destruct (take_op op r1) as [(sps1, r2)|] eqn:Et; [|discriminate]. injection H as <- <-.
    rewrite !andb_true_iff in Ec. destruct Ec as ((Ec & Eq) & Eg). apply N.eqb_eq in Ec. subst c0. assert (H39 : c <> 39%N) by (intros ->; discriminate).
    destruct op as [|c2 op].
    + cbn [take_op] in Et. injection Et as <- <-. eapply cleanly_one; [exact Ei|]. cbn. constructor; [exact H39|discriminate].
    + specialize (IH (set_rest s r1) sps1 r2 Et). change (set_rest (set_rest s r1) r2) with (set_rest s r2) in IH.
      eapply (cleanly_trans _ (fun ts => ts = [TPunct c Joint sp0])); [|exact IH|].
      * eapply cleanly_one; [exact Ei|]. cbn. destruct g0; [reflexivity|discriminate].
      * intros a b -> Hb. cbn [app]. constructor; [exact H39|discriminate|exact Hb].
Qed.
Lemma cleanly_group {A} d (p : parser A) s sp v s' (w : list tt -> Prop) : d <> DNone -> (forall s0 s1, p s0 = (OOk v, s1) -> cleanly s0 w s1) ->
  p_group d p s = (OOk (sp, v), s') -> cleanly s (fun ts => exists us, ts = [TGroup d sp us] /\ w us) s'.
Proof.
  intros Hd Hp H. apply group_ok in H as (inner & r & si & Hi & H & ->). destruct (Hp _ _ H) as (F & Hr). split.
  - eapply frame_group; [exact Hi|exact F].
  - unfold drop_unexp. cbn [ps_unexp ps_rest]. intro Hn. destruct (ps_unexp si) eqn:Eu; [discriminate Hn|]. apply leftover_none_flat in Hn.
    destruct (Hr eq_refl) as (c & Ec & Wc). cbn [ps_rest] in Ec. rewrite Hn, app_nil_r in Ec. exists [TGroup d sp (flat inner)]. split.
    + rewrite <- flat_ignore_none, Hi. cbn [flat]. rewrite flat1_group by exact Hd. reflexivity.
    + exists c. split; [congruence|exact Wc].
Qed.
Lemma spelled_seq (p : ty -> parser val) (fs : list (label * ty)) : (forall t, spelled (of_parser (p t)) t) -> forall s vs s',
  seq_yes (map (fun x => of_parser (snd x)) (map (fun '(l, t) => (l, p t)) fs)) s vs s' -> cleanly s (spells_fields anyhow E fs vs) s'.
Proof.
  intro Hp. induction fs as [|(l, t) fs IH]; intros s vs s' H; cbn [map snd] in H; inversion H; subst.
  - apply cleanly_refl. constructor.
  - eapply cleanly_trans; [eapply (Hp t); eassumption|apply IH; eassumption|]. intros. constructor; assumption.
Qed.
Lemma spelled_run b t s vs s' : spelled b t -> run_yes b s vs s' -> cleanly s (spells_list anyhow E t vs) s'.
Proof.
  intros Hb H. induction H as [s e Hn|s v s1 vs s2 H1 Hs IH]; [apply cleanly_refl; constructor|].
  eapply cleanly_trans; [eapply Hb; eassumption|exact IH|]. intros. constructor; assumption.
Qed.
Lemma spelled_tail a p ta tp s l s' : spelled a ta -> spelled p tp -> tail_yes a p s l s' -> cleanly s (spells_pairs anyhow E tp ta l) s'.
Proof.
  intros HA HP H. induction H as [s e Hn|s q s1 v s2 l s3 H1 H2 Hs IH]; [apply cleanly_refl; constructor|].
  eapply (cleanly_trans _ (spells anyhow E tp q)); [eapply HP; eassumption|eapply (cleanly_trans _ (spells anyhow E ta v)); [eapply HA; eassumption|exact IH|]|].
  - intros x y X Y. instantiate (1 := fun z => exists x y, z = x ++ y /\ spells anyhow E ta v x /\ spells_pairs anyhow E tp ta l y). cbn beta. eauto.
  - intros x z X (y & w & -> & Y & W). constructor; assumption.
Qed.
Lemma spelled_fill a p ta tp s l o s' : spelled a ta -> spelled p tp -> fill_yes a p s l o s' ->
  cleanly s (fun ts => exists x y, ts = x ++ y /\ spells_pairs anyhow E ta tp l x /\ spells_opt anyhow E ta o y) s'.
Proof.
  intros HA HP H. induction H as [s Hn|s v s1 Hn H1 H2|s v s1 q s2 l o s3 Hn H1 Hn2 H2 Hs IH].
  - apply cleanly_refl. exists [], []. repeat split; constructor.
  - eapply cleanly_impl; [eapply HA; eassumption|]. intros x X. exists [], x. repeat split; [constructor|constructor; exact X].
  - eapply (cleanly_trans _ (spells anyhow E ta v)); [eapply HA; eassumption|eapply (cleanly_trans _ (spells anyhow E tp q)); [eapply HP; eassumption|exact IH|]|].
    + intros x y X Y. instantiate (1 := fun z => exists x y, z = x ++ y /\ spells anyhow E tp q x /\ (exists x y0, y = x ++ y0 /\ spells_pairs anyhow E ta tp l x /\ spells_opt anyhow E ta o y0)). cbn beta. eauto 8.
    + intros x z X (y & w & -> & Y & u & u' & -> & A1 & A2). exists (x ++ y ++ u), u'. split; [rewrite <- !app_assoc; reflexivity|]. split; [constructor; assumption|exact A2].
Qed.
(** a sequence ended by the end of input does not end in [NotEof] *)
Lemma fill_not_eof (a : behaviour val) (p : behaviour val) s l o s' : (forall s v s', yes p s v s' -> ps_rest s <> [] -> s' = s) -> fill_yes a p s l o s' -> o = None -> l = [] \/ ps_rest s = [].
Proof.
  intros Hp H. induction H as [s Hn|s v s1 Hn H1 H2|s v s1 q s2 l o s3 Hn H1 Hn2 H2 Hs IH]; intro Ho; [auto|discriminate|].
  specialize (IH Ho). apply Hp in H2; [|exact Hn2]. subst s2. destruct IH as [->|IH]; [|contradiction]. inversion Hs; subst; [contradiction|discriminate].
Qed.
Lemma not_eof_stays n s v s' : pty E n TyNotEof s = (OOk v, s') -> s' = s.
Proof.
  destruct n as [|n]; [discriminate|]. rewrite pty_S. cbn [p_layer]. intro H. apply pmap_ok in H as (x & H & _). unfold p_not_eof in H. destruct (is_empty s); [discriminate|]. injection H as _ <-. reflexivity.
Qed.
Lemma spells_rotate a p l : forall x u w, spells anyhow E a x u -> spells_pairs anyhow E p a l w ->
  exists u' w', u ++ w = u' ++ w' /\ spells_pairs anyhow E a p (fst (pairs_of x l)) u' /\ spells anyhow E a (snd (pairs_of x l)) w'.
Proof.
  induction l as [|(q, y) l IH]; intros x u w Hx Hl; inversion Hl; subst.
  - exists [], u. split; [apply app_nil_r|]. split; [constructor|exact Hx].
  - match goal with H1 : spells anyhow E p q ?a0, H2 : spells anyhow E a y ?b0, H3 : spells_pairs anyhow E p a l ?c0 |- _ => destruct (IH y b0 c0 H2 H3) as (u' & w' & Eq & A & B); exists (u ++ a0 ++ u'), w' end.
    split; [rewrite Eq, <- !app_assoc; reflexivity|]. cbn [pairs_of]. destruct (pairs_of y l) as (ps, z). cbn [fst snd] in *. split; [constructor; assumption|exact B].
Qed.
Lemma separated_parts {A P} n (pa : parser A) (pp : parser P) s x l s' : lawful pp -> p_separated n pa pp s = (OOk (Pn (fst (pairs_of x l)) (Some (snd (pairs_of x l)))), s') ->
  exists s1, pa s = (OOk x, s1) /\ tail_yes (of_parser pa) (of_parser pp) s1 l s'.
Proof.
  intros Hl H. apply bind_ok in H as (y & s1 & H1 & H2). apply separated_loop_ok in H2 as (l' & H2 & Hx); [|exact Hl]. cbn [rev app] in Hx. injection Hx as Hx1 Hx2.
  assert (HE : unpairs (fst (pairs_of x l)) (snd (pairs_of x l)) = unpairs (fst (pairs_of y l')) (snd (pairs_of y l'))) by (rewrite Hx1, Hx2; reflexivity).
  rewrite !unpairs_pairs in HE. injection HE as -> ->. eauto.
Qed.
Theorem spelled_pty n : forall t, spelled (of_parser (pty E n t)) t.
Proof.
  induction n as [|n Hs]; intros t s v s' H; [discriminate H|]. cbn [yes of_parser] in H. rewrite pty_S in H.
  pose proof (fun t => lawful_pty E n t) as Hlaw.
  destruct t; cbn [p_layer] in H.
  - apply pmap_ok in H as ((x & sp) & H & ->). unfold p_ident in H.
    destruct (ignore_none (ps_rest s)) as [|[n0 sp0|c0 g0 sp0|r0 sp0|d' sp' i] r1] eqn:Ei; try discriminate.
    destruct (text_mem n0 rust_keywords) eqn:Em; [discriminate|]. injection H as <- <- <-. eapply cleanly_one; [exact Ei|]. constructor. intro Hin. apply text_mem_In in Hin. cbn [fst] in Hin. congruence.
  - apply pmap_ok in H as ((x & sp) & H & ->). unfold p_custom_ident in H.
    apply bind_ok in H as ((y & sp1) & s1 & H1 & H2). destruct (text_mem _ _) eqn:Em; [discriminate|]. injection H2 as -> -> ->.
    unfold p_ident_any in H1. destruct (ignore_none (ps_rest s)) as [|[n0 sp0|c0 g0 sp0|r0 sp0|d' sp' i] r1] eqn:Ei; try discriminate.
    injection H1 as <- <- <-. eapply cleanly_one; [exact Ei|]. constructor. intro Hin. apply text_mem_In in Hin. cbn [fst] in *. congruence.
  - apply pmap_ok in H as (sp & H & ->). unfold p_keyword in H.
    apply bind_ok in H as ((y & sp1) & s1 & H1 & H2). cbn [fst snd] in H2. destruct (text_eqb y kw) eqn:Ek; [|discriminate]. injection H2 as -> ->.
    apply text_eqb_eq in Ek. subst y.
    unfold p_ident_any in H1. destruct (ignore_none (ps_rest s)) as [|[n0 sp0|c0 g0 sp0|r0 sp0|d' sp' i] r1] eqn:Ei; try discriminate.
    injection H1 as <- <- <-. eapply cleanly_one; [exact Ei|]. constructor.
  - apply pmap_ok in H as (sp & H & ->). unfold p_token_kw in H.
    destruct (ignore_none (ps_rest s)) as [|[n0 sp0|c0 g0 sp0|r0 sp0|d' sp' i] r1] eqn:Ei; try discriminate.
    destruct (text_eqb n0 kw) eqn:Ek; [|discriminate]. apply text_eqb_eq in Ek. subst n0. injection H as <- <-. eapply cleanly_one; [exact Ei|]. constructor.
  - apply pmap_ok in H as (sps & H & ->). unfold p_token in H.
    destruct (take_op op (ps_rest s)) as [(sps1, r)|] eqn:Et; [|discriminate]. injection H as <- <-. eapply cleanly_impl; [apply cleanly_op; exact Et|]. intros a Ha. constructor. exact Ha.
  - apply pmap_ok in H as ((l & sp) & H & ->). split; [eapply p_litty_inv in H as (sl & H & _); eapply (proj1 lawful_lit); exact H|]. intros _.
    destruct (lit_again _ (head_litty k) (fun s l sp s' => p_litty_inv k s l sp s') _ _ _ _ H) as (ts & Hf & Hv & _ & Hp). exists ts. split; [exact Hf|]. constructor; [exact Hv| |intros ? ? ? _ Q; discriminate Q]. apply parses_lit. exact Hp.
  - apply pmap_ok in H as ((l & sp) & H & ->). split; [eapply p_any_lit_inv in H as (sl & H & _); eapply (proj1 lawful_lit); exact H|]. intros _.
    destruct (lit_again _ head_any_lit (fun s l sp s' => p_any_lit_inv s l sp s') _ _ _ _ H) as (ts & Hf & Hv & _ & Hp). exists ts. split; [exact Hf|]. constructor; [exact Hv| |intros ? ? ? _ Q; discriminate Q]. apply parses_any_lit. exact Hp.
  - apply pmap_ok in H as (x & H & ->). injection H as _ <-. apply cleanly_refl. constructor.
  - apply pmap_ok in H as (x & H & ->). unfold p_eof in H. destruct (is_empty s); [|discriminate]. injection H as _ <-. apply cleanly_refl. constructor.
  - apply pmap_ok in H as (x & H & ->). unfold p_not_eof in H. destruct (is_empty s); [discriminate|]. injection H as _ <-. apply cleanly_refl. constructor.
  - apply pmap_ok in H as (x & H & ->). apply maybe_ok in H; [|apply Hlaw]. destruct x as [(x & y)|].
    + destruct H as (s1 & H1 & H2). eapply cleanly_trans; [eapply Hs; exact H1|eapply Hs; exact H2|]. intros. constructor; assumption.
    + destruct H as (_ & ->). apply cleanly_refl. constructor.
  - apply pmap_ok in H as ((sp & x) & H & ->). eapply cleanly_impl; [eapply (cleanly_group DParen); [discriminate| |exact H]; intros s0 s1 H0; eapply Hs; exact H0|].
    intros a (us & -> & Hu). apply (sp_group anyhow E DParen); [discriminate|exact Hu].
  - apply pmap_ok in H as ((sp & x) & H & ->). eapply cleanly_impl; [eapply (cleanly_group DBracket); [discriminate| |exact H]; intros s0 s1 H0; eapply Hs; exact H0|].
    intros a (us & -> & Hu). apply (sp_group anyhow E DBracket); [discriminate|exact Hu].
  - apply pmap_ok in H as ((sp & x) & H & ->). eapply cleanly_impl; [eapply (cleanly_group DBrace); [discriminate| |exact H]; intros s0 s1 H0; eapply Hs; exact H0|].
    intros a (us & -> & Hu). apply (sp_group anyhow E DBrace); [discriminate|exact Hu].
  - apply pmap_ok in H as (x & H & ->). apply terminated_loop_ok in H as (l & o & H & ->). cbn [pn_inner pn_last rev app].
    eapply cleanly_impl; [eapply spelled_fill; [apply Hs|apply Hs|exact H]|]. intros a (u & w & -> & A1 & A2). constructor; [exact A1|exact A2|].
    intros -> Ho. destruct (fill_not_eof (of_parser (pty E n t1)) (of_parser (pty E n TyNotEof)) s l o s' (fun s0 v0 s1 H1 _ => not_eof_stays n s0 v0 s1 H1) H Ho) as [Hl|Hr]; [exact Hl|]. inversion H; subst; try contradiction. reflexivity.
  - apply pmap_ok in H as (x & H & ->). apply bind_ok in H as (y & s1 & H1 & H2). apply separated_loop_ok in H2 as (l & H2 & ->); [|apply Hlaw].
    cbn [pn_inner pn_last rev app]. eapply cleanly_impl; [eapply (cleanly_trans _ (spells anyhow E t1 y)); [eapply Hs; exact H1|eapply spelled_tail; [apply Hs|apply Hs|exact H2]|]|].
    + intros a b A B. instantiate (1 := fun z => exists a b, z = a ++ b /\ spells anyhow E t1 y a /\ spells_pairs anyhow E t2 t1 l b). cbn beta. eauto.
    + intros z (a & b & -> & A & B). destruct (spells_rotate _ _ _ _ _ _ A B) as (u & w & -> & A' & B'). constructor; assumption.
  - apply pmap_ok in H as (x & H & ->). apply any_loop_ok in H as (l & -> & H); [|apply Hlaw]. cbn [rev app].
    eapply cleanly_impl; [eapply spelled_run; [apply Hs|exact H]|]. intros a A. constructor. exact A.
  - apply pmap_ok in H as (x & H & ->). apply left_assoc_ok in H as (y & l & H & Hf); [|apply Hlaw]. apply separated_parts in H as (s1 & H1 & H2); [|apply Hlaw].
    eapply cleanly_trans; [eapply Hs; exact H1|eapply spelled_tail; [apply Hs|apply Hs|exact H2]|]. intros a b A B. econstructor; eassumption.
  - apply pmap_ok in H as (x & H & ->). apply right_assoc_ok in H as (y & l & H & Hf); [|apply Hlaw]. apply separated_parts in H as (s1 & H1 & H2); [|apply Hlaw].
    eapply cleanly_trans; [eapply Hs; exact H1|eapply spelled_tail; [apply Hs|apply Hs|exact H2]|]. intros a b A B. econstructor; eassumption.
  - apply pmap_ok in H as (x & H & ->). apply either_ok in H; [|apply Hlaw|apply Hlaw]. destruct x as [x|x].
    + eapply cleanly_impl; [eapply Hs; exact H|]. intros. constructor. assumption.
    + destruct H as (_ & H). eapply cleanly_impl; [eapply Hs; exact H|]. intros. constructor. assumption.
  - eapply cleanly_impl; [eapply Hs; exact H|]. intros. constructor. assumption.
  - destruct (E i) as [c|en cs] eqn:Hi; cbn [p_def] in H.
    + apply pmap_ok in H as (vs & H & ->). apply fields_ok in H. eapply cleanly_impl; [eapply spelled_seq; [exact Hs|exact H]|]. intros. econstructor; eassumption.
    + apply pmap_ok in H as ((k & vs) & H & ->). apply variants_ok in H as (k' & w & -> & H1 & H2 & H3).
      * rewrite nth_error_map in H1. destruct (nth_error cs k') as [c|] eqn:Ek; [|discriminate]. cbn in H1. injection H1 as <-.
        apply fields_ok in H2. cbn [fst snd] in H2. eapply cleanly_impl; [eapply spelled_seq; [exact Hs|exact H2]|]. intros. econstructor; eassumption.
      * apply Forall_map, Forall_forall. intros c _. unfold vparser. cbn. apply lawful_fields. apply Forall_map, Forall_forall. intros (l, t0) _. apply Hlaw.
Qed.
Theorem parsed_spelled t ts v : parses E t ts v -> spells anyhow E t v (flat ts).
Proof.
  intros (n & H). apply parse2_ok in H as (s' & H & Hn & Hf). destruct (spelled_pty n t _ _ _ H) as (_ & Hc). destruct (Hc Hn) as (c & Ec & W).
  rewrite Hf, app_nil_r in Ec. cbn [start ps_rest] in Ec. rewrite Ec. exact W.
Qed.
End Parsed.

(** ** Tame tokens: no integer [-0] (which prints as [0], C09) and no floating-point literal beyond the largest
    double (which cannot be printed, C29). *)
Inductive minus_zero {U : unicode} : list tt -> Prop :=
| mz_here g s1 r s2 ts : denotes r = Some (MTok (KInt (T "0"))) -> minus_zero (TPunct 45 g s1 :: TLit r s2 :: ts)
| mz_inside d s us ts : minus_zero us -> minus_zero (TGroup d s us :: ts)
| mz_later x ts : minus_zero ts -> minus_zero (x :: ts).
Definition in_range {U : unicode} (r : text) : Prop := forall f, denotes r = Some (MFloat (Some f)) -> f64_finite f = true.
Definition tame {U : unicode} (ts : list tt) : Prop := ~ minus_zero ts /\ Forall in_range (lits ts).

Section Tame.
Context {U : unicode}.
Lemma mz_app_l a b : minus_zero a -> minus_zero (a ++ b).
Proof. induction 1; cbn [app]; constructor; assumption. Qed.
Lemma mz_app_r a b : minus_zero b -> minus_zero (a ++ b).
Proof. intro H. induction a; cbn [app]; [exact H|constructor; assumption]. Qed.
Lemma tame_app a b : tame (a ++ b) -> tame a /\ tame b.
Proof.
  intros (H & F). rewrite lits_app in F. apply Forall_app in F as (F1 & F2). split; split; try assumption; intro Z; apply H; [apply mz_app_l|apply mz_app_r]; exact Z.
Qed.
Lemma tame_group d s us : tame [TGroup d s us] -> tame us.
Proof. intros (H & F). cbn [lits] in F. rewrite lits1_group, app_nil_r in F. split; [|exact F]. intro Z. apply H. constructor. exact Z. Qed.
Lemma lits_ok_group d s us : lits_ok [TGroup d s us] -> lits_ok us.
Proof. unfold lits_ok. cbn [lits]. rewrite lits1_group, app_nil_r. auto. Qed.

Lemma lit_reads E t ts v : (exists k, t = TyLit k) \/ t = TyAnyLit -> visible ts = true -> parses E t ts v ->
  exists l sp sl, v = VLit l sp /\ p_lit (start ts) = (OOk (sl, sp), start []) /\ conv l sl /\ (t = TyAnyLit -> lit_try_from (sl, sp) = OOk (l, sp)).
Proof.
  intros Ht Hv (n & H). apply parse2_ok in H as (s' & H & Hn & Hf). destruct n as [|n]; [discriminate H|]. rewrite pty_S in H.
  assert (Hend : forall sl sp, p_lit (start ts) = (OOk (sl, sp), s') -> s' = start []).
  { intros sl sp Hp. apply p_lit_inv in Hp as (r & -> & Hc). cbn [ps_rest set_rest start] in *. unfold start, set_rest. cbn. f_equal.
    assert (Hvr : visible r = true).
    { assert (G : forall x r0, ignore_none ts = x :: r0 -> visible r0 = true).
      { intros x r0 Hi. destruct ts as [|y ts0]; [discriminate Hi|]. cbn [visible] in Hv. apply andb_true_iff in Hv as (Hy & Hv). destruct y as [| | |[] ? ?]; try discriminate Hy; cbn in Hi; injection Hi as _ <-; exact Hv. }
      destruct Hc as [(b & Hi & _)|[(repr & k' & Hi & _)|(g & sp1 & sp2 & repr & r1 & k' & Hi & Hi2 & _)]]; [eapply G; exact Hi|eapply G; exact Hi|].
      apply G in Hi. destruct r1 as [|y ts0]; [discriminate Hi2|]. cbn [visible] in Hi. apply andb_true_iff in Hi as (Hy & Hi). destruct y as [| | |[] ? ?]; try discriminate Hy; cbn in Hi2; injection Hi2; intros; subst; exact Hi. }
    rewrite visible_flat in Hf by exact Hvr. exact Hf. }
  destruct Ht as [(k & ->)| ->]; cbn [p_layer] in H; apply pmap_ok in H as ((l & sp) & H & ->); cbn [fst snd].
  - apply p_litty_inv in H as (sl & H & Hc). exists l, sp, sl. rewrite <- (Hend _ _ H). split; [reflexivity|]. split; [exact H|]. split; [exact Hc|discriminate].
  - pose proof H as H0. apply p_any_lit_inv in H as (sl & H & Hc). exists l, sp, sl. rewrite <- (Hend _ _ H). split; [reflexivity|]. split; [exact H|]. split; [exact Hc|]. intros _.
    unfold p_any_lit, and_then, bind in H0. rewrite H in H0. injection H0 as H0. exact H0.
Qed.
(** a tame literal is finite, and [Lit] reads a non-negative integer as unsigned *)
Lemma tame_lit E t ts v : (exists k, t = TyLit k) \/ t = TyAnyLit -> visible ts = true -> parses E t ts v -> lits_ok ts -> tame ts ->
  Forall lit_finite (val_lits v) /\ (t = TyAnyLit -> ~ In (LInt 0) (val_lits v)).
Proof.
  intros Ht Hv H Hok (Hz & Hr). destruct (lit_value E t ts v Ht Hv H) as (Hs & _). destruct (lit_reads E t ts v Ht Hv H) as (l & sp & sl & -> & Hp & Hc & Hany).
  apply p_lit_inv in Hp as (r & Hr0 & Hcase). cbn [start ps_rest] in Hcase. cbn [val_lits].
  assert (G : forall x r0, visible ts = true -> ignore_none ts = x :: r0 -> ts = x :: r0).
  { intros x r0 Hv0 Hi. destruct ts as [|y ts0]; [discriminate Hi|]. cbn [visible] in Hv0. apply andb_true_iff in Hv0 as (Hy & _). destruct y as [| | |[] ? ?]; try discriminate Hy; cbn in Hi; exact Hi. }
  destruct Hcase as [(b & Hi & ->)|[(repr & k' & Hi & Hk & ->)|(g & sp1 & sp2 & repr & r1 & k' & Hi & Hi2 & _ & Hk & ->)]].
  - destruct l; cbn in Hc; try discriminate Hc; try (destruct Hc as (? & Hc & _); discriminate Hc). split; [repeat constructor|]. intros _ [Q|[]]. discriminate Q.
  - apply G in Hi; [|exact Hv]. subst ts. apply Forall_inv in Hok. cbn [lits lits1 app] in Hr. apply Forall_inv in Hr. split.
    + constructor; [|constructor]. destruct l; cbn in *; try exact I. destruct Hc as (ds & Hd & Hf). injection Hd as ->. apply Hr. unfold denotes. rewrite Hk, Hf. reflexivity.
    + intros Ha [Q|[]]. subst l. destruct Hc as (ds & Hd & Hf). injection Hd as ->. specialize (Hany Ha). cbn [lit_try_from] in Hany.
      pose proof (lit_new_digits_unsigned repr (proj1 Hok)) as Hu. rewrite Hk in Hu.
      assert (Hun : uint_try_from ds sp = OOk (LInt 0, sp)). { destruct ds as [|c ds]; [exact Hany|]. cbn in Hu. apply N.eqb_neq in Hu. rewrite Hu in Hany. exact Hany. }
      unfold uint_try_from in Hun. destruct (read_u64 ds); discriminate Hun.
  - apply G in Hi; [|exact Hv]. subst ts. destruct Hs as [(? & ? & Q)|[(? & ? & Q)|(g' & s' & r' & s2' & Q)]]; try discriminate Q. injection Q as <- <- ->. cbn in Hi2. injection Hi2 as <- <- <-.
    apply Forall_inv in Hok. cbn [lits lits1 app] in Hr. apply Forall_inv in Hr. rewrite (lit_num_neg _ (proj1 Hok)) in Hk. pose proof (lit_new_digits_unsigned _ (proj1 Hok)) as Hu.
    split.
    + constructor; [|constructor]. destruct l; cbn in *; try exact I. destruct Hc as (ds & Hd & Hf). injection Hd as ->. destruct (lit_new _) as [[]|] eqn:Ek; cbn in Hk; try discriminate Hk; injection Hk as <-.
      rewrite (float_read_neg _ Hu) in Hf. unfold in_range, denotes in Hr. rewrite Ek in Hr. destruct (float_read _) as [f0|]; [|discriminate Hf]. cbn in Hf. injection Hf as <-. specialize (Hr f0 eq_refl). destruct f0; [reflexivity|discriminate Hr].
    + intros _ [Q|[]]. subst l. apply Hz. constructor. destruct (print_negative _ _ (LInt 0) sp [TLit (T "0") sp] (proj1 Hok) ltac:(rewrite (lit_num_neg _ (proj1 Hok)); exact Hk) Hc eq_refl) as [(r2 & Q & _)|(_ & Q)]; [discriminate Q|exact Q].
Qed.
End Tame.

(** ** What is spelled is a value of the type, and is printed as it was spelled. *)
Section Back.
Context {U : unicode} (K : char -> bool) (E : env).
Notation fin l := (Forall lit_finite l).
Ltac two Hok Ht := apply lits_ok_app in Hok as (?Hok1 & ?Hok2); apply tame_app in Ht as (?Ht1 & ?Ht2).
Lemma spells_typed_mut :
  (forall t v ts, spells K E t v ts -> lits_ok ts -> tame ts -> typed E t v /\ fin (val_lits v)) /\
  (forall fs vs ts, spells_fields K E fs vs ts -> lits_ok ts -> tame ts -> typed_fields E fs vs /\ fin (List.concat (map val_lits vs))) /\
  (forall t vs ts, spells_list K E t vs ts -> lits_ok ts -> tame ts -> typed_list E t vs /\ fin (List.concat (map val_lits vs))) /\
  (forall a b l ts, spells_pairs K E a b l ts -> lits_ok ts -> tame ts -> typed_pairs E a b l /\ fin (List.concat (map (fun '(x, y) => val_lits x ++ val_lits y) l))) /\
  (forall t o ts, spells_opt K E t o ts -> lits_ok ts -> tame ts -> typed_opt E t o /\ fin (match o with Some x => val_lits x | None => [] end)).
Proof.
  apply spells_mut; try (intros; split; [constructor; assumption|cbn; constructor]; fail).
  - intros op sps ts H _ _. split; [constructor|constructor]. induction H; cbn; congruence.
  - intros k v ts Hv H _ Hok Ht. split; [|exact (proj1 (tame_lit E (TyLit k) ts v (or_introl (ex_intro _ k eq_refl)) Hv H Hok Ht))]. destruct (lit_value E (TyLit k) ts v (or_introl (ex_intro _ k eq_refl)) Hv H) as (_ & l & sp & ->).
    destruct (parses_parsed E _ ts _ H) as (n & s' & Hn). destruct n as [|n]; [discriminate Hn|]. rewrite pty_S in Hn. cbn [p_layer] in Hn. apply pmap_ok in Hn as ((l0 & sp0) & Hn & Q). cbn [fst snd] in Q. injection Q as <- <-.
    rewrite (p_litty_kind _ _ _ _ _ Hn). constructor. apply p_litty_inv in Hn as (sl & Hn & Hc). refine (lit_read_valid _ _ _ _ _ _ Hn Hc). exact Hok.
  - intros v ts Hv H _ Hok Ht. destruct (tame_lit E TyAnyLit ts v (or_intror eq_refl) Hv H Hok Ht) as (A & B). split; [|exact A]. eapply C09_parsed_values_are_typed; eauto.
  - intros a b x v ts us _ IHx _ IHv Hok Ht. two Hok Ht. destruct (IHx Hok1 Ht1), (IHv Hok2 Ht2). split; [constructor; assumption|]. cbn [val_lits]. apply Forall_app. auto.
  - intros d t s v ts Hd _ IH Hok Ht. destruct (IH (lits_ok_group _ _ _ Hok) (tame_group _ _ _ Ht)). split; [constructor; assumption|assumption].
  - intros a p inner last ts us _ IHi _ IHl Hn Hok Ht. two Hok Ht. destruct (IHi Hok1 Ht1), (IHl Hok2 Ht2). split; [constructor; assumption|]. cbn [val_lits]. apply Forall_app. auto.
  - intros a p inner v ts us _ IHi _ IHl Hok Ht. two Hok Ht. destruct (IHi Hok1 Ht1), (IHl Hok2 Ht2). split; [constructor; assumption|]. cbn [val_lits]. apply Forall_app. auto.
  - intros a l ts _ IH Hok Ht. destruct (IH Hok Ht). split; [constructor|]; assumption.
  - intros o r x l t ts us _ IHx _ IHl Hf Hok Ht. two Hok Ht. destruct (IHx Hok1 Ht1), (IHl Hok2 Ht2). split; [econstructor; eassumption|]. rewrite (lits_left _ _ _ Hf). apply Forall_app. auto.
  - intros o r x l t ts us _ IHx _ IHl Hf Hok Ht. two Hok Ht. destruct (IHx Hok1 Ht1), (IHl Hok2 Ht2). split; [econstructor; eassumption|]. rewrite (lits_right _ _ _ Hf). apply Forall_app. auto.
  - intros a b v ts _ IH Hok Ht. destruct (IH Hok Ht). split; [constructor|]; assumption.
  - intros a b v ts _ IH Hok Ht. destruct (IH Hok Ht). split; [constructor|]; assumption.
  - intros a v ts _ IH Hok Ht. destruct (IH Hok Ht). split; [constructor|]; assumption.
  - intros i c vs ts Hi _ IH Hok Ht. destruct (IH Hok Ht). split; [econstructor; eassumption|assumption].
  - intros i en cs k c vs ts Hi Hk _ IH Hok Ht. destruct (IH Hok Ht). split; [econstructor; eassumption|assumption].
  - intros l t fs v vs ts us _ IHv _ IH Hok Ht. two Hok Ht. destruct (IHv Hok1 Ht1), (IH Hok2 Ht2). split; [constructor; assumption|]. cbn [map List.concat]. apply Forall_app. auto.
  - intros t v l ts us _ IHv _ IH Hok Ht. two Hok Ht. destruct (IHv Hok1 Ht1), (IH Hok2 Ht2). split; [constructor; assumption|]. cbn [map List.concat]. apply Forall_app. auto.
  - intros a b x y l ts us vs _ IHx _ IHy _ IH Hok Ht. apply lits_ok_app in Hok as (O1 & O). apply tame_app in Ht as (T1 & T). apply lits_ok_app in O as (O2 & O3). apply tame_app in T as (T2 & T3).
    destruct (IHx O1 T1), (IHy O2 T2), (IH O3 T3). split; [constructor; assumption|]. cbn [map List.concat]. rewrite !Forall_app. auto.
  - intros t v ts _ IH Hok Ht. destruct (IH Hok Ht). split; [constructor|]; assumption.
Qed.
Lemma spells_typed t v ts : spells K E t v ts -> lits_ok ts -> tame ts -> typed E t v.
Proof. intros H Hok Ht. apply (proj1 spells_typed_mut t v ts H Hok Ht). Qed.
Lemma spells_prints t v ts : spells K E t v ts -> lits_ok ts -> tame ts -> exists ts', print v = Some ts'.
Proof. intros H Hok Ht. destruct (proj1 spells_typed_mut t v ts H Hok Ht) as (A & B). eapply C10_values_print; [exact A|]. apply Forall_forall. exact B. Qed.

Section Spacing.
Notation Q := (fun c g1 g2 => K c = true -> g1 = g2).
Notation R := (reprints Q nothing).
Lemma op_reprints op sps ts : op_tokens K op sps ts -> R ts (print_op op sps).
Proof.
  induction 1 as [|c g s Hc Hg|c op s sps ts Hc Ho H IH].
  - constructor.
  - cbn. constructor; [exact Hg|constructor].
  - destruct op as [|c2 op]; [congruence|]. inversion H; subst; (cbn [print_op]; constructor; [auto|exact IH]).
Qed.
Lemma lit_reprints t ts v us : (exists k, t = TyLit k) \/ t = TyAnyLit -> visible ts = true -> parses E t ts v -> minus_apart K ts -> lits_ok ts -> print v = Some us -> R ts us.
Proof.
  intros Ht Hv H Hm Hok Hp. destruct (lit_value E t ts v Ht Hv H) as (Hs & _). pose proof (C08_every_token_is_printed U E t ts v us H Hok Hp) as W. rewrite (visible_flat ts Hv) in W.
  destruct Hs as [(n & s & ->)|[(r & s & ->)|(g & s & r & s2 & ->)]].
  - inversion W; subst. match goal with X : reprints _ _ [] _ |- _ => inversion X; subst end. repeat constructor.
  - inversion W; subst. match goal with X : reprints _ _ [] _ |- _ => inversion X; subst end. apply rp_lit; try assumption. constructor.
  - assert (Hg : K 45%N = true -> g = Alone) by (intro; eapply Hm; eauto). inversion W; subst.
    + match goal with X : reprints _ _ [TLit _ _] _ |- _ => inversion X; subst end. match goal with X : reprints _ _ [] _ |- _ => inversion X; subst end. constructor; [|apply rp_lit; try assumption; constructor].
      intro Q. specialize (Hg Q). subst g. match goal with X : loose _ _ _ |- _ => destruct X as [->| ->]; reflexivity end.
    + match goal with X : reprints _ _ [] _ |- _ => inversion X; subst end. apply rp_neg; try assumption; [reflexivity|constructor].
    + match goal with X : reprints _ _ [] _ |- _ => inversion X; subst end. apply rp_neg_zero; [assumption|reflexivity|constructor].
Qed.
Lemma spells_reprints_mut :
  (forall t v ts, spells K E t v ts -> lits_ok ts -> forall us, print v = Some us -> R ts us) /\
  (forall fs vs ts, spells_fields K E fs vs ts -> lits_ok ts -> forall us, oconcat (map print vs) = Some us -> R ts us) /\
  (forall t vs ts, spells_list K E t vs ts -> lits_ok ts -> forall us, oconcat (map print vs) = Some us -> R ts us) /\
  (forall a b l ts, spells_pairs K E a b l ts -> lits_ok ts -> forall us, oconcat (map (fun '(x, y) => oapp (print x) (print y)) l) = Some us -> R ts us) /\
  (forall t o ts, spells_opt K E t o ts -> lits_ok ts -> forall us, match o with Some x => print x | None => Some [] end = Some us -> R ts us).
Proof.
  apply spells_mut; try (intros; match goal with H : print _ = Some _ |- _ => cbn in H; injection H as <- end; repeat constructor; fail).
  - intros op sps ts H _ us Hp. cbn in Hp. injection Hp as <-. apply op_reprints; assumption.
  - intros k v ts Hv H Hm Hok us Hp. apply (lit_reprints (TyLit k) ts v us (or_introl (ex_intro _ k eq_refl)) Hv H Hm Hok Hp).
  - intros v ts Hv H Hm Hok us Hp. eapply lit_reprints; eauto.
  - intros a b x v ts us _ IHx _ IHv Hok w Hp. apply lits_ok_app in Hok as (O1 & O2). cbn [print] in Hp. apply oapp_some in Hp as (p & q & Hp & Hq & ->). apply reprints_app; auto.
  - intros d t s v ts Hd _ IH Hok w Hp. cbn [print] in Hp. destruct (print v) as [o|] eqn:Ev; [|discriminate Hp]. cbn in Hp. injection Hp as <-.
    rewrite <- (app_nil_r ts). apply rp_group; [apply IH; [eapply lits_ok_group; exact Hok|reflexivity]|reflexivity|constructor].
  - intros a p inner last ts us _ IHi _ IHl _ Hok w Hp. apply lits_ok_app in Hok as (O1 & O2). cbn [print] in Hp. apply oapp_some in Hp as (x & y & Hp & Hq & ->). apply reprints_app; auto.
  - intros a p inner v ts us _ IHi _ IHl Hok w Hp. apply lits_ok_app in Hok as (O1 & O2). cbn [print] in Hp. apply oapp_some in Hp as (x & y & Hp & Hq & ->). apply reprints_app; auto.
  - intros a l ts _ IH Hok w Hp. apply IH; assumption.
  - intros o r x l t ts us _ IHx _ IHl Hf Hok w Hp. apply lits_ok_app in Hok as (O1 & O2). rewrite (print_left_form _ _ _ Hf) in Hp. apply oapp_some in Hp as (p & q & Hp & Hq & ->). apply reprints_app; [auto|].
    apply IHl; auto. rewrite <- Hq. f_equal. apply map_ext. intros (?, ?). reflexivity.
  - intros o r x l t ts us _ IHx _ IHl Hf Hok w Hp. apply lits_ok_app in Hok as (O1 & O2). rewrite (print_right_form _ _ _ Hf) in Hp. apply oapp_some in Hp as (p & q & Hp & Hq & ->). apply reprints_app; [auto|].
    apply IHl; auto. rewrite <- Hq. f_equal. apply map_ext. intros (?, ?). reflexivity.
  - intros a b v ts _ IH Hok w Hp. apply IH; assumption.
  - intros a b v ts _ IH Hok w Hp. apply IH; assumption.
  - intros a v ts _ IH Hok w Hp. apply IH; assumption.
  - intros i c vs ts Hi _ IH Hok w Hp. apply IH; [exact Hok|exact Hp].
  - intros i en cs k c vs ts Hi Hk _ IH Hok w Hp. apply IH; [exact Hok|exact Hp].
  - intros _ us Hp. cbn in Hp. injection Hp as <-. constructor.
  - intros l t fs v vs ts us _ IHv _ IH Hok w Hp. apply lits_ok_app in Hok as (O1 & O2). cbn [map oconcat fold_right] in Hp. apply oapp_some in Hp as (p & q & Hp & Hq & ->). apply reprints_app; auto.
  - intros t _ us Hp. cbn in Hp. injection Hp as <-. constructor.
  - intros t v l ts us _ IHv _ IH Hok w Hp. apply lits_ok_app in Hok as (O1 & O2). cbn [map oconcat fold_right] in Hp. apply oapp_some in Hp as (p & q & Hp & Hq & ->). apply reprints_app; auto.
  - intros a b _ us Hp. cbn in Hp. injection Hp as <-. constructor.
  - intros a b x y l ts us vs _ IHx _ IHy _ IH Hok w Hp. apply lits_ok_app in Hok as (O1 & O). apply lits_ok_app in O as (O2 & O3). cbn [map oconcat fold_right] in Hp. apply oapp_some in Hp as (p & q & Hp & Hq & ->).
    apply oapp_some in Hp as (p1 & p2 & Hp1 & Hp2 & ->). rewrite <- app_assoc. repeat apply reprints_app; auto.
  - intros t _ us Hp. injection Hp as <-. constructor.
  - intros t v ts _ IH Hok w Hp. apply IH; assumption.
Qed.
Lemma spells_reprints t v ts us : spells K E t v ts -> lits_ok ts -> print v = Some us -> R ts us.
Proof. intros H Hok Hp. exact (proj1 spells_reprints_mut t v ts H Hok us Hp). Qed.
End Spacing.
End Back.
(** without [-0] no operator character is lost *)
Lemma tame_puncts {U : unicode} Q a b : reprints Q nothing a b -> tame a -> List.length (puncts b) = List.length (puncts a).
Proof.
  induction 1 as [|n sp a b H IH|c g1 g2 sp a b Hq H IH|r1 r2 sp a b Hd H1 H2 Hwr H IH|g1 r1 r2 sp1 sp2 sp a b Hq Hd H1 H2 Hwr Hs H IH|g1 r1 sp1 sp2 sp a b Hd Hs H IH|d sp i left o a b Hi IHi Hl H IH]; intro Ht.
  - reflexivity.
  - apply (tame_app [_] a) in Ht as (_ & Ht). cbn. auto.
  - apply (tame_app [_] a) in Ht as (_ & Ht). cbn. auto.
  - apply (tame_app [_] a) in Ht as (_ & Ht). cbn. auto.
  - apply (tame_app [_; _] a) in Ht as (_ & Ht). cbn. auto.
  - exfalso. apply (proj1 Ht). constructor. exact Hd.
  - unfold nothing in Hl. subst left. rewrite app_nil_r in *. rewrite !puncts_group, !app_length. apply (tame_app [_] a) in Ht as (Hg & Ht). apply tame_group in Hg. rewrite IHi, IH by assumption. reflexivity.
Qed.

(** ** The tokens fix the locations: two values that differ in locations only are spelled differently. *)
Section Locations.
Context {U : unicode} (K : char -> bool) (E : env).
Notation s2 := (fun '(x, y) => (strip x, strip y)).
Lemma left_strip (x x' : val) l t : left_form x l t -> forall l' t', left_form x' l' t' -> strip (val_of_left t) = strip (val_of_left t') -> strip x = strip x' /\ map s2 l = map s2 l'.
Proof.
  induction 1 as [|l t o y H IH]; intros l' t' H' Q; destruct H' as [|l' t' o' y' H']; cbn [val_of_left strip] in Q; try discriminate Q.
  - injection Q as Q. auto.
  - injection Q as Q1 Q2 Q3. destruct (IH _ _ H' Q1) as (A & B). split; [exact A|]. rewrite !map_app, B. cbn [map]. rewrite Q2, Q3. reflexivity.
Qed.
Lemma right_strip (x : val) l t : right_form x l t -> forall x' l' t', right_form x' l' t' -> strip (val_of_right t) = strip (val_of_right t') -> strip x = strip x' /\ map s2 l = map s2 l'.
Proof.
  induction 1 as [x|x o y l t H IH]; intros x' l' t' H' Q; destruct H' as [x'|x' o' y' l' t' H']; cbn [val_of_right strip] in Q; try discriminate Q.
  - injection Q as Q. auto.
  - injection Q as Q1 Q2 Q3. destruct (IH _ _ _ H' Q3) as (A & B). split; [exact Q1|]. cbn [map]. rewrite Q2, A, B. reflexivity.
Qed.
Lemma left_same (x : val) (l : list (val * val)) t t' : left_form x l t -> left_form x l t' -> t = t'.
Proof.
  intro H. revert t'. induction H as [|l t o y H IH]; intros t' H'; inversion H'; subst; try reflexivity; try (destruct l; discriminate).
  match goal with Q : _ ++ [_] = _ ++ [_] |- _ => apply app_inj_tail in Q as (-> & Q); injection Q as -> -> end. f_equal. auto.
Qed.
Lemma right_same (x : val) (l : list (val * val)) t t' : right_form x l t -> right_form x l t' -> t = t'.
Proof. intro H. revert t'. induction H as [x|x o y l t H IH]; intros t' H'; inversion H'; subst; [reflexivity|]. f_equal. auto. Qed.
Lemma op_same op sps ts : op_tokens K op sps ts -> forall sps' ts' r r', op_tokens K op sps' ts' -> ts ++ r = ts' ++ r' -> sps = sps' /\ ts = ts'.
Proof.
  induction 1 as [|c g s Hc Hg|c op s sps ts Hc Ho H IH]; intros sps' ts' r r' H' Q; inversion H'; subst; try congruence; cbn [app] in Q; try (injection Q as -> -> _; auto; fail); try (injection Q as -> _; auto; fail).
  - auto.
  - injection Q as -> Q. match goal with X : op_tokens K op _ _ |- _ => destruct (IH _ _ _ _ X Q) as (-> & ->) end. auto.
Qed.
Lemma single_same a a' r r' : single a -> single a' -> a ++ r = a' ++ r' -> a = a'.
Proof. unfold single. intros [(? & ? & ->)|[(? & ? & ->)|(? & ? & ? & ? & ->)]] [(? & ? & ->)|[(? & ? & ->)|(? & ? & ? & ? & ->)]] Q; cbn [app] in Q; try discriminate Q; injection Q; intros; subst; reflexivity. Qed.
Lemma group_same d d' t t' : d <> DNone -> d' <> DNone -> TyGroup d t = TyGroup d' t' -> d = d' /\ t = t'.
Proof. intros H H' Q. destruct d, d'; cbn in Q; try congruence; injection Q as ->; auto. Qed.
Ltac bad := match goal with H : TyGroup ?d _ = _, Hd : ?d <> DNone |- _ => exfalso; revert H; destruct d; cbn; congruence | H : _ = TyGroup ?d _, Hd : ?d <> DNone |- _ => exfalso; revert H; destruct d; cbn; congruence end.
Lemma spells_same_mut :
  (forall t v a, spells K E t v a -> forall v' a' r r', spells K E t v' a' -> strip v = strip v' -> a ++ r = a' ++ r' -> v = v' /\ a = a') /\
  (forall fs vs a, spells_fields K E fs vs a -> forall vs' a' r r', spells_fields K E fs vs' a' -> map strip vs = map strip vs' -> a ++ r = a' ++ r' -> vs = vs' /\ a = a') /\
  (forall t vs a, spells_list K E t vs a -> forall vs' a' r r', spells_list K E t vs' a' -> map strip vs = map strip vs' -> a ++ r = a' ++ r' -> vs = vs' /\ a = a') /\
  (forall x y l a, spells_pairs K E x y l a -> forall l' a' r r', spells_pairs K E x y l' a' -> map s2 l = map s2 l' -> a ++ r = a' ++ r' -> l = l' /\ a = a') /\
  (forall t o a, spells_opt K E t o a -> forall o' a' r r', spells_opt K E t o' a' -> option_map strip o = option_map strip o' -> a ++ r = a' ++ r' -> o = o' /\ a = a').
Proof.
  apply spells_mut.
  - intros n s Hn v' a' r r' H' Hs Q. inversion H'; subst; try bad. cbn in Q. injection Q as -> -> _. auto.
  - intros kws n s Hn v' a' r r' H' Hs Q. inversion H'; subst; try bad. cbn in Q. injection Q as -> -> _. auto.
  - intros kw s v' a' r r' H' Hs Q. inversion H'; subst; try bad. cbn in Q. injection Q as -> _. auto.
  - intros kw s v' a' r r' H' Hs Q. inversion H'; subst; try bad. cbn in Q. injection Q as -> _. auto.
  - intros op sps ts H v' a' r r' H' Hs Q. inversion H'; subst; try bad. match goal with X : op_tokens K op _ a' |- _ => destruct (op_same _ _ _ H _ _ _ _ X Q) as (-> & ->) end. auto.
  - intros k v ts Hv H _ v' a' r r' H' Hs Q. inversion H'; subst; try bad. match goal with X : parses E (TyLit k) a' v', Y : visible a' = true |- _ =>
      destruct (lit_value E _ _ _ (or_introl (ex_intro _ k eq_refl)) Hv H) as (S1 & _); destruct (lit_value E _ _ _ (or_introl (ex_intro _ k eq_refl)) Y X) as (S2 & _); pose proof (single_same _ _ _ _ S1 S2 Q); subst a'; split; [eapply parses_det; eassumption|reflexivity] end.
  - intros v ts Hv H _ v' a' r r' H' Hs Q. inversion H'; subst; try bad. match goal with X : parses E TyAnyLit a' v', Y : visible a' = true |- _ =>
      destruct (lit_value E _ _ _ (or_intror eq_refl) Hv H) as (S1 & _); destruct (lit_value E _ _ _ (or_intror eq_refl) Y X) as (S2 & _); pose proof (single_same _ _ _ _ S1 S2 Q); subst a'; split; [eapply parses_det; eassumption|reflexivity] end.
  - intros v' a' r r' H' Hs Q. inversion H'; subst; try bad. auto.
  - intros v' a' r r' H' Hs Q. inversion H'; subst; try bad. auto.
  - intros v' a' r r' H' Hs Q. inversion H'; subst; try bad. auto.
  - intros a b v' a' r r' H' Hs Q. inversion H'; subst; try bad; [auto|discriminate Hs].
  - intros a b x v ts us _ IHx _ IHv v' a' r r' H' Hs Q. inversion H'; subst; try bad; [discriminate Hs|]. cbn [strip] in Hs. injection Hs as Hs1 Hs2. rewrite <- !app_assoc in Q.
    match goal with A : spells K E a _ _, B : spells K E b _ _ |- _ => destruct (IHx _ _ _ _ A Hs1 Q) as (-> & ->); apply app_inv_head in Q; destruct (IHv _ _ _ _ B Hs2 Q) as (-> & ->) end. auto.
  - intros d t s v ts Hd _ IH v' a' r r' H' Hs Q. inversion H'; subst; try bad. match goal with X : TyGroup _ _ = TyGroup d t |- _ => apply group_same in X as (-> & ->); [|assumption|assumption] end.
    cbn [strip] in Hs. injection Hs as Hs. cbn [app] in Q. injection Q as <- Q Q'. subst. match goal with X : spells K E t ?w ?us |- _ => destruct (IH _ _ [] [] X Hs ltac:(reflexivity)) as (-> & _) end. auto.
  - intros a p inner last ts us _ IHi _ IHl Hn v' a' r r' H' Hs Q. inversion H'; subst; try bad. cbn [strip] in Hs. injection Hs as Hs1 Hs2. rewrite <- !app_assoc in Q.
    match goal with A : spells_pairs K E a p _ _, B : spells_opt K E a _ _ |- _ => destruct (IHi _ _ _ _ A Hs1 Q) as (-> & ->); apply app_inv_head in Q; destruct (IHl _ _ _ _ B Hs2 Q) as (-> & ->) end. auto.
  - intros a p inner v ts us _ IHi _ IHl v' a' r r' H' Hs Q. inversion H'; subst; try bad. cbn [strip option_map] in Hs. injection Hs as Hs1 Hs2. rewrite <- !app_assoc in Q.
    match goal with A : spells_pairs K E a p _ _, B : spells K E a _ _ |- _ => destruct (IHi _ _ _ _ A Hs1 Q) as (-> & ->); apply app_inv_head in Q; destruct (IHl _ _ _ _ B Hs2 Q) as (-> & ->) end. auto.
  - intros a l ts _ IH v' a' r r' H' Hs Q. inversion H'; subst; try bad. cbn [strip] in Hs. injection Hs as Hs. match goal with A : spells_list K E a _ _ |- _ => destruct (IH _ _ _ _ A Hs Q) as (-> & ->) end. auto.
  - intros o r0 x l t ts us _ IHx _ IHl Hf v' a' r r' H' Hs Q. inversion H'; subst; try bad. rewrite <- !app_assoc in Q.
    match goal with A : spells K E r0 _ _, B : spells_pairs K E o r0 _ _, C : left_form _ _ _ |- _ => destruct (left_strip _ _ _ _ Hf _ _ C Hs) as (S1 & S2); destruct (IHx _ _ _ _ A S1 Q) as (-> & ->); apply app_inv_head in Q; destruct (IHl _ _ _ _ B S2 Q) as (-> & ->); rewrite (left_same _ _ _ _ Hf C) end. auto.
  - intros o r0 x l t ts us _ IHx _ IHl Hf v' a' r r' H' Hs Q. inversion H'; subst; try bad. rewrite <- !app_assoc in Q.
    match goal with A : spells K E r0 _ _, B : spells_pairs K E o r0 _ _, C : right_form _ _ _ |- _ => destruct (right_strip _ _ _ Hf _ _ _ C Hs) as (S1 & S2); destruct (IHx _ _ _ _ A S1 Q) as (-> & ->); apply app_inv_head in Q; destruct (IHl _ _ _ _ B S2 Q) as (-> & ->); rewrite (right_same _ _ _ _ Hf C) end. auto.
  - intros a b v ts _ IH v' a' r r' H' Hs Q. inversion H'; subst; try bad; cbn [strip] in Hs; [injection Hs as Hs|discriminate Hs]. match goal with A : spells K E a _ _ |- _ => destruct (IH _ _ _ _ A Hs Q) as (-> & ->) end. auto.
  - intros a b v ts _ IH v' a' r r' H' Hs Q. inversion H'; subst; try bad; cbn [strip] in Hs; [discriminate Hs|injection Hs as Hs]. match goal with A : spells K E b _ _ |- _ => destruct (IH _ _ _ _ A Hs Q) as (-> & ->) end. auto.
  - intros a v ts _ IH v' a' r r' H' Hs Q. inversion H'; subst; try bad. match goal with A : spells K E a _ _ |- _ => destruct (IH _ _ _ _ A Hs Q) as (-> & ->) end. auto.
  - intros i c vs ts Hi _ IH v' a' r r' H' Hs Q. inversion H'; subst; try bad; cbn [strip] in Hs; [injection Hs as Hs|discriminate Hs].
    match goal with A : spells_fields K E _ _ a', B : E i = DStruct _ |- _ => rewrite Hi in B; injection B as <-; destruct (IH _ _ _ _ A Hs Q) as (-> & ->) end. auto.
  - intros i en cs k c vs ts Hi Hk _ IH v' a' r r' H' Hs Q. inversion H'; subst; try bad; cbn [strip] in Hs; [discriminate Hs|injection Hs as Hk0 Hs]. subst.
    match goal with A : spells_fields K E _ _ a', B : E i = DEnum _ _, C : nth_error _ _ = Some _ |- _ => rewrite Hi in B; injection B as <- <- end.
    match goal with A : spells_fields K E ?f _ a', C : nth_error cs ?n = Some ?c', D : nth_error cs ?n = Some c |- _ => assert (c' = c) by congruence; subst; destruct (IH _ _ _ _ A Hs Q) as (-> & ->) end. auto.
  - intros vs' a' r r' H' Hs Q. inversion H'; subst. auto.
  - intros l t fs v vs ts us _ IHv _ IH vs' a' r r' H' Hs Q. inversion H'; subst. cbn [map] in Hs. injection Hs as Hs1 Hs2. rewrite <- !app_assoc in Q.
    match goal with A : spells K E t _ _, B : spells_fields K E fs _ _ |- _ => destruct (IHv _ _ _ _ A Hs1 Q) as (-> & ->); apply app_inv_head in Q; destruct (IH _ _ _ _ B Hs2 Q) as (-> & ->) end. auto.
  - intros t vs' a' r r' H' Hs Q. inversion H'; subst; [auto|discriminate Hs].
  - intros t v l ts us _ IHv _ IH vs' a' r r' H' Hs Q. inversion H'; subst; [discriminate Hs|]. cbn [map] in Hs. injection Hs as Hs1 Hs2. rewrite <- !app_assoc in Q.
    match goal with A : spells K E t _ _, B : spells_list K E t _ _ |- _ => destruct (IHv _ _ _ _ A Hs1 Q) as (-> & ->); apply app_inv_head in Q; destruct (IH _ _ _ _ B Hs2 Q) as (-> & ->) end. auto.
  - intros a b vs' a' r r' H' Hs Q. inversion H'; subst; [auto|discriminate Hs].
  - intros a b x y l ts us vs _ IHx _ IHy _ IH vs' a' r r' H' Hs Q. inversion H'; subst; [discriminate Hs|]. cbn [map] in Hs. injection Hs as Hs1 Hs2 Hs3. rewrite <- !app_assoc in Q.
    match goal with A : spells K E a _ ?p, B : spells K E b _ ?q, C : spells_pairs K E a b _ ?z, QQ : _ = ?p ++ ?q ++ ?z ++ _ |- _ => destruct (IHx _ _ _ _ A Hs1 Q) as (-> & ->); apply app_inv_head in Q; destruct (IHy _ _ _ _ B Hs2 Q) as (-> & ->); apply app_inv_head in Q; destruct (IH _ _ _ _ C Hs3 Q) as (-> & ->) end. auto.
  - intros t o' a' r r' H' Hs Q. inversion H'; subst; [auto|discriminate Hs].
  - intros t v ts _ IH o' a' r r' H' Hs Q. inversion H'; subst; [discriminate Hs|]. cbn in Hs. injection Hs as Hs. match goal with A : spells K E t _ _ |- _ => destruct (IH _ _ _ _ A Hs Q) as (-> & ->) end. auto.
Qed.
Lemma spells_same t v v' ts : spells K E t v ts -> spells K E t v' ts -> strip v = strip v' -> v = v'.
Proof. intros H H' Hs. exact (proj1 (proj1 spells_same_mut t v ts H v' ts [] [] H' Hs eq_refl)). Qed.
End Locations.

(** ** Changing what spacing matters. *)
Section Respace.
Context {U : unicode} (K K' : char -> bool) (E : env) (P : ty -> Prop) (HE : env_leaves P E).
Context (Hop : forall op sps ts, P (TyToken op) -> op_tokens K op sps ts -> op_tokens K' op sps ts).
Context (Hlit : forall t ts, (exists k, t = TyLit k) \/ t = TyAnyLit -> P t -> minus_apart K ts -> minus_apart K' ts).
Lemma struct_leaves i c : E i = DStruct c -> Forall (fun f : label * ty => leaves P (snd f)) (c_fields c).
Proof. intro H. specialize (HE i). rewrite H in HE. exact HE. Qed.
Lemma enum_leaves i en cs k c : E i = DEnum en cs -> nth_error cs k = Some c -> Forall (fun f : label * ty => leaves P (snd f)) (c_fields c).
Proof. intros H Hk. specialize (HE i). rewrite H in HE. cbn in HE. rewrite Forall_forall in HE. apply HE. eapply nth_error_In. exact Hk. Qed.
Lemma group_leaves d t : d <> DNone -> leaves P (TyGroup d t) -> leaves P t.
Proof. destruct d; cbn; auto; congruence. Qed.
Lemma respace_mut :
  (forall t v ts, spells K E t v ts -> leaves P t -> spells K' E t v ts) /\
  (forall fs vs ts, spells_fields K E fs vs ts -> Forall (fun f : label * ty => leaves P (snd f)) fs -> spells_fields K' E fs vs ts) /\
  (forall t vs ts, spells_list K E t vs ts -> leaves P t -> spells_list K' E t vs ts) /\
  (forall a b l ts, spells_pairs K E a b l ts -> leaves P a -> leaves P b -> spells_pairs K' E a b l ts) /\
  (forall t o ts, spells_opt K E t o ts -> leaves P t -> spells_opt K' E t o ts).
Proof.
  apply spells_mut; try (intros; constructor; auto; fail).
  - intros k v ts Hv H Hm Ht. constructor; [exact Hv|exact H|]. eapply Hlit; [left; eauto|exact Ht|exact Hm].
  - intros v ts Hv H Hm Ht. constructor; [exact Hv|exact H|]. eapply Hlit; [right; reflexivity|exact Ht|exact Hm].
  - intros a b x v ts us _ IHx _ IHv (Ha & Hb). constructor; auto.
  - intros d t s v ts Hd _ IH Ht. constructor; [exact Hd|]. apply IH. eapply group_leaves; eassumption.
  - intros a p inner last ts us _ IHi _ IHl Hn (Ha & Hb). constructor; auto.
  - intros a p inner v ts us _ IHi _ IHl (Ha & Hb). constructor; auto.
  - intros o r x l t ts us _ IHx _ IHl Hf (Ha & Hb). econstructor; eauto.
  - intros o r x l t ts us _ IHx _ IHl Hf (Ha & Hb). econstructor; eauto.
  - intros a b v ts _ IH (Ha & Hb). constructor; auto.
  - intros a b v ts _ IH (Ha & Hb). constructor; auto.
  - intros i c vs ts Hi _ IH _. econstructor; [exact Hi|]. apply IH. eapply struct_leaves. exact Hi.
  - intros i en cs k c vs ts Hi Hk _ IH _. econstructor; [exact Hi|exact Hk|]. apply IH. eapply enum_leaves; eassumption.
  - intros l t fs v vs ts us _ IHv _ IH HF. inversion HF; subst. constructor; auto.
Qed.
Lemma respace t v ts : spells K E t v ts -> leaves P t -> spells K' E t v ts.
Proof. exact (proj1 respace_mut t v ts). Qed.
End Respace.
Lemma spells_anyhow {U : unicode} K E t v ts : spells K E t v ts -> spells anyhow E t v ts.
Proof.
  intro H. apply (respace K anyhow E (fun _ => True)); [apply env_leaves_all; auto| | |exact H|apply leaves_all; auto].
  - intros op sps us _ Ho. induction Ho; constructor; auto. discriminate.
  - intros t0 us _ _ _ g s w _ Q. discriminate Q.
Qed.
Lemma spells_free {U : unicode} K E t v ts : env_leaves (leaf_free K) E -> leaves (leaf_free K) t -> spells anyhow E t v ts -> spells K E t v ts.
Proof.
  intros HE Ht H. apply (respace anyhow K E (leaf_free K)); [exact HE| | |exact H|exact Ht].
  - intros op sps us (Hs & Hl) Ho. cbn in Hs, Hl. induction Ho as [|c g s Hc Hg|c op s sps us Hc Hn Ho IH].
    + constructor.
    + constructor; [exact Hc|]. cbn in Hl. intro Q. congruence.
    + destruct op as [|c2 op]; [congruence|]. destruct Hs as (_ & Hs). constructor; [exact Hc|exact Hn|]. apply IH; [exact Hs|].
      cbn [rev] in Hl |- *. destruct (rev op ++ [c2]) as [|x l] eqn:Er; [destruct (rev op); discriminate Er|exact Hl].
  - intros t0 us [(k & ->)| ->] Hf _ g s w _ Q; cbn in Hf; congruence.
Qed.

(** ** A grammar that offers at least the same alternatives, in any order and under any names. *)
Section Offers.
Context {U : unicode} (K : char -> bool) (E E' : env).
Definition shape (c : ctor) : list ty := map snd (c_fields c).
Definition offers (d d' : tdef) : Prop :=
  match d, d' with
  | DStruct c, DStruct c' => shape c' = shape c
  | DEnum _ cs, DEnum _ cs' => forall c, In c cs -> In (shape c) (map shape cs')
  | _, _ => False
  end.
Context (H : forall i, offers (E i) (E' i)).
Lemma lit_env t ts v : (exists k, t = TyLit k) \/ t = TyAnyLit -> parses E t ts v -> parses E' t ts v.
Proof. intros [(k & ->)| ->] (n & Hn); (destruct n as [|n]; [discriminate Hn|exists (S n); rewrite pty_S in *; exact Hn]). Qed.
Lemma offers_mut :
  (forall t v ts, spells K E t v ts -> exists v', spells K E' t v' ts) /\
  (forall fs vs ts, spells_fields K E fs vs ts -> forall gs, map snd gs = map snd fs -> exists vs', spells_fields K E' gs vs' ts) /\
  (forall t vs ts, spells_list K E t vs ts -> exists vs', spells_list K E' t vs' ts) /\
  (forall a b l ts, spells_pairs K E a b l ts -> exists l', spells_pairs K E' a b l' ts /\ (l = [] -> l' = [])) /\
  (forall t o ts, spells_opt K E t o ts -> exists o', spells_opt K E' t o' ts /\ (o' = None -> o = None)).
Proof.
  apply spells_mut; try (intros; eexists; constructor; eauto using lit_env; fail).
  - intros a b x v ts us _ (x' & IHx) _ (v' & IHv). eexists. constructor; eassumption.
  - intros d t s v ts Hd _ (v' & IH). exists (VGroup d s v'). constructor; assumption.
  - intros a p inner last ts us _ (i' & IHi & Hi) _ (l' & IHl & Hl) Hn. exists (VPunct i' l'). constructor; auto.
  - intros a p inner v ts us _ (i' & IHi & _) _ (v' & IHv). exists (VPunct i' (Some v')). constructor; assumption.
  - intros a l ts _ (l' & IH). exists (VList l'). constructor. exact IH.
  - intros o r x l t ts us _ (x' & IHx) _ (l' & IHl & _) _. exists (val_of_left (build_left x' l')). econstructor; [exact IHx|exact IHl|apply build_left_form].
  - intros o r x l t ts us _ (x' & IHx) _ (l' & IHl & _) _.
    assert (B : forall l x, exists t : right_assoc val val, right_form x l t). { clear. induction l as [|(o, y) l IH]; intro x; [eexists; constructor|]. destruct (IH y) as (t & Ht). eexists. constructor. exact Ht. }
    destruct (B l' x') as (t' & Ht). exists (val_of_right t'). econstructor; eassumption.
  - intros a b v ts _ (v' & IH). eexists. apply sp_either_l. exact IH.
  - intros a b v ts _ (v' & IH). eexists. apply sp_either_r. exact IH.
  - intros a v ts _ (v' & IH). eexists. apply sp_box. exact IH.
  - intros i c vs ts Hi _ IH. pose proof (H i) as Hd. rewrite Hi in Hd. destruct (E' i) as [c'|] eqn:Hi'; [|contradiction]. destruct (IH (c_fields c') Hd) as (vs' & F). eexists. econstructor; eassumption.
  - intros i en cs k c vs ts Hi Hk _ IH. pose proof (H i) as Hd. rewrite Hi in Hd. destruct (E' i) as [|en' cs'] eqn:Hi'; [contradiction|]. cbn in Hd. apply nth_error_In in Hk. apply Hd, in_map_iff in Hk as (c' & Hc & Hin).
    apply In_nth_error in Hin as (k' & Hk'). destruct (IH (c_fields c') Hc) as (vs' & F). eexists. eapply sp_enum; eassumption.
  - intros [|? ?] Q; [|discriminate Q]. exists []. constructor.
  - intros l t fs v vs ts us _ (v' & IHv) _ IH [|(l', t') gs] Q; [discriminate Q|]. cbn in Q. injection Q as -> Q. destruct (IH gs Q) as (vs' & F). eexists. constructor; eassumption.
  - intros t v l ts us _ (v' & IHv) _ (vs' & IH). eexists. constructor; eassumption.
  - intros a b. exists []. split; [constructor|auto].
  - intros a b x y l ts us vs _ (x' & IHx) _ (y' & IHy) _ (l' & IH & _). exists ((x', y') :: l'). split; [constructor; assumption|discriminate].
  - intros t. exists None. split; [constructor|auto].
  - intros t v ts _ (v' & IH). exists (Some v'). split; [constructor; exact IH|discriminate].
Qed.
Lemma offers_spells t v ts : spells K E t v ts -> exists v', spells K E' t v' ts.
Proof. exact (proj1 offers_mut t v ts). Qed.
End Offers.
