(** * ParsedTyped: what is known about the values a parser returns.

    An induction principle over successful parses, for a property of values and an invariant of
    the remaining tokens; with it: parsed values are [typed] (C10's notion) and [writable] (C38's). *)
From Verif Require Import Base Float Literal Syn Ast Derive Grammar Spec LitSpec LiteralFacts Reprint LitDenote
  SynFacts Lawful Mono Combinators GrammarBeh Assoc ManyFacts Sound PropLit Term TermCheck NoPanic Typed PropRoundtrip PropLL1 Lexer LexFacts LexWf LexOut LexPrint Writable.
Local Open Scope nat_scope.

Section Induction.
Context {U : unicode}.
Variable E : env.
(** the invariant *)
Variable I : list tt -> Prop.
Hypothesis I_pops : forall l l', pops l l' -> I l -> I l'.
Hypothesis I_group : forall d sp i r, I (TGroup d sp i :: r) -> I i.
(** the types in question, closed under parts *)
Variable A : ty -> Prop.
Hypothesis A_env : env_leaves A E.
(** the property *)
Variable P : ty -> val -> Prop.
Notation Pp := (fun a b l => Forall (fun x : val * val => P a (fst x) /\ P b (snd x)) l).
Hypothesis H1 : forall n sp r, I (TIdent n sp :: r) -> ~ In n rust_keywords -> P TyIdent (VIdent n sp).
Hypothesis H2 : forall kws n sp r, I (TIdent n sp :: r) -> ~ In n kws -> P (TyCustomIdent kws) (VIdent n sp).
Hypothesis H3 : forall kw sp r, I (TIdent kw sp :: r) -> P (TyKeyword kw) (VKw kw sp).
Hypothesis H4 : forall kw sp r, I (TIdent kw sp :: r) -> P (TyTokenKw kw) (VKw kw sp).
Hypothesis H5 : forall op sps l r, A (TyToken op) -> I l -> take_op op l = Some (sps, r) -> P (TyToken op) (VOp op sps).
Hypothesis H6 : forall k l sp s s', I (ps_rest s) -> p_litty k s = (OOk (l, sp), s') -> P (TyLit k) (VLit l sp).
Hypothesis H7 : forall l sp s s', A TyAnyLit -> I (ps_rest s) -> p_any_lit s = (OOk (l, sp), s') -> P TyAnyLit (VLit l sp).
Hypothesis H8 : P TyEmpty VUnit.
Hypothesis H9 : P TyEof VUnit.
Hypothesis H10 : P TyNotEof VUnit.
Hypothesis H11 : forall a b, P (TyMaybe a b) VNothing.
Hypothesis H12 : forall a b x v, P a x -> P b v -> P (TyMaybe a b) (VJust x v).
Hypothesis H13 : forall d t sp v, d <> DNone -> P t v -> P (TyGroup d t) (VGroup d sp v).
Hypothesis H14 : forall a p inner last, Pp a p inner -> (forall v, last = Some v -> P a v) ->
    (p = TyNotEof -> last = None -> inner = []) -> P (TyPunctuated a p) (VPunct inner last).
Hypothesis H15 : forall a p inner v, Pp a p inner -> P a v -> P (TySeparated a p) (VPunct inner (Some v)).
Hypothesis H16 : forall a l, Forall (P a) l -> P (TyAny a) (VList l).
Hypothesis H17 : forall o r x l t, P r x -> Pp o r l -> left_form x l t -> P (TyLeftAssoc o r) (val_of_left t).
Hypothesis H18 : forall o r x l t, P r x -> Pp o r l -> right_form x l t -> P (TyRightAssoc o r) (val_of_right t).
Hypothesis H19 : forall a b v, P a v -> P (TyEither a b) (VLeft v).
Hypothesis H20 : forall a b v, P b v -> P (TyEither a b) (VRight v).
Hypothesis H21 : forall a v, P a v -> P (TyBox a) v.
Hypothesis H22 : forall i c vs, E i = DStruct c -> Forall2 (fun (f : label * ty) v => P (snd f) v) (c_fields c) vs -> P (TyRef i) (VStruct vs).
Hypothesis H23 : forall i en cs k c vs, E i = DEnum en cs -> nth_error cs k = Some c ->
    Forall2 (fun (f : label * ty) v => P (snd f) v) (c_fields c) vs -> P (TyRef i) (VVariant k vs).

Lemma I_ignore l : I l -> I (ignore_none l).
Proof. apply I_pops, ignore_none_pops. Qed.
Lemma I_frame s s' : frame s s' -> I (ps_rest s) -> I (ps_rest s').
Proof. intros (H & _). apply I_pops, H. Qed.

(** the values of a parser satisfy [P t], and the invariant is kept *)
Definition gives (p : parser val) (t : ty) : Prop := forall s v s', I (ps_rest s) -> p s = (OOk v, s') -> P t v.
Lemma gives_seq (p : ty -> parser val) (fs : list (label * ty)) : (forall t, lawful (p t)) -> Forall (fun f => gives (p (snd f)) (snd f)) fs ->
  forall s vs s', I (ps_rest s) -> seq_yes (map (fun x => of_parser (snd x)) (map (fun '(l, t) => (l, p t)) fs)) s vs s' ->
  Forall2 (fun f v => P (snd f) v) fs vs.
Proof.
  intros Hlaw HF. induction HF as [|(l, t) fs Hf _ IH]; intros s vs s' HI H; cbn [map] in H; inversion H as [|b bs s0 v s1 vs' s2 Hb Hs]; subst; [constructor|].
  constructor; [exact (Hf _ _ _ HI Hb)|]. refine (IH _ _ _ _ Hs). eapply I_frame; [eapply Hlaw; exact Hb|exact HI].
Qed.
Lemma gives_run p t s vs s' : lawful p -> gives p t -> run_yes (of_parser p) s vs s' -> I (ps_rest s) -> Forall (P t) vs.
Proof.
  intros Hlaw Hg H. induction H as [s e Hn|s v s1 vs s2 Hb Hs IH]; intro HI; constructor; [exact (Hg _ _ _ HI Hb)|].
  apply IH. eapply I_frame; [eapply Hlaw; exact Hb|exact HI].
Qed.
Lemma gives_tail pa pp a b s l s' : lawful pa -> lawful pp -> gives pa a -> gives pp b -> tail_yes (of_parser pa) (of_parser pp) s l s' -> I (ps_rest s) -> Pp b a l.
Proof.
  intros La Lp Ha Hp H. induction H as [s e Hn|s q s1 v s2 l s3 K1 K2 Hs IH]; intro HI; constructor; cbn in *.
  - assert (HI1 : I (ps_rest s1)) by (eapply I_frame; [eapply Lp; exact K1|exact HI]). split; [exact (Hp _ _ _ HI K1)|exact (Ha _ _ _ HI1 K2)].
  - apply IH. eapply I_frame; [eapply La; exact K2|]. eapply I_frame; [eapply Lp; exact K1|exact HI].
Qed.
Lemma gives_fill pa pp a b s l o s' : lawful pa -> lawful pp -> gives pa a -> gives pp b -> fill_yes (of_parser pa) (of_parser pp) s l o s' -> I (ps_rest s) ->
  Pp a b l /\ (forall v, o = Some v -> P a v).
Proof.
  intros La Lp Ha Hp H. induction H as [s Hn|s v s1 Hn K1 K2|s v s1 q s2 l o s3 Hn K1 Hn2 K2 Hs IH]; intro HI.
  - split; [constructor|discriminate].
  - split; [constructor|]. intros w Hw. injection Hw as <-. exact (Ha _ _ _ HI K1).
  - assert (HI1 : I (ps_rest s1)) by (eapply I_frame; [eapply La; exact K1|exact HI]).
    assert (HI2 : I (ps_rest s2)) by (eapply I_frame; [eapply Lp; exact K2|exact HI1]).
    destruct (IH HI2) as (J1 & J2). split; [constructor; [|exact J1]|exact J2]. cbn. split; [exact (Ha _ _ _ HI K1)|exact (Hp _ _ _ HI1 K2)].
Qed.
Lemma fill_not_eof (pa pp : parser val) s l o s' : (forall s v s', pp s = (OOk v, s') -> ps_rest s <> [] /\ s' = s) ->
  fill_yes (of_parser pa) (of_parser pp) s l o s' -> o = None -> l = [].
Proof.
  intros Hp H. induction H as [s Hn|s v s1 Hn K1 K2|s v s1 q s2 l o s3 Hn K1 Hn2 K2 Hs IH]; intro Ho; [reflexivity|reflexivity|].
  specialize (IH Ho). subst l o. apply Hp in K2 as (_ & ->). inversion Hs. congruence.
Qed.
Lemma inner_pairs a b x l : P a x -> Pp b a l -> Pp a b (fst (pairs_of x l)) /\ P a (snd (pairs_of x l)).
Proof.
  revert x. induction l as [|(p, w) l IH]; intros x Hx Hl; cbn [pairs_of]; [split; [constructor|exact Hx]|].
  inversion Hl as [|? ? (Q1 & Q2) Hl']; subst. cbn [fst snd] in Q1, Q2. specialize (IH w Q2 Hl'). destruct (pairs_of w l) as (ps, z). cbn [fst snd] in *.
  destruct IH as (J1 & J2). split; [constructor; auto|exact J2].
Qed.

Theorem parse_layer_ind n (p : ty -> parser val) t : leaves A t -> (forall t, lawful (p t)) -> (forall t, leaves A t -> gives (p t) t) ->
  (forall s v s', p TyNotEof s = (OOk v, s') -> ps_rest s <> [] /\ s' = s) -> gives (p_layer E n p t) t.
Proof.
  intros Ht Hlaw Hg Hne s v s' HI H. pose proof (I_ignore _ HI) as HI'. destruct t; cbn [p_layer leaves] in H, Ht.
  - apply pmap_ok in H as ((x & sp) & H & ->). cbn. unfold p_ident in H.
    destruct (ignore_none (ps_rest s)) as [|[n0 sp0|c0 g0 sp0|r0 sp0|d' sp' i] r1] eqn:Ei; try discriminate.
    destruct (text_mem n0 rust_keywords) eqn:Ek; [discriminate|]. injection H as <- <- <-. eapply H1; [exact HI'|].
    rewrite <- text_mem_In, Ek. discriminate.
  - apply pmap_ok in H as ((x & sp) & H & ->). cbn. unfold p_custom_ident in H.
    apply bind_ok in H as ((y & sp1) & s1 & K1 & K2). cbn [fst snd] in K2. destruct (text_mem y kws) eqn:Ek; [discriminate|]. injection K2 as -> -> ->.
    unfold p_ident_any in K1. destruct (ignore_none (ps_rest s)) as [|[n0 sp0|c0 g0 sp0|r0 sp0|d' sp' i] r1] eqn:Ei; try discriminate.
    injection K1 as <- <- <-. eapply H2; [exact HI'|]. rewrite <- text_mem_In, Ek. discriminate.
  - apply pmap_ok in H as (sp & H & ->). unfold p_keyword in H.
    apply bind_ok in H as ((y & sp1) & s1 & K1 & K2). cbn [fst snd] in K2. destruct (text_eqb y kw) eqn:Ek; [|discriminate]. injection K2 as -> ->.
    apply text_eqb_eq in Ek. subst y.
    unfold p_ident_any in K1. destruct (ignore_none (ps_rest s)) as [|[n0 sp0|c0 g0 sp0|r0 sp0|d' sp' i] r1] eqn:Ei; try discriminate.
    injection K1 as <- <- <-. eapply H3. exact HI'.
  - apply pmap_ok in H as (sp & H & ->). unfold p_token_kw in H.
    destruct (ignore_none (ps_rest s)) as [|[n0 sp0|c0 g0 sp0|r0 sp0|d' sp' i] r1] eqn:Ei; try discriminate.
    destruct (text_eqb n0 kw) eqn:Ek; [|discriminate]. apply text_eqb_eq in Ek. subst n0. injection H as <- <-. eapply H4. exact HI'.
  - apply pmap_ok in H as (sps & H & ->). unfold p_token in H.
    destruct (take_op op (ps_rest s)) as [(sps1, r)|] eqn:Et; [|discriminate]. injection H as <- <-. eapply H5; [exact Ht|exact HI|exact Et].
  - apply pmap_ok in H as ((l & sp) & H & ->). eapply H6; eassumption.
  - apply pmap_ok in H as ((l & sp) & H & ->). eapply H7; eassumption.
  - apply pmap_ok in H as (x & H & ->). exact H8.
  - apply pmap_ok in H as (x & H & ->). exact H9.
  - apply pmap_ok in H as (x & H & ->). exact H10.
  - apply pmap_ok in H as (x & H & ->). apply maybe_ok in H; [|apply Hlaw]. destruct x as [(x & y)|]; [|apply H11].
    destruct H as (s1 & K1 & K2). apply H12; [refine (Hg _ _ _ _ _ HI K1); apply Ht|]. refine (Hg _ _ _ _ _ _ K2); [apply Ht|]. eapply I_frame; [eapply Hlaw; exact K1|exact HI].
  - apply pmap_ok in H as ((sp & x) & H & ->). apply group_ok in H as (inner & r & si & Hi & H & ->). rewrite Hi in HI'.
    apply (H13 DParen); [discriminate|]. refine (Hg _ Ht _ _ _ _ H). eapply I_group. exact HI'.
  - apply pmap_ok in H as ((sp & x) & H & ->). apply group_ok in H as (inner & r & si & Hi & H & ->). rewrite Hi in HI'.
    apply (H13 DBracket); [discriminate|]. refine (Hg _ Ht _ _ _ _ H). eapply I_group. exact HI'.
  - apply pmap_ok in H as ((sp & x) & H & ->). apply group_ok in H as (inner & r & si & Hi & H & ->). rewrite Hi in HI'.
    apply (H13 DBrace); [discriminate|]. refine (Hg _ Ht _ _ _ _ H). eapply I_group. exact HI'.
  - apply pmap_ok in H as (x & H & ->). apply terminated_loop_ok in H as (l & o & H & ->). cbn [pn_inner pn_last rev app].
    destruct (gives_fill _ _ t1 t2 _ _ _ _ (Hlaw _) (Hlaw _) (Hg _ (proj1 Ht)) (Hg _ (proj2 Ht)) H HI) as (J1 & J2). apply H14; [exact J1|exact J2|].
    intros ->. eapply fill_not_eof; [exact Hne|exact H].
  - apply pmap_ok in H as (x & H & ->). apply bind_ok in H as (y & s1 & K1 & K2). apply separated_loop_ok in K2 as (l & K2 & ->); [|apply Hlaw].
    cbn [pn_inner pn_last rev app].
    assert (HI1 : I (ps_rest s1)) by (eapply I_frame; [eapply Hlaw; exact K1|exact HI]).
    destruct (inner_pairs t1 t2 y l) as (J1 & J2); [refine (Hg _ _ _ _ _ HI K1); apply Ht| |apply H15; assumption].
    eapply gives_tail; [apply Hlaw|apply Hlaw|apply Hg, Ht|apply Hg, Ht|exact K2|exact HI1].
  - apply pmap_ok in H as (x & H & ->). apply any_loop_ok in H as (l & -> & H); [|apply Hlaw]. cbn [rev app].
    apply H16. eapply gives_run; [apply Hlaw|apply Hg, Ht|exact H|exact HI].
  - apply pmap_ok in H as (x & H & ->). apply left_assoc_ok in H as (y & l & H & Hf); [|apply Hlaw].
    apply bind_ok in H as (y' & s1 & K1 & K2). apply separated_loop_ok in K2 as (l' & K2 & Hx); [|apply Hlaw].
    cbn [rev app] in Hx. injection Hx as Hx1 Hx2. assert (HE : unpairs (fst (pairs_of y l)) (snd (pairs_of y l)) = unpairs (fst (pairs_of y' l')) (snd (pairs_of y' l'))) by congruence.
    rewrite !unpairs_pairs in HE. injection HE as <- <-.
    assert (HI1 : I (ps_rest s1)) by (eapply I_frame; [eapply Hlaw; exact K1|exact HI]).
    eapply H17; [refine (Hg _ _ _ _ _ HI K1); apply Ht| |exact Hf]. eapply gives_tail; [apply Hlaw|apply Hlaw|apply Hg, Ht|apply Hg, Ht|exact K2|exact HI1].
  - apply pmap_ok in H as (x & H & ->). apply right_assoc_ok in H as (y & l & H & Hf); [|apply Hlaw].
    apply bind_ok in H as (y' & s1 & K1 & K2). apply separated_loop_ok in K2 as (l' & K2 & Hx); [|apply Hlaw].
    cbn [rev app] in Hx. injection Hx as Hx1 Hx2. assert (HE : unpairs (fst (pairs_of y l)) (snd (pairs_of y l)) = unpairs (fst (pairs_of y' l')) (snd (pairs_of y' l'))) by congruence.
    rewrite !unpairs_pairs in HE. injection HE as <- <-.
    assert (HI1 : I (ps_rest s1)) by (eapply I_frame; [eapply Hlaw; exact K1|exact HI]).
    eapply H18; [refine (Hg _ _ _ _ _ HI K1); apply Ht| |exact Hf]. eapply gives_tail; [apply Hlaw|apply Hlaw|apply Hg, Ht|apply Hg, Ht|exact K2|exact HI1].
  - apply pmap_ok in H as (x & H & ->). apply either_ok in H; [|apply Hlaw|apply Hlaw]. destruct x as [x|x].
    + apply H19. refine (Hg _ _ _ _ _ HI H). apply Ht.
    + apply H20. destruct H as (_ & H). refine (Hg _ _ _ _ _ HI H). apply Ht.
  - apply H21. refine (Hg _ _ _ _ _ HI H). exact Ht.
  - pose proof (A_env i) as Hi. destruct (E i) as [c|en cs] eqn:Ed; cbn [p_def] in H; cbn [def_leaves] in Hi.
    + apply pmap_ok in H as (vs & H & ->). apply fields_ok in H. eapply H22; [exact Ed|]. eapply gives_seq; [exact Hlaw| |exact HI|exact H].
      eapply Forall_impl; [|exact Hi]. intros f Hf. apply Hg, Hf.
    + apply pmap_ok in H as ((k & vs) & H & ->). apply variants_ok in H as (k' & w & -> & K1 & K2 & K3).
      * rewrite nth_error_map in K1. destruct (nth_error cs k') as [c|] eqn:Ek; [|discriminate]. cbn in K1. injection K1 as <-.
        apply fields_ok in K2. cbn [fst snd] in K2. eapply H23; [exact Ed|exact Ek|]. eapply gives_seq; [exact Hlaw| |exact HI|exact K2].
        rewrite Forall_forall in Hi. eapply Forall_impl; [|apply Hi; eapply nth_error_In; exact Ek]. intros f Hf. apply Hg, Hf.
      * apply Forall_map, Forall_forall. intros c _. unfold vparser. cbn. apply lawful_fields. apply Forall_map, Forall_forall. intros (l, t0) _. apply Hlaw.
Qed.
Theorem parse_ind n : forall t, leaves A t -> gives (pty E n t) t.
Proof.
  induction n as [|n IH]; intros t Ht; [intros s v s' _ H; discriminate|].
  rewrite pty_S. apply parse_layer_ind; [exact Ht|intro; apply lawful_pty|exact IH|].
  intros s v s' H. destruct (proj1 (not_eof_yes E s v s')) as (K1 & _ & K2); [exists n; exact H|auto].
Qed.
End Induction.

(** ** Parsed values are values of the type *)
Section Values.
Context {U : unicode}.
Lemma lits_ok_pops l l' : pops l l' -> lits_ok l -> lits_ok l'.
Proof. intros Hp H. unfold lits_ok in *. rewrite Forall_forall in *. intros r Hr. apply H. eapply lits_pops; eassumption. Qed.
Lemma lits_ok_group d sp i r : lits_ok (TGroup d sp i :: r) -> lits_ok i.
Proof. unfold lits_ok. cbn [lits]. rewrite lits1_group. intro H. apply Forall_app in H as (H & _). exact H. Qed.
Lemma take_op_length op : forall l sps r, take_op op l = Some (sps, r) -> List.length sps = List.length op.
Proof.
  induction op as [|c op IH]; intros l sps r H; cbn [take_op] in H; [injection H as <- _; reflexivity|].
  destruct (ignore_none l) as [|[n sp|d g sp|n sp|d sp i] l']; try discriminate. destruct (_ && _); [|discriminate].
  destruct (take_op op l') as [(sps', r')|] eqn:Et; [|discriminate]. injection H as <- <-. cbn [List.length]. f_equal. eapply IH. exact Et.
Qed.
Lemma lit_read_valid s sl sp s' l : lits_ok (ps_rest s) -> p_lit s = (OOk (sl, sp), s') -> conv l sl -> lit_valid l.
Proof.
  intros Hok H Hc. apply lits_ok_ignore in Hok. apply p_lit_inv in H as (r & _ & [(b & _ & ->)|[(repr & k & E & Hk & ->)|(g & sp1 & sp2 & repr & r1 & k & E & E' & _ & Hk & ->)]]).
  - destruct l; try exact I; cbn in Hc; try discriminate; destruct Hc as (ds & Hc & _); discriminate.
  - rewrite E in Hok. unfold lits_ok in Hok. cbn in Hok. inversion Hok; subst. eapply conv_valid; eassumption.
  - rewrite E in Hok. assert (Hok' : lits_ok r1) by exact Hok. apply lits_ok_ignore in Hok'. rewrite E' in Hok'. unfold lits_ok in Hok'. cbn in Hok'. inversion Hok' as [|x xs (Hu & _) _]; subst.
    eapply conv_valid_neg; eassumption.
Qed.
Lemma p_litty_kind k s l sp s' : p_litty k s = (OOk (l, sp), s') -> k = litty_of l.
Proof.
  assert (Hm : forall B (f : B -> lit) (q : parser (B * span)), (forall v, k = litty_of (f v)) ->
     pmap (fun x => (f (fst x), snd x)) q s = (OOk (l, sp), s') -> k = litty_of l).
  { intros B f q Hc H. apply pmap_ok in H as ((v & sp1) & _ & E). cbn in E. injection E as -> ->. apply Hc. }
  destruct k; cbn [p_litty].
  1:{ apply (Hm bool LBool). reflexivity. }
  1:{ apply (Hm N LByte). reflexivity. }
  4:{ apply (Hm N LChar). reflexivity. }
  4:{ apply (Hm (list N) LStr). reflexivity. }
  4:{ apply (Hm (list N) LByteStr). reflexivity. }
  all: unfold p_lit_int, p_lit_uint, p_lit_float, and_then; intro H; apply bind_ok in H as ((ds & sp1) & s1 & _ & H); injection H as H _; cbn [fst snd] in H.
  - unfold int_try_from in H. destruct (read_i64 ds); [|discriminate]. injection H as <- _. reflexivity.
  - unfold uint_try_from in H. destruct (read_u64 ds); [|discriminate]. injection H as <- _. reflexivity.
  - unfold float_try_from in H. destruct (float_read ds); [|discriminate]. injection H as <- _. reflexivity.
Qed.
Lemma any_lit_sign s l sp s' : p_any_lit s = (OOk (l, sp), s') -> l <> LInt 0 -> by_sign l = l.
Proof.
  intros H Hz. destruct l as [b|b|z|z|f|c|x|x]; try reflexivity.
  assert (Hb : (i64_min <= z <= 0)%Z).
  { apply (C26_parsed_int_not_positive U (fun _ => DEnum [] []) s z sp s'). apply any_lit_yes. exists (LInt z), sp. auto. }
  cbn. destruct (Z.ltb_spec z 0); [reflexivity|]. exfalso. apply Hz. f_equal. lia.
Qed.

Variable E : env.
(** [Q]: whether the grammar mentions [Lit] *)
Variable Q : Prop.
Let A (t : ty) : Prop := t = TyAnyLit -> Q.
Hypothesis HE : env_leaves A E.
Definition no_minus_zero (v : val) : Prop := Q -> ~ In (LInt 0) (val_lits v).
Let P (t : ty) (v : val) : Prop := no_minus_zero v -> typed E t v.
Lemma nmz_app a b : (Q -> ~ In (LInt 0) (a ++ b)) -> (Q -> ~ In (LInt 0) a) /\ (Q -> ~ In (LInt 0) b).
Proof. intro H. split; intros q Hin; apply (H q), in_or_app; auto. Qed.
Lemma typed_pairs_of a b l : Forall (fun x : val * val => P a (fst x) /\ P b (snd x)) l ->
  (Q -> ~ In (LInt 0) (List.concat (map (fun '(x, y) => val_lits x ++ val_lits y) l))) -> typed_pairs E a b l.
Proof.
  intro H. induction H as [|(x, y) l (Hx & Hy) Hl IH]; intro Hz; [constructor|]. cbn [map List.concat fst snd] in *.
  constructor; [apply Hx|apply Hy|apply IH]; intros q Hin; apply (Hz q), in_or_app; [left|left|right]; [apply in_or_app; left|apply in_or_app; right|]; exact Hin.
Qed.
Lemma typed_list_of a l : Forall (P a) l -> (Q -> ~ In (LInt 0) (List.concat (map val_lits l))) -> typed_list E a l.
Proof.
  intro H. induction H as [|x l Hx Hl IH]; intro Hz; [constructor|]. cbn [map List.concat] in *.
  constructor; [apply Hx|apply IH]; intros q Hin; apply (Hz q), in_or_app; auto.
Qed.
Lemma typed_fields_of fs l : Forall2 (fun (f : label * ty) v => P (snd f) v) fs l -> (Q -> ~ In (LInt 0) (List.concat (map val_lits l))) -> typed_fields E fs l.
Proof.
  intro H. induction H as [|(n, t) x fs l Hx Hl IH]; intro Hz; [constructor|]. cbn [map List.concat snd] in *.
  constructor; [apply Hx|apply IH]; intros q Hin; apply (Hz q), in_or_app; auto.
Qed.
Theorem parsed_typed n t s v s' : leaves A t -> lits_ok (ps_rest s) -> pty E n t s = (OOk v, s') -> no_minus_zero v -> typed E t v.
Proof.
  intros Ht Hok H. refine (parse_ind E lits_ok lits_ok_pops lits_ok_group A HE P _ _ _ _ _ _ _ _ _ _ _ _ _ _ _ _ _ _ _ _ _ _ _ n t Ht s v s' Hok H); clear n t s v s' Ht Hok H; unfold P.
  all: try (intros; constructor; assumption).
  - intros op sps l r _ _ H _. constructor. eapply take_op_length. exact H.
  - intros k l sp s s' Hok H _. rewrite (p_litty_kind _ _ _ _ _ H). constructor. apply p_litty_inv in H as (sl & H & Hc). eapply lit_read_valid; eassumption.
  - intros l sp s s' Ha Hok H Hz. constructor.
    + apply p_any_lit_inv in H as (sl & H & Hc). eapply lit_read_valid; eassumption.
    + eapply any_lit_sign; [exact H|]. intros ->. apply (Hz (Ha eq_refl)). left. reflexivity.
  - intros a b x v Hx Hv Hz. unfold no_minus_zero in Hz; cbn [val_lits] in Hz; destruct (nmz_app _ _ Hz). constructor; auto.
  - intros d t sp v Hd Ht Hz. constructor; [exact Hd|]. apply Ht, Hz.
  - intros a p inner last Hi Hl Hn Hz. unfold no_minus_zero in Hz; cbn [val_lits] in Hz; destruct (nmz_app _ _ Hz) as (Z1 & Z2). constructor; [apply typed_pairs_of; assumption| |exact Hn].
    destruct last as [x|]; constructor. apply Hl; [reflexivity|exact Z2].
  - intros a p inner v Hi Hv Hz. unfold no_minus_zero in Hz; cbn [val_lits] in Hz; destruct (nmz_app _ _ Hz) as (Z1 & Z2). constructor; [apply typed_pairs_of; assumption|exact (Hv Z2)].
  - intros a l Hl Hz. constructor. apply typed_list_of; assumption.
  - intros o r x l t Hx Hl Hf Hz. unfold no_minus_zero in Hz; rewrite (lits_left _ _ _ Hf) in Hz; destruct (nmz_app _ _ Hz) as (Z1 & Z2). econstructor; [exact (Hx Z1)|apply typed_pairs_of; eassumption|exact Hf].
  - intros o r x l t Hx Hl Hf Hz. unfold no_minus_zero in Hz; rewrite (lits_right _ _ _ Hf) in Hz; destruct (nmz_app _ _ Hz) as (Z1 & Z2). econstructor; [exact (Hx Z1)|apply typed_pairs_of; eassumption|exact Hf].
  - intros a b v Hv Hz. constructor. apply Hv, Hz.
  - intros a b v Hv Hz. constructor. apply Hv, Hz.
  - intros a v Hv Hz. constructor. apply Hv, Hz.
  - intros i c vs Hd Hf Hz. econstructor; [exact Hd|]. apply typed_fields_of; assumption.
  - intros i en cs k c vs Hd Hk Hf Hz. econstructor; [exact Hd|exact Hk|]. apply typed_fields_of; assumption.
Qed.
End Values.

(** ** ... and can be written down *)
Definition punct_ops (t : ty) : Prop := match t with TyToken op => op_ok op | _ => True end.
Section Write.
Context {U : unicode}.
Definition tokens_ok (l : list tt) : Prop := lits_ok l /\ Forall (fun w => ident_ok (fst w)) (words l).
Lemma words_app a b : words (a ++ b) = words a ++ words b.
Proof. induction a as [|x a IH]; [reflexivity|]. cbn. rewrite IH. apply app_assoc. Qed.
Lemma words_pops l l' : pops l l' -> forall w, In w (words l') -> In w (words l).
Proof.
  induction 1 as [l|x r l H IH|sp i r l H IH]; intros z Hz; auto.
  - cbn [words]. apply in_or_app. right. auto.
  - cbn [words]. rewrite words1_group. apply IH in Hz. rewrite words_app in Hz. exact Hz.
Qed.
Lemma tokens_ok_pops l l' : pops l l' -> tokens_ok l -> tokens_ok l'.
Proof.
  intros Hp (H1 & H2). split; [eapply lits_ok_pops; eassumption|]. rewrite Forall_forall in *. intros w Hw. apply H2. eapply words_pops; eassumption.
Qed.
Lemma tokens_ok_group d sp i r : tokens_ok (TGroup d sp i :: r) -> tokens_ok i.
Proof. intros (H1 & H2). split; [eapply lits_ok_group; exact H1|]. cbn [words] in H2. rewrite words1_group in H2. apply Forall_app in H2 as (H2 & _). exact H2. Qed.
Lemma tokens_ok_ident n sp r : tokens_ok (TIdent n sp :: r) -> ident_ok n.
Proof. intros (_ & H). cbn in H. inversion H; subst. assumption. Qed.
Lemma writable_left x l t : left_form x l t -> writable x -> Forall (fun y => writable (fst y) /\ writable (snd y)) l -> writable (val_of_left t).
Proof. induction 1 as [|l t o y H IH]; intros Hx Hl; cbn [val_of_left writable]; [exact Hx|]. apply Forall_app in Hl as (Hl & Hy). inversion Hy; subst. cbn in *. split; [apply IH; assumption|]. tauto. Qed.
Lemma writable_right x l t : right_form x l t -> writable x -> Forall (fun y => writable (fst y) /\ writable (snd y)) l -> writable (val_of_right t).
Proof. induction 1 as [|x o y l t H IH]; intros Hx Hl; cbn [val_of_right writable]; [exact Hx|]. inversion Hl; subst. cbn in *. split; [exact Hx|]. split; [tauto|]. apply IH; tauto. Qed.
Lemma writable_all fs : forall vs, Forall2 (fun (_ : label * ty) v => writable v) fs vs -> (fix all l := match l with [] => True | x :: r => writable x /\ all r end) vs.
Proof. intros vs H. induction H; [exact I|]. split; assumption. Qed.
Theorem parsed_writable E n t s v s' : env_leaves punct_ops E -> leaves punct_ops t -> tokens_ok (ps_rest s) -> pty E n t s = (OOk v, s') -> writable v.
Proof.
  intros HE Ht Hok H. refine (parse_ind E tokens_ok tokens_ok_pops tokens_ok_group punct_ops HE (fun _ v => writable v) _ _ _ _ _ _ _ _ _ _ _ _ _ _ _ _ _ _ _ _ _ _ _ n t Ht s v s' Hok H); clear n t s v s' Ht Hok H.
  all: try (intros; eapply tokens_ok_ident; eassumption).
  all: try exact I.
  all: try (intros; assumption).
  - intros op sps l r Ha _ H. split; [exact Ha|]. eapply take_op_length. exact H.
  - intros k l sp s s' (Hok & _) H. cbn. apply p_litty_inv in H as (sl & H & Hc). eapply lit_read_valid; eassumption.
  - intros l sp s s' _ (Hok & _) H. cbn. apply p_any_lit_inv in H as (sl & H & Hc). eapply lit_read_valid; eassumption.
  - intros; exact I.
  - intros a b x v Hx Hv. split; assumption.
  - intros d t sp v Hd Hv. split; assumption.
  - intros a p inner last Hi Hl _. cbn [writable]. split; [|destruct last; [apply Hl; reflexivity|exact I]].
    induction Hi as [|(x, y) l (Hx & Hy) _ IH]; [exact I|]. auto.
  - intros a p inner v Hi Hv. cbn [writable]. split; [|exact Hv]. induction Hi as [|(x, y) l (Hx & Hy) _ IH]; [exact I|]. auto.
  - intros a l Hl. cbn [writable]. induction Hl; [exact I|]. auto.
  - intros o r x l t Hx Hl Hf. eapply writable_left; eassumption.
  - intros o r x l t Hx Hl Hf. eapply writable_right; eassumption.
  - intros i c vs _ Hf. eapply writable_all. exact Hf.
  - intros i en cs k c vs _ _ Hf. eapply writable_all. exact Hf.
Qed.
Lemma wf_words l : wf l -> Forall (fun w => ident_ok (fst w)) (words l).
Proof.
  induction l as [|x r IH]; [constructor|]. rewrite wf_cons. intros (Hx & _ & Hr). cbn [words]. apply Forall_app. split; [|auto]. clear - Hx.
  induction x as [n s|c g s|n s|d s l IH] using tt_ind'; try (constructor; fail); [constructor; [exact Hx|constructor]|].
  rewrite wf_group in Hx. destruct Hx as (_ & Hl). rewrite words1_group. induction IH as [|x l Hx _ IHl]; [constructor|]. rewrite wf_cons in Hl. destruct Hl as (W1 & _ & W2). cbn [words]. apply Forall_app. auto.
Qed.
End Write.
