(** * Sound: printing what was parsed gives back the consumed tokens. *)
From Verif Require Import Base Float Literal Syn Ast Derive Grammar Spec LitSpec LiteralFacts Reprint LitDenote
  SynFacts Lawful Mono Combinators GrammarBeh Assoc ManyFacts.

Section Sound.
Context {U : unicode}.

(** ** lists of literals *)
Lemma lits_app a b : lits (a ++ b) = lits a ++ lits b.
Proof. induction a as [|x a IH]; cbn; [reflexivity|]. rewrite IH, app_assoc. reflexivity. Qed.
Lemma lits1_group d sp l : lits1 (TGroup d sp l) = lits l.
Proof. cbn. induction l as [|x l IH]; cbn; [reflexivity|]. rewrite IH. reflexivity. Qed.
Lemma lits_flat l : lits (flat l) = lits l.
Proof.
  assert (H : forall t, lits (flat1 t) = lits1 t).
  { intro t. induction t as [n sp|c g sp|r sp|d sp l0 IH] using tt_ind'; try reflexivity.
    assert (Hl : lits (flat l0) = lits l0).
    { induction IH as [|x r Hx _ IHr]; [reflexivity|]. cbn [flat lits]. rewrite lits_app, Hx, IHr. reflexivity. }
    rewrite lits1_group. destruct (delim_eqb d DNone) eqn:Ed.
    - apply delim_eqb_eq in Ed. subst d. rewrite flat1_none. exact Hl.
    - rewrite flat1_group by (intros ->; discriminate). cbn [lits]. rewrite lits1_group, app_nil_r. exact Hl. }
  induction l as [|x l IH]; [reflexivity|]. cbn [flat lits]. rewrite lits_app, H, IH. reflexivity.
Qed.
Lemma lits_ok_flat l : lits_ok (flat l) <-> lits_ok l.
Proof. unfold lits_ok. rewrite lits_flat. tauto. Qed.
Lemma lits_ok_app a b : lits_ok (a ++ b) <-> lits_ok a /\ lits_ok b.
Proof. unfold lits_ok. rewrite lits_app. apply Forall_app. Qed.
Lemma lits_ok_ignore l : lits_ok (ignore_none l) <-> lits_ok l.
Proof. rewrite <- lits_ok_flat, flat_ignore_none. apply lits_ok_flat. Qed.

(** ** reprints *)
Lemma reprints_mono Q (L M : list tt -> Prop) a b : (forall x, L x -> M x) -> reprints Q L a b -> reprints Q M a b.
Proof. intros H R. induction R; econstructor; eauto. Qed.
Lemma reprints_app Q L a b c d : reprints Q L a b -> reprints Q L c d -> reprints Q L (a ++ c) (b ++ d).
Proof. intros R S. induction R; cbn [app]; try (econstructor; eauto; fail). exact S. Qed.

(** what a state with no recorded leftovers says about the groups entered so far *)
Definition clean (s : pstate) : list tt -> Prop := fun left => ps_unexp s = None -> left = [].
Lemma clean_mono s s' x : frame s s' -> clean s x -> clean s' x.
Proof. unfold clean. intros F H Hu. apply H. eapply frame_unexp_none; eassumption. Qed.

Section Spacing.
Variable Q : char -> spacing -> spacing -> Prop.
(** what a leaf must satisfy so that printing relates spacings by [Q] *)
Fixpoint op_spacing (op : list char) : Prop :=
  match op with
  | [] => True
  | [c] => c <> 39%N -> forall g, Q c g Alone
  | c :: op' => (c <> 39%N -> Q c Joint Joint) /\ op_spacing op'
  end.
Definition leaf_spacing (t : ty) : Prop :=
  match t with
  | TyToken op => op_spacing op
  | TyLit _ | TyAnyLit => forall g, Q 45%N g Alone
  | _ => True
  end.
Definition emits (s : pstate) (ts : list tt) (s' : pstate) : Prop :=
  frame s s' /\ (lits_ok (ps_rest s) ->
    exists c, flat (ps_rest s) = c ++ flat (ps_rest s') /\ reprints Q (clean s') c ts).
Lemma emits_refl s : emits s [] s.
Proof. split; [apply frame_refl|]. intros _. exists []. split; [reflexivity|constructor]. Qed.
Lemma emits_trans s a s1 b s2 : emits s a s1 -> emits s1 b s2 -> emits s (a ++ b) s2.
Proof.
  intros (F1 & H1) (F2 & H2). split; [eapply frame_trans; eassumption|]. intro Hl.
  destruct (H1 Hl) as (c1 & E1 & R1). apply (proj2 (lits_ok_flat _)) in Hl. rewrite E1 in Hl. apply lits_ok_app in Hl as (_ & Hl).
  apply (proj1 (lits_ok_flat _)) in Hl. destruct (H2 Hl) as (c2 & E2 & R2). exists (c1 ++ c2). split.
  - rewrite E1, E2, app_assoc. reflexivity.
  - apply reprints_app; [|exact R2]. eapply reprints_mono; [|exact R1]. intro x. apply clean_mono. exact F2.
Qed.

(** a behaviour whose values print as what they consumed *)
Definition sound {A} (b : behaviour A) (pr : printer A) : Prop :=
  forall s v s' ts, yes b s v s' -> pr v = Some ts -> emits s ts s'.

Lemma oapp_some a b ts : oapp a b = Some ts -> exists x y, a = Some x /\ b = Some y /\ ts = x ++ y.
Proof. destruct a, b; cbn; intro H; try discriminate. injection H as <-. eauto. Qed.


Lemma emit_one s t r ts : ignore_none (ps_rest s) = t :: r ->
  (lits_ok [t] -> reprints Q (clean (set_rest s r)) (flat1 t) ts) -> emits s ts (set_rest s r).
Proof.
  intros Hi Hr. split.
  - apply frame_set_rest. eapply ignore_none_pop. exact Hi.
  - intro Hl. exists (flat1 t). split.
    + rewrite <- flat_ignore_none, Hi. reflexivity.
    + apply Hr. apply (proj2 (lits_ok_ignore _)) in Hl. rewrite Hi in Hl. apply (lits_ok_app [t] r) in Hl. tauto.
Qed.
Lemma emit_ident s n sp r : ignore_none (ps_rest s) = TIdent n sp :: r -> emits s [TIdent n sp] (set_rest s r).
Proof. intro H. eapply emit_one; [exact H|]. intros _. cbn. repeat constructor. Qed.

Lemma emit_op op : op_spacing op -> forall s sps r, take_op op (ps_rest s) = Some (sps, r) -> emits s (print_op op sps) (set_rest s r).
Proof.
  induction op as [|c op IH]; intros Hq s sps r H; cbn [take_op] in H.
  - injection H as <- <-. destruct s. apply emits_refl.
  - destruct (ignore_none (ps_rest s)) as [|[n0 sp0|c0 g0 sp0|r0 sp0|d' sp' i] r1] eqn:E; try discriminate.
    destruct ((c =? c0)%N && negb (c0 =? 39)%N && _) eqn:Ec; [|discriminate].
    destruct (take_op op r1) as [(sps1, r2)|] eqn:Et; [|discriminate]. injection H as <- <-.
    rewrite !andb_true_iff in Ec. destruct Ec as ((Ec & Eq) & Eg). apply N.eqb_eq in Ec. subst c0. assert (H39 : c <> 39%N) by (intros ->; discriminate).
    destruct op as [|c2 op].
    + cbn [take_op] in Et. injection Et as <- <-. eapply emit_one; [exact E|]. intros _. cbn. constructor; [apply Hq; exact H39|constructor].
    + change (print_op (c :: c2 :: op) (sp0 :: sps1)) with ([TPunct c Joint sp0] ++ print_op (c2 :: op) sps1).
      destruct Hq as (Hq1 & Hq2). specialize (IH Hq2 (set_rest s r1) sps1 r2 Et). change (set_rest (set_rest s r1) r2) with (set_rest s r2) in IH.
      eapply emits_trans; [|exact IH]. eapply emit_one; [exact E|]. intros _. cbn. constructor; [|constructor].
      destruct g0; [exact (Hq1 H39)|discriminate].
Qed.

Lemma emit_lit s k sp s' l ts : (forall g, Q 45%N g Alone) -> p_lit s = (OOk (k, sp), s') -> conv l k -> print_lit l sp = Some ts -> emits s ts s'.
Proof.
  intros Hq H Hc Hp. apply p_lit_inv in H as (r & -> & [(b & Hi & ->)|[(repr & k' & Hi & Hk & ->)|(g & sp1 & sp2 & repr & r1 & k' & Hi & Hi2 & Hsp & Hk & ->)]]).
  - destruct l; cbn in Hc; try discriminate; try (destruct Hc as (? & Hc & _); discriminate). injection Hc as <-. cbn in Hp. injection Hp as <-.
    apply emit_ident. exact Hi.
  - eapply emit_one; [exact Hi|]. intro Hl. unfold lits_ok in Hl. cbn in Hl. apply Forall_inv in Hl.
    destruct (print_unsigned repr k' l sp ts Hl Hk Hc Hp) as (r2 & -> & Hu & Hd). cbn. apply rp_lit; [auto|apply Hl|exact Hu| |constructor].
    exists l, sp, [TLit r2 sp]. split; [exact (conv_valid repr k' l Hl Hk Hc)|]. split; [exact Hp|left; reflexivity].
  - split.
    + apply frame_set_rest. eapply pops_trans; [eapply ignore_none_pop; exact Hi|eapply ignore_none_pop; exact Hi2].
    + intro Hl. exists [TPunct 45 g sp1; TLit repr sp2]. split.
      * rewrite <- flat_ignore_none, Hi. cbn [flat flat1 app]. f_equal. rewrite <- flat_ignore_none, Hi2. reflexivity.
      * assert (Hok : lit_ok repr).
        { apply (proj2 (lits_ok_ignore _)) in Hl. rewrite Hi in Hl. apply (lits_ok_app [_] r1) in Hl as (_ & Hl). apply (proj2 (lits_ok_ignore _)) in Hl. rewrite Hi2 in Hl.
          apply (lits_ok_app [_] r) in Hl as (Hl & _). unfold lits_ok in Hl. cbn in Hl. apply Forall_inv in Hl. exact Hl. }
        destruct (print_negative repr k' l sp ts (proj1 Hok) Hk Hc Hp) as [(r2 & -> & Hu & Hd)|(-> & Hd)].
        -- apply rp_neg; [apply Hq|auto|apply Hok|exact Hu| |exact Hsp|constructor].
           exists l, sp, [TPunct 45 Alone sp; TLit r2 sp]. split; [exact (conv_valid_neg repr k' l (proj1 Hok) Hk Hc)|]. split; [exact Hp|right; left; reflexivity].
        -- apply rp_neg_zero; [exact Hd|exact Hsp|constructor].
Qed.

(** ** structural relations *)
Lemma sound_seq (bs : list (behaviour val)) s vs s' : Forall (fun b => sound b print) bs -> seq_yes bs s vs s' ->
  forall ts, oconcat (map print vs) = Some ts -> emits s ts s'.
Proof.
  intros HF H. induction H as [s|b bs s v s1 vs s2 Hb Hs IH]; intros ts Hp.
  - cbn in Hp. injection Hp as <-. apply emits_refl.
  - cbn in Hp. apply oapp_some in Hp as (x & y & Hx & Hy & ->). inversion HF as [|? ? Hb0 HF']; subst.
    eapply emits_trans; [eapply Hb0; eassumption|]. apply IH; assumption.
Qed.
Lemma sound_run (b : behaviour val) s vs s' : sound b print -> run_yes b s vs s' ->
  forall ts, oconcat (map print vs) = Some ts -> emits s ts s'.
Proof.
  intros HF H. induction H as [s e Hn|s v s1 vs s2 Hb Hs IH]; intros ts Hp.
  - cbn in Hp. injection Hp as <-. apply emits_refl.
  - cbn in Hp. apply oapp_some in Hp as (x & y & Hx & Hy & ->). eapply emits_trans; [eapply HF; eassumption|]. apply IH; assumption.
Qed.
Lemma sound_tail (a p : behaviour val) s l s' : sound a print -> sound p print -> tail_yes a p s l s' ->
  forall ts, oconcat (map (fun '(x, y) => oapp (print x) (print y)) l) = Some ts -> emits s ts s'.
Proof.
  intros HA HP H. induction H as [s e Hn|s q s1 v s2 l s3 H1 H2 Hs IH]; intros ts Hp.
  - cbn in Hp. injection Hp as <-. apply emits_refl.
  - cbn in Hp. apply oapp_some in Hp as (x & y & Hx & Hy & ->). apply oapp_some in Hx as (x1 & x2 & Hx1 & Hx2 & ->).
    rewrite <- app_assoc. eapply emits_trans; [eapply HP; eassumption|]. eapply emits_trans; [eapply HA; eassumption|]. apply IH; assumption.
Qed.
Lemma sound_fill (a p : behaviour val) s l o s' : sound a print -> sound p print -> fill_yes a p s l o s' ->
  forall ts, print (VPunct l o) = Some ts -> emits s ts s'.
Proof.
  intros HA HP H. induction H as [s Hn|s v s1 Hn H1 H2|s v s1 q s2 l o s3 Hn H1 Hn2 H2 Hs IH]; intros ts Hp.
  - cbn in Hp. injection Hp as <-. apply emits_refl.
  - cbn in Hp. destruct (print v) as [x|] eqn:Ev; [|discriminate]. cbn in Hp. injection Hp as <-. eapply HA; eassumption.
  - cbn [print map oconcat fold_right] in Hp. rewrite !oapp_assoc in Hp.
    apply oapp_some in Hp as (x & y & Hx & Hy & ->). apply oapp_some in Hy as (y1 & y2 & Hy1 & Hy2 & ->).
    eapply emits_trans; [eapply HA; eassumption|]. eapply emits_trans; [eapply HP; eassumption|]. apply IH. exact Hy2.
Qed.

Lemma print_unfold_left t : print (val_of_left t) = print_left print print t.
Proof. induction t as [l IH o r|r]; cbn; [rewrite IH|]; reflexivity. Qed.
Lemma print_unfold_right t : print (val_of_right t) = print_right print print t.
Proof. induction t as [l o r IH|r]; cbn; [rewrite IH|]; reflexivity. Qed.

Section Env.
Variable E : env.
Lemma sound_group {A} d (p : parser A) pr : d <> DNone -> sound (of_parser p) pr ->
  sound (of_parser (p_group d p)) (print_group d pr).
Proof.
  intros Hd Hs s (sp, v) s' ts H Hp. apply group_ok in H as (inner & r & si & Hi & H & ->).
  unfold print_group in Hp. cbn [fst snd] in Hp. destruct (pr v) as [o|] eqn:Ev; [|discriminate Hp]. cbn in Hp. injection Hp as <-.
  destruct (Hs _ _ _ _ H Ev) as (F & Hr). cbn [ps_rest] in Hr. split.
  - eapply frame_group; [exact Hi|exact F].
  - intro Hl. exists [TGroup d sp (flat inner)]. split.
    + rewrite <- flat_ignore_none, Hi. cbn [flat ps_rest]. rewrite flat1_group by exact Hd. reflexivity.
    + assert (Hin : lits_ok inner).
      { apply (proj2 (lits_ok_ignore _)) in Hl. rewrite Hi in Hl. apply (lits_ok_app [_] r) in Hl as (Hl & _).
        unfold lits_ok in Hl. cbn [lits] in Hl. rewrite lits1_group, app_nil_r in Hl. exact Hl. }
      destruct (Hr Hin) as (c & Ec & R). rewrite Ec. apply rp_group; [| |constructor].
      * eapply reprints_mono; [|exact R]. intros x Hx Hu. apply Hx. unfold drop_unexp in Hu. cbn in Hu.
        destruct (ps_unexp si); [discriminate Hu|reflexivity].
      * unfold clean, drop_unexp. cbn. destruct (ps_unexp si); [discriminate|]. intro Hlo. apply leftover_none_flat in Hlo. exact Hlo.
Qed.
Lemma map_fst_snd_beh (p : ty -> parser val) (fs : list (label * ty)) : (forall t, leaves leaf_spacing t -> sound (of_parser (p t)) print) ->
  Forall (fun f => leaves leaf_spacing (snd f)) fs ->
  Forall (fun b => sound b print) (map (fun x => of_parser (snd x)) (map (fun '(l, t) => (l, p t)) fs)).
Proof. intros H HF. induction HF as [|(l, t) fs Hf _ IH]; cbn; constructor; [apply H; exact Hf|exact IH]. Qed.

Theorem sound_layer n (p : ty -> parser val) t : env_leaves leaf_spacing E -> leaves leaf_spacing t ->
  (forall t, lawful (p t)) -> (forall t, leaves leaf_spacing t -> sound (of_parser (p t)) print) ->
  sound (of_parser (p_layer E n p t)) print.
Proof.
  intros HE Ht Hlaw Hs s v s' ts H Hp. change (p_layer E n p t s = (OOk v, s')) in H. destruct t; cbn [p_layer] in H; cbn [leaves] in Ht.
  - apply pmap_ok in H as ((x & sp) & H & ->). cbn in Hp. injection Hp as <-. unfold p_ident in H.
    destruct (ignore_none (ps_rest s)) as [|[n0 sp0|c0 g0 sp0|r0 sp0|d' sp' i] r1] eqn:Ei; try discriminate.
    destruct (text_mem n0 rust_keywords); [discriminate|]. injection H as <- <- <-. apply emit_ident. exact Ei.
  - apply pmap_ok in H as ((x & sp) & H & ->). cbn in Hp. injection Hp as <-. unfold p_custom_ident in H.
    apply bind_ok in H as ((y & sp1) & s1 & H1 & H2). destruct (text_mem _ _); [discriminate|]. injection H2 as -> -> ->.
    unfold p_ident_any in H1. destruct (ignore_none (ps_rest s)) as [|[n0 sp0|c0 g0 sp0|r0 sp0|d' sp' i] r1] eqn:Ei; try discriminate.
    injection H1 as <- <- <-. apply emit_ident. exact Ei.
  - apply pmap_ok in H as (sp & H & ->). cbn in Hp. injection Hp as <-. unfold p_keyword in H.
    apply bind_ok in H as ((y & sp1) & s1 & H1 & H2). cbn [fst snd] in H2. destruct (text_eqb y kw) eqn:Ek; [|discriminate]. injection H2 as -> ->.
    apply text_eqb_eq in Ek. subst y.
    unfold p_ident_any in H1. destruct (ignore_none (ps_rest s)) as [|[n0 sp0|c0 g0 sp0|r0 sp0|d' sp' i] r1] eqn:Ei; try discriminate.
    injection H1 as <- <- <-. apply emit_ident. exact Ei.
  - apply pmap_ok in H as (sp & H & ->). cbn in Hp. injection Hp as <-. unfold p_token_kw in H.
    destruct (ignore_none (ps_rest s)) as [|[n0 sp0|c0 g0 sp0|r0 sp0|d' sp' i] r1] eqn:Ei; try discriminate.
    destruct (text_eqb n0 kw) eqn:Ek; [|discriminate]. apply text_eqb_eq in Ek. subst n0. injection H as <- <-. apply emit_ident. exact Ei.
  - apply pmap_ok in H as (sps & H & ->). cbn in Hp. injection Hp as <-. unfold p_token in H.
    destruct (take_op op (ps_rest s)) as [(sps1, r)|] eqn:Et; [|discriminate]. injection H as <- <-. apply emit_op; [exact Ht|exact Et].
  - apply pmap_ok in H as ((l & sp) & H & ->). apply p_litty_inv in H as (sl & H & Hc). cbn in Hp. eapply emit_lit; [exact Ht|eassumption..].
  - apply pmap_ok in H as ((l & sp) & H & ->). apply p_any_lit_inv in H as (sl & H & Hc). cbn in Hp. eapply emit_lit; [exact Ht|eassumption..].
  - apply pmap_ok in H as (x & H & ->). injection H as _ <-. injection Hp as <-. apply emits_refl.
  - apply pmap_ok in H as (x & H & ->). unfold p_eof in H. destruct (is_empty s); [|discriminate]. injection H as _ <-. injection Hp as <-. apply emits_refl.
  - apply pmap_ok in H as (x & H & ->). unfold p_not_eof in H. destruct (is_empty s); [discriminate|]. injection H as _ <-. injection Hp as <-. apply emits_refl.
  - apply pmap_ok in H as (x & H & ->). apply maybe_ok in H; [|apply Hlaw]. destruct x as [(x & y)|].
    + destruct H as (s1 & H1 & H2). cbn [print] in Hp. apply oapp_some in Hp as (a & b & Ha & Hb & ->).
      eapply emits_trans; [(refine (Hs _ _ _ _ _ _ H1 Ha); first [apply Ht|exact Ht])|(refine (Hs _ _ _ _ _ _ H2 Hb); first [apply Ht|exact Ht])].
    + destruct H as (_ & ->). injection Hp as <-. apply emits_refl.
  - apply pmap_ok in H as ((sp & x) & H & ->). eapply (sound_group DParen); [discriminate| |exact H|exact Hp]; apply Hs, Ht.
  - apply pmap_ok in H as ((sp & x) & H & ->). eapply (sound_group DBracket); [discriminate| |exact H|exact Hp]; apply Hs, Ht.
  - apply pmap_ok in H as ((sp & x) & H & ->). eapply (sound_group DBrace); [discriminate| |exact H|exact Hp]; apply Hs, Ht.
  - apply pmap_ok in H as (x & H & ->). apply terminated_loop_ok in H as (l & o & H & ->). cbn [pn_inner pn_last rev app] in Hp.
    eapply sound_fill; [| |exact H|exact Hp]; apply Hs, Ht.
  - apply pmap_ok in H as (x & H & ->). apply bind_ok in H as (y & s1 & H1 & H2). apply separated_loop_ok in H2 as (l & H2 & ->); [|apply Hlaw].
    cbn [pn_inner pn_last rev app] in Hp. rewrite print_separated in Hp. apply oapp_some in Hp as (a & b & Ha & Hb & ->).
    eapply emits_trans; [(refine (Hs _ _ _ _ _ _ H1 Ha); first [apply Ht|exact Ht])|]. eapply sound_tail; [| |exact H2|]; [apply Hs, Ht..|]. rewrite <- Hb. f_equal. apply map_ext. intros (?, ?). reflexivity.
  - apply pmap_ok in H as (x & H & ->). apply any_loop_ok in H as (l & -> & H); [|apply Hlaw]. cbn [rev app print] in Hp.
    eapply sound_run; [|exact H|exact Hp]; apply Hs, Ht.
  - apply pmap_ok in H as (x & H & ->). apply left_assoc_ok in H as (y & l & H & Hf); [|apply Hlaw].
    rewrite (print_left_form _ _ _ Hf), <- print_separated in Hp.
    apply bind_ok in H as (y' & s1 & H1 & H2). apply separated_loop_ok in H2 as (l' & H2 & Hx); [|apply Hlaw].
    cbn [rev app] in Hx. injection Hx as Hx1 Hx2. rewrite Hx1, Hx2, print_separated in Hp. apply oapp_some in Hp as (a & b & Ha & Hb & ->).
    eapply emits_trans; [(refine (Hs _ _ _ _ _ _ H1 Ha); first [apply Ht|exact Ht])|]. eapply sound_tail; [| |exact H2|]; [apply Hs, Ht..|]. rewrite <- Hb. f_equal. apply map_ext. intros (?, ?). reflexivity.
  - apply pmap_ok in H as (x & H & ->). apply right_assoc_ok in H as (y & l & H & Hf); [|apply Hlaw].
    rewrite (print_right_form _ _ _ Hf), <- print_separated in Hp.
    apply bind_ok in H as (y' & s1 & H1 & H2). apply separated_loop_ok in H2 as (l' & H2 & Hx); [|apply Hlaw].
    cbn [rev app] in Hx. injection Hx as Hx1 Hx2. rewrite Hx1, Hx2, print_separated in Hp. apply oapp_some in Hp as (a & b & Ha & Hb & ->).
    eapply emits_trans; [(refine (Hs _ _ _ _ _ _ H1 Ha); first [apply Ht|exact Ht])|]. eapply sound_tail; [| |exact H2|]; [apply Hs, Ht..|]. rewrite <- Hb. f_equal. apply map_ext. intros (?, ?). reflexivity.
  - apply pmap_ok in H as (x & H & ->). apply either_ok in H; [|apply Hlaw|apply Hlaw]. destruct x as [x|x].
    + (refine (Hs _ _ _ _ _ _ H Hp); first [apply Ht|exact Ht]).
    + destruct H as (_ & H). (refine (Hs _ _ _ _ _ _ H Hp); first [apply Ht|exact Ht]).
  - (refine (Hs _ _ _ _ _ _ H Hp); first [apply Ht|exact Ht]).
  - pose proof (HE i) as Hi. destruct (E i) as [c|en cs]; cbn [p_def] in H; cbn [def_leaves] in Hi.
    + apply pmap_ok in H as (vs & H & ->). apply fields_ok in H. eapply sound_seq; [apply map_fst_snd_beh; [exact Hs|exact Hi]|exact H|exact Hp].
    + apply pmap_ok in H as ((k & vs) & H & ->). apply variants_ok in H as (k' & w & -> & H1 & H2 & H3).
      * rewrite nth_error_map in H1. destruct (nth_error cs k') as [c|] eqn:Ek; [|discriminate]. cbn in H1. injection H1 as <-.
        apply fields_ok in H2. cbn [fst snd] in H2. eapply sound_seq; [apply map_fst_snd_beh; [exact Hs|]|exact H2|exact Hp]. rewrite Forall_forall in Hi. apply Hi. eapply nth_error_In. exact Ek.
      * apply Forall_map, Forall_forall. intros c _. unfold vparser. cbn. apply lawful_fields. apply Forall_map, Forall_forall. intros (l, t0) _. apply Hlaw.
Qed.
Theorem sound_pty n t : env_leaves leaf_spacing E -> leaves leaf_spacing t -> sound (of_parser (pty E n t)) print.
Proof.
  intro HE. revert t. induction n as [|n IH]; intros t Ht.
  - intros s v s' ts H. discriminate.
  - rewrite pty_S. apply sound_layer; [exact HE|exact Ht|intro; apply lawful_pty|exact IH].
Qed.
Theorem sound_tbeh t : env_leaves leaf_spacing E -> leaves leaf_spacing t -> sound (tbeh E t) print.
Proof. intros HE Ht s v s' ts (n & H). exact (sound_pty n t HE Ht s v s' ts H). Qed.
End Env.
End Spacing.

(** every grammar prints its operators [loose]ly *)
Lemma op_spacing_loose op : op_spacing loose op.
Proof. induction op as [|c [|c2 op] IH]; cbn; unfold loose; auto. Qed.
Lemma leaves_all (P : ty -> Prop) t : (forall t, P t) -> leaves P t.
Proof. intro H. induction t; cbn; auto. Qed.
Lemma env_leaves_all (P : ty -> Prop) (E : env) : (forall t, P t) -> env_leaves P E.
Proof.
  intros H i. destruct (E i) as [c|en cs]; cbn [def_leaves].
  - apply Forall_forall. intros. apply leaves_all, H.
  - apply Forall_forall. intros. apply Forall_forall. intros. apply leaves_all, H.
Qed.
Lemma leaf_spacing_loose t : leaf_spacing loose t.
Proof. destruct t; cbn; try exact I; try (intro; right; reflexivity). apply op_spacing_loose. Qed.
Theorem sound_loose (E : env) t : sound loose (tbeh E t) print.
Proof. apply sound_tbeh; [apply env_leaves_all|apply leaves_all]; apply leaf_spacing_loose. Qed.
End Sound.
