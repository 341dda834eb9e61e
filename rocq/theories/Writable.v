(** * Writable: values whose printed tokens are tokens of some text (C38). *)
From Verif Require Import Base Float Literal Syn Ast Derive Grammar Spec LitSpec Fmt Reprint Sound Lexer LexFacts LexWf LexOut LexPrint.
Local Open Scope nat_scope.

(** Induction on values *)
Section ValInd.
Variable P : val -> Prop.
Hypothesis H_ident : forall n sp, P (VIdent n sp).
Hypothesis H_kw : forall k sp, P (VKw k sp).
Hypothesis H_op : forall op sps, P (VOp op sps).
Hypothesis H_lit : forall l sp, P (VLit l sp).
Hypothesis H_unit : P VUnit.
Hypothesis H_nothing : P VNothing.
Hypothesis H_just : forall x y, P x -> P y -> P (VJust x y).
Hypothesis H_group : forall d sp x, P x -> P (VGroup d sp x).
Hypothesis H_punct : forall inner last, Forall (fun x => P (fst x) /\ P (snd x)) inner -> (forall x, last = Some x -> P x) -> P (VPunct inner last).
Hypothesis H_list : forall l, Forall P l -> P (VList l).
Hypothesis H_binl : forall l o r, P l -> P o -> P r -> P (VBinL l o r).
Hypothesis H_rhs : forall r, P r -> P (VRhs r).
Hypothesis H_binr : forall l o r, P l -> P o -> P r -> P (VBinR l o r).
Hypothesis H_lhs : forall l, P l -> P (VLhs l).
Hypothesis H_left : forall x, P x -> P (VLeft x).
Hypothesis H_right : forall x, P x -> P (VRight x).
Hypothesis H_struct : forall l, Forall P l -> P (VStruct l).
Hypothesis H_variant : forall k l, Forall P l -> P (VVariant k l).
Fixpoint val_ind' (v : val) : P v.
Proof.
  destruct v as [n sp|k sp|op sps|l sp| | |x y|d sp x|inner last|l|l o r|r|l o r|l|x|x|l|k l].
  - apply H_ident.
  - apply H_kw.
  - apply H_op.
  - apply H_lit.
  - apply H_unit.
  - apply H_nothing.
  - apply H_just; apply val_ind'.
  - apply H_group; apply val_ind'.
  - apply H_punct.
    + induction inner as [|[x y] r IH]; constructor; [split; apply val_ind'|exact IH].
    + destruct last as [y|]; intros x E; [|discriminate]. assert (P y) as Hy by apply val_ind'. injection E as <-. exact Hy.
  - apply H_list. induction l as [|x r IH]; constructor; [apply val_ind'|exact IH].
  - apply H_binl; apply val_ind'.
  - apply H_rhs; apply val_ind'.
  - apply H_binr; apply val_ind'.
  - apply H_lhs; apply val_ind'.
  - apply H_left; apply val_ind'.
  - apply H_right; apply val_ind'.
  - apply H_struct. induction l as [|x r IH]; constructor; [apply val_ind'|exact IH].
  - apply H_variant. induction l as [|x r IH]; constructor; [apply val_ind'|exact IH].
Defined.
End ValInd.

Section Writable.
Context {U : unicode}.

(** an operator Rust can have: punctuation, no quote, and nothing that starts a comment *)
Fixpoint op_ok (op : list char) : Prop :=
  match op with
  | [] => True
  | c :: r => In c punct_chars /\ c <> 39%N /\ (c = 47%N -> match r with d :: _ => d <> 47%N /\ d <> 42%N | [] => True end) /\ op_ok r
  end.
(** A value that can be written down: its words are words of Rust, its operators operators, its
    literals are in range, its groups have delimiters.  Values built through the Rust API are like
    that ([Ident::new] panics otherwise, the other parts are fixed by the types). *)
Fixpoint writable (v : val) : Prop :=
  let all := fix all l := match l with [] => True | x :: r => writable x /\ all r end in
  match v with
  | VIdent n _ | VKw n _ => ident_ok n
  | VOp op sps => op_ok op /\ List.length sps = List.length op
  | VLit l _ => lit_valid l
  | VUnit | VNothing => True
  | VJust x y => writable x /\ writable y
  | VGroup d _ x => d <> DNone /\ writable x
  | VPunct inner last =>
      (fix pairs l := match l with [] => True | (x, y) :: r => writable x /\ writable y /\ pairs r end) inner /\
      match last with Some x => writable x | None => True end
  | VList l | VStruct l | VVariant _ l => all l
  | VBinL l o r | VBinR l o r => writable l /\ writable o /\ writable r
  | VRhs x | VLhs x | VLeft x | VRight x => writable x
  end.

Lemma wf_nil : wf [].
Proof. exact I. Qed.
Lemma oapp_wf a b ts : (forall x, a = Some x -> wf x) -> (forall x, b = Some x -> wf x) -> oapp a b = Some ts -> wf ts.
Proof. intros Ha Hb H. apply oapp_some in H as (x & y & -> & -> & ->). apply wf_app; auto. Qed.
Lemma print_op_wf op : op_ok op -> forall sps, List.length sps = List.length op -> wf (print_op op sps) /\
  match op with c :: _ => exists g sp r, print_op op sps = TPunct c g sp :: r | [] => True end.
Proof.
  induction op as [|c op IH]; intros Hop sps Hl; [split; exact I|]. destruct Hop as (H1 & H2 & H3 & H4). destruct sps as [|sp sps]; [discriminate|]. cbn [List.length] in Hl.
  destruct op as [|d op].
  - cbn [print_op]. split; [|eauto]. rewrite wf_cons. split; [split; [exact H1|congruence]|]. split; exact I.
  - cbn [print_op]. fold (print_op (d :: op) sps). destruct (IH H4 sps ltac:(lia)) as (Hw & g & sp' & r & E). split; [|eauto].
    change (wf (TPunct c Joint sp :: print_op (d :: op) sps)). rewrite wf_cons. split; [split; [exact H1|congruence]|]. split; [|exact Hw]. rewrite E. cbn [joint_ok]. auto.
Qed.
Lemma push_lit_shape r sp : (exists x, r = 45%N :: x /\ push_lit r sp = [TPunct 45 Alone sp; TLit x sp]) \/ push_lit r sp = [TLit r sp].
Proof.
  unfold push_lit. destruct r as [|c x]; [auto|]. destruct (N.eqb_spec c 45) as [->|]; [left; eauto|auto].
Qed.
Lemma print_lit_wf l sp ts : lit_valid l -> print_lit l sp = Some ts -> wf ts.
Proof.
  intros Hv Hp. assert (W : forall r, In (TLit r sp) ts -> LexWf.lit_ok r).
  { intros r Hr. left. apply written_lexes. exists l, sp, ts. auto. }
  assert (S : (exists n, ts = [TIdent n sp] /\ sym_ok n) \/ (exists r, ts = [TLit r sp]) \/ exists x, ts = [TPunct 45 Alone sp; TLit x sp]).
  { destruct l as [b|b|z|z|f|c|s|s]; cbn [print_lit] in Hp.
    - injection Hp as <-. left. eexists. split; [reflexivity|]. destruct b; eexists; eexists; (split; [reflexivity|]; split; [reflexivity|repeat constructor]).
    - destruct (lit_byte_repr b) as [x|]; [|discriminate]. cbn in Hp. injection Hp as <-. destruct (push_lit_shape x sp) as [(y & _ & ->)| ->]; eauto.
    - injection Hp as <-. destruct (push_lit_shape (show_int z) sp) as [(y & _ & ->)| ->]; eauto.
    - injection Hp as <-. destruct (push_lit_shape (show_int z) sp) as [(y & _ & ->)| ->]; eauto.
    - destruct (float_show f) as [x|]; [|discriminate]. cbn in Hp. injection Hp as <-. destruct (push_lit_shape x sp) as [(y & _ & ->)| ->]; eauto.
    - injection Hp as <-. eauto.
    - injection Hp as <-. eauto.
    - injection Hp as <-. eauto. }
  destruct S as [(n & -> & Hn)|[(r & ->)|(x & ->)]].
  - cbn. unfold ident_ok. auto.
  - rewrite wf_cons. split; [apply W; left; reflexivity|]. split; exact I.
  - rewrite wf_cons. split; [split; [cbn; tauto|discriminate]|]. split; [exact I|]. rewrite wf_cons. split; [apply W; right; left; reflexivity|]. split; exact I.
Qed.
Theorem print_wf v : forall ts, writable v -> print v = Some ts -> wf ts.
Proof.
  assert (L : forall l, Forall (fun v => forall ts, writable v -> print v = Some ts -> wf ts) l ->
    (fix all l := match l with [] => True | x :: r => writable x /\ all r end) l -> forall ts, oconcat (map print l) = Some ts -> wf ts).
  { induction 1 as [|x l Hx Hl IH]; intros Hw ts H.
    - cbn in H. injection H as <-. exact I.
    - destruct Hw as (Hw1 & Hw2). cbn [map oconcat fold_right] in H. eapply oapp_wf; [| |exact H]; auto. }
  induction v as [n sp|k sp|op sps|l sp| | |x y IHx IHy|d sp x IHx|inner last IHi IHl|l IHl|l o r IH1 IH2 IH3|x IHx|l o r IH1 IH2 IH3|x IHx|x IHx|x IHx|l IHl|k l IHl] using val_ind'; intros ts Hw H; cbn [print] in H.
  - injection H as <-. cbn. auto.
  - injection H as <-. cbn. auto.
  - injection H as <-. destruct Hw as (Ho & Hl). apply print_op_wf; assumption.
  - eapply print_lit_wf; eassumption.
  - injection H as <-. exact I.
  - injection H as <-. exact I.
  - destruct Hw as (Hx & Hy). eapply oapp_wf; [| |exact H]; auto.
  - destruct Hw as (Hd & Hx). destruct (print x) as [ts'|] eqn:E; [|discriminate]. cbn in H. injection H as <-. rewrite wf_cons, wf_group. split; [split; [exact Hd|apply IHx; auto]|split; exact I].
  - destruct Hw as (Hi & Hl). eapply oapp_wf; [| |exact H].
    + clear H IHl Hl. induction IHi as [|(x, y) r (Hx & Hy) Hr IH]; intros z Hz.
      * cbn in Hz. injection Hz as <-. exact I.
      * destruct Hi as (W1 & W2 & W3). cbn [map oconcat fold_right] in Hz. eapply oapp_wf; [| |exact Hz]; [|exact (IH W3)]. intros z' Hz'. eapply oapp_wf; [| |exact Hz']; cbn in *; auto.
    + destruct last as [x|]; [intros z Hz; eapply (IHl x eq_refl); eassumption|]. intros z Hz. injection Hz as <-. exact I.
  - eapply L; eassumption.
  - destruct Hw as (W1 & W2 & W3). eapply oapp_wf; [| |exact H]; [auto|]. intros z Hz. eapply oapp_wf; [| |exact Hz]; auto.
  - eauto.
  - destruct Hw as (W1 & W2 & W3). eapply oapp_wf; [| |exact H]; [auto|]. intros z Hz. eapply oapp_wf; [| |exact Hz]; auto.
  - eauto.
  - eauto.
  - eauto.
  - eapply L; eassumption.
  - eapply L; eassumption.
Qed.
End Writable.
