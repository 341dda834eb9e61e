(** * Properties C07, C08, C09, C40: printing and parsing agree.
    The vocabulary ([reprints], [lits_ok], [puncts], [strip], [unspan]) is in Reprint.v. *)
From Verif Require Import Base Float Literal Syn Ast Derive Grammar Spec LitSpec LiteralFacts Reprint LitDenote
  SynFacts Lawful Mono Combinators GrammarBeh Sound Sim RoundFacts Examples.
Local Open Scope nat_scope.

(** ** C07: printing reproduces the consumed tokens. *)

(** From any stream: what was consumed is a prefix of the stream (invisible groups apart), and
    the printed tokens are that prefix printed again.  A group may contain unprinted tokens only if
    the stream now has leftovers recorded (which makes any whole-input parse fail, C11). *)
Theorem C07_print_is_what_was_consumed : forall (U : unicode) E t s v s' ts,
  yes (tbeh E t) s v s' -> lits_ok (ps_rest s) -> print v = Some ts ->
  exists consumed, flat (ps_rest s) = consumed ++ flat (ps_rest s') /\
    reprints loose (fun left => ps_unexp s' = None -> left = []) consumed ts.
Proof. intros U E t s v s' ts H Hl Hp. destruct (sound_loose E t s v s' ts H Hp) as (_ & Hc). exact (Hc Hl). Qed.

(** [reprints] fixes everything but spelling: the same words, in the same places *)
Fixpoint words1 (t : tt) : list (text * span) :=
  match t with
  | TIdent n sp => [(n, sp)]
  | TGroup _ _ l => (fix go l := match l with [] => [] | x :: r => words1 x ++ go r end) l
  | _ => []
  end.
Fixpoint words (l : list tt) : list (text * span) := match l with [] => [] | x :: r => words1 x ++ words r end.
Lemma words1_group d sp l : words1 (TGroup d sp l) = words l.
Proof. cbn. induction l as [|x l IH]; cbn; [reflexivity|]. rewrite IH. reflexivity. Qed.
Theorem C07_words_are_kept : forall (U : unicode) Q a b, reprints Q nothing a b -> words a = words b.
Proof.
  intros U Q a b R. induction R as [|n sp a b H IH|c g1 g2 sp a b Hq H IH|r1 r2 sp a b Hd H1 H2 Hwr H IH|g1 r1 r2 sp1 sp2 sp a b Hq Hd H1 H2 Hwr Hs H IH|g1 r1 sp1 sp2 sp a b Hd Hs H IH|d sp i left o a b Hi IHi Hl H IH];
    try (cbn; congruence).
  unfold nothing in Hl. subst left. rewrite app_nil_r in *. cbn [words]. rewrite !words1_group. congruence.
Qed.

Section WithTables.
Local Existing Instance ascii_only.
Example C07_ex : exists s' ts, yes (tbeh GE (TyRef expr)) (start [word "f" 0; parens 1 9 [num "0x1F" 2; punct "," Joint 6]; word "rest" 10])
    (VVariant 0 [VIdent (T "f") (sp 0 1); VGroup DParen (sp 1 9) (VPunct [(VVariant 1 [VLit (LInt 31) (sp 2 6)], VOp [44%N] [sp 6 7])] None)]) s' /\
  lits_ok [word "f" 0; parens 1 9 [num "0x1F" 2; punct "," Joint 6]; word "rest" 10] /\
  print (VVariant 0 [VIdent (T "f") (sp 0 1); VGroup DParen (sp 1 9) (VPunct [(VVariant 1 [VLit (LInt 31) (sp 2 6)], VOp [44%N] [sp 6 7])] None)]) = Some ts /\
  ts = [word "f" 0; parens 1 9 [TLit (T "31") (sp 2 6); punct "," Alone 6]].
Proof.
  eexists. eexists. split; [exists 20; vm_compute; reflexivity|]. split; [|split; [vm_compute; reflexivity|reflexivity]].
  repeat constructor; vm_compute; discriminate || exact I.
Qed.
End WithTables.

(** ** C08: a whole-input parse accounts for every token. *)
Theorem C08_every_token_is_printed : forall (U : unicode) E t ts v ts',
  parses E t ts v -> lits_ok ts -> print v = Some ts' -> reprints loose nothing (flat ts) ts'.
Proof.
  intros U E t ts v ts' H Hl Hp. eapply whole_reprints; try eassumption; [apply env_leaves_all|apply leaves_all]; apply leaf_spacing_loose.
Qed.
(** also without printing: at the end of an accepted parse nothing is left at the top level, and
    no group was left with unread tokens *)
Theorem C08_nothing_left : forall (U : unicode) E n t ts v, parse2 (pty E n t) ts = ROk v ->
  exists s', pty E n t (start ts) = (OOk v, s') /\ ps_unexp s' = None /\ flat (ps_rest s') = [].
Proof. intros. apply parse2_ok. assumption. Qed.
Section WithTables.
Local Existing Instance ascii_only.
Example C08_ex : parses GE (TyRef assign) src1 val1 /\ lits_ok src1 /\ visible src1 = true /\ print val1 = Some src1.
Proof. split; [exists 20; vm_compute; reflexivity|]. split; [repeat constructor; vm_compute; discriminate || exact I|]. split; vm_compute; reflexivity. Qed.
End WithTables.
(** ... and so is C08's conclusion for an input with extra tokens in a group impossible *)
Section WithTables.
Local Existing Instance ascii_only.
Example C08_ex_leftover : refuses GE (TyRef assign)
  [word "x" 0; punct "=" Alone 2; word "f" 4; parens 5 11 [num "1" 6; num "2" 8]] /\
  refuses GE (TyParen TyIdent) [parens 0 5 [word "a" 1; word "b" 3]].
Proof. split; exists 20; eexists; vm_compute; reflexivity. Qed.
End WithTables.

(** ** C09: re-parsing what was printed. *)
Theorem C09_reparse_of_printed : forall (U : unicode) E t ts v ts',
  visible ts = true -> lits_ok ts -> parses E t ts v -> print v = Some ts' ->
  puncts ts = puncts ts' ->
  exists v', parses E t ts' v' /\ strip v' = strip v.
Proof.
  intros U E t ts v ts' Hv Hl H Hp Hq.
  pose proof (C08_every_token_is_printed U E t ts v ts' H Hl Hp) as R. rewrite visible_flat in R by exact Hv.
  apply reprints_exact in R; [|exact Hq].
  eapply (sim_parses (fun _ => true)); [apply env_leaves_all, leaf_sharp_all|apply leaves_all, leaf_sharp_all| |exact H].
  eapply reprints_sim; [|exact R|rewrite Hq; reflexivity]. auto.
Qed.

(** For grammars in which no operator character is both the last one of an operator and a
    non-last one of another (and [-] is no non-last one if there are literals), spacing need not be
    looked at: it is enough that no character was lost (see [C09_minus_zero_refuted]). *)
Definition free_op (K : char -> bool) (op : list char) : Prop :=
  op_sharp K op /\ match rev op with c :: _ => K c = false | [] => True end.
Definition leaf_free (K : char -> bool) (t : ty) : Prop :=
  match t with
  | TyToken op => free_op K op
  | TyLit _ | TyAnyLit => K 45%N = false
  | _ => True
  end.
Lemma free_spacing K op : free_op K op -> op_spacing (fun c g1 g2 => K c = true -> g1 = g2) op.
Proof.
  intros (H1 & H2). induction op as [|c op IH]; [exact I|]. destruct op as [|c2 op].
  - cbn in *. intros _ g E. congruence.
  - destruct H1 as (Hc & H1). split; [auto|]. apply IH; [exact H1|]. cbn [rev] in *. destruct (rev op ++ [c2]) as [|x l] eqn:Er.
    + destruct (rev op); discriminate.
    + exact H2.
Qed.
Lemma leaves_impl (P Q : ty -> Prop) t : (forall t, P t -> Q t) -> leaves P t -> leaves Q t.
Proof. intro H. induction t; cbn; intuition auto. Qed.
Lemma env_leaves_impl (P Q : ty -> Prop) E : (forall t, P t -> Q t) -> env_leaves P E -> env_leaves Q E.
Proof.
  intros H HE i. specialize (HE i). destruct (E i) as [c|en cs]; cbn [def_leaves] in *.
  - eapply Forall_impl; [|exact HE]. intros f. apply leaves_impl. exact H.
  - eapply Forall_impl; [|exact HE]. intros c Hc. eapply Forall_impl; [|exact Hc]. intros f. apply leaves_impl. exact H.
Qed.
Theorem C09_reparse_spacing_free : forall (U : unicode) K E t ts v ts',
  env_leaves (leaf_free K) E -> leaves (leaf_free K) t ->
  visible ts = true -> lits_ok ts -> parses E t ts v -> print v = Some ts' ->
  List.length (puncts ts) = List.length (puncts ts') ->
  exists v', parses E t ts' v' /\ strip v' = strip v.
Proof.
  intros U K E t ts v ts' HE Ht Hv Hl H Hp Hq.
  assert (Hsp : forall t, leaf_free K t -> leaf_spacing (fun c g1 g2 => K c = true -> g1 = g2) t).
  { intros t0 F. destruct t0; cbn in *; try exact I; try (intros g E1; congruence). apply free_spacing. exact F. }
  assert (R : reprints (fun c g1 g2 => K c = true -> g1 = g2) nothing (flat ts) ts').
  { eapply whole_reprints; [eapply env_leaves_impl; [exact Hsp|exact HE]|eapply leaves_impl; [exact Hsp|exact Ht]|exact H|exact Hl|exact Hp]. }
  rewrite visible_flat in R by exact Hv.
  assert (Hsh : forall t, leaf_free K t -> leaf_sharp K t) by (intros t0 F; destruct t0; cbn in *; try exact I; apply F).
  eapply (sim_parses K); [eapply env_leaves_impl; [exact Hsh|exact HE]|eapply leaves_impl; [exact Hsh|exact Ht]| |exact H].
  eapply reprints_sim; [|exact R|symmetry; exact Hq]. auto.
Qed.
(** val1 : all operators of [GE] are single characters *)
Section WithTables.
Local Existing Instance ascii_only.
Example C09_ex : exists v', parses GE (TyRef assign) src1 v' /\ strip v' = strip val1.
Proof.
  eapply (C09_reparse_spacing_free _ (fun _ => false)).
  - intros [|[|[|[|[|[|[|[|i]]]]]]]]; cbn; repeat (constructor; cbn; auto).
  - exact I.
  - apply C08_ex.
  - apply C08_ex.
  - apply C08_ex.
  - apply C08_ex.
  - vm_compute. reflexivity.
Qed.
End WithTables.

(** Without the proviso the claim is false: enum Amb { A(Maybe<Token![+=], Empty>, Token![+],
    Token![=], Token![;]), B(Token![+], Token![=], Token![;]) } reads [+=;] as B, prints it, and reads
    the printed tokens as A. *)
Definition amb : env := fun _ =>
  DEnum (T "Amb")
    [Ctor (T "A") [(LIndex 0, TyMaybe (TyToken [43; 61]%N) TyEmpty); (LIndex 1, TyToken [43%N]); (LIndex 2, TyToken [61%N]); (LIndex 3, TyToken [59%N])];
     Ctor (T "B") [(LIndex 0, TyToken [43%N]); (LIndex 1, TyToken [61%N]); (LIndex 2, TyToken [59%N])]].
Section WithTables.
Local Existing Instance ascii_only.
Theorem C09_spacing_refuted : exists ts v ts' v',
  visible ts = true /\ lits_ok ts /\ parses amb (TyRef 0) ts v /\ print v = Some ts' /\
  List.length (puncts ts) = List.length (puncts ts') /\
  parses amb (TyRef 0) ts' v' /\ strip v' <> strip v.
Proof.
  exists [punct "+" Joint 0; punct "=" Joint 1; punct ";" Alone 2]. eexists. eexists. eexists.
  split; [reflexivity|]. split; [constructor|]. split; [exists 9; vm_compute; reflexivity|]. split; [vm_compute; reflexivity|].
  split; [reflexivity|]. split; [exists 9; vm_compute; reflexivity|]. vm_compute. discriminate.
Qed.
End WithTables.
(** An operator with the same spacing before and after: [-0] read as Lit prints as [0], which
    reads as an unsigned integer. *)
Section WithTables.
Local Existing Instance ascii_only.
Theorem C09_minus_zero_refuted : exists ts v ts' v',
  visible ts = true /\ lits_ok ts /\ parses GE TyAnyLit ts v /\ print v = Some ts' /\
  parses GE TyAnyLit ts' v' /\ strip v' <> strip v.
Proof.
  exists [punct "-" Alone 0; num "0" 1]. eexists. eexists. eexists.
  split; [reflexivity|]. split; [repeat constructor; vm_compute; discriminate || exact I|]. split; [exists 9; vm_compute; reflexivity|]. split; [vm_compute; reflexivity|].
  split; [exists 9; vm_compute; reflexivity|]. vm_compute. discriminate.
Qed.
End WithTables.

(** ** C40: spans do not matter. *)
Theorem C40_spans_do_not_matter : forall (U : unicode) E t a b, map unspan a = map unspan b ->
  (forall v, parses E t a v -> exists w, parses E t b w /\ strip w = strip v) /\
  (refuses E t a -> refuses E t b).
Proof.
  intros U E t a b H. apply unspan_sim in H. split.
  - intros v Hv. eapply (sim_parses (fun _ => true)); [apply env_leaves_all, leaf_sharp_all|apply leaves_all, leaf_sharp_all|exact H|exact Hv].
  - intros (n & e & Hr). pose proof (sim_parse2 (fun _ => true) E n t a b (env_leaves_all _ _ leaf_sharp_all) (leaves_all _ _ leaf_sharp_all) H) as R.
    rewrite Hr in R. destruct (parse2 (pty E n t) b) eqn:Eb; try contradiction. exists n. eexists. exact Eb.
Qed.
(** the same for panics and for running out of any given amount of fuel *)
Theorem C40_panics_and_divergence_agree : forall (U : unicode) E t a b n, map unspan a = map unspan b ->
  (parse2 (pty E n t) a = RPanic <-> parse2 (pty E n t) b = RPanic) /\
  (parse2 (pty E n t) a = RDiverge <-> parse2 (pty E n t) b = RDiverge).
Proof.
  intros U E t a b n H. apply unspan_sim in H.
  pose proof (sim_parse2 (fun _ => true) E n t a b (env_leaves_all _ _ leaf_sharp_all) (leaves_all _ _ leaf_sharp_all) H) as R.
  destruct (parse2 (pty E n t) a), (parse2 (pty E n t) b); try contradiction; split; split; intro; try discriminate; reflexivity.
Qed.
Section WithTables.
Local Existing Instance ascii_only.
Example C40_ex : map unspan src1 = map unspan (map unspan src1) /\ parses GE (TyRef assign) (map unspan src1) (strip val1).
Proof. split; [reflexivity|]. exists 20. vm_compute. reflexivity. Qed.
End WithTables.

Print Assumptions C07_print_is_what_was_consumed.
Print Assumptions C07_words_are_kept.
Print Assumptions C08_every_token_is_printed.
Print Assumptions C08_nothing_left.
Print Assumptions C09_reparse_of_printed.
Print Assumptions C09_reparse_spacing_free.
Print Assumptions C09_spacing_refuted.
Print Assumptions C09_minus_zero_refuted.
Print Assumptions C40_spans_do_not_matter.
Print Assumptions C40_panics_and_divergence_agree.
