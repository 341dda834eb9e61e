(** * C65: what [{:?}] and [{:#?}] tell of a tree *)
From Verif Require Import Base Float Literal Syn Ast Derive Grammar Spec LitSpec Lexer Offsets LiteralFacts Digits PropSpan Reprint PropLit NodeEq Typed LexFacts LexWf Writable TypedWritable HashCalls HashFacts PropBuild PropKeys Examples Debug DebugFacts DebugTree.
Local Open Scope nat_scope.

Section Claims.
Context {U : unicode}.
(** "The texts of the two sides, or of operands and associations, differ": [apart], but about texts *)
Definition shown_apart (S : shown) (alt : bool) (E : env) (u : ty) : Prop :=
  match u with
  | TyEither a b => forall x y, of_type E a x -> of_type E b y -> words x -> words y -> debug S alt E a x <> debug S alt E b y
  | TyLeftAssoc p r => forall x l o y, of_type E r x -> of_type E u (VBinL l o y) -> words x -> words (VBinL l o y) -> debug S alt E r x <> debug S alt E u (VBinL l o y)
  | TyRightAssoc p r => forall x l o y, of_type E r x -> of_type E u (VBinR l o y) -> words x -> words (VBinR l o y) -> debug S alt E r x <> debug S alt E u (VBinR l o y)
  | _ => True
  end.
(** ** The text tells trees apart: it is the same exactly for the same tree with identifiers and literals at the same offsets. *)
Theorem C65_text_tells_trees_apart : forall S alt E t v w, sane S -> names_fine E -> (forall u, occurs E t u -> shown_apart S alt E u) ->
  of_type E t v -> of_type E t w -> words v -> words w ->
  (debug S alt E t v = debug S alt E t w <-> strip v = strip w /\ leaf_offsets S v = leaf_offsets S w).
Proof.
  intros S alt E t v w Sn Fn A Tv Tw Wv Ww. unfold debug. split.
  - intro H. apply show_inj in H; [|apply dbg_wf; assumption|apply dbg_wf; assumption]. revert H. apply (dbg_told S E Sn Fn t); auto; [|apply o_refl].
    intros u O. specialize (A u O). destruct u; cbn [apart shown_apart] in *; auto; unfold debug in A.
    + intros x l o y Tx Ty Wx Wy H. apply (A x l o y Tx Ty Wx Wy). rewrite H. reflexivity.
    + intros x l o y Tx Ty Wx Wy H. apply (A x l o y Tx Ty Wx Wy). rewrite H. reflexivity.
    + intros x y Tx Ty Wx Wy H. apply (A x y Tx Ty Wx Wy). rewrite H. reflexivity.
  - intros (H & L). rewrite (dbg_showing S E v t w H L). reflexivity.
Qed.
(** ** [{:?}] and [{:#?}] tell the same, whatever the grammar, also between different types. *)
Theorem C65_both_forms_tell_the_same : forall S E t u v w, sane S -> names_fine E -> of_type E t v -> of_type E u w -> words v -> words w ->
  (debug S false E t v = debug S false E u w <-> debug S true E t v = debug S true E u w).
Proof.
  intros S E t u v w Sn Fn Tv Tw Wv Ww. unfold debug. split; intro H; apply show_inj in H; try (apply dbg_wf; assumption); rewrite H; reflexivity.
Qed.
(** ** [{:?}] is one line. *)
Theorem C65_one_line : forall S E t v, sane S -> names_fine E -> of_type E t v -> words v -> ~ In 10%N (debug S false E t v).
Proof. intros S E t v Sn Fn T W. unfold debug. rewrite (show_line _ 0). apply rend_line, dbg_wf; assumption. Qed.
(** ** A [Box] shows its contents, [Either] its value, a lone operand itself; [Lit] the literal. *)
Theorem C65_wrappers_are_invisible : forall S alt E a b v sp l,
  debug S alt E (TyBox a) v = debug S alt E a v /\
  debug S alt E (TyEither a b) (VLeft v) = debug S alt E a v /\ debug S alt E (TyEither a b) (VRight v) = debug S alt E b v /\
  debug S alt E (TyLeftAssoc a b) (VRhs v) = debug S alt E b v /\ debug S alt E (TyRightAssoc a b) (VLhs v) = debug S alt E b v /\
  debug S alt E TyAnyLit (VLit l sp) = debug S alt E (TyLit (litty_of l)) (VLit l sp).
Proof. intros S alt E a b v sp l. split; [destruct v; reflexivity|repeat split]. Qed.
(** ** Trees that were parsed from text, made and changed through the API meet what is asked of trees above. *)
Lemma ident_word n : ident_ok n -> word n.
Proof.
  assert (X : forall c, xid_continue c = true -> wordc c = true).
  { intros c H. unfold xid_continue, is_alpha, is_lower, is_upper, is_digit in H. unfold wordc. cbn [existsb]. destruct (c <? 128)%N eqn:C; lia. }
  assert (X1 : forall c, ident_start c = true -> wordc c = true).
  { intros c H. unfold ident_start, xid_start, is_alpha, is_lower, is_upper in H. unfold wordc. cbn [existsb]. destruct (c <? 128)%N eqn:C; lia. }
  assert (Y : forall m, sym_ok m -> word m).
  { intros m (c & r & -> & Hc & Hr). split; [discriminate|]. cbn [forallb]. rewrite (X1 c Hc). apply forallb_forall. intros d Hd. rewrite Forall_forall in Hr. auto. }
  intros [H|(m & -> & H & _)]; [auto|]. destruct (Y m H) as (_ & W). split; [discriminate|]. cbn [app forallb]. exact W.
Qed.
Lemma writable_are_words v : writable v -> words v.
Proof.
  induction v as [n sp|k sp|op sps|l sp| | |x y IHx IHy|d sp x IHx|inner last IHi IHl|l IHl|l o r IH1 IH2 IH3|x IHx|l o r IH1 IH2 IH3|x IHx|x IHx|x IHx|l IHl|k l IHl] using val_ind'; cbn [writable words]; intro H; try exact I; try (apply ident_word; exact H); try tauto.
  - destruct H as (Hi & Hl). split.
    + clear Hl IHl. induction inner as [|(x, y) r IH]; [exact I|]. apply Forall_cons_iff in IHi as ((Ix & Iy) & IHi). cbn [fst snd] in *. destruct Hi as (? & ? & Hi). cbn [all]. auto.
    + destruct last; auto.
  - induction l as [|x l IH]; [exact I|]. apply Forall_cons_iff in IHl as (Ix & IHl). destruct H. cbn [all]. auto.
  - induction l as [|x l IH]; [exact I|]. apply Forall_cons_iff in IHl as (Ix & IHl). destruct H. cbn [all]. auto.
  - induction l as [|x l IH]; [exact I|]. apply Forall_cons_iff in IHl as (Ix & IHl). destruct H. cbn [all]. auto.
Qed.
Theorem C65_obtainable_trees : sane_tables U -> forall E t v, env_leaves rust_leaf E -> leaves rust_leaf t -> obtainable E t v -> of_type E t v /\ words v.
Proof.
  intros Sa E t v HE Ht H. destruct (C57_obtainable_is_typed U Sa E t v HE H) as (H1 & H2). split; [exact (C64_values_have_their_types U E t v H1)|]. apply (writable_are_words v). eapply typed_writable; [exact HE|exact Ht|exact H1|]. apply Forall_forall, H2.
Qed.
Theorem C65_obtainable_text_tells : sane_tables U -> forall S alt E t v w, sane S -> names_fine E -> env_leaves rust_leaf E -> leaves rust_leaf t -> (forall u, occurs E t u -> shown_apart S alt E u) ->
  obtainable E t v -> obtainable E t w -> (debug S alt E t v = debug S alt E t w <-> strip v = strip w /\ leaf_offsets S v = leaf_offsets S w).
Proof.
  intros Sa S alt E t v w Sn Fn HE Ht A Ov Ow. destruct (C65_obtainable_trees Sa E t v HE Ht Ov), (C65_obtainable_trees Sa E t w HE Ht Ow). apply C65_text_tells_trees_apart; assumption.
Qed.
End Claims.


(** ** Some texts *)
Section WithTables.
Local Existing Instance ascii_only.
Definition plain_float (x : f64) : text :=
  match x with FFin n m e => (if n then T "-" else T "+") ++ dec m ++ T "e" ++ show_int e | FInf true => T "-inf" | FInf false => T "inf" end.
Definition plain_shown : shown :=
  Shown (fun s => (N.of_nat (lc_col (sp_start s)), N.of_nat (lc_col (sp_end s)))) (fun o => if text_eqb o (T "+") then T "Plus" else if text_eqb o (T "*") then T "Star" else T "Tok") plain_float.
Example C65_ex_sane : sane plain_shown.
Proof.
  repeat split; cbn [token_name plain_shown float_text].
  - destruct (text_eqb k _); [discriminate|]. destruct (text_eqb k _); discriminate.
  - destruct (text_eqb k _); [reflexivity|]. destruct (text_eqb k _); reflexivity.
  - destruct x as [[|] m e|[|]]; discriminate.
  - destruct x as [n m e|[|]]; [|reflexivity|reflexivity]. cbn [plain_float]. rewrite !forallb_app. rewrite (proj2 (digits_word m)), (proj2 (int_word e)). destruct n; reflexivity.
  - intros x y _ _ H. assert (D : forall m r c q, (c <? 48)%N || (57 <? c)%N = true -> dec m ++ r = c :: q -> False).
    { intros m r c q Hc F. pose proof (dec_digits m) as Q. destruct (dec m) as [|d l] eqn:Em; [exact (dec_nonempty m Em)|]. cbn in F, Q. injection F as -> _. apply andb_true_iff in Q as (Q & _). unfold is_digit in Q. lia. }
    destruct x as [n m e|[|]], y as [n' m' e'|[|]]; cbn [plain_float] in H; try reflexivity; try discriminate H.
    + assert (n = n') by (destruct n, n'; reflexivity || discriminate H). subst n'. apply app_inv_head in H. apply digits_prefix in H as (A & B); try apply dec_digits; try reflexivity. apply dec_inj in A. apply app_inv_head in B. apply show_int_inj in B. congruence.
    + exfalso. destruct n; [|discriminate H]. injection H as H. refine (D _ _ _ _ _ H). reflexivity.
    + exfalso. destruct n; discriminate H.
    + exfalso. destruct n'; [|discriminate H]. injection H as H. refine (D _ _ _ _ _ (eq_sym H)). reflexivity.
    + exfalso. destruct n'; discriminate H.
Qed.
Definition no_types : env := fun _ => DStruct (Ctor (T "Unit") []).
Example C65_ex_names : names_fine no_types.
Proof. intro i. cbn. split; [split; [discriminate|reflexivity]|]. split; [discriminate|constructor]. Qed.

(** sums of products of numbers: every text tells *)
Definition sum_ty : ty := TyLeftAssoc (TyToken (T "+")) (TyLeftAssoc (TyToken (T "*")) (TyLit LtUint)).
Definition num (z : Z) (a b : nat) : val := VLit (LUint z) (sp a b).
Definition a_sum : val := VBinL (VRhs (VBinL (VRhs (num 12 0 2)) (VOp (T "*") [sp 3 4]) (num 3 5 6))) (VOp (T "+") [sp 7 8]) (VRhs (num 4 9 10)).
Definition a_shift : val := VBinL (VRhs (VBinL (VRhs (num 12 0 2)) (VOp (T "*") [sp 2 3]) (num 3 5 6))) (VOp (T "+") [sp 7 8]) (VRhs (num 4 9 10)).
Example C65_ex_text : debug plain_shown false no_types sum_ty a_sum =
  T "Binary<Plus> { lhs: Binary<Star> { lhs: LitUint { value: 12, span: bytes(0..2) }, rhs: LitUint { value: 3, span: bytes(5..6) } }, rhs: LitUint { value: 4, span: bytes(9..10) } }".
Proof. vm_compute. reflexivity. Qed.
Definition lines (l : list text) : text := match l with [] => [] | x :: r => x ++ flat_map (fun y => 10%N :: y) r end.
Example C65_ex_lines : debug plain_shown true no_types (TyMaybe (TyToken (T "+")) (TyAny TyIdent)) (VJust (VOp (T "+") [sp 0 1]) (VList [VIdent (T "x") (sp 2 3)])) =
  lines [T "Some("; T "    ("; T "        Plus,"; T "        ["; T "            Ident {"; T "                sym: x,"; T "                span: bytes(2..3),"; T "            },"; T "        ],"; T "    ),"; T ")"].
Proof. vm_compute. reflexivity. Qed.
Example C65_ex_strings : debug plain_shown false no_types (TyLit LtStr) (VLit (LStr [34; 39; 10; 97]%N) (sp 0 8)) = T "LitStr { value: " ++ [34; 92; 34; 39; 92; 110; 97; 34]%N ++ T ", span: bytes(0..8) }".
Proof. vm_compute. reflexivity. Qed.
Lemma sums_apart S alt u : sane S -> token_name S (T "+") <> token_name S (T "*") -> occurs no_types sum_ty u -> shown_apart S alt no_types u.
Proof.
  intros Sn Nt O. assert (C : u = sum_ty \/ u = TyLeftAssoc (TyToken (T "*")) (TyLit LtUint) \/ u = TyToken (T "+") \/ u = TyToken (T "*") \/ u = TyLit LtUint).
  { induction O as [|u v _ IH P]; [auto|]. destruct IH as [->|[->|[->|[->| ->]]]]; inversion P; subst; auto. }
  assert (W := C65_ex_names).
  destruct C as [->|[->|[->|[->| ->]]]]; cbn [shown_apart sum_ty]; auto; intros x l o y Tx Ty Wx Wy H; unfold debug in H; apply show_inj in H; try (apply dbg_wf; assumption).
  - cbn [of_type unbox] in Ty. destruct Ty as (_ & Ho & _). destruct o; cbn [of_type unbox] in Ho; try contradiction; try (destruct Ho; contradiction). destruct Ho as (-> & _).
    destruct x; cbn [of_type unbox] in Tx; try contradiction; try (destruct Tx; contradiction).
    + destruct Tx as (_ & Ho & _). destruct x2; cbn [of_type unbox] in Ho; try contradiction; try (destruct Ho; contradiction). destruct Ho as (-> & _). cbn [dbg unbox] in H. injection H as H _ _. exact (Nt (eq_sym H)).
    + destruct x; cbn [of_type unbox] in Tx; try contradiction; try (destruct Tx; contradiction). discriminate H.
  - destruct x; cbn [of_type unbox] in Tx; try contradiction; try (destruct Tx; contradiction). discriminate H.
Qed.
Example C65_ex_tells : debug plain_shown true no_types sum_ty a_sum = debug plain_shown true no_types sum_ty a_shift /\
  forall w, of_type no_types sum_ty w -> words w -> debug plain_shown true no_types sum_ty w = debug plain_shown true no_types sum_ty a_sum -> strip w = strip a_sum.
Proof.
  split; [vm_compute; reflexivity|]. intros w Tw Ww H. apply (C65_text_tells_trees_apart plain_shown true no_types sum_ty w a_sum) in H as (H & _); auto using C65_ex_sane, C65_ex_names.
  - intros u O. apply sums_apart; [apply C65_ex_sane|discriminate|exact O].
  - vm_compute. repeat split; discriminate.
  - vm_compute. repeat split.
Qed.

(** ** What the texts leave out *)
(** [Either] does not show its side: two trees that are not equal, of two parsable types, show alike. *)
Theorem C65_either_side_refuted : forall S alt E, exists t v w, of_type E t v /\ of_type E t w /\ words v /\ words w /\ veqb v w = false /\ debug S alt E t v = debug S alt E t w.
Proof.
  intros S alt E. exists (TyEither TyAnyLit (TyLit LtUint)), (VLeft (num 1 0 1)), (VRight (num 1 0 1)). cbn. repeat split; discriminate.
Qed.
(** An association of associations with the same operator does not show which of them an operator belongs to. *)
Theorem C65_nesting_refuted : forall S alt E, exists t v w, of_type E t v /\ of_type E t w /\ words v /\ words w /\ veqb v w = false /\ debug S alt E t v = debug S alt E t w.
Proof.
  intros S alt E. exists (TyLeftAssoc (TyToken (T "+")) (TyLeftAssoc (TyToken (T "+")) (TyLit LtUint))),
    (VRhs (VBinL (VRhs (num 1 0 1)) (VOp (T "+") [sp 1 2]) (num 2 2 3))), (VBinL (VRhs (VRhs (num 1 0 1))) (VOp (T "+") [sp 1 2]) (VRhs (num 2 2 3))). cbn. repeat split; discriminate.
Qed.
(** Equal trees do not always show alike: identifiers and literals show where they stand, and 0.0 == -0.0. *)
Theorem C65_equal_trees_refuted : exists S E t v w, sane S /\ of_type E t v /\ of_type E t w /\ words v /\ words w /\ veqb v w = true /\ debug S false E t v <> debug S false E t w.
Proof.
  exists plain_shown, no_types, TyIdent, (VIdent (T "x") (sp 0 1)), (VIdent (T "x") (sp 4 5)). split; [apply C65_ex_sane|]. split; [exact I|]. split; [exact I|]. split; [split; [discriminate|reflexivity]|]. split; [split; [discriminate|reflexivity]|].
  split; [reflexivity|]. vm_compute. intro H. discriminate H.
Qed.
End WithTables.
Print Assumptions C65_text_tells_trees_apart.
Print Assumptions C65_both_forms_tell_the_same.
Print Assumptions C65_one_line.
Print Assumptions C65_wrappers_are_invisible.
Print Assumptions C65_obtainable_trees.
Print Assumptions C65_obtainable_text_tells.
Print Assumptions C65_either_side_refuted.
Print Assumptions C65_nesting_refuted.
Print Assumptions C65_equal_trees_refuted.
