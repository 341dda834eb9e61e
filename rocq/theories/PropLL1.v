(** * PropLL1: C10, C45. *)
From Verif Require Import Base Float Literal Syn Ast Derive Grammar Spec LitSpec Reprint SynFacts Lawful Mono Combinators GrammarBeh Examples Term TermCheck NoPanic PropLit PropTerm Typed LL1 LL1Facts LL1Check.
Local Open Scope nat_scope.

(** ** C45: a parser of the grammar never panics if every literal token of the input is one
    that [syn::Lit::new] accepts (it panics on others, C45_unreadable_panics). *)
Theorem C45_no_panic : forall (U : unicode) E n t ts,
  (forall repr, In repr (lits ts) -> lit_new repr <> None) -> parse2 (pty E n t) ts <> RPanic.
Proof. intros U E n t ts H. apply parse2_never_panics. apply Forall_forall. exact H. Qed.
Print Assumptions C45_no_panic.
Theorem C45_unreadable_panics : forall (U : unicode) E k repr sp ts, lit_new repr = None ->
  forall n, parse2 (pty E (S n) (TyLit k)) (TLit repr sp :: ts) = RPanic.
Proof.
  intros U E k repr sp ts H n. unfold parse2. cbn [pty p_layer]. unfold pmap, bind.
  assert (G : forall A (sel : slit -> option A) w, p_typed sel w (start (TLit repr sp :: ts)) = (OPanic, start (TLit repr sp :: ts))).
  { intros A sel w. unfold p_typed, p_lit, start. cbn [ps_rest ignore_none open_none]. rewrite H. reflexivity. }
  destruct k; cbn [p_litty]; unfold p_lit_bool, p_lit_byte, p_lit_int, p_lit_uint, p_lit_float, p_lit_char, p_lit_str, p_lit_byte_str,
      pmap, and_then, bind, p_syn_bool, p_syn_byte, p_syn_int, p_syn_float, p_syn_char, p_syn_str, p_syn_byte_str; rewrite G; reflexivity.
Qed.
Print Assumptions C45_unreadable_panics.
(** with the termination check, every such input is decided: accepted or refused *)
Theorem C45_total : forall (U : unicode) g t ts, terminating g t = true ->
  (forall repr, In repr (lits ts) -> lit_new repr <> None) ->
  (exists v, parses (env_of g) t ts v) \/ refuses (env_of g) t ts.
Proof.
  intros U g t ts Ht Hl. destruct (C18_check_whole_input U g t ts Ht) as [H|[H|(n & H)]]; auto.
  exfalso. exact (C45_no_panic U _ n t ts Hl H).
Qed.
Print Assumptions C45_total.
Section WithTables.
Local Existing Instance ascii_only.
Example C45_ex : forall repr, In repr (lits [TLit (T "0x1F") (sp 0 4); TGroup DParen (sp 5 9) [TLit (T "2.5") (sp 6 9)]]) -> lit_new repr <> None.
Proof. intros repr [<-|[<-|[]]]; vm_compute; discriminate. Qed.
End WithTables.

(** ** C10: a grammar that passes the check reads back whatever it prints: every value of the
    type, however it was built, printed and parsed, gives exactly that value, spans included. *)
Theorem C10_parse_of_print : forall (U : unicode) g t v ts,
  ll1 g t = true -> typed (env_of g) t v -> print v = Some ts -> parses (env_of g) t ts v.
Proof.
  intros U g t v ts H Ht Hp. destruct (ll1_reads g t v ts H Ht Hp) as (n & Hn). exists n. unfold parse2. rewrite Hn. reflexivity.
Qed.
Print Assumptions C10_parse_of_print.
(** Printing such a value fails only on an infinite float. *)
Fixpoint val_lits (v : val) : list lit :=
  match v with
  | VLit l _ => [l]
  | VJust x y => val_lits x ++ val_lits y
  | VGroup _ _ x | VRhs x | VLhs x | VLeft x | VRight x => val_lits x
  | VPunct inner last =>
      List.concat (map (fun '(x, y) => val_lits x ++ val_lits y) inner) ++ match last with Some x => val_lits x | None => [] end
  | VList l | VStruct l | VVariant _ l => List.concat (map val_lits l)
  | VBinL l o r | VBinR l o r => val_lits l ++ val_lits o ++ val_lits r
  | _ => []
  end.
Section Prints.
Context {U : unicode}.
Notation fin v := (Forall lit_finite (val_lits v)).
Lemma oapp_total a b : a <> None -> b <> None -> oapp a b <> None.
Proof. destruct a, b; cbn; congruence. Qed.
Lemma oconcat_total l : Forall (fun x => x <> None) l -> oconcat l <> None.
Proof. induction 1; [discriminate|]. apply oapp_total; assumption. Qed.
Lemma pairs_total (l : list (val * val)) : Forall (fun x => (fin (fst x) -> print (fst x) <> None) /\ (fin (snd x) -> print (snd x) <> None)) l ->
  Forall lit_finite (List.concat (map (fun '(x, y) => val_lits x ++ val_lits y) l)) -> oconcat (map (fun '(x, y) => oapp (print x) (print y)) l) <> None.
Proof.
  intro H. induction H as [|(x, y) l (Hx & Hy) H IH]; intro Hf; [discriminate|]. cbn [map List.concat] in Hf. apply Forall_app in Hf as (Hf1 & Hf2). apply Forall_app in Hf1 as (Hfx & Hfy).
  apply oapp_total; [apply oapp_total; auto|apply IH; exact Hf2].
Qed.
Lemma lits_left x l t : left_form x l t -> val_lits (val_of_left t) = val_lits x ++ List.concat (map (fun '(o, y) => val_lits o ++ val_lits y) l).
Proof.
  induction 1 as [|l t o y H IH]; cbn [val_of_left val_lits]; [symmetry; apply app_nil_r|]. rewrite IH, map_app, List.concat_app. cbn. rewrite app_nil_r, <- app_assoc. reflexivity.
Qed.
Lemma lits_right x l t : right_form x l t -> val_lits (val_of_right t) = val_lits x ++ List.concat (map (fun '(o, y) => val_lits o ++ val_lits y) l).
Proof.
  induction 1 as [|x o y l t H IH]; cbn [val_of_right val_lits map List.concat]; [symmetry; apply app_nil_r|]. rewrite IH, <- app_assoc. reflexivity.
Qed.
Lemma lits_all (l : list val) : Forall lit_finite (List.concat (map val_lits l)) -> Forall (fun v => fin v -> print v <> None) l -> oconcat (map print l) <> None.
Proof.
  intros Hf H. induction H as [|v l Hv H IH]; [discriminate|]. cbn [map List.concat] in Hf. apply Forall_app in Hf as (H1 & H2). apply oapp_total; auto.
Qed.
Lemma typed_prints E t v : typed E t v -> fin v -> print v <> None.
Proof.
  revert t v. apply (typed_rect E (fun _ v => fin v -> print v <> None)); try (intros; discriminate).
  - intros l sp0 Hv Hf. inversion Hf as [|? ? H1 _]; subst. destruct (typed_round_trip l sp0 Hv H1) as (ts & Hp & _). cbn [print]. congruence.
  - intros l sp0 Hv _ Hf. inversion Hf as [|? ? H1 _]; subst. destruct (typed_round_trip l sp0 Hv H1) as (ts & Hp & _). cbn [print]. congruence.
  - intros a b x v Hx Hv Hf. apply Forall_app in Hf as (H1 & H2). apply oapp_total; auto.
  - intros d t sp0 v _ Hv Hf. cbn [print]. specialize (Hv Hf). destruct (print v); [discriminate|congruence].
  - intros a p inner last Hi Hl _ Hf. cbn [val_lits] in Hf. apply Forall_app in Hf as (H1 & H2). apply oapp_total; [apply pairs_total; assumption|]. destruct last as [v|]; [apply (Hl v eq_refl); exact H2|discriminate].
  - intros a p inner v Hi Hl Hf. cbn [val_lits] in Hf. apply Forall_app in Hf as (H1 & H2). apply oapp_total; [apply pairs_total; assumption|]. auto.
  - intros a l Hl Hf. exact (lits_all l Hf Hl).
  - intros o r x l t Hx Hl Hf Hfin. rewrite (lits_left _ _ _ Hf) in Hfin. apply Forall_app in Hfin as (H1 & H2). rewrite (ManyFacts.print_left_form _ _ _ Hf), <- pair_print. apply oapp_total; [auto|apply pairs_total; assumption].
  - intros o r x l t Hx Hl Hf Hfin. rewrite (lits_right _ _ _ Hf) in Hfin. apply Forall_app in Hfin as (H1 & H2). rewrite (ManyFacts.print_right_form _ _ _ Hf), <- pair_print. apply oapp_total; [auto|apply pairs_total; assumption].
  - intros a b v Hv Hf. auto.
  - intros a b v Hv Hf. auto.
  - intros a v Hv Hf. auto.
  - intros i c vs _ Hfs Hf. apply (lits_all vs Hf). clear Hf. induction Hfs; constructor; auto.
  - intros i en cs k c vs _ _ Hfs Hf. apply (lits_all vs Hf). clear Hf. induction Hfs; constructor; auto.
Qed.
End Prints.
Theorem C10_values_print : forall (U : unicode) E t v, typed E t v -> (forall l, In l (val_lits v) -> lit_finite l) ->
  exists ts, print v = Some ts.
Proof.
  intros U E t v H Hf. apply Forall_forall in Hf. pose proof (typed_prints E t v H Hf) as Hn. destruct (print v) as [ts|]; [eauto|congruence].
Qed.
Print Assumptions C10_values_print.
(** The tokens determine the value: no other value of the type prints the same, and no other
    value is read from them. *)
Theorem C10_print_injective : forall (U : unicode) g t v w ts, ll1 g t = true -> typed (env_of g) t v -> typed (env_of g) t w ->
  print v = Some ts -> print w = Some ts -> v = w.
Proof.
  intros U g t v w ts H Hv Hw Pv Pw. destruct (ll1_reads g t v ts H Hv Pv) as (n & Hn). destruct (ll1_reads g t w ts H Hw Pw) as (m & Hm).
  destruct (Nat.le_ge_cases n m) as [L|L].
  - destruct (le_pty (env_of g) n m t L (start ts)) as [Hd|He]; [rewrite Hn in Hd; discriminate|congruence].
  - destruct (le_pty (env_of g) m n t L (start ts)) as [Hd|He]; [rewrite Hm in Hd; discriminate|congruence].
Qed.
Print Assumptions C10_print_injective.

(** The check is not vacuous: a language of statements, with blocks, calls and expressions with
    two precedence levels. *)
Definition lang : list tdef :=
  [(* 0 *) DEnum (T "Stmt")
     [Ctor (T "Let") [(LIndex 0, TyTokenKw (T "let")); (LIndex 1, TyIdent); (LIndex 2, TyMaybe (TyToken (T ":")) TyIdent);
                      (LIndex 3, TyToken (T "=")); (LIndex 4, TyRef 1); (LIndex 5, TyToken (T ";"))];
      Ctor (T "Block") [(LIndex 0, TyBrace (TyAny (TyBox (TyRef 0))))];
      Ctor (T "Return") [(LIndex 0, TyTokenKw (T "return")); (LIndex 1, TyEither (TyRef 1) TyEmpty); (LIndex 2, TyToken (T ";"))]];
   (* 1 *) DStruct (Ctor (T "Expr") [(LIndex 0, TyLeftAssoc (TyRef 3) (TyRef 2))]);
   (* 2 *) DStruct (Ctor (T "Power") [(LIndex 0, TyRightAssoc (TyToken (T "^")) (TyRef 4))]);
   (* 3 *) DEnum (T "Op") [Ctor (T "Add") [(LIndex 0, TyToken (T "+"))]; Ctor (T "Shl") [(LIndex 0, TyToken (T "<<"))]];
   (* 4 *) DEnum (T "Atom")
     [Ctor (T "Paren") [(LIndex 0, TyParen (TyBox (TyRef 1)))];
      Ctor (T "Array") [(LIndex 0, TyBracket (TyPunctuated (TyBox (TyRef 1)) (TyToken (T ","))))];
      Ctor (T "Call") [(LIndex 0, TyIdent); (LIndex 1, TyMaybe (TyToken (T ".")) (TySeparated TyIdent (TyToken (T "."))))];
      Ctor (T "Lit") [(LIndex 0, TyAnyLit)]]].
Example C10_ex_check : ll1 lang (TyPunctuated (TyRef 0) TyNotEof) = true.
Proof. vm_compute. reflexivity. Qed.
(** a value of it that no parser made: [return;] with all spans equal to the call site *)
Definition built : val :=
  VPunct [(VVariant 2 [VKw (T "return") call_site; VRight VUnit; VOp (T ";") [call_site]], VUnit)]
         (Some (VVariant 0 [VKw (T "let") call_site; VIdent (T "x") call_site; VNothing; VOp (T "=") [call_site];
            VStruct [VBinL (VRhs (VStruct [VLhs (VVariant 3 [VLit (LInt (-5)) call_site])])) (VVariant 1 [VOp (T "<<") [call_site; call_site]])
                           (VStruct [VBinR (VVariant 2 [VIdent (T "f") call_site; VNothing]) (VOp (T "^") [call_site]) (VLhs (VVariant 3 [VLit (LStr (T "hi")) call_site]))])];
            VOp (T ";") [call_site]])).
Section WithTables.
Local Existing Instance ascii_only.
Example C10_ex_built : typed (env_of lang) (TyPunctuated (TyRef 0) TyNotEof) built /\ exists ts, print built = Some ts /\ List.length ts = 13.
Proof.
  split; [|eexists; split; vm_compute; reflexivity]. unfold built. constructor.
  - constructor; [|constructor|constructor]. eapply td_enum; [reflexivity|reflexivity|]. cbn [c_fields]. repeat constructor.
  - constructor. eapply td_enum; [reflexivity|reflexivity|]. cbn [c_fields].
    assert (Hx : ~ In (T "x") rust_keywords) by (intro H; vm_compute in H; intuition discriminate).
    assert (Hff : ~ In (T "f") rust_keywords) by (intro H; vm_compute in H; intuition discriminate).
    assert (Lit : forall l, lit_valid l -> by_sign l = l -> typed (env_of lang) (TyRef 4) (VVariant 3 [VLit l call_site])).
    { intros l Hv Hb. eapply td_enum; [reflexivity|reflexivity|]. constructor; [apply td_any_lit; assumption|constructor]. }
    repeat constructor; try exact Hx. eapply td_struct; [reflexivity|]. constructor; [|constructor].
    refine (td_left _ (TyRef 3) (TyRef 2) _ [(_, _)] (LBinary (LRhs _) _ _) _ _ _); [| |apply (lf_snoc _ []); apply lf_one].
    + eapply td_struct; [reflexivity|]. constructor; [|constructor]. refine (td_right _ _ _ _ [] (RLhs _) _ _ _); [| constructor |apply rf_one].
      apply Lit; [cbv; split; discriminate|reflexivity].
    + constructor; [| |constructor].
      * eapply td_enum; [reflexivity|reflexivity|]. repeat constructor.
      * eapply td_struct; [reflexivity|]. constructor; [|constructor]. refine (td_right _ _ _ _ [(_, _)] (RBinary _ _ (RLhs _)) _ _ _); [| |apply rf_cons; apply rf_one].
        -- eapply td_enum; [reflexivity|reflexivity|]. constructor; [constructor; exact Hff|constructor; [apply td_nothing|constructor]].
        -- constructor; [constructor; reflexivity| |constructor]. apply Lit; [repeat constructor|reflexivity].
  - intros _ H. discriminate.
Qed.
End WithTables.
(** Without the check it does not hold: struct { a: Any<Ident>, b: Ident } never reads anything back. *)
Definition greedy : list tdef := [DStruct (Ctor (T "G") [(LIndex 0, TyAny TyIdent); (LIndex 1, TyIdent)])].
Section WithTables.
Local Existing Instance ascii_only.
Theorem C10_unchecked_refuted : exists v ts, ll1 greedy (TyRef 0) = false /\ typed (env_of greedy) (TyRef 0) v /\ print v = Some ts /\
  refuses (env_of greedy) (TyRef 0) ts.
Proof.
  assert (Hx : ~ In (T "x") rust_keywords) by (intro H; vm_compute in H; intuition discriminate).
  exists (VStruct [VList []; VIdent (T "x") call_site]). eexists. split; [vm_compute; reflexivity|]. split; [|split; [reflexivity|]].
  - eapply td_struct; [reflexivity|]. constructor; [repeat constructor|]. constructor; [constructor; exact Hx|constructor].
  - exists 9. eexists. vm_compute. reflexivity.
Qed.
End WithTables.
Print Assumptions C10_unchecked_refuted.
(** ... also with prefixes shared between alternatives *)
Example C10_ex_shared_prefix : ll1 [DEnum (T "E") [Ctor (T "Var") [(LIndex 0, TyIdent)]; Ctor (T "Call") [(LIndex 0, TyIdent); (LIndex 1, TyParen TyEmpty)]]] (TyRef 0) = false.
Proof. vm_compute. reflexivity. Qed.
