(** * PropLang: a checked grammar reads exactly the language its types spell out (C62).

    [spells K E t v ts] (Lang.v): the tokens [ts] are a way to write the value [v] of type [t].  It is the context-free
    grammar one reads off the types: fields in sequence, any variant, any number of items; it knows nothing of the order in which
    alternatives are tried, of lookahead or of backtracking. *)
From Verif Require Import Base Float Literal Syn Ast Derive Grammar Spec LitSpec LiteralFacts Reprint LitDenote SynFacts Lawful Mono
  Combinators GrammarBeh Assoc ManyFacts Sound Sim RoundFacts Examples PropLit PropRoundtrip Term TermCheck Typed LL1 LL1Facts LL1Check PropLL1
  Fmt Lexer LexFacts LexWf LexOut LexRun PropLex Writable PropStr ParsedTyped PropAgain PropEq PropExtend Lang.
Local Open Scope nat_scope.

(** Whatever is accepted, by any grammar, was spelled that way (invisible groups apart). *)
Theorem C62_parsed_is_spelled : forall (U : unicode) E t ts v, parses E t ts v -> spells anyhow E t v (flat ts).
Proof. intros U E t ts v. apply parsed_spelled. Qed.

Section C62.
Context {U : unicode} (K : char -> bool) (g : list tdef) (t : ty).
Notation E := (env_of g).
Context (Hg : ll1 g t = true) (HE : env_leaves (leaf_sharp K) E) (Ht : leaves (leaf_sharp K) t).
(** A checked grammar reads whatever is spelled, as the value that was spelled. *)
Theorem C62_what_is_spelled_is_read v ts : visible ts = true -> lits_ok ts -> tame ts -> spells K E t v ts -> parses E t ts v.
Proof.
  intros Hv Hok Htm H. pose proof (spells_typed K E t v ts H Hok Htm) as Hty. destruct (spells_prints K E t v ts H Hok Htm) as (us & Hp).
  pose proof (spells_reprints K E t v ts us H Hok Hp) as R.
  assert (S : sim K us ts). { apply sim_sym. eapply reprints_sim; [|exact R|eapply tame_puncts; [exact R|exact Htm]]. intros c g1 g2 Hq. exact Hq. }
  destruct (sim_parses K E t us ts v HE Ht S (C10_parse_of_print U g t v us Hg Hty Hp)) as (v' & P & Q).
  assert (v' = v); [|subst v'; exact P]. pose proof (parsed_spelled E t ts v' P) as W. rewrite (visible_flat ts Hv) in W.
  eapply spells_same; [exact W|eapply spells_anyhow; exact H|exact Q].
Qed.
(** Checked grammars are unambiguous: nothing is spelled in two ways. *)
Theorem C62_unambiguous v v' ts : visible ts = true -> lits_ok ts -> tame ts -> spells K E t v ts -> spells K E t v' ts -> v = v'.
Proof. intros Hv Hok Htm H H'. eapply parses_det; eapply C62_what_is_spelled_is_read; eassumption. Qed.
End C62.

(** If spacing does not matter to any operator (see C09), parsing and the language are the same thing. *)
Section Exactly.
Context {U : unicode} (K : char -> bool).
Lemma free_sharp x : leaf_free K x -> leaf_sharp K x.
Proof. destruct x; cbn; auto. intros (H & _). exact H. Qed.
Definition spacing_free (g : list tdef) (t : ty) : Prop := env_leaves (leaf_free K) (env_of g) /\ leaves (leaf_free K) t.
Theorem C62_exactly_what_is_spelled g t v ts : ll1 g t = true -> spacing_free g t -> visible ts = true -> lits_ok ts -> tame ts ->
  (parses (env_of g) t ts v <-> spells anyhow (env_of g) t v ts).
Proof.
  intros Hg (HE & Ht) Hv Hok Htm. split.
  - intro H. apply parsed_spelled in H. rewrite (visible_flat ts Hv) in H. exact H.
  - intro H. eapply (C62_what_is_spelled_is_read K); try assumption; [eapply env_leaves_impl; [apply free_sharp|exact HE]|eapply leaves_impl; [apply free_sharp|exact Ht]|].
    apply spells_free; assumption.
Qed.
(** Two checked grammars whose definitions offer the same alternatives, in whatever order and under whatever names, accept the same inputs. *)
Theorem C62_order_does_not_matter g g' t ts : ll1 g t = true -> ll1 g' t = true -> spacing_free g t -> spacing_free g' t ->
  (forall i, offers (env_of g i) (env_of g' i)) -> (forall i, offers (env_of g' i) (env_of g i)) ->
  visible ts = true -> lits_ok ts -> tame ts ->
  ((exists v, parses (env_of g) t ts v) <-> (exists v, parses (env_of g') t ts v)).
Proof.
  intros Hg Hg' F F' O O' Hv Hok Htm. split; intros (v & H); apply (C62_exactly_what_is_spelled _ t v ts) in H; try assumption.
  - destruct (offers_spells anyhow _ _ O t v ts H) as (v' & H'). exists v'. apply C62_exactly_what_is_spelled; assumption.
  - destruct (offers_spells anyhow _ _ O' t v ts H) as (v' & H'). exists v'. apply C62_exactly_what_is_spelled; assumption.
Qed.
(** A checked grammar that offers more accepts more. *)
Theorem C62_more_alternatives_accept_more E0 g t ts v : ll1 g t = true -> spacing_free g t -> (forall i, offers (E0 i) (env_of g i)) ->
  visible ts = true -> lits_ok ts -> tame ts -> parses E0 t ts v -> exists v', parses (env_of g) t ts v'.
Proof.
  intros Hg F O Hv Hok Htm H. apply parsed_spelled in H. rewrite (visible_flat ts Hv) in H. destruct (offers_spells anyhow _ _ O t v ts H) as (v' & H'). exists v'. apply C62_exactly_what_is_spelled; assumption.
Qed.
Lemma not_both E t ts v : parses E t ts v -> ~ refuses E t ts.
Proof.
  intros (n & H) (m & e & H'). unfold parse2 in *. destruct (Nat.le_ge_cases n m) as [Q|Q].
  - destruct (Mono.le_pty E n m t Q (start ts)) as [Hd|He]; [destruct (pty E n t (start ts)) as (?, ?); cbn in Hd; subst; discriminate H|]. rewrite <- He in H'. congruence.
  - destruct (Mono.le_pty E m n t Q (start ts)) as [Hd|He]; [destruct (pty E m t (start ts)) as (?, ?); cbn in Hd; subst; discriminate H'|]. rewrite <- He in H. congruence.
Qed.
(** Texts: a checked grammar whose check for termination succeeds reads a text as [v] exactly if its tokens spell [v], and
    reports an error exactly if they spell nothing. *)
Theorem C62_texts g t file src ts v : sane_tables U -> ll1 g t = true -> terminating g t = true -> spacing_free g t ->
  forallb valid_char src = true -> lex file src = LOk ts -> tame ts ->
  (from_str (env_of g) t file src v <-> spells anyhow (env_of g) t v ts) /\
  (from_str_err (env_of g) t file src <-> forall w, ~ spells anyhow (env_of g) t w ts).
Proof.
  intros sane Hg Hterm F Hc Hl Htm. destruct (lex_out sane file src ts Hc Hl) as (Hw & _).
  assert (X : forall w, from_str (env_of g) t file src w <-> spells anyhow (env_of g) t w ts).
  { intro w. rewrite <- (C62_exactly_what_is_spelled g t w ts Hg F (wf_visible ts Hw) ltac:(eapply lexed_lits_ok; eassumption) Htm). rewrite from_str_parses. split.
    - intros (ts' & Hl' & H). assert (ts' = ts) by congruence. subst. exact H.
    - intro H. exists ts. auto. }
  split; [apply X|]. split.
  - intros He w H. apply X in H. apply from_str_parses in H as (ts' & Hl' & H). assert (ts' = ts) by congruence. subst ts'. apply (not_both _ _ _ _ H).
    destruct He as (n & e & He). exists n, e. unfold parse_str in He. rewrite Hl in He. exact He.
  - intro Hn. destruct (C45_from_str_total sane g t file src Hc Hterm) as [(w & H)|H]; [|exact H]. apply X in H. exfalso. exact (Hn w H).
Qed.
End Exactly.

(** ** Examples *)
(** struct Expr(LeftAssoc<Op, Atom>);  enum Op { Add(Token![+]), Le(Token![<=]) }
    enum Atom { Paren(Paren<Box<Expr>>), Name(Ident), Num(Lit) }, and the same with the alternatives in another order *)
Definition calc : list tdef :=
  [DStruct (Ctor (T "Expr") [(LIndex 0, TyLeftAssoc (TyRef 1) (TyRef 2))]);
   DEnum (T "Op") [Ctor (T "Add") [(LIndex 0, TyToken (T "+"))]; Ctor (T "Le") [(LIndex 0, TyToken (T "<="))]];
   DEnum (T "Atom") [Ctor (T "Paren") [(LIndex 0, TyParen (TyBox (TyRef 0)))]; Ctor (T "Name") [(LIndex 0, TyIdent)]; Ctor (T "Num") [(LIndex 0, TyAnyLit)]]].
Definition calc' : list tdef :=
  [DStruct (Ctor (T "Formula") [(LIndex 0, TyLeftAssoc (TyRef 1) (TyRef 2))]);
   DEnum (T "Sign") [Ctor (T "Less") [(LIndex 0, TyToken (T "<="))]; Ctor (T "Plus") [(LIndex 0, TyToken (T "+"))]];
   DEnum (T "Leaf") [Ctor (T "N") [(LIndex 0, TyAnyLit)]; Ctor (T "P") [(LName (T "inner"), TyParen (TyBox (TyRef 0)))]; Ctor (T "V") [(LIndex 0, TyIdent)]]].
Definition lt_only : char -> bool := fun c => (c =? 60)%N.
Example C62_ex_checked : ll1 calc (TyRef 0) = true /\ ll1 calc' (TyRef 0) = true /\ terminating calc (TyRef 0) = true.
Proof. vm_compute. auto. Qed.
Example C62_ex_free : spacing_free lt_only calc (TyRef 0) /\ spacing_free lt_only calc' (TyRef 0).
Proof.
  split; (split; [|exact I]); intros [|[|[|i]]]; repeat (constructor || reflexivity || exact I || (intro Q; discriminate Q));
  cbn; unfold free_op; cbn; try (destruct i; cbn); repeat (constructor || reflexivity || exact I); auto.
Qed.
Example C62_ex_offers : (forall i, offers (env_of calc i) (env_of calc' i)) /\ (forall i, offers (env_of calc' i) (env_of calc i)).
Proof.
  split; intros [|[|[|i]]]; cbn; try reflexivity; try (intros c Hc; repeat (destruct Hc as [<-|Hc]; [cbn; tauto|]); contradiction); destruct i; reflexivity.
Qed.
(** so, for every token stream, one accepts it exactly if the other does *)
Example C62_ex_order (U : unicode) ts : visible ts = true -> lits_ok ts -> tame ts ->
  ((exists v, parses (env_of calc) (TyRef 0) ts v) <-> (exists v, parses (env_of calc') (TyRef 0) ts v)).
Proof.
  destruct C62_ex_checked as (H1 & H2 & _), C62_ex_free as (F1 & F2), C62_ex_offers as (O1 & O2).
  apply (C62_order_does_not_matter lt_only); assumption.
Qed.

Section WithTables.
Local Existing Instance ascii_only.
(** [x <= ("s")] *)
Definition written_out : list tt :=
  [TIdent (T "x") call_site; TPunct 60 Joint call_site; TPunct 61 Alone call_site;
   TGroup DParen call_site [TLit (T """s""") call_site]].
Definition meant : val :=
  VStruct [VBinL (VRhs (VVariant 1 [VIdent (T "x") call_site])) (VVariant 1 [VOp (T "<=") [call_site; call_site]])
                 (VVariant 0 [VGroup DParen call_site (VStruct [VRhs (VVariant 2 [VLit (LStr (T "s")) call_site])])])].
Example C62_ex_spelled K : spells K (env_of calc) (TyRef 0) meant written_out.
Proof.
  eapply sp_struct; [reflexivity|]. cbn [c_fields].
  assert (X : spells K (env_of calc) (TyRef 2) (VVariant 1 [VIdent (T "x") call_site]) [TIdent (T "x") call_site]).
  { eapply sp_enum; [reflexivity|reflexivity|]. cbn [c_fields]. apply (sf_cons K _ _ _ _ _ _ [_] []); [|constructor]. constructor. vm_compute. intuition discriminate. }
  assert (L : spells K (env_of calc) (TyRef 2) (VVariant 2 [VLit (LStr (T "s")) call_site]) [TLit (T """s""") call_site]).
  { eapply sp_enum; [reflexivity|reflexivity|]. cbn [c_fields]. apply (sf_cons K _ _ _ _ _ _ [_] []); [|constructor].
    apply sp_any_lit; [reflexivity|exists 1; vm_compute; reflexivity|]. intros g s us Q. discriminate Q. }
  assert (O : spells K (env_of calc) (TyRef 1) (VVariant 1 [VOp (T "<=") [call_site; call_site]]) [TPunct 60 Joint call_site; TPunct 61 Alone call_site]).
  { eapply sp_enum; [reflexivity|reflexivity|]. cbn [c_fields]. apply (sf_cons K _ _ _ _ _ _ [_; _] []); [|constructor].
    constructor. apply ot_next; [discriminate|discriminate|]. apply ot_last; [discriminate|reflexivity]. }
  apply (sf_cons K _ _ _ _ _ _ written_out []); [|constructor].
  refine (sp_left K _ (TyRef 1) (TyRef 2) _ [(_, _)] (LBinary (LRhs _) _ _) [_] _ X _ _); [|apply (lf_snoc _ []); apply lf_one].
  apply (sps_cons K _ _ _ _ _ _ [_; _] [_] []); [exact O| |constructor].
  eapply sp_enum; [reflexivity|reflexivity|]. cbn [c_fields]. apply (sf_cons K _ _ _ _ _ _ [_] []); [|constructor].
  apply (sp_group K _ DParen); [discriminate|]. apply sp_box. eapply sp_struct; [reflexivity|]. apply (sf_cons K _ _ _ _ _ _ [_] []); [|constructor].
  refine (sp_left K _ (TyRef 1) (TyRef 2) _ [] (LRhs _) [_] [] L _ _); [constructor|apply lf_one].
Qed.
Example C62_ex_read : parses (env_of calc) (TyRef 0) written_out meant.
Proof.
  destruct C62_ex_checked as (H & _), C62_ex_free as (F & _). apply (C62_exactly_what_is_spelled lt_only); [exact H|exact F|reflexivity| | |apply C62_ex_spelled].
  - constructor; [|constructor]. split; [vm_compute; intuition discriminate|vm_compute; reflexivity].
  - split.
    + intro Z. repeat match goal with Z : minus_zero _ |- _ => inversion Z; clear Z; subst end.
    + repeat constructor. intros f Q. vm_compute in Q. discriminate Q.
Qed.
(** The text [a + "s" <= (b)]: read exactly as what it spells. *)
Example C62_ex_text : exists ts v, lex 1 (T "a + ""s"" <= (b)") = LOk ts /\ tame ts /\ spells anyhow (env_of calc) (TyRef 0) v ts.
Proof.
  destruct (lex 1 (T "a + ""s"" <= (b)")) as [ts|] eqn:H; [|vm_compute in H; discriminate H].
  assert (Hv : exists v, parses (env_of calc) (TyRef 0) ts v /\ visible ts = true).
  { vm_compute in H. injection H as <-. eexists. split; [exists 18; vm_compute; reflexivity|reflexivity]. }
  destruct Hv as (v & P & V). exists ts, v. split; [reflexivity|]. split.
  - clear P V. vm_compute in H. injection H as <-. split.
    + intro Z. repeat match goal with Z : minus_zero _ |- _ => inversion Z; clear Z; subst end.
    + repeat constructor. intros f Q. vm_compute in Q. discriminate Q.
  - apply C62_parsed_is_spelled in P. rewrite visible_flat in P by exact V. exact P.
Qed.

(** ** Without the check *)
(** struct { a: Any<Ident>, b: Ident }: [x] is spelled, and refused. *)
Theorem C62_unchecked_refuted : exists v ts, ll1 greedy (TyRef 0) = false /\ spells anyhow (env_of greedy) (TyRef 0) v ts /\ refuses (env_of greedy) (TyRef 0) ts.
Proof.
  assert (Hx : ~ In (T "x") rust_keywords) by (intro H; vm_compute in H; intuition discriminate).
  exists (VStruct [VList []; VIdent (T "x") call_site]), [TIdent (T "x") call_site]. split; [vm_compute; reflexivity|]. split.
  - eapply sp_struct; [reflexivity|]. cbn [c_fields]. apply (sf_cons anyhow _ _ _ _ _ _ [] [_]); [constructor; constructor|]. apply (sf_cons anyhow _ _ _ _ _ _ [_] []); [constructor; exact Hx|constructor].
  - exists 9. eexists. vm_compute. reflexivity.
Qed.
(** enum { Word(Ident), Name(CustomIdent) }: [x] is spelled in two ways; the variant written first is what is read. *)
Definition two_ways : list tdef := [DEnum (T "E") [Ctor (T "Word") [(LIndex 0, TyIdent)]; Ctor (T "Name") [(LIndex 0, TyCustomIdent [])]]].
Theorem C62_ambiguous_refuted : exists v v' ts, ll1 two_ways (TyRef 0) = false /\ v <> v' /\
  spells anyhow (env_of two_ways) (TyRef 0) v ts /\ spells anyhow (env_of two_ways) (TyRef 0) v' ts /\ parses (env_of two_ways) (TyRef 0) ts v.
Proof.
  assert (Hx : ~ In (T "x") rust_keywords) by (intro H; vm_compute in H; intuition discriminate).
  exists (VVariant 0 [VIdent (T "x") call_site]), (VVariant 1 [VIdent (T "x") call_site]), [TIdent (T "x") call_site].
  split; [vm_compute; reflexivity|]. split; [discriminate|]. split; [|split; [|exists 5; vm_compute; reflexivity]].
  - eapply sp_enum; [reflexivity|reflexivity|]. apply (sf_cons anyhow _ _ _ _ _ _ [_] []); [constructor; exact Hx|constructor].
  - eapply sp_enum; [reflexivity|reflexivity|]. apply (sf_cons anyhow _ _ _ _ _ _ [_] []); [constructor; intros []|constructor].
Qed.
(** enum { Lt(Token![<]), Le(Token![<=]) } in this order: what follows a joint [<] matters, so [<=] is spelled and refused. *)
Definition shorter_first : list tdef := [DEnum (T "E") [Ctor (T "Lt") [(LIndex 0, TyToken (T "<"))]; Ctor (T "Le") [(LIndex 0, TyToken (T "<="))]]].
Theorem C62_order_refuted : exists v ts, spells anyhow (env_of shorter_first) (TyRef 0) v ts /\ refuses (env_of shorter_first) (TyRef 0) ts.
Proof.
  exists (VVariant 1 [VOp (T "<=") [call_site; call_site]]), [TPunct 60 Joint call_site; TPunct 61 Alone call_site]. split.
  - eapply sp_enum; [reflexivity|reflexivity|]. apply (sf_cons anyhow _ _ _ _ _ _ [_; _] []); [|constructor]. constructor. apply ot_next; [discriminate|discriminate|]. apply ot_last; [discriminate|reflexivity].
  - exists 9. eexists. vm_compute. reflexivity.
Qed.
End WithTables.

Print Assumptions C62_parsed_is_spelled.
Print Assumptions C62_what_is_spelled_is_read.
Print Assumptions C62_unambiguous.
Print Assumptions C62_exactly_what_is_spelled.
Print Assumptions C62_order_does_not_matter.
Print Assumptions C62_more_alternatives_accept_more.
Print Assumptions C62_texts.
Print Assumptions C62_unchecked_refuted.
Print Assumptions C62_ambiguous_refuted.
Print Assumptions C62_order_refuted.
