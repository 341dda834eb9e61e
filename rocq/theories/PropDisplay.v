(** * PropDisplay: C54, the [Display] of every node reads back. *)
From Verif Require Import Base Float Literal Syn Ast Derive Grammar Spec LitSpec LiteralFacts Reprint LitDenote
  SynFacts Lawful Mono Combinators GrammarBeh Sound Sim RoundFacts Examples PropRoundtrip Term TermCheck PropTerm NoPanic PropLit Typed LL1 LL1Facts LL1Check PropLL1
  Fmt FmtFacts Lexer Offsets PropSpan LexFacts LexWf LexOut LexRun PropLex LexPrint LexLit Writable PropStr TypedWritable FloatFacts Digits DecText NodeEq PropEq Display.
Local Open Scope nat_scope.

Section Display.
Context {U : unicode} (sane : sane_tables U).

(** one token, or a minus sign glued to a number, as the lexer sees it *)
Lemma lex_alone_lit r file : literal_nocapture r = Some [] -> exists sp, lex file r = LOk [TLit r sp].
Proof.
  intro H. destruct (wf_relexes sane None 0 [TLit r call_site] file I) as (l & Hl & E); [cbn; split; [left; exact H|split; exact I]|].
  rewrite text_with_calls in Hl. unfold c_write, c_indent in Hl. cbn in Hl. rewrite app_nil_r in Hl.
  destruct l as [|[| |r' sp'|] [|? ?]]; try discriminate E. cbn in E. injection E as ->. eauto.
Qed.
Lemma lex_alone_word n file : ident_ok n -> exists sp, lex file n = LOk [TIdent n sp].
Proof.
  intro H. destruct (wf_relexes sane None 0 [TIdent n call_site] file I) as (l & Hl & E); [cbn; split; [exact H|split; exact I]|].
  rewrite text_with_calls in Hl. unfold c_write, c_indent in Hl. cbn in Hl. rewrite ?app_nil_r, c_ident_concat in Hl.
  destruct l as [|[n' sp'| | |] [|? ?]]; try discriminate E. cbn in E. injection E as ->. eauto.
Qed.
Lemma digit_not_punct c s : is_digit c = true -> punct_char (c :: s) = None.
Proof.
  intro H. destruct (punct_char (c :: s)) as [(c', r)|] eqn:E; [|reflexivity]. apply punct_char_some in E as (E & H1 & _). injection E as <- <-.
  apply punct_facts in H1. intuition congruence.
Qed.
Lemma lex_minus r file c t : literal_nocapture r = Some [] -> r = c :: t -> is_digit c = true -> exists s1 s2, lex file (45%N :: r) = LOk [TPunct 45 Alone s1; TLit r s2].
Proof.
  intros H Er Hd. rewrite lex_run. unfold no_bom. change ((45 =? 65279)%N) with false. cbv iota. set (src := 45%N :: r).
  assert (S0 : solid src) by (split; [reflexivity|discriminate]).
  assert (L0 : leaf_token src = Some (TPunct 45 Alone, r)).
  { apply punct_leaf; [vm_compute; tauto|discriminate|exact S0|]. rewrite Er, (digit_not_punct c t Hd). reflexivity. }
  destruct (step_leaf file src [] src [] [] (TPunct 45 Alone) r) as (s1 & E1); [constructor|exact S0|reflexivity|intros ? ? E; injection E as <- _; reflexivity|exact L0|].
  destruct (lit_leaf r [] (or_introl H) I (or_introl I)) as (L1 & S1 & O1 & C1). rewrite app_nil_r in L1, S1, O1, C1.
  destruct (step_leaf file src [] r [TPunct 45 Alone s1] [] (TLit r) []) as (s2 & E2); [constructor|exact S1|exact O1|exact C1|exact L1|].
  exists s1, s2. cbn [app] in E1, E2. rewrite (run_steps file src _ (LS [] [TPunct 45 Alone s1; TLit r s2] [])); [|eapply steps_trans; eapply steps_one; eassumption].
  apply run_end. constructor.
Qed.


Lemma minus_or_not r sp file : (exists c t, r = c :: t /\ c <> 45%N /\ literal_nocapture r = Some []) \/ (exists c t, r = 45%N :: c :: t /\ is_digit c = true /\ literal_nocapture (c :: t) = Some []) ->
  exists ts, lex file r = LOk ts /\ map unspan ts = map unspan (push_lit r sp).
Proof.
  intros [(c & t & -> & Hc & L)|(c & t & -> & Hc & L)].
  - destruct (lex_alone_lit (c :: t) file L) as (s1 & H). exists [TLit (c :: t) s1]. split; [exact H|]. unfold push_lit. destruct (N.eqb_spec c 45); [contradiction|reflexivity].
  - destruct (lex_minus (c :: t) file c t L eq_refl Hc) as (s1 & s2 & H). exists [TPunct 45 Alone s1; TLit (c :: t) s2]. split; [exact H|]. reflexivity.
Qed.
Lemma digits_head s : s <> [] -> forallb is_digit s = true -> exists c t, s = c :: t /\ is_digit c = true /\ c <> 45%N.
Proof. destruct s as [|c t]; [congruence|]. intros _ H. cbn in H. apply andb_true_iff in H as (H & _). exists c, t. split; [reflexivity|]. split; [exact H|]. intros ->. discriminate H. Qed.
Lemma int_text_lexes z sp file : exists ts, lex file (show_int z) = LOk ts /\ map unspan ts = map unspan (push_lit (show_int z) sp).
Proof.
  apply minus_or_not. unfold show_int. pose proof (int_lexes (dec (Z.abs_N z)) (dec_nonempty _) (dec_digits _)) as L.
  destruct (digits_head _ (dec_nonempty (Z.abs_N z)) (dec_digits (Z.abs_N z))) as (c & t & E & Hc & Hm). rewrite E in *. destruct (z <? 0)%Z; cbn [app]; [right|left]; eauto 6.
Qed.
Lemma token_text_lexes l r sp file : lit_valid l -> token_text l = Some r ->
  exists ts ts', lex file r = LOk ts /\ print_lit l sp = Some ts' /\ map unspan ts = map unspan ts'.
Proof.
  intros Hv H. destruct l; cbn [token_text print_lit lit_valid] in *.
  - injection H as <-. destruct (lex_alone_word (if b then T "true" else T "false") file) as (s1 & L).
    { pose proof (print_wf (VLit (LBool b) call_site) [TIdent (if b then T "true" else T "false") call_site] I eq_refl) as W. rewrite wf_cons in W. apply W. }
    eexists. eexists. split; [exact L|]. split; reflexivity.
  - rewrite H. cbn [option_map]. destruct (minus_or_not r sp file) as (ts & L & E); [|eauto].
    left. pose proof H as H'. unfold lit_byte_repr, cursor_write in H'. destruct (Nat.leb _ _); [|discriminate]. injection H' as Ex. rewrite <- Ex. eexists. eexists. split; [reflexivity|]. split; [discriminate|].
    cbn [app] in Ex. rewrite Ex. apply (byte_lexes b); assumption.
  - injection H as <-. destruct (int_text_lexes z sp file) as (ts & L & E). eauto.
  - injection H as <-. destruct (int_text_lexes z sp file) as (ts & L & E). eauto.
  - rewrite H. cbn [option_map]. destruct (minus_or_not r sp file) as (ts & L & E); [|eauto].
    destruct (f64_finite f) eqn:Hf; [|destruct f; discriminate]. destruct (float_show_reads f Hv Hf) as (s & neg & Hs & Hsh & _). assert (r = s) as -> by congruence.
    destruct Hsh as (ip & fp & Es & H1 & H2 & H3 & H4). assert (Hsh : float_shape false (ip ++ [46%N] ++ fp)) by (exists ip, fp; auto). apply float_lexes in Hsh.
    destruct (digits_head ip H1 H3) as (c & t & E & Hc & Hm). subst ip s. destruct neg; cbn [app] in *; [right|left]; eauto 8.
  - injection H as <-. destruct (minus_or_not (show_char c) sp file) as (ts & L & E).
    { left. eexists. eexists. split; [reflexivity|]. split; [discriminate|]. apply char_lexes. exact Hv. }
    exists ts. eexists. split; [exact L|]. split; [reflexivity|exact E].
  - injection H as <-. destruct (minus_or_not (show_str s) sp file) as (ts & L & E).
    { left. eexists. eexists. split; [reflexivity|]. split; [discriminate|]. apply show_str_lexes. exact Hv. }
    exists ts. eexists. split; [exact L|]. split; [reflexivity|exact E].
  - injection H as <-. destruct (minus_or_not (show_byte_str s) sp file) as (ts & L & E).
    { left. eexists. eexists. split; [reflexivity|]. split; [discriminate|]. apply byte_str_lexes. exact Hv. }
    exists ts. eexists. split; [exact L|]. split; [reflexivity|exact E].
Qed.

Lemma format_lexes alt v out file : writable v -> format_node alt v = Some out ->
  exists ts ts', lex file out = LOk ts /\ print v = Some ts' /\ map unspan ts = map unspan ts'.
Proof.
  intros W D. unfold format_node in D. destruct (print v) as [ts'|] eqn:Hp; [|discriminate]. injection D as <-. rewrite to_text_with.
  destruct (C38_text_of_a_value_lexes sane v ts' (if alt then None else Some (T "    ")) 0 file W Hp) as (ts & L & E); [destruct alt; [exact I|repeat constructor]|].
  exists ts, ts'. auto.
Qed.
Ltac bad := match goal with H : TyGroup ?d _ = _ |- _ => exfalso; destruct d; (discriminate H || congruence) end.
Lemma display_lexes E alt t : forall v out file, typed E t v -> writable v -> display alt t v = Some out ->
  exists ts ts', lex file out = LOk ts /\ print v = Some ts' /\ map unspan ts = map unspan ts'.
Proof.
  assert (Word : forall n sp file, ident_ok n -> exists ts ts', lex file n = LOk ts /\ Some [TIdent n sp] = Some ts' /\ map unspan ts = map unspan ts').
  { intros n sp file H. destruct (lex_alone_word n file H) as (s1 & L). exists [TIdent n s1]. eexists. split; [exact L|]. split; reflexivity. }
  induction t; intros v out file Ht W D; cbn [display] in D; try (eapply format_lexes; eassumption); try discriminate D.
  - inversion Ht; subst; try bad. injection D as <-. cbn [writable print] in *. apply Word. exact W.
  - inversion Ht; subst; try bad. injection D as <-. cbn [writable print] in *. apply Word. exact W.
  - inversion Ht; subst; try bad. injection D as <-. cbn [writable print] in *. apply Word. exact W.
  - inversion Ht; subst; try bad. cbn [writable print] in *. eapply token_text_lexes; eassumption.
  - inversion Ht; subst; try bad. cbn [writable print] in *. eapply token_text_lexes; eassumption.
  - inversion Ht; subst; try bad. injection D as <-. exists [], []. repeat split.
  - inversion Ht; subst; try bad. injection D as <-. exists [], []. repeat split.
  - inversion Ht; subst; try bad. injection D as <-. exists [], []. repeat split.
  - inversion Ht; subst; try bad; cbn [writable print] in *; eauto.
  - inversion Ht; subst; try bad. eauto.
Qed.
End Display.

(** ** C54 *)
(** The text of every node, whatever its type, lexes to the tokens the node prints ([{}] and [{:#}]) ... *)
Theorem C54_display_lexes_to_the_tokens : forall (U : unicode), sane_tables U -> forall E alternate t v out file,
  typed E t v -> writable v -> display alternate t v = Some out ->
  exists ts ts', lex file out = LOk ts /\ print v = Some ts' /\ map unspan ts = map unspan ts'.
Proof. intros U sane E alt t v out file. exact (display_lexes sane E alt t v out file). Qed.
(** ... so that reading it is reading those tokens: every grammar accepts or refuses both alike, with the same
    value up to locations ... *)
Theorem C54_reading_display_is_reading_tokens : forall (U : unicode), sane_tables U -> forall E alternate t v out file ts',
  typed E t v -> writable v -> display alternate t v = Some out -> print v = Some ts' ->
  (forall w, parses E t ts' w -> exists w', from_str E t file out w' /\ strip w' = strip w) /\
  (refuses E t ts' -> from_str_err E t file out).
Proof.
  intros U sane E alt t v out file ts' Ht W D P. destruct (display_lexes sane E alt t v out file Ht W D) as (ts & ts2 & L & P2 & S). rewrite P in P2. injection P2 as <-.
  symmetry in S. destruct (C40_spans_do_not_matter U E t ts' ts S) as (A & B). split.
  - intros w H. destruct (A w H) as (w' & H' & Sw). exists w'. split; [apply from_str_parses; eauto|exact Sw].
  - intro H. apply B in H as (n & e & H). exists n, e. unfold parse_str. rewrite L. exact H.
Qed.
(** ... and a grammar that passes the check of C10 reads back what it displayed: [v.to_string().parse() == Ok(v)]. *)
Theorem C54_display_reads_back : forall (U : unicode), sane_tables U -> forall g alternate t v out file,
  ll1 g t = true -> typed (env_of g) t v -> writable v -> display alternate t v = Some out ->
  exists v', from_str (env_of g) t file out v' /\ strip v' = strip v /\ veqb v' v = true.
Proof.
  intros U sane g alt t v out file Hg Ht W D. destruct (display_lexes sane _ alt t v out file Ht W D) as (ts & ts' & L & P & S).
  destruct (C54_reading_display_is_reading_tokens U sane _ alt t v out file ts' Ht W D P) as (A & _). destruct (A v ltac:(eapply C10_parse_of_print; eassumption)) as (v' & F & Sv).
  exists v'. split; [exact F|]. split; [exact Sv|apply strip_veqb; exact Sv].
Qed.
(** In particular, in any program, every literal node but an infinite float: the very value comes back ... *)
Theorem C54_literals_read_back : forall (U : unicode), sane_tables U -> forall E alternate l sp file, lit_valid l -> lit_finite l ->
  exists out sp', display alternate (TyLit (litty_of l)) (VLit l sp) = Some out /\ from_str E (TyLit (litty_of l)) file out (VLit l sp').
Proof.
  intros U sane E alt l sp file Hv Hf. destruct (typed_round_trip l sp Hv Hf) as (ts' & P & R).
  assert (D : exists out, token_text l = Some out). { destruct l; cbn [token_text print_lit] in *; eauto; [destruct (lit_byte_repr b)|destruct (float_show f)]; eauto; discriminate. }
  destruct D as (out & D). exists out. destruct (C54_reading_display_is_reading_tokens U sane E alt (TyLit (litty_of l)) (VLit l sp) out file ts' (td_lit E l sp Hv) Hv D P) as (A & _).
  destruct (A (VLit l sp)) as (w & F & S).
  - exists 1. unfold parse2, start. cbn [pty p_layer]. unfold pmap, bind. specialize (R [] call_site None). rewrite app_nil_r in R. rewrite R. reflexivity.
  - destruct w; try discriminate S. cbn in S. injection S as ->. exists sp0. split; [exact D|exact F].
Qed.
(** ... also through [Lit], where a non-negative [Lit::Int] comes back as a [Lit::Uint] (C26) ... *)
Theorem C54_any_literal_reads_back : forall (U : unicode), sane_tables U -> forall E alternate l sp file, lit_valid l -> lit_finite l ->
  exists out sp', display alternate TyAnyLit (VLit l sp) = Some out /\ from_str E TyAnyLit file out (VLit (by_sign l) sp').
Proof.
  intros U sane E alt l sp file Hv Hf. destruct (any_lit_round_trip l sp Hv Hf) as (ts' & P & R).
  assert (D : exists out, token_text l = Some out). { destruct l; cbn [token_text print_lit] in *; eauto; [destruct (lit_byte_repr b)|destruct (float_show f)]; eauto; discriminate. }
  destruct D as (out & D). exists out. destruct (token_text_lexes sane l out sp file Hv D) as (ts & ts2 & L & P2 & S). rewrite P in P2. injection P2 as <-.
  symmetry in S. destruct (C40_spans_do_not_matter U E TyAnyLit ts' ts S) as (A & _). destruct (A (VLit (by_sign l) sp)) as (w & F & Sw).
  - exists 1. unfold parse2, start. cbn [pty p_layer]. unfold pmap, bind. specialize (R [] call_site None). rewrite app_nil_r in R. rewrite R. reflexivity.
  - destruct w; try discriminate Sw. cbn in Sw. injection Sw as ->. exists sp0. split; [exact D|apply from_str_parses; eauto].
Qed.
(** ... every identifier outside its keyword list, and every keyword. *)
Theorem C54_words_read_back : forall (U : unicode), sane_tables U -> forall E alternate kws n sp file, ident_ok n ->
  (~ In n kws -> display alternate (TyCustomIdent kws) (VIdent n sp) = Some n /\ exists sp', from_str E (TyCustomIdent kws) file n (VIdent n sp')) /\
  (display alternate (TyKeyword n) (VKw n sp) = Some n /\ exists sp', from_str E (TyKeyword n) file n (VKw n sp')).
Proof.
  intros U sane E alt kws n sp file Hn. destruct (lex_alone_word sane n file Hn) as (s1 & L). split.
  - intro Hk. split; [reflexivity|]. exists s1. apply from_str_parses. exists [TIdent n s1]. split; [exact L|]. exists 1. unfold parse2, start. cbn.
    unfold pmap, bind, p_custom_ident, bind. cbn. destruct (text_mem n kws) eqn:M; [|reflexivity]. apply text_mem_In in M. contradiction.
  - split; [reflexivity|]. exists s1. apply from_str_parses. exists [TIdent n s1]. split; [exact L|]. exists 1. unfold parse2, start. cbn.
    unfold pmap, bind, p_keyword, bind. cbn. rewrite text_eqb_refl. reflexivity.
Qed.
(** [display] only panics on an infinite float. *)
Fixpoint has_display (t : ty) : Prop :=
  match t with TyToken _ | TyTokenKw _ => False | TyEither a b => has_display a /\ has_display b | TyBox a => has_display a | _ => True end.
Ltac bad := match goal with H : TyGroup ?d _ = _ |- _ => exfalso; destruct d; (discriminate H || congruence) end.
Theorem C54_display_total : forall (U : unicode) E alternate t v, has_display t -> typed E t v -> (forall l, In l (val_lits v) -> lit_finite l) ->
  exists out, display alternate t v = Some out.
Proof.
  intros U E alt t. induction t; intros v Hd Ht Hf; cbn [has_display] in Hd; try contradiction Hd;
    try (destruct (C10_values_print U E _ v Ht Hf) as (ts & P); cbn [display]; unfold format_node; rewrite P; cbn; eauto; fail); inversion Ht; subst; try bad; cbn [display]; eauto.
  - specialize (Hf l (or_introl eq_refl)). match goal with H : lit_valid l |- _ => rename H into Hv end. destruct (typed_round_trip l call_site Hv Hf) as (ts & P & _). destruct l; cbn [token_text print_lit] in *; eauto; [destruct (lit_byte_repr b)|destruct (float_show f)]; eauto; discriminate.
  - specialize (Hf l (or_introl eq_refl)). match goal with H : lit_valid l |- _ => rename H into Hv end. destruct (typed_round_trip l call_site Hv Hf) as (ts & P & _). destruct l; cbn [token_text print_lit] in *; eauto; [destruct (lit_byte_repr b)|destruct (float_show f)]; eauto; discriminate.
  - destruct Hd as (Ha & Hb). eapply IHt1; eauto.
  - destruct Hd as (Ha & Hb). eapply IHt2; eauto.
Qed.
(** ** The hypotheses are met, and the boundary *)
Section WithTables.
Local Existing Instance Examples.ascii_only.
(** [LitInt] -5 displays as its token, "-5"; its tokens, laid out by [to_string], are "- 5": two texts, the same
    tokens, and both read back *)
Example C54_ex_minus : display false (TyLit LtInt) (VLit (LInt (-5)) call_site) = Some (T "-5") /\ to_string false (VLit (LInt (-5)) call_site) = Some (T "- 5").
Proof. split; vm_compute; reflexivity. Qed.
Example C54_ex_minus_back : exists out sp, display false (TyLit LtInt) (VLit (LInt (-5)) call_site) = Some out /\ from_str amb (TyLit LtInt) 7 out (VLit (LInt (-5)) sp).
Proof. apply (C54_literals_read_back _ ascii_sane amb false (LInt (-5)) call_site 7); [vm_compute; split; discriminate|exact I]. Qed.
(** a node of several tokens, through [Either] and a derived type (the checked grammar of C10) *)
Example C54_ex_built : exists out v', display false (TyEither (TyPunctuated (TyRef 0) TyNotEof) TyEof) (VLeft built) = Some out /\ from_str (env_of lang) (TyPunctuated (TyRef 0) TyNotEof) 3 out v' /\ strip v' = strip built.
Proof.
  destruct (C54_display_total _ (env_of lang) false (TyPunctuated (TyRef 0) TyNotEof) built I (proj1 C10_ex_built)) as (out & D).
  { intros l H. vm_compute in H. decompose [or] H; subst; try contradiction; exact I. }
  destruct (C54_display_reads_back _ ascii_sane _ false _ built out 3 C10_ex_check (proj1 C10_ex_built) built_writable D) as (v' & F & S & _). exists out, v'. split; [exact D|]. split; assumption.
Qed.
(** [NotEof] displays as nothing, and nothing is what it refuses; [Eof] and [Empty] read it back *)
Theorem C54_not_eof_refuted : forall E alternate file, display alternate TyNotEof VUnit = Some [] /\ ~ (exists v, from_str E TyNotEof file [] v) /\
  display alternate TyEof VUnit = Some [] /\ from_str E TyEof file [] VUnit.
Proof.
  intros E alt file. split; [reflexivity|]. split; [|split; [reflexivity|exists 1; vm_compute; reflexivity]].
  intros (v & n & H). destruct n; cbn in H; vm_compute in H; discriminate H.
Qed.
End WithTables.
Print Assumptions C54_display_lexes_to_the_tokens.
Print Assumptions C54_reading_display_is_reading_tokens.
Print Assumptions C54_display_reads_back.
Print Assumptions C54_literals_read_back.
Print Assumptions C54_any_literal_reads_back.
Print Assumptions C54_words_read_back.
Print Assumptions C54_display_total.
Print Assumptions C54_not_eof_refuted.
