(** * C38, C45: from text to value and back, through [from_str] and [to_string].
    [from_str] of every type is [syn::parse_str] (parsel_derive/src/from_str.rs:29-31, ast.rs);
    [to_string] formats the tokens the value prints (parsel_derive/src/display.rs, util.rs:616-660). *)
From Verif Require Import Base Float Literal Syn Ast Derive Grammar Spec LitSpec LiteralFacts Reprint LitDenote
  SynFacts Lawful Mono Combinators GrammarBeh Sound Sim RoundFacts Examples PropRoundtrip Term TermCheck PropTerm NoPanic Typed LL1 LL1Facts LL1Check PropLL1
  Fmt FmtFacts Lexer Offsets PropSpan LexFacts LexWf LexOut LexRun PropLex LexPrint LexLit Writable.
Local Open Scope nat_scope.

(** ** Vocabulary *)
Section Vocabulary.
Context {U : unicode}.
(** [src.parse::<t>()], as source file number [file], gives [v] *)
Definition from_str (E : env) (t : ty) (file : nat) (src : text) (v : val) : Prop :=
  exists n, parse_str (pty E n t) file src = ROk v.
(** ... or an error *)
Definition from_str_err (E : env) (t : ty) (file : nat) (src : text) : Prop :=
  exists n e, parse_str (pty E n t) file src = RErr e.
(** [to_string], or [format!("{:#}")] if [alternate] *)
Definition to_string (alternate : bool) (v : val) : option text := option_map (to_text alternate) (print v).
End Vocabulary.

Section Str.
Context {U : unicode} (sane : sane_tables U).

Lemma from_str_parses E t file src v : from_str E t file src v <-> exists ts, lex file src = LOk ts /\ parses E t ts v.
Proof.
  unfold from_str, parse_str, parses. destruct (lex file src) as [ts|sp].
  - split; [intros H; exists ts; auto|intros (ts' & H & P); injection H as <-; exact P].
  - split; [intros (n & H); discriminate|intros (ts' & H & _); discriminate].
Qed.

(** ** The literals of a text *)
Lemma substring_valid src a b : forallb valid_char src = true -> forallb valid_char (substring src a b) = true.
Proof.
  intro H. unfold substring. rewrite <- (firstn_skipn a src), forallb_app in H. apply andb_true_iff in H as (_ & H).
  rewrite <- (firstn_skipn (b - a) (skipn a src)), forallb_app in H. apply andb_true_iff in H as (H & _). exact H.
Qed.
Definition read_ok (r : text) : Prop := unsigned r /\ exists k, lit_new r = Some k /\ kind_ok k.
Lemma literal_read_ok r : LexWf.lit_ok r -> forallb valid_char r = true -> read_ok r.
Proof.
  intros [H| ->] Hv.
  - split; [|apply literal_reads; assumption]. destruct (literal_first _ _ H) as (c & t & -> & Hc). cbn. intros ->. destruct Hc as [Hc|Hc]; [cbn in Hc; intuition discriminate|discriminate].
  - split; [cbn; discriminate|]. exists KCStr. split; [reflexivity|exact I].
Qed.
Lemma wf_app_inv a b : wf (a ++ b) -> wf b.
Proof. induction a as [|x a IH]; [auto|]. cbn [app]. rewrite wf_cons. intros (_ & _ & H). auto. Qed.
Lemma doc_text_valid inner t c rest : doc_text inner t c rest -> forallb valid_char c = true -> forallb valid_char t = true.
Proof.
  intros (_ & [(_ & cr & u & _ & -> & _ & ->)|(u & -> & _ & _ & ->)]) H; rewrite !forallb_app in H; repeat (apply andb_true_iff in H as (H & ?)); repeat match goal with H : _ && _ = true |- _ => apply andb_true_iff in H as (? & ?) end; assumption.
Qed.
Lemma placed_read_ok file src lo hi ts : forallb valid_char src = true -> placed file src lo hi ts -> wf ts -> Forall read_ok (lits ts).
Proof.
  intro Hv. induction 1 as [lo hi' H1 H2|lo a b hi' t r H1 H2 H3 H4 H5 H6 H7 IH|lo a b hi' d o c sp l r H1 H1' H2 H3 H4 H5 H6 H7 H8 IH8 H9 IH|lo a b hi' inner t sp r H1 H2 H3 H4 H5 H6 IH]; intro Hw.
  - constructor.
  - rewrite wf_cons in Hw. destruct Hw as (Ht & _ & Hr). cbn [lits]. apply Forall_app. split; [|exact (IH Hr)]. destruct t as [n s|c g s|x s|d s l]; try constructor; [|constructor|destruct H5].
    apply literal_read_ok; [exact Ht|]. cbn in H6. rewrite <- H6. apply substring_valid. exact Hv.
  - rewrite wf_cons, wf_group in Hw. destruct Hw as ((_ & Hl) & _ & Hr). cbn [lits]. rewrite lits1_group. apply Forall_app. auto.
  - apply wf_app_inv in Hw. rewrite lits_app. apply Forall_app. split; [|exact (IH Hw)].
    assert (Ht : forallb valid_char t = true) by (eapply doc_text_valid; [exact H5|apply substring_valid; exact Hv]).
    assert (E : lits (doc_tokens inner t sp) = [show_str t]) by (unfold doc_tokens; destruct inner; reflexivity). rewrite E. constructor; [|constructor].
    split; [cbn; discriminate|]. exists (KStr t). split; [apply lit_new_show_str; exact Ht|exact Ht].
Qed.
Lemma lexed_read_ok file src ts : forallb valid_char src = true -> lex file src = LOk ts -> Forall read_ok (lits ts).
Proof. intros Hv H. destruct (lex_out sane file src ts Hv H) as (Hw & Hp). eapply placed_read_ok; eassumption. Qed.
Lemma lexed_lits_ok file src ts : forallb valid_char src = true -> lex file src = LOk ts -> lits_ok ts.
Proof.
  intros Hv H. eapply Forall_impl; [|exact (lexed_read_ok file src ts Hv H)]. intros r (Hu & k & Hk & Hok). split; [exact Hu|]. rewrite Hk. destruct k; exact Hok || exact I.
Qed.
Lemma wf_visible l : wf l -> visible l = true.
Proof.
  induction l as [|x r IH]; [reflexivity|]. rewrite wf_cons. intros (Hx & _ & Hr). cbn [visible]. rewrite (IH Hr), andb_true_r. clear - Hx.
  induction x as [n s|c g s|n s|d s l IH] using tt_ind'; try reflexivity. rewrite wf_group in Hx. destruct Hx as (Hd & Hl). rewrite visible1_group.
  assert (G : visible l = true). { clear Hd. induction IH as [|x l Hx _ IHl]; [reflexivity|]. rewrite wf_cons in Hl. destruct Hl as (W1 & _ & W2). cbn [visible]. rewrite (Hx W1), (IHl W2). reflexivity. }
  destruct d; [exact G|exact G|exact G|congruence].
Qed.

(** ** C45 *)
(** Every literal of a text is one syn can read, so [from_str] never panics, whatever the
    grammar and the text. *)
Theorem C45_literals_of_a_text_are_readable file src ts r : forallb valid_char src = true -> lex file src = LOk ts -> In r (lits ts) -> lit_new r <> None.
Proof.
  intros Hv H Hr. pose proof (lexed_read_ok file src ts Hv H) as F. rewrite Forall_forall in F. destruct (F r Hr) as (_ & k & -> & _). discriminate.
Qed.
Theorem C45_from_str_never_panics E n t file src : forallb valid_char src = true -> parse_str (pty E n t) file src <> RPanic.
Proof.
  intro Hv. unfold parse_str. destruct (lex file src) as [ts|sp] eqn:H; [|discriminate]. apply C45_no_panic. intros r Hr. eapply C45_literals_of_a_text_are_readable; eassumption.
Qed.
(** With the termination check, [from_str] of every text is a value or an error. *)
Theorem C45_from_str_total g t file src : forallb valid_char src = true -> terminating g t = true ->
  (exists v, from_str (env_of g) t file src v) \/ from_str_err (env_of g) t file src.
Proof.
  intros Hv Ht. unfold from_str, from_str_err, parse_str. destruct (lex file src) as [ts|sp] eqn:H; [|right; exists 0; eauto].
  destruct (C45_total U g t ts Ht) as [(v & n & Hn)|(n & e & Hn)]; [|left; eauto|right; eauto].
  intros r Hr. eapply C45_literals_of_a_text_are_readable; eassumption.
Qed.

(** ** What is printed again is the text of some tokens *)
Lemma kchar_quote r c : lit_new r = Some (KChar c) -> exists x, r = 39%N :: x.
Proof.
  unfold lit_new. destruct r as [|a r]; [discriminate|]. destruct ((a =? 34)%N || (a =? 114)%N); [destruct (lit_str (a :: r)); discriminate|].
  destruct (a =? 98)%N.
  { destruct r as [|x r]; [discriminate|]. destruct ((x =? 34)%N || (x =? 114)%N); [destruct (lit_byte_str (x :: r)); discriminate|]. destruct (x =? 39)%N; [|discriminate]. destruct (quoted_char true r); discriminate. }
  destruct (a =? 99)%N; [discriminate|]. destruct (a =? 40)%N; [destruct (text_eqb (a :: r) error_repr); discriminate|]. destruct (N.eqb_spec a 39) as [->|]; [eauto|].
  destruct (is_digit a || (a =? 45)%N); [|discriminate]. unfold lit_num. destruct (parse_lit_int (a :: r)) as [(?, ?)|]; [discriminate|]. destruct (parse_lit_float (a :: r)) as [(?, ?)|]; discriminate.
Qed.
Lemma same_quote x r2 : read_ok (39%N :: x) -> denotes (39%N :: x) = denotes r2 -> exists y, r2 = 39%N :: y.
Proof.
  intros (_ & k & Hk & _) H. pose proof Hk as Hk'. unfold lit_new in Hk'. cbn in Hk'. change (is_digit 39) with false in Hk'. destruct (quoted_char false x) as [(c, suf)|]; [|discriminate]. cbn in Hk'. injection Hk' as <-.
  unfold denotes in H. rewrite Hk in H. destruct (lit_new r2) as [k2|] eqn:E2; [|discriminate]. destruct k2; try discriminate. injection H as <-. eapply kchar_quote. exact E2.
Qed.
(** operators and spacing as the printer changes them *)
Definition printed (c : char) (g1 g2 : spacing) : Prop := loose c g1 g2 /\ c <> 39%N.
Lemma leaf_spacing_printed t : leaf_spacing printed t.
Proof.
  destruct t; cbn; try exact I; try (intros; split; [right; reflexivity|discriminate]).
  match goal with |- op_spacing _ ?op => induction op as [|c [|c2 op] IH]; cbn; [exact I|..] end.
  - intros H g. split; [right; reflexivity|exact H].
  - split; [intro H; split; [left; reflexivity|exact H]|exact IH].
Qed.
Lemma reprints_wf a b : reprints printed nothing a b -> List.length (puncts b) = List.length (puncts a) -> wf a -> Forall read_ok (lits a) -> wf b.
Proof.
  induction 1 as [|n sp a b H IH|c g1 g2 sp a b Hq H IH|r1 r2 sp a b Hd H1 H2 Hwr H IH|g1 r1 r2 sp1 sp2 sp a b Hq Hd H1 H2 Hwr Hs H IH|g1 r1 sp1 sp2 sp a b Hd Hs H IH|d sp i left o a b Hi IHi Hl H IH]; intros HL Hw Hr.
  - exact I.
  - rewrite wf_cons in *. destruct Hw as (W1 & _ & W2). split; [exact W1|]. split; [exact I|]. apply IH; [exact HL|exact W2|exact Hr].
  - rewrite wf_cons in *. destruct Hw as ((W1 & W1') & W2 & W3). destruct Hq as (Hq & H39). split; [split; [exact W1|congruence]|]. cbn in HL. split; [|apply IH; [lia|exact W3|exact Hr]].
    destruct g2; [|exact I]. assert (g1 = Joint) as -> by (destruct Hq; [congruence|discriminate]).
    inversion H; subst; cbn [joint_ok] in *; try contradiction; try (destruct W2; congruence); try exact W2.
    + destruct (N.eqb_spec c 39); [contradiction|]. destruct W2 as (x & ->). cbn in Hr. inversion Hr; subst. eapply same_quote; eassumption.
    + exfalso. match goal with H' : reprints _ _ _ _ |- _ => pose proof (reprints_puncts _ _ _ H') end. cbn in HL. lia.
  - rewrite wf_cons in *. destruct Hw as (W1 & _ & W2). cbn in Hr. inversion Hr; subst. split; [left; apply written_lexes; exact Hwr|]. split; [exact I|]. apply IH; assumption.
  - rewrite !wf_cons in *. destruct Hw as ((W1 & W1') & _ & _ & _ & W3). cbn in Hr. inversion Hr; subst. split; [split; [exact W1|discriminate]|]. split; [exact I|].
    split; [left; apply written_lexes; exact Hwr|]. split; [exact I|]. apply IH; [cbn in HL; lia|exact W3|assumption].
  - exfalso. apply reprints_puncts in H. cbn in HL. lia.
  - unfold nothing in Hl. subst left. rewrite app_nil_r in *. rewrite !puncts_group, !app_length in HL. apply reprints_puncts in H as H'. apply reprints_puncts in Hi as Hi'.
    rewrite wf_cons, wf_group in *. cbn [lits] in Hr. rewrite lits1_group in Hr. apply Forall_app in Hr as (R1 & R2). destruct Hw as ((W1 & W2) & _ & W3).
    split; [split; [exact W1|apply IHi; [lia|exact W2|exact R1]]|]. split; [exact I|]. apply IH; [lia|exact W3|exact R2].
Qed.

(** ** C38 *)
(** A value read from a text, written by any formatter at any nesting level and read again, is the
    same value up to locations, provided printing kept the operator characters with their spacing
    (C09 shows why this proviso is needed). *)
Lemma again K E t file src ts v ts' ind lvl file' : forallb valid_char src = true -> indentation ind ->
  (forall ts', List.length (puncts ts) = List.length (puncts ts') -> print v = Some ts' -> K ts' -> exists v', parses E t ts' v' /\ strip v' = strip v) ->
  lex file src = LOk ts -> parses E t ts v -> print v = Some ts' -> List.length (puncts ts) = List.length (puncts ts') -> K ts' ->
  exists v', from_str E t file' (text_with ind lvl ts') v' /\ strip v' = strip v.
Proof.
  intros Hv Hi HK H P Hp HL Hk. destruct (lex_out sane file src ts Hv H) as (Hw & _).
  assert (R : reprints printed nothing ts ts').
  { rewrite <- (visible_flat ts (wf_visible ts Hw)). eapply whole_reprints; [apply env_leaves_all, leaf_spacing_printed|apply leaves_all, leaf_spacing_printed|exact P|eapply lexed_lits_ok; eassumption|exact Hp]. }
  assert (Hw' : wf ts') by (eapply reprints_wf; [exact R|symmetry; exact HL|exact Hw|eapply lexed_read_ok; eassumption]).
  destruct (wf_relexes sane ind lvl ts' file' Hi Hw') as (l' & Hl & Eu). destruct (HK ts' HL Hp Hk) as (v1 & P1 & S1).
  symmetry in Eu. destruct (C40_spans_do_not_matter U E t ts' l' Eu) as (C & _). destruct (C v1 P1) as (v2 & P2 & S2).
  exists v2. split; [apply from_str_parses; eauto|congruence].
Qed.
Theorem C38_parse_format_parse E t file src ts v ts' ind lvl file' :
  forallb valid_char src = true -> indentation ind ->
  lex file src = LOk ts -> parses E t ts v -> print v = Some ts' -> puncts ts = puncts ts' ->
  exists v', from_str E t file' (text_with ind lvl ts') v' /\ strip v' = strip v.
Proof.
  intros Hv Hi H P Hp Hq. eapply (again (fun ts' => puncts ts = puncts ts')); try eassumption; [|congruence]. intros ts'' _ Hp' Hq'.
  destruct (lex_out sane file src ts Hv H) as (Hw & _). eapply C09_reparse_of_printed; try eassumption; [apply wf_visible; exact Hw|eapply lexed_lits_ok; eassumption].
Qed.
(** with [to_string] *)
Theorem C38_from_str_to_string E t file src v alternate out file' :
  forallb valid_char src = true -> from_str E t file src v -> to_string alternate v = Some out ->
  (forall ts ts', lex file src = LOk ts -> print v = Some ts' -> puncts ts = puncts ts') ->
  exists v', from_str E t file' out v' /\ strip v' = strip v.
Proof.
  intros Hv F D Hq. apply from_str_parses in F as (ts & H & P). unfold to_string in D. destruct (print v) as [ts'|] eqn:Hp; [|discriminate]. injection D as <-. rewrite to_text_with.
  eapply C38_parse_format_parse; eauto. destruct alternate; [exact I|]. repeat constructor.
Qed.
(** For grammars in which spacing decides nothing it is enough that no character is lost. *)
Theorem C38_spacing_free K E t file src v alternate out file' :
  env_leaves (leaf_free K) E -> leaves (leaf_free K) t ->
  forallb valid_char src = true -> from_str E t file src v -> to_string alternate v = Some out ->
  (forall ts ts', lex file src = LOk ts -> print v = Some ts' -> List.length (puncts ts) = List.length (puncts ts')) ->
  exists v', from_str E t file' out v' /\ strip v' = strip v.
Proof.
  intros HE Ht Hv F D Hq. apply from_str_parses in F as (ts & H & P). unfold to_string in D. destruct (print v) as [ts'|] eqn:Hp; [|discriminate]. injection D as <-. rewrite to_text_with.
  refine (again (fun _ => True) E t file src ts v ts' _ 0 file' Hv _ _ H P Hp (Hq ts ts' H eq_refl) I); [destruct alternate; [exact I|repeat constructor]|].
  intros ts'' HL Hp' _. destruct (lex_out sane file src ts Hv H) as (Hw & _). eapply C09_reparse_spacing_free; try eassumption; [apply wf_visible; exact Hw|eapply lexed_lits_ok; eassumption].
Qed.

(** ** Values not made by the parser *)
(** The text of every value that can be written down lexes to the tokens it prints. *)
Theorem C38_text_of_a_value_lexes v ts ind lvl file : writable v -> print v = Some ts -> indentation ind ->
  exists ts', lex file (text_with ind lvl ts) = LOk ts' /\ same_tokens ts' ts.
Proof. intros Hw Hp Hi. apply (wf_relexes sane ind lvl ts file Hi). eapply print_wf; eassumption. Qed.
(** In a grammar that passes the check of C10, [from_str] inverts [to_string] on every such value. *)
Theorem C38_to_string_from_str g t v alternate out file :
  ll1 g t = true -> typed (env_of g) t v -> writable v -> to_string alternate v = Some out ->
  exists v', from_str (env_of g) t file out v' /\ strip v' = strip v.
Proof.
  intros Hg Ht Hw D. unfold to_string in D. destruct (print v) as [ts|] eqn:Hp; [|discriminate]. injection D as <-. rewrite to_text_with.
  destruct (C38_text_of_a_value_lexes v ts (if alternate then None else Some (T "    ")) 0 file Hw Hp) as (ts' & Hl & E).
  { destruct alternate; [exact I|]. repeat constructor. }
  symmetry in E. destruct (C40_spans_do_not_matter U (env_of g) t ts ts' E) as (C & _). destruct (C v (C10_parse_of_print U g t v ts Hg Ht Hp)) as (v' & P & S).
  exists v'. split; [|exact S]. apply from_str_parses. exists ts'. split; [|exact P]. exact Hl.
Qed.
End Str.

(** ** Printing and formatting do not depend on locations *)
Section Stable.
Context {U : unicode}.
Notation bare := (option_map (map unspan)).
Lemma bare_oapp a b : bare (oapp a b) = oapp (bare a) (bare b).
Proof. destruct a, b; cbn; try reflexivity. rewrite map_app. reflexivity. Qed.
Lemma bare_op op : forall sps, map unspan (print_op op sps) = print_op op (map (fun _ => call_site) sps).
Proof.
  induction op as [|c op IH]; intros sps; [reflexivity|]. destruct sps as [|s sps]; [destruct op; reflexivity|]. destruct op as [|d op]; [reflexivity|].
  change (print_op (c :: d :: op) (s :: sps)) with (TPunct c Joint s :: print_op (d :: op) sps). cbn [map unspan]. rewrite IH. reflexivity.
Qed.
Lemma bare_push r s : map unspan (push_lit r s) = push_lit r call_site.
Proof. destruct (push_lit_shape r s) as [(x & -> & ->)|E]; [reflexivity|]. rewrite E. unfold push_lit in *. destruct r as [|c r]; [reflexivity|]. destruct (c =? 45)%N; [discriminate|reflexivity]. Qed.
Lemma bare_lit l s : bare (print_lit l s) = print_lit l call_site.
Proof.
  destruct l; cbn [print_lit]; try reflexivity; cbn [option_map].
  - destruct (lit_byte_repr b); [cbn [option_map]; rewrite bare_push; reflexivity|reflexivity].
  - rewrite bare_push. reflexivity.
  - rewrite bare_push. reflexivity.
  - destruct (float_show f); [cbn [option_map]; rewrite bare_push; reflexivity|reflexivity].
Qed.
Theorem print_strip v : bare (print v) = print (strip v).
Proof.
  assert (L : forall l, Forall (fun v => bare (print v) = print (strip v)) l -> bare (oconcat (map print l)) = oconcat (map print (map strip l))).
  { induction 1 as [|x l Hx Hl IH]; [reflexivity|]. cbn [map oconcat fold_right] in *. rewrite bare_oapp, Hx. unfold oconcat in IH. rewrite IH. reflexivity. }
  induction v as [n sp|k sp|op sps|l sp| | |x y IHx IHy|d sp x IHx|inner last IHi IHl|l IHl|l o r IH1 IH2 IH3|x IHx|l o r IH1 IH2 IH3|x IHx|x IHx|x IHx|l IHl|k l IHl] using val_ind'; cbn [print strip]; try reflexivity; auto.
  - cbn. unfold print_token. rewrite bare_op. reflexivity.
  - apply bare_lit.
  - rewrite bare_oapp, IHx, IHy. reflexivity.
  - rewrite <- IHx. destruct (print x); reflexivity.
  - rewrite bare_oapp. f_equal.
    + clear IHl. induction IHi as [|(x, y) l (Hx & Hy) Hl IH]; [reflexivity|]. cbn [map oconcat fold_right fst snd] in *. rewrite !bare_oapp, Hx, Hy. unfold oconcat in IH. rewrite IH. reflexivity.
    + destruct last as [x|]; [apply IHl; reflexivity|reflexivity].
  - rewrite !bare_oapp, IH1, IH2, IH3. reflexivity.
  - rewrite !bare_oapp, IH1, IH2, IH3. reflexivity.
Qed.
(** equal up to locations, equal as text *)
Theorem C38_same_value_same_text v w alternate : strip v = strip w -> to_string alternate v = to_string alternate w.
Proof.
  intro E. pose proof (print_strip v) as A. pose proof (print_strip w) as B. rewrite E in A. rewrite <- B in A. unfold to_string.
  destruct (print v) as [a|], (print w) as [b|]; try discriminate; [|reflexivity]. cbn in A |- *. injection A as A. rewrite !to_text_with. f_equal. apply unspan_text. exact A.
Qed.
End Stable.

(** Formatting a value read back from formatted text gives that text again. *)
Theorem C38_text_is_stable : forall (U : unicode), sane_tables U -> forall E t file src v alternate out file',
  forallb valid_char src = true -> from_str E t file src v -> to_string alternate v = Some out ->
  (forall ts ts', lex file src = LOk ts -> print v = Some ts' -> puncts ts = puncts ts') ->
  exists v', from_str E t file' out v' /\ to_string alternate v' = Some out.
Proof.
  intros U sane E t file src v alternate out file' Hv F D Hq. destruct (C38_from_str_to_string sane E t file src v alternate out file' Hv F D Hq) as (v' & F' & S).
  exists v'. split; [exact F'|]. rewrite <- D. apply C38_same_value_same_text. exact S.
Qed.
Print Assumptions C45_from_str_never_panics.
Print Assumptions C45_from_str_total.
Print Assumptions C38_parse_format_parse.
Print Assumptions C38_from_str_to_string.
Print Assumptions C38_spacing_free.
Print Assumptions C38_text_of_a_value_lexes.
Print Assumptions C38_to_string_from_str.
Print Assumptions C38_same_value_same_text.
Print Assumptions C38_text_is_stable.

(** ** Examples and limits *)
Local Existing Instance Examples.ascii_only.
Definition ex_text : text := T "x=f(0x1F,/* two */ y )".
Definition ex_out : text := T "x = f (31 , y)".
Example C38_ex : exists v, from_str GE (TyRef assign) 1 ex_text v /\ to_string true v = Some ex_out /\ forallb valid_char ex_text = true /\
  (forall ts ts', lex 1 ex_text = LOk ts -> print v = Some ts' -> puncts ts = puncts ts').
Proof.
  eexists. split; [exists 20; vm_compute; reflexivity|]. split; [vm_compute; reflexivity|]. split; [reflexivity|].
  intros ts ts' H1 H2. vm_compute in H1, H2. injection H1 as <-. injection H2 as <-. reflexivity.
Qed.
(** the value of C10's example, which no parser made, is one that can be written down *)
Lemma built_writable : writable built.
Proof.
  assert (W : forall c r, ident_start c = true -> forallb xid_continue r = true -> ident_ok (c :: r)).
  { intros c r H1 H2. left. exists c, r. split; [reflexivity|]. split; [exact H1|]. apply Forall_forall. apply forallb_forall. exact H2. }
  unfold built. cbn [writable]. repeat split; try (apply W; reflexivity); try (cbn; tauto); try discriminate; try (repeat constructor; fail); cbv; try discriminate; auto.
Qed.
Example C38_ex_built : exists out v', to_string false built = Some out /\ from_str (env_of lang) (TyPunctuated (TyRef 0) TyNotEof) 3 out v' /\ strip v' = strip built.
Proof.
  assert (D : exists out, to_string false built = Some out) by (eexists; vm_compute; reflexivity). destruct D as (out & D).
  destruct (C38_to_string_from_str ascii_sane lang _ built false out 3 C10_ex_check (proj1 C10_ex_built) built_writable D) as (v' & F & S). eauto.
Qed.
(** Without the proviso: the grammar of [C09_spacing_refuted] reads [+=;] and then the text it wrote differently. *)
Theorem C38_spacing_refuted : exists src v out v', from_str amb (TyRef 0) 1 src v /\ to_string true v = Some out /\ from_str amb (TyRef 0) 2 out v' /\ strip v' <> strip v.
Proof.
  exists (T "+=;"). eexists. eexists. eexists. split; [exists 9; vm_compute; reflexivity|]. split; [vm_compute; reflexivity|]. split; [exists 9; vm_compute; reflexivity|]. vm_compute. discriminate.
Qed.
Theorem C38_minus_zero_refuted : exists src v out v', from_str GE TyAnyLit 1 src v /\ to_string true v = Some out /\ from_str GE TyAnyLit 2 out v' /\ strip v' <> strip v.
Proof.
  exists (T "-0"). eexists. eexists. eexists. split; [exists 9; vm_compute; reflexivity|]. split; [vm_compute; reflexivity|]. split; [exists 9; vm_compute; reflexivity|]. vm_compute. discriminate.
Qed.

Print Assumptions C45_literals_of_a_text_are_readable.
Print Assumptions C38_spacing_refuted.
Print Assumptions C38_minus_zero_refuted.
