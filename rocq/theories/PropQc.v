(** * The property of the test-suite's quickcheck test (parsel/tests/token_fmt_qc.rs), for all streams of its generator (C30) *)
From Verif Require Import Base Float Literal Syn Ast LitSpec Reprint Examples Fmt FmtFacts Lexer LexFacts LexWf LexOut PropLex LexPrint Writable TypedWritable.
Local Open Scope nat_scope.

(** ** The generator *)
(** the characters of [Token::Punct] (token_fmt_qc.rs:54-60) and [MULTICHAR_OPS] (87-92) *)
Definition qc_puncts : list char := T "+-*/%|^&!~#$=?<>,;.@".
Definition qc_ops : list text := [T "=="; T "!="; T "<="; T ">="; T "+="; T "-="; T "*="; T "/="; T "%="; T "&="; T "|="; T "^="; T "<<"; T ">>"; T "&&"; T "||"].
Definition qc_idents : list text := [T "a"; T "_"; T "_foo"; T "multiple_words"; T "trait"].
(** token_fmt_qc.rs:101-108: pairs of puncts in disjoint chunks of two tokens *)
Fixpoint join_chunks (l : list tt) : list tt :=
  match l with
  | TPunct c g s :: TPunct d h s' :: r => TPunct c (if text_mem [c; d] qc_ops then Joint else g) s :: TPunct d h s' :: join_chunks r
  | x :: y :: r => x :: y :: join_chunks r
  | _ => l
  end.
(** [FromIterator<TokenTree>] of [proc_macro2::TokenStream]: the sign of a negative literal becomes a token *)
Definition collect (l : list tt) : list tt := flat_map (fun x => match x with TLit r s => push_lit r s | _ => [x] end) l.
Section Generator.
Context {U : unicode}.
(** the literal constructors of token_fmt_qc.rs:37-51; [lit_valid] gives the ranges of [i64], [char] and [u8] *)
Definition qc_literal (l : lit) (r : text) : Prop :=
  lit_valid l /\
  match l with
  | LInt z => r = show_int z
  | LFloat f => float_show f = Some r
  | LChar c => r = show_char c
  | LStr s => r = show_str s
  | LByteStr s => r = show_byte_str s
  | _ => False
  end.
(** [TokenTreeGen::arbitrary] (token_fmt_qc.rs:12-78), [TokenStreamGen::arbitrary] (84-113) *)
Inductive qc_tree : tt -> Prop :=
| qc_lit l r s : qc_literal l r -> qc_tree (TLit r s)
| qc_ident n s : In n qc_idents -> qc_tree (TIdent n s)
| qc_punct c s : In c qc_puncts -> qc_tree (TPunct c Alone s)
| qc_group d s l : In d [DParen; DBracket; DBrace] -> qc_stream l -> qc_tree (TGroup d s l)
with qc_stream : list tt -> Prop :=
| qc_collect toks : qc_trees toks -> List.length toks < 16 -> qc_stream (collect (join_chunks toks))
with qc_trees : list tt -> Prop :=
| qc_nil : qc_trees []
| qc_cons x l : qc_tree x -> qc_trees l -> qc_trees (x :: l).
Scheme qc_tree_min := Minimality for qc_tree Sort Prop with qc_stream_min := Minimality for qc_stream Sort Prop with qc_trees_min := Minimality for qc_trees Sort Prop.
Combined Scheme qc_mut from qc_tree_min, qc_stream_min, qc_trees_min.

End Generator.
Section Qc.
Context {U : unicode} (sane : sane_tables U).
(** a generated tree, before [collect] *)
Definition good (x : tt) : Prop :=
  match x with
  | TLit r s => exists l, lit_valid l /\ print_lit l s = Some (push_lit r s)
  | TPunct c g _ => g = Alone /\ In c qc_puncts
  | _ => wf_tree x
  end.
Lemma qc_lit_good l r s : qc_literal l r -> good (TLit r s).
Proof.
  intros (Hv & H). exists l. split; [exact Hv|]. destruct l; try (destruct H; fail); cbn [print_lit]; try (rewrite H; reflexivity).
Qed.
Lemma qc_ident_good n : In n qc_idents -> ident_ok n.
Proof.
  intro H. apply ascii_word_ok. revert n H. apply forallb_forall. reflexivity.
Qed.
Lemma qc_punct_ok c : In c qc_puncts -> In c punct_chars /\ c <> 39%N.
Proof.
  intro H. assert (K : existsb (N.eqb c) punct_chars && negb (N.eqb c 39) = true) by (revert c H; apply forallb_forall; reflexivity).
  apply andb_true_iff in K as (K1 & K2). split; [|intros ->; discriminate]. apply existsb_exists in K1 as (d & Hd & E). apply N.eqb_eq in E as ->. exact Hd.
Qed.
Lemma collect_good l : Forall good l -> wf (collect (join_chunks l)).
Proof.
  assert (One : forall x r, good x -> wf r -> wf (collect [x] ++ r)).
  { intros x r Hx Hr. unfold collect. cbn [flat_map]. rewrite app_nil_r. destruct x as [n s|c g s|q s|d s i]; cbn [good] in Hx.
    - cbn [app]. rewrite wf_cons. auto.
    - destruct Hx as (-> & Hx). cbn [app]. rewrite wf_cons. destruct (qc_punct_ok c Hx) as (H1 & H2). repeat split; auto. intro; contradiction.
    - destruct Hx as (l0 & Hv & Hp). apply wf_app; [exact (print_lit_wf l0 s _ Hv Hp)|exact Hr].
    - cbn [app]. rewrite wf_cons. auto. }
  assert (App : forall a b, collect (a ++ b) = collect a ++ collect b) by (intros; apply flat_map_app).
  intro H. remember (List.length l) as n eqn:En. assert (Hn : List.length l <= n) by lia. clear En. revert l H Hn.
  induction n as [|n IH]; intros l H Hn; [destruct l; [exact I|cbn in Hn; lia]|]. destruct l as [|x [|y r]]; [exact I| |].
  - inversion H; subst. replace (join_chunks [x]) with [x] by (destruct x; reflexivity). rewrite <- (app_nil_r (collect [x])). apply One; [assumption|exact I].
  - inversion H as [|? ? Hx H']; subst. inversion H' as [|? ? Hy Hr]; subst. cbn [List.length] in Hn. specialize (IH r Hr ltac:(lia)).
    assert (Gen : join_chunks (x :: y :: r) = x :: y :: join_chunks r -> wf (collect (join_chunks (x :: y :: r)))).
    { intros ->. change (x :: y :: join_chunks r) with ([x] ++ [y] ++ join_chunks r). rewrite !App. apply One; [exact Hx|]. apply One; [exact Hy|exact IH]. }
    destruct x as [n1 s1|c g s1|q1 s1|d1 s1 i1]; try (apply Gen; destruct y; reflexivity). destruct y as [n2 s2|d h s2|q2 s2|d2 s2 i2]; try (apply Gen; reflexivity).
    destruct (text_mem [c; d] qc_ops) eqn:Eo; [|apply Gen; cbn [join_chunks]; rewrite Eo; reflexivity]. cbn [join_chunks]. rewrite Eo.
    change (collect (TPunct c Joint s1 :: TPunct d h s2 :: join_chunks r)) with (TPunct c Joint s1 :: collect [TPunct d h s2] ++ collect (join_chunks r)).
    rewrite wf_cons. destruct Hx as (-> & Hx). destruct (qc_punct_ok c Hx) as (H1 & H2). split; [split; [exact H1|intro; contradiction]|]. split; [|apply One; assumption].
    cbn [collect flat_map app joint_ok]. split; [exact H2|]. intros ->. cbn in Eo. destruct d as [|p]; [discriminate Eo|]. split; intro F; injection F as ->; discriminate Eo.
Qed.
Lemma qc_good : (forall x, qc_tree x -> good x) /\ (forall l, qc_stream l -> wf l) /\ (forall l, qc_trees l -> Forall good l).
Proof.
  apply (qc_mut (fun x => good x) (fun l => wf l) (fun l => Forall good l)).
  - exact qc_lit_good.
  - intros n s H. exact (qc_ident_good n H).
  - intros c s H. cbn. auto.
  - intros d s l Hd _ Hl. cbn [good]. rewrite wf_group. split; [|exact Hl]. intros ->. destruct Hd as [F|[F|[F|[]]]]; discriminate F.
  - intros toks _ H _. apply collect_good. exact H.
  - constructor.
  - intros x l _ Hx _ Hl. constructor; assumption.
Qed.
(** [parse_pretty_printed_is_identity] (token_fmt_qc.rs:115-133): for every generated stream the pretty-printed text lexes, to a
    stream that differs in spans only, so with the same [to_string] (and the same for the compact layout). *)
Theorem C30_quickcheck_property alternate file stream : qc_stream stream ->
  exists parsed, lex file (to_text alternate stream) = LOk parsed /\ same_tokens parsed stream /\
    forall (to_string : list tt -> text), (forall a b, same_tokens a b -> to_string a = to_string b) -> to_string stream = to_string parsed.
Proof.
  intro H. apply (proj1 (proj2 qc_good)) in H. rewrite to_text_with. destruct (wf_relexes sane (if alternate then None else Some [32; 32; 32; 32]%N) 0 stream file) as (l' & H1 & H2).
  - destruct alternate; [exact I|]. cbn. repeat constructor.
  - exact H.
  - exists l'. split; [exact H1|]. split; [exact H2|]. intros f Hf. apply Hf. unfold same_tokens. symmetry. exact H2.
Qed.
End Qc.
Print Assumptions C30_quickcheck_property.
(** the stream of the tokens [< =], a negative number and a group around a word *)
Section WithTables.
Local Existing Instance Examples.ascii_only.
Example C30_ex_quickcheck : exists out parsed,
  qc_stream [TPunct 60 Joint call_site; TPunct 61 Alone call_site; TPunct 45 Alone call_site; TLit (T "5") call_site; TGroup DBrace call_site [TIdent (T "trait") call_site]] /\
  to_text false [TPunct 60 Joint call_site; TPunct 61 Alone call_site; TPunct 45 Alone call_site; TLit (T "5") call_site; TGroup DBrace call_site [TIdent (T "trait") call_site]] = out /\
  lex 1 out = LOk parsed /\ List.length parsed = 5.
Proof.
  eexists. eexists. split; [|split; [reflexivity|split; [vm_compute; reflexivity|reflexivity]]].
  apply (qc_collect [TPunct 60 Alone call_site; TPunct 61 Alone call_site; TLit (T "-5") call_site; TGroup DBrace call_site [TIdent (T "trait") call_site]]); [|cbn; lia].
  constructor; [apply qc_punct; vm_compute; tauto|]. constructor; [apply qc_punct; vm_compute; tauto|]. constructor; [apply (qc_lit (LInt (-5))); split; [vm_compute; split; discriminate|reflexivity]|].
  constructor; [|constructor]. apply qc_group; [cbn; tauto|]. apply (qc_collect [TIdent (T "trait") call_site]); [|cbn; lia]. constructor; [|constructor]. apply qc_ident. cbn. tauto.
Qed.
End WithTables.
