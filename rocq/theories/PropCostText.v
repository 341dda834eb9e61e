(** * PropCostText: the work of parsing a text (C55). *)
From Verif Require Import Base Float Literal Syn Ast Derive Grammar Spec TermCheck Cost Depth LinearCheck PropCost Lexer PropSpan LexFacts LexWf LexOut LexRun Usage Examples.
Local Open Scope nat_scope.

(** ** In terms of the text: a text of n characters has at most 2n tokens (a doc comment `//!` of three characters has six). *)
Lemma doc_length {U : unicode} inner t c rest : doc_text inner t c rest -> 3 <= List.length c.
Proof.
  intros (_ & [(_ & cr & u & _ & -> & _ & ->)|(u & -> & _ & _ & ->)]); rewrite !app_length; cbn; lia.
Qed.
Lemma placed_size {U : unicode} file src lo hi l : placed file src lo hi l -> ts_size l <= 2 * (hi - lo).
Proof.
  induction 1 as [lo hi H1 H2|lo a b hi t r H1 H2 H3 H4 H5 H6 H7 IH|lo a b hi d o c sp l r H1 H1' H2 H3 H4 H5 H6 H7 H8 IH8 H9 IH|lo a b hi inner t sp r H1 H2 H3 H4 H5 H6 IH].
  - cbn. lia.
  - cbn [ts_size]. assert (tt_size t = 1) as -> by (destruct t; reflexivity || contradiction). pose proof (placed_le _ _ _ _ _ H7). lia.
  - cbn [ts_size]. rewrite tt_size_group. pose proof (placed_le _ _ _ _ _ H9). pose proof (placed_le _ _ _ _ _ H8). lia.
  - rewrite ts_size_app. pose proof (placed_le _ _ _ _ _ H6). apply doc_length in H5. assert (L : List.length (substring src a b) <= b - a) by (unfold substring; rewrite firstn_length; lia).
    assert (ts_size (doc_tokens inner t sp) <= 6) by (destruct inner; cbn; lia). lia.
Qed.
Theorem C55_text_depth_linear : forall (U : unicode), sane_tables U -> forall g t, terminating g t = true -> exists k,
  forall file src ts, forallb valid_char src = true -> lex file src = LOk ts -> exists c, costs (env_of g) t ts c /\ depth c <= k * (List.length src + 1).
Proof.
  intros U sane g t Ht. exists (2 * factor g t). intros file src ts Hv Hl. destruct (lex_out sane file src ts Hv Hl) as (_ & Hp). apply placed_size in Hp.
  destruct (C55_depth_linear U g t Ht ts) as (c & Hc & Hd). exists c. split; [exact Hc|]. nia.
Qed.
Theorem C55_text_calls_linear : forall g t, predictive g t = true -> exists k, forall (U : unicode), sane_tables U ->
  forall file src ts c, forallb valid_char src = true -> lex file src = LOk ts -> costs (env_of g) t ts c -> calls c <= k * (List.length src + 1).
Proof.
  intros g t Hp. destruct (C55_calls_linear g t Hp) as (k & H). exists (2 * k). intros U sane file src ts c Hv Hl Hc. destruct (lex_out sane file src ts Hv Hl) as (_ & Hq). apply placed_size in Hq.
  apply H in Hc. nia.
Qed.
(** JSON text: met *)
Section WithTables.
Local Existing Instance ascii_only.
Example C55_text_ex : predictive (g_defs json) (g_root json) = true /\ terminating (g_defs json) (g_root json) = true /\
  match lex 1 (T "[1, {""a"": null}]") with LOk ts => ts_size ts = 7 | LErr _ => False end.
Proof. repeat split; vm_compute; reflexivity. Qed.
End WithTables.
Print Assumptions C55_text_depth_linear.
Print Assumptions C55_text_calls_linear.
