(** * C58: how the source text is laid out does not matter *)
From Verif Require Import Base Float Literal Syn Ast Derive Grammar Spec LitSpec LiteralFacts Reprint LitDenote
  SynFacts Lawful Mono Combinators GrammarBeh Sound Sim RoundFacts Examples PropRoundtrip Term TermCheck PropTerm NoPanic Typed LL1 LL1Facts LL1Check PropLL1
  Fmt FmtFacts Lexer Offsets PropSpan LexFacts LexWf LexOut LexRun PropLex LexPrint LexLit Writable PropStr Laid.
Local Open Scope nat_scope.

Section C58.
Context {U : unicode} (sane : sane_tables U).
Lemma bom_not_blank g x : blank g x -> hd_error x <> Some 65279%N -> hd_error (g ++ x) <> Some 65279%N.
Proof.
  intros H Hx. destruct H as [|c g x Hc H|c g x H1 H2 H3|c g x H1 H2 H3]; [exact Hx| | |]; cbn [app hd_error]; try discriminate.
  intro E. injection E as ->. unfold lex_white, is_white in Hc. cbn in Hc. destruct sane as (_ & _ & _ & _ & F). rewrite F in Hc. discriminate.
Qed.
Lemma laid_head l s rest : laid l s rest -> wf l -> hd_error rest <> Some 65279%N -> hd_error s <> Some 65279%N.
Proof.
  intros H Hw Hr. destruct H as [g rest Hb|g t s r rest Ht Hb Hm H|g d o c sp l inside s r rest Hd Hb He H1 H2|g inner t sp s r rest Hb H1 H2 H3 H4 H|g inner t sp s r rest Hb H1 H2 H3 H].
  - apply bom_not_blank; assumption.
  - apply bom_not_blank; [exact Hb|]. rewrite wf_cons in Hw. destruct Hw as (Hw & _). destruct t as [n sp|c k sp|n sp|d sp l]; [| | |destruct Ht]; cbn [leaf_text].
    + destruct (ident_ok_head n Hw) as (c & x & -> & Hc & _). cbn [app hd_error]. intro E. injection E as ->. unfold ident_start in Hc. cbn in Hc. destruct sane as (_ & _ & _ & F & _). congruence.
    + cbn [app hd_error]. intro E. injection E as ->. destruct Hw as (Hw & _). cbn in Hw. intuition discriminate.
    + destruct Hw as [Hw| ->]; [|discriminate]. destruct (literal_first _ _ Hw) as (c & x & -> & Hc). cbn [app hd_error]. intro E. injection E as ->. destruct Hc as [Hc|Hc]; [cbn in Hc; intuition discriminate|discriminate].
  - apply bom_not_blank; [exact Hb|]. destruct d; cbn in Hd; try discriminate Hd; injection Hd as <- <-; discriminate.
  - apply bom_not_blank; [exact Hb|]. destruct inner; discriminate.
  - apply bom_not_blank; [exact Hb|]. destruct inner; discriminate.
Qed.
(** Every way of writing a token stream is read as that stream, with or without a byte order mark. *)
Theorem C58_every_layout_lexes l s file : wf l -> laid l s [] ->
  (exists l', lex file s = LOk l' /\ same_tokens l' l) /\ (exists l', lex file (65279%N :: s) = LOk l' /\ same_tokens l' l).
Proof.
  intros Hw H. assert (St : stays []) by (apply solid_stays; left; reflexivity).
  assert (R : forall src, exists l', run file src (LS s [] []) = LOk l' /\ same_tokens l' l).
  { intro src. destruct (laid_runs sane file src l s [] H Hw St [] []) as (l' & E & ->). exists l'. split; [|exact E]. cbn [app]. rewrite run_step. reflexivity. }
  split.
  - rewrite lex_run. replace (no_bom s) with s; [apply R|]. assert (Hh : hd_error s <> Some 65279%N) by (apply (laid_head l s [] H Hw); discriminate).
    unfold no_bom. destruct s as [|c r]; [reflexivity|]. destruct (N.eqb_spec c 65279) as [->|_]; [exfalso; apply Hh; reflexivity|reflexivity].
  - rewrite lex_run. apply R.
Qed.
(** A text that is read, written with other gaps, is read as the same tokens. *)
Theorem C58_layout_keeps_the_tokens file src ts s file' : forallb valid_char src = true -> lex file src = LOk ts -> laid ts s [] ->
  exists ts', lex file' s = LOk ts' /\ same_tokens ts' ts.
Proof. intros Hv H L. apply (C58_every_layout_lexes ts s file' (proj1 (lex_out sane file src ts Hv H)) L). Qed.
(** ... so every parser gives the same value, up to source locations, or an error in both cases. *)
Theorem C58_layout_does_not_matter E t file src ts s file' : forallb valid_char src = true -> lex file src = LOk ts -> laid ts s [] ->
  (forall v, from_str E t file src v -> exists v', from_str E t file' s v' /\ strip v' = strip v) /\
  (forall v, from_str E t file' s v -> exists v', from_str E t file src v' /\ strip v' = strip v) /\
  (from_str_err E t file src <-> from_str_err E t file' s).
Proof.
  intros Hv L H. destruct (C58_layout_keeps_the_tokens file src ts s file' Hv L H) as (ts' & L' & S).
  destruct (C40_spans_do_not_matter U E t ts ts' (eq_sym S)) as (A & B). destruct (C40_spans_do_not_matter U E t ts' ts S) as (A' & B'). split; [|split].
  - intros v F. apply (from_str_parses E t file src v) in F as (ts1 & L1 & P). assert (ts1 = ts) as -> by congruence. destruct (A v P) as (v' & P' & Sv). exists v'. split; [apply from_str_parses; eauto|exact Sv].
  - intros v F. apply (from_str_parses E t file' s v) in F as (ts1 & L1 & P). assert (ts1 = ts') as -> by congruence. destruct (A' v P) as (v' & P' & Sv). exists v'. split; [apply from_str_parses; eauto|exact Sv].
  - unfold from_str_err, parse_str. rewrite L, L'. split; [exact B|exact B'].
Qed.

(** Every stream of tokens of a text, and every other one satisfying [wf], can be written: with a
    space after each token that is not joint. *)
Fixpoint spaced_tree (t : tt) : text :=
  match t with
  | TGroup d _ l => match delimiters d with
      | Some (o, c) => o :: 32%N :: (fix go l := match l with [] => [] | x :: r => spaced_tree x ++ go r end) l ++ [c; 32%N]
      | None => [] end
  | TPunct c Joint _ => [c]
  | _ => leaf_text t ++ [32%N]
  end.
Definition spaced : list tt -> text := fix go l := match l with [] => [] | x :: r => spaced_tree x ++ go r end.
Lemma laid_space l s rest : laid l s rest -> laid l (32%N :: s) rest.
Proof.
  intro H. assert (W : forall g x, blank g x -> blank (32%N :: g) x) by (intros; apply b_white; [reflexivity|assumption]).
  destruct H as [g rest Hb|g t s r rest Ht Hb Hm H|g d o c sp l inside s r rest Hd Hb He H1 H2|g inner t sp s r rest Hb H1 H2 H3 H4 H|g inner t sp s r rest Hb H1 H2 H3 H].
  - apply (l_end (32%N :: g)); auto.
  - apply (l_leaf (32%N :: g)); auto.
  - apply (l_group (32%N :: g) d o c sp l inside s); auto.
  - apply (l_doc_line (32%N :: g)); auto.
  - apply (l_doc_block (32%N :: g)); auto.
Qed.
Lemma follow_space t s : match t with TPunct _ Joint _ => False | _ => True end -> may_follow t (32%N :: s).
Proof. destruct t as [n sp|c [|] sp|n sp|d sp l]; cbn; try tauto; intros _; [split; [reflexivity|intuition discriminate]|]. left. intuition discriminate. Qed.
Lemma spaced_laid l : Forall (fun t => match t with TGroup _ _ inner => forall rest, wf inner -> laid inner (spaced inner ++ rest) rest | _ => True end) l ->
  forall rest, wf l -> laid l (spaced l ++ rest) rest.
Proof.
  induction 1 as [|t r Ht Hr IH]; intros rest Hw; [apply (l_end []); constructor|]. rewrite wf_cons in Hw. destruct Hw as (Hwt & Hj & Hwr). specialize (IH rest Hwr).
  cbn [spaced]. fold spaced. rewrite <- app_assoc. destruct t as [n sp|c [|] sp|n sp|d sp l].
  - cbn [spaced_tree leaf_text]. rewrite <- app_assoc. cbn [app]. apply (l_leaf [] (TIdent n sp) (32%N :: spaced r ++ rest)); [exact I|constructor|apply follow_space; exact I|apply laid_space; exact IH].
  - cbn [spaced_tree app]. apply (l_leaf [] (TPunct c Joint sp) (spaced r ++ rest)); [exact I|constructor| |exact IH].
    destruct r as [|x r]; [destruct Hj|]. rewrite wf_cons in Hwr. destruct Hwr as (Hx & Hj2 & _). cbn [spaced]. fold spaced.
    destruct x as [n2 s2|c2 g2 s2|n2 s2|d2 s2 l2]; cbn [joint_ok] in Hj; [| | |destruct Hj].
    + destruct (ident_leaf sane n2 [32%N] Hx) as (_ & So & _); [split; [reflexivity|repeat split; discriminate]|]. cbn [spaced_tree leaf_text]. destruct (ident_ok_head n2 Hx) as (a & b & -> & Ha & _). cbn [app may_follow] in *.
      split; [apply So|]. intros (-> & _). discriminate Ha.
    + cbn [app may_follow]. assert (E : spaced_tree (TPunct c2 g2 s2) = c2 :: match g2 with Joint => [] | Alone => [32%N] end) by (destruct g2; reflexivity). rewrite E. cbn [app may_follow].
      split; [apply punct_facts; apply Hx|]. intros (-> & F). destruct g2; [|cbn in F; destruct F; discriminate]. cbn [app] in F.
      destruct r as [|y r]; [destruct Hj2|]. destruct y as [n3 s3|c3 g3 s3|n3 s3|d3 s3 l3]; cbn [joint_ok N.eqb Pos.eqb] in Hj2; [discriminate| | |destruct Hj2].
      * destruct (proj2 Hj2 eq_refl) as (F1 & F2). destruct g3; cbn in F; destruct F as [F|F]; injection F as F; congruence.
      * destruct Hj2 as (r' & ->). cbn in F. destruct F; discriminate.
    + cbn [spaced_tree leaf_text]. destruct (lit_leaf n2 [32%N] Hx ltac:(reflexivity) ltac:(left; split; discriminate)) as (_ & So & _).
      destruct (n2 ++ [32%N]) as [|a q] eqn:Eq; [destruct Hx as [Hx| ->]; [apply literal_first in Hx as (? & ? & -> & _)|]; discriminate|]. cbn [app may_follow]. split; [apply So|].
      intros (-> & F). destruct So as (_ & So). specialize (So eq_refl). destruct Hx as [Hx| ->]; [|discriminate Eq]. apply literal_first in Hx as (c1 & t1 & -> & Hc). injection Eq as -> _. destruct Hc as [Hc|Hc]; [cbn in Hc; intuition discriminate|discriminate].
  - cbn [spaced_tree leaf_text]. rewrite <- app_assoc. cbn [app]. apply (l_leaf [] (TPunct c Alone sp) (32%N :: spaced r ++ rest)); [exact I|constructor|apply follow_space; exact I|apply laid_space; exact IH].
  - cbn [spaced_tree leaf_text]. rewrite <- app_assoc. cbn [app]. apply (l_leaf [] (TLit n sp) (32%N :: spaced r ++ rest)); [exact I|constructor|apply follow_space; exact I|apply laid_space; exact IH].
  - rewrite wf_group in Hwt. destruct Hwt as (Hd & Hl). destruct (delimiters_some d Hd) as (o & c & E). cbn [spaced_tree]. rewrite E. fold spaced.
    replace ((o :: 32%N :: spaced l ++ [c; 32%N]) ++ spaced r ++ rest) with ([] ++ o :: 32%N :: spaced l ++ c :: 32%N :: spaced r ++ rest) by (cbn [app]; rewrite <- app_assoc; reflexivity).
    apply (l_group [] d o c sp l _ (32%N :: spaced r ++ rest)); [exact E|constructor|intros (_ & q & F); discriminate|apply laid_space, Ht; exact Hl|apply laid_space; exact IH].
Qed.
Theorem C58_every_stream_can_be_written l : wf l -> laid l (spaced l) [].
Proof.
  intro H. assert (A : forall l, Forall (fun t => match t with TGroup _ _ inner => forall rest, wf inner -> laid inner (spaced inner ++ rest) rest | _ => True end) l).
  { intro x. apply Forall_forall. intros t _. induction t as [n s|c k s|n s|d s l' IH] using tt_ind'; try exact I. apply spaced_laid. exact IH. }
  rewrite <- (app_nil_r (spaced l)). apply spaced_laid; [apply A|exact H].
Qed.
End C58.
Print Assumptions C58_every_layout_lexes.
Print Assumptions C58_layout_keeps_the_tokens.
Print Assumptions C58_layout_does_not_matter.
Print Assumptions C58_every_stream_can_be_written.

(** ** Examples and limits *)
Section WithTables.
Local Existing Instance ascii_only.
(** A call and a sum without a space, and the same over several lines with comments. *)
Definition tight_src : text := T "f(0x1F,y)+1".
Definition wide_src : text := T "/* a /* nested */ comment */ f (" ++ [9; 10]%N ++ T "0x1F , // the first" ++ [10%N] ++ T " y" ++ [13; 10]%N ++ T ") +/**/1 ".
Example C58_ex : exists ts, lex 1 tight_src = LOk ts /\ laid ts tight_src [] /\ laid ts wide_src [].
Proof.
  assert (B : forall g x, forallb (fun c => lex_white c) g = true -> blank g x).
  { induction g as [|c g IH]; intros x H; [constructor|]. cbn in H. apply andb_true_iff in H as (H1 & H2). apply b_white; auto. }
  assert (Cl : forall t r, ~ In 42%N t -> ~ In 47%N t -> closes 1 r -> closes 1 (t ++ r) /\ closes 2 (T "*/" ++ t ++ r)).
  { intros t r H1 H2 Hr. assert (X : closes 1 (t ++ r)).
    { induction t as [|c t IH]; [exact Hr|]. cbn [app]. apply cl_char.
      - apply IH; intro F; [apply H1|apply H2]; right; exact F.
      - intros (-> & _). apply H2. left. reflexivity.
      - intros (-> & _). apply H1. left. reflexivity. }
    split; [exact X|]. apply cl_close. exact X. }
  eexists. split; [vm_compute; reflexivity|]. split.
  - unfold tight_src. cbn [T app N_of_ascii].
    refine (l_leaf [] (TIdent (T "f") _) _ _ _ I (b_nil _) _ _); [split; [reflexivity|cbn; intuition discriminate]|].
    refine (l_group [] DParen 40%N 41%N _ _ _ (T "+1") _ _ eq_refl (b_nil _) _ _ _); [intros (_ & q & F); discriminate F| |].
    + refine (l_leaf [] (TLit (T "0x1F") _) _ _ _ I (b_nil _) _ _); [right; split; [cbn; tauto|]; split; [cbn; intuition discriminate|]; intros _ _; split; discriminate|].
      refine (l_leaf [] (TPunct 44 Alone _) _ _ _ I (b_nil _) _ _); [left; cbn; intuition discriminate|].
      refine (l_leaf [] (TIdent (T "y") _) _ _ _ I (b_nil _) _ _); [split; [reflexivity|cbn; intuition discriminate]|].
      exact (l_end [] _ (b_nil _)).
    + refine (l_leaf [] (TPunct 43 Alone _) _ _ _ I (b_nil _) _ _); [left; cbn; intuition discriminate|].
      refine (l_leaf [] (TLit (T "1") _) [] _ _ I (b_nil _) I _). exact (l_end [] _ (b_nil _)).
  - unfold wide_src.
    refine (l_leaf (T "/* a /* nested */ comment */ ") (TIdent (T "f") _) _ _ _ I _ _ _).
    { apply (b_block (T " a /* nested */ comment */") [32%N]); [|split; [discriminate|intros (u & E & _); discriminate E]|apply B; reflexivity].
      apply (Cl (T " a ") (T "/* nested */ comment */")); [cbn; intuition discriminate|cbn; intuition discriminate|]. apply (cl_open 1 (T " nested */ comment */")).
      cut (closes 2 (T " nested " ++ T "*/" ++ T " comment " ++ T "*/")); [exact (fun x => x)|].
      repeat (apply cl_char; [|intros (F & _); discriminate F|intros (F & _); discriminate F]). apply (Cl (T " comment ") (T "*/")); [cbn; intuition discriminate|cbn; intuition discriminate|constructor]. }
    { split; [reflexivity|cbn; intuition discriminate]. }
    refine (l_group [32%N] DParen 40%N 41%N _ _ _ (T " +/**/1 ") _ _ eq_refl (B [32%N] _ eq_refl) _ _ _); [intros (_ & q & F); discriminate F| |].
    + refine (l_leaf [9; 10]%N (TLit (T "0x1F") _) _ _ _ I (B [9; 10]%N _ eq_refl) _ _); [left; cbn; tauto|].
      refine (l_leaf [32%N] (TPunct 44 Alone _) _ _ _ I (B [32%N] _ eq_refl) _ _); [left; cbn; intuition discriminate|].
      refine (l_leaf (T " // the first" ++ [10; 32]%N) (TIdent (T "y") _) _ _ _ I _ _ _).
      { apply b_white; [reflexivity|]. apply (b_line (T " the first") [10; 32]%N); [|split; [discriminate|intros (u & E & _); discriminate E]|apply B; reflexivity].
        split; [eexists; split; [reflexivity|cbn; intuition discriminate]|reflexivity]. }
      { split; [reflexivity|cbn; intuition discriminate]. }
      exact (l_end [13; 10]%N _ (B [13; 10]%N _ eq_refl)).
    + refine (l_leaf [32%N] (TPunct 43 Alone _) _ _ _ I (B [32%N] _ eq_refl) _ _); [right; cbn; split; [discriminate|]; auto|].
      refine (l_leaf (T "/**/") (TLit (T "1") _) _ _ _ I _ _ _); [|left; cbn; tauto|exact (l_end [32%N] _ (B [32%N] _ eq_refl))].
      apply (b_block (T "*/") []); [constructor|split; [discriminate|]|constructor]. intros (u & E & _ & F). injection E as <-. apply F. reflexivity.
Qed.
(** a doc comment is the attribute it stands for *)
Example C58_ex_doc : exists ts ts', lex 1 (T "/// two words" ++ [10%N] ++ T "x") = LOk ts /\ lex 2 (T "#[doc = "" two words""] x") = LOk ts' /\ same_tokens ts ts'.
Proof. eexists. eexists. split; [vm_compute; reflexivity|]. split; vm_compute; reflexivity. Qed.
(** Separating two tokens of a text is not always a layout of the same tokens: the dot between the
    number and the word becomes part of the number, and two joint characters are no operator any more. *)
Theorem C58_separating_tokens_refuted :
  (exists ts ts', lex 1 (T "1.foo") = LOk ts /\ lex 1 (T "1. foo") = LOk ts' /\
     map leaf_text ts = [T "1"; T "."; T "foo"] /\ map leaf_text ts' = [T "1."; T "foo"]) /\
  (exists ts ts', lex 1 (T "a+=b") = LOk ts /\ lex 1 (T "a+ =b") = LOk ts' /\ map leaf_text ts = map leaf_text ts' /\ ~ same_tokens ts ts').
Proof.
  split; (eexists; eexists; split; [vm_compute; reflexivity|]; split; [vm_compute; reflexivity|]; split; [reflexivity|]); [reflexivity|]. intro F. vm_compute in F. discriminate F.
Qed.
End WithTables.
Print Assumptions C58_separating_tokens_refuted.
