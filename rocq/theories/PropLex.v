(** * C30, C47: lexing what the formatter writes; where lexed tokens are in the text *)
From Verif Require Import Base Float Literal Syn Fmt FmtFacts Examples PropFmt Reprint Lexer Offsets PropSpan LexFacts LexWf LexOut LexRun.
Local Open Scope nat_scope.

(** the indentations a formatter can have: none, or white space (C42) *)
Definition indentation {U : unicode} (ind : option text) : Prop :=
  match ind with Some s => Forall (fun c => is_white c = true) s | None => True end.

Section Lex.
Context {U : unicode} (sane : sane_tables U).
Lemma first_not_bom ind lvl l : indentation ind -> wf l -> match text_with ind lvl l with c :: _ => c <> 65279%N | [] => True end.
Proof.
  intros Hi Hw. rewrite text_with_calls. unfold c_write. rewrite concat_app.
  assert (Hg : match List.concat (c_indent ind lvl) with c :: _ => is_white c = true | [] => True end).
  { destruct ind as [s|]; [|exact I]. cbn [c_indent]. assert (F : Forall (fun c => is_white c = true) (List.concat (repeat s lvl))) by (induction lvl; cbn [repeat List.concat]; [constructor|apply Forall_app; auto]).
    inversion F; auto. }
  destruct (List.concat (c_indent ind lvl)) as [|c g]; cbn [app].
  2:{ intros ->. unfold is_white in Hg. cbn in Hg. destruct sane as (_ & _ & _ & _ & F). congruence. }
  clear Hg. change (List.concat (c_loop ind lvl l Joint)) with (loop_text ind lvl l Joint). destruct l as [|t r]; [exact I|]. rewrite wf_cons in Hw. destruct Hw as (Ht & _).
  destruct t as [n s|c g s|n s|d s l].
  - rewrite loop_ident. cbn [pre app]. destruct (ident_ok_head n Ht) as (c & x & -> & Hc & _). cbn [app]. intros ->. unfold ident_start in Hc. cbn in Hc. destruct sane as (_ & _ & _ & F & _). congruence.
  - rewrite loop_punct. cbn [pre app]. intros ->. destruct Ht as (Ht & _). cbn in Ht. intuition discriminate.
  - rewrite loop_lit. cbn [pre app]. destruct Ht as [Ht| ->]; [|discriminate]. destruct (literal_first _ _ Ht) as (c & x & -> & Hc). cbn [app]. intros ->. destruct Hc as [Hc|Hc]; [cbn in Hc; intuition discriminate|discriminate].
  - rewrite wf_group in Ht. destruct (delimiters_some d (proj1 Ht)) as (o & c & Hd). rewrite (loop_group ind lvl d s l r Joint o c Hd). cbn [pre app]. destruct d; cbn in Hd; try discriminate Hd; injection Hd as <- <-; discriminate.
Qed.
(** for every stream, also one that does not come from the lexer, satisfying [wf] *)
Theorem wf_relexes ind lvl l file : indentation ind -> wf l -> exists l', lex file (text_with ind lvl l) = LOk l' /\ map unspan l' = map unspan l.
Proof.
  intros Hi Hw. rewrite lex_run. assert (E : no_bom (text_with ind lvl l) = text_with ind lvl l).
  { pose proof (first_not_bom ind lvl l Hi Hw) as H. unfold no_bom. destruct (text_with ind lvl l) as [|c r]; [reflexivity|]. destruct (N.eqb_spec c 65279); [congruence|reflexivity]. }
  rewrite E. rewrite text_with_calls. unfold c_write. rewrite concat_app. set (src := List.concat (c_indent ind lvl) ++ List.concat (c_loop ind lvl l Joint)).
  assert (Hio : ind_ok ind). { destruct ind as [s|]; [|exact I]. cbn in *. eapply Forall_impl; [|exact Hi]. intros c Hc. unfold lex_white. rewrite Hc. reflexivity. }
  destruct (relexes_all sane file src ind Hio l lvl Joint (List.concat (c_indent ind lvl)) [] [] [] Hw (white_indent ind Hio lvl) I) as (g' & l' & Hg & Hl & St).
  rewrite !app_nil_r in St. cbn [app] in St. exists l'. split; [|exact Hl]. unfold src at 2. unfold loop_text in St. rewrite (run_steps file src _ _ St). apply run_end. exact Hg.
Qed.

(** ** C30 *)
(** two streams with the same tokens, whatever their source locations *)
Definition same_tokens (a b : list tt) : Prop := map unspan a = map unspan b.
(** A text that lexes, written again by any formatter, at any nesting level, lexes to the same tokens. *)
Theorem C30_formatter_output_lexes_back file src ts ind lvl file' :
  forallb valid_char src = true -> lex file src = LOk ts -> indentation ind ->
  exists ts', lex file' (text_with ind lvl ts) = LOk ts' /\ same_tokens ts' ts.
Proof. intros Hv H Hi. apply (wf_relexes ind lvl ts file' Hi). exact (proj1 (lex_out sane file src ts Hv H)). Qed.
(** in particular [format_tokens], pretty ([{}]) and compact ([{:#}]) *)
Theorem C30_display_lexes_back file src ts alternate file' :
  forallb valid_char src = true -> lex file src = LOk ts ->
  exists ts', lex file' (to_text alternate ts) = LOk ts' /\ same_tokens ts' ts.
Proof.
  intros Hv H. rewrite to_text_with. apply (C30_formatter_output_lexes_back file src ts _ _ _ Hv H). destruct alternate; [exact I|]. repeat constructor.
Qed.
(** and every formatter [with_indent] makes *)
Theorem C30_with_indent_lexes_back file src ts s f file' :
  forallb valid_char src = true -> lex file src = LOk ts -> with_indent s (@nil N) = Some f ->
  exists ts', lex file' (f_writer (snd (write string_write ts f))) = LOk ts' /\ same_tokens ts' ts.
Proof.
  intros Hv H Hf. destruct (C42_accepts_exactly_whitespace U _ s (@nil N)) as (H1 & H2). destruct (H2 f Hf) as (E1 & E2 & E3).
  destruct f as [lvl ind w]. cbn in E1, E2, E3. subst. apply (C30_formatter_output_lexes_back file src ts (Some s) 0 file' Hv H). rewrite Hf in H1. apply Forall_forall. apply H1. discriminate.
Qed.

(** the written text only depends on the tokens, not on their locations *)
Lemma unspan_tree ind lvl x : forall y more sp, unspan x = unspan y -> c_tree ind lvl x more sp = c_tree ind lvl y more sp.
Proof.
  revert lvl. induction x as [n s|c g s|r s|d s l IH] using tt_ind'; intros lvl [n' s'|c' g' s'|r' s'|d' s' l'] more sp E; try discriminate; injection E.
  - intros ->. reflexivity.
  - intros -> ->. reflexivity.
  - intros ->. reflexivity.
  - intros El ->. rewrite !c_tree_group. cbv zeta.
    assert (L : forall lv, c_write ind lv l = c_write ind lv l').
    { intro lv. unfold c_write. f_equal. generalize Joint. clear - IH El. revert l' El. induction l as [|x l IHl]; intros [|y l'] El sp; try discriminate; [reflexivity|].
      cbn [map] in El. injection El as Ex El. inversion IH as [|? ? Hx Hl]; subst. rewrite !c_loop_cons. rewrite (Hx lv y _ sp Ex).
      replace (match l' with [] => false | _ => true end) with (match l with [] => false | _ => true end) by (destruct l, l'; (reflexivity || discriminate)).
      destruct (c_tree ind lv y _ sp) as (a, sp'). rewrite (IHl Hl l' El). reflexivity. }
    assert (B : match l with [] => [] | _ => c_newline ind Joint ++ c_write ind (S lvl) l ++ c_newline ind Joint ++ c_indent ind lvl end =
                match l' with [] => [] | _ => c_newline ind Joint ++ c_write ind (S lvl) l' ++ c_newline ind Joint ++ c_indent ind lvl end).
    { destruct l as [|x l], l' as [|y l']; try discriminate; [reflexivity|]. rewrite (L (S lvl)). reflexivity. }
    rewrite B. destruct (delimiters d') as [(o, c)|]; [reflexivity|]. rewrite L. reflexivity.
Qed.
Lemma unspan_text ind lvl l l' : same_tokens l l' -> text_with ind lvl l = text_with ind lvl l'.
Proof.
  intro El. rewrite !text_with_calls. f_equal. unfold c_write. f_equal. generalize Joint. revert l' El. unfold same_tokens. induction l as [|x l IHl]; intros [|y l'] El sp; try discriminate; [reflexivity|].
  cbn [map] in El. injection El as Ex El. rewrite !c_loop_cons. rewrite (unspan_tree ind lvl x y _ sp Ex).
  replace (match l' with [] => false | _ => true end) with (match l with [] => false | _ => true end) by (destruct l, l'; (reflexivity || discriminate)).
  destruct (c_tree ind lvl y _ sp) as (a, sp'). rewrite (IHl l' El). reflexivity.
Qed.
(** Formatting is idempotent: formatting the formatted text changes nothing. *)
Theorem C30_formatting_is_idempotent file src ts ind lvl file' :
  forallb valid_char src = true -> lex file src = LOk ts -> indentation ind ->
  exists ts', lex file' (text_with ind lvl ts) = LOk ts' /\ text_with ind lvl ts' = text_with ind lvl ts.
Proof.
  intros Hv H Hi. destruct (C30_formatter_output_lexes_back file src ts ind lvl file' Hv H Hi) as (ts' & H' & E). exists ts'. split; [exact H'|]. apply unspan_text. exact E.
Qed.
(** The layout of the source does not matter: texts with the same tokens are formatted alike, and
    going through one layout first makes no difference to another. *)
Theorem C30_layouts_commute file src ts ind1 lvl1 ind2 lvl2 file' :
  forallb valid_char src = true -> lex file src = LOk ts -> indentation ind1 ->
  exists ts', lex file' (text_with ind1 lvl1 ts) = LOk ts' /\ text_with ind2 lvl2 ts' = text_with ind2 lvl2 ts.
Proof.
  intros Hv H Hi. destruct (C30_formatter_output_lexes_back file src ts ind1 lvl1 file' Hv H Hi) as (ts' & H' & E). exists ts'. split; [exact H'|]. apply unspan_text. exact E.
Qed.
End Lex.

(** ** C47: where lexed tokens are in the text *)
(** a token of the stream, at any depth *)
Inductive within (t : tt) : list tt -> Prop :=
| w_here r : within t (t :: r)
| w_next x r : within t r -> within t (x :: r)
| w_inside d sp l r : within t l -> within t (TGroup d sp l :: r).
Lemma within_app t a b : within t (a ++ b) -> within t a \/ within t b.
Proof.
  induction a as [|x a IH]; [auto|]. cbn [app]. intro H. inversion H as [r E|x' r H' E|d sp l r H' E]; subst.
  - left. apply w_here.
  - destruct (IH H'); [left; apply w_next; assumption|auto].
  - left. apply w_inside. exact H'.
Qed.
Lemma within_doc {U : unicode} t inner c sp : within t (doc_tokens inner c sp) -> tt_span t = sp.
Proof.
  unfold doc_tokens. intro H. apply within_app in H as [H|H]; [|apply within_app in H as [H|H]].
  - inversion H as [|? ? H'|]; subst; [reflexivity|inversion H'].
  - destruct inner; [|inversion H]. inversion H as [|? ? H'|]; subst; [reflexivity|inversion H'].
  - inversion H as [|? ? H'|? ? ? ? H']; subst; [reflexivity|inversion H'|].
    repeat match goal with H : within _ (_ :: _) |- _ => inversion H; subst; clear H; [reflexivity|] | H : within _ [] |- _ => inversion H end.
Qed.
Section C47.
Context {U : unicode} (sane : sane_tables U).
(** The tokens lie in the text in order, without overlap, with nothing but white space and comments
    between them; each leaf covers exactly its spelling, a group starts and ends with its
    delimiters, the tokens of a doc comment cover the comment. *)
Theorem C47_tokens_lie_in_the_text file src ts : forallb valid_char src = true -> lex file src = LOk ts ->
  placed file src (start_of src) (List.length src) ts.
Proof. intros Hv H. exact (proj2 (lex_out sane file src ts Hv H)). Qed.
(** so [source_substring] of a token gives back the text it was read from *)
Lemma placed_within file src lo hi ts : placed file src lo hi ts -> forall t, within t ts ->
  exists c, source_substring src (tt_span t) = Some c /\
    ((exists inner u rest, doc_text inner u c rest) \/
     match t with
     | TGroup d _ _ => exists o x y, delimiters d = Some (o, x) /\ c = o :: y ++ [x]
     | _ => c = leaf_text t
     end).
Proof.
  induction 1 as [lo hi' H1 H2|lo a b hi' t r H1 H2 H3 H4 H5 H6 H7 IH|lo a b hi' d o c sp l r H1 H1' H2 H3 H4 H5 H6 H7 H8 IH8 H9 IH|lo a b hi' inner t sp r H1 H2 H3 H4 H5 H6 IH]; intros u Hu.
  - inversion Hu.
  - inversion Hu as [r' E|x' r' H' E|d sp l r' H' E]; subst; [|auto|destruct H5].
    destruct (C33_ranges_are_the_extent src _ a b H3) as (_ & _ & Es). exists (substring src a b). split; [exact Es|]. right. destruct t; try exact H6. destruct H5.
  - inversion Hu as [r' E|x' r' H' E|d' sp' l' r' H' E]; subst; [|auto|auto].
    destruct (C33_ranges_are_the_extent src _ a b H3) as (_ & _ & Es). exists (substring src a b). split; [exact Es|]. right.
    exists o, c, (substring src (S a) (pred b)). split; [exact H5|].
    rewrite <- (substring_cat src a (S a) b) by lia. rewrite <- (substring_cat src (S a) (pred b) b) by lia. rewrite H6, H7. reflexivity.
  - apply within_app in Hu as [Hu|Hu]; [|auto]. apply within_doc in Hu as ->.
    destruct (C33_ranges_are_the_extent src _ a b H3) as (_ & _ & Es). exists (substring src a b). split; [exact Es|]. left. exists inner, t, (skipn b src). exact H5.
Qed.
Theorem C47_source_substring_of_a_token file src ts t : forallb valid_char src = true -> lex file src = LOk ts -> within t ts ->
  exists c, source_substring src (tt_span t) = Some c /\
    ((exists inner u rest, doc_text inner u c rest) \/
     match t with
     | TGroup d _ _ => exists open_ close_ inside, delimiters d = Some (open_, close_) /\ c = open_ :: inside ++ [close_]
     | TIdent n _ => c = n
     | TPunct p _ _ => c = [p]
     | TLit r _ => c = r
     end).
Proof.
  intros Hv H Ht. destruct (placed_within _ _ _ _ _ (C47_tokens_lie_in_the_text file src ts Hv H) t Ht) as (c & Hc & Hcase). exists c. split; [exact Hc|].
  destruct Hcase as [Hd|Hcase]; [left; exact Hd|right]. destruct t; exact Hcase.
Qed.
(** every span of a lexed stream is one of the file that was lexed *)
Theorem C47_spans_are_of_the_file file src ts t : forallb valid_char src = true -> lex file src = LOk ts -> within t ts -> sp_file (tt_span t) = file.
Proof.
  intros Hv H. pose proof (C47_tokens_lie_in_the_text file src ts Hv H) as Hp. revert t. clear H.
  induction Hp as [lo hi' H1 H2|lo a b hi' t r H1 H2 H3 H4 H5 H6 H7 IH|lo a b hi' d o c sp l r H1 H1' H2 H3 H4 H5 H6 H7 H8 IH8 H9 IH|lo a b hi' inner t sp r H1 H2 H3 H4 H5 H6 IH]; intros u Hu.
  - inversion Hu.
  - inversion Hu as [r' E|x' r' H' E|d sp l r' H' E]; subst; [reflexivity|auto|destruct H5].
  - inversion Hu as [r' E|x' r' H' E|d' sp' l' r' H' E]; subst; [reflexivity|auto|auto].
  - apply within_app in Hu as [Hu|Hu]; [apply within_doc in Hu as ->; exact H4|auto].
Qed.
(** Whatever the text, the lexer returns: it never runs out of the bound used in the model. *)
Theorem C47_lexing_terminates file src : exists st r, steps file src (LS (no_bom src) [] []) st /\ lex_step file src st = inr r /\ lex file src = r.
Proof.
  rewrite lex_run. generalize (LS (no_bom src) [] []). intro st.
  assert (G : forall n st, List.length (l_rest st) <= n -> exists st' r, steps file src st st' /\ lex_step file src st' = inr r /\ run file src st = r).
  { induction n as [|n IH]; intros x Hx; rewrite (run_step file src x); destruct (lex_step file src x) as [x'|r] eqn:E.
    - apply step_shorter in E. lia.
    - exists x, r. split; [constructor|auto].
    - pose proof (step_shorter _ _ _ _ E). destruct (IH x' ltac:(lia)) as (st' & r & A & B & C). exists st', r. split; [econstructor; eauto|auto].
    - exists x, r. split; [constructor|auto]. }
  apply (G (List.length (l_rest st))). lia.
Qed.
End C47.
(** ** C30: examples and limits *)
Lemma ascii_sane : sane_tables Examples.ascii_only.
Proof. repeat split; try discriminate; reflexivity. Qed.
Local Existing Instance Examples.ascii_only.
Definition ex_src : text := T "x+=&'a [f64 ; -1.5e3] // c" ++ [10%N] ++ T "  /* y */ {r#fn==>'q'}" ++ [10%N] ++ T "/// hello".
Example C30_ex_lexes : exists ts, lex 1 ex_src = LOk ts /\ List.length ts = 10 /\ forallb valid_char ex_src = true.
Proof. eexists. split; [vm_compute; reflexivity|]. split; reflexivity. Qed.
Example C30_ex_compact : forall ts, lex 1 ex_src = LOk ts -> to_text true ts = T "x +=&'a [f64 ; - 1.5e3] {r#fn ==>'q'} # [doc = " ++ [34%N] ++ T " hello" ++ [34%N] ++ T "]".
Proof. intros ts H. vm_compute in H. injection H as <-. vm_compute. reflexivity. Qed.
(** What the lexer cannot produce may be written wrongly: a comment instead of two joint slashes,
    a group without delimiters that vanishes, a joint sign at the end. *)
Definition nowhere : span := call_site.
Theorem C30_joint_slashes_refuted : lex 1 (to_text true [TPunct 47 Joint nowhere; TPunct 47 Alone nowhere; TIdent (T "x") nowhere]) = LOk [].
Proof. reflexivity. Qed.
Theorem C30_invisible_groups_refuted : exists l l', lex 1 (to_text true l) = LOk l' /\ l = [TGroup DNone nowhere [TIdent (T "x") nowhere]] /\
  map unspan l' = [TIdent (T "x") (Span 0 (LC 1 0) (LC 1 0))] /\ map unspan l' <> map unspan l.
Proof. exists [TGroup DNone nowhere [TIdent (T "x") nowhere]]. eexists. split; [vm_compute; reflexivity|]. split; [reflexivity|]. split; [reflexivity|discriminate]. Qed.
Theorem C30_joint_before_word_refuted : exists l', lex 1 (to_text true [TPunct 45 Joint nowhere; TIdent (T "x") nowhere]) = LOk l' /\
  map unspan l' = map unspan [TPunct 45 Alone nowhere; TIdent (T "x") nowhere].
Proof. eexists. split; vm_compute; reflexivity. Qed.

Example C47_ex : exists ts t, lex 1 ex_src = LOk ts /\ within t ts /\ source_substring ex_src (tt_span t) = Some (T "f64").
Proof.
  eexists. exists (TIdent (T "f64") (Span 1 (LC 1 8) (LC 1 11))). split; [vm_compute; reflexivity|]. split; [|reflexivity].
  do 6 apply w_next. apply w_inside, w_here.
Qed.
Print Assumptions C30_formatter_output_lexes_back.
Print Assumptions C47_source_substring_of_a_token.

Print Assumptions C30_display_lexes_back.
Print Assumptions C30_with_indent_lexes_back.
Print Assumptions C30_formatting_is_idempotent.
Print Assumptions C30_layouts_commute.
Print Assumptions C47_tokens_lie_in_the_text.
Print Assumptions C47_spans_are_of_the_file.
Print Assumptions C47_lexing_terminates.
Print Assumptions C30_joint_slashes_refuted.
Print Assumptions C30_invisible_groups_refuted.
Print Assumptions C30_joint_before_word_refuted.
