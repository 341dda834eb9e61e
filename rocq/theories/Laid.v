(** * Laid: a token stream written with any gaps between its tokens. *)
From Verif Require Import Base Float Literal Syn Fmt FmtFacts Reprint LiteralFacts Lexer Offsets PropSpan LexFacts LexWf LexOut LexRun.
Local Open Scope nat_scope.

Section Laid.
Context {U : unicode}.
(** ** Specification: the ways to write a token stream *)
(** a number is not followed by what would become part of it; other literals may be followed by a sign *)
Definition number (r : text) : Prop := match r with c :: _ => is_digit c = true | [] => False end.
Definition marked (r : text) : Prop := In 101%N r \/ In 69%N r.
(** may the text [s] come directly after this token?
    - after a word: not a character of words, a double or single quote, or a pound sign;
    - after a literal: white space, a delimiter or punctuation except a dot, a single quote or a pound sign; a sign not directly after a number with the letter [e] in it;
    - after a punctuation character that is alone: no other punctuation character, but possibly a comment, unless the character is a slash;
    - after one that is joint: directly the next token. *)
Definition may_follow (t : tt) (s : text) : Prop :=
  match t, s with
  | TPunct _ Joint _, [] => False
  | TPunct _ Joint _, c :: r => lex_white c = false /\ ~ (c = 47%N /\ (hd_error r = Some 47%N \/ hd_error r = Some 42%N))
  | _, [] => True
  | TIdent _ _, c :: _ => xid_continue c = false /\ ~ In c [34; 35; 39]%N
  | TLit n _, c :: _ => In c [32; 9; 10; 11; 12; 13; 40; 41; 91; 93; 123; 125]%N \/ (In c punct_chars /\ ~ In c [46; 39; 35]%N /\ (number n -> marked n -> c <> 43%N /\ c <> 45%N))
  | TPunct p Alone _, c :: r => ~ In c punct_chars \/ (p <> 47%N /\ c = 47%N /\ (hd_error r = Some 47%N \/ hd_error r = Some 42%N))
  | TGroup _ _ _, _ => True
  end.
Definition leaf (t : tt) : Prop := match t with TGroup _ _ _ => False | _ => True end.
(** the end of a line *)
Definition line_end (s : text) : Prop := s = [] \/ (exists r, s = 10%N :: r) \/ (exists r, s = 13%N :: 10%N :: r).
(** [laid l s rest]: the text [s] is the tokens [l], with white space and comments around them, then [rest].
    The tokens of a doc comment can be written as such. *)
Inductive laid : list tt -> text -> text -> Prop :=
| l_end g rest : blank g rest -> laid [] (g ++ rest) rest
| l_leaf g t s r rest : leaf t -> blank g (leaf_text t ++ s) -> may_follow t s -> laid r s rest -> laid (t :: r) (g ++ leaf_text t ++ s) rest
| l_group g d o c sp l (inside : text) s r rest : delimiters d = Some (o, c) -> blank g (o :: inside) ->
    ~ (d = DParen /\ exists q : text, inside = T "/*ERROR*/)" ++ q) ->
    laid l inside (c :: s) -> laid r s rest -> laid (TGroup d sp l :: r) (g ++ o :: inside) rest
| l_doc_line g (inner : bool) (t : text) sp (s : text) r rest : blank g ((if inner then T "//!" else T "///") ++ t ++ s) ->
    ~ In 10%N t -> ~ In 13%N t -> (inner = false -> hd_error (t ++ s) <> Some 47%N) -> line_end s ->
    laid r s rest -> laid (doc_tokens inner t sp ++ r) (g ++ (if inner then T "//!" else T "///") ++ t ++ s) rest
| l_doc_block g (inner : bool) (t : text) sp (s : text) r rest : blank g ((if inner then T "/*!" else T "/**") ++ t ++ T "*/" ++ s) ->
    closes 1 (t ++ T "*/") -> (forall u v, t = u ++ [13%N] ++ v -> hd_error v = Some 10%N) -> (inner = false -> t <> [] /\ hd_error t <> Some 42%N /\ hd_error t <> Some 47%N) ->
    laid r s rest -> laid (doc_tokens inner t sp ++ r) (g ++ (if inner then T "/*!" else T "/**") ++ t ++ T "*/" ++ s) rest.

(** ** The lexer skips gaps *)
Lemma take_line_to c rest : ~ In 10%N c -> match rest with [] => True | x :: _ => x = 10%N end -> fst (take_line (c ++ rest)) = rest.
Proof.
  induction c as [|a c IH]; intros Hc Hr; cbn [app].
  - destruct rest as [|x rest]; [reflexivity|]. subst x. reflexivity.
  - cbn [take_line]. destruct (N.eqb_spec a 10) as [->|_]; [exfalso; apply Hc; left; reflexivity|].
    assert (Hc' : ~ In 10%N c) by (intro F; apply Hc; right; exact F). specialize (IH Hc' Hr).
    destruct ((a =? 13)%N && starts_with [10%N] (c ++ rest)) eqn:E.
    + apply andb_true_iff in E as (_ & E). apply starts_with_spec in E as (q & E). destruct c as [|b c]; cbn [app fst] in *.
      * reflexivity.
      * injection E as -> _. exfalso. apply Hc'. left. reflexivity.
    + destruct (take_line (c ++ rest)) as (x, y). exact IH.
Qed.
Lemma block_end_app n c : closes n c -> 1 <= n -> forall r, block_end (c ++ r) n = Some r.
Proof.
  induction 1 as [|n t H IH|n t H IH|n c t H IH H1 H2]; intros Hn r.
  - reflexivity.
  - cbn [app block_end N.eqb Pos.eqb andb]. apply IH. lia.
  - cbn [app block_end N.eqb Pos.eqb andb Nat.leb pred]. apply IH. lia.
  - destruct (closes_head _ _ H) as (x & u & ->). cbn [app hd_error] in *. specialize (IH Hn r).
    change (block_end (c :: x :: u ++ r) n) with (if (c =? 47)%N && (x =? 42)%N then block_end (u ++ r) (S n)
          else if (c =? 42)%N && (x =? 47)%N then if Nat.leb n 1 then Some (u ++ r) else block_end (u ++ r) (pred n) else block_end (x :: u ++ r) n).
    destruct ((c =? 47)%N && (x =? 42)%N) eqn:E1; [apply andb_true_iff in E1 as (E1 & E2); apply N.eqb_eq in E1, E2; subst; exfalso; auto|].
    destruct ((c =? 42)%N && (x =? 47)%N) eqn:E2; [apply andb_true_iff in E2 as (E2 & E3); apply N.eqb_eq in E2, E3; subst; exfalso; auto|]. exact IH.
Qed.
Lemma block_comment_app c r : closes 1 c -> block_comment ([47; 42]%N ++ c ++ r) = Some r.
Proof. intro H. unfold block_comment. unfold starts_with. rewrite strip_prefix_app. cbn [app block_end N.eqb Pos.eqb andb]. apply block_end_app; [exact H|lia]. Qed.
Lemma sw_cons a p b s : starts_with (a :: p) (b :: s) = ((a =? b)%N && starts_with p s).
Proof. unfold starts_with. cbn [strip_prefix]. destruct (a =? b)%N; reflexivity. Qed.
Lemma sw_nil s : starts_with [] s = true.
Proof. reflexivity. Qed.
Lemma sw_end a p : starts_with (a :: p) [] = false.
Proof. reflexivity. Qed.
(** what the lexer does not skip *)
Definition stays (s : text) : Prop := forall f, List.length s <= f -> skip_ws f s = s.
Lemma solid_stays s : s = [] \/ solid s -> stays s.
Proof. intros Hs f Hf. apply (skip_gap s Hs [] f); [constructor|exact Hf]. Qed.
Lemma skip_gap_blank g s : blank g s -> stays s -> forall f, List.length (g ++ s) <= f -> skip_ws f (g ++ s) = s.
Proof.
  intros Hg Hs. induction Hg as [s|c g s Hc Hg IH|c g s Hc Hd Hg IH|c g s Hc Hd Hg IH]; intros f Hf.
  - apply Hs. exact Hf.
  - destruct f as [|f]; [cbn in Hf; lia|]. cbn [app skip_ws]. rewrite Hc. destruct (N.eqb_spec c 47) as [->|_]; [discriminate Hc|]. apply IH; [exact Hs|]. cbn in Hf. lia.
  - rewrite <- !app_assoc in *. destruct f as [|f]; [cbn in Hf; lia|]. cbn [app skip_ws]. rewrite N.eqb_refl. destruct Hc as ((t & E & Ht) & Hr). injection E as <-. destruct Hd as (D1 & D2).
    rewrite !sw_cons. cbn [N.eqb Pos.eqb andb]. rewrite sw_nil.
    assert (A1 : starts_with [33%N] (c ++ g ++ s) = false).
    { destruct c as [|x c]; cbn [app].
      - destruct (g ++ s) as [|y u]; [reflexivity|]. subst y. reflexivity.
      - rewrite sw_cons. destruct (N.eqb_spec 33 x) as [<-|_]; [exfalso; apply D1; reflexivity|reflexivity]. }
    assert (A2 : negb (starts_with [47%N] (c ++ g ++ s)) || starts_with [47; 47]%N (c ++ g ++ s) = true).
    { destruct c as [|x c]; cbn [app].
      - destruct (g ++ s) as [|y u]; [reflexivity|]. subst y. reflexivity.
      - rewrite !sw_cons, sw_nil. destruct (N.eqb_spec 47 x) as [<-|_]; [|reflexivity]. cbn [andb negb orb]. destruct c as [|y c]; cbn [app].
        + exfalso. apply D2. exists []. split; [reflexivity|]. discriminate.
        + rewrite sw_cons, sw_nil. destruct (N.eqb_spec 47 y) as [<-|Hy]; [reflexivity|]. exfalso. apply D2. exists (y :: c). split; [reflexivity|]. cbn [hd_error]. congruence. }
    rewrite A1, A2. cbn [negb andb]. change (47%N :: 47%N :: c ++ g ++ s) with ([47; 47]%N ++ c ++ g ++ s). rewrite app_assoc.
    rewrite take_line_to; [|intros [F|[F|F]]; [discriminate F|discriminate F|exact (Ht F)]|exact Hr]. apply IH; [exact Hs|]. cbn [app List.length] in Hf. rewrite app_length in Hf. lia.
  - rewrite <- !app_assoc in *. destruct f as [|f]; [cbn in Hf; lia|]. cbn [app skip_ws]. rewrite N.eqb_refl. destruct Hd as (D1 & D2).
    assert (Hl : List.length (g ++ s) <= f). { cbn [app List.length] in Hf. rewrite app_length in Hf. lia. }
    pose proof (block_comment_app c (g ++ s) Hc) as Bc. cbn [app] in Bc. specialize (IH Hs f Hl). destruct (closes_two c Hc) as (x & y & t & ->). cbn [app] in *.
    rewrite !sw_cons, ?sw_nil. change (47 =? 47)%N with true. change (47 =? 42)%N with false. change (42 =? 42)%N with true. cbn [andb]. rewrite Bc.
    destruct (N.eqb_spec 42 x) as [<-|Hx]; cbn [andb negb orb].
    + destruct (N.eqb_spec 47 y) as [<-|Hy]; cbn [andb].
      * cbn [skipn]. inversion Hc as [E|n u H1 E|n u H1 E|n a u H1 H2 H3 E]; subst; [exact IH|]. exfalso. apply H3. split; reflexivity.
      * destruct (N.eqb_spec 42 y) as [<-|Hy2]; cbn [orb andb]; [exact IH|]. exfalso. apply D2. exists (y :: t). split; [reflexivity|]. cbn [hd_error]. split; congruence.
    + destruct (N.eqb_spec 33 x) as [<-|_]; [exfalso; apply D1; reflexivity|]. cbn [negb]. exact IH.
Qed.
Lemma skip_gap_blank' g s : blank g s -> stays s -> skip_whitespace (g ++ s) = s.
Proof. intros Hg Hs. apply skip_gap_blank; [exact Hg|exact Hs|lia]. Qed.

(** ** The lexer on a text so written *)
Lemma doc_line_contents inner t s : ~ In 10%N t -> ~ In 13%N t -> (inner = false -> hd_error (t ++ s) <> Some 47%N) -> line_end s ->
  exists rest, doc_comment_contents ((if inner then T "//!" else T "///") ++ t ++ s) = Some (t, inner, rest) /\ (rest = s \/ s = 13%N :: rest).
Proof.
  intros H1 H2 H3 H4.
  assert (L : exists rest, take_line (t ++ s) = (rest, t) /\ (rest = s \/ s = 13%N :: rest)).
  { clear H3. induction t as [|c t IH]; cbn [app].
    - destruct H4 as [->|[(r & ->)|(r & ->)]]; [exists []; auto|exists (10%N :: r); auto|exists (10%N :: r); auto].
    - destruct IH as (rest & E & Hr); [intro F; apply H1; right; exact F|intro F; apply H2; right; exact F|]. exists rest. split; [|exact Hr]. cbn [take_line].
      destruct (N.eqb_spec c 10) as [->|_]; [exfalso; apply H1; left; reflexivity|]. destruct (N.eqb_spec c 13) as [->|_]; [exfalso; apply H2; left; reflexivity|].
      cbn [andb]. rewrite E. reflexivity. }
  destruct L as (rest & L & Hr). exists rest. split; [|exact Hr]. destruct inner.
  - unfold doc_comment_contents. cbn [T app]. change (starts_with [47; 47; 33]%N _) with true. cbn iota. cbn [skipn]. rewrite L. reflexivity.
  - assert (E3 : starts_with [47%N] (t ++ s) = false). { specialize (H3 eq_refl). destruct (t ++ s) as [|x u]; [reflexivity|]. rewrite sw_cons. destruct (N.eqb_spec 47 x) as [<-|_]; [exfalso; apply H3; reflexivity|reflexivity]. }
    unfold doc_comment_contents. cbn [T app]. change (starts_with [47; 47; 33]%N _) with false. cbv zeta. change (starts_with [47; 42; 33]%N _) with false.
    change (starts_with [47; 47; 47]%N _) with true. cbn iota. cbn [skipn]. rewrite E3, L. reflexivity.
Qed.
Lemma doc_line_stays inner t s : (inner = false -> hd_error (t ++ s) <> Some 47%N) -> stays ((if inner then T "//!" else T "///") ++ t ++ s).
Proof.
  intros H f Hf. destruct f as [|f]; [destruct inner; cbn in Hf; lia|]. destruct inner; [reflexivity|]. specialize (H eq_refl).
  destruct (t ++ s) as [|x u]; [reflexivity|]. cbn [app T skip_ws]. rewrite !sw_cons. change (47 =? _)%N with true at 1 2 3 4 5 6. 
  cbn [hd_error] in H. destruct (N.eqb_spec 47 x) as [<-|Hx]; [congruence|].
  repeat change (47 =? N_of_ascii "/")%N with true. change (33 =? N_of_ascii "/")%N with false. change (42 =? N_of_ascii "/")%N with false. change (N_of_ascii "/" =? 47)%N with true. cbn. reflexivity.
Qed.
Lemma doc_block_contents inner t s : closes 1 (t ++ T "*/") -> (inner = false -> t <> [] /\ hd_error t <> Some 42%N /\ hd_error t <> Some 47%N) ->
  doc_comment_contents ((if inner then T "/*!" else T "/**") ++ t ++ T "*/" ++ s) = Some (t, inner, s).
Proof.
  intros H1 H2. set (x := if inner then 33%N else 42%N).
  replace ((if inner then T "/*!" else T "/**") ++ t ++ T "*/" ++ s) with ([47; 42]%N ++ (x :: t ++ T "*/") ++ s) by (destruct inner; cbn [T app]; rewrite <- app_assoc; reflexivity).
  assert (Hx : closes 1 (x :: t ++ T "*/")).
  { apply cl_char; [exact H1|unfold x; destruct inner; intros (F & _); discriminate F|]. unfold x. destruct inner; [intros (F & _); discriminate F|]. intros (_ & F). destruct (H2 eq_refl) as (A & _ & B). destruct t; [congruence|]. apply B. exact F. }
  pose proof (block_comment_app _ s Hx) as Bc.
  assert (Txt : drop_last2 (skipn 3 (firstn (List.length ([47; 42]%N ++ (x :: t ++ T "*/") ++ s) - List.length s) ([47; 42]%N ++ (x :: t ++ T "*/") ++ s))) = t).
  { rewrite app_assoc. rewrite app_length. replace (List.length ([47; 42]%N ++ x :: t ++ T "*/") + List.length s - List.length s) with (List.length ([47; 42]%N ++ x :: t ++ T "*/") + 0) by lia.
    rewrite firstn_app_2. cbn [firstn]. rewrite app_nil_r. cbn [app skipn]. unfold drop_last2. rewrite app_length. cbn [List.length T].
    replace (List.length t + 2 - 2) with (List.length t + 0) by lia. rewrite firstn_app_2. cbn [firstn]. apply app_nil_r. }
  unfold doc_comment_contents. cbv zeta. rewrite Bc, Txt. cbn [app]. destruct inner; subst x.
  - reflexivity.
  - change (starts_with [47; 47; 33]%N _) with false. change (starts_with [47; 42; 33]%N _) with false. change (starts_with [47; 47; 47]%N _) with false. change (starts_with [47; 42; 42]%N _) with true. cbn [skipn andb].
    destruct (H2 eq_refl) as (A & B & _). destruct t as [|y t]; [congruence|]. cbn [app]. rewrite sw_cons. destruct (N.eqb_spec 42 y) as [<-|_]; [exfalso; apply B; reflexivity|reflexivity].
Qed.
Lemma doc_block_stays inner t s : (inner = false -> t <> [] /\ hd_error t <> Some 42%N /\ hd_error t <> Some 47%N) ->
  stays ((if inner then T "/*!" else T "/**") ++ t ++ T "*/" ++ s).
Proof.
  intros H f Hf. destruct f as [|f]; [destruct inner; cbn in Hf; lia|]. destruct inner; [reflexivity|]. destruct (H eq_refl) as (A & B & C).
  destruct t as [|x u]; [congruence|]. cbn [hd_error] in B, C.
  change (T "/**" ++ (x :: u) ++ T "*/" ++ s) with (47%N :: 42%N :: 42%N :: x :: u ++ T "*/" ++ s). cbn [skip_ws]. rewrite !sw_cons.
  change (47 =? 47)%N with true. change (42 =? 42)%N with true. change (33 =? 42)%N with false. change (47 =? 42)%N with false.
  destruct (N.eqb_spec 42 x) as [<-|Hx]; [congruence|]. destruct (N.eqb_spec 47 x) as [<-|Hy]; [congruence|]. reflexivity.
Qed.

Lemma no_bare_cr_of t : (forall u v, t = u ++ [13%N] ++ v -> hd_error v = Some 10%N) -> no_bare_cr t = true.
Proof.
  induction t as [|c t IH]; intro H; [reflexivity|]. cbn [no_bare_cr]. apply andb_true_iff. split.
  - destruct (N.eqb_spec c 13) as [->|_]; [|reflexivity]. specialize (H [] t eq_refl). destruct t as [|d t]; [discriminate|]. injection H as ->. reflexivity.
  - apply IH. intros u v ->. exact (H (c :: u) v eq_refl).
Qed.
Lemma wf_app_r a b : wf (a ++ b) -> wf b.
Proof. induction a as [|x a IH]; [auto|]. cbn [app]. rewrite wf_cons. intros (_ & _ & H). exact (IH H). Qed.
(** no gap in front of the token that follows a joint character *)
Lemma no_gap g x c r : blank g x -> g ++ x = c :: r -> lex_white c = false -> ~ (c = 47%N /\ (hd_error r = Some 47%N \/ hd_error r = Some 42%N)) -> g = [].
Proof.
  intros H E Hw Hc. destruct H as [|a g x Ha H|a g x H1 H2 H3|a g x H1 H2 H3]; [reflexivity| | |]; exfalso; cbn [app] in E.
  - injection E as -> _. congruence.
  - injection E as <- <-. apply Hc. auto.
  - injection E as <- <-. apply Hc. auto.
Qed.
Lemma may_solid c s sp : may_follow (TPunct c Joint sp) s -> solid s.
Proof.
  destruct s as [|a r]; [intros []|]. intros (H1 & H2). split; [exact H1|]. intros ->. destruct r as [|b r]; [exact I|]. split; intros ->; apply H2; cbn; auto.
Qed.
(** the text after a joint character *)
Lemma joint_text l s rest : laid l s rest -> solid s -> match l with TPunct _ _ _ :: _ | TLit _ _ :: _ | TIdent _ _ :: _ => True | _ => False end ->
  match l with t :: _ => exists s', s = leaf_text t ++ s' /\ may_follow t s' | [] => False end.
Proof.
  intros H Hs Hl.
  assert (G : forall g x, blank g x -> s = g ++ x -> g = []).
  { intros g x Hb E. destruct s as [|c r]; [destruct Hs|]. apply (no_gap g x c r Hb (eq_sym E)); [apply Hs|]. intros (-> & F). destruct Hs as (_ & Hs). specialize (Hs eq_refl). destruct r as [|d r]; [destruct F; discriminate|]. cbn [hd_error] in F. destruct Hs, F as [F|F]; congruence. }
  destruct H as [g rest Hb|g t s r rest Ht Hb Hm H|g d o c sp l inside s r rest Hd Hb He H1 H2|g inner t sp s r rest Hb H1 H2 H3 H4 H|g inner t sp s r rest Hb H1 H2 H3 H]; [destruct Hl| |destruct Hl| |].
  - exists s. pose proof (G _ _ Hb eq_refl) as ->. auto.
  - exfalso. pose proof (G _ _ Hb eq_refl) as ->. cbn [app] in Hs. destruct inner; cbn [T app] in Hs; destruct Hs as (_ & Hs); destruct (Hs eq_refl) as (F1 & F2); first [apply F1; reflexivity|apply F2; reflexivity].
  - exfalso. pose proof (G _ _ Hb eq_refl) as ->. cbn [app] in Hs. destruct inner; cbn [T app] in Hs; destruct Hs as (_ & Hs); destruct (Hs eq_refl) as (F1 & F2); first [apply F1; reflexivity|apply F2; reflexivity].
Qed.
End Laid.

Section Runs.
Context {U : unicode} (sane : sane_tables U) (file : nat) (src : text).
Notation run := (run file src).
Lemma run_skip a b trees stk : skip_whitespace a = skip_whitespace b -> run (LS a trees stk) = run (LS b trees stk).
Proof. intro H. rewrite (run_step file src (LS a trees stk)), (run_step file src (LS b trees stk)). unfold lex_step. cbn [l_rest l_trees l_stack]. rewrite H. reflexivity. Qed.
Lemma run_gap g s trees stk : blank g s -> stays s -> run (LS (g ++ s) trees stk) = run (LS s trees stk).
Proof. intros Hg Hs. apply run_skip. rewrite skip_gap_blank' by assumption. symmetry. apply Hs. apply le_n. Qed.
Lemma run_leaf s trees stk f rest : solid s -> open_delim s = None -> (forall c t, s = c :: t -> close_delim c = None) ->
  leaf_token s = Some (f, rest) -> exists sp, run (LS s trees stk) = run (LS rest (trees ++ [f sp]) stk).
Proof.
  intros H1 H2 H3 H4. destruct (step_leaf file src [] s trees stk f rest (Forall_nil _) H1 H2 H3 H4) as (sp & E). exists sp. cbn [app] in E. rewrite run_step, E. reflexivity.
Qed.
Lemma run_doc s t inner rest trees stk : stays s -> doc_comment_contents s = Some (t, inner, rest) -> no_bare_cr t = true ->
  exists sp, run (LS s trees stk) = run (LS rest (trees ++ doc_tokens inner t sp) stk).
Proof.
  intros Hs Hc Hb. eexists. rewrite run_step. unfold lex_step. cbn [l_rest l_trees l_stack]. unfold skip_whitespace. rewrite Hs by apply le_n. unfold doc_comment. rewrite Hc, Hb. reflexivity.
Qed.
Lemma lit_touch n s : lit_ok n -> may_follow (TLit n call_site) s -> touch s /\ calm n s.
Proof.
  intros Hn. destruct s as [|c s]; [intros _; split; [exact I|left; exact I]|]. cbn [may_follow touch]. intros [H|(H & Hnot & Hsign)].
  - cbn [In] in H. repeat (destruct H as [<-|H]; [split; [reflexivity|left; split; discriminate]|]). destruct H.
  - split.
    + unfold punct_chars in H. cbn [In] in H. cbn [In] in Hnot. repeat (destruct H as [<-|H]; [first [reflexivity|exfalso; apply Hnot; auto]|]). destruct H.
    + destruct n as [|a n]; [right; left; constructor|]. destruct (is_digit a) eqn:Ea; [|right; right; exact Ea].
      destruct (existsb (fun c => (c =? 101)%N || (c =? 69)%N) (a :: n)) eqn:Ee.
      * left. apply Hsign; [exact Ea|]. apply existsb_exists in Ee as (x & Hx & Ex). apply orb_true_iff in Ex as [Ex|Ex]; apply N.eqb_eq in Ex; subst x; [left|right]; exact Hx.
      * right. left. apply Forall_forall. intros x Hx. split; intros ->; (assert (F : existsb (fun c => (c =? 101)%N || (c =? 69)%N) (a :: n) = true) by (apply existsb_exists; eexists; split; [exact Hx|reflexivity])); congruence.
Qed.
Lemma ident_edge n sp s : may_follow (TIdent n sp) s -> edge s.
Proof. destruct s as [|c s]; [intros _; split; exact I|]. intros (H1 & H2). cbn [In] in H2. split; [exact H1|]. repeat split; intros ->; apply H2; auto. Qed.
Lemma alone_punct c sp s : In c punct_chars -> may_follow (TPunct c Alone sp) s -> punct_char s = None /\ solid (c :: s).
Proof.
  intros Hc H. pose proof (punct_facts c Hc) as (F1 & _). destruct s as [|a s]; [split; [reflexivity|split; [exact F1|intros; exact I]]|]. cbn [may_follow] in H.
  assert (Hp : punct_char (a :: s) = None).
  { destruct (punct_char (a :: s)) as [(b, r)|] eqn:E; [|reflexivity]. exfalso. apply punct_char_some in E as (E & Hb & Hs). injection E as <- <-. destruct H as [H|(_ & -> & H)]; [auto|].
    destruct Hs as (_ & Hs). specialize (Hs eq_refl). destruct s as [|d s]; [destruct H; discriminate|]. cbn [hd_error] in H. destruct Hs, H; congruence. }
  split; [exact Hp|]. split; [exact F1|]. intros ->. destruct H as [H|(H & _)]; [|congruence].
  split; intros ->; apply H; vm_compute; tauto.
Qed.
(** Reading such a text gives the tokens back. *)
Lemma laid_runs l s rest : laid l s rest -> wf l -> stays rest -> forall trees stk,
  exists l', map unspan l' = map unspan l /\ run (LS s trees stk) = run (LS rest (trees ++ l') stk).
Proof.
  induction 1 as [g rest Hb|g t s r rest Ht Hb Hm H IH|g d o c sp l inside s r rest Hd Hb He H1 IH1 H2 IH2|g inner t sp s r rest Hb H1 H2 H3 H4 H IH|g inner t sp s r rest Hb H1 H2 H3 H IH]; intros Hw Hr trees stk.
  - exists []. split; [reflexivity|]. rewrite app_nil_r. apply run_gap; assumption.
  - rewrite wf_cons in Hw. destruct Hw as (Hwt & Hj & Hwr).
    assert (L : exists f, leaf_token (leaf_text t ++ s) = Some (f, s) /\ (forall sp, unspan (f sp) = unspan t) /\ solid (leaf_text t ++ s) /\ open_delim (leaf_text t ++ s) = None /\ (forall c u, leaf_text t ++ s = c :: u -> close_delim c = None)).
    { destruct t as [n sp|c k sp|n sp|d sp l]; [| | |destruct Ht]; cbn [leaf_text].
      - exists (TIdent n). destruct (ident_leaf sane n s Hwt (ident_edge n sp s Hm)) as (A & B & C & D & _). repeat split; try assumption; apply B.
      - exists (TPunct c k). destruct Hwt as (Hc & Hq). pose proof (punct_facts c Hc) as (_ & _ & _ & _ & _ & Fc & Fo & _). cbn [app].
        assert (X : leaf_token (c :: s) = Some (TPunct c k, s) /\ solid (c :: s)).
        { destruct k.
          - pose proof (may_solid c s sp Hm) as Ss.
            assert (Hl : match r with TPunct _ _ _ :: _ | TLit _ _ :: _ | TIdent _ _ :: _ => True | _ => False end) by (destruct r as [|[| | |] r]; cbn in Hj; auto).
            pose proof (joint_text r s rest H Ss Hl) as J. destruct r as [|x r]; [destruct J|]. destruct J as (s' & -> & Hm'). rewrite wf_cons in Hwr. destruct Hwr as (Hx & _ & _).
            destruct (N.eq_dec c 39) as [->|Hn].
            + split; [|split; [reflexivity|discriminate]]. apply quote_leaf. destruct x as [n2 s2|c2 g2 s2|n2 s2|d2 s2 l2]; cbn [joint_ok] in Hj.
              * exists n2, s'. cbn [leaf_text]. split; [apply (ident_leaf sane n2 s' Hx (ident_edge n2 s2 s' Hm'))|]. destruct s' as [|a s']; [exact I|]. destruct Hm' as (_ & Hm'). intros ->. apply Hm'. cbn. auto.
              * destruct Hj; congruence.
              * cbn [N.eqb Pos.eqb] in Hj. cbn [leaf_text]. apply (quote_lit sane); [exact Hx|exact Hj].
              * destruct Hj.
            + assert (Sc : solid (c :: leaf_text x ++ s')).
              { split; [apply punct_facts; exact Hc|]. intros ->. destruct x as [n2 s2|c2 g2 s2|n2 s2|d2 s2 l2]; cbn [joint_ok N.eqb Pos.eqb] in Hj; [discriminate| |destruct Hj as (r' & ->); split; discriminate|destruct Hj].
                cbn [leaf_text app]. apply Hj. reflexivity. }
              split; [|exact Sc]. apply punct_leaf; [exact Hc|exact Hn|exact Sc|]. destruct x as [n2 s2|c2 g2 s2|n2 s2|d2 s2 l2]; cbn [joint_ok] in Hj; [congruence| | |destruct Hj].
              * cbn [leaf_text app] in *. rewrite punct_char_head; [reflexivity|exact Ss|apply Hx].
              * destruct (N.eqb_spec c 39); [contradiction|]. destruct Hj as (r' & ->). cbn [leaf_text app] in *. rewrite punct_char_head; [reflexivity|exact Ss|vm_compute; tauto].
          - destruct (N.eq_dec c 39) as [->|Hn]; [discriminate (Hq eq_refl)|]. destruct (alone_punct c sp s Hc Hm) as (Hp & Hs). split; [|exact Hs]. apply punct_leaf; try assumption. rewrite Hp. reflexivity. }
        destruct X as (X1 & X2). split; [exact X1|]. split; [reflexivity|]. split; [exact X2|]. split; [apply Fo|]. intros c' u E. injection E as <- _. exact Fc.
      - exists (TLit n). destruct (lit_touch n s Hwt) as (T1 & T2); [exact Hm|]. destruct (lit_leaf n s Hwt T1 T2) as (A & B & C & D). repeat split; try assumption; apply B. }
    destruct L as (f & L & Ef & Sl & Op & Cl). rewrite (run_gap g _ trees stk Hb (solid_stays _ (or_intror Sl))).
    destruct (run_leaf _ trees stk f s Sl Op Cl L) as (sp & ->). destruct (IH Hwr Hr (trees ++ [f sp]) stk) as (l' & El & ->). exists (f sp :: l'). split; [cbn [map]; rewrite Ef, El; reflexivity|]. rewrite <- app_assoc. reflexivity.
  - rewrite wf_cons in Hw. destruct Hw as (Hwt & _ & Hwr). rewrite wf_group in Hwt. destruct Hwt as (_ & Hwl). destruct (close_group d o c Hd) as (Cd & Cb & Cw & C47 & Co).
    assert (So : solid (o :: inside)). { destruct d; cbn in Hd; try discriminate Hd; injection Hd as <- <-; split; try reflexivity; discriminate. }
    assert (Sc : solid (c :: s)) by (split; [exact Cw|intros ->; congruence]).
    rewrite (run_gap g _ trees stk Hb (solid_stays _ (or_intror So))).
    assert (Op : open_delim (o :: inside) = Some d).
    { apply (open_group d inside o c Hd). intros ->. destruct (starts_with error_repr (40%N :: inside)) eqn:E; [|reflexivity]. exfalso. apply He. split; [reflexivity|].
      apply starts_with_spec in E as (q & E). exists q. injection E as ->. reflexivity. }
    pose proof (step_solid file src [] (o :: inside) trees stk (Forall_nil _) So) as St1. cbn [app] in St1. rewrite Op in St1. rewrite run_step, St1.
    set (lo := offset src (o :: inside)) in *. clearbody lo. destruct (IH1 Hwl (solid_stays _ (or_intror Sc)) [] ((lo, d, trees) :: stk)) as (l' & El & ->).
    pose proof (step_solid file src [] (c :: s) ([] ++ l') ((lo, d, trees) :: stk) (Forall_nil _) Sc) as St2. cbn [app] in St2. rewrite Co, Cd, delim_eqb_refl in St2. rewrite run_step. cbn [app]. rewrite St2.
    match goal with |- context [TGroup d ?x l'] => set (sp' := x) end. destruct (IH2 Hwr Hr (trees ++ [TGroup d sp' l']) stk) as (r' & Er & ->).
    exists (TGroup d sp' l' :: r'). split; [cbn [map unspan]; rewrite El, Er; reflexivity|]. rewrite <- app_assoc. reflexivity.
  - destruct (doc_line_contents inner t s H1 H2 H3 H4) as (rest' & Dc & Er). pose proof (doc_line_stays inner t s H3) as Ds.
    assert (Nb : no_bare_cr t = true) by (apply no_bare_cr_of; intros u v ->; exfalso; apply H2; rewrite !in_app_iff; cbn; auto).
    rewrite (run_gap g _ trees stk Hb Ds). destruct (run_doc _ t inner rest' trees stk Ds Dc Nb) as (sp' & ->).
    assert (E : forall tr st, run (LS rest' tr st) = run (LS s tr st)).
    { intros tr st. destruct Er as [->| ->]; [reflexivity|]. apply run_skip. unfold skip_whitespace. cbn [List.length skip_ws]. reflexivity. }
    rewrite E. destruct (IH (wf_app_r _ _ Hw) Hr (trees ++ doc_tokens inner t sp') stk) as (l' & El & ->). exists (doc_tokens inner t sp' ++ l'). split; [rewrite !map_app, El; destruct inner; reflexivity|].
    rewrite <- app_assoc. reflexivity.
  - pose proof (doc_block_contents inner t s H1 H3) as Dc. pose proof (doc_block_stays inner t s H3) as Ds. rewrite (run_gap g _ trees stk Hb Ds).
    destruct (run_doc _ t inner s trees stk Ds Dc (no_bare_cr_of t H2)) as (sp' & ->).
    destruct (IH (wf_app_r _ _ Hw) Hr (trees ++ doc_tokens inner t sp') stk) as (l' & El & ->). exists (doc_tokens inner t sp' ++ l'). split; [rewrite !map_app, El; destruct inner; reflexivity|].
    rewrite <- app_assoc. reflexivity.
Qed.
End Runs.
