(** * LexWf: the token streams a lexer can produce, and lexing what the formatter writes. *)
From Verif Require Import Base Float Literal Syn Fmt FmtFacts Reprint Lexer LexFacts.
Local Open Scope nat_scope.

(** what the Unicode tables have to satisfy: no white space starts an identifier, nor do the
    direction marks and the byte order mark, and the byte order mark is no white space *)
Definition sane_tables (U : unicode) : Prop :=
  (forall c, u_xid_start c = true -> u_white c = false) /\
  u_xid_start 8206 = false /\ u_xid_start 8207 = false /\ u_xid_start 65279 = false /\ u_white 65279 = false.

Section LexWf.
Context {U : unicode} (sane : sane_tables U).

(** ** Token streams of lexed text *)
Definition ident_ok (n : text) : Prop :=
  sym_ok n \/ exists m, n = [114; 35]%N ++ m /\ sym_ok m /\ text_mem m no_raw = false.
Definition lit_ok (r : text) : Prop := literal_nocapture r = Some [] \/ r = error_repr.
(** a quote that is no literal is in front of a word *)
Definition quote_ok (s : text) : Prop := exists n r, ident_any s = Some (n, r) /\ match r with c :: _ => c <> 39%N | [] => True end.
(** what may follow a punctuation character that is joint *)
Definition joint_ok (c : char) (next : list tt) : Prop :=
  match next with
  | TPunct d _ _ :: _ => c <> 39%N /\ (c = 47%N -> d <> 47%N /\ d <> 42%N)
  | TLit r _ :: _ => if (c =? 39)%N then quote_ok r else exists r', r = 39%N :: r'
  | TIdent _ _ :: _ => c = 39%N
  | _ => False
  end.
Fixpoint wf_tree (t : tt) : Prop :=
  match t with
  | TIdent n _ => ident_ok n
  | TLit r _ => lit_ok r
  | TPunct c g _ => In c punct_chars /\ (c = 39%N -> g = Joint)
  | TGroup d _ l => d <> DNone /\
      (fix wf l := match l with
                   | [] => True
                   | x :: r => wf_tree x /\ match x with TPunct c Joint _ => joint_ok c r | _ => True end /\ wf r
                   end) l
  end.
Definition wf : list tt -> Prop := fix wf l :=
  match l with
  | [] => True
  | x :: r => wf_tree x /\ match x with TPunct c Joint _ => joint_ok c r | _ => True end /\ wf r
  end.
Lemma wf_group d s l : wf_tree (TGroup d s l) = (d <> DNone /\ wf l).
Proof. reflexivity. Qed.
Lemma wf_cons x r : wf (x :: r) = (wf_tree x /\ match x with TPunct c Joint _ => joint_ok c r | _ => True end /\ wf r).
Proof. reflexivity. Qed.

(** ** White space *)
Definition white (g : text) : Prop := Forall (fun c => lex_white c = true) g.
Definition solid (s : text) : Prop :=
  match s with
  | c :: r => lex_white c = false /\ (c = 47%N -> match r with d :: _ => d <> 47%N /\ d <> 42%N | [] => True end)
  | [] => False
  end.
Lemma solid_no_comment s : solid s -> starts_with [47; 47]%N s = false /\ starts_with [47; 42]%N s = false.
Proof.
  destruct s as [|c r]; [intros []|]. intros (_ & H). unfold starts_with. cbn [strip_prefix].
  destruct (N.eqb_spec 47 c) as [<-|]; [|auto]. specialize (H eq_refl). destruct r as [|d r]; [auto|]. destruct H as (H1 & H2).
  destruct (N.eqb_spec 47 d) as [<-|]; [contradiction|]. destruct (N.eqb_spec 42 d) as [<-|]; [contradiction|]. auto.
Qed.
Lemma starts_longer p q s : starts_with p s = false -> starts_with (p ++ q) s = false.
Proof.
  intro H. destruct (starts_with (p ++ q) s) eqn:E; [|reflexivity]. apply starts_with_spec in E as (r & ->).
  assert (F : starts_with p ((p ++ q) ++ r) = true) by (apply starts_with_spec; exists (q ++ r); symmetry; apply app_assoc). congruence.
Qed.
Lemma skip_gap s : (s = [] \/ solid s) -> forall g f, white g -> List.length (g ++ s) <= f -> skip_ws f (g ++ s) = s.
Proof.
  intros Hs g. induction g as [|c g IH]; intros f Hg Hf; cbn [app] in *.
  - destruct f as [|f]; [reflexivity|]. destruct Hs as [->|Hs]; [reflexivity|]. pose proof (solid_no_comment s Hs) as (H1 & H2).
    pose proof (starts_longer [47; 42]%N [42; 47]%N s H2) as H3. cbn [app] in H3.
    destruct s as [|c r]; [reflexivity|]. cbn [skip_ws]. rewrite H1, H2, H3. destruct Hs as (Hw & _). rewrite Hw. cbn [andb]. destruct (c =? 47)%N; reflexivity.
  - inversion Hg as [|c' g' Hc Hg']; subst. destruct f as [|f]; [cbn in Hf; lia|]. cbn [skip_ws]. rewrite Hc.
    destruct (N.eqb_spec c 47) as [->|_]; [discriminate|]. apply IH; [exact Hg'|]. cbn in Hf. lia.
Qed.
Lemma skip_gap' g s : (s = [] \/ solid s) -> white g -> skip_whitespace (g ++ s) = s.
Proof. intros Hs Hg. apply skip_gap; [exact Hs|exact Hg|lia]. Qed.
Lemma solid_no_doc s : solid s -> doc_comment s = None.
Proof.
  intro H. apply solid_no_comment in H as (H1 & H2). unfold doc_comment, doc_comment_contents.
  pose proof (starts_longer _ [33%N] _ H1) as A1. pose proof (starts_longer _ [33%N] _ H2) as A2. pose proof (starts_longer _ [47%N] _ H1) as A3. pose proof (starts_longer _ [42%N] _ H2) as A4.
  cbn [app] in *. rewrite A1, A2, A3, A4. reflexivity.
Qed.
Lemma punct_char_head c r : solid (c :: r) -> In c punct_chars -> punct_char (c :: r) = Some (c, r).
Proof.
  intros H Hc. apply solid_no_comment in H as (H1 & H2). unfold punct_char. rewrite H1, H2. cbn [orb].
  replace (existsb (N.eqb c) punct_chars) with true; [reflexivity|]. symmetry. apply existsb_exists. exists c. split; [exact Hc|apply N.eqb_refl].
Qed.
Lemma punct_char_some s c r : punct_char s = Some (c, r) -> s = c :: r /\ In c punct_chars /\ solid s.
Proof.
  unfold punct_char. intro H. destruct (starts_with [47; 47]%N s) eqn:E1; [discriminate|]. destruct (starts_with [47; 42]%N s) eqn:E2; [discriminate|]. cbn [orb] in H.
  destruct s as [|a s]; [discriminate|]. destruct (existsb (N.eqb a) punct_chars) eqn:E; [|discriminate]. injection H as <- <-.
  apply existsb_exists in E as (x & Hx & Ex). apply N.eqb_eq in Ex. subst x. split; [reflexivity|]. split; [exact Hx|]. split.
  - unfold punct_chars in Hx. cbn [In] in Hx. repeat (destruct Hx as [<-|Hx]; [reflexivity|]). destruct Hx.
  - intros ->. destruct s as [|d s]; [auto|]. unfold starts_with in *. cbn [strip_prefix] in *. rewrite N.eqb_refl in *. split; intros ->; discriminate.
Qed.
Lemma punct_facts c : In c punct_chars -> lex_white c = false /\ ident_start c = false /\ xid_continue c = false /\ is_digit c = false /\ brkc c = false /\
  close_delim c = None /\ (forall r, open_delim (c :: r) = None) /\ c <> 34%N /\ c <> 114%N /\ c <> 98%N /\ c <> 99%N.
Proof.
  unfold punct_chars. cbn [In]. intro H. repeat (destruct H as [<-|H]; [repeat split; try reflexivity; discriminate|]). destruct H.
Qed.
Lemma punct_char_brk s : brk s -> punct_char s = None.
Proof. destruct s as [|c s]; [reflexivity|]. intro H. cbn in H. apply brkc_cases in H as [->|[->|[->|[->| ->]]]]; reflexivity. Qed.

(** ** Words *)
Lemma start_white c : ident_start c = true -> lex_white c = false.
Proof.
  destruct sane as (S1 & S2 & S3 & _). unfold ident_start, lex_white, is_white. intro H. apply orb_true_iff in H as [H|H]; [apply N.eqb_eq in H; subst; reflexivity|].
  unfold xid_start in H. destruct (c <? 128)%N eqn:E.
  - apply N.ltb_lt in E. assert (Hc : (65 <= c)%N).
    { unfold is_alpha, is_lower, is_upper in H. apply orb_true_iff in H as [H|H]; apply andb_true_iff in H as (H & _); apply N.leb_le in H; lia. }
    replace (c =? 32)%N with false by (symmetry; apply N.eqb_neq; lia). replace (c <=? 13)%N with false by (symmetry; apply N.leb_gt; lia).
    replace (c =? 8206)%N with false by (symmetry; apply N.eqb_neq; lia). replace (c =? 8207)%N with false by (symmetry; apply N.eqb_neq; lia). rewrite andb_false_r. reflexivity.
  - rewrite (S1 c H). cbn [orb]. apply orb_false_iff. split; apply N.eqb_neq; intros ->; congruence.
Qed.
Lemma start_not c x : ident_start c = true -> ident_start x = false -> (x =? c)%N = false.
Proof. intros H1 H2. apply N.eqb_neq. intros ->. congruence. Qed.
Lemma start_not' c x : ident_start c = true -> ident_start x = false -> (c =? x)%N = false.
Proof. intros H1 H2. apply N.eqb_neq. intros ->. congruence. Qed.
Lemma raw_none d s : match s with c :: _ => c <> 34%N /\ c <> 35%N | [] => True end -> lex_raw d s = None.
Proof.
  intro H. unfold lex_raw, raw_delimiter. destruct s as [|c s]; [reflexivity|]. destruct H as (H1 & H2).
  cbn [count_pounds]. destruct (N.eqb_spec c 35) as [->|_]; [congruence|]. destruct (N.eqb_spec c 34) as [->|_]; [congruence|reflexivity].
Qed.
(** the first character after a prefix of a word in front of a break *)
Definition soft (s : text) : Prop := match s with c :: _ => c <> 34%N /\ c <> 35%N /\ c <> 39%N | [] => True end.
(** what may follow a word directly without becoming part of it, or making it part of a literal *)
Definition edge (s : text) : Prop := nc s /\ soft s.
Lemma brk_edge s : brk s -> edge s.
Proof. intro H. split; [apply touch_nc, brk_touch; exact H|]. destruct s as [|c s]; [exact I|]. cbn in H. apply brkc_cases in H as [->|[->|[->|[->| ->]]]]; repeat split; discriminate. Qed.
Lemma soft_word r s2 : Forall (fun c => xid_continue c = true) r -> edge s2 -> soft (r ++ s2).
Proof.
  intros Hr Hb. destruct r as [|c r]; cbn [app]; [exact (proj2 Hb)|]. inversion Hr; subst. repeat split; intros ->; discriminate.
Qed.
Lemma soft_tail c r s2 : Forall (fun c => xid_continue c = true) (c :: r) -> edge s2 -> soft (r ++ s2).
Proof. intros H. inversion H. apply soft_word. assumption. Qed.
Lemma digit_start c : ident_start c = true -> is_digit c = false.
Proof.
  intro H. destruct (is_digit c) eqn:E; [|reflexivity]. exfalso. unfold ident_start, xid_start, is_alpha, is_lower, is_upper, is_digit in *.
  apply andb_true_iff in E as (E1 & E2). apply N.leb_le in E1, E2.
  replace (c <? 128)%N with true in H by (symmetry; apply N.ltb_lt; lia). replace (c =? 95)%N with false in H by (symmetry; apply N.eqb_neq; lia).
  replace (97 <=? c)%N with false in H by (symmetry; apply N.leb_gt; lia). replace (65 <=? c)%N with false in H by (symmetry; apply N.leb_gt; lia). discriminate.
Qed.
Lemma number_none c r : is_digit c = false -> lex_float (c :: r) = None /\ lex_int (c :: r) = None.
Proof.
  intro H. split.
  - unfold lex_float. cbn [float_digits]. rewrite H. reflexivity.
  - destruct (lex_int (c :: r)) eqn:E; [|reflexivity]. apply lex_int_digit in E. congruence.
Qed.
(** no literal: a word not followed by a quote or a pound sign *)
Lemma word_no_literal c r s2 : ident_start c = true -> Forall (fun c => xid_continue c = true) r -> edge s2 -> literal_nocapture (c :: r ++ s2) = None.
Proof.
  intros Hc Hr Hb. pose proof (soft_word r s2 Hr Hb) as Hs.
  assert (Raw : forall d, lex_raw d (r ++ s2) = None) by (intro d; apply raw_none; destruct (r ++ s2); [exact I|destruct Hs as (? & ? & ?); auto]).
  assert (N34 : (34 =? c)%N = false) by (apply start_not; [exact Hc|reflexivity]).
  assert (N39 : (39 =? c)%N = false) by (apply start_not; [exact Hc|reflexivity]).
  assert (H1 : lex_string DStr (c :: r ++ s2) = None).
  { unfold lex_string. cbn [app strip_prefix]. rewrite N34. destruct (114 =? c)%N; [apply Raw|reflexivity]. }
  assert (Pre : forall d x, match strip_prefix [x; 34%N] (c :: r ++ s2) with Some t => lex_cooked (List.length t) d t | None =>
      match strip_prefix [x; 114%N] (c :: r ++ s2) with Some t => lex_raw d t | None => None end end = None).
  { intros d x. cbn [strip_prefix]. destruct (x =? c)%N; [|reflexivity]. destruct r as [|a r]; cbn [app] in *.
    - destruct s2 as [|b s2]; [reflexivity|]. destruct Hb as (Hb & _). cbn [nc] in Hb. destruct Hs as (A1 & _). destruct (N.eqb_spec 34 b) as [<-|_]; [congruence|]. destruct (N.eqb_spec 114 b) as [<-|_]; [discriminate|reflexivity].
    - destruct Hs as (A1 & A2 & A3). destruct (N.eqb_spec 34 a) as [<-|_]; [congruence|]. destruct (114 =? a)%N; [|reflexivity].
      apply raw_none. pose proof (soft_tail a r s2 Hr Hb) as Ht. destruct (r ++ s2); [exact I|destruct Ht as (? & ? & ?); auto]. }
  assert (H2 : lex_string DByte (c :: r ++ s2) = None) by apply (Pre DByte 98%N).
  assert (H3 : lex_string DC (c :: r ++ s2) = None) by apply (Pre DC 99%N).
  assert (H4 : lex_byte (c :: r ++ s2) = None).
  { unfold lex_byte. cbn [strip_prefix]. destruct (98 =? c)%N; [|reflexivity]. destruct (r ++ s2) as [|a t]; [reflexivity|].
    destruct Hs as (_ & _ & A). destruct (N.eqb_spec 39 a); [congruence|reflexivity]. }
  assert (H5 : lex_character (c :: r ++ s2) = None) by (unfold lex_character; cbn [strip_prefix]; rewrite N39; reflexivity).
  destruct (number_none c (r ++ s2) (digit_start c Hc)) as (H6 & H7).
  unfold literal_nocapture. rewrite H1, H2, H3, H4, H5, H6, H7. reflexivity.
Qed.
Lemma raw_word_no_literal m s2 : sym_ok m -> edge s2 -> literal_nocapture ([114; 35]%N ++ m ++ s2) = None.
Proof.
  intros (c & r & -> & Hc & Hr) Hb. cbn [app].
  assert (H1 : lex_string DStr (114%N :: 35%N :: c :: r ++ s2) = None).
  { unfold lex_string. cbn [app strip_prefix N.eqb Pos.eqb]. unfold lex_raw, raw_delimiter. cbn [count_pounds N.eqb Pos.eqb].
    rewrite (start_not' c 35 Hc eq_refl), (start_not' c 34 Hc eq_refl). reflexivity. }
  unfold literal_nocapture. rewrite H1. reflexivity.
Qed.
Lemma literal_none s : literal_nocapture s = None -> literal s = None.
Proof. intro H. unfold literal. rewrite H. reflexivity. Qed.
Lemma start_not_punct c r : ident_start c = true -> lex_punct (c :: r) = None.
Proof.
  intro H. unfold lex_punct. destruct (punct_char (c :: r)) as [(d, t)|] eqn:E; [|reflexivity]. apply punct_char_some in E as (E & Hd & _).
  injection E as -> ->. apply punct_facts in Hd. destruct Hd as (_ & Hd & _). congruence.
Qed.
Lemma not_ident_none s :
  match s with _ :: t => soft t /\ match t with b :: u => b = 114%N -> soft u | [] => True end | [] => True end ->
  existsb (fun p => starts_with p s) not_ident = false.
Proof.
  intro H. destruct s as [|a [|b u]]; [reflexivity| |].
  - unfold not_ident, starts_with. cbn [existsb strip_prefix].
    repeat match goal with |- context [(?x =? a)%N] => destruct (x =? a)%N end; reflexivity.
  - destruct H as ((B1 & B2 & B3) & Hu). unfold not_ident, starts_with. cbn [existsb strip_prefix].
    assert (E1 : (34 =? b)%N = false) by (apply N.eqb_neq; congruence). assert (E2 : (35 =? b)%N = false) by (apply N.eqb_neq; congruence). assert (E3 : (39 =? b)%N = false) by (apply N.eqb_neq; congruence).
    rewrite E1, E2, E3. destruct (N.eqb_spec 114 b) as [<-|_].
    + specialize (Hu eq_refl). destruct u as [|x u]; [repeat match goal with |- context [(?x =? a)%N] => destruct (x =? a)%N end; reflexivity|]. destruct Hu as (C1 & C2 & C3).
      assert (F1 : (34 =? x)%N = false) by (apply N.eqb_neq; congruence). assert (F2 : (35 =? x)%N = false) by (apply N.eqb_neq; congruence).
      rewrite F1, F2. repeat match goal with |- context [(?x =? a)%N] => destruct (x =? a)%N end; reflexivity.
    + repeat match goal with |- context [(?x =? a)%N] => destruct (x =? a)%N end; reflexivity.
Qed.
Lemma ident_word c r s2 : ident_start c = true -> Forall (fun c => xid_continue c = true) r -> edge s2 -> ident (c :: r ++ s2) = Some (c :: r, s2) /\ ident_any (c :: r ++ s2) = Some (c :: r, s2).
Proof.
  intros Hc Hr Hb. assert (A : ident_any (c :: r ++ s2) = Some (c :: r, s2)).
  { unfold ident_any. replace (strip_prefix [114; 35]%N (c :: r ++ s2)) with (@None text).
    - apply (ident_not_raw_app (c :: r) s2); [exists c, r; auto|exact (proj1 Hb)].
    - symmetry. cbn [strip_prefix]. destruct (114 =? c)%N; [|reflexivity]. pose proof (soft_word r s2 Hr Hb) as Hs. destruct (r ++ s2) as [|a t]; [reflexivity|].
      destruct Hs as (_ & Hs & _). destruct (N.eqb_spec 35 a); [congruence|reflexivity]. }
  split; [|exact A]. unfold ident. rewrite not_ident_none; [exact A|]. split; [apply soft_word; assumption|].
  destruct r as [|a r]; cbn [app].
  - destruct s2 as [|b s2]; [exact I|]. intros ->. destruct Hb as (Hb & _). discriminate.
  - intros _. apply (soft_tail a); assumption.
Qed.
Lemma ident_raw_word m s2 : sym_ok m -> text_mem m no_raw = false -> edge s2 ->
  ident ([114; 35]%N ++ m ++ s2) = Some ([114; 35]%N ++ m, s2) /\ ident_any ([114; 35]%N ++ m ++ s2) = Some ([114; 35]%N ++ m, s2).
Proof.
  intros Hm Hn Hb. assert (A : ident_any ([114; 35]%N ++ m ++ s2) = Some ([114; 35]%N ++ m, s2)).
  { unfold ident_any. rewrite strip_prefix_app, (ident_not_raw_app m s2 Hm (proj1 Hb)), Hn. reflexivity. }
  split; [|exact A]. unfold ident. destruct Hm as (c & r & -> & Hc & Hr). cbn [app] in *.
  replace (existsb (fun p => starts_with p (114%N :: 35%N :: c :: r ++ s2)) not_ident) with false; [exact A|]. symmetry.
  unfold not_ident, starts_with. cbn [existsb strip_prefix N.eqb Pos.eqb]. pose proof (start_not c 34 Hc eq_refl) as N1. pose proof (start_not c 35 Hc eq_refl) as N2.
  cbn in N1, N2 |- *. rewrite N1, N2. reflexivity.
Qed.
(** an identifier in front of a break is read as such *)
Lemma ident_leaf n s2 : ident_ok n -> edge s2 -> leaf_token (n ++ s2) = Some (TIdent n, s2) /\ solid (n ++ s2) /\
  open_delim (n ++ s2) = None /\ (forall c r, n ++ s2 = c :: r -> close_delim c = None) /\ ident_any (n ++ s2) = Some (n, s2).
Proof.
  intros Hn Hb. assert (H : exists c r, n ++ s2 = c :: r /\ ident_start c = true /\ literal_nocapture (n ++ s2) = None /\ ident (n ++ s2) = Some (n, s2) /\ ident_any (n ++ s2) = Some (n, s2)).
  { destruct Hn as [(c & r & -> & Hc & Hr)|(m & -> & Hm & Hraw)].
    - exists c, (r ++ s2). split; [reflexivity|]. split; [exact Hc|]. split; [apply word_no_literal; assumption|]. apply ident_word; assumption.
    - exists 114%N, (35%N :: m ++ s2). split; [reflexivity|]. split; [reflexivity|]. rewrite <- app_assoc. split; [apply raw_word_no_literal; assumption|]. apply ident_raw_word; assumption. }
  destruct H as (c & r & E & Hc & H1 & H2 & H3). rewrite E in *. split; [|split; [|split; [|split; [|exact H3]]]].
  - unfold leaf_token. rewrite literal_none by exact H1. rewrite start_not_punct by exact Hc. rewrite H2. reflexivity.
  - split; [apply start_white; exact Hc|]. intros ->. discriminate.
  - unfold open_delim. rewrite !(start_not' c) by (exact Hc || reflexivity). reflexivity.
  - intros c' r' E'. injection E' as <- _. unfold close_delim. rewrite !(start_not' c) by (exact Hc || reflexivity). reflexivity.
Qed.
(** ** Literals *)
Lemma literal_stable_whole r s2 : literal_nocapture r = Some [] -> touch s2 -> calm r s2 -> literal (r ++ s2) = Some (r, s2).
Proof.
  intros H Hb Hcm. destruct (literal_stable _ _ H) as (p & Hp & E & Hs). rewrite app_nil_r in E. subst p. unfold literal. rewrite (Hs s2 Hb Hcm).
  f_equal. f_equal. rewrite app_length. replace (List.length r + List.length s2 - List.length s2) with (List.length r) by lia.
  rewrite <- (Nat.add_0_r (List.length r)), firstn_app_2. cbn [firstn]. apply app_nil_r.
Qed.
(** the first character of a literal *)
Lemma literal_first r s' : literal_nocapture r = Some s' ->
  exists c t, r = c :: t /\ (In c [34; 114; 98; 99; 39]%N \/ is_digit c = true).
Proof.
  intro H. destruct r as [|c t]; [discriminate|]. exists c, t. split; [reflexivity|]. unfold literal_nocapture in H.
  destruct (lex_string DStr (c :: t)) eqn:E1; [apply string_first in E1; cbn; intuition congruence|].
  destruct (lex_string DByte (c :: t)) eqn:E2; [apply byte_string_first in E2; cbn; intuition congruence|].
  destruct (lex_string DC (c :: t)) eqn:E3; [apply c_string_first in E3; cbn; intuition congruence|].
  destruct (lex_byte (c :: t)) eqn:E4; [apply byte_first in E4 as (x & E4); injection E4 as -> _; cbn; intuition congruence|].
  destruct (lex_character (c :: t)) eqn:E5; [apply character_first in E5; cbn; intuition congruence|].
  destruct (lex_float (c :: t)) eqn:E6; [apply lex_float_digit in E6; auto|]. apply lex_int_digit in H. auto.
Qed.
Lemma digit_range c : is_digit c = true -> (48 <= c <= 57)%N.
Proof. unfold is_digit. intro H. apply andb_true_iff in H as (H1 & H2). apply N.leb_le in H1, H2. lia. Qed.
Lemma literal_first_facts c : In c [34; 114; 98; 99; 39]%N \/ is_digit c = true -> lex_white c = false /\ c <> 47%N /\ close_delim c = None /\ c <> 40%N /\ c <> 91%N /\ c <> 123%N.
Proof.
  intros [H|H].
  - cbn [In] in H. repeat (destruct H as [<-|H]; [repeat split; discriminate|]). destruct H.
  - apply digit_range in H. split; [|split; [lia|split; [|repeat split; lia]]].
    + unfold lex_white, is_white. replace (c <? 128)%N with true by (symmetry; apply N.ltb_lt; lia).
      replace (c =? 32)%N with false by (symmetry; apply N.eqb_neq; lia). replace (c <=? 13)%N with false by (symmetry; apply N.leb_gt; lia).
      replace (c =? 8206)%N with false by (symmetry; apply N.eqb_neq; lia). replace (c =? 8207)%N with false by (symmetry; apply N.eqb_neq; lia). rewrite andb_false_r. reflexivity.
    + unfold close_delim. replace (c =? 41)%N with false by (symmetry; apply N.eqb_neq; lia). replace (c =? 93)%N with false by (symmetry; apply N.eqb_neq; lia). replace (c =? 125)%N with false by (symmetry; apply N.eqb_neq; lia). reflexivity.
Qed.
Lemma open_none c r : c <> 40%N -> c <> 91%N -> c <> 123%N -> open_delim (c :: r) = None.
Proof.
  intros H1 H2 H3. unfold open_delim. destruct (N.eqb_spec c 40); [contradiction|]. destruct (N.eqb_spec c 91); [contradiction|]. destruct (N.eqb_spec c 123); [contradiction|]. reflexivity.
Qed.
Lemma lit_leaf r s2 : lit_ok r -> touch s2 -> calm r s2 -> leaf_token (r ++ s2) = Some (TLit r, s2) /\ solid (r ++ s2) /\
  open_delim (r ++ s2) = None /\ (forall c t, r ++ s2 = c :: t -> close_delim c = None).
Proof.
  intros [H| ->] Hb Hcm.
  - pose proof (literal_stable_whole r s2 H Hb Hcm) as Hl. destruct (literal_first _ _ H) as (c & t & -> & Hc). apply literal_first_facts in Hc as (F1 & F2 & F3 & F4 & F5 & F6).
    split; [unfold leaf_token; rewrite Hl; reflexivity|]. split; [split; [exact F1|intros ->; congruence]|]. split; [apply open_none; assumption|].
    intros c' t' E. injection E as <- _. exact F3.
  - split; [reflexivity|]. split; [split; [reflexivity|discriminate]|]. split.
    + cbn [app open_delim error_repr]. change (40%N :: 47%N :: 42%N :: 69%N :: 82%N :: 82%N :: 79%N :: 82%N :: 42%N :: 47%N :: 41%N :: s2) with (error_repr ++ s2).
      unfold open_delim, starts_with. rewrite strip_prefix_app. reflexivity.
    + intros c t E. injection E as <- _. reflexivity.
Qed.

(** ** Punctuation *)
Lemma punct_no_literal c s : In c punct_chars -> c <> 39%N -> literal_nocapture (c :: s) = None.
Proof.
  intros Hc Hq. destruct (literal_nocapture (c :: s)) eqn:E; [|reflexivity]. apply literal_first in E as (c' & t & E & H). injection E as <- <-.
  apply punct_facts in Hc as (_ & _ & _ & F1 & _ & _ & _ & F2 & F3 & F4 & F5). destruct H as [H|H]; [|congruence].
  cbn [In] in H. intuition congruence.
Qed.
Lemma punct_leaf c g s : In c punct_chars -> c <> 39%N -> solid (c :: s) ->
  g = match punct_char s with Some _ => Joint | None => Alone end -> leaf_token (c :: s) = Some (TPunct c g, s).
Proof.
  intros Hc Hq Hs ->. unfold leaf_token. rewrite literal_none by (apply punct_no_literal; assumption). unfold lex_punct. rewrite punct_char_head by assumption.
  destruct (N.eqb_spec c 39); [contradiction|reflexivity].
Qed.
Lemma ident_any_prefix s n r : ident_any s = Some (n, r) -> s = n ++ r /\ ident_ok n /\ nc r.
Proof.
  unfold ident_any. destruct (strip_prefix [114; 35]%N s) as [t|] eqn:E.
  - apply strip_prefix_spec in E. subst s. destruct (ident_not_raw t) as [(m, r')|] eqn:Ei; [|discriminate]. apply ident_not_raw_spec in Ei as (-> & Hm & Hnc).
    destruct (text_mem m no_raw) eqn:Em; [discriminate|]. intro H. injection H as <- <-. split; [reflexivity|]. split; [|exact Hnc]. right. exists m. auto.
  - intro H. apply ident_not_raw_spec in H as (-> & Hm & Hnc). split; [reflexivity|]. split; [left; exact Hm|exact Hnc].
Qed.
Lemma ident_ok_head n : ident_ok n -> exists c t, n = c :: t /\ ident_start c = true /\ match t with d :: _ => d <> 39%N | [] => True end.
Proof.
  intros [(c & r & -> & Hc & Hr)|(m & -> & Hm & _)].
  - exists c, r. split; [reflexivity|]. split; [exact Hc|]. destruct r as [|d r]; [exact I|]. inversion Hr; subst. intros ->. discriminate.
  - exists 114%N, (35%N :: m). repeat split. discriminate.
Qed.
(** a quote in front of a word that is not closed by another *)
Lemma quote_leaf s : quote_ok s -> leaf_token (39%N :: s) = Some (TPunct 39 Joint, s).
Proof.
  intros (n & r & H & Hr). pose proof (ident_any_prefix _ _ _ H) as (E & Hn & Hnc).
  assert (L : lex_character (39%N :: s) = None).
  { unfold lex_character. cbn [strip_prefix N.eqb Pos.eqb]. subst s. destruct (ident_ok_head n Hn) as (c & t & -> & Hc & Ht). cbn [app lex_quoted].
    rewrite (start_not' c 92 Hc eq_refl). cbn [andb]. destruct t as [|d t]; cbn [app].
    - destruct r as [|d r]; [reflexivity|]. destruct (N.eqb_spec d 39); [contradiction|reflexivity].
    - destruct (N.eqb_spec d 39); [contradiction|reflexivity]. }
  assert (N : literal_nocapture (39%N :: s) = None).
  { unfold literal_nocapture. rewrite L. destruct (number_none 39%N s eq_refl) as (-> & ->). reflexivity. }
  unfold leaf_token. rewrite literal_none by exact N. unfold lex_punct. rewrite punct_char_head; [|split; [reflexivity|discriminate]|vm_compute; tauto].
  cbn [N.eqb Pos.eqb]. rewrite H. unfold starts_with. destruct r as [|d r]; [reflexivity|]. cbn [strip_prefix]. destruct (N.eqb_spec 39 d); [congruence|reflexivity].
Qed.

(** ** Steps *)
Section Steps.
Context (file : nat) (src : text).
Inductive steps : lstate -> lstate -> Prop :=
| st_refl s : steps s s
| st_step s1 s2 s3 : lex_step file src s1 = inl s2 -> steps s2 s3 -> steps s1 s3.
Lemma steps_trans a b c : steps a b -> steps b c -> steps a c.
Proof. induction 1; [auto|]. intro H'. econstructor; eauto. Qed.
Lemma steps_one a b : lex_step file src a = inl b -> steps a b.
Proof. intro H. econstructor; [exact H|constructor]. Qed.

Lemma step_solid g s trees stk : white g -> solid s ->
  lex_step file src (LS (g ++ s) trees stk) =
  match s with
  | [] => lex_step file src (LS (g ++ s) trees stk)
  | c :: r =>
      match open_delim s with
      | Some d => inl (LS r [] ((offset src s, d, trees) :: stk))
      | None =>
          match close_delim c with
          | Some d =>
              match stk with
              | (lo', d', outer) :: stk' =>
                  if delim_eqb d' d then inl (LS r (outer ++ [TGroup d (mk_span file src lo' (offset src r)) trees]) stk')
                  else inr (LErr (mk_span file src (offset src s) (offset src s)))
              | [] => inr (LErr (mk_span file src (offset src s) (offset src s)))
              end
          | None =>
              match leaf_token s with
              | Some (f, rest) => inl (LS rest (trees ++ [f (mk_span file src (offset src s) (offset src rest))]) stk)
              | None => inr (LErr (mk_span file src (offset src s) (offset src s)))
              end
          end
      end
  end.
Proof.
  intros Hg Hs. destruct s as [|c r]; [reflexivity|]. unfold lex_step. cbn [l_rest l_trees l_stack].
  rewrite (skip_gap' g (c :: r)); [|right; exact Hs|exact Hg]. rewrite solid_no_doc by exact Hs. reflexivity.
Qed.
Lemma step_leaf g s trees stk f rest : white g -> solid s -> open_delim s = None -> (forall c t, s = c :: t -> close_delim c = None) ->
  leaf_token s = Some (f, rest) -> exists sp, lex_step file src (LS (g ++ s) trees stk) = inl (LS rest (trees ++ [f sp]) stk).
Proof.
  intros Hg Hs Ho Hc Hl. rewrite step_solid by assumption. destruct s as [|c r]; [destruct Hs|]. rewrite Ho, (Hc c r eq_refl), Hl. eauto.
Qed.

(** ** The text of the formatter, token by token *)
Context (ind : option text).
Definition pre (sp : spacing) : text := match sp with Joint => [] | Alone => [32%N] end.
Definition loop_text lvl l sp : text := List.concat (c_loop ind lvl l sp).
Definition more (r : list tt) : bool := match r with [] => false | _ => true end.
Definition nl (sp : spacing) (lvl : nat) : text := List.concat (c_newline ind sp ++ c_indent ind lvl).
Lemma c_ident_concat n : List.concat (c_ident n) = n.
Proof. unfold c_ident. destruct n as [|a [|b r]]; cbn; rewrite ?app_nil_r; try reflexivity. destruct ((a =? 114)%N && (b =? 35)%N); cbn; rewrite ?app_nil_r; reflexivity. Qed.
Lemma pre_concat sp : List.concat (match sp with Joint => [] | Alone => [[32%N]] end) = pre sp.
Proof. destruct sp; reflexivity. Qed.
Lemma loop_ident lvl n s r sp : loop_text lvl (TIdent n s :: r) sp = pre sp ++ n ++ loop_text lvl r Alone.
Proof. unfold loop_text. rewrite c_loop_cons. cbn [c_tree]. rewrite concat_app, concat_app, pre_concat, c_ident_concat, <- app_assoc. reflexivity. Qed.
Lemma loop_lit lvl n s r sp : loop_text lvl (TLit n s :: r) sp = pre sp ++ n ++ loop_text lvl r Alone.
Proof. unfold loop_text. rewrite c_loop_cons. cbn [c_tree]. rewrite concat_app, concat_app, pre_concat. cbn [List.concat]. rewrite app_nil_r, <- app_assoc. reflexivity. Qed.
Lemma loop_punct lvl c g s r sp : loop_text lvl (TPunct c g s :: r) sp =
  pre sp ++ c :: (if ((c =? 44)%N || (c =? 59)%N) && spacing_eqb g Alone && more r then nl g lvl ++ loop_text lvl r Joint else loop_text lvl r g).
Proof.
  unfold loop_text. rewrite c_loop_cons. cbn [c_tree]. change (match r with [] => false | _ => true end) with (more r).
  destruct (_ && more r); rewrite !concat_app, pre_concat; cbn [List.concat]; rewrite <- ?app_assoc; [|reflexivity]. unfold nl. rewrite concat_app, <- app_assoc. reflexivity.
Qed.
Lemma loop_group lvl d s l r sp o c : delimiters d = Some (o, c) -> loop_text lvl (TGroup d s l :: r) sp =
  pre sp ++ o :: (match l with [] => [] | _ => List.concat (c_newline ind Joint) ++ List.concat (c_indent ind (S lvl)) ++ loop_text (S lvl) l Joint ++ nl Joint lvl end)
         ++ c :: (if more r then nl Alone lvl ++ loop_text lvl r Joint else []).
Proof.
  intro Hd. unfold loop_text. rewrite c_loop_cons, c_tree_group. cbv zeta. rewrite Hd.
  assert (B : List.concat (match l with [] => [] | _ => c_newline ind Joint ++ c_write ind (S lvl) l ++ c_newline ind Joint ++ c_indent ind lvl end) =
     match l with [] => [] | _ => List.concat (c_newline ind Joint) ++ List.concat (c_indent ind (S lvl)) ++ List.concat (c_loop ind (S lvl) l Joint) ++ nl Joint lvl end).
  { destruct l; [reflexivity|]. unfold c_write, nl. rewrite !concat_app, <- !app_assoc. reflexivity. }
  change (match r with [] => false | _ => true end) with (more r). destruct r as [|x r]; cbn [more].
  - change (c_loop ind lvl [] Alone) with (@nil text). rewrite app_nil_r, !concat_app, pre_concat, B. cbn [List.concat]. rewrite app_nil_r. reflexivity.
  - rewrite !concat_app, pre_concat, B. cbn [List.concat]. unfold nl. rewrite !concat_app. do 4 (cbn [app]; rewrite <- ?app_assoc). reflexivity.
Qed.

(** the indentation is white space *)
Definition ind_ok : Prop := match ind with Some s => white s | None => True end.
Context (Hind : ind_ok).
Lemma white_app a b : white a -> white b -> white (a ++ b).
Proof. intros. apply Forall_app. auto. Qed.
Lemma white_indent lvl : white (List.concat (c_indent ind lvl)).
Proof.
  clear src file. unfold ind_ok in Hind. destruct ind as [s|]; [|constructor]. cbn [c_indent]. induction lvl as [|lvl IH]; [constructor|]. cbn [repeat List.concat]. apply white_app; assumption.
Qed.
Lemma white_newline sp : white (List.concat (c_newline ind sp)).
Proof. destruct ind, sp; cbn; repeat constructor. Qed.
Lemma white_nl sp lvl : white (nl sp lvl).
Proof. unfold nl. rewrite concat_app. apply white_app; [apply white_newline|apply white_indent]. Qed.
Lemma white_pre sp : white (pre sp).
Proof. destruct sp; repeat constructor. Qed.
(** after a separator there is a break *)
Lemma brk_nl_alone lvl s : brk (nl Alone lvl ++ s).
Proof. unfold nl. destruct ind; reflexivity. Qed.
Lemma brk_alone lvl r rest : brk rest -> brk (loop_text lvl r Alone ++ rest).
Proof.
  intro Hb. destruct r as [|x r]; [exact Hb|]. destruct x as [n s|c g s|n s|d s l].
  - rewrite loop_ident. reflexivity.
  - rewrite loop_punct. reflexivity.
  - rewrite loop_lit. reflexivity.
  - destruct (delimiters d) as [(o, c)|] eqn:E; [rewrite (loop_group _ _ _ _ _ _ o c E); reflexivity|].
    destruct d; try discriminate. unfold loop_text. rewrite c_loop_cons, c_tree_group. reflexivity.
Qed.
Lemma delimiters_some d : d <> DNone -> exists o c, delimiters d = Some (o, c).
Proof. destruct d; cbn; eauto. congruence. Qed.
(** the text after a punctuation character *)
Definition after_punct lvl c g (r : list tt) rest : text :=
  (if ((c =? 44)%N || (c =? 59)%N) && spacing_eqb g Alone && more r then nl g lvl ++ loop_text lvl r Joint else loop_text lvl r g) ++ rest.
Lemma after_alone lvl c r rest : brk rest -> brk (after_punct lvl c Alone r rest).
Proof.
  intro Hb. unfold after_punct. destruct (_ && more r); [rewrite <- app_assoc; apply brk_nl_alone|apply brk_alone; exact Hb].
Qed.
Lemma after_joint lvl c r rest : after_punct lvl c Joint r rest = loop_text lvl r Joint ++ rest.
Proof. unfold after_punct. cbn [spacing_eqb]. rewrite andb_false_r. reflexivity. Qed.
(** the text of a stream of wf tokens is solid *)
Lemma lit_ok_head r : lit_ok r -> exists c t, r = c :: t /\ c <> 47%N /\ c <> 42%N.
Proof.
  intros [H| ->]; [|exists 40%N; eexists; repeat split; discriminate]. destruct (literal_first _ _ H) as (c & t & -> & Hc). exists c, t. split; [reflexivity|].
  destruct Hc as [Hc|Hc]; [cbn [In] in Hc; split; intros ->; intuition discriminate|]. apply digit_range in Hc. lia.
Qed.
Lemma solid_loop lvl t r rest : wf (t :: r) -> brk rest -> solid (loop_text lvl (t :: r) Joint ++ rest).
Proof.
  rewrite wf_cons. intros (Ht & Hj & Hr) Hb. destruct t as [n s|c g s|n s|d s l].
  - rewrite loop_ident. cbn [pre app]. rewrite <- app_assoc. apply ident_leaf; [exact Ht|]. apply brk_edge, brk_alone. exact Hb.
  - rewrite loop_punct. cbn [pre app]. destruct Ht as (Hc & Hq). apply punct_facts in Hc as (F1 & _). split; [exact F1|]. intros ->.
    change (match after_punct lvl 47 g r rest with d :: _ => d <> 47%N /\ d <> 42%N | [] => True end).
    destruct g.
    + rewrite after_joint. destruct r as [|x r]; [destruct Hj|]. cbn [joint_ok] in Hj. destruct x as [n2 s2|c2 g2 s2|n2 s2|d2 s2 l2].
      * discriminate.
      * rewrite loop_punct. cbn [pre app]. apply Hj. reflexivity.
      * rewrite loop_lit. cbn [pre app]. destruct Hj as (r' & ->). cbn [app]. split; discriminate.
      * destruct Hj.
    + pose proof (after_alone lvl 47 r rest Hb) as H. destruct (after_punct lvl 47 Alone r rest) as [|d x]; [exact I|]. cbn [brk] in H. split; intros ->; discriminate.
  - rewrite loop_lit. cbn [pre app]. rewrite <- app_assoc. apply lit_leaf; [exact Ht|apply brk_touch, brk_alone; exact Hb|apply brk_calm, brk_alone; exact Hb].
  - rewrite wf_group in Ht. destruct Ht as (Hd & _). destruct (delimiters_some d Hd) as (o & c & E). rewrite (loop_group _ _ _ _ _ _ o c E). cbn [pre app].
    destruct d; [| | |congruence]; injection E as <- <-; split; try reflexivity; discriminate.
Qed.
(** a joint punctuation character is read as joint *)
Lemma joint_next lvl c r rest : wf r -> joint_ok c r -> c <> 39%N -> brk rest ->
  match punct_char (loop_text lvl r Joint ++ rest) with Some _ => Joint | None => Alone end = Joint.
Proof.
  intros Hr Hj Hq Hb. destruct r as [|x r]; [destruct Hj|]. pose proof (solid_loop lvl x r rest Hr Hb) as Hs. rewrite wf_cons in Hr. destruct Hr as (Hx & _ & Hr). cbn [joint_ok] in Hj.
  destruct x as [n2 s2|c2 g2 s2|n2 s2|d2 s2 l2]; [congruence| | |destruct Hj].
  - rewrite loop_punct in *. cbn [pre app] in *. rewrite punct_char_head; [reflexivity|exact Hs|apply Hx].
  - destruct (N.eqb_spec c 39); [contradiction|]. destruct Hj as (r' & ->). rewrite loop_lit in *. cbn [pre app] in *. rewrite punct_char_head; [reflexivity|exact Hs|vm_compute; tauto].
Qed.
Lemma nc_brk s : brk s -> nc s.
Proof. intro H. apply brk_edge in H. apply H. Qed.
Lemma quote_lit n2 s : lit_ok n2 -> quote_ok n2 -> quote_ok (n2 ++ s).
Proof.
  intros Hx (n & t & Ha & Ht). pose proof (ident_any_prefix _ _ _ Ha) as (E & Hn & Hnc). subst n2. destruct t as [|a t].
  - exfalso. (* a word is no literal *)
    rewrite app_nil_r in *. destruct Hx as [Hx|Hx].
    + pose proof (literal_stable_whole n [] Hx I (or_introl I)) as L. destruct (ident_leaf n [] Hn (conj I I)) as (L' & _). unfold leaf_token in L'. rewrite L in L'.
      apply (f_equal (fun o => match o with Some (f, _) => match f call_site with TLit _ _ => true | _ => false end | None => true end)) in L'. discriminate.
    + subst n. destruct (ident_ok_head _ Hn) as (c & t & E & Hc & _). injection E as <- _. discriminate.
  - exists n, ((a :: t) ++ s). split; [|exact Ht]. rewrite <- app_assoc.
    unfold ident_any in *. destruct Hn as [Hn|(m & -> & Hm & Hraw)].
    + assert (E1 : strip_prefix [114; 35]%N (n ++ a :: t) = None).
      { destruct (strip_prefix [114; 35]%N (n ++ a :: t)) as [u|] eqn:E; [|reflexivity]. destruct (ident_not_raw u) as [(m, v)|]; [|discriminate].
        destruct (text_mem m no_raw); [discriminate|]. injection Ha as Ha _. destruct Hn as (c & q & -> & _ & Hq). injection Ha as <- <-. inversion Hq. discriminate. }
      destruct (strip_prefix [114; 35]%N (n ++ (a :: t) ++ s)) as [u|] eqn:E2.
      { exfalso. apply strip_prefix_spec in E2. destruct Hn as (c & q & -> & Hc & Hq). cbn [app] in E2, E1. injection E2 as -> E2.
        destruct q as [|b q]; cbn [app] in *.
        - injection E2 as -> _. discriminate.
        - injection E2 as -> _. inversion Hq. discriminate. }
      apply ident_not_raw_app; [exact Hn|exact Hnc].
    + rewrite <- app_assoc, strip_prefix_app, ident_not_raw_app, Hraw; [reflexivity|exact Hm|exact Hnc].
Qed.
Lemma quote_next lvl r rest : wf r -> joint_ok 39 r -> brk rest -> quote_ok (loop_text lvl r Joint ++ rest).
Proof.
  intros Hr Hj Hb. destruct r as [|x r]; [destruct Hj|]. rewrite wf_cons in Hr. destruct Hr as (Hx & _ & Hr). cbn [joint_ok] in Hj.
  destruct x as [n2 s2|c2 g2 s2|n2 s2|d2 s2 l2]; [|destruct Hj; congruence| |destruct Hj].
  - rewrite loop_ident. cbn [pre app]. rewrite <- app_assoc. exists n2, (loop_text lvl r Alone ++ rest). pose proof (brk_alone lvl r rest Hb) as Hb'.
    split; [apply ident_leaf; [exact Hx|apply brk_edge; exact Hb']|]. destruct (loop_text lvl r Alone ++ rest) as [|a t]; [exact I|]. intros ->. discriminate.
  - rewrite loop_lit. cbn [pre app]. rewrite <- app_assoc. apply quote_lit; [exact Hx|exact Hj].
Qed.

(** ** Lexing the written text gives the tokens back *)
Definition relexes (l : list tt) : Prop := forall lvl sp g rest trees stk, wf l -> white g -> brk rest ->
  exists g' l', white g' /\ map unspan l' = map unspan l /\
    steps (LS (g ++ loop_text lvl l sp ++ rest) trees stk) (LS (g' ++ rest) (trees ++ l') stk).
Lemma open_group d s o c : delimiters d = Some (o, c) -> (d = DParen -> starts_with error_repr (40%N :: s) = false) -> open_delim (o :: s) = Some d.
Proof.
  destruct d; cbn; intro H; [| | |discriminate]; injection H as <- <-; unfold open_delim; cbn [N.eqb Pos.eqb]; [|reflexivity|reflexivity].
  intro E. rewrite E by reflexivity. reflexivity.
Qed.
Lemma close_group d o c : delimiters d = Some (o, c) -> close_delim c = Some d /\ brkc c = true /\ lex_white c = false /\ c <> 47%N /\ (forall r, open_delim (c :: r) = None).
Proof. destruct d; cbn; intro H; [| | |discriminate]; injection H as <- <-; repeat split; discriminate. Qed.
Lemma delim_eqb_refl d : delim_eqb d d = true.
Proof. destruct d; reflexivity. Qed.
Lemma no_error_repr s : match s with a :: b :: _ => ~ (a = 47%N /\ b = 42%N) | _ => True end -> starts_with error_repr (40%N :: s) = false.
Proof.
  intro H. destruct (starts_with error_repr (40%N :: s)) eqn:E; [|reflexivity]. apply starts_with_spec in E as (r & E). injection E as ->. exfalso. apply H. auto.
Qed.
Lemma relexes_list l : Forall (fun t => match t with TGroup _ _ inner => relexes inner | _ => True end) l -> relexes l.
Proof.
  induction 1 as [|t r Ht Hr IH]; intros lvl sp g rest trees stk Hw Hg Hb.
  { exists g, []. split; [exact Hg|]. split; [reflexivity|]. rewrite app_nil_r. constructor. }
  (* one token, then the others *)
  assert (Next : forall g1 sp1 t' lvl1, wf r -> white g1 -> unspan t' = unspan t ->
      steps (LS (g ++ loop_text lvl (t :: r) sp ++ rest) trees stk) (LS (g1 ++ loop_text lvl1 r sp1 ++ rest) (trees ++ [t']) stk) ->
      exists g' l', white g' /\ map unspan l' = map unspan (t :: r) /\
        steps (LS (g ++ loop_text lvl (t :: r) sp ++ rest) trees stk) (LS (g' ++ rest) (trees ++ l') stk)).
  { intros g1 sp1 t' lvl1 Hr' Hg1 Ht' Hst. destruct (IH lvl1 sp1 g1 rest (trees ++ [t']) stk Hr' Hg1 Hb) as (g' & l' & A & B & C).
    exists g', (t' :: l'). split; [exact A|]. split; [cbn; congruence|]. eapply steps_trans; [exact Hst|]. rewrite <- app_assoc in C. exact C. }
  pose proof Hw as Hw0. rewrite wf_cons in Hw. destruct Hw as (Hwt & Hj & Hwr).
  assert (Gp : white (g ++ pre sp)) by (apply white_app; [exact Hg|apply white_pre]).
  destruct t as [n s|c k s|n s|d s l].
  - rewrite loop_ident in *. destruct (ident_leaf n (loop_text lvl r Alone ++ rest) Hwt (brk_edge _ (brk_alone lvl r rest Hb))) as (L & S & O & C & _).
    destruct (step_leaf (g ++ pre sp) _ trees stk _ _ Gp S O C L) as (sp' & St).
    apply (Next [] Alone (TIdent n sp') lvl Hwr (Forall_nil _) eq_refl). apply steps_one. rewrite <- !app_assoc in *. exact St.
  - rewrite loop_punct in *. destruct Hwt as (Hc & Hq).
    assert (Pt : pre sp ++ c :: after_punct lvl c k r rest = (pre sp ++ c :: (if ((c =? 44)%N || (c =? 59)%N) && spacing_eqb k Alone && more r then nl k lvl ++ loop_text lvl r Joint else loop_text lvl r k)) ++ rest).
    { rewrite <- app_assoc. reflexivity. }
    pose proof (solid_loop lvl (TPunct c k s) r rest Hw0 Hb) as S. rewrite loop_punct in S. cbn [pre app] in S. change (solid (c :: after_punct lvl c k r rest)) in S.
    assert (L : leaf_token (c :: after_punct lvl c k r rest) = Some (TPunct c k, after_punct lvl c k r rest)).
    { destruct (N.eq_dec c 39) as [->|Hn].
      - rewrite (Hq eq_refl) in *. rewrite after_joint. apply quote_leaf. apply quote_next; assumption.
      - apply punct_leaf; [exact Hc|exact Hn|exact S|]. destruct k.
        + rewrite after_joint. symmetry. apply (joint_next lvl c); assumption.
        + rewrite punct_char_brk by (apply after_alone; exact Hb). reflexivity. }
    pose proof (punct_facts c Hc) as (_ & _ & _ & _ & _ & Fc & Fo & _).
    destruct (step_leaf (g ++ pre sp) (c :: after_punct lvl c k r rest) trees stk _ _ Gp S (Fo _) ltac:(intros c' t' E; injection E as <- _; exact Fc) L) as (sp' & St).
    rewrite <- Pt in *. unfold after_punct in St at 2.
    destruct (_ && more r).
    + apply (Next (nl k lvl) Joint (TPunct c k sp') lvl Hwr (white_nl k lvl) eq_refl). apply steps_one. rewrite <- !app_assoc in *. exact St.
    + apply (Next [] k (TPunct c k sp') lvl Hwr (Forall_nil _) eq_refl). apply steps_one. rewrite <- !app_assoc in *. exact St.
  - rewrite loop_lit in *. destruct (lit_leaf n (loop_text lvl r Alone ++ rest) Hwt (brk_touch _ (brk_alone lvl r rest Hb)) (brk_calm n _ (brk_alone lvl r rest Hb))) as (L & S & O & C).
    destruct (step_leaf (g ++ pre sp) _ trees stk _ _ Gp S O C L) as (sp' & St).
    apply (Next [] Alone (TLit n sp') lvl Hwr (Forall_nil _) eq_refl). apply steps_one. rewrite <- !app_assoc in *. exact St.
  - rewrite wf_group in Hwt. destruct Hwt as (Hd & Hl). destruct (delimiters_some d Hd) as (o & c & E). rewrite (loop_group _ _ _ _ _ _ o c E) in *.
    destruct (close_group d o c E) as (Cd & Cb & Cw & C47 & Co).
    set (tail := (if more r then nl Alone lvl ++ loop_text lvl r Joint else []) ++ rest).
    set (body := match l with [] => [] | _ => List.concat (c_newline ind Joint) ++ List.concat (c_indent ind (S lvl)) ++ loop_text (S lvl) l Joint ++ nl Joint lvl end) in *.
    assert (Et : g ++ (pre sp ++ o :: body ++ c :: (if more r then nl Alone lvl ++ loop_text lvl r Joint else [])) ++ rest = (g ++ pre sp) ++ o :: body ++ c :: tail).
    { unfold tail. rewrite <- !app_assoc. cbn [app]. rewrite <- !app_assoc. reflexivity. }
    rewrite Et in *.
    assert (So : solid (o :: body ++ c :: tail)). { destruct d; [| | |congruence]; injection E as <- <-; split; try reflexivity; discriminate. }
    (* the opening delimiter *)
    assert (Op : open_delim (o :: body ++ c :: tail) = Some d).
    { apply (open_group d _ o c E). intros ->. apply no_error_repr. destruct l as [|x l']; unfold body.
      - cbn [app]. destruct tail; [exact I|]. intros (F & _). congruence.
      - cbn in E. injection E as <- <-. rewrite <- !app_assoc. unfold ind_ok in Hind. destruct ind as [i|] eqn:Ei.
        + cbn [c_newline List.concat app]. match goal with |- match ?x with _ => _ end => destruct x end; [exact I|]. intros (F & _). discriminate.
        + cbn [c_newline c_indent List.concat app]. assert (Sl : solid (loop_text (S lvl) (x :: l') Joint ++ nl Joint lvl ++ 41%N :: tail)).
          { apply solid_loop; [exact Hl|]. unfold nl. rewrite Ei. reflexivity. }
          destruct (loop_text (S lvl) (x :: l') Joint ++ nl Joint lvl ++ 41%N :: tail) as [|a [|b y]]; [exact I|exact I|]. intros (-> & ->). destruct Sl as (_ & Sl). destruct (Sl eq_refl). congruence. }
    assert (St1 : lex_step file src (LS ((g ++ pre sp) ++ o :: body ++ c :: tail) trees stk) = inl (LS (body ++ c :: tail) [] ((offset src (o :: body ++ c :: tail), d, trees) :: stk))).
    { rewrite step_solid by assumption. rewrite Op. reflexivity. }
    set (lo := offset src (o :: body ++ c :: tail)) in *. clearbody lo.
    (* the tokens inside *)
    assert (In_ : exists g' l', white g' /\ map unspan l' = map unspan l /\
       steps (LS (body ++ c :: tail) [] ((lo, d, trees) :: stk)) (LS (g' ++ c :: tail) l' ((lo, d, trees) :: stk))).
    { destruct l as [|x l'].
      - exists [], []. split; [constructor|]. split; [reflexivity|]. constructor.
      - assert (Hb2 : brk (nl Joint lvl ++ c :: tail)).
        { unfold nl. unfold ind_ok in Hind. destruct ind as [i|]; [reflexivity|]. exact Cb. }
        destruct (Ht (S lvl) Joint (List.concat (c_newline ind Joint) ++ List.concat (c_indent ind (S lvl))) (nl Joint lvl ++ c :: tail) []
          ((lo, d, trees) :: stk) Hl (white_app _ _ (white_newline Joint) (white_indent (S lvl))) Hb2) as (g' & l2 & A & B & C).
        exists (g' ++ nl Joint lvl), l2. split; [apply white_app; [exact A|apply white_nl]|]. split; [exact B|]. unfold body. rewrite <- !app_assoc. rewrite <- !app_assoc in C. exact C. }
    destruct In_ as (g' & l' & Hg' & Hl' & St2).
    (* the closing delimiter *)
    assert (St3 : exists sp', lex_step file src (LS (g' ++ c :: tail) l' ((lo, d, trees) :: stk)) = inl (LS tail (trees ++ [TGroup d sp' l']) stk)).
    { rewrite step_solid; [|exact Hg'|split; [exact Cw|intros ->; congruence]]. rewrite Co, Cd, delim_eqb_refl. eauto. }
    destruct St3 as (sp' & St3).
    assert (Un : unspan (TGroup d sp' l') = unspan (TGroup d s l)) by (cbn [unspan]; congruence).
    assert (St : steps (LS ((g ++ pre sp) ++ o :: body ++ c :: tail) trees stk) (LS tail (trees ++ [TGroup d sp' l']) stk)).
    { eapply st_step; [exact St1|]. eapply steps_trans; [exact St2|]. apply steps_one. exact St3. }
    destruct r as [|y r']; cbn [more] in *.
    + exists [], [TGroup d sp' l']. split; [constructor|]. split; [cbn [map]; congruence|]. exact St.
    + apply (Next (nl Alone lvl) Joint (TGroup d sp' l') lvl Hwr (white_nl Alone lvl) Un). 
      replace (nl Alone lvl ++ loop_text lvl (y :: r') Joint ++ rest) with tail by (unfold tail; rewrite <- app_assoc; reflexivity). exact St.
Qed.
Lemma relexes_all l : relexes l.
Proof.
  apply relexes_list. apply Forall_forall. intros t _. induction t as [n s|c k s|n s|d s l' IH] using tt_ind'; try exact I. apply relexes_list. exact IH.
Qed.
End Steps.
End LexWf.
