(** * PropPlace: where an error points in the text (C56). *)
From Verif Require Import Base Float Literal Syn Ast Derive Grammar Spec SynFacts Lawful Mono Combinators GrammarBeh Assoc Origin Furthest Fmt Lexer Offsets PropSpan LexFacts LexWf LexOut LexRun PropLex Tree NodeSpan PropParse PropMsg PropStr Examples.
Local Open Scope nat_scope.

(** ** Positions next to each other *)
Section Next.
Variable (src : text).
Lemma firstn_next a c r : skipn a src = c :: r -> firstn (S a) src = firstn a src ++ [c].
Proof.
  revert src. induction a as [|a IH]; intros [|x s] H; cbn [skipn] in H; try discriminate H.
  - injection H as -> ->. reflexivity.
  - cbn [firstn app]. f_equal. apply IH. exact H.
Qed.
Lemma substring_one a c : substring src a (S a) = [c] -> exists r, skipn a src = c :: r.
Proof. unfold substring. replace (S a - a) with 1 by lia. destruct (skipn a src) as [|x r]; [discriminate|]. cbn. intro H. injection H as ->. eauto. Qed.
Lemma next_position a c p : substring src a (S a) = [c] -> c <> 10%N -> at_position src a p -> at_position src (S a) (LC (lc_line p) (S (lc_col p))).
Proof.
  intros H Hc (done & line & E & Hn & Hd & Hl & Hk). destruct (substring_one a c H) as (r & Hr). exists done, (line ++ [c]).
  rewrite (firstn_next a c r Hr), E, app_assoc. split; [reflexivity|]. split; [rewrite in_app_iff; cbn; intuition congruence|]. split; [exact Hd|].
  cbn [lc_line lc_col]. split; [exact Hl|]. rewrite app_length, Hk. cbn. lia.
Qed.
Lemma one_length a c : substring src a (S a) = [c] -> S a <= List.length src.
Proof.
  intro H. destruct (substring_one a c H) as (r & Hr). assert (E : List.length (skipn a src) = S (List.length r)) by (rewrite Hr; reflexivity). rewrite skipn_length in E. lia.
Qed.
Lemma prev_position a c p : substring src a (S a) = [c] -> c <> 10%N -> at_position src (S a) p -> at_position src a (LC (lc_line p) (pred (lc_col p))).
Proof.
  intros H Hc Hp. pose proof (one_length a c H) as Ha. pose proof (line_column_position src a ltac:(lia)) as H0.
  pose proof (next_position a c _ H Hc H0) as H1. rewrite (position_unique src (S a) _ _ Hp H1). cbn [lc_line lc_col pred]. destruct (line_column src a). exact H0.
Qed.
(** the first and the last character of a span *)
Lemma covers_open sp a b o : covers src sp a b -> a < b -> substring src a (S a) = [o] -> o <> 10%N -> covers src (open_span sp) a (S a).
Proof.
  intros (Hab & Hs & He) Hlt Ho Hn. split; [pose proof (one_length a o Ho); lia|]. unfold open_span. cbn [sp_start sp_end]. split; [exact Hs|].
  eapply min_position; [|eapply next_position; eassumption|exact He]. lia.
Qed.
Lemma covers_close sp a b c : covers src sp a b -> a < b -> substring src (pred b) b = [c] -> c <> 10%N -> covers src (close_span sp) (pred b) b.
Proof.
  intros (Hab & Hs & He) Hlt Hc Hn. destruct b as [|b]; [lia|]. cbn [pred] in *. split; [lia|]. unfold close_span. cbn [sp_start sp_end]. split; [|exact He].
  assert (Hp : at_position src b (LC (lc_line (sp_end sp)) (pred (lc_col (sp_end sp))))) by (eapply prev_position; eassumption).
  unfold lc_max. destruct (lc_leb _ (sp_start sp)) eqn:E; [|exact Hp].
  pose proof (position_order src a b _ _ ltac:(lia) Hs Hp) as E2.
  assert (EE : sp_start sp = LC (lc_line (sp_end sp)) (pred (lc_col (sp_end sp)))); [|rewrite EE; exact Hp].
  clear - E E2. unfold lc_leb in *. destruct (sp_start sp) as [l1 c1]. cbn [lc_line lc_col] in *.
  apply orb_true_iff in E, E2. rewrite !andb_true_iff, !Nat.ltb_lt, !Nat.eqb_eq, !Nat.leb_le in *.
  assert (l1 = lc_line (sp_end sp)) by lia. assert (c1 = pred (lc_col (sp_end sp))) by lia. congruence.
Qed.
End Next.

(** ** Specification: what an error can point at *)
Section Places.
Context {U : unicode}.
(** a minus sign and a literal, one right after the other *)
Inductive follows (x y : tt) : list tt -> Prop :=
| f_here r : follows x y (x :: y :: r)
| f_next z r : follows x y r -> follows x y (z :: r)
| f_inside d sp l r : follows x y l -> follows x y (TGroup d sp l :: r).
(** the characters from number [lo] up to number [hi] of the text, of which these are the tokens, are ... *)
Inductive pointed (src : text) (ts : list tt) (lo hi : nat) : Prop :=
| at_token t : PropLex.within t ts -> match t with TGroup _ _ _ => False | _ => True end ->
    covers src (tt_span t) lo hi -> substring src lo hi = leaf_text t -> pointed src ts lo hi
| at_opening d sp l o c b : PropLex.within (TGroup d sp l) ts -> delimiters d = Some (o, c) ->
    covers src sp lo b -> hi = S lo -> S lo < b -> substring src lo hi = [o] -> pointed src ts lo hi
| at_closing d sp l o c a : PropLex.within (TGroup d sp l) ts -> delimiters d = Some (o, c) ->
    covers src sp a hi -> hi = S lo -> a < lo -> substring src lo hi = [c] -> pointed src ts lo hi
| at_group d sp l o c inside : PropLex.within (TGroup d sp l) ts -> delimiters d = Some (o, c) ->
    covers src sp lo hi -> substring src lo hi = [o] ++ inside ++ [c] -> pointed src ts lo hi
| at_negative sg sp1 repr sp2 gap m k : follows (TPunct 45%N sg sp1) (TLit repr sp2) ts ->
    covers src sp1 lo m -> covers src sp2 k hi -> blank gap (skipn k src) ->
    substring src lo hi = [45%N] ++ gap ++ repr -> pointed src ts lo hi
| at_doc inner u a b : a <= lo -> hi <= b -> doc_text inner u (substring src a b) (skipn b src) -> pointed src ts lo hi.

Lemma pointed_mono src l l' lo hi : (forall t, PropLex.within t l -> PropLex.within t l') -> (forall x y, follows x y l -> follows x y l') ->
  pointed src l lo hi -> pointed src l' lo hi.
Proof.
  intros H H2 [t A B C D|d sp l0 o c b A B C D E F|d sp l0 o c a A B C D E F|d sp l0 o c i A B C D|sg sp1 rp sp2 gap m k A B C D E|inner u a b A B C].
  - eapply at_token; eauto.
  - eapply at_opening; eauto.
  - eapply at_closing; eauto.
  - eapply at_group; eauto.
  - eapply at_negative; eauto.
  - eapply at_doc; eauto.
Qed.
Lemma pointed_next src z l lo hi : pointed src l lo hi -> pointed src (z :: l) lo hi.
Proof. apply pointed_mono; intros; constructor; assumption. Qed.
Lemma pointed_inside src d sp l r lo hi : pointed src l lo hi -> pointed src (TGroup d sp l :: r) lo hi.
Proof. apply pointed_mono; intros; [apply w_inside|apply f_inside]; assumption. Qed.
Lemma pointed_app src a l lo hi : pointed src l lo hi -> pointed src (a ++ l) lo hi.
Proof. intro H. induction a as [|z a IH]; [exact H|]. cbn [app]. apply pointed_next. exact IH. Qed.

(** the text a span covers *)
Definition points (file : nat) (src : text) (ts : list tt) (sp : span) : Prop :=
  exists lo hi, lo < hi /\ covers src sp lo hi /\ sp_file sp = file /\ pointed src ts lo hi.

Lemma delimiters_not_newline d o c : delimiters d = Some (o, c) -> o <> 10%N /\ c <> 10%N.
Proof. destruct d; cbn; intro H; try discriminate H; injection H as <- <-; split; discriminate. Qed.
Lemma closes_last n t : closes n t -> exists u, t = u ++ [47%N].
Proof.
  induction 1 as [|n t _ [u ->]|n t _ [u ->]|n c t _ [u ->] _ _].
  - exists [42%N]. reflexivity.
  - exists ([47; 42]%N ++ u). rewrite <- app_assoc. reflexivity.
  - exists ([42; 47]%N ++ u). rewrite <- app_assoc. reflexivity.
  - exists (c :: u). reflexivity.
Qed.
Lemma doc_ends inner t c rest : doc_text inner t c rest -> exists m y, c = 47%N :: m ++ [y] /\ y <> 10%N.
Proof.
  intros (_ & [(((u & Hu & Hn) & _) & _)|(u & -> & Hc & _)]).
  - subst c. destruct u as [|y u _] using rev_ind.
    + exists [], 47%N. split; [reflexivity|discriminate].
    + exists (47%N :: u), y. split; [reflexivity|]. intros ->. apply Hn. apply in_or_app. right. left. reflexivity.
  - apply closes_last in Hc as (v & ->). exists (42%N :: v), 47%N. split; [reflexivity|discriminate].
Qed.
Lemma substring_head' src a b c r : a < b -> substring src a b = c :: r -> substring src a (S a) = [c].
Proof. unfold substring. replace (S a - a) with 1 by lia. destruct (b - a) as [|n] eqn:E; [lia|]. intros _. destruct (skipn a src) as [|x l]; [discriminate|]. cbn. intro H. injection H as -> _. reflexivity. Qed.
Lemma substring_last src a b y r : a < b <= List.length src -> substring src a b = r ++ [y] -> substring src (pred b) b = [y].
Proof.
  intros H E. rewrite <- (substring_cat src a (pred b) b) in E by lia.
  assert (L : List.length (substring src (pred b) b) = 1) by (unfold substring; rewrite firstn_length, skipn_length; lia).
  destruct (substring src (pred b) b) as [|z [|? ?]]; try discriminate L. apply app_inj_tail in E as (_ & ->). reflexivity.
Qed.
Lemma doc_spots inner t sp x : In x (spots (doc_tokens inner t sp)) -> x = sp \/ x = open_span sp \/ x = close_span sp.
Proof. unfold doc_tokens. destruct inner; cbn; intuition. Qed.
Lemma doc_token_spans inner t sp x : In x (token_spans (doc_tokens inner t sp)) -> x = sp.
Proof. unfold doc_tokens. destruct inner; cbn; intuition. Qed.
Lemma doc_points file src inner t sp a b ts x : a < b -> covers src sp a b -> sp_file sp = file -> doc_text inner t (substring src a b) (skipn b src) ->
  x = sp \/ x = open_span sp \/ x = close_span sp -> points file src ts x.
Proof.
  intros Hab Hc Hf Hd Hx. destruct (doc_ends _ _ _ _ Hd) as (m & y & Em & Hy).
  pose proof (substring_head' src a b _ _ Hab Em) as H1. assert (H2 : substring src (pred b) b = [y]).
  { eapply (substring_last src a b y (47%N :: m)); [destruct Hc; lia|exact Em]. }
  destruct Hx as [->|[->| ->]].
  - exists a, b. repeat (split; [assumption|]). eapply at_doc; [| |exact Hd]; lia.
  - exists a, (S a). split; [lia|]. split; [eapply covers_open; [exact Hc|lia|exact H1|discriminate]|]. split; [exact Hf|]. eapply at_doc; [| |exact Hd]; lia.
  - exists (pred b), b. split; [lia|]. split; [eapply covers_close; [exact Hc|lia|exact H2|exact Hy]|]. split; [exact Hf|]. eapply at_doc; [| |exact Hd]; lia.
Qed.
Lemma points_mono file src l l' sp : (forall lo hi, pointed src l lo hi -> pointed src l' lo hi) -> points file src l sp -> points file src l' sp.
Proof. intros H (lo & hi & A & B & C & D). exists lo, hi. auto. Qed.

(** places and tokens of a stream that lies in a text *)
Lemma placed_spots file src lo hi l : placed file src lo hi l -> forall x, In x (spots l) -> points file src l x.
Proof.
  induction 1 as [lo hi H1 H2|lo a b hi t r H1 H2 H3 H4 H5 H6 H7 IH|lo a b hi d o c sp l r H1 H1' H2 H3 H4 H5 H6 H7 H8 IH8 H9 IH|lo a b hi inner t sp r H1 H2 H3 H4 H5 H6 IH]; intros x Hx.
  - destruct Hx.
  - cbn [spots] in Hx. apply in_app_iff in Hx as [Hx|Hx]; [|eapply points_mono; [intros; apply pointed_next; eassumption|exact (IH x Hx)]].
    assert (x = tt_span t) as -> by (destruct t; try contradiction; destruct Hx as [<-|[]]; reflexivity).
    exists a, b. split; [lia|]. split; [exact H3|]. split; [exact H4|]. apply (at_token _ _ _ _ t); auto. apply w_here.
  - cbn [spots] in Hx. rewrite spots1_group in Hx. destruct (delimiters_not_newline _ _ _ H5) as (No & Nc).
    apply in_app_iff in Hx as [Hx|Hx]; [|eapply points_mono; [intros; apply pointed_next; eassumption|exact (IH x Hx)]].
    destruct Hx as [<-|Hx]; [|apply in_app_iff in Hx as [Hx|[<-|[]]]].
    + exists a, (S a). split; [lia|]. split; [eapply covers_open; [exact H3|lia|exact H6|exact No]|]. split; [exact H4|].
      eapply at_opening; [apply w_here|exact H5|exact H3|reflexivity|lia|exact H6].
    + eapply points_mono; [intros; apply pointed_inside; eassumption|exact (IH8 x Hx)].
    + exists (pred b), b. split; [lia|]. split; [eapply covers_close; [exact H3|lia|exact H7|exact Nc]|]. split; [exact H4|].
      eapply at_closing; [apply w_here|exact H5|exact H3|lia|lia|exact H7].
  - rewrite spots_app in Hx. apply in_app_iff in Hx as [Hx|Hx]; [|eapply points_mono; [intros; apply pointed_app; eassumption|exact (IH x Hx)]].
    eapply doc_points; [|exact H3|exact H4|exact H5|eapply doc_spots; exact Hx]. lia.
Qed.
Lemma placed_tokens file src lo hi l : placed file src lo hi l -> forall x, In x (token_spans l) -> points file src l x.
Proof.
  induction 1 as [lo hi H1 H2|lo a b hi t r H1 H2 H3 H4 H5 H6 H7 IH|lo a b hi d o c sp l r H1 H1' H2 H3 H4 H5 H6 H7 H8 IH8 H9 IH|lo a b hi inner t sp r H1 H2 H3 H4 H5 H6 IH]; intros x Hx.
  - destruct Hx.
  - cbn [token_spans flat_map] in Hx. apply in_app_iff in Hx as [Hx|Hx]; [|eapply points_mono; [intros; apply pointed_next; eassumption|exact (IH x Hx)]].
    assert (x = tt_span t) as -> by (destruct t; try contradiction; destruct Hx as [<-|[]]; reflexivity).
    exists a, b. split; [lia|]. split; [exact H3|]. split; [exact H4|]. apply (at_token _ _ _ _ t); auto. apply w_here.
  - cbn [token_spans flat_map] in Hx. rewrite token_spans1_group in Hx.
    apply in_app_iff in Hx as [Hx|Hx]; [|eapply points_mono; [intros; apply pointed_next; eassumption|exact (IH x Hx)]].
    destruct Hx as [<-|Hx].
    + exists a, b. split; [lia|]. split; [exact H3|]. split; [exact H4|].
      eapply (at_group _ _ _ _ d sp l o c (substring src (S a) (pred b))); [apply w_here|exact H5|exact H3|].
      rewrite <- (substring_cat src a (S a) b) by lia. rewrite <- (substring_cat src (S a) (pred b) b) by lia. rewrite H6, H7. reflexivity.
    + eapply points_mono; [intros; apply pointed_inside; eassumption|exact (IH8 x Hx)].
  - rewrite token_spans_app in Hx. apply in_app_iff in Hx as [Hx|Hx]; [|eapply points_mono; [intros; apply pointed_app; eassumption|exact (IH x Hx)]].
    eapply doc_points; [|exact H3|exact H4|exact H5|left; eapply doc_token_spans; exact Hx]. lia.
Qed.

Lemma placed_first file src lo hi repr sp2 r : placed file src lo hi (TLit repr sp2 :: r) ->
  exists k d, lo <= k < d /\ covers src sp2 k d /\ sp_file sp2 = file /\ substring src k d = repr /\ blank (substring src lo k) (skipn k src).
Proof.
  intro H. inversion H as [|? a b ? ? ? A1 A2 A3 A4 A5 A6 A7| |? a b ? inner t sp0 ? B1 B2 B3 B4 B5 B6 B7]; subst.
  - exists a, b. repeat (split; [assumption || reflexivity|]). assumption.
Qed.
Lemma placed_negative file src lo hi l sg sp1 repr sp2 : placed file src lo hi l -> follows (TPunct 45%N sg sp1) (TLit repr sp2) l ->
  points file src l (join_or sp1 sp2).
Proof.
  induction 1 as [lo hi H1 H2|lo a b hi t r H1 H2 H3 H4 H5 H6 H7 IH|lo a b hi d o c sp l r H1 H1' H2 H3 H4 H5 H6 H7 H8 IH8 H9 IH|lo a b hi inner t sp r H1 H2 H3 H4 H5 H6 IH]; intros Hx.
  - inversion Hx.
  - inversion Hx as [r' E1|z r' H' E1|d' sp' l' r' H' E1]; subst; [| |contradiction].
    + destruct (placed_first _ _ _ _ _ _ _ H7) as (k & d & K1 & K2 & K3 & K4 & K5). cbn [tt_span leaf_text] in *.
      destruct (covers_join src sp1 sp2 a b k d H3 K2 ltac:(congruence) ltac:(lia) ltac:(lia)) as (J1 & J2).
      exists a, d. split; [lia|]. split; [exact J1|]. split; [exact J2|]. eapply (at_negative _ _ _ _ sg sp1 repr sp2 (substring src b k)); [apply f_here|exact H3|exact K2|exact K5|].
      rewrite <- (substring_cat src a b d) by lia. rewrite <- (substring_cat src b k d) by lia. rewrite H6, K4. reflexivity.
    + eapply points_mono; [intros; apply pointed_next; eassumption|exact (IH H')].
  - inversion Hx as [r' E1|z r' H' E1|d' sp' l' r' H' E1]; subst.
    + eapply points_mono; [intros; apply pointed_next; eassumption|exact (IH H')].
    + eapply points_mono; [intros; apply pointed_inside; eassumption|exact (IH8 H')].
  - assert (Hr : follows (TPunct 45%N sg sp1) (TLit repr sp2) r).
    { clear - Hx. unfold doc_tokens in Hx. destruct inner; cbn [app] in Hx;
      repeat match goal with H : follows _ _ (TPunct _ _ _ :: _) |- _ => inversion H; subst; clear H | H : follows _ _ (TIdent _ _ :: _) |- _ => inversion H; subst; clear H
        | H : follows _ _ (TLit _ _ :: _) |- _ => inversion H; subst; clear H | H : follows _ _ (TGroup _ _ _ :: _) |- _ => inversion H; subst; clear H | H : follows _ _ [] |- _ => inversion H end; assumption. }
    eapply points_mono; [intros; apply pointed_app; eassumption|exact (IH Hr)].
Qed.
End Places.

(** ** Errors of the lexer *)
Section LexErrors.
Context {U : unicode} (sane : sane_tables U).
(** the text from [lo] to [hi] lexes, but for brackets that are open at [hi]; innermost first *)
Inductive unclosed (file : nat) (src : text) (lo : nat) : nat -> list delim -> Prop :=
| u_none hi ts : placed file src lo hi ts -> unclosed file src lo hi []
| u_open a o c d ds hi ts : unclosed file src lo a ds -> delimiters d = Some (o, c) -> substring src a (S a) = [o] ->
    placed file src (S a) hi ts -> unclosed file src lo hi (d :: ds).
(** what the lexer rejects at [p] *)
Inductive lex_problem (file : nat) (src : text) (p : nat) : Prop :=
| never_closed ds d o c ts : unclosed file src (start_of src) p ds -> delimiters d = Some (o, c) -> substring src p (S p) = [o] ->
    placed file src (S p) (List.length src) ts -> lex_problem file src p
| not_open ds d o c : unclosed file src (start_of src) p ds -> delimiters d = Some (o, c) -> substring src p (S p) = [c] ->
    hd_error ds <> Some d -> lex_problem file src p
| no_token ds : unclosed file src (start_of src) p ds -> p < List.length src -> literal (skipn p src) = None ->
    lex_punct (skipn p src) = None -> ident (skipn p src) = None -> lex_problem file src p.

Lemma frames_unclosed file src top stk : forall lo, frames file src top lo stk ->
  exists ds, ds = map (fun f => snd (fst f)) stk /\ forall hi ts, placed file src lo hi ts -> unclosed file src top hi ds.
Proof.
  induction stk as [|((a, d), outer) stk IH]; intros lo H; cbn [frames] in H.
  - subst lo. exists []. split; [reflexivity|]. intros hi ts Hp. eapply u_none. exact Hp.
  - destruct H as (-> & (o & c & Hd & Ho) & _ & lo' & m & Hp & Hm & Hb & Hf). destruct (IH lo' Hf) as (ds & -> & Hu).
    exists (d :: map (fun f => snd (fst f)) stk). split; [reflexivity|]. intros hi ts Hp'. eapply u_open; [|exact Hd|exact Ho|exact Hp'].
    apply (Hu a (outer ++ [])). apply (placed_app file src _ m); [exact Hp|]. apply p_nil; [lia|exact Hb].
Qed.
Lemma step_problem file src st sp : inv file src (start_of src) st -> lex_step file src st = inr (LErr sp) ->
  exists p, p <= List.length src /\ sp = mk_span file src p p /\ lex_problem file src p.
Proof.
  intros (Hsuf & Hw & lo & Hf & Hp) H. unfold lex_step in H. destruct (skip_blank (l_rest st)) as (g & Eg & Hg & Hwh & Hnb).
  set (s := skip_whitespace (l_rest st)) in *.
  assert (Hs : suffix s src) by (eapply suffix_trans; [exists g; exact Eg|exact Hsuf]).
  destruct (doc_comment s) as [(f, rest)|]; [discriminate H|].
  pose proof Hsuf as Hsuf'. rewrite Eg in Hsuf'. destruct (offset_piece src g s Hsuf') as (Lg & Pg). rewrite <- Eg in Lg, Pg.
  assert (Bg : forall ts, placed file src lo (offset src (l_rest st)) ts -> placed file src lo (offset src s) ts).
  { intros ts Hts. rewrite <- (app_nil_r ts). apply (placed_app file src _ (offset src (l_rest st))); [exact Hts|]. apply p_nil.
    - pose proof (offset_le src s). lia.
    - rewrite Pg. replace (skipn (offset src s) src) with s; [exact Hg|]. symmetry. apply offset_skipn. exact Hs. }
  specialize (Bg _ Hp). destruct (frames_unclosed _ _ _ _ _ Hf) as (ds & Eds & Hu). specialize (Hu _ _ Bg).
  destruct s as [|c r] eqn:Es.
  { destruct (l_stack st) as [|((a, d), outer) stk] eqn:Est; [discriminate H|]. injection H as <-. cbn [frames] in Hf. destruct Hf as (-> & (o & c & Hd & Ho) & _ & lo' & m & Hp' & Hm & Hb & Hf').
    exists a. split; [lia|]. split; [reflexivity|]. destruct (frames_unclosed _ _ _ _ _ Hf') as (ds' & _ & Hu').
    eapply never_closed; [|exact Hd|exact Ho|]; [|replace (List.length src) with (offset src []) by (unfold offset; cbn; lia); exact Bg].
    apply (Hu' a (outer ++ [])). apply (placed_app file src _ m); [exact Hp'|]. apply p_nil; [lia|exact Hb]. }
  destruct (open_delim (c :: r)) as [d|]; [discriminate H|].
  destruct (substring_head src _ c r Hs eq_refl) as (Xa & _).
  assert (Lt : offset src (c :: r) < List.length src) by (pose proof (one_length src _ _ Xa); lia).
  destruct (close_delim c) as [d|] eqn:Ec.
  { destruct (close_spec c d Ec) as (o & Hd).
    assert (G : sp = mk_span file src (offset src (c :: r)) (offset src (c :: r)) -> hd_error ds <> Some d ->
      exists p, p <= List.length src /\ sp = mk_span file src p p /\ lex_problem file src p).
    { intros -> Hn. exists (offset src (c :: r)). split; [lia|]. split; [reflexivity|]. eapply not_open; [exact Hu|exact Hd|exact Xa|exact Hn]. }
    destruct (l_stack st) as [|((a, d'), outer) stk]; [|destruct (delim_eqb d' d) eqn:Ee; [discriminate H|]]; injection H as <-; apply G; try reflexivity; rewrite Eds; cbn; [discriminate|].
    intro X. injection X as ->. destruct d; discriminate Ee. }
  destruct (leaf_token (c :: r)) as [(f, rest)|] eqn:El; [discriminate H|]. injection H as <-.
  exists (offset src (c :: r)). split; [lia|]. split; [reflexivity|].
  assert (Esk : skipn (offset src (c :: r)) src = c :: r) by (apply offset_skipn; exact Hs).
  unfold leaf_token in El. destruct (literal (c :: r)) as [(x1, x2)|] eqn:E1; [discriminate El|]. destruct (lex_punct (c :: r)) as [((x1, x2), x3)|] eqn:E2; [discriminate El|].
  destruct (ident (c :: r)) as [(x1, x2)|] eqn:E3; [discriminate El|].
  eapply no_token; [exact Hu|exact Lt|rewrite Esk; assumption..].
Qed.
Theorem C56_lex_errors_point_at_the_problem file src sp : forallb valid_char src = true -> lex file src = LErr sp ->
  exists p, covers src sp p p /\ sp_file sp = file /\ lex_problem file src p.
Proof.
  intros Hv H. rewrite lex_run in H.
  assert (Hi : inv file src (start_of src) (LS (no_bom src) [] [])).
  { clear. assert (Hs : suffix (no_bom src) src) by (destruct src as [|c r]; [apply suffix_refl|]; cbn [no_bom]; destruct (c =? 65279)%N; [apply suffix_cons|]; apply suffix_refl).
    split; [exact Hs|]. split; [exact I|]. exists (start_of src). split; [reflexivity|]. cbn [l_rest l_trees].
    assert (E : offset src (no_bom src) = start_of src).
    { destruct src as [|c r]; [reflexivity|]. unfold offset. cbn [no_bom start_of]. destruct (c =? 65279)%N; cbn [List.length]; lia. }
    rewrite E. apply p_nil; [rewrite <- E; split; [lia|apply offset_le]|]. unfold substring. rewrite Nat.sub_diag. apply b_nil. }
  revert Hi H. generalize (LS (no_bom src) [] []). intro st. remember (List.length (l_rest st)) as n eqn:En. revert st En.
  induction n as [n IH] using lt_wf_ind. intros st -> Hi H. rewrite run_step in H. destruct (lex_step file src st) as [st'|r] eqn:E.
  - destruct (step_inv sane file src _ _ _ Hv Hi E) as (Hi' & Hl). exact (IH _ Hl st' eq_refl Hi' H).
  - subst r. destruct (step_problem file src st sp Hi E) as (p & Hp & -> & Hq). exists p. split; [apply covers_span; lia|]. split; [reflexivity|exact Hq].
Qed.
End LexErrors.

(** ** Errors of the parser *)
Section Errors.
Context {U : unicode} (sane : sane_tables U).
Lemma segment_pops ts l l' : segment l ts -> pops l l' -> visible l = true -> segment l' ts.
Proof.
  intros H Hp Hv. destruct (pops_visible _ _ Hp Hv) as (_ & a & ->). eapply segment_trans; [|exact H]. replace (a ++ l') with (a ++ l' ++ []) by (rewrite app_nil_r; reflexivity). apply seg_here.
Qed.
Definition part_of (ts : list tt) (s : pstate) : Prop := visible (ps_rest s) = true /\ segment (ps_rest s) ts.
Lemma part_frame ts s s' : part_of ts s -> frame s s' -> part_of ts s'.
Proof. intros (H1 & H2) (H3 & _). split; [exact (proj1 (pops_visible _ _ H3 H1))|]. eapply segment_pops; eassumption. Qed.
Lemma part_group ts s d sp inner r u : part_of ts s -> ignore_none (ps_rest s) = TGroup d sp inner :: r -> part_of ts (PS inner (close_span sp) u).
Proof.
  intros (Hv & H) Hi. rewrite visible_ignore_none in Hi by exact Hv. rewrite Hi in *. split; cbn [ps_rest].
  - cbn [visible] in Hv. apply andb_true_iff in Hv as [Hv _]. rewrite visible1_group in Hv. destruct d; [exact Hv..|discriminate].
  - eapply segment_trans; [|exact H]. apply (seg_inside inner [] d sp inner r). apply segment_refl.
Qed.
Lemma origin_part E ts t s path s0 e : origin E t s path s0 e -> part_of ts s -> part_of ts s0.
Proof.
  intros H. induction H; intro Hw; auto;
  repeat match goal with
  | H : yes (tbeh E ?t) ?s ?x ?s1, W : part_of ts ?s |- _ =>
      lazymatch goal with
      | _ : part_of ts s1 |- _ => fail
      | _ => assert (part_of ts s1) by (eapply part_frame; [exact W|eapply yes_frame; exact H])
      end
  end; auto.
  - apply IHorigin. eapply part_group; eassumption.
  - apply IHorigin. eapply part_frame; [exact Hw|eapply seq_frame; eassumption].
  - apply IHorigin. eapply part_frame; [exact Hw|eapply seq_frame; eassumption].
Qed.
Lemma follows_app x y p l : follows x y l -> follows x y (p ++ l).
Proof. intro H. induction p as [|z p IH]; [exact H|]. apply f_next. exact IH. Qed.
Lemma segment_follows x y r l : segment (x :: y :: r) l -> follows x y l.
Proof.
  induction 1 as [p q|p d sp l q H IH]; apply follows_app; [apply f_here|apply f_inside; exact IH].
Qed.
(** an error of a node that gets stuck somewhere in a lexed text *)
Lemma origin_points E t file src ts path s0 e0 : forallb valid_char src = true -> lex file src = LOk ts -> origin E t (start ts) path s0 e0 ->
  points file src ts (e_span e0) \/ e_span e0 = call_site /\ ps_rest s0 = [].
Proof.
  intros Hv Hl Ho. destruct (lex_out sane file src ts Hv Hl) as (Hw & Hp). pose proof (wf_visible ts Hw) as Vis.
  pose proof (Furthest.within_start ts Vis) as Hw0.
  assert (Hs0 : part_of ts s0) by (eapply origin_part; [exact Ho|]; split; [exact Vis|apply segment_refl]).
  pose proof (origin_within E ts _ _ _ _ _ Ho Hw0) as Hi.
  destruct (origin_span E ts _ _ _ _ _ Ho Hw0) as [->|(sg & sp1 & repr & sp2 & r & Er & ->)].
  - destruct (ps_rest s0) as [|t0 r0] eqn:Er.
    + destruct Hi as (_ & [(Hc & a & Hsp)|(a & b & Hsp)]).
      * right. split; [unfold stream_span; rewrite Er; exact Hc|reflexivity].
      * left. apply (placed_spots _ _ _ _ _ Hp). unfold stream_span. rewrite Er. rewrite Hsp, Er. apply in_or_app. right. left. reflexivity.
    + left. apply (placed_spots _ _ _ _ _ Hp). apply within_spot; [exact Hi|]. left. congruence.
  - left. eapply placed_negative; [exact Hp|]. destruct Hs0 as (_ & Hs0). rewrite Er in Hs0. eapply segment_follows. exact Hs0.
Qed.
Lemma pops_token_spans l x r : visible l = true -> ignore_none l = x :: r -> In (tt_span x) (token_spans l).
Proof. intros Hv H. rewrite visible_ignore_none in H by exact Hv. subst l. cbn [token_spans flat_map]. destruct x; left; reflexivity. Qed.

(** An error of [parse_str] is one of the lexer, at what it rejects; or it points at a token, at an opening or
    closing bracket, at a group (that was left early, or is left over), at a negative number or into a doc comment;
    or some node was asked to read at the very end of the text, and the error points nowhere. *)
Theorem C56_errors_point_into_the_text E t n file src e : named E -> forallb valid_char src = true ->
  parse_str (pty E n t) file src = RErr e ->
  (lex file src = LErr (e_span e) /\ exists p, covers src (e_span e) p p /\ sp_file (e_span e) = file /\ lex_problem file src p) \/
  exists ts, lex file src = LOk ts /\
    ((exists lo hi, lo < hi /\ covers src (e_span e) lo hi /\ sp_file (e_span e) = file /\ pointed src ts lo hi) \/
     e_span e = call_site /\ exists path s0 e0, origin E t (start ts) path s0 e0 /\ e = chained path e0 /\ ps_rest s0 = []).
Proof.
  intros HE Hv H. unfold parse_str in H. destruct (lex file src) as [ts|sp] eqn:El.
  - right. exists ts. split; [reflexivity|]. destruct (lex_out sane file src ts Hv El) as (Hw & Hp). pose proof (wf_visible ts Hw) as Vis.
    destruct (C52_whole_input U E t n ts e H) as [(s' & Hs)|(v & s' & Hs & _ & Hu)].
    + apply (traced_pty E HE) in Hs as (path & s0 & e0 & Ho & ->). destruct (origin_points E t file src ts path s0 e0 Hv El Ho) as [P|(P & Q)].
      * left. exact P.
      * right. split; [exact P|]. exists path, s0, e0. auto.
    + left. apply (placed_tokens _ _ _ _ _ Hp). destruct (C41_consumes_a_prefix U E n t _ _ _ Hs) as (P1 & _ & _ & P4). cbn [start ps_rest ps_unexp] in *.
      destruct Hu as [Hu|(Hu & x & r & Hx & ->)]; [exact (P4 _ eq_refl Hu)|].
      apply (token_spans_pops _ _ P1). apply (pops_token_spans _ _ r); [exact (proj1 (pops_visible _ _ P1 Vis))|exact Hx].
  - left. injection H as <-. cbn [e_span]. split; [reflexivity|]. exact (C56_lex_errors_point_at_the_problem sane file src sp Hv El).
Qed.

(** The brackets of a group are where its delimiter spans say. *)
Theorem C56_delimiter_spans file src ts d sp l : forallb valid_char src = true -> lex file src = LOk ts -> PropLex.within (TGroup d sp l) ts ->
  (exists o c, delimiters d = Some (o, c) /\ source_substring src (open_span sp) = Some [o] /\ source_substring src (close_span sp) = Some [c]) \/
  exists a b inner u, covers src sp a b /\ doc_text inner u (substring src a b) (skipn b src).
Proof.
  intros Hv H. destruct (lex_out sane file src ts Hv H) as (_ & Hp). clear H.
  induction Hp as [lo hi H1 H2|lo a b hi t r H1 H2 H3 H4 H5 H6 H7 IH|lo a b hi d' o c sp' l' r H1 H1' H2 H3 H4 H5 H6 H7 H8 IH8 H9 IH|lo a b hi inner t sp' r H1 H2 H3 H4 H5 H6 IH]; intro Hx.
  - inversion Hx.
  - inversion Hx as [r' E1|z r' H' E1|d' sp' l' r' H' E1]; subst; [contradiction|auto|contradiction].
  - inversion Hx as [r' E1|z r' H' E1|d0 sp0 l0 r' H' E1]; subst; [|auto|auto]. left. exists o, c. destruct (delimiters_not_newline _ _ _ H5) as (No & Nc). split; [exact H5|].
    pose proof (covers_open src sp' a b o H3 ltac:(lia) H6 No) as C1. pose proof (covers_close src sp' a b c H3 ltac:(lia) H7 Nc) as C2.
    destruct (C33_ranges_are_the_extent _ _ _ _ C1) as (_ & _ & ->). destruct (C33_ranges_are_the_extent _ _ _ _ C2) as (_ & _ & ->). rewrite H6, H7. auto.
  - apply within_app in Hx as [Hx|Hx]; [|auto]. apply within_doc in Hx. cbn [tt_span] in Hx. subst. right. exists a, b, inner, t. auto.
Qed.

(** The alternatives of an enum: the reported error ends last in the text, where an alternative that failed at the very
    end counts as having failed at its start (see C05). *)
Definition ends (src : text) (sp : span) (hi : nat) : Prop := exists lo, covers src sp lo hi.
Lemma call_site_start src : covers src call_site 0 0.
Proof. split; [lia|]. cbn [call_site sp_start sp_end]. assert (H : at_position src 0 (LC 1 0)) by (exists [], []; cbn; repeat split; auto). auto. Qed.
Theorem C56_reported_error_ends_last E i en cs file src ts e errs : E i = DEnum en cs -> named E -> forallb valid_char src = true ->
  lex file src = LOk ts -> cs <> [] -> no (tbeh E (TyRef i)) (start ts) e ->
  Forall2 (fun c x => ctor_no E en c (start ts) x) cs errs ->
  exists hi, ends src (e_span e) hi /\ forall x, In x errs -> exists k, ends src (e_span x) k /\ k <= hi.
Proof.
  intros Hi HE Hv Hl Hne Hn Hf.
  assert (Places : forall x, In x errs -> exists k, ends src (e_span x) k).
  { intros x Hx. assert (G : exists c, In c cs /\ ctor_no E en c (start ts) x).
    { clear - Hf Hx. induction Hf as [|c y cs ys H HF IH]; [destruct Hx|]. destruct Hx as [->|Hx]; [exists c; split; [left; reflexivity|exact H]|]. destruct (IH Hx) as (c' & A & B). exists c'. split; [right; exact A|exact B]. }
    destruct G as (c & Hc & (k & l & t & e0 & Hk & Hs & ->)). destruct Hs as (b & vs & s1 & Hb & Hy & Hm).
    assert (G2 : exists path s0 e1, origin E (TyRef i) (start ts) path s0 e1 /\ e_span e0 = e_span e1).
    { unfold tys in Hb, Hy. rewrite !nth_error_map, Hk in Hb. cbn in Hb. injection Hb as <-. destruct Hm as (m & s2 & Hm). apply (traced_pty E HE) in Hm as (path & s0 & e1 & Ho & ->).
      exists (Hop (Some en) (c_name c) l :: path), s0, e1. split; [|reflexivity]. eapply or_variant; try eassumption. rewrite !firstn_map in Hy. exact Hy. }
    destruct G2 as (path & s0 & e1 & Ho & Esp). change (e_span (chained [context en (c_name c) l] e0)) with (e_span e0). rewrite Esp.
    destruct (origin_points E _ file src ts path s0 e1 Hv Hl Ho) as [(lo & hi & _ & P & _)|(-> & _)]; [exists hi, lo; exact P|exists 0, 0; apply call_site_start]. }
  apply (enum_no E i en cs Hi) in Hn as (errs' & Hf' & [Hr|(-> & _)]); [|contradiction].
  assert (errs' = errs) as ->.
  { clear -Hf Hf'. revert errs Hf. induction Hf' as [|c x cs xs Hc Hcs IH]; intros errs Hf; inversion Hf; subst; [reflexivity|].
    f_equal; [|apply IH; assumption].
    destruct (proj2 (fields_no_iff E en (c_name c) (c_fields c) (start ts) x) Hc) as (n & s1 & HA).
    match goal with H : ctor_no E en c _ ?y |- _ => destruct (proj2 (fields_no_iff E en (c_name c) (c_fields c) (start ts) y) H) as (m & s2 & HB) end.
    apply (fields_mono_ok E en (c_name c) (c_fields c) n (n + m)) in HA; [|lia|discriminate].
    apply (fields_mono_ok E en (c_name c) (c_fields c) m (n + m)) in HB; [|lia|discriminate]. congruence. }
  destruct Hr as (q & Hq & Hle & _). destruct (Places e (nth_error_In _ _ Hq)) as (hi & He). exists hi. split; [exact He|].
  intros x Hx. destruct (Places x Hx) as (k & Hk). exists k. split; [exact Hk|]. destruct (In_nth_error _ _ Hx) as (j & Hj). specialize (Hle j x Hj).
  destruct He as (lo & Hb & _ & E1). destruct Hk as (lo' & Hb' & _ & E2).
  destruct (Nat.le_gt_cases k hi) as [L|L]; [exact L|]. exfalso.
  pose proof (position_order src hi k _ _ ltac:(lia) E1 E2) as O1.
  assert (EE : sp_end (e_span e) = sp_end (e_span x)).
  { unfold err_end, pos_le in Hle. unfold lc_leb in O1. destruct (sp_end (e_span e)) as [l1 c1], (sp_end (e_span x)) as [l2 c2]. cbn [lc_line lc_col] in *.
    apply orb_true_iff in O1. rewrite andb_true_iff, Nat.ltb_lt, Nat.eqb_eq, Nat.leb_le in O1. assert (l1 = l2) by lia. assert (c1 = c2) by lia. congruence. }
  rewrite <- EE in E2. destruct (C33_offsets_invert_positions src hi _ ltac:(lia) E1) as (O2 & _). destruct (C33_offsets_invert_positions src k _ ltac:(lia) E2) as (O3 & _). lia.
Qed.
End Errors.
Print Assumptions C56_lex_errors_point_at_the_problem.
Print Assumptions C56_errors_point_into_the_text.
Print Assumptions C56_delimiter_spans.
Print Assumptions C56_reported_error_ends_last.

(** *** Examples *)
Section WithTables.
Local Existing Instance ascii_only.
Definition shown {A} (r : result A) (src : text) : option (option text * text) :=
  match r with RErr e => Some (source_substring src (e_span e), e_msg e) | _ => None end.
Definition two_lines : text := Eval compute in T "( a" ++ [10%N] ++ T " b [] )".
(** left over in a group *)
Example C56_ex_leftover : shown (parse_str (pty noE 4 (TyParen TyIdent)) 1 two_lines) two_lines = Some (Some (T "b"), T "unexpected token").
Proof. vm_compute. reflexivity. Qed.
(** the end of a group *)
Example C56_ex_closing : shown (parse_str (pty noE 4 (TyParen TyIdent)) 1 (T "( )")) (T "( )") = Some (Some (T ")"), T "unexpected end of input, expected identifier").
Proof. vm_compute. reflexivity. Qed.
Example C56_ex_opening : shown (parse_str (pty noE 4 TyIdent) 1 (T " [a]")) (T " [a]") = Some (Some (T "["), T "expected identifier").
Proof. vm_compute. reflexivity. Qed.
Example C56_ex_group : shown (parse_str (pty noE 4 TyIdent) 1 (T "a[b]")) (T "a[b]") = Some (Some (T "[b]"), T "unexpected token").
Proof. vm_compute. reflexivity. Qed.
Example C56_ex_negative : shown (parse_str (pty noE 4 (TyLit LtUint)) 1 (T " - /**/ 5")) (T " - /**/ 5") = Some (Some (T "- /**/ 5"), T "invalid digit found in string").
Proof. vm_compute. reflexivity. Qed.
Example C56_ex_end : parse_str (pty noE 4 (TyMaybe TyIdent TyIdent)) 1 (T "a ") = RErr (Err call_site (T "unexpected end of input, expected identifier")).
Proof. vm_compute. reflexivity. Qed.
(** a bracket that is never closed: the innermost one; one that is not open; something that is no token *)
Example C56_ex_unclosed : lex 1 (T "(a [b c") = LErr (Span 1 (LC 1 3) (LC 1 3)).
Proof. vm_compute. reflexivity. Qed.
Example C56_ex_not_open : lex 1 (T "(a ]") = LErr (Span 1 (LC 1 3) (LC 1 3)).
Proof. vm_compute. reflexivity. Qed.
Example C56_ex_no_token : lex 1 (T "a `") = LErr (Span 1 (LC 1 2) (LC 1 2)).
Proof. vm_compute. reflexivity. Qed.
End WithTables.
