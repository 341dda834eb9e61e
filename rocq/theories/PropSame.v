(** * C40, C58: the same tokens at other places give the same error at the corresponding place *)
From Verif Require Import Base Float Literal Syn Ast Derive Grammar Spec LitSpec LiteralFacts Reprint LitDenote
  SynFacts Lawful Mono Combinators GrammarBeh Sound Sim RoundFacts Examples PropRoundtrip Term TermCheck PropTerm NoPanic Typed LL1 LL1Facts LL1Check PropLL1
  Fmt FmtFacts Lexer Offsets PropSpan LexFacts LexWf LexOut LexRun PropLex NodeSpan Writable PropStr Furthest PropPlace Laid PropLaid SimSpan.
From Coq Require Import Sorting.Sorted.
Local Open Scope nat_scope.

(** ** Specification *)
(** where the tokens of a stream end, brackets included, in reading order *)
Fixpoint tree_ends (t : tt) : list lc :=
  match t with
  | TGroup _ sp l => sp_end (open_span sp) :: (fix go l := match l with [] => [] | x :: r => tree_ends x ++ go r end) l ++ [sp_end sp]
  | _ => [sp_end (tt_span t)]
  end.
Definition ends : list tt -> list lc := fix go l := match l with [] => [] | x :: r => tree_ends x ++ go r end.
Definition before (p q : lc) : Prop := lc_line p < lc_line q \/ (lc_line p = lc_line q /\ lc_col p < lc_col q).
(** all tokens are of one source file, and each ends later in it than the one before *)
Definition in_order (ts : list tt) : Prop :=
  StronglySorted before (LC 1 0 :: ends ts) /\ exists f, forall t, PropLex.within t ts -> sp_file (tt_span t) = f.

(** ** Proof *)
Lemma ltb_before p q : lc_ltb p q = true <-> before p q.
Proof.
  unfold lc_ltb, lc_leb, before. rewrite negb_true_iff, orb_false_iff, andb_false_iff, Nat.ltb_ge, Nat.eqb_neq, Nat.leb_gt. lia.
Qed.
Lemma ltb_not_before p q : lc_ltb p q = false <-> ~ before p q.
Proof. rewrite <- ltb_before. destruct (lc_ltb p q); split; congruence. Qed.
Lemma sorted_nth l : StronglySorted before l -> forall i j a b, nth_error l i = Some a -> nth_error l j = Some b -> (i < j <-> before a b).
Proof.
  assert (G : forall l, StronglySorted before l -> forall i j a b, nth_error l i = Some a -> nth_error l j = Some b -> i < j -> before a b).
  { clear l. induction 1 as [|x l H IH Hx]; intros i j a b Hi Hj Hij; [destruct i; discriminate Hi|]. destruct j as [|j]; [lia|]. destruct i as [|i]; cbn in Hi, Hj.
    - injection Hi as <-. rewrite Forall_forall in Hx. apply Hx. eapply nth_error_In. exact Hj.
    - apply (IH i j); try assumption. lia. }
  intros H i j a b Hi Hj. split; [apply (G l H); assumption|]. intro Hb. destruct (Nat.lt_trichotomy i j) as [L|[->|L]]; [exact L| |].
  - rewrite Hi in Hj. injection Hj as <-. unfold before in Hb. lia.
  - pose proof (G l H j i b a Hj Hi L) as F. unfold before in *. lia.
Qed.
Lemma sorted_app {A} (P : A -> A -> Prop) l m : StronglySorted P (l ++ m) -> StronglySorted P l /\ StronglySorted P m.
Proof.
  induction l as [|x l IH]; cbn [app]; intro H; [split; [constructor|exact H]|]. apply StronglySorted_inv in H as (H & F). apply IH in H as (H1 & H2). apply Forall_app in F as (F & _).
  split; [constructor; assumption|exact H2].
Qed.
Lemma ends_group d sp l : tree_ends (TGroup d sp l) = sp_end (open_span sp) :: ends l ++ [sp_end sp].
Proof. reflexivity. Qed.
Lemma ends_length a : forall b, map unspan a = map unspan b -> List.length (ends a) = List.length (ends b).
Proof.
  assert (G : forall a, Forall (fun t => match t with TGroup _ _ l => forall b, map unspan l = map unspan b -> List.length (ends l) = List.length (ends b) | _ => True end) a ->
    forall b, map unspan a = map unspan b -> List.length (ends a) = List.length (ends b)).
  { clear a. induction 1 as [|t a Ht _ IH]; intros [|u b] E; cbn [map] in E; try discriminate E; [reflexivity|]. injection E as E Er. cbn [ends]. fold ends. rewrite !app_length, (IH b Er). f_equal.
    destruct t as [n sp|c k sp|n sp|d sp l], u as [n' sp'|c' k' sp'|n' sp'|d' sp' l']; cbn [unspan] in E; try discriminate E; try reflexivity.
    injection E as -> E. rewrite !ends_group. cbn [List.length]. rewrite !app_length, (Ht l' E). reflexivity. }
  apply G. apply Forall_forall. intros u _. induction u as [n s|c k s|n s|d s l IH] using tt_ind'; try exact I. apply G. exact IH.
Qed.
Lemma tree_ends_length t u : unspan t = unspan u -> List.length (tree_ends t) = List.length (tree_ends u).
Proof. intro E. pose proof (ends_length [t] [u]) as H. cbn [map] in H. rewrite E in H. specialize (H eq_refl). cbn [ends] in H. rewrite !app_nil_r in H. exact H. Qed.
Lemma join_end sp sp2 : sp_file sp = sp_file sp2 -> before (sp_end sp) (sp_end sp2) -> sp_end (join_or sp sp2) = sp_end sp2.
Proof.
  intros E H. unfold join_or, span_join. rewrite E, Nat.eqb_refl. cbn [sp_end]. unfold lc_max. destruct (lc_leb (sp_end sp) (sp_end sp2)) eqn:L; [reflexivity|].
  exfalso. apply ltb_before in H. unfold lc_ltb, lc_leb in *. rewrite negb_true_iff, orb_false_iff, andb_false_iff, Nat.ltb_ge, Nat.eqb_neq, Nat.leb_gt in *. lia.
Qed.
Lemma place_ends a b x y : place a b x y -> map unspan a = map unspan b -> StronglySorted before (ends a) -> StronglySorted before (ends b) ->
  (exists f, forall t, PropLex.within t a -> sp_file (tt_span t) = f) -> (exists f, forall t, PropLex.within t b -> sp_file (tt_span t) = f) ->
  exists i, nth_error (ends a) i = Some (sp_end x) /\ nth_error (ends b) i = Some (sp_end y).
Proof.
  assert (Lst : forall (l : list lc) z r, nth_error (l ++ z :: r) (List.length l) = Some z) by (intros l z r; rewrite nth_error_app2, Nat.sub_diag by lia; reflexivity).
  induction 1 as [t u r q|d e sp sp' l m r q|d e sp sp' l m r q|g g' sp sp' n n' sp2 sp2' r q|t u r q x y H IH|d e sp sp' l m r q x y H IH]; intros E Sa Sb Fa Fb; cbn [map] in E.
  - injection E as E _. destruct t as [n sp|c k sp|n sp|d sp l], u as [n' sp'|c' k' sp'|n' sp'|d' sp' l']; cbn [unspan] in E; try discriminate E; try (exists 0; split; reflexivity).
    injection E as -> E. exists (S (List.length (ends l))). cbn [ends tree_ends tt_span]. fold ends. cbn [app]. rewrite <- !app_assoc. cbn [nth_error app]. rewrite Lst, (ends_length l l' E), Lst. auto.
  - exists 0. split; reflexivity.
  - injection E as -> E _. exists (S (List.length (ends l))). cbn [ends tree_ends]. fold ends. cbn [app]. rewrite <- !app_assoc. cbn [nth_error app]. rewrite Lst, (ends_length l m E), Lst. auto.
  - exists 1. cbn [ends tree_ends tt_span app nth_error]. destruct Fa as (fa & Fa), Fb as (fb & Fb).
    cbn [ends tree_ends tt_span app] in Sa, Sb. apply StronglySorted_inv in Sa as (_ & Sa). apply StronglySorted_inv in Sb as (_ & Sb).
    inversion Sa as [|? ? Ha _]; subst. inversion Sb as [|? ? Hb _]; subst. split; f_equal; symmetry; apply join_end; try assumption.
    + pose proof (Fa (TPunct 45 g sp) (w_here _ _)) as F1. pose proof (Fa (TLit n sp2) (w_next _ _ _ (w_here _ _))) as F2. cbn [tt_span] in F1, F2. congruence.
    + pose proof (Fb (TPunct 45 g' sp') (w_here _ _)) as F1. pose proof (Fb (TLit n' sp2') (w_next _ _ _ (w_here _ _))) as F2. cbn [tt_span] in F1, F2. congruence.
  - injection E as E Er. cbn [ends] in Sa, Sb. fold ends in Sa, Sb. apply sorted_app in Sa as (_ & Sa). apply sorted_app in Sb as (_ & Sb).
    destruct IH as (i & A & B); [exact Er|exact Sa|exact Sb|destruct Fa as (f & F); exists f; intros w Hw; apply F; constructor; exact Hw|destruct Fb as (f & F); exists f; intros w Hw; apply F; constructor; exact Hw|].
    exists (List.length (tree_ends t) + i). cbn [ends]. fold ends. split; [rewrite nth_error_app2 by lia; replace (_ + i - _) with i by lia; exact A|].
    rewrite (tree_ends_length t u E). rewrite nth_error_app2 by lia. replace (_ + i - _) with i by lia. exact B.
  - injection E as -> E Er. cbn [ends tree_ends] in Sa, Sb. fold ends in Sa, Sb. cbn [app] in Sa, Sb. apply StronglySorted_inv in Sa as (Sa & _). apply StronglySorted_inv in Sb as (Sb & _). rewrite <- app_assoc in Sa, Sb. apply sorted_app in Sa as (Sa & _). apply sorted_app in Sb as (Sb & _).
    destruct IH as (i & A & B); [exact E|exact Sa|exact Sb|destruct Fa as (f & F); exists f; intros w Hw; apply F; apply w_inside; exact Hw|destruct Fb as (f & F); exists f; intros w Hw; apply F; apply w_inside; exact Hw|].
    exists (S i). cbn [ends tree_ends]. fold ends. cbn [app nth_error]. rewrite <- !app_assoc. split; (rewrite nth_error_app1; [assumption|]; apply nth_error_Some; congruence).
Qed.
Lemma in_order_same_order a b : map unspan a = map unspan b -> in_order a -> in_order b -> same_order (place a b).
Proof.
  intros E (Sa & Fa) (Sb & Fb). assert (Sa' : StronglySorted before (ends a)) by (apply StronglySorted_inv in Sa; apply Sa). assert (Sb' : StronglySorted before (ends b)) by (apply StronglySorted_inv in Sb; apply Sb).
  assert (I : forall x y, spot (place a b) x y -> exists i, nth_error (LC 1 0 :: ends a) i = Some (sp_end x) /\ nth_error (LC 1 0 :: ends b) i = Some (sp_end y)).
  { intros x y [P|(-> & ->)]; [|exists 0; split; reflexivity]. destruct (place_ends a b x y P E Sa' Sb' Fa Fb) as (i & A & B). exists (S i). auto. }
  intros x y x' y' Hx Hy. apply I in Hx as (i & A1 & B1), Hy as (j & A2 & B2). pose proof (sorted_nth _ Sa _ _ _ _ A1 A2) as Ha. pose proof (sorted_nth _ Sb _ _ _ _ B1 B2) as Hb.
  destruct (lc_ltb (sp_end x) (sp_end y)) eqn:L; symmetry.
  - apply ltb_before. apply Hb, Ha, ltb_before. exact L.
  - apply ltb_not_before. apply ltb_not_before in L. tauto.
Qed.

(** C40: two streams of the same tokens, each in the order of its file: the same value with
    corresponding locations, or the same message at the corresponding place. *)
Theorem C40_same_order_same_errors : forall (U : unicode) E t n a b, map unspan a = map unspan b -> visible a = true -> in_order a -> in_order b ->
  same_result (place a b) (parse2 (pty E n t) a) (parse2 (pty E n t) b).
Proof. intros U E t n a b Hu Hv Ha Hb. apply same_order_same_result; [exact Hu|exact Hv|apply in_order_same_order; assumption]. Qed.

(** what [same_val] means for the values: they are equal but for the locations *)
Lemma same_val_strip R v : forall w, same_val R v w -> strip v = strip w.
Proof.
  assert (L : forall l : list val, Forall (fun v => forall w, same_val R v w -> strip v = strip w) l -> forall m, Forall2 (same_val R) l m -> map strip l = map strip m).
  { induction 1 as [|x l Hx _ IH]; intros m H; inversion H; subst; [reflexivity|]. cbn [map]. f_equal; auto. }
  assert (P : forall l : list (val * val), Forall (fun p => (forall w, same_val R (fst p) w -> strip (fst p) = strip w) /\ (forall w, same_val R (snd p) w -> strip (snd p) = strip w)) l ->
    forall m, Forall2 (fun p q => same_val R (fst p) (fst q) /\ same_val R (snd p) (snd q)) l m -> map (fun '(x, y) => (strip x, strip y)) l = map (fun '(x, y) => (strip x, strip y)) m).
  { induction 1 as [|(x, y) l (Hx & Hy) _ IH]; intros m H; inversion H as [|? (x', y') ? m' (H1 & H2) H3]; subst; [reflexivity|]. cbn [map fst snd] in *. f_equal; [f_equal; auto|auto]. }
  induction v using val_ind'; intros w Hw; inversion Hw; subst; cbn [strip]; try reflexivity; try (f_equal; auto; fail).
  - f_equal. clear Hw. match goal with H : Forall2 R sps m |- _ => induction H as [|? ? ? ? _ _ IH]; [reflexivity|] end. cbn [map]. f_equal. exact IH.
  - f_equal; [apply P; assumption|]. cbn [option_map]. f_equal. eauto.
Qed.

(** ** Texts *)
Section Texts.
Context {U : unicode} (sane : sane_tables U).
Lemma strict_position src a b p q : a < b -> b <= List.length src -> at_position src a p -> at_position src b q -> before p q.
Proof.
  intros H Hb Hp Hq. pose proof (position_order src a b p q ltac:(lia) Hp Hq) as L. destruct (lc_ltb p q) eqn:E; [apply ltb_before; exact E|].
  exfalso. unfold lc_ltb in E. apply negb_false_iff in E. assert (p = q) as ->.
  { unfold lc_leb in *. destruct p as [l1 c1], q as [l2 c2]. cbn [lc_line lc_col] in *. rewrite orb_true_iff, andb_true_iff, Nat.ltb_lt, Nat.eqb_eq, Nat.leb_le in *. f_equal; lia. }
  destruct (position_split src a q ltac:(lia) Hp) as (_ & E1). destruct (position_split src b q Hb Hq) as (_ & E2). lia.
Qed.
Lemma sorted_cat x l y m : StronglySorted lt (x :: l) -> StronglySorted lt (y :: m) -> (forall z, In z l -> z < y) -> x < y -> StronglySorted lt (x :: l ++ y :: m).
Proof.
  intros Hl Hm H Hx. apply StronglySorted_inv in Hl as (Hl & Fl). assert (Fm : Forall (lt y) m) by (apply StronglySorted_inv in Hm; apply Hm).
  assert (X : forall z, z < y -> Forall (lt z) (y :: m)) by (intros z Hz; constructor; [exact Hz|]; eapply Forall_impl; [|exact Fm]; intros w Hw; lia).
  constructor; [|apply Forall_app; split; [exact Fl|apply X; exact Hx]].
  clear Fl Hx. induction Hl as [|z l Hz IH Fz]; [exact Hm|]. cbn [app]. constructor; [apply IH; intros w Hw; apply H; right; exact Hw|]. apply Forall_app. split; [exact Fz|]. apply X. apply H. left. reflexivity.
Qed.
Lemma placed_ends file src lo hi l : placed file src lo hi l -> (forall g sp, ~ PropLex.within (TPunct 35 g sp) l) ->
  exists os, Forall2 (at_position src) os (ends l) /\ StronglySorted lt (lo :: os) /\ Forall (fun o => o <= hi) os.
Proof.
  induction 1 as [lo hi H1 H2|lo a b hi t r H1 H2 H3 H4 H5 H6 H7 IH|lo a b hi d o c sp l r H1 H1' H2 H3 H4 H5 H6 H7 H8 IH8 H9 IH|lo a b hi inner t sp r H1 H2 H3 H4 H5 H6 IH]; intro Hn.
  - exists []. split; [constructor|]. split; [constructor; [constructor|constructor]|constructor].
  - destruct IH as (os & A & B & C); [intros g sp F; apply (Hn g sp); constructor; exact F|]. pose proof (placed_le _ _ _ _ _ H7) as Hle. exists (b :: os). split; [|split].
    + replace (ends (t :: r)) with (sp_end (tt_span t) :: ends r) by (destruct t; [reflexivity..|destruct H5]). constructor; [apply H3|exact A].
    + apply (sorted_cat lo [] b os); [constructor; constructor|exact B|intros z []|lia].
    + constructor; [lia|exact C].
  - destruct IH as (os & A & B & C); [intros g sp' F; apply (Hn g sp'); constructor; exact F|]. destruct IH8 as (oi & A' & B' & C'); [intros g sp' F; apply (Hn g sp'); apply w_inside; exact F|].
    pose proof (placed_le _ _ _ _ _ H9) as Hle. pose proof (placed_le _ _ _ _ _ H8) as Hle'. exists (S a :: oi ++ b :: os). split; [|split].
    + cbn [ends tree_ends]. fold ends. cbn [app]. rewrite <- app_assoc. constructor.
      * assert (No : o <> 10%N) by (apply (delimiters_not_newline d o c H5)). destruct (covers_open src sp a b o H3 ltac:(lia) H6 No) as (_ & _ & X). exact X.
      * apply Forall2_app; [exact A'|]. constructor; [apply H3|exact A].
    + apply (sorted_cat lo [] (S a) (oi ++ b :: os)); [constructor; constructor| |intros z []|lia].
      apply sorted_cat; [exact B'|exact B| |lia]. intros z Hz. rewrite Forall_forall in C'. apply C' in Hz. lia.
    + constructor; [lia|]. apply Forall_app. split; [eapply Forall_impl; [|exact C']; intros z Hz; cbn in Hz; lia|]. constructor; [lia|exact C].
  - exfalso. apply (Hn Alone sp). unfold doc_tokens. cbn [app]. constructor.
Qed.
(** the tokens of a text without doc comments are in order *)
Theorem lexed_in_order file src ts : forallb valid_char src = true -> lex file src = LOk ts -> (forall g sp, ~ PropLex.within (TPunct 35 g sp) ts) -> in_order ts.
Proof.
  intros Hv H Hn. destruct (lex_out sane file src ts Hv H) as (_ & P). destruct (placed_ends _ _ _ _ _ P Hn) as (os & A & B & C). split.
  - assert (B0 : StronglySorted lt (0 :: os)).
    { apply StronglySorted_inv in B as (B & F). constructor; [exact B|]. eapply Forall_impl; [|exact F]. intros z Hz. cbn in Hz. lia. }
    assert (A0 : Forall2 (at_position src) (0 :: os) (LC 1 0 :: ends ts)) by (constructor; [exists [], []; cbn; intuition|exact A]).
    assert (C0 : Forall (fun o => o <= List.length src) (0 :: os)) by (constructor; [lia|exact C]).
    revert A0 B0 C0. generalize (0 :: os), (LC 1 0 :: ends ts). clear. induction 1 as [|o p os ps Hp Hr IH]; intros B C; [constructor|].
    apply StronglySorted_inv in B as (B & F). inversion C as [|? ? Co Cs]; subst. constructor; [apply IH; assumption|].
    clear IH B. assert (X : forall os ps, Forall2 (at_position src) os ps -> Forall (lt o) os -> Forall (fun o => o <= List.length src) os -> Forall (before p) ps).
    { induction 1 as [|o' p' os' ps' Hp' _ IH]; intros F1 F2; constructor; inversion F1; inversion F2; subst; [eapply strict_position; eassumption|apply IH; assumption]. }
    apply (X os ps); assumption.
  - exists file. intros t Ht. exact (C47_spans_are_of_the_file sane file src ts t Hv H Ht).
Qed.
Lemma same_no_pound a b : map unspan a = map unspan b -> (forall g sp, ~ PropLex.within (TPunct 35 g sp) a) -> forall g sp, ~ PropLex.within (TPunct 35 g sp) b.
Proof.
  intros E H g sp F. revert a E H. induction F as [r|x r F IH|d sp' l r F IH]; intros [|t a] E H; cbn [map] in E; try discriminate E; injection E as E Er.
  - destruct t as [n s|c k s|n s|d s l]; cbn [unspan] in E; try discriminate E. injection E as -> ->. apply (H g s). constructor.
  - apply (IH a Er). intros g' s' F'. apply (H g' s'). constructor. exact F'.
  - destruct t as [n s|c k s|n s|d' s l']; cbn [unspan] in E; try discriminate E. injection E as -> E. apply (IH l' E). intros g' s' F'. apply (H g' s'). apply w_inside. exact F'.
Qed.
(** C58: the tokens of a text without doc comments written down in another layout: the same value with
    corresponding locations, or the same error message at the corresponding place. *)
Theorem C58_layout_keeps_the_errors E t n file src ts s file' : forallb valid_char src = true -> forallb valid_char s = true ->
  lex file src = LOk ts -> (forall g sp, ~ PropLex.within (TPunct 35 g sp) ts) -> laid ts s [] ->
  exists ts', lex file' s = LOk ts' /\ same_tokens ts' ts /\
    same_result (place ts ts') (parse_str (pty E n t) file src) (parse_str (pty E n t) file' s).
Proof.
  intros Hv Hv' L Hn H. destruct (C58_layout_keeps_the_tokens sane file src ts s file' Hv L H) as (ts' & L' & S). exists ts'. split; [exact L'|]. split; [exact S|].
  unfold parse_str. rewrite L, L'. apply C40_same_order_same_errors.
  - symmetry. exact S.
  - apply wf_visible. apply (lex_out sane file src ts Hv L).
  - exact (lexed_in_order file src ts Hv L Hn).
  - apply (lexed_in_order file' s ts' Hv' L'). eapply same_no_pound; [|exact Hn]. symmetry. exact S.
Qed.
End Texts.
Print Assumptions C40_same_order_same_errors.
Print Assumptions C58_layout_keeps_the_errors.
(** corresponding values are equal up to locations *)
Theorem C40_corresponding_values_are_equal R v w : same_val R v w -> strip v = strip w.
Proof. apply same_val_strip. Qed.

(** ** Examples and limits *)
Section WithTables.
Local Existing Instance ascii_only.
Definition kw_ctor (name : text) (fields : list ty) : ctor := Ctor name (map (fun t => (LIndex 0, t)) fields).
(** An enum of two variants that fail at different tokens. *)
Definition two_env : env := fun _ => DEnum (T "Two") [kw_ctor (T "A") [TyIdent; TyKeyword (T "a")]; kw_ctor (T "B") [TyIdent; TyIdent; TyKeyword (T "b")]].
Definition msg_of (r : result val) : option text := match r with RErr e => Some (e_msg e) | _ => None end.
(** on one line and on three lines: the same message, at the third word in both texts *)
Example C58_errors_ex : exists e e', parse_str (pty two_env 9 (TyRef 0)) 1 (T "x y z") = RErr e /\
  parse_str (pty two_env 9 (TyRef 0)) 1 (T "x/**/y" ++ [10; 10]%N ++ T "z ") = RErr e' /\ e_msg e = e_msg e' /\
  source_substring (T "x y z") (e_span e) = Some (T "z") /\ source_substring (T "x/**/y" ++ [10; 10]%N ++ T "z ") (e_span e') = Some (T "z").
Proof. eexists. eexists. split; [vm_compute; reflexivity|]. split; [vm_compute; reflexivity|]. repeat split; vm_compute; reflexivity. Qed.
Example C40_in_order_ex : exists ts, lex 1 wide_src = LOk ts /\ in_order ts.
Proof.
  destruct (lex 1 wide_src) as [ts|] eqn:E; [|vm_compute in E; discriminate E]. exists ts. split; [reflexivity|].
  apply (lexed_in_order ascii_sane 1 wide_src); [vm_compute; reflexivity|exact E|].
  vm_compute in E. injection E as <-. intros g sp F.
  repeat match goal with F : PropLex.within _ _ |- _ => inversion F; clear F; subst end.
Qed.
(** If the locations are not in the order of the tokens, as may be the case for tokens put together by macros,
    the message reported for an enum may be another one. *)
Definition at_col (k : nat) : span := Span 1 (LC 1 k) (LC 1 (S k)).
Theorem C40_messages_refuted : exists a b, map unspan a = map unspan b /\
  msg_of (parse2 (pty two_env 9 (TyRef 0)) a) <> msg_of (parse2 (pty two_env 9 (TyRef 0)) b) /\
  msg_of (parse2 (pty two_env 9 (TyRef 0)) a) <> None /\ msg_of (parse2 (pty two_env 9 (TyRef 0)) b) <> None.
Proof.
  exists [TIdent (T "x") (at_col 1); TIdent (T "y") (at_col 2); TIdent (T "z") (at_col 3)], [TIdent (T "x") (at_col 1); TIdent (T "y") (at_col 3); TIdent (T "z") (at_col 2)].
  vm_compute. repeat split; discriminate.
Qed.
(** All tokens of a doc comment are located at the whole comment: written as an attribute the same tokens
    may give another error message. *)
Definition doc_env : env := fun _ => DEnum (T "Doc")
  [kw_ctor (T "A") [TyToken [35%N]; TyBracket (TyRef 1)]; kw_ctor (T "B") [TyToken [35%N]; TyBracket (TyKeyword (T "b"))]].
Definition doc_env' : env := fun i => match i with 0 => doc_env 0 | _ => DStruct (kw_ctor (T "D") [TyIdent; TyToken [61%N]; TyIdent]) end.
Theorem C58_doc_comment_errors_refuted : exists ts ts', lex 1 (T "/// x") = LOk ts /\ lex 1 (T "#[doc = "" x""]") = LOk ts' /\ same_tokens ts ts' /\
  msg_of (parse_str (pty doc_env' 9 (TyRef 0)) 1 (T "/// x")) <> msg_of (parse_str (pty doc_env' 9 (TyRef 0)) 1 (T "#[doc = "" x""]")) /\
  msg_of (parse_str (pty doc_env' 9 (TyRef 0)) 1 (T "/// x")) <> None /\ msg_of (parse_str (pty doc_env' 9 (TyRef 0)) 1 (T "#[doc = "" x""]")) <> None.
Proof.
  eexists. eexists. split; [vm_compute; reflexivity|]. split; [vm_compute; reflexivity|]. split; [vm_compute; reflexivity|].
  repeat split; vm_compute; discriminate.
Qed.
End WithTables.
Print Assumptions C40_messages_refuted.
Print Assumptions C58_doc_comment_errors_refuted.

Print Assumptions C40_corresponding_values_are_equal.
