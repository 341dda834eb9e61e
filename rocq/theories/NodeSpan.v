(** * NodeSpan: where the tokens of a parsed value are in the source text (C49). *)
From Verif Require Import Base Float Literal Syn Ast Derive Grammar Spec LitSpec LiteralFacts Reprint Fmt Lexer Offsets PropSpan LexFacts LexWf LexOut LexRun
  PropLex Sound Tree.
Local Open Scope nat_scope.

(** ** The span of a value *)
(** [quote::spanned::join_spans], which [syn::spanned::Spanned::span] calls for every type with [ToTokens]: the first
    token's span joined with the last one's, if there is more than one token and the spans can be joined *)
Definition join_spans (ts : list tt) : span :=
  match ts with
  | [] => call_site
  | x :: r => match rev r with [] => tt_span x | y :: _ => join_or (tt_span x) (tt_span y) end
  end.
(** [Spanned::span] of a syntax tree node (used by parsel/src/util.rs:108-110, 136-142, 168-174, 249-253: [SpannedExt]);
    [None] if [to_tokens] panics *)
Definition node_span {U : unicode} (v : val) : option span := option_map join_spans (print v).
(** [SpannedExt::source_substring], [byte_range], [char_range] of a node (parsel/src/util.rs:108-174) *)
Definition node_source {U : unicode} (src : text) (v : val) : option text :=
  match node_span v with Some sp => source_substring src sp | None => None end.
Definition node_bytes {U : unicode} (src : text) (v : val) : option (nat * nat) := option_map (byte_range src) (node_span v).
Definition node_chars {U : unicode} (src : text) (v : val) : option (nat * nat) := option_map (char_range src) (node_span v).

(** ** Positions are in the order of offsets *)
Lemma last_line_unique (d1 l1 d2 l2 : text) : d1 ++ l1 = d2 ++ l2 -> ~ In 10%N l1 -> ~ In 10%N l2 ->
  (d1 = [] \/ exists d, d1 = d ++ [10%N]) -> (d2 = [] \/ exists d, d2 = d ++ [10%N]) -> d1 = d2 /\ l1 = l2.
Proof.
  intros E H1 H2 D1 D2. assert (G : forall a b m : text, a = b ++ m -> (a = [] \/ exists d, a = d ++ [10%N]) -> ~ In 10%N m -> m = []).
  { intros a b m -> [F|(d & F)] Hm; [apply app_eq_nil in F; tauto|]. destruct m as [|x m _] using rev_ind; [reflexivity|].
    rewrite app_assoc in F. apply app_inj_tail in F as (_ & ->). exfalso. apply Hm. apply in_or_app. right. left. reflexivity. }
  apply app_eq_app in E as (m & [(-> & ->)|(-> & ->)]).
  - rewrite (G _ _ m eq_refl D1); [rewrite app_nil_r; auto|]. intro F. apply H2. apply in_or_app. auto.
  - rewrite (G _ _ m eq_refl D2); [rewrite app_nil_r; auto|]. intro F. apply H1. apply in_or_app. auto.
Qed.
Lemma firstn_split (src : text) a b : a <= b -> exists m, firstn b src = firstn a src ++ m.
Proof. intro H. exists (firstn (b - a) (skipn a src)). rewrite <- (firstn_skipn a (firstn b src)), firstn_firstn, skipn_firstn_comm. rewrite Nat.min_l by exact H. reflexivity. Qed.
Lemma position_order src a b p q : a <= b -> at_position src a p -> at_position src b q -> lc_leb p q = true.
Proof.
  intros Hab (d1 & l1 & E1 & N1 & D1 & L1 & C1) (d2 & l2 & E2 & N2 & D2 & L2 & C2). destruct (firstn_split src a b Hab) as (m & Em). rewrite E1, E2 in Em.
  assert (Z : forall l : text, ~ In 10%N l -> count_occ N.eq_dec l 10%N = 0) by (intro; apply count_occ_not_In).
  pose proof (f_equal (fun l => count_occ N.eq_dec l 10%N) Em) as K. cbn beta in K. rewrite !count_occ_app, (Z l1), (Z l2) in K by assumption.
  unfold lc_leb. destruct (Nat.ltb_spec (lc_line p) (lc_line q)) as [H|H]; [reflexivity|]. cbn [orb]. assert (Hm : count_occ N.eq_dec m 10%N = 0) by lia.
  apply count_occ_not_In in Hm. rewrite <- app_assoc in Em. destruct (last_line_unique d2 l2 d1 (l1 ++ m) Em N2) as (-> & ->); [rewrite in_app_iff; tauto|exact D2|exact D1|].
  rewrite L1, L2, C1, C2, Nat.eqb_refl, app_length. cbn [andb]. apply Nat.leb_le. lia.
Qed.
Lemma position_unique src a p q : at_position src a p -> at_position src a q -> p = q.
Proof.
  intros (d1 & l1 & E1 & N1 & D1 & L1 & C1) (d2 & l2 & E2 & N2 & D2 & L2 & C2). rewrite E1 in E2.
  destruct (last_line_unique d1 l1 d2 l2 E2 N1 N2 D1 D2) as (-> & ->). destruct p, q. cbn in *. congruence.
Qed.
Lemma min_position src a b p q : a <= b -> at_position src a p -> at_position src b q -> at_position src a (lc_min p q).
Proof. intros H P Q. unfold lc_min. rewrite (position_order src a b p q H P Q). exact P. Qed.
Lemma max_position src a b p q : a <= b -> at_position src a p -> at_position src b q -> at_position src b (lc_max p q).
Proof. intros H P Q. unfold lc_max. rewrite (position_order src a b p q H P Q). exact Q. Qed.
Lemma covers_join src s1 s2 a1 b1 a2 b2 : covers src s1 a1 b1 -> covers src s2 a2 b2 -> sp_file s1 = sp_file s2 -> a1 <= a2 -> b1 <= b2 ->
  covers src (join_or s1 s2) a1 b2 /\ sp_file (join_or s1 s2) = sp_file s1.
Proof.
  intros (H1 & S1 & E1) (H2 & S2 & E2) Hf Ha Hb. unfold join_or, span_join. rewrite Hf, Nat.eqb_refl. split; [|reflexivity]. split; [lia|]. cbn [sp_start sp_end].
  split; [eapply min_position; eassumption|eapply max_position; eassumption].
Qed.
Lemma covers_unique src sp a b c d : covers src sp a b -> covers src sp c d -> a = c /\ b = d.
Proof.
  intros H1 H2. destruct (C33_ranges_are_the_extent src sp a b H1) as (E1 & _). destruct (C33_ranges_are_the_extent src sp c d H2) as (E2 & _). rewrite E1 in E2. injection E2 as -> ->. auto.
Qed.

(** ** Tokens in the order of the text *)
Definition contents (t : tt) : list tt := match t with TGroup _ _ l => l | _ => [] end.
(** starts from [la] on, ends from [lb] on and up to [hi], both never decreasing; a group contains its contents *)
Inductive located (file : nat) (src : text) : nat -> nat -> nat -> list tt -> Prop :=
| lo_nil la lb hi : located file src la lb hi []
| lo_cons la lb hi a b t r : la <= a -> lb <= b -> a < b <= hi -> covers src (tt_span t) a b -> sp_file (tt_span t) = file ->
    located file src a a b (contents t) -> located file src a b hi r -> located file src la lb hi (t :: r).

Section Located.
Variables (file : nat) (src : text).
Notation located := (located file src).
Lemma located_weaken la lb hi l : located la lb hi l -> forall la' lb' hi', la' <= la -> lb' <= lb -> hi <= hi' -> located la' lb' hi' l.
Proof.
  induction 1 as [la lb hi|la lb hi a b t r H1 H2 H3 H4 H5 H6 IH6 H7 IH]; intros la' lb' hi' A B C; [constructor|].
  apply (lo_cons _ _ _ _ _ a b); try lia; try assumption. apply IH; lia.
Qed.
Lemma located_inv la lb hi t r : located la lb hi (t :: r) -> exists a b, la <= a /\ lb <= b /\ a < b <= hi /\ covers src (tt_span t) a b /\
  sp_file (tt_span t) = file /\ located a a b (contents t) /\ located a b hi r.
Proof. intro H. inversion H as [|? ? ? a b ? ? A1 A2 A3 A4 A5 A6 A7]. exists a, b. repeat (split; [assumption|]). assumption. Qed.
Lemma located_app la lb hi p : forall q, located la lb hi (p ++ q) -> located la lb hi p /\ located la lb hi q.
Proof.
  revert la lb. induction p as [|t p IH]; intros la lb q H; [split; [constructor|exact H]|]. cbn [app] in H. destruct (located_inv _ _ _ _ _ H) as (a & b & A1 & A2 & A3 & A4 & A5 & A6 & A7).
  destruct (IH _ _ _ A7) as (P1 & P2). split; [apply (lo_cons _ _ _ _ _ a b); assumption|]. eapply located_weaken; [exact P2|lia..].
Qed.
Lemma located_segment x l : segment x l -> forall la lb hi, la <= lb -> located la lb hi l -> located la la hi x.
Proof.
  induction 1 as [p q|p d sp l q H IH]; intros la lb hi Hl K.
  - apply located_app in K as (_ & K). apply located_app in K as (K & _). eapply located_weaken; [exact K|lia..].
  - apply located_app in K as (_ & K). destruct (located_inv _ _ _ _ _ K) as (a & b & A1 & A2 & A3 & A4 & A5 & A6 & A7). cbn [contents] in A6.
    eapply (located_weaken a a b); [apply (IH a a b); [lia|exact A6]|lia..].
Qed.
(** first and last token *)
Lemma last_ind {A} (P : list A -> Prop) : P [] -> (forall x l, P (l ++ [x])) -> forall l, P l.
Proof. intros H1 H2 l. destruct l as [|x l _] using rev_ind; auto. Qed.
Lemma located_last la lb hi p y : located la lb hi (p ++ [y]) -> exists a b, la <= a /\ lb <= b <= hi /\ a < b /\ covers src (tt_span y) a b /\ sp_file (tt_span y) = file.
Proof.
  intro H. apply located_app in H as (_ & H). destruct (located_inv _ _ _ _ _ H) as (a & b & A1 & A2 & A3 & A4 & A5 & A6 & A7). exists a, b. repeat (split; [assumption || lia|]). assumption.
Qed.
Lemma join_spans_ends x p y : join_spans (x :: p ++ [y]) = join_or (tt_span x) (tt_span y).
Proof. cbn [join_spans]. rewrite rev_app_distr. reflexivity. Qed.
(** the extent of some tokens: where the first one starts and the last one ends *)
Definition extent (l : list tt) (lo hi : nat) : Prop :=
  exists x y m n, hd_error l = Some x /\ (exists p, l = p ++ [y]) /\ covers src (tt_span x) lo m /\ covers src (tt_span y) n hi.
Lemma extent_unique l a b c d : extent l a b -> extent l c d -> a = c /\ b = d.
Proof.
  intros (x & y & m & n & Hx & (p & Hp) & C1 & C2) (x' & y' & m' & n' & Hx' & (p' & Hp') & C1' & C2'). rewrite Hx in Hx'. injection Hx' as <-.
  rewrite Hp in Hp'. apply app_inj_tail in Hp' as (_ & <-). split; [exact (proj1 (covers_unique _ _ _ _ _ _ C1 C1'))|exact (proj2 (covers_unique _ _ _ _ _ _ C2 C2'))].
Qed.
Lemma located_extent la lb hi l : located la lb hi l -> l <> [] -> exists a b, la <= a /\ lb <= b <= hi /\ a < b /\ extent l a b.
Proof.
  intros H Hne. destruct l as [|x r]; [contradiction|]. destruct (located_inv _ _ _ _ _ H) as (a & b & A1 & A2 & A3 & A4 & A5 & A6 & A7). clear H Hne A6. revert A7. pattern r. apply last_ind.
  - intros _. exists a, b. repeat split; try lia. exists x, x, b, a. split; [reflexivity|]. split; [exists []; reflexivity|auto].
  - intros y p K. destruct (located_last _ _ _ _ _ K) as (c' & d' & B1 & B2 & B3 & B4 & B5).
    exists a, d'. repeat split; try lia. exists x, y, b, c'. split; [reflexivity|]. split; [exists (x :: p); reflexivity|]. auto.
Qed.
(** the span of the tokens covers their extent *)
Lemma located_join la lb hi l a b : located la lb hi l -> extent l a b -> covers src (join_spans l) a b /\ sp_file (join_spans l) = file.
Proof.
  intros H (x & y & m & n & Hx & (p & Hp) & C1 & C2). destruct p as [|x' p]; rewrite Hp in *; cbn [app hd_error] in Hx; injection Hx as <-.
  - destruct (covers_unique _ _ _ _ _ _ C1 C2) as (-> & ->). split; [exact C2|]. destruct (located_inv _ _ _ _ _ H) as (a' & b' & A1 & A2 & A3 & A4 & A5 & A6 & A7). exact A5.
  - rewrite <- app_comm_cons, join_spans_ends. destruct (located_inv _ _ _ _ _ H) as (a' & b' & A1 & A2 & A3 & A4 & A5 & A6 & A7).
    destruct (covers_unique _ _ _ _ _ _ A4 C1) as (-> & ->); destruct (located_last _ _ _ _ _ A7) as (c' & d' & B1 & B2 & B3 & B4 & B5).
    destruct (covers_unique _ _ _ _ _ _ B4 C2) as (-> & ->). destruct (covers_join src (tt_span x') (tt_span y) a m n b C1 C2) as (J1 & J2); [congruence|lia|lia|]. split; [exact J1|congruence].
Qed.

(** the bounds may be taken to be the extent *)
Lemma located_end la lb hi p y c b : located la lb hi (p ++ [y]) -> covers src (tt_span y) c b -> located la lb b (p ++ [y]).
Proof.
  revert la lb. induction p as [|x p IH]; intros la lb H C; cbn [app] in *; destruct (located_inv _ _ _ _ _ H) as (a1 & b1 & A1 & A2 & A3 & A4 & A5 & A6 & A7).
  - destruct (covers_unique _ _ _ _ _ _ A4 C) as (-> & ->). apply (lo_cons _ _ _ _ _ c b); try assumption; [lia|constructor].
  - destruct (located_last _ _ _ _ _ A7) as (c' & d' & B1 & B2 & B3 & B4 & B5). destruct (covers_unique _ _ _ _ _ _ B4 C) as (-> & ->).
    apply (lo_cons _ _ _ _ _ a1 b1); try assumption; [lia|]. apply IH; assumption.
Qed.
Lemma located_tight la lb hi l a b : located la lb hi l -> extent l a b -> located a a b l.
Proof.
  intros H (x & y & m & n & Hx & (p & Hp) & C1 & C2). rewrite Hp in H. apply (located_end _ _ _ _ _ _ _ H) in C2. rewrite <- Hp in C2. destruct l as [|x' l]; [discriminate Hx|]. injection Hx as ->.
  destruct (located_inv _ _ _ _ _ C2) as (a1 & b1 & A1 & A2 & A3 & A4 & A5 & A6 & A7). destruct (covers_unique _ _ _ _ _ _ A4 C1) as (-> & ->).
  apply (lo_cons _ _ _ _ _ a m); try assumption; lia.
Qed.
(** one after the other *)
Lemma located_order la lb hi p q a b c d : located la lb hi (p ++ q) -> extent p a b -> extent q c d -> a <= c /\ b <= d.
Proof.
  intros H Ep Eq. pose proof Ep as (x & y & m & n & Hx & (p' & Hp) & C1 & C2). assert (K : located a b hi (y :: q) /\ a <= n \/ False -> a <= c /\ b <= d).
  { intros [(K & _)|[]]. destruct (located_inv _ _ _ _ _ K) as (a1 & b1 & A1 & A2 & A3 & A4 & A5 & A6 & A7). destruct (covers_unique _ _ _ _ _ _ A4 C2) as (-> & ->).
    destruct q as [|z q]; [destruct Eq as (? & ? & ? & ? & F & _); discriminate F|]. destruct (located_extent _ _ _ _ A7) as (e & f & B1 & B2 & B3 & B4); [discriminate|].
    destruct (extent_unique _ _ _ _ _ Eq B4) as (-> & ->). lia. }
  apply K. left. rewrite Hp, <- app_assoc in H. cbn [app] in H.
  assert (Hn : a <= n).
  { destruct (located_app la lb hi (p' ++ [y]) q) as (G & _); [rewrite <- app_assoc; exact H|]. rewrite <- Hp in G. pose proof (located_tight _ _ _ _ _ _ G Ep) as G2. rewrite Hp in G2.
    destruct (located_last _ _ _ _ _ G2) as (c' & d' & B1 & B2 & B3 & B4 & B5). destruct (covers_unique _ _ _ _ _ _ B4 C2) as (-> & ->). exact B1. }
  split; [|exact Hn]. apply located_app in H as (_ & H). destruct (located_inv _ _ _ _ _ H) as (a1 & b1 & A1 & A2 & A3 & A4 & A5 & A6 & A7). destruct (covers_unique _ _ _ _ _ _ A4 C2) as (-> & ->).
  apply (lo_cons _ _ _ _ _ n b); try assumption; lia.
Qed.
(** leaving out tokens *)
Lemma located_remove la lb hi p q r : located la lb hi (p ++ q ++ r) -> located la lb hi (p ++ r).
Proof.
  revert la lb. induction p as [|x p IH]; intros la lb H; [cbn [app] in *; apply located_app in H as (_ & H); exact H|]. cbn [app] in *.
  destruct (located_inv _ _ _ _ _ H) as (a1 & b1 & A1 & A2 & A3 & A4 & A5 & A6 & A7). apply (lo_cons _ _ _ _ _ a1 b1); try assumption. apply IH. exact A7.
Qed.
(** without doc comments: each token ends before the next one starts *)
Inductive strictly : nat -> list tt -> Prop :=
| st_nil lo : strictly lo []
| st_cons lo t a b r : lo <= a <= b -> covers src (tt_span t) a b -> strictly a (contents t) -> strictly b r -> strictly lo (t :: r).
Lemma strictly_weaken lo l : strictly lo l -> forall lo', lo' <= lo -> strictly lo' l.
Proof. intros H lo' Hl. inversion H; subst; [constructor|]. apply (st_cons _ _ a b); try assumption. lia. Qed.
Lemma strictly_app p : forall lo q, strictly lo (p ++ q) -> strictly lo p /\ strictly lo q.
Proof.
  induction p as [|x p IH]; intros lo q H; [split; [constructor|exact H]|]. cbn [app] in H. inversion H as [|lo' t a b r H1 H2 H3 H4]; subst. destruct (IH _ _ H4) as (G1 & G2).
  split; [apply (st_cons _ _ a b); assumption|]. eapply strictly_weaken; [exact G2|lia].
Qed.
Lemma strictly_remove p q r : forall lo, strictly lo (p ++ q ++ r) -> strictly lo (p ++ r).
Proof.
  induction p as [|x p IH]; intros lo H; [cbn [app] in *; apply strictly_app in H as (_ & H); exact H|]. cbn [app] in *. inversion H as [|lo' t a b r' H1 H2 H3 H4]; subst. apply (st_cons _ _ a b); try assumption. apply IH. exact H4.
Qed.
Lemma strictly_segment x l : segment x l -> forall lo, strictly lo l -> strictly lo x.
Proof.
  induction 1 as [p q|p d sp l q H IH]; intros lo K.
  - apply strictly_app in K as (_ & K). apply strictly_app in K as (K & _). exact K.
  - apply strictly_app in K as (_ & K). inversion K as [|lo' t a b r H1 H2 H3 H4]; subst. cbn [contents] in H3. apply IH. eapply strictly_weaken; [exact H3|lia].
Qed.
Lemma strictly_order lo p q a b c d : strictly lo (p ++ q) -> extent p a b -> extent q c d -> b <= c.
Proof.
  intros H (x & y & m & n & Hx & (p' & Hp) & C1 & C2) (x' & y' & m' & n' & Hx' & _ & C1' & C2'). rewrite Hp, <- app_assoc in H. apply strictly_app in H as (_ & H). cbn [app] in H.
  inversion H as [|lo' t a1 b1 r H1 H2 H3 H4]; subst. destruct (covers_unique _ _ _ _ _ _ H2 C2) as (-> & ->). destruct q as [|z q]; [discriminate Hx'|]. injection Hx' as ->.
  inversion H4 as [|lo' t a2 b2 r K1 K2 K3 K4]; subst. destruct (covers_unique _ _ _ _ _ _ K2 C1') as (-> & ->). lia.
Qed.

Context {U : unicode}.
(** ** The lexer *)
Lemma placed_located lo hi l : placed file src lo hi l -> located lo lo hi l.
Proof.
  induction 1 as [lo hi H1 H2|lo a b hi t r H1 H2 H3 H4 H5 H6 H7 IH|lo a b hi d o c sp l r H1 H1' H2 H3 H4 H5 H6 H7 H8 IH8 H9 IH|lo a b hi inner t sp r H1 H2 H3 H4 H5 H6 IH].
  - constructor.
  - pose proof (placed_le _ _ _ _ _ H7) as Hle. apply (lo_cons _ _ _ _ _ a b); try lia; try assumption; [destruct t; try constructor; destruct H5|]. eapply located_weaken; [exact IH|lia..].
  - pose proof (placed_le _ _ _ _ _ H9) as Hle. apply (lo_cons _ _ _ _ _ a b); try lia; try assumption; cbn [contents]; [eapply located_weaken; [exact IH8|lia..]|eapply located_weaken; [exact IH|lia..]].
  - pose proof (placed_le _ _ _ _ _ H6) as Hle. assert (R : located a b hi r) by (eapply located_weaken; [exact IH|lia..]).
    assert (One : forall x l, tt_span x = sp -> located a a b (contents x) -> located a b hi l -> located a b hi (x :: l)).
    { intros x l Ex Cx Rl. apply (lo_cons _ _ _ _ _ a b); rewrite ?Ex; try lia; assumption. }
    assert (One' : forall x l, tt_span x = sp -> contents x = [] -> located a b b l -> located a b b (x :: l)).
    { intros x l Ex Cx Rl. apply (lo_cons _ _ _ _ _ a b); rewrite ?Ex, ?Cx; try lia; try assumption. constructor. }
    eapply (located_weaken a b hi); [|lia..]. unfold doc_tokens. cbn [app]. apply One; [reflexivity|constructor|].
    assert (G : located a b hi (TGroup DBracket sp [TIdent doc_ident sp; TPunct 61 Alone sp; TLit (show_str t) sp] :: r)).
    { apply One; [reflexivity| |exact R]. cbn [contents]. eapply (located_weaken a b b); [repeat (apply One'; [reflexivity..|]); constructor|lia..]. }
    destruct inner; [apply One; [reflexivity|constructor|exact G]|exact G].
Qed.

(** ** Printing again *)
Lemma reprints_located Q L x y : reprints Q L x y -> forall la lb hi, located la lb hi x -> located la lb hi y.
Proof.
  induction 1 as [|n sp a b H IH|c g1 g2 sp a b Hq H IH|r1 r2 sp a b Hd H1 H2 Hwr H IH|g1 r1 r2 sp1 sp2 sp a b Hq Hd H1 H2 Hwr Hs H IH|g1 r1 sp1 sp2 sp a b Hd Hs H IH|d sp i left o a b Hi IHi Hl H IH]; intros la lb hi K.
  - constructor.
  - destruct (located_inv _ _ _ _ _ K) as (a1 & b1 & A1 & A2 & A3 & A4 & A5 & A6 & A7). apply (lo_cons _ _ _ _ _ a1 b1); try assumption. apply IH. assumption.
  - destruct (located_inv _ _ _ _ _ K) as (a1 & b1 & A1 & A2 & A3 & A4 & A5 & A6 & A7). apply (lo_cons _ _ _ _ _ a1 b1); try assumption. apply IH. assumption.
  - destruct (located_inv _ _ _ _ _ K) as (a1 & b1 & A1 & A2 & A3 & A4 & A5 & A6 & A7). apply (lo_cons _ _ _ _ _ a1 b1); try assumption. apply IH. assumption.
  - destruct (located_inv _ _ _ _ _ K) as (a1 & b1 & A1 & A2 & A3 & A4 & A5 & A6 & A7). destruct (located_inv _ _ _ _ _ A7) as (a2 & b2 & B1 & B2 & B3 & B4 & B5 & B6 & B7). cbn [tt_span] in *.
    subst sp; destruct (covers_join src sp1 sp2 a1 b1 a2 b2 A4 B4 ltac:(congruence) B1 B2) as (J1 & J2). apply (lo_cons _ _ _ _ _ a1 b2); cbn [tt_span contents]; try lia; try assumption; [constructor|].
    apply (lo_cons _ _ _ _ _ a1 b2); cbn [tt_span contents]; try lia; try assumption; [constructor|]. apply IH. eapply located_weaken; [exact B7|lia..].
  - destruct (located_inv _ _ _ _ _ K) as (a1 & b1 & A1 & A2 & A3 & A4 & A5 & A6 & A7). destruct (located_inv _ _ _ _ _ A7) as (a2 & b2 & B1 & B2 & B3 & B4 & B5 & B6 & B7). cbn [tt_span] in *.
    subst sp; destruct (covers_join src sp1 sp2 a1 b1 a2 b2 A4 B4 ltac:(congruence) B1 B2) as (J1 & J2). apply (lo_cons _ _ _ _ _ a1 b2); cbn [tt_span contents]; try lia; try assumption; [constructor|].
    apply IH. eapply located_weaken; [exact B7|lia..].
  - destruct (located_inv _ _ _ _ _ K) as (a1 & b1 & A1 & A2 & A3 & A4 & A5 & A6 & A7). cbn [tt_span contents] in *. apply (lo_cons _ _ _ _ _ a1 b1); cbn [tt_span contents]; try assumption; [|apply IH; exact A7].
    apply IHi. apply located_app in A6 as (A6 & _). exact A6.
Qed.
(** printing again does not move the ends *)
Lemma reprints_first Q L x y la lb hi : reprints Q L x y -> located la lb hi x -> forall t a b, hd_error x = Some t -> covers src (tt_span t) a b ->
  exists t' c, hd_error y = Some t' /\ covers src (tt_span t') a c.
Proof.
  intros R K t a b Ht Hc. destruct R; cbn [hd_error] in *; try discriminate Ht; injection Ht as <-; eauto.
  all: destruct (located_inv _ _ _ _ _ K) as (a1 & b1 & A1 & A2 & A3 & A4 & A5 & A6 & A7); destruct (located_inv _ _ _ _ _ A7) as (a2 & b2 & B1 & B2 & B3 & B4 & B5 & B6 & B7); cbn [tt_span] in *.
  all: destruct (covers_unique _ _ _ _ _ _ A4 Hc) as (-> & ->); destruct (covers_join src sp1 sp2 a b a2 b2 A4 B4 ltac:(congruence) B1 B2) as (J1 & J2); subst sp; eauto.
Qed.
Lemma reprints_last Q L x y : reprints Q L x y -> forall la lb hi p t a b, located la lb hi x -> x = p ++ [t] -> covers src (tt_span t) a b ->
  exists q t' c, y = q ++ [t'] /\ covers src (tt_span t') c b.
Proof.
  assert (Step : forall t' q0 (y : list tt) b, (exists q t2 c, y = q ++ [t2] /\ covers src (tt_span t2) c b) -> (q0 = [t'] \/ exists t0, q0 = [t0; t']) -> exists q t2 c, q0 ++ y = q ++ [t2] /\ covers src (tt_span t2) c b).
  { intros t' q0 y0 b (q & t2 & c & -> & C) _. exists (q0 ++ q), t2, c. rewrite app_assoc. auto. }
  assert (Emp : forall Q L b, reprints Q L [] b -> b = []) by (intros Q0 L0 b R; inversion R; reflexivity).
  induction 1 as [|n sp a b H IH|c g1 g2 sp a b Hq H IH|r1 r2 sp a b Hd H1 H2 Hwr H IH|g1 r1 r2 sp1 sp2 sp a b Hq Hd H1 H2 Hwr Hs H IH|g1 r1 sp1 sp2 sp a b Hd Hs H IH|d sp i left o a b Hi IHi Hl H IH]; intros la lb hi p t x y K E C.
  - destruct p; discriminate E.
  - destruct (located_inv _ _ _ _ _ K) as (a1 & b1 & A1 & A2 & A3 & A4 & A5 & A6 & A7). destruct p as [|z p]; injection E as <- E; [subst a; rewrite (Emp _ _ _ H); exists [], (TIdent n sp), x; auto|]. destruct (IH _ _ _ p t x y A7 E C) as (q & t' & k & -> & Ck). exists (TIdent n sp :: q), t', k. auto.
  - destruct (located_inv _ _ _ _ _ K) as (a1 & b1 & A1 & A2 & A3 & A4 & A5 & A6 & A7). destruct p as [|z p]; injection E as <- E; [subst a; rewrite (Emp _ _ _ H); exists [], (TPunct c g2 sp), x; auto|]. destruct (IH _ _ _ p t x y A7 E C) as (q & t' & k & -> & Ck). exists (TPunct c g2 sp :: q), t', k. auto.
  - destruct (located_inv _ _ _ _ _ K) as (a1 & b1 & A1 & A2 & A3 & A4 & A5 & A6 & A7). destruct p as [|z p]; injection E as <- E; [subst a; rewrite (Emp _ _ _ H); exists [], (TLit r2 sp), x; auto|].
    destruct (IH _ _ _ p t x y A7 E C) as (q & t' & k & -> & Ck). exists (TLit r2 sp :: q), t', k. auto.
  - destruct (located_inv _ _ _ _ _ K) as (a1 & b1 & A1 & A2 & A3 & A4 & A5 & A6 & A7); destruct (located_inv _ _ _ _ _ A7) as (a2 & b2 & B1 & B2 & B3 & B4 & B5 & B6 & B7); cbn [tt_span] in *.
    subst sp; destruct (covers_join src sp1 sp2 a1 b1 a2 b2 A4 B4 ltac:(congruence) B1 B2) as (J1 & J2).
    destruct p as [|z [|z2 p]]; [discriminate E|injection E as <- <- E; subst a; rewrite (Emp _ _ _ H)|injection E as <- <- E].
    + cbn [tt_span] in C. destruct (covers_unique _ _ _ _ _ _ B4 C) as (-> & ->). exists [TPunct 45 Alone (join_or sp1 sp2)], (TLit r2 (join_or sp1 sp2)), a1. auto.
    + destruct (IH _ _ _ p t x y B7 E C) as (q & t' & k & -> & Ck). exists (TPunct 45 Alone (join_or sp1 sp2) :: TLit r2 (join_or sp1 sp2) :: q), t', k. auto.
  - destruct (located_inv _ _ _ _ _ K) as (a1 & b1 & A1 & A2 & A3 & A4 & A5 & A6 & A7); destruct (located_inv _ _ _ _ _ A7) as (a2 & b2 & B1 & B2 & B3 & B4 & B5 & B6 & B7); cbn [tt_span] in *.
    subst sp; destruct (covers_join src sp1 sp2 a1 b1 a2 b2 A4 B4 ltac:(congruence) B1 B2) as (J1 & J2).
    destruct p as [|z [|z2 p]]; [discriminate E|injection E as <- <- E; subst a; rewrite (Emp _ _ _ H)|injection E as <- <- E].
    + cbn [tt_span] in C. destruct (covers_unique _ _ _ _ _ _ B4 C) as (-> & ->). exists [], (TLit (T "0") (join_or sp1 sp2)), a1. auto.
    + destruct (IH _ _ _ p t x y B7 E C) as (q & t' & k & -> & Ck). exists (TLit (T "0") (join_or sp1 sp2) :: q), t', k. auto.
  - destruct (located_inv _ _ _ _ _ K) as (a1 & b1 & A1 & A2 & A3 & A4 & A5 & A6 & A7). destruct p as [|z p]; injection E as <- E; [subst a; rewrite (Emp _ _ _ H); exists [], (TGroup d sp o), x; auto|].
    destruct (IH _ _ _ p t x y A7 E C) as (q & t' & k & -> & Ck). exists (TGroup d sp o :: q), t', k. auto.
Qed.
Lemma reprints_extent Q L x y la lb hi a b : reprints Q L x y -> located la lb hi x -> extent x a b -> extent y a b.
Proof.
  intros R K (t & u & m & n & Ht & (p & Hp) & C1 & C2). destruct (reprints_first _ _ _ _ _ _ _ R K _ _ _ Ht C1) as (t' & m' & Ht' & C1').
  destruct (reprints_last _ _ _ _ R _ _ _ _ _ _ _ K Hp C2) as (q & u' & n' & Hq & C2'). exists t', u', m', n'. eauto.
Qed.
(** a text without number signs has no doc comments *)
Lemma placed_strictly lo hi l : placed file src lo hi l -> (forall g sp, ~ within (TPunct 35 g sp) l) -> strictly lo l.
Proof.
  induction 1 as [lo hi H1 H2|lo a b hi t r H1 H2 H3 H4 H5 H6 H7 IH|lo a b hi d o c sp l r H1 H1' H2 H3 H4 H5 H6 H7 H8 IH8 H9 IH|lo a b hi inner t sp r H1 H2 H3 H4 H5 H6 IH]; intro Hn; [constructor| | |].
  - apply (st_cons _ _ a b); try lia; try assumption; [destruct t; try constructor; destruct H5|]. apply IH. intros g sp F. apply (Hn g sp). constructor. exact F.
  - apply (st_cons _ _ a b); try lia; try assumption; cbn [contents].
    + eapply strictly_weaken; [apply IH8|lia]. intros g sp' F. apply (Hn g sp'). apply w_inside. exact F.
    + apply IH. intros g sp' F. apply (Hn g sp'). constructor. exact F.
  - exfalso. apply (Hn Alone sp). unfold doc_tokens. cbn [app]. constructor.
Qed.
(** the first and the last token of a text: nothing but white space and comments before and after *)
Lemma placed_extent lo hi l : placed file src lo hi l -> l <> [] -> exists a b, lo <= a < b /\ b <= hi /\ extent l a b /\
  blank (substring src lo a) (skipn a src) /\ blank (substring src b hi) (skipn hi src).
Proof.
  induction 1 as [lo hi H1 H2|lo a b hi t r H1 H2 H3 H4 H5 H6 H7 IH|lo a b hi d o c sp l r H1 H1' H2 H3 H4 H5 H6 H7 H8 IH8 H9 IH|lo a b hi inner t sp r H1 H2 H3 H4 H5 H6 IH]; intro Hne; [contradiction| | |].
  - pose proof (placed_le _ _ _ _ _ H7) as Hle. destruct r as [|x r].
    + exists a, b. repeat split; try lia; [exists t, t, b, a; split; [reflexivity|]; split; [exists []; reflexivity|auto]|exact H2|]. inversion H7; assumption.
    + destruct IH as (a2 & b2 & L1 & L2 & (x1 & y & m & n & Hx & (p & Hp) & C1 & C2) & B1 & B2); [discriminate|]. exists a, b2. repeat split; try lia; [|exact H2|exact B2].
      exists t, y, b, n. split; [reflexivity|]. split; [exists (t :: p); rewrite Hp; reflexivity|auto].
  - pose proof (placed_le _ _ _ _ _ H9) as Hle. destruct r as [|x r].
    + exists a, b. repeat split; try lia; [exists (TGroup d sp l), (TGroup d sp l), b, a; split; [reflexivity|]; split; [exists []; reflexivity|auto]|exact H2|]. inversion H9; assumption.
    + destruct IH as (a2 & b2 & L1 & L2 & (x1 & y & m & n & Hx & (p & Hp) & C1 & C2) & B1 & B2); [discriminate|]. exists a, b2. repeat split; try lia; [|exact H2|exact B2].
      exists (TGroup d sp l), y, b, n. split; [reflexivity|]. split; [exists (TGroup d sp l :: p); rewrite Hp; reflexivity|auto].
  - pose proof (placed_le _ _ _ _ _ H6) as Hle. destruct r as [|x r].
    + exists a, b. repeat split; try lia; [|exact H2|inversion H6; assumption].
      exists (TPunct 35 Alone sp), (TGroup DBracket sp [TIdent doc_ident sp; TPunct 61 Alone sp; TLit (show_str t) sp]), b, a. split; [reflexivity|].
      split; [exists ([TPunct 35 Alone sp] ++ if inner then [TPunct 33 Alone sp] else []); unfold doc_tokens; rewrite !app_nil_r, app_assoc; reflexivity|auto].
    + destruct IH as (a2 & b2 & L1 & L2 & (x1 & y & m & n & Hx & (p & Hp) & C1 & C2) & B1 & B2); [discriminate|]. exists a, b2. repeat split; try lia; [|exact H2|exact B2].
      exists (TPunct 35 Alone sp), y, b, n. split; [reflexivity|]. split; [exists (doc_tokens inner t sp ++ p); rewrite Hp, app_assoc; reflexivity|auto].
Qed.
End Located.
