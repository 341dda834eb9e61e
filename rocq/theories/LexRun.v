(** * LexRun: a run of the lexer; where its tokens are in the text. *)
From Verif Require Import Base Float Literal Syn Fmt FmtFacts Reprint LiteralFacts Lexer Offsets PropSpan LexFacts LexWf LexOut.
Local Open Scope nat_scope.

(** ** Specification: how a token stream lies in a text *)
Section Layout.
Context {U : unicode}.
(** [rest] is what follows the comment: a line comment goes up to the end of its line *)
Definition line_comment (c rest : text) : Prop :=
  (exists t, c = [47; 47]%N ++ t /\ ~ In 10%N t) /\ match rest with [] => True | x :: _ => x = 10%N end.
(** after an opening of a comment at nesting depth [n], the text up to and including its end: comments nest *)
Inductive closes : nat -> text -> Prop :=
| cl_end : closes 1 [42; 47]%N
| cl_open n t : closes (S n) t -> closes n ([47; 42]%N ++ t)
| cl_close n t : closes (S n) t -> closes (S (S n)) ([42; 47]%N ++ t)
| cl_char n c t : closes n t -> ~ (c = 47%N /\ hd_error t = Some 42%N) -> ~ (c = 42%N /\ hd_error t = Some 47%N) ->
    closes n (c :: t).
(** a comment that begins with three slashes (not four) or with a slash, another and an exclamation mark is documentation *)
Definition doc_line (inner : bool) (t : text) : Prop :=
  if inner then hd_error t = Some 33%N else exists u, t = 47%N :: u /\ hd_error u <> Some 47%N.
Definition plain_line (t : text) : Prop := ~ doc_line true t /\ ~ doc_line false t.
(** likewise a block comment that begins with two stars (not three, and not the empty comment) or an exclamation mark; [t] is what follows the first star *)
Definition doc_block (inner : bool) (t : text) : Prop :=
  if inner then hd_error t = Some 33%N else exists u, t = 42%N :: u /\ hd_error u <> Some 42%N /\ hd_error u <> Some 47%N.
Definition plain_block (t : text) : Prop := ~ doc_block true t /\ ~ doc_block false t.
(** text between tokens: white space and comments *)
Inductive blank : text -> text -> Prop :=
| b_nil rest : blank [] rest
| b_white c g rest : lex_white c = true -> blank g rest -> blank (c :: g) rest
| b_line c g rest : line_comment ([47; 47]%N ++ c) (g ++ rest) -> plain_line c -> blank g rest -> blank ([47; 47]%N ++ c ++ g) rest
| b_block c g rest : closes 1 c -> plain_block c -> blank g rest -> blank ([47; 42]%N ++ c ++ g) rest.
(** the text of a doc comment with this content *)
Definition doc_text (inner : bool) (t c : text) (rest : text) : Prop :=
  (forall u v, t = u ++ [13%N] ++ v -> hd_error v = Some 10%N) /\
  ((line_comment c rest /\ exists cr u, (cr = [] \/ cr = [13%N]) /\ c = [47; 47]%N ++ u /\ doc_line inner u /\ u = [if inner then 33 else 47]%N ++ t ++ cr) \/
   exists u, c = [47; 42]%N ++ u /\ closes 1 u /\ doc_block inner u /\ u = [if inner then 33 else 42]%N ++ t ++ [42; 47]%N).
Definition doc_tokens (inner : bool) (t : text) (sp : span) : list tt :=
  [TPunct 35 Alone sp] ++ (if inner then [TPunct 33 Alone sp] else []) ++
  [TGroup DBracket sp [TIdent doc_ident sp; TPunct 61 Alone sp; TLit (show_str t) sp]].
(** the tokens of the characters from number [lo] to number [hi] of the text *)
Inductive placed (file : nat) (src : text) : nat -> nat -> list tt -> Prop :=
| p_nil lo hi : lo <= hi <= List.length src -> blank (substring src lo hi) (skipn hi src) -> placed file src lo hi []
| p_leaf lo a b hi t r : lo <= a < b -> blank (substring src lo a) (skipn a src) ->
    covers src (tt_span t) a b -> sp_file (tt_span t) = file ->
    match t with TGroup _ _ _ => False | _ => True end -> substring src a b = leaf_text t ->
    placed file src b hi r -> placed file src lo hi (t :: r)
| p_group lo a b hi d o c sp l r : lo <= a -> S a < b -> blank (substring src lo a) (skipn a src) ->
    covers src sp a b -> sp_file sp = file -> delimiters d = Some (o, c) -> substring src a (S a) = [o] -> substring src (pred b) b = [c] ->
    placed file src (S a) (pred b) l -> placed file src b hi r -> placed file src lo hi (TGroup d sp l :: r)
| p_doc lo a b hi inner t sp r : lo <= a < b -> blank (substring src lo a) (skipn a src) ->
    covers src sp a b -> sp_file sp = file -> doc_text inner t (substring src a b) (skipn b src) ->
    placed file src b hi r -> placed file src lo hi (doc_tokens inner t sp ++ r).
End Layout.

Section Run.
Context {U : unicode} (sane : sane_tables U).

(** ** Text between tokens *)
Lemma blank_app g1 : forall g2 rest, blank g1 (g2 ++ rest) -> blank g2 rest -> blank (g1 ++ g2) rest.
Proof.
  intros g2 rest H. remember (g2 ++ rest) as r eqn:E. revert E. induction H as [r|c g r Hc H IH|c g r Hc Hd H IH|c g r Hc Hd H IH]; intros -> H2.
  - exact H2.
  - cbn [app]. apply b_white; auto.
  - rewrite <- !app_assoc. apply b_line; [rewrite <- app_assoc; exact Hc|exact Hd|auto].
  - rewrite <- !app_assoc. apply b_block; auto.
Qed.
Lemma take_line_no_newline s : ~ In 10%N (snd (take_line s)).
Proof.
  induction s as [|c r IH]; [intros []|]. cbn [take_line]. destruct (N.eqb_spec c 10) as [->|Hc]; [intros []|]. destruct ((c =? 13)%N && _); [intros []|].
  destruct (take_line r) as (a, b). cbn [snd] in *. intros [F|F]; [congruence|auto].
Qed.
Lemma take_line_rest s : match fst (take_line s) with [] => True | x :: _ => x = 10%N end.
Proof.
  induction s as [|c r IH]; [exact I|]. cbn [take_line]. destruct (N.eqb_spec c 10) as [->|Hc]; [reflexivity|]. destruct ((c =? 13)%N && _) eqn:E.
  { apply andb_true_iff in E as (_ & E). apply starts_with_spec in E as (t & ->). reflexivity. }
  destruct (take_line r) as (a, b). exact IH.
Qed.
Lemma line_spec (pre_ x : text) : ~ In 10%N pre_ ->
  exists cr, (cr = [] \/ cr = [13%N]) /\ x = snd (take_line x) ++ cr ++ fst (take_line x) /\
    ~ In 10%N (pre_ ++ snd (take_line x) ++ cr).
Proof.
  intro Hp. destruct (take_line_text x) as (cr & E & Hcr). exists cr. split; [exact Hcr|]. split; [exact E|].
  rewrite !in_app_iff. pose proof (take_line_no_newline x). intros [F|[F|F]]; auto. destruct Hcr as [->| ->]; [destruct F|destruct F as [F|[]]; discriminate].
Qed.
Lemma closes_head n c : closes n c -> exists x t, c = x :: t.
Proof. induction 1; cbn [app]; eauto. Qed.
Lemma block_end_closes k : forall s d r, List.length s <= k -> 1 <= d -> block_end s d = Some r -> exists c, s = c ++ r /\ closes d c.
Proof.
  induction k as [|k IH]; intros s d r Hk Hd H; [destruct s; [discriminate|cbn in Hk; lia]|]. destruct s as [|a [|b t]]; try discriminate. cbn [block_end] in H. cbn [List.length] in Hk.
  destruct ((a =? 47)%N && (b =? 42)%N) eqn:E1.
  { apply andb_true_iff in E1 as (E1 & E2). apply N.eqb_eq in E1 as ->. apply N.eqb_eq in E2 as ->. apply IH in H as (c & -> & Hc); [|lia|lia].
    exists ([47; 42]%N ++ c). split; [reflexivity|]. constructor. exact Hc. }
  destruct ((a =? 42)%N && (b =? 47)%N) eqn:E2.
  { apply andb_true_iff in E2 as (E2 & E3). apply N.eqb_eq in E2 as ->. apply N.eqb_eq in E3 as ->. destruct d as [|[|d]]; [lia| |]; cbn [Nat.leb] in H.
    - injection H as <-. exists [42; 47]%N. split; [reflexivity|constructor].
    - apply IH in H as (c & -> & Hc); [|lia|lia]. exists ([42; 47]%N ++ c). split; [reflexivity|]. constructor. exact Hc. }
  change (block_end (b :: t) d = Some r) in H. apply IH in H as (c & E & Hc); [|cbn [List.length]; lia|lia]. destruct (closes_head d c Hc) as (x & u & ->). injection E as -> E.
  exists (a :: x :: u). split; [cbn [app]; congruence|]. apply cl_char; [exact Hc| |]; cbn [hd_error]; intros (-> & K); injection K as ->; [cbn in E1|cbn in E2]; discriminate.
Qed.
Lemma block_comment_closes s r : block_comment s = Some r -> exists c, s = [47; 42]%N ++ c ++ r /\ closes 1 c.
Proof.
  unfold block_comment. destruct (starts_with [47; 42]%N s) eqn:E; [|discriminate]. apply starts_with_spec in E as (t & ->). cbn [app block_end N.eqb Pos.eqb andb]. intro H.
  destruct (block_end_closes _ t 1 r (le_n _) (le_n _) H) as (c & -> & Hc). exists c. split; [reflexivity|exact Hc].
Qed.
Lemma block_comment_text s r : block_comment s = Some r -> exists t, s = ([47; 42]%N ++ t ++ [42; 47]%N) ++ r.
Proof.
  unfold block_comment. destruct (starts_with [47; 42]%N s) eqn:E; [|discriminate]. apply starts_with_spec in E as (t & ->). cbn [app block_end N.eqb Pos.eqb andb]. intro H.
  destruct (block_end_suffix (List.length t) t 1 r (le_n _) H) as (p & ->). exists p. rewrite <- !app_assoc. reflexivity.
Qed.
Lemma plain_line_of t c rest : t = c ++ rest -> match rest with [] => True | x :: _ => x = 10%N end ->
  (negb (starts_with [47; 47; 47]%N ([47; 47]%N ++ t)) || starts_with [47; 47; 47; 47]%N ([47; 47]%N ++ t)) = true ->
  negb (starts_with [47; 47; 33]%N ([47; 47]%N ++ t)) = true -> plain_line c.
Proof.
  intros -> Hr H1 H2. unfold starts_with in *. cbn [app strip_prefix N.eqb Pos.eqb] in *. split; unfold doc_line.
  - destruct c as [|x c]; [intro K; discriminate K|]. cbn [hd_error]. intro K. injection K as ->. discriminate H2.
  - intros (u & -> & Hu). destruct u as [|y u]; cbn [app hd_error] in *.
    + destruct rest as [|y rest]; [cbn in H1; discriminate H1|]. subst y. cbn in H1. discriminate H1.
    + change (match (if (47 =? y)%N then Some (u ++ rest) else None) with Some _ => true | None => false end = true) in H1. destruct (N.eqb_spec 47 y) as [<-|]; [congruence|discriminate H1].
Qed.
Lemma closes_two c : closes 1 c -> exists x y t, c = x :: y :: t.
Proof.
  intro H. inversion H as [|n t H1|n t H1|n x t H1]; subst; cbn [app]; eauto. destruct (closes_head _ _ H1) as (y & u & ->). eauto.
Qed.
Lemma plain_block_of c rest : closes 1 c ->
  (negb (starts_with [47; 42; 42]%N ([47; 42]%N ++ c ++ rest)) || starts_with [47; 42; 42; 42]%N ([47; 42]%N ++ c ++ rest)) = true ->
  negb (starts_with [47; 42; 33]%N ([47; 42]%N ++ c ++ rest)) = true -> plain_block c.
Proof.
  intros Hc H1 H2. destruct (closes_two c Hc) as (x & y & t & ->). unfold starts_with in *. cbn [app strip_prefix N.eqb Pos.eqb] in *. split; unfold doc_block; cbn [hd_error].
  - intro K. injection K as ->. discriminate H2.
  - intros (u & E & Hu & _). injection E as -> <-. cbn [hd_error] in *. change (match (if (42 =? y)%N then Some (t ++ rest) else None) with Some _ => true | None => false end = true) in H1. destruct (N.eqb_spec 42 y) as [<-|]; [congruence|discriminate H1].
Qed.
Lemma no_bare_cr_spec t : no_bare_cr t = true -> forall u v, t = u ++ [13%N] ++ v -> hd_error v = Some 10%N.
Proof.
  induction t as [|c t IH]; intros H u v E; [destruct u; discriminate|]. cbn [no_bare_cr] in H. apply andb_true_iff in H as (H1 & H2). destruct u as [|x u].
  - injection E as -> ->. cbn in H1. apply starts_with_spec in H1 as (w & ->). reflexivity.
  - injection E as -> E. exact (IH H2 u v E).
Qed.
Lemma skip_ws_blank f : forall s, List.length s <= f -> exists g, s = g ++ skip_ws f s /\ blank g (skip_ws f s) /\
  match skip_ws f s with c :: _ => lex_white c = false | [] => True end /\ starts_with [47; 42; 42; 47]%N (skip_ws f s) = false.
Proof.
  induction f as [|f IH]; intros s Hs; [destruct s; [|cbn in Hs; lia]; exists []; cbn; auto using b_nil|]. destruct s as [|c r]; [exists []; cbn; auto using b_nil|]. cbn [List.length] in Hs.
  assert (W : forall x, (starts_with [47; 42; 42; 47]%N (c :: r) = false) -> x = (if lex_white c then skip_ws f r else c :: r) -> exists g, c :: r = g ++ x /\ blank g x /\
    match x with c :: _ => lex_white c = false | [] => True end /\ starts_with [47; 42; 42; 47]%N x = false).
  { intros x Hb ->. destruct (lex_white c) eqn:E; [|exists []; cbn [app]; auto using b_nil]. destruct (IH r ltac:(lia)) as (g & Eg & Hg & R). exists (c :: g). split; [cbn [app]; congruence|]. split; [apply b_white; assumption|exact R]. }
  cbn [skip_ws]. destruct (N.eqb_spec c 47) as [->|Hc].
  2:{ apply W; [|reflexivity]. unfold starts_with. cbn [strip_prefix]. destruct (N.eqb_spec 47 c) as [<-|]; [congruence|reflexivity]. }
  destruct (starts_with [47; 47]%N (47%N :: r) && _ && _) eqn:E1.
  { apply andb_true_iff in E1 as (E1 & Ed2). apply andb_true_iff in E1 as (E1 & Ed1). apply starts_with_spec in E1 as (t & E1). injection E1 as ->. cbn [app] in *.
    replace (fst (take_line (47%N :: 47%N :: t))) with (fst (take_line t)) by (cbn [app take_line N.eqb Pos.eqb andb]; destruct (take_line t); reflexivity).
    destruct (line_spec [47; 47]%N t ltac:(intros [F|[F|[]]]; discriminate)) as (cr & _ & E & Hn).
    pose proof (plain_line_of t (snd (take_line t) ++ cr) (fst (take_line t)) ltac:(rewrite <- app_assoc; exact E) (take_line_rest t) Ed1 Ed2) as Hpl.
    assert (Hl : List.length (fst (take_line t)) <= f) by (pose proof (suffix_length _ _ (take_line_suffix t)); cbn [app List.length] in Hs; lia).
    destruct (IH _ Hl) as (g & Eg & Hg & R). exists ([47; 47]%N ++ (snd (take_line t) ++ cr) ++ g). split; [|split; [|exact R]].
    - rewrite <- !app_assoc, <- Eg. cbn [app]. f_equal. f_equal. exact E.
    - apply b_line; [|exact Hpl|exact Hg]. split; [eexists; split; [reflexivity|]|rewrite <- Eg; apply take_line_rest]. intro F. apply Hn. do 2 right. exact F. }
  destruct (starts_with [47; 42; 42; 47]%N _) eqn:E2.
  { apply starts_with_spec in E2 as (t & E2). injection E2 as ->. cbn [app skipn List.length] in *. destruct (IH t ltac:(lia)) as (g & Eg & Hg & R).
    exists ([47; 42]%N ++ [42; 47]%N ++ g). split; [cbn [app]; congruence|]. split; [apply b_block; [constructor| |exact Hg]|exact R].
    split; [discriminate|]. intros (u & Eu & _ & Hu). injection Eu as <-. cbn in Hu. congruence. }
  destruct (starts_with [47; 42]%N (47%N :: r) && _ && _) eqn:E3; [|apply W; reflexivity].
  destruct (block_comment _) as [t|] eqn:E; [|exists []; cbn [app]; auto using b_nil].
  apply andb_true_iff in E3 as (E3 & Ed2). apply andb_true_iff in E3 as (E3 & Ed1).
  apply block_comment_closes in E as (q & E & Hq). rewrite E in Ed1, Ed2.
  assert (Hl : List.length t <= f) by (apply (f_equal (@List.length N)) in E; rewrite !app_length in E; cbn [List.length] in E; lia).
  destruct (IH t Hl) as (g & Eg & Hg & R). exists ([47; 42]%N ++ q ++ g). split; [rewrite <- !app_assoc, <- Eg; exact E|]. split; [apply b_block; [exact Hq| |exact Hg]|exact R].
  exact (plain_block_of q t Hq Ed1 Ed2).
Qed.
Lemma skip_blank s : exists g, s = g ++ skip_whitespace s /\ blank g (skip_whitespace s) /\
  match skip_whitespace s with c :: _ => lex_white c = false | [] => True end /\ starts_with [47; 42; 42; 47]%N (skip_whitespace s) = false.
Proof. apply skip_ws_blank. lia. Qed.

Lemma doc_text_spec s t inner rest : doc_comment_contents s = Some (t, inner, rest) -> no_bare_cr t = true -> starts_with [47; 42; 42; 47]%N s = false ->
  exists c, s = c ++ rest /\ doc_text inner t c rest.
Proof.
  intros H Hbare Hn.
  assert (Line : forall x, x <> 10%N -> starts_with [47; 47; x]%N s = true -> forall rest t, take_line (skipn 3 s) = (rest, t) ->
      exists c cr, s = c ++ rest /\ line_comment c rest /\ (cr = [] \/ cr = [13%N]) /\ c = [47; 47]%N ++ [x] ++ t ++ cr).
  { intros x Hx Hp rest' t' E. apply starts_with_spec in Hp as (y & ->). cbn [app skipn] in E.
    destruct (line_spec [x] y ltac:(intros [F|[]]; congruence)) as (cr & Hcr & Ey & Hc). pose proof (take_line_rest y) as Hr. rewrite E in *. cbn [fst snd] in *.
    exists ([47; 47]%N ++ [x] ++ t' ++ cr), cr. split; [rewrite <- !app_assoc; cbn [app]; congruence|]. split; [|auto]. split; [eexists; split; [reflexivity|exact Hc]|exact Hr]. }
  assert (Block : forall x inner0, starts_with [47; 42; x]%N s = true -> (x = 42%N -> starts_with [47; 42; 42; 47]%N s = false) -> match block_comment s with Some rest => Some (drop_last2 (skipn 3 (firstn (List.length s - List.length rest) s)), inner0, rest) | None => None end = Some (t, inner, rest) ->
      inner0 = inner /\ exists c, s = c ++ rest /\ c = [47; 42]%N ++ [x] ++ t ++ [42; 47]%N /\ closes 1 ([x] ++ t ++ [42; 47]%N)).
  { intros x inner0 Hx Hn0 H0. destruct (block_comment s) as [rest'|] eqn:E; [|discriminate]. apply (f_equal (fun o => match o with Some p => p | None => ([], true, []) end)) in H0. apply pair_equal_spec in H0 as (H0 & ->). apply pair_equal_spec in H0 as (<- & ->).
    split; [reflexivity|]. destruct (block_comment_closes _ _ E) as (q1 & E1 & Hq1). apply block_comment_text in E as (q & E).
    assert (Eq : q1 = q ++ [42; 47]%N) by (rewrite E in E1; rewrite <- app_assoc in E1; cbn [app] in E1; injection E1 as E1; apply app_inv_tail in E1; symmetry; exact E1). subst q1. clear E1. apply starts_with_spec in Hx as (y & Ey). destruct q as [|x' q].
    - exfalso. rewrite E in Ey. injection Ey as <- _. rewrite E in Hn0. specialize (Hn0 eq_refl). discriminate.
    - rewrite E in Ey. injection Ey as <- _. exists ([47; 42]%N ++ (x' :: q) ++ [42; 47]%N). split; [exact E|]. cut (drop_last2 (skipn 3 (firstn (List.length s - List.length rest) s)) = q); [intros ->; split; [reflexivity|exact Hq1]|]. rewrite E, app_length.
      replace (List.length ([47; 42]%N ++ (x' :: q) ++ [42; 47]%N) + List.length rest - List.length rest) with (List.length ([47; 42]%N ++ (x' :: q) ++ [42; 47]%N) + 0) by lia.
      rewrite firstn_app_2. cbn [firstn]. rewrite app_nil_r. cbn [app skipn]. unfold drop_last2. rewrite app_length. cbn [List.length].
      replace (List.length q + 2 - 2) with (List.length q + 0) by lia. rewrite firstn_app_2. cbn [firstn]. rewrite app_nil_r. reflexivity. }
  unfold doc_comment_contents in H. cbv zeta in H.
  destruct (starts_with [47; 47; 33]%N s) eqn:E1.
  { destruct (take_line (skipn 3 s)) as (r', t') eqn:E. injection H as <- <- <-. destruct (Line 33%N ltac:(discriminate) E1 _ _ eq_refl) as (c & cr & A & B & C & D). exists c. split; [exact A|]. split; [exact (no_bare_cr_spec _ Hbare)|].
    left. split; [exact B|]. exists cr, ([33%N] ++ t' ++ cr). split; [exact C|]. split; [exact D|]. split; reflexivity. }
  destruct (starts_with [47; 42; 33]%N s) eqn:E2.
  { destruct (Block 33%N true E2 ltac:(discriminate) H) as (<- & c & A & B & D). exists c. split; [exact A|]. split; [exact (no_bare_cr_spec _ Hbare)|]. right. eexists. split; [exact B|]. split; [exact D|]. split; reflexivity. }
  destruct (starts_with [47; 47; 47]%N s) eqn:E3.
  { destruct (starts_with [47%N] (skipn 3 s)) eqn:E0; [discriminate|]. destruct (take_line (skipn 3 s)) as (r', t') eqn:E. injection H as <- <- <-.
    destruct (Line 47%N ltac:(discriminate) E3 _ _ eq_refl) as (c & cr & A & B & C & D). exists c. split; [exact A|]. split; [exact (no_bare_cr_spec _ Hbare)|].
    left. split; [exact B|]. exists cr, ([47%N] ++ t' ++ cr). split; [exact C|]. split; [exact D|]. split; [|reflexivity]. exists (t' ++ cr). split; [reflexivity|].
    intro K. rewrite A, D in E0. cbn [app skipn] in E0. destruct (t' ++ cr) as [|y u]; [discriminate K|]. injection K as ->. discriminate E0. }
  destruct (starts_with [47; 42; 42]%N s && _) eqn:E4; [|discriminate]. apply andb_true_iff in E4 as (E4 & E5).
  destruct (Block 42%N false E4 ltac:(auto) H) as (<- & c & A & B & D). exists c. split; [exact A|]. split; [exact (no_bare_cr_spec _ Hbare)|]. right. eexists. split; [exact B|]. split; [exact D|]. split; [|reflexivity].
  exists (t ++ [42; 47]%N). split; [reflexivity|]. rewrite A, B in E5, Hn. destruct (t ++ [42; 47]%N) as [|y u] eqn:Et; [split; discriminate|]. cbn [hd_error].
  split; intro K; injection K as ->; [discriminate E5|discriminate Hn].
Qed.

(** ** Pieces of the text *)
Section Src.
Context (file : nat) (src : text).
Lemma offset_le r : offset src r <= List.length src.
Proof. unfold offset. lia. Qed.
Lemma offset_skipn r : suffix r src -> skipn (offset src r) src = r.
Proof.
  intros (p & E). unfold offset. rewrite E, app_length. replace (List.length p + List.length r - List.length r) with (List.length p) by lia. rewrite skipn_app, skipn_all, Nat.sub_diag. reflexivity.
Qed.
Lemma offset_piece p r : suffix (p ++ r) src -> offset src r = offset src (p ++ r) + List.length p /\ substring src (offset src (p ++ r)) (offset src r) = p.
Proof.
  intros (q & E). assert (L : offset src r = offset src (p ++ r) + List.length p) by (unfold offset; rewrite E, !app_length; lia).
  split; [exact L|]. unfold substring. rewrite offset_skipn by (exists q; exact E). rewrite L.
  replace (offset src (p ++ r) + List.length p - offset src (p ++ r)) with (List.length p + 0) by lia. rewrite firstn_app_2. apply app_nil_r.
Qed.
Lemma covers_span lo hi : lo <= hi <= List.length src -> covers src (mk_span file src lo hi) lo hi.
Proof. intro H. split; [exact H|]. split; apply line_column_position; lia. Qed.
Lemma substring_cat a b c : a <= b <= c -> substring src a b ++ substring src b c = substring src a c.
Proof.
  intro H. unfold substring. rewrite <- (firstn_skipn (b - a) (firstn (c - a) (skipn a src))). rewrite firstn_firstn, Nat.min_l by lia. f_equal.
  rewrite skipn_firstn_comm, skipn_add. replace (c - a - (b - a)) with (c - b) by lia. f_equal. f_equal. lia.
Qed.
Lemma skipn_cat a b : a <= b <= List.length src -> skipn a src = substring src a b ++ skipn b src.
Proof.
  intro H. unfold substring. rewrite <- (firstn_skipn (b - a) (skipn a src)) at 1. f_equal. rewrite skipn_add. f_equal. lia.
Qed.
Lemma blank_cat a b c : a <= b <= c -> c <= List.length src -> blank (substring src a b) (skipn b src) -> blank (substring src b c) (skipn c src) ->
  blank (substring src a c) (skipn c src).
Proof. intros H Hc H1 H2. rewrite <- (substring_cat a b c) by exact H. apply blank_app; [|exact H2]. rewrite <- skipn_cat by lia. exact H1. Qed.
Lemma placed_le lo hi l : placed file src lo hi l -> lo <= hi <= List.length src.
Proof. induction 1; lia. Qed.
Lemma placed_before lo m hi l : lo <= m -> blank (substring src lo m) (skipn m src) -> placed file src m hi l -> placed file src lo hi l.
Proof.
  intros Hm Hb H. pose proof (placed_le _ _ _ H) as Hle. destruct H as [lo' hi' H1 H2|lo' a b hi' t r H1 H2 H3 H4 H5 H6 H7|lo' a b hi' d o c sp l r H1 H1' H2 H3 H4 H5 H6 H7 H8 H9|lo' a b hi' inner t sp r H1 H2 H3 H4 H5 H6].
  - apply p_nil; [lia|]. apply (blank_cat _ lo'); auto; lia.
  - pose proof (proj1 H3). eapply p_leaf with (a := a) (b := b); eauto; [lia|]. apply (blank_cat _ lo'); auto; lia.
  - pose proof (proj1 H3). eapply p_group with (a := a) (b := b); eauto; [lia|]. apply (blank_cat _ lo'); auto; lia.
  - pose proof (proj1 H3). eapply p_doc with (a := a) (b := b); eauto; [lia|]. apply (blank_cat _ lo'); auto; lia.
Qed.
Lemma placed_app lo m hi l1 l2 : placed file src lo m l1 -> placed file src m hi l2 -> placed file src lo hi (l1 ++ l2).
Proof.
  induction 1 as [lo hi' H1 H2|lo a b hi' t r H1 H2 H3 H4 H5 H6 H7 IH|lo a b hi' d o c sp l r H1 H1' H2 H3 H4 H5 H6 H7 H8 _ H9 IH|lo a b hi' inner t sp r H1 H2 H3 H4 H5 H6 IH]; intro Hr.
  - apply (placed_before lo hi'); auto. lia.
  - cbn [app]. eapply p_leaf; eauto.
  - cbn [app]. eapply p_group; eauto.
  - rewrite <- app_assoc. eapply p_doc; eauto.
Qed.

(** ** The invariant of the loop *)
(** [lo]: where the content of the innermost open group starts; [top]: where the text starts *)
Fixpoint frames (top lo : nat) (stk : list (nat * delim * list tt)) : Prop :=
  match stk with
  | [] => lo = top
  | (a, d, outer) :: stk' =>
      lo = S a /\ (exists o c, delimiters d = Some (o, c) /\ substring src a (S a) = [o]) /\ wf outer /\
      exists lo' m, placed file src lo' m outer /\ m <= a <= List.length src /\ blank (substring src m a) (skipn a src) /\ frames top lo' stk'
  end.
Definition inv (top : nat) (st : lstate) : Prop :=
  suffix (l_rest st) src /\ wfo (l_trees st) (l_rest st) /\
  exists lo, frames top lo (l_stack st) /\ placed file src lo (offset src (l_rest st)) (l_trees st).

Lemma wf_doc inner t sp : forallb valid_char t = true -> wf (doc_tokens inner t sp).
Proof.
  intro Hv. assert (Hi : ident_ok doc_ident).
  { left. exists 100%N, [111; 99]%N. split; [reflexivity|]. split; [reflexivity|]. repeat constructor. }
  unfold doc_tokens. destruct inner; cbn [app wf wf_tree]; repeat split; auto; try (right; left; reflexivity); try discriminate;
    try (left; apply show_str_lexes; exact Hv); cbn [In punct_chars]; tauto.
Qed.
Lemma open_spec s d : open_delim s = Some d -> exists o c r, s = o :: r /\ delimiters d = Some (o, c).
Proof.
  destruct s as [|c r]; [discriminate|]. unfold open_delim.
  destruct (N.eqb_spec c 40) as [->|]; cbn [andb]; [destruct (negb _); [intro H; injection H as <-; repeat eexists; reflexivity|]|].
  - discriminate.
  - destruct (N.eqb_spec c 91) as [->|]; [intro H; injection H as <-; repeat eexists; reflexivity|].
    destruct (N.eqb_spec c 123) as [->|]; [intro H; injection H as <-; repeat eexists; reflexivity|discriminate].
Qed.
Lemma close_spec c d : close_delim c = Some d -> exists o, delimiters d = Some (o, c).
Proof.
  unfold close_delim. destruct (N.eqb_spec c 41) as [->|]; [intro H; injection H as <-; eexists; reflexivity|].
  destruct (N.eqb_spec c 93) as [->|]; [intro H; injection H as <-; eexists; reflexivity|].
  destruct (N.eqb_spec c 125) as [->|]; [intro H; injection H as <-; eexists; reflexivity|discriminate].
Qed.
Lemma delim_eqb_eq a b : delim_eqb a b = true -> a = b.
Proof. destruct a, b; (reflexivity || discriminate). Qed.
Lemma leaf_not_group s f rest sp : leaf_token s = Some (f, rest) -> match f sp with TGroup _ _ _ => False | _ => True end /\ tt_span (f sp) = sp.
Proof.
  unfold leaf_token. destruct (literal s) as [(r, t)|]; [intro H; injection H as <- _; auto using I|].
  destruct (lex_punct s) as [((c, g), t)|]; [intro H; injection H as <- _; auto using I|].
  destruct (ident s) as [(n, t)|]; [intro H; injection H as <- _; auto using I|].
  destruct (strip_prefix error_repr s) as [t|]; [intro H; injection H as <- _; auto using I|discriminate].
Qed.
Lemma substring_head a c r : suffix (c :: r) src -> a = offset src (c :: r) -> substring src a (S a) = [c] /\ offset src r = S a.
Proof. intros H ->. destruct (offset_piece [c] r H) as (E & P). cbn [List.length app] in E, P. rewrite Nat.add_1_r in E. split; [rewrite <- E; exact P|exact E]. Qed.

(** one round keeps the invariant and makes the text shorter *)
Lemma step_inv top st st' : forallb valid_char src = true -> inv top st -> lex_step file src st = inl st' ->
  inv top st' /\ List.length (l_rest st') < List.length (l_rest st).
Proof.
  intros Hv (Hsuf & Hw & lo & Hf & Hp) H. unfold lex_step in H. destruct (skip_blank (l_rest st)) as (g & Eg & Hg & Hwh & Hnb).
  set (s := skip_whitespace (l_rest st)) in *.
  assert (Hs : suffix s src) by (eapply suffix_trans; [exists g; exact Eg|exact Hsuf]).
  assert (Len : List.length s <= List.length (l_rest st)) by (apply suffix_length; exists g; exact Eg).
  rewrite Eg in Hsuf. destruct (offset_piece g s Hsuf) as (Eo & Es). rewrite <- Eg in Hsuf, Eo, Es.
  set (m := offset src (l_rest st)) in *. set (a := offset src s) in *.
  assert (Hba : blank (substring src m a) (skipn a src)) by (unfold a at 2; rewrite Es, offset_skipn by exact Hs; exact Hg).
  assert (Ha : m <= a <= List.length src) by (split; [lia|apply offset_le]).
  assert (Hj : forall c, jready c (l_rest st) -> s = l_rest st /\ doc_comment s = None /\ open_delim s = None /\ match s with x :: _ => close_delim x = None | [] => False end).
  { intros c Hc. destruct (jready_solid sane c _ Hc) as (J1 & J2 & J3). assert (E : s = l_rest st) by (apply solid_skip; exact J1). rewrite E. split; [reflexivity|]. split; [apply solid_no_doc; exact J1|auto]. }
  destruct (doc_comment s) as [(f, rest)|] eqn:Ed.
  { injection H as <-. cbn [l_rest l_trees l_stack]. unfold doc_comment in Ed. destruct (doc_comment_contents s) as [((t, inner), rest')|] eqn:Ec; [|discriminate].
    destruct (no_bare_cr t) eqn:Ecr; [|discriminate]. injection Ed as <- ->. destruct (doc_text_spec s t inner rest Ec Ecr Hnb) as (c & E & Hd).
    pose proof Hs as Hs2. rewrite E in Hs2. destruct (offset_piece c rest Hs2) as (Lc & Pc). rewrite <- E in Lc, Pc. fold a in Lc, Pc.
    assert (Hc : c <> []) by (destruct Hd as (_ & [(((x & -> & _) & _) & _)|(x & -> & _)]); discriminate).
    assert (Lc0 : 0 < List.length c) by (destruct c; [congruence|cbn; lia]).
    assert (Hrs : suffix rest src) by (eapply suffix_trans; [exists c; exact E|exact Hs]).
    assert (Hvt : forallb valid_char t = true).
    { destruct Hs as (q & Eq). rewrite Eq, E in Hv. rewrite !forallb_app in Hv. apply andb_true_iff in Hv as (_ & Hv). apply andb_true_iff in Hv as (Hv & _).
      destruct Hd as (_ & [(_ & cr & u & _ & -> & _ & ->)|(u & -> & _ & _ & ->)]); rewrite !forallb_app in Hv; do 2 apply andb_true_iff in Hv as (_ & Hv); apply andb_true_iff in Hv as (Hv & _); exact Hv. }
    change (inv top (LS rest (l_trees st ++ doc_tokens inner t (mk_span file src a (offset src rest))) (l_stack st)) /\ List.length rest < List.length (l_rest st)).
    split; [|cbn [l_rest]; rewrite E in Len; rewrite app_length in Len; lia].
    split; [exact Hrs|]. split.
    - cbn [l_trees l_rest]. apply wf_wfo. apply wf_app; [|apply wf_doc; exact Hvt]. apply (wfo_wf (l_trees st) (l_rest st)); [|exact Hw].
      intros x Hx. destruct (Hj x Hx) as (_ & F & _). discriminate.
    - exists lo. split; [exact Hf|]. cbn [l_trees l_rest]. apply (placed_app lo m); [exact Hp|]. rewrite <- (app_nil_r (doc_tokens _ _ _)).
      apply p_doc with (a := a) (b := offset src rest); [lia|exact Hba|apply covers_span; split; [lia|apply offset_le]|reflexivity| |].
      + rewrite Pc, offset_skipn by exact Hrs. exact Hd.
      + apply p_nil; [split; [lia|apply offset_le]|]. unfold substring. rewrite Nat.sub_diag. apply b_nil. }
  clearbody s. destruct s as [|c r]; [discriminate|]. remember (c :: r) as s eqn:Escr.
  assert (Hr : suffix r src) by (eapply suffix_trans; [|exact Hs]; rewrite Escr; exists [c]; reflexivity).
  assert (Hcr : suffix (c :: r) src) by (rewrite <- Escr; exact Hs).
  assert (Lr : List.length r < List.length (l_rest st)) by (rewrite Escr in Len; cbn [List.length] in Len; lia).
  assert (Xa : substring src a (S a) = [c] /\ offset src r = S a) by (apply substring_head; [exact Hcr|unfold a; rewrite Escr; reflexivity]).
  destruct Xa as (Xa & Xr). pose proof (offset_le r) as Xl.
  destruct (open_delim s) as [d|] eqn:Eop.
  { injection H as <-. split; [|exact Lr]. split; [exact Hr|]. split; [exact I|]. cbn [l_trees l_rest l_stack]. exists (S a). split.
    - cbn [frames]. split; [reflexivity|]. destruct (open_spec s d Eop) as (o & c' & r' & E & Hd). split; [exists o, c'; split; [exact Hd|]; rewrite E in Escr; injection Escr as -> _; exact Xa|].
      split; [apply (wfo_wf (l_trees st) (l_rest st)); [|exact Hw]; intros x Hx; destruct (Hj x Hx) as (_ & _ & F & _); congruence|].
      exists lo, m. auto.
    - rewrite Xr. apply p_nil; [lia|]. unfold substring. rewrite Nat.sub_diag. apply b_nil. }
  destruct (close_delim c) as [d|] eqn:Ecl.
  { destruct (l_stack st) as [|((a', d'), outer) stk] eqn:Estk; [discriminate|]. destruct (delim_eqb d' d) eqn:Edd; [|discriminate]. apply delim_eqb_eq in Edd as ->.
    injection H as <-. split; [|exact Lr]. split; [exact Hr|]. cbn [frames] in Hf. destruct Hf as (-> & (o & c0 & Hd & Ho) & Hwo & lo' & m' & Hp' & Hm' & Hb' & Hf').
    assert (Hwt : wf (l_trees st)) by (apply (wfo_wf (l_trees st) (l_rest st)); [|exact Hw]; intros x Hx; destruct (Hj x Hx) as (_ & _ & _ & F); congruence).
    destruct (close_spec c d Ecl) as (o' & Hd'). rewrite Hd in Hd'. injection Hd' as <- <-.
    cbn [l_trees l_rest l_stack]. split.
    - apply wf_wfo. apply wf_app; [exact Hwo|]. rewrite wf_cons, wf_group. split; [split; [intros ->; discriminate|exact Hwt]|]. split; exact I.
    - exists lo'. split; [exact Hf'|]. pose proof (placed_le _ _ _ Hp). apply (placed_app lo' m'); [exact Hp'|]. rewrite Xr.
      apply p_group with (a := a') (b := S a) (o := o) (c := c0); [lia|lia|exact Hb'|apply covers_span; lia|reflexivity|exact Hd|exact Ho|exact Xa| |].
      + cbn [pred]. rewrite <- (app_nil_r (l_trees st)). apply (placed_app _ m); [exact Hp|]. apply p_nil; [lia|exact Hba].
      + apply p_nil; [lia|]. unfold substring. rewrite Nat.sub_diag. apply b_nil. }
  destruct (leaf_token s) as [(f, rest)|] eqn:El; [|discriminate]. injection H as <-.
  set (sp := mk_span file src a (offset src rest)) in *.
  assert (Hso : solid s) by (apply (leaf_solid s f rest El); rewrite Escr; exact Hwh).
  destruct (leaf_spec s f rest sp El Hso) as (E & Hne & Hwt & Hjr). destruct (leaf_not_group s f rest sp El) as (Hng & Hsp).
  pose proof Hs as Hs2. rewrite E in Hs2. destruct (offset_piece (leaf_text (f sp)) rest Hs2) as (Lc & Pc). rewrite <- E in Lc, Pc. fold a in Lc, Pc.
  assert (Lc0 : 0 < List.length (leaf_text (f sp))) by (destruct (leaf_text (f sp)); [congruence|cbn; lia]).
  assert (Hrs : suffix rest src) by (eapply suffix_trans; [exists (leaf_text (f sp)); exact E|exact Hs]).
  split; [|cbn [l_rest]; rewrite E, app_length in Len; lia].
  split; [exact Hrs|]. cbn [l_trees l_rest l_stack]. split.
  - apply (wfo_snoc _ (l_rest st)); [exact Hw| |exact Hwt|exact Hjr]. intros x Hx. destruct (Hj x Hx) as (Ex & _). rewrite <- Ex in Hx. exact (next_joint sane x s f rest sp [] Hx El).
  - exists lo. split; [exact Hf|]. apply (placed_app lo m); [exact Hp|]. pose proof (offset_le rest).
    apply p_leaf with (a := a) (b := offset src rest); [lia|exact Hba|rewrite Hsp; apply covers_span; lia|rewrite Hsp; reflexivity|exact Hng|exact Pc|].
    apply p_nil; [lia|]. unfold substring. rewrite Nat.sub_diag. apply b_nil.
Qed.
Lemma step_end top st ts : inv top st -> lex_step file src st = inr (LOk ts) -> wf ts /\ placed file src top (List.length src) ts.
Proof.
  intros (Hsuf & Hw & lo & Hf & Hp) H. unfold lex_step in H. destruct (skip_blank (l_rest st)) as (g & Eg & Hg & Hwh & Hnb).
  destruct (doc_comment (skip_whitespace (l_rest st))) as [(f, rest)|] eqn:Ed; [discriminate|].
  destruct (skip_whitespace (l_rest st)) as [|c r] eqn:Es.
  2:{ destruct (open_delim _); [discriminate|]. destruct (close_delim c); [destruct (l_stack st) as [|((a', d'), outer) stk]; [discriminate|destruct (delim_eqb _ _); discriminate]|].
      destruct (leaf_token _) as [(f, rest)|]; discriminate. }
  destruct (l_stack st) as [|((a', d'), outer) stk]; [|discriminate]. injection H as <-. cbn [frames] in Hf. subst lo.
  split.
  - apply (wfo_wf _ (l_rest st)); [|exact Hw]. intros x Hx. destruct (jready_solid sane x _ Hx) as (J & _). apply solid_skip in J. rewrite Es in J. rewrite <- J in Hx.
    destruct (jready_solid sane x _ Hx) as (_ & _ & []).
  - rewrite <- (app_nil_r (l_trees st)). apply (placed_app _ (offset src (l_rest st))); [exact Hp|]. rewrite app_nil_r in Eg. subst g.
    apply p_nil; [split; [apply offset_le|lia]|]. rewrite skipn_all. replace (substring src _ _) with (l_rest st); [exact Hg|].
    unfold substring. rewrite offset_skipn by exact Hsuf. symmetry. apply firstn_all2. apply suffix_length in Hsuf. unfold offset. lia.
Qed.
Lemma loop_inv top fuel : forall st ts, forallb valid_char src = true -> inv top st -> lex_loop file src fuel st = LOk ts -> wf ts /\ placed file src top (List.length src) ts.
Proof.
  induction fuel as [|fuel IH]; intros st ts Hv Hi H; cbn [lex_loop] in H; destruct (lex_step file src st) as [st'|r] eqn:E; try discriminate.
  - subst r. apply (step_end top st); assumption.
  - apply (IH st'); [exact Hv| |exact H]. eapply step_inv; eauto.
  - subst r. apply (step_end top st); assumption.
Qed.

(** ** Every round removes a character, so the fuel is enough *)
Lemma step_shorter st st' : lex_step file src st = inl st' -> List.length (l_rest st') < List.length (l_rest st).
Proof.
  intro H. unfold lex_step in H. destruct (skip_blank (l_rest st)) as (g & Eg & Hg & Hwh & Hnb). set (s := skip_whitespace (l_rest st)) in *.
  assert (Len : List.length s <= List.length (l_rest st)) by (apply suffix_length; exists g; exact Eg).
  destruct (doc_comment s) as [(f, rest)|] eqn:Ed.
  { injection H as <-. cbn [l_rest]. unfold doc_comment in Ed. destruct (doc_comment_contents s) as [((t, inner), rest')|] eqn:Ec; [|discriminate].
    destruct (no_bare_cr t); [|discriminate]. injection Ed as _ ->. destruct (doc_spec s t inner rest Ec) as (p & E & Hp & _). rewrite E, app_length in Len. destruct p; [congruence|cbn [List.length] in Len; lia]. }
  destruct s as [|c r]; [discriminate|]. cbn [List.length] in Len. destruct (open_delim _); [injection H as <-; cbn [l_rest]; lia|].
  destruct (close_delim c).
  { destruct (l_stack st) as [|((a', d'), outer) stk]; [discriminate|]. destruct (delim_eqb _ _); [|discriminate]. injection H as <-. cbn [l_rest]. lia. }
  destruct (leaf_token (c :: r)) as [(f, rest)|] eqn:El; [|discriminate]. injection H as <-. cbn [l_rest].
  destruct (leaf_spec (c :: r) f rest (mk_span 0 [] 0 0) El (leaf_solid _ _ _ El Hwh)) as (E & Hne & _). apply (f_equal (@List.length N)) in E. rewrite app_length in E. cbn [List.length] in E.
  destruct (leaf_text _); [congruence|]. cbn [List.length] in E. lia.
Qed.
Lemma loop_fuel f : forall st f', List.length (l_rest st) <= f -> List.length (l_rest st) <= f' -> lex_loop file src f st = lex_loop file src f' st.
Proof.
  induction f as [|f IH]; intros st f' H H'; destruct f' as [|f']; cbn [lex_loop]; destruct (lex_step file src st) as [st'|r] eqn:E; auto; apply step_shorter in E; try lia. apply IH; lia.
Qed.
(** the loop never stops for lack of fuel: its error is that of some round *)
Definition run (st : lstate) : lresult := lex_loop file src (List.length (l_rest st)) st.
Lemma run_step st : run st = match lex_step file src st with inl st' => run st' | inr r => r end.
Proof.
  unfold run. destruct (lex_step file src st) as [st'|r] eqn:E.
  - pose proof (step_shorter _ _ E). destruct (List.length (l_rest st)) as [|n] eqn:El; [lia|]. cbn [lex_loop]. rewrite E. apply loop_fuel; lia.
  - destruct (List.length (l_rest st)); cbn [lex_loop]; rewrite E; reflexivity.
Qed.
Lemma run_steps st st' : steps file src st st' -> run st = run st'.
Proof. induction 1 as [|s1 s2 s3 H _ IH]; [reflexivity|]. rewrite run_step, H. exact IH. Qed.
Lemma run_end g trees : white g -> run (LS g trees []) = LOk trees.
Proof.
  intro Hg. rewrite run_step. unfold lex_step. cbn [l_rest l_trees l_stack]. rewrite <- (app_nil_r g), (skip_gap' g []) by auto. reflexivity.
Qed.
End Src.
Definition no_bom (src : text) : text := match src with c :: r => if (c =? 65279)%N then r else src | [] => src end.
Lemma lex_run file src : lex file src = run file src (LS (no_bom src) [] []).
Proof. reflexivity. Qed.
Definition start_of (src : text) : nat := match src with c :: _ => if (c =? 65279)%N then 1 else 0 | [] => 0 end.
Theorem lex_out file src ts : forallb valid_char src = true -> lex file src = LOk ts ->
  wf ts /\ placed file src (start_of src) (List.length src) ts.
Proof.
  intros Hv H. rewrite lex_run in H. unfold run in H. cbn [l_rest] in H. apply (loop_inv file src (start_of src) _ _ _ Hv) in H; [exact H|]. clear.
  assert (Hs : suffix (no_bom src) src) by (destruct src as [|c r]; [apply suffix_refl|]; cbn [no_bom]; destruct (c =? 65279)%N; [apply suffix_cons|]; apply suffix_refl).
  split; [exact Hs|]. split; [exact I|]. exists (start_of src). split; [reflexivity|]. cbn [l_rest l_trees].
  assert (E : offset src (no_bom src) = start_of src).
  { destruct src as [|c r]; [reflexivity|]. unfold offset. cbn [no_bom start_of]. destruct (c =? 65279)%N; cbn [List.length]; lia. }
  rewrite E. apply p_nil; [rewrite <- E; split; [lia|apply offset_le]|]. unfold substring. rewrite Nat.sub_diag. apply b_nil.
Qed.
End Run.
