(** * Base: text, source positions, token trees.

    These are the data types of the crates parsel is written against
    ([proc_macro2], re-exported at parsel/src/lib.rs:58-62); they carry no logic
    of parsel itself. *)
From Coq Require Export List Arith NArith ZArith Lia Bool String Ascii.
Export ListNotations.
Open Scope list_scope.
Open Scope nat_scope.

(** ** Text.  A Rust [char] is a Unicode scalar value (here: its code point), a
    [str] is a sequence of [char]s.  UTF-8 only matters for byte offsets, see
    [Offsets.v]. *)
Notation char := N (only parsing).
Notation text := (list N) (only parsing).

(** Coq string literals (ASCII only) as text. *)
Fixpoint T (s : string) : text :=
  match s with
  | EmptyString => []
  | String a r => N_of_ascii a :: T r
  end.
Definition ch (a : ascii) : char := N_of_ascii a.

Fixpoint text_eqb (a b : text) : bool :=
  match a, b with
  | [], [] => true
  | x :: a', y :: b' => N.eqb x y && text_eqb a' b'
  | _, _ => false
  end.

Lemma text_eqb_eq a b : text_eqb a b = true <-> a = b.
Proof.
  revert b; induction a as [|x a IH]; destruct b as [|y b]; cbn; split; intro H;
    try reflexivity; try discriminate.
  - apply andb_true_iff in H as [H1 H2]. apply N.eqb_eq in H1. apply IH in H2. congruence.
  - injection H as -> ->. rewrite N.eqb_refl. apply IH. reflexivity.
Qed.
Lemma text_eqb_refl a : text_eqb a a = true.
Proof. apply text_eqb_eq. reflexivity. Qed.
Lemma text_eqb_neq a b : text_eqb a b = false <-> a <> b.
Proof.
  split; intro H.
  - intros ->. rewrite text_eqb_refl in H. discriminate.
  - destruct (text_eqb a b) eqn:E; [|reflexivity]. apply text_eqb_eq in E. contradiction.
Qed.

Definition text_eq_dec (a b : text) : {a = b} + {a <> b} := list_eq_dec N.eq_dec a b.

(** Membership in a keyword list. *)
Definition text_mem (x : text) (l : list text) : bool := existsb (text_eqb x) l.
Lemma text_mem_In x l : text_mem x l = true <-> In x l.
Proof.
  unfold text_mem. rewrite existsb_exists. split.
  - intros (y & Hy & E). apply text_eqb_eq in E. subst. exact Hy.
  - intro H. exists x. split; [exact H | apply text_eqb_refl].
Qed.

(** ** Source locations.
    [proc_macro2::LineColumn] (parsel/src/lib.rs:60): 1-based line, 0-based column
    counted in [char]s, ordered lexicographically. *)
Record lc := LC { lc_line : nat; lc_col : nat }.

Definition lc_leb (a b : lc) : bool :=
  (lc_line a <? lc_line b) || ((lc_line a =? lc_line b) && (lc_col a <=? lc_col b)).
Definition lc_ltb (a b : lc) : bool := negb (lc_leb b a).
Definition lc_min (a b : lc) : lc := if lc_leb a b then a else b.
Definition lc_max (a b : lc) : lc := if lc_leb a b then b else a.

(** [proc_macro2::Span], fallback implementation: a source file and the two end points.
    Simplification: the end points are stored as line/column (the only thing
    parsel reads, via [Span::start]/[Span::end]) instead of offsets into the global
    source map. *)
Record span := Span { sp_file : nat; sp_start : lc; sp_end : lc }.

(** [Span::call_site()]: the empty file number 0, whose only position is 1:0. *)
Definition call_site : span := Span 0 (LC 1 0) (LC 1 0).

(** [Span::join]: [None] for spans of different files. *)
Definition span_join (a b : span) : option span :=
  if Nat.eqb (sp_file a) (sp_file b)
  then Some (Span (sp_file a) (lc_min (sp_start a) (sp_start b)) (lc_max (sp_end a) (sp_end b)))
  else None.
Definition join_or (a b : span) : span :=
  match span_join a b with Some s => s | None => a end.

(** [DelimSpan::open]/[close] of a delimited group: its first and last character. *)
Definition open_span (s : span) : span :=
  Span (sp_file s) (sp_start s)
       (lc_min (LC (lc_line (sp_start s)) (S (lc_col (sp_start s)))) (sp_end s)).
Definition close_span (s : span) : span :=
  Span (sp_file s)
       (lc_max (LC (lc_line (sp_end s)) (pred (lc_col (sp_end s)))) (sp_start s))
       (sp_end s).

(** ** Token trees ([proc_macro2::TokenTree]). *)
Inductive delim := DParen | DBracket | DBrace | DNone.
Inductive spacing := Joint | Alone.

Inductive tt :=
| TIdent (name : text) (sp : span)           (* full spelling, including a leading [r#] *)
| TPunct (c : char) (s : spacing) (sp : span)
| TLit (repr : text) (sp : span)             (* literal, by its exact spelling *)
| TGroup (d : delim) (sp : span) (inner : list tt).

Definition delim_eqb (a b : delim) : bool :=
  match a, b with
  | DParen, DParen | DBracket, DBracket | DBrace, DBrace | DNone, DNone => true
  | _, _ => false
  end.
Lemma delim_eqb_eq a b : delim_eqb a b = true <-> a = b.
Proof. destruct a, b; cbn; split; congruence. Qed.
Lemma delim_eqb_refl a : delim_eqb a a = true.
Proof. destruct a; reflexivity. Qed.

Definition spacing_eqb (a b : spacing) : bool :=
  match a, b with Joint, Joint | Alone, Alone => true | _, _ => false end.

(** Induction principle for token trees with the nested list. *)
Section TtInd.
  Variable P : tt -> Prop.
  Hypothesis HI : forall n sp, P (TIdent n sp).
  Hypothesis HP : forall c s sp, P (TPunct c s sp).
  Hypothesis HL : forall r sp, P (TLit r sp).
  Hypothesis HG : forall d sp l, Forall P l -> P (TGroup d sp l).
  Fixpoint tt_ind' (t : tt) : P t :=
    match t with
    | TIdent n sp => HI n sp
    | TPunct c s sp => HP c s sp
    | TLit r sp => HL r sp
    | TGroup d sp l =>
        HG d sp l ((fix go (l : list tt) : Forall P l :=
                      match l with
                      | [] => Forall_nil P
                      | x :: r => Forall_cons x (tt_ind' x) (go r)
                      end) l)
    end.
End TtInd.

(** [TokenTree::span()]. *)
Definition tt_span (t : tt) : span :=
  match t with
  | TIdent _ sp | TPunct _ _ sp | TLit _ sp | TGroup _ sp _ => sp
  end.

(** Number of tokens including group contents; the measure for termination. *)
Fixpoint tt_size (t : tt) : nat :=
  match t with
  | TGroup _ _ l => S ((fix go l := match l with [] => 0 | x :: r => tt_size x + go r end) l)
  | _ => 1
  end.
Fixpoint ts_size (l : list tt) : nat :=
  match l with [] => 0 | x :: r => tt_size x + ts_size r end.
Lemma tt_size_group d sp l : tt_size (TGroup d sp l) = S (ts_size l).
Proof. reflexivity. Qed.
Lemma ts_size_app a b : ts_size (a ++ b) = ts_size a + ts_size b.
Proof. induction a; cbn; lia. Qed.
Lemma tt_size_pos t : 1 <= tt_size t.
Proof. destruct t; cbn; lia. Qed.
