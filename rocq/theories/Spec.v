(** * Spec: the vocabulary in which the properties are stated.

    Nothing here mentions how the parsers are written: a node is described only by which
    streams it accepts (with which value, leaving which stream) and which it refuses (with
    which error). *)
From Coq Require DecimalString.
From Verif Require Import Base Float Literal Syn Ast Derive Grammar.

(** ** Reading a stream. *)

(** [pops l l']: [l'] is what is left of [l] after reading some tokens from its head, where
    an invisible group at the head may be entered. *)
Inductive pops : list tt -> list tt -> Prop :=
| pops_refl l : pops l l
| pops_drop x r l : pops r l -> pops (x :: r) l
| pops_open sp i r l : pops (i ++ r) l -> pops (TGroup DNone sp i :: r) l.

(** Removing invisible groups everywhere. *)
Fixpoint flat1 (t : tt) : list tt :=
  match t with
  | TGroup DNone _ l =>
      (fix go l := match l with [] => [] | x :: r => flat1 x ++ go r end) l
  | TGroup d sp l =>
      [TGroup d sp ((fix go l := match l with [] => [] | x :: r => flat1 x ++ go r end) l)]
  | _ => [t]
  end.
Fixpoint flat (l : list tt) : list tt :=
  match l with [] => [] | x :: r => flat1 x ++ flat r end.

(** No invisible groups anywhere (the lexer never makes one). *)
Fixpoint visible1 (t : tt) : bool :=
  match t with
  | TGroup DNone _ _ => false
  | TGroup _ _ l => (fix go l := match l with [] => true | x :: r => visible1 x && go r end) l
  | _ => true
  end.
Fixpoint visible (l : list tt) : bool :=
  match l with [] => true | x :: r => visible1 x && visible r end.

(** the spans of all tokens, at any depth *)
Fixpoint token_spans1 (t : tt) : list span :=
  tt_span t :: match t with
               | TGroup _ _ l => (fix go l := match l with [] => [] | x :: r => token_spans1 x ++ go r end) l
               | _ => []
               end.
Definition token_spans (l : list tt) : list span := flat_map token_spans1 l.

(** Stream discipline of a parser: it only pops tokens, never touches the end-of-stream
    span, never overwrites a recorded leftover, and records as leftovers only its tokens. *)
Definition frame (s s' : pstate) : Prop :=
  pops (ps_rest s) (ps_rest s') /\ ps_scope s' = ps_scope s /\
  (forall sp, ps_unexp s = Some sp -> ps_unexp s' = Some sp) /\
  (forall sp, ps_unexp s = None -> ps_unexp s' = Some sp -> In sp (token_spans (ps_rest s))).
Definition wfp {A} (p : parser A) : Prop := forall s o s', p s = (o, s') -> frame s s'.
(** Parsing from a fork and advancing to it is the same as parsing directly. *)
Definition oblivious {A} (p : parser A) : Prop :=
  forall s, p s = (fst (p (fork s)), advance_to s (snd (p (fork s)))).
(** What parsel relies on for a [Parse] impl: it moves the stream forward only, and
    speculation on a fork is faithful.  Theorem [lawful_pty]: every grammar is lawful. *)
Definition lawful {A} (p : parser A) : Prop := wfp p /\ oblivious p.

(** ** Behaviours. *)
Record behaviour (A : Type) := Beh {
  yes : pstate -> A -> pstate -> Prop;     (* succeeds: from, value, to *)
  no : pstate -> error -> Prop             (* fails: from, error *)
}.
Arguments Beh {A}. Arguments yes {A}. Arguments no {A}.

Definition of_parser {A} (p : parser A) : behaviour A :=
  Beh (fun s v s' => p s = (OOk v, s')) (fun s e => exists s', p s = (OErr e, s')).

(** [T::parse] for the type [t] of a grammar, without fuel: some amount is enough. *)
Definition tbeh {U : unicode} (E : env) (t : ty) : behaviour val :=
  Beh (fun s v s' => exists n, pty E n t s = (OOk v, s'))
      (fun s e => exists n s', pty E n t s = (OErr e, s')).

(** A whole input: [parsel::parse2] of type [t] succeeds with [v] / fails. *)
Definition parses {U : unicode} (E : env) (t : ty) (ts : list tt) (v : val) : Prop :=
  exists n, parse2 (pty E n t) ts = ROk v.
Definition refuses {U : unicode} (E : env) (t : ty) (ts : list tt) : Prop :=
  exists n e, parse2 (pty E n t) ts = RErr e.

(** ** Sequences (C01). *)
Inductive seq_yes {V} : list (behaviour V) -> pstate -> list V -> pstate -> Prop :=
| seq_nil s : seq_yes [] s [] s
| seq_cons b bs s v s1 vs s2 :
    yes b s v s1 -> seq_yes bs s1 vs s2 -> seq_yes (b :: bs) s (v :: vs) s2.

(** the field at position [k] is the first to fail, with error [e] *)
Definition seq_no {V} (bs : list (behaviour V)) (s : pstate) (k : nat) (e : error) : Prop :=
  exists b vs s1, nth_error bs k = Some b /\ seq_yes (firstn k bs) s vs s1 /\ no b s1 e.

(** ** Error chains (C06). *)
(** the decimal numeral of a number, as Coq's library writes it *)
Definition numeral (n : nat) : text := T (DecimalString.NilEmpty.string_of_uint (Nat.to_uint n)).
(** a field is called by its name; the fields of a tuple are numbered from 0 *)
Definition field_text (l : label) : text := match l with LName n => n | LIndex i => numeral i end.
Record hop := Hop { h_enum : option text; h_ctor : text; h_field : label }.
Definition hop_line (h : hop) : text :=
  T "error parsing "
  ++ match h_enum h with Some e => e ++ T "::" | None => [] end
  ++ h_ctor h ++ T "::" ++ field_text (h_field h) ++ T ", caused by:" ++ [10%N].
(** [path], outermost production first, on top of the original error *)
Definition chained (path : list hop) (leaf : error) : error :=
  Err (e_span leaf) (List.concat (map hop_line path) ++ e_msg leaf).

(** ** Alternation (C02, C04). *)
Definition pos_le (a b : lc) : Prop :=
  lc_line a < lc_line b \/ (lc_line a = lc_line b /\ lc_col a <= lc_col b).
Definition pos_lt (a b : lc) : Prop :=
  lc_line a < lc_line b \/ (lc_line a = lc_line b /\ lc_col a < lc_col b).
Definition err_end (e : error) : lc := sp_end (e_span e).

(** the error picked from those of the alternatives, in declaration order *)
Definition reported (errs : list error) (e : error) : Prop :=
  exists i, nth_error errs i = Some e /\
    (forall j e', nth_error errs j = Some e' -> pos_le (err_end e') (err_end e)) /\
    (forall j e', i < j -> nth_error errs j = Some e' -> pos_lt (err_end e') (err_end e)).

(** ** Repetition (C13-C16). *)

(** longest run: stops exactly where the item fails *)
Inductive run_yes {A} (b : behaviour A) : pstate -> list A -> pstate -> Prop :=
| run_stop s e : no b s e -> run_yes b s [] s
| run_step s v s1 vs s2 : yes b s v s1 -> run_yes b s1 vs s2 -> run_yes b s (v :: vs) s2.

(** [(P T)*], stopping exactly where [P] fails *)
Inductive tail_yes {A P} (ba : behaviour A) (bp : behaviour P)
  : pstate -> list (P * A) -> pstate -> Prop :=
| tail_stop s e : no bp s e -> tail_yes ba bp s [] s
| tail_step s p s1 v s2 l s3 :
    yes bp s p s1 -> yes ba s1 v s2 -> tail_yes ba bp s2 l s3 ->
    tail_yes ba bp s ((p, v) :: l) s3.
(** [(P T)* P], then [T] fails *)
Inductive tail_no {A P} (ba : behaviour A) (bp : behaviour P) : pstate -> error -> Prop :=
| tail_fail s p s1 e : yes bp s p s1 -> no ba s1 e -> tail_no ba bp s e
| tail_later s p s1 v s2 e :
    yes bp s p s1 -> yes ba s1 v s2 -> tail_no ba bp s2 e -> tail_no ba bp s e.

(** values and separators alternating, filling the stream, optional trailing separator *)
Inductive fill_yes {A P} (ba : behaviour A) (bp : behaviour P)
  : pstate -> list (A * P) -> option A -> pstate -> Prop :=
| fill_end s : ps_rest s = [] -> fill_yes ba bp s [] None s
| fill_last s v s1 : ps_rest s <> [] -> yes ba s v s1 -> ps_rest s1 = [] ->
    fill_yes ba bp s [] (Some v) s1
| fill_step s v s1 p s2 l o s3 : ps_rest s <> [] -> yes ba s v s1 -> ps_rest s1 <> [] ->
    yes bp s1 p s2 -> fill_yes ba bp s2 l o s3 -> fill_yes ba bp s ((v, p) :: l) o s3.
(** the first [T] or [P] that fails *)
Inductive fill_no {A P} (ba : behaviour A) (bp : behaviour P) : pstate -> error -> Prop :=
| fill_no_item s e : ps_rest s <> [] -> no ba s e -> fill_no ba bp s e
| fill_no_punct s v s1 e : ps_rest s <> [] -> yes ba s v s1 -> ps_rest s1 <> [] ->
    no bp s1 e -> fill_no ba bp s e
| fill_no_later s v s1 p s2 e : ps_rest s <> [] -> yes ba s v s1 -> ps_rest s1 <> [] ->
    yes bp s1 p s2 -> fill_no ba bp s2 e -> fill_no ba bp s e.

(** [v0 (p1 v1) (p2 v2) ...] as (value, separator) pairs and a last value *)
Fixpoint pairs_of {A P} (v : A) (l : list (P * A)) : list (A * P) * A :=
  match l with
  | [] => ([], v)
  | (p, w) :: r => let '(ps, z) := pairs_of w r in ((v, p) :: ps, z)
  end.

(** ** Associativity (C19-C21): the tree of [x (o1 y1) (o2 y2) ...], described
    by its shape, not by how it is built. *)
Inductive left_form {O R} (x : R) : list (O * R) -> left_assoc O R -> Prop :=
| lf_one : left_form x [] (LRhs x)
| lf_snoc l t o y : left_form x l t -> left_form x (l ++ [(o, y)]) (LBinary t o y).
Inductive right_form {O L} : L -> list (O * L) -> right_assoc O L -> Prop :=
| rf_one x : right_form x [] (RLhs x)
| rf_cons x o y l t : right_form y l t -> right_form x ((o, y) :: l) (RBinary x o t).

(** meaning of a tree, given a meaning of operands and of operators *)
Fixpoint eval_left {O R B} (leaf : R -> B) (ap : B -> O -> B -> B) (t : left_assoc O R) : B :=
  match t with LBinary l o r => ap (eval_left leaf ap l) o (leaf r) | LRhs r => leaf r end.
Fixpoint eval_right {O L B} (leaf : L -> B) (ap : B -> O -> B -> B) (t : right_assoc O L) : B :=
  match t with RBinary l o r => ap (leaf l) o (eval_right leaf ap r) | RLhs l => leaf l end.
(** ((x o1 y1) o2 y2) ... *)
Definition fold_left_ops {O R B} (leaf : R -> B) (ap : B -> O -> B -> B) (x : R) (l : list (O * R)) : B :=
  fold_left (fun acc oy => ap acc (fst oy) (leaf (snd oy))) l (leaf x).
(** x o1 (y1 o2 (y2 ...)) *)
Fixpoint fold_right_ops {O L B} (leaf : L -> B) (ap : B -> O -> B -> B) (x : L) (l : list (O * L)) : B :=
  match l with
  | [] => leaf x
  | (o, y) :: r => ap (leaf x) o (fold_right_ops leaf ap y r)
  end.

(** ** Where an error comes from (C05, C06).
    [origin E t s path s0 e0]: parsing a [t] from [s], the node that fails is reached at [s0]
    through the productions [path] (outermost first) and raises [e0]. *)
Definition raises_itself (t : ty) : Prop :=
  match t with
  | TyIdent | TyCustomIdent _ | TyKeyword _ | TyTokenKw _ | TyToken _ | TyLit _ | TyAnyLit
  | TyEof | TyNotEof => True
  | _ => False
  end.
Definition TyGroup (d : delim) (t : ty) : ty :=
  match d with DParen => TyParen t | DBracket => TyBracket t | _ => TyBrace t end.

Section Origin.
Context {U : unicode}.
Variable E : env.
Inductive origin : ty -> pstate -> list hop -> pstate -> error -> Prop :=
| or_leaf t s e : raises_itself t -> no (tbeh E t) s e -> origin t s [] s e
| or_no_group d t s : d <> DNone ->
    (forall sp inner r, ignore_none (ps_rest s) <> TGroup d sp inner :: r) ->
    origin (TyGroup d t) s [] s (error_at s (delim_msg d))
| or_in_group d t s sp inner r path s0 e : d <> DNone ->
    ignore_none (ps_rest s) = TGroup d sp inner :: r ->
    origin t (PS inner (close_span sp) (ps_unexp s)) path s0 e ->
    origin (TyGroup d t) s path s0 e
| or_maybe a b s x s1 path s0 e :
    yes (tbeh E a) s x s1 -> origin b s1 path s0 e -> origin (TyMaybe a b) s path s0 e
| or_left a b s path s0 e : origin a s path s0 e -> origin (TyEither a b) s path s0 e
| or_right a b s path s0 e : origin b s path s0 e -> origin (TyEither a b) s path s0 e
| or_first a p s path s0 e : origin a s path s0 e -> origin (TySeparated a p) s path s0 e
| or_next a p s x s1 y s2 path s0 e :
    yes (tbeh E a) s x s1 -> yes (tbeh E p) s1 y s2 ->
    origin (TySeparated a p) s2 path s0 e -> origin (TySeparated a p) s path s0 e
| or_left_assoc o r s path s0 e :
    origin (TySeparated r o) s path s0 e -> origin (TyLeftAssoc o r) s path s0 e
| or_right_assoc o l s path s0 e :
    origin (TySeparated l o) s path s0 e -> origin (TyRightAssoc o l) s path s0 e
| or_item a p s path s0 e : origin a s path s0 e -> origin (TyPunctuated a p) s path s0 e
| or_punct a p s x s1 path s0 e : yes (tbeh E a) s x s1 -> origin p s1 path s0 e ->
    origin (TyPunctuated a p) s path s0 e
| or_more a p s x s1 y s2 path s0 e :
    yes (tbeh E a) s x s1 -> yes (tbeh E p) s1 y s2 ->
    origin (TyPunctuated a p) s2 path s0 e -> origin (TyPunctuated a p) s path s0 e
| or_box t s path s0 e : origin t s path s0 e -> origin (TyBox t) s path s0 e
| or_struct i c k l t s vs s1 path s0 e :
    E i = DStruct c -> nth_error (c_fields c) k = Some (l, t) ->
    seq_yes (map (tbeh E) (map snd (firstn k (c_fields c)))) s vs s1 ->
    origin t s1 path s0 e ->
    origin (TyRef i) s (Hop None (c_name c) l :: path) s0 e
| or_variant i en cs c k l t s vs s1 path s0 e :
    E i = DEnum en cs -> In c cs -> nth_error (c_fields c) k = Some (l, t) ->
    seq_yes (map (tbeh E) (map snd (firstn k (c_fields c)))) s vs s1 ->
    origin t s1 path s0 e ->
    origin (TyRef i) s (Hop (Some en) (c_name c) l :: path) s0 e
| or_no_variant i en s :
    E i = DEnum en [] ->
    origin (TyRef i) s [] s (error_at s (T "parsing an empty choice (enum) always fails")).
End Origin.

(** Rust does not allow nameless enums. *)
Definition named (E : env) : Prop := forall i en cs, E i = DEnum en cs -> en <> [].

(** ** "Furthest" (C05): the places of a source text where a parser can get stuck, in source
    order: every token, and the opening and closing delimiter of every group. *)
Fixpoint spots1 (t : tt) : list span :=
  match t with
  | TGroup _ sp l =>
      open_span sp :: (fix go l := match l with [] => [] | x :: r => spots1 x ++ go r end) l
                   ++ [close_span sp]
  | _ => [tt_span t]
  end.
Fixpoint spots (l : list tt) : list span :=
  match l with [] => [] | x :: r => spots1 x ++ spots r end.
(** each place ends after all places before it *)
Definition in_source_order (l : list span) : Prop :=
  forall i j a b, i < j -> nth_error l i = Some a -> nth_error l j = Some b ->
    pos_lt (sp_end a) (sp_end b).
