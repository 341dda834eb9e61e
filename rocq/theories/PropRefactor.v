(** * PropRefactor: grammars can be refactored (C59).

    The specification of a refactoring is at the head of [Refactor.v]: [step_type], [step_seq] and [step_alts] are the steps,
    [refactoring E1 E2 R] says that the derived types related by [R] differ by such steps only, [same_type] the same of two types. *)
From Verif Require Import Base Float Literal Syn Ast Derive Grammar Spec SynFacts Lawful Mono Combinators GrammarBeh Assoc ManyFacts
  Term TermCheck Usage Cost CostFacts Linear LinearCheck PropUsage PropCost Examples Lexer Fmt PropStr Refactor.
Local Open Scope nat_scope.

(** ** Specification *)
(** What can be seen of parsing a value of type [t] from the stream [s], in the middle of anything: [Yes out s'] the tokens the
    value prints and the stream that is left, [No place] where the error is, or that it panics.  If it does not come to an end
    it shows nothing. *)
Definition shows {U : unicode} (E : env) (t : ty) (s : pstate) (r : seen) : Prop :=
  r <> Loops /\ exists n, seen_as print (pty E n t s) = r.
Definition alike {U : unicode} (E1 : env) (t : ty) (E2 : env) (u : ty) : Prop := forall s r, shows E1 t s r <-> shows E2 u s r.
(** ... and of parsing a whole input *)
Inductive answer := Accepts (out : option (list tt)) | RefusesAt (place : span) | Panicked.
Definition answer_of {U : unicode} (r : result val) : option answer :=
  match r with ROk v => Some (Accepts (print v)) | RErr e => Some (RefusesAt (e_span e)) | RPanic => Some Panicked | RDiverge => None end.
Definition answers {U : unicode} (E : env) (t : ty) (ts : list tt) (a : answer) : Prop :=
  exists n, answer_of (parse2 (pty E n t) ts) = Some a.

(** ** Theorems *)
Lemma same_shows {U : unicode} E1 E2 R t u s r : refactoring E1 E2 R -> same_type E1 E2 R t u -> shows E1 t s r -> shows E2 u s r.
Proof.
  intros HR Ht (Hr & n & H). split; [exact Hr|]. destruct (same_sound E1 E2 R HR n) as (Hs & _). destruct (Hs t u Ht) as (m & Hm).
  exists m. destruct (Hm s) as [H'|H']; unfold P in H'; [rewrite H in H'; contradiction|]. rewrite <- H'. exact H.
Qed.
(** A refactored grammar does what the original did: from every stream it accepts the same tokens, its values print the same
    tokens, its errors are at the same places, and it panics or runs forever on the same inputs. *)
Theorem C59_refactoring : forall (U : unicode) E1 E2 R t u, refactoring E1 E2 R -> same_type E1 E2 R t u -> alike E1 t E2 u.
Proof.
  intros U E1 E2 R t u HR Ht s r. split; [apply same_shows with (R := R); assumption|].
  apply same_shows with (R := fun j i => R i j); [apply refactoring_sym; exact HR|apply same_sym; exact Ht].
Qed.
(** whole inputs *)
Definition whole (r : seen) : option answer :=
  match r with
  | Yes out s => match ps_unexp s with
                 | Some sp => Some (RefusesAt sp)
                 | None => match leftover (ps_rest s) with Some sp => Some (RefusesAt sp) | None => Some (Accepts out) end
                 end
  | No sp => Some (RefusesAt sp)
  | Panics => Some Panicked
  | Loops => None
  end.
Lemma answer_whole {U : unicode} E n t ts : answer_of (parse2 (pty E n t) ts) = whole (seen_as print (pty E n t (start ts))).
Proof.
  unfold parse2. destruct (pty E n t (start ts)) as [[v|e| |] s']; try reflexivity. cbn [seen_as fst snd whole].
  destruct (ps_unexp s'); [reflexivity|]. destruct (leftover (ps_rest s')); reflexivity.
Qed.
Theorem C59_whole_inputs : forall (U : unicode) E1 E2 t u, alike E1 t E2 u ->
  forall ts a, answers E1 t ts a <-> answers E2 u ts a.
Proof.
  assert (G : forall (U : unicode) E1 E2 t u, alike E1 t E2 u -> forall ts a, answers E1 t ts a -> answers E2 u ts a).
  { intros U E1 E2 t u H ts a (n & Ha). rewrite answer_whole in Ha. destruct (proj1 (H (start ts) (seen_as print (pty E1 n t (start ts))))) as (_ & m & Hm).
    - split; [intro F; rewrite F in Ha; discriminate Ha|exists n; reflexivity].
    - exists m. rewrite answer_whole, Hm. exact Ha. }
  intros U E1 E2 t u H ts a. split; apply G; [exact H|]. intros s r. symmetry. apply H.
Qed.
(** ... and texts: [FromStr] accepts the same texts, the values are displayed alike, and the errors are at the same places. *)
Theorem C59_texts : forall (U : unicode) E1 E2 t u, alike E1 t E2 u -> forall file src,
  (forall v, from_str E1 t file src v -> exists w, from_str E2 u file src w /\ forall alternate, to_string alternate w = to_string alternate v) /\
  (forall n sp msg, parse_str (pty E1 n t) file src = RErr (Err sp msg) -> exists m msg', parse_str (pty E2 m u) file src = RErr (Err sp msg')).
Proof.
  intros U E1 E2 t u H file src. assert (W := C59_whole_inputs U E1 E2 t u H). unfold from_str, parse_str. destruct (lex file src) as [ts|sp0].
  - split.
    + intros v (n & Hv). destruct (proj1 (W ts (Accepts (print v)))) as (m & Hm); [exists n; rewrite Hv; reflexivity|].
      destruct (parse2 (pty E2 m u) ts) as [w|e| |] eqn:Ew; try discriminate Hm. injection Hm as Hm. exists w. split; [exists m; exact Ew|].
      intro alternate. unfold to_string. rewrite Hm. reflexivity.
    + intros n sp msg Hv. destruct (proj1 (W ts (RefusesAt sp))) as (m & Hm); [exists n; rewrite Hv; reflexivity|].
      destruct (parse2 (pty E2 m u) ts) as [w|[sp' msg']| |] eqn:Ew; try discriminate Hm. injection Hm as ->. exists m, msg'. exact Ew.
  - split; [intros v (n & Hv); discriminate Hv|]. intros n sp msg Hv. injection Hv as <- <-. exists n. eexists. reflexivity.
Qed.

(** ** The single laws.  Every type of a grammar is the same as itself, so each step is a refactoring. *)
Lemma same_refl_all E :
  (forall t, same_type E E eq t t) /\ (forall fs, same_seq E E eq fs fs) /\ (forall cs, same_alts E E eq cs cs).
Proof.
  assert (T : forall t, same_type E E eq t t).
  { induction t as [|kws|kw|kw|o|k| | | | |a IHa b IHb|a IH|a IH|a IH|a IHa b IHb|a IHa b IHb|a IH|a IHa b IHb|a IHa b IHb|a IHa b IHb|a IH|i];
      try (apply same_simple; reflexivity).
    - apply same_maybe; assumption.
    - apply same_paren; assumption.
    - apply same_bracket; assumption.
    - apply same_brace; assumption.
    - apply same_punctuated; assumption.
    - apply same_separated; assumption.
    - apply same_any; assumption.
    - eapply same_type_l; [apply st_left|]. eapply same_type_r; [apply st_left|]. apply same_separated; assumption.
    - eapply same_type_l; [apply st_right|]. eapply same_type_r; [apply st_right|]. apply same_separated; assumption.
    - apply same_choice. eapply same_alts_l; [apply (sa_either E [])|]. eapply same_alts_r; [apply (sa_either E [])|]. cbn [app].
      apply same_alt; [apply same_cons; [assumption|apply same_nil]|]. apply same_alt; [apply same_cons; [assumption|apply same_nil]|apply same_none].
    - eapply same_type_l; [apply st_box|]. eapply same_type_r; [apply st_box|]. exact IH.
    - apply same_ref. reflexivity. }
  assert (S : forall fs, same_seq E E eq fs fs) by (induction fs; [apply same_nil|apply same_cons; auto]).
  split; [exact T|]. split; [exact S|]. induction cs; [apply same_none|apply same_alt; auto].
Qed.
Lemma refactoring_refl E : refactoring E E eq.
Proof. intros i j <-. apply same_refl_all. Qed.
Lemma by_steps {U : unicode} E t u : same_type E E eq t u -> alike E t E u.
Proof. intro H. eapply C59_refactoring; [apply refactoring_refl|exact H]. Qed.

(** [Box] is transparent. *)
Theorem C59_box : forall (U : unicode) E t, alike E (TyBox t) E t.
Proof. intros. apply by_steps. eapply same_type_l; [apply st_box|]. apply same_refl_all. Qed.
(** The associative lists and [Separated] read the same and print the same. *)
Theorem C59_associativity : forall (U : unicode) E o r,
  alike E (TyLeftAssoc o r) E (TySeparated r o) /\ alike E (TyRightAssoc o r) E (TySeparated r o) /\ alike E (TyLeftAssoc o r) E (TyRightAssoc o r).
Proof.
  intros. split; [|split]; apply by_steps.
  - eapply same_type_l; [apply st_left|]. apply same_refl_all.
  - eapply same_type_l; [apply st_right|]. apply same_refl_all.
  - eapply same_type_l; [apply st_left|]. eapply same_type_r; [apply st_right|]. apply same_refl_all.
Qed.
(** [struct S { R, Maybe<O, Box<S>> }] is [Separated<R, O>]; [enum L { Cons(T, Box<L>), Nil }] is [Any<T>]. *)
Theorem C59_recursive_chain : forall (U : unicode) E i r o, alts (E i) = [[r; TyMaybe o (TyBox (TyRef i))]] -> alike E (TyRef i) E (TySeparated r o).
Proof. intros U E i r o H. apply by_steps. eapply same_type_l; [eapply st_chain; [exact H|repeat constructor]|]. apply same_refl_all. Qed.
Theorem C59_recursive_list : forall (U : unicode) E i t, alts (E i) = [[t; TyBox (TyRef i)]; []] -> alike E (TyRef i) E (TyAny t).
Proof. intros U E i t H. apply by_steps. eapply same_type_l; [eapply st_list; [exact H|repeat constructor|left; reflexivity]|]. apply same_refl_all. Qed.
(** [Either] is an enum with two variants. *)
Theorem C59_either : forall (U : unicode) E i a b, alts (E i) = [[a]; [b]] -> alike E (TyRef i) E (TyEither a b).
Proof.
  intros U E i a b H. apply by_steps. apply same_choice. eapply same_alts_l; [apply (sa_inline E []); congruence|]. rewrite H.
  eapply same_alts_r; [apply (sa_either E [])|]. apply same_refl_all.
Qed.
(** A field that is a struct can be replaced by the fields of the struct, and back. *)
Theorem C59_inline_struct : forall (U : unicode) E i j k pre fs post,
  alts (E k) = [fs] -> alts (E i) = [pre ++ TyRef k :: post] -> alts (E j) = [pre ++ fs ++ post] -> alike E (TyRef i) E (TyRef j).
Proof.
  intros U E i j k pre fs post Hk Hi Hj. apply by_steps. apply same_choice.
  eapply same_alts_l; [apply (sa_inline E []); congruence|]. eapply same_alts_r; [apply (sa_inline E []); congruence|]. rewrite Hi, Hj.
  cbn [map app]. eapply same_alts_l; [apply sa_seq, ss_inline, Hk|]. apply same_refl_all.
Qed.
(** A variant that is an enum, can be replaced by the variants of the enum; a common beginning of consecutive variants can be
    factored out. *)
Lemma ahead E post before cs ds : same_alts E E eq cs ds -> same_alts E E eq (before ++ cs ++ post) (before ++ ds ++ post).
Proof.
  intro H. induction before as [|b before IH]; cbn [app]; [|apply same_alt; [apply same_refl_all|exact IH]].
  induction H as [|fs gs cs ds H _ IH|cs cs' ds H _ IH|cs ds ds' H _ IH]; cbn [app].
  - apply same_refl_all.
  - apply same_alt; assumption.
  - eapply same_alts_l; [|exact IH]. destruct H as [pre i rest Ha|pre a b rest|fs gs rest Ha]; cbn [app]; [rewrite <- app_assoc; apply sa_inline; exact Ha|apply sa_either|apply sa_seq; exact Ha].
  - eapply same_alts_r; [|exact IH]. destruct H as [pre i rest Ha|pre a b rest|fs gs rest Ha]; cbn [app]; [rewrite <- app_assoc; apply sa_inline; exact Ha|apply sa_either|apply sa_seq; exact Ha].
Qed.
Theorem C59_factor : forall (U : unicode) E i j k before pre after,
  alts (E k) <> [] -> alts (E i) = before ++ [pre ++ [TyRef k]] ++ after -> alts (E j) = before ++ map (app pre) (alts (E k)) ++ after ->
  alike E (TyRef i) E (TyRef j).
Proof.
  intros U E i j k before pre after Hk Hi Hj. apply by_steps. apply same_choice.
  eapply same_alts_l; [apply (sa_inline E []); rewrite Hi; destruct before; discriminate|].
  eapply same_alts_r; [apply (sa_inline E []); rewrite Hj; destruct before; [destruct (alts (E k)) as [|c cs]; [contradiction|discriminate]|discriminate]|].
  rewrite Hi, Hj. cbn [app].
  assert (M : forall l : list (list ty), map (app []) l = l) by (intro l; apply map_id). rewrite !M, !app_nil_r.
  change ((pre ++ [TyRef k]) :: after) with ([pre ++ [TyRef k]] ++ after). apply ahead. eapply same_alts_l; [apply sa_inline; exact Hk|]. rewrite app_nil_r. apply same_refl_all.
Qed.

(** ** The README's Boolean expressions (README.md:169-207) with the common beginnings factored out:
    Expr = Conjunction (| Expr)?, Conjunction = Term (& Conjunction)?  The original needs at least 4^d calls of [Parse::parse]
    for d pairs of parentheses (C55_readme_exponential), this one is linear, and nothing else can be told apart. *)
Definition factored : list tdef :=
  [(* 0 *) DStruct (rec_ "Expr" [named "lhs" (TyRef 2); named "rest" (TyRef 1)]);
   (* 1 *) enum "Or" [tup "Or" [op "|"; TyBox (TyRef 0)]; tup "End" []];
   (* 2 *) DStruct (rec_ "Conjunction" [named "lhs" (TyRef 4); named "rest" (TyRef 3)]);
   (* 3 *) enum "And" [tup "And" [op "&"; TyBox (TyRef 2)]; tup "End" []];
   (* 4 *) enum "Term" [tup "Literal" [TyLit LtBool]; tup "Not" [op "!"; TyBox (TyRef 4)];
      tup "Group" [TyParen (TyBox (TyRef 0))]]].
Theorem C59_readme_factored :
  (forall (U : unicode), alike (defs boolean) (g_root boolean) (env_of factored) (TyRef 0)) /\
  (forall (U : unicode) ts a, answers (defs boolean) (g_root boolean) ts a <-> answers (env_of factored) (TyRef 0) ts a) /\
  (exists k, forall (U : unicode) ts c, costs (env_of factored) (TyRef 0) ts c -> calls c <= k * (ts_size ts + 1)).
Proof.
  assert (A : forall (U : unicode), alike (defs boolean) (g_root boolean) (env_of factored) (TyRef 0)).
  { intro U. apply C59_refactoring with (R := fun i j => (i = 0 /\ j = 0) \/ (i = 1 /\ j = 2) \/ (i = 2 /\ j = 4)); [|apply same_ref; auto].
    set (R := fun i j => (i = 0 /\ j = 0) \/ (i = 1 /\ j = 2) \/ (i = 2 /\ j = 4)).
    assert (B : forall i j, R i j -> same_type (defs boolean) (env_of factored) R (TyBox (TyRef i)) (TyBox (TyRef j))).
    { intros i j H. eapply same_type_l; [apply st_box|]. eapply same_type_r; [apply st_box|]. apply same_ref. exact H. }
    intros i j [(-> & ->)|[(-> & ->)|(-> & ->)]].
    - eapply same_alts_r; [apply (sa_inline _ [TyRef 2] 1); discriminate|]. cbn.
      apply same_alt; [|apply same_alt; [|apply same_none]]; repeat first [apply same_nil|apply same_cons]; try (apply same_simple; reflexivity); try (apply same_ref; unfold R; auto); apply B; unfold R; auto.
    - eapply same_alts_r; [apply (sa_inline _ [TyRef 4] 3); discriminate|]. cbn.
      apply same_alt; [|apply same_alt; [|apply same_none]]; repeat first [apply same_nil|apply same_cons]; try (apply same_simple; reflexivity); try (apply same_ref; unfold R; auto); apply B; unfold R; auto.
    - cbn. apply same_alt; [|apply same_alt; [|apply same_alt; [|apply same_none]]]; repeat first [apply same_nil|apply same_cons]; try (apply same_simple; reflexivity); try (apply same_paren); apply B; unfold R; auto. }
  split; [exact A|]. split.
  - intros U. apply C59_whole_inputs. apply A.
  - apply C55_calls_linear. vm_compute. reflexivity.
Qed.

(** The same for the three others of the published grammars whose variants begin alike (parsel/tests/parse.rs): every published
    grammar can be factored so that parsing is linear, and nothing else can be told apart. *)
Definition generic_enum_factored : list tdef :=
  [(* 0 *) enum "GenericEnum" [tup "X1" [TyLit LtUint]; tup "Y" [TyLit LtStr; TyRef 1]];
   (* 1 *) enum "Y" [tup "Y2" [TyLit LtStr]; tup "YQ" [op ";"; op "=>"]]].
Definition arith_factored : list tdef :=
  [(* 0 *) DStruct (tup "Expr" [TyRef 2; TyRef 1]);
   (* 1 *) enum "Sum" [tup "Add" [op "+"; TyRef 2]; tup "Sub" [op "-"; TyRef 2]; tup "End" []];
   (* 2 *) DStruct (tup "MulExpr" [TyRef 4; TyRef 3]);
   (* 3 *) enum "Product" [tup "Mul" [op "*"; TyRef 4]; tup "Div" [op "/"; TyRef 4]; tup "End" []];
   (* 4 *) enum "Term" [tup "Lit" [TyAnyLit]; tup "Var" [TyIdent]; tup "Paren" [TyParen (TyRef 0)]]].
Definition cond_factored : list tdef :=
  [(* 0 *) DStruct (tup "Cond" [TyRef 2; TyRef 1]);
   (* 1 *) enum "Or" [tup "Or" [op "|"; TyRef 2]; tup "End" []];
   (* 2 *) DStruct (tup "AndExpr" [TyRef 4; TyRef 3]);
   (* 3 *) enum "And" [tup "And" [op "&"; TyRef 4]; tup "End" []];
   (* 4 *) enum "Predicate" [tup "Lit" [TyLit LtBool]; tup "Var" [TyIdent]; tup "Neg" [op "!"; TyBox (TyRef 4)]; tup "Paren" [TyParen (TyRef 0)]]].
Local Ltac fields R :=
  repeat first [apply same_none | apply same_alt]; repeat first [apply same_nil | apply same_cons];
  repeat match goal with
         | |- same_type _ _ _ (TyBox _) _ => eapply same_type_l; [apply st_box|]
         | |- same_type _ _ _ _ (TyBox _) => eapply same_type_r; [apply st_box|]
         | |- same_type _ _ _ (TyParen _) (TyParen _) => apply same_paren
         | |- same_type _ _ _ (TyRef _) (TyRef _) => apply same_ref; unfold R; auto
         | |- same_type _ _ _ _ _ => apply same_simple; reflexivity
         end.
Theorem C59_published_linear : forall gr, In gr published_grammars -> exists g t,
  (forall (U : unicode), alike (defs gr) (g_root gr) (env_of g) t) /\
  exists k, forall (U : unicode) ts c, costs (env_of g) t ts c -> calls c <= k * (ts_size ts + 1).
Proof.
  assert (Hg : forall (U : unicode), alike (defs generic_enum) (g_root generic_enum) (env_of generic_enum_factored) (TyRef 0)).
  { intro U. set (R := fun i j : nat => i = 0 /\ j = 0). apply C59_refactoring with (R := R); [|apply same_ref; unfold R; auto]. intros i j (-> & ->).
    cbn. apply same_alt; [fields R|]. eapply same_alts_r; [apply (sa_inline _ [TyLit LtStr] 1); discriminate|]. cbn. fields R. }
  set (R := fun i j => (i = 0 /\ j = 0) \/ (i = 1 /\ j = 2) \/ (i = 2 /\ j = 4)).
  assert (Ha : forall (U : unicode), alike (defs arith) (g_root arith) (env_of arith_factored) (TyRef 0)).
  { intro U. apply C59_refactoring with (R := R); [|apply same_ref; unfold R; auto]. intros i j [(-> & ->)|[(-> & ->)|(-> & ->)]].
    - eapply same_alts_r; [apply (sa_inline _ [TyRef 2] 1); discriminate|]. cbn. fields R.
    - eapply same_alts_r; [apply (sa_inline _ [TyRef 4] 3); discriminate|]. cbn. fields R.
    - cbn. fields R. }
  assert (Hc : forall (U : unicode), alike (defs cond) (g_root cond) (env_of cond_factored) (TyRef 0)).
  { intro U. apply C59_refactoring with (R := R); [|apply same_ref; unfold R; auto]. intros i j [(-> & ->)|[(-> & ->)|(-> & ->)]].
    - eapply same_alts_r; [apply (sa_inline _ [TyRef 2] 1); discriminate|]. cbn. fields R.
    - eapply same_alts_r; [apply (sa_inline _ [TyRef 4] 3); discriminate|]. cbn. fields R.
    - cbn. fields R. }
  intros gr Hin. assert (D : In gr [boolean; generic_enum; arith; cond] \/ ~ In gr [boolean; generic_enum; arith; cond]).
  { unfold published_grammars, round_trip_grammars in Hin. cbn [app In] in Hin.
    repeat (destruct Hin as [<-|Hin]; [first [left; cbn [In]; tauto | right; intro F; cbn [In] in F; repeat (destruct F as [F|F]; [apply (f_equal g_name) in F; discriminate F|]); exact F]|]). contradiction. }
  destruct D as [[<-|[<-|[<-|[<-|[]]]]]|D].
  - exists factored, (TyRef 0). destruct C59_readme_factored as (H & _ & L). split; [exact H|exact L].
  - exists generic_enum_factored, (TyRef 0). split; [exact Hg|]. apply C55_calls_linear. vm_compute. reflexivity.
  - exists arith_factored, (TyRef 0). split; [exact Ha|]. apply C55_calls_linear. vm_compute. reflexivity.
  - exists cond_factored, (TyRef 0). split; [exact Hc|]. apply C55_calls_linear. vm_compute. reflexivity.
  - exists (g_defs gr), (g_root gr). split; [intros U s r; reflexivity|]. apply C55_published_calls_linear; assumption.
Qed.

(** ** What is not a refactoring. *)
Lemma answers_det {U : unicode} E t ts a b : answers E t ts a -> answers E t ts b -> a = b.
Proof.
  intros (n & Ha) (m & Hb). rewrite answer_whole in *. pose proof (ole_P E n (n + m) t ltac:(lia) (start ts)) as H1. pose proof (ole_P E m (n + m) t ltac:(lia) (start ts)) as H2.
  unfold P in H1, H2. destruct H1 as [H1|H1]; rewrite H1 in Ha; [discriminate Ha|]. destruct H2 as [H2|H2]; rewrite H2 in Hb; [discriminate Hb|]. congruence.
Qed.
Lemma tell_apart {U : unicode} E1 t E2 u ts n m a b :
  answer_of (parse2 (pty E1 n t) ts) = Some a -> answer_of (parse2 (pty E2 m u) ts) = Some b -> a <> b -> ~ alike E1 t E2 u.
Proof.
  intros Ha Hb Hne H. apply Hne. apply (answers_det E2 u ts a b); [|exists m; exact Hb]. apply (proj1 (C59_whole_inputs U E1 E2 t u H ts a)). exists n. exact Ha.
Qed.
Section Refuted.
Local Definition at_ (k : nat) : span := Span 1 (LC 1 k) (LC 1 (S k)).
Local Definition a := op "+". Local Definition b := op "-". Local Definition c := op "*".
Local Definition ta k := TPunct 43%N Alone (at_ k). Local Definition tb k := TPunct 45%N Alone (at_ k). Local Definition tc k := TPunct 42%N Alone (at_ k).
Local Definition g1 : env := env_of
  [(* 0 *) enum "Choice" [tup "A" [a]; tup "AB" [a; b]]; (* 1 *) DStruct (tup "Before" [TyRef 0; c]); (* 2 *) enum "Out" [tup "A" [a; c]; tup "AB" [a; b; c]];
   (* 3 *) DStruct (tup "Both" [a; b]); (* 4 *) DStruct (tup "M" [TyMaybe a b; a]); (* 5 *) DStruct (tup "E" [TyEither (TyRef 3) TyEmpty; a]);
   (* 6 *) DStruct (tup "Sep" [TySeparated a b; b]); (* 7 *) DStruct (tup "More" [b; a]); (* 8 *) DStruct (tup "Rep" [a; TyAny (TyRef 7); b]);
   (* 9 *) enum "Swapped" [tup "AB" [a; b]; tup "A" [a]]].
(** A common end cannot be factored out: a variant, once read, is never given up for the sake of what follows. *)
Theorem C59_common_end_refuted : ~ (forall (U : unicode) E i j k last,
  alts (E i) = [[TyRef k; last]] -> alts (E j) = map (fun fs => fs ++ [last]) (alts (E k)) -> alike E (TyRef i) E (TyRef j)).
Proof.
  intro H. specialize (H ascii_only g1 1 2 0 c eq_refl eq_refl). revert H.
  eapply (@tell_apart ascii_only _ _ _ _ [ta 0; tb 1; tc 2] 6 6); [vm_compute; reflexivity|vm_compute; reflexivity|discriminate].
Qed.
(** [Maybe<P, T>] is not a choice between P T and nothing: it is committed once P is read. *)
Theorem C59_maybe_is_no_choice_refuted : ~ (forall (U : unicode) E i p t, alts (E i) = [[p; t]] -> alike E (TyMaybe p t) E (TyEither (TyRef i) TyEmpty)).
Proof.
  intro H. specialize (H ascii_only g1 3 a b eq_refl). revert H.
  eapply (@tell_apart ascii_only _ _ _ _ [ta 0] 6 6); [vm_compute; reflexivity|vm_compute; reflexivity|discriminate].
Qed.
(** [Separated<R, O>] is not R followed by [Any] of O R: it is committed once O is read. *)
Theorem C59_separated_is_no_repetition_refuted : ~ (forall (U : unicode) E i j r o,
  alts (E j) = [[o; r]] -> alts (E i) = [[r; TyAny (TyRef j)]] -> alike E (TySeparated r o) E (TyRef i)).
Proof.
  intro H. specialize (H ascii_only (fun i => match i with 8 => DStruct (tup "Rep" [a; TyAny (TyRef 7)]) | _ => g1 i end) 8 7 a b eq_refl eq_refl). revert H.
  eapply (@tell_apart ascii_only _ _ _ _ [ta 0; tb 1] 6 6); [vm_compute; reflexivity|vm_compute; reflexivity|discriminate].
Qed.
(** The order of the variants counts. *)
Theorem C59_order_refuted : ~ (forall (U : unicode) E i j x y, alts (E i) = [x; y] -> alts (E j) = [y; x] -> alike E (TyRef i) E (TyRef j)).
Proof.
  intro H. specialize (H ascii_only g1 0 9 _ _ eq_refl eq_refl). revert H.
  eapply (@tell_apart ascii_only _ _ _ _ [ta 0; tb 1] 6 6); [vm_compute; reflexivity|vm_compute; reflexivity|discriminate].
Qed.
(** Each time one accepts what the other refuses: [+] for [Maybe<+, -> +] and [Either<{+ -}, Empty> +], [+ -] for
    [Separated<+, -> -] and [+ Any<{- +}> -]. *)
Local Existing Instance ascii_only.
Example ex_maybe : answers g1 (TyRef 4) [ta 0] (RefusesAt call_site) /\ answers g1 (TyRef 5) [ta 0] (Accepts (Some [ta 0])).
Proof. split; exists 6; vm_compute; reflexivity. Qed.
Example ex_separated : answers g1 (TyRef 6) [ta 0; tb 1] (RefusesAt call_site) /\ answers g1 (TyRef 8) [ta 0; tb 1] (Accepts (Some [ta 0; tb 1])).
Proof. split; exists 6; vm_compute; reflexivity. Qed.

(** ** Concrete cases. *)
(** [true & (false | true)]: both grammars accept it and print it back; [true & ] is an error at the end, [true true] at the second word *)
Local Definition tr k := TIdent (T "true") (at_ k).
Local Definition amp k := TPunct 38%N Alone (at_ k).
Example ex_readme : answers (defs boolean) (g_root boolean) [tr 0; amp 1; TGroup DParen (at_ 2) [tr 3; TPunct 124%N Alone (at_ 4); tr 5]]
    (Accepts (Some [tr 0; amp 1; TGroup DParen (at_ 2) [tr 3; TPunct 124%N Alone (at_ 4); tr 5]])) /\
  answers (env_of factored) (TyRef 0) [tr 0; amp 1; TGroup DParen (at_ 2) [tr 3; TPunct 124%N Alone (at_ 4); tr 5]]
    (Accepts (Some [tr 0; amp 1; TGroup DParen (at_ 2) [tr 3; TPunct 124%N Alone (at_ 4); tr 5]])).
Proof. split; exists 16; vm_compute; reflexivity. Qed.
Example ex_readme_error : answers (defs boolean) (g_root boolean) [tr 0; tr 1] (RefusesAt (at_ 1)) /\ answers (env_of factored) (TyRef 0) [tr 0; tr 1] (RefusesAt (at_ 1)).
Proof. split; exists 16; vm_compute; reflexivity. Qed.
(** [((true))] is 354 calls with the README's grammar (PropCost.readme_2), 30 with the factored one *)
Example ex_factored_cost : costs (env_of factored) (TyRef 0) (nest 2) (Cost 30 14).
Proof. exists 20. do 2 eexists. split; [vm_compute; reflexivity|discriminate]. Qed.
(** the right-associative list of the documentation, written by hand: [struct S { i: LitInt, rest: Maybe<Token![+], Box<S>> }] *)
Local Definition by_hand : env := env_of [DStruct (tup "S" [TyLit LtInt; TyMaybe a (TyBox (TyRef 0))]); enum "L" [tup "Cons" [TyLit LtInt; TyBox (TyRef 1)]; tup "Nil" []]].
Example ex_by_hand : alike by_hand (TyRef 0) by_hand (TyRightAssoc a (TyLit LtInt)) /\ alike by_hand (TyRef 1) by_hand (TyAny (TyLit LtInt)).
Proof.
  split; [|apply C59_recursive_list; reflexivity]. intros s r. rewrite (C59_recursive_chain _ by_hand 0 (TyLit LtInt) a eq_refl s r). symmetry. apply C59_associativity.
Qed.
(** [{ + - } *] is [+ - *] with the struct inlined; [enum { A(+), B(-) }] is [Either<+, ->]; [+ { * | - }] is [+ * | + -] *)
Local Definition g2 : env := env_of
  [DStruct (tup "Both" [a; b]); DStruct (tup "Nested" [TyRef 0; c]); DStruct (tup "Flat" [a; b; c]);
   enum "Two" [tup "C" [c]; tup "B" [b]]; DStruct (tup "Factored" [a; TyRef 3]); enum "Out" [tup "AC" [a; c]; tup "AB" [a; b]]].
Example ex_laws : alike g2 (TyRef 1) g2 (TyRef 2) /\ alike g2 (TyRef 3) g2 (TyEither c b) /\ alike g2 (TyRef 4) g2 (TyRef 5).
Proof.
  split; [|split].
  - apply (C59_inline_struct _ g2 1 2 0 [] [a; b] [c]); reflexivity.
  - apply C59_either. reflexivity.
  - apply (C59_factor _ g2 4 5 3 [] [a] []); [discriminate|reflexivity|reflexivity].
Qed.
End Refuted.

Print Assumptions C59_refactoring.
Print Assumptions C59_whole_inputs.
Print Assumptions C59_texts.
Print Assumptions C59_box.
Print Assumptions C59_associativity.
Print Assumptions C59_recursive_chain.
Print Assumptions C59_recursive_list.
Print Assumptions C59_either.
Print Assumptions C59_inline_struct.
Print Assumptions C59_factor.
Print Assumptions C59_readme_factored.
Print Assumptions C59_published_linear.
Print Assumptions C59_common_end_refuted.
Print Assumptions C59_maybe_is_no_choice_refuted.
Print Assumptions C59_separated_is_no_repetition_refuted.
Print Assumptions C59_order_refuted.
