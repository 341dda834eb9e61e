(** * Properties C17, C18: termination.  Vocabulary in Term.v ([returns], [never_returns],
    [consumes], [nullable], [begins], [productive]) and TermCheck.v ([terminating], [first]). *)
From Coq Require Import Wellfounded Relations.
From Verif Require Import Base Float Literal Syn Ast Derive Grammar Spec SynFacts Lawful Mono Combinators GrammarBeh
  Examples Term TermCheck.
Local Open Scope nat_scope.

(** ** C17: repetition. *)
Theorem C17_any_returns : forall A (pa : parser A), lawful pa -> total pa -> consumes pa ->
  forall s, exists n0, forall n, n0 <= n -> fst (p_any n pa s) <> ODiverge.
Proof. intros A pa Hl Ht Hc s. exists (S (sz s)). intros n Hn. eapply any_total; eauto. Qed.
Theorem C17_separated_returns : forall A P (pa : parser A) (pp : parser P), lawful pa -> lawful pp -> total pa -> total pp ->
  consumes pa \/ consumes pp ->
  forall s, exists n0, forall n, n0 <= n -> fst (p_separated n pa pp s) <> ODiverge.
Proof.
  intros A P pa pp Ha Hp Ta Tp Hc s. exists (S (sz s)). intros n Hn. unfold p_separated, bind. specialize (Ta s) as Tas.
  destruct (pa s) as ([v|e| |], s1) eqn:Ea; cbn in *; try congruence. pose proof (wfp_sz _ _ _ _ Ha Ea).
  apply (separated_total pa pp Ha Hp Ta Tp Hc (S (sz s))); lia.
Qed.
Theorem C17_punctuated_returns : forall A P (pa : parser A) (pp : parser P), lawful pa -> lawful pp -> total pa -> total pp ->
  consumes pa \/ consumes pp ->
  forall s, exists n0, forall n, n0 <= n -> fst (p_punctuated n pa pp s) <> ODiverge.
Proof. intros A P pa pp Ha Hp Ta Tp Hc s. exists (S (sz s)). intros n Hn. eapply terminated_total; eauto. Qed.

(** zero or more items, one after the other *)
Inductive reaches {A} (p : parser A) : pstate -> pstate -> Prop :=
| reaches_here s : reaches p s s
| reaches_next s v s1 s2 : p s = (OOk v, s1) -> reaches p s1 s2 -> reaches p s s2.

(** [Any<T>] returns exactly if at no point it gets to, [T] succeeds without consuming. *)
Theorem C17_any_returns_iff : forall A (pa : parser A), lawful pa -> total pa -> forall s,
  (exists n, fst (p_any n pa s) <> ODiverge) <->
  (forall s1 v s2, reaches pa s s1 -> pa s1 = (OOk v, s2) -> ps_rest s2 <> ps_rest s1).
Proof.
  intros A pa Hl Ht s. split.
  - intros (n & Hn) s1 v s2 Hr H Heq. apply Hn. unfold p_any. clear Hn. generalize (@nil A) as acc. revert n.
    induction Hr as [s|s w s' s1 Hw Hr IH]; intros n acc.
    + eapply any_diverges; [exact Hl|exact H|exact Heq|reflexivity|reflexivity].
    + destruct n as [|n]; [reflexivity|]. rewrite any_loop_speculate, speculate_spec, Hw by exact Hl. apply IH; [exact H|exact Heq].
  - intro H. exists (S (sz s)). unfold p_any.
    assert (G : forall k s acc n, sz s < k -> k <= n -> (forall s1 v s2, reaches pa s s1 -> pa s1 = (OOk v, s2) -> ps_rest s2 <> ps_rest s1) ->
              fst (any_loop n pa acc s) <> ODiverge).
    { clear s H. induction k as [|k IH]; intros s acc n Hs Hn H; [lia|]. destruct n as [|n]; [lia|].
      rewrite any_loop_speculate, speculate_spec by exact Hl. specialize (Ht s). destruct (pa s) as ([v|e| |], s1) eqn:Ep; cbn in *; try congruence.
      apply IH; [|lia|].
      - pose proof (H s v s1 (reaches_here _ _) Ep) as Hne. pose proof (wfp_sz _ _ _ _ Hl Ep).
        destruct (Nat.eq_dec (sz s1) (sz s)) as [E|E]; [|lia]. contradiction Hne. eapply wfp_eq; [exact Hl|exact Ep|lia].
      - intros s2 w s3 Hr. apply H. eapply reaches_next; eassumption. }
    apply (G (S (sz s))); [lia|lia|exact H].
Qed.
(** [Separated<T, P>]: a separator and an item that together consume nothing *)
Theorem C17_separated_never_returns : forall A P (pa : parser A) (pp : parser P) s x s0 q s1 v s2, lawful pa -> lawful pp ->
  pa s = (OOk x, s0) -> pp s0 = (OOk q, s1) -> pa s1 = (OOk v, s2) -> ps_rest s2 = ps_rest s0 ->
  never_returns (fun n => p_separated n pa pp) s.
Proof.
  intros A P pa pp s x s0 q s1 v s2 Ha Hp H0 H1 H2 Hr n. unfold p_separated, bind. rewrite H0.
  eapply separated_diverges; [exact Ha|exact Hp|exact H1|exact H2|exact Hr|reflexivity|reflexivity].
Qed.
(** in grammars: if [T] succeeds without consuming at [s], [Any<T>] never returns from [s] *)
Theorem C17_any_of_nothing_never_returns : forall (U : unicode) E t s v s', yes (tbeh E t) s v s' -> ps_rest s' = ps_rest s ->
  never_returns (fun n => pty E n (TyAny t)) s.
Proof.
  intros U E t s v s' (n0 & H) Hr [|n]; [reflexivity|]. rewrite pty_S. cbn [p_layer]. apply bind_div. unfold p_any.
  assert (G : forall k acc s0, ps_rest s0 = ps_rest s -> ps_scope s0 = ps_scope s -> fst (any_loop k (pty E n t) acc s0) = ODiverge).
  { destruct (Nat.lt_ge_cases n n0) as [Hlt|Hge].
    - destruct (le_pty E n n0 t (Nat.lt_le_incl _ _ Hlt) s) as [Hd|Hd].
      + intros k acc s0 H0 Hs0. apply loop_div. 
        destruct (pty E n t s) as (o, s1) eqn:Ep. cbn in Hd. subst o.
        destruct (oblivious_again _ s (fork s0) _ _ (lawful_pty E n t) H0 Hs0 Ep) as (s3 & E3 & _). rewrite E3. reflexivity.
      + rewrite H in Hd. intros k acc s0 H0 Hs0. exact (any_diverges _ s v s' (lawful_pty E n t) Hd Hr k acc s0 H0 Hs0).
    - apply (pty_mono E n0 n t) in H; [|exact Hge|discriminate]. intros k acc s0 H0 Hs0. exact (any_diverges _ s v s' (lawful_pty E n t) H Hr k acc s0 H0 Hs0). }
  apply G; reflexivity.
Qed.
Theorem C17_any_empty_never_returns : forall (U : unicode) E s, never_returns (fun n => pty E n (TyAny TyEmpty)) s.
Proof. intros U E s. apply (C17_any_of_nothing_never_returns U E TyEmpty s VUnit s); [exists 1|]; reflexivity. Qed.
Theorem C17_any_maybe_never_returns : forall (U : unicode) E a b s e, no (tbeh E a) s e -> never_returns (fun n => pty E n (TyAny (TyMaybe a b))) s.
Proof.
  intros U E a b s e H. apply (C17_any_of_nothing_never_returns U E (TyMaybe a b) s VNothing s); [|reflexivity].
  apply (proj2 (maybe_yes E a b s VNothing s)). left. repeat split; eauto.
Qed.
(** the hypotheses are met by the leaf parsers *)
Example C17_ex : lawful p_ident /\ total p_ident /\ consumes p_ident.
Proof.
  split; [apply lawful_ident|]. split.
  - intro s. unfold p_ident. destruct (ignore_none (ps_rest s)) as [|[n0 sp0| | |] ?]; try discriminate. destruct (text_mem n0 _); discriminate.
  - intros s v s' H Heq. unfold p_ident in H. destruct (ignore_none (ps_rest s)) as [|[n0 sp0| | |] r] eqn:Ei; try discriminate. destruct (text_mem n0 _); [discriminate|].
    injection H as <- <-. cbn in Heq. apply ignore_sz in Ei. rewrite Heq in Ei. lia.
Qed.
Section WithTables.
Local Existing Instance ascii_only.
Example C17_ex_maybe : never_returns (fun n => pty GE n (TyAny (TyMaybe (TyToken [61%N]) TyIdent))) (start [word "a" 0]).
Proof. eapply C17_any_maybe_never_returns. exists 1. eexists. vm_compute. reflexivity. Qed.
End WithTables.

(** ** C18: grammars. *)

(** [N] is any decidable class of types containing those that can match nothing.  If no
    production can begin with itself, through productions before which everything is in [N],
    and no repetition has a body in [N], parsing terminates, on every stream. *)
Theorem C18_no_left_recursion_terminates : forall (U : unicode) E (N : ty -> Prop),
  (forall t s v s', yes (tbeh E t) s v s' -> ps_rest s' = ps_rest s -> N t) -> (forall t, N t \/ ~ N t) ->
  well_founded (begins E N) -> (forall i, productive_def N (E i)) ->
  forall t, productive N t -> forall s, exists n0 o s', o <> ODiverge /\ forall n, n0 <= n -> pty E n t s = (o, s').
Proof.
  intros U E N HN HD Hwf Hp t Ht s. apply (grammar_terminates E N); try assumption.
  intros t0 (s0 & v & s' & H & Hr). eapply HN; eassumption.
Qed.
(** The check for finite grammars: always terminating if it says so. *)
Theorem C18_check_is_sound : forall (U : unicode) g t, terminating g t = true ->
  forall s, exists n0 o s', o <> ODiverge /\ forall n, n0 <= n -> pty (env_of g) n t s = (o, s').
Proof. intros U g t H. exact (terminating_sound g t H). Qed.
(** ... so every whole input is accepted, refused, or (on a literal token the lexer cannot make) panics. *)
Theorem C18_check_whole_input : forall (U : unicode) g t ts, terminating g t = true ->
  (exists v, parses (env_of g) t ts v) \/ refuses (env_of g) t ts \/ exists n, parse2 (pty (env_of g) n t) ts = RPanic.
Proof.
  intros U g t ts H. destruct (terminating_sound g t H (start ts)) as (n & o & s' & Ho & Hn). specialize (Hn n (le_n n)).
  assert (Hx : parse2 (pty (env_of g) n t) ts <> RDiverge).
  { unfold parse2. rewrite Hn. destruct o; try congruence; try discriminate. destruct (ps_unexp s'); [discriminate|]. destruct (leftover (ps_rest s')); discriminate. }
  destruct (parse2 (pty (env_of g) n t) ts) as [v|e| |] eqn:Ep; try congruence.
  - left. exists v, n. exact Ep.
  - right. left. exists n, e. exact Ep.
  - right. right. exists n. exact Ep.
Qed.
(** A type whose parser starts, through any number of steps, by parsing that type again,
    never returns, on any input ([ne]: on any non-empty input). *)
Theorem C18_left_recursion_never_returns : forall (U : unicode) E ne t, clos_trans_1n ty (first E ne) t t ->
  forall s, (ne = true -> ps_rest s <> []) -> forall n, fst (pty E n t s) = ODiverge.
Proof. intros U E ne t H s Hs. exact (left_recursion_diverges E ne t H s Hs). Qed.
(** If the left-recursive variant is not the first, it is enough that the earlier ones fail. *)
Theorem C18_left_recursive_variant_never_returns : forall (U : unicode) E i en cs k c l t fs s,
  E i = DEnum en cs -> nth_error cs k = Some c -> c_fields c = (l, t) :: fs -> t = TyRef i \/ t = TyBox (TyRef i) ->
  (forall j c', j < k -> nth_error cs j = Some c' -> exists e, ctor_no E en c' s e) ->
  forall n, fst (pty E n (TyRef i) s) = ODiverge.
Proof. intros U E i en cs k c l t fs s H1 H2 H3 H4 H5. exact (later_variant_diverges E i en cs k c l t fs s H1 H2 H3 H4 H5). Qed.

(** struct Expr(LeftAssoc<Token![+], Term>)  struct Term(RightAssoc<Token![^], Atom>)
    enum Atom { Paren(Paren<Box<Expr>>), Neg(Token![-], Box<Atom>), Call(Ident, Maybe<Token![!], Any<LitInt>>), Num(LitInt) } *)
Definition good_grammar : list tdef :=
  [DStruct (Ctor (T "Expr") [(LIndex 0, TyLeftAssoc (TyToken [43%N]) (TyRef 1))]);
   DStruct (Ctor (T "Term") [(LIndex 0, TyRightAssoc (TyToken [94%N]) (TyRef 2))]);
   DEnum (T "Atom") [Ctor (T "Paren") [(LIndex 0, TyParen (TyBox (TyRef 0)))];
                     Ctor (T "Neg") [(LIndex 0, TyToken [45%N]); (LIndex 1, TyBox (TyRef 2))];
                     Ctor (T "Call") [(LIndex 0, TyIdent); (LIndex 1, TyMaybe (TyToken [33%N]) (TyAny (TyLit LtInt)))];
                     Ctor (T "Num") [(LIndex 0, TyLit LtInt)]]].
Example C18_ex_check : terminating good_grammar (TyPunctuated (TyRef 0) (TyToken [59%N])) = true.
Proof. vm_compute. reflexivity. Qed.
(** enum Expr { Sum(Box<Expr>, Token![+], LitInt), Lit(LitInt) } *)
Definition left_grammar : list tdef :=
  [DEnum (T "Expr") [Ctor (T "Sum") [(LIndex 0, TyBox (TyRef 0)); (LIndex 1, TyToken [43%N]); (LIndex 2, TyLit LtInt)];
                     Ctor (T "Lit") [(LIndex 0, TyLit LtInt)]]].
Example C18_ex_left : clos_trans_1n ty (first (env_of left_grammar) false) (TyRef 0) (TyRef 0) /\ terminating left_grammar (TyRef 0) = false.
Proof.
  split; [|vm_compute; reflexivity]. eapply Relation_Operators.t1n_trans with (y := TyBox (TyRef 0)).
  - eapply first_enum; reflexivity.
  - apply t1n_step. constructor.
Qed.
(** enum Expr { Lit(LitInt), Sum(Box<Expr>, ..) } on an input that does not start with a literal *)
Definition left_grammar2 : list tdef :=
  [DEnum (T "Expr") [Ctor (T "Lit") [(LIndex 0, TyLit LtInt)];
                     Ctor (T "Sum") [(LIndex 0, TyBox (TyRef 0)); (LIndex 1, TyToken [43%N]); (LIndex 2, TyLit LtInt)]]].
Section WithTables.
Local Existing Instance ascii_only.
Example C18_ex_variant : forall n, fst (pty (env_of left_grammar2) n (TyRef 0) (start [word "x" 0])) = ODiverge.
Proof.
  eapply (C18_left_recursive_variant_never_returns _ (env_of left_grammar2) 0 _ _ 1); [reflexivity|reflexivity|reflexivity|right; reflexivity|].
  intros [|j] c' Hj Hc; [|lia]. cbn in Hc. injection Hc as <-. eexists. eapply (proj1 (fields_no_iff (env_of left_grammar2) (T "Expr") (T "Lit") [(LIndex 0, TyLit LtInt)] _ _)).
  exists 5. eexists. vm_compute. reflexivity.
Qed.
End WithTables.

Print Assumptions C17_any_returns.
Print Assumptions C17_separated_returns.
Print Assumptions C17_punctuated_returns.
Print Assumptions C17_any_returns_iff.
Print Assumptions C17_separated_never_returns.
Print Assumptions C17_any_of_nothing_never_returns.
Print Assumptions C17_any_empty_never_returns.
Print Assumptions C17_any_maybe_never_returns.
Print Assumptions C18_no_left_recursion_terminates.
Print Assumptions C18_check_is_sound.
Print Assumptions C18_check_whole_input.
Print Assumptions C18_left_recursion_never_returns.
Print Assumptions C18_left_recursive_variant_never_returns.
