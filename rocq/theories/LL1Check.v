(** * LL1Check: the check for finite grammars (C10). *)
From Verif Require Import Base Float Literal Syn Ast Derive Grammar Spec LitSpec SynFacts Lawful Mono Combinators GrammarBeh Term TermCheck NoPanic PropLit Typed LL1 LL1Facts.
Local Open Scope nat_scope.

Definition dedup (l : list head) : list head := nodup head_eq_dec l.
(** least solutions by iteration, as often as there are productions; names outside of the
    list are the unit struct, which is empty *)
Section Tables.
Variable g : list tdef.
Notation rounds := (S (List.length g)).
Definition an_of : nat -> bool := look (iter rounds (fun l => map (anull_def (look l true)) g) (map (fun _ => false) g)) true.
Definition ac_of (an : nat -> bool) : nat -> list head := look (iter rounds (fun l => map (fun d => dedup (acc_def an (look l []) d)) g) (map (fun _ => []) g)) [].
Definition pn_of : nat -> bool := look (iter rounds (fun l => map (pnull_def (look l true)) g) (map (fun _ => false) g)) true.
Definition pf_of (pn : nat -> bool) : nat -> list head := look (iter rounds (fun l => map (fun d => dedup (pfirst_def pn (look l []) d)) g) (map (fun _ => []) g)) [].

(** what follows each occurrence of a production in [t], if [F] follows [t] *)
Section Follow.
Variable pn : nat -> bool.
Variable pf : nat -> list head.
Notation pfirst := (pfirst pn pf). Notation peek := (peek pn pf).
Fixpoint occ (t : ty) (F : list head) : list (nat * list head) :=
  match t with
  | TyMaybe a b => occ a (peek b F) ++ occ b F
  | TyParen a | TyBracket a | TyBrace a => occ a [HEnd]
  | TyPunctuated a b => if not_eofb b then occ a (HEnd :: pfirst a) else occ a (HEnd :: pfirst b) ++ occ b (HEnd :: pfirst a)
  | TySeparated a b | TyLeftAssoc b a | TyRightAssoc b a => occ a (pfirst b ++ F) ++ occ b (peek a (pfirst b ++ F))
  | TyAny a => occ a (pfirst a ++ F)
  | TyEither a b => occ a F ++ occ b F
  | TyBox a => occ a F
  | TyRef i => [(i, F)]
  | _ => []
  end.
Fixpoint occ_fields (fs : list (label * ty)) (F : list head) : list (nat * list head) :=
  match fs with [] => [] | (_, t) :: r => occ t (peek_fields pn pf r F) ++ occ_fields r F end.
Definition occ_def (d : tdef) (F : list head) : list (nat * list head) :=
  match d with DStruct c => occ_fields (c_fields c) F | DEnum _ cs => List.concat (map (fun c => occ_fields (c_fields c) F) cs) end.
Definition at_ref (i : nat) (l : list (nat * list head)) : list head :=
  dedup (List.concat (map (fun x => if fst x =? i then snd x else []) l)).
Definition fo_of (t : ty) : nat -> list head :=
  look (iter rounds (fun l =>
          let os := occ t [HEnd] ++ List.concat (map (fun i => occ_def (env_of g i) (look l [] i)) (seq 0 (List.length g))) in
          map (fun i => at_ref i os) (seq 0 (List.length g)))
        (map (fun _ => []) g)) [].
End Follow.

(** The check.  The tables are not trusted: that they are closed is part of it. *)
Definition ll1 (t : ty) : bool :=
  let an := an_of in let ac := ac_of an in let pn := pn_of in let pf := pf_of pn in let fo := fo_of pn pf t in
  forallb (fun i => implb (anull_def an (env_of g i)) (an i) && inclb (acc_def an ac (env_of g i)) (ac i)
                    && implb (pnull_def pn (env_of g i)) (pn i) && inclb (pfirst_def pn pf (env_of g i)) (pf i)
                    && ok_def an ac pn pf fo (terminating g) (env_of g i) (fo i)) (seq 0 (List.length g))
  && ok an ac pn pf fo (terminating g) t [HEnd].
End Tables.

Lemma look_out {A} n f (l : list A) (d : A) i : (forall x, List.length (f x) = List.length x) -> List.length l <= i -> look (iter n f l) d i = d.
Proof.
  intros Hf. revert l. induction n as [|n IH]; intros l Hi; cbn [iter].
  - apply nth_overflow. exact Hi.
  - apply IH. rewrite Hf. exact Hi.
Qed.
Lemma iter_length {A B} n (f : list A -> list A) (g : list B) l : (forall x, List.length (f x) = List.length g) -> List.length l = List.length g -> List.length (iter n f l) = List.length g.
Proof. intros Hf. revert l. induction n as [|n IH]; intros l Hl; cbn [iter]; auto. Qed.

Section Sound.
Context {U : unicode}.
Theorem ll1_reads g t v ts : ll1 g t = true -> typed (env_of g) t v -> print v = Some ts -> yes (tbeh (env_of g) t) (start ts) v (set_rest (start ts) []).
Proof.
  unfold ll1. set (an := an_of g). set (ac := ac_of g an). set (pn := pn_of g). set (pf := pf_of g pn). set (fo := fo_of g pn pf t).
  rewrite andb_true_iff, forallb_forall. intros (H & Hok) Ht Hp.
  assert (Out : forall i, List.length g <= i -> env_of g i = unit_def /\ an i = true /\ pn i = true).
  { intros i Hi. split; [apply nth_overflow; exact Hi|].
    split; apply nth_overflow; (rewrite (iter_length _ _ g); [exact Hi|intro; apply map_length|apply map_length]). }
  assert (In' : forall i, i < List.length g -> In i (seq 0 (List.length g))) by (intros; apply in_seq; lia).
  assert (Each : forall i, (anull_def an (env_of g i) = true -> an i = true) /\ incl (acc_def an ac (env_of g i)) (ac i) /\
    (pnull_def pn (env_of g i) = true -> pn i = true) /\ incl (pfirst_def pn pf (env_of g i)) (pf i) /\
    ok_def an ac pn pf fo (terminating g) (env_of g i) (fo i) = true).
  { intro i. destruct (Nat.lt_ge_cases i (List.length g)) as [Hi|Hi].
    - specialize (H i (In' i Hi)). rewrite !andb_true_iff in H. destruct H as ((((H1 & H2) & H3) & H4) & H5).
      apply inclb_incl in H2. apply inclb_incl in H4. split; [intro X; rewrite X in H1; exact H1|]. split; [exact H2|]. split; [intro X; rewrite X in H3; exact H3|]. auto.
    - destruct (Out i Hi) as (-> & -> & ->). cbn. repeat split; try (intros ? []). }
  refine (read_back (env_of g) an ac _ _ (terminating g) _ pn pf _ _ fo _ t v Ht [HEnd] ts [] (start ts) Hok Hp _ _ _); try (intro i; apply (Each i)).
  - intro. apply terminating_sound.
  - exists HEnd. split; [left; reflexivity|reflexivity].
  - constructor.
  - cbn. symmetry. apply app_nil_r.
Qed.
End Sound.
