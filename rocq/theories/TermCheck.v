(** * TermCheck: a decidable check for termination; left recursion. *)
From Coq Require Import Wellfounded Relations.
From Verif Require Import Base Float Literal Syn Ast Derive Grammar Spec SynFacts Lawful Mono Combinators GrammarBeh Term.
Local Open Scope nat_scope.

(** ** which types can match nothing, given which productions can *)
Section Null.
Variable nu : nat -> bool.
Fixpoint nullb (t : ty) : bool :=
  match t with
  | TyToken op => match op with [] => true | _ => false end
  | TyEmpty | TyEof | TyNotEof | TyMaybe _ _ | TyPunctuated _ _ | TyAny _ => true
  | TySeparated a _ => nullb a
  | TyLeftAssoc _ r | TyRightAssoc _ r => nullb r
  | TyEither a b => nullb a || nullb b
  | TyBox a => nullb a
  | TyRef i => nu i
  | _ => false
  end.
Definition nullb_fields (fs : list (label * ty)) : bool := forallb (fun f => nullb (snd f)) fs.
Definition nullb_def (d : tdef) : bool :=
  match d with
  | DStruct c => nullb_fields (c_fields c)
  | DEnum _ cs => existsb (fun c => nullb_fields (c_fields c)) cs
  end.

(** the productions a type may begin with *)
Fixpoint left_refs (t : ty) : list nat :=
  match t with
  | TyRef i => [i]
  | TyBox a | TyAny a => left_refs a
  | TyEither a b => left_refs a ++ left_refs b
  | TyMaybe a b | TySeparated a b | TyPunctuated a b | TyLeftAssoc b a | TyRightAssoc b a =>
      left_refs a ++ (if nullb a then left_refs b else [])
  | _ => []
  end.
Fixpoint left_refs_fields (fs : list (label * ty)) : list nat :=
  match fs with
  | [] => []
  | (_, t) :: r => left_refs t ++ (if nullb t then left_refs_fields r else [])
  end.
Definition left_refs_def (d : tdef) : list nat :=
  match d with
  | DStruct c => left_refs_fields (c_fields c)
  | DEnum _ cs => List.concat (map (fun c => left_refs_fields (c_fields c)) cs)
  end.
Fixpoint productiveb (t : ty) : bool :=
  match t with
  | TyAny a => negb (nullb a) && productiveb a
  | TySeparated a b | TyPunctuated a b | TyLeftAssoc b a | TyRightAssoc b a =>
      negb (nullb a && nullb b) && (productiveb a && productiveb b)
  | TyMaybe a b | TyEither a b => productiveb a && productiveb b
  | TyParen a | TyBracket a | TyBrace a | TyBox a => productiveb a
  | _ => true
  end.
Definition productiveb_def (d : tdef) : bool :=
  match d with
  | DStruct c => forallb (fun f => productiveb (snd f)) (c_fields c)
  | DEnum _ cs => forallb (fun c => forallb (fun f => productiveb (snd f)) (c_fields c)) cs
  end.
End Null.

(** A grammar as a finite list of definitions; other names are the unit struct. *)
Definition unit_def : tdef := DStruct (Ctor [] []).
Definition env_of (g : list tdef) : env := fun i => nth i g unit_def.

Definition look {A} (l : list A) (d : A) (i : nat) : A := nth i l d.
(** least solution by iteration, as often as there are productions *)
Fixpoint iter {A} (n : nat) (f : A -> A) (x : A) : A := match n with O => x | S m => iter m f (f x) end.
Definition nu_of (g : list tdef) : nat -> bool :=
  look (iter (S (List.length g)) (fun l => map (nullb_def (look l true)) g) (map (fun _ => false) g)) true.
Definition rank_of (g : list tdef) : nat -> nat :=
  look (iter (S (List.length g)) (fun l => map (fun d => S (list_max (map (look l 0) (left_refs_def (nu_of g) d)))) g) (map (fun _ => 0) g)) 0.
(** The check: [nu] is closed, left calls go down in rank, no repetition of nothing. *)
Definition terminating (g : list tdef) (t : ty) : bool :=
  let nu := nu_of g in let rk := rank_of g in
  forallb (fun i => implb (nullb_def nu (env_of g i)) (nu i)
                    && forallb (fun j => rk j <? rk i) (left_refs_def nu (env_of g i))
                    && productiveb_def nu (env_of g i)) (seq 0 (List.length g))
  && productiveb nu t.

Section Facts.
Context {U : unicode}.
Variable E : env.
Variable nu : nat -> bool.
Hypothesis Hnu : forall i, nullb_def nu (E i) = true -> nu i = true.

Lemma ignore_sz l t r : ignore_none l = t :: r -> ts_size r < ts_size l.
Proof. intro H. pose proof (ignore_none_pops l) as Hp. rewrite H in Hp. apply pops_size in Hp. cbn in Hp. pose proof (tt_size_pos t). lia. Qed.
Lemma lit_sz s x s' : p_lit s = (OOk x, s') -> sz s' < sz s.
Proof.
  unfold p_lit, sz. destruct (ignore_none (ps_rest s)) as [|[n0 sp0|c0 g0 sp0|r0 sp0|d' sp' i] r1] eqn:Ei; try discriminate; apply ignore_sz in Ei.
  - destruct (text_eqb n0 _); [intro H; injection H as <- <-; exact Ei|]. destruct (text_eqb n0 _); [intro H; injection H as <- <-; exact Ei|discriminate].
  - destruct (c0 =? 45)%N; [|discriminate]. destruct (ignore_none r1) as [|[n1 sp1|c1 g1 sp1|r2 sp1|d1 sp1 i1] r3] eqn:Ei2; try discriminate. apply ignore_sz in Ei2.
    destruct (lit_num _); [|discriminate]. intro H; injection H as <- <-. cbn. lia.
  - destruct (lit_new r0); [|discriminate]. intro H; injection H as <- <-; exact Ei.
Qed.
Lemma typed_sz {A} (sel : slit -> option A) w s x s' : p_typed sel w s = (OOk x, s') -> sz s' < sz s.
Proof.
  unfold p_typed. destruct (p_lit s) as ([(k, sp)|e| |], s1) eqn:Ep; try discriminate. apply lit_sz in Ep.
  destruct (sel k); [|discriminate]. intro H. injection H as <- <-. exact Ep.
Qed.
Lemma litty_sz k s x s' : p_litty k s = (OOk x, s') -> sz s' < sz s.
Proof.
  destruct k; cbn [p_litty]; intro H; apply bind_ok in H as (y & s1 & H1 & H2); apply typed_sz in H1;
    injection H2; intros; subst; exact H1.
Qed.
Lemma any_lit_sz s x s' : p_any_lit s = (OOk x, s') -> sz s' < sz s.
Proof. intro H; apply bind_ok in H as (y & s1 & H1 & H2); apply lit_sz in H1; injection H2; intros; subst; exact H1. Qed.
Lemma take_op_sz op : forall l sps r, op <> [] -> take_op op l = Some (sps, r) -> ts_size r < ts_size l.
Proof.
  induction op as [|c op IH]; intros l sps r Hne H; [congruence|]. cbn [take_op] in H.
  destruct (ignore_none l) as [|[n0 sp0|c0 g0 sp0|r0 sp0|d' sp' i] r1] eqn:E0; try discriminate. apply ignore_sz in E0.
  destruct (_ && _ && _); [|discriminate]. destruct (take_op op r1) as [(x, r2)|] eqn:Et; [|discriminate]. injection H as <- <-.
  destruct op as [|c2 op]; [cbn in Et; injection Et as <- <-; exact E0|]. apply IH in Et; [lia|discriminate].
Qed.
Lemma fields_sz n en ct fs : (forall t s v s', In t (map snd fs) -> nullb nu t = false -> pty E n t s = (OOk v, s') -> sz s' < sz s) ->
  nullb_fields nu fs = false -> forall s vs s', p_fields en ct (map (fun '(l, t) => (l, pty E n t)) fs) s = (OOk vs, s') -> sz s' < sz s.
Proof.
  intro IH. assert (G : forall s vs s', p_fields en ct (map (fun '(l, t) => (l, pty E n t)) fs) s = (OOk vs, s') -> sz s' <= sz s).
  { intros s vs s' H. eapply wfp_sz; [|exact H]. apply lawful_fields. apply Forall_map, Forall_forall. intros (l, t0) _. apply lawful_pty. }
  revert IH G. induction fs as [|(l, t) fs IHf]; intros IH G Hn s vs s' H; [discriminate|]. cbn [map p_fields] in H.
  apply bind_ok in H as (v & s1 & H1 & H2). apply map_err_ok in H1. apply bind_ok in H2 as (ws & s2 & H2 & H3). injection H3 as _ <-.
  pose proof (wfp_sz _ _ _ _ (lawful_pty E n t) H1) as Hle.
  assert (Hle2 : sz s2 <= sz s1). { eapply wfp_sz; [|exact H2]. apply lawful_fields. apply Forall_map, Forall_forall. intros (l0, t0) _. apply lawful_pty. }
  cbn in Hn. destruct (nullb nu t) eqn:Et.
  - assert (sz s2 < sz s1); [|lia]. eapply IHf; [| |exact Hn|exact H2].
    + intros t0 s0 v0 s0' Hin. apply IH. right. exact Hin.
    + intros s0 vs0 s0' H0. eapply wfp_sz; [|exact H0]. apply lawful_fields. apply Forall_map, Forall_forall. intros (l0, t0) _. apply lawful_pty.
  - assert (sz s1 < sz s); [|lia]. eapply IH; [left; reflexivity|exact Et|exact H1].
Qed.
Theorem not_nullb n : forall t s v s', nullb nu t = false -> pty E n t s = (OOk v, s') -> sz s' < sz s.
Proof.
  induction n as [|n IH]; intros t s v s' Hn H; [discriminate|]. rewrite pty_S in H.
  destruct t; cbn [p_layer] in H; cbn [nullb] in Hn; try discriminate;
    try (apply pmap_ok in H as (x & H & ->)).
  - unfold p_ident in H. destruct (ignore_none (ps_rest s)) as [|[n0 sp0| | |] ?] eqn:Ei; try discriminate. destruct (text_mem n0 _); [discriminate|].
    injection H as _ <-. eapply ignore_sz. exact Ei.
  - apply bind_ok in H as (y & s1 & H1 & H2). unfold p_ident_any in H1. destruct (ignore_none (ps_rest s)) as [|[n0 sp0| | |] ?] eqn:Ei; try discriminate.
    injection H1 as <- <-. destruct (text_mem _ _); [discriminate|]. injection H2 as _ <-. eapply ignore_sz. exact Ei.
  - apply bind_ok in H as (y & s1 & H1 & H2). unfold p_ident_any in H1. destruct (ignore_none (ps_rest s)) as [|[n0 sp0| | |] ?] eqn:Ei; try discriminate.
    injection H1 as <- <-. destruct (text_eqb _ _); [|discriminate]. injection H2 as _ <-. eapply ignore_sz. exact Ei.
  - unfold p_token_kw in H. destruct (ignore_none (ps_rest s)) as [|[n0 sp0| | |] ?] eqn:Ei; try discriminate. destruct (text_eqb n0 _); [|discriminate].
    injection H as _ <-. eapply ignore_sz. exact Ei.
  - unfold p_token in H. destruct (take_op op (ps_rest s)) as [(x1, r)|] eqn:Et; [|discriminate]. injection H as _ <-. eapply take_op_sz; [|exact Et]. destruct op; [discriminate|discriminate].
  - eapply litty_sz. exact H.
  - eapply any_lit_sz. exact H.
  - destruct x as (sp0, x). apply group_ok in H as (inner & r & si & Hi & _ & ->). eapply ignore_sz. exact Hi.
  - destruct x as (sp0, x). apply group_ok in H as (inner & r & si & Hi & _ & ->). eapply ignore_sz. exact Hi.
  - destruct x as (sp0, x). apply group_ok in H as (inner & r & si & Hi & _ & ->). eapply ignore_sz. exact Hi.
  - apply bind_ok in H as (y & s1 & H1 & H2). apply IH in H1; [|exact Hn].
    assert (sz s' <= sz s1); [|lia]. eapply wfp_sz; [|exact H2]. apply lawful_separated_loop; apply lawful_pty.
  - apply bind_ok in H as (z & s0 & H & H3). assert (s0 = s') as ->. { destruct (into_first_rest z) as [(? & ?)|]; congruence. }
    apply bind_ok in H as (y & s1 & H1 & H2). apply IH in H1; [|exact Hn].
    assert (sz s' <= sz s1); [|lia]. eapply wfp_sz; [|exact H2]. apply lawful_separated_loop; apply lawful_pty.
  - apply bind_ok in H as (z & s0 & H & H3). assert (s0 = s') as ->. { destruct (into_last_rest z) as [(? & ?)|]; congruence. }
    apply bind_ok in H as (y & s1 & H1 & H2). apply IH in H1; [|exact Hn].
    assert (sz s' <= sz s1); [|lia]. eapply wfp_sz; [|exact H2]. apply lawful_separated_loop; apply lawful_pty.
  - apply orb_false_iff in Hn as (Hn1 & Hn2). apply either_ok in H; [|apply lawful_pty|apply lawful_pty]. destruct x as [x|x].
    + exact (IH _ _ _ _ Hn1 H).
    + destruct H as (_ & H). exact (IH _ _ _ _ Hn2 H).
  - eapply IH; eassumption.
  - assert (Hd : nullb_def nu (E i) = false). { destruct (nullb_def nu (E i)) eqn:Ed; [|reflexivity]. apply Hnu in Ed. congruence. }
    destruct (E i) as [c|en cs]; cbn [p_def nullb_def] in *.
    + apply pmap_ok in H as (vs & H & ->). eapply fields_sz; [|exact Hd|exact H]. intros. eapply IH; eassumption.
    + apply pmap_ok in H as ((k & vs) & H & ->). apply variants_ok in H as (k' & w & -> & H1 & H2 & H3).
      * rewrite nth_error_map in H1. destruct (nth_error cs k') as [c|] eqn:Ek; [|discriminate]. cbn in H1. injection H1 as <-.
        assert (Hc : nullb_fields nu (c_fields c) = false).
        { destruct (nullb_fields nu (c_fields c)) eqn:Ec; [|reflexivity]. rewrite <- Hd. symmetry. apply existsb_exists. exists c. split; [eapply nth_error_In; exact Ek|exact Ec]. }
        eapply fields_sz; [|exact Hc|exact H2]. intros. eapply IH; eassumption.
      * apply Forall_map, Forall_forall. intros c _. unfold vparser. cbn. apply lawful_fields. apply Forall_map, Forall_forall. intros (l, t0) _. apply lawful_pty.
Qed.
Lemma nullable_nullb t : nullable E t -> nullb nu t = true.
Proof.
  intros (s & v & s' & (n & H) & Hr). destruct (nullb nu t) eqn:Et; [reflexivity|]. exfalso.
  pose proof (not_nullb n t s v s' Et H) as Hlt. unfold sz in Hlt. rewrite Hr in Hlt. lia.
Qed.
Notation N := (fun t => nullb nu t = true).
Lemma leftmost_in t j : leftmost N t j -> In j (left_refs nu t).
Proof.
  induction 1; cbn [left_refs]; try (apply in_or_app; auto; fail); try assumption; try (left; reflexivity);
    (apply in_or_app; right; match goal with H : nullb _ _ = true |- _ => rewrite H end; assumption).
Qed.
Lemma leftmost_field_in fs j : leftmost_field N fs j -> In j (left_refs_fields nu fs).
Proof.
  intros (pre & f & post & -> & Hpre & Hl). induction Hpre as [|(l, t) pre Ht _ IH]; cbn [app left_refs_fields].
  - destruct f as (l, t). apply in_or_app. left. apply leftmost_in. exact Hl.
  - cbn in Ht. rewrite Ht. apply in_or_app. right. exact IH.
Qed.
Lemma begins_in j i : begins E N j i -> In j (left_refs_def nu (E i)).
Proof.
  unfold begins. destruct (E i) as [c|en cs]; cbn [left_refs_def].
  - apply leftmost_field_in.
  - intros (c & Hc & H). apply leftmost_field_in in H. apply in_concat. exists (left_refs_fields nu (c_fields c)). split; [|exact H]. apply in_map_iff. eauto.
Qed.
Lemma productiveb_ok t : productiveb nu t = true -> productive N t.
Proof.
  induction t; cbn; auto; rewrite ?andb_true_iff, ?negb_true_iff, ?andb_false_iff; intuition congruence.
Qed.
Lemma productiveb_def_ok d : productiveb_def nu d = true -> productive_def N d.
Proof.
  destruct d as [c|en cs]; cbn; rewrite forallb_forall; intro H; apply Forall_forall.
  - intros f Hf. apply productiveb_ok. apply H. exact Hf.
  - intros c Hc. apply Forall_forall. intros f Hf. apply productiveb_ok. specialize (H c Hc). rewrite forallb_forall in H. apply H. exact Hf.
Qed.
End Facts.

Theorem terminating_sound {U : unicode} g t : terminating g t = true -> terminates (env_of g) t.
Proof.
  unfold terminating. set (nu := nu_of g). set (rk := rank_of g). rewrite andb_true_iff, forallb_forall. intros (H & Ht).
  assert (Hout : forall i, List.length g <= i -> env_of g i = unit_def) by (intros i Hi; apply nth_overflow; exact Hi).
  assert (Hin : forall i, i < List.length g -> implb (nullb_def nu (env_of g i)) (nu i) = true /\ forallb (fun j => rk j <? rk i) (left_refs_def nu (env_of g i)) = true
                 /\ productiveb_def nu (env_of g i) = true).
  { intros i Hi. specialize (H i). rewrite !andb_true_iff in H. destruct H as ((? & ?) & ?); [apply in_seq; lia|auto]. }
  clear H.
  assert (Hnu : forall i, nullb_def nu (env_of g i) = true -> nu i = true).
  { intros i Hi. destruct (Nat.lt_ge_cases i (List.length g)) as [Hlt|Hge].
    - destruct (Hin i Hlt) as (H & _). rewrite Hi in H. exact H.
    - unfold nu, nu_of, look. apply nth_overflow.
      assert (G : forall n f (l : list bool), (forall l, List.length (f l) <= List.length g) -> List.length l <= List.length g -> List.length (iter n f l) <= List.length g).
      { induction n as [|n IH]; cbn; intros f l Hf Hl; [exact Hl|]. apply IH; auto. }
      etransitivity; [apply G|exact Hge]; intros; rewrite map_length; lia. }
  apply (grammar_terminates (env_of g) (fun t => nullb nu t = true)).
  - intros t0. apply nullable_nullb. exact Hnu.
  - intro t0. destruct (nullb nu t0); [left; reflexivity|right; discriminate].
  - apply (wf_incl _ _ (fun a b => rk a < rk b)).
    + intros j i Hji. apply begins_in in Hji. destruct (Nat.lt_ge_cases i (List.length g)) as [Hlt|Hge].
      * destruct (Hin i Hlt) as (_ & H & _). rewrite forallb_forall in H. apply Nat.ltb_lt. apply H. exact Hji.
      * rewrite (Hout i Hge) in Hji. destruct Hji.
    + apply (well_founded_ltof nat rk).
  - intro i. apply productiveb_def_ok. destruct (Nat.lt_ge_cases i (List.length g)) as [Hlt|Hge]; [apply Hin; exact Hlt|]. rewrite (Hout i Hge). reflexivity.
  - apply productiveb_ok. exact Ht.
Qed.

(** ** Left recursion. *)
Section LeftRec.
Context {U : unicode}.
Variable E : env.
(** [first ne t u]: the first thing parsing a [t] does, whatever the input, is to parse a [u];
    with [ne], whatever the non-empty input. *)
Inductive first (ne : bool) : ty -> ty -> Prop :=
| first_box t : first ne (TyBox t) t
| first_any t : first ne (TyAny t) t
| first_either a b : first ne (TyEither a b) a
| first_maybe a b : first ne (TyMaybe a b) a
| first_separated a p : first ne (TySeparated a p) a
| first_left o r : first ne (TyLeftAssoc o r) r
| first_right o l : first ne (TyRightAssoc o l) l
| first_punctuated a p : ne = true -> first ne (TyPunctuated a p) a
| first_struct i c l t fs : E i = DStruct c -> c_fields c = (l, t) :: fs -> first ne (TyRef i) t
| first_enum i en c cs l t fs : E i = DEnum en (c :: cs) -> c_fields c = (l, t) :: fs -> first ne (TyRef i) t.

Lemma bind_div {A B} (p : parser A) (k : A -> parser B) s : fst (p s) = ODiverge -> fst (bind p k s) = ODiverge.
Proof. unfold bind. destruct (p s) as ([v|e| |], s1); cbn; congruence. Qed.
Lemma spec_div {A B} (p : parser A) (y : A -> parser B) n s : fst (p (fork s)) = ODiverge -> fst (speculate p y n s) = ODiverge.
Proof. unfold speculate. destruct (p (fork s)) as ([v|e| |], s1); cbn; congruence. Qed.
Lemma map_err_div {A} f (p : parser A) s : fst (p s) = ODiverge -> fst (map_err f p s) = ODiverge.
Proof. unfold map_err. destruct (p s) as ([v|e| |], s1); cbn; congruence. Qed.
Lemma sep_div {A P} n (pa : parser A) (pp : parser P) s : fst (pa s) = ODiverge -> fst (p_separated n pa pp s) = ODiverge.
Proof. apply bind_div. Qed.
Lemma loop_div {A} n (pa : parser A) acc s : fst (pa (fork s)) = ODiverge -> fst (any_loop n pa acc s) = ODiverge.
Proof. destruct n as [|n]; [reflexivity|]. intro H. rewrite any_loop_speculate. apply spec_div. exact H. Qed.
Lemma term_div {A P} n (pa : parser A) (pp : parser P) acc s : ps_rest s <> [] -> fst (pa s) = ODiverge -> fst (terminated_loop n pa pp acc s) = ODiverge.
Proof. destruct n as [|n]; [reflexivity|]. intros Hne H. rewrite terminated_loop_S. apply is_empty_false in Hne. rewrite Hne. apply bind_div. exact H. Qed.

Theorem first_diverges ne (X : ty -> Prop) : (forall t, X t -> exists u, first ne t u /\ X u) ->
  forall n t, X t -> forall s, (ne = true -> ps_rest s <> []) -> fst (pty E n t s) = ODiverge.
Proof.
  intro HX. induction n as [|n IH]; intros t Ht s Hne; [reflexivity|].
  destruct (HX t Ht) as (u & Hf & Hu). rewrite pty_S.
  assert (D : forall s, (ne = true -> ps_rest s <> []) -> fst (pty E n u s) = ODiverge) by (intros; apply IH; assumption).
  destruct Hf as [t|t|a b|a b|a p|o r|o l|a p Hn|i c l t fs HE Hc|i en c cs l t fs HE Hc]; cbn [p_layer].
  - apply D, Hne.
  - apply bind_div, loop_div, D. exact Hne.
  - apply bind_div. rewrite p_either_speculate. apply spec_div, D. exact Hne.
  - apply bind_div. rewrite p_maybe_speculate. apply spec_div, D. exact Hne.
  - apply bind_div, sep_div, D, Hne.
  - apply bind_div, bind_div, sep_div, D, Hne.
  - apply bind_div, bind_div, sep_div, D, Hne.
  - apply bind_div, term_div; [apply Hne, Hn|apply D, Hne].
  - rewrite HE. cbn [p_def]. apply bind_div. unfold p_struct. rewrite Hc. cbn [map p_fields]. apply bind_div, map_err_div, D, Hne.
  - rewrite HE. cbn [p_def]. apply bind_div. unfold p_enum. cbn [map]. rewrite p_variants_speculate. apply spec_div. rewrite Hc. cbn [map p_fields]. apply bind_div, map_err_div, D. exact Hne.
Qed.
Lemma cycle_closed {A} (R : A -> A -> Prop) x : clos_trans_1n A R x x ->
  forall y, clos_trans_1n A R y x -> exists z, R y z /\ clos_trans_1n A R z x.
Proof. intros Hx y H. destruct H as [z Hz|z w Hz Hw]; eauto. Qed.
Theorem left_recursion_diverges ne t : clos_trans_1n ty (first ne) t t ->
  forall s, (ne = true -> ps_rest s <> []) -> never_returns (fun n => pty E n t) s.
Proof. intros H s Hs n. apply (first_diverges ne (fun u => clos_trans_1n ty (first ne) u t) (cycle_closed _ _ H) n t H s Hs). Qed.

(** a later variant that begins with its own enum *)
Lemma ctor_no_again en c s s2 n o s3 e : ctor_no E en c s e -> ps_rest s2 = ps_rest s -> ps_scope s2 = ps_scope s ->
  p_fields en (c_name c) (inst E n (c_fields c)) s2 = (o, s3) -> o <> ODiverge -> o = OErr e.
Proof.
  intros Hno Hr Hs H Ho. apply fields_no_iff in Hno as (n' & s1 & Hno).
  apply (fields_mono_ok E en (c_name c) (c_fields c) n (max n n')) in H; [|lia|exact Ho].
  apply (fields_mono_ok E en (c_name c) (c_fields c) n' (max n n')) in Hno; [|lia|discriminate].
  eapply oblivious_again in Hno as (s4 & Hno & _); [|apply lawful_fields, Forall_map, Forall_forall; intros (l0, t0) _; apply lawful_pty|exact Hr|exact Hs].
  congruence.
Qed.
Theorem later_variant_diverges i en cs k c l t fs s : E i = DEnum en cs -> nth_error cs k = Some c -> c_fields c = (l, t) :: fs ->
  t = TyRef i \/ t = TyBox (TyRef i) ->
  (forall j c', j < k -> nth_error cs j = Some c' -> exists e, ctor_no E en c' s e) ->
  never_returns (fun n => pty E n (TyRef i)) s.
Proof.
  intros HE Hk Hc Ht Hno.
  assert (G : forall n s2, ps_rest s2 = ps_rest s -> ps_scope s2 = ps_scope s -> fst (pty E n (TyRef i) s2) = ODiverge).
  { induction n as [n IH] using lt_wf_ind. destruct n as [|n]; [reflexivity|]. intros s2 Hr Hs. rewrite pty_S. cbn [p_layer]. rewrite HE. cbn [p_def]. apply bind_div. unfold p_enum.
    assert (D : forall s2, ps_rest s2 = ps_rest s -> ps_scope s2 = ps_scope s -> fst (pty E n t s2) = ODiverge).
    { intros s3 Hr3 Hs3. destruct Ht as [->| ->]; [apply IH; [lia|assumption|assumption]|]. destruct n as [|n]; [reflexivity|]. rewrite pty_S. cbn [p_layer]. apply IH; [lia|assumption|assumption]. }
    clear IH HE. revert cs Hk Hno. generalize 0 (@None error). induction k as [|k IHk]; intros m acc cs Hk Hno; destruct cs as [|c0 cs]; try discriminate.
    - cbn in Hk. injection Hk as ->. cbn [map]. rewrite p_variants_speculate. apply spec_div. rewrite Hc. cbn [map p_fields]. apply bind_div, map_err_div, D; assumption.
    - cbn in Hk. cbn [map]. rewrite p_variants_speculate, speculate_spec; [|apply lawful_fields, Forall_map, Forall_forall; intros (l0, t0) _; apply lawful_pty].
      destruct (p_fields en (c_name c0) (map (fun '(l0, t0) => (l0, pty E n t0)) (c_fields c0)) s2) as ([v|e| |], s3) eqn:Ef.
      + exfalso. destruct (Hno 0 c0) as (e & He); [lia|reflexivity|].
        pose proof (ctor_no_again en c0 s s2 n _ _ e He Hr Hs Ef) as X. discriminate X. discriminate.
      + apply IHk; [exact Hk|]. intros j c' Hj Hc'. apply (Hno (S j) c'); [lia|exact Hc'].
      + exfalso. destruct (Hno 0 c0) as (e & He); [lia|reflexivity|].
        pose proof (ctor_no_again en c0 s s2 n _ _ e He Hr Hs Ef) as X. discriminate X. discriminate.
      + reflexivity. }
  intros n. apply G; reflexivity.
Qed.
End LeftRec.
