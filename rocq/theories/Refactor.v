(** * Refactor: rewriting a grammar without changing what it does.

    First the specification: what counts as a rewriting step, and when two grammars are the same up to such steps.
    Then what can be observed of a parser, and the laws of observations; [PropRefactor.v] has the theorems. *)
From Verif Require Import Base Float Literal Syn Ast Derive Grammar Spec SynFacts Lawful Mono Combinators GrammarBeh Assoc ManyFacts.
Local Open Scope nat_scope.

(** ** Specification *)

(** The alternatives of a derived type: the variants of an enum; a struct is its only alternative.  Names of types,
    variants and fields do not count. *)
Definition alts (d : tdef) : list (list ty) :=
  match d with
  | DStruct c => [map snd (c_fields c)]
  | DEnum _ cs => map (fun c => map snd (c_fields c)) cs
  end.
(** types without type parameters *)
Definition simple (t : ty) : bool :=
  match t with
  | TyIdent | TyCustomIdent _ | TyKeyword _ | TyTokenKw _ | TyToken _ | TyLit _ | TyAnyLit | TyEmpty | TyEof | TyNotEof => true
  | _ => false
  end.
(** [t] in any number of [Box]es *)
Inductive boxed (t : ty) : ty -> Prop :=
| boxed_bare : boxed t t
| boxed_box u : boxed t u -> boxed t (TyBox u).

(** One rewriting step of a type ... *)
Inductive step_type (E : env) : ty -> ty -> Prop :=
| st_box t : step_type E (TyBox t) t                                         (* Box<T>  =  T *)
| st_left o r : step_type E (TyLeftAssoc o r) (TySeparated r o)              (* LeftAssoc<O, R>  =  Separated<R, O> *)
| st_right o l : step_type E (TyRightAssoc o l) (TySeparated l o)            (* RightAssoc<O, L>  =  Separated<L, O> *)
| st_chain i r o self : alts (E i) = [[r; TyMaybe o self]] -> boxed (TyRef i) self ->
    step_type E (TyRef i) (TySeparated r o)                                  (* struct S { R, Maybe<O, Box<S>> }  =  Separated<R, O> *)
| st_list i t self last : alts (E i) = [[t; self]; last] -> boxed (TyRef i) self -> last = [] \/ last = [TyEmpty] ->
    step_type E (TyRef i) (TyAny t).                                         (* enum L { Cons(T, Box<L>), Nil }  =  Any<T> *)

(** ... of a sequence of fields ... *)
Inductive step_seq (E : env) : list ty -> list ty -> Prop :=
| ss_inline pre i fs post : alts (E i) = [fs] ->
    step_seq E (pre ++ TyRef i :: post) (pre ++ fs ++ post)                  (* a field that is a struct  =  the fields of the struct *)
| ss_empty pre post : step_seq E (pre ++ TyEmpty :: post) (pre ++ post)      (* an Empty field  =  no field *)
| ss_type pre t t' post : step_type E t t' -> step_seq E (pre ++ t :: post) (pre ++ t' :: post).

(** ... and of the alternatives of a choice.  With [pre] = [] an alternative that is an enum is replaced by the variants of
    the enum; otherwise a common beginning is multiplied out (from right to left: factored out). *)
Inductive step_alts (E : env) : list (list ty) -> list (list ty) -> Prop :=
| sa_inline pre i post : alts (E i) <> [] ->
    step_alts E ((pre ++ [TyRef i]) :: post) (map (app pre) (alts (E i)) ++ post)
| sa_either pre a b post :
    step_alts E ((pre ++ [TyEither a b]) :: post) ((pre ++ [a]) :: (pre ++ [b]) :: post)
| sa_seq fs gs post : step_seq E fs gs -> step_alts E (fs :: post) (gs :: post).

(** Two types, sequences, choices of two grammars are the same up to such steps on either side, anywhere; [R] says which
    derived types of the first grammar are to correspond to which of the second. *)
Section Same.
Variables (E1 E2 : env) (R : nat -> nat -> Prop).
Inductive same_type : ty -> ty -> Prop :=
| same_simple t : simple t = true -> same_type t t
| same_ref i j : R i j -> same_type (TyRef i) (TyRef j)
| same_maybe a b a' b' : same_type a a' -> same_type b b' -> same_type (TyMaybe a b) (TyMaybe a' b')
| same_paren a a' : same_type a a' -> same_type (TyParen a) (TyParen a')
| same_bracket a a' : same_type a a' -> same_type (TyBracket a) (TyBracket a')
| same_brace a a' : same_type a a' -> same_type (TyBrace a) (TyBrace a')
| same_punctuated a b a' b' : same_type a a' -> same_type b b' -> same_type (TyPunctuated a b) (TyPunctuated a' b')
| same_separated a b a' b' : same_type a a' -> same_type b b' -> same_type (TySeparated a b) (TySeparated a' b')
| same_any a a' : same_type a a' -> same_type (TyAny a) (TyAny a')
| same_type_l t t' u : step_type E1 t t' -> same_type t' u -> same_type t u
| same_type_r t u u' : step_type E2 u u' -> same_type t u' -> same_type t u
| same_choice t u : same_alts [[t]] [[u]] -> same_type t u
with same_seq : list ty -> list ty -> Prop :=
| same_nil : same_seq [] []
| same_cons t u fs gs : same_type t u -> same_seq fs gs -> same_seq (t :: fs) (u :: gs)
| same_seq_l fs fs' gs : step_seq E1 fs fs' -> same_seq fs' gs -> same_seq fs gs
| same_seq_r fs gs gs' : step_seq E2 gs gs' -> same_seq fs gs' -> same_seq fs gs
with same_alts : list (list ty) -> list (list ty) -> Prop :=
| same_none : same_alts [] []
| same_alt fs gs cs ds : same_seq fs gs -> same_alts cs ds -> same_alts (fs :: cs) (gs :: ds)
| same_alts_l cs cs' ds : step_alts E1 cs cs' -> same_alts cs' ds -> same_alts cs ds
| same_alts_r cs ds ds' : step_alts E2 ds ds' -> same_alts cs ds' -> same_alts cs ds.
(** corresponding types have the same alternatives *)
Definition refactoring : Prop := forall i j, R i j -> same_alts (alts (E1 i)) (alts (E2 j)).
End Same.

(** ** What can be observed of a parser: the tokens its value prints and the stream it leaves; the place of its error; that it
    panics; that it needs more fuel. *)
Inductive seen := Yes (out : option (list tt)) (s : pstate) | No (place : span) | Panics | Loops.
Definition seen_as {A} (f : A -> option (list tt)) (r : outcome A * pstate) : seen :=
  match fst r with OOk v => Yes (f v) (snd r) | OErr e => No (e_span e) | OPanic => Panics | ODiverge => Loops end.
Definition action := pstate -> seen.
Definition prefix (a : option (list tt)) (r : seen) : seen := match r with Yes b s => Yes (oapp a b) s | _ => r end.
Definition o_seq (p q : action) : action := fun s => match p s with Yes a s1 => prefix a (q s1) | r => r end.
Definition o_try (p q : action) : action := fun s => match p s with Yes a s1 => prefix a (q s1) | No _ => Yes (Some []) s | r => r end.
Definition later (a b : span) : span := if lc_ltb (sp_end b) (sp_end a) then a else b.
Definition o_or (p q : action) : action := fun s => match p s with No a => match q s with No b => No (later a b) | r => r end | r => r end.
Definition o_ret : action := fun s => Yes (Some []) s.
Definition o_none : action := fun s => No (e_span (error_at s [])).
Fixpoint o_all (ps : list action) : action := match ps with [] => o_ret | p :: r => o_seq p (o_all r) end.
Fixpoint o_one_of (ps : list action) : action := match ps with [] => o_none | [p] => p | p :: r => o_or p (o_one_of r) end.
Definition o_bottom : action := fun _ => Loops.
Fixpoint o_rep (n : nat) (p : action) : action := match n with O => o_bottom | S f => o_try p (o_rep f p) end.
Fixpoint o_tail (n : nat) (p q : action) : action := match n with O => o_bottom | S f => o_try q (o_seq p (o_tail f p q)) end.
Definition o_if_empty (p q : action) : action := fun s => if is_empty s then p s else q s.
Fixpoint o_term (n : nat) (p q : action) : action :=
  match n with O => o_bottom | S f => o_if_empty o_ret (o_seq p (o_if_empty o_ret (o_seq q (o_term f p q)))) end.
Definition o_group (d : delim) (p : action) : action := fun s =>
  match ignore_none (ps_rest s) with
  | TGroup d' sp inner :: r =>
      if delim_eqb d d' then
        match p (PS inner (close_span sp) (ps_unexp s)) with
        | Yes a si => Yes (option_map (fun ts => [TGroup d sp ts]) a) (PS r (ps_scope s) (drop_unexp (ps_unexp si) (ps_rest si)))
        | x => x
        end
      else No (e_span (error_at s []))
  | _ => No (e_span (error_at s []))
  end.

(** *** order by fuel *)
Definition ole (p q : action) : Prop := forall s, p s = Loops \/ p s = q s.
Lemma ole_refl p : ole p p. Proof. intro s. right. reflexivity. Qed.
Lemma ole_trans p q r : ole p q -> ole q r -> ole p r.
Proof. intros H1 H2 s. destruct (H1 s) as [H|H]; [left; exact H|]. destruct (H2 s) as [H'|H']; rewrite H; auto. Qed.
Lemma ole_bottom q : ole o_bottom q. Proof. intro s. left. reflexivity. Qed.
Lemma prefix_loops a r : prefix a r = Loops <-> r = Loops.
Proof. destruct r; cbn; split; congruence. Qed.
Lemma ole_seq p q p' q' : ole p p' -> ole q q' -> ole (o_seq p q) (o_seq p' q').
Proof.
  intros H1 H2 s. unfold o_seq. destruct (H1 s) as [H|H]; rewrite H; [left; reflexivity|]. destruct (p' s) as [a s1|l| |]; auto.
  destruct (H2 s1) as [H'|H']; rewrite H'; auto.
Qed.
Lemma ole_try p q p' q' : ole p p' -> ole q q' -> ole (o_try p q) (o_try p' q').
Proof.
  intros H1 H2 s. unfold o_try. destruct (H1 s) as [H|H]; rewrite H; [left; reflexivity|]. destruct (p' s) as [a s1|l| |]; auto.
  destruct (H2 s1) as [H'|H']; rewrite H'; auto.
Qed.
Lemma ole_or p q p' q' : ole p p' -> ole q q' -> ole (o_or p q) (o_or p' q').
Proof.
  intros H1 H2 s. unfold o_or. destruct (H1 s) as [H|H]; rewrite H; [left; reflexivity|]. destruct (p' s) as [a s1|l| |]; auto.
  destruct (H2 s) as [H'|H']; rewrite H'; auto.
Qed.
Lemma ole_if_empty p q p' q' : ole p p' -> ole q q' -> ole (o_if_empty p q) (o_if_empty p' q').
Proof. intros H1 H2 s. unfold o_if_empty. destruct (is_empty s); auto. Qed.
Lemma ole_rep n m p p' : n <= m -> ole p p' -> ole (o_rep n p) (o_rep m p').
Proof. intros L H. revert m L. induction n as [|n IH]; intros m L; [apply ole_bottom|]. destruct m as [|m]; [lia|]. cbn [o_rep]. apply ole_try; [exact H|]. apply IH. lia. Qed.
Lemma ole_tail n m p q p' q' : n <= m -> ole p p' -> ole q q' -> ole (o_tail n p q) (o_tail m p' q').
Proof.
  intros L H H2. revert m L. induction n as [|n IH]; intros m L; [apply ole_bottom|]. destruct m as [|m]; [lia|]. cbn [o_tail].
  apply ole_try; [exact H2|]. apply ole_seq; [exact H|]. apply IH. lia.
Qed.
Lemma ole_term n m p q p' q' : n <= m -> ole p p' -> ole q q' -> ole (o_term n p q) (o_term m p' q').
Proof.
  intros L H H2. revert m L. induction n as [|n IH]; intros m L; [apply ole_bottom|]. destruct m as [|m]; [lia|]. cbn [o_term].
  apply ole_if_empty; [apply ole_refl|]. apply ole_seq; [exact H|]. apply ole_if_empty; [apply ole_refl|]. apply ole_seq; [exact H2|]. apply IH. lia.
Qed.
Lemma ole_group d p p' : ole p p' -> ole (o_group d p) (o_group d p').
Proof.
  intros H s. unfold o_group. destruct (ignore_none (ps_rest s)) as [|[| | |d' sp inner] r]; auto. destruct (delim_eqb d d'); auto.
  destruct (H (PS inner (close_span sp) (ps_unexp s))) as [E|E]; rewrite E; auto.
Qed.
Lemma ole_all ps qs : Forall2 ole ps qs -> ole (o_all ps) (o_all qs).
Proof. induction 1 as [|p q ps qs H _ IH]; cbn [o_all]; [apply ole_refl|]. apply ole_seq; assumption. Qed.
Lemma ole_one_of ps qs : Forall2 ole ps qs -> ole (o_one_of ps) (o_one_of qs).
Proof.
  induction 1 as [|p q ps qs H Hr IH]; cbn [o_one_of]; [apply ole_refl|]. destruct Hr as [|p2 q2 ps qs H2 Hr]; [exact H|]. apply ole_or; assumption.
Qed.

(** *** laws *)
Lemma prefix_nil r : prefix (Some []) r = r.
Proof. destruct r as [[o|] s| | |]; reflexivity. Qed.
Lemma prefix_prefix a b r : prefix a (prefix b r) = prefix (oapp a b) r.
Proof. destruct r; cbn; try reflexivity. rewrite oapp_assoc. reflexivity. Qed.
Lemma o_seq_assoc p q r s : o_seq (o_seq p q) r s = o_seq p (o_seq q r) s.
Proof.
  unfold o_seq. destruct (p s) as [a s1| | |]; try reflexivity. destruct (q s1) as [b s2| | |]; try reflexivity. cbn [prefix]. rewrite prefix_prefix. reflexivity.
Qed.
Lemma o_seq_ret_l q s : o_seq o_ret q s = q s.
Proof. unfold o_seq, o_ret. apply prefix_nil. Qed.
Lemma o_seq_ret_r p s : o_seq p o_ret s = p s.
Proof. unfold o_seq, o_ret. destruct (p s) as [a s1| | |]; cbn; try reflexivity. rewrite oapp_nil_r. reflexivity. Qed.
Lemma o_all_app ps qs s : o_all (ps ++ qs) s = o_seq (o_all ps) (o_all qs) s.
Proof.
  revert s. induction ps as [|p ps IH]; intro s; cbn [app o_all]; [rewrite o_seq_ret_l; reflexivity|]. rewrite o_seq_assoc.
  unfold o_seq at 1 2. destruct (p s) as [a s1| | |]; try reflexivity. rewrite IH. reflexivity.
Qed.
Lemma lc_total a b : lc_ltb a b = true \/ lc_ltb b a = true \/ a = b.
Proof.
  unfold lc_ltb, lc_leb. rewrite !negb_true_iff, !orb_false_iff, !andb_false_iff, !Nat.ltb_ge, !Nat.eqb_neq, !Nat.leb_gt.
  destruct a as [l c], b as [l' c']; cbn. destruct (Nat.lt_trichotomy l l') as [H|[H|H]]; [left; lia| |right; left; lia].
  destruct (Nat.lt_trichotomy c c') as [H'|[H'|H']]; [left; lia|right; right; congruence|right; left; lia].
Qed.
Lemma ltb_iff a b : lc_ltb a b = true <-> lc_line a < lc_line b \/ (lc_line a = lc_line b /\ lc_col a < lc_col b).
Proof. apply lc_ltb_spec. Qed.
Lemma later_self a : later a a = a.
Proof. unfold later. destruct (lc_ltb _ _); reflexivity. Qed.
Lemma later_assoc a b c : later (later a b) c = later a (later b c).
Proof.
  unfold later. destruct (lc_ltb (sp_end b) (sp_end a)) eqn:H1, (lc_ltb (sp_end c) (sp_end b)) eqn:H2; rewrite ?H1, ?H2; try reflexivity;
    destruct (lc_ltb (sp_end c) (sp_end a)) eqn:H3; try reflexivity; exfalso;
    repeat match goal with H : lc_ltb ?x ?y = true |- _ => apply ltb_iff in H | H : lc_ltb ?x ?y = false |- _ => rewrite <- not_true_iff_false, ltb_iff in H end; lia.
Qed.
Lemma o_or_assoc p q r s : o_or (o_or p q) r s = o_or p (o_or q r) s.
Proof. unfold o_or. destruct (p s); try reflexivity. destruct (q s); try reflexivity. destruct (r s); try reflexivity. rewrite later_assoc. reflexivity. Qed.
Lemma o_seq_or p q r s : o_seq p (o_or q r) s = o_or (o_seq p q) (o_seq p r) s.
Proof.
  unfold o_or, o_seq. destruct (p s) as [a s1|l| |]; try reflexivity; [|rewrite later_self; reflexivity].
  destruct (q s1); try reflexivity. cbn [prefix]. destruct (r s1); reflexivity.
Qed.
Lemma o_one_of_cons p ps s : ps <> [] -> o_one_of (p :: ps) s = o_or p (o_one_of ps) s.
Proof. destruct ps; [congruence|reflexivity]. Qed.
Lemma o_or_ext p q p' q' s : p s = p' s -> q s = q' s -> o_or p q s = o_or p' q' s.
Proof. intros H1 H2. unfold o_or. rewrite H1, H2. reflexivity. Qed.
Lemma o_one_of_app ps qs s : ps <> [] -> qs <> [] -> o_one_of (ps ++ qs) s = o_or (o_one_of ps) (o_one_of qs) s.
Proof.
  intros Hp Hq. induction ps as [|p ps IH]; [congruence|]. cbn [app]. destruct ps as [|p2 ps].
  - cbn [app]. rewrite o_one_of_cons by exact Hq. reflexivity.
  - rewrite o_one_of_cons by (cbn [app]; congruence). rewrite (o_or_ext _ _ p (o_or (o_one_of (p2 :: ps)) (o_one_of qs)) s eq_refl) by (apply IH; congruence).
    rewrite <- o_or_assoc. apply o_or_ext; [|reflexivity]. rewrite o_one_of_cons by congruence. reflexivity.
Qed.
Lemma o_seq_one_of p qs s : qs <> [] -> o_seq p (o_one_of qs) s = o_one_of (map (o_seq p) qs) s.
Proof.
  induction qs as [|q qs IH]; intro H; [congruence|]. destruct qs as [|q2 qs]; [reflexivity|].
  cbn [map]. rewrite (o_one_of_cons (o_seq p q)) by discriminate. transitivity (o_seq p (o_or q (o_one_of (q2 :: qs))) s); [reflexivity|].
  rewrite o_seq_or. apply o_or_ext; [reflexivity|]. apply IH. discriminate.
Qed.

(** *** the parsers, observed *)
Lemma seen_pmap {A B} (f : A -> B) g (p : parser A) s : seen_as g (pmap f p s) = seen_as (fun x => g (f x)) (p s).
Proof. unfold pmap, bind, ret. destruct (p s) as [[v|e| |] s1]; reflexivity. Qed.
Lemma seen_map_err {A} f (g : A -> option (list tt)) (p : parser A) s : (forall e, e_span (f e) = e_span e) -> seen_as g (map_err f p s) = seen_as g (p s).
Proof. intro H. unfold map_err. destruct (p s) as [[v|e| |] s1]; try reflexivity. cbn. rewrite H. reflexivity. Qed.
Lemma seen_ext {A} (f g : A -> option (list tt)) r : (forall v, f v = g v) -> seen_as f r = seen_as g r.
Proof. intro H. destruct r as [[v|e| |] s]; cbn; try reflexivity. rewrite H. reflexivity. Qed.
Lemma chain_span en ct l e : e_span (chain_error en ct l e) = e_span e.
Proof. reflexivity. Qed.

Section Ops.
Context {U : unicode}.
Definition prints (vs : list val) : option (list tt) := oconcat (map print vs).
Definition print_pairs (l : list (val * val)) : option (list tt) := oconcat (map (fun '(x, y) => oapp (print x) (print y)) l).

Lemma seen_fields en ct (fs : list (label * parser val)) : forall s,
  seen_as prints (p_fields en ct fs s) = o_all (map (fun f s => seen_as print (snd f s)) fs) s.
Proof.
  induction fs as [|[l p] fs IH]; intro s; cbn [p_fields map o_all snd]; [reflexivity|].
  unfold bind, o_seq. rewrite <- (seen_map_err (chain_error en ct l)) by (intro; reflexivity). destruct (map_err (chain_error en ct l) p s) as [[v|e| |] s1]; try reflexivity.
  cbn [seen_as fst snd]. rewrite <- IH. destruct (p_fields en ct fs s1) as [[vs|e| |] s2]; reflexivity.
Qed.
Definition variant_op (v : text * list (label * parser val)) : action := o_all (map (fun f s => seen_as print (snd f s)) (snd v)).
Lemma seen_variants en (vs : list (text * list (label * parser val))) : Forall (fun v => lawful (p_fields en (fst v) (snd v))) vs -> forall k acc s, vs <> [] ->
  seen_as (fun kv => prints (snd kv)) (p_variants en k acc vs s) =
  match o_one_of (map variant_op vs) s with
  | No b => No (match acc with Some a => later (e_span a) b | None => b end)
  | r => r
  end.
Proof.
  induction 1 as [|[ct fs] vs H _ IH]; intros k acc s Hn; [congruence|]. cbn [fst snd] in H.
  rewrite p_variants_speculate, speculate_spec by exact H. cbn [map].
  pose proof (seen_fields en ct fs s) as Hf. change (seen_as prints (p_fields en ct fs s) = variant_op (ct, fs) s) in Hf. destruct vs as [|v2 vs].
  - cbn [map o_one_of]. rewrite <- Hf. destruct (p_fields en ct fs s) as [[vs|e| |] s1]; cbn; try reflexivity. f_equal. destruct acc as [a|]; [|reflexivity]. unfold max_error, later. destruct (lc_ltb _ _); reflexivity.
  - rewrite o_one_of_cons by discriminate. unfold o_or. rewrite <- Hf. destruct (p_fields en ct fs s) as [[vs'|e| |] s1]; try reflexivity. cbn [seen_as fst]. rewrite IH by discriminate.
    change (variant_op v2 :: map variant_op vs) with (map variant_op (v2 :: vs)). destruct (o_one_of (map variant_op (v2 :: vs)) s) as [|b| |]; try reflexivity. f_equal. destruct acc as [a|]; [|reflexivity]. cbn iota. rewrite <- later_assoc. f_equal. unfold max_error, later. destruct (lc_ltb _ _); reflexivity.
Qed.
Lemma seen_maybe {P A} f g (pp : parser P) (pa : parser A) s : lawful pp ->
  seen_as (fun o => match o with Some (x, y) => oapp (f x) (g y) | None => Some [] end) (p_maybe pp pa s) = o_try (fun s => seen_as f (pp s)) (fun s => seen_as g (pa s)) s.
Proof.
  intro H. rewrite p_maybe_speculate, speculate_spec by exact H. unfold o_try. destruct (pp s) as [[x|e| |] s1]; try reflexivity.
  cbn [seen_as fst snd]. unfold bind. destruct (pa s1) as [[y|e| |] s2]; reflexivity.
Qed.
Lemma error_at_place s m : e_span (error_at s m) = e_span (error_at s []).
Proof. unfold error_at. destruct (ps_rest s); reflexivity. Qed.
Lemma seen_group {A} f d (p : parser A) s :
  seen_as (fun x => option_map (fun ts => [TGroup d (fst x) ts]) (f (snd x))) (p_group d p s) = o_group d (fun s => seen_as f (p s)) s.
Proof.
  unfold p_group, o_group. destruct (ignore_none (ps_rest s)) as [|[w sp|c k sp|l sp|d' sp inner] r];
    try (cbn [seen_as fst snd]; rewrite error_at_place; reflexivity).
  destruct (delim_eqb d d'); [|cbn [seen_as fst snd]; rewrite error_at_place; reflexivity]. destruct (p _) as [[v|e| |] si]; reflexivity.
Qed.
Lemma seen_terminated (pa pp : parser val) n : forall acc s,
  seen_as (fun x => print (VPunct (pn_inner x) (pn_last x))) (terminated_loop n pa pp acc s) =
  prefix (print_pairs (rev acc)) (o_term n (fun s => seen_as print (pa s)) (fun s => seen_as print (pp s)) s).
Proof.
  induction n as [|n IH]; intros acc s; [reflexivity|]. cbn [terminated_loop o_term]. unfold o_if_empty at 1. destruct (is_empty s).
  { cbn [seen_as fst snd prefix o_ret pn_inner pn_last print]. reflexivity. }
  unfold bind at 1, o_seq at 1. destruct (pa s) as [[v|e| |] s1]; try reflexivity. cbn [seen_as fst snd]. unfold o_if_empty. destruct (is_empty s1).
  { cbn [seen_as fst snd prefix o_ret pn_inner pn_last print]. rewrite oapp_nil_r. reflexivity. }
  unfold bind, o_seq. destruct (pp s1) as [[w|e| |] s2]; try reflexivity. rewrite IH. cbn [seen_as fst snd]. rewrite !prefix_prefix. f_equal.
  unfold print_pairs. cbn [rev]. rewrite map_app, oconcat_app. cbn [map oconcat fold_right]. rewrite oapp_nil_r, oapp_assoc. reflexivity.
Qed.
Lemma seen_separated_loop (pa pp : parser val) (Hp : lawful pp) n : forall acc cur s,
  seen_as (fun x => print (VPunct (pn_inner x) (pn_last x))) (separated_loop n pa pp acc cur s) =
  prefix (oapp (print_pairs (rev acc)) (print cur)) (o_tail n (fun s => seen_as print (pa s)) (fun s => seen_as print (pp s)) s).
Proof.
  induction n as [|n IH]; intros acc cur s; [reflexivity|]. rewrite separated_loop_speculate, speculate_spec by exact Hp. cbn [o_tail]. unfold o_try.
  destruct (pp s) as [[w|e| |] s1]; try reflexivity.
  - cbn [seen_as fst snd]. unfold bind, o_seq. destruct (pa s1) as [[v|e| |] s2]; try reflexivity. rewrite IH. cbn [seen_as fst snd]. rewrite !prefix_prefix. f_equal.
    unfold print_pairs. cbn [rev]. rewrite map_app, oconcat_app. cbn [map oconcat fold_right]. rewrite oapp_nil_r, !oapp_assoc. reflexivity.
  - cbn [seen_as fst snd ret prefix pn_inner pn_last print]. rewrite oapp_nil_r. reflexivity.
Qed.
Lemma seen_separated (pa pp : parser val) (Hp : lawful pp) n s :
  seen_as (fun x => print (VPunct (pn_inner x) (pn_last x))) (p_separated n pa pp s) =
  o_seq (fun s => seen_as print (pa s)) (o_tail n (fun s => seen_as print (pa s)) (fun s => seen_as print (pp s))) s.
Proof.
  unfold p_separated, bind, o_seq. destruct (pa s) as [[v|e| |] s1]; try reflexivity. rewrite seen_separated_loop by exact Hp. cbn [seen_as fst snd rev]. f_equal. change (print_pairs []) with (Some (@nil tt)). destruct (print v); reflexivity.
Qed.
Lemma seen_any (pa : parser val) (Hp : lawful pa) n : forall acc s,
  seen_as prints (any_loop n pa acc s) = prefix (prints (rev acc)) (o_rep n (fun s => seen_as print (pa s)) s).
Proof.
  induction n as [|n IH]; intros acc s; [reflexivity|]. rewrite any_loop_speculate, speculate_spec by exact Hp. cbn [o_rep]. unfold o_try.
  destruct (pa s) as [[w|e| |] s1]; try reflexivity.
  - cbn [seen_as fst snd]. rewrite IH, prefix_prefix. f_equal. unfold prints. cbn [rev]. rewrite map_app, oconcat_app. cbn [map oconcat fold_right]. rewrite oapp_nil_r. reflexivity.
  - cbn [seen_as fst snd ret prefix]. rewrite oapp_nil_r. reflexivity.
Qed.
Lemma seen_left (po pr : parser val) (Hp : lawful po) n s :
  seen_as (fun x => print (val_of_left x)) (p_left_assoc n po pr s) = seen_as (fun x => print (VPunct (pn_inner x) (pn_last x))) (p_separated n pr po s).
Proof.
  unfold p_left_assoc, bind. destruct (p_separated n pr po s) as [[x|e| |] s1] eqn:H; try reflexivity.
  apply bind_ok in H as (v & s2 & Hv & Hl). apply separated_loop_ok in Hl as (l & _ & ->); [|exact Hp]. cbn [rev app]. rewrite into_first_rest_spec.
  cbn [seen_as fst snd pn_inner pn_last]. f_equal. rewrite (print_left_form v l) by apply build_left_form. rewrite print_separated. reflexivity.
Qed.
Lemma seen_right (po pr : parser val) (Hp : lawful po) n s :
  seen_as (fun x => print (val_of_right x)) (p_right_assoc n po pr s) = seen_as (fun x => print (VPunct (pn_inner x) (pn_last x))) (p_separated n pr po s).
Proof.
  unfold p_right_assoc, bind. destruct (p_separated n pr po s) as [[x|e| |] s1] eqn:H; try reflexivity.
  apply bind_ok in H as (v & s2 & Hv & Hl). apply separated_loop_ok in Hl as (l & _ & ->); [|exact Hp]. cbn [rev app]. rewrite into_last_rest_spec.
  cbn [seen_as fst snd pn_inner pn_last]. f_equal. rewrite (print_right_form v l) by apply build_right_form. rewrite print_separated. reflexivity.
Qed.
Lemma seen_either (pa pb : parser val) s : lawful pa -> lawful pb ->
  seen_as (fun x => print (match x with ELeft v => VLeft v | ERight v => VRight v end)) (p_either pa pb s) = o_or (fun s => seen_as print (pa s)) (fun s => seen_as print (pb s)) s.
Proof.
  intros Ha Hb. rewrite p_either_speculate, speculate_spec by exact Ha. unfold o_or. destruct (pa s) as [[v|e| |] s1]; try reflexivity. cbn [seen_as fst].
  rewrite speculate_spec by exact Hb. destruct (pb s) as [[w|e2| |] s2]; try reflexivity. cbn. f_equal. unfold max_error, later. destruct (lc_ltb _ _); reflexivity.
Qed.

Definition P (E : env) (n : nat) (t : ty) : action := fun s => seen_as print (pty E n t s).
Definition Ps (E : env) (n : nat) (fs : list ty) : action := o_all (map (P E n) fs).
Definition Pc (E : env) (n : nat) (cs : list (list ty)) : action := o_one_of (map (Ps E n) cs).

Lemma P_O E t s : P E 0 t s = Loops. Proof. reflexivity. Qed.
Lemma ole_P E n m t : n <= m -> ole (P E n t) (P E m t).
Proof. intros L s. unfold P. destruct (le_pty E n m t L s) as [H|H]; [left|right; rewrite H; reflexivity]. unfold seen_as. rewrite H. reflexivity. Qed.
Lemma ole_Ps E n m fs : n <= m -> ole (Ps E n fs) (Ps E m fs).
Proof. intro L. apply ole_all. induction fs; cbn [map]; constructor; auto. apply ole_P. exact L. Qed.
Lemma ole_Pc E n m cs : n <= m -> ole (Pc E n cs) (Pc E m cs).
Proof. intro L. apply ole_one_of. induction cs; cbn [map]; constructor; auto. apply ole_Ps. exact L. Qed.

Lemma P_box E n t s : P E (S n) (TyBox t) s = P E n t s. Proof. reflexivity. Qed.
Lemma P_maybe E n a b s : P E (S n) (TyMaybe a b) s = o_try (P E n a) (P E n b) s.
Proof.
  unfold P at 1. cbn [pty p_layer]. rewrite seen_pmap. unfold P. rewrite <- (seen_maybe print print (pty E n a) (pty E n b)) by apply lawful_pty. apply seen_ext. intros [[x y]|]; reflexivity.
Qed.
Lemma P_paren E n a s : P E (S n) (TyParen a) s = o_group DParen (P E n a) s.
Proof. unfold P at 1. cbn [pty p_layer]. rewrite seen_pmap. unfold p_paren, P. rewrite <- (seen_group print). reflexivity. Qed.
Lemma P_bracket E n a s : P E (S n) (TyBracket a) s = o_group DBracket (P E n a) s.
Proof. unfold P at 1. cbn [pty p_layer]. rewrite seen_pmap. unfold p_bracket, P. rewrite <- (seen_group print). reflexivity. Qed.
Lemma P_brace E n a s : P E (S n) (TyBrace a) s = o_group DBrace (P E n a) s.
Proof. unfold P at 1. cbn [pty p_layer]. rewrite seen_pmap. unfold p_brace, P. rewrite <- (seen_group print). reflexivity. Qed.
Lemma P_punctuated E n a b s : P E (S n) (TyPunctuated a b) s = o_term n (P E n a) (P E n b) s.
Proof. unfold P at 1. cbn [pty p_layer]. rewrite seen_pmap. unfold p_punctuated, p_terminated. rewrite seen_terminated. apply prefix_nil. Qed.
Lemma P_separated E n a b s : P E (S n) (TySeparated a b) s = o_seq (P E n a) (o_tail n (P E n a) (P E n b)) s.
Proof. unfold P at 1. cbn [pty p_layer]. rewrite seen_pmap. rewrite seen_separated by apply lawful_pty. reflexivity. Qed.
Lemma P_any E n a s : P E (S n) (TyAny a) s = o_rep n (P E n a) s.
Proof. unfold P at 1. cbn [pty p_layer]. rewrite seen_pmap. unfold p_any. rewrite seen_any by apply lawful_pty. apply prefix_nil. Qed.
Lemma P_left E n o r s : P E n (TyLeftAssoc o r) s = P E n (TySeparated r o) s.
Proof. destruct n as [|n]; [reflexivity|]. unfold P. cbn [pty p_layer]. rewrite !seen_pmap. apply seen_left, lawful_pty. Qed.
Lemma P_right E n o r s : P E n (TyRightAssoc o r) s = P E n (TySeparated r o) s.
Proof. destruct n as [|n]; [reflexivity|]. unfold P. cbn [pty p_layer]. rewrite !seen_pmap. apply seen_right, lawful_pty. Qed.
Lemma P_either E n a b s : P E (S n) (TyEither a b) s = o_or (P E n a) (P E n b) s.
Proof. unfold P at 1. cbn [pty p_layer]. rewrite seen_pmap. unfold P. rewrite <- seen_either by apply lawful_pty. apply seen_ext. intros [v|v]; reflexivity. Qed.
Lemma map_fields E n (fs : list (label * ty)) :
  map (fun f s => seen_as print (snd f s)) (map (fun '(l, t) => (l, pty E n t)) fs) = map (P E n) (map snd fs).
Proof. induction fs as [|[l t] fs IH]; cbn [map snd]; [reflexivity|]. rewrite IH. reflexivity. Qed.
Lemma P_ref E n i s : P E (S n) (TyRef i) s = Pc E n (alts (E i)) s.
Proof.
  unfold P at 1. cbn [pty p_layer]. unfold p_def. destruct (E i) as [c|en cs]; cbn [alts]; rewrite seen_pmap.
  - unfold Pc, Ps. cbn [map o_one_of]. unfold p_struct. rewrite <- (map_fields E n), <- (seen_fields [] (c_name c)). apply seen_ext. intro vs. reflexivity.
  - destruct cs as [|c cs]; [unfold p_enum, p_variants, seen_as; cbn [map fst]; rewrite error_at_place; reflexivity|]. unfold p_enum.
    transitivity (seen_as (fun kv => prints (snd kv)) (p_variants en 0 None (map (fun c => (c_name c, map (fun '(l, t) => (l, pty E n t)) (c_fields c))) (c :: cs)) s)); [apply seen_ext; intros [k vs]; reflexivity|].
    rewrite seen_variants.
    + unfold Pc, Ps. rewrite (map_map (fun c0 => map snd (c_fields c0))). assert (X : map variant_op (map (fun c => (c_name c, map (fun '(l, t) => (l, pty E n t)) (c_fields c))) (c :: cs))
        = map (fun x => o_all (map (P E n) (map snd (c_fields x)))) (c :: cs)).
      { rewrite map_map. apply map_ext. intro x. unfold variant_op. cbn [snd]. rewrite map_fields. reflexivity. }
      rewrite X. destruct (o_one_of _ s); reflexivity.
    + apply Forall_forall. intros v Hv. apply in_map_iff in Hv as (x & <- & _). cbn [fst snd]. apply lawful_fields. apply Forall_forall. intros f Hf. apply in_map_iff in Hf as ([l t] & <- & _). apply lawful_pty.
    + discriminate.
Qed.
Lemma P_simple E1 E2 n t s : simple t = true -> P E1 n t s = P E2 n t s.
Proof. intro H. destruct n as [|n]; [reflexivity|]. unfold P. cbn [pty]. destruct t; try discriminate H; reflexivity. Qed.

(** *** the steps, forth without more fuel and back with some *)
Lemma ole_eq p q : (forall s, p s = q s) -> ole p q. Proof. intros H s. right. apply H. Qed.
Lemma boxed_fwd E t u n : boxed t u -> ole (P E n u) (P E n t).
Proof.
  intro H. revert n. induction H as [|u H IH]; intro n; [apply ole_refl|]. destruct n as [|n]; [intro s; left; reflexivity|].
  eapply ole_trans; [apply ole_eq; intro s; apply P_box|]. eapply ole_trans; [apply IH|]. apply ole_P. lia.
Qed.
Lemma boxed_bwd E t u n : boxed t u -> exists m, ole (P E n t) (P E m u).
Proof.
  induction 1 as [|u H (m & IH)]; [exists n; apply ole_refl|]. exists (S m). eapply ole_trans; [exact IH|]. apply ole_eq. intro s. symmetry. apply P_box.
Qed.
Definition sure (q : action) : Prop := forall s l, q s <> No l.
Lemma sure_rep n p : sure (o_rep n p).
Proof.
  induction n as [|n IH]; intros s l; cbn [o_rep]; [discriminate|]. unfold o_try. destruct (p s) as [a s1| | |]; try discriminate.
  specialize (IH s1). destruct (o_rep n p s1) as [b s2|l'| |]; cbn [prefix]; try discriminate. intros _. exact (IH l' eq_refl).
Qed.
Lemma try_or p q s : sure q -> o_or (o_seq p q) o_ret s = o_try p q s.
Proof.
  intro H. unfold o_or, o_seq, o_try. destruct (p s) as [a s1| | |]; try reflexivity. specialize (H s1). destruct (q s1) as [b s2|l| |]; try reflexivity. exfalso. exact (H l eq_refl).
Qed.
Lemma P_bottom E t q : ole (P E 0 t) q. Proof. intro s. left. reflexivity. Qed.
Lemma Ps_one E n t s : Ps E n [t] s = P E n t s. Proof. unfold Ps. cbn [map o_all]. apply o_seq_ret_r. Qed.
Lemma Ps_app E n fs gs s : Ps E n (fs ++ gs) s = o_seq (Ps E n fs) (Ps E n gs) s.
Proof. unfold Ps. rewrite map_app. apply o_all_app. Qed.
Lemma Ps_two E n t u s : Ps E n [t; u] s = o_seq (P E n t) (P E n u) s.
Proof. change [t; u] with ([t] ++ [u]). rewrite Ps_app. unfold o_seq. rewrite Ps_one. destruct (P E n t s); try reflexivity. rewrite Ps_one. reflexivity. Qed.

Lemma chain_fwd E i r o self : alts (E i) = [[r; TyMaybe o self]] -> boxed (TyRef i) self -> forall n, ole (P E n (TyRef i)) (P E n (TySeparated r o)).
Proof.
  intros Ha Hb n. induction n as [n IH] using lt_wf_ind. destruct n as [|n]; [apply P_bottom|].
  eapply ole_trans; [apply ole_eq; intro s; rewrite P_ref, Ha; unfold Pc; cbn [map o_one_of]; apply Ps_two|].
  eapply ole_trans; [|apply ole_eq; intro s; symmetry; apply P_separated]. apply ole_seq; [apply ole_refl|].
  destruct n as [|n]; [apply P_bottom|]. eapply ole_trans; [apply ole_eq; intro s; apply P_maybe|]. cbn [o_tail]. apply ole_try; [apply ole_P; lia|].
  eapply ole_trans; [apply boxed_fwd; exact Hb|]. eapply ole_trans; [apply IH; lia|]. destruct n as [|n]; [apply P_bottom|].
  eapply ole_trans; [apply ole_eq; intro s; apply P_separated|]. apply ole_seq; [apply ole_P; lia|]. apply ole_tail; [lia|apply ole_P; lia|apply ole_P; lia].
Qed.
Lemma chain_bwd E i r o self : alts (E i) = [[r; TyMaybe o self]] -> boxed (TyRef i) self -> forall n, exists m, ole (P E n (TySeparated r o)) (P E m (TyRef i)).
Proof.
  intros Ha Hb n. destruct n as [|n]; [exists 0; apply P_bottom|].
  assert (G : forall j, exists m, ole (o_seq (P E n r) (o_tail j (P E n r) (P E n o))) (P E m (TyRef i))).
  { induction j as [|j (m1 & IH)].
    - exists (S n). eapply ole_trans; [|apply ole_eq; intro s; symmetry; rewrite P_ref, Ha; unfold Pc; cbn [map o_one_of]; apply Ps_two].
      apply ole_seq; [apply ole_refl|apply ole_bottom].
    - destruct (boxed_bwd E (TyRef i) self m1 Hb) as (m2 & Hm2). exists (S (S (n + m2))).
      eapply ole_trans; [|apply ole_eq; intro s; symmetry; rewrite P_ref, Ha; unfold Pc; cbn [map o_one_of]; apply Ps_two].
      apply ole_seq; [apply ole_P; lia|]. eapply ole_trans; [|apply ole_eq; intro s; symmetry; apply P_maybe]. cbn [o_tail].
      apply ole_try; [apply ole_P; lia|]. eapply ole_trans; [exact IH|]. eapply ole_trans; [exact Hm2|]. apply ole_P. lia. }
  destruct (G n) as (m & Hm). exists m. eapply ole_trans; [|exact Hm]. apply ole_eq. intro s. apply P_separated.
Qed.
Lemma last_fwd E n last : last = [] \/ last = [TyEmpty] -> ole (Ps E n last) o_ret.
Proof. intros [->| ->]; [apply ole_refl|]. destruct n as [|n]; intro s; [left; reflexivity|right; reflexivity]. Qed.
Lemma last_bwd E n last : last = [] \/ last = [TyEmpty] -> ole o_ret (Ps E (S n) last).
Proof. intros [->| ->]; [apply ole_refl|]. intro s. right. reflexivity. Qed.
Lemma list_fwd E i t self last : alts (E i) = [[t; self]; last] -> boxed (TyRef i) self -> last = [] \/ last = [TyEmpty] ->
  forall n, ole (P E n (TyRef i)) (P E n (TyAny t)).
Proof.
  intros Ha Hb Hl n. induction n as [n IH] using lt_wf_ind. destruct n as [|n]; [apply P_bottom|].
  eapply ole_trans; [apply ole_eq; intro s; rewrite P_ref, Ha; reflexivity|]. eapply ole_trans; [|apply ole_eq; intro s; symmetry; apply P_any].
  unfold Pc. cbn [map o_one_of].
  eapply ole_trans; [apply ole_or; [eapply ole_trans; [apply ole_eq; intro s; apply Ps_two|]|apply last_fwd; exact Hl]|].
  { apply ole_seq; [apply ole_refl|]. eapply ole_trans; [apply boxed_fwd; exact Hb|]. apply IH. lia. }
  destruct n as [|n]; [intro s; left; reflexivity|].
  eapply ole_trans; [apply ole_or; [apply ole_seq; [apply ole_refl|apply ole_eq; intro s; apply P_any]|apply ole_refl]|].
  eapply ole_trans; [apply ole_eq; intro s; apply try_or, sure_rep|]. cbn [o_rep]. apply ole_try; [apply ole_refl|]. apply ole_rep; [lia|apply ole_P; lia].
Qed.
Lemma list_bwd E i t self last : alts (E i) = [[t; self]; last] -> boxed (TyRef i) self -> last = [] \/ last = [TyEmpty] ->
  forall n, exists m, ole (P E n (TyAny t)) (P E m (TyRef i)).
Proof.
  intros Ha Hb Hl n. destruct n as [|n]; [exists 0; apply P_bottom|].
  assert (G : forall j, exists m, ole (o_rep j (P E n t)) (P E m (TyRef i))).
  { induction j as [|j (m1 & IH)]; [exists 0; apply ole_bottom|]. destruct (boxed_bwd E (TyRef i) self m1 Hb) as (m2 & Hm2). exists (S (S (n + m2))).
    eapply ole_trans; [|apply ole_eq; intro s; symmetry; rewrite P_ref, Ha; reflexivity]. cbn [o_rep].
    eapply ole_trans; [apply ole_eq; intro s; symmetry; apply try_or, sure_rep|]. unfold Pc. cbn [map o_one_of]. apply ole_or; [|apply last_bwd; exact Hl].
    eapply ole_trans; [|apply ole_eq; intro s; symmetry; apply Ps_two]. apply ole_seq; [apply ole_P; lia|].
    eapply ole_trans; [exact IH|]. eapply ole_trans; [exact Hm2|]. apply ole_P. lia. }
  destruct (G n) as (m & Hm). exists m. eapply ole_trans; [|exact Hm]. apply ole_eq. intro s. apply P_any.
Qed.
Lemma step_type_fwd E t t' n : step_type E t t' -> ole (P E n t) (P E n t').
Proof.
  intros [u|o r|o l|i r o self Ha Hb|i u self last Ha Hb Hl].
  - apply boxed_fwd. repeat constructor.
  - apply ole_eq. intro s. apply P_left.
  - apply ole_eq. intro s. apply P_right.
  - eapply chain_fwd; eassumption.
  - eapply list_fwd; eassumption.
Qed.
Lemma step_type_bwd E t t' n : step_type E t t' -> exists m, ole (P E n t') (P E m t).
Proof.
  intros [u|o r|o l|i r o self Ha Hb|i u self last Ha Hb Hl].
  - apply boxed_bwd. repeat constructor.
  - exists n. apply ole_eq. intro s. symmetry. apply P_left.
  - exists n. apply ole_eq. intro s. symmetry. apply P_right.
  - eapply chain_bwd; eassumption.
  - eapply list_bwd; eassumption.
Qed.
Lemma ctx_seq E n m pre xs ys post : n <= m -> ole (Ps E n xs) (Ps E m ys) -> ole (Ps E n (pre ++ xs ++ post)) (Ps E m (pre ++ ys ++ post)).
Proof.
  intros L H. eapply ole_trans; [apply ole_eq; intro s; apply Ps_app|]. eapply ole_trans; [|apply ole_eq; intro s; symmetry; apply Ps_app].
  apply ole_seq; [apply ole_Ps; exact L|].
  eapply ole_trans; [apply ole_eq; intro s; apply Ps_app|]. eapply ole_trans; [|apply ole_eq; intro s; symmetry; apply Ps_app].
  apply ole_seq; [exact H|apply ole_Ps; exact L].
Qed.
Lemma ref_fwd E n i : ole (P E n (TyRef i)) (Pc E n (alts (E i))).
Proof. destruct n as [|n]; [apply P_bottom|]. eapply ole_trans; [apply ole_eq; intro s; apply P_ref|]. apply ole_Pc. lia. Qed.
Lemma step_seq_fwd E fs gs n : step_seq E fs gs -> ole (Ps E n fs) (Ps E n gs).
Proof.
  intros [pre i xs post Ha|pre post|pre t t' post H].
  - change (TyRef i :: post) with ([TyRef i] ++ post). apply ctx_seq; [lia|]. eapply ole_trans; [apply ole_eq; intro s; apply Ps_one|].
    eapply ole_trans; [apply ref_fwd|]. rewrite Ha. apply ole_refl.
  - change (TyEmpty :: post) with ([TyEmpty] ++ post). change post with ([] ++ post) at 2. apply ctx_seq; [lia|]. apply last_fwd. right. reflexivity.
  - change (t :: post) with ([t] ++ post). change (t' :: post) with ([t'] ++ post). apply ctx_seq; [lia|].
    eapply ole_trans; [apply ole_eq; intro s; apply Ps_one|]. eapply ole_trans; [|apply ole_eq; intro s; symmetry; apply Ps_one]. apply step_type_fwd. exact H.
Qed.
Lemma step_seq_bwd E fs gs n : step_seq E fs gs -> exists m, ole (Ps E n gs) (Ps E m fs).
Proof.
  intros [pre i xs post Ha|pre post|pre t t' post H].
  - exists (S n). change (TyRef i :: post) with ([TyRef i] ++ post). apply ctx_seq; [lia|]. eapply ole_trans; [|apply ole_eq; intro s; symmetry; apply Ps_one].
    apply ole_eq. intro s. rewrite P_ref, Ha. reflexivity.
  - exists (S n). change (TyEmpty :: post) with ([TyEmpty] ++ post). change post with ([] ++ post) at 1. apply ctx_seq; [lia|]. apply (last_bwd E n [TyEmpty]). right. reflexivity.
  - destruct (step_type_bwd E t t' n H) as (m & Hm). exists (n + m). change (t :: post) with ([t] ++ post). change (t' :: post) with ([t'] ++ post). apply ctx_seq; [lia|].
    eapply ole_trans; [apply ole_eq; intro s; apply Ps_one|]. eapply ole_trans; [|apply ole_eq; intro s; symmetry; apply Ps_one]. eapply ole_trans; [exact Hm|apply ole_P; lia].
Qed.
Lemma Pc_app E n xs ys s : xs <> [] -> ys <> [] -> Pc E n (xs ++ ys) s = o_or (Pc E n xs) (Pc E n ys) s.
Proof. intros Hx Hy. unfold Pc. rewrite map_app. apply o_one_of_app; [destruct xs|destruct ys]; cbn [map]; congruence. Qed.
Lemma ctx_alts E n m xs ys post : n <= m -> xs <> [] -> ys <> [] -> ole (Pc E n xs) (Pc E m ys) -> ole (Pc E n (xs ++ post)) (Pc E m (ys ++ post)).
Proof.
  intros L Hx Hy H. destruct post as [|z post]; [rewrite !app_nil_r; exact H|].
  eapply ole_trans; [apply ole_eq; intro s; apply Pc_app; congruence|]. eapply ole_trans; [|apply ole_eq; intro s; symmetry; apply Pc_app; congruence].
  apply ole_or; [exact H|apply ole_Pc; exact L].
Qed.
Lemma Pc_one E n fs s : Pc E n [fs] s = Ps E n fs s. Proof. reflexivity. Qed.
Lemma o_one_of_ext ps qs : Forall2 (fun p q => forall s : pstate, p s = q s) ps qs -> forall s, o_one_of ps s = o_one_of qs s.
Proof.
  induction 1 as [|p q ps qs H Hr IH]; intro s; cbn [o_one_of]; [reflexivity|]. destruct Hr as [|p2 q2 ps qs H2 Hr]; [apply H|]. apply o_or_ext; [apply H|apply IH].
Qed.
Lemma Pc_pre E n pre cs s : cs <> [] -> Pc E n (map (app pre) cs) s = o_seq (Ps E n pre) (Pc E n cs) s.
Proof.
  intro Hc. unfold Pc at 2. rewrite o_seq_one_of by (destruct cs; cbn [map]; congruence). unfold Pc. rewrite !map_map. apply o_one_of_ext.
  clear Hc. induction cs; cbn [map]; constructor; auto. intro. apply Ps_app.
Qed.
Lemma step_alts_fwd E cs ds n : step_alts E cs ds -> ole (Pc E n cs) (Pc E n ds).
Proof.
  intros [pre i post Ha|pre a b post|fs gs post H].
  - change ((pre ++ [TyRef i]) :: post) with ([pre ++ [TyRef i]] ++ post). apply ctx_alts; [lia|discriminate|destruct (alts (E i)); cbn [map]; congruence|].
    eapply ole_trans; [apply ole_eq; intro s; rewrite Pc_one; apply Ps_app|]. eapply ole_trans; [|apply ole_eq; intro s; symmetry; apply Pc_pre; exact Ha].
    apply ole_seq; [apply ole_refl|]. eapply ole_trans; [apply ole_eq; intro s; apply Ps_one|]. apply ref_fwd.
  - change ((pre ++ [TyEither a b]) :: post) with ([pre ++ [TyEither a b]] ++ post). change ((pre ++ [a]) :: (pre ++ [b]) :: post) with (map (app pre) [[a]; [b]] ++ post).
    apply ctx_alts; [lia|discriminate|discriminate|].
    eapply ole_trans; [apply ole_eq; intro s; rewrite Pc_one; apply Ps_app|]. eapply ole_trans; [|apply ole_eq; intro s; symmetry; apply Pc_pre; discriminate].
    apply ole_seq; [apply ole_refl|]. eapply ole_trans; [apply ole_eq; intro s; apply Ps_one|]. destruct n as [|n]; [apply P_bottom|].
    eapply ole_trans; [apply ole_eq; intro s; apply P_either|]. unfold Pc. cbn [map o_one_of]. apply ole_or; (eapply ole_trans; [apply (ole_P E n (S n)); lia|apply ole_eq; intro s; symmetry; apply Ps_one]).
  - change (fs :: post) with ([fs] ++ post). change (gs :: post) with ([gs] ++ post). apply ctx_alts; [lia|discriminate|discriminate|]. apply (step_seq_fwd E fs gs n H).
Qed.
Lemma step_alts_bwd E cs ds n : step_alts E cs ds -> exists m, ole (Pc E n ds) (Pc E m cs).
Proof.
  intros [pre i post Ha|pre a b post|fs gs post H].
  - exists (S n). change ((pre ++ [TyRef i]) :: post) with ([pre ++ [TyRef i]] ++ post). apply ctx_alts; [lia|destruct (alts (E i)); cbn [map]; congruence|discriminate|].
    eapply ole_trans; [|apply ole_eq; intro s; symmetry; rewrite Pc_one; apply Ps_app]. eapply ole_trans; [apply ole_eq; intro s; apply Pc_pre; exact Ha|].
    apply ole_seq; [apply ole_Ps; lia|]. eapply ole_trans; [|apply ole_eq; intro s; symmetry; apply Ps_one]. apply ole_eq. intro s. symmetry. apply P_ref.
  - exists (S n). change ((pre ++ [TyEither a b]) :: post) with ([pre ++ [TyEither a b]] ++ post). change ((pre ++ [a]) :: (pre ++ [b]) :: post) with (map (app pre) [[a]; [b]] ++ post).
    apply ctx_alts; [lia|discriminate|discriminate|].
    eapply ole_trans; [|apply ole_eq; intro s; symmetry; rewrite Pc_one; apply Ps_app]. eapply ole_trans; [apply ole_eq; intro s; apply Pc_pre; discriminate|].
    apply ole_seq; [apply ole_Ps; lia|]. eapply ole_trans; [|apply ole_eq; intro s; symmetry; apply Ps_one].
    eapply ole_trans; [|apply ole_eq; intro s; symmetry; apply P_either]. unfold Pc. cbn [map o_one_of]. apply ole_or; apply ole_eq; intro s; apply Ps_one.
  - destruct (step_seq_bwd E fs gs n H) as (m & Hm). exists (n + m). change (fs :: post) with ([fs] ++ post). change (gs :: post) with ([gs] ++ post).
    apply ctx_alts; [lia|discriminate|discriminate|]. eapply ole_trans; [exact Hm|]. apply (ole_Ps E m (n + m)). lia.
Qed.
End Ops.

Scheme same_type_mind := Minimality for same_type Sort Prop
  with same_seq_mind := Minimality for same_seq Sort Prop
  with same_alts_mind := Minimality for same_alts Sort Prop.
Combined Scheme same_mind from same_type_mind, same_seq_mind, same_alts_mind.

(** what is the same, is so from either side *)
Lemma same_sym E1 E2 R :
  (forall t u, same_type E1 E2 R t u -> same_type E2 E1 (fun j i => R i j) u t) /\
  (forall fs gs, same_seq E1 E2 R fs gs -> same_seq E2 E1 (fun j i => R i j) gs fs) /\
  (forall cs ds, same_alts E1 E2 R cs ds -> same_alts E2 E1 (fun j i => R i j) ds cs).
Proof.
  apply same_mind; intros.
  - apply same_simple. assumption.
  - apply same_ref. assumption.
  - apply same_maybe; assumption.
  - apply same_paren; assumption.
  - apply same_bracket; assumption.
  - apply same_brace; assumption.
  - apply same_punctuated; assumption.
  - apply same_separated; assumption.
  - apply same_any; assumption.
  - eapply same_type_r; eassumption.
  - eapply same_type_l; eassumption.
  - apply same_choice. assumption.
  - apply same_nil.
  - apply same_cons; assumption.
  - eapply same_seq_r; eassumption.
  - eapply same_seq_l; eassumption.
  - apply same_none.
  - apply same_alt; assumption.
  - eapply same_alts_r; eassumption.
  - eapply same_alts_l; eassumption.
Qed.
Lemma refactoring_sym E1 E2 R : refactoring E1 E2 R -> refactoring E2 E1 (fun j i => R i j).
Proof. intros H j i Hr. apply same_sym. apply H. exact Hr. Qed.
Lemma step_alts_some E cs ds : step_alts E cs ds -> cs <> [] /\ ds <> [].
Proof. intros [pre i post Ha|pre a b post|fs gs post H]; split; try discriminate. destruct (alts (E i)); cbn [map app]; congruence. Qed.
Lemma same_alts_nil E1 E2 R cs ds : same_alts E1 E2 R cs ds -> (cs = [] <-> ds = []).
Proof.
  induction 1 as [|fs gs cs ds _ _ _|cs cs' ds H _ IH|cs ds ds' H _ IH]; try tauto.
  - split; discriminate.
  - apply step_alts_some in H. tauto.
  - apply step_alts_some in H. tauto.
Qed.

Section Sound.
Context {U : unicode} (E1 E2 : env) (R : nat -> nat -> Prop) (Hyp : refactoring E1 E2 R).
Local Ltac use m := eapply ole_trans; [|apply (ole_P E2 m); lia].
Lemma same_sound n :
  (forall t u, same_type E1 E2 R t u -> exists m, ole (P E1 n t) (P E2 m u)) /\
  (forall fs gs, same_seq E1 E2 R fs gs -> exists m, ole (Ps E1 n fs) (Ps E2 m gs)) /\
  (forall cs ds, same_alts E1 E2 R cs ds -> exists m, ole (Pc E1 n cs) (Pc E2 m ds)).
Proof.
  induction n as [|n IHn].
  - assert (A : forall t u, same_type E1 E2 R t u -> exists m, ole (P E1 0 t) (P E2 m u)) by (intros t u _; exists 0; apply P_bottom).
    split; [exact A|].
    apply (same_mind E1 E2 R (fun _ _ => True) (fun fs gs => exists m, ole (Ps E1 0 fs) (Ps E2 m gs)) (fun cs ds => exists m, ole (Pc E1 0 cs) (Pc E2 m ds))); try (intros; exact I).
    + exists 0. apply ole_refl.
    + intros t u fs gs _ _ _ _. exists 0. intro s. left. reflexivity.
    + intros fs fs' gs H _ (m & IH). exists m. eapply ole_trans; [apply step_seq_fwd; exact H|exact IH].
    + intros fs gs gs' H _ (m & IH). destruct (step_seq_bwd E2 gs gs' m H) as (m' & Hm'). exists m'. eapply ole_trans; [exact IH|exact Hm'].
    + exists 0. apply ole_refl.
    + intros fs gs cs ds _ (m & IH) Hc (m' & IH'). exists (m + m'). pose proof (same_alts_nil _ _ _ _ _ Hc) as Hn.
      assert (H1 : ole (Ps E1 0 fs) (Ps E2 (m + m') gs)) by (eapply ole_trans; [exact IH|apply ole_Ps; lia]).
      destruct cs as [|c cs], ds as [|d ds]; [exact H1|exfalso; destruct Hn as [Hn _]; discriminate (Hn eq_refl)|exfalso; destruct Hn as [_ Hn]; discriminate (Hn eq_refl)|].
      unfold Pc. cbn [map]. intro s. rewrite !o_one_of_cons by discriminate. revert s. apply ole_or; [exact H1|]. eapply ole_trans; [exact IH'|]. apply (ole_Pc E2 m' (m + m') (d :: ds)). lia.
    + intros cs cs' ds H _ (m & IH). exists m. eapply ole_trans; [apply step_alts_fwd; exact H|exact IH].
    + intros cs ds ds' H _ (m & IH). destruct (step_alts_bwd E2 ds ds' m H) as (m' & Hm'). exists m'. eapply ole_trans; [exact IH|exact Hm'].
  - destruct IHn as (_ & _ & IHc).
    apply (same_mind E1 E2 R (fun t u => exists m, ole (P E1 (S n) t) (P E2 m u)) (fun fs gs => exists m, ole (Ps E1 (S n) fs) (Ps E2 m gs)) (fun cs ds => exists m, ole (Pc E1 (S n) cs) (Pc E2 m ds))).
    + intros t H. exists (S n). apply ole_eq. intro s. apply P_simple. exact H.
    + intros i j H. destruct (IHc _ _ (Hyp i j H)) as (m & Hm). exists (S m). eapply ole_trans; [apply ole_eq; intro s; apply P_ref|]. eapply ole_trans; [exact Hm|]. apply ole_eq. intro s. symmetry. apply P_ref.
    + intros a b a' b' _ (m1 & H1) _ (m2 & H2). exists (S (m1 + m2)). eapply ole_trans; [apply ole_eq; intro s; apply P_maybe|]. eapply ole_trans; [|apply ole_eq; intro s; symmetry; apply P_maybe].
      apply ole_try; (eapply ole_trans; [apply (ole_P E1 n (S n)); lia|]); [use m1; exact H1|use m2; exact H2].
    + intros a a' _ (m & H). exists (S m). eapply ole_trans; [apply ole_eq; intro s; apply P_paren|]. eapply ole_trans; [|apply ole_eq; intro s; symmetry; apply P_paren].
      apply ole_group. eapply ole_trans; [apply (ole_P E1 n (S n)); lia|exact H].
    + intros a a' _ (m & H). exists (S m). eapply ole_trans; [apply ole_eq; intro s; apply P_bracket|]. eapply ole_trans; [|apply ole_eq; intro s; symmetry; apply P_bracket].
      apply ole_group. eapply ole_trans; [apply (ole_P E1 n (S n)); lia|exact H].
    + intros a a' _ (m & H). exists (S m). eapply ole_trans; [apply ole_eq; intro s; apply P_brace|]. eapply ole_trans; [|apply ole_eq; intro s; symmetry; apply P_brace].
      apply ole_group. eapply ole_trans; [apply (ole_P E1 n (S n)); lia|exact H].
    + intros a b a' b' _ (m1 & H1) _ (m2 & H2). exists (S (n + m1 + m2)). eapply ole_trans; [apply ole_eq; intro s; apply P_punctuated|]. eapply ole_trans; [|apply ole_eq; intro s; symmetry; apply P_punctuated].
      apply ole_term; [lia| |]; (eapply ole_trans; [apply (ole_P E1 n (S n)); lia|]); [use m1; exact H1|use m2; exact H2].
    + intros a b a' b' _ (m1 & H1) _ (m2 & H2). exists (S (n + m1 + m2)). eapply ole_trans; [apply ole_eq; intro s; apply P_separated|]. eapply ole_trans; [|apply ole_eq; intro s; symmetry; apply P_separated].
      assert (G1 : ole (P E1 n a) (P E2 (n + m1 + m2) a')) by (eapply ole_trans; [apply (ole_P E1 n (S n)); lia|]; use m1; exact H1).
      assert (G2 : ole (P E1 n b) (P E2 (n + m1 + m2) b')) by (eapply ole_trans; [apply (ole_P E1 n (S n)); lia|]; use m2; exact H2).
      apply ole_seq; [exact G1|]. apply ole_tail; [lia|exact G1|exact G2].
    + intros a a' _ (m & H). exists (S (n + m)). eapply ole_trans; [apply ole_eq; intro s; apply P_any|]. eapply ole_trans; [|apply ole_eq; intro s; symmetry; apply P_any].
      apply ole_rep; [lia|]. eapply ole_trans; [apply (ole_P E1 n (S n)); lia|]. use m. exact H.
    + intros t t' u H _ (m & IH). exists m. eapply ole_trans; [apply step_type_fwd; exact H|exact IH].
    + intros t u u' H _ (m & IH). destruct (step_type_bwd E2 u u' m H) as (m' & Hm'). exists m'. eapply ole_trans; [exact IH|exact Hm'].
    + intros t u _ (m & IH). exists m. eapply ole_trans; [|eapply ole_trans; [exact IH|]]; apply ole_eq; intro s; [symmetry|]; rewrite Pc_one; apply Ps_one.
    + exists 0. apply ole_refl.
    + intros t u fs gs _ (m & H1) _ (m' & H2). exists (m + m'). unfold Ps. cbn [map o_all]. apply ole_seq; [use m; exact H1|]. eapply ole_trans; [exact H2|]. apply (ole_Ps E2 m'). lia.
    + intros fs fs' gs H _ (m & IH). exists m. eapply ole_trans; [apply step_seq_fwd; exact H|exact IH].
    + intros fs gs gs' H _ (m & IH). destruct (step_seq_bwd E2 gs gs' m H) as (m' & Hm'). exists m'. eapply ole_trans; [exact IH|exact Hm'].
    + exists 0. apply ole_refl.
    + intros fs gs cs ds _ (m & IH) Hc (m' & IH'). exists (m + m'). pose proof (same_alts_nil _ _ _ _ _ Hc) as Hn.
      assert (H1 : ole (Ps E1 (S n) fs) (Ps E2 (m + m') gs)) by (eapply ole_trans; [exact IH|apply ole_Ps; lia]).
      destruct cs as [|c cs], ds as [|d ds]; [exact H1|exfalso; destruct Hn as [Hn _]; discriminate (Hn eq_refl)|exfalso; destruct Hn as [_ Hn]; discriminate (Hn eq_refl)|].
      unfold Pc. cbn [map]. intro s. rewrite !o_one_of_cons by discriminate. revert s. apply ole_or; [exact H1|]. eapply ole_trans; [exact IH'|]. apply (ole_Pc E2 m' (m + m') (d :: ds)). lia.
    + intros cs cs' ds H _ (m & IH). exists m. eapply ole_trans; [apply step_alts_fwd; exact H|exact IH].
    + intros cs ds ds' H _ (m & IH). destruct (step_alts_bwd E2 ds ds' m H) as (m' & Hm'). exists m'. eapply ole_trans; [exact IH|exact Hm'].
Qed.
End Sound.
