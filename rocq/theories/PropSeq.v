(** * PropSeq: C22, C46. *)
From Verif Require Import Base Float Literal Syn Ast Derive Grammar Spec SynFacts Lawful Mono Combinators GrammarBeh Assoc Examples Punctuated.
Local Open Scope nat_scope.

(** What a sequence holds: its values, and its separators. *)
Section Spec.
Context {A P : Type}.
Notation seq := (punctuated A P).
Definition values (x : seq) : list A := pn_iter x.
Definition separators (x : seq) : list P := map snd (pn_inner x).
(** one separator between any two neighbours, none at the end, at least one value *)
Definition separated (x : seq) : Prop := List.length (values x) = S (List.length (separators x)).

(** The public methods that change a [Separated]. *)
Inductive change :=
| Insert (i : nat) (v : A) (dflt : option P)
| Push (p : P) (v : A)
| PushValue (v : A) (dflt : option P)
| ExtendValues (items : list (A * option P)) (stop : bool)
| ExtendPairs (items : list (P * A)) (stop : bool)
| SetFirst (v : A) | SetLast (v : A) | SetAt (i : nat) (v : A) | SetPunct (i : nat) (p : P).
Definition apply_change (c : change) : method seq unit :=
  match c with
  | Insert i v d => sep_insert i v d
  | Push p v => sep_push p v
  | PushValue v d => sep_push_value v d
  | ExtendValues l stop => sep_extend l stop
  | ExtendPairs l stop => sep_extend_pairs l stop
  | SetFirst v => sep_set_first v | SetLast v => sep_set_last v
  | SetAt i v => sep_set i v | SetPunct i p => sep_set_punct i p
  end.
(** Histories: made by parsing or [try_from], then changed any number of times, panics caught or not. *)
Inductive reached : seq -> Prop :=
| by_parse fuel (pa : parser A) (pp : parser P) s x s' : lawful pp -> p_separated fuel pa pp s = (OOk x, s') -> reached x
| by_try_from x y : sep_try_from x = Some y -> reached y
| by_change x c : reached x -> reached (snd (apply_change c x)).
End Spec.
Arguments change : clear implicits.


(** What each change does to the values and separators, and whether it returns or panics. *)
Section Effect.
Context {A P : Type}.
Definition put {X} (i : nat) (v : X) (l : list X) : list X := firstn i l ++ v :: skipn i l.
Definition replace {X} (i : nat) (v : X) (l : list X) : list X := firstn i l ++ v :: skipn (S i) l.
(** the items up to the first one whose separator could not be made *)
Fixpoint made (l : list (A * option P)) : list (A * P) :=
  match l with (v, Some p) :: r => (v, p) :: made r | _ => [] end.
Definition all_made (l : list (A * option P)) : bool := forallb (fun x => match snd x with Some _ => true | None => false end) l.
Definition effect (c : change A P) (vs : list A) (ps : list P) : bool * list A * list P :=
  match c with
  | Insert i v (Some p) => if i <=? List.length vs then (true, put i v vs, put i p ps) else (false, vs, ps)
  | Insert i v None => (false, vs, ps)
  | Push p v | PushValue v (Some p) => (true, vs ++ [v], ps ++ [p])
  | PushValue v None => (false, vs, ps)
  | ExtendValues l stop => (all_made l && stop, vs ++ map fst (made l), ps ++ map snd (made l))
  | ExtendPairs l stop => (stop, vs ++ map snd l, ps ++ map fst l)
  | SetFirst v => (true, replace 0 v vs, ps)
  | SetLast v => (true, replace (List.length vs - 1) v vs, ps)
  | SetAt i v => if i <? List.length vs then (true, replace i v vs, ps) else (false, vs, ps)
  | SetPunct i p => if i <? List.length ps then (true, vs, replace i p ps) else (false, vs, ps)
  end.
End Effect.

Section Facts.
Context {A P : Type}.
Notation seq := (punctuated A P).
Lemma separated_iff (x : seq) : separated x <-> exists inner z, x = Pn inner (Some z).
Proof.
  unfold separated, values, pn_iter, separators. destruct x as [inner [z|]]; cbn [pn_inner pn_last]; rewrite app_length, !map_length; cbn; split.
  - eauto.
  - lia.
  - lia.
  - intros (i & z & H). discriminate.
Qed.
Lemma push_some inner z (p : P) (v : A) : sep_push p v (Pn inner (Some z)) = (Some done, Pn (inner ++ [(z, p)]) (Some v)).
Proof. reflexivity. Qed.
Lemma pn_push_some inner z (p : P) (v : A) : pn_push v (Some p) (Pn inner (Some z)) = (Some done, Pn (inner ++ [(z, p)]) (Some v)).
Proof. reflexivity. Qed.
Definition is_some {X} (o : option X) : bool := match o with Some _ => true | None => false end.
Definition view (y : option unit * seq) : bool * list A * list P := (is_some (fst y), values (snd y), separators (snd y)).
Lemma view_pn o inner z : view (o, Pn inner (Some z)) = (is_some o, map fst inner ++ [z], map snd inner).
Proof. reflexivity. Qed.
Lemma extend_effect l stop : forall inner z, exists inner' z', snd (sep_extend l stop (Pn inner (Some z) : seq)) = Pn inner' (Some z') /\
  view (sep_extend l stop (Pn inner (Some z))) = effect (ExtendValues l stop) (map fst inner ++ [z]) (map snd inner).
Proof.
  unfold sep_extend. induction l as [|(v, [p|]) l IH]; intros inner z.
  - exists inner, z. split; [reflexivity|]. cbn [pn_extend effect made map]. unfold muser. rewrite view_pn, !app_nil_r. destruct stop; reflexivity.
  - cbn [pn_extend]. unfold mbind at 1. rewrite pn_push_some. destruct (IH (inner ++ [(z, p)]) v) as (i' & z' & H1 & H2). unfold mbind at 1. rewrite pn_push_some.
    exists i', z'. split; [exact H1|]. rewrite H2. cbn [effect made all_made forallb snd fst map]. rewrite !map_app, <- !app_assoc. reflexivity.
  - cbn [pn_extend]. exists inner, z. split; [reflexivity|]. unfold mbind. cbn. rewrite !app_nil_r. reflexivity.
Qed.
Lemma extend_pairs_effect l stop : forall inner z, exists inner' z', snd (sep_extend_pairs l stop (Pn inner (Some z) : seq)) = Pn inner' (Some z') /\
  view (sep_extend_pairs l stop (Pn inner (Some z))) = effect (ExtendPairs l stop) (map fst inner ++ [z]) (map snd inner).
Proof.
  induction l as [|(p, v) l IH]; intros inner z.
  - exists inner, z. split; [reflexivity|]. cbn [sep_extend_pairs effect map]. unfold muser. rewrite view_pn, !app_nil_r. destruct stop; reflexivity.
  - cbn [sep_extend_pairs]. unfold mbind. rewrite push_some. destruct (IH (inner ++ [(z, p)]) v) as (i' & z' & H1 & H2).
    exists i', z'. split; [exact H1|]. rewrite H2. cbn [effect snd fst map]. rewrite !map_app, <- !app_assoc. reflexivity.
Qed.
Lemma map_firstn {X Y} (f : X -> Y) n l : map f (firstn n l) = firstn n (map f l).
Proof. symmetry. apply firstn_map. Qed.
Lemma map_skipn {X Y} (f : X -> Y) n l : map f (skipn n l) = skipn n (map f l).
Proof. symmetry. apply skipn_map. Qed.
Lemma firstn_short {X} n (a b : list X) : n <= List.length a -> firstn n (a ++ b) = firstn n a.
Proof. intro H. rewrite firstn_app. replace (n - List.length a) with 0 by lia. cbn. apply app_nil_r. Qed.
Lemma skipn_short {X} n (a b : list X) : n <= List.length a -> skipn n (a ++ b) = skipn n a ++ b.
Proof. intro H. rewrite skipn_app. replace (n - List.length a) with 0 by lia. reflexivity. Qed.
Lemma set_effect i v : forall inner z, exists inner' z', snd (sep_set i v (Pn inner (Some z) : seq)) = Pn inner' (Some z') /\
  view (sep_set i v (Pn inner (Some z))) = effect (SetAt i v) (map fst inner ++ [z]) (map snd inner).
Proof.
  intros inner z. unfold sep_set, pn_set. cbn [pn_inner pn_last]. destruct (Nat.ltb_spec i (List.length inner)) as [Hi|Hi].
  - destruct (nth_error inner i) as [(w, p)|] eqn:En; [|apply nth_error_None in En; lia].
    eexists _, z. split; [reflexivity|]. rewrite view_pn. cbn [effect]. rewrite app_length, map_length. cbn [List.length].
    destruct (Nat.ltb_spec i (List.length inner + 1)) as [_|?]; [|lia]. unfold replace.
    rewrite firstn_short, skipn_short by (rewrite map_length; lia). rewrite !map_app. cbn [map fst snd].
    f_equal.
    + cbn [is_some]. f_equal. rewrite map_firstn, map_skipn, <- app_assoc. reflexivity.
    + apply nth_error_split in En as (l1 & l2 & -> & <-). rewrite firstn_app, Nat.sub_diag, firstn_all, firstn_O, app_nil_r.
      replace (S (List.length l1)) with (List.length (l1 ++ [(w, p)])) by (rewrite app_length; cbn; lia).
      replace (l1 ++ (w, p) :: l2) with ((l1 ++ [(w, p)]) ++ l2) by (rewrite <- app_assoc; reflexivity).
      rewrite skipn_app, skipn_all, Nat.sub_diag, skipn_O. cbn [app]. rewrite !map_app, <- app_assoc. reflexivity.
  - destruct (Nat.eqb_spec i (List.length inner)) as [->|Hne].
    + exists inner, v. split; [reflexivity|]. rewrite view_pn. cbn [effect]. rewrite app_length, map_length. cbn [List.length].
      destruct (Nat.ltb_spec (List.length inner) (List.length inner + 1)) as [_|?]; [|lia]. unfold replace.
      rewrite <- (map_length fst inner) at 1. rewrite firstn_app, Nat.sub_diag, firstn_all, firstn_O, app_nil_r.
      rewrite (skipn_all2 (map fst inner ++ [z])) by (rewrite app_length, map_length; cbn; lia). reflexivity.
    + exists inner, z. split; [reflexivity|]. rewrite view_pn. cbn [effect]. rewrite app_length, map_length. cbn [List.length].
      destruct (Nat.ltb_spec i (List.length inner + 1)) as [?|_]; [lia|]. reflexivity.
Qed.
Lemma punct_effect i p : forall inner z, exists inner' z', snd (sep_set_punct i p (Pn inner (Some z) : seq)) = Pn inner' (Some z') /\
  view (sep_set_punct i p (Pn inner (Some z))) = effect (SetPunct i p) (map fst inner ++ [z]) (map snd inner).
Proof.
  intros inner z. unfold sep_set_punct, pn_set_punct. cbn [pn_inner pn_last effect]. rewrite map_length. destruct (nth_error inner i) as [(w, q)|] eqn:En.
  - eexists _, z. split; [reflexivity|]. rewrite view_pn. destruct (Nat.ltb_spec i (List.length inner)) as [_|?].
    2:{ assert (nth_error inner i = None) by (apply nth_error_None; lia). congruence. }
    apply nth_error_split in En as (l1 & l2 & -> & <-). unfold replace. rewrite !firstn_map, !skipn_map.
    rewrite firstn_app, Nat.sub_diag, firstn_all, firstn_O, app_nil_r.
    replace (S (List.length l1)) with (List.length (l1 ++ [(w, q)])) by (rewrite app_length; cbn; lia).
    replace (l1 ++ (w, q) :: l2) with ((l1 ++ [(w, q)]) ++ l2) by (rewrite <- app_assoc; reflexivity).
    rewrite skipn_app, skipn_all, Nat.sub_diag, skipn_O. cbn [app]. rewrite !map_app, <- !app_assoc. reflexivity.
  - apply nth_error_None in En. exists inner, z. split; [reflexivity|]. rewrite view_pn. destruct (Nat.ltb_spec i (List.length inner)); [lia|]. reflexivity.
Qed.
Lemma insert_effect i v d : forall inner z, exists inner' z', snd (sep_insert i v d (Pn inner (Some z) : seq)) = Pn inner' (Some z') /\
  view (sep_insert i v d (Pn inner (Some z))) = effect (Insert i v d) (map fst inner ++ [z]) (map snd inner).
Proof.
  intros inner z. unfold sep_insert, pn_insert. change (pn_len (Pn inner (Some z))) with (List.length inner + 1). cbn [pn_inner pn_last effect]. rewrite app_length, map_length. cbn [List.length].
  destruct (Nat.leb_spec i (List.length inner + 1)) as [Hi|Hi].
  - destruct (Nat.eqb_spec i (List.length inner + 1)) as [->|Hne].
    + destruct d as [p|].
      * rewrite pn_push_some. eexists _, _. split; [reflexivity|]. rewrite view_pn. unfold put.
        rewrite (firstn_all2 (map fst inner ++ [z])) by (rewrite app_length, map_length; cbn; lia).
        rewrite (skipn_all2 (map fst inner ++ [z])) by (rewrite app_length, map_length; cbn; lia).
        rewrite (firstn_all2 (map snd inner)) by (rewrite map_length; lia). rewrite (skipn_all2 (map snd inner)) by (rewrite map_length; lia).
        rewrite !map_app. reflexivity.
      * exists inner, z. split; [reflexivity|]. reflexivity.
    + destruct d as [p|].
      * unfold mbind, muser. eexists _, z. split; [reflexivity|]. cbn [pn_inner pn_last]. rewrite view_pn. unfold put. rewrite !map_app. cbn [map fst snd].
        rewrite firstn_short, skipn_short by (rewrite map_length; lia). rewrite !firstn_map, !skipn_map, <- !app_assoc. reflexivity.
      * exists inner, z. split; reflexivity.
  - exists inner, z. split; [reflexivity|]. rewrite view_pn. destruct d; reflexivity.
Qed.
Lemma replace_0_nonempty (v : A) l : l <> [] -> replace 0 v l = v :: tl l.
Proof. destruct l; [congruence|]. reflexivity. Qed.
Theorem change_effect c inner z : exists inner' z', snd (apply_change c (Pn inner (Some z) : seq)) = Pn inner' (Some z') /\
  view (apply_change c (Pn inner (Some z))) = effect c (map fst inner ++ [z]) (map snd inner).
Proof.
  destruct c as [i v d|p v|v d|l stop|l stop|v|v|i v|i p]; cbn [apply_change].
  - apply insert_effect.
  - rewrite push_some. eexists _, _. split; [reflexivity|]. rewrite view_pn, !map_app. reflexivity.
  - unfold sep_push_value, mbind at 1 2, muser. destruct d as [p|].
    + rewrite push_some. eexists _, _. split; [reflexivity|]. rewrite view_pn, !map_app. reflexivity.
    + exists inner, z. split; reflexivity.
  - apply extend_effect.
  - apply extend_pairs_effect.
  - unfold sep_set_first. assert (E : exists w, pn_first (Pn inner (Some z) : seq) = Some w) by (destruct inner as [|(a, b) r]; cbn; eauto). destruct E as (w & ->).
    destruct (set_effect 0 v inner z) as (i' & z' & H1 & H2). exists i', z'. split; [exact H1|]. unfold sep_set in H2. rewrite H2. cbn [effect]. destruct inner; reflexivity.
  - unfold sep_set_last. assert (E : pn_last_value (Pn inner (Some z) : seq) = Some z) by (unfold pn_last_value, pn_iter; cbn [pn_inner pn_last]; rewrite rev_app_distr; reflexivity). rewrite E.
    destruct (set_effect (pn_len (Pn inner (Some z)) - 1) v inner z) as (i' & z' & H1 & H2). exists i', z'. split; [exact H1|]. unfold sep_set in H2. rewrite H2. cbn [effect]. unfold pn_len. cbn [pn_inner pn_last].
    rewrite app_length, map_length. cbn [List.length]. destruct (Nat.ltb_spec (List.length inner + 1 - 1) (List.length inner + 1)); [reflexivity|lia].
  - apply set_effect.
  - apply punct_effect.
Qed.
Lemma reached_shape (x : seq) : reached x -> exists inner z, x = Pn inner (Some z).
Proof.
  induction 1 as [fuel pa pp s x s' Hl H|x y H|x c H (inner & z & ->)].
  - apply bind_ok in H as (v & s1 & _ & H). apply separated_loop_ok in H as (l & _ & ->); [|exact Hl]. eauto.
  - unfold sep_try_from in H. destruct x as [inner [z|]]; [|discriminate]. cbn in H. injection H as <-. eauto.
  - destruct (change_effect c inner z) as (i' & z' & H1 & _). eauto.
Qed.
End Facts.

(** ** C22 *)
Theorem C22_never_empty_never_trailing : forall A P (x : punctuated A P), reached x ->
  List.length (values x) = S (List.length (separators x)).
Proof. intros A P x H. apply separated_iff. apply reached_shape. exact H. Qed.
Print Assumptions C22_never_empty_never_trailing.
(** none of the methods that rely on it panics, and they return what they say *)
Theorem C22_accessors_return : forall A P (x : punctuated A P), reached x ->
  fst (sep_len x) = Some (List.length (values x)) /\
  (exists v r, values x = v :: r /\ fst (sep_first x) = Some v) /\
  (exists v r, values x = r ++ [v] /\ fst (sep_last x) = Some v) /\
  (exists v l, into_first_rest x = Some (v, l) /\ v :: map snd l = values x /\ map fst l = separators x) /\
  (exists v l, into_last_rest x = Some (v, l) /\ map fst l ++ [v] = values x /\ map snd l = separators x).
Proof.
  intros A P x H. apply reached_shape in H as (inner & z & ->). split; [|split; [|split; [|split]]].
  - unfold sep_len, pn_len, values, pn_iter. cbn [pn_inner pn_last fst]. rewrite app_length, map_length. cbn. destruct (Nat.eqb_spec (List.length inner + 1) 0); [lia|reflexivity].
  - destruct inner as [|(a, b) inner]; unfold values, pn_iter; cbn; eauto.
  - exists z, (map fst inner). split; [reflexivity|]. unfold sep_last, pn_last_value, pn_iter. cbn [pn_inner pn_last fst]. rewrite rev_app_distr. reflexivity.
  - pose proof (pairs_unpairs inner z) as Hu. exists (fst (unpairs inner z)), (snd (unpairs inner z)).
    pose proof (into_first_rest_spec (fst (unpairs inner z)) (snd (unpairs inner z))) as Hs. rewrite Hu in Hs. split; [exact Hs|]. clear Hs Hu.
    unfold values, separators, pn_iter. cbn [pn_inner pn_last]. induction inner as [|(a, b) inner (IH1 & IH2)]; cbn [unpairs]; [auto|].
    destruct (unpairs inner z) as (w, l). cbn [fst snd map app] in *. rewrite IH1, IH2. auto.
  - exists z, inner. split; [apply into_last_rest_spec|]. auto.
Qed.
Print Assumptions C22_accessors_return.
(** what every change does, exactly; in particular a change that panics keeps the values that were there *)
Theorem C22_changes_do_what_they_say : forall A P (x : punctuated A P) c, reached x ->
  (match fst (apply_change c x) with Some _ => true | None => false end,
   values (snd (apply_change c x)), separators (snd (apply_change c x))) = effect c (values x) (separators x).
Proof.
  intros A P x c H. apply reached_shape in H as (inner & z & ->). destruct (change_effect c inner z) as (_ & _ & _ & H). exact H.
Qed.
Print Assumptions C22_changes_do_what_they_say.
(** with user code that does not panic, only positions out of range do *)
Definition calm_user {A P} (c : change A P) : Prop :=
  match c with
  | Insert _ _ d | PushValue _ d => d <> None
  | ExtendValues l stop => stop = true /\ Forall (fun x => snd x <> None) l
  | ExtendPairs _ stop => stop = true
  | _ => True
  end.
Theorem C22_only_positions_panic : forall A P (x : punctuated A P) c, reached x -> calm_user c ->
  (fst (apply_change c x) = None <->
   match c with
   | Insert i _ _ => List.length (values x) < i
   | SetAt i _ => List.length (values x) <= i
   | SetPunct i _ => List.length (separators x) <= i
   | _ => False
   end).
Proof.
  intros A P x c H Hu. pose proof (C22_changes_do_what_they_say A P x c H) as G.
  assert (E : fst (apply_change c x) = None <-> fst (fst (effect c (values x) (separators x))) = false).
  { rewrite <- G. cbn [fst]. destruct (fst (apply_change c x)); split; congruence. }
  rewrite E. clear E G. destruct c as [i v d|p v|v d|l stop|l stop|v|v|i v|i p]; cbn [effect calm_user] in *.
  - destruct d as [p|]; [|congruence]. destruct (Nat.leb_spec i (List.length (values x))); cbn; split; (lia || discriminate || reflexivity).
  - cbn. split; [discriminate|tauto].
  - destruct d; [|congruence]. cbn. split; [discriminate|tauto].
  - destruct Hu as (-> & Hl). assert (Ha : all_made l = true). { apply forallb_forall. rewrite Forall_forall in Hl. intros y Hy. specialize (Hl y Hy). destruct (snd y); congruence. } rewrite Ha. cbn. split; [discriminate|tauto].
  - subst stop. cbn. split; [discriminate|tauto].
  - cbn. split; [discriminate|tauto].
  - cbn. split; [discriminate|tauto].
  - destruct (Nat.ltb_spec i (List.length (values x))); cbn; split; (lia || discriminate || reflexivity).
  - destruct (Nat.ltb_spec i (List.length (separators x))); cbn; split; (lia || discriminate || reflexivity).
Qed.
Print Assumptions C22_only_positions_panic.
Theorem C22_try_from : forall A P (x y : punctuated A P), sep_try_from x = Some y <-> y = x /\ List.length (values x) = S (List.length (separators x)).
Proof.
  intros A P x y. pose proof (separated_iff x) as H. unfold separated in H. rewrite H. unfold sep_try_from. destruct x as [inner [z|]]; cbn.
  - split; [intro E; injection E as <-; eauto|intros (-> & _); reflexivity].
  - split; [discriminate|intros (_ & i & z & E); discriminate].
Qed.
Print Assumptions C22_try_from.
(** the pushes of the parse loop never panic and build the sequence of Ast.p_separated *)
Theorem C22_parse_builds : forall A P (x : A) (l : list (P * A)),
  build x l pn_new = (Some done, Pn (fst (pairs_of x l)) (Some (snd (pairs_of x l)))).
Proof.
  intros A P x l. unfold build, mbind. change (push_value x pn_new) with (Some done, Pn (P := P) [] (Some x)). cbn iota beta.
  assert (G : forall (l : list (P * A)) inner (x : A), build_tail l (Pn inner (Some x)) = (Some done, Pn (inner ++ fst (pairs_of x l)) (Some (snd (pairs_of x l) : A)))).
  { clear. induction l as [|(p, v) l IH]; intros inner x; cbn [build_tail pairs_of].
    - unfold mret. cbn. rewrite app_nil_r. reflexivity.
    - unfold mbind. change (push_punct p (Pn inner (Some x))) with (Some done, Pn (inner ++ [(x, p)]) None). cbn iota beta.
      change (push_value v (Pn (inner ++ [(x, p)]) None)) with (Some done, Pn (inner ++ [(x, p)]) (Some v)). cbn iota beta.
      rewrite IH. destruct (pairs_of v l) as (ps, z). cbn [fst snd]. rewrite <- app_assoc. reflexivity. }
  rewrite G. reflexivity.
Qed.
Print Assumptions C22_parse_builds.
Example C22_ex : reached (snd (apply_change (Insert 9 77 (Some 0)) (snd (apply_change (PushValue 5 (Some 1)) (Pn [(3, 2)] (Some 4))))))
  /\ values (snd (apply_change (ExtendValues [(6, Some 7); (8, None); (9, Some 1)] true) (Pn [(3, 2)] (Some 4)))) = [3; 4; 6].
Proof. split; [|reflexivity]. apply by_change, by_change. apply (by_try_from (Pn [(3, 2)] (Some 4))). reflexivity. Qed.

(** ** C46: parsel's [Punctuated] *)
(** [FromIterator<T>]: all items are kept in order, with a default separator between
    neighbours and none at the end; never panics if [P::default()] does not. *)
Theorem C46_collect_values : forall A P (items : list (A * option P)) (dflts : list P), map snd items = map Some dflts ->
  exists x, pn_collect items = Some x /\ values x = map fst items /\ separators x = tl dflts.
Proof.
  intros A P items dflts H. unfold pn_collect. destruct items as [|(v, d) items]; destruct dflts as [|p0 dflts]; try discriminate.
  - exists pn_new. auto.
  - cbn [map snd] in H. injection H as -> H. cbn [pn_extend]. unfold mbind. change (pn_push v (Some p0) pn_new) with (Some done, Pn (P := P) [] (Some v)). cbn iota beta.
    destruct (extend_effect items true [] v) as (inner' & z' & H1 & H2). unfold sep_extend in *. destruct (pn_extend items true (Pn [] (Some v))) as ([[]|] & x) eqn:Ex; cbn [snd fst] in *.
    + exists x. split; [reflexivity|]. unfold view in H2. cbn in H2. injection H2 as _ Hv Hs. rewrite Hv, Hs. cbn [tl map].
      clear - H. revert dflts H. induction items as [|(v1, d1) items IH]; intros [|p1 dflts] H; try discriminate; cbn in *.
      * intuition congruence.
      * injection H as -> H. destruct (IH _ H) as (I1 & I2). injection I1 as I1. cbn. intuition congruence.
    + exfalso. unfold view in H2. cbn [is_some fst snd effect] in H2. injection H2 as Ha _ _. rewrite andb_true_r in Ha. symmetry in Ha.
      assert (Hm : all_made items = true). { clear - H. revert dflts H. induction items as [|(v1, d1) items IH]; intros [|p1 dflts] H; try discriminate; cbn in *; [reflexivity|]. injection H as -> H. eapply IH. exact H. }
      congruence.
Qed.
Print Assumptions C46_collect_values.
Lemma do_extend_spec {A P} (l : list (pair A P)) : forall inner,
  do_extend false l true (Pn inner None) = 
  (fix go l inner := match l with
     | [] => (Some done, Pn inner None)
     | PPunctuated v p :: r => go r (inner ++ [(v, p)])
     | PEnd v :: [] => (Some done, Pn inner (Some v))
     | PEnd v :: _ :: _ => (None, Pn inner (Some v))
     end) l inner.
Proof. induction l as [|[v p|v] l IH]; intro inner; cbn; [reflexivity|apply IH|destruct l; reflexivity]. Qed.
(** [FromIterator<Pair<T, P>>]: succeeds exactly on the pairs of some sequence, and gives that one. *)
Theorem C46_collect_pairs : forall A P (l : list (pair A P)) x, pn_collect_pairs l = Some x <-> into_pairs x = l.
Proof.
  intros A P l x. unfold pn_collect_pairs, pn_new.
  assert (G : forall l inner y, do_extend false l true (Pn inner None : punctuated A P) = (Some done, y) <->
     exists inner', pn_inner y = inner ++ inner' /\ into_pairs (Pn inner' (pn_last y)) = l).
  { clear. induction l as [|[v p|v] l IH]; intros inner y; rewrite do_extend_spec.
    - split.
      + intro H. injection H as <-. exists []. cbn. rewrite app_nil_r. auto.
      + intros (inner' & H1 & H2). destruct inner' as [|(a, b) i']; [|discriminate]. destruct y as [i [z|]]; [discriminate|]. cbn in *. rewrite app_nil_r in H1. subst. reflexivity.
    - rewrite <- do_extend_spec, IH. split.
      + intros (i' & H1 & <-). exists ((v, p) :: i'). rewrite H1, <- app_assoc. auto.
      + intros (i' & H1 & H2). destruct i' as [|(a, b) i']; [destruct (pn_last y); discriminate|]. cbn in H2. injection H2 as -> -> <-. exists i'. rewrite <- app_assoc. auto.
    - destruct l as [|q l].
      + split.
        * intro H. injection H as <-. exists []. cbn. rewrite app_nil_r. auto.
        * intros (i' & H1 & H2). destruct i' as [|(a, b) i']; [|discriminate]. destruct y as [i [z|]]; [|discriminate]. cbn in *. injection H2 as ->. rewrite app_nil_r in H1. subst. reflexivity.
      + split; [discriminate|]. intros (i' & H1 & H2). destruct i' as [|(a, b) i']; [|discriminate]. destruct (pn_last y); discriminate. }
  specialize (G l [] x). cbn [app] in G. destruct (do_extend false l true (Pn [] None)) as ([[]|], y).
  - split.
    + intro H. injection H as ->. destruct (proj1 G eq_refl) as (i' & H1 & H2). destruct x as [i z]. cbn in *. subst. reflexivity.
    + intro H. assert (E : (Some done, y) = (Some done, x)). { apply G. exists (pn_inner x). split; [reflexivity|]. destruct x; exact H. } congruence.
  - split; [discriminate|]. intro H. exfalso. assert (E : (@None unit, y) = (Some done, x)). { apply G. exists (pn_inner x). split; [reflexivity|]. destruct x; exact H. } discriminate.
Qed.
Print Assumptions C46_collect_pairs.
(** [Extend<Pair<T, P>>]: appends, after a default separator if there is an unseparated last
    value; returns exactly if the pairs are those of a sequence (nothing after a [Pair::End]). *)
Theorem C46_extend_pairs : forall A P (x y : punctuated A P) l p,
  pn_extend_pairs l (Some p) true x = (Some done, y) <->
  exists z, into_pairs z = l /\
    pn_inner y = pn_inner x ++ match pn_last x with Some v => [(v, p)] | None => [] end ++ pn_inner z /\ pn_last y = pn_last z.
Proof.
  intros A P x y l p.
  assert (G : forall l inner y, do_extend false l true (Pn inner None : punctuated A P) = (Some done, y) <->
     exists z, into_pairs z = l /\ pn_inner y = inner ++ pn_inner z /\ pn_last y = pn_last z).
  { clear. induction l as [|[v p|v] l IH]; intros inner y; rewrite do_extend_spec.
    - split.
      + intro H. injection H as <-. exists (Pn [] None). cbn. rewrite app_nil_r. auto.
      + intros ([[|(a, b) i'] [w|]] & H0 & H1 & H2); try discriminate. destruct y as [i z]. cbn in *. rewrite app_nil_r in H1. subst. reflexivity.
    - rewrite <- do_extend_spec, IH. split.
      + intros ([i' z] & <- & H1 & H2). exists (Pn ((v, p) :: i') z). cbn in *. rewrite H1, <- app_assoc. auto.
      + intros ([[|(a, b) i'] z] & H0 & H1 & H2); [destruct z; discriminate|]. cbn in H0. injection H0 as -> -> <-. exists (Pn i' z). cbn in *. rewrite <- app_assoc. auto.
    - destruct l as [|q l].
      + split.
        * intro H. injection H as <-. exists (Pn [] (Some v)). cbn. rewrite app_nil_r. auto.
        * intros ([[|(a, b) i'] [w|]] & H0 & H1 & H2); try discriminate. destruct y as [i z]. cbn in *. injection H0 as ->. rewrite app_nil_r in H1. subst. reflexivity.
      + split; [discriminate|]. intros ([[|(a, b) i'] [w|]] & H0 & H1 & H2); discriminate. }
  unfold pn_extend_pairs. destruct x as [inner [v|]]; cbn [empty_or_trailing pn_last pn_inner].
  - unfold mbind, muser. change (push_punct p (Pn inner (Some v))) with (Some done, Pn (inner ++ [(v, p)]) None). cbn iota beta. rewrite G.
    split; intros (z & H0 & H1 & H2); exists z; (split; [exact H0|]); (split; [|exact H2]); rewrite H1, <- ?app_assoc; reflexivity.
  - rewrite G. reflexivity.
Qed.
Print Assumptions C46_extend_pairs.
(** taking a sequence apart into pairs and collecting them again gives it back *)
Theorem C46_pairs_round_trip : forall A P (x : punctuated A P), pn_collect_pairs (into_pairs x) = Some x.
Proof. intros A P x. apply C46_collect_pairs. reflexivity. Qed.
Print Assumptions C46_pairs_round_trip.
Example C46_ex : exists x, pn_collect [(1, Some 7); (2, Some 8); (3, Some 9)] = Some x /\ values x = [1; 2; 3] /\ separators x = [8; 9] /\
  pn_collect_pairs [PPunctuated 1 7; PEnd 2; PEnd 3] = None.
Proof. eexists. split; [reflexivity|]. repeat split. Qed.
