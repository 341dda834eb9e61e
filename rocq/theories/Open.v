(** * Open: parsel's nodes and derived types with parts of any other type that implements [Parse]
    (C61).

    The grammars of [Grammar.v] are closed: every type in them is one of parsel's.  Here a part is
    any implementation of [syn::parse::Parse] whatsoever, hand-written or from another crate: a
    program that reads its [ParseStream] through the interface of syn ([written]). *)
From Verif Require Import Base Float Literal Syn Ast Derive Grammar Spec SynFacts Lawful Mono Combinators GrammarBeh Assoc.
Local Open Scope nat_scope.

(** An implementation of [Parse]: a function of the stream, with fuel for its loops and recursion
    (as [pty] in Grammar.v), that speculation can be used with. *)
Record impl (A : Type) := Impl {
  run : nat -> parser A;
  run_lawful : forall n, lawful (run n);
  run_mono : forall n m, n <= m -> le (run n) (run m) }.
Arguments Impl {A}. Arguments run {A}. Arguments run_lawful {A}. Arguments run_mono {A}.
(** what it does, without mentioning fuel *)
Definition does {A} (p : impl A) : behaviour A :=
  Beh (fun s v s' => exists n, run p n s = (OOk v, s')) (fun s e => exists n s', run p n s = (OErr e, s')).
Definition panics {A} (p : impl A) (s : pstate) : Prop := exists n s', run p n s = (OPanic, s').
Definition runs_forever {A} (p : impl A) (s : pstate) : Prop := forall n, fst (run p n s) = ODiverge.

(** ** Programs that use syn's interface. *)
(** run [p], then go on after success or after failure, from wherever it stopped *)
Definition catch {A B} (p : parser A) (y : A -> parser B) (q : error -> parser B) : parser B := fun s =>
  match p s with
  | (OOk v, s1) => y v s1
  | (OErr e, s1) => q e s1
  | (OPanic, s1) => (OPanic, s1)
  | (ODiverge, s1) => (ODiverge, s1)
  end.
(** run [p] on a fork that is thrown away, then go on knowing the result *)
Definition ahead {A B} (p : parser A) (k : A + error -> parser B) : parser B := fun s =>
  match fst (p (fork s)) with
  | OOk v => k (inl v) s
  | OErr e => k (inr e) s
  | OPanic => (OPanic, s)
  | ODiverge => (ODiverge, s)
  end.
(** [ParseBuffer::step] with a function of the cursor; [syn] reports the function's error *)
Definition step {A} (f : list tt -> (A * list tt) + text) : parser A := fun s =>
  match f (ps_rest s) with
  | inl (v, r) => (OOk v, set_rest s r)
  | inr m => (OErr (error_at s m), s)
  end.
Section Written.
Context {U : unicode}.
(** [proc x]: the procedures of the program, which may call each other; [X] holds their names and
    arguments. *)
Context {X V : Type} (proc : X -> nat -> parser V).
Inductive written : forall A : Type, (nat -> parser A) -> Prop :=
| wr_call x : written V (proc x)                                                   (* a procedure of the program *)
| wr_return A (v : A) : written A (fun _ => ret v)                                 (* Ok(v) *)
| wr_error A (e : error) : written A (fun _ => fail e)                             (* Err(e) *)
| wr_input_error A m : written A (fun _ s => (OErr (error_at s m), s))             (* Err(input.error(m)) *)
| wr_observe A (f : list tt -> span -> A) : written A (fun _ s => (OOk (f (ps_rest s) (ps_scope s)), s))   (* input.span(), cursor() *)
| wr_panic A : written A (fun _ s => (OPanic, s))                                  (* panic!() *)
| wr_step A f : (forall l v r, f l = inl (v, r) -> pops l r) -> written A (fun _ => step f)   (* input.step(f)?, any leaf of syn *)
| wr_look A (c : list tt -> bool) p q : written A p -> written A q ->
    written A (fun n s => if c (ps_rest s) then p n s else q n s)                  (* if input.peek(..), is_empty(), cursor() .. *)
| wr_map A B (f : A -> B) p : written A p -> written B (fun n => pmap f (p n))     (* input.call(p).map(f) *)
| wr_then A B p (k : A -> nat -> parser B) : written A p -> (forall v, written B (k v)) ->
    written B (fun n => bind (p n) (fun v => k v n))                               (* let v = input.call(p)?; k(v) *)
| wr_match A B p (y : A -> nat -> parser B) q : written A p -> (forall v, written B (y v)) -> (forall e, written B (q e)) ->
    written B (fun n => catch (p n) (fun v => y v n) (fun e => q e n))             (* match input.call(p) .. *)
| wr_try A B p (y : A -> nat -> parser B) q : written A p -> (forall v, written B (y v)) -> (forall e, written B (q e)) ->
    written B (fun n => speculate (p n) (fun v => y v n) (fun e => q e n))         (* fork, advance_to if Ok *)
| wr_ahead A B p (k : A + error -> nat -> parser B) : written A p -> (forall r, written B (k r)) ->
    written B (fun n => ahead (p n) (fun r => k r n))                              (* fork, not advanced *)
| wr_group A d p : written A p -> written (span * A) (fun n => p_group d (p n))    (* parenthesized!(content in input) .. *)
| wr_node E t : written val (fun n => pty E n t)                                         (* a closed parsel type *)
| wr_maybe P A p a : written P p -> written A a -> written (option (P * A)) (fun n => p_maybe (p n) (a n))
| wr_either L R l r : written L l -> written R r -> written (either L R) (fun n => p_either (l n) (r n))
| wr_any A a : written A a -> written (list A) (fun n => p_any n (a n))
| wr_separated A P a p : written A a -> written P p -> written (punctuated A P) (fun n => p_separated n (a n) (p n))
| wr_punctuated A P a p : written A a -> written P p -> written (punctuated A P) (fun n => p_punctuated n (a n) (p n))
| wr_left O R o r : written O o -> written R r -> written (left_assoc O R) (fun n => p_left_assoc n (o n) (r n))
| wr_right O L o l : written O o -> written L l -> written (right_assoc O L) (fun n => p_right_assoc n (o n) (l n))
| wr_struct W c (fs : list (label * (nat -> parser W))) : Forall (fun f => written W (snd f)) fs ->
    written (list W) (fun n => p_struct c (map (fun f => (fst f, snd f n)) fs))    (* #[derive(Parse)] struct *)
| wr_enum W e (cs : list (text * list (label * (nat -> parser W)))) : Forall (fun c => Forall (fun f => written W (snd f)) (snd c)) cs ->
    written (nat * list W) (fun n => p_enum e (map (fun c => (fst c, map (fun f => (fst f, snd f n)) (snd c))) cs)).

(** A program: procedures defined by such texts, possibly by mutual recursion. *)
Definition program (body : X -> nat -> parser V) : Prop :=
  (forall x, written V (body x)) /\ (forall x s, proc x 0 s = (ODiverge, s)) /\ (forall x n s, proc x (S n) s = body x n s).

Lemma lawful_catch {A B} (p : parser A) (y : A -> parser B) q : lawful p -> (forall v, lawful (y v)) -> (forall e, lawful (q e)) -> lawful (catch p y q).
Proof.
  intros Hp Hy Hq. split.
  - intros s o s' H. unfold catch in H. destruct (p s) as [[v|e| |] s1] eqn:E; pose proof (proj1 Hp _ _ _ E) as F.
    + eapply frame_trans; [exact F|]. eapply Hy; exact H.
    + eapply frame_trans; [exact F|]. eapply Hq; exact H.
    + injection H as <- <-. exact F.
    + injection H as <- <-. exact F.
  - intro s. unfold catch. destruct (p s) as [o s1] eqn:E. destruct (lawful_fork p s o s1 Hp E) as (fk & Ef & -> & _ & Hsc). rewrite Ef.
    assert (E1 : fork (advance_to s fk) = fork fk) by (unfold fork; cbn; rewrite Hsc; reflexivity).
    destruct o as [v|e| |]; try reflexivity.
    + destruct (Hy v) as [_ Ho]. rewrite (Ho fk), (Ho (advance_to s fk)), E1. cbn. f_equal. apply advance_to_assoc.
    + destruct (Hq e) as [_ Ho]. rewrite (Ho fk), (Ho (advance_to s fk)), E1. cbn. f_equal. apply advance_to_assoc.
Qed.
Lemma lawful_ahead {A B} (p : parser A) (k : A + error -> parser B) : lawful p -> (forall r, lawful (k r)) -> lawful (ahead p k).
Proof.
  intros Hp Hk. split.
  - intros s o s' H. unfold ahead in H. destruct (fst (p (fork s))) as [v|e| |]; [eapply Hk; exact H|eapply Hk; exact H| |]; injection H as <- <-; apply frame_refl.
  - intro s. unfold ahead. rewrite fork_fork. destruct (fst (p (fork s))) as [v|e| |]; try apply Hk; cbn; rewrite advance_to_fork_self; reflexivity.
Qed.
Lemma frame_pops s r : pops (ps_rest s) r -> frame s (set_rest s r).
Proof. intro H. split; [exact H|]. split; [reflexivity|]. split; cbn; [auto|]. intros sp -> Q. discriminate Q. Qed.
Lemma lawful_step {A} (f : list tt -> (A * list tt) + text) : (forall l v r, f l = inl (v, r) -> pops l r) -> lawful (step f).
Proof.
  intro Hf. split.
  - intros s o s' H. unfold step in H. destruct (f (ps_rest s)) as [(v, r)|m] eqn:E; injection H as <- <-; [apply frame_pops; eapply Hf; exact E|apply frame_refl].
  - intro s. unfold step. cbn [fork ps_rest]. destruct (f (ps_rest s)) as [(v, r)|m]; cbn [fst snd].
    + change (set_rest {| ps_rest := ps_rest s; ps_scope := ps_scope s; ps_unexp := None |} r) with (set_rest (fork s) r). rewrite advance_set_rest. reflexivity.
    + change {| ps_rest := ps_rest s; ps_scope := ps_scope s; ps_unexp := None |} with (fork s). rewrite error_at_fork, advance_to_fork_self. reflexivity.
Qed.
Lemma lawful_look {A} (c : list tt -> bool) (p q : parser A) : lawful p -> lawful q -> lawful (fun s => if c (ps_rest s) then p s else q s).
Proof.
  intros Hp Hq. split.
  - intros s o s' H. destruct (c (ps_rest s)); [eapply Hp|eapply Hq]; exact H.
  - intro s. cbn [fork ps_rest]. destruct (c (ps_rest s)); [apply Hp|apply Hq].
Qed.
Lemma lawful_observe {A} (f : list tt -> span -> A) : lawful (fun s => (OOk (f (ps_rest s) (ps_scope s)), s)).
Proof.
  split; [intros s o s' H; injection H as <- <-; apply frame_refl|]. intro s. cbn [fst snd].
  rewrite advance_to_fork_self. reflexivity.
Qed.
Lemma lawful_input_error {A} m : lawful (fun s => (@OErr A (error_at s m), s)).
Proof.
  split; [intros s o s' H; injection H as <- <-; apply frame_refl|]. intro s. cbn [fst snd]. rewrite error_at_fork, advance_to_fork_self. reflexivity.
Qed.
Lemma written_lawful A p : written A p -> forall n, (forall x, lawful (proc x n)) -> lawful (p n).
Proof.
  revert A p. fix IH 3. intros A p H n Hx. destruct H as [x|A v|A e|A m|A f|A|A f Hf|A c p q Hp Hq|A B f p Hp|A B p k Hp Hk|A B p y q Hp Hy Hq|A B p y q Hp Hy Hq|A B p k Hp Hk|A d p Hp|E t|P A p a Hp Ha|L R l r Hl Hr|A a Ha|A P a p Ha Hp|A P a p Ha Hp|O R o r Ho Hr|O L o l Ho Hl|W c fs Hf|W e cs Hc].
  - apply Hx.
  - apply lawful_ret.
  - apply lawful_fail.
  - apply lawful_input_error.
  - apply lawful_observe.
  - apply (lawful_pure OPanic).
  - apply lawful_step. exact Hf.
  - apply lawful_look; apply (IH _ _); assumption.
  - apply lawful_pmap. apply (IH _ _); assumption.
  - apply lawful_bind; [apply (IH _ _); assumption|]. intro v. apply (IH _ _ (Hk v)). exact Hx.
  - apply lawful_catch; [apply (IH _ _); assumption|intro v; apply (IH _ _ (Hy v)); exact Hx|intro e; apply (IH _ _ (Hq e)); exact Hx].
  - apply lawful_speculate; [apply (IH _ _); assumption|intro v; apply (IH _ _ (Hy v)); exact Hx|intro e; apply (IH _ _ (Hq e)); exact Hx].
  - apply lawful_ahead; [apply (IH _ _); assumption|]. intro v. apply (IH _ _ (Hk v)). exact Hx.
  - apply lawful_group. apply (IH _ _); assumption.
  - apply lawful_pty.
  - apply lawful_maybe; apply (IH _ _); assumption.
  - apply lawful_either; apply (IH _ _); assumption.
  - apply lawful_any; apply (IH _ _); assumption.
  - apply lawful_separated; apply (IH _ _); assumption.
  - apply lawful_terminated; apply (IH _ _); assumption.
  - apply lawful_left_assoc; apply (IH _ _); assumption.
  - apply lawful_right_assoc; apply (IH _ _); assumption.
  - apply lawful_fields. apply Forall_map. induction Hf as [|f fs Hf Hfs IHf]; constructor; [apply (IH _ _ Hf); exact Hx|exact IHf].
  - apply lawful_enum. apply Forall_map. induction Hc as [|c cs Hf Hcs IHc]; constructor; [|exact IHc]. clear IHc Hcs. cbn [snd].
    apply Forall_map. destruct c as (c, fs). cbn [snd] in *. induction Hf as [|f fs Hf Hfs IHf]; constructor; [apply (IH _ _ Hf); exact Hx|exact IHf].
Qed.
Lemma le_catch {A B} (p p' : parser A) (y y' : A -> parser B) q q' : le p p' -> (forall v, le (y v) (y' v)) -> (forall e, le (q e) (q' e)) -> le (catch p y q) (catch p' y' q').
Proof.
  intros Hp Hy Hq s. unfold catch. destruct (Hp s) as [E|E].
  - destruct (p s) as [[v|e| |] s1]; cbn in E; try discriminate E. left. reflexivity.
  - rewrite E. destruct (p' s) as [[v|e| |] s1]; try (right; reflexivity); [apply Hy|apply Hq].
Qed.
Lemma le_ahead {A B} (p p' : parser A) (k k' : A + error -> parser B) : le p p' -> (forall r, le (k r) (k' r)) -> le (ahead p k) (ahead p' k').
Proof.
  intros Hp Hk s. unfold ahead. destruct (Hp (fork s)) as [E|E].
  - rewrite E. left. reflexivity.
  - rewrite E. destruct (fst (p' (fork s))) as [v|e| |]; try (right; reflexivity); apply Hk.
Qed.
Lemma le_look {A} (c : list tt -> bool) (p q p' q' : parser A) : le p p' -> le q q' ->
  le (fun s => if c (ps_rest s) then p s else q s) (fun s => if c (ps_rest s) then p' s else q' s).
Proof. intros H1 H2 s. destruct (c (ps_rest s)); [apply H1|apply H2]. Qed.
Lemma written_mono A p : written A p -> forall n m, n <= m -> (forall x, le (proc x n) (proc x m)) -> le (p n) (p m).
Proof.
  revert A p. fix IH 3. intros A p H n m Hn Hx. destruct H as [x|A v|A e|A msg|A f|A|A f Hf|A c p q Hp Hq|A B f p Hp|A B p k Hp Hk|A B p y q Hp Hy Hq|A B p y q Hp Hy Hq|A B p k Hp Hk|A d p Hp|E t|P A p a Hp Ha|L R l r Hl Hr|A a Ha|A P a p Ha Hp|A P a p Ha Hp|O R o r Ho Hr|O L o l Ho Hl|W c fs Hf|W e cs Hc].
  - apply Hx.
  - apply le_refl.
  - apply le_refl.
  - apply le_refl.
  - apply le_refl.
  - apply le_refl.
  - apply le_refl.
  - apply le_look; apply (IH _ _); assumption.
  - apply le_pmap. apply (IH _ _); assumption.
  - apply le_bind; [apply (IH _ _); assumption|]. intro v. apply (IH _ _ (Hk v)); assumption.
  - apply le_catch; [apply (IH _ _); assumption|intro v; apply (IH _ _ (Hy v)); assumption|intro e; apply (IH _ _ (Hq e)); assumption].
  - apply le_speculate; [apply (IH _ _); assumption|intro v; apply (IH _ _ (Hy v)); assumption|intro e; apply (IH _ _ (Hq e)); assumption].
  - apply le_ahead; [apply (IH _ _); assumption|]. intro v. apply (IH _ _ (Hk v)); assumption.
  - apply le_group. apply (IH _ _); assumption.
  - apply le_pty. exact Hn.
  - apply le_maybe; apply (IH _ _); assumption.
  - apply le_either; apply (IH _ _); assumption.
  - apply le_any; [exact Hn|]; apply (IH _ _); assumption.
  - apply le_separated; [exact Hn| |]; apply (IH _ _); assumption.
  - apply le_terminated; [exact Hn| |]; apply (IH _ _); assumption.
  - apply le_left_assoc; [exact Hn| |]; apply (IH _ _); assumption.
  - apply le_right_assoc; [exact Hn| |]; apply (IH _ _); assumption.
  - apply le_fields. induction Hf as [|f fs Hf Hfs IHf]; cbn [map]; constructor; [|exact IHf]. split; [reflexivity|]. apply (IH _ _ Hf); assumption.
  - apply le_variants. induction Hc as [|c cs Hf Hcs IHc]; cbn [map]; constructor; [|exact IHc]. clear IHc Hcs. split; [reflexivity|]. cbn [snd].
    destruct c as (c, fs). cbn [snd] in *. induction Hf as [|f fs Hf Hfs IHf]; cbn [map]; constructor; [|exact IHf]. split; [reflexivity|]. apply (IH _ _ Hf); assumption.
Qed.
Lemma program_lawful body : program body -> forall n x, lawful (proc x n).
Proof.
  intros (Hb & H0 & HS) n. induction n as [|n IH]; intro x.
  - apply (lawful_ext (fun s => (ODiverge, s))); [intro; symmetry; apply H0|]. apply (lawful_pure ODiverge).
  - apply (lawful_ext (body x n)); [intro; symmetry; apply HS|]. apply (written_lawful _ _ (Hb x)). exact IH.
Qed.
Lemma program_mono body : program body -> forall n m x, n <= m -> le (proc x n) (proc x m).
Proof.
  intros (Hb & H0 & HS) n. induction n as [|n IH]; intros m x Hn.
  - intro s. left. rewrite H0. reflexivity.
  - destruct m as [|m]; [lia|]. apply (le_ext (body x n) _ (body x m)); [intro; apply HS|intro; apply HS|]. apply (written_mono _ _ (Hb x)); [lia|]. intro y. apply IH. lia.
Qed.
(** Every piece of such a program is an implementation. *)
Definition implementation body (Hb : program body) A p (H : written A p) : impl A :=
  Impl p (fun n => written_lawful A p H n (program_lawful body Hb n))
         (fun n m Hn => written_mono A p H n m Hn (fun x => program_mono body Hb n m x Hn)).
End Written.

(** ** The nodes over arbitrary implementations: the [Parse] impls cited at the parsers of Ast.v and Derive.v. *)
Definition i_map {A B} (f : A -> B) (a : impl A) : impl B :=
  Impl (fun n => pmap f (run a n)) (fun n => lawful_pmap f _ (run_lawful a n)) (fun n m Hn => le_pmap f _ _ (run_mono a n m Hn)).
Definition i_maybe {P A} (p : impl P) (a : impl A) : impl (option (P * A)) :=
  Impl (fun n => p_maybe (run p n) (run a n)) (fun n => lawful_maybe _ _ (run_lawful p n) (run_lawful a n))
       (fun n m Hn => le_maybe _ _ _ _ (run_mono p n m Hn) (run_mono a n m Hn)).
Definition i_either {L R} (l : impl L) (r : impl R) : impl (either L R) :=
  Impl (fun n => p_either (run l n) (run r n)) (fun n => lawful_either _ _ (run_lawful l n) (run_lawful r n))
       (fun n m Hn => le_either _ _ _ _ (run_mono l n m Hn) (run_mono r n m Hn)).
Definition i_any {A} (a : impl A) : impl (list A) :=
  Impl (fun n => p_any n (run a n)) (fun n => lawful_any n _ (run_lawful a n)) (fun n m Hn => le_any n m _ _ Hn (run_mono a n m Hn)).
Definition i_separated {A P} (a : impl A) (p : impl P) : impl (punctuated A P) :=
  Impl (fun n => p_separated n (run a n) (run p n)) (fun n => lawful_separated n _ _ (run_lawful a n) (run_lawful p n))
       (fun n m Hn => le_separated n m _ _ _ _ Hn (run_mono a n m Hn) (run_mono p n m Hn)).
Definition i_punctuated {A P} (a : impl A) (p : impl P) : impl (punctuated A P) :=
  Impl (fun n => p_punctuated n (run a n) (run p n)) (fun n => lawful_terminated n _ _ (run_lawful a n) (run_lawful p n))
       (fun n m Hn => le_terminated n m _ _ _ _ Hn (run_mono a n m Hn) (run_mono p n m Hn)).
Definition i_group {A} (d : delim) (a : impl A) : impl (span * A) :=
  Impl (fun n => p_group d (run a n)) (fun n => lawful_group d _ (run_lawful a n)) (fun n m Hn => le_group d _ _ (run_mono a n m Hn)).
Definition i_left {O R} (o : impl O) (r : impl R) : impl (left_assoc O R) :=
  Impl (fun n => p_left_assoc n (run o n) (run r n)) (fun n => lawful_left_assoc n _ _ (run_lawful o n) (run_lawful r n))
       (fun n m Hn => le_left_assoc n m _ _ _ _ Hn (run_mono o n m Hn) (run_mono r n m Hn)).
Definition i_right {O L} (o : impl O) (l : impl L) : impl (right_assoc O L) :=
  Impl (fun n => p_right_assoc n (run o n) (run l n)) (fun n => lawful_right_assoc n _ _ (run_lawful o n) (run_lawful l n))
       (fun n m Hn => le_right_assoc n m _ _ _ _ Hn (run_mono o n m Hn) (run_mono l n m Hn)).
Definition at_fuel {V} (n : nat) (fs : list (label * impl V)) : list (label * parser V) := map (fun f => (fst f, run (snd f) n)) fs.
Lemma at_fuel_lawful {V} n (fs : list (label * impl V)) : Forall (fun f => lawful (snd f)) (at_fuel n fs).
Proof. apply Forall_map, Forall_forall. intros f _. apply run_lawful. Qed.
Lemma at_fuel_mono {V} n m (fs : list (label * impl V)) : n <= m -> Forall2 (fun f g => fst f = fst g /\ le (snd f) (snd g)) (at_fuel n fs) (at_fuel m fs).
Proof. intro Hn. induction fs as [|f fs IH]; cbn; constructor; [|exact IH]. split; [reflexivity|]. apply run_mono. exact Hn. Qed.
Definition i_struct {V} (c : text) (fs : list (label * impl V)) : impl (list V) :=
  Impl (fun n => p_struct c (at_fuel n fs)) (fun n => lawful_fields [] c _ (at_fuel_lawful n fs)) (fun n m Hn => le_fields [] c _ _ (at_fuel_mono n m fs Hn)).
Definition at_fuels {V} (n : nat) (cs : list (text * list (label * impl V))) := map (fun c => (fst c, at_fuel n (snd c))) cs.
Lemma at_fuels_lawful {V} n (cs : list (text * list (label * impl V))) : Forall (fun v => Forall (fun f => lawful (snd f)) (snd v)) (at_fuels n cs).
Proof. apply Forall_map, Forall_forall. intros c _. apply at_fuel_lawful. Qed.
Lemma at_fuels_mono {V} n m (cs : list (text * list (label * impl V))) : n <= m ->
  Forall2 (fun v w => fst v = fst w /\ Forall2 (fun f g => fst f = fst g /\ le (snd f) (snd g)) (snd v) (snd w)) (at_fuels n cs) (at_fuels m cs).
Proof. intro Hn. induction cs as [|c cs IH]; cbn; constructor; [|exact IH]. split; [reflexivity|]. apply at_fuel_mono. exact Hn. Qed.
Definition i_enum {V} (e : text) (cs : list (text * list (label * impl V))) : impl (nat * list V) :=
  Impl (fun n => p_enum e (at_fuels n cs)) (fun n => lawful_enum e _ (at_fuels_lawful n cs)) (fun n m Hn => le_variants e _ _ (at_fuels_mono n m cs Hn) 0 None).
(** a closed parsel type *)
Definition i_node {U : unicode} (E : env) (t : ty) : impl val :=
  Impl (fun n => pty E n t) (fun n => lawful_pty E n t) (fun n m Hn => le_pty E n m t Hn).

(** ** What they do. *)
Section One.
Context {A : Type} (a : impl A).
Lemma run_keep n m s o s' : n <= m -> run a n s = (o, s') -> o <> ODiverge -> run a m s = (o, s').
Proof. intros Hn H Ho. destruct (run_mono a n m Hn s) as [E|E]; [rewrite H in E; cbn in E; contradiction|congruence]. Qed.
Lemma at_le n m : n <= m -> ble (of_parser (run a n)) (of_parser (run a m)).
Proof.
  intro Hn. split.
  - intros s v s' H. cbn in *. eapply run_keep; [exact Hn|exact H|discriminate].
  - intros s e (s' & H). exists s'. eapply run_keep; [exact Hn|exact H|discriminate].
Qed.
Lemma at_does n : ble (of_parser (run a n)) (does a).
Proof. split; cbn; eauto. Qed.
Lemma run_fork_compact s l s' : run_yes (does a) s l s' -> exists n, run_yes (of_parser (run a n)) s l s'.
Proof.
  induction 1 as [s e (n & s1 & H)|s v s1 vs s2 (n & H) Hr (m & IH)].
  - exists n. econstructor. exists s1. exact H.
  - exists (n + m). econstructor; [apply (at_le n); [lia|]; exact H|]. eapply run_yes_mono; [|exact IH]. apply at_le. lia.
Qed.
End One.
Section Two.
Context {A P : Type} (a : impl A) (p : impl P).
Lemma tail_compact' s l s' : tail_yes (does a) (does p) s l s' -> exists n, tail_yes (of_parser (run a n)) (of_parser (run p n)) s l s'.
Proof.
  induction 1 as [s e (n & s1 & H)|s x s1 v s2 l s3 (n1 & H1) (n2 & H2) Hr (m & IH)].
  - exists n. econstructor. exists s1. exact H.
  - exists (n1 + n2 + m). econstructor; [apply (at_le p n1); [lia|]; exact H1|apply (at_le a n2); [lia|]; exact H2|].
    eapply tail_yes_mono; [| |exact IH]; apply at_le; lia.
Qed.
Lemma tail_no_compact' s e : tail_no (does a) (does p) s e -> exists n, tail_no (of_parser (run a n)) (of_parser (run p n)) s e.
Proof.
  induction 1 as [s x s1 e (n1 & H1) (n2 & s2 & H2)|s x s1 v s2 e (n1 & H1) (n2 & H2) Hr (m & IH)].
  - exists (n1 + n2). eapply tail_fail; [apply (at_le p n1); [lia|]; exact H1|apply (at_le a n2); [lia|]; exists s2; exact H2].
  - exists (n1 + n2 + m). eapply tail_later; [apply (at_le p n1); [lia|]; exact H1|apply (at_le a n2); [lia|]; exact H2|].
    eapply tail_no_mono; [| |exact IH]; apply at_le; lia.
Qed.
Lemma fill_compact' s l o s' : fill_yes (does a) (does p) s l o s' -> exists n, fill_yes (of_parser (run a n)) (of_parser (run p n)) s l o s'.
Proof.
  induction 1 as [s E0|s v s1 E0 (n & H1) E1|s v s1 x s2 l o s3 E0 (n1 & H1) E1 (n2 & H2) Hr (m & IH)].
  - exists 0. apply fill_end. exact E0.
  - exists n. apply fill_last; assumption.
  - exists (n1 + n2 + m). eapply fill_step; [exact E0|apply (at_le a n1); [lia|]; exact H1|exact E1|apply (at_le p n2); [lia|]; exact H2|].
    eapply fill_yes_mono; [| |exact IH]; apply at_le; lia.
Qed.
Lemma fill_no_compact' s e : fill_no (does a) (does p) s e -> exists n, fill_no (of_parser (run a n)) (of_parser (run p n)) s e.
Proof.
  induction 1 as [s e E0 (n & s' & H)|s v s1 e E0 (n1 & H1) E1 (n2 & s' & H)|s v s1 x s2 e E0 (n1 & H1) E1 (n2 & H2) Hr (m & IH)].
  - exists n. apply fill_no_item; [exact E0|]. exists s'. exact H.
  - exists (n1 + n2). eapply fill_no_punct; [exact E0|apply (at_le a n1); [lia|]; exact H1|exact E1|apply (at_le p n2); [lia|]; exists s'; exact H].
  - exists (n1 + n2 + m). eapply fill_no_later; [exact E0|apply (at_le a n1); [lia|]; exact H1|exact E1|apply (at_le p n2); [lia|]; exact H2|].
    eapply fill_no_mono; [| |exact IH]; apply at_le; lia.
Qed.
End Two.

Lemma i_map_yes {A B} (f : A -> B) a s w s' : yes (does (i_map f a)) s w s' <-> exists v, w = f v /\ yes (does a) s v s'.
Proof.
  split.
  - intros (n & H). apply pmap_ok in H as (v & H & ->). exists v. split; [reflexivity|]. exists n. exact H.
  - intros (v & -> & n & H). exists n. apply pmap_ok. exists v. auto.
Qed.
Lemma i_map_no {A B} (f : A -> B) a s e : no (does (i_map f a)) s e <-> no (does a) s e.
Proof. split; intros (n & s' & H); exists n, s'; apply (pmap_err f); exact H. Qed.
Lemma i_maybe_yes {P A} (p : impl P) (a : impl A) s v s' : yes (does (i_maybe p a)) s v s' <->
  (exists e, v = None /\ s' = s /\ no (does p) s e) \/ (exists x w s1, v = Some (x, w) /\ yes (does p) s x s1 /\ yes (does a) s1 w s').
Proof.
  split.
  - intros (n & H). apply (maybe_ok _ _ _ _ _ (run_lawful p n)) in H. destruct v as [(x, w)|].
    + destruct H as (s1 & H1 & H2). right. exists x, w, s1. split; [reflexivity|]. split; eapply at_does; eassumption.
    + destruct H as ((e & H) & ->). left. exists e. repeat split. eapply at_does; exact H.
  - intros [(e & -> & -> & (n & s1 & H))|(x & w & s1 & -> & (n & H1) & (m & H2))].
    + exists n. apply (maybe_ok _ _ _ _ _ (run_lawful p n)). split; [|reflexivity]. exists e, s1. exact H.
    + exists (n + m). apply (maybe_ok _ _ _ _ _ (run_lawful p _)). exists s1. split; [apply (at_le p n); [lia|]; exact H1|apply (at_le a m); [lia|]; exact H2].
Qed.
Lemma i_maybe_no {P A} (p : impl P) (a : impl A) s e : no (does (i_maybe p a)) s e <-> exists x s1, yes (does p) s x s1 /\ no (does a) s1 e.
Proof.
  split.
  - intros (n & H). apply (maybe_err _ _ _ _ (run_lawful p n)) in H as (x & s1 & H1 & H2). exists x, s1. split; eapply at_does; eassumption.
  - intros (x & s1 & (n & H1) & (m & s2 & H2)). exists (n + m). apply (maybe_err _ _ _ _ (run_lawful p _)).
    exists x, s1. split; [apply (at_le p n); [lia|]; exact H1|apply (at_le a m); [lia|]; exists s2; exact H2].
Qed.
Lemma i_either_yes {L R} (l : impl L) (r : impl R) s v s' : yes (does (i_either l r)) s v s' <->
  (exists w, v = ELeft w /\ yes (does l) s w s') \/ (exists e w, v = ERight w /\ no (does l) s e /\ yes (does r) s w s').
Proof.
  split.
  - intros (n & H). apply (either_ok _ _ _ _ _ (run_lawful l n) (run_lawful r n)) in H. destruct v as [w|w].
    + left. exists w. split; [reflexivity|]. eapply at_does; exact H.
    + destruct H as ((e & H1) & H2). right. exists e, w. split; [reflexivity|]. split; eapply at_does; eassumption.
  - intros [(w & -> & (n & H))|(e & w & -> & (n & s1 & H1) & (m & H2))].
    + exists n. apply (either_ok _ _ _ _ _ (run_lawful l n) (run_lawful r n)). exact H.
    + exists (n + m). apply (either_ok _ _ _ _ _ (run_lawful l _) (run_lawful r _)).
      split; [exists e; apply (at_le l n); [lia|]; exists s1; exact H1|apply (at_le r m); [lia|]; exact H2].
Qed.
Lemma i_either_no {L R} (l : impl L) (r : impl R) s e : no (does (i_either l r)) s e <->
  exists e1 e2, no (does l) s e1 /\ no (does r) s e2 /\ reported [e1; e2] e.
Proof.
  split.
  - intros (n & H). apply (either_err _ _ _ _ (run_lawful l n) (run_lawful r n)) in H as (e1 & e2 & H1 & H2 & H3).
    exists e1, e2. split; [|split; [|exact H3]]; eapply at_does; eassumption.
  - intros (e1 & e2 & (n & s1 & H1) & (m & s2 & H2) & H3). exists (n + m). apply (either_err _ _ _ _ (run_lawful l _) (run_lawful r _)).
    exists e1, e2. split; [|split; [|exact H3]]; [apply (at_le l n); [lia|]; exists s1; exact H1|apply (at_le r m); [lia|]; exists s2; exact H2].
Qed.
Lemma i_any_yes {A} (a : impl A) s l s' : yes (does (i_any a)) s l s' <-> run_yes (does a) s l s'.
Proof.
  split.
  - intros (n & H). apply (any_loop_ok _ (run_lawful a n)) in H as (l0 & -> & H). cbn [rev app]. eapply run_yes_mono; [apply at_does|exact H].
  - intro H. apply run_fork_compact in H as (n & H). set (N := n + S (List.length l)). exists N.
    assert (H' : run_yes (of_parser (run a N)) s l s') by (eapply run_yes_mono; [apply at_le|exact H]; lia).
    pose proof (any_loop_ok_conv _ (run_lawful a N) _ _ _ H' []) as Hc. cbn [rev app] in Hc.
    destruct (le_any (S (List.length l)) N _ _ ltac:(lia) (le_refl (run a N)) s) as [Hd|Hd]; unfold p_any in Hd.
    + rewrite Hc in Hd. discriminate Hd.
    + change (run (i_any a) N s) with (any_loop N (run a N) [] s). congruence.
Qed.
Lemma i_any_no {A} (a : impl A) s e : ~ no (does (i_any a)) s e.
Proof. intros (n & s' & H). eapply any_never_err. exact H. Qed.
Lemma i_separated_yes {A P} (a : impl A) (p : impl P) s x s' : yes (does (i_separated a p)) s x s' <->
  exists v s1 l, yes (does a) s v s1 /\ tail_yes (does a) (does p) s1 l s' /\ x = Pn (fst (pairs_of v l)) (Some (snd (pairs_of v l))).
Proof.
  split.
  - intros (n & H). apply bind_ok in H as (v & s1 & H1 & H2). apply (separated_loop_ok _ _ (run_lawful p n)) in H2 as (l & H2 & ->).
    exists v, s1, l. split; [exists n; exact H1|]. split; [|reflexivity]. eapply tail_yes_mono; [apply at_does|apply at_does|exact H2].
  - intros (v & s1 & l & (n & H1) & H2 & ->). apply tail_compact' in H2 as (m & H2). set (N := n + m + S (List.length l)). exists N. apply bind_ok. exists v, s1.
    split; [apply (at_le a n N); [lia|exact H1]|].
    assert (H' : tail_yes (of_parser (run a N)) (of_parser (run p N)) s1 l s') by (eapply tail_yes_mono; [apply at_le|apply at_le|exact H2]; lia).
    pose proof (separated_loop_ok_conv _ _ (run_lawful p N) _ _ _ H' [] v) as Hc. cbn [rev app] in Hc.
    destruct (le_separated_loop (S (List.length l)) N _ _ _ _ ltac:(lia) (le_refl (run a N)) (le_refl (run p N)) [] v s1) as [Hd|Hd].
    + rewrite Hc in Hd. discriminate Hd.
    + congruence.
Qed.
Lemma i_separated_no {A P} (a : impl A) (p : impl P) s e : no (does (i_separated a p)) s e <->
  no (does a) s e \/ exists v s1, yes (does a) s v s1 /\ tail_no (does a) (does p) s1 e.
Proof.
  split.
  - intros (n & s' & H). apply bind_err in H as [H|(v & s1 & H1 & H2)].
    + left. exists n, s'. exact H.
    + right. exists v, s1. split; [exists n; exact H1|]. apply (separated_loop_err _ _ (run_lawful p n)) in H2. eapply tail_no_mono; [apply at_does|apply at_does|exact H2].
  - intros [(n & s' & H)|(v & s1 & (n & H1) & H2)].
    + exists n, s'. apply bind_err. left. exact H.
    + apply tail_no_compact' in H2 as (m & H2). destruct (separated_loop_err_conv _ _ (run_lawful p m) _ _ H2) as (k & Hk). destruct (Hk [] v) as (s' & Hk').
      exists (n + m + k), s'. apply bind_err. right. exists v, s1. split; [apply (at_le a n); [lia|exact H1]|].
      destruct (le_separated_loop k (n + m + k) _ _ _ _ ltac:(lia) (run_mono a m (n+m+k) ltac:(lia)) (run_mono p m (n+m+k) ltac:(lia)) [] v s1) as [Hd|Hd].
      * rewrite Hk' in Hd. discriminate Hd.
      * congruence.
Qed.
Lemma i_punctuated_yes {A P} (a : impl A) (p : impl P) s x s' : yes (does (i_punctuated a p)) s x s' <->
  exists l o, x = Pn l o /\ fill_yes (does a) (does p) s l o s'.
Proof.
  split.
  - intros (n & H). apply terminated_loop_ok in H as (l & o & H & ->). cbn [rev app]. exists l, o. split; [reflexivity|]. eapply fill_yes_mono; [apply at_does|apply at_does|exact H].
  - intros (l & o & -> & H). apply fill_compact' in H as (n & H). set (N := n + S (List.length l)). exists N.
    assert (H' : fill_yes (of_parser (run a N)) (of_parser (run p N)) s l o s') by (eapply fill_yes_mono; [apply at_le|apply at_le|exact H]; lia).
    pose proof (terminated_loop_ok_conv _ _ _ _ _ _ H' []) as Hc. cbn [rev app] in Hc.
    destruct (le_terminated (S (List.length l)) N _ _ _ _ ltac:(lia) (le_refl (run a N)) (le_refl (run p N)) s) as [Hd|Hd]; unfold p_terminated in Hd.
    + rewrite Hc in Hd. discriminate Hd.
    + change (run (i_punctuated a p) N s) with (terminated_loop N (run a N) (run p N) [] s). congruence.
Qed.
Lemma i_punctuated_no {A P} (a : impl A) (p : impl P) s e : no (does (i_punctuated a p)) s e <-> fill_no (does a) (does p) s e.
Proof.
  split.
  - intros (n & s' & H). apply terminated_loop_err in H. eapply fill_no_mono; [apply at_does|apply at_does|exact H].
  - intro H. apply fill_no_compact' in H as (n & H). destruct (terminated_loop_err_conv _ _ _ _ H) as (k & Hk). destruct (Hk []) as (s' & Hk').
    exists (n + k), s'. destruct (le_terminated k (n + k) _ _ _ _ ltac:(lia) (run_mono a n (n+k) ltac:(lia)) (run_mono p n (n+k) ltac:(lia)) s) as [Hd|Hd]; unfold p_terminated in Hd.
    + rewrite Hk' in Hd. discriminate Hd.
    + change (run (i_punctuated a p) (n + k) s) with (terminated_loop (n + k) (run a (n + k)) (run p (n + k)) [] s). congruence.
Qed.
Lemma i_group_yes {A} d (a : impl A) s x s' : yes (does (i_group d a)) s x s' <->
  exists sp w inner r si, x = (sp, w) /\ ignore_none (ps_rest s) = TGroup d sp inner :: r /\
    yes (does a) (PS inner (close_span sp) (ps_unexp s)) w si /\ s' = PS r (ps_scope s) (drop_unexp (ps_unexp si) (ps_rest si)).
Proof.
  split.
  - intros (n & H). destruct x as (sp, w). apply group_ok in H as (inner & r & si & H1 & H2 & ->). exists sp, w, inner, r, si. split; [reflexivity|]. split; [exact H1|]. split; [exists n; exact H2|reflexivity].
  - intros (sp & w & inner & r & si & -> & H1 & (n & H2) & ->). exists n. apply group_ok. exists inner, r, si. auto.
Qed.
Lemma i_group_no {A} d (a : impl A) s e : no (does (i_group d a)) s e <->
  (exists sp inner r, ignore_none (ps_rest s) = TGroup d sp inner :: r /\ no (does a) (PS inner (close_span sp) (ps_unexp s)) e) \/
  ((forall sp inner r, ignore_none (ps_rest s) <> TGroup d sp inner :: r) /\ e = error_at s (delim_msg d)).
Proof.
  split.
  - intros (n & H). apply group_err in H as [(sp & inner & r & H1 & H2)|H]; [left|right; exact H]. exists sp, inner, r. split; [exact H1|]. eapply at_does; exact H2.
  - intros [(sp & inner & r & H1 & (n & s1 & H2))|H].
    + exists n. apply group_err. left. exists sp, inner, r. split; [exact H1|]. exists s1. exact H2.
    + exists 0. apply group_err. right. exact H.
Qed.
Lemma pairs_of_inj {A P} (x y : A) (l m : list (P * A)) : fst (pairs_of x l) = fst (pairs_of y m) -> snd (pairs_of x l) = snd (pairs_of y m) -> y = x /\ m = l.
Proof.
  intros H1 H2. assert (HE : unpairs (fst (pairs_of x l)) (snd (pairs_of x l)) = unpairs (fst (pairs_of y m)) (snd (pairs_of y m))) by congruence.
  rewrite !unpairs_pairs in HE. injection HE as -> ->. auto.
Qed.
Lemma i_left_yes {O R} (o : impl O) (r : impl R) s t s' : yes (does (i_left o r)) s t s' <->
  exists x s1 l, yes (does r) s x s1 /\ tail_yes (does r) (does o) s1 l s' /\ left_form x l t.
Proof.
  split.
  - intros (n & H). apply (left_assoc_ok n _ _ _ _ _ (run_lawful o n)) in H as (x & l & H & Hf).
    destruct (proj1 (i_separated_yes r o s _ s') (ex_intro _ n H)) as (v & s1 & l2 & H1 & H2 & E). exists v, s1, l2. split; [exact H1|]. split; [exact H2|].
    injection E as E1 E2. destruct (pairs_of_inj _ _ _ _ E1 E2) as (-> & ->). exact Hf.
  - intros (x & s1 & l & H1 & H2 & Hf). destruct (proj2 (i_separated_yes r o s (Pn (fst (pairs_of x l)) (Some (snd (pairs_of x l)))) s')) as (n & H); [eauto 8|].
    exists n. apply (left_assoc_ok n _ _ _ _ _ (run_lawful o n)). exists x, l. auto.
Qed.
Lemma i_left_no {O R} (o : impl O) (r : impl R) s e : no (does (i_left o r)) s e <->
  no (does r) s e \/ exists v s1, yes (does r) s v s1 /\ tail_no (does r) (does o) s1 e.
Proof.
  rewrite <- i_separated_no. split; intros (n & s' & H); exists n, s'; apply (left_assoc_err n _ _ _ _ _ (run_lawful o n)); exact H.
Qed.
Lemma i_right_yes {O L} (o : impl O) (r : impl L) s t s' : yes (does (i_right o r)) s t s' <->
  exists x s1 l, yes (does r) s x s1 /\ tail_yes (does r) (does o) s1 l s' /\ right_form x l t.
Proof.
  split.
  - intros (n & H). apply (right_assoc_ok n _ _ _ _ _ (run_lawful o n)) in H as (x & l & H & Hf).
    destruct (proj1 (i_separated_yes r o s _ s') (ex_intro _ n H)) as (v & s1 & l2 & H1 & H2 & E). exists v, s1, l2. split; [exact H1|]. split; [exact H2|].
    injection E as E1 E2. destruct (pairs_of_inj _ _ _ _ E1 E2) as (-> & ->). exact Hf.
  - intros (x & s1 & l & H1 & H2 & Hf). destruct (proj2 (i_separated_yes r o s (Pn (fst (pairs_of x l)) (Some (snd (pairs_of x l)))) s')) as (n & H); [eauto 8|].
    exists n. apply (right_assoc_ok n _ _ _ _ _ (run_lawful o n)). exists x, l. auto.
Qed.
Lemma i_right_no {O L} (o : impl O) (r : impl L) s e : no (does (i_right o r)) s e <->
  no (does r) s e \/ exists v s1, yes (does r) s v s1 /\ tail_no (does r) (does o) s1 e.
Proof.
  rewrite <- i_separated_no. split; intros (n & s' & H); exists n, s'; apply (right_assoc_err n _ _ _ _ _ (run_lawful o n)); exact H.
Qed.

(** Derived types. *)
Definition parts {V} (fs : list (label * impl V)) : list (behaviour V) := map (fun f => does (snd f)) fs.
Lemma at_fuel_parts {V} n (fs : list (label * impl V)) : Forall2 ble (map (fun f : label * parser V => of_parser (snd f)) (at_fuel n fs)) (parts fs).
Proof. unfold at_fuel, parts. induction fs as [|f fs IH]; cbn [map]; constructor; [apply at_does|exact IH]. Qed.
Lemma at_fuel_up {V} n m (fs : list (label * impl V)) : n <= m -> Forall2 ble (map (fun f : label * parser V => of_parser (snd f)) (at_fuel n fs)) (map (fun f : label * parser V => of_parser (snd f)) (at_fuel m fs)).
Proof. intro Hn. unfold at_fuel. induction fs as [|f fs IH]; cbn [map]; constructor; [apply at_le; exact Hn|exact IH]. Qed.
Lemma parts_compact {V} (fs : list (label * impl V)) s vs s' : seq_yes (parts fs) s vs s' -> exists n, seq_yes (map (fun f : label * parser V => of_parser (snd f)) (at_fuel n fs)) s vs s'.
Proof.
  revert s vs. induction fs as [|f fs IH]; intros s vs H; cbn in H.
  - inversion H; subst. exists 0. constructor.
  - inversion H as [|b bs s0 v s1 vs0 s2 Hy Hr]; subst. destruct Hy as (n & Hy). apply IH in Hr as (m & Hr). exists (n + m). cbn [at_fuel map]. econstructor.
    + apply (at_le (snd f) n); [lia|]. exact Hy.
    + eapply seq_yes_mono; [|exact Hr]. apply at_fuel_up. lia.
Qed.
Lemma parts_no_compact {V} (fs : list (label * impl V)) s k e : seq_no (parts fs) s k e -> exists n, seq_no (map (fun f : label * parser V => of_parser (snd f)) (at_fuel n fs)) s k e.
Proof.
  intros (b & vs & s1 & Hb & Hs & Hn). unfold parts in Hb, Hs. rewrite firstn_map in Hs. apply (parts_compact (firstn k fs)) in Hs as (n & Hs).
  rewrite nth_error_map in Hb. destruct (nth_error fs k) as [f|] eqn:Ef; [|discriminate Hb]. cbn in Hb. injection Hb as <-. destruct Hn as (m & s2 & Hn).
  exists (n + m), (of_parser (run (snd f) (n + m))), vs, s1. unfold at_fuel in *. split; [rewrite !nth_error_map, Ef; reflexivity|]. split.
  - rewrite map_map in *. rewrite firstn_map. eapply seq_yes_mono; [|exact Hs]. clear. induction (firstn k fs) as [|f l IH]; cbn [map]; constructor; [apply at_le; lia|exact IH].
  - apply (at_le (snd f) m); [lia|]. exists s2. exact Hn.
Qed.
Lemma parts_yes {V} en ct (fs : list (label * impl V)) s vs s' : (exists n, p_fields en ct (at_fuel n fs) s = (OOk vs, s')) <-> seq_yes (parts fs) s vs s'.
Proof.
  split.
  - intros (n & H). apply fields_ok in H. eapply seq_yes_mono; [apply at_fuel_parts|exact H].
  - intro H. apply parts_compact in H as (n & H). exists n. apply fields_ok. exact H.
Qed.
Lemma parts_no {V} en ct (fs : list (label * impl V)) s e : (exists n s', p_fields en ct (at_fuel n fs) s = (OErr e, s')) <->
  exists k f e0, nth_error fs k = Some f /\ seq_no (parts fs) s k e0 /\ e = chained [context en ct (fst f)] e0.
Proof.
  split.
  - intros (n & H). apply fields_err in H as (k & l & p & e0 & H1 & H2 & ->). unfold at_fuel in H1. rewrite nth_error_map in H1. destruct (nth_error fs k) as [f|] eqn:Ek; [|discriminate H1].
    injection H1 as <- <-. exists k, f, e0. split; [exact Ek|]. split; [|reflexivity]. eapply seq_no_mono; [apply at_fuel_parts|exact H2].
  - intros (k & f & e0 & H1 & H2 & ->). apply parts_no_compact in H2 as (n & H2). exists n. apply fields_err. exists k, (fst f), (run (snd f) n), e0. split; [|split; [exact H2|reflexivity]].
    unfold at_fuel. rewrite nth_error_map, H1. reflexivity.
Qed.
Lemma i_struct_yes {V} c (fs : list (label * impl V)) s vs s' : yes (does (i_struct c fs)) s vs s' <-> seq_yes (parts fs) s vs s'.
Proof. apply (parts_yes [] c). Qed.
Lemma i_struct_no {V} c (fs : list (label * impl V)) s e : no (does (i_struct c fs)) s e <->
  exists k f e0, nth_error fs k = Some f /\ seq_no (parts fs) s k e0 /\ e = chained [Hop None c (fst f)] e0.
Proof. apply (parts_no [] c). Qed.
(** variant [c] of enum [en] fails from [s] with error [e] *)
Definition variant_no {V} (en : text) (c : text * list (label * impl V)) (s : pstate) (e : error) : Prop :=
  exists k f e0, nth_error (snd c) k = Some f /\ seq_no (parts (snd c)) s k e0 /\ e = chained [context en (fst c) (fst f)] e0.
Lemma vlawful {V} en n (cs : list (text * list (label * impl V))) : Forall (fun v => lawful (vparser en v)) (at_fuels n cs).
Proof. apply Forall_map, Forall_forall. intros c _. apply lawful_fields, at_fuel_lawful. Qed.
Lemma fields_keep {V} en ct (fs : list (label * impl V)) n m s o s' : n <= m -> o <> ODiverge -> p_fields en ct (at_fuel n fs) s = (o, s') -> p_fields en ct (at_fuel m fs) s = (o, s').
Proof.
  intros Hn Ho H. destruct (le_fields en ct _ _ (at_fuel_mono n m fs Hn) s) as [H1|H1]; [rewrite H in H1; cbn in H1; contradiction|congruence].
Qed.
Lemma i_enum_yes {V} en (cs : list (text * list (label * impl V))) s k vs s' : yes (does (i_enum en cs)) s (k, vs) s' <->
  exists c, nth_error cs k = Some c /\ seq_yes (parts (snd c)) s vs s' /\ forall j d, j < k -> nth_error cs j = Some d -> exists e, variant_no en d s e.
Proof.
  split.
  - intros (n & H). apply (variants_ok en _ (vlawful en n cs)) in H as (i & v & -> & H1 & H2 & H3). cbn [Nat.add]. unfold at_fuels in H1. rewrite nth_error_map in H1.
    destruct (nth_error cs i) as [c|] eqn:Ec; [|discriminate H1]. injection H1 as <-. exists c. split; [reflexivity|]. split; [apply (parts_yes en (fst c)); exists n; exact H2|].
    intros j d Hj Hd. destruct (H3 j (fst d, at_fuel n (snd d)) Hj) as (e & s1 & He); [unfold at_fuels; rewrite nth_error_map, Hd; reflexivity|].
    exists e. apply parts_no. exists n, s1. exact He.
  - intros (c & Hc & Hy & Hb). apply (parts_yes en (fst c)) in Hy as (n & Hy).
    assert (HN : exists m, forall j d, j < k -> nth_error cs j = Some d -> exists e s1, p_fields en (fst d) (at_fuel m (snd d)) s = (OErr e, s1)).
    { clear Hc. revert Hb. generalize cs. induction k as [|k IH]; intros l Hb; [exists 0; intros; lia|]. destruct l as [|d l]; [exists 0; intros [|j] ? ? Q; discriminate Q|].
      destruct (IH l) as (m & Hm); [intros j d' Hj Hd; apply (Hb (S j)); [lia|exact Hd]|]. destruct (Hb 0 d ltac:(lia) eq_refl) as (e & He). apply parts_no in He as (m' & s1 & He).
      exists (m + m'). intros [|j] d' Hj Hd.
      - injection Hd as <-. exists e, s1. eapply fields_keep; [|discriminate|exact He]. lia.
      - destruct (Hm j d' ltac:(lia) Hd) as (e2 & s2 & H2). exists e2, s2. eapply fields_keep; [|discriminate|exact H2]. lia. }
    destruct HN as (m & HN). exists (n + m). apply (variants_ok en _ (vlawful en (n + m) cs)). exists k, (fst c, at_fuel (n + m) (snd c)). split; [reflexivity|].
    split; [unfold at_fuels; rewrite nth_error_map, Hc; reflexivity|]. split; [eapply fields_keep; [|discriminate|exact Hy]; lia|].
    intros j w Hj Hw. unfold at_fuels in Hw. rewrite nth_error_map in Hw. destruct (nth_error cs j) as [d|] eqn:Ed; [|discriminate Hw]. injection Hw as <-.
    destruct (HN j d Hj Ed) as (e & s1 & He). exists e, s1. eapply fields_keep; [|discriminate|exact He]. lia.
Qed.
Lemma i_enum_no {V} en (cs : list (text * list (label * impl V))) s e : no (does (i_enum en cs)) s e <->
  exists errs, Forall2 (fun c x => variant_no en c s x) cs errs /\ (reported errs e \/ cs = [] /\ e = error_at s (T "parsing an empty choice (enum) always fails")).
Proof.
  split.
  - intros (n & s' & H). apply (variants_err en _ (vlawful en n cs)) in H as (-> & errs & H1 & H2). exists errs. split.
    + clear H2. unfold at_fuels in H1. revert errs H1. induction cs as [|c cs IH]; intros errs H1; inversion H1 as [|? ? ? ? (s1 & Hx) Hr]; subst; constructor; [|apply IH; exact Hr]. apply parts_no. exists n, s1. exact Hx.
    + destruct errs as [|x errs].
      * right. split; [destruct cs; [reflexivity|inversion H1]|exact H2].
      * left. destruct (fold_reported0 x errs) as (r & Hr & Hrep). cbn [fold_left] in H2. cbn [fold_left] in Hr. rewrite Hr in H2. rewrite H2. exact Hrep.
  - intros (errs & H1 & H2).
    assert (HN : exists n, Forall2 (fun v x => exists s1, vparser en v s = (OErr x, s1)) (at_fuels n cs) errs).
    { clear H2. induction H1 as [|c x cs errs Hc Hcs (n & IH)]; [exists 0; constructor|]. apply parts_no in Hc as (m & s1 & Hc). exists (n + m). cbn. constructor.
      - exists s1. eapply fields_keep; [|discriminate|exact Hc]. lia.
      - clear -IH. revert errs IH. induction cs as [|d cs IHc]; intros errs IH; inversion IH as [|? ? ? ? (s2 & Hx) Hr]; subst; constructor.
        + exists s2. eapply fields_keep; [|discriminate|exact Hx]. lia.
        + apply IHc. exact Hr. }
    destruct HN as (n & HN). pose proof (variants_err_conv en _ (vlawful en n cs) s errs HN 0 None) as HV. exists n, s. change (run (i_enum en cs) n s) with (p_variants en 0 None (at_fuels n cs) s).
    rewrite HV. f_equal. f_equal. destruct errs as [|x errs].
    + inversion H1; subst. destruct H2 as [(i0 & H2 & _)|(_ & ->)]; [destruct i0; discriminate H2|]. reflexivity.
    + destruct (fold_reported0 x errs) as (r & Hr & Hrep). rewrite Hr. destruct H2 as [H2|(-> & _)]; [|inversion H1]. eapply reported_unique; eassumption.
Qed.
