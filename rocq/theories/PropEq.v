(** * PropEq: C53, what [==], [cmp] and [hash] mean on whole syntax trees. *)
From Verif Require Import Base Float Literal Syn Ast Derive Grammar Spec LitSpec Conv ConvFacts Reprint Writable Typed ParsedTyped NodeEq.
From Verif Require Import Mono TermCheck PropLit Examples LL1 LL1Facts LL1Check PropLL1 PropRoundtrip Lexer Fmt LexWf PropLex PropStr TypedWritable.
Local Open Scope nat_scope.

(** ** Specification: a tree with everything forgotten that equality should not see. *)
(** the value of a literal without the sign of a zero *)
Definition plus_zero (l : lit) : lit :=
  match l with LFloat (FFin _ 0%N e) => LFloat (FFin false 0 e) | _ => l end.
Fixpoint plus_zeros (v : val) : val :=
  match v with
  | VLit l sp => VLit (plus_zero l) sp
  | VJust p x => VJust (plus_zeros p) (plus_zeros x)
  | VGroup d sp x => VGroup d sp (plus_zeros x)
  | VPunct inner last => VPunct (map (fun '(x, y) => (plus_zeros x, plus_zeros y)) inner) (option_map plus_zeros last)
  | VList l => VList (map plus_zeros l)
  | VBinL l o r => VBinL (plus_zeros l) (plus_zeros o) (plus_zeros r)
  | VRhs r => VRhs (plus_zeros r)
  | VBinR l o r => VBinR (plus_zeros l) (plus_zeros o) (plus_zeros r)
  | VLhs l => VLhs (plus_zeros l)
  | VLeft x => VLeft (plus_zeros x)
  | VRight x => VRight (plus_zeros x)
  | VStruct l => VStruct (map plus_zeros l)
  | VVariant k l => VVariant k (map plus_zeros l)
  | _ => v
  end.
(** the leaves of a tree *)
Fixpoint leaf_nodes (v : val) : list val :=
  match v with
  | VJust x y => leaf_nodes x ++ leaf_nodes y
  | VGroup _ _ x | VRhs x | VLhs x | VLeft x | VRight x => leaf_nodes x
  | VPunct inner last =>
      List.concat (map (fun '(x, y) => leaf_nodes x ++ leaf_nodes y) inner) ++ match last with Some x => leaf_nodes x | None => [] end
  | VList l | VStruct l | VVariant _ l => List.concat (map leaf_nodes l)
  | VBinL l o r | VBinR l o r => leaf_nodes l ++ leaf_nodes o ++ leaf_nodes r
  | _ => [v]
  end.
(** What the Rust types guarantee: an operator has one location per character; literals hold values of
    their type. *)
Definition leaf_proper (v : val) : Prop :=
  match v with VOp op sps => List.length sps = List.length op | VLit l _ => lit_valid l | _ => True end.
Definition proper (v : val) : Prop := forall x, In x (leaf_nodes v) -> leaf_proper x.
(** no floating-point literal is a negative zero *)
Definition no_minus_zero (v : val) : Prop := forall l, In l (val_lits v) -> plus_zero l = l.

(** ** properness of the parts *)
Lemma proper_forall v : proper v <-> Forall leaf_proper (leaf_nodes v).
Proof. unfold proper. rewrite Forall_forall. reflexivity. Qed.
Lemma proper_list l : Forall leaf_proper (List.concat (map leaf_nodes l)) <-> Forall proper l.
Proof.
  induction l as [|x l IH]; cbn [map List.concat]; [split; constructor|]. rewrite Forall_app, IH, <- proper_forall. split; [intros (A & B); constructor; assumption|].
  intro H. inversion H; subst. split; assumption.
Qed.
Lemma proper_pairs l : Forall leaf_proper (List.concat (map (fun '(x, y) => leaf_nodes x ++ leaf_nodes y) l)) <-> Forall (fun x : val * val => proper (fst x) /\ proper (snd x)) l.
Proof.
  induction l as [|(x, y) l IH]; cbn [map List.concat]; [split; constructor|]. rewrite !Forall_app, IH, <- !proper_forall. split; [intros (A & B); constructor; assumption|].
  intro H. inversion H; subst. split; assumption.
Qed.

(** ** literals *)
Lemma node_eqb_plus a b s1 s2 : lit_valid a -> lit_valid b -> node_eqb (a, s1) (b, s2) = true <-> plus_zero a = plus_zero b.
Proof.
  intros Ha Hb. unfold node_eqb. cbn [fst]. destruct a, b; cbn [plus_zero]; try (split; [discriminate|]; intro H; congruence);
    try (destruct f as [? [|?] ?|?]; split; intro H; discriminate H).
  - destruct b0, b; cbn; split; congruence.
  - rewrite N.eqb_eq. split; congruence.
  - rewrite Z.eqb_eq. split; congruence.
  - rewrite Z.eqb_eq. split; congruence.
  - destruct f as [n1 m1 e1|[]], f0 as [n2 m2 e2|[]]; cbn [f64_cmp]; try (split; [discriminate|]; try (destruct m1); try (destruct m2); congruence); try (split; congruence).
    cbn [lit_valid] in Ha, Hb. destruct (Z.compare_spec (f64_num n1 m1 e1) (f64_num n2 m2 e2)) as [H|H|H].
    + split; [intros _|reflexivity]. destruct (f64_num_inj _ _ _ _ _ _ Ha Hb H) as (-> & -> & [Hz| ->]); [subst; reflexivity|reflexivity].
    + split; [discriminate|]. intro E. exfalso. destruct m1, m2; try discriminate E; injection E; intros; subst; unfold f64_num in H; cbn in H; revert H; apply Z.lt_irrefl || idtac.
      all: try (destruct n1, n2; cbn; apply Z.lt_irrefl).
    + split; [discriminate|]. intro E. exfalso. destruct m1, m2; try discriminate E; injection E; intros; subst; unfold f64_num in H; cbn in H; revert H; apply Z.lt_irrefl || idtac.
      all: try (destruct n1, n2; cbn; apply Z.lt_irrefl).
  - rewrite N.eqb_eq. split; congruence.
  - rewrite text_eqb_eq. split; congruence.
  - rewrite text_eqb_eq. split; congruence.
Qed.
Lemma node_eqb_refl a s1 s2 : node_eqb (a, s1) (a, s2) = true.
Proof.
  unfold node_eqb. cbn [fst]. destruct a; rewrite ?N.eqb_refl, ?Z.eqb_refl, ?text_eqb_refl, ?eqb_reflx; try reflexivity.
  destruct f as [n m e|[]]; try reflexivity. cbn [f64_cmp]. rewrite Z.compare_refl. reflexivity.
Qed.
Lemma node_eqb_sym a b : node_eqb a b = true -> node_eqb b a = true.
Proof. rewrite <- !node_cmp_eqb. intro H. rewrite node_cmp_opp, H. reflexivity. Qed.
Lemma node_eqb_trans a b c : node_eqb a b = true -> node_eqb b c = true -> node_eqb a c = true.
Proof. rewrite <- !node_cmp_eqb. apply node_cmp_trans. Qed.

(** ** lists *)
Lemma list_eqb_forall {A} (f : A -> A -> bool) a : forall b, list_eqb f a b = true <-> Forall2 (fun x y => f x y = true) a b.
Proof.
  induction a as [|x a IH]; destruct b as [|y b]; cbn; try (split; [discriminate|]; intro H; inversion H; fail); [split; [constructor|reflexivity]|].
  rewrite andb_true_iff. fold (list_eqb f a b). rewrite IH. split; [intros (H1 & H2); constructor; assumption|]. intro H. inversion H; subst. split; assumption.
Qed.
Lemma Forall2_map {A B} (R : A -> A -> Prop) (F : A -> B) (P : A -> Prop) a : Forall (fun x => forall y, P x -> P y -> R x y <-> F x = F y) a ->
  forall b, Forall P a -> Forall P b -> Forall2 R a b <-> map F a = map F b.
Proof.
  induction 1 as [|x a Hx Ha IH]; intros b Pa Pb.
  - destruct b; cbn; split; try discriminate; try constructor. intro H. inversion H.
  - destruct b as [|y b]; cbn [map]; [split; [intro H; inversion H|discriminate]|]. inversion Pa; subst. inversion Pb; subst. split.
    + intro H. inversion H; subst. f_equal; [apply Hx; assumption|apply IH; assumption].
    + intro H. injection H as E1 E2. constructor; [apply Hx; assumption|apply IH; assumption].
Qed.

(** ** equality of trees *)
Notation bare v := (strip (plus_zeros v)).
Lemma veqb_bare v : forall w, proper v -> proper w -> veqb v w = true <-> bare v = bare w.
Proof.
  assert (L : forall l l', Forall (fun v => forall w, proper v -> proper w -> veqb v w = true <-> bare v = bare w) l -> Forall proper l -> Forall proper l' ->
    list_eqb (fun a b => veqb a b) l l' = true <-> map strip (map plus_zeros l) = map strip (map plus_zeros l')).
  { intros l l' H P1 P2. rewrite list_eqb_forall, !map_map. apply (Forall2_map _ _ proper); assumption. }
  induction v as [n sp|k sp|op sps|l sp| | |x y IHx IHy|d sp x IHx|inner last IHi IHl|l IHl|l o r IH1 IH2 IH3|x IHx|l o r IH1 IH2 IH3|x IHx|x IHx|x IHx|l IHl|k l IHl] using val_ind'; intros w Hv Hw;
    destruct w as [n' sp'|k' sp'|op' sps'|l' sp'| | |x' y'|d' sp' x'|inner' last'|l'|l' o' r'|x'|l' o' r'|x'|x'|x'|l'|k' l']; cbn [veqb plus_zeros strip]; try (split; intro; discriminate); try (split; reflexivity);
    rewrite proper_forall in Hv, Hw; cbn [leaf_nodes] in Hv, Hw.
  - rewrite text_eqb_eq. split; congruence.
  - rewrite text_eqb_eq. split; congruence.
  - rewrite text_eqb_eq. inversion Hv as [|? ? H1 _]; subst. inversion Hw as [|? ? H2 _]; subst. cbn [leaf_proper] in H1, H2. split; [|congruence].
    intros ->. f_equal. rewrite <- H2 in H1. clear -H1. revert sps' H1. induction sps as [|s sps IH]; intros [|s' sps'] H; try discriminate; [reflexivity|]. cbn. f_equal. apply IH. cbn in H. congruence.
  - inversion Hv as [|? ? H1 _]; subst. inversion Hw as [|? ? H2 _]; subst. cbn [leaf_proper] in H1, H2. rewrite (node_eqb_plus l l' sp sp' H1 H2). split; congruence.
  - rewrite Forall_app, <- !proper_forall in Hv, Hw. destruct Hv, Hw. rewrite andb_true_iff, IHx, IHy by assumption. split; [intros (-> & ->); reflexivity|intro E; injection E; auto].
  - rewrite <- proper_forall in Hv, Hw. rewrite andb_true_iff, delim_eqb_eq, IHx by assumption. split; [intros (-> & ->); reflexivity|intro E; injection E; auto].
  - rewrite Forall_app, proper_pairs in Hv, Hw. destruct Hv as (Hv1 & Hv2), Hw as (Hw1 & Hw2). rewrite andb_true_iff, list_eqb_forall.
    assert (A : Forall2 (fun a b : val * val => (let '(x, p) := a in let '(y, q) := b in veqb x y && veqb p q) = true) inner inner' <->
                map (fun '(x, y) => (strip x, strip y)) (map (fun '(x, y) => (plus_zeros x, plus_zeros y)) inner) = map (fun '(x, y) => (strip x, strip y)) (map (fun '(x, y) => (plus_zeros x, plus_zeros y)) inner')).
    { rewrite !map_map. apply (Forall2_map _ _ (fun x => proper (fst x) /\ proper (snd x))); [|assumption|assumption].
      eapply Forall_impl; [|exact IHi]. intros (x, y) (Ix & Iy) (x', y') (Px & Py) (Px' & Py'). cbn [fst snd] in *. rewrite andb_true_iff, Ix, Iy by assumption.
      split; [intros (-> & ->); reflexivity|intro E; injection E; auto]. }
    rewrite A. assert (B : match last, last' with Some x, Some y => veqb x y | None, None => true | _, _ => false end = true <-> option_map strip (option_map plus_zeros last) = option_map strip (option_map plus_zeros last')).
    { destruct last as [x|], last' as [y|]; cbn [option_map]; try (split; (discriminate || reflexivity)). rewrite (IHl x eq_refl) by (apply proper_forall; assumption). split; congruence. }
    rewrite B. split; [intros (-> & ->); reflexivity|intro E; injection E; auto].
  - rewrite proper_list in Hv, Hw. rewrite (L l l' IHl Hv Hw). split; [intros ->; reflexivity|intro E; injection E; auto].
  - rewrite !Forall_app, <- !proper_forall in Hv, Hw. destruct Hv as (? & ? & ?), Hw as (? & ? & ?). rewrite !andb_true_iff, IH1, IH2, IH3 by assumption. split; [intros ((-> & ->) & ->); reflexivity|intro E; injection E; auto].
  - rewrite <- proper_forall in Hv, Hw. rewrite IHx by assumption. split; [intros ->; reflexivity|intro E; injection E; auto].
  - rewrite !Forall_app, <- !proper_forall in Hv, Hw. destruct Hv as (? & ? & ?), Hw as (? & ? & ?). rewrite !andb_true_iff, IH1, IH2, IH3 by assumption. split; [intros ((-> & ->) & ->); reflexivity|intro E; injection E; auto].
  - rewrite <- proper_forall in Hv, Hw. rewrite IHx by assumption. split; [intros ->; reflexivity|intro E; injection E; auto].
  - rewrite <- proper_forall in Hv, Hw. rewrite IHx by assumption. split; [intros ->; reflexivity|intro E; injection E; auto].
  - rewrite <- proper_forall in Hv, Hw. rewrite IHx by assumption. split; [intros ->; reflexivity|intro E; injection E; auto].
  - rewrite proper_list in Hv, Hw. rewrite (L l l' IHl Hv Hw). split; [intros ->; reflexivity|intro E; injection E; auto].
  - rewrite proper_list in Hv, Hw. rewrite andb_true_iff, Nat.eqb_eq, (L l l' IHl Hv Hw). split; [intros (-> & ->); reflexivity|intro E; injection E; auto].
Qed.
Lemma list_eqb_refl {A} (f : A -> A -> bool) l : Forall (fun x => f x x = true) l -> list_eqb f l l = true.
Proof. intro H. apply list_eqb_forall. induction H; constructor; assumption. Qed.
Lemma veqb_refl v : veqb v v = true.
Proof.
  induction v as [n sp|k sp|op sps|l sp| | |x y IHx IHy|d sp x IHx|inner last IHi IHl|l IHl|l o r IH1 IH2 IH3|x IHx|l o r IH1 IH2 IH3|x IHx|x IHx|x IHx|l IHl|k l IHl] using val_ind'; cbn [veqb];
    rewrite ?text_eqb_refl, ?node_eqb_refl, ?delim_eqb_refl, ?Nat.eqb_refl, ?IHx, ?IHy, ?IH1, ?IH2, ?IH3; try reflexivity; try (apply list_eqb_refl; assumption).
  rewrite list_eqb_refl.
  - destruct last as [x|]; [exact (IHl x eq_refl)|reflexivity].
  - eapply Forall_impl; [|exact IHi]. intros (x, y) (Hx & Hy). cbn [fst snd] in *. rewrite Hx, Hy. reflexivity.
Qed.
Lemma list_eqb_sym {A} (f : A -> A -> bool) l : Forall (fun x => forall y, f x y = true -> f y x = true) l -> forall l', list_eqb f l l' = true -> list_eqb f l' l = true.
Proof.
  intros H l' E. apply list_eqb_forall in E. apply list_eqb_forall. induction E as [|x y l l' Ex El IH]; constructor; inversion H; subst; auto.
Qed.
Lemma list_eqb_trans {A} (f : A -> A -> bool) l : Forall (fun x => forall y z, f x y = true -> f y z = true -> f x z = true) l ->
  forall l' l'', list_eqb f l l' = true -> list_eqb f l' l'' = true -> list_eqb f l l'' = true.
Proof.
  intros H l' l'' E E'. apply list_eqb_forall in E, E'. apply list_eqb_forall. revert l'' E'. induction E as [|x y l l' Ex El IH]; intros l'' E'; inversion E'; subst; constructor; inversion H; subst; eauto.
Qed.
Lemma veqb_sym v : forall w, veqb v w = true -> veqb w v = true.
Proof.
  induction v as [n sp|k sp|op sps|l sp| | |x y IHx IHy|d sp x IHx|inner last IHi IHl|l IHl|l o r IH1 IH2 IH3|x IHx|l o r IH1 IH2 IH3|x IHx|x IHx|x IHx|l IHl|k l IHl] using val_ind'; intros w;
    destruct w as [n' sp'|k' sp'|op' sps'|l' sp'| | |x' y'|d' sp' x'|inner' last'|l'|l' o' r'|x'|l' o' r'|x'|x'|x'|l'|k' l']; cbn [veqb]; try discriminate; auto;
    rewrite ?andb_true_iff, ?text_eqb_eq, ?delim_eqb_eq, ?Nat.eqb_eq; try (intuition auto; fail); try (apply list_eqb_sym; assumption).
  - apply node_eqb_sym.
  - intros (A & B). split.
    + revert A. apply list_eqb_sym. eapply Forall_impl; [|exact IHi]. intros (x, y) (Hx & Hy) (x', y'). cbn [fst snd] in *. rewrite !andb_true_iff. intuition auto.
    + destruct last as [x|], last' as [y|]; try discriminate; auto.
  - intros (A & B). split; [auto|]. revert B. apply list_eqb_sym; assumption.
Qed.
Lemma veqb_trans v : forall w u, veqb v w = true -> veqb w u = true -> veqb v u = true.
Proof.
  induction v as [n sp|k sp|op sps|l sp| | |x y IHx IHy|d sp x IHx|inner last IHi IHl|l IHl|l o r IH1 IH2 IH3|x IHx|l o r IH1 IH2 IH3|x IHx|x IHx|x IHx|l IHl|k l IHl] using val_ind'; intros w u;
    destruct w as [n' sp'|k' sp'|op' sps'|l' sp'| | |x' y'|d' sp' x'|inner' last'|l'|l' o' r'|x'|l' o' r'|x'|x'|x'|l'|k' l']; cbn [veqb]; try discriminate;
    destruct u as [n2 sp2|k2 sp2|op2 sps2|l2 sp2| | |x2 y2|d2 sp2 x2|inner2 last2|l2|l2 o2 r2|x2|l2 o2 r2|x2|x2|x2|l2|k2 l2]; try discriminate; auto;
    rewrite ?andb_true_iff, ?text_eqb_eq, ?delim_eqb_eq, ?Nat.eqb_eq; try (apply list_eqb_trans; assumption); try congruence; eauto.
  - apply node_eqb_trans.
  - intros (A & B) (A' & B'). split; eauto.
  - intros (A & B) (A' & B'). split; [congruence|eauto].
  - intros (A & B) (A' & B'). split.
    + revert A A'. apply list_eqb_trans. eapply Forall_impl; [|exact IHi]. intros (x, y) (Hx & Hy) (x', y') (x2, y2). cbn [fst snd] in *. rewrite !andb_true_iff. intros (? & ?) (? & ?). split; eauto.
    + destruct last as [x|], last' as [y|]; try discriminate; destruct last2; try discriminate; eauto.
  - intros ((A & B) & C) ((A' & B') & C'). repeat split; eauto.
  - intros ((A & B) & C) ((A' & B') & C'). repeat split; eauto.
  - intros (A & B) (A' & B'). split; [congruence|]. revert B B'. apply list_eqb_trans; assumption.
Qed.

(** ** hashing *)
Lemma list_hash (l l' : list val) : Forall (fun v => forall w, proper v -> proper w -> veqb v w = true -> vhash v = vhash w) l ->
  Forall proper l -> Forall proper l' -> list_eqb (fun a b => veqb a b) l l' = true -> List.concat (map vhash l) = List.concat (map vhash l') /\ List.length l = List.length l'.
Proof.
  intros H P P' E. apply list_eqb_forall in E. induction E as [|x y l l' Ex El IH]; [split; reflexivity|]. inversion H; subst. inversion P; subst. inversion P'; subst.
  destruct IH as (A & B); try assumption. cbn [map List.concat List.length]. split; [f_equal; auto|f_equal; exact B].
Qed.
Lemma vhash_eqb v : forall w, proper v -> proper w -> veqb v w = true -> vhash v = vhash w.
Proof.
  induction v as [n sp|k sp|op sps|l sp| | |x y IHx IHy|d sp x IHx|inner last IHi IHl|l IHl|l o r IH1 IH2 IH3|x IHx|l o r IH1 IH2 IH3|x IHx|x IHx|x IHx|l IHl|k l IHl] using val_ind'; intros w Hv Hw;
    destruct w as [n' sp'|k' sp'|op' sps'|l' sp'| | |x' y'|d' sp' x'|inner' last'|l'|l' o' r'|x'|l' o' r'|x'|x'|x'|l'|k' l']; cbn [veqb vhash]; try discriminate; try reflexivity;
    rewrite proper_forall in Hv, Hw; cbn [leaf_nodes] in Hv, Hw; rewrite ?andb_true_iff, ?Forall_app, <- ?proper_forall in *.
  - rewrite text_eqb_eq. intros ->. reflexivity.
  - inversion Hv as [|? ? H1 _]; subst. inversion Hw as [|? ? H2 _]; subst. apply node_hash_eqb; assumption.
  - intros (A & B). f_equal. f_equal; intuition auto.
  - intros (A & B). auto.
  - rewrite !proper_pairs in *. destruct Hv as (Hv & Hl), Hw as (Hw & Hl'). intros (A & B). apply list_eqb_forall in A.
    assert (C : List.concat (map (fun '(x, p) => vhash x ++ vhash p) inner) = List.concat (map (fun '(x, p) => vhash x ++ vhash p) inner') /\ List.length inner = List.length inner').
    { clear B IHl Hl Hl'. induction A as [|(x, y) (x', y') i i' Ex Ei IH]; [split; reflexivity|]. inversion IHi as [|? ? (I1 & I2) I3]; subst. inversion Hv as [|? ? (V1 & V2) V3]; subst. inversion Hw as [|? ? (W1 & W2) W3]; subst. cbn [fst snd] in *.
      apply andb_true_iff in Ex as (E1 & E2). destruct (IH I3 V3 W3) as (P & Q). cbn [map List.concat List.length]. rewrite (I1 x' V1 W1 E1), (I2 y' V2 W2 E2), P, Q. split; reflexivity. }
    destruct C as (-> & ->). f_equal. f_equal. destruct last as [x|], last' as [y|]; try discriminate B; [|reflexivity]. rewrite <- proper_forall in Hl, Hl'. f_equal. exact (IHl x eq_refl y Hl Hl' B).
  - rewrite !proper_list in *. intro A. destruct (list_hash l l' IHl Hv Hw A) as (-> & ->). reflexivity.
  - intros ((A & B) & C). f_equal. f_equal; [intuition auto|]. f_equal; intuition auto.
  - intro A. f_equal. auto.
  - intros ((A & B) & C). f_equal. f_equal; [intuition auto|]. f_equal; intuition auto.
  - intro A. f_equal. auto.
  - intro A. f_equal. auto.
  - intro A. f_equal. auto.
  - rewrite !proper_list in *. intro A. apply (list_hash l l' IHl Hv Hw A).
  - rewrite !proper_list in *. rewrite Nat.eqb_eq. intros (-> & A). f_equal. apply (list_hash l l' IHl Hv Hw A).
Qed.

(** ** order *)
(** the comparison of [x] with [z] given those of [x] with [y] and of [y] with [z] *)
Definition through (a b : comparison) : option comparison :=
  match a, b with Eq, c | c, Eq => Some c | Lt, Lt => Some Lt | Gt, Gt => Some Gt | _, _ => None end.
Lemma f64_eq_l x y z : f64_cmp x y = Eq -> f64_cmp x z = f64_cmp y z.
Proof. destruct x as [n1 m1 e1|[]], y as [n2 m2 e2|[]]; cbn; try discriminate; try reflexivity. intro H. apply Z.compare_eq_iff in H. destruct z as [n3 m3 e3|[]]; try reflexivity. rewrite H. reflexivity. Qed.
Lemma node_cmp_eq_l x y z c : node_cmp x y = Some Eq -> node_cmp y z = Some c -> node_cmp x z = Some c.
Proof.
  destruct x as (x, sx), y as (y, sy), z as (z, sz). unfold node_cmp. cbn [fst]. destruct x, y; try discriminate; intros H1; injection H1 as H1.
  - destruct b, b0; try discriminate; auto.
  - apply N.compare_eq_iff in H1. subst. auto.
  - apply Z.compare_eq_iff in H1. subst. auto.
  - apply Z.compare_eq_iff in H1. subst. auto.
  - destruct z; try discriminate. rewrite (f64_eq_l f f0 f1 H1). auto.
  - apply N.compare_eq_iff in H1. subst. auto.
  - apply list_cmp_eq in H1. subst. auto.
  - apply list_cmp_eq in H1. subst. auto.
Qed.
Lemma node_cmp_through x y z a b c : node_cmp x y = Some a -> node_cmp y z = Some b -> through a b = Some c -> node_cmp x z = Some c.
Proof.
  intros H1 H2 H3. assert (R : b = Eq -> node_cmp x z = Some a).
  { intros ->. rewrite node_cmp_opp. rewrite node_cmp_opp in H2. destruct (node_cmp z y) as [[]|] eqn:E; try discriminate. rewrite node_cmp_opp in H1. destruct (node_cmp y x) as [d|] eqn:D; [|discriminate].
    rewrite (node_cmp_eq_l z y x d E D). exact H1. }
  destruct a, b; cbn in H3; injection H3 as <- || discriminate; auto; try (eapply node_cmp_eq_l; eassumption); eapply node_cmp_trans; eassumption.
Qed.
Lemma lex_cmp_opp {A} (f : A -> A -> option comparison) a : Forall (fun x => forall y, f y x = option_map CompOpp (f x y)) a ->
  forall b, lex_cmp f b a = option_map CompOpp (lex_cmp f a b).
Proof.
  induction 1 as [|x a Hx Ha IH]; destruct b as [|y b]; try reflexivity. cbn [lex_cmp]. rewrite Hx. destruct (f x y) as [[]|]; cbn; try reflexivity. apply IH.
Qed.
Lemma lex_cmp_through {A} (f : A -> A -> option comparison) x : Forall (fun x => forall y z a b c, f x y = Some a -> f y z = Some b -> through a b = Some c -> f x z = Some c) x ->
  forall y z a b c, lex_cmp f x y = Some a -> lex_cmp f y z = Some b -> through a b = Some c -> lex_cmp f x z = Some c.
Proof.
  induction 1 as [|u x Hu Hx IH]; intros [|v y] [|w z] a b c; try discriminate.
  - cbn. intros [= <-] [= <-]. cbn. auto.
  - cbn [lex_cmp]. destruct (f u v) as [o1|] eqn:E1; [|discriminate]. destruct (f v w) as [o2|] eqn:E2; [|destruct o1; discriminate].
    specialize (Hu v w o1 o2). specialize (IH y z).
    destruct o1, o2; intros H1 H2 H3; cbn [through] in Hu; try (rewrite (Hu _ E1 E2 eq_refl)); try (eapply IH; eassumption);
      repeat match goal with H : Some _ = Some _ |- _ => injection H as <- end; try discriminate H3; cbn [through] in H3; try (destruct a); try (destruct b); cbn in H3; try discriminate H3; try (injection H3 as <-); reflexivity.
Qed.
Lemma lex_cmp_eq {A} (f : A -> A -> option comparison) (g : A -> A -> bool) a : Forall (fun x => forall y, f x y <> None -> f x y = Some Eq <-> g x y = true) a ->
  forall b, lex_cmp f a b <> None -> lex_cmp f a b = Some Eq <-> list_eqb g a b = true.
Proof.
  induction 1 as [|x a Hx Ha IH]; intros [|y b] H; try (split; [discriminate|discriminate]); try (split; reflexivity).
  cbn [lex_cmp list_eqb] in *. rewrite andb_true_iff. destruct (f x y) as [o|] eqn:E; [|exfalso; apply H; reflexivity].
  specialize (Hx y). rewrite E in Hx. specialize (Hx ltac:(discriminate)). destruct o.
  - rewrite (IH b H). tauto.
  - split; [discriminate|]. intros (G & _). apply Hx in G. discriminate.
  - split; [discriminate|]. intros (G & _). apply Hx in G. discriminate.
Qed.
Lemma vcmp_opp v : forall w, vcmp w v = option_map CompOpp (vcmp v w).
Proof.
  induction v as [n sp|k sp|op sps|l sp| | |x y IHx IHy|d sp x IHx|inner last IHi IHl|l IHl|l o r IH1 IH2 IH3|x IHx|l o r IH1 IH2 IH3|x IHx|x IHx|x IHx|l IHl|k l IHl] using val_ind'; intros w; destruct w; cbn [vcmp]; try reflexivity; auto.
  - cbn. rewrite list_cmp_opp. reflexivity.
  - destruct (text_eqb k kw) eqn:E.
    + apply text_eqb_eq in E. subst. rewrite text_eqb_refl. reflexivity.
    + destruct (text_eqb kw k) eqn:E2; [|reflexivity]. apply text_eqb_eq in E2. subst. rewrite text_eqb_refl in E. discriminate.
  - apply node_cmp_opp.
  - apply (lex_cmp_opp (fun a b => vcmp a b)). exact IHl.
  - rewrite Nat.compare_antisym. destruct (Nat.compare k k0); cbn; try reflexivity. apply (lex_cmp_opp (fun a b => vcmp a b)). exact IHl.
Qed.
Lemma vcmp_through x : forall y z a b c, vcmp x y = Some a -> vcmp y z = Some b -> through a b = Some c -> vcmp x z = Some c.
Proof.
  induction x as [n sp|k sp|op sps|l sp| | |x y IHx IHy|d sp x IHx|inner last IHi IHl|l IHl|l o r IH1 IH2 IH3|x IHx|l o r IH1 IH2 IH3|x IHx|x IHx|x IHx|l IHl|k l IHl] using val_ind'; intros y' z' a b c;
    destruct y'; cbn [vcmp]; try discriminate; destruct z'; cbn [vcmp]; try discriminate; eauto.
  - intros [= <-] [= <-]. pose proof (fun a b c => node_cmp_through (LStr n, sp) (LStr n0, sp) (LStr n1, sp) a b c) as T. unfold node_cmp in T. cbn [fst] in T. intro H. exact (T _ _ _ eq_refl eq_refl H).
  - destruct (text_eqb k kw) eqn:E1; [|discriminate]. destruct (text_eqb kw kw0) eqn:E2; [|discriminate]. apply text_eqb_eq in E1, E2. subst. rewrite text_eqb_refl. intros [= <-] [= <-]. auto.
  - apply node_cmp_through.
  - intros [= <-] [= <-]. auto.
  - intros H1 [= <-] H. destruct a; cbn in H; injection H as <- || discriminate H; auto.
  - intros [= <-] [= <-] H. discriminate H.
  - intros [= <-] H1 H. destruct b; cbn in H; injection H as <- || discriminate H; auto.
  - intros [= <-] H1 H. destruct b; cbn in H; injection H as <- || discriminate H; auto.
  - intros [= <-] [= <-] H. discriminate H.
  - intros H1 [= <-] H. destruct a; cbn in H; injection H as <- || discriminate H; auto.
  - apply (lex_cmp_through (fun a b => vcmp a b)). exact IHl.
  - destruct (Nat.compare_spec k k0) as [->|C|C], (Nat.compare_spec k0 k1) as [->|D|D]; intros H1 H2 H3.
    + revert H1 H2 H3. apply (lex_cmp_through (fun a b => vcmp a b)). exact IHl.
    + try rewrite (proj2 (Nat.compare_lt_iff k0 k1) D). injection H2 as <-. destruct a; cbn in H3; injection H3 as <- || discriminate H3; reflexivity.
    + try rewrite (proj2 (Nat.compare_gt_iff k0 k1) D). injection H2 as <-. destruct a; cbn in H3; injection H3 as <- || discriminate H3; reflexivity.
    + try rewrite (proj2 (Nat.compare_lt_iff k k1) C). injection H1 as <-. destruct b; cbn in H3; injection H3 as <- || discriminate H3; reflexivity.
    + rewrite (proj2 (Nat.compare_lt_iff k k1) ltac:(eapply Nat.lt_trans; eassumption)). injection H1 as <-. injection H2 as <-. exact H3.
    + injection H1 as <-. injection H2 as <-. discriminate H3.
    + try rewrite (proj2 (Nat.compare_gt_iff k k1) C). injection H1 as <-. destruct b; cbn in H3; injection H3 as <- || discriminate H3; reflexivity.
    + injection H1 as <-. injection H2 as <-. discriminate H3.
    + rewrite (proj2 (Nat.compare_gt_iff k k1) ltac:(eapply Nat.lt_trans; eassumption)). injection H1 as <-. injection H2 as <-. exact H3.
Qed.
Lemma vcmp_eqb v : forall w, vcmp v w <> None -> vcmp v w = Some Eq <-> veqb v w = true.
Proof.
  induction v as [n sp|k sp|op sps|l sp| | |x y IHx IHy|d sp x IHx|inner last IHi IHl|l IHl|l o r IH1 IH2 IH3|x IHx|l o r IH1 IH2 IH3|x IHx|x IHx|x IHx|l IHl|k l IHl] using val_ind'; intros w;
    destruct w; cbn [vcmp veqb]; try (intro N; exfalso; apply N; reflexivity); auto; try (intro N; split; discriminate).
  - intros _. rewrite text_eqb_eq, <- list_cmp_eq. split; congruence.
  - destruct (text_eqb k kw); intro N; split; congruence.
  - intros _. apply node_cmp_eqb.
  - split; reflexivity.
  - apply (lex_cmp_eq (fun a b => vcmp a b) (fun a b => veqb a b)). exact IHl.
  - rewrite andb_true_iff, Nat.eqb_eq. destruct (Nat.compare_spec k k0) as [->|C|C]; intro N.
    + rewrite (lex_cmp_eq (fun a b => vcmp a b) (fun a b => veqb a b) l IHl fs N). tauto.
    + split; [discriminate|]. intros (-> & _). exfalso. exact (Nat.lt_irrefl _ C).
    + split; [discriminate|]. intros (-> & _). exfalso. exact (Nat.lt_irrefl _ C).
Qed.

(** ** the rest *)
Lemma veqb_strip v : veqb v (strip v) = true.
Proof.
  assert (L : forall l, Forall (fun v => veqb v (strip v) = true) l -> list_eqb (fun a b => veqb a b) l (map strip l) = true).
  { intros l H. apply list_eqb_forall. induction H; constructor; assumption. }
  induction v as [n sp|k sp|op sps|l sp| | |x y IHx IHy|d sp x IHx|inner last IHi IHl|l IHl|l o r IH1 IH2 IH3|x IHx|l o r IH1 IH2 IH3|x IHx|x IHx|x IHx|l IHl|k l IHl] using val_ind'; cbn [veqb strip];
    rewrite ?text_eqb_refl, ?node_eqb_refl, ?delim_eqb_refl, ?Nat.eqb_refl, ?IHx, ?IHy, ?IH1, ?IH2, ?IH3; try reflexivity; auto.
  - apply andb_true_iff. split.
    + apply list_eqb_forall. induction IHi as [|(x, y) i (Hx & Hy) Hi IH]; constructor; [|apply IH; intros; discriminate || eapply IHl; eassumption]. cbn [fst snd] in *. rewrite Hx, Hy. reflexivity.
    + destruct last as [x|]; [exact (IHl x eq_refl)|reflexivity].
  - apply L. assumption.
Qed.
Lemma strip_veqb v w : strip v = strip w -> veqb v w = true.
Proof. intro E. eapply veqb_trans; [apply veqb_strip|]. rewrite E. apply veqb_sym, veqb_strip. Qed.
Lemma nodes_left x l t : left_form x l t -> leaf_nodes (val_of_left t) = leaf_nodes x ++ List.concat (map (fun '(o, y) => leaf_nodes o ++ leaf_nodes y) l).
Proof.
  induction 1 as [|l t o y H IH]; cbn [val_of_left leaf_nodes]; [symmetry; apply app_nil_r|]. rewrite IH, map_app, List.concat_app. cbn. rewrite app_nil_r, <- app_assoc. reflexivity.
Qed.
Lemma nodes_right x l t : right_form x l t -> leaf_nodes (val_of_right t) = leaf_nodes x ++ List.concat (map (fun '(o, y) => leaf_nodes o ++ leaf_nodes y) l).
Proof.
  induction 1 as [|x o y l t H IH]; cbn [val_of_right leaf_nodes map List.concat]; [symmetry; apply app_nil_r|]. rewrite IH, <- app_assoc. reflexivity.
Qed.
Lemma typed_proper E t v : typed E t v -> proper v.
Proof.
  revert t v. apply (typed_rect E (fun _ v => proper v)); try (intros; rewrite proper_forall; cbn [leaf_nodes]; repeat (apply Forall_cons || apply Forall_nil); cbn [leaf_proper]; auto; fail); intros; rewrite proper_forall in *; cbn [leaf_nodes].
  - apply Forall_app. auto.
  - assumption.
  - apply Forall_app. split; [apply proper_pairs; assumption|]. destruct last as [v|]; [apply proper_forall; auto|constructor].
  - apply Forall_app. split; [apply proper_pairs; assumption|assumption].
  - apply proper_list. assumption.
  - rewrite (nodes_left _ _ _ H1). apply Forall_app. split; [assumption|apply proper_pairs; assumption].
  - rewrite (nodes_right _ _ _ H1). apply Forall_app. split; [assumption|apply proper_pairs; assumption].
  - assumption.
  - assumption.
  - assumption.
  - apply proper_list. clear H. induction H0; constructor; assumption.
  - apply proper_list. clear H H0. induction H1; constructor; assumption.
Qed.
Lemma plus_zeros_id v : Forall (fun l => plus_zero l = l) (val_lits v) -> plus_zeros v = v.
Proof.
  assert (L : forall l, Forall (fun v => Forall (fun l => plus_zero l = l) (val_lits v) -> plus_zeros v = v) l -> Forall (fun l => plus_zero l = l) (List.concat (map val_lits l)) -> map plus_zeros l = l).
  { induction 1 as [|x l Hx Hl IH]; [reflexivity|]. cbn [map List.concat]. rewrite Forall_app. intros (A & B). f_equal; auto. }
  induction v as [n sp|k sp|op sps|l sp| | |x y IHx IHy|d sp x IHx|inner last IHi IHl|l IHl|l o r IH1 IH2 IH3|x IHx|l o r IH1 IH2 IH3|x IHx|x IHx|x IHx|l IHl|k l IHl] using val_ind'; cbn [val_lits plus_zeros]; rewrite ?Forall_app; intro H; try reflexivity; try (f_equal; intuition auto; fail).
  - inversion H; subst. congruence.
  - destruct H as (A & B). f_equal.
    + clear IHl B. induction IHi as [|(x, y) i (Hx & Hy) Hi IH]; [reflexivity|]. cbn [map List.concat] in *. rewrite !Forall_app in A. cbn [fst snd] in *. f_equal; [|apply IH; tauto]. f_equal; tauto.
    + destruct last as [x|]; [|reflexivity]. cbn. f_equal. auto.
Qed.
Lemma writable_proper {U : unicode} v : writable v -> proper v.
Proof.
  assert (L : forall l, Forall (fun v => writable v -> proper v) l -> (fix all l := match l with [] => True | x :: r => writable x /\ all r end) l -> Forall proper l).
  { induction 1 as [|x l Hx Hl IH]; intro W; [constructor|]. destruct W as (W1 & W2). constructor; auto. }
  induction v as [n sp|k sp|op sps|l sp| | |x y IHx IHy|d sp x IHx|inner last IHi IHl|l IHl|l o r IH1 IH2 IH3|x IHx|l o r IH1 IH2 IH3|x IHx|x IHx|x IHx|l IHl|k l IHl] using val_ind'; intro W; cbn [writable] in W;
    rewrite proper_forall; cbn [leaf_nodes]; try (repeat constructor; cbn [leaf_proper]; tauto); rewrite ?Forall_app, <- ?proper_forall; try (intuition auto; fail); rewrite ?proper_list; auto.
  - rewrite proper_pairs. destruct W as (W & Wl). split.
    + clear Wl IHl. induction IHi as [|(x, y) i (Hx & Hy) Hi IH]; constructor; [cbn [fst snd] in *; tauto|]. apply IH. tauto.
    + destruct last as [x|]; [|constructor]. apply proper_forall. auto.
Qed.
Lemma parses_det {U : unicode} E t ts v w : parses E t ts v -> parses E t ts w -> v = w.
Proof.
  intros (n & H) (m & H'). unfold parse2 in *. destruct (Nat.le_ge_cases n m) as [Q|Q].
  - destruct (Mono.le_pty E n m t Q (start ts)) as [Hd|He]; [destruct (pty E n t (start ts)) as (?, ?); cbn in Hd; subst; discriminate H|]. rewrite <- He in H'. congruence.
  - destruct (Mono.le_pty E m n t Q (start ts)) as [Hd|He]; [destruct (pty E m t (start ts)) as (?, ?); cbn in Hd; subst; discriminate H'|]. rewrite <- He in H. congruence.
Qed.
Lemma same_print v w : forall a b {U : unicode}, strip v = strip w -> print v = Some a -> print w = Some b -> map unspan a = map unspan b.
Proof.
  intros a b U E Pv Pw. pose proof (print_strip v) as A. pose proof (print_strip w) as B. rewrite E, <- B, Pv, Pw in A. cbn in A. congruence.
Qed.

(** ** C53 *)
(** [==] is reflexive, symmetric and transitive on all nodes ([Eq]). *)
Theorem C53_equivalence : (forall v, veqb v v = true) /\ (forall v w, veqb v w = true -> veqb w v = true) /\
  (forall v w u, veqb v w = true -> veqb w u = true -> veqb v u = true).
Proof. split; [exact veqb_refl|]. split; [exact veqb_sym|exact veqb_trans]. Qed.
(** Two trees are [==] exactly when they are the same tree, locations and the signs of
    floating-point zeros apart. *)
Theorem C53_equality_means : forall v w, proper v -> proper w ->
  veqb v w = true <-> strip (plus_zeros v) = strip (plus_zeros w).
Proof. intros v w. apply veqb_bare. Qed.
(** Every value of a type is [proper]. *)
Theorem C53_values_are_proper : forall (U : unicode) E t v, typed E t v -> proper v.
Proof. intros U. exact typed_proper. Qed.
(** In particular, changing locations never changes equality. *)
Theorem C53_locations_ignored : forall v v' w w', strip v = strip v' -> strip w = strip w' -> veqb v w = veqb v' w'.
Proof.
  intros v v' w w' E1 E2. apply strip_veqb in E1, E2. destruct (veqb v w) eqn:H, (veqb v' w') eqn:H'; try reflexivity.
  - rewrite <- H'. symmetry. eapply veqb_trans; [apply veqb_sym; exact E1|]. eapply veqb_trans; eassumption.
  - rewrite <- H. eapply veqb_trans; [exact E1|]. eapply veqb_trans; [exact H'|]. apply veqb_sym. exact E2.
Qed.
(** Equal nodes hash alike. *)
Theorem C53_equal_nodes_hash_alike : forall v w, proper v -> proper w -> veqb v w = true -> vhash v = vhash w.
Proof. intros v w. apply vhash_eqb. Qed.
(** [cmp] is a total order on each type that has one, and agrees with [==]. *)
Theorem C53_order : (forall v w, vcmp w v = option_map CompOpp (vcmp v w)) /\
  (forall x y z a b c, vcmp x y = Some a -> vcmp y z = Some b -> through a b = Some c -> vcmp x z = Some c) /\
  (forall v w, vcmp v w <> None -> vcmp v w = Some Eq <-> veqb v w = true).
Proof. split; [intros v w; apply vcmp_opp|]. split; [exact vcmp_through|exact vcmp_eqb]. Qed.

(** Equal trees print the same tokens, if no zero is negative ... *)
Theorem C53_equal_trees_print_alike : forall (U : unicode) v w a b, proper v -> proper w -> no_minus_zero v -> no_minus_zero w ->
  veqb v w = true -> print v = Some a -> print w = Some b -> map unspan a = map unspan b.
Proof.
  intros U v w a b Pv Pw Nv Nw H. apply (veqb_bare v w Pv Pw) in H. rewrite !plus_zeros_id in H by (apply Forall_forall; assumption). apply same_print. exact H.
Qed.
Theorem C53_equal_trees_have_the_same_text : forall (U : unicode) v w alternate, proper v -> proper w -> no_minus_zero v -> no_minus_zero w ->
  veqb v w = true -> to_string alternate v = to_string alternate w.
Proof.
  intros U v w alt Pv Pw Nv Nw H. apply (veqb_bare v w Pv Pw) in H. rewrite !plus_zeros_id in H by (apply Forall_forall; assumption). apply C38_same_value_same_text. exact H.
Qed.
(** ... and in a grammar that passes the check of C10, values that print the same tokens are equal. *)
Theorem C53_same_tokens_equal_trees : forall (U : unicode) g t v w a b, ll1 g t = true -> typed (env_of g) t v -> typed (env_of g) t w ->
  print v = Some a -> print w = Some b -> map unspan a = map unspan b -> veqb v w = true.
Proof.
  intros U g t v w a b Hg Tv Tw Pv Pw E. pose proof (C10_parse_of_print U g t v a Hg Tv Pv) as A. pose proof (C10_parse_of_print U g t w b Hg Tw Pw) as B.
  destruct (C40_spans_do_not_matter U (env_of g) t a b E) as (C & _). destruct (C v A) as (w' & W & S). rewrite (parses_det _ _ _ _ _ B W). apply strip_veqb. symmetry. exact S.
Qed.
Theorem C53_same_text_equal_trees : forall (U : unicode), sane_tables U -> forall g t v w alternate out, ll1 g t = true ->
  typed (env_of g) t v -> typed (env_of g) t w -> writable v -> writable w ->
  to_string alternate v = Some out -> to_string alternate w = Some out -> veqb v w = true.
Proof.
  intros U sane g t v w alt out Hg Tv Tw Wv Ww Dv Dw.
  destruct (C38_to_string_from_str sane g t v alt out 0 Hg Tv Wv Dv) as (v' & F1 & S1). destruct (C38_to_string_from_str sane g t w alt out 0 Hg Tw Ww Dw) as (w' & F2 & S2).
  apply from_str_parses in F1 as (ts & L1 & P1). apply from_str_parses in F2 as (ts' & L2 & P2). rewrite L1 in L2. injection L2 as <-.
  pose proof (parses_det _ _ _ _ _ P1 P2) as ->. apply strip_veqb. congruence.
Qed.
(** The round trips of C09, C38 and C40, as [==]: parsing depends on the tokens, not on where they stand ... *)
Theorem C53_parsing_ignores_locations : forall (U : unicode) E t a b v, map unspan a = map unspan b -> parses E t a v ->
  exists w, parses E t b w /\ veqb w v = true.
Proof. intros U E t a b v E1 H. destruct (C40_spans_do_not_matter U E t a b E1) as (C & _). destruct (C v H) as (w & W & S). exists w. split; [exact W|apply strip_veqb; exact S]. Qed.
(** ... and [from_str(&v.to_string()) == v] for every value of a grammar that passes the check. *)
Theorem C53_to_string_from_str : forall (U : unicode), sane_tables U -> forall g t v alternate out file, ll1 g t = true ->
  typed (env_of g) t v -> writable v -> to_string alternate v = Some out ->
  exists v', from_str (env_of g) t file out v' /\ veqb v' v = true.
Proof. intros U sane g t v alt out file Hg Tv Wv D. destruct (C38_to_string_from_str sane g t v alt out file Hg Tv Wv D) as (v' & F & S). exists v'. split; [exact F|apply strip_veqb; exact S]. Qed.
(** A negative zero is [==] to the positive one, hashes like it, and prints differently. *)
Theorem C53_minus_zero_refuted : exists (U : unicode) v w, typed (fun _ => DStruct (Ctor [] [])) (TyLit LtFloat) v /\ typed (fun _ => DStruct (Ctor [] [])) (TyLit LtFloat) w /\
  veqb v w = true /\ vhash v = vhash w /\ to_string false v = Some (T "- 0.0") /\ to_string false w = Some (T "0.0").
Proof.
  exists ascii_only, (VLit (LFloat (FFin true 0 emin)) call_site), (VLit (LFloat (FFin false 0 emin)) call_site).
  split; [apply (td_lit _ (LFloat (FFin true 0 emin))); reflexivity|]. split; [apply (td_lit _ (LFloat (FFin false 0 emin))); reflexivity|]. repeat split; vm_compute; reflexivity.
Qed.
Print Assumptions C53_equivalence.
Print Assumptions C53_equality_means.
Print Assumptions C53_values_are_proper.
Print Assumptions C53_locations_ignored.
Print Assumptions C53_equal_nodes_hash_alike.
Print Assumptions C53_order.
Print Assumptions C53_equal_trees_print_alike.
Print Assumptions C53_equal_trees_have_the_same_text.
Print Assumptions C53_same_tokens_equal_trees.
Print Assumptions C53_same_text_equal_trees.
Print Assumptions C53_parsing_ignores_locations.
Print Assumptions C53_to_string_from_str.
Print Assumptions C53_minus_zero_refuted.

(** ** Examples *)
Section WithTables.
Local Existing Instance ascii_only.
(** the tree read from one text is equal to the tree read from the same text laid out differently, and
    not to that of another text *)
Example C53_ex : exists v w u, from_str GE (TyRef assign) 1 (T "x=f(0x1F,y)") v /\ from_str GE (TyRef assign) 2 (T "x = f ( 31 , y )") w /\
  from_str GE (TyRef assign) 1 (T "x=f(0x1F,z)") u /\ v <> w /\ veqb v w = true /\ veqb v u = false /\ proper v /\ vhash v = vhash w /\ vhash v <> vhash u.
Proof.
  do 3 eexists. split; [exists 20; vm_compute; reflexivity|]. split; [exists 20; vm_compute; reflexivity|]. split; [exists 20; vm_compute; reflexivity|].
  split; [discriminate|]. split; [vm_compute; reflexivity|]. split; [vm_compute; reflexivity|]. split; [apply proper_forall; repeat constructor; vm_compute; discriminate|].
  split; [vm_compute; reflexivity|vm_compute; discriminate].
Qed.
(** order: an [enum] by variant, then by fields *)
Example C53_ex_order : vcmp (VVariant 0 [VIdent (T "b") (sp 0 1); VLit (LInt 7) (sp 1 2)]) (VVariant 0 [VIdent (T "b") (sp 5 6); VLit (LInt 9) (sp 7 8)]) = Some Lt /\
  vcmp (VVariant 1 [VIdent (T "a") (sp 0 1)]) (VVariant 0 [VIdent (T "b") (sp 0 1); VLit (LInt 7) (sp 1 2)]) = Some Gt.
Proof. split; reflexivity. Qed.
End WithTables.
