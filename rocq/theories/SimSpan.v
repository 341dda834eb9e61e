(** * SimSpan: two streams with the same tokens at different places.

    If the places are in the same order in both streams, every parser does the same on both:
    it gives the same value, located at the corresponding places, or the same error at the
    corresponding place. *)
From Verif Require Import Base Float Literal Syn Ast Derive Grammar Spec LitSpec LiteralFacts Reprint LitDenote
  SynFacts Lawful Mono Combinators GrammarBeh Writable.
Local Open Scope nat_scope.

(** ** Specification *)
(** [place a b x y]: [x] is a location in the stream [a], and [y] the corresponding one in [b]: of a
    token, of the opening or closing bracket of a group, of a minus sign together with the literal after it. *)
Inductive place : list tt -> list tt -> span -> span -> Prop :=
| at_token t u r q : place (t :: r) (u :: q) (tt_span t) (tt_span u)
| at_open d e sp sp' l m r q : place (TGroup d sp l :: r) (TGroup e sp' m :: q) (open_span sp) (open_span sp')
| at_close d e sp sp' l m r q : place (TGroup d sp l :: r) (TGroup e sp' m :: q) (close_span sp) (close_span sp')
| at_negative g g' sp sp' n n' sp2 sp2' r q :
    place (TPunct 45 g sp :: TLit n sp2 :: r) (TPunct 45 g' sp' :: TLit n' sp2' :: q) (join_or sp sp2) (join_or sp' sp2')
| at_later t u r q x y : place r q x y -> place (t :: r) (u :: q) x y
| at_inside d e sp sp' l m r q x y : place l m x y -> place (TGroup d sp l :: r) (TGroup e sp' m :: q) x y.

(** where an error may be: at a place, or nowhere (at the end of the input) *)
Definition spot (R : span -> span -> Prop) (x y : span) : Prop := R x y \/ (x = call_site /\ y = call_site).
(** corresponding locations end in the same order *)
Definition same_order (R : span -> span -> Prop) : Prop :=
  forall x y x' y', spot R x x' -> spot R y y' -> lc_ltb (sp_end x) (sp_end y) = lc_ltb (sp_end x') (sp_end y').

(** the same value, with corresponding locations *)
Inductive same_val (R : span -> span -> Prop) : val -> val -> Prop :=
| sv_ident n x y : R x y -> same_val R (VIdent n x) (VIdent n y)
| sv_kw n x y : R x y -> same_val R (VKw n x) (VKw n y)
| sv_op op l m : Forall2 R l m -> same_val R (VOp op l) (VOp op m)
| sv_lit k x y : R x y -> same_val R (VLit k x) (VLit k y)
| sv_unit : same_val R VUnit VUnit
| sv_nothing : same_val R VNothing VNothing
| sv_just p q v w : same_val R p q -> same_val R v w -> same_val R (VJust p v) (VJust q w)
| sv_group d x y v w : R x y -> same_val R v w -> same_val R (VGroup d x v) (VGroup d y w)
| sv_punct l m : Forall2 (fun p q => same_val R (fst p) (fst q) /\ same_val R (snd p) (snd q)) l m -> same_val R (VPunct l None) (VPunct m None)
| sv_punct_last l m v w : Forall2 (fun p q => same_val R (fst p) (fst q) /\ same_val R (snd p) (snd q)) l m -> same_val R v w ->
    same_val R (VPunct l (Some v)) (VPunct m (Some w))
| sv_list l m : Forall2 (same_val R) l m -> same_val R (VList l) (VList m)
| sv_binl a a' o o' b b' : same_val R a a' -> same_val R o o' -> same_val R b b' -> same_val R (VBinL a o b) (VBinL a' o' b')
| sv_rhs v w : same_val R v w -> same_val R (VRhs v) (VRhs w)
| sv_binr a a' o o' b b' : same_val R a a' -> same_val R o o' -> same_val R b b' -> same_val R (VBinR a o b) (VBinR a' o' b')
| sv_lhs v w : same_val R v w -> same_val R (VLhs v) (VLhs w)
| sv_left v w : same_val R v w -> same_val R (VLeft v) (VLeft w)
| sv_right v w : same_val R v w -> same_val R (VRight v) (VRight w)
| sv_struct l m : Forall2 (same_val R) l m -> same_val R (VStruct l) (VStruct m)
| sv_variant k l m : Forall2 (same_val R) l m -> same_val R (VVariant k l) (VVariant k m).
(** the same outcome *)
Definition same_result (R : span -> span -> Prop) (a b : result val) : Prop :=
  match a, b with
  | ROk v, ROk w => same_val R v w
  | RErr e, RErr e' => e_msg e = e_msg e' /\ spot R (e_span e) (e_span e')
  | RPanic, RPanic | RDiverge, RDiverge => True
  | _, _ => False
  end.

(** ** Proof *)
Section SimSpan.
Context {U : unicode}.
Variable R : span -> span -> Prop.
Hypothesis Ord : same_order R.

(** streams whose places are all related *)
Definition near (a b : list tt) : Prop :=
  match a, b with
  | TPunct c _ sp :: TLit _ sp2 :: _, TPunct c' _ sp' :: TLit _ sp2' :: _ => c = 45%N -> R (join_or sp sp2) (join_or sp' sp2')
  | _, _ => True
  end.
Inductive sim : list tt -> list tt -> Prop :=
| sim_nil : sim [] []
| sim_ident n sp1 sp2 a b : R sp1 sp2 -> sim a b -> sim (TIdent n sp1 :: a) (TIdent n sp2 :: b)
| sim_punct c g sp1 sp2 a b : R sp1 sp2 -> near (TPunct c g sp1 :: a) (TPunct c g sp2 :: b) -> sim a b -> sim (TPunct c g sp1 :: a) (TPunct c g sp2 :: b)
| sim_lit r sp1 sp2 a b : R sp1 sp2 -> sim a b -> sim (TLit r sp1 :: a) (TLit r sp2 :: b)
| sim_group d sp1 sp2 i j a b : d <> DNone -> R sp1 sp2 -> R (open_span sp1) (open_span sp2) -> R (close_span sp1) (close_span sp2) ->
    sim i j -> sim a b -> sim (TGroup d sp1 i :: a) (TGroup d sp2 j :: b).
Lemma sim_ignore a b : sim a b -> ignore_none a = a /\ ignore_none b = b.
Proof.
  intro H. destruct H as [| | | |d sp1 sp2 i j a b Hd]; split; try reflexivity; apply ignore_none_visible; intros ? ? E; try discriminate E; injection E as E _ _; contradiction.
Qed.
Definition sspan : span -> span -> Prop := spot R.
Definition ospan (a b : option span) : Prop := match a, b with Some x, Some y => sspan x y | None, None => True | _, _ => False end.
Lemma sim_leftover a b : sim a b -> ospan (leftover a) (leftover b).
Proof.
  intro H. destruct H as [|n sp1 sp2 a b Hs H|c g sp1 sp2 a b Hs Hn H|r sp1 sp2 a b Hs H|d sp1 sp2 i j a b Hd Hs Ho Hc Hi H]; [exact I|left; exact Hs..|].
  destruct d; [left; exact Hs..|]. contradiction Hd; reflexivity.
Qed.
Definition ssim (s1 s2 : pstate) : Prop :=
  sim (ps_rest s1) (ps_rest s2) /\ sspan (ps_scope s1) (ps_scope s2) /\ ospan (ps_unexp s1) (ps_unexp s2).
Lemma ssim_set_rest s1 s2 r1 r2 : ssim s1 s2 -> sim r1 r2 -> ssim (set_rest s1 r1) (set_rest s2 r2).
Proof. intros (_ & Hc & Hu) H. split; [exact H|split; [exact Hc|exact Hu]]. Qed.
Lemma ssim_empty s1 s2 : ssim s1 s2 -> is_empty s1 = is_empty s2.
Proof. intros (H & _). unfold is_empty. inversion H; reflexivity. Qed.
Lemma ssim_fork s1 s2 : ssim s1 s2 -> ssim (fork s1) (fork s2).
Proof. intros (H & Hc & _). split; [exact H|split; [exact Hc|exact I]]. Qed.
Lemma ssim_advance s1 s2 f1 f2 : ssim s1 s2 -> ssim f1 f2 -> ssim (advance_to s1 f1) (advance_to s2 f2).
Proof.
  intros (_ & Hc & Hu) (H & _ & Hu2). split; [exact H|split; [exact Hc|]]. cbn. unfold ospan in *. destruct (ps_unexp s1), (ps_unexp s2); try contradiction; [exact Hu|exact Hu2].
Qed.
Definition serr (e e' : error) : Prop := e_msg e = e_msg e' /\ sspan (e_span e) (e_span e').
Lemma head_spot s1 s2 : ssim s1 s2 -> sspan (stream_span s1) (stream_span s2).
Proof.
  intros (H & Hc & _). unfold stream_span. destruct H as [|n sp1 sp2 a b Hs H|c g sp1 sp2 a b Hs Hn H|r sp1 sp2 a b Hs H|d sp1 sp2 i j a b Hd Hs Ho Hcl Hi H]; [exact Hc|left; exact Hs..|left; exact Ho].
Qed.
Lemma serr_at s1 s2 m : ssim s1 s2 -> serr (error_at s1 m) (error_at s2 m).
Proof.
  intro H. pose proof (head_spot s1 s2 H) as Hh. destruct H as (H & _). unfold stream_span in Hh. unfold error_at.
  destruct H as [|n sp1 sp2 a b Hs H|c g sp1 sp2 a b Hs Hn H|r sp1 sp2 a b Hs H|d sp1 sp2 i j a b Hd Hs Ho Hcl Hi H]; split; try reflexivity; exact Hh.
Qed.
Lemma serr_max a a' b b' : serr a a' -> serr b b' -> serr (max_error a b) (max_error a' b').
Proof. intros Ha Hb. unfold max_error. rewrite (Ord _ _ _ _ (proj2 Hb) (proj2 Ha)). destruct (lc_ltb _ _); assumption. Qed.

Definition orel {A B} (Q : A -> B -> Prop) (o1 : outcome A) (o2 : outcome B) : Prop :=
  match o1, o2 with
  | OOk a, OOk b => Q a b
  | OErr e, OErr e' => serr e e'
  | OPanic, OPanic | ODiverge, ODiverge => True
  | _, _ => False
  end.
Definition par {A B} (Q : A -> B -> Prop) (p : parser A) (q : parser B) : Prop :=
  forall s1 s2, ssim s1 s2 -> orel Q (fst (p s1)) (fst (q s2)) /\ ssim (snd (p s1)) (snd (q s2)).
Lemma par_pure {A B} (Q : A -> B -> Prop) o1 o2 : orel Q o1 o2 -> par Q (fun s => (o1, s)) (fun s => (o2, s)).
Proof. intros H s1 s2 Hs. split; assumption. Qed.
Lemma par_ret {A B} (Q : A -> B -> Prop) a b : Q a b -> par Q (ret a) (ret b).
Proof. intro H. apply (par_pure Q (OOk a) (OOk b)). exact H. Qed.
Lemma par_fail {A B} (Q : A -> B -> Prop) e1 e2 : serr e1 e2 -> par Q (fail e1) (fail e2).
Proof. intro H. apply (par_pure Q (OErr e1) (OErr e2)). exact H. Qed.
Lemma par_bind {A B A' B'} (P : A -> A' -> Prop) (Q : B -> B' -> Prop) p q k l :
  par P p q -> (forall a b, P a b -> par Q (k a) (l b)) -> par Q (bind p k) (bind q l).
Proof.
  intros Hp Hk s1 s2 Hs. specialize (Hp s1 s2 Hs). unfold bind.
  destruct (p s1) as ([a|e| |], t1), (q s2) as ([b|e'| |], t2); cbn [fst snd orel] in Hp; destruct Hp as (Ho & Ht); try contradiction;
    try (split; [exact Ho|exact Ht]).
  apply Hk; assumption.
Qed.
Lemma par_pmap {A B A' B'} (P : A -> A' -> Prop) (Q : B -> B' -> Prop) h k p q :
  (forall a b, P a b -> Q (h a) (k b)) -> par P p q -> par Q (pmap h p) (pmap k q).
Proof. intros Hh Hp. eapply par_bind; [exact Hp|]. intros a b Hab. apply par_ret. auto. Qed.
Lemma par_map_err {A B} (Q : A -> B -> Prop) f g p q : (forall e e', serr e e' -> serr (f e) (g e')) -> par Q p q -> par Q (map_err f p) (map_err g q).
Proof.
  intros Hf Hp s1 s2 Hs. specialize (Hp s1 s2 Hs). unfold map_err.
  destruct (p s1) as ([a|e| |], t1), (q s2) as ([b|e'| |], t2); cbn [fst snd orel] in Hp; destruct Hp as (Ho & Ht); try contradiction; split; try assumption.
  apply Hf. exact Ho.
Qed.
Lemma par_speculate {A B A' B'} (P : A -> A' -> Prop) (Q : B -> B' -> Prop) p q y1 y2 n1 n2 :
  par P p q -> (forall a b, P a b -> par Q (y1 a) (y2 b)) -> (forall e1 e2, serr e1 e2 -> par Q (n1 e1) (n2 e2)) ->
  par Q (speculate p y1 n1) (speculate q y2 n2).
Proof.
  intros Hp Hy Hn s1 s2 Hs. specialize (Hp _ _ (ssim_fork _ _ Hs)). unfold speculate.
  destruct (p (fork s1)) as ([a|e| |], t1), (q (fork s2)) as ([b|e'| |], t2); cbn [fst snd orel] in Hp; destruct Hp as (Ho & Ht); try contradiction;
    try (split; [exact I|exact Hs]).
  - apply Hy; [exact Ho|]. apply ssim_advance; assumption.
  - apply Hn; [exact Ho|exact Hs].
Qed.
Lemma par_ext {A B} (Q : A -> B -> Prop) p p' q q' : (forall s, p s = p' s) -> (forall s, q s = q' s) -> par Q p' q' -> par Q p q.
Proof. intros H1 H2 H s1 s2 Hs. rewrite H1, H2. apply H. exact Hs. Qed.

(** ** leaves *)
Definition named_at (x y : text * span) : Prop := fst x = fst y /\ R (snd x) (snd y).
Ltac head_sim Hs := let H := fresh "Hh" in let E1 := fresh "E1" in let E2 := fresh "E2" in
  pose proof (proj1 Hs) as H; destruct (sim_ignore _ _ H) as (E1 & E2); rewrite ?E1, ?E2; inversion H; subst; clear H.
Ltac no_head Hs := split; [apply serr_at; exact Hs|exact Hs].
Lemma par_ident_any : par named_at p_ident_any p_ident_any.
Proof.
  intros s1 s2 Hs. unfold p_ident_any. head_sim Hs; try no_head Hs.
  split; [split; [reflexivity|assumption]|]. apply ssim_set_rest; assumption.
Qed.
Lemma par_ident : par named_at p_ident p_ident.
Proof.
  intros s1 s2 Hs. unfold p_ident. head_sim Hs; try no_head Hs.
  destruct (text_mem n rust_keywords); [no_head Hs|]. split; [split; [reflexivity|assumption]|]. apply ssim_set_rest; assumption.
Qed.
Lemma par_token_kw kw : par R (p_token_kw kw) (p_token_kw kw).
Proof.
  intros s1 s2 Hs. unfold p_token_kw. head_sim Hs; try no_head Hs.
  destruct (text_eqb n kw); [|no_head Hs]. split; [assumption|]. apply ssim_set_rest; assumption.
Qed.
Lemma par_custom_ident kws : par named_at (p_custom_ident kws) (p_custom_ident kws).
Proof.
  eapply par_bind; [apply par_ident_any|]. intros (n1, sp1) (n2, sp2) (E & Hr). cbn in E, Hr. subst n2. cbn [fst snd].
  destruct (text_mem n1 kws); [apply par_fail; split; [reflexivity|left; exact Hr]|apply par_ret; split; [reflexivity|exact Hr]].
Qed.
Lemma par_keyword kw : par R (p_keyword kw) (p_keyword kw).
Proof.
  eapply par_bind; [apply par_ident_any|]. intros (n1, sp1) (n2, sp2) (E & Hr). cbn in E, Hr. subst n2. cbn [fst snd].
  destruct (text_eqb n1 kw); [apply par_ret; exact Hr|apply par_fail; split; [reflexivity|left; exact Hr]].
Qed.
Lemma sim_take op : forall a b, sim a b ->
  match take_op op a, take_op op b with
  | Some (x, r1), Some (y, r2) => Forall2 R x y /\ sim r1 r2
  | None, None => True
  | _, _ => False
  end.
Proof.
  induction op as [|c op IH]; intros a b H; cbn [take_op]; [auto|].
  destruct (sim_ignore _ _ H) as (-> & ->). destruct H as [|n sp1 sp2 a b Hs H|c1 g sp1 sp2 a b Hs Hn H|r sp1 sp2 a b Hs H|d sp1 sp2 i j a b Hd Hs Ho Hcl Hi H]; try exact I.
  destruct (_ && _ && _); [|exact I].
  specialize (IH a b H). destruct (take_op op a) as [(x, r1)|], (take_op op b) as [(y, r2)|]; try exact IH.
  destruct IH as (IH1 & IH2). split; [constructor; assumption|exact IH2].
Qed.
Lemma par_token op : par (Forall2 R) (p_token op) (p_token op).
Proof.
  intros s1 s2 Hs. unfold p_token. pose proof (sim_take op _ _ (proj1 Hs)) as H.
  destruct (take_op op (ps_rest s1)) as [(x, r1)|], (take_op op (ps_rest s2)) as [(y, r2)|]; try contradiction.
  - split; [apply H|]. apply ssim_set_rest; [exact Hs|apply H].
  - split; [|exact Hs]. split; [reflexivity|]. cbn [e_span]. pose proof (head_spot _ _ Hs) as Hh. unfold op_error_span. head_sim Hs; try exact Hh.
    destruct (c =? 39)%N; [exact Hh|left; assumption].
Qed.
Definition lit_at {A} (x y : A * span) : Prop := fst x = fst y /\ R (snd x) (snd y).
Lemma par_lit : par (@lit_at slit) p_lit p_lit.
Proof.
  intros s1 s2 Hs. unfold p_lit. head_sim Hs; try no_head Hs.
  - destruct (text_eqb n (T "true")); [split; [split; [reflexivity|assumption]|apply ssim_set_rest; assumption]|].
    destruct (text_eqb n (T "false")); [split; [split; [reflexivity|assumption]|apply ssim_set_rest; assumption]|]. no_head Hs.
  - destruct (N.eqb_spec c 45) as [->|_]; [|no_head Hs].
    match goal with H : sim a b |- _ => destruct (sim_ignore _ _ H) as (-> & ->); destruct H as [|n q1 q2 x y Hq H|c g' q1 q2 x y Hq Hn H|rr q1 q2 x y Hq H|d q1 q2 i j x y Hd Hq Ho Hcl Hi H]; try no_head Hs end.
    destruct (lit_num (45%N :: rr)); [|no_head Hs].
    split; [split; [reflexivity|]|apply ssim_set_rest; assumption]. cbn [snd]. match goal with H : near _ _ |- _ => apply H; reflexivity end.
  - destruct (lit_new r); [|split; [exact I|exact Hs]].
    split; [split; [reflexivity|assumption]|apply ssim_set_rest; assumption].
Qed.
Lemma par_typed {A} (sel : slit -> option A) w : par (@lit_at A) (p_typed sel w) (p_typed sel w).
Proof.
  intros s1 s2 Hs. pose proof (par_lit s1 s2 Hs) as H. unfold p_typed.
  destruct (p_lit s1) as ([(k1, sp1)|e| |], t1), (p_lit s2) as ([(k2, sp2)|e'| |], t2); cbn [fst snd orel] in H; destruct H as (Ho & Ht); try contradiction;
    try (split; [exact I|exact Ht]).
  - destruct Ho as (Ho & Hr). cbn in Ho, Hr. subst k2. destruct (sel k1); (split; [|exact Ht]); [split; [reflexivity|exact Hr]|]. apply serr_at. exact Hs.
  - split; [apply serr_at; exact Hs|exact Ht].
Qed.
Lemma par_and_then {A B A' B'} (P : A -> A' -> Prop) (Q : B -> B' -> Prop) p q k1 k2 : par P p q ->
  (forall a b, P a b -> orel Q (k1 a) (k2 b)) -> par Q (and_then p k1) (and_then q k2).
Proof. intros Hp Hk. eapply par_bind; [exact Hp|]. intros a b Hab. apply par_pure. auto. Qed.
Lemma int_at a x y : R x y -> orel (@lit_at lit) (int_try_from a x) (int_try_from a y).
Proof. intro H. unfold int_try_from. destruct (read_i64 a); split; try reflexivity; [exact H|left; exact H]. Qed.
Lemma uint_at a x y : R x y -> orel (@lit_at lit) (uint_try_from a x) (uint_try_from a y).
Proof. intro H. unfold uint_try_from. destruct (read_u64 a); split; try reflexivity; [exact H|left; exact H]. Qed.
Lemma float_at a x y : R x y -> orel (@lit_at lit) (float_try_from a x) (float_try_from a y).
Proof. intro H. unfold float_try_from. destruct (float_read a); split; try reflexivity; [exact H|left; exact H]. Qed.
Lemma par_litty k : par (@lit_at lit) (p_litty k) (p_litty k).
Proof.
  assert (Hm : forall A (g : A -> lit) (sel : slit -> option A) w,
     par (@lit_at lit) (pmap (fun x => (g (fst x), snd x)) (p_typed sel w)) (pmap (fun x => (g (fst x), snd x)) (p_typed sel w))).
  { intros A g sel w. eapply par_pmap; [|apply par_typed]. intros (a, sa) (b, sb) (E & Hr). cbn in *. subst b. split; [reflexivity|exact Hr]. }
  destruct k; cbn [p_litty]; try apply Hm.
  - eapply par_and_then; [apply par_typed|]. intros (a, sa) (b, sb) (E & Hr). cbn in *. subst b. apply int_at. exact Hr.
  - eapply par_and_then; [apply par_typed|]. intros (a, sa) (b, sb) (E & Hr). cbn in *. subst b. apply uint_at. exact Hr.
  - eapply par_and_then; [apply par_typed|]. intros (a, sa) (b, sb) (E & Hr). cbn in *. subst b. apply float_at. exact Hr.
Qed.
Lemma par_any_lit : par (@lit_at lit) p_any_lit p_any_lit.
Proof.
  eapply par_and_then; [apply par_lit|]. intros (k, x) (k2, y) (E & Hr). cbn in E, Hr. subst k2. unfold lit_try_from.
  destruct k as [b|[x1|x2| |b|c|ds|ds]]; try (split; [reflexivity|exact Hr]).
  - split; [reflexivity|left; exact Hr].
  - destruct ds as [|c r]; [|destruct (c =? 45)%N]; [apply uint_at|apply int_at|apply uint_at]; exact Hr.
  - apply float_at. exact Hr.
Qed.
Lemma par_eof : par (fun _ _ : unit => True) p_eof p_eof.
Proof. intros s1 s2 Hs. unfold p_eof. rewrite (ssim_empty _ _ Hs). destruct (is_empty s2); split; try exact Hs; [exact I|apply serr_at; exact Hs]. Qed.
Lemma par_not_eof : par (fun _ _ : unit => True) p_not_eof p_not_eof.
Proof. intros s1 s2 Hs. unfold p_not_eof. rewrite (ssim_empty _ _ Hs). destruct (is_empty s2); split; try exact Hs; [apply serr_at; exact Hs|exact I]. Qed.

(** ** nodes *)
Lemma par_group {A B} (Q : A -> B -> Prop) d p q : par Q p q -> par (fun x y => R (fst x) (fst y) /\ Q (snd x) (snd y)) (p_group d p) (p_group d q).
Proof.
  intros Hp s1 s2 Hs. unfold p_group. head_sim Hs; try no_head Hs.
  destruct (delim_eqb d d0); [|no_head Hs].
  match goal with |- context [p ?x] => set (t1 := x) end. match goal with |- context [q ?x] => set (t2 := x) end.
  assert (Ht : ssim t1 t2) by (split; [assumption|split; [left; assumption|apply Hs]]). specialize (Hp t1 t2 Ht).
  assert (Hd : forall u1 u2, ssim u1 u2 -> ssim (PS a (ps_scope s1) (drop_unexp (ps_unexp u1) (ps_rest u1))) (PS b (ps_scope s2) (drop_unexp (ps_unexp u2) (ps_rest u2)))).
  { intros u1 u2 (Hu1 & _ & Hu2). split; [assumption|split; [apply Hs|]]. cbn. apply sim_leftover in Hu1. unfold drop_unexp.
    destruct (ps_unexp u1), (ps_unexp u2); try contradiction; assumption. }
  destruct (p t1) as ([v1|e1| |], u1), (q t2) as ([v2|e2| |], u2); cbn [fst snd orel] in Hp; destruct Hp as (Ho & Hu); try contradiction;
    (split; [cbn; auto|apply Hd; exact Hu]).
Qed.
Section Two.
Context {A P A' P' : Type} (Q : A -> A' -> Prop) (S : P -> P' -> Prop).
Definition both (x : A * P) (y : A' * P') : Prop := Q (fst x) (fst y) /\ S (snd x) (snd y).
Definition pn_rel (x : punctuated A P) (y : punctuated A' P') : Prop :=
  Forall2 both (pn_inner x) (pn_inner y) /\ match pn_last x, pn_last y with Some a, Some b => Q a b | None, None => True | _, _ => False end.
Lemma rev_rel {X Y} (T : X -> Y -> Prop) l m : Forall2 T l m -> Forall2 T (rev l) (rev m).
Proof. induction 1 as [|x y l m H _ IH]; cbn; [constructor|]. apply Forall2_app; [exact IH|constructor; [exact H|constructor]]. Qed.
Lemma par_terminated n (pa : parser A) (qa : parser A') (pp : parser P) (qp : parser P') :
  par Q pa qa -> par S pp qp -> forall acc1 acc2, Forall2 both acc1 acc2 ->
  par pn_rel (terminated_loop n pa pp acc1) (terminated_loop n qa qp acc2).
Proof.
  intros Ha Hp. induction n as [|n IH]; intros acc1 acc2 Hacc.
  - apply (par_pure _ ODiverge ODiverge). exact I.
  - intros s1 s2 Hs. rewrite !terminated_loop_S. rewrite (ssim_empty _ _ Hs). destruct (is_empty s2).
    + split; [|exact Hs]. split; [apply rev_rel; exact Hacc|exact I].
    + revert s1 s2 Hs. change (par pn_rel
        (bind pa (fun v s1 => if is_empty s1 then (OOk (Pn (rev acc1) (Some v)), s1) else bind pp (fun p => terminated_loop n pa pp ((v, p) :: acc1)) s1))
        (bind qa (fun v s1 => if is_empty s1 then (OOk (Pn (rev acc2) (Some v)), s1) else bind qp (fun p => terminated_loop n qa qp ((v, p) :: acc2)) s1))).
      eapply par_bind; [exact Ha|]. intros v w Hvw s1 s2 Hs. rewrite (ssim_empty _ _ Hs). destruct (is_empty s2).
      * split; [|exact Hs]. split; [apply rev_rel; exact Hacc|exact Hvw].
      * revert s1 s2 Hs. refine (par_bind S _ _ _ _ _ Hp _). intros x y Hxy. apply IH. constructor; [split; assumption|exact Hacc].
Qed.
Lemma par_separated_loop n (pa : parser A) (qa : parser A') (pp : parser P) (qp : parser P') :
  par Q pa qa -> par S pp qp -> forall acc1 acc2 c1 c2, Forall2 both acc1 acc2 -> Q c1 c2 ->
  par pn_rel (separated_loop n pa pp acc1 c1) (separated_loop n qa qp acc2 c2).
Proof.
  intros Ha Hp. induction n as [|n IH]; intros acc1 acc2 c1 c2 Hacc Hc.
  - apply (par_pure _ ODiverge ODiverge). exact I.
  - eapply par_ext; [apply separated_loop_speculate|apply separated_loop_speculate|]. eapply par_speculate; [exact Hp| |].
    + intros x y Hxy. eapply par_bind; [exact Ha|]. intros v w Hvw. apply IH; [constructor; [split; assumption|exact Hacc]|exact Hvw].
    + intros e1 e2 _. apply par_ret. split; [apply rev_rel; exact Hacc|exact Hc].
Qed.
Lemma par_separated n (pa : parser A) (qa : parser A') (pp : parser P) (qp : parser P') :
  par Q pa qa -> par S pp qp -> par pn_rel (p_separated n pa pp) (p_separated n qa qp).
Proof. intros Ha Hp. eapply par_bind; [exact Ha|]. intros a b Hab. apply par_separated_loop; auto. Qed.
Lemma par_any n (pa : parser A) (qa : parser A') : par Q pa qa -> forall acc1 acc2, Forall2 Q acc1 acc2 ->
  par (Forall2 Q) (any_loop n pa acc1) (any_loop n qa acc2).
Proof.
  intros Ha. induction n as [|n IH]; intros acc1 acc2 Hacc.
  - apply (par_pure _ ODiverge ODiverge). exact I.
  - eapply par_ext; [apply any_loop_speculate|apply any_loop_speculate|]. eapply par_speculate; [exact Ha| |].
    + intros x y Hxy. apply IH. constructor; assumption.
    + intros e1 e2 _. apply par_ret. apply rev_rel. exact Hacc.
Qed.
Lemma par_maybe (pp : parser A) (qp : parser A') (pa : parser P) (qa : parser P') : par Q pp qp -> par S pa qa ->
  par (fun x y => match x, y with Some a, Some b => both a b | None, None => True | _, _ => False end) (p_maybe pp pa) (p_maybe qp qa).
Proof.
  intros Hp Ha. eapply par_ext; [apply p_maybe_speculate|apply p_maybe_speculate|]. eapply par_speculate; [exact Hp| |].
  - intros x y Hxy. eapply par_bind; [exact Ha|]. intros v w Hvw. apply par_ret. split; assumption.
  - intros. apply par_ret. exact I.
Qed.
Lemma par_either (pl : parser A) (ql : parser A') (pr : parser P) (qr : parser P') : par Q pl ql -> par S pr qr ->
  par (fun x y => match x, y with ELeft a, ELeft b => Q a b | ERight a, ERight b => S a b | _, _ => False end) (p_either pl pr) (p_either ql qr).
Proof.
  intros Hl Hr. eapply par_ext; [apply p_either_speculate|apply p_either_speculate|]. eapply par_speculate; [exact Hl| |].
  - intros. apply par_ret. assumption.
  - intros e1 e2 He. eapply par_speculate; [exact Hr| |].
    + intros. apply par_ret. assumption.
    + intros e3 e4 He2. apply par_fail. apply serr_max; assumption.
Qed.
Definition pair_rel (x : pair A P) (y : pair A' P') : Prop :=
  match x, y with PPunctuated v p, PPunctuated w q => Q v w /\ S p q | PEnd v, PEnd w => Q v w | _, _ => False end.
Lemma into_pairs_rel x y : pn_rel x y -> Forall2 pair_rel (into_pairs x) (into_pairs y).
Proof.
  destruct x as [l a], y as [m b]. intros (H & Hl). cbn [pn_inner pn_last] in *. unfold into_pairs. cbn [pn_inner pn_last]. apply Forall2_app.
  - clear Hl. induction H as [|(v, p) (w, q) l m H _ IH]; cbn; constructor; [exact H|exact IH].
  - destruct a, b; try contradiction; [constructor; [exact Hl|constructor]|constructor].
Qed.
Lemma first_rest_rel l m : Forall2 pair_rel l m -> forall p q acc acc', S p q -> Forall2 (fun x y => S (fst x) (fst y) /\ Q (snd x) (snd y)) acc acc' ->
  Forall2 (fun x y => S (fst x) (fst y) /\ Q (snd x) (snd y)) (first_rest_loop p l acc) (first_rest_loop q m acc').
Proof.
  induction 1 as [|[v p'|v] [w q'|w] l m H _ IH]; intros p q acc acc' Hp Hacc; try (cbn [pair_rel] in H); try contradiction; cbn [first_rest_loop].
  - apply rev_rel. exact Hacc.
  - apply IH; [apply H|]. constructor; [split; [exact Hp|apply H]|exact Hacc].
  - apply Forall2_app; [apply rev_rel; exact Hacc|]. constructor; [split; [exact Hp|exact H]|constructor].
Qed.
Lemma into_first_rest_rel x y : pn_rel x y ->
  match into_first_rest x, into_first_rest y with
  | Some (v, l), Some (w, m) => Q v w /\ Forall2 (fun x y => S (fst x) (fst y) /\ Q (snd x) (snd y)) l m
  | None, None => True | _, _ => False end.
Proof.
  intro H. apply into_pairs_rel in H. unfold into_first_rest. destruct H as [|[v p|v] [w q|w] l m H Hl]; try (cbn [pair_rel] in H); try contradiction; [exact I| |].
  - split; [apply H|]. apply first_rest_rel; [exact Hl|apply H|constructor].
  - split; [exact H|constructor].
Qed.
Lemma last_rest_rel l m : Forall2 pair_rel l m -> forall acc acc', Forall2 both acc acc' ->
  match last_rest_loop l acc, last_rest_loop m acc' with
  | Some (v, x), Some (w, y) => Q v w /\ Forall2 both x y
  | None, None => True | _, _ => False end.
Proof.
  induction 1 as [|[v p'|v] [w q'|w] l m H _ IH]; intros acc acc' Hacc; try (cbn [pair_rel] in H); try contradiction; cbn [last_rest_loop].
  - exact I.
  - apply IH. constructor; [exact H|exact Hacc].
  - split; [exact H|apply rev_rel; exact Hacc].
Qed.
End Two.
Lemma build_left_rel x y l m : same_val R x y -> Forall2 (both (same_val R) (same_val R)) l m ->
  same_val R (val_of_left (build_left x l)) (val_of_left (build_left y m)).
Proof.
  unfold build_left. intros Hx Hl. assert (Ht : same_val R (val_of_left (LRhs x)) (val_of_left (LRhs y))) by (cbn; constructor; exact Hx).
  revert Ht. generalize (LRhs (O := val) x), (LRhs (O := val) y). induction Hl as [|(o, r) (o', r') l m H _ IH]; intros t u Ht; [exact Ht|].
  cbn [fold_left]. apply IH. cbn. constructor; [exact Ht|apply H|apply H].
Qed.
Lemma build_right_rel x y l m : same_val R x y -> Forall2 (both (same_val R) (same_val R)) l m ->
  same_val R (val_of_right (build_right x l)) (val_of_right (build_right y m)).
Proof.
  unfold build_right. intros Hx Hl. apply rev_rel in Hl. assert (Ht : same_val R (val_of_right (RLhs x)) (val_of_right (RLhs y))) by (cbn; constructor; exact Hx).
  revert Ht. generalize (RLhs (O := val) x), (RLhs (O := val) y). induction Hl as [|(o, r) (o', r') l' m' H _ IH]; intros t u Ht; [exact Ht|].
  cbn [fold_left]. apply IH. cbn. constructor; [apply H|apply H|exact Ht].
Qed.
Lemma par_left n po qo pr qr : par (same_val R) po qo -> par (same_val R) pr qr ->
  par (same_val R) (pmap val_of_left (p_left_assoc n po pr)) (pmap val_of_left (p_left_assoc n qo qr)).
Proof.
  intros Ho Hr. apply (par_pmap (fun x y => same_val R (val_of_left x) (val_of_left y))); [auto|].
  eapply par_bind; [apply (par_separated (same_val R) (same_val R)); eassumption|]. intros x y Hxy s1 s2 Hs.
  apply into_first_rest_rel in Hxy. destruct (into_first_rest x) as [(v, l)|], (into_first_rest y) as [(w, k)|]; try contradiction; (split; [|exact Hs]).
  - cbn. apply build_left_rel; apply Hxy.
  - exact I.
Qed.
Lemma par_right n po qo pr qr : par (same_val R) po qo -> par (same_val R) pr qr ->
  par (same_val R) (pmap val_of_right (p_right_assoc n po pr)) (pmap val_of_right (p_right_assoc n qo qr)).
Proof.
  intros Ho Hr. apply (par_pmap (fun x y => same_val R (val_of_right x) (val_of_right y))); [auto|].
  eapply par_bind; [apply (par_separated (same_val R) (same_val R)); eassumption|]. intros x y Hxy s1 s2 Hs.
  apply into_pairs_rel in Hxy. apply last_rest_rel with (acc := []) (acc' := []) in Hxy; [|constructor].
  change (last_rest_loop (into_pairs x) []) with (into_last_rest x) in Hxy. change (last_rest_loop (into_pairs y) []) with (into_last_rest y) in Hxy.
  destruct (into_last_rest x) as [(v, l)|], (into_last_rest y) as [(w, k)|]; try contradiction; (split; [|exact Hs]).
  - cbn. apply build_right_rel; apply Hxy.
  - exact I.
Qed.
Lemma par_fields {V} (Q : V -> V -> Prop) en ct (fs gs : list (label * parser V)) :
  Forall2 (fun x y => fst x = fst y /\ par Q (snd x) (snd y)) fs gs -> par (Forall2 Q) (p_fields en ct fs) (p_fields en ct gs).
Proof.
  induction 1 as [|(l1, p1) (l2, p2) fs gs (E & H) _ IH]; cbn [p_fields]; [apply par_ret; constructor|]. cbn in E, H. subst l2.
  eapply par_bind; [apply par_map_err; [|exact H]|].
  - intros e e' (E & Hs). split; [|exact Hs]. cbn. rewrite E. reflexivity.
  - intros a b Hab. eapply par_bind; [exact IH|]. intros l k Hlk. apply par_ret. constructor; assumption.
Qed.
Definition oerr (a b : option error) : Prop := match a, b with Some e, Some e' => serr e e' | None, None => True | _, _ => False end.
Lemma par_variants {V} (Q : V -> V -> Prop) en (vs ws : list (text * list (label * parser V))) :
  Forall2 (fun x y => fst x = fst y /\ Forall2 (fun a b => fst a = fst b /\ par Q (snd a) (snd b)) (snd x) (snd y)) vs ws ->
  forall k a1 a2, oerr a1 a2 -> par (fun x y => fst x = fst y /\ Forall2 Q (snd x) (snd y)) (p_variants en k a1 vs) (p_variants en k a2 ws).
Proof.
  induction 1 as [|(c1, f1) (c2, f2) vs ws (E & H) _ IH]; intros k a1 a2 Ha.
  - intros s1 s2 Hs. split; [|exact Hs]. cbn. destruct a1, a2; try contradiction; [exact Ha|apply serr_at; exact Hs].
  - cbn in E, H. subst c2. eapply par_ext; [apply p_variants_speculate|apply p_variants_speculate|]. eapply par_speculate.
    + apply (par_fields Q). exact H.
    + intros l m Hlm. apply par_ret. split; [reflexivity|exact Hlm].
    + intros e1 e2 He. apply IH. cbn. destruct a1, a2; try contradiction; [apply serr_max; assumption|exact He].
Qed.

(** ** every grammar *)
Lemma par_field_tys (p : ty -> parser val) (fs : list (label * ty)) : (forall t, par (same_val R) (p t) (p t)) ->
  Forall2 (fun x y => fst x = fst y /\ par (same_val R) (snd x) (snd y)) (map (fun '(l, t) => (l, p t)) fs) (map (fun '(l, t) => (l, p t)) fs).
Proof. intros H. induction fs as [|(l, t) fs IH]; cbn; constructor; [split; [reflexivity|apply H]|exact IH]. Qed.
Theorem par_layer E n (p : ty -> parser val) t : (forall t, par (same_val R) (p t) (p t)) -> par (same_val R) (p_layer E n p t) (p_layer E n p t).
Proof.
  intros Hp. destruct t; cbn [p_layer].
  - eapply par_pmap; [|apply par_ident]. intros (x, sx) (y, sy) (E1 & H). cbn in *. subst y. constructor. exact H.
  - eapply par_pmap; [|apply par_custom_ident]. intros (x, sx) (y, sy) (E1 & H). cbn in *. subst y. constructor. exact H.
  - eapply par_pmap; [|apply par_keyword]. intros x y H. constructor. exact H.
  - eapply par_pmap; [|apply par_token_kw]. intros x y H. constructor. exact H.
  - eapply par_pmap; [|apply par_token]. intros x y H. constructor. exact H.
  - eapply par_pmap; [|apply par_litty]. intros (x, sx) (y, sy) (E1 & H). cbn in *. subst y. constructor. exact H.
  - eapply par_pmap; [|apply par_any_lit]. intros (x, sx) (y, sy) (E1 & H). cbn in *. subst y. constructor. exact H.
  - eapply (par_pmap (fun _ _ : unit => True)); [intros; constructor|]. apply par_ret. exact I.
  - eapply par_pmap; [|apply par_eof]. intros; constructor.
  - eapply par_pmap; [|apply par_not_eof]. intros; constructor.
  - eapply par_pmap; [|apply (par_maybe (same_val R) (same_val R)); apply Hp]. intros [(a, b)|] [(a', b')|] H; try contradiction; constructor; apply H.
  - eapply par_pmap; [|apply (par_group (same_val R)), Hp]. intros (a, b) (a', b') (H1 & H2). constructor; assumption.
  - eapply par_pmap; [|apply (par_group (same_val R)), Hp]. intros (a, b) (a', b') (H1 & H2). constructor; assumption.
  - eapply par_pmap; [|apply (par_group (same_val R)), Hp]. intros (a, b) (a', b') (H1 & H2). constructor; assumption.
  - eapply par_pmap; [|apply (par_terminated (same_val R) (same_val R) n); [apply Hp|apply Hp|constructor]]. intros [l [o|]] [l' [o'|]] (H1 & H2); cbn in H1, H2; try contradiction; constructor; assumption.
  - eapply par_pmap; [|apply (par_separated (same_val R) (same_val R) n); apply Hp]. intros [l [o|]] [l' [o'|]] (H1 & H2); cbn in H1, H2; try contradiction; constructor; assumption.
  - eapply par_pmap; [|apply (par_any (same_val R) n); [apply Hp|constructor]]. intros a b H. constructor. exact H.
  - apply par_left; apply Hp.
  - apply par_right; apply Hp.
  - eapply par_pmap; [|apply (par_either (same_val R) (same_val R)); apply Hp]. intros [a|a] [b|b] H; try contradiction; constructor; exact H.
  - apply Hp.
  - destruct (E i) as [c|en cs]; cbn [p_def].
    + eapply par_pmap; [|apply (par_fields (same_val R)), par_field_tys; exact Hp]. intros a b H. constructor. exact H.
    + eapply par_pmap; [|apply (par_variants (same_val R)); [|exact I]].
      * intros (a, l) (b, m) (E1 & H). cbn in *. subst b. constructor. exact H.
      * induction cs as [|c cs IH]; cbn; constructor; [|exact IH]. split; [reflexivity|]. apply par_field_tys. exact Hp.
Qed.
Theorem par_pty E n t : par (same_val R) (pty E n t) (pty E n t).
Proof.
  revert t. induction n as [|n IH]; intros t.
  - apply (par_pure _ ODiverge ODiverge). exact I.
  - rewrite pty_S. apply par_layer. exact IH.
Qed.
Theorem sim_parse E n t a b : sim a b -> same_result R (parse2 (pty E n t) a) (parse2 (pty E n t) b).
Proof.
  intro H. assert (Hs : ssim (start a) (start b)) by (split; [exact H|split; [right; split; reflexivity|exact I]]).
  pose proof (par_pty E n t _ _ Hs) as Hp. unfold parse2.
  destruct (pty E n t (start a)) as ([v|e| |], s1), (pty E n t (start b)) as ([w|e'| |], s2); cbn [fst snd orel] in Hp; destruct Hp as (Ho & Hr); try contradiction; try exact I; [|exact Ho].
  destruct Hr as (Hr & _ & Hu). apply sim_leftover in Hr. unfold ospan in *.
  destruct (ps_unexp s1), (ps_unexp s2); try contradiction; [split; [reflexivity|exact Hu]|].
  destruct (leftover (ps_rest s1)), (leftover (ps_rest s2)); try contradiction; [split; [reflexivity|exact Hr]|exact Ho].
Qed.
End SimSpan.

(** ** The places of two streams of the same tokens *)
Lemma unspan_group_inv d sp l t : unspan t = unspan (TGroup d sp l) -> exists sp' m, t = TGroup d sp' m /\ map unspan m = map unspan l.
Proof. destruct t; cbn; intro H; try discriminate. injection H as -> H. eauto. Qed.
Lemma places_sim (R : span -> span -> Prop) b : forall a, map unspan a = map unspan b -> visible a = true -> (forall x y, place a b x y -> R x y) -> sim R a b.
Proof.
  assert (G : forall b, Forall (fun u => match u with TGroup _ _ m => forall a, map unspan a = map unspan m -> visible a = true -> (forall x y, place a m x y -> R x y) -> sim R a m | _ => True end) b ->
    forall a, map unspan a = map unspan b -> visible a = true -> (forall x y, place a b x y -> R x y) -> sim R a b).
  { clear b. induction 1 as [|u q Hu _ IH]; intros [|t r] E Hv H; cbn [map] in E; try discriminate E; [constructor|]. injection E as E Er. cbn [visible] in Hv. apply andb_true_iff in Hv as (Hv & Hvr).
    assert (Hr : sim R r q) by (apply IH; [exact Er|exact Hvr|intros x y P; apply H; apply at_later; exact P]).
    destruct u as [n sp|c g sp|n sp|d sp m]; destruct t as [n' sp'|c' g' sp'|n' sp'|d' sp' m']; cbn [unspan] in E; try discriminate E; try injection E as ->.
    - apply sim_ident; [apply H; apply (at_token (TIdent n sp') (TIdent n sp))|exact Hr].
    - subst g'. apply sim_punct; [apply H; apply (at_token (TPunct c g sp') (TPunct c g sp))| |exact Hr].
      destruct r as [|[]], q as [|[]]; try exact I. cbn. intros ->. apply H. apply at_negative.
    - apply sim_lit; [apply H; apply (at_token (TLit n sp') (TLit n sp))|exact Hr].
    - apply sim_group; [intros ->; discriminate Hv|apply H; apply (at_token (TGroup d sp' m') (TGroup d sp m))|apply H; apply at_open|apply H; apply at_close| |exact Hr].
      apply Hu; [assumption|destruct d; try discriminate Hv; exact Hv|]. intros x y P. apply H. apply at_inside. exact P. }
  apply G. apply Forall_forall. intros u _. induction u as [n s|c k s|n s|d s l IH] using tt_ind'; try exact I. apply G. exact IH.
Qed.
(** Same tokens, places in the same order: the same result at the corresponding places. *)
Theorem same_order_same_result {U : unicode} E t n a b : map unspan a = map unspan b -> visible a = true -> same_order (place a b) ->
  same_result (place a b) (parse2 (pty E n t) a) (parse2 (pty E n t) b).
Proof. intros Hu Hv Ho. apply sim_parse; [exact Ho|]. apply places_sim; auto. Qed.
