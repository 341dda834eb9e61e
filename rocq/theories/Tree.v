(** * Tree: a parsed value is a syntax tree of the tokens it was parsed from (C49). *)
From Verif Require Import Base Float Literal Syn Ast Derive Grammar Spec LitSpec LiteralFacts Reprint LitDenote
  SynFacts Lawful Mono Combinators GrammarBeh Assoc ManyFacts Sound.
Local Open Scope nat_scope.

(** ** Specification *)
(** the immediate parts of a value, in the order in which they are declared and printed *)
Definition children (v : val) : list val :=
  match v with
  | VIdent _ _ | VKw _ _ | VOp _ _ | VLit _ _ | VUnit | VNothing => []
  | VJust p x => [p; x]
  | VGroup _ _ x => [x]
  | VPunct inner last => flat_map (fun '(x, y) => [x; y]) inner ++ match last with Some x => [x] | None => [] end
  | VList l => l
  | VBinL l o r | VBinR l o r => [l; o; r]
  | VRhs x | VLhs x | VLeft x | VRight x => [x]
  | VStruct vs | VVariant _ vs => vs
  end.
(** [u] is [v], or a part of it at any depth *)
Inductive part (u : val) : val -> Prop :=
| part_self : part u u
| part_of w v : In w (children v) -> part u w -> part u v.
(** identifiers, keywords, operators, literals *)
Definition is_leaf (v : val) : bool :=
  match v with VIdent _ _ | VKw _ _ | VOp _ _ | VLit _ _ => true | _ => false end.
(** [a] is a contiguous run of the tokens [l], or of the tokens in a group of [l] at any depth *)
Inductive segment (a : list tt) : list tt -> Prop :=
| seg_here p q : segment a (p ++ a ++ q)
| seg_inside p d sp l q : segment a l -> segment a (p ++ TGroup d sp l :: q).

Section Tree.
Context {U : unicode}.
(** [tree L a v]: the tokens [a] can be cut into consecutive runs, one for each immediate part of [v] in order,
    and so on for the parts; an identifier, keyword, operator or literal is made of the tokens that it prints
    as; a delimited value is made of one group, whose contents start with those of the value. *)
Inductive tree (L : list tt -> Prop) : list tt -> val -> Prop :=
| tr_leaf a v ts : is_leaf v = true -> print v = Some ts -> reprints loose L a ts -> tree L a v
| tr_group d sp i left x : tree L i x -> L left -> tree L [TGroup d sp (i ++ left)] (VGroup d sp x)
| tr_node a v : is_leaf v = false -> match v with VGroup _ _ _ => False | _ => True end -> trees L a (children v) -> tree L a v
with trees (L : list tt -> Prop) : list tt -> list val -> Prop :=
| tr_nil : trees L [] []
| tr_cons a v b vs : tree L a v -> trees L b vs -> trees L (a ++ b) (v :: vs).
Scheme tree_min := Minimality for tree Sort Prop with trees_min := Minimality for trees Sort Prop.
Combined Scheme tree_mut from tree_min, trees_min.

(** ** Facts about trees *)
Lemma trees_app L a vs : forall b ws, trees L a vs -> trees L b ws -> trees L (a ++ b) (vs ++ ws).
Proof. intros b ws H H2. induction H as [|a v a' vs Hv Hs IH]; [exact H2|]. rewrite <- app_assoc. cbn [app]. constructor; assumption. Qed.
Lemma trees_one L a v : tree L a v -> trees L a [v].
Proof. intro H. rewrite <- (app_nil_r a). constructor; [exact H|constructor]. Qed.
Lemma tree_mono (L M : list tt -> Prop) : (forall x, L x -> M x) ->
  (forall a v, tree L a v -> tree M a v) /\ (forall a vs, trees L a vs -> trees M a vs).
Proof.
  intro HM. apply (tree_mut L (fun a v => tree M a v) (fun a vs => trees M a vs)).
  - intros a v ts Hl Hp R. eapply tr_leaf; [exact Hl|exact Hp|]. exact (reprints_mono _ _ _ _ _ HM R).
  - intros. constructor; auto.
  - intros. apply tr_node; assumption.
  - constructor.
  - intros. constructor; assumption.
Qed.
Lemma oconcat_flat_pairs (inner : list (val * val)) :
  oconcat (map (fun '(x, y) => oapp (print x) (print y)) inner) = oconcat (map print (flat_map (fun '(x, y) => [x; y]) inner)).
Proof. induction inner as [|(x, y) l IH]; [reflexivity|]. unfold oconcat in *. cbn [map fold_right flat_map app]. rewrite IH, oapp_assoc. reflexivity. Qed.
Lemma oconcat_app a b : oconcat (a ++ b) = oapp (oconcat a) (oconcat b).
Proof. induction a as [|x a IH]; [cbn [app]; unfold oconcat at 2; cbn [fold_right]; destruct (oconcat b); reflexivity|]. change (oapp x (oconcat (a ++ b)) = oapp (oapp x (oconcat a)) (oconcat b)). rewrite IH, oapp_assoc. reflexivity. Qed.
Lemma oapp_nil_r a : oapp a (Some []) = a.
Proof. destruct a; cbn; [rewrite app_nil_r|]; reflexivity. Qed.
(** what is neither a leaf nor a group prints its parts, in order *)
Lemma print_children v : is_leaf v = false -> match v with VGroup _ _ _ => False | _ => True end ->
  print v = oconcat (map print (children v)).
Proof.
  intros Hl Hg. destruct v; try discriminate Hl; try destruct Hg; cbn [print children map]; try reflexivity.
  all: try (unfold oconcat; cbn [fold_right map]; rewrite ?oapp_nil_r; reflexivity).
  rewrite map_app, oconcat_app, oconcat_flat_pairs. f_equal. destruct last; [|reflexivity]. unfold oconcat. cbn [fold_right map]. rewrite oapp_nil_r. reflexivity.
Qed.
(** a tree prints as its tokens *)
Lemma tree_print L : (forall a v, tree L a v -> exists ts, print v = Some ts /\ reprints loose L a ts) /\
  (forall a vs, trees L a vs -> exists ts, oconcat (map print vs) = Some ts /\ reprints loose L a ts).
Proof.
  apply (tree_mut L (fun a v => exists ts, print v = Some ts /\ reprints loose L a ts) (fun a vs => exists ts, oconcat (map print vs) = Some ts /\ reprints loose L a ts)).
  - intros a v ts Hl Hp R. eauto.
  - intros d sp i left x _ (ts & Hp & R) HL. exists [TGroup d sp ts]. cbn. rewrite Hp. split; [reflexivity|]. constructor; [exact R|exact HL|constructor].
  - intros a v Hl Hg _ (ts & Hp & R). exists ts. rewrite (print_children v Hl Hg). auto.
  - exists []. split; [reflexivity|constructor].
  - intros a v b vs _ (ts & Hp & R) _ (ts' & Hp' & R'). exists (ts ++ ts'). cbn [map]. unfold oconcat in *. cbn [fold_right]. rewrite Hp, Hp'. split; [reflexivity|apply reprints_app; assumption].
Qed.

Lemma segment_refl a : segment a a.
Proof. rewrite <- (app_nil_r a) at 2. apply (seg_here a [] []). Qed.
Lemma segment_trans a b c : segment a b -> segment b c -> segment a c.
Proof.
  intros H H2. induction H2 as [p q|p d sp l q H2 IH]; [|apply seg_inside; apply IH; exact H].
  destruct H as [p' q'|p' d sp l q' H].
  - replace (p ++ (p' ++ a ++ q') ++ q) with ((p ++ p') ++ a ++ (q' ++ q)) by (rewrite !app_assoc; reflexivity). constructor.
  - replace (p ++ (p' ++ TGroup d sp l :: q') ++ q) with ((p ++ p') ++ TGroup d sp l :: (q' ++ q)) by (rewrite <- !app_assoc; reflexivity). constructor. exact H.
Qed.
Lemma trees_in L a vs u : trees L a vs -> In u vs -> exists b, segment b a /\ tree L b u.
Proof.
  induction 1 as [|a v b vs Hv Hs IH]; intros []; [subst v|destruct (IH H) as (c & Hc & Ht)].
  - exists a. split; [apply (seg_here a [] b)|exact Hv].
  - exists c. split; [|exact Ht]. eapply segment_trans; [exact Hc|]. pose proof (seg_here b a []) as K. rewrite app_nil_r in K. exact K.
Qed.
Lemma tree_child L a v u : tree L a v -> In u (children v) -> exists b, segment b a /\ tree L b u.
Proof.
  intros H Hu. destruct H as [a v ts Hl Hp R|d sp i left x Ht HL|a v Hl Hg Ht].
  - destruct v; try discriminate Hl; destruct Hu.
  - destruct Hu as [<-|[]]. exists i. split; [|exact Ht]. apply (seg_inside i [] d sp (i ++ left) []). apply (seg_here i [] left).
  - exact (trees_in L a _ u Ht Hu).
Qed.
Lemma tree_part L u v : part u v -> forall a, tree L a v -> exists b, segment b a /\ tree L b u.
Proof.
  induction 1 as [|w v Hw Hp IH]; intros a Ht; [exists a; split; [apply segment_refl|exact Ht]|].
  destruct (tree_child L a v w Ht Hw) as (b & Hb & Htb). destruct (IH b Htb) as (c & Hc & Htc). exists c. split; [eapply segment_trans; eassumption|exact Htc].
Qed.

(** ** Parsing builds trees *)
Definition grows (s : pstate) (vs : list val) (s' : pstate) : Prop :=
  frame s s' /\ (lits_ok (ps_rest s) -> oconcat (map print vs) <> None ->
    exists c, flat (ps_rest s) = c ++ flat (ps_rest s') /\ trees (clean s') c vs).
Lemma grows_nil s : grows s [] s.
Proof. split; [apply frame_refl|]. intros _ _. exists []. split; [reflexivity|constructor]. Qed.
Lemma grows_app s a s1 b s2 : grows s a s1 -> grows s1 b s2 -> grows s (a ++ b) s2.
Proof.
  intros (F1 & H1) (F2 & H2). split; [eapply frame_trans; eassumption|]. intros Hl Hp. rewrite map_app, oconcat_app in Hp.
  destruct (H1 Hl) as (c1 & E1 & R1); [intro F; rewrite F in Hp; apply Hp; reflexivity|]. apply (proj2 (lits_ok_flat _)) in Hl. rewrite E1 in Hl. apply lits_ok_app in Hl as (_ & Hl).
  apply (proj1 (lits_ok_flat _)) in Hl. destruct (H2 Hl) as (c2 & E2 & R2); [intro F; rewrite F in Hp; apply Hp; destruct (oconcat (map print a)); reflexivity|].
  exists (c1 ++ c2). split; [rewrite E1, E2, app_assoc; reflexivity|]. apply trees_app; [|exact R2].
  eapply (proj2 (tree_mono _ _ (fun x => clean_mono s1 s2 x F2))). exact R1.
Qed.
(** a behaviour whose values are trees of what they consumed *)
Definition treeing (b : behaviour val) : Prop := forall s v s', yes b s v s' -> grows s [v] s'.
Lemma grows_node s v s' : is_leaf v = false -> match v with VGroup _ _ _ => False | _ => True end -> grows s (children v) s' -> grows s [v] s'.
Proof.
  intros Hl Hg (F & H). split; [exact F|]. intros Hk Hp. unfold oconcat in Hp. cbn [map fold_right] in Hp. rewrite oapp_nil_r, (print_children v Hl Hg) in Hp.
  destruct (H Hk Hp) as (c & E & T). exists c. split; [exact E|]. apply trees_one. apply tr_node; assumption.
Qed.
Lemma grows_leaf s v s' : is_leaf v = true -> frame s s' -> (forall ts, print v = Some ts -> emits loose s ts s') -> grows s [v] s'.
Proof.
  intros Hl F H. split; [exact F|]. intros Hk Hp. unfold oconcat in Hp. cbn [map fold_right] in Hp. rewrite oapp_nil_r in Hp.
  destruct (print v) as [ts|] eqn:Ev; [|congruence]. destruct (H ts eq_refl) as (_ & G). destruct (G Hk) as (c & E & R). exists c. split; [exact E|].
  apply trees_one. eapply tr_leaf; eassumption.
Qed.
Lemma grows_cons s v s1 vs s2 : grows s [v] s1 -> grows s1 vs s2 -> grows s (v :: vs) s2.
Proof. exact (grows_app s [v] s1 vs s2). Qed.

Lemma treeing_seq (bs : list (behaviour val)) s vs s' : Forall treeing bs -> seq_yes bs s vs s' -> grows s vs s'.
Proof.
  intros HF H. induction H as [s|b bs s v s1 vs s2 Hb Hs IH]; [apply grows_nil|]. inversion HF as [|? ? Hb0 HF']; subst.
  eapply grows_cons; [apply Hb0; exact Hb|apply IH; exact HF'].
Qed.
Lemma treeing_run (b : behaviour val) s vs s' : treeing b -> run_yes b s vs s' -> grows s vs s'.
Proof. intros HF H. induction H as [s e Hn|s v s1 vs s2 Hb Hs IH]; [apply grows_nil|]. eapply grows_cons; [apply HF; exact Hb|exact IH]. Qed.
Lemma treeing_tail (a p : behaviour val) s l s' : treeing a -> treeing p -> tail_yes a p s l s' -> grows s (flat_map (fun '(x, y) => [x; y]) l) s'.
Proof.
  intros HA HP H. induction H as [s e Hn|s q s1 v s2 l s3 H1 H2 Hs IH]; [apply grows_nil|]. cbn [flat_map app].
  eapply grows_cons; [apply HP; exact H1|]. eapply grows_cons; [apply HA; exact H2|exact IH].
Qed.
Lemma treeing_fill (a p : behaviour val) s l o s' : treeing a -> treeing p -> fill_yes a p s l o s' -> grows s (children (VPunct l o)) s'.
Proof.
  intros HA HP H. induction H as [s Hn|s v s1 Hn H1 H2|s v s1 q s2 l o s3 Hn H1 Hn2 H2 Hs IH]; cbn [children flat_map app] in *; [apply grows_nil|apply HA; exact H1|].
  eapply grows_cons; [apply HA; exact H1|]. eapply grows_cons; [apply HP; exact H2|exact IH].
Qed.
(** a first value and operator-value pairs, as [Separated] and the associative lists read them *)
Lemma trees_app_inv L vs : forall c ws, trees L c (vs ++ ws) -> exists a b, c = a ++ b /\ trees L a vs /\ trees L b ws.
Proof.
  induction vs as [|v vs IH]; intros c ws H; cbn [app] in H; [exists [], c; split; [reflexivity|split; [constructor|exact H]]|].
  inversion H as [|a v' b vs' Hv Hs]; subst. destruct (IH _ _ Hs) as (a1 & b1 & -> & H1 & H2). exists (a ++ a1), b1. rewrite app_assoc. split; [reflexivity|]. split; [constructor; assumption|exact H2].
Qed.
Lemma trees_one_inv L a v : trees L a [v] -> tree L a v.
Proof. intro H. inversion H as [|a' v' b vs' Hv Hs]; subst. inversion Hs; subst. rewrite app_nil_r. exact Hv. Qed.
Definition flat_pairs (l : list (val * val)) : list val := flat_map (fun '(x, y) => [x; y]) l.
Lemma flat_pairs_app a b : flat_pairs (a ++ b) = flat_pairs a ++ flat_pairs b.
Proof. unfold flat_pairs. rewrite flat_map_app. reflexivity. Qed.
Lemma tree_left L x l t : left_form x l t -> forall c, trees L c (x :: flat_pairs l) -> tree L c (val_of_left t).
Proof.
  induction 1 as [|l t o y H IH]; intros c Hc.
  - apply tr_node; [reflexivity|exact I|exact Hc].
  - rewrite flat_pairs_app in Hc. change (x :: flat_pairs l ++ flat_pairs [(o, y)]) with ((x :: flat_pairs l) ++ [o; y]) in Hc.
    apply trees_app_inv in Hc as (a & b & -> & Ha & Hb). apply tr_node; [reflexivity|exact I|]. cbn [val_of_left children]. constructor; [apply IH; exact Ha|exact Hb].
Qed.
Lemma tree_right L x l t : right_form x l t -> forall c, trees L c (x :: flat_pairs l) -> tree L c (val_of_right t).
Proof.
  induction 1 as [x|x o y l t H IH]; intros c Hc.
  - apply tr_node; [reflexivity|exact I|exact Hc].
  - change (x :: flat_pairs ((o, y) :: l)) with ([x; o] ++ (y :: flat_pairs l)) in Hc.
    apply trees_app_inv in Hc as (a & b & -> & Ha & Hb). apply tr_node; [reflexivity|exact I|]. cbn [val_of_right children].
    change [x; o; val_of_right t] with ([x; o] ++ [val_of_right t]). apply trees_app; [exact Ha|apply trees_one, IH, Hb].
Qed.
Lemma children_separated x l : children (VPunct (fst (pairs_of x l)) (Some (snd (pairs_of x l)))) = x :: flat_pairs l.
Proof.
  revert x. induction l as [|(o, y) l IH]; intro x; [reflexivity|]. cbn [pairs_of flat_pairs flat_map]. specialize (IH y). destruct (pairs_of y l) as (inner, last). cbn [fst snd children flat_map app] in *. rewrite IH. reflexivity.
Qed.

Lemma children_nonleaf_print v : oconcat (map print [v]) = print v.
Proof. unfold oconcat. cbn [map fold_right]. apply oapp_nil_r. Qed.

Section Env.
Variable E : env.
Lemma grows_group d n t s sp x s' : d <> DNone -> (forall s v s', pty E n t s = (OOk v, s') -> grows s [v] s') ->
  p_group d (pty E n t) s = (OOk (sp, x), s') -> grows s [VGroup d sp x] s'.
Proof.
  intros Hd Hs H. pose proof (wfp_group d (pty E n t) (wfp_pty E n t) _ _ _ H) as Fr. split; [exact Fr|]. intros Hl Hp.
  apply group_ok in H as (inner & r & si & Hi & H & ->). destruct (Hs _ _ _ H) as (F & Hr). cbn [ps_rest] in Hr.
  assert (Hin : lits_ok inner).
  { apply (proj2 (lits_ok_ignore _)) in Hl. rewrite Hi in Hl. apply (lits_ok_app [_] r) in Hl as (Hl & _).
    unfold lits_ok in Hl. cbn [lits] in Hl. rewrite lits1_group, app_nil_r in Hl. exact Hl. }
  destruct (Hr Hin) as (c & Ec & R).
  { rewrite children_nonleaf_print in *. cbn [print] in Hp. destruct (print x); [discriminate|exact Hp]. }
  exists [TGroup d sp (flat inner)]. split.
  - rewrite <- flat_ignore_none, Hi. cbn [flat ps_rest]. rewrite flat1_group by exact Hd. reflexivity.
  - rewrite Ec. apply trees_one, tr_group.
    + apply trees_one_inv. eapply (proj2 (tree_mono _ _ _)). exact R. Unshelve. intros y Hy Hu. apply Hy. unfold drop_unexp in Hu. cbn in Hu.
      destruct (ps_unexp si); [discriminate Hu|reflexivity].
    + unfold clean, drop_unexp. cbn. destruct (ps_unexp si); [discriminate|]. intro Hlo. apply leftover_none_flat in Hlo. exact Hlo.
Qed.
Lemma treeing_pty n : forall t s v s', pty E n t s = (OOk v, s') -> grows s [v] s'.
Proof.
  induction n as [|n IH]; intros t s v s' H; [discriminate H|]. pose proof (wfp_pty E (S n) t _ _ _ H) as Fr.
  assert (Leaf : is_leaf v = true -> grows s [v] s').
  { intro Hl. apply grows_leaf; [exact Hl|exact Fr|]. intros ts Hp. apply (sound_loose E t s v s' ts); [exists (S n); exact H|exact Hp]. }
  assert (Hs : forall t, treeing (of_parser (pty E n t))) by (intros t0 s0 v0 s0' H0; exact (IH t0 s0 v0 s0' H0)).
  assert (Hlaw : forall t, lawful (pty E n t)) by (intro; apply lawful_pty).
  assert (Sep : forall m a p s x s', p_separated m (pty E n a) (pty E n p) s = (OOk x, s') -> exists y l, grows s (y :: flat_pairs l) s' /\ x = Pn (fst (pairs_of y l)) (Some (snd (pairs_of y l)))).
  { intros m a p s0 x s0' H0. apply bind_ok in H0 as (y & s1 & H1 & H2). apply separated_loop_ok in H2 as (l & H2 & ->); [|apply Hlaw].
    exists y, l. split; [|reflexivity]. eapply grows_cons; [apply (IH _ _ _ _ H1)|]. eapply treeing_tail; [apply Hs|apply Hs|exact H2]. }
  rewrite pty_S in H. change (p_layer E n (pty E n) t s = (OOk v, s')) in H. destruct t; cbn [p_layer] in H.
  - apply pmap_ok in H as ((x & sp) & H & ->). apply Leaf. reflexivity.
  - apply pmap_ok in H as ((x & sp) & H & ->). apply Leaf. reflexivity.
  - apply pmap_ok in H as (sp & H & ->). apply Leaf. reflexivity.
  - apply pmap_ok in H as (sp & H & ->). apply Leaf. reflexivity.
  - apply pmap_ok in H as (sps & H & ->). apply Leaf. reflexivity.
  - apply pmap_ok in H as ((l & sp) & H & ->). apply Leaf. reflexivity.
  - apply pmap_ok in H as ((l & sp) & H & ->). apply Leaf. reflexivity.
  - apply pmap_ok in H as (x & H & ->). injection H as _ <-. apply grows_node; [reflexivity|exact I|apply grows_nil].
  - apply pmap_ok in H as (x & H & ->). unfold p_eof in H. destruct (is_empty s); [|discriminate]. injection H as _ <-. apply grows_node; [reflexivity|exact I|apply grows_nil].
  - apply pmap_ok in H as (x & H & ->). unfold p_not_eof in H. destruct (is_empty s); [discriminate|]. injection H as _ <-. apply grows_node; [reflexivity|exact I|apply grows_nil].
  - apply pmap_ok in H as (x & H & ->). apply maybe_ok in H; [|apply Hlaw]. destruct x as [(x & y)|].
    + destruct H as (s1 & H1 & H2). apply grows_node; [reflexivity|exact I|]. eapply grows_cons; [exact (IH _ _ _ _ H1)|exact (IH _ _ _ _ H2)].
    + destruct H as (_ & ->). apply grows_node; [reflexivity|exact I|apply grows_nil].
  - apply pmap_ok in H as ((sp & x) & H & ->). eapply (grows_group DParen); [discriminate|apply IH|exact H].
  - apply pmap_ok in H as ((sp & x) & H & ->). eapply (grows_group DBracket); [discriminate|apply IH|exact H].
  - apply pmap_ok in H as ((sp & x) & H & ->). eapply (grows_group DBrace); [discriminate|apply IH|exact H].
  - apply pmap_ok in H as (x & H & ->). apply terminated_loop_ok in H as (l & o & H & ->). cbn [pn_inner pn_last rev app].
    apply grows_node; [reflexivity|exact I|]. eapply treeing_fill; [| |exact H]; apply Hs.
  - apply pmap_ok in H as (x & H & ->). apply Sep in H as (y & l & G & ->). cbn [pn_inner pn_last]. apply grows_node; [reflexivity|exact I|]. rewrite children_separated. exact G.
  - apply pmap_ok in H as (x & H & ->). apply any_loop_ok in H as (l & -> & H); [|apply Hlaw]. cbn [rev app].
    apply grows_node; [reflexivity|exact I|]. eapply treeing_run; [|exact H]; apply Hs.
  - apply pmap_ok in H as (x & H & ->). apply left_assoc_ok in H as (y & l & H & Hf); [|apply Hlaw]. apply Sep in H as (y' & l' & (_ & G) & Ex).
    split; [exact Fr|]. intros Hl Hp. rewrite children_nonleaf_print, (print_left_form _ _ _ Hf), <- print_separated in Hp. injection Ex as E1 E2. rewrite E1, E2 in Hp.
    rewrite (print_children (VPunct _ _)), children_separated in Hp by first [reflexivity|exact I]. destruct (G Hl Hp) as (c & Ec & T). exists c. split; [exact Ec|].
    apply trees_one. apply (tree_left _ y l); [exact Hf|]. rewrite <- children_separated, E1, E2, children_separated. exact T.
  - apply pmap_ok in H as (x & H & ->). apply right_assoc_ok in H as (y & l & H & Hf); [|apply Hlaw]. apply Sep in H as (y' & l' & (_ & G) & Ex).
    split; [exact Fr|]. intros Hl Hp. rewrite children_nonleaf_print, (print_right_form _ _ _ Hf), <- print_separated in Hp. injection Ex as E1 E2. rewrite E1, E2 in Hp.
    rewrite (print_children (VPunct _ _)), children_separated in Hp by first [reflexivity|exact I]. destruct (G Hl Hp) as (c & Ec & T). exists c. split; [exact Ec|].
    apply trees_one. apply (tree_right _ y l); [exact Hf|]. rewrite <- children_separated, E1, E2, children_separated. exact T.
  - apply pmap_ok in H as (x & H & ->). apply either_ok in H; [|apply Hlaw|apply Hlaw]. destruct x as [x|x].
    + apply grows_node; [reflexivity|exact I|]. exact (IH _ _ _ _ H).
    + destruct H as (_ & H). apply grows_node; [reflexivity|exact I|]. exact (IH _ _ _ _ H).
  - exact (IH _ _ _ _ H).
  - assert (Seq : forall (fs : list (label * ty)) vs, seq_yes (map (fun x => of_parser (snd x)) (map (fun '(l, t) => (l, pty E n t)) fs)) s vs s' -> grows s vs s').
    { intros fs vs. apply treeing_seq. induction fs as [|(l, t) fs IHf]; cbn; constructor; [apply Hs|exact IHf]. }
    destruct (E i) as [c|en cs]; cbn [p_def] in H.
    + apply pmap_ok in H as (vs & H & ->). apply fields_ok in H. apply grows_node; [reflexivity|exact I|]. eapply Seq. exact H.
    + apply pmap_ok in H as ((k & vs) & H & ->). apply variants_ok in H as (k' & w & -> & H1 & H2 & H3).
      * rewrite nth_error_map in H1. destruct (nth_error cs k') as [c|] eqn:Ek; [|discriminate]. cbn in H1. injection H1 as <-.
        apply fields_ok in H2. cbn [fst snd] in H2. apply grows_node; [reflexivity|exact I|]. eapply Seq. exact H2.
      * apply Forall_map, Forall_forall. intros c _. unfold vparser. cbn. apply lawful_fields. apply Forall_map, Forall_forall. intros (l, t0) _. apply Hlaw.
Qed.
(** from any stream *)
Theorem parsed_tree t s v s' ts : yes (tbeh E t) s v s' -> lits_ok (ps_rest s) -> print v = Some ts ->
  exists c, flat (ps_rest s) = c ++ flat (ps_rest s') /\ tree (fun left => ps_unexp s' = None -> left = []) c v.
Proof.
  intros (n & H) Hl Hp. destruct (treeing_pty n t s v s' H) as (_ & G). destruct (G Hl) as (c & Ec & T); [rewrite children_nonleaf_print, Hp; discriminate|].
  exists c. split; [exact Ec|apply trees_one_inv; exact T].
Qed.
End Env.
End Tree.
