(** * Size: how large a value of a checked grammar can be, given the tokens it was written with (for C66). *)
From Verif Require Import Base Float Literal Syn Ast Derive Grammar Spec SynFacts Lawful Mono Combinators GrammarBeh Term TermCheck Depth LitSpec LitDenote Assoc Lang.
Local Open Scope nat_scope.

(** ** Specification *)
(** The number of nodes of a value (Grammar.v): every struct, enum, list, repetition, group, operator node and leaf is one. *)
Fixpoint nodes (v : val) : nat :=
  match v with
  | VJust x y => S (nodes x + nodes y)
  | VGroup _ _ x | VRhs x | VLhs x | VLeft x | VRight x => S (nodes x)
  | VPunct inner last =>
      S (fold_right (fun '(x, p) n => nodes x + nodes p + n) 0 inner + match last with Some x => nodes x | None => 0 end)
  | VList l | VStruct l | VVariant _ l => S (fold_right (fun x n => nodes x + n) 0 l)
  | VBinL x o y | VBinR x o y => S (nodes x + nodes o + nodes y)
  | VIdent _ _ | VKw _ _ | VOp _ _ | VLit _ _ | VUnit | VNothing => 1
  end.

Definition sum_nodes (l : list val) : nat := fold_right (fun x n => nodes x + n) 0 l.
(** pairs, one node more for each *)
Definition pair_nodes (l : list (val * val)) : nat := fold_right (fun '(x, p) n => S (nodes x + nodes p + n)) 0 l.
Lemma pair_nodes_le l : fold_right (fun '(x, p) n => nodes x + nodes p + n) 0 l <= pair_nodes l.
Proof. unfold pair_nodes. induction l as [|(x, p) l IH]; cbn [fold_right]; lia. Qed.
Lemma pair_nodes_len l : List.length l <= pair_nodes l.
Proof. unfold pair_nodes. induction l as [|(x, p) l IH]; cbn [fold_right List.length]; lia. Qed.

Definition opt_nodes (o : option val) : nat := match o with Some x => nodes x | None => 0 end.
Lemma op_tokens_size K op sps ts : op_tokens K op sps ts -> ts_size ts = List.length op.
Proof. induction 1; cbn in *; congruence. Qed.
Lemma left_nodes x l t : left_form x l t -> nodes (val_of_left t) = S (nodes x + pair_nodes l).
Proof.
  induction 1 as [|l t o y Hl IH]; cbn [val_of_left nodes]; [unfold pair_nodes; cbn; lia|]. rewrite IH.
  assert (A : pair_nodes (l ++ [(o, y)]) = pair_nodes l + S (nodes o + nodes y)).
  { clear. unfold pair_nodes. induction l as [|(a, b) l IH]; cbn [app fold_right]; lia. }
  lia.
Qed.
Lemma right_nodes x l t : right_form x l t -> nodes (val_of_right t) = S (nodes x + pair_nodes l).
Proof.
  induction 1 as [x|x o y l t Hr IH]; cbn [val_of_right nodes]; [unfold pair_nodes; cbn; lia|]. rewrite IH. unfold pair_nodes. cbn [fold_right]. lia.
Qed.

(** ** Sizes that grow with the level while no token is taken, and by a constant for each token taken *)
Section Levels.
Variables R c K NN B : nat.
Variable N : nat -> nat.
Variable X : nat -> nat.
Hypothesis HN0 : forall l, 1 <= N l.
Hypothesis HNS : forall l l' m, l < l' -> m <= B + 2 -> S (m * N l) <= N l'.
Hypothesis HNN : forall l, l <= R -> N l <= NN.
Hypothesis HXS : forall l l', l < l' -> l' <= R -> X l' + c <= X l.
Hypothesis HXK : forall l, X l + c <= K.
Hypothesis Hc : S ((B + 2) * S NN) <= c.
(** a value of size [s] from [n] tokens, at level [l] *)
Definition sized (b : bool) (l s n : nat) : Prop := (n = 0 -> b = true /\ s <= N l) /\ (1 <= n -> s + X l + K <= 2 * K * n).
(** a row of values, [m] of them possibly from nothing *)
Definition row (l m s n : nat) : Prop := (n = 0 -> s <= m * N l) /\ (1 <= n -> s + X l + K <= 2 * K * n + m * S NN).
Definition weak (m s n : nat) : Prop := s <= 2 * K * n + m * S NN.
Lemma X_le l l' : l <= l' -> l' <= R -> X l' <= X l.
Proof. intros H HR. destruct (Nat.eq_dec l l') as [->|]; [lia|]. pose proof (HXS l l'). lia. Qed.
Lemma N_le l l' : l <= l' -> N l <= N l'.
Proof. intro H. destruct (Nat.eq_dec l l') as [->|]; [lia|]. pose proof (HNS l l' 1). lia. Qed.
Lemma sized_row b l l' s n : sized b l s n -> l <= l' -> l' <= R -> row l' 1 s n.
Proof.
  intros (H0 & H1) Hl HR. pose proof (X_le l l' Hl HR). pose proof (N_le l l' Hl). split; intro Hn.
  - destruct (H0 Hn). lia.
  - specialize (H1 Hn). lia.
Qed.
Lemma sized_row0 b l l' s n : sized b l s n -> l <= l' -> l' <= R -> 1 <= n -> row l' 0 s n.
Proof. intros (H0 & H1) Hl HR Hn. pose proof (X_le l l' Hl HR). specialize (H1 Hn). split; lia. Qed.
Lemma row_weak l m s n : row l m s n -> l <= R -> weak m s n.
Proof.
  intros (H0 & H1) HR. unfold weak. destruct n as [|n]; [specialize (H0 eq_refl)|specialize (H1 ltac:(lia)); lia].
  assert (m * N l <= m * S NN) by (apply Nat.mul_le_mono_l; pose proof (HNN l HR); lia). lia.
Qed.
Lemma sized_weak b l s n : sized b l s n -> l <= R -> weak 1 s n.
Proof. intros H HR. eapply row_weak; [exact (sized_row b l l s n H (Nat.le_refl l) HR)|exact HR]. Qed.
Lemma sized_weak0 b l s n : sized b l s n -> 1 <= n -> weak 0 s n.
Proof. intros (_ & H) Hn. specialize (H Hn). unfold weak. lia. Qed.
Lemma weak_app m1 s1 n1 m2 s2 n2 : weak m1 s1 n1 -> weak m2 s2 n2 -> weak (m1 + m2) (s1 + s2) (n1 + n2).
Proof. unfold weak. lia. Qed.
Lemma row_more l m m' s n : row l m s n -> m <= m' -> row l m' s n.
Proof.
  intros (H0 & H1) Hm. assert (m * N l <= m' * N l) by (apply Nat.mul_le_mono_r; exact Hm). assert (m * S NN <= m' * S NN) by (apply Nat.mul_le_mono_r; exact Hm).
  split; intro Hn; [specialize (H0 Hn)|specialize (H1 Hn)]; lia.
Qed.
Lemma row_cons l m1 s1 n1 m2 s2 n2 : row l m1 s1 n1 -> l <= R -> weak m2 s2 n2 -> (n1 = 0 -> row l m2 s2 n2) -> row l (m1 + m2) (s1 + s2) (n1 + n2).
Proof.
  intros (H0 & H1) HR Hw Hr. destruct n1 as [|n1].
  - specialize (H0 eq_refl). destruct (Hr eq_refl) as (G0 & G1). split; cbn [Nat.add]; intro Hn.
    + specialize (G0 Hn). lia.
    + specialize (G1 Hn). assert (m1 * N l <= m1 * S NN) by (apply Nat.mul_le_mono_l; pose proof (HNN l HR); lia). lia.
  - specialize (H1 ltac:(lia)). unfold weak in Hw. split; [lia|]. intros _. lia.
Qed.
Lemma close b l l' m s n : row l m s n -> l < l' -> l' <= R -> m <= B + 2 -> (n = 0 -> b = true) -> sized b l' (S s) n.
Proof.
  intros (H0 & H1) Hl HR Hm Hb. split; intro Hn.
  - split; [auto|]. specialize (H0 Hn). pose proof (HNS l l' m Hl Hm). lia.
  - specialize (H1 Hn). pose proof (HXS l l' Hl HR). assert (m * S NN <= (B + 2) * S NN) by (apply Nat.mul_le_mono_r; exact Hm). lia.
Qed.
Lemma sized_le b b' l l' s n : sized b l s n -> (b = true -> b' = true) -> l <= l' -> l' <= R -> sized b' l' s n.
Proof.
  intros (H0 & H1) Hb Hl HR. pose proof (X_le l l' Hl HR). pose proof (N_le l l' Hl). split; intro Hn.
  - destruct (H0 Hn). split; [auto|lia].
  - specialize (H1 Hn). lia.
Qed.
Lemma leaf_sized b l n : (n = 0 -> b = true) -> sized b l 1 n.
Proof.
  intro Hb. split; intro Hn; [split; [auto|apply HN0]|]. pose proof (HXK l). assert (2 * K * 1 <= 2 * K * n) by (apply Nat.mul_le_mono_l; exact Hn). lia.
Qed.
Lemma group_sized b l s n : weak 1 s n -> sized b l (S s) (S n).
Proof. unfold weak. intro Hw. split; intro Hn; [lia|]. pose proof (HXK l). lia. Qed.
(** a pair: not both from nothing *)
Lemma pair_row a b la lb l s1 n1 s2 n2 : sized a la s1 n1 -> sized b lb s2 n2 -> la <= R -> lb <= R -> a && b = false ->
  weak 0 (S (s1 + s2)) (n1 + n2) /\ 1 <= n1 + n2 /\ (la <= l -> l <= R -> (a = true -> lb <= l) -> row l 1 (S (s1 + s2)) (n1 + n2)).
Proof.
  intros (A0 & A1) (B0 & B1) HA HB Hab. pose proof (HXK l). pose proof (HNN la HA). pose proof (HNN lb HB).
  destruct n1 as [|n1]; [destruct (A0 eq_refl) as (-> & A2)|specialize (A1 ltac:(lia))]; (destruct n2 as [|n2]; [destruct (B0 eq_refl) as (-> & B2)|specialize (B1 ltac:(lia))]); unfold weak.
  - discriminate.
  - split; [lia|]. split; [lia|]. intros Hl HR Hl2. specialize (Hl2 eq_refl). pose proof (X_le lb l Hl2 HR). split; [lia|]. intros _. cbn [Nat.add]. lia.
  - split; [lia|]. split; [lia|]. intros Hl HR Hl2. pose proof (X_le la l Hl HR). split; [lia|]. intros _. rewrite Nat.add_0_r. lia.
  - split; [lia|]. split; [lia|]. intros Hl HR Hl2. split; [lia|]. intros _. lia.
Qed.
End Levels.

Section Bound.
Context {U : unicode}.
Variable E : env.
Variable nu : nat -> bool.
Variable rk : nat -> nat.
Variables H R0 B : nat.
Hypothesis Hnu : forall i, nullb_def nu (E i) = true -> nu i = true.
Hypothesis Hrk : forall i j, In j (left_refs_def nu (E i)) -> rk j < rk i.
Hypothesis Hprod : forall i, productiveb_def nu (E i) = true.
Hypothesis Hh : forall i, def_height (E i) <= H.
Hypothesis HR : forall i, rk i < R0.
Definition in_def (fs : list (label * ty)) (d : tdef) : Prop :=
  match d with DStruct c => c_fields c = fs | DEnum _ cs => exists c, In c cs /\ c_fields c = fs end.
Hypothesis HB : forall i fs, in_def fs (E i) -> List.length fs <= B.

Definition level (t : ty) : nat := lr nu rk t * S H + height t.
Definition top : nat := R0 * S H + H.
Fixpoint from_nothing (l : nat) : nat := match l with 0 => 1 | S l => S ((B + 2) * from_nothing l) end.
Definition NN : nat := from_nothing top.
Definition step_cost : nat := S ((B + 2) * S NN).
Definition slack (l : nat) : nat := (top - l) * step_cost.
Definition unit_cost : nat := S top * step_cost.

Lemma from_nothing_S l : from_nothing l < from_nothing (S l).
Proof. cbn [from_nothing]. lia. Qed.
Lemma from_nothing_le l l' : l <= l' -> from_nothing l <= from_nothing l'.
Proof. induction 1 as [|l' Hl IH]; [lia|]. pose proof (from_nothing_S l'). lia. Qed.
Lemma HN0 : forall l, 1 <= from_nothing l.
Proof. intros [|l]; cbn [from_nothing]; lia. Qed.
Lemma HNS : forall l l' m, l < l' -> m <= B + 2 -> S (m * from_nothing l) <= from_nothing l'.
Proof.
  intros l l' m Hl Hm. etransitivity; [|apply from_nothing_le; exact Hl]. cbn [from_nothing]. assert (m * from_nothing l <= (B + 2) * from_nothing l) by (apply Nat.mul_le_mono_r; exact Hm). lia.
Qed.
Lemma HNN : forall l, l <= top -> from_nothing l <= NN.
Proof. intros l Hl. apply from_nothing_le. exact Hl. Qed.
Lemma HXS : forall l l', l < l' -> l' <= top -> slack l' + step_cost <= slack l.
Proof. intros l l' Hl Ht. unfold slack. assert (S (top - l') * step_cost <= (top - l) * step_cost) by (apply Nat.mul_le_mono_r; lia). cbn [Nat.mul] in *. lia. Qed.
Lemma HXK : forall l, slack l + step_cost <= unit_cost.
Proof. intro l. unfold slack, unit_cost. assert ((top - l) * step_cost <= top * step_cost) by (apply Nat.mul_le_mono_r; lia). cbn [Nat.mul]. lia. Qed.

Notation sz_ := (sized unit_cost from_nothing slack).
Notation row_ := (row unit_cost NN from_nothing slack).
Notation weak_ := (weak unit_cost NN).

Lemma level_top t : height t <= H -> level t <= top.
Proof. intro Ht. unfold level, top. pose proof (lr_R nu rk R0 HR t). assert (lr nu rk t * S H <= R0 * S H) by (apply Nat.mul_le_mono_r; assumption). lia. Qed.
Lemma level_incl t t' : incl (left_refs nu t') (left_refs nu t) -> height t' < height t -> level t' < level t.
Proof. intros I Ht. apply (lr_incl nu rk) in I. unfold level. assert (lr nu rk t' * S H <= lr nu rk t * S H) by (apply Nat.mul_le_mono_r; exact I). lia. Qed.
Lemma level_def i t : height t <= H -> (forall j, In j (left_refs nu t) -> rk j < rk i) -> level t < level (TyRef i).
Proof.
  intros Ht Hl. unfold level. cbn [height]. assert (L : lr nu rk t <= rk i). { apply list_max_le. intros x Hx. apply in_map_iff in Hx as (j & <- & Hj). apply Hl in Hj. lia. }
  assert (L2 : lr nu rk (TyRef i) = S (rk i)) by (unfold lr; cbn; lia). rewrite L2. assert (lr nu rk t * S H <= rk i * S H) by (apply Nat.mul_le_mono_r; exact L). cbn [Nat.mul]. lia.
Qed.
(** the fields with nothing but nothings before them are of lower level *)
Fixpoint low_fields (l : nat) (fs : list (label * ty)) : Prop :=
  match fs with [] => True | (_, t) :: r => level t <= l /\ (nullb nu t = true -> low_fields l r) end.
Definition fields_fine (fs : list (label * ty)) : Prop := Forall (fun f => productiveb nu (snd f) = true /\ height (snd f) <= H) fs.
Lemma low_def i : forall fs, fields_fine fs -> (forall j, In j (left_refs_fields nu fs) -> rk j < rk i) -> low_fields (pred (level (TyRef i))) fs.
Proof.
  induction fs as [|(l, t) fs IH]; intros HF Hl; [exact I|]. apply Forall_cons_iff in HF as ((Hp & Ht) & HF). cbn [snd] in *. cbn [low_fields left_refs_fields] in *. split.
  - enough (level t < level (TyRef i)) by lia. apply level_def; [exact Ht|]. intros j Hj. apply Hl. apply in_or_app. left. exact Hj.
  - intro Hn. apply IH; [exact HF|]. intros j Hj. apply Hl. rewrite Hn. apply in_or_app. right. exact Hj.
Qed.
Lemma def_fine i fs : in_def fs (E i) -> fields_fine fs /\ (forall j, In j (left_refs_fields nu fs) -> rk j < rk i) /\ List.length fs <= B /\ (nullb_fields nu fs = true -> nu i = true).
Proof.
  intro Hd. pose proof (HB i fs Hd) as Hlen. pose proof (Hprod i) as Hp. pose proof (Hh i) as Hhe. pose proof (Hrk i) as Hr. pose proof (Hnu i) as Hn. unfold fields_fine. destruct (E i) as [c|en cs].
  - cbn in Hd. subst fs. cbn in Hp, Hhe, Hr, Hn. split; [|auto]. apply Forall_forall. intros f Hf. split.
    + rewrite forallb_forall in Hp. apply Hp. exact Hf.
    + etransitivity; [|exact Hhe]. apply list_max_In. apply in_map_iff. eauto.
  - destruct Hd as (c & Hc & <-). cbn in Hp, Hhe, Hr, Hn. split; [|split; [|split; [exact Hlen|]]].
    + apply Forall_forall. intros f Hf. split.
      * rewrite forallb_forall in Hp. specialize (Hp c Hc). rewrite forallb_forall in Hp. apply Hp. exact Hf.
      * etransitivity; [|exact Hhe]. etransitivity; [|apply list_max_In; apply in_map_iff; exists c; split; [reflexivity|exact Hc]]. apply list_max_In. apply in_map_iff. eauto.
    + intros j Hj. apply Hr. apply in_concat. exists (left_refs_fields nu (c_fields c)). split; [apply in_map_iff; eauto|exact Hj].
    + intro Hnf. apply Hn. apply existsb_exists. eauto.
Qed.

(** the lemmas on sizes, at these levels *)
Ltac at_levels := try exact HN0; try exact HNS; try exact HNN; try exact HXS; try exact HXK; try exact (le_n _).
Lemma s_row b l l' s n : sz_ b l s n -> l <= l' -> l' <= top -> row_ l' 1 s n.
Proof. intros H1 H2 H3. eapply sized_row; try eassumption; at_levels. Qed.
Lemma s_row0 b l l' s n : sz_ b l s n -> l <= l' -> l' <= top -> 1 <= n -> row_ l' 0 s n.
Proof. intros H1 H2 H3 H4. eapply sized_row0; try eassumption; at_levels. Qed.
Lemma r_weak l m s n : row_ l m s n -> l <= top -> weak_ m s n.
Proof. intros H1 H2. eapply row_weak; try eassumption; at_levels. Qed.
Lemma s_weak b l s n : sz_ b l s n -> l <= top -> weak_ 1 s n.
Proof. intros H1 H2. eapply sized_weak; try eassumption; at_levels. Qed.
Lemma s_weak0 b l s n : sz_ b l s n -> 1 <= n -> weak_ 0 s n.
Proof. intros H1 H2. eapply sized_weak0; try eassumption; at_levels. Qed.
Lemma w_app m1 s1 n1 m2 s2 n2 : weak_ m1 s1 n1 -> weak_ m2 s2 n2 -> weak_ (m1 + m2) (s1 + s2) (n1 + n2).
Proof. intros H1 H2. eapply weak_app; try eassumption; at_levels. Qed.
Lemma r_cons l m1 s1 n1 m2 s2 n2 : row_ l m1 s1 n1 -> l <= top -> weak_ m2 s2 n2 -> (n1 = 0 -> row_ l m2 s2 n2) -> row_ l (m1 + m2) (s1 + s2) (n1 + n2).
Proof. intros H1 H2 H3 H4. eapply row_cons; try eassumption; at_levels. Qed.
Lemma s_close b l l' m s n : row_ l m s n -> l < l' -> l' <= top -> m <= B + 2 -> (n = 0 -> b = true) -> sz_ b l' (S s) n.
Proof. intros H1 H2 H3 H4 H5. eapply close; try eassumption; at_levels. Qed.
Lemma s_le b b' l l' s n : sz_ b l s n -> (b = true -> b' = true) -> l <= l' -> l' <= top -> sz_ b' l' s n.
Proof. intros H1 H2 H3 H4. eapply sized_le; try eassumption; at_levels. Qed.
Lemma s_leaf b l n : (n = 0 -> b = true) -> sz_ b l 1 n.
Proof. intros H1. eapply leaf_sized; try eassumption; at_levels. Qed.
Lemma s_group b l s n : weak_ 1 s n -> sz_ b l (S s) (S n).
Proof. intros H1. eapply group_sized; try eassumption; at_levels. Qed.
Lemma s_pair a b la lb l s1 n1 s2 n2 : sz_ a la s1 n1 -> sz_ b lb s2 n2 -> la <= top -> lb <= top -> a && b = false ->
  weak_ 0 (S (s1 + s2)) (n1 + n2) /\ 1 <= n1 + n2 /\ (la <= l -> l <= top -> (a = true -> lb <= l) -> row_ l 1 (S (s1 + s2)) (n1 + n2)).
Proof. intros H1 H2 H3 H4 H5. eapply pair_row; try eassumption; at_levels. Qed.

Lemma size_nil ts : ts_size ts = 0 -> ts = [].
Proof. destruct ts as [|t ts]; [reflexivity|]. cbn [ts_size]. pose proof (tt_size_pos t). lia. Qed.
Lemma lit_some t ts v : nullb nu t = false -> parses E t ts v -> ts_size ts <> 0.
Proof.
  intros Hn (n & Hp) H0. apply size_nil in H0. subst ts. unfold parse2 in Hp. destruct (pty E n t (start [])) as ([w|e| |], s') eqn:Ep; try discriminate.
  apply (not_nullb E nu Hnu) in Ep; [|exact Hn]. unfold sz, start in Ep. cbn in Ep. lia.
Qed.
Lemma lit_one t ts v : (t = TyAnyLit \/ exists k, t = TyLit k) -> parses E t ts v -> nodes v = 1.
Proof.
  intros Ht (n & Hp). unfold parse2 in Hp. destruct n as [|n]; [discriminate|]. rewrite pty_S in Hp.
  destruct Ht as [->|(k & ->)]; cbn [p_layer] in Hp; match type of Hp with context [pmap ?f ?p ?s] => destruct (pmap f p s) as ([w|e| |], s') eqn:Ep end; try discriminate;
    apply pmap_ok in Ep as (x & _ & ->); (destruct (ps_unexp s'); [discriminate|]); (destruct (leftover (ps_rest s')); [discriminate|]); injection Hp as <-; reflexivity.
Qed.
Definition Pt t v ts := productiveb nu t = true -> height t <= H -> sz_ (nullb nu t) (level t) (nodes v) (ts_size ts).
Definition Pf (fs : list (label * ty)) vs ts := fields_fine fs -> weak_ (List.length fs) (sum_nodes vs) (ts_size ts) /\ (ts_size ts = 0 -> nullb_fields nu fs = true) /\
  forall l, l <= top -> low_fields l fs -> row_ l (List.length fs) (sum_nodes vs) (ts_size ts).
Definition Pl t l ts := productiveb nu t = true -> height t <= H -> nullb nu t = false -> weak_ 0 (sum_nodes l) (ts_size ts) /\ row_ (level t) 0 (sum_nodes l) (ts_size ts).
Definition Pp a b l ts := productiveb nu a = true -> productiveb nu b = true -> height a <= H -> height b <= H -> nullb nu a && nullb nu b = false ->
  weak_ 0 (pair_nodes l) (ts_size ts) /\ forall k, k <= top -> level a <= k -> (nullb nu a = true -> level b <= k) -> row_ k 1 (pair_nodes l) (ts_size ts).
Definition Po t o ts := productiveb nu t = true -> height t <= H -> sz_ (match o with Some _ => nullb nu t | None => true end) (level t) (opt_nodes o) (ts_size ts).

Lemma weak_fewer m s s' n : weak_ m s n -> s' <= s -> weak_ m s' n.
Proof. unfold weak. lia. Qed.
Lemma row_fewer l m s s' n : row_ l m s n -> s' <= s -> row_ l m s' n.
Proof. unfold row. intros (A & A2) Hs. split; intro Hn; [specialize (A Hn)|specialize (A2 Hn)]; lia. Qed.
Lemma w_more m m' s n : weak_ m s n -> m <= m' -> weak_ m' s n.
Proof. unfold weak. intros Hw Hm. assert (m * S NN <= m' * S NN) by (apply Nat.mul_le_mono_r; exact Hm). lia. Qed.
Lemma weak_zero s : weak_ 0 s 0 -> s = 0.
Proof. unfold weak. lia. Qed.

Theorem sizes K : (forall t v ts, spells K E t v ts -> Pt t v ts) /\ (forall fs vs ts, spells_fields K E fs vs ts -> Pf fs vs ts) /\
  (forall t l ts, spells_list K E t l ts -> Pl t l ts) /\ (forall a b l ts, spells_pairs K E a b l ts -> Pp a b l ts) /\ (forall t o ts, spells_opt K E t o ts -> Po t o ts).
Proof.
  apply spells_mut; unfold Pt, Pf, Pl, Pp, Po.
  - intros. apply s_leaf. cbn. lia.
  - intros. apply s_leaf. cbn. lia.
  - intros. apply s_leaf. cbn. lia.
  - intros. apply s_leaf. cbn. lia.
  - intros op sps ts Ho _ _. apply s_leaf. rewrite (op_tokens_size _ _ _ _ Ho). destruct op; [reflexivity|discriminate].
  - intros k v ts _ Hp _ _ _. rewrite (lit_one (TyLit k) ts v) by (eauto || exact Hp). apply s_leaf. intro H0. exfalso. eapply lit_some; [|exact Hp|exact H0]. reflexivity.
  - intros v ts _ Hp _ _ _. rewrite (lit_one TyAnyLit ts v) by (auto || exact Hp). apply s_leaf. intro H0. exfalso. eapply lit_some; [|exact Hp|exact H0]. reflexivity.
  - intros. apply s_leaf. reflexivity.
  - intros. apply s_leaf. reflexivity.
  - intros. apply s_leaf. reflexivity.
  - intros. apply s_leaf. reflexivity.
  - (* Maybe *) intros a b x v ts us _ IHa _ IHb Hp Hh'. cbn [productiveb height] in Hp, Hh'. apply andb_true_iff in Hp as (Pa & Pb). specialize (IHa Pa ltac:(lia)). specialize (IHb Pb ltac:(lia)).
    pose proof (level_top (TyMaybe a b) Hh') as HT. assert (La : level a < level (TyMaybe a b)) by (apply level_incl; [cbn [left_refs]; apply incl_appl, incl_refl|cbn [height]; lia]).
    rewrite ts_size_app. cbn [nodes]. eapply s_close with (m := 1 + 1) (l := pred (level (TyMaybe a b))); [|lia|exact HT|lia|reflexivity].
    apply r_cons; [eapply s_row; [exact IHa|lia|lia]|lia|eapply s_weak; [exact IHb|apply level_top; lia]|]. intro H0. eapply s_row; [exact IHb| |lia].
    destruct IHa as (A0 & _). destruct (A0 H0) as (En & _). enough (level b < level (TyMaybe a b)) by lia. apply level_incl; [cbn [left_refs]; rewrite En; apply incl_appr, incl_refl|cbn [height]; lia].
  - (* group *) intros d t s v ts Hd _ IH Hp Hh'. destruct d; [| | |congruence]; cbn [TyGroup productiveb height] in Hp, Hh'; specialize (IH Hp ltac:(lia)); cbn [ts_size nodes]; rewrite tt_size_group, Nat.add_0_r;
      apply s_group; (eapply s_weak; [exact IH|apply level_top; lia]).
  - (* Punctuated *) intros a p inner last ts us _ IHp _ IHo _ Hp Hh'. cbn [productiveb height] in Hp, Hh'. apply andb_true_iff in Hp as (Hx & Pab). apply andb_true_iff in Pab as (Pa & Pb). apply negb_true_iff in Hx.
    destruct (IHp Pa Pb ltac:(lia) ltac:(lia) Hx) as (W & Rw). specialize (IHo Pa ltac:(lia)). pose proof (level_top (TyPunctuated a p) Hh') as HT.
    assert (La : level a < level (TyPunctuated a p)) by (apply level_incl; [cbn [left_refs]; apply incl_appl, incl_refl|cbn [height]; lia]).
    rewrite ts_size_app. cbn [nodes]. eapply s_close with (m := 1 + 1) (l := pred (level (TyPunctuated a p))); [|lia|exact HT|lia|reflexivity].
    eapply row_fewer; [apply (r_cons _ 1 (pair_nodes inner) (ts_size ts) 1 (opt_nodes last) (ts_size us))|pose proof (pair_nodes_le inner); unfold opt_nodes; lia].
    + apply Rw; [lia|lia|]. intro En. enough (level p < level (TyPunctuated a p)) by lia. apply level_incl; [cbn [left_refs]; rewrite En; apply incl_appr, incl_refl|cbn [height]; lia].
    + lia.
    + eapply s_weak; [exact IHo|apply level_top; lia].
    + intros _. eapply s_row; [exact IHo|lia|lia].
  - (* Separated *) intros a p inner v ts us _ IHp _ IHv Hp Hh'. cbn [productiveb height] in Hp, Hh'. apply andb_true_iff in Hp as (Hx & Pab). apply andb_true_iff in Pab as (Pa & Pb). apply negb_true_iff in Hx.
    destruct (IHp Pa Pb ltac:(lia) ltac:(lia) Hx) as (W & Rw). specialize (IHv Pa ltac:(lia)). pose proof (level_top (TySeparated a p) Hh') as HT.
    assert (La : level a < level (TySeparated a p)) by (apply level_incl; [cbn [left_refs]; apply incl_appl, incl_refl|cbn [height]; lia]).
    rewrite ts_size_app. cbn [nodes]. eapply s_close with (m := 1 + 1) (l := pred (level (TySeparated a p))); [|lia|exact HT|lia|].
    { eapply row_fewer; [apply (r_cons _ 1 (pair_nodes inner) (ts_size ts) 1 (nodes v) (ts_size us))|pose proof (pair_nodes_le inner); lia].
      + apply Rw; [lia|lia|]. intro En. enough (level p < level (TySeparated a p)) by lia. apply level_incl; [cbn [left_refs]; rewrite En; apply incl_appr, incl_refl|cbn [height]; lia].
      + lia.
      + eapply s_weak; [exact IHv|apply level_top; lia].
      + intros _. eapply s_row; [exact IHv|lia|lia]. }
    intro H0. cbn [nullb]. destruct IHv as (A0 & _). apply A0. lia.
  - (* Any *) intros a l ts _ IH Hp Hh'. cbn [productiveb height] in Hp, Hh'. apply andb_true_iff in Hp as (Hx & Pa). apply negb_true_iff in Hx. destruct (IH Pa ltac:(lia) Hx) as (W & Rw).
    pose proof (level_top (TyAny a) Hh') as HT. cbn [nodes]. eapply s_close with (m := 0); [exact Rw| |exact HT|lia|reflexivity]. apply level_incl; [apply incl_refl|cbn [height]; lia].
  - (* LeftAssoc *) intros o r x l t ts us _ IHx _ IHp Hf Hp Hh'. cbn [productiveb height] in Hp, Hh'. apply andb_true_iff in Hp as (Hx & Pab). apply andb_true_iff in Pab as (Pa & Pb). apply negb_true_iff in Hx.
    specialize (IHx Pa ltac:(lia)). destruct (IHp Pb Pa ltac:(lia) ltac:(lia)) as (W & Rw); [rewrite andb_comm; exact Hx|]. pose proof (level_top (TyLeftAssoc o r) Hh') as HT.
    assert (La : level r < level (TyLeftAssoc o r)) by (apply level_incl; [cbn [left_refs]; apply incl_appl, incl_refl|cbn [height]; lia]).
    rewrite ts_size_app, (left_nodes _ _ _ Hf). eapply s_close with (m := 1 + 1) (l := pred (level (TyLeftAssoc o r))); [|lia|exact HT|lia|].
    { apply r_cons; [eapply s_row; [exact IHx|lia|lia]|lia|eapply w_more; [exact W|lia]|]. intro H0. destruct IHx as (A0 & _). destruct (A0 H0) as (En & _).
      apply Rw; [lia| |lia]. enough (level o < level (TyLeftAssoc o r)) by lia. apply level_incl; [cbn [left_refs]; rewrite En; apply incl_appr, incl_refl|cbn [height]; lia]. }
    intro H0. cbn [nullb]. destruct IHx as (A0 & _). apply A0. lia.
  - (* RightAssoc *) intros o r x l t ts us _ IHx _ IHp Hf Hp Hh'. cbn [productiveb height] in Hp, Hh'. apply andb_true_iff in Hp as (Hx & Pab). apply andb_true_iff in Pab as (Pa & Pb). apply negb_true_iff in Hx.
    specialize (IHx Pa ltac:(lia)). destruct (IHp Pb Pa ltac:(lia) ltac:(lia)) as (W & Rw); [rewrite andb_comm; exact Hx|]. pose proof (level_top (TyRightAssoc o r) Hh') as HT.
    assert (La : level r < level (TyRightAssoc o r)) by (apply level_incl; [cbn [left_refs]; apply incl_appl, incl_refl|cbn [height]; lia]).
    rewrite ts_size_app, (right_nodes _ _ _ Hf). eapply s_close with (m := 1 + 1) (l := pred (level (TyRightAssoc o r))); [|lia|exact HT|lia|].
    { apply r_cons; [eapply s_row; [exact IHx|lia|lia]|lia|eapply w_more; [exact W|lia]|]. intro H0. destruct IHx as (A0 & _). destruct (A0 H0) as (En & _).
      apply Rw; [lia| |lia]. enough (level o < level (TyRightAssoc o r)) by lia. apply level_incl; [cbn [left_refs]; rewrite En; apply incl_appr, incl_refl|cbn [height]; lia]. }
    intro H0. cbn [nullb]. destruct IHx as (A0 & _). apply A0. lia.
  - (* Either *) intros a b v ts _ IH Hp Hh'. cbn [productiveb height] in Hp, Hh'. apply andb_true_iff in Hp as (Pa & Pb). specialize (IH Pa ltac:(lia)). pose proof (level_top (TyEither a b) Hh') as HT.
    assert (La : level a < level (TyEither a b)) by (apply level_incl; [cbn [left_refs]; apply incl_appl, incl_refl|cbn [height]; lia]).
    cbn [nodes nullb]. eapply s_close with (m := 1); [eapply s_row; [exact IH|apply le_n|lia]|exact La|exact HT|lia|]. intro H0. destruct IH as (A0 & _). destruct (A0 H0) as (-> & _). reflexivity.
  - intros a b v ts _ IH Hp Hh'. cbn [productiveb height] in Hp, Hh'. apply andb_true_iff in Hp as (Pa & Pb). specialize (IH Pb ltac:(lia)). pose proof (level_top (TyEither a b) Hh') as HT.
    assert (La : level b < level (TyEither a b)) by (apply level_incl; [cbn [left_refs]; apply incl_appr, incl_refl|cbn [height]; lia]).
    cbn [nodes nullb]. eapply s_close with (m := 1); [eapply s_row; [exact IH|apply le_n|lia]|exact La|exact HT|lia|]. intro H0. destruct IH as (A0 & _). destruct (A0 H0) as (-> & _). apply orb_true_r.
  - (* Box *) intros a v ts _ IH Hp Hh'. cbn [productiveb height] in Hp, Hh'. specialize (IH Hp ltac:(lia)). cbn [nullb]. eapply s_le; [exact IH|auto| |apply level_top; exact Hh'].
    apply Nat.lt_le_incl, level_incl; [apply incl_refl|cbn [height]; lia].
  - (* struct *) intros i c vs ts Ei _ IH Hp Hh'. destruct (def_fine i (c_fields c)) as (F1 & F2 & F3 & F4); [rewrite Ei; reflexivity|]. destruct (IH F1) as (W & N0 & Rw).
    pose proof (level_top (TyRef i) Hh') as HT. assert (1 <= level (TyRef i)) by (unfold level, lr; cbn; lia).
    cbn [nodes nullb]. eapply s_close with (l := pred (level (TyRef i))); [apply Rw; [lia|apply low_def; assumption]|lia|exact HT|lia|auto].
  - (* enum *) intros i en cs k c vs ts Ei Hk _ IH Hp Hh'. destruct (def_fine i (c_fields c)) as (F1 & F2 & F3 & F4); [rewrite Ei; exists c; split; [eapply nth_error_In; exact Hk|reflexivity]|]. destruct (IH F1) as (W & N0 & Rw).
    pose proof (level_top (TyRef i) Hh') as HT. assert (1 <= level (TyRef i)) by (unfold level, lr; cbn; lia).
    cbn [nodes nullb]. eapply s_close with (l := pred (level (TyRef i))); [apply Rw; [lia|apply low_def; assumption]|lia|exact HT|lia|auto].
  - (* no fields *) intros _. cbn. split; [unfold weak; lia|]. split; [reflexivity|]. intros l _ _. split; cbn; lia.
  - intros l t fs v vs ts us _ IHt _ IHf HF. apply Forall_cons_iff in HF as ((Hp & Hh') & HF). cbn [snd] in *. specialize (IHt Hp Hh'). destruct (IHf HF) as (W & N0 & Rw). rewrite ts_size_app.
    change (sum_nodes (v :: vs)) with (nodes v + sum_nodes vs). change (List.length ((l, t) :: fs)) with (1 + List.length fs). split; [|split].
    + apply w_app; [eapply s_weak; [exact IHt|apply level_top; exact Hh']|exact W].
    + intro H0. cbn. apply andb_true_iff. split; [apply IHt; lia|apply N0; lia].
    + intros k Hk (L1 & L2). apply r_cons; [eapply s_row; [exact IHt|exact L1|exact Hk]|exact Hk|exact W|]. intro H0. apply Rw; [exact Hk|]. apply L2. apply IHt. exact H0.
  - (* no items *) intros t Hp Hh' Hx. cbn. split; [unfold weak; lia|split; lia].
  - intros t v l ts us _ IHt _ IHl Hp Hh' Hx. specialize (IHt Hp Hh'). destruct (IHl Hp Hh' Hx) as (W & Rw). rewrite ts_size_app. change (sum_nodes (v :: l)) with (nodes v + sum_nodes l).
    assert (1 <= ts_size ts). { destruct (ts_size ts) eqn:Es; [|lia]. destruct IHt as (A0 & _). destruct (A0 eq_refl). congruence. }
    split; [apply (w_app 0 _ _ 0); [eapply s_weak0; [exact IHt|assumption]|exact W]|]. apply (r_cons _ 0 _ _ 0); [eapply s_row0; [exact IHt|apply le_n|apply level_top; exact Hh'|assumption]|apply level_top; exact Hh'|exact W|intros _; exact Rw].
  - (* no pairs *) intros. cbn. split; [unfold weak; lia|]. intros. split; cbn; lia.
  - intros a b x y l ts us vs _ IHx _ IHy _ IHl Pa Pb Ha Hb Hx. specialize (IHx Pa Ha). specialize (IHy Pb Hb). destruct (IHl Pa Pb Ha Hb Hx) as (W & Rw). rewrite !ts_size_app, Nat.add_assoc.
    change (pair_nodes ((x, y) :: l)) with (S (nodes x + nodes y + pair_nodes l)). change (S (nodes x + nodes y + pair_nodes l)) with (S (nodes x + nodes y) + pair_nodes l).
    split; [destruct (s_pair _ _ _ _ 0 _ _ _ _ IHx IHy (level_top a Ha) (level_top b Hb) Hx) as (W1 & _); apply (w_app 0 _ _ 0); assumption|].
    intros k Hk L1 L2. destruct (s_pair _ _ _ _ k _ _ _ _ IHx IHy (level_top a Ha) (level_top b Hb) Hx) as (W1 & N1 & R1). apply (r_cons _ 1 _ _ 0); [apply R1; assumption|exact Hk|exact W|lia].
  - intros t _ _. cbn. split; [intros _; split; [reflexivity|lia]|lia].
  - intros t v ts _ IH Hp Hh'. exact (IH Hp Hh').
Qed.
End Bound.

(** ** The other way: tokens are words, operators, literals and groups of values *)
Section Width.
Context {U : unicode}.
Variable E : env.
Variable W : nat.
Fixpoint op_width (t : ty) : nat :=
  match t with
  | TyToken op => List.length op
  | TyMaybe a b | TySeparated a b | TyPunctuated a b | TyLeftAssoc a b | TyRightAssoc a b | TyEither a b => max (op_width a) (op_width b)
  | TyParen a | TyBracket a | TyBrace a | TyAny a | TyBox a => op_width a
  | _ => 0
  end.
Definition def_width (d : tdef) : nat :=
  match d with
  | DStruct c => list_max (map (fun f => op_width (snd f)) (c_fields c))
  | DEnum _ cs => list_max (map (fun c => list_max (map (fun f => op_width (snd f)) (c_fields c))) cs)
  end.
Hypothesis HW : 2 <= W.
Hypothesis HE : forall i, def_width (E i) <= W.
Definition narrow (fs : list (label * ty)) : Prop := Forall (fun f => op_width (snd f) <= W) fs.
Lemma def_narrow i fs : in_def fs (E i) -> narrow fs.
Proof.
  intro Hd. pose proof (HE i) as Hi. apply Forall_forall. intros f Hf. etransitivity; [|exact Hi]. destruct (E i) as [c|en cs]; cbn in Hd.
  - subst fs. apply list_max_In. apply in_map_iff. eauto.
  - destruct Hd as (c & Hc & <-). cbn. etransitivity; [|apply list_max_In; apply in_map_iff; exists c; split; [reflexivity|exact Hc]]. apply list_max_In. apply in_map_iff. eauto.
Qed.
Theorem widths K : (forall t v ts, spells K E t v ts -> op_width t <= W -> ts_size ts <= W * nodes v) /\
  (forall fs vs ts, spells_fields K E fs vs ts -> narrow fs -> ts_size ts <= W * sum_nodes vs) /\
  (forall t l ts, spells_list K E t l ts -> op_width t <= W -> ts_size ts <= W * sum_nodes l) /\
  (forall a b l ts, spells_pairs K E a b l ts -> op_width a <= W -> op_width b <= W -> ts_size ts <= W * fold_right (fun '(x, p) n => nodes x + nodes p + n) 0 l) /\
  (forall t o ts, spells_opt K E t o ts -> op_width t <= W -> ts_size ts <= W * opt_nodes o).
Proof.
  assert (L : forall ts, single ts -> ts_size ts <= W * 1).
  { intros ts [(n & s & ->)|[(r & s & ->)|(g & s & r & s2 & ->)]]; cbn; lia. }
  assert (P : forall l, fold_right (fun '(x, p) n => nodes x + nodes p + n) 0 l <= pair_nodes l) by exact pair_nodes_le.
  apply spells_mut; unfold sum_nodes; intros; rewrite ?ts_size_app; cbn [ts_size tt_size nodes fold_right opt_nodes op_width] in *; try lia.
  - erewrite op_tokens_size by eassumption. lia.
  - destruct (lit_value E (TyLit k) ts v) as (S1 & l & sp & ->); eauto.
  - destruct (lit_value E TyAnyLit ts v) as (S1 & l & sp & ->); eauto.
  - change (S (ts_size ts) + 0 <= W * S (nodes v)). assert (Hd : op_width t <= W) by (destruct d; cbn in *; congruence || lia). specialize (H1 Hd). lia.
  - assert (op_width a <= W /\ op_width p <= W) as (Ha & Hb) by lia. specialize (H0 Ha Hb). specialize (H2 Ha). unfold opt_nodes in H2. destruct last; lia.
  - assert (op_width o <= W /\ op_width r <= W) as (Ha & Hb) by lia. specialize (H0 Hb). specialize (H2 Ha Hb). specialize (P l). erewrite left_nodes by eassumption.
    assert (W * fold_right (fun '(x, p) n => nodes x + nodes p + n) 0 l <= W * pair_nodes l) by (apply Nat.mul_le_mono_l; exact P). lia.
  - assert (op_width o <= W /\ op_width r <= W) as (Ha & Hb) by lia. specialize (H0 Hb). specialize (H2 Ha Hb). specialize (P l). erewrite right_nodes by eassumption.
    assert (W * fold_right (fun '(x, p) n => nodes x + nodes p + n) 0 l <= W * pair_nodes l) by (apply Nat.mul_le_mono_l; exact P). lia.
  - assert (N : narrow (c_fields c)) by (apply (def_narrow i); rewrite H; reflexivity). specialize (H1 N). lia.
  - assert (N : narrow (c_fields c)) by (apply (def_narrow i); rewrite H; exists c; split; [eapply nth_error_In; eassumption|reflexivity]). specialize (H2 N). lia.
  - apply Forall_cons_iff in H3 as (N & NF). specialize (H0 N). specialize (H2 NF). lia.
Qed.
End Width.
