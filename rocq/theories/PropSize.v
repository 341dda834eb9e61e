(** * Property C66: trees and texts are of the same size, up to a factor that depends on the grammar only.
    Vocabulary: [nodes] (Size.v), [spells] (Lang.v), [terminating] (TermCheck.v), [ts_size] (Base.v: the number of tokens, at any depth). *)
From Verif Require Import Base Float Literal Syn Ast Derive Grammar Spec SynFacts Lawful Mono Combinators GrammarBeh Term TermCheck Depth LitSpec LitDenote Assoc Reprint RoundFacts PropRoundtrip Lang
  Size Lexer PropSpan LexFacts LexWf LexOut LexRun PropStr PropLang PropCostText Usage Examples.
Local Open Scope nat_scope.

(** the most fields of a struct or variant *)
Definition most_fields (d : tdef) : nat :=
  match d with DStruct c => List.length (c_fields c) | DEnum _ cs => list_max (map (fun c => List.length (c_fields c)) cs) end.
Lemma most_fields_le g i fs : in_def fs (env_of g i) -> List.length fs <= list_max (map most_fields g).
Proof.
  unfold env_of. destruct (Nat.lt_ge_cases i (List.length g)) as [Hlt|Hge].
  - intro Hd. transitivity (most_fields (nth i g unit_def)).
    + destruct (nth i g unit_def) as [c|en cs]; cbn in *; [subst fs; lia|]. destruct Hd as (c & Hc & <-). apply list_max_In. apply in_map_iff. eauto.
    + apply list_max_In. apply in_map. apply nth_In. exact Hlt.
  - rewrite nth_overflow by exact Hge. cbn. intros <-. cbn. lia.
Qed.
Lemma def_width_le g i : def_width (env_of g i) <= list_max (map def_width g).
Proof.
  unfold env_of. destruct (Nat.lt_ge_cases i (List.length g)) as [Hlt|Hge].
  - apply list_max_In. apply in_map. apply nth_In. exact Hlt.
  - rewrite nth_overflow by exact Hge. cbn. lia.
Qed.

(** The tree is linear in the tokens: of a grammar that is neither left recursive nor repeats nothing ... *)
Theorem C66_tree_linear : forall g t, terminating g t = true -> exists k, forall (U : unicode) v ts,
  spells anyhow (env_of g) t v ts -> nodes v <= k * (ts_size ts + 1).
Proof.
  intros g t HT. destruct (terminating_facts g t HT) as (A & B & D & F).
  set (H := max_height g t). set (R := max_rank g). set (W := list_max (map most_fields g)).
  exists (NN H R W + 2 * unit_cost H R W). intros U v ts Hs.
  destruct (sizes (env_of g) (nu_of g) (rank_of g) H R W A B D (height_le g t) (rank_lt g) (most_fields_le g) anyhow) as (Hv & _).
  assert (Hh : height t <= H) by (unfold H, max_height; lia). specialize (Hv t v ts Hs F Hh).
  assert (HT2 : level (nu_of g) (rank_of g) H t <= top H R) by (eapply level_top; [exact A|exact B|exact D|exact (height_le g t)|exact (rank_lt g)|exact (most_fields_le g)|exact Hh]).
  destruct Hv as (V0 & V1). destruct (ts_size ts) as [|n] eqn:En.
  - destruct (V0 eq_refl) as (_ & V). assert (from_nothing W (level (nu_of g) (rank_of g) H t) <= NN H R W) by (eapply from_nothing_le; try exact HT2; try exact A; try exact B; try exact D; try exact (height_le g t); try exact (rank_lt g); try exact (most_fields_le g)). lia.
  - specialize (V1 ltac:(lia)). lia.
Qed.
(** ... so is that of any parsed input, *)
Lemma flat_size ts : ts_size (flat ts) <= ts_size ts.
Proof.
  assert (G : forall t, ts_size (flat1 t) <= tt_size t).
  { induction t as [n s|c g s|n s|d s l0 IH] using tt_ind'; try (cbn; lia).
    assert (L : ts_size (flat l0) <= ts_size l0). { induction IH as [|x l0 Hx _ IH]; [cbn; lia|]. cbn [flat ts_size]. rewrite ts_size_app. lia. }
    rewrite tt_size_group. destruct (delim_eqb d DNone) eqn:Ed.
    - destruct d; try discriminate. change (ts_size (flat l0) <= S (ts_size l0)). lia.
    - rewrite flat1_group by (intros ->; discriminate). cbn [ts_size]. rewrite tt_size_group. lia. }
  induction ts as [|x ts IH]; [cbn; lia|]. cbn [flat ts_size]. rewrite ts_size_app. specialize (G x). lia.
Qed.
Theorem C66_parsed_linear : forall g t, terminating g t = true -> exists k, forall (U : unicode) v ts, parses (env_of g) t ts v -> nodes v <= k * (ts_size ts + 1).
Proof.
  intros g t HT. destruct (C66_tree_linear g t HT) as (k & Hk). exists k. intros U v ts Hp. apply C62_parsed_is_spelled, Hk in Hp. pose proof (flat_size ts).
  assert (k * (ts_size (flat ts) + 1) <= k * (ts_size ts + 1)) by (apply Nat.mul_le_mono_l; lia). lia.
Qed.
(** and of any text, in the number of its characters. *)
Theorem C66_text_linear : forall g t, terminating g t = true -> exists k, forall (U : unicode), sane_tables U -> forall file src v, forallb valid_char src = true ->
  from_str (env_of g) t file src v -> nodes v <= k * (List.length src + 1).
Proof.
  intros g t HT. destruct (C66_parsed_linear g t HT) as (k & Hk). exists (2 * k). intros U sane file src v Hv Hf. apply from_str_parses in Hf as (ts & Hl & Hp).
  apply Hk in Hp. destruct (lex_out sane file src ts Hv Hl) as (_ & Hq). apply placed_size in Hq. assert (k * (ts_size ts + 1) <= k * (2 * (List.length src + 1))) by (apply Nat.mul_le_mono_l; lia). lia.
Qed.
(** The other way, for any grammar: the tokens are linear in the tree. *)
Theorem C66_tokens_linear : forall g t, exists k, forall (U : unicode) v ts, spells anyhow (env_of g) t v ts -> ts_size ts <= k * nodes v.
Proof.
  intros g t. set (W := 2 + op_width t + list_max (map def_width g)). exists W. intros U v ts Hs.
  assert (H2 : 2 <= W) by (unfold W; lia). assert (HE : forall i, def_width (env_of g i) <= W) by (intro i; pose proof (def_width_le g i); unfold W; lia).
  destruct (widths (env_of g) W H2 HE anyhow) as (Hv & _). apply (Hv t v ts Hs). unfold W. lia.
Qed.

(** A grammar that fails the check may have trees of any size written as nothing: repetitions of nothing, *)
Theorem C66_nothing_repeated_refuted : forall (U : unicode) E m, exists v, spells anyhow E (TyAny TyEmpty) v [] /\ nodes v = S m.
Proof.
  intros U E m. exists (VList (repeat VUnit m)). split.
  - apply sp_any. induction m as [|m IH]; cbn [repeat]; [constructor|]. apply (sl_cons anyhow E TyEmpty VUnit (repeat VUnit m) [] []); [constructor|exact IH].
  - cbn [nodes]. f_equal. induction m as [|m IH]; cbn [repeat fold_right nodes]; [reflexivity|]. rewrite IH. reflexivity.
Qed.
(** and left recursion: enum Tower { Stop(Empty), More(Box<Tower>) }. *)
Definition tower : list tdef := [DEnum (T "Tower") [Ctor (T "Stop") [(LIndex 0, TyEmpty)]; Ctor (T "More") [(LIndex 0, TyBox (TyRef 0))]]].
Theorem C66_left_recursion_refuted : terminating tower (TyRef 0) = false /\ terminating tower (TyAny TyEmpty) = false /\
  forall (U : unicode) m, exists v, spells anyhow (env_of tower) (TyRef 0) v [] /\ nodes v = S (S m).
Proof.
  split; [vm_compute; reflexivity|]. split; [vm_compute; reflexivity|]. intros U. induction m as [|m (v & Hs & Hn)].
  - exists (VVariant 0 [VUnit]). split; [|reflexivity]. eapply sp_enum; [reflexivity|reflexivity|]. apply (sf_cons anyhow _ _ _ _ _ _ [] []); [constructor|constructor].
  - exists (VVariant 1 [v]). split; [|cbn [nodes fold_right]; lia]. eapply sp_enum; [reflexivity|reflexivity|]. apply (sf_cons anyhow _ _ _ _ _ _ [] []); [constructor; exact Hs|constructor].
Qed.

(** How deep a tree is: so many frames clone, drop, compare or print it. *)
Fixpoint tree_depth (v : val) : nat :=
  match v with
  | VJust x y => S (max (tree_depth x) (tree_depth y))
  | VGroup _ _ x | VRhs x | VLhs x | VLeft x | VRight x => S (tree_depth x)
  | VPunct inner last =>
      S (max (fold_right (fun '(x, p) n => max (max (tree_depth x) (tree_depth p)) n) 0 inner) match last with Some x => tree_depth x | None => 0 end)
  | VList l | VStruct l | VVariant _ l => S (fold_right (fun x n => max (tree_depth x) n) 0 l)
  | VBinL x o y | VBinR x o y => S (max (tree_depth x) (max (tree_depth o) (tree_depth y)))
  | VIdent _ _ | VKw _ _ | VOp _ _ | VLit _ _ | VUnit | VNothing => 1
  end.
Lemma fold_max_sum {A} (f g : A -> nat) l : (Forall (fun x => f x <= g x) l) -> fold_right (fun x n => max (f x) n) 0 l <= fold_right (fun x n => g x + n) 0 l.
Proof. induction 1 as [|x l Hx _ IH]; cbn [fold_right]; lia. Qed.
Lemma depth_nodes : forall v, tree_depth v <= nodes v.
Proof.
  fix go 1. intros [n s|k s|o s|l s| | |x y|d s x|inner last|l|x o y|x|x o y|x|x|x|l|k l]; cbn [tree_depth nodes]; try lia;
    try (pose proof (go x); try pose proof (go y); try pose proof (go o); lia).
  - assert (Hi : fold_right (fun '(x, p) n => max (max (tree_depth x) (tree_depth p)) n) 0 inner <= fold_right (fun '(x, p) n => nodes x + nodes p + n) 0 inner).
    { revert inner. fix gop 1. intros [|(x, p) inner]; cbn [fold_right]; [lia|]. pose proof (go x). pose proof (go p). specialize (gop inner). lia. }
    destruct last as [x|]; [pose proof (go x)|]; lia.
  - apply le_n_S. revert l. fix gol 1. intros [|x l]; cbn [fold_right]; [lia|]. pose proof (go x). specialize (gol l). lia.
  - apply le_n_S. revert l. fix gol 1. intros [|x l]; cbn [fold_right]; [lia|]. pose proof (go x). specialize (gol l). lia.
  - apply le_n_S. revert l. fix gol 1. intros [|x l]; cbn [fold_right]; [lia|]. pose proof (go x). specialize (gol l). lia.
Qed.
(** So the depth is linear in the text as well ... *)
Theorem C66_depth_linear : forall g t, terminating g t = true -> exists k, forall (U : unicode), sane_tables U -> forall file src v, forallb valid_char src = true ->
  from_str (env_of g) t file src v -> tree_depth v <= k * (List.length src + 1).
Proof.
  intros g t HT. destruct (C66_text_linear g t HT) as (k & Hk). exists k. intros U sane file src v Hv Hf. etransitivity; [apply depth_nodes|eapply Hk; eassumption].
Qed.
(** ... and no better than linear, even without any brackets in the input: [x + x + x ...] of LeftAssoc<Token![+], Ident>. *)
Definition chain : ty := TyLeftAssoc (TyToken (T "+")) TyIdent.
Definition plus_x : list tt := [TPunct 43 Alone call_site; TIdent (T "x") call_site].
Fixpoint sum (n : nat) : list tt := match n with 0 => [] | S n => plus_x ++ sum n end.
Lemma left_depth x l t : left_form x l t -> List.length l < tree_depth (val_of_left t).
Proof.
  induction 1 as [|l t o y Hl IH]; cbn [val_of_left tree_depth]; [cbn; lia|]. rewrite app_length. cbn [List.length]. lia.
Qed.
Theorem C66_flat_text_deep_tree : terminating [] chain = true /\ forall (U : unicode) n, exists v,
  parses (env_of []) chain (TIdent (T "x") call_site :: sum n) v /\ ts_size (TIdent (T "x") call_site :: sum n) = 2 * n + 1 /\ n < tree_depth v.
Proof.
  split; [vm_compute; reflexivity|]. intros U n.
  assert (Hx : ~ In (T "x") rust_keywords) by (intro H; vm_compute in H; intuition discriminate).
  set (xv := VIdent (T "x") call_site). set (pv := VOp (T "+") [call_site]). exists (val_of_left (build_left xv (repeat (pv, xv) n))).
  assert (S0 : spells anyhow (env_of []) chain (val_of_left (build_left xv (repeat (pv, xv) n))) ([TIdent (T "x") call_site] ++ sum n)).
  { eapply sp_left; [constructor; exact Hx| |apply build_left_form]. induction n as [|n IH]; cbn [repeat sum]; [constructor|].
    apply (sps_cons anyhow _ _ _ _ _ _ [_] [_]); [|constructor; exact Hx|exact IH]. constructor. apply ot_last; [discriminate|reflexivity]. }
  assert (NM : ~ minus_zero (TIdent (T "x") call_site :: sum n)).
  { intro Z. inversion Z as [| |? ? Z']; subst; clear Z. clear S0. induction n as [|n IH]; cbn [sum plus_x app] in Z'; [inversion Z'|].
    inversion Z' as [| |? ? Z2]; subst; clear Z'. inversion Z2 as [| |? ? Z3]; subst. exact (IH Z3). }
  assert (V : visible (sum n) = true /\ lits (sum n) = []).
  { clear. induction n as [|n (IH & IH2)]; [split; reflexivity|]. cbn [sum plus_x app]. split; [exact IH|exact IH2]. }
  destruct V as (V & L).
  split; [|split].
  - apply (C62_exactly_what_is_spelled lt_only); [vm_compute; reflexivity| |exact V| | |exact S0].
    + split; [|split; [constructor; [constructor|]|constructor]; reflexivity]. intros [|i]; cbn; [constructor|]. destruct i; constructor.
    + unfold lits_ok. change (lits (TIdent (T "x") call_site :: sum n)) with (lits (sum n)). rewrite L. constructor.
    + split; [exact NM|]. change (lits (TIdent (T "x") call_site :: sum n)) with (lits (sum n)). rewrite L. constructor.
  - cbn [ts_size tt_size]. enough (ts_size (sum n) = 2 * n) by lia. clear. induction n as [|n IH]; [reflexivity|]. cbn [sum]. rewrite ts_size_app, IH. cbn. lia.
  - pose proof (left_depth xv _ _ (build_left_form xv (repeat (pv, xv) n))) as Hd. rewrite repeat_length in Hd. exact Hd.
Qed.

(** ** Examples *)
Section WithTables.
Local Existing Instance ascii_only.
(** JSON: checked; a text of 16 characters, 7 tokens. *)
Example C66_ex : terminating (g_defs json) (g_root json) = true /\
  match lex 1 (T "[1, {""a"": null}]") with
  | LOk ts => ts_size ts = 7 /\ match parse2 (pty (env_of (g_defs json)) 40 (g_root json)) ts with ROk v => nodes v = 14 | _ => False end
  | LErr _ => False
  end.
Proof. split; [vm_compute; reflexivity|]. vm_compute. split; reflexivity. Qed.
End WithTables.

Print Assumptions C66_tree_linear.
Print Assumptions C66_parsed_linear.
Print Assumptions C66_text_linear.
Print Assumptions C66_tokens_linear.
Print Assumptions C66_nothing_repeated_refuted.
Print Assumptions C66_left_recursion_refuted.
Print Assumptions C66_depth_linear.
Print Assumptions C66_flat_text_deep_tree.
