(** * PropExtend: adding variants to the enums of a grammar (C60). *)
From Verif Require Import Base Float Literal Syn Ast Derive Grammar Spec LitSpec LiteralFacts Reprint SynFacts Lawful Mono Combinators GrammarBeh Sound Sim RoundFacts Examples PropLit PropRoundtrip
  Term TermCheck Typed LL1 LL1Facts LL1Check PropLL1 Fmt Lexer LexFacts LexWf LexOut LexRun PropLex Writable PropStr ParsedTyped PropAgain Usage PropEq.
Local Open Scope nat_scope.

(** ** Specification *)
(** the derived types a type mentions *)
Fixpoint names (t : ty) : list nat :=
  match t with
  | TyRef i => [i]
  | TyMaybe a b | TyPunctuated a b | TySeparated a b | TyLeftAssoc a b | TyRightAssoc a b | TyEither a b => names a ++ names b
  | TyParen a | TyBracket a | TyBrace a | TyAny a | TyBox a => names a
  | _ => []
  end.
Definition types (c : ctor) : list ty := map snd (c_fields c).
Definition ctors (d : tdef) : list ctor := match d with DStruct c => [c] | DEnum _ cs => cs end.
(** A struct keeps its fields; an enum keeps its variants, in place, and may get new ones at the end.  Names may change. *)
Definition extended (d d' : tdef) : Prop :=
  match d, d' with
  | DStruct c, DStruct c' => types c' = types c
  | DEnum _ cs, DEnum _ cs' => exists more, map types cs' = map types cs ++ more
  | _, _ => False
  end.
(** [old]: the types of the old grammar that are in use; the new grammar may define more. *)
Definition upgrade (old : nat -> Prop) (E E' : env) : Prop := forall i, old i ->
  extended (E i) (E' i) /\ forall c t j, In c (ctors (E i)) -> In t (types c) -> In j (names t) -> old j.


(** ** Old values are new values. *)
Definition among (old : nat -> Prop) (t : ty) : Prop := forall j, In j (names t) -> old j.
Lemma among_group old d t : among old (TyGroup d t) -> among old t.
Proof. unfold among. destruct d; cbn; auto. Qed.
Lemma among_app (old : nat -> Prop) a b (P : Prop) : ((forall j, In j a -> old j) -> (forall j, In j b -> old j) -> P) -> (forall j, In j (a ++ b) -> old j) -> P.
Proof. intros H Q. apply H; intros j Hj; apply Q, in_or_app; auto. Qed.
Lemma extended_struct c d' : extended (DStruct c) d' -> exists c', d' = DStruct c' /\ types c' = types c.
Proof. destruct d' as [c'|]; cbn; [eauto|contradiction]. Qed.
Lemma extended_enum en cs d' k c : extended (DEnum en cs) d' -> nth_error cs k = Some c ->
  exists en' cs' c', d' = DEnum en' cs' /\ nth_error cs' k = Some c' /\ types c' = types c.
Proof.
  destruct d' as [|en' cs']; cbn; [contradiction|]. intros (more & H) Hk. assert (Hn : nth_error (map types cs') k = Some (types c)).
  { rewrite H. rewrite nth_error_app1; [rewrite nth_error_map, Hk; reflexivity|]. rewrite map_length. apply nth_error_Some. congruence. }
  rewrite nth_error_map in Hn. destruct (nth_error cs' k) as [c'|] eqn:E; [|discriminate]. injection Hn as Hn. exists en', cs', c'. auto.
Qed.
Section Extend.
Context {U : unicode} (old : nat -> Prop) (E E' : env) (Hup : upgrade old E E').
Notation among := (among old).
Notation P := (fun t v => among t -> typed E' t v).
Lemma P_fields (fs gs : list (label * ty)) vs : map snd gs = map snd fs -> (forall t, In t (map snd fs) -> among t) ->
  Forall2 (fun (f : label * ty) v => P (snd f) v) fs vs -> typed_fields E' gs vs.
Proof.
  intros Hg Ha H. revert gs Hg. induction H as [|f v fs vs Hv _ IH]; intros [|(l, t) gs] Hg; try discriminate Hg; [constructor|].
  cbn [map snd] in Hg. injection Hg as -> Hg. constructor; [apply Hv, Ha; left; reflexivity|]. apply IH; [|exact Hg]. intros t Ht. apply Ha. right. exact Ht.
Qed.
Lemma P_pairs a b l : Forall (fun x : val * val => P a (fst x) /\ P b (snd x)) l -> among a -> among b -> typed_pairs E' a b l.
Proof. intros H Ha Hb. induction H as [|(x, y) l (Hx & Hy) _ IH]; constructor; auto. Qed.
Lemma P_list a l : Forall (P a) l -> among a -> typed_list E' a l.
Proof. intros H Ha. induction H; constructor; auto. Qed.
Lemma typed_extends t v : typed E t v -> among t -> typed E' t v.
Proof.
  intro H. revert t v H. apply (typed_rect E P); try (intros; constructor; auto; fail).
  - intros a b x v Hx Hv. apply among_app. intros A B. constructor; auto.
  - intros d t sp v Hd Hv A. apply among_group in A. constructor; auto.
  - intros a p inner last Hi Hl Hn. apply among_app. intros A B. constructor; [apply P_pairs; auto| |exact Hn].
    destruct last as [x|]; constructor. apply Hl; auto.
  - intros a p inner v Hi Hv. apply among_app. intros A B. constructor; [apply P_pairs; auto|auto].
  - intros a l Hl A. constructor. apply P_list; auto.
  - intros o r x l t Hx Hl Hf. apply among_app. intros A B. econstructor; [exact (Hx B)|apply P_pairs; eassumption|exact Hf].
  - intros o r x l t Hx Hl Hf. apply among_app. intros A B. econstructor; [exact (Hx B)|apply P_pairs; eassumption|exact Hf].
  - intros a b v Hv. apply among_app. intros A B. constructor; auto.
  - intros a b v Hv. apply among_app. intros A B. constructor; auto.
  - intros i c vs Hi Hf A. destruct (Hup i (A i (or_introl eq_refl))) as (X & N). rewrite Hi in X, N. apply extended_struct in X as (c' & Hc & Ht).
    econstructor; [exact Hc|]. eapply P_fields; [exact Ht| |exact Hf]. intros t Hin j Hj. eapply N; [left; reflexivity|exact Hin|exact Hj].
  - intros i en cs k c vs Hi Hk Hf A. destruct (Hup i (A i (or_introl eq_refl))) as (X & N). rewrite Hi in X, N. destruct (extended_enum _ _ _ _ _ X Hk) as (en' & cs' & c' & Hc & Hk' & Ht).
    econstructor; [exact Hc|exact Hk'|]. eapply P_fields; [exact Ht| |exact Hf]. intros t Hin j Hj. eapply N; [eapply nth_error_In; exact Hk|exact Hin|exact Hj].
Qed.
End Extend.
Lemma sim_sym {U : unicode} K a b : sim K a b -> sim K b a.
Proof.
  induction 1 as [|n sp1 sp2 a b H IH|c g1 g2 sp1 sp2 a b Hg H IH|r1 r2 sp1 sp2 a b Hl H IH|d sp1 sp2 i j a b Hi IHi H IH]; constructor; auto.
  - intro Hk. symmetry. auto.
  - destruct Hl as [->|(A & B & C)]; [left; reflexivity|right; auto].
Qed.

Section C60.
Context {U : unicode} (old : nat -> Prop) (E : env) (g' : list tdef) (Hup : upgrade old E (env_of g')).
(** Whatever tokens an old value is printed as, the new parser reads them back as the same value.
    The check is only needed of the new grammar. *)
Theorem C60_old_values t v ts : ll1 g' t = true -> among old t -> typed E t v -> print v = Some ts -> parses (env_of g') t ts v.
Proof. intros Hg Ha Ht Hp. eapply C10_parse_of_print; [exact Hg| |exact Hp]. eapply typed_extends; eassumption. Qed.
(** What the old parser reads, the new parser reads, as the same value. *)
Theorem C60_old_inputs t ts v ts' : ll1 g' t = true -> among old t -> visible ts = true -> lits_ok ts ->
  parses E t ts v -> ~ In (LInt 0) (val_lits v) -> print v = Some ts' -> puncts ts = puncts ts' ->
  exists v', parses (env_of g') t ts v' /\ strip v' = strip v.
Proof.
  intros Hg Ha Hv Hl H Hz Hp Hq. pose proof (C08_every_token_is_printed U E t ts v ts' H Hl Hp) as R. rewrite visible_flat in R by exact Hv.
  apply reprints_exact in R; [|exact Hq]. assert (S : sim (fun _ => true) ts ts').
  { eapply reprints_sim; [|exact R|rewrite Hq; reflexivity]. auto. }
  apply sim_sym in S. eapply (sim_parses (fun _ => true)); [apply env_leaves_all, leaf_sharp_all|apply leaves_all, leaf_sharp_all|exact S|].
  eapply C60_old_values; try eassumption. eapply C09_parsed_values_are_typed; eassumption.
Qed.
(** If no operator of the new grammar depends on spacing (see C09), only the number of operator characters counts. *)
Theorem C60_old_inputs_spacing_free K t ts v ts' : ll1 g' t = true -> among old t -> visible ts = true -> lits_ok ts ->
  env_leaves (leaf_free K) E -> leaves (leaf_free K) t -> env_leaves (leaf_free K) (env_of g') ->
  parses E t ts v -> ~ In (LInt 0) (val_lits v) -> print v = Some ts' -> List.length (puncts ts) = List.length (puncts ts') ->
  exists v', parses (env_of g') t ts v' /\ strip v' = strip v.
Proof.
  intros Hg Ha Hv Hl HE Ht HE' H Hz Hp Hq.
  assert (Hsp : forall t, leaf_free K t -> leaf_spacing (fun c g1 g2 => K c = true -> g1 = g2) t).
  { intros t0 F. destruct t0; cbn in *; try exact I; try (intros g E1; congruence). apply free_spacing. exact F. }
  assert (R : reprints (fun c g1 g2 => K c = true -> g1 = g2) nothing (flat ts) ts').
  { eapply whole_reprints; [eapply env_leaves_impl; [exact Hsp|exact HE]|eapply leaves_impl; [exact Hsp|exact Ht]|exact H|exact Hl|exact Hp]. }
  rewrite visible_flat in R by exact Hv.
  assert (Hsh : forall t, leaf_free K t -> leaf_sharp K t) by (intros t0 F; destruct t0; cbn in *; try exact I; apply F).
  eapply (sim_parses K); [eapply env_leaves_impl; [exact Hsh|exact HE']|eapply leaves_impl; [exact Hsh|exact Ht]| |eapply C60_old_values; try eassumption; eapply C09_parsed_values_are_typed; eassumption].
  apply sim_sym. eapply reprints_sim; [|exact R|symmetry; exact Hq]. auto.
Qed.
Context (sane : sane_tables U).
(** What the old program wrote, in either of its formats, the new program reads. *)
Theorem C60_old_documents t v alternate out file : ll1 g' t = true -> among old t -> typed E t v -> writable v ->
  to_string alternate v = Some out -> exists v', from_str (env_of g') t file out v' /\ strip v' = strip v.
Proof. intros Hg Ha Ht Hw D. eapply (C38_to_string_from_str sane); try eassumption. eapply typed_extends; eassumption. Qed.
(** What the old program could read, the new one reads. *)
Theorem C60_old_texts t file src v : ll1 g' t = true -> among old t -> forallb valid_char src = true ->
  from_str E t file src v -> ~ In (LInt 0) (val_lits v) ->
  (forall ts, lex file src = LOk ts -> exists ts', print v = Some ts' /\ puncts ts = puncts ts') ->
  exists v', from_str (env_of g') t file src v' /\ strip v' = strip v.
Proof.
  intros Hg Ha Hc F Hz Hq. apply from_str_parses in F as (ts & Hl & H). destruct (Hq ts Hl) as (ts' & Hp & Hq').
  destruct (lex_out sane file src ts Hc Hl) as (Hw & _).
  destruct (C60_old_inputs t ts v ts' Hg Ha (wf_visible ts Hw) ltac:(eapply lexed_lits_ok; eassumption) H Hz Hp Hq') as (v' & H' & S).
  exists v'. split; [|exact S]. apply from_str_parses. exists ts. auto.
Qed.
End C60.

(** ** One enum, in any grammar. *)
(** [same]: definitions that did not change, and mention only such *)
Definition settled (same : nat -> Prop) (E E' : env) : Prop := forall j, same j ->
  E' j = E j /\ forall c t, In c (ctors (E j)) -> In t (types c) -> among same t.
Section Local.
Context {U : unicode} (same : nat -> Prop) (E E' : env) (Hs : settled same E E').
Lemma settled_fields (p q : ty -> parser val) (fs : list (label * ty)) : (forall t, In t (map snd fs) -> le (p t) (q t)) ->
  Forall2 (fun f g => fst f = fst g /\ le (snd f) (snd g)) (map (fun '(l, t) => (l, p t)) fs) (map (fun '(l, t) => (l, q t)) fs).
Proof. intro H. induction fs as [|(l, t) fs IH]; cbn; constructor; cbn; [split; [reflexivity|]; apply H; left; reflexivity|]. apply IH. intros t' Ht. apply H. right. exact Ht. Qed.
Lemma settled_pty n : forall t, among same t -> le (pty E n t) (pty E' n t).
Proof.
  induction n as [|n IH]; intros t; [intros _; apply le_bottom|]. cbn [pty]. destruct t; cbn [p_layer]; try (intros _; apply le_refl).
  - apply among_app. intros A B. apply le_pmap, le_maybe; apply IH; assumption.
  - intro A. apply le_pmap, le_group, IH, A.
  - intro A. apply le_pmap, le_group, IH, A.
  - intro A. apply le_pmap, le_group, IH, A.
  - apply among_app. intros A B. apply le_pmap, le_terminated; auto.
  - apply among_app. intros A B. apply le_pmap, le_separated; auto.
  - intro A. apply le_pmap, le_any; auto.
  - apply among_app. intros A B. apply le_pmap, le_left_assoc; auto.
  - apply among_app. intros A B. apply le_pmap, le_right_assoc; auto.
  - apply among_app. intros A B. apply le_pmap, le_either; apply IH; assumption.
  - intro A. apply IH. exact A.
  - intro A. destruct (Hs i (A i (or_introl eq_refl))) as (-> & N). destruct (E i) as [c|en cs]; cbn [p_def].
    + apply le_pmap, le_fields, settled_fields. intros t Ht. apply IH. apply (N c); [left; reflexivity|exact Ht].
    + apply le_pmap, le_variants. cbn [ctors] in N. induction cs as [|c cs IHc]; cbn; constructor.
      * cbn. split; [reflexivity|]. apply settled_fields. intros t Ht. apply IH. apply (N c); [left; reflexivity|exact Ht].
      * apply IHc. intros c' t Hc. apply N. right. exact Hc.
Qed.
Lemma settled_ble t : among same t -> ble (tbeh E t) (tbeh E' t).
Proof.
  intro A. split; cbn.
  - intros s v s' (n & H). exists n. destruct (settled_pty n t A s) as [D|D]; [rewrite H in D; discriminate D|]. rewrite <- D. exact H.
  - intros s e (n & s' & H). exists n, s'. destruct (settled_pty n t A s) as [D|D]; [rewrite H in D; discriminate D|]. rewrite <- D. exact H.
Qed.
Lemma settled_tys (fs gs : list (label * ty)) : map snd gs = map snd fs -> (forall t, In t (map snd fs) -> among same t) -> Forall2 ble (tys E fs) (tys E' gs).
Proof.
  unfold tys. intros ->. generalize (map snd fs). intro l. induction l as [|t l IH]; intro A; constructor; [apply settled_ble, A; left; reflexivity|]. apply IH. intros t' Ht. apply A. right. exact Ht.
Qed.
Lemma settled_ctor en en' c c' s e : types c' = types c -> (forall t, In t (types c) -> among same t) -> ctor_no E en c s e -> exists e', ctor_no E' en' c' s e'.
Proof.
  intros Ht A (k & l & t & e0 & Hk & H & ->). unfold types in Ht. assert (Hk' : nth_error (map snd (c_fields c')) k = Some t) by (rewrite Ht, nth_error_map, Hk; reflexivity).
  rewrite nth_error_map in Hk'. destruct (nth_error (c_fields c') k) as [(l', t')|] eqn:Ek; [|discriminate Hk']. eexists. exists k, l', t', e0. split; [exact Ek|]. split; [|reflexivity].
  eapply seq_no_mono; [|exact H]. apply settled_tys; assumption.
Qed.
End Local.
Lemma settled_sym same E E' : settled same E E' -> settled same E' E.
Proof. intros H j Hj. destruct (H j Hj) as (Ej & N). split; [congruence|]. rewrite Ej. exact N. Qed.
Section LocalC60.
Context {U : unicode} (same : nat -> Prop) (E E' : env) (Hs : settled same E E').
Context (i : nat) (en en' : text) (cs cs' : list ctor) (more : list (list ty)).
Context (Hi : E i = DEnum en cs) (Hi' : E' i = DEnum en' cs') (Hmore : map types cs' = map types cs ++ more).
Context (Hcs : forall c t, In c cs -> In t (types c) -> among same t).
Lemma kept k c : nth_error cs k = Some c -> exists c', nth_error cs' k = Some c' /\ types c' = types c.
Proof.
  intro Hk. destruct (extended_enum en cs (DEnum en' cs') k c) as (? & ? & c' & Q & H); [exists more; exact Hmore|exact Hk|].
  injection Q as <- <-. exists c'. exact H.
Qed.
Lemma kept_conv k c' : nth_error cs' k = Some c' -> k < List.length cs -> exists c, nth_error cs k = Some c /\ types c' = types c.
Proof.
  intros Hk L. destruct (nth_error cs k) as [c|] eqn:Ek; [|apply nth_error_None in Ek; lia]. destruct (kept k c Ek) as (c2 & H2 & T). exists c. split; [reflexivity|]. congruence.
Qed.
(** Wherever the enum read something, it still reads it, in the same way. *)
Theorem C60_locally s v s' : yes (tbeh E (TyRef i)) s v s' -> yes (tbeh E' (TyRef i)) s v s'.
Proof.
  intro H. apply (proj1 (enum_yes E i en cs Hi s v s')) in H as (k & vs & c & -> & Hk & Hy & Hb).
  apply (proj2 (enum_yes E' i en' cs' Hi' _ _ _)). destruct (kept k c Hk) as (c' & Hk' & Ht). exists k, vs, c'. split; [reflexivity|]. split; [exact Hk'|]. split.
  - eapply seq_yes_mono; [|exact Hy]. apply (settled_tys same E E' Hs); [exact Ht|]. intros t. apply Hcs. eapply nth_error_In. exact Hk.
  - intros j d Hj Hd. assert (L : j < List.length cs). { assert (k < List.length cs) by (apply nth_error_Some; congruence). lia. }
    destruct (kept_conv j d Hd L) as (d0 & Hd0 & Td). destruct (Hb j d0 Hj Hd0) as (e & He). eapply (settled_ctor same E E' Hs); [exact Td| |exact He]. intros t. apply Hcs. eapply nth_error_In. exact Hd0.
Qed.
(** Whatever it reads now, it read before in the same way, or it refused before and one of the new variants reads it. *)
Theorem C60_only_the_new_variants s v s' : yes (tbeh E' (TyRef i)) s v s' ->
  yes (tbeh E (TyRef i)) s v s' \/
  (exists e, no (tbeh E (TyRef i)) s e) /\ exists k vs, v = VVariant k vs /\ List.length cs <= k.
Proof.
  intro H. apply (proj1 (enum_yes E' i en' cs' Hi' s v s')) in H as (k & vs & c' & -> & Hk & Hy & Hb).
  assert (B : forall j d, j < k -> nth_error cs j = Some d -> exists e, ctor_no E en d s e).
  { intros j d Hj Hd. destruct (kept j d Hd) as (d' & Hd' & Td). destruct (Hb j d' Hj Hd') as (e & He).
    eapply (settled_ctor same E' E (settled_sym _ _ _ Hs)); [symmetry; exact Td| |exact He]. intros t. rewrite Td. apply Hcs. eapply nth_error_In. exact Hd. }
  destruct (Nat.lt_ge_cases k (List.length cs)) as [L|L].
  - left. apply (proj2 (enum_yes E i en cs Hi _ _ _)). destruct (kept_conv k c' Hk L) as (c & Hc & Tc). exists k, vs, c. split; [reflexivity|]. split; [exact Hc|]. split; [|exact B].
    eapply seq_yes_mono; [|exact Hy]. apply (settled_tys same E' E (settled_sym _ _ _ Hs)); [symmetry; exact Tc|]. fold (types c'). rewrite Tc. intros t. apply Hcs. eapply nth_error_In. exact Hc.
  - right. split; [|exists k, vs; auto]. assert (X : exists errs, Forall2 (fun c x => ctor_no E en c s x) cs errs).
    { assert (A : forall c, In c cs -> exists e, ctor_no E en c s e).
      { intros c Hc. apply In_nth_error in Hc as (j & Hj). apply (B j c); [|exact Hj]. assert (j < List.length cs) by (apply nth_error_Some; congruence). lia. }
      clear - A. induction cs as [|c l IH]; [exists []; constructor|]. destruct IH as (es & IH); [intros d Hd; apply A; right; exact Hd|]. destruct (A c (or_introl eq_refl)) as (e & He). exists (e :: es). constructor; assumption. }
    destruct X as (errs & X). destruct errs as [|e0 errs].
    + inversion X as [Hc|]. eexists. apply (proj2 (enum_no E i en cs Hi _ _)). exists []. rewrite <- Hc. split; [constructor|]. right. split; reflexivity.
    + destruct (fold_reported0 e0 errs) as (r & _ & R). exists r. apply (proj2 (enum_no E i en cs Hi _ _)). exists (e0 :: errs). split; [exact X|]. left. exact R.
Qed.
Theorem C60_locally_whole_inputs ts v : parses E (TyRef i) ts v -> parses E' (TyRef i) ts v.
Proof.
  intros (n & H). apply parse2_ok in H as (s' & H & Hu & Hr). destruct (C60_locally (start ts) v s') as (m & Hm); [exists n; exact H|]. exists m.
  unfold parse2. rewrite Hm, Hu. apply leftover_none_flat in Hr. rewrite Hr. reflexivity.
Qed.
End LocalC60.

(** ** Examples *)
Section WithTables.
Local Existing Instance ascii_only.
(** The README's JSON-like language with one more kind of value, and tables keyed by it. *)
Definition json2 : list tdef :=
  match g_defs json with
  | DEnum n cs :: r => DEnum n (cs ++ [tup "Char" [TyLit LtChar]; rec_ "Table" [named "hash" (op "#"); named "rows" (TyBracket (TyAny (TyRef 2)))]]) ::
      r ++ [DStruct (rec_ "Row" [named "key" (TyRef 0); named "arrow" (op "->"); named "value" (TyRef 0)])]
  | l => l
  end.
Lemma json_upgrade : upgrade (fun i => i < 2) (env_of (g_defs json)) (env_of json2).
Proof.
  intros [|[|i]] Hi; [| |lia].
  - split; [eexists; reflexivity|]. intros c t j Hc Ht Hj. cbn in Hc. repeat (destruct Hc as [<-|Hc]; [cbn in Ht; destruct Ht as [<-|[]]; cbn in Hj; try contradiction; lia|]). contradiction.
  - split; [reflexivity|]. intros c t j Hc Ht Hj. cbn in Hc. destruct Hc as [<-|[]]. cbn in Ht. repeat (destruct Ht as [<-|Ht]; [cbn in Hj; try contradiction; lia|]). contradiction.
Qed.
Lemma json2_ll1 : ll1 json2 (TyRef 0) = true.
Proof. vm_compute. reflexivity. Qed.
Lemma among_zero n : among (fun i => i < S n) (TyRef 0).
Proof. intros j [<-|[]]. lia. Qed.
Definition doc : text := T "{ ""a"": [1, -2.5, null], ""b"": true }".
Example C60_ex : exists v v', from_str (env_of (g_defs json)) (TyRef 0) 1 doc v /\ from_str (env_of json2) (TyRef 0) 1 doc v' /\ strip v' = strip v.
Proof.
  assert (V : exists v, from_str (env_of (g_defs json)) (TyRef 0) 1 doc v /\ ~ In (LInt 0) (val_lits v) /\
    forall ts, lex 1 doc = LOk ts -> exists ts', print v = Some ts' /\ puncts ts = puncts ts').
  { eexists. split; [exists 12; vm_compute; reflexivity|]. split; [vm_compute; intuition discriminate|]. intros ts H.
    vm_compute in H. injection H as <-. eexists. split; vm_compute; reflexivity. }
  destruct V as (v & F & Z & Q). destruct (C60_old_texts _ _ _ json_upgrade ascii_sane (TyRef 0) 1 doc v json2_ll1 (among_zero 1)) as (v' & F' & S); [vm_compute; reflexivity|exact F|exact Z|exact Q|].
  exists v, v'. auto.
Qed.
(** ... every document of the old language, as the old program writes it *)
Example C60_json_documents v alternate out file : typed (env_of (g_defs json)) (TyRef 0) v -> writable v -> to_string alternate v = Some out ->
  exists v', from_str (env_of json2) (TyRef 0) file out v' /\ strip v' = strip v.
Proof. apply (C60_old_documents _ _ _ json_upgrade ascii_sane). exact json2_ll1. apply among_zero. Qed.

(** Without the check of the new grammar: the list of the old [Word] stops before [end]; given the
    variant [End], it takes it, and what follows the list is missing. *)
Definition before : list tdef := [enum "Word" [tup "A" [TyKeyword (T "a")]]; DStruct (rec_ "Words" [named "words" (TyAny (TyRef 0)); named "end" (TyKeyword (T "end"))])].
Definition after : list tdef := [enum "Word" [tup "A" [TyKeyword (T "a")]; tup "End" [TyKeyword (T "end")]]; DStruct (rec_ "Words" [named "words" (TyAny (TyRef 0)); named "end" (TyKeyword (T "end"))])].
Theorem C60_unchecked_refuted : upgrade (fun i => i < 2) (env_of before) (env_of after) /\
  exists ts v, typed (env_of before) (TyRef 1) v /\ print v = Some ts /\ parses (env_of before) (TyRef 1) ts v /\
    typed (env_of after) (TyRef 1) v /\ refuses (env_of after) (TyRef 1) ts.
Proof.
  split.
  - intros [|[|i]] Hi; [| |lia].
    + split; [eexists; reflexivity|]. intros c t j Hc Ht Hj. cbn in Hc. destruct Hc as [<-|[]]. cbn in Ht. destruct Ht as [<-|[]]. contradiction.
    + split; [reflexivity|]. intros c t j Hc Ht Hj. cbn in Hc. destruct Hc as [<-|[]]. cbn in Ht. destruct Ht as [<-|[<-|[]]]; cbn in Hj; [lia|contradiction].
  - exists [TIdent (T "a") call_site; TIdent (T "end") call_site]. exists (VStruct [VList [VVariant 0 [VKw (T "a") call_site]]; VKw (T "end") call_site]).
    split; [eapply td_struct; [reflexivity|]; repeat (first [eapply td_enum; [reflexivity|reflexivity|]|constructor])|]. split; [reflexivity|]. split; [exists 9; vm_compute; reflexivity|].
    split; [eapply td_struct; [reflexivity|]; repeat (first [eapply td_enum; [reflexivity|reflexivity|]|constructor])|]. exists 9. eexists. vm_compute. reflexivity.
Qed.
(** A variant added in front is tried first, and may take what the others read: the value that was
    variant 0 and is now variant 1 is not what its tokens are read as. *)
Theorem C60_in_front_refuted : exists c cs ts xs,
  parses (fun _ => DEnum [] cs) (TyRef 0) ts (VVariant 0 xs) /\
  typed (fun _ => DEnum [] (c :: cs)) (TyRef 0) (VVariant 1 xs) /\ print (VVariant 1 xs) = Some ts /\
  ~ parses (fun _ => DEnum [] (c :: cs)) (TyRef 0) ts (VVariant 1 xs).
Proof.
  exists (tup "Any" [TyCustomIdent []]), [tup "Word" [TyIdent]], [TIdent (T "x") call_site], [VIdent (T "x") call_site].
  split; [exists 5; vm_compute; reflexivity|]. split; [eapply td_enum; [reflexivity|reflexivity|]; repeat constructor; vm_compute; intuition discriminate|]. split; [reflexivity|]. intro H.
  assert (Q : parses (fun _ => DEnum [] [tup "Any" [TyCustomIdent []]; tup "Word" [TyIdent]]) (TyRef 0) [TIdent (T "x") call_site] (VVariant 0 [VIdent (T "x") call_site])) by (exists 5; vm_compute; reflexivity).
  pose proof (parses_det _ _ _ _ _ H Q) as D. discriminate D.
Qed.
(** The local theorem at work: [Lit] or word, then also [#]; not recursive. *)
Example C60_local_ex ts v : parses (fun _ => enum "Atom" [tup "Number" [TyAnyLit]; tup "Name" [TyIdent]]) (TyRef 0) ts v ->
  parses (fun _ => enum "Atom" [tup "Number" [TyAnyLit]; tup "Name" [TyIdent]; tup "Hash" [op "#"]]) (TyRef 0) ts v.
Proof.
  eapply (C60_locally_whole_inputs (fun _ => False)); [intros j []|reflexivity|reflexivity|cbn; reflexivity|].
  intros c t Hc Ht j Hj. cbn in Hc. repeat (destruct Hc as [<-|Hc]; [cbn in Ht; destruct Ht as [<-|[]]; contradiction|]). contradiction.
Qed.
End WithTables.

Print Assumptions C60_old_values.
Print Assumptions C60_old_inputs.
Print Assumptions C60_old_inputs_spacing_free.
Print Assumptions C60_old_documents.
Print Assumptions C60_old_texts.
Print Assumptions C60_locally.
Print Assumptions C60_only_the_new_variants.
Print Assumptions C60_locally_whole_inputs.
Print Assumptions C60_unchecked_refuted.
Print Assumptions C60_in_front_refuted.
