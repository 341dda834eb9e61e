(** * LexLit: syn reads every literal the lexer accepts (C38, C45). *)
From Verif Require Import Base Float Literal Syn LitSpec Reprint Lexer LexFacts LexWf.
Local Open Scope nat_scope.

Section LexLit.
Context {U : unicode}.

(** what the value of a literal is like *)
Definition kind_ok (k : lkind) : Prop :=
  match k with
  | KStr v => forallb valid_char v = true
  | KByteStr v => forallb (fun b => (b <? 256)%N) v = true
  | KChar c => valid_char c = true
  | KByte b => (b < 256)%N
  | _ => True
  end.

(** ** Suffixes *)
Lemma start_ascii c : ident_start c = true -> (c < 128)%N -> is_alpha c = true \/ c = 95%N.
Proof.
  unfold ident_start, xid_start. intros H Hc. apply N.ltb_lt in Hc. rewrite Hc in H. apply orb_true_iff in H as [H|H]; [right; apply N.eqb_eq; exact H|auto].
Qed.
Lemma sym_xid n : sym_ok n -> xid_ok n = true.
Proof.
  intros (c & r & -> & Hc & Hr). cbn. unfold ident_start in Hc. rewrite Hc. cbn. apply forallb_forall. rewrite Forall_forall in Hr. exact Hr.
Qed.
Lemma number_end_all s : number_end s = Some [] -> s = [] \/ (xid_ok s = true /\ exists c r, s = c :: r /\ ident_start c = true).
Proof.
  unfold number_end. destruct s as [|c r]; [auto|]. destruct (ident_start c) eqn:Ec.
  - destruct (ident_not_raw (c :: r)) as [(n, t)|] eqn:E; [|discriminate]. intro H. apply ident_not_raw_spec in E as (E & Hn & _).
    assert (t = []). { unfold word_break in H. destruct t as [|a t]; [reflexivity|]. destruct (xid_continue a); discriminate. }
    subst t. rewrite app_nil_r in E. right. split; [rewrite E; apply sym_xid; exact Hn|eauto].
  - unfold word_break. destruct (xid_continue c); discriminate.
Qed.
Lemma xid_suffix s : s = [] \/ (xid_ok s = true /\ exists c r, s = c :: r /\ ident_start c = true) -> match s with [] => true | _ => xid_ok s end = true.
Proof. intros [->|(H & _)]; [reflexivity|]. destruct s; [reflexivity|exact H]. Qed.
Lemma suffix_no_quote s : literal_suffix s = [] -> ~ In 34%N s.
Proof.
  unfold literal_suffix. destruct (ident_not_raw s) as [(n, r)|] eqn:E; intro H.
  - subst r. apply ident_not_raw_spec in E as (E & (c & r & -> & Hc & Hr) & _). rewrite app_nil_r in E. subst s. intros [->|Hin]; [discriminate|].
    rewrite Forall_forall in Hr. apply Hr in Hin. discriminate.
  - subst s. intros [].
Qed.

(** ** Escapes *)
Lemma hex_lt c d : hex_val c = Some d -> (d < 16)%N.
Proof.
  unfold hex_val. destruct (is_digit c) eqn:E1; [intro H; injection H as <-; apply digit_range in E1; unfold digit_val; lia|].
  destruct ((97 <=? c) && (c <=? 102))%N eqn:E2; [intro H; injection H as <-; apply andb_true_iff in E2 as (A & B); apply N.leb_le in A, B; lia|].
  destruct ((65 <=? c) && (c <=? 70))%N eqn:E3; [intro H; injection H as <-; apply andb_true_iff in E3 as (A & B); apply N.leb_le in A, B; lia|discriminate].
Qed.
Lemma lex_x_spec d s r : lex_x d s = Some r -> exists v a b, backslash_x s = Some (v, r) /\ s = a :: b :: r /\ (v < 256)%N /\ (d = DStr -> (v <= 127)%N).
Proof.
  unfold lex_x, backslash_x. destruct s as [|a [|b r0]]; try discriminate. destruct (hex_val a) as [x|] eqn:Ea; [|discriminate]. destruct (hex_val b) as [y|] eqn:Eb; [|discriminate].
  pose proof (hex_lt a x Ea). pose proof (hex_lt b y Eb). intro H'. exists (x * 16 + y)%N, a, b.
  destruct d.
  - destruct (is_digit a && (x <=? 7)%N) eqn:E; [|discriminate]. injection H' as <-. apply andb_true_iff in E as (_ & E). apply N.leb_le in E. repeat split; lia.
  - injection H' as <-. repeat split; try lia; discriminate.
  - destruct ((a =? 48)%N && (b =? 48)%N); [discriminate|]. injection H' as <-. repeat split; try lia; discriminate.
Qed.
Lemma backslash_u_valid s v r : backslash_u s = Some (v, r) -> forallb valid_char s = true -> valid_char v = true /\ forallb valid_char r = true.
Proof.
  unfold backslash_u. destruct s as [|c s]; [discriminate|]. destruct (c =? 123)%N; [|discriminate]. cbn [forallb]. intros H Hv. apply andb_true_iff in Hv as (_ & Hv).
  revert H. generalize 0%N, 0%nat. induction s as [|a s IH]; intros v0 n0; cbn [backslash_u_loop]; [discriminate|]. cbn [forallb] in Hv. apply andb_true_iff in Hv as (_ & Hv).
  destruct (hex_val a); [destruct (Nat.eqb n0 6); [discriminate|apply IH; exact Hv]|]. destruct ((a =? 95)%N && Nat.ltb 0 n0); [apply IH; exact Hv|].
  destruct ((a =? 125)%N && Nat.ltb 0 n0); [|discriminate]. destruct (valid_char v0) eqn:Ev; [|discriminate]. intro H. injection H as <- <-. auto.
Qed.
Lemma trailing_skip s : forall cr r, trailing_backslash cr s = Some r -> skip_cont s = r.
Proof.
  induction s as [|c s IH]; intros cr r; cbn [trailing_backslash skip_cont]; [discriminate|]. destruct cr.
  - destruct (N.eqb_spec c 10) as [->|]; [|discriminate]. cbn. apply IH.
  - destruct ((c =? 32)%N || (c =? 9)%N || (c =? 10)%N || (c =? 13)%N); [apply IH|congruence].
Qed.
Lemma skip_cont_valid s : forallb valid_char s = true -> forallb valid_char (skip_cont s) = true.
Proof.
  induction s as [|c s IH]; [auto|]. cbn [skip_cont forallb]. intro H. apply andb_true_iff in H as (Hc & H). destruct (_ || _); [apply IH; exact H|]. cbn. rewrite Hc, H. reflexivity.
Qed.
Lemma simple_ok c : lex_simple DStr c = true -> exists v, simple_escape c = Some v /\ (v < 128)%N.
Proof.
  unfold lex_simple, simple_escape. cbn [existsb]. rewrite orb_false_r, andb_true_r.
  repeat (match goal with |- context [(c =? ?k)%N] => destruct (N.eqb_spec c k) as [->|?]; [eexists; split; [reflexivity|lia]|] end). discriminate.
Qed.
Lemma small_valid v : (v < 256)%N -> valid_char v = true.
Proof. intro H. unfold valid_char. apply orb_true_iff. left. apply N.ltb_lt. lia. Qed.

(** ** Cooked strings *)
Definition is_bytes (d : dialect) : bool := match d with DByte => true | _ => false end.
Definition unit_ok (d : dialect) (v : N) : bool := if is_bytes d then (v <? 256)%N else valid_char v.
Lemma unit_small d v : (v < 256)%N -> unit_ok d v = true.
Proof. intro H. unfold unit_ok. destruct (is_bytes d); [apply N.ltb_lt; exact H|apply small_valid; exact H]. Qed.
Lemma cooked_reads d : d <> DC -> forall f s x f' out, lex_cooked f d s = Some x -> f <= f' -> forallb valid_char s = true -> forallb (unit_ok d) out = true ->
  exists v suf, cooked f' (is_bytes d) s out = Some (v, suf) /\ forallb (unit_ok d) v = true.
Proof.
  intro Hd. induction f as [|f IH]; intros s x f' out H Hf Hv Ho; cbn [lex_cooked] in H; [discriminate|].
  destruct f' as [|f']; [lia|]. assert (Hf' : f <= f') by lia. destruct s as [|c r]; [discriminate|]. cbn [cooked]. cbn [forallb] in Hv. apply andb_true_iff in Hv as (Hc & Hv).
  destruct (N.eqb_spec c 34) as [->|H34].
  { eexists. eexists. split; [reflexivity|]. apply forallb_forall. intros y Hy. rewrite <- in_rev in Hy. rewrite forallb_forall in Ho. apply Ho. exact Hy. }
  destruct (N.eqb_spec c 13) as [->|H13].
  { change (13 =? 92)%N with false. cbv iota. destruct r as [|n r]; [discriminate|]. destruct (n =? 10)%N; [|discriminate]. cbn [forallb] in Hv. apply andb_true_iff in Hv as (_ & Hv).
    eapply IH; [exact H|exact Hf'|exact Hv|]. cbn [forallb]. rewrite unit_small by lia. exact Ho. }
  destruct (N.eqb_spec c 92) as [->|H92].
  - destruct r as [|b r]; [discriminate|]. cbn [forallb] in Hv. apply andb_true_iff in Hv as (_ & Hv). destruct (b =? 120)%N.
    + destruct (lex_x d r) as [r2|] eqn:Ex; [|discriminate]. apply lex_x_spec in Ex as (v & a1 & a2 & -> & -> & Hlt & Hs). cbn [forallb] in Hv. rewrite !andb_true_iff in Hv.
      assert (E : is_bytes d || (v <=? 127)%N = true). { destruct d; [cbn; apply N.leb_le; auto|reflexivity|congruence]. }
      rewrite E. eapply IH; [exact H|exact Hf'|apply Hv|]. cbn [forallb]. rewrite unit_small by exact Hlt. exact Ho.
    + assert (Hsimple : lex_simple d b = lex_simple DStr b) by (destruct d; [reflexivity|reflexivity|congruence]). rewrite Hsimple in H.
      destruct (lex_simple DStr b) eqn:Es.
      * destruct (simple_ok b Es) as (v & Ev & Hlt). assert (b <> 117%N) by (intros ->; discriminate). replace (b =? 117)%N with false by (symmetry; apply N.eqb_neq; assumption). cbn [andb].
        rewrite Ev. eapply IH; [exact H|exact Hf'|exact Hv|]. cbn [forallb]. rewrite unit_small by lia. exact Ho.
      * assert (Hb : match d with DByte => false | _ => true end = negb (is_bytes d)) by (destruct d; reflexivity). rewrite Hb in H.
        destruct ((b =? 117)%N && negb (is_bytes d)) eqn:Eu.
        -- destruct (backslash_u r) as [(v, r2)|] eqn:Ebu; [|discriminate]. destruct (backslash_u_valid _ _ _ Ebu Hv) as (Hvv & Hvr).
           destruct ((v =? 0)%N && _); [discriminate|]. eapply IH; [exact H|exact Hf'|exact Hvr|]. cbn [forallb]. apply andb_true_iff in Eu as (_ & Eu). unfold unit_ok at 1. apply negb_true_iff in Eu. rewrite Eu, Hvv. exact Ho.
        -- destruct ((b =? 10)%N || (b =? 13)%N) eqn:En; [|discriminate]. destruct (trailing_backslash (b =? 13)%N r) as [r2|] eqn:Et; [|discriminate]. apply trailing_skip in Et.
           assert (simple_escape b = None) as ->. { apply orb_true_iff in En as [En|En]; apply N.eqb_eq in En; subst b; reflexivity. }
           rewrite Et. eapply IH; [exact H|exact Hf'|rewrite <- Et; apply skip_cont_valid; exact Hv|exact Ho].
  - destruct d; [| |congruence]; cbn [is_bytes andb].
    + eapply IH; [exact H|exact Hf'|exact Hv|]. cbn [forallb]. unfold unit_ok at 1. cbn [is_bytes]. rewrite Hc. exact Ho.
    + destruct (c <? 128)%N eqn:E; [|discriminate]. cbn [negb]. eapply (IH r x f' (c :: out)); [exact H|exact Hf'|exact Hv|]. cbn [forallb]. apply N.ltb_lt in E. rewrite unit_small by lia. exact Ho.
Qed.

(** ** Raw strings *)
Lemma rsplit_none s : ~ In 34%N s -> rsplit_quote s = None.
Proof.
  induction s as [|c s IH]; intro H; [reflexivity|]. cbn. rewrite IH by (intro; apply H; right; assumption). destruct (N.eqb_spec c 34) as [->|]; [|reflexivity]. exfalso. apply H. left. reflexivity.
Qed.
Lemma rsplit_last a b : ~ In 34%N b -> rsplit_quote (a ++ 34%N :: b) = Some (a, b).
Proof. intro H. induction a as [|c a IH]; cbn [app rsplit_quote]; [rewrite rsplit_none by exact H; reflexivity|rewrite IH; reflexivity]. Qed.
Lemma strip_pounds_quote n : forall s r, strip_pounds n s = Some r -> ~ In 34%N r -> ~ In 34%N s.
Proof.
  induction n as [|n IH]; intros s r H Hr; cbn in H; [congruence|]. destruct s as [|c s]; [discriminate|]. destruct (N.eqb_spec c 35) as [->|]; [|discriminate].
  intros [F|F]; [discriminate|]. exact (IH s r H Hr F).
Qed.
Lemma raw_scan_spec d n : forall k s, List.length s <= k -> raw_scan d n s = Some [] -> forallb valid_char s = true ->
  exists content tail rest, s = content ++ 34%N :: tail /\ strip_pounds n tail = Some rest /\ ~ In 34%N tail /\ (d <> DC -> forallb (unit_ok d) content = true).
Proof.
  induction k as [|k IH]; intros s Hk H Hv; [destruct s; [discriminate|cbn in Hk; lia]|].
  destruct s as [|c s]; [discriminate|]. cbn [raw_scan] in H. cbn [List.length] in Hk. cbn [forallb] in Hv. apply andb_true_iff in Hv as (Hc & Hv).
  assert (Other : (if (c =? 13)%N then match s with b :: r' => if (b =? 10)%N then raw_scan d n r' else None | [] => None end
    else match d with DStr => raw_scan d n s | DByte => if (c <? 128)%N then raw_scan d n s else None | DC => if (c =? 0)%N then None else raw_scan d n s end) = Some [] ->
    exists content tail rest, c :: s = content ++ 34%N :: tail /\ strip_pounds n tail = Some rest /\ ~ In 34%N tail /\ (d <> DC -> forallb (unit_ok d) content = true)).
  { clear H. intro H. destruct (N.eqb_spec c 13) as [->|H13].
    - destruct s as [|b s]; [discriminate|]. destruct (N.eqb_spec b 10) as [->|]; [|discriminate]. cbn [List.length forallb] in *. apply andb_true_iff in Hv as (_ & Hv).
      destruct (IH s ltac:(lia) H Hv) as (content & tail & rest & -> & H1 & H2 & H3). exists (13 :: 10 :: content)%N, tail, rest. split; [reflexivity|]. split; [exact H1|]. split; [exact H2|].
      intro Hd. cbn [forallb]. rewrite !unit_small by lia. auto.
    - assert (G : raw_scan d n s = Some [] /\ (d <> DC -> unit_ok d c = true)).
      { destruct d; [split; [exact H|intros _; exact Hc]| |split; [destruct (c =? 0)%N; [discriminate|exact H]|congruence]].
        destruct (c <? 128)%N eqn:E; [|discriminate]. split; [exact H|]. intros _. apply unit_small. apply N.ltb_lt in E. lia. }
      destruct G as (G1 & G2). destruct (IH s ltac:(lia) G1 Hv) as (content & tail & rest & -> & H1 & H2 & H3). exists (c :: content), tail, rest.
      split; [reflexivity|]. split; [exact H1|]. split; [exact H2|]. intro Hd. cbn [forallb]. rewrite (G2 Hd). auto. }
  destruct (N.eqb_spec c 34) as [->|]; [|exact (Other H)]. destruct (strip_pounds n s) as [rest|] eqn:Es; [|exact (Other H)].
  injection H as H. exists [], s, rest. split; [reflexivity|]. split; [exact Es|]. split; [|reflexivity]. eapply strip_pounds_quote; [exact Es|]. apply suffix_no_quote. exact H.
Qed.
Lemma count_pounds_valid s : forall n t, count_pounds s = (n, t) -> forallb valid_char s = true -> forallb valid_char t = true.
Proof.
  induction s as [|c s IH]; intros n t H Hv; cbn [count_pounds] in H; [injection H as <- <-; exact Hv|]. destruct (c =? 35)%N; [|injection H as <- <-; exact Hv].
  destruct (count_pounds s) as (m, u) eqn:E. injection H as <- <-. cbn in Hv. apply andb_true_iff in Hv as (_ & Hv). exact (IH m u eq_refl Hv).
Qed.
Lemma raw_reads d s : d <> DC -> lex_raw d s = Some [] -> forallb valid_char s = true -> exists v suf, raw_str s = Some (v, suf) /\ forallb (unit_ok d) v = true.
Proof.
  unfold lex_raw, raw_delimiter, raw_str. intros Hd H Hv. destruct (count_pounds s) as (n, t) eqn:Ec. destruct t as [|c r]; [discriminate|].
  destruct ((c =? 34)%N && Nat.leb n 255) eqn:E; [|discriminate]. apply andb_true_iff in E as (E & _). rewrite E.
  pose proof (count_pounds_valid _ _ _ Ec Hv) as Hr. cbn [forallb] in Hr. apply andb_true_iff in Hr as (_ & Hr).
  destruct (raw_scan_spec d n _ r (le_n _) H Hr) as (content & tail & rest & -> & H1 & H2 & H3). rewrite rsplit_last by exact H2. rewrite H1. eauto.
Qed.

(** ** Characters and bytes *)
Lemma quoted_reads bytes s x : lex_quoted bytes s = Some x -> forallb valid_char s = true ->
  exists v suf, quoted_char bytes s = Some (v, suf) /\ (if bytes then (v <? 256)%N else valid_char v) = true.
Proof.
  unfold lex_quoted, quoted_char. intros H Hv.
  assert (Close : forall v r y, (match r with c :: r' => if (c =? 39)%N then Some (literal_suffix r') else None | [] => None end) = Some y ->
    exists suf, (match r with c :: suffix => if (c =? 39)%N then Some (v : char, suffix) else None | [] => None end) = Some (v, suf)).
  { intros v r y Hr. destruct r as [|c r]; [discriminate|]. destruct (c =? 39)%N; [eauto|discriminate]. }
  assert (Sm : forall v, (v < 256)%N -> (if bytes then (v <? 256)%N else valid_char v) = true) by (intros v Hlt; destruct bytes; [apply N.ltb_lt; exact Hlt|apply small_valid; exact Hlt]).
  destruct s as [|c r]; [discriminate|]. cbn [forallb] in Hv. apply andb_true_iff in Hv as (Hc & Hv). destruct (c =? 92)%N.
  - destruct r as [|b r]; [discriminate|]. cbn [forallb] in Hv. apply andb_true_iff in Hv as (_ & Hv). destruct (b =? 120)%N.
    + destruct (lex_x _ r) as [r2|] eqn:Ex; [|discriminate]. apply lex_x_spec in Ex as (v & a1 & a2 & -> & -> & Hlt & Hs).
      assert (E : bytes || (v <=? 128)%N = true) by (destruct bytes; [reflexivity|]; cbn; apply N.leb_le; specialize (Hs eq_refl); lia). rewrite E.
      destruct (Close v _ _ H) as (suf & ->). eauto.
    + destruct ((b =? 117)%N && negb bytes) eqn:Eu.
      * destruct (backslash_u r) as [(v, r2)|] eqn:Ebu; [|discriminate]. destruct (backslash_u_valid _ _ _ Ebu Hv) as (Hvv & _). destruct (Close v _ _ H) as (suf & ->).
        exists v, suf. split; [reflexivity|]. apply andb_true_iff in Eu as (_ & Eu). apply negb_true_iff in Eu. rewrite Eu. exact Hvv.
      * destruct (lex_simple DStr b) eqn:Es; [|discriminate]. destruct (simple_ok b Es) as (v & -> & Hlt). destruct (Close v _ _ H) as (suf & ->). exists v, suf. split; [reflexivity|]. apply Sm. lia.
  - destruct (bytes && negb (c <? 128)%N) eqn:E; [discriminate|]. destruct (Close c _ _ H) as (suf & ->). exists c, suf. split; [reflexivity|]. destruct bytes; [|exact Hc].
    cbn [andb] in E. apply negb_false_iff, N.ltb_lt in E. apply N.ltb_lt. lia.
Qed.

(** ** Numbers *)
(** the first character of a suffix is not one a number goes on with *)
Lemma start_facts c : ident_start c = true -> is_digit c = false /\ (c =? 46)%N = false /\ (c =? 45)%N = false /\ (c =? 43)%N = false.
Proof.
  intro H. split; [exact (digit_start c H)|]. repeat split; apply N.eqb_neq; intros ->; discriminate.
Qed.
Lemma float_scan_stop s out dot e sg ex : (s = [] \/ (xid_ok s = true /\ exists c r, s = c :: r /\ ident_start c = true)) -> (forall c r, s = c :: r -> c <> 95%N) ->
  (e = true -> ex = true) ->
  match s with c :: r => (c =? 101)%N || (c =? 69)%N = true -> e = true \/ (let nx := first_non_underscore r in (nx =? 45)%N || (nx =? 43)%N || is_digit nx) = false | [] => True end ->
  float_scan s out dot e sg ex = Some (rev out, s, e, ex).
Proof.
  intros [->|(_ & c & r & -> & Hs)] Hu He Hx; [reflexivity|]. cbn [float_scan]. destruct (start_facts c Hs) as (F1 & F2 & F3 & F4). rewrite F1, F2, F3, F4. cbn [orb].
  specialize (Hu c r eq_refl). apply N.eqb_neq in Hu. rewrite Hu. destruct ((c =? 101)%N || (c =? 69)%N); [|reflexivity].
  cbv zeta in *. destruct ((first_non_underscore r =? 45)%N || (first_non_underscore r =? 43)%N || is_digit (first_non_underscore r)) eqn:E; [|reflexivity].
  destruct (Hx eq_refl) as [->|Hx']; [rewrite He by reflexivity; reflexivity|discriminate].
Qed.
Lemma exponent_value s : forall hs before rest, exponent s hs true before = Some rest -> List.length rest <= List.length s.
Proof.
  induction s as [|c s IH]; intros hs before rest; cbn [exponent]; [intro H; injection H as <-; lia|]. destruct ((c =? 43)%N || (c =? 45)%N); [intro H; injection H as <-; lia|].
  destruct (is_digit c); [intro H; apply IH in H; cbn; lia|]. destruct (c =? 95)%N; [intro H; apply IH in H; cbn; lia|]. intro H; injection H as <-; lia.
Qed.
Lemma exponent_digit s : is_digit (first_non_underscore s) = true -> forall hs before rest, exponent s hs false before = Some rest -> List.length rest <= List.length s.
Proof.
  induction s as [|c s IH]; intros Hd hs before rest; [discriminate|]. cbn [first_non_underscore] in Hd. cbn [exponent List.length]. destruct (N.eqb_spec c 95) as [->|].
  - cbn. intro H. apply (IH Hd) in H. lia.
  - destruct ((c =? 43)%N || (c =? 45)%N) eqn:E; [exfalso; apply orb_true_iff in E as [E|E]; apply N.eqb_eq in E; subst c; discriminate|]. rewrite Hd. intro H. apply exponent_value in H. lia.
Qed.
Lemma exponent_nothing s : (let nx := first_non_underscore s in (nx =? 45)%N || (nx =? 43)%N || is_digit nx) = false -> forall hs before, exponent s hs false before = before.
Proof.
  induction s as [|c s IH]; intros Hd hs before; [reflexivity|]. cbv zeta in Hd. cbn [first_non_underscore] in Hd. cbn [exponent]. destruct (N.eqb_spec c 95) as [->|].
  - cbn. apply IH. exact Hd.
  - apply orb_false_iff in Hd as (Hd & Hd3). apply orb_false_iff in Hd as (Hd1 & Hd2). rewrite Hd1, Hd2, Hd3. reflexivity.
Qed.
Lemma exponent_scan s : forall out dot hs hv before rest, exponent s hs hv before = Some rest -> number_end rest = Some [] ->
  before = Some rest \/ exists ds, float_scan s out dot true hs hv = Some (ds, rest, true, true).
Proof.
  induction s as [|c s IH]; intros out dot hs hv before rest H Hn; cbn [exponent] in H.
  - destruct hv; [|auto]. injection H as <-. right. eexists. reflexivity.
  - assert (Fin : (if hv then Some (c :: s) else before) = Some rest -> (c =? 95)%N = false -> before = Some rest \/ exists ds, float_scan (c :: s) out dot true hs hv = Some (ds, rest, true, true)).
    { intros Hf Hu. destruct hv; [|auto]. injection Hf as <-. right. eexists. apply float_scan_stop; [apply number_end_all; exact Hn| |auto|auto]. intros a b E. injection E as <- <-. apply N.eqb_neq. exact Hu. }
    destruct ((c =? 43)%N || (c =? 45)%N) eqn:Es.
    + destruct hv.
      { apply Fin; [exact H|]. apply orb_true_iff in Es as [Es|Es]; apply N.eqb_eq in Es; subst c; reflexivity. }
      destruct hs; [auto|]. destruct (IH (if (c =? 45)%N then c :: out else out) dot true false before rest H Hn) as [E|(ds & E)]; [auto|]. right. exists ds. cbn [float_scan].
      apply orb_true_iff in Es as [Es|Es]; apply N.eqb_eq in Es; subst c; cbn; exact E.
    + apply orb_false_iff in Es as (Es1 & Es2). destruct (is_digit c) eqn:Ed.
      * destruct (IH (c :: out) dot hs true before rest H Hn) as [E|(ds & E)]; [auto|]. right. exists ds. cbn [float_scan]. rewrite Ed.
        assert (Hu : (c =? 95)%N = false) by (apply digit_range in Ed; apply N.eqb_neq; lia). rewrite Hu. exact E.
      * destruct (c =? 95)%N eqn:Eu; [|apply Fin; [exact H|reflexivity]]. destruct (IH out dot hs hv before rest H Hn) as [E|(ds & E)]; [auto|]. right. exists ds. cbn [float_scan]. rewrite Eu. exact E.
Qed.
Lemma mantissa_scan s : forall out dot, match mantissa s dot with
  | Some (dot', rest, after) =>
      (dot = true -> dot' = true) /\
      match after with
      | Some t => exists c out', rest = c :: t /\ ((c =? 101)%N || (c =? 69)%N) = true /\ float_scan s out dot false false false = float_scan rest out' dot' false false false
      | None => number_end rest = Some [] -> exists ds, float_scan s out dot false false false = Some (ds, rest, false, false)
      end
  | None => True
  end.
Proof.
  induction s as [|c s IH]; intros out dot; cbn [mantissa].
  - split; [auto|]. intros _. eexists. reflexivity.
  - destruct (is_digit c || (c =? 95)%N) eqn:E1.
    + specialize (IH (if (c =? 95)%N then out else c :: out) dot). cbn [float_scan]. destruct (c =? 95)%N eqn:Eu; [exact IH|]. rewrite orb_false_r in E1. rewrite E1. exact IH.
    + apply orb_false_iff in E1 as (Ed & Eu). destruct (c =? 46)%N eqn:E46.
      * destruct dot.
        -- split; [auto|]. intro Hn. exfalso. apply N.eqb_eq in E46. subst c. apply number_end_all in Hn as [Hn|(_ & a & b & Hn & Ha)]; [discriminate|]. injection Hn as <- <-. discriminate.
        -- destruct (match s with c2 :: _ => _ | [] => false end); [exact I|]. specialize (IH (c :: out) true). destruct (mantissa s true) as [((dot', rest), after)|]; [|exact I].
           destruct IH as (H1 & H2). specialize (H1 eq_refl). subst dot'. split; [auto|].
           cbn [float_scan]. rewrite Ed, Eu, E46. cbn [orb]. exact H2.
      * destruct ((c =? 101)%N || (c =? 69)%N) eqn:Ee.
        -- split; [auto|]. exists c, out. auto.
        -- split; [auto|]. intro Hn. eexists. apply float_scan_stop; [apply number_end_all; exact Hn| |discriminate|congruence].
           intros a b E. injection E as <- <-. apply N.eqb_neq. exact Eu.
Qed.
Lemma xid_no_sign s : forallb xid_continue s = true -> (first_non_underscore s =? 45)%N = false /\ (first_non_underscore s =? 43)%N = false.
Proof.
  induction s as [|c s IH]; [auto|]. cbn [forallb first_non_underscore]. intro H. apply andb_true_iff in H as (Hc & H). destruct (c =? 95)%N; [exact (IH H)|].
  split; apply N.eqb_neq; intros ->; discriminate.
Qed.
Lemma digit_unsigned c : is_digit c = true -> (c =? 45)%N = false.
Proof. intro H. apply digit_range in H. apply N.eqb_neq. lia. Qed.
Lemma float_end c r ds suf e ex : is_digit c = true -> float_scan (c :: r) [] false false false false = Some (ds, suf, e, ex) -> (e = true -> ex = true) ->
  match suf with [] => true | _ => xid_ok suf end = true -> parse_lit_float (c :: r) <> None.
Proof.
  intros Hd H He Hs. unfold parse_lit_float. rewrite (digit_unsigned c Hd), Hd, H. destruct e; [rewrite He by reflexivity|]; cbn [andb negb]; rewrite Hs; discriminate.
Qed.
Lemma float_reads s : lex_float s = Some [] -> parse_lit_float s <> None.
Proof.
  unfold lex_float, float_digits. destruct s as [|c r]; [intro Hx; discriminate Hx|]. destruct (is_digit c) eqn:Hd; [|intro Hx; discriminate Hx].
  assert (Eu : (c =? 95)%N = false) by (apply digit_range in Hd; apply N.eqb_neq; lia).
  assert (First : float_scan (c :: r) [] false false false false = float_scan r [c] false false false false) by (cbn [float_scan]; rewrite Eu, Hd; reflexivity).
  pose proof (mantissa_scan r [c] false) as M. destruct (mantissa r false) as [((dot', rest), [after|])|]; [| |intro Hx; discriminate Hx].
  - destruct M as (_ & e & out' & -> & He & M).
    replace (if dot' then exponent after false false (if dot' then Some (e :: after) else None) else exponent after false false (if dot' then Some (e :: after) else None))
      with (exponent after false false (if dot' then Some (e :: after) else None)) by (destruct dot'; reflexivity).
    destruct (exponent after false false (if dot' then Some (e :: after) else None)) as [rest|] eqn:Ex; [|intro Hx; discriminate Hx]. intro Hn.
    assert (Eu' : (e =? 95)%N = false) by (apply orb_true_iff in He as [He|He]; apply N.eqb_eq in He; subst e; reflexivity).
    assert (Ed' : is_digit e = false) by (apply orb_true_iff in He as [He|He]; apply N.eqb_eq in He; subst e; reflexivity).
    assert (E46 : (e =? 46)%N = false) by (apply orb_true_iff in He as [He|He]; apply N.eqb_eq in He; subst e; reflexivity).
    destruct (let nx := first_non_underscore after in (nx =? 45)%N || (nx =? 43)%N || is_digit nx) eqn:Enx; cbv zeta in Enx.
    + assert (Step : float_scan (e :: after) out' dot' false false false = float_scan after (101%N :: out') dot' true false false).
      { cbn [float_scan]. rewrite Eu', Ed', E46, He. cbv zeta. rewrite Enx. reflexivity. }
      destruct (exponent_scan after (101%N :: out') dot' false false _ rest Ex Hn) as [Eb|(ds & Es)].
      * exfalso. destruct dot'; [|discriminate]. injection Eb as <-. apply orb_true_iff in Enx as [Enx|Enx].
        -- apply number_end_all in Hn as [Hn|(Hn & _)]; [discriminate|]. cbn [xid_ok] in Hn. apply andb_true_iff in Hn as (_ & Hn). apply xid_no_sign in Hn as (N1 & N2). rewrite N1, N2 in Enx. discriminate.
        -- apply (exponent_digit after Enx) in Ex. cbn in Ex. lia.
      * eapply float_end; [exact Hd|rewrite First, M, Step; exact Es|auto|]. apply xid_suffix, number_end_all, Hn.
    + rewrite (exponent_nothing after Enx) in Ex. destruct dot'; [|discriminate]. injection Ex as <-. pose proof (number_end_all _ Hn) as Ha.
      assert (Stop : float_scan (e :: after) out' true false false false = Some (rev out', e :: after, false, false)).
      { apply float_scan_stop; [exact Ha| |discriminate|].
        - intros a b E. injection E as <- <-. apply N.eqb_neq. exact Eu'.
        - intros _. right. exact Enx. }
      eapply float_end; [exact Hd|rewrite First, M; exact Stop|discriminate|apply xid_suffix; exact Ha].
  - destruct dot'; [|intro Hx; discriminate Hx]. intro Hn. destruct M as (_ & M). destruct (M Hn) as (ds & E). eapply float_end; [exact Hd|rewrite First; exact E|discriminate|]. apply xid_suffix, number_end_all, Hn.
Qed.
(** an integer that has an exponent after all *)
Lemma exp_scan_float s : forall out dot hv, forallb xid_continue s = true -> exp_scan s hv = true ->
  exists ds suf, float_scan s out dot true false hv = Some (ds, suf, true, true) /\ match suf with [] => true | _ => xid_ok suf end = true.
Proof.
  induction s as [|c s IH]; intros out dot hv Hx H; cbn [exp_scan] in H.
  - subst hv. eexists. eexists. split; reflexivity.
  - cbn [forallb] in Hx. apply andb_true_iff in Hx as (Hc & Hx). cbn [float_scan]. destruct (c =? 95)%N eqn:Eu; [apply IH; assumption|].
    assert (S1 : (c =? 45)%N = false) by (apply N.eqb_neq; intros ->; discriminate). assert (S2 : (c =? 43)%N = false) by (apply N.eqb_neq; intros ->; discriminate).
    assert (S3 : (c =? 46)%N = false) by (apply N.eqb_neq; intros ->; discriminate). rewrite S1, S2 in H. cbn [orb] in H. rewrite S1, S2, S3. cbn [orb].
    destruct (is_digit c); [cbn [orb]; apply IH; assumption|]. apply andb_true_iff in H as (-> & H).
    assert (G : exists ds suf, Some (rev out, c :: s, true, true) = Some (ds, suf, true, true) /\ match suf with [] => true | _ => xid_ok suf end = true) by (eexists; eexists; split; [reflexivity|exact H]).
    cbv zeta. destruct ((c =? 101)%N || (c =? 69)%N); [|exact G]. destruct (_ || is_digit _); exact G.
Qed.
Lemma digit_run_loop base s : (base = 2 \/ base = 8 \/ base = 10 \/ base = 16)%N -> forall e v rest out, digit_run base s e = Some rest -> number_end rest = Some [] ->
  (exists v', int_loop base s v (negb e) = Some (v', true, rest)) \/
  (base = 10%N /\ exists ds suf hx, float_scan s out false false false false = Some (ds, suf, hx, hx) /\ match suf with [] => true | _ => xid_ok suf end = true).
Proof.
  intro Hb. induction s as [|c s IH]; intros e v rest out H Hn; cbn [digit_run] in H.
  - destruct e; [discriminate|]. injection H as <-. left. eexists. reflexivity.
  - cbn [int_loop]. destruct (is_digit c) eqn:Ed.
    { destruct (digit_val c <? base)%N; [|discriminate]. destruct (IH false (v * base + digit_val c)%N rest (c :: out) H Hn) as [(v' & E)|(E1 & ds & suf & hx & E2 & E3)]; [left; exists v'; exact E|].
      right. split; [exact E1|]. exists ds, suf, hx. split; [|exact E3]. cbn [float_scan]. assert (Hu : (c =? 95)%N = false) by (apply digit_range in Ed; apply N.eqb_neq; lia). rewrite Hu, Ed. exact E2. }
    assert (Fin : (if e then None else Some (c :: s)) = Some rest -> (c =? 95)%N = false ->
      (exists v', (if (base =? 10)%N && (c =? 46)%N then None else if (base =? 10)%N && ((c =? 101)%N || (c =? 69)%N) then if exp_scan s false then None else Some (v, negb e, c :: s) else Some (v, negb e, c :: s)) = Some (v', true, rest)) \/
      (base = 10%N /\ exists ds suf hx, float_scan (c :: s) out false false false false = Some (ds, suf, hx, hx) /\ match suf with [] => true | _ => xid_ok suf end = true)).
    { intros Hf Hu. destruct e; [discriminate|]. injection Hf as <-. cbn [negb]. pose proof (number_end_all _ Hn) as Ha. pose proof Ha as [Ha'|(Hok & a & b & Ea & Hs)]; [discriminate|]. injection Ea as <- <-.
      destruct (start_facts c Hs) as (_ & F46 & F45 & F43). rewrite F46, andb_false_r. destruct ((base =? 10)%N && ((c =? 101)%N || (c =? 69)%N)) eqn:Ee; [|eauto].
      destruct (exp_scan s false) eqn:Ex; [|eauto]. apply andb_true_iff in Ee as (E10 & Ee). apply N.eqb_eq in E10. right. split; [exact E10|].
      cbn [xid_ok] in Hok. apply andb_true_iff in Hok as (_ & Hxs). cbn [float_scan]. rewrite Hu, Ed, F46, Ee. cbv zeta.
      destruct (xid_no_sign s Hxs) as (N1 & N2). rewrite N1, N2. cbn [orb].
      destruct (is_digit (first_non_underscore s)) eqn:Edx.
      - destruct (exp_scan_float s (101%N :: out) false false Hxs Ex) as (ds & suf & E1 & E2). exists ds, suf, true. auto.
      - exists (rev out), (c :: s), false. split; [reflexivity|]. cbn [xid_ok]. unfold ident_start in Hs. rewrite Hs, Hxs. reflexivity. }
    destruct ((97 <=? c)%N && (c <=? 102)%N) eqn:El.
    { assert (Hu : (c =? 95)%N = false). { apply andb_true_iff in El as (A & B). apply N.leb_le in A, B. apply N.eqb_neq. lia. }
      apply andb_true_iff in El as (A & B). apply N.leb_le in A, B.
      destruct (10 <? base)%N eqn:E10.
      - assert (base = 16%N) by (apply N.ltb_lt in E10; lia). subst base. assert (Hl : (c - 87 <? 16)%N = true) by (apply N.ltb_lt; lia). rewrite Hl in H |- *.
        assert (A' : (97 <=? c)%N = true) by (apply N.leb_le; lia). assert (B' : (c <=? 102)%N = true) by (apply N.leb_le; lia). rewrite A', B'. cbn [andb].
        destruct (IH false (v * 16 + (c - 87))%N rest (c :: out) H Hn) as [(v' & E)|(E1 & _)]; [left; exists v'; exact E|discriminate E1].
      - cbn [andb]. assert (Hl : (c - 87 <? base)%N = false) by (apply N.ltb_ge in E10; apply N.ltb_ge; lia). rewrite Hl in H. rewrite Hu. apply Fin; [exact H|exact Hu]. }
    destruct ((65 <=? c)%N && (c <=? 70)%N) eqn:Eup.
    { assert (Hu : (c =? 95)%N = false). { apply andb_true_iff in Eup as (A & B). apply N.leb_le in A, B. apply N.eqb_neq. lia. }
      apply andb_true_iff in Eup as (A & B). apply N.leb_le in A, B. assert (L97 : (97 <=? c)%N = false) by (apply N.leb_gt; lia). rewrite L97, andb_false_r. cbn [andb].
      destruct (10 <? base)%N eqn:E10.
      - assert (base = 16%N) by (apply N.ltb_lt in E10; lia). subst base. assert (Hl : (c - 55 <? 16)%N = true) by (apply N.ltb_lt; lia). rewrite Hl in H |- *.
        assert (A' : (65 <=? c)%N = true) by (apply N.leb_le; lia). assert (B' : (c <=? 70)%N = true) by (apply N.leb_le; lia). rewrite A', B'. cbn [andb].
        destruct (IH false (v * 16 + (c - 55))%N rest (c :: out) H Hn) as [(v' & E)|(E1 & _)]; [left; exists v'; exact E|discriminate].
      - cbn [andb]. assert (Hl : (c - 55 <? base)%N = false) by (apply N.ltb_ge in E10; apply N.ltb_ge; lia). rewrite Hl in H. rewrite Hu. apply Fin; [exact H|exact Hu]. }
    rewrite <- !andb_assoc, El, Eup, !andb_false_r. destruct (c =? 95)%N eqn:Eu.
    + destruct (e && (base =? 10)%N); [discriminate|]. destruct (IH e v rest out H Hn) as [E|(E1 & ds & suf & hx & E2 & E3)]; [left; exact E|]. right. split; [exact E1|]. exists ds, suf, hx. split; [|exact E3].
      cbn [float_scan]. rewrite Eu. exact E2.
    + apply Fin; [exact H|reflexivity].
Qed.
Lemma int_reads s : lex_int s = Some [] -> parse_lit_int s <> None \/ parse_lit_float s <> None.
Proof.
  unfold lex_int, digits. intro H.
  assert (Sx : forall x r, strip_prefix [48; x]%N s = Some r -> s = 48%N :: x :: r).
  { intros x r E. destruct s as [|a [|b t]]; cbn [strip_prefix] in E; try discriminate; destruct (N.eqb_spec 48 a) as [<-|]; try discriminate. destruct (N.eqb_spec x b) as [<-|]; [congruence|discriminate]. }
  assert (Pre : forall base r, (base = 2 \/ base = 8 \/ base = 16)%N -> digit_run base r true = None \/ match digit_run base r true with Some r => number_end r | None => None end <> Some [] \/
     exists v suf, int_loop base r 0 false = Some (v, true, suf) /\ match suf with [] => true | _ => xid_ok suf end = true).
  { intros base r Hb. destruct (digit_run base r true) as [rest|] eqn:E; [|auto]. right. destruct (number_end rest) as [[|]|] eqn:En; [|left; discriminate|left; discriminate]. right.
    destruct (digit_run_loop base r ltac:(tauto) true 0%N rest [] E En) as [(v' & Ev)|(E10 & _)]; [|lia]. exists v', rest. split; [exact Ev|]. apply xid_suffix, number_end_all, En. }
  destruct (strip_prefix [48; 120]%N s) as [r|] eqn:E1.
  { apply Sx in E1 as ->. destruct (Pre 16%N r ltac:(tauto)) as [F|[F|(v & suf & F1 & F2)]]; [rewrite F in H; discriminate|contradiction|]. left. cbn [parse_lit_int]. cbn -[int_loop]. rewrite F1, F2. discriminate. }
  destruct (strip_prefix [48; 111]%N s) as [r|] eqn:E2.
  { apply Sx in E2 as ->. destruct (Pre 8%N r ltac:(tauto)) as [F|[F|(v & suf & F1 & F2)]]; [rewrite F in H; discriminate|contradiction|]. left. cbn -[int_loop]. rewrite F1, F2. discriminate. }
  destruct (strip_prefix [48; 98]%N s) as [r|] eqn:E3.
  { apply Sx in E3 as ->. destruct (Pre 2%N r ltac:(tauto)) as [F|[F|(v & suf & F1 & F2)]]; [rewrite F in H; discriminate|contradiction|]. left. cbn -[int_loop]. rewrite F1, F2. discriminate. }
  destruct (digit_run 10 s true) as [rest|] eqn:Er; [|discriminate]. destruct s as [|c r]; [discriminate|].
  assert (Hd : is_digit c = true).
  { cbn [digit_run] in Er. destruct (is_digit c); [reflexivity|]. exfalso. destruct ((97 <=? c)%N && (c <=? 102)%N) eqn:El.
    - apply andb_true_iff in El as (A & B). apply N.leb_le in A, B. replace (c - 87 <? 10)%N with false in Er by (symmetry; apply N.ltb_ge; lia). discriminate.
    - destruct ((65 <=? c)%N && (c <=? 70)%N) eqn:Eup; [apply andb_true_iff in Eup as (A & B); apply N.leb_le in A, B; replace (c - 55 <? 10)%N with false in Er by (symmetry; apply N.ltb_ge; lia); discriminate|].
      destruct (c =? 95)%N; discriminate. }
  destruct (digit_run_loop 10 (c :: r) ltac:(tauto) true 0%N rest [] Er H) as [(v' & Ev)|(_ & ds & suf & hx & F1 & F2)].
  - left. unfold parse_lit_int. rewrite (digit_unsigned c Hd). cbn [negb] in Ev.
    assert (Suf : match rest with [] => true | _ => xid_ok rest end = true) by apply xid_suffix, number_end_all, H.
    assert (Hx : forall x t, r = x :: t -> (c =? 48)%N && (x =? 120)%N = false /\ (c =? 48)%N && (x =? 111)%N = false /\ (c =? 48)%N && (x =? 98)%N = false).
    { intros x t ->. cbn [strip_prefix] in E1, E2, E3. rewrite (N.eqb_sym 48 c) in *. destruct (c =? 48)%N; [|auto]. rewrite (N.eqb_sym 120 x), (N.eqb_sym 111 x), (N.eqb_sym 98 x) in *.
      destruct (x =? 120)%N; [discriminate|]. destruct (x =? 111)%N; [discriminate|]. destruct (x =? 98)%N; [discriminate|]. auto. }
    destruct r as [|x r]; [rewrite Hd, Ev, Suf; discriminate|]. destruct (Hx x r eq_refl) as (X1 & X2 & X3). rewrite X1, X2, X3, Hd, Ev, Suf. discriminate.
  - right. eapply float_end; [exact Hd|exact F1|auto|exact F2].
Qed.
Lemma num_reads s : lex_float s = Some [] \/ lex_int s = Some [] -> exists k, lit_num s = Some k /\ kind_ok k.
Proof.
  intro H. unfold lit_num. destruct (parse_lit_int s) as [(ds, suf)|] eqn:E1; [eexists; split; [reflexivity|exact I]|].
  destruct (parse_lit_float s) as [(ds, suf)|] eqn:E2; [eexists; split; [reflexivity|exact I]|]. exfalso.
  destruct H as [H|H]; [exact (float_reads s H E2)|]. destruct (int_reads s H); congruence.
Qed.

(** ** Every literal *)
Theorem literal_reads r : literal_nocapture r = Some [] -> forallb valid_char r = true -> exists k, lit_new r = Some k /\ kind_ok k.
Proof.
  intros H Hv. unfold literal_nocapture in H.
  assert (P : forall p s x, strip_prefix p s = Some x -> s = p ++ x) by (intros p s x; apply strip_prefix_spec).
  assert (Str : forall d, d <> DC -> lex_string d r = Some [] -> exists k, lit_new r = Some k /\ kind_ok k).
  { intros d Hd Hs. unfold lex_string in Hs. set (p := match d with DStr => [] | DByte => [98%N] | DC => [99%N] end) in *.
    destruct (strip_prefix (p ++ [34%N]) r) as [x|] eqn:E1.
    - apply P in E1. assert (Hx : forallb valid_char x = true) by (rewrite E1, forallb_app in Hv; apply andb_true_iff in Hv; apply Hv).
      destruct (cooked_reads d Hd (List.length x) x [] (S (List.length x)) [] Hs ltac:(lia) Hx eq_refl) as (v & suf & Ec & Hok).
      destruct d; [| |congruence]; cbn [p app] in E1; subst r; cbn [lit_new lit_str lit_byte_str N.eqb Pos.eqb orb is_bytes List.length] in *; rewrite Ec; cbn [option_map fst]; eexists; (split; [reflexivity|exact Hok]).
    - destruct (strip_prefix (p ++ [114%N]) r) as [x|] eqn:E2; [|discriminate]. apply P in E2.
      assert (Hx : forallb valid_char x = true) by (rewrite E2, forallb_app in Hv; apply andb_true_iff in Hv; apply Hv).
      destruct (raw_reads d x Hd Hs Hx) as (v & suf & Ec & Hok).
      destruct d; [| |congruence]; cbn [p app] in E2; subst r; cbn [lit_new lit_str lit_byte_str N.eqb Pos.eqb orb is_bytes List.length] in *; rewrite Ec; cbn [option_map fst]; eexists; (split; [reflexivity|exact Hok]). }
  destruct (lex_string DStr r) eqn:E1; [cbn in H; injection H as ->; apply (Str DStr); [discriminate|exact E1]|]. cbn [orelse] in H.
  destruct (lex_string DByte r) eqn:E2; [cbn in H; injection H as ->; apply (Str DByte); [discriminate|exact E2]|]. cbn [orelse] in H.
  destruct (lex_string DC r) eqn:E3.
  { unfold lex_string in E3. destruct (strip_prefix ([99%N] ++ [34%N]) r) as [x|] eqn:Ex.
    - apply P in Ex. subst r. cbn. eexists. split; [reflexivity|exact I].
    - destruct (strip_prefix ([99%N] ++ [114%N]) r) as [x|] eqn:Ey; [|discriminate]. apply P in Ey. subst r. cbn. eexists. split; [reflexivity|exact I]. }
  cbn [orelse] in H. destruct (lex_byte r) eqn:E4.
  { unfold lex_byte in E4. destruct (strip_prefix [98; 39]%N r) as [x|] eqn:Ex; [|discriminate]. apply P in Ex. assert (Hx : forallb valid_char x = true) by (rewrite Ex, forallb_app in Hv; apply andb_true_iff in Hv; apply Hv).
    destruct (quoted_reads true x _ E4 Hx) as (v & suf & Eq & Hok). subst r. cbn [app lit_new N.eqb Pos.eqb orb]. rewrite Eq. cbn [option_map fst]. eexists. split; [reflexivity|]. apply N.ltb_lt. exact Hok. }
  cbn [orelse] in H. destruct (lex_character r) eqn:E5.
  { unfold lex_character in E5. destruct (strip_prefix [39%N] r) as [x|] eqn:Ex; [|discriminate]. apply P in Ex. assert (Hx : forallb valid_char x = true) by (rewrite Ex, forallb_app in Hv; apply andb_true_iff in Hv; apply Hv).
    destruct (quoted_reads false x _ E5 Hx) as (v & suf & Eq & Hok). subst r. cbn [app lit_new N.eqb Pos.eqb orb]. change (is_digit 39) with false. rewrite Eq. cbn [option_map fst]. eexists. split; [reflexivity|exact Hok]. }
  cbn [orelse] in H.
  assert (Hnum : lex_float r = Some [] \/ lex_int r = Some []) by (destruct (lex_float r) as [x|]; [cbn in H; injection H as ->; auto|auto]).
  destruct (num_reads r Hnum) as (k & Ek & Hk). exists k. split; [|exact Hk].
  assert (Hd : exists c t, r = c :: t /\ is_digit c = true).
  { destruct r as [|c t]; [discriminate|]. exists c, t. split; [reflexivity|]. destruct (literal_first (c :: t) []) as (a & b & Ea & Hc).
    { unfold literal_nocapture. rewrite E1, E2, E3, E4, E5. exact H. }
    injection Ea as <- <-. destruct Hc as [Hc|Hc]; [|exact Hc]. exfalso. clear - Hc Ek. cbn [In] in Hc. unfold lit_num, parse_lit_int, parse_lit_float in Ek.
    repeat (destruct Hc as [<-|Hc]; [cbn in Ek; destruct t; discriminate|]). destruct Hc. }
  destruct Hd as (c & t & -> & Hc). unfold lit_new. rewrite Hc. apply digit_range in Hc.
  assert (N : forall x, (x < 48 \/ 57 < x)%N -> (c =? x)%N = false) by (intros x Hx; apply N.eqb_neq; lia). rewrite !N by lia. cbn [orb]. exact Ek.
Qed.
End LexLit.
