(** * LiteralFacts: decoding undoes encoding. *)
From Verif Require Import Base Float Literal FloatFacts Syn Ast LitSpec.
From Coq Require Import ZifyN ZifyNat ZifyBool.
Open Scope N_scope.

(** Finite case analysis on N by computation. *)
Lemma below_all (f : N -> bool) k :
  forallb f (map N.of_nat (seq 0 k)) = true -> forall d, d < N.of_nat k -> f d = true.
Proof.
  intros H d Hd. rewrite forallb_forall in H. apply H. apply in_map_iff.
  exists (N.to_nat d). split; [lia|]. apply in_seq. lia.
Qed.

Lemma hex_lower_val d : d < 16 -> hex_val (hex_lower d) = Some d.
Proof.
  intro H. pose proof (below_all (fun d => match hex_val (hex_lower d) with Some x => x =? d | None => false end) 16 eq_refl d H) as HH.
  cbn beta in HH. destruct (hex_val (hex_lower d)); [|discriminate]. apply N.eqb_eq in HH. congruence.
Qed.
Lemma hex_upper_val d : d < 16 -> hex_val (hex_upper d) = Some d.
Proof.
  intro H. pose proof (below_all (fun d => match hex_val (hex_upper d) with Some x => x =? d | None => false end) 16 eq_refl d H) as HH.
  cbn beta in HH. destruct (hex_val (hex_upper d)); [|discriminate]. apply N.eqb_eq in HH. congruence.
Qed.

Lemma show_hex_spec fuel : forall n acc, n < 16 ^ N.of_nat fuel ->
  exists ds, show_hex fuel n acc = map hex_lower ds ++ acc /\ (List.length ds <= fuel)%nat /\
    (fuel <> 0%nat -> ds <> []) /\ Forall (fun d => d < 16) ds /\
    forall v, fold_left (fun v d => v * 16 + d) ds v = v * 16 ^ N.of_nat (List.length ds) + n.
Proof.
  induction fuel as [|f IH]; intros n acc Hn.
  - exists []. cbn in Hn. assert (n = 0) as -> by lia. repeat split; auto; cbn; intros; lia.
  - cbn [show_hex]. destruct (N.ltb_spec n 16) as [Hl|Hl].
    + exists [n]. split; [reflexivity|]. split; [cbn; lia|]. split; [discriminate|]. split; [auto|].
      intro v. cbn [fold_left List.length]. change (N.of_nat 1) with 1. lia.
    + destruct (IH (n / 16) (hex_lower (n mod 16) :: acc)) as (ds & Hs & Hle & _ & Hd & Hv).
      { apply N.div_lt_upper_bound; [lia|]. rewrite Nat2N.inj_succ, N.pow_succ_r' in Hn. lia. }
      exists (ds ++ [n mod 16]). rewrite Hs, map_app, <- app_assoc. split; [reflexivity|].
      rewrite app_length. cbn [List.length]. split; [lia|]. split; [intros _; destruct ds; discriminate|].
      split.
      * apply Forall_app. split; [exact Hd|]. constructor; [apply N.mod_lt; lia|constructor].
      * intro v. rewrite fold_left_app, Hv. cbn [fold_left].
        rewrite Nat.add_1_r, Nat2N.inj_succ, N.pow_succ_r'. pose proof (N.div_mod n 16 ltac:(lia)). lia.
Qed.
(** more fuel changes nothing once the digits are used up *)
Lemma show_hex_fuel f : forall g n acc, n < 16 ^ N.of_nat f -> (1 <= f <= g)%nat -> show_hex g n acc = show_hex f n acc.
Proof.
  induction f as [|f IH]; intros g n acc Hn Hg; [lia|]. destruct g as [|g]; [lia|]. cbn [show_hex].
  destruct (N.ltb_spec n 16) as [|Hl]; [reflexivity|]. destruct f as [|f]; [cbn in Hn; lia|].
  apply IH; [|lia]. apply N.div_lt_upper_bound; [lia|]. rewrite Nat2N.inj_succ, N.pow_succ_r' in Hn. lia.
Qed.

Lemma backslash_u_digits ds : forall v k rest, Forall (fun d => d < 16) ds -> (k + List.length ds <= 6)%nat ->
  backslash_u_loop (map hex_lower ds ++ rest) v k =
  backslash_u_loop rest (fold_left (fun v d => v * 16 + d) ds v) (k + List.length ds).
Proof.
  induction ds as [|d ds IH]; intros v k rest Hd Hk.
  - cbn. rewrite Nat.add_0_r. reflexivity.
  - inversion Hd as [|? ? H1 H2]; subst. cbn [map app List.length fold_left backslash_u_loop] in *.
    rewrite (hex_lower_val d H1). replace (Nat.eqb k 6) with false by lia.
    rewrite IH by (assumption || lia). f_equal. lia.
Qed.
Lemma backslash_u_escape (c : char) (rest : text) : valid_char c = true ->
  backslash_u (123 :: (show_hex 8 c [] ++ 125 :: rest : text)) = Some (c, rest).
Proof.
  intro Hv. assert (Hc : c < 16 ^ N.of_nat 6) by (unfold valid_char in Hv; cbn; lia).
  rewrite (show_hex_fuel 6 8 c [] Hc) by lia.
  destruct (show_hex_spec 6 c [] Hc) as (ds & -> & Hle & Hne & Hd & Hval). rewrite app_nil_r.
  cbn [app backslash_u]. change (123 =? 123) with true. cbn [app].
  rewrite backslash_u_digits by (assumption || lia). rewrite Hval. cbn [backslash_u_loop].
  change (hex_val 125) with (@None N). change (125 =? 95) with false. change (125 =? 125) with true.
  assert (0 < List.length ds)%nat. { destruct ds; [exfalso; apply Hne; [discriminate|reflexivity]|cbn; lia]. }
  replace (Nat.ltb 0 (0 + List.length ds)) with true by lia. cbn [andb].
  replace (0 * 16 ^ N.of_nat (List.length ds) + c) with c by lia. rewrite Hv. reflexivity.
Qed.

Section Literals.
Context {U : unicode}.

(** ** Strings. *)
Lemma cooked_raw f bytes c rest out : c <> 34 -> c <> 92 -> c <> 13 -> (bytes = true -> c < 128) ->
  cooked (S f) bytes (c :: rest) out = cooked f bytes rest (c :: out).
Proof.
  intros H1 H2 H3 H4. cbn [cooked]. apply N.eqb_neq in H1, H2, H3. rewrite H1, H2, H3.
  destruct bytes; cbn [andb]; [|reflexivity]. specialize (H4 eq_refl).
  replace (c <? 128) with true by lia. reflexivity.
Qed.
Lemma cooked_simple f bytes b c rest out : simple_escape b = Some c -> b <> 120 -> b <> 117 ->
  cooked (S f) bytes (92 :: b :: rest) out = cooked f bytes rest (c :: out).
Proof.
  intros H1 H2 H3. cbn [cooked]. change (92 =? 34) with false. change (92 =? 92) with true.
  apply N.eqb_neq in H2, H3. rewrite H2, H3. cbn [andb]. rewrite H1. reflexivity.
Qed.

Lemma cooked_escape_debug f c rest out : valid_char c = true ->
  cooked (S f) false (escape_debug c ++ rest) out = cooked f false rest (c :: out).
Proof.
  intro Hv. unfold escape_debug.
  destruct (N.eqb_spec c 0) as [->|]; [reflexivity|].
  destruct (N.eqb_spec c 9) as [->|]; [reflexivity|].
  destruct (N.eqb_spec c 13) as [->|]; [reflexivity|].
  destruct (N.eqb_spec c 10) as [->|]; [reflexivity|].
  destruct (N.eqb_spec c 39) as [->|]; [reflexivity|].
  destruct (N.eqb_spec c 34) as [->|]; [reflexivity|].
  destruct (N.eqb_spec c 92) as [->|]; [reflexivity|]. cbn [orb].
  destruct (if c <? 128 then _ else _) eqn:Hp.
  - cbn [app]. apply cooked_raw; (assumption || discriminate).
  - unfold escape_unicode. cbn [app cooked]. change (92 =? 34) with false. change (92 =? 92) with true.
    change (117 =? 120) with false. change (117 =? 117) with true. cbn [negb andb].
    pose proof (backslash_u_escape c rest Hv) as Hb. cbn [app] in Hb.
    rewrite <- app_assoc. cbn [app]. rewrite Hb. reflexivity.
Qed.

Lemma escape_utf8_length s : (List.length s <= List.length (escape_utf8 s))%nat.
Proof.
  induction s as [|c r IH]; [cbn; lia|]. cbn [escape_utf8]. rewrite app_length. cbn [List.length].
  match goal with |- (_ <= List.length ?x + _)%nat => assert (1 <= List.length x)%nat; [|lia] end.
  destruct (c =? 0); [destruct (octal_next r); cbn; lia|]. destruct (c =? 39); [cbn; lia|].
  unfold escape_debug, escape_unicode.
  repeat match goal with |- context [if ?b then _ else _] => destruct b end; cbn; lia.
Qed.

Lemma cooked_escape_utf8 s : forall f out rest, forallb valid_char s = true -> (List.length s < f)%nat ->
  cooked f false (escape_utf8 s ++ 34 :: rest) out = Some (rev out ++ s, rest).
Proof.
  induction s as [|c r IH]; intros f out rest Hv Hf.
  - destruct f; [lia|]. cbn. rewrite app_nil_r. reflexivity.
  - cbn in Hv. apply andb_true_iff in Hv as (Hc & Hr). cbn [List.length] in Hf. destruct f as [|f]; [lia|].
    cbn [escape_utf8]. rewrite <- app_assoc.
    replace (rev out ++ c :: r) with (rev (c :: out) ++ r) by (cbn; rewrite <- app_assoc; reflexivity).
    destruct (N.eqb_spec c 0) as [->|].
    { destruct (octal_next r); cbn [app]; (rewrite <- (IH f (0 :: out) rest Hr ltac:(lia)); reflexivity). }
    destruct (N.eqb_spec c 39) as [->|].
    { rewrite <- (IH f (39 :: out) rest Hr ltac:(lia)). cbn [app]. apply cooked_raw; discriminate. }
    rewrite cooked_escape_debug by exact Hc. apply IH; [exact Hr|lia].
Qed.
Lemma lit_new_show_str s : forallb valid_char s = true -> lit_new (show_str s) = Some (KStr s).
Proof.
  intro Hv. unfold show_str. cbn [app lit_new]. change (34 =? 34) with true. cbn [orb lit_str].
  change (34 =? 34) with true. rewrite cooked_escape_utf8; [reflexivity|exact Hv|].
  cbn [List.length]. rewrite app_length. pose proof (escape_utf8_length s). lia.
Qed.

(** ** Characters. *)
Lemma quoted_escape_debug c : valid_char c = true -> c <> 34 ->
  quoted_char false (escape_debug c ++ [39]) = Some (c, []).
Proof.
  intros Hv H34. unfold escape_debug.
  destruct (N.eqb_spec c 0) as [->|]; [reflexivity|].
  destruct (N.eqb_spec c 9) as [->|]; [reflexivity|].
  destruct (N.eqb_spec c 13) as [->|]; [reflexivity|].
  destruct (N.eqb_spec c 10) as [->|]; [reflexivity|].
  destruct (N.eqb_spec c 39) as [->|]; [reflexivity|].
  destruct (N.eqb_spec c 34) as [->|]; [reflexivity|].
  destruct (N.eqb_spec c 92) as [->|Hn92]; [reflexivity|]. cbn [orb].
  destruct (if c <? 128 then _ else _) eqn:Hp.
  - cbn [app quoted_char]. apply N.eqb_neq in Hn92. rewrite Hn92. reflexivity.
  - unfold escape_unicode. cbn [app quoted_char]. change (92 =? 92) with true.
    change (117 =? 120) with false. change (117 =? 117) with true. cbn [negb andb].
    pose proof (backslash_u_escape c [39] Hv) as Hb. cbn [app] in Hb.
    rewrite <- app_assoc. cbn [app]. rewrite Hb. reflexivity.
Qed.
Lemma lit_new_show_char c : valid_char c = true -> lit_new (show_char c) = Some (KChar c).
Proof.
  intro Hv. unfold show_char. cbn [app lit_new]. change (39 =? 34) with false. change (39 =? 114) with false.
  change (39 =? 98) with false. change (39 =? 99) with false. change (39 =? 40) with false. change (39 =? 39) with true. cbn [orb].
  destruct (N.eqb_spec c 34) as [->|Hn]; [reflexivity|]. rewrite quoted_escape_debug by assumption. reflexivity.
Qed.

(** ** Byte strings and bytes. *)
Lemma escape_bytes_length s : (List.length s <= List.length (escape_bytes s))%nat.
Proof.
  induction s as [|c r IH]; [cbn; lia|]. cbn [escape_bytes]. rewrite app_length. cbn [List.length].
  match goal with |- (_ <= List.length ?x + _)%nat => assert (1 <= List.length x)%nat; [|lia] end.
  destruct (c =? 0); [destruct (octal_next r); cbn; lia|].
  repeat match goal with |- context [if ?b then _ else _] => destruct b end; cbn; lia.
Qed.
Lemma cooked_escape_bytes s : forall f out rest, forallb (fun b => b <? 256) s = true -> (List.length s < f)%nat ->
  cooked f true (escape_bytes s ++ 34 :: rest) out = Some (rev out ++ s, rest).
Proof.
  induction s as [|c r IH]; intros f out rest Hv Hf.
  - destruct f; [lia|]. cbn. rewrite app_nil_r. reflexivity.
  - cbn in Hv. apply andb_true_iff in Hv as (Hc & Hr). cbn [List.length] in Hf. destruct f as [|f]; [lia|].
    cbn [escape_bytes]. rewrite <- app_assoc.
    replace (rev out ++ c :: r) with (rev (c :: out) ++ r) by (cbn; rewrite <- app_assoc; reflexivity).
    rewrite <- (IH f (c :: out) rest Hr ltac:(lia)).
    destruct (N.eqb_spec c 0) as [->|]; [destruct (octal_next r); reflexivity|].
    destruct (N.eqb_spec c 9) as [->|]; [reflexivity|].
    destruct (N.eqb_spec c 10) as [->|]; [reflexivity|].
    destruct (N.eqb_spec c 13) as [->|]; [reflexivity|].
    destruct (N.eqb_spec c 34) as [->|]; [reflexivity|].
    destruct (N.eqb_spec c 92) as [->|]; [reflexivity|].
    destruct ((32 <=? c) && (c <=? 126)) eqn:Hp.
    + cbn [app]. apply cooked_raw; try assumption. intros _. lia.
    + cbn [app cooked]. change (92 =? 34) with false. change (92 =? 92) with true. change (120 =? 120) with true.
      cbn [backslash_x]. rewrite !hex_upper_val; [|apply N.mod_lt; lia|apply N.div_lt_upper_bound; lia].
      cbn [orb]. replace (c / 16 * 16 + c mod 16) with c; [reflexivity|].
      pose proof (N.div_mod c 16 ltac:(lia)). lia.
Qed.
Lemma lit_new_show_byte_str s : forallb (fun b => b <? 256) s = true -> lit_new (show_byte_str s) = Some (KByteStr s).
Proof.
  intro Hv. unfold show_byte_str. cbn [app lit_new]. change (98 =? 34) with false. change (98 =? 114) with false.
  change (98 =? 98) with true. change (34 =? 34) with true. cbn [orb lit_byte_str].
  change (34 =? 34) with true. rewrite cooked_escape_bytes; [reflexivity|exact Hv|].
  cbn [List.length]. rewrite app_length. pose proof (escape_bytes_length s). lia.
Qed.

(** all 256 byte values *)
Lemma lit_new_byte b : b < 256 -> exists r, lit_byte_repr b = Some r /\ lit_new r = Some (KByte b).
Proof.
  intro H.
  pose proof (below_all (fun b => match lit_byte_repr b with
     | Some r => match lit_new r with Some (KByte x) => x =? b | _ => false end
     | None => false end) 256 ltac:(vm_compute; reflexivity) b H) as HH. cbn beta in HH.
  destruct (lit_byte_repr b) as [r|]; [|discriminate]. exists r. split; [reflexivity|].
  destruct (lit_new r) as [[]|]; try discriminate. apply N.eqb_eq in HH. congruence.
Qed.

(** ** Integers. *)
Lemma hex_val_cases c d : hex_val c = Some d ->
  (is_digit c = true /\ d = digit_val c) \/
  (is_digit c = false /\ 97 <= c <= 102 /\ d = c - 87) \/
  (is_digit c = false /\ 65 <= c <= 70 /\ d = c - 55).
Proof.
  unfold hex_val. destruct (is_digit c) eqn:E1; [intro H; injection H as <-; auto|].
  destruct ((97 <=? c) && (c <=? 102)) eqn:E2; [intro H; injection H as <-; right; left; repeat split; lia|].
  destruct ((65 <=? c) && (c <=? 70)) eqn:E3; [intro H; injection H as <-; right; right; repeat split; lia|discriminate].
Qed.
Lemma radix_digit_lt base c d : is_radix base -> radix_digit base c = Some d -> d < base.
Proof.
  unfold radix_digit. intros Hr H. destruct (N.eqb_spec base 16) as [->|].
  - apply hex_val_cases in H. unfold is_digit, digit_val in H. lia.
  - destruct (is_digit c && (digit_val c <? base)) eqn:E; [|discriminate]. injection H as <-. lia.
Qed.
Lemma not_underscore base c d : radix_digit base c = Some d -> c <> 95.
Proof.
  unfold radix_digit. destruct (base =? 16).
  - intro H. apply hex_val_cases in H. unfold is_digit in H. lia.
  - destruct (is_digit c && _) eqn:E; [|discriminate]. unfold is_digit in E. lia.
Qed.

Lemma int_loop_digit base c r value has d : is_radix base -> radix_digit base c = Some d ->
  int_loop base (c :: r) value has = int_loop base r (value * base + d) true.
Proof.
  intros Hr Hd. pose proof (radix_digit_lt _ _ _ Hr Hd) as Hlt. cbn [int_loop]. unfold radix_digit in Hd.
  apply N.ltb_lt in Hlt.
  destruct (N.eqb_spec base 16) as [->|Hn].
  - apply hex_val_cases in Hd as [(H1 & ->)|[(H1 & H2 & ->)|(H1 & H2 & ->)]]; rewrite H1.
    + rewrite Hlt. reflexivity.
    + change (10 <? 16) with true. replace (97 <=? c) with true by lia. replace (c <=? 102) with true by lia.
      cbn [andb]. rewrite Hlt. reflexivity.
    + change (10 <? 16) with true. replace (97 <=? c) with false by lia. replace (c <=? 70) with true by lia.
      replace (65 <=? c) with true by lia. cbn [andb]. rewrite Hlt. reflexivity.
  - destruct (is_digit c); cbn [andb] in Hd; [|discriminate].
    destruct (digit_val c <? base); [|discriminate]. injection Hd as <-. reflexivity.
Qed.
Lemma int_loop_body base s : is_radix base -> forall value has n sfx, body_value base value s = Some n ->
  int_loop base (s ++ sfx) value has = int_loop base sfx n (has || has_digit base s).
Proof.
  intro Hr. induction s as [|c r IH]; intros value has n sfx H.
  - cbn in H. injection H as <-. cbn. rewrite orb_false_r. reflexivity.
  - cbn [body_value] in H. cbn [app has_digit existsb]. destruct (N.eqb_spec c 95) as [->|Hc].
    + replace (radix_digit base 95) with (@None N).
      2:{ destruct (radix_digit base 95) as [x|] eqn:E; [|reflexivity]. apply not_underscore in E. lia. }
      cbn [orb]. cbn [int_loop]. change (is_digit 95) with false. change (97 <=? 95) with false. change (95 <=? 70) with false.
      rewrite !andb_false_r. cbn [andb]. change (95 =? 95) with true. apply IH. exact H.
    + destruct (radix_digit base c) as [d|] eqn:Hd; [|discriminate]. rewrite (int_loop_digit _ _ _ _ _ _ Hr Hd).
      rewrite (IH _ _ _ _ H). cbn [orb]. rewrite orb_true_r. reflexivity.
Qed.
Lemma int_loop_suffix base sfx value has : is_radix base -> suffix_ok base sfx = true ->
  int_loop base sfx value has = Some (value, has, sfx).
Proof.
  intros Hr H. destruct sfx as [|c r]; [reflexivity|]. cbn [suffix_ok] in H. rewrite !andb_true_iff in H.
  destruct H as (((Hx & H95) & H16) & He).
  assert (Hnd : is_digit c = false).
  { cbn [xid_ok] in Hx. apply andb_true_iff in Hx as (Hx & _). unfold xid_start, is_alpha, is_lower, is_upper, is_digit in *.
    destruct (c <? 128) eqn:E; lia. }
  cbn [int_loop]. rewrite Hnd.
  assert (Hl : (10 <? base) && (97 <=? c) && (c <=? 102) = false /\ (10 <? base) && (65 <=? c) && (c <=? 70) = false).
  { unfold radix_digit in H16. change (16 =? 16) with true in H16. unfold hex_val in H16. rewrite Hnd in H16.
    destruct Hr as [->|[->|[->| ->]]]; try (cbn; auto; fail). change (16 =? 16) with true in H16. cbn [negb] in H16.
    destruct ((97 <=? c) && (c <=? 102)) eqn:E1; [discriminate|]. destruct ((65 <=? c) && (c <=? 70)) eqn:E2; [discriminate|].
    cbn [andb N.ltb]. change (10 <? 16) with true. cbn [andb]. rewrite E1, E2. auto. }
  destruct Hl as (-> & ->). apply negb_true_iff in H95. rewrite H95.
  assert (Hdot : (c =? 46) = false).
  { cbn [xid_ok] in Hx. apply andb_true_iff in Hx as (Hx & _). unfold xid_start, is_alpha, is_lower, is_upper in *.
    destruct (c <? 128) eqn:E; lia. }
  rewrite Hdot, andb_false_r. apply negb_true_iff in He. rewrite He. reflexivity.
Qed.

Lemma int_spelling_head repr n : int_spelling repr n -> exists c r, repr = c :: r /\ is_digit c = true.
Proof.
  intros (base & ds & sfx & Hr & -> & _ & _ & _ & Hb).
  destruct Hr as [->|[->|[->| ->]]]; cbn; eauto.
  specialize (Hb eq_refl) as (Hd & _). destruct ds as [|c ds]; [contradiction|]. cbn. eauto.
Qed.

Lemma parse_lit_int_spelling repr n : int_spelling repr n -> forall neg : bool,
  exists sfx, parse_lit_int ((if neg then [45] else []) ++ repr) = Some ((if neg then [45] else []) ++ dec n, sfx).
Proof.
  intros Hs neg. destruct (int_spelling_head _ _ Hs) as (c0 & r0 & Hc0 & Hd0).
  destruct Hs as (base & ds & sfx & Hr & Hrepr & Hv & Hh & Hsfx & Hb). exists sfx.
  assert (Hrun : match int_loop base (ds ++ sfx) 0 false with
    | Some (v, true, suffix) =>
        if (match suffix with [] => true | _ => xid_ok suffix end)
        then Some ((if neg then [45] else []) ++ dec v, suffix)
        else None
    | _ => None
    end = Some ((if neg then [45] else []) ++ dec n, sfx)).
  { rewrite (int_loop_body base ds Hr 0 false n sfx Hv), Hh. cbn [orb]. rewrite (int_loop_suffix base sfx n true Hr Hsfx).
    destruct sfx as [|c r]; [reflexivity|]. cbn [suffix_ok] in Hsfx. rewrite !andb_true_iff in Hsfx.
    destruct Hsfx as (((Hx & _) & _) & _). rewrite Hx. reflexivity. }
  assert (Hmain : match repr with
  | c :: x :: r =>
      if (c =? 48)%N && (x =? 120)%N then match int_loop 16 r 0 false with
    | Some (v, true, suffix) =>
        if (match suffix with [] => true | _ => xid_ok suffix end)
        then Some ((if neg then [45] else []) ++ dec v, suffix)
        else None
    | _ => None
    end
      else if (c =? 48)%N && (x =? 111)%N then match int_loop 8 r 0 false with
    | Some (v, true, suffix) =>
        if (match suffix with [] => true | _ => xid_ok suffix end)
        then Some ((if neg then [45] else []) ++ dec v, suffix)
        else None
    | _ => None
    end
      else if (c =? 48)%N && (x =? 98)%N then match int_loop 2 r 0 false with
    | Some (v, true, suffix) =>
        if (match suffix with [] => true | _ => xid_ok suffix end)
        then Some ((if neg then [45] else []) ++ dec v, suffix)
        else None
    | _ => None
    end
      else if is_digit c then match int_loop 10 repr 0 false with
    | Some (v, true, suffix) =>
        if (match suffix with [] => true | _ => xid_ok suffix end)
        then Some ((if neg then [45] else []) ++ dec v, suffix)
        else None
    | _ => None
    end else None
  | [c] => if is_digit c then match int_loop 10 repr 0 false with
    | Some (v, true, suffix) =>
        if (match suffix with [] => true | _ => xid_ok suffix end)
        then Some ((if neg then [45] else []) ++ dec v, suffix)
        else None
    | _ => None
    end else None
  | [] => None
  end = Some ((if neg then [45] else []) ++ dec n, sfx)).
  { destruct Hr as [->|[->|[->| ->]]].
    - rewrite Hrepr. exact Hrun.
    - rewrite Hrepr. exact Hrun.
    - change (radix_prefix 10) with (@nil char) in Hrepr. cbn [app] in Hrepr. rewrite <- Hrepr in Hrun.
      destruct (Hb eq_refl) as (_ & Hx). rewrite Hc0 in *. destruct r0 as [|x r]; rewrite Hd0; [exact Hrun|].
      destruct (N.eqb_spec c0 48) as [->|]; cbn [andb]; [|exact Hrun].
      specialize (Hx x r eq_refl). destruct Hx as (H1 & H2 & H3).
      apply N.eqb_neq in H1, H2, H3. rewrite H1, H2, H3. exact Hrun.
    - rewrite Hrepr. exact Hrun. }
  unfold parse_lit_int. destruct neg; cbn [app].
  - change (45 =? 45) with true. exact Hmain.
  - rewrite Hc0 in Hmain |- *. rewrite (not_minus c0 Hd0). exact Hmain.
Qed.

(** decimal numbers are integer literals *)
Lemma radix10 c : is_digit c = true -> radix_digit 10 c = Some (digit_val c).
Proof.
  intro H. unfold radix_digit. change (10 =? 16) with false. cbn [andb]. rewrite H. cbn [andb].
  replace (digit_val c <? 10) with true; [reflexivity|]. unfold is_digit, digit_val in *. lia.
Qed.
Lemma body_value_digits ds : forallb is_digit ds = true -> forall acc, body_value 10 acc ds = Some (read_digits acc ds).
Proof.
  induction ds as [|c r IH]; intros Hd acc; [reflexivity|]. cbn in Hd. apply andb_true_iff in Hd as (Hc & Hd).
  cbn [body_value]. replace (c =? 95) with false by (unfold is_digit in Hc; lia). rewrite (radix10 c Hc), IH by exact Hd.
  reflexivity.
Qed.
Lemma digits_spelling ds : ds <> [] -> forallb is_digit ds = true -> int_spelling ds (read_digits 0 ds).
Proof.
  intros Hne Hd. exists 10, ds, []. split; [unfold is_radix; auto|]. split; [cbn; rewrite app_nil_r; reflexivity|].
  split; [apply body_value_digits; exact Hd|]. destruct ds as [|c r]; [congruence|].
  cbn in Hd. apply andb_true_iff in Hd as (Hc & Hd).
  split; [cbn [has_digit existsb]; rewrite (radix10 c Hc); reflexivity|]. split; [reflexivity|]. intros _. split; [exact Hc|].
  intros x r' H. injection H as -> ->. cbn in Hd. apply andb_true_iff in Hd as (Hx & _). unfold is_digit in Hx. lia.
Qed.
Lemma dec_spelling n : int_spelling (dec n) n.
Proof.
  rewrite <- (read_dec n) at 2. apply digits_spelling; [apply dec_nonempty|apply dec_digits].
Qed.

Lemma lit_new_number (c : char) r : is_digit c = true -> lit_new (c :: r) = lit_num (c :: r).
Proof.
  intro Hd. cbn [lit_new]. rewrite Hd. assert (48 <= c <= 57) by (unfold is_digit in Hd; lia).
  replace (c =? 34) with false by lia. replace (c =? 114) with false by lia. replace (c =? 98) with false by lia.
  replace (c =? 99) with false by lia. replace (c =? 40) with false by lia. replace (c =? 39) with false by lia. reflexivity.
Qed.
Lemma lit_new_int repr n : int_spelling repr n -> lit_new repr = Some (KInt (dec n)).
Proof.
  intro H. destruct (int_spelling_head _ _ H) as (c & r & -> & Hd). rewrite (lit_new_number c r Hd).
  destruct (parse_lit_int_spelling _ _ H false) as (sfx & Hp). cbn [app] in Hp. unfold lit_num. rewrite Hp. reflexivity.
Qed.
Lemma lit_num_neg_int repr n : int_spelling repr n -> lit_num (45 :: repr) = Some (KInt (45 :: dec n)).
Proof.
  intro H. destruct (parse_lit_int_spelling _ _ H true) as (sfx & Hp). cbn [app] in Hp. unfold lit_num. rewrite Hp. reflexivity.
Qed.

(** ** Conversely, what is accepted as an integer literal has the value of its digits. *)
Lemma int_loop_inv base s : is_radix base -> forall value has v h sfx, int_loop base s value has = Some (v, h, sfx) ->
  exists ds, s = ds ++ sfx /\ body_value base value ds = Some v /\ h = has || has_digit base ds.
Proof.
  intro Hr. induction s as [|c r IH]; intros value has v h sfx H.
  - cbn in H. injection H as <- <- <-. exists []. cbn. rewrite orb_false_r. auto.
  - cbn [int_loop] in H.
    assert (Hdig : forall d, radix_digit base c = Some d -> int_loop base r (value * base + d) true = Some (v, h, sfx) ->
      exists ds, c :: r = ds ++ sfx /\ body_value base value ds = Some v /\ h = has || has_digit base ds).
    { intros d Hd Hl. apply IH in Hl as (ds & -> & Hv & ->). exists (c :: ds). split; [reflexivity|].
      cbn [body_value has_digit existsb]. pose proof (not_underscore _ _ _ Hd) as Hn. apply N.eqb_neq in Hn. rewrite Hn, Hd.
      split; [exact Hv|]. cbn [orb]. rewrite orb_true_r. reflexivity. }
    destruct (is_digit c) eqn:E1.
    { destruct (digit_val c <? base) eqn:El; [|discriminate]. eapply Hdig; [|exact H]. unfold radix_digit.
      destruct (base =? 16); [unfold hex_val; rewrite E1; reflexivity|]. rewrite E1, El. reflexivity. }
    destruct ((10 <? base) && (97 <=? c) && (c <=? 102)) eqn:E2.
    { destruct (c - 87 <? base) eqn:El; [|discriminate]. eapply Hdig; [|exact H].
      assert (base = 16) as -> by (unfold is_radix in Hr; lia). unfold radix_digit. change (16 =? 16) with true.
      unfold hex_val. rewrite E1. replace ((97 <=? c) && (c <=? 102)) with true by lia. reflexivity. }
    destruct ((10 <? base) && (65 <=? c) && (c <=? 70)) eqn:E3.
    { destruct (c - 55 <? base) eqn:El; [|discriminate]. eapply Hdig; [|exact H].
      assert (base = 16) as -> by (unfold is_radix in Hr; lia). unfold radix_digit. change (16 =? 16) with true.
      unfold hex_val. rewrite E1. replace ((97 <=? c) && (c <=? 102)) with false by lia.
      replace ((65 <=? c) && (c <=? 70)) with true by lia. reflexivity. }
    destruct (N.eqb_spec c 95) as [->|].
    { apply IH in H as (ds & -> & Hv & ->). exists (95 :: ds). split; [reflexivity|]. cbn [body_value has_digit existsb].
      change (95 =? 95) with true. split; [exact Hv|].
      destruct (radix_digit base 95) eqn:E; [apply not_underscore in E; lia|]. reflexivity. }
    assert (Hstop : Some (value, has, c :: r) = Some (v, h, sfx) ->
      exists ds, c :: r = ds ++ sfx /\ body_value base value ds = Some v /\ h = has || has_digit base ds).
    { intro HH. injection HH as <- <- <-. exists []. cbn. rewrite orb_false_r. auto. }
    destruct ((base =? 10) && (c =? 46)); [discriminate|].
    destruct ((base =? 10) && ((c =? 101) || (c =? 69))); [|apply Hstop; exact H].
    destruct (exp_scan r false); [discriminate|apply Hstop; exact H].
Qed.

Lemma parse_lit_int_inv repr ds sfx : parse_lit_int repr = Some (ds, sfx) ->
  exists (neg : bool) base body n, is_radix base /\ repr = sign neg ++ radix_prefix base ++ body ++ sfx /\
    body_value base 0 body = Some n /\ has_digit base body = true /\ ds = sign neg ++ dec n.
Proof.
  unfold parse_lit_int. intro H.
  assert (Hs : exists neg s, repr = sign neg ++ s /\
    (let run base s :=
    match int_loop base s 0 false with
    | Some (v, true, suffix) =>
        if (match suffix with [] => true | _ => xid_ok suffix end)
        then Some (sign neg ++ dec v, suffix)
        else None
    | _ => None
    end in
  match s with
  | c :: x :: r =>
      if (c =? 48)%N && (x =? 120)%N then run 16%N r
      else if (c =? 48)%N && (x =? 111)%N then run 8%N r
      else if (c =? 48)%N && (x =? 98)%N then run 2%N r
      else if is_digit c then run 10%N s else None
  | [c] => if is_digit c then run 10%N s else None
  | [] => None
  end) = Some (ds, sfx)).
  { destruct repr as [|c r]; [discriminate|]. destruct (N.eqb_spec c 45) as [->|].
    - exists true, r. split; [reflexivity|]. exact H.
    - exists false, (c :: r). split; [reflexivity|]. exact H. }
  clear H. destruct Hs as (neg & s & -> & H). cbn zeta in H.
  assert (Hrun : forall base s, is_radix base -> match int_loop base s 0 false with
    | Some (v, true, suffix) =>
        if (match suffix with [] => true | _ => xid_ok suffix end)
        then Some (sign neg ++ dec v, suffix)
        else None
    | _ => None
    end = Some (ds, sfx) -> exists body n, s = body ++ sfx /\ body_value base 0 body = Some n /\ has_digit base body = true /\ ds = sign neg ++ dec n).
  { clear H. intros base s' Hr H. destruct (int_loop base s' 0 false) as [((v, h), sf)|] eqn:El; [|discriminate].
    destruct h; [|discriminate]. destruct (match sf with [] => true | _ => xid_ok sf end); [|discriminate]. injection H as <- <-.
    apply (int_loop_inv base s' Hr) in El as (body & -> & Hv & Hh). cbn [orb] in Hh. eauto 8. }
  assert (Hfin : forall base s0, is_radix base -> s = radix_prefix base ++ s0 -> match int_loop base s0 0 false with
    | Some (v, true, suffix) =>
        if (match suffix with [] => true | _ => xid_ok suffix end)
        then Some (sign neg ++ dec v, suffix)
        else None
    | _ => None
    end = Some (ds, sfx) -> exists (neg0 : bool) base body n, is_radix base /\ sign neg ++ s = sign neg0 ++ radix_prefix base ++ body ++ sfx /\
    body_value base 0 body = Some n /\ has_digit base body = true /\ ds = sign neg0 ++ dec n).
  { intros base s0 Hr -> Hm. apply (Hrun base s0 Hr) in Hm as (body & n & -> & Hv & Hh & ->). exists neg, base, body, n. auto. }
  destruct s as [|c [|x r]]; [discriminate| |].
  - destruct (is_digit c); [|discriminate]. eapply (Hfin 10); [unfold is_radix; auto|reflexivity|exact H].
  - destruct ((c =? 48) && (x =? 120)) eqn:E1.
    { eapply (Hfin 16 r); [unfold is_radix; auto| |exact H]. replace c with 48 by lia. replace x with 120 by lia. reflexivity. }
    destruct ((c =? 48) && (x =? 111)) eqn:E2.
    { eapply (Hfin 8 r); [unfold is_radix; auto| |exact H]. replace c with 48 by lia. replace x with 111 by lia. reflexivity. }
    destruct ((c =? 48) && (x =? 98)) eqn:E3.
    { eapply (Hfin 2 r); [unfold is_radix; auto| |exact H]. replace c with 48 by lia. replace x with 98 by lia. reflexivity. }
    destruct (is_digit c); [|discriminate]. eapply (Hfin 10); [unfold is_radix; auto|reflexivity|exact H].
Qed.

Lemma lit_num_int repr ds : lit_num repr = Some (KInt ds) ->
  exists neg n, ds = sign neg ++ dec n /\ exists sfx, parse_lit_int repr = Some (ds, sfx).
Proof.
  unfold lit_num. destruct (parse_lit_int repr) as [(d, sfx)|] eqn:E.
  - intro H. injection H as <-. destruct (parse_lit_int_inv _ _ _ E) as (neg & base & body & n & _ & _ & _ & _ & ->). eauto 6.
  - destruct (parse_lit_float repr) as [(d, ?)|]; discriminate.
Qed.
Lemma lit_new_int_inv repr ds : lit_new repr = Some (KInt ds) -> lit_num repr = Some (KInt ds).
Proof.
  destruct repr as [|c r]; [discriminate|]. unfold lit_new.
  destruct ((c =? 34) || (c =? 114)); [destruct (lit_str _); discriminate|].
  destruct (c =? 98). { destruct r as [|x r]; [discriminate|]. destruct ((x =? 34) || (x =? 114)); [destruct (lit_byte_str _); discriminate|].
    destruct (x =? 39); [destruct (quoted_char true r); discriminate|discriminate]. }
  destruct (c =? 99); [discriminate|]. destruct (c =? 40); [destruct (text_eqb _ _); discriminate|]. destruct (c =? 39); [destruct (quoted_char false r); discriminate|].
  destruct (is_digit c || (c =? 45)); [auto|discriminate].
Qed.

(** ** Reading decimal digits. *)
Lemma all_digits_dec n : all_digits (dec n) = true.
Proof. unfold all_digits. pose proof (dec_nonempty n). pose proof (dec_digits n). destruct (dec n); [congruence|assumption]. Qed.
Lemma dec_not_minus n : match dec n with c :: _ => (c =? 45) = false | [] => False end.
Proof.
  pose proof (dec_nonempty n). pose proof (dec_digits n). destruct (dec n) as [|c r]; [congruence|]. cbn in H0.
  apply andb_true_iff in H0 as (Hc & _). apply not_minus, Hc.
Qed.
Lemma read_i64_dec n : read_i64 (dec n) = if (Z.of_N n <=? i64_max)%Z then Some (Z.of_N n) else None.
Proof.
  unfold read_i64. pose proof (dec_not_minus n) as H. pose proof (all_digits_dec n) as Ha. pose proof (read_dec n) as Hr.
  destruct (dec n) as [|c r]; [contradiction|]. rewrite H. cbv iota beta. rewrite Ha, Hr. unfold i64_min.
  replace (-9223372036854775808 <=? Z.of_N n)%Z with true by lia. reflexivity.
Qed.
Lemma read_i64_neg n : read_i64 (45 :: dec n) = if (i64_min <=? - Z.of_N n)%Z then Some (- Z.of_N n)%Z else None.
Proof.
  unfold read_i64. change (45 =? 45) with true. cbv iota beta. rewrite all_digits_dec, read_dec.
  replace (- Z.of_N n <=? i64_max)%Z with true by (unfold i64_max; lia). rewrite andb_true_r. reflexivity.
Qed.
Lemma read_u64_dec n : read_u64 (dec n) = if (Z.of_N n <=? u64_max)%Z then Some (Z.of_N n) else None.
Proof. unfold read_u64. rewrite all_digits_dec, read_dec. reflexivity. Qed.
Lemma read_u64_neg r : read_u64 (45 :: r) = None.
Proof. reflexivity. Qed.

(** ** Floats. *)
Lemma exp_free_int ds r : forallb is_digit ds = true -> forall v h, int_loop 10 (ds ++ 46 :: r) v h = None.
Proof.
  induction ds as [|c ds IH]; intros Hd v h; [reflexivity|]. cbn in Hd. apply andb_true_iff in Hd as (Hc & Hd).
  cbn [app]. rewrite (int_loop_digit 10 c _ v h (digit_val c)); [|unfold is_radix; auto|apply radix10; exact Hc]. apply IH. exact Hd.
Qed.
Lemma float_scan_digits ds : forall rest out hd hs hx, forallb is_digit ds = true ->
  float_scan (ds ++ rest) out hd false hs hx = float_scan rest (rev ds ++ out) hd false hs hx.
Proof.
  induction ds as [|c ds IH]; intros rest out hd hs hx Hd; [reflexivity|]. cbn in Hd. apply andb_true_iff in Hd as (Hc & Hd).
  cbn [app float_scan]. replace (c =? 95) with false by (unfold is_digit in Hc; lia). rewrite Hc. cbn [orb].
  rewrite IH by exact Hd. cbn [rev]. rewrite <- app_assoc. reflexivity.
Qed.
Lemma lit_num_float neg s : float_shape neg s -> lit_num s = Some (KFloat s).
Proof.
  intros (ip & fp & -> & Hi & Hf & Hdi & Hdf). destruct ip as [|c ip]; [congruence|].
  assert (Hc : is_digit c = true) by (cbn in Hdi; apply andb_true_iff in Hdi; tauto).
  assert (Hint : parse_lit_int ((if neg then [45] else []) ++ (c :: ip) ++ [46] ++ fp) = None).
  { assert (Hl : int_loop 10 ((c :: ip) ++ [46] ++ fp) 0 false = None) by (cbn [app]; apply (exp_free_int (c :: ip) fp Hdi)).
    assert (H2 : forall x r, c :: ip ++ [46] ++ fp = 48 :: x :: r -> (x =? 120) = false /\ (x =? 111) = false /\ (x =? 98) = false).
    { intros x r H. injection H as _ H. destruct ip as [|y ip]; cbn [app] in H; injection H as <- _; [auto|].
      cbn in Hdi. rewrite !andb_true_iff in Hdi. destruct Hdi as (_ & Hy & _). unfold is_digit in Hy. lia. }
    unfold parse_lit_int. cbn [app] in *. destruct (ip ++ 46 :: fp) as [|x r] eqn:Ex; [destruct ip; discriminate|].
    destruct neg; cbn [app].
    - change (45 =? 45) with true. cbv iota beta. rewrite Hc, Hl.
      destruct (N.eqb_spec c 48) as [->|]; [|reflexivity]. destruct (H2 x r eq_refl) as (-> & -> & ->). reflexivity.
    - rewrite (not_minus c Hc). cbv iota beta. rewrite Hc, Hl.
      destruct (N.eqb_spec c 48) as [->|]; [|reflexivity]. destruct (H2 x r eq_refl) as (-> & -> & ->). reflexivity. }
  unfold lit_num. rewrite Hint. unfold parse_lit_float.
  assert (Hsc : float_scan ((c :: ip) ++ [46] ++ fp) [] false false false false = Some ((c :: ip) ++ [46] ++ fp, [], false, false)).
  { rewrite float_scan_digits by exact Hdi. rewrite app_nil_r. cbn [app float_scan]. change (46 =? 95) with false.
    change (is_digit 46) with false. change (46 =? 46) with true. cbn [orb].
    rewrite <- (app_nil_r fp). rewrite float_scan_digits by exact Hdf. cbn [float_scan].
    rewrite rev_app_distr, rev_involutive. cbn [rev]. rewrite rev_app_distr, rev_involutive. cbn [rev app]. rewrite <- app_assoc, app_nil_r. reflexivity. }
  destruct neg; cbn [app].
  - change (45 =? 45) with true. cbv iota beta. rewrite Hc. cbn [app] in Hsc. rewrite Hsc. reflexivity.
  - rewrite (not_minus c Hc). cbv iota beta. rewrite Hc. cbn [app] in Hsc. rewrite Hsc. reflexivity.
Qed.

(** ** Printing a literal and parsing it back, in any context. *)
Lemma join_self sp : join_or sp sp = sp.
Proof.
  unfold join_or, span_join. rewrite Nat.eqb_refl. destruct sp as [f a b]. cbn.
  assert (forall x, lc_min x x = x /\ lc_max x x = x) as H by (intro x; unfold lc_min, lc_max; destruct (lc_leb x x); auto).
  rewrite (proj1 (H a)), (proj2 (H b)). reflexivity.
Qed.

Definition kind_of (l : lit) (k : slit) : Prop :=
  match l with
  | LBool b => k = SLBool b
  | LByte b => k = SLTok (KByte b)
  | LInt z | LUint z => k = SLTok (KInt (show_int z))
  | LFloat f => exists ds, k = SLTok (KFloat ds) /\ float_read ds = Some f
  | LChar c => k = SLTok (KChar c)
  | LStr s => k = SLTok (KStr s)
  | LByteStr s => k = SLTok (KByteStr s)
  end.

Lemma push_lit_parse repr (c : char) r sp k : repr = c :: r ->
  (if c =? 45 then lit_num repr else lit_new repr) = Some k ->
  forall rest scope u, p_lit (PS (push_lit repr sp ++ rest) scope u) = (OOk (SLTok k, sp), PS rest scope u).
Proof.
  intros -> Hk rest scope u. unfold push_lit. destruct (N.eqb_spec c 45) as [->|].
  - unfold p_lit. cbn [app ps_rest ignore_none open_none]. change (45 =? 45) with true. rewrite Hk, join_self. reflexivity.
  - unfold p_lit. cbn [app ps_rest ignore_none open_none]. rewrite Hk. reflexivity.
Qed.

Lemma show_int_head z : exists c r, show_int z = c :: r /\ (c =? 45) = (z <? 0)%Z.
Proof.
  unfold show_int. destruct (z <? 0)%Z; cbn [app].
  - exists 45, (dec (Z.abs_N z)). auto.
  - pose proof (dec_not_minus (Z.abs_N z)). destruct (dec (Z.abs_N z)) as [|c r]; [contradiction|]. exists c, r. auto.
Qed.
Lemma show_int_kind z : exists c r, show_int z = c :: r /\
  (if c =? 45 then lit_num (show_int z) else lit_new (show_int z)) = Some (KInt (show_int z)).
Proof.
  destruct (show_int_head z) as (c & r & H & Hc). exists c, r. split; [exact H|]. rewrite Hc. unfold show_int.
  destruct (z <? 0)%Z; cbn [app].
  - apply lit_num_neg_int, dec_spelling.
  - apply lit_new_int, dec_spelling.
Qed.

Theorem print_lit_parses l sp : lit_valid l -> lit_finite l ->
  exists ts k, print_lit l sp = Some ts /\ kind_of l k /\
    forall rest scope u, p_lit (PS (ts ++ rest) scope u) = (OOk (k, sp), PS rest scope u).
Proof.
  intros Hv Hf. destruct l as [b|b|z|z|f|c|s|s]; cbn [lit_valid lit_finite kind_of print_lit] in *.
  - eexists _, _. split; [reflexivity|]. split; [reflexivity|]. intros. destruct b; reflexivity.
  - destruct (lit_new_byte b Hv) as (r & Hr & Hk). rewrite Hr. eexists _, _. split; [reflexivity|]. split; [reflexivity|].
    intros. destruct r as [|c r]; [discriminate|]. eapply push_lit_parse; [reflexivity|].
    assert ((c =? 45) = false) as ->; [|exact Hk].
    assert (H98 : c = 98). { unfold lit_byte_repr, cursor_write in Hr. destruct (Nat.leb _ _); [|discriminate]. cbn [app] in Hr. congruence. }
    rewrite H98. reflexivity.
  - destruct (show_int_kind z) as (c & r & H & Hk). eexists _, _. split; [reflexivity|]. split; [reflexivity|].
    intros. eapply push_lit_parse; [exact H|exact Hk].
  - destruct (show_int_kind z) as (c & r & H & Hk). eexists _, _. split; [reflexivity|]. split; [reflexivity|].
    intros. eapply push_lit_parse; [exact H|exact Hk].
  - destruct (float_show_reads f Hv Hf) as (s & neg & Hs & Hsh & Hr & _). rewrite Hs. eexists _, _. split; [reflexivity|].
    split; [eauto|]. intros. pose proof (lit_num_float neg s Hsh) as Hn.
    destruct Hsh as (ip & fp & E & Hi & _ & Hdi & _). destruct neg.
    + eapply push_lit_parse; [exact E|]. exact Hn.
    + destruct ip as [|c ip]; [congruence|]. cbn in Hdi. apply andb_true_iff in Hdi as (Hc & _).
      eapply push_lit_parse; [exact E|]. rewrite (not_minus c Hc). rewrite E in *. cbn [app] in *. rewrite (lit_new_number c _ Hc). exact Hn.
  - eexists _, _. split; [reflexivity|]. split; [reflexivity|]. intros. eapply push_lit_parse; [reflexivity|].
    apply (lit_new_show_char c Hv).
  - eexists _, _. split; [reflexivity|]. split; [reflexivity|]. intros. eapply push_lit_parse; [reflexivity|].
    apply (lit_new_show_str s Hv).
  - eexists _, _. split; [reflexivity|]. split; [reflexivity|]. intros. eapply push_lit_parse; [reflexivity|].
    apply (lit_new_show_byte_str s Hv).
Qed.
End Literals.
