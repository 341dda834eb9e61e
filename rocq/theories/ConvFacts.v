(** * ConvFacts: literal conversions and the order on literal nodes. *)
From Verif Require Import Base Float Literal FloatFacts Syn Ast LitSpec LiteralFacts Conv.
From Coq Require Import ZifyN ZifyNat ZifyBool.
Open Scope N_scope.

(** ** the numeric order on canonical doubles *)
Lemma f64_num_inj n1 m1 e1 n2 m2 e2 :
  f64_valid (FFin n1 m1 e1) = true -> f64_valid (FFin n2 m2 e2) = true ->
  f64_num n1 m1 e1 = f64_num n2 m2 e2 ->
  m1 = m2 /\ e1 = e2 /\ (m1 = 0 \/ n1 = n2).
Proof.
  cbn [f64_valid]. rewrite !andb_true_iff, !orb_true_iff. unfold two52, two53, emin, emax. intros H1 H2 H.
  assert (Habs : (Z.of_N m1 * 2 ^ (e1 + 1074) = Z.of_N m2 * 2 ^ (e2 + 1074))%Z /\ (m1 = 0 \/ n1 = n2)).
  { unfold f64_num, emin in H. replace (e1 - -1074)%Z with (e1 + 1074)%Z in H by lia. replace (e2 - -1074)%Z with (e2 + 1074)%Z in H by lia.
    pose proof (pow2_pos (e1 + 1074) ltac:(lia)). pose proof (pow2_pos (e2 + 1074) ltac:(lia)).
    destruct n1, n2; split; try nia; (destruct (N.eq_dec m1 0); [auto|]); right; nia. }
  destruct Habs as (Hm & Hs).
  assert (He : e1 = e2).
  { destruct (Z.lt_trichotomy e1 e2) as [Hl|[Hl|Hl]]; [|exact Hl|].
    - pose proof (pow2_lt (e1 + 1074) (e2 + 1074) ltac:(lia) ltac:(lia)). pose proof (pow2_pos (e1 + 1074) ltac:(lia)). nia.
    - pose proof (pow2_lt (e2 + 1074) (e1 + 1074) ltac:(lia) ltac:(lia)). pose proof (pow2_pos (e2 + 1074) ltac:(lia)). nia. }
  subst e2. split; [|auto]. pose proof (pow2_pos (e1 + 1074) ltac:(lia)). nia.
Qed.

Lemma f64_cmp_opp x y : f64_cmp y x = CompOpp (f64_cmp x y).
Proof. destruct x as [n1 m1 e1|[]], y as [n2 m2 e2|[]]; cbn; try reflexivity. apply Z.compare_antisym. Qed.
Lemma f64_cmp_trans c x y z : f64_cmp x y = c -> f64_cmp y z = c -> f64_cmp x z = c.
Proof.
  destruct x as [n1 m1 e1|[]], y as [n2 m2 e2|[]], z as [n3 m3 e3|[]]; cbn; intros H1 H2; try congruence.
  destruct c.
  - apply Z.compare_eq_iff in H1, H2. apply Z.compare_eq_iff. congruence.
  - apply Z.compare_lt_iff in H1, H2. apply Z.compare_lt_iff. eapply Z.lt_trans; eassumption.
  - apply Z.compare_gt_iff in H1, H2. apply Z.compare_gt_iff. eapply Z.lt_trans; eassumption.
Qed.
Lemma list_cmp_opp x : forall y, list_cmp y x = CompOpp (list_cmp x y).
Proof.
  induction x as [|a x IH]; destruct y as [|b y]; cbn; try reflexivity. rewrite N.compare_antisym.
  destruct (N.compare a b); cbn; auto.
Qed.
Lemma list_cmp_eq x : forall y, list_cmp x y = Eq <-> x = y.
Proof.
  induction x as [|a x IH]; destruct y as [|b y]; cbn; try (split; (discriminate || reflexivity)).
  destruct (N.compare_spec a b) as [->|H|H].
  - rewrite IH. split; congruence.
  - split; [discriminate|]. intro E. injection E as -> ->. lia.
  - split; [discriminate|]. intro E. injection E as -> ->. lia.
Qed.
Lemma list_cmp_trans c x : forall y z, list_cmp x y = c -> list_cmp y z = c -> list_cmp x z = c.
Proof.
  induction x as [|a x IH]; destruct y as [|b y], z as [|d z]; cbn; intros H1 H2; try congruence.
  destruct (N.compare_spec a b) as [->|Hab|Hab].
  - destruct (N.compare_spec b d); [eauto|congruence..].
  - subst c. destruct (N.compare_spec b d) as [->|H|H]; [|..|discriminate].
    + apply N.compare_lt_iff in Hab. rewrite Hab. reflexivity.
    + assert (a < d) as Had by lia. apply N.compare_lt_iff in Had. rewrite Had. reflexivity.
  - subst c. destruct (N.compare_spec b d) as [->|H|H]; [|discriminate|].
    + apply N.compare_gt_iff in Hab. rewrite Hab. reflexivity.
    + assert (d < a) as Had by lia. apply N.compare_gt_iff in Had. rewrite Had. reflexivity.
Qed.
Lemma bool_cmp_opp x y : bool_cmp y x = CompOpp (bool_cmp x y).
Proof. destruct x, y; reflexivity. Qed.
Lemma bool_cmp_trans c x y z : bool_cmp x y = c -> bool_cmp y z = c -> bool_cmp x z = c.
Proof. destruct x, y, z; cbn; congruence. Qed.
Lemma N_cmp_trans c (x y z : N) : N.compare x y = c -> N.compare y z = c -> N.compare x z = c.
Proof.
  destruct c; rewrite ?N.compare_eq_iff, ?N.compare_lt_iff, ?N.compare_gt_iff; lia.
Qed.
Lemma Z_cmp_trans c (x y z : Z) : Z.compare x y = c -> Z.compare y z = c -> Z.compare x z = c.
Proof.
  destruct c; rewrite ?Z.compare_eq_iff, ?Z.compare_lt_iff, ?Z.compare_gt_iff; lia.
Qed.

Lemma node_cmp_opp a b : node_cmp b a = option_map CompOpp (node_cmp a b).
Proof.
  destruct a as (a, sa), b as (b, sb). unfold node_cmp. cbn [fst].
  destruct a, b; try reflexivity; cbn [option_map]; f_equal;
    first [apply bool_cmp_opp|apply N.compare_antisym|apply Z.compare_antisym|apply f64_cmp_opp|apply list_cmp_opp].
Qed.
Lemma node_cmp_trans c x y z : node_cmp x y = Some c -> node_cmp y z = Some c -> node_cmp x z = Some c.
Proof.
  destruct x as (x, sx), y as (y, sy), z as (z, sz). unfold node_cmp. cbn [fst].
  destruct x, y; try discriminate; destruct z; try discriminate; intros H1 H2; injection H1 as H1; injection H2 as H2; f_equal;
    first [eapply bool_cmp_trans; eassumption|eapply N_cmp_trans; eassumption|eapply Z_cmp_trans; eassumption
          |eapply f64_cmp_trans; eassumption|eapply list_cmp_trans; eassumption].
Qed.
Lemma node_cmp_eqb a b : node_cmp a b = Some Eq <-> node_eqb a b = true.
Proof.
  destruct a as (a, sa), b as (b, sb). unfold node_cmp, node_eqb. cbn [fst].
  destruct a, b; try (split; discriminate).
  - destruct b0, b; cbn; split; congruence.
  - rewrite N.eqb_eq, <- N.compare_eq_iff. split; [injection 1; auto|intros ->; reflexivity].
  - rewrite Z.eqb_eq, <- Z.compare_eq_iff. split; [injection 1; auto|intros ->; reflexivity].
  - rewrite Z.eqb_eq, <- Z.compare_eq_iff. split; [injection 1; auto|intros ->; reflexivity].
  - destruct (f64_cmp f f0); split; congruence.
  - rewrite N.eqb_eq, <- N.compare_eq_iff. split; [injection 1; auto|intros ->; reflexivity].
  - rewrite text_eqb_eq, <- list_cmp_eq. split; [injection 1; auto|intros ->; reflexivity].
  - rewrite text_eqb_eq, <- list_cmp_eq. split; [injection 1; auto|intros ->; reflexivity].
Qed.
Lemma node_hash_eqb a b : lit_valid (fst a) -> lit_valid (fst b) -> node_eqb a b = true -> node_hash a = node_hash b.
Proof.
  destruct a as (a, sa), b as (b, sb). unfold node_eqb, node_hash. cbn [fst].
  destruct a, b; try discriminate; intros Ha Hb; cbn [lit_valid] in *.
  - intro H. apply eqb_prop in H. subst. reflexivity.
  - intro H. apply N.eqb_eq in H. subst. reflexivity.
  - intro H. apply Z.eqb_eq in H. subst. reflexivity.
  - intro H. apply Z.eqb_eq in H. subst. reflexivity.
  - destruct f as [n1 m1 e1|[]], f0 as [n2 m2 e2|[]]; cbn; try discriminate; try reflexivity.
    destruct (Z.compare_spec (f64_num n1 m1 e1) (f64_num n2 m2 e2)) as [H| |]; try discriminate. intros _.
    destruct (f64_num_inj _ _ _ _ _ _ Ha Hb H) as (-> & -> & [Hz|Hz]).
    + subst. reflexivity.
    + subst. reflexivity.
  - intro H. apply N.eqb_eq in H. subst. reflexivity.
  - intro H. apply text_eqb_eq in H. subst. reflexivity.
  - intro H. apply text_eqb_eq in H. subst. reflexivity.
Qed.

Section Conv.
Context {U : unicode}.
Variable byte_token : N -> text.

Lemma parse_show_int z : exists sfx, parse_lit_int (show_int z) = Some (show_int z, sfx).
Proof.
  unfold show_int. destruct (z <? 0)%Z; cbn [app].
  - apply (parse_lit_int_spelling _ _ (dec_spelling (Z.abs_N z)) true).
  - apply (parse_lit_int_spelling _ _ (dec_spelling (Z.abs_N z)) false).
Qed.
Lemma parse_show_float neg s : float_shape neg s -> exists sfx, parse_lit_float s = Some (s, sfx).
Proof.
  intro H. apply lit_num_float in H. unfold lit_num in H. destruct (parse_lit_int s) as [(?, ?)|]; [discriminate|].
  destruct (parse_lit_float s) as [(ds, sfx)|]; [|discriminate]. injection H as ->. eauto.
Qed.
Lemma read_show_i64 z : (i64_min <= z <= i64_max)%Z -> read_i64 (show_int z) = Some z.
Proof.
  intro H. unfold show_int. destruct (Z.ltb_spec z 0); cbn [app].
  - rewrite read_i64_neg. replace (- Z.of_N (Z.abs_N z))%Z with z by lia. replace (i64_min <=? z)%Z with true by lia. reflexivity.
  - rewrite read_i64_dec. replace (Z.of_N (Z.abs_N z))%Z with z by lia. replace (z <=? i64_max)%Z with true by lia. reflexivity.
Qed.
Lemma read_show_u64 z : (0 <= z <= u64_max)%Z -> read_u64 (show_int z) = Some z.
Proof.
  intro H. unfold show_int. replace (z <? 0)%Z with false by lia. cbn [app].
  rewrite read_u64_dec. replace (Z.of_N (Z.abs_N z))%Z with z by lia. replace (z <=? u64_max)%Z with true by lia. reflexivity.
Qed.

(** [Lit]'s reading of the kind a printed literal has *)
Lemma lit_try_from_kind l k sp : lit_valid l -> kind_of l k -> lit_try_from (k, sp) = OOk (by_sign l, sp).
Proof.
  intros Hv Hk. destruct l; cbn [kind_of lit_valid by_sign] in *; subst; try reflexivity.
  - cbn [lit_try_from]. destruct (show_int_head z) as (c & r & Hs & Hc). rewrite Hs, Hc, <- Hs.
    destruct (Z.ltb_spec z 0).
    + unfold int_try_from. rewrite read_show_i64 by exact Hv. reflexivity.
    + unfold uint_try_from. rewrite read_show_u64; [reflexivity|]. unfold i64_max, u64_max in *. lia.
  - cbn [lit_try_from]. destruct (show_int_head z) as (c & r & Hs & Hc). rewrite Hs, Hc, <- Hs.
    replace (z <? 0)%Z with false by lia. unfold uint_try_from. rewrite read_show_u64 by exact Hv. reflexivity.
  - destruct Hk as (ds & -> & Hr). cbn. unfold float_try_from. rewrite Hr. reflexivity.
Qed.

Lemma to_syn_kind l sp : lit_valid l -> lit_finite l -> (forall b, l <> LByte b) ->
  exists n k, to_syn byte_token l sp = Some n /\ syn_span n = sp /\ syn_value n = Some (k, sp) /\ kind_of l k /\
    (forall z, l = LInt z \/ l = LUint z -> n = SyInt (show_int z) sp).
Proof.
  intros Hv Hf Hb. destruct l; cbn [to_syn lit_valid lit_finite kind_of] in *.
  - eexists _, _. repeat split. intros ? [|]; discriminate.
  - destruct (Hb b eq_refl).
  - destruct (parse_show_int z) as (sfx & ->). eexists _, _. repeat split. intros ? [H|H]; congruence.
  - destruct (parse_show_int z) as (sfx & ->). eexists _, _. repeat split. intros ? [H|H]; congruence.
  - destruct (float_show_reads f Hv Hf) as (s & neg & -> & Hs & Hr & _). destruct (parse_show_float neg s Hs) as (sfx & ->).
    eexists _, _. repeat split; [eauto|]. intros ? [|]; discriminate.
  - eexists _, _. split; [reflexivity|]. split; [reflexivity|]. cbn [syn_value]. rewrite (lit_new_show_char c Hv). repeat split. intros ? [|]; discriminate.
  - eexists _, _. split; [reflexivity|]. split; [reflexivity|]. cbn [syn_value]. rewrite (lit_new_show_str s Hv). repeat split. intros ? [|]; discriminate.
  - eexists _, _. split; [reflexivity|]. split; [reflexivity|]. cbn [syn_value]. rewrite (lit_new_show_byte_str s Hv). repeat split. intros ? [|]; discriminate.
Qed.
End Conv.
