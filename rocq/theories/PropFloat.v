(** * C29: float literals denote the nearest double; what a double is. *)
From Coq Require Import QArith Qabs.
From Coq Require Import Floats.SpecFloat.
From Verif Require Import Base Float Literal Syn Ast Derive Grammar Spec LitSpec SynFacts Combinators GrammarBeh FloatFacts LiteralFacts FloatNear FloatText PropLit Examples.
Local Open Scope Z_scope.

(** The values of [f64], by the definition of the Coq standard library: IEEE binary64, precision 53, emax 1024. *)
Definition to_spec (f : f64) : spec_float :=
  match f with
  | FInf b => S754_infinity b
  | FFin b 0 _ => S754_zero b
  | FFin b (Npos m) e => S754_finite b m e
  end.
Lemma digits2_pow p : 2 ^ (Zpos (digits2_pos p) - 1) <= Zpos p < 2 ^ Zpos (digits2_pos p).
Proof.
  induction p as [p IH|p IH|]; [| |split; reflexivity || (cbn; lia)]; cbn [digits2_pos]; rewrite Pos2Z.inj_succ; rewrite Z.pow_succ_r by lia;
    replace (Z.succ (Z.pos (digits2_pos p)) - 1) with (Z.succ (Z.pos (digits2_pos p) - 1)) by lia; rewrite Z.pow_succ_r by lia; lia.
Qed.
Theorem C29_doubles_are_binary64 : forall f, f64_valid f = true ->
  valid_binary 53 1024 (to_spec f) = true /\ (forall b m e, f = FFin b m e -> m = 0%N -> e = -1074).
Proof.
  intros [b m e|b] H; [|split; [reflexivity|discriminate]]. cbn [f64_valid] in H. apply andb_true_iff in H as (H & H4). apply andb_true_iff in H as (H & H3). apply andb_true_iff in H as (H1 & H2).
  unfold two52, two53, emin, emax in *. split.
  - destruct m as [|p]; [reflexivity|]. cbn [to_spec valid_binary]. unfold bounded, canonical_mantissa, fexp, SpecFloat.emin. apply andb_true_iff. split.
    + apply Zeq_bool_true || apply Zeq_is_eq_bool || idtac. pose proof (digits2_pow p) as (Ha & Hb). set (k := Z.pos (digits2_pos p)) in *.
      assert (K1 : k <= 53). { destruct (Z_le_gt_dec k 53); [assumption|]. assert (2 ^ 53 <= 2 ^ (k - 1)) by (apply Z.pow_le_mono_r; lia). change (2 ^ 53) with 9007199254740992 in *. lia. }
      assert (K2 : e = -1074 \/ k = 53). { destruct (Z.eq_dec e (-1074)); [auto|]. right. destruct (Z_lt_le_dec k 53); [|lia]. assert (2 ^ k <= 2 ^ 52) by (apply Z.pow_le_mono_r; lia). change (2 ^ 52) with 4503599627370496 in *. lia. }
      lia.
    + apply Z.leb_le. lia.
  - intros b' m' e' E Em. injection E as <- <- <-. subst m. lia.
Qed.
Print Assumptions C29_doubles_are_binary64.
Theorem C29_binary64_are_doubles : forall x, valid_binary 53 1024 x = true -> x <> S754_nan -> exists f, f64_valid f = true /\ to_spec f = x.
Proof.
  intros [b|b| |b p e] H Hn; [exists (FFin b 0 emin); split; reflexivity|exists (FInf b); split; reflexivity|congruence|]. exists (FFin b (Npos p) e). split; [|reflexivity].
  cbn [valid_binary] in H. unfold bounded, canonical_mantissa, fexp, SpecFloat.emin in H. apply andb_true_iff in H as (Ha & Hb). apply Z.leb_le in Hb. apply Zeq_bool_eq in Ha.
  pose proof (digits2_pow p) as (D1 & D2). set (k := Z.pos (digits2_pos p)) in *. cbn [f64_valid]. unfold two52, two53, Float.emin, emax.
  assert (K1 : k <= 53 /\ (e = -1074 \/ k = 53) /\ -1074 <= e) by lia. destruct K1 as (K1 & K2 & K3).
  assert (Z.pos p < 2 ^ 53) by (eapply Z.lt_le_trans; [exact D2|]; apply Z.pow_le_mono_r; lia). change (2 ^ 53) with 9007199254740992 in *.
  assert (K4 : e = -1074 \/ 2 ^ 52 <= Z.pos p) by (destruct K2 as [K2|K2]; [auto|right; rewrite K2 in D1; exact D1]). change (2 ^ 52) with 4503599627370496 in *.
  rewrite !andb_true_iff, orb_true_iff. lia.
Qed.
Print Assumptions C29_binary64_are_doubles.

(** ** Reading *)
(** A float literal with an optional minus sign stands at the head of the stream. *)
Section Reading.
Context {U : unicode}.
Definition float_at (s : pstate) (neg : bool) (D : N) (k : Z) (sp : span) (r : list tt) : Prop :=
  exists repr, float_spelling repr D k /\
    if neg then exists g sp1 sp2 r1, ignore_none (ps_rest s) = TPunct 45 g sp1 :: r1 /\
                  ignore_none r1 = TLit repr sp2 :: r /\ sp = join_or sp1 sp2
    else ignore_none (ps_rest s) = TLit repr sp :: r.
Lemma p_lit_float_at s neg D k sp r : float_at s neg D k sp r -> p_litty LtFloat s = (OOk (LFloat (round_dec neg D k), sp), set_rest s r).
Proof.
  intros (repr & Hs & H). destruct (spelling_reads neg repr D k Hs) as (ds & Hn & Hr & Hc). destruct repr as [|c repr]; [contradiction|].
  assert (P : p_lit s = (OOk (SLTok (KFloat ds), sp), set_rest s r)).
  { unfold p_lit. destruct neg; cbn [app] in Hn.
    - destruct H as (g & sp1 & sp2 & r1 & E1 & E2 & ->). rewrite E1. change (45 =? 45)%N with true. cbv iota. rewrite E2, Hn. reflexivity.
    - rewrite H. rewrite (lit_new_number c repr Hc), Hn. reflexivity. }
  cbn [p_litty]. unfold p_lit_float, and_then, bind, p_syn_float, p_typed. rewrite P. cbn [fst snd]. unfold float_try_from. rewrite Hr. reflexivity.
Qed.
(** [LitFloat] accepts every float literal and gives the nearest double to the number it writes,
    ties to even; beyond the largest double, infinity.  The sign is the literal's. *)
Theorem C29_literals_read_as_nearest E s neg D k sp r : float_at s neg D k sp r ->
  forall v s', yes (tbeh E (TyLit LtFloat)) s v s' <->
    exists f, v = VLit (LFloat f) sp /\ s' = set_rest s r /\ rounds (decimal D k) f /\ f64_valid f = true /\
      match f with FFin b _ _ | FInf b => b = neg end /\ f = round_dec neg D k.
Proof.
  intros H v s'. pose proof (p_lit_float_at s neg D k sp r H) as P. rewrite lit_yes. split.
  - intros (l & sp' & Hl & ->). rewrite P in Hl. injection Hl as <- <- <-. exists (round_dec neg D k). split; [reflexivity|]. split; [reflexivity|]. split; [apply round_dec_rounds|].
    split; [apply round_dec_valid|]. split; [|reflexivity]. destruct k; apply round_sign.
  - intros (f & -> & -> & _ & _ & _ & ->). eauto.
Qed.
End Reading.
Print Assumptions C29_literals_read_as_nearest.

(** "nearest, ties to even" determines the double *)
Lemma two53_pow : (2 ^ 53 = 9007199254740992)%N.
Proof. reflexivity. Qed.
Lemma even_apart d J m e m' e' : 0 < d -> 0 <= e + J -> 0 <= e' + J -> -1074 <= e' -> (e = -1074 \/ p52 <= Z.of_N m) -> (m' < 2 ^ 53)%N ->
  N.even m = true -> N.even m' = true -> (Z.of_N m + 1) * (d * 2 ^ (e + J)) <> Z.of_N m' * (d * 2 ^ (e' + J)).
Proof.
  intros Hd He He' Hmin Hc Hm' Ev Ev' E.
  assert (P : forall x, N.even x = true -> exists y, Z.of_N x = 2 * y). { intros x Hx. apply N.even_spec in Hx as (y & ->). exists (Z.of_N y). lia. }
  destruct (P m Ev) as (y & Hy). destruct (P m' Ev') as (y' & Hy'). destruct (Z_le_gt_dec e e') as [Hle|Hgt].
  - assert (E2 : 2 ^ (e' + J) = 2 ^ (e' - e) * 2 ^ (e + J)) by (rewrite <- Z.pow_add_r by lia; f_equal; lia). rewrite E2 in E.
    pose proof (pow2_pos (e + J) He) as HP. set (Y := 2 ^ (e + J)) in *. set (k := 2 ^ (e' - e)) in *. clearbody Y k.
    assert (Z.of_N m + 1 = Z.of_N m' * k). { apply (Z.mul_reg_r _ _ (d * Y)); [nia|]. rewrite E. ring. }
    rewrite Hy, Hy' in H. lia.
  - destruct Hc as [->|Hc]; [lia|]. pose proof (pow2_lt (e' + J) (e + J) He' ltac:(lia)) as Hp. pose proof (pow2_pos (e' + J) He') as HP.
    set (Y := 2 ^ (e + J)) in *. set (Y' := 2 ^ (e' + J)) in *. clearbody Y Y'. apply N2Z.inj_lt in Hm'. rewrite two53_pow in Hm'. unfold p52 in Hc.
    assert ((Z.of_N m + 1) * Y = Z.of_N m' * Y'). { apply (Z.mul_reg_l _ _ d); [lia|]. replace (d * ((Z.of_N m + 1) * Y)) with ((Z.of_N m + 1) * (d * Y)) by ring. rewrite E. ring. }
    nia.
Qed.
Lemma valid_parts b m e : f64_valid (FFin b m e) = true -> (m < 2 ^ 53)%N /\ -1074 <= e <= 971 /\ (e = -1074 \/ p52 <= Z.of_N m).
Proof.
  intro H. cbn [f64_valid] in H. apply andb_true_iff in H as (H & H4). apply andb_true_iff in H as (H & H3). apply andb_true_iff in H as (H1 & H2).
  apply N.ltb_lt in H1. apply Z.leb_le in H2. apply Z.leb_le in H3. split; [rewrite two53_pow; exact H1|]. split; [split; assumption|].
  apply orb_true_iff in H4 as [H4|H4]; [right|left; apply Z.eqb_eq in H4; exact H4]. apply N.leb_le in H4. apply N2Z.inj_le in H4. exact H4.
Qed.
Lemma same_magnitude d J m e m' e' : 0 < d -> 0 <= e + J -> 0 <= e' + J -> (m < 2 ^ 53)%N -> (m' < 2 ^ 53)%N -> -1074 <= e -> -1074 <= e' ->
  (e = -1074 \/ p52 <= Z.of_N m) -> (e' = -1074 \/ p52 <= Z.of_N m') ->
  Z.of_N m * (d * 2 ^ (e + J)) = Z.of_N m' * (d * 2 ^ (e' + J)) -> m = m' /\ e = e'.
Proof.
  intros Hd He He' Hm Hm' Hmin Hmin' Hc Hc' E.
  assert (W : forall m e m' e', 0 <= e + J -> 0 <= e' + J -> (m < 2 ^ 53)%N -> -1074 <= e -> (e' = -1074 \/ p52 <= Z.of_N m') -> e < e' ->
    Z.of_N m * (d * 2 ^ (e + J)) <> Z.of_N m' * (d * 2 ^ (e' + J))).
  { clear - Hd. intros m e m' e' He He' Hm Hmin Hc Hlt E. destruct Hc as [->|Hc]; [lia|]. pose proof (pow2_lt (e + J) (e' + J) He ltac:(lia)) as Hp. pose proof (pow2_pos (e + J) He) as HP.
    set (Y := 2 ^ (e + J)) in *. set (Y' := 2 ^ (e' + J)) in *. clearbody Y Y'. apply N2Z.inj_lt in Hm. rewrite two53_pow in Hm. unfold p52 in Hc.
    assert (Z.of_N m * Y = Z.of_N m' * Y'). { apply (Z.mul_reg_l _ _ d); [lia|]. replace (d * (Z.of_N m * Y)) with (Z.of_N m * (d * Y)) by ring. rewrite E. ring. }
    nia. }
  destruct (Z.lt_trichotomy e e') as [H|[->|H]]; [destruct (W m e m' e'); assumption| |destruct (W m' e' m e); try assumption; symmetry; exact E].
  split; [|reflexivity]. pose proof (pow2_pos (e' + J) He') as HP. apply Z.mul_reg_r in E; [lia|nia].
Qed.
Theorem C29_nearest_is_unique : forall x f g, (0 <= x)%Q -> f64_valid f = true -> f64_valid g = true -> rounds x f -> rounds x g ->
  match f, g with FFin a _ _, FFin b _ _ | FInf a, FInf b => a = b | _, _ => True end -> f = g.
Proof.
  intros x f g Hx Vf Vg Rf Rg Hs. destruct f as [a m e|a], g as [b m' e'|b]; cbn [rounds] in Rf, Rg.
  - destruct Rf as (_ & Rf). destruct Rg as (_ & Rg). subst b.
    destruct (valid_parts _ _ _ Vf) as (Hm & He & Hc). destruct (valid_parts _ _ _ Vg) as (Hm' & He' & Hc').
    set (n := Z.to_N (Qnum x)). set (d := Npos (Qden x)).
    assert (Ex : (x == rational n d)%Q).
    { unfold rational, n, d. destruct x as [p q]. unfold Qle in Hx. cbn in Hx |- *. rewrite Z2N.id by lia. unfold Qeq, Qdiv, Qmult, Qinv, inject_Z. cbn. lia. }
    set (J := 1074). set (X := Z.of_N n * 2 ^ J). assert (Hd : (0 < d)%N) by (unfold d; lia).
    assert (HP : (0 < inject_Z (Z.of_N d * 2 ^ J))%Q). { change 0%Q with (inject_Z 0). rewrite <- Zlt_Qlt. apply Z.mul_pos_pos; [lia|apply pow2_pos; unfold J; lia]. }
    (* everything scaled to integers *)
    set (val := fun (m : N) (e : Z) => Z.of_N m * (Z.of_N d * 2 ^ (e + J))).
    assert (Dist : forall m e, -1074 <= e -> (Qabs (x - magnitude m e) * inject_Z (Z.of_N d * 2 ^ J) == inject_Z (dist X (val m e)))%Q).
    { intros m0 e0 H0. rewrite Ex. apply scaled_dist; unfold J; lia. }
    assert (Le : forall m1 e1 m2 e2, -1074 <= e1 -> -1074 <= e2 -> (Qabs (x - magnitude m1 e1) <= Qabs (x - magnitude m2 e2))%Q -> dist X (val m1 e1) <= dist X (val m2 e2)).
    { intros m1 e1 m2 e2 H1 H2 H. rewrite Zle_Qle. rewrite <- (Dist m1 e1 H1), <- (Dist m2 e2 H2). apply (proj2 (Qmult_le_r _ _ _ HP)). exact H. }
    assert (Near : forall m0 e0, (m0 < 2 ^ 53)%N -> -1074 <= e0 <= 971 -> dist X (val m e) <= dist X (val m0 e0)).
    { intros m0 e0 H0 H1. apply Le; [lia|lia|]. apply Rf; assumption. }
    assert (Same : dist X (val m e) = dist X (val m' e')).
    { apply Z.le_antisymm; [apply Near; assumption|]. apply Le; [lia|lia|]. apply Rg; assumption. }
    assert (SameQ : (Qabs (x - magnitude m e) == Qabs (x - magnitude m' e'))%Q) by (apply Qle_antisym; [apply Rf; assumption|apply Rg; assumption]).
    destruct (Z.eq_dec (val m e) (val m' e')) as [Ev|Ev].
    + destruct (same_magnitude (Z.of_N d) J m e m' e') as (-> & ->); try assumption; try reflexivity; unfold J; lia.
    + exfalso. assert (Hne : ~ (magnitude m e == magnitude m' e')%Q).
      { intro C. apply Ev. apply (proj1 (inject_Z_injective _ _)). unfold val. rewrite <- !scaled_mag by (unfold J; lia). rewrite C. reflexivity. }
      assert (E1 : N.even m = true). { apply (proj2 (Rf m' e' Hm' He')); [exact SameQ|]. intro C. apply Hne. symmetry. exact C. }
      assert (E2 : N.even m' = true). { apply (proj2 (Rg m e Hm He)); [symmetry; exact SameQ|exact Hne]. }
      assert (W : forall m e m' e', (m < 2 ^ 53)%N -> (m' < 2 ^ 53)%N -> -1074 <= e <= 971 -> -1074 <= e' <= 971 -> (e = -1074 \/ p52 <= Z.of_N m) -> N.even m = true -> N.even m' = true ->
         val m e < val m' e' -> dist X (val m e) = dist X (val m' e') -> (forall m0 e0, (m0 < 2 ^ 53)%N -> -1074 <= e0 <= 971 -> dist X (val m e) <= dist X (val m0 e0)) -> False).
      { clear - Hd. intros m e m' e' Hm Hm' He He' Hc E1 E2 Hlt Same Near.
        assert (Hm1 : (m + 1 < 2 ^ 53)%N). { apply N.even_spec in E1 as (y & ->). rewrite two53_pow in *. lia. }
        specialize (Near (m + 1)%N e Hm1 He).
        pose proof (even_apart (Z.of_N d) J m e m' e' ltac:(lia) ltac:(unfold J; lia) ltac:(unfold J; lia) ltac:(lia) Hc Hm' E1 E2) as Hap.
        assert (HmZ : 0 <= Z.of_N m' < p53) by (unfold p53; apply N2Z.inj_lt in Hm'; rewrite two53_pow in Hm'; lia).
        destruct (no_double_between (Z.of_N d) J e (Z.of_N m) (Z.of_N m') e' ltac:(lia) ltac:(unfold J; lia) ltac:(unfold J; lia) Hc HmZ ltac:(lia)) as [Hb|Hb]; unfold val in *; [lia|].
        replace (Z.of_N (m + 1)) with (Z.of_N m + 1) in Near by lia. unfold dist in *.
        assert (HY : 0 < Z.of_N d * 2 ^ (e + J)) by (apply Z.mul_pos_pos; [lia|apply pow2_pos; unfold J; lia]).
        replace ((Z.of_N m + 1) * (Z.of_N d * 2 ^ (e + J))) with (Z.of_N m * (Z.of_N d * 2 ^ (e + J)) + Z.of_N d * 2 ^ (e + J)) in * by ring. lia. }
      destruct (Z.lt_trichotomy (val m e) (val m' e')) as [H|[H|H]]; [|congruence|].
      * apply (W m e m' e'); assumption.
      * apply (W m' e' m e); try assumption; [symmetry; exact Same|]. intros m0 e0 H0 H1. rewrite <- Same. apply Near; assumption.
  - exfalso. destruct Rf as (Rf & _). apply (Qlt_not_le _ _ Rf Rg).
  - exfalso. destruct Rg as (Rg & _). apply (Qlt_not_le _ _ Rg Rf).
  - congruence.
Qed.
Print Assumptions C29_nearest_is_unique.

(** ** Examples *)
Local Existing Instance Examples.ascii_only.
Example C29_ex_spelling : float_spelling (T "6_0.2_5e-1_f64") 6025 (-3).
Proof.
  change (-3) with (e_sign [45%N] (Z.of_N (number (T "1_"))) - decimals (T "2_5")). change 6025%N with (number (T "6_0" ++ T "2_5")).
  change (T "6_0.2_5e-1_f64") with (T "6_0" ++ [46%N] ++ T "2_5" ++ [101%N] ++ [45%N] ++ T "1_" ++ T "f64").
  apply fs_exp; try (vm_compute; auto; fail); try (right; right; reflexivity); first [split; reflexivity|right; split; [reflexivity|split; reflexivity]|split; [reflexivity|discriminate]].
Qed.
Example C29_ex_tie : round_dec false 9007199254740993 0 = FFin false 4503599627370496 1 /\ round_dec false 9007199254740995 0 = FFin false 4503599627370498 1.
Proof. split; vm_compute; reflexivity. Qed.
