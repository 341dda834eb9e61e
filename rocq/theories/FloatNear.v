(** * FloatNear: rounding gives the nearest double, ties to even (C29). *)
From Coq Require Import QArith Qabs Qpower Qfield.
From Verif Require Import Base Float FloatFacts.
Local Open Scope Z_scope.

(** ** Rounding in integers *)
Lemma round_cases neg n d : (0 < n)%N -> (0 < d)%N -> exists J e q q',
  2000 <= J /\ 0 <= e + J /\ -1074 <= e /\ 0 <= q < p53 /\ (e = -1074 \/ p52 <= q) /\
  q * (Z.of_N d * 2 ^ (e + J)) <= Z.of_N n * 2 ^ J < (q + 1) * (Z.of_N d * 2 ^ (e + J)) /\
  let R := 2 * (Z.of_N n * 2 ^ J - q * (Z.of_N d * 2 ^ (e + J))) in let Y := Z.of_N d * 2 ^ (e + J) in
  ((q' = q /\ R <= Y /\ (R = Y -> Z.even q = true)) \/ (q' = q + 1 /\ Y <= R /\ (R = Y -> Z.odd q = true))) /\
  round_rat neg n d = (if q' =? p53 then if emax <? e + 1 then FInf neg else FFin neg two52 (e + 1)
                       else if emax <? e then FInf neg else FFin neg (Z.to_N q') e).
Proof.
  intros Hn Hd. set (J := Z.of_N (N.log2 n) + Z.of_N (N.log2 d) + 2000).
  destruct (raw_exp_spec n d J Hn Hd ltac:(unfold J; lia)) as (Hre & Hlo & Hhi).
  unfold round_rat. replace (n =? 0)%N with false by lia. rewrite pick_raw. set (r := raw_exp n d) in *.
  set (e := Z.max r emin). destruct (scaled n d e) as (a, b) eqn:Es.
  assert (HeJ : 0 <= e + J) by (unfold e; lia).
  pose proof (scaled_floor n d e a b J Es Hd ltac:(unfold J; lia) HeJ) as Hq. cbn zeta in Hq.
  destruct (scaled_spec n d e a b J Es Hd ltac:(unfold J; lia) HeJ) as (t & Ht & Ha & Hb & Hb0).
  assert (Hr : Z.of_N n * 2 ^ J - Z.of_N (a / b) * (Z.of_N d * 2 ^ (e + J)) = t * Z.of_N (a mod b)).
  { rewrite <- Ha, <- Hb, N2Z.inj_div, N2Z.inj_mod. pose proof (Z.div_mod (Z.of_N a) (Z.of_N b) ltac:(lia)). nia. }
  set (q := (a / b)%N) in *.
  assert (HY : 0 < Z.of_N d * 2 ^ (e + J)) by (apply Z.mul_pos_pos; [lia|apply pow2_pos; lia]).
  assert (Hq53 : Z.of_N q < p53).
  { destruct (Z.eq_dec r e) as [He|He].
    - rewrite <- He in *. nia.
    - assert (r < e) by (unfold e in *; lia).
      pose proof (pow2_lt (r + J) (e + J) Hre ltac:(lia)) as Hp. pose proof (pow2_pos (r + J) Hre).
      assert (HYY : Z.of_N d * 2 ^ (r + J) <= Z.of_N d * 2 ^ (e + J)) by (apply Z.mul_le_mono_nonneg_l; lia).
      assert (Hlt : Z.of_N q * (Z.of_N d * 2 ^ (e + J)) < p53 * (Z.of_N d * 2 ^ (e + J))) by (unfold p53 in *; lia).
      apply Z.mul_lt_mono_pos_r in Hlt; assumption. }
  assert (Hq52 : e = -1074 \/ p52 <= Z.of_N q).
  { destruct (Z.eq_dec e emin) as [|Hne]; [auto|]. right.
    assert (e = r) as He by (unfold e in *; lia). rewrite He in *. nia. }
  assert (Hemin : -1074 <= e) by (unfold e, emin; lia). clearbody e q.
  set (up := ((b <? 2 * (a mod b))%N || (b =? 2 * (a mod b))%N && N.odd q)).
  exists J, e, (Z.of_N q), (Z.of_N (if up then (q + 1)%N else q)).
  split; [unfold J; lia|]. split; [exact HeJ|]. split; [exact Hemin|]. split; [lia|]. split; [exact Hq52|]. split; [exact Hq|]. cbv zeta. rewrite Hr, <- Hb.
  split.
  - assert (Hodd : Z.odd (Z.of_N q) = N.odd q). { destruct q as [|[p|p|]]; reflexivity. }
    assert (Heven : Z.even (Z.of_N q) = negb (N.odd q)). { destruct q as [|[p|p|]]; reflexivity. }
    unfold up. destruct (N.ltb_spec b (2 * (a mod b))) as [H|H]; cbn [orb].
    + right. split; [lia|]. split; [nia|]. intro E. exfalso. nia.
    + destruct (N.eqb_spec b (2 * (a mod b))) as [E|E]; cbn [andb].
      * destruct (N.odd q) eqn:Eo; [right|left]; (split; [lia|]); (split; [nia|]); intros _; [rewrite Hodd|rewrite Heven]; auto.
      * left. split; [reflexivity|]. split; [nia|]. intro E'. exfalso. assert (2 * Z.of_N (a mod b) = Z.of_N b) by nia. lia.
  - set (q' := if up then (q + 1)%N else q). rewrite N2Z.id. destruct (N.eqb_spec q' two53) as [E|E].
    + rewrite E. reflexivity.
    + replace (Z.of_N q' =? p53) with false by (unfold p53, two53 in *; lia). reflexivity.
Qed.

(** no double between two neighbours *)
Lemma no_double_between d J e q m' e' : 0 < d -> 0 <= e + J -> 0 <= e' + J -> (e = -1074 \/ p52 <= q) -> 0 <= m' < p53 -> -1074 <= e' ->
  m' * (d * 2 ^ (e' + J)) <= q * (d * 2 ^ (e + J)) \/ (q + 1) * (d * 2 ^ (e + J)) <= m' * (d * 2 ^ (e' + J)).
Proof.
  intros Hd He He' Hq Hm Hmin. destruct (Z_le_gt_dec e e') as [Hle|Hgt].
  - assert (E : 2 ^ (e' + J) = 2 ^ (e' - e) * 2 ^ (e + J)) by (rewrite <- Z.pow_add_r by lia; f_equal; lia). rewrite E.
    set (Y := 2 ^ (e + J)). set (k := 2 ^ (e' - e)). assert (HY : 0 < Y) by (apply pow2_pos; lia).
    replace (m' * (d * (k * Y))) with ((m' * k) * (d * Y)) by ring. assert (0 < d * Y) by nia.
    destruct (Z_le_gt_dec (m' * k) q); [left|right]; apply Z.mul_le_mono_nonneg_r; lia.
  - left. destruct Hq as [->|Hq]; [lia|]. pose proof (pow2_lt (e' + J) (e + J) He' ltac:(lia)) as Hp. set (Y := 2 ^ (e + J)) in *. set (Y' := 2 ^ (e' + J)) in *.
    assert (0 < Y') by (apply pow2_pos; lia). unfold p52, p53 in *. clearbody Y Y'.
    assert (m' * Y' <= q * Y) by nia. nia.
Qed.

Definition dist (a b : Z) : Z := Z.abs (a - b).
Lemma nearest_z X Y q q' g : 0 < Y -> q * Y <= X < (q + 1) * Y ->
  ((q' = q /\ 2 * (X - q * Y) <= Y /\ (2 * (X - q * Y) = Y -> Z.even q = true)) \/
   (q' = q + 1 /\ Y <= 2 * (X - q * Y) /\ (2 * (X - q * Y) = Y -> Z.odd q = true))) ->
  g <= q * Y \/ (q + 1) * Y <= g ->
  dist X (q' * Y) <= dist X g /\ (dist X (q' * Y) = dist X g -> g <> q' * Y -> Z.even q' = true).
Proof.
  intros HY HX Hc Hg. unfold dist. assert (E1 : (q + 1) * Y = q * Y + Y) by ring. rewrite E1 in *. set (A := q * Y) in *.
  destruct Hc as [(-> & H1 & H2)|(-> & H1 & H2)].
  - fold A. clearbody A. split; [lia|]. intros E Hne. apply H2. lia.
  - rewrite E1. clearbody A. split; [lia|]. intros E Hne. rewrite Z.even_add. rewrite <- Z.negb_odd, H2; [reflexivity|]. lia.
Qed.

(** ** Specification: the value of a double, and the nearest one *)
Definition magnitude (m : N) (e : Z) : Q := inject_Z (Z.of_N m) * (2 # 1) ^ e.
Definition rational (n d : N) : Q := inject_Z (Z.of_N n) / inject_Z (Z.of_N d).
(** IEEE 754, 4.3.1 roundTiesToEven, for a magnitude [x] *)
Definition rounds (x : Q) (f : f64) : Prop :=
  match f with
  | FInf _ => (inject_Z (2 ^ 1024 - 2 ^ 970) <= x)%Q
  | FFin _ m e => (x < inject_Z (2 ^ 1024 - 2 ^ 970))%Q /\
      forall m' e', (m' < 2 ^ 53)%N -> -1074 <= e' <= 971 ->
        (Qabs (x - magnitude m e) <= Qabs (x - magnitude m' e'))%Q /\
        (Qabs (x - magnitude m e) == Qabs (x - magnitude m' e') -> ~ magnitude m' e' == magnitude m e -> N.even m = true)%Q
  end.

Lemma two_pow_q e J : 0 <= e + J -> 0 <= J -> ((2 # 1) ^ e * inject_Z (2 ^ J) == inject_Z (2 ^ (e + J)))%Q.
Proof.
  intros H1 H2. assert (E : forall k, 0 <= k -> (inject_Z (2 ^ k) == (2 # 1) ^ k)%Q) by (intros k Hk; change (2 # 1) with (inject_Z 2); apply Zpower_Qpower; exact Hk).
  rewrite !E by assumption. rewrite <- Qpower_plus by discriminate. reflexivity.
Qed.
Lemma scaled_dist n d m e J : (0 < d)%N -> 0 <= e + J -> 0 <= J ->
  (Qabs (rational n d - magnitude m e) * inject_Z (Z.of_N d * 2 ^ J) == inject_Z (dist (Z.of_N n * 2 ^ J) (Z.of_N m * (Z.of_N d * 2 ^ (e + J)))))%Q.
Proof.
  intros Hd H1 H2. unfold dist. assert (HP : 0 < Z.of_N d * 2 ^ J) by (apply Z.mul_pos_pos; [lia|apply pow2_pos; lia]).
  assert (E : (inject_Z (Z.of_N d * 2 ^ J) == Qabs (inject_Z (Z.of_N d * 2 ^ J)))%Q).
  { rewrite Qabs_pos; [reflexivity|]. change 0%Q with (inject_Z 0). rewrite <- Zle_Qle. lia. }
  rewrite E, <- Qabs_Qmult. transitivity (Qabs (inject_Z (Z.of_N n * 2 ^ J - Z.of_N m * (Z.of_N d * 2 ^ (e + J))))); [|reflexivity].
  apply Qabs_wd. unfold rational, magnitude. unfold Z.sub. rewrite inject_Z_plus, inject_Z_opp, !inject_Z_mult, <- (two_pow_q e J H1 H2).
  assert (Hnz : ~ (inject_Z (Z.of_N d) == 0)%Q). { intro C. change 0%Q with (inject_Z 0) in C. apply (proj1 (inject_Z_injective _ _)) in C. lia. }
  field. exact Hnz.
Qed.
Lemma scaled_mag d m e J : 0 <= e + J -> 0 <= J -> (magnitude m e * inject_Z (d * 2 ^ J) == inject_Z (Z.of_N m * (d * 2 ^ (e + J))))%Q.
Proof. intros H1 H2. unfold magnitude. rewrite !inject_Z_mult, <- (two_pow_q e J H1 H2). ring. Qed.
Lemma scaled_le n d c J : (0 < d)%N -> 0 <= J -> (inject_Z c <= rational n d)%Q <-> c * (Z.of_N d * 2 ^ J) <= Z.of_N n * 2 ^ J.
Proof.
  intros Hd HJ. unfold rational. pose proof (pow2_pos J HJ) as HP.
  assert (HZ : (0 < inject_Z (Z.of_N d))%Q) by (change 0%Q with (inject_Z 0); rewrite <- Zlt_Qlt; lia).
  split; intro H.
  - assert (K : (inject_Z c * inject_Z (Z.of_N d) <= inject_Z (Z.of_N n))%Q).
    { apply (Qmult_le_compat_r _ _ (inject_Z (Z.of_N d))) in H; [|apply Qlt_le_weak; exact HZ]. unfold Qdiv in H. rewrite <- Qmult_assoc in H. rewrite (Qmult_comm (/ _)) in H. rewrite Qmult_inv_r, Qmult_1_r in H; [exact H|].
      intro C. rewrite C in HZ. discriminate. }
    rewrite <- inject_Z_mult, <- Zle_Qle in K. nia.
  - apply Qle_shift_div_l; [exact HZ|]. rewrite <- inject_Z_mult, <- Zle_Qle. nia.
Qed.

Theorem round_rat_rounds neg n d : (0 < d)%N -> rounds (rational n d) (round_rat neg n d).
Proof.
  intro Hd. destruct (N.eq_dec n 0) as [->|Hn].
  - unfold round_rat. cbn [N.eqb rounds]. assert (E : (rational 0 d == 0)%Q) by (unfold rational, Qdiv; change (inject_Z (Z.of_N 0)) with 0%Q; ring).
    assert (E0 : (magnitude 0 emin == 0)%Q) by (unfold magnitude; change (inject_Z (Z.of_N 0)) with 0%Q; ring).
    split; [rewrite E; reflexivity|]. intros m' e' _ _. rewrite E, E0. split; [apply Qabs_nonneg|reflexivity].
  - destruct (round_cases neg n d ltac:(lia) Hd) as (J & e & q & q' & HJ & HeJ & Hmin & Hq & H52 & HX & Hc & ->). cbv zeta in Hc.
    set (X := Z.of_N n * 2 ^ J) in *. assert (HY : 0 < Z.of_N d * 2 ^ (e + J)) by (apply Z.mul_pos_pos; [lia|apply pow2_pos; lia]). set (Y := Z.of_N d * 2 ^ (e + J)) in *.
    assert (Hq' : q <= q' <= q + 1) by lia.
    (* the threshold, scaled *)
    pose proof (scaled_le n d (2 ^ 1024 - 2 ^ 970) J Hd ltac:(lia)) as HT. fold X in HT.
    assert (ET : (2 ^ 1024 - 2 ^ 970) * (Z.of_N d * 2 ^ J) = (2 * p53 - 1) * (Z.of_N d * 2 ^ (970 + J))).
    { rewrite (Z.pow_add_r 2 970 J) by lia. change (2 ^ 1024) with (2 * p53 * 2 ^ 970). ring. }
    rewrite ET in HT.
    (* overflow *)
    assert (Hover : (p53 <= q' /\ emax < e + 1) \/ emax < e -> (inject_Z (2 ^ 1024 - 2 ^ 970) <= rational n d)%Q).
    { intro Ho. apply HT. unfold emax in Ho. destruct (Z_lt_le_dec 971 e) as [Hbig|Hsmall].
      - assert (E : Y = Z.of_N d * 2 ^ (970 + J) * 2 ^ (e - 970)) by (unfold Y; rewrite <- Z.mul_assoc, <- Z.pow_add_r by lia; do 2 f_equal; lia).
        assert (4 <= 2 ^ (e - 970)) by (change 4 with (2 ^ 2); apply Z.pow_le_mono_r; lia). assert (p52 <= q) by lia.
        assert (0 < Z.of_N d * 2 ^ (970 + J)) by (apply Z.mul_pos_pos; [lia|apply pow2_pos; lia]). unfold p52, p53 in *. nia.
      - assert (e = 971) as -> by lia. assert (E : Y = 2 * (Z.of_N d * 2 ^ (970 + J))) by (unfold Y; replace (971 + J) with (Z.succ (970 + J)) by lia; rewrite Z.pow_succ_r by lia; ring).
        unfold p53 in *. nia. }
    (* a finite result *)
    assert (Hunder : e < 971 \/ (e = 971 /\ q' < p53) -> (rational n d < inject_Z (2 ^ 1024 - 2 ^ 970))%Q).
    { intro Hu. apply Qnot_le_lt. intro C. apply HT in C. destruct (Z_lt_le_dec e 971) as [Hs|Hb].
      - assert (2 ^ (e + J) <= 2 ^ (970 + J)) by (apply Z.pow_le_mono_r; lia). assert (Y <= Z.of_N d * 2 ^ (970 + J)) by (unfold Y; apply Z.mul_le_mono_nonneg_l; lia). unfold p53 in *. nia.
      - assert (e = 971) as -> by lia. assert (E : Y = 2 * (Z.of_N d * 2 ^ (970 + J))) by (unfold Y; replace (971 + J) with (Z.succ (970 + J)) by lia; rewrite Z.pow_succ_r by lia; ring).
        assert (Hq'53 : q' < p53) by lia. clear HT ET Hu. destruct Hc as [(-> & H1 & H2)|(-> & H1 & H2)].
        + destruct (Z.eq_dec q (p53 - 1)) as [->|].
          * destruct (Z.eq_dec (2 * (X - (p53 - 1) * Y)) Y) as [Et|]; [specialize (H2 Et); discriminate|]. unfold p53 in *. lia.
          * unfold p53 in *. nia.
        + unfold p53 in *. nia. }
    (* nearest *)
    assert (Hnear : forall mm ee, magnitude mm ee * inject_Z (Z.of_N d * 2 ^ J) == inject_Z (q' * Y) -> 0 <= ee + J -> (Z.even q' = true -> N.even mm = true) ->
      forall m' e', (m' < 2 ^ 53)%N -> -1074 <= e' <= 971 ->
        (Qabs (rational n d - magnitude mm ee) <= Qabs (rational n d - magnitude m' e'))%Q /\
        (Qabs (rational n d - magnitude mm ee) == Qabs (rational n d - magnitude m' e') -> ~ magnitude m' e' == magnitude mm ee -> N.even mm = true)%Q).
    { intros mm ee Hv Hee Hev m' e' Hm He'.
      assert (HP : (0 < inject_Z (Z.of_N d * 2 ^ J))%Q). { change 0%Q with (inject_Z 0). rewrite <- Zlt_Qlt. apply Z.mul_pos_pos; [lia|apply pow2_pos; lia]. }
      assert (HmZ : 0 <= Z.of_N m' < p53) by (unfold p53; apply N2Z.inj_lt in Hm; change (Z.of_N (2 ^ 53)) with 9007199254740992 in Hm; lia).
      destruct (nearest_z X Y q q' (Z.of_N m' * (Z.of_N d * 2 ^ (e' + J))) HY HX Hc) as (N1 & N2); [apply no_double_between; lia|].
      pose proof (scaled_dist n d mm ee J Hd Hee ltac:(lia)) as D1. pose proof (scaled_dist n d m' e' J Hd ltac:(lia) ltac:(lia)) as D2. fold X in D1, D2.
      rewrite (scaled_mag (Z.of_N d) mm ee J Hee ltac:(lia)) in Hv. apply (proj1 (inject_Z_injective _ _)) in Hv. rewrite Hv in D1.
      pose proof (scaled_mag (Z.of_N d) m' e' J ltac:(lia) ltac:(lia)) as M2. pose proof (scaled_mag (Z.of_N d) mm ee J Hee ltac:(lia)) as M1. rewrite Hv in M1.
      split.
      - apply (Qmult_le_r _ _ (inject_Z (Z.of_N d * 2 ^ J)) HP). rewrite D1, D2, <- Zle_Qle. exact N1.
      - intros Heq Hne. apply Hev, N2.
        + apply (proj1 (inject_Z_injective _ _)). rewrite <- D1, <- D2, Heq. reflexivity.
        + intro C. apply Hne. apply (Qmult_inj_r _ _ (inject_Z (Z.of_N d * 2 ^ J))); [intro C'; rewrite C' in HP; discriminate|]. rewrite M1, M2, C. reflexivity. }
    destruct (Z.eqb_spec q' p53) as [E53|E53].
    + destruct (Z.ltb_spec emax (e + 1)) as [Ho|Ho]; [cbn [rounds]; apply Hover; left; lia|]. cbn [rounds]. split; [apply Hunder; unfold emax in Ho; lia|].
      apply Hnear; [|lia|reflexivity]. rewrite (scaled_mag (Z.of_N d) two52 (e + 1) J ltac:(lia) ltac:(lia)). rewrite E53. unfold Y. replace (e + 1 + J) with (Z.succ (e + J)) by lia. rewrite Z.pow_succ_r by lia.
      apply (proj2 (inject_Z_injective _ _)). change p53 with (2 * Z.of_N two52). ring.
    + destruct (Z.ltb_spec emax e) as [Ho|Ho]; [cbn [rounds]; apply Hover; right; lia|]. cbn [rounds]. unfold emax in Ho. split; [apply Hunder; lia|].
      apply Hnear; [|lia|].
      * rewrite (scaled_mag (Z.of_N d) (Z.to_N q') e J HeJ ltac:(lia)). rewrite Z2N.id by lia. reflexivity.
      * intro Hev. assert (0 <= q') by lia. destruct q' as [|[p|p|]|p]; try discriminate; try reflexivity; lia.
Qed.

(** ** Decimals *)
Definition decimal (D : N) (k : Z) : Q := inject_Z (Z.of_N D) * (10 # 1) ^ k.
Theorem round_dec_rounds neg D k : rounds (decimal D k) (round_dec neg D k).
Proof.
  assert (W : forall x y f, (x == y)%Q -> rounds x f -> rounds y f).
  { intros x y f E. destruct f as [b m e|b]; cbn [rounds].
    - intros (H1 & H2). split; [rewrite <- E; exact H1|]. intros m' e' Hm He. rewrite <- E. exact (H2 m' e' Hm He).
    - rewrite E. auto. }
  destruct k as [|p|p]; cbn [round_dec]; (eapply W; [|apply round_rat_rounds; lia]); unfold rational, decimal.
  - unfold Qdiv. change (/ inject_Z (Z.of_N 1))%Q with 1%Q. rewrite Qmult_1_r. change ((10 # 1) ^ 0)%Q with 1%Q. ring.
  - unfold Qdiv. change (/ inject_Z (Z.of_N 1))%Q with 1%Q. rewrite Qmult_1_r, N2Z.inj_mul, inject_Z_mult. rewrite N2Z.inj_pow. cbn [Z.of_N]. rewrite Zpower_Qpower by lia. reflexivity.
  - rewrite N2Z.inj_pow. cbn [Z.of_N]. rewrite Zpower_Qpower by lia. unfold Qdiv. rewrite <- Qpower_opp. reflexivity.
Qed.
