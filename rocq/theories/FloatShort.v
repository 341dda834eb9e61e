(** * FloatShort: the decimal a double is printed as is the shortest that reads back (C29). *)
From Coq Require Import QArith Qabs Qpower Qfield Lqa.
From Verif Require Import Base Float Digits FloatFacts FloatNear PropFloat LitDenote.
Local Open Scope Z_scope.

(** ** Rounding and order *)
Lemma rounds_wd x y f : (x == y)%Q -> rounds x f -> rounds y f.
Proof.
  intros E. destruct f as [b m e|b]; cbn [rounds].
  - intros (H1 & H2). split; [rewrite <- E; exact H1|]. intros m' e' Hm He. rewrite <- E. exact (H2 m' e' Hm He).
  - rewrite E. auto.
Qed.
Lemma ten_pos k : (0 < (10 # 1) ^ k)%Q.
Proof. apply Qpower_0_lt. reflexivity. Qed.
Lemma two_pos k : (0 < (2 # 1) ^ k)%Q.
Proof. apply Qpower_0_lt. reflexivity. Qed.
Lemma ten_add a b : ((10 # 1) ^ (a + b) == (10 # 1) ^ a * (10 # 1) ^ b)%Q.
Proof. apply Qpower_plus. discriminate. Qed.
Lemma inj_N0 D : (0 <= inject_Z (Z.of_N D))%Q.
Proof. change 0%Q with (inject_Z 0). rewrite <- Zle_Qle. lia. Qed.
Lemma decimal_pos D k : (0 <= decimal D k)%Q.
Proof. unfold decimal. apply Qmult_le_0_compat; [apply inj_N0|apply Qlt_le_weak, ten_pos]. Qed.
Lemma round_is neg D k f : f64_valid f = true -> match f with FFin b _ _ | FInf b => b = neg end ->
  rounds (decimal D k) f -> round_dec neg D k = f.
Proof.
  intros Hv Hs Hr. apply (C29_nearest_is_unique (decimal D k)); try assumption; [apply decimal_pos|apply round_dec_valid|apply round_dec_rounds|].
  pose proof (round_dec_sign neg D k). destruct (round_dec neg D k), f; congruence || exact I.
Qed.
Lemma round_wd neg D k D' k' : (decimal D k == decimal D' k')%Q -> round_dec neg D k = round_dec neg D' k'.
Proof.
  intro E. apply round_is; [apply round_dec_valid|apply round_dec_sign|]. apply (rounds_wd (decimal D' k')); [symmetry; exact E|apply round_dec_rounds].
Qed.
(** the largest double *)
Lemma magnitude_bound m e : (m < 2 ^ 53)%N -> e <= 971 -> (magnitude m e <= inject_Z (2 ^ 1024 - 2 ^ 971))%Q.
Proof.
  intros Hm He. unfold magnitude. assert (E : ((2 # 1) ^ e <= (2 # 1) ^ 971)%Q).
  { replace 971 with (e + (971 - e)) by lia. rewrite Qpower_plus by discriminate. pose proof (two_pos e) as P.
    assert (H : (1 <= (2 # 1) ^ (971 - e))%Q) by (apply Qpower_1_le; [discriminate|lia]).
    apply (Qmult_le_l 1 _ _ P) in H. rewrite Qmult_1_r in H. exact H. }
  apply Qle_trans with (inject_Z (2 ^ 53 - 1) * (2 # 1) ^ 971)%Q.
  - apply Qle_trans with (inject_Z (2 ^ 53 - 1) * (2 # 1) ^ e)%Q.
    + apply Qmult_le_compat_r; [|apply Qlt_le_weak, two_pos]. rewrite <- Zle_Qle. apply N2Z.inj_lt in Hm. change (Z.of_N (2 ^ 53)) with (2 ^ 53) in Hm. lia.
    + rewrite !(Qmult_comm (inject_Z _)). apply Qmult_le_compat_r; [exact E|]. change 0%Q with (inject_Z 0). rewrite <- Zle_Qle. vm_compute. discriminate.
  - vm_compute. discriminate.
Qed.
Lemma abs_le_iff x y : (Qabs x <= y <-> -y <= x /\ x <= y)%Q.
Proof. apply Qabs_Qle_condition. Qed.
(** whatever lies between a decimal that reads as a double and that double reads as it too *)
Lemma rounds_between v w b m e : (m < 2 ^ 53)%N -> -1074 <= e <= 971 -> rounds v (FFin b m e) ->
  (v <= w /\ w <= magnitude m e)%Q \/ (magnitude m e <= w /\ w <= v)%Q -> rounds w (FFin b m e).
Proof.
  intros Hm He (H1 & H2) Hw. pose proof (magnitude_bound m e Hm (proj2 He)) as Hb.
  assert (Ht : (inject_Z (2 ^ 1024 - 2 ^ 971) < inject_Z (2 ^ 1024 - 2 ^ 970))%Q) by reflexivity. cbn [rounds].
  set (T := inject_Z (2 ^ 1024 - 2 ^ 970)) in *. set (T' := inject_Z (2 ^ 1024 - 2 ^ 971)) in *. clearbody T T'. set (X := magnitude m e) in *.
  split; [lra|]. intros m' e' Hm' He'. destruct (H2 m' e' Hm' He') as (A & B). fold X in A, B. set (g := magnitude m' e') in *. clearbody X g.
  destruct Hw as [(Hv & Hx)|(Hx & Hv)].
  - rewrite (Qabs_neg (v - X)) in A, B by lra. rewrite (Qabs_neg (w - X)) by lra. split.
    + revert A. apply Qabs_case; intros ?; apply Qabs_case; intros ? ?; lra.
    + intros E Hne. apply B; [|exact Hne]. revert A E. apply Qabs_case; intros ?; apply Qabs_case; intros ? ? ?; lra.
  - rewrite (Qabs_pos (v - X)) in A, B by lra. rewrite (Qabs_pos (w - X)) by lra. split.
    + revert A. apply Qabs_case; intros ?; apply Qabs_case; intros ? ?; lra.
    + intros E Hne. apply B; [|exact Hne]. revert A E. apply Qabs_case; intros ?; apply Qabs_case; intros ? ? ?; lra.
Qed.

(** ** How far apart doubles are *)
Lemma apart b m e m' e' : (0 < m)%N -> f64_valid (FFin b m e) = true -> (m' < 2 ^ 53)%N -> -1074 <= e' ->
  ~ (magnitude m' e' == magnitude m e)%Q -> (magnitude m e <= inject_Z (2 ^ 53) * Qabs (magnitude m' e' - magnitude m e))%Q.
Proof.
  intros Hm Hv Hm' He' Hne. destruct (valid_parts _ _ _ Hv) as (Hm53 & He & Hc).
  set (J := 1076). assert (HP : (0 < inject_Z (2 ^ J))%Q) by reflexivity.
  assert (S : forall m e, -1074 <= e -> (magnitude m e * inject_Z (2 ^ J) == inject_Z (Z.of_N m * (1 * 2 ^ (e + J))))%Q).
  { intros m0 e0 H0. rewrite <- (scaled_mag 1 m0 e0 J) by (unfold J; lia). rewrite Z.mul_1_l. reflexivity. }
  assert (HmZ : 0 <= Z.of_N m' < p53) by (unfold p53; apply N2Z.inj_lt in Hm'; rewrite two53_pow in Hm'; lia).
  assert (HmX : 0 < Z.of_N m < p53) by (unfold p53; apply N2Z.inj_lt in Hm53; rewrite two53_pow in Hm53; lia).
  set (G := Z.of_N m' * (1 * 2 ^ (e' + J))). set (X := Z.of_N m * (1 * 2 ^ (e + J))).
  assert (K : X <= 2 ^ 53 * Z.abs (G - X)).
  { assert (Hx : G <> X). { intro E. apply Hne. apply (Qmult_inj_r _ _ (inject_Z (2 ^ J))); [intro C; rewrite C in HP; discriminate|]. rewrite !S by lia. fold G X. rewrite E. reflexivity. }
    change (2 ^ 53) with p53. pose proof (pow2_pos (e + J) ltac:(unfold J; lia)) as HY.
    destruct (no_double_between 1 J e (Z.of_N m) (Z.of_N m') e' ltac:(lia) ltac:(unfold J; lia) ltac:(unfold J; lia) Hc HmZ He') as [Hb|Hb]; fold G in Hb.
    2: { unfold X in *. set (Y := 2 ^ (e + J)) in *. clearbody Y G. unfold p53 in *. nia. }
    assert (Hlt : G < X) by (unfold X in *; lia). destruct (Z.eq_dec e (-1074)) as [He0|He0]; [|destruct (Z.eq_dec (Z.of_N m) p52) as [Hp|Hp]].
    - destruct (no_double_between 1 J e (Z.of_N m - 1) (Z.of_N m') e' ltac:(lia) ltac:(unfold J; lia) ltac:(unfold J; lia) (or_introl He0) HmZ He') as [Hd|Hd]; fold G in Hd;
        unfold X in *; set (Y := 2 ^ (e + J)) in *; clearbody Y G; unfold p53 in *; nia.
    - destruct (no_double_between 1 J (e - 1) (p53 - 1) (Z.of_N m') e' ltac:(lia) ltac:(unfold J; lia) ltac:(unfold J; lia) ltac:(right; unfold p52, p53; lia) HmZ He') as [Hd|Hd]; fold G in Hd;
        unfold X in *; replace (2 ^ (e + J)) with (2 * 2 ^ (e - 1 + J)) in * by (rewrite <- Z.pow_succ_r by (unfold J; lia); f_equal; lia);
        pose proof (pow2_pos (e - 1 + J) ltac:(unfold J; lia)) as HY'; set (Y := 2 ^ (e - 1 + J)) in *; rewrite Hp in *; clearbody Y G; unfold p52, p53 in *; nia.
    - destruct Hc as [Hc|Hc]; [lia|].
      destruct (no_double_between 1 J e (Z.of_N m - 1) (Z.of_N m') e' ltac:(lia) ltac:(unfold J; lia) ltac:(unfold J; lia) ltac:(right; lia) HmZ He') as [Hd|Hd]; fold G in Hd;
        unfold X in *; set (Y := 2 ^ (e + J)) in *; clearbody Y G; unfold p52, p53 in *; nia. }
  apply (Qmult_le_r _ _ _ HP). rewrite <- Qmult_assoc.
  assert (E : (Qabs (magnitude m' e' - magnitude m e) * inject_Z (2 ^ J) == inject_Z (Z.abs (G - X)))%Q).
  { assert (E1 : (inject_Z (2 ^ J) == Qabs (inject_Z (2 ^ J)))%Q) by reflexivity. rewrite E1 at 1. rewrite <- Qabs_Qmult. transitivity (Qabs (inject_Z (G - X))); [|reflexivity].
    apply Qabs_wd. unfold Z.sub. rewrite inject_Z_plus, inject_Z_opp. unfold G, X. rewrite <- !S by lia. ring. }
  rewrite E, (S m e) by lia. fold X. rewrite <- inject_Z_mult, <- Zle_Qle. exact K.
Qed.

(** ** Digits *)
Lemma show_digits_shape fuel : forall n acc, (n < 2 ^ N.of_nat fuel)%N -> (0 < fuel)%nat -> (0 < n)%N ->
  exists c r, show_digits fuel n acc = (c :: r) ++ acc /\ c <> 48%N /\ (10 ^ N.of_nat (List.length r) <= n < 10 ^ N.of_nat (S (List.length r)))%N /\
    last (c :: r) 0%N = digit_char (n mod 10).
Proof.
  induction fuel as [|f IH]; intros n acc Hn Hf H0; [lia|]. cbn [show_digits].
  destruct (N.ltb_spec n 10) as [En|En].
  - exists (digit_char n), []. split; [reflexivity|]. split; [unfold digit_char; lia|]. split; [cbn; lia|]. rewrite N.mod_small by lia. reflexivity.
  - destruct f as [|f].
    { cbn in Hn. lia. }
    destruct (IH (n / 10)%N (digit_char (n mod 10) :: acc)) as (c & r & Hs & Hne & Hd & Hr).
    { apply N.div_lt_upper_bound; [lia|].
      replace (N.of_nat (S (S f))) with (N.succ (N.of_nat (S f))) in Hn by lia.
      rewrite N.pow_succ_r' in Hn. lia. }
    { lia. }
    { apply N.div_str_pos. lia. }
    exists c, (r ++ [digit_char (n mod 10)]). rewrite Hs. split; [cbn; rewrite <- app_assoc; reflexivity|]. split; [exact Hne|]. split.
    + rewrite app_length. cbn [List.length]. rewrite Nat.add_1_r. rewrite !Nat2N.inj_succ, !N.pow_succ_r' in *.
      pose proof (N.div_mod n 10 ltac:(lia)). pose proof (N.mod_lt n 10 ltac:(lia)). lia.
    + change (c :: r ++ [digit_char (n mod 10)]) with ((c :: r) ++ [digit_char (n mod 10)]). apply last_last.
Qed.
Lemma dec_shape n : (0 < n)%N -> exists c r, dec n = c :: r /\ c <> 48%N /\ (10 ^ N.of_nat (List.length r) <= n < 10 ^ N.of_nat (S (List.length r)))%N /\
    last (dec n) 0%N = digit_char (n mod 10).
Proof.
  intro H. unfold dec. destruct (show_digits_shape (S (N.size_nat n)) n []) as (c & r & Hs & Hr).
  - destruct n as [|p]; [cbn; lia|].
    assert (N.pos p < 2 ^ N.size (N.pos p))%N by apply N.size_gt.
    rewrite Nat2N.inj_succ, N.pow_succ_r'.
    replace (N.of_nat (N.size_nat (N.pos p))) with (N.size (N.pos p)); [lia|].
    clear. cbn [N.size N.size_nat]. induction p as [p IH|p IH|]; cbn [Pos.size Pos.size_nat]; rewrite ?Nat2N.inj_succ, <- ?IH; lia.
  - lia.
  - exact H.
  - rewrite app_nil_r in Hs. rewrite Hs. exists c, r. split; [reflexivity|]. exact Hr.
Qed.
Lemma ten_N n : (inject_Z (Z.of_N (10 ^ n)) == (10 # 1) ^ Z.of_N n)%Q.
Proof. rewrite N2Z.inj_pow. change (10 # 1) with (inject_Z 10). apply Zpower_Qpower. lia. Qed.
Lemma N_le_Q a b : (a <= b)%N <-> (inject_Z (Z.of_N a) <= inject_Z (Z.of_N b))%Q.
Proof. rewrite <- Zle_Qle. lia. Qed.
Lemma N_lt_Q a b : (a < b)%N <-> (inject_Z (Z.of_N a) < inject_Z (Z.of_N b))%Q.
Proof. rewrite <- Zlt_Qlt. lia. Qed.
Lemma dec_len_bounds n : (0 < n)%N -> ((10 # 1) ^ (dec_len n - 1) <= inject_Z (Z.of_N n) /\ inject_Z (Z.of_N n) < (10 # 1) ^ dec_len n)%Q.
Proof.
  intro H. destruct (dec_shape n H) as (c & r & E & _ & (H1 & H2) & _). unfold dec_len. rewrite E. cbn [List.length].
  apply N_le_Q in H1. apply N_lt_Q in H2. rewrite ten_N in H1, H2. rewrite nat_N_Z in H1, H2.
  replace (Z.of_nat (S (List.length r)) - 1) with (Z.of_nat (List.length r)) by lia. auto.
Qed.

(** ** Where the double lies among the decimals *)
Lemma dec_scaled_spec m e k a b : dec_scaled m e k = (a, b) -> (0 < b)%N /\
  (inject_Z (Z.of_N a) == magnitude m e * (10 # 1) ^ (- k) * inject_Z (Z.of_N b))%Q.
Proof.
  unfold dec_scaled.
  assert (P2 : forall p, (inject_Z (Z.of_N (2 ^ Npos p)) == (2 # 1) ^ Z.pos p)%Q) by (intro p; rewrite N2Z.inj_pow; change (2 # 1) with (inject_Z 2); apply Zpower_Qpower; lia).
  assert (P10 : forall p, (inject_Z (Z.of_N (10 ^ Npos p)) == (10 # 1) ^ Z.pos p)%Q) by (intro p; apply ten_N).
  assert (A : exists a0 b0, (match e with Z0 => (m, 1%N) | Zpos p => ((m * 2 ^ Npos p)%N, 1%N) | Zneg p => (m, (2 ^ Npos p)%N) end) = (a0, b0) /\ (0 < b0)%N /\
     (inject_Z (Z.of_N a0) == magnitude m e * inject_Z (Z.of_N b0))%Q).
  { destruct e as [|p|p]; eexists _, _; (split; [reflexivity|]); unfold magnitude.
    - split; [lia|]. change ((2 # 1) ^ 0)%Q with 1%Q. change (inject_Z (Z.of_N 1)) with 1%Q. ring.
    - split; [lia|]. rewrite N2Z.inj_mul, inject_Z_mult, P2. change (inject_Z (Z.of_N 1)) with 1%Q. ring.
    - split; [lia|]. rewrite P2. rewrite <- Qmult_assoc, <- Qpower_plus by discriminate. replace (Z.neg p + Z.pos p) with 0 by lia. change ((2 # 1) ^ 0)%Q with 1%Q. ring. }
  destruct A as (a0 & b0 & E & Hb & HA). rewrite E. destruct k as [|p|p]; intro H; apply pair_equal_spec in H as (<- & <-).
  - split; [exact Hb|]. change ((10 # 1) ^ (- 0))%Q with 1%Q. rewrite HA. ring.
  - split; [nia|]. rewrite N2Z.inj_mul, inject_Z_mult, P10, HA.
    assert (Z0 : ((10 # 1) ^ (- Z.pos p) * (10 # 1) ^ Z.pos p == 1)%Q) by (rewrite <- ten_add; replace (- Z.pos p + Z.pos p) with 0 by lia; reflexivity).
    transitivity (magnitude m e * inject_Z (Z.of_N b0) * ((10 # 1) ^ (- Z.pos p) * (10 # 1) ^ Z.pos p))%Q; [rewrite Z0; ring|ring].
  - split; [exact Hb|]. rewrite N2Z.inj_mul, inject_Z_mult, P10, HA. change (- Z.neg p) with (Z.pos p). ring.
Qed.
Lemma magnitude_pos m e : (0 < m)%N -> (0 < magnitude m e)%Q.
Proof. intro H. unfold magnitude. apply Qmult_lt_0_compat; [|apply two_pos]. change 0%Q with (inject_Z 0). rewrite <- Zlt_Qlt. lia. Qed.
Lemma ten_cancel k : ((10 # 1) ^ k * (10 # 1) ^ (- k) == 1)%Q.
Proof. rewrite <- ten_add. replace (k + - k) with 0 by lia. reflexivity. Qed.
Lemma dec_exp_spec m e : (0 < m)%N -> ((10 # 1) ^ (dec_exp m e - 1) <= magnitude m e /\ magnitude m e < (10 # 1) ^ dec_exp m e)%Q.
Proof.
  intro Hm. pose proof (magnitude_pos m e Hm) as HX. unfold dec_exp. destruct (dec_scaled m e 0) as (a, b) eqn:E. destruct (dec_scaled_spec _ _ _ _ _ E) as (Hb & HA).
  change ((10 # 1) ^ (- 0))%Q with 1%Q in HA. set (X := magnitude m e) in *. assert (HA' : (inject_Z (Z.of_N a) == X * inject_Z (Z.of_N b))%Q) by (rewrite HA; ring). clear HA.
  assert (Hb' : (0 < inject_Z (Z.of_N b))%Q) by (change 0%Q with (inject_Z (Z.of_N 0)); apply N_lt_Q; exact Hb).
  assert (Ha : (0 < a)%N). { apply N_lt_Q. change (inject_Z (Z.of_N 0)) with 0%Q. rewrite HA'. apply Qmult_lt_0_compat; assumption. }
  destruct (dec_len_bounds a Ha) as (A1 & A2). destruct (dec_len_bounds b Hb) as (B1 & B2). set (la := dec_len a) in *. set (lb := dec_len b) in *. set (g := la - lb).
  destruct (dec_scaled m e g) as (u, v) eqn:Eg. destruct (dec_scaled_spec _ _ _ _ _ Eg) as (Hv & HU). fold X in HU.
  assert (Hv' : (0 < inject_Z (Z.of_N v))%Q) by (change 0%Q with (inject_Z (Z.of_N 0)); apply N_lt_Q; exact Hv).
  set (A := inject_Z (Z.of_N a)) in *. set (B := inject_Z (Z.of_N b)) in *.
  assert (L : ((10 # 1) ^ (g - 1) <= X)%Q).
  { apply (Qmult_le_r _ _ _ Hb'). rewrite <- HA'. apply Qle_trans with ((10 # 1) ^ (la - 1))%Q; [|exact A1].
    replace (la - 1) with (g - 1 + lb) by (unfold g; lia). rewrite ten_add. pose proof (ten_pos (g - 1)). rewrite !(Qmult_comm ((10 # 1) ^ (g - 1))). apply Qmult_le_compat_r; [apply Qlt_le_weak; exact B2|apply Qlt_le_weak; assumption]. }
  assert (R : (X < (10 # 1) ^ (g + 1))%Q).
  { apply (Qmult_lt_r _ _ _ Hb'). rewrite <- HA'. apply Qlt_le_trans with ((10 # 1) ^ la)%Q; [exact A2|].
    replace la with (g + 1 + (lb - 1)) by (unfold g; lia). rewrite ten_add. pose proof (ten_pos (g + 1)). rewrite !(Qmult_comm ((10 # 1) ^ (g + 1))). apply Qmult_le_compat_r; [exact B1|apply Qlt_le_weak; assumption]. }
  assert (M : (u < v)%N <-> (X < (10 # 1) ^ g)%Q).
  { rewrite N_lt_Q, HU. pose proof (ten_pos g) as Pg. pose proof (ten_pos (- g)) as Pg'. pose proof (ten_cancel g) as Cg.
    set (t := ((10 # 1) ^ g)%Q) in *. set (t' := ((10 # 1) ^ (- g))%Q) in *. set (V := inject_Z (Z.of_N v)) in *.
    rewrite <- (Qmult_lt_r X t t' Pg'), Cg. rewrite <- (Qmult_lt_r (X * t') 1 V Hv'). rewrite Qmult_1_l. reflexivity. }
  destruct (N.ltb_spec u v) as [H|H].
  - split; [exact L|]. apply M. exact H.
  - split; [|exact R]. replace (g + 1 - 1) with g by lia. apply Qnot_lt_le. intro C. apply M in C. lia.
Qed.

(** ** The candidates *)
Lemma candidates_spec neg m e n : (0 < m)%N -> (1 <= n)%nat ->
  let X := magnitude m e in let k := dec_exp m e - Z.of_nat n in
  exists q c1 c2, candidates neg m e (dec_exp m e) n = [render_norm neg c1 k; render_norm neg c2 k] /\
    (c1 = q /\ c2 = q + 1 \/ c1 = q + 1 /\ c2 = q)%N /\
    (decimal q k <= X /\ X < decimal (q + 1) k)%Q /\ (10 ^ (N.of_nat n - 1) <= q < 10 ^ N.of_nat n)%N /\
    (Qabs (decimal c1 k - X) <= Qabs (decimal c2 k - X))%Q.
Proof.
  intros Hm Hn X k. destruct (dec_exp_spec m e Hm) as (L & R). fold X in L, R. unfold candidates. fold k. destruct (dec_scaled m e k) as (a, b) eqn:E.
  destruct (dec_scaled_spec _ _ _ _ _ E) as (Hb & HA). fold X in HA. set (q := (a / b)%N). set (r := (a mod b)%N).
  assert (Hr : (r < b)%N) by (apply N.mod_lt; lia). assert (Ea : a = (b * q + r)%N) by (apply N.div_mod; lia).
  assert (Hb' : (0 < inject_Z (Z.of_N b))%Q) by (change 0%Q with (inject_Z (Z.of_N 0)); apply N_lt_Q; exact Hb).
  pose proof (ten_pos k) as Pk. pose proof (ten_cancel k) as Ck.
  (* X * b = (b q + r) 10^k *)
  assert (EX : (X * inject_Z (Z.of_N b) == (inject_Z (Z.of_N b) * inject_Z (Z.of_N q) + inject_Z (Z.of_N r)) * (10 # 1) ^ k)%Q).
  { assert (E1 : (inject_Z (Z.of_N a) == inject_Z (Z.of_N b) * inject_Z (Z.of_N q) + inject_Z (Z.of_N r))%Q) by (rewrite Ea, N2Z.inj_add, N2Z.inj_mul, inject_Z_plus, inject_Z_mult; reflexivity).
    rewrite <- E1, HA. transitivity (X * inject_Z (Z.of_N b) * ((10 # 1) ^ k * (10 # 1) ^ (- k)))%Q; [rewrite Ck; ring|ring]. }
  assert (EQ1 : (inject_Z (Z.of_N (q + 1)) == inject_Z (Z.of_N q) + 1)%Q) by (rewrite N2Z.inj_add, inject_Z_plus; reflexivity).
  assert (G1 : (decimal q k <= X)%Q).
  { unfold decimal. apply (Qmult_le_r _ _ _ Hb'). rewrite EX. pose proof (inj_N0 r).
    assert (0 <= inject_Z (Z.of_N r) * (10 # 1) ^ k)%Q by (apply Qmult_le_0_compat; [assumption|apply Qlt_le_weak, Pk]). lra. }
  assert (G2 : (X < decimal (q + 1) k)%Q).
  { unfold decimal. apply (Qmult_lt_r _ _ _ Hb'). rewrite EX, EQ1. apply N_lt_Q in Hr.
    assert (inject_Z (Z.of_N r) * (10 # 1) ^ k < inject_Z (Z.of_N b) * (10 # 1) ^ k)%Q by (apply Qmult_lt_r; assumption). lra. }
  assert (Q1 : (10 ^ (N.of_nat n - 1) <= q < 10 ^ N.of_nat n)%N).
  { split.
    - assert (H : (10 ^ (N.of_nat n - 1) < q + 1)%N); [|lia]. apply N_lt_Q. apply (Qmult_lt_r _ _ _ Pk). fold (decimal (q + 1) k). apply Qle_lt_trans with X; [|exact G2].
      apply Qle_trans with ((10 # 1) ^ (dec_exp m e - 1))%Q; [|exact L]. rewrite ten_N, <- ten_add. replace (Z.of_N (N.of_nat n - 1) + k) with (dec_exp m e - 1) by (unfold k; lia). apply Qle_refl.
    - apply N_lt_Q. apply (Qmult_lt_r _ _ _ Pk). fold (decimal q k). apply Qle_lt_trans with X; [exact G1|].
      apply Qlt_le_trans with ((10 # 1) ^ dec_exp m e)%Q; [exact R|]. rewrite ten_N, <- ten_add. replace (Z.of_N (N.of_nat n) + k) with (dec_exp m e) by (unfold k; lia). apply Qle_refl. }
  assert (Cl : (b < 2 * r)%N <-> (decimal (q + 1) k - X < X - decimal q k)%Q).
  { unfold decimal. rewrite <- (Qmult_lt_r _ _ _ Hb').
    assert (T1 : ((inject_Z (Z.of_N (q + 1)) * (10 # 1) ^ k - X) * inject_Z (Z.of_N b) == (inject_Z (Z.of_N b) - inject_Z (Z.of_N r)) * (10 # 1) ^ k)%Q)
      by (rewrite EQ1; unfold Qminus; rewrite Qmult_plus_distr_l; rewrite <- Qopp_mult_distr_l || idtac; transitivity ((inject_Z (Z.of_N q) + 1) * (10 # 1) ^ k * inject_Z (Z.of_N b) - X * inject_Z (Z.of_N b))%Q; [ring|rewrite EX; ring]).
    assert (T2 : ((X - inject_Z (Z.of_N q) * (10 # 1) ^ k) * inject_Z (Z.of_N b) == inject_Z (Z.of_N r) * (10 # 1) ^ k)%Q)
      by (transitivity (X * inject_Z (Z.of_N b) - inject_Z (Z.of_N q) * (10 # 1) ^ k * inject_Z (Z.of_N b))%Q; [ring|rewrite EX; ring]).
    rewrite T1, T2. rewrite (Qmult_lt_r _ _ _ Pk). rewrite N_lt_Q, N2Z.inj_mul, inject_Z_mult. change (inject_Z (Z.of_N 2)) with 2%Q. split; intro; lra. }
  exists q. destruct (N.ltb_spec b (2 * r)) as [H|H].
  - exists (q + 1)%N, q. split; [reflexivity|]. split; [auto|]. split; [auto|]. split; [exact Q1|]. apply Cl in H. rewrite Qabs_pos by lra. rewrite (Qabs_neg (decimal q k - X)) by lra. lra.
  - exists q, (q + 1)%N. split; [reflexivity|]. split; [auto|]. split; [auto|]. split; [exact Q1|].
    assert (~ (decimal (q + 1) k - X < X - decimal q k)%Q) by (intro C; apply Cl in C; lia).
    rewrite (Qabs_neg (decimal q k - X)) by lra. rewrite Qabs_pos by lra. lra.
Qed.

(** ** Reading the candidates *)
Lemma read_render neg D k : float_read (render neg D k) = Some (round_dec neg D k).
Proof.
  destruct (render_spec neg D k) as (ip & fp & -> & H1 & _ & H3 & H4 & Hk). rewrite float_read_point by assumption. f_equal.
  assert (W : forall z, 0 <= z -> (decimal (D * 10 ^ Z.to_N z * 10) (-1) == decimal D z)%Q).
  { intros z Hz. unfold decimal. rewrite !N2Z.inj_mul, !inject_Z_mult, ten_N. rewrite Z2N.id by exact Hz. change ((10 # 1) ^ (-1))%Q with (1 # 10)%Q. change (inject_Z (Z.of_N 10)) with (10 # 1)%Q.
    transitivity (inject_Z (Z.of_N D) * (10 # 1) ^ z * ((10 # 1) * (1 # 10)))%Q; [ring|]. setoid_replace ((10 # 1) * (1 # 10))%Q with 1%Q by reflexivity. ring. }
  destruct k as [|p|p]; destruct Hk as (-> & ->).
  - apply round_wd. apply W. lia.
  - apply round_wd. apply W. lia.
  - replace (- Z.of_nat (Pos.to_nat p)) with (Z.neg p) by lia. reflexivity.
Qed.
Lemma drop_zero D k : (D mod 10 = 0)%N -> (decimal (D / 10) (k + 1) == decimal D k)%Q.
Proof.
  intro H. assert (E : D = (10 * (D / 10))%N) by (pose proof (N.div_mod D 10); lia). set (d := (D / 10)%N) in *. clearbody d. subst D. unfold decimal.
  rewrite N2Z.inj_mul, inject_Z_mult, ten_add. change ((10 # 1) ^ 1)%Q with (10 # 1)%Q. change (inject_Z (Z.of_N 10)) with (10 # 1)%Q. ring.
Qed.
Lemma read_norm neg D k : float_read (render_norm neg D k) = Some (round_dec neg D k).
Proof.
  unfold render_norm. destruct (N.eqb_spec (D mod 10) 0) as [E|E]; rewrite read_render; [|reflexivity]. f_equal. apply round_wd. apply drop_zero. exact E.
Qed.
Lemma f64_eqb_refl x : f64_eqb x x = true.
Proof. destruct x as [b m e|b]; cbn [f64_eqb]; rewrite ?eqb_reflx, ?N.eqb_refl, ?Z.eqb_refl; reflexivity. Qed.
Lemma reads_norm f neg D k : reads_as f (render_norm neg D k) = true <-> round_dec neg D k = f.
Proof.
  unfold reads_as. rewrite read_norm. split; [intro H; apply f64_eqb_eq in H; congruence|intros ->; apply f64_eqb_refl].
Qed.

(** ** Between neighbouring decimals of n digits there is none of at most n digits *)
Lemma grid n k q D' k' : (10 ^ (N.of_nat n - 1) <= q)%N -> (1 <= n)%nat -> (D' < 10 ^ N.of_nat n)%N ->
  (decimal D' k' <= decimal q k \/ decimal (q + 1) k <= decimal D' k')%Q.
Proof.
  intros Hq Hn HD. destruct (Z_le_gt_dec k k') as [Hk|Hk].
  - assert (E : (decimal D' k' == decimal (D' * 10 ^ Z.to_N (k' - k)) k)%Q).
    { unfold decimal. rewrite N2Z.inj_mul, inject_Z_mult, ten_N, Z2N.id by lia. rewrite <- Qmult_assoc, <- ten_add. replace (k' - k + k) with k' by lia. reflexivity. }
    rewrite E. set (D := (D' * _)%N). unfold decimal. pose proof (ten_pos k) as Pk. destruct (N.le_gt_cases D q) as [H|H].
    + left. apply (Qmult_le_r _ _ _ Pk). apply N_le_Q. exact H.
    + right. apply (Qmult_le_r _ _ _ Pk). apply N_le_Q. lia.
  - left. unfold decimal. apply Qle_trans with ((10 # 1) ^ (Z.of_nat n - 1 + k))%Q.
    + apply Qle_trans with ((10 # 1) ^ (Z.of_nat n) * (10 # 1) ^ k')%Q.
      * apply Qmult_le_compat_r; [|apply Qlt_le_weak, ten_pos]. apply N_lt_Q in HD. rewrite ten_N, nat_N_Z in HD. apply Qlt_le_weak. exact HD.
      * rewrite <- ten_add. replace (Z.of_nat n - 1 + k) with ((Z.of_nat n + k') + (k - 1 - k')) by lia. rewrite (ten_add (Z.of_nat n + k')).
        assert (H : (1 <= (10 # 1) ^ (k - 1 - k'))%Q) by (apply Qpower_1_le; [discriminate|lia]).
        apply (Qmult_le_l 1 _ _ (ten_pos (Z.of_nat n + k'))) in H. rewrite Qmult_1_r in H. exact H.
    + rewrite ten_add. apply Qmult_le_compat_r; [|apply Qlt_le_weak, ten_pos]. apply N_le_Q in Hq. rewrite ten_N in Hq. replace (Z.of_nat n - 1) with (Z.of_N (N.of_nat n - 1)) by lia. exact Hq.
Qed.

Section Show.
Variables (neg : bool) (m : N) (e : Z).
Hypothesis Hm : (0 < m)%N.
Hypothesis Hv : f64_valid (FFin neg m e) = true.
Notation f := (FFin neg m e).
Notation X := (magnitude m e).
Notation err D k := (Qabs (decimal D k - X)).

Lemma between_reads D k D' k' : round_dec neg D' k' = f ->
  (decimal D' k' <= decimal D k /\ decimal D k <= X)%Q \/ (X <= decimal D k /\ decimal D k <= decimal D' k')%Q -> round_dec neg D k = f /\ (err D k <= err D' k')%Q.
Proof.
  intros H Hb. destruct (valid_parts _ _ _ Hv) as (Hm53 & He & _). split.
  - apply round_is; [exact Hv|reflexivity|]. apply (rounds_between (decimal D' k')); try assumption. rewrite <- H. apply round_dec_rounds.
  - destruct Hb as [(H1 & H2)|(H1 & H2)]; [rewrite !Qabs_neg by lra|rewrite !Qabs_pos by lra]; lra.
Qed.
(** if some decimal of at most n digits reads as the double, a candidate of n digits does, and none is closer *)
Lemma found n D0 k0 : (1 <= n)%nat -> (D0 < 10 ^ N.of_nat n)%N -> round_dec neg D0 k0 = f ->
  exists c, let k := dec_exp m e - Z.of_nat n in
    find (reads_as f) (candidates neg m e (dec_exp m e) n) = Some (render_norm neg c k).
Proof.
  intros Hn HD HR. destruct (candidates_spec neg m e n Hm Hn) as (q & c1 & c2 & -> & Hc & (G1 & G2) & (Q1 & Q2) & Hcl). set (k := dec_exp m e - Z.of_nat n) in *. cbn [find].
  destruct (reads_as f (render_norm neg c1 k)) eqn:R1; [eauto|]. destruct (reads_as f (render_norm neg c2 k)) eqn:R2; [eauto|]. exfalso.
  assert (Z : round_dec neg q k = f \/ round_dec neg (q + 1) k = f).
  { destruct (grid n k q D0 k0 Q1 Hn HD) as [G|G]; [left|right]; (apply (between_reads _ _ D0 k0 HR)); [left|right]; split; try assumption. apply Qlt_le_weak. exact G2. }
  assert (R1' : round_dec neg c1 k <> f) by (intro C; apply reads_norm in C; congruence). assert (R2' : round_dec neg c2 k <> f) by (intro C; apply reads_norm in C; congruence).
  destruct Hc as [(-> & ->)|(-> & ->)]; tauto.
Qed.
Lemma found_inv n s : (1 <= n)%nat -> find (reads_as f) (candidates neg m e (dec_exp m e) n) = Some s ->
  exists c, let k := dec_exp m e - Z.of_nat n in s = render_norm neg c k /\ round_dec neg c k = f /\ (10 ^ (N.of_nat n - 1) <= c <= 10 ^ N.of_nat n)%N /\
    forall D' k', (D' < 10 ^ N.of_nat n)%N -> round_dec neg D' k' = f -> (err c k <= err D' k')%Q.
Proof.
  intros Hn. destruct (candidates_spec neg m e n Hm Hn) as (q & c1 & c2 & -> & Hc & (G1 & G2) & (Q1 & Q2) & Hcl). set (k := dec_exp m e - Z.of_nat n) in *. cbn [find].
  assert (Z : forall D' k', (D' < 10 ^ N.of_nat n)%N -> round_dec neg D' k' = f ->
     (round_dec neg q k = f /\ err q k <= err D' k')%Q \/ (round_dec neg (q + 1) k = f /\ err (q + 1) k <= err D' k')%Q).
  { intros D' k' HD HR. destruct (grid n k q D' k' Q1 Hn HD) as [G|G]; [left|right]; (apply (between_reads _ _ D' k' HR)); [left|right]; split; try assumption. apply Qlt_le_weak. exact G2. }
  destruct (reads_as f (render_norm neg c1 k)) eqn:R1.
  - intro H. exists c1. cbn zeta. split; [congruence|]. split; [apply reads_norm; exact R1|]. split; [destruct Hc as [(-> & ->)|(-> & ->)]; lia|].
    intros D' k' HD HR. destruct (Z D' k' HD HR) as [(_ & H1)|(_ & H1)]; destruct Hc as [(-> & ->)|(-> & ->)]; lra.
  - destruct (reads_as f (render_norm neg c2 k)) eqn:R2; [|discriminate]. intro H. exists c2. cbn zeta. split; [congruence|]. split; [apply reads_norm; exact R2|]. split; [destruct Hc as [(-> & ->)|(-> & ->)]; lia|].
    assert (R1' : round_dec neg c1 k <> f) by (intro C; apply reads_norm in C; congruence).
    intros D' k' HD HR. destruct (Z D' k' HD HR) as [(H0 & H1)|(H0 & H1)]; destruct Hc as [(-> & ->)|(-> & ->)]; tauto.
Qed.
(** seventeen digits are always enough *)
Lemma seventeen : find (reads_as f) (candidates neg m e (dec_exp m e) 17) <> None.
Proof.
  destruct (candidates_spec neg m e 17 Hm ltac:(lia)) as (q & c1 & c2 & -> & Hc & (G1 & G2) & (Q1 & Q2) & Hcl). set (k := dec_exp m e - Z.of_nat 17) in *. cbn [find].
  assert (R : reads_as f (render_norm neg c1 k) = true); [|rewrite R; discriminate]. apply reads_norm. apply round_is; [exact Hv|reflexivity|].
  destruct (valid_parts _ _ _ Hv) as (Hm53 & He & _). pose proof (magnitude_bound m e Hm53 (proj2 He)) as Hb. pose proof (magnitude_pos m e Hm) as HX.
  (* the error is at most half a unit of the 17th digit *)
  assert (U1 : (decimal (q + 1) k - decimal q k == (10 # 1) ^ k)%Q) by (unfold decimal; rewrite N2Z.inj_add, inject_Z_plus; change (inject_Z (Z.of_N 1)) with 1%Q; ring).
  assert (U2 : (inject_Z (10 ^ 16) * (10 # 1) ^ k <= X)%Q).
  { apply Qle_trans with (decimal q k); [|exact G1]. unfold decimal. apply Qmult_le_compat_r; [|apply Qlt_le_weak, ten_pos]. apply N_le_Q in Q1. exact Q1. }
  pose proof (ten_pos k) as Pk. set (u := ((10 # 1) ^ k)%Q) in *.
  assert (U3 : (2 * err c1 k <= u)%Q).
  { revert Hcl. destruct Hc as [(-> & ->)|(-> & ->)]; rewrite ?(Qabs_neg (decimal q k - X)) by lra; rewrite ?(Qabs_pos (decimal (q + 1) k - X)) by lra; intro; lra. }
  change (inject_Z (10 ^ 16)) with (10000000000000000 # 1)%Q in U2.
  cbn [rounds]. split.
  - assert (T1 : (inject_Z (2 ^ 1024 - 2 ^ 971) + inject_Z (2 ^ 1024 - 2 ^ 971) * (1 # 20000000000000000) < inject_Z (2 ^ 1024 - 2 ^ 970))%Q) by reflexivity.
    set (T := inject_Z (2 ^ 1024 - 2 ^ 970)) in *. set (T' := inject_Z (2 ^ 1024 - 2 ^ 971)) in *. clearbody T T' u. clear U1 G1 G2 Hcl.
    assert (A : (decimal c1 k - X <= err c1 k)%Q) by apply Qle_Qabs. set (z := err c1 k) in *. clearbody z. set (d := decimal c1 k) in *. clearbody d. lra.
  - intros m' e' Hm' He'. destruct (Qeq_dec (magnitude m' e') X) as [E|E]; [split; [rewrite E; apply Qle_refl|intros _ C; contradiction]|].
    pose proof (apart neg m e m' e' Hm Hv Hm' ltac:(lia) E) as Ap. change (inject_Z (2 ^ 53)) with (9007199254740992 # 1)%Q in Ap.
    assert (S : (err c1 k < Qabs (decimal c1 k - magnitude m' e'))%Q).
    { set (g := magnitude m' e') in *. set (d := decimal c1 k) in *. clearbody g d u. set (x := X) in *. clearbody x. clear - U3 U2 Ap HX Pk.
      revert U3 Ap. apply Qabs_case; intro; apply Qabs_case; intro; apply Qabs_case; intros; lra. }
    split; [apply Qlt_le_weak; exact S|]. intro C. exfalso. rewrite C in S. apply (Qlt_irrefl _ S).
Qed.
End Show.

Lemma find_flat_map {A B} (p : B -> bool) (g : A -> list B) l s : find p (flat_map g l) = Some s ->
  exists l1 a l2, l = l1 ++ a :: l2 /\ find p (g a) = Some s /\ forall x, In x l1 -> find p (g x) = None.
Proof.
  assert (Ap : forall x y, find p (x ++ y) = match find p x with Some b => Some b | None => find p y end).
  { induction x as [|b x IH]; intro y; [reflexivity|]. cbn [app find]. destruct (p b); [reflexivity|]. apply IH. }
  induction l as [|a l IH]; [discriminate|]. cbn [flat_map]. rewrite Ap. destruct (find p (g a)) eqn:E.
  - intro H. exists [], a, l. split; [reflexivity|]. split; [congruence|]. intros x [].
  - intro H. destruct (IH H) as (l1 & a' & l2 & -> & H1 & H2). exists (a :: l1), a', l2. split; [reflexivity|]. split; [exact H1|]. intros x [<-|Hx]; [exact E|apply H2; exact Hx].
Qed.
Lemma find_flat_map_none {A B} (p : B -> bool) (g : A -> list B) l : find p (flat_map g l) = None -> forall a, In a l -> find p (g a) = None.
Proof.
  intros H a Ha. destruct (find p (g a)) as [s|] eqn:E; [|reflexivity]. apply find_some in E as (E1 & E2). rewrite (find_none _ _ H s) in E2; [discriminate|]. apply in_flat_map. eauto.
Qed.
Lemma seq_split a b l1 n l2 : seq a b = l1 ++ n :: l2 -> (a <= n < a + b)%nat /\ forall x, (a <= x < n)%nat -> In x l1.
Proof.
  revert a l1. induction b as [|b IH]; intros a l1 H; [destruct l1; discriminate|]. cbn [seq] in H. destruct l1 as [|y l1]; cbn in H; injection H as E H.
  - subst. split; [lia|]. intros x Hx. lia.
  - subst y. destruct (IH (S a) l1 H) as (H1 & H2). split; [lia|]. intros x Hx. destruct (Nat.eq_dec a x) as [->|]; [left; reflexivity|right; apply H2; lia].
Qed.
Lemma zero_reads neg k : round_dec neg 0 k = FFin neg 0 (-1074).
Proof. destruct k; reflexivity. Qed.

(** ** The decimal printed *)
Theorem shown neg m e : (0 < m)%N -> f64_valid (FFin neg m e) = true -> exists D k,
  float_show (FFin neg m e) = Some (render neg D k) /\ (D mod 10 <> 0)%N /\ (D < 10 ^ 17)%N /\ round_dec neg D k = FFin neg m e /\
  (forall D' k', round_dec neg D' k' = FFin neg m e -> forall n, (D' < 10 ^ n)%N -> (D < 10 ^ n)%N) /\
  (forall D' k', round_dec neg D' k' = FFin neg m e -> (forall n, (D < 10 ^ n)%N -> (D' < 10 ^ n)%N) -> (Qabs (decimal D k - magnitude m e) <= Qabs (decimal D' k' - magnitude m e))%Q).
Proof.
  intros Hm Hv. unfold float_show. destruct (N.eqb_spec m 0) as [?|_]; [lia|]. unfold shortest. set (f := FFin neg m e).
  destruct (find (reads_as f) (flat_map (candidates neg m e (dec_exp m e)) (seq 1 17))) as [s|] eqn:F.
  2: { exfalso. apply (seventeen neg m e Hm Hv). apply (find_flat_map_none _ _ _ F). apply in_seq. lia. }
  apply find_flat_map in F as (l1 & n & l2 & El & Hs & Hbefore). apply seq_split in El as (Hn & Hl1).
  destruct (found_inv neg m e Hm Hv n s ltac:(lia) Hs) as (c & -> & HR & (C1 & C2) & Hcl). set (k := dec_exp m e - Z.of_nat n) in *.
  assert (P : forall D' k', round_dec neg D' k' = f -> forall j, (D' < 10 ^ j)%N -> (N.of_nat n <= j)%N).
  { intros D' k' HR' j Hj. destruct (N.le_gt_cases (N.of_nat n) j) as [|Hlt]; [assumption|]. exfalso.
    destruct (N.eq_dec j 0) as [->|Hj0]; [assert (D' = 0%N) as -> by (cbn in Hj; lia); rewrite zero_reads in HR'; unfold f in HR'; injection HR' as Ez _; lia|].
    destruct (found neg m e Hm Hv (N.to_nat j) D' k' ltac:(lia)) as (c' & Hf); [rewrite N2Nat.id; exact Hj|exact HR'|]. cbn zeta in Hf. change (FFin neg m e) with f in Hf.
    rewrite Hbefore in Hf; [discriminate|]. apply Hl1. lia. }
  assert (HnN : (10 ^ N.of_nat n <= 10 ^ 17)%N) by (apply N.pow_le_mono_r; lia).
  unfold render_norm. destruct (N.eqb_spec (c mod 10) 0) as [Ez|Ez].
  - (* a carry: only at one digit *)
    assert (HR2 : round_dec neg (c / 10) (k + 1) = f) by (transitivity (round_dec neg c k); [|exact HR]; apply round_wd, drop_zero; exact Ez).
    assert (Hten : c = (10 * (c / 10))%N) by (pose proof (N.div_mod c 10); lia).
    assert (n = 1)%nat.
    { destruct (Nat.eq_dec n 1) as [|H1]; [assumption|]. exfalso. assert (En : (10 ^ N.of_nat n = 10 * 10 ^ (N.of_nat n - 1))%N) by (rewrite <- N.pow_succ_r'; f_equal; lia).
      destruct (N.eq_dec c (10 ^ N.of_nat n)) as [Ec|Ec].
      - assert (HR3 : round_dec neg 1 (Z.of_nat n + k) = f).
        { transitivity (round_dec neg c k); [|exact HR]. apply round_wd. unfold decimal. rewrite Ec, ten_N, nat_N_Z, ten_add. change (inject_Z (Z.of_N 1)) with 1%Q. ring. }
        pose proof (P _ _ HR3 1%N ltac:(reflexivity)). lia.
      - assert ((c / 10 < 10 ^ (N.of_nat n - 1))%N) by lia. pose proof (P _ _ HR2 _ H). lia. }
    subst n. change (N.of_nat 1) with 1%N in *. change (10 ^ (1 - 1))%N with 1%N in C1. change (10 ^ 1)%N with 10%N in *. assert (c = 10%N) as -> by lia. change (10 / 10)%N with 1%N in *.
    exists 1%N, (k + 1). split; [reflexivity|]. split; [discriminate|]. split; [reflexivity|]. split; [exact HR2|]. split.
    + intros D' k' HR' j Hj. pose proof (P _ _ HR' j Hj). apply N.lt_le_trans with (10 ^ 1)%N; [reflexivity|]. apply N.pow_le_mono_r; lia.
    + intros D' k' HR' Hd. assert (E : (decimal 1 (k + 1) == decimal 10 k)%Q) by (apply (drop_zero 10); reflexivity). rewrite E. apply Hcl; [apply (Hd 1%N); reflexivity|exact HR'].
  - assert (Hlt : (c < 10 ^ N.of_nat n)%N).
    { destruct (N.eq_dec c (10 ^ N.of_nat n)) as [->|]; [|lia]. exfalso. apply Ez. replace (N.of_nat n) with (N.succ (N.of_nat n - 1)) by lia. rewrite N.pow_succ_r'. rewrite N.mul_comm. apply N.mod_mul. lia. }
    exists c, k. split; [reflexivity|]. split; [exact Ez|]. split; [lia|]. split; [exact HR|]. split.
    + intros D' k' HR' j Hj. pose proof (P _ _ HR' j Hj). apply N.lt_le_trans with (10 ^ N.of_nat n)%N; [exact Hlt|]. apply N.pow_le_mono_r; lia.
    + intros D' k' HR' Hd. apply Hcl; [apply Hd; exact Hlt|exact HR'].
Qed.
