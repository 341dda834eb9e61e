(** * FloatFacts: decimal digits, correct rounding, and the round trip of finite doubles. *)
From Verif Require Import Base Float.
From Verif Require Export Digits.
From Coq Require Import ZifyN ZifyNat ZifyBool.
Open Scope Z_scope.

(** ** Rounding. *)
Lemma scaled_spec n d e a b K : scaled n d e = (a, b) -> (0 < d)%N -> 0 <= K -> 0 <= e + K ->
  exists t, 0 < t /\ t * Z.of_N a = Z.of_N n * 2 ^ K /\ t * Z.of_N b = Z.of_N d * 2 ^ (e + K) /\ (0 < b)%N.
Proof.
  intros H Hd HK HeK. destruct e as [|p|p]; cbn [scaled] in H; apply pair_equal_spec in H as (<- & <-).
  - exists (2 ^ K). assert (0 < 2 ^ K) by (apply Z.pow_pos_nonneg; lia). repeat split; try lia.
    rewrite Z.add_0_l. lia.
  - exists (2 ^ K). assert (0 < 2 ^ K) by (apply Z.pow_pos_nonneg; lia).
    rewrite N2Z.inj_mul, N2Z.inj_pow. change (Z.of_N (N.pos p)) with (Z.pos p). change (Z.of_N 2) with 2.
    rewrite Z.pow_add_r by lia. repeat split; try lia.
  - exists (2 ^ (K - Z.pos p)). assert (0 < 2 ^ (K - Z.pos p)) by (apply Z.pow_pos_nonneg; lia).
    rewrite N2Z.inj_mul, N2Z.inj_pow. change (Z.of_N (N.pos p)) with (Z.pos p). change (Z.of_N 2) with 2.
    replace (2 ^ K) with (2 ^ Z.pos p * 2 ^ (K - Z.pos p)).
    2:{ rewrite <- Z.pow_add_r by lia. f_equal. lia. }
    replace (Z.neg p + K) with (K - Z.pos p) by lia. repeat split; try lia.
Qed.

(** the floor of n/(d 2^e), bracketed *)
Lemma scaled_floor n d e a b K : scaled n d e = (a, b) -> (0 < d)%N -> 0 <= K -> 0 <= e + K ->
  let q := Z.of_N (a / b)%N in let Y := Z.of_N d * 2 ^ (e + K) in
  q * Y <= Z.of_N n * 2 ^ K < (q + 1) * Y.
Proof.
  intros H Hd HK HeK. destruct (scaled_spec n d e a b K H Hd HK HeK) as (t & Ht & Ha & Hb & Hb0).
  cbn zeta. rewrite <- Ha, <- Hb, N2Z.inj_div.
  pose proof (Z.div_mod (Z.of_N a) (Z.of_N b) ltac:(lia)).
  pose proof (Z.mod_pos_bound (Z.of_N a) (Z.of_N b) ltac:(lia)). nia.
Qed.

Definition p52 := 4503599627370496.
Definition p53 := 9007199254740992.

Lemma pow2_lt a b : 0 <= a -> a < b -> 2 * 2 ^ a <= 2 ^ b.
Proof.
  intros Ha Hab. replace (2 * 2 ^ a) with (2 ^ (a + 1)).
  - apply Z.pow_le_mono_r; lia.
  - rewrite Z.pow_add_r by lia. lia.
Qed.
Lemma pow2_pos a : 0 <= a -> 0 < 2 ^ a.
Proof. intro. apply Z.pow_pos_nonneg; lia. Qed.

(** the unclamped exponent *)
Definition raw_exp (n d : N) : Z :=
  let e1 := (Z.of_N (N.log2 n) - Z.of_N (N.log2 d) - 53)%Z in
  let '(a, b) := scaled n d e1 in
  if (a / b <? two53)%N then e1 else (e1 + 1)%Z.
Lemma pick_raw n d : pick_exp n d = Z.max (raw_exp n d) emin.
Proof. unfold pick_exp, raw_exp. destruct (scaled _ _ _); reflexivity. Qed.

Lemma raw_exp_spec n d K : (0 < n)%N -> (0 < d)%N ->
  Z.of_N (N.log2 n) + Z.of_N (N.log2 d) + 100 <= K ->
  0 <= raw_exp n d + K /\
  p52 * (Z.of_N d * 2 ^ (raw_exp n d + K)) <= Z.of_N n * 2 ^ K < p53 * (Z.of_N d * 2 ^ (raw_exp n d + K)).
Proof.
  intros Hn Hd HK.
  set (ln := Z.of_N (N.log2 n)) in *. set (ld := Z.of_N (N.log2 d)) in *.
  assert (Hln0 : 0 <= ln) by (unfold ln; lia). assert (Hld0 : 0 <= ld) by (unfold ld; lia).
  assert (Hln : 2 ^ ln <= Z.of_N n < 2 * 2 ^ ln).
  { pose proof (N.log2_spec n Hn) as (H1 & H2).
    apply N2Z.inj_le in H1. apply N2Z.inj_lt in H2. rewrite N2Z.inj_pow in *. rewrite N2Z.inj_succ in H2.
    rewrite Z.pow_succ_r in H2 by lia. unfold ln. lia. }
  assert (Hld : 2 ^ ld <= Z.of_N d < 2 * 2 ^ ld).
  { pose proof (N.log2_spec d Hd) as (H1 & H2).
    apply N2Z.inj_le in H1. apply N2Z.inj_lt in H2. rewrite N2Z.inj_pow in *. rewrite N2Z.inj_succ in H2.
    rewrite Z.pow_succ_r in H2 by lia. unfold ld. lia. }
  unfold raw_exp. fold ln ld. set (e1 := ln - ld - 53).
  destruct (scaled n d e1) as (a, b) eqn:Es.
  pose proof (scaled_floor n d e1 a b K Es Hd ltac:(lia) ltac:(unfold e1; lia)) as Hq. cbn zeta in Hq.
  assert (Hlow : p52 * (Z.of_N d * 2 ^ (e1 + K)) <= Z.of_N n * 2 ^ K).
  { assert (H1 : Z.of_N d * 2 ^ (e1 + K) <= 2 * 2 ^ ld * 2 ^ (e1 + K)).
    { apply Z.mul_le_mono_nonneg_r; [apply Z.pow_nonneg; lia|lia]. }
    assert (H2 : p52 * (2 * 2 ^ ld * 2 ^ (e1 + K)) = 2 ^ ln * 2 ^ K).
    { unfold p52. change (4503599627370496) with (2 ^ 52). replace (2 ^ 52 * (2 * 2 ^ ld * 2 ^ (e1 + K))) with (2 ^ 53 * 2 ^ ld * 2 ^ (e1 + K)).
      - rewrite <- !Z.pow_add_r by (unfold e1; lia). f_equal. unfold e1. lia.
      - change (2 ^ 53) with (2 ^ 52 * 2). lia. }
    assert (H3 : 2 ^ ln * 2 ^ K <= Z.of_N n * 2 ^ K) by (apply Z.mul_le_mono_nonneg_r; [apply Z.pow_nonneg; lia|lia]).
    unfold p52 in *. lia. }
  assert (Hhigh : Z.of_N n * 2 ^ K < 2 * p53 * (Z.of_N d * 2 ^ (e1 + K))).
  { assert (H1 : 2 ^ ld * 2 ^ (e1 + K) <= Z.of_N d * 2 ^ (e1 + K)).
    { apply Z.mul_le_mono_nonneg_r; [apply Z.pow_nonneg; lia|lia]. }
    assert (H2 : 2 * p53 * (2 ^ ld * 2 ^ (e1 + K)) = 2 * 2 ^ ln * 2 ^ K).
    { unfold p53. change (2 * 9007199254740992) with (2 * 2 ^ 53).
      replace (2 * 2 ^ 53 * (2 ^ ld * 2 ^ (e1 + K))) with (2 * (2 ^ 53 * 2 ^ ld * 2 ^ (e1 + K))) by lia.
      replace (2 * 2 ^ ln * 2 ^ K) with (2 * (2 ^ ln * 2 ^ K)) by lia. f_equal.
      rewrite <- !Z.pow_add_r by (unfold e1; lia). f_equal. unfold e1. lia. }
    assert (H3 : Z.of_N n * 2 ^ K < 2 * 2 ^ ln * 2 ^ K) by (apply Z.mul_lt_mono_pos_r; [apply pow2_pos; lia|lia]).
    unfold p53 in *. lia. }
  assert (HY : 0 < Z.of_N d * 2 ^ (e1 + K)) by (apply Z.mul_pos_pos; [lia|apply pow2_pos; unfold e1; lia]).
  set (Y := Z.of_N d * 2 ^ (e1 + K)) in *. set (X := Z.of_N n * 2 ^ K) in *.
  destruct (a / b <? two53)%N eqn:El.
  - split; [unfold e1; lia|]. fold Y. split; [exact Hlow|].
    assert (Z.of_N (a / b) + 1 <= p53) by (unfold two53, p53 in *; lia). nia.
  - split; [unfold e1; lia|]. replace (e1 + 1 + K) with (Z.succ (e1 + K)) by lia.
    rewrite Z.pow_succ_r by (unfold e1; lia).
    replace (Z.of_N d * (2 * 2 ^ (e1 + K))) with (2 * Y) by (unfold Y; lia).
    assert (p53 <= Z.of_N (a / b)) by (unfold two53, p53 in *; lia).
    split; [|unfold p53 in *; lia].
    assert (p53 * Y <= X) by nia. unfold p52, p53 in *. lia.
Qed.

(** A positive rational that is exactly a double is rounded to that double. *)
Lemma round_exact neg n d m e K : (0 < m)%N -> f64_valid (FFin neg m e) = true -> (0 < d)%N ->
  0 <= K -> 0 <= e + K ->
  Z.of_N n * 2 ^ K = Z.of_N m * (Z.of_N d * 2 ^ (e + K)) ->
  round_rat neg n d = FFin neg m e.
Proof.
  intros Hm Hv Hd HK0 HeK0 Hx0.
  assert (Hn : (0 < n)%N).
  { assert (0 < Z.of_N n * 2 ^ K).
    { rewrite Hx0. apply Z.mul_pos_pos; [lia|]. apply Z.mul_pos_pos; [lia|apply pow2_pos; lia]. }
    destruct n; [lia|lia]. }
  (* a large scale *)
  set (J := K + Z.of_N (N.log2 n) + Z.of_N (N.log2 d) + 2000).
  assert (Hx : Z.of_N n * 2 ^ J = Z.of_N m * (Z.of_N d * 2 ^ (e + J))).
  { replace J with (K + (J - K)) by lia. replace (e + (K + (J - K))) with (e + K + (J - K)) by lia.
    rewrite !Z.pow_add_r by (unfold J; lia). nia. }
  destruct (raw_exp_spec n d J Hn Hd ltac:(unfold J; lia)) as (Hre & Hlo & Hhi).
  cbn [f64_valid] in Hv. rewrite !andb_true_iff, orb_true_iff in Hv. unfold two52, two53, emin, emax in Hv.
  assert (He : -1074 <= e <= 971) by lia.
  assert (Hm53 : Z.of_N m < p53) by (unfold p53; lia).
  set (r := raw_exp n d) in *.
  assert (Hpick : pick_exp n d = e).
  { rewrite pick_raw. fold r. unfold emin.
    rewrite Hx in Hlo, Hhi. assert (Hd' : 0 < Z.of_N d) by lia.
    assert (Hlo' : p52 * 2 ^ (r + J) <= Z.of_N m * 2 ^ (e + J)) by nia.
    assert (Hhi' : Z.of_N m * 2 ^ (e + J) < p53 * 2 ^ (r + J)) by nia.
    clear Hlo Hhi. pose proof (pow2_pos (r + J) Hre). pose proof (pow2_pos (e + J) ltac:(unfold J; lia)).
    destruct (Z.lt_trichotomy r e) as [Hlt|[Heq|Hgt]].
    - pose proof (pow2_lt (r + J) (e + J) Hre ltac:(lia)).
      assert (Z.of_N m < p52) by (unfold p52, p53 in *; nia). unfold p52 in *. lia.
    - lia.
    - pose proof (pow2_lt (e + J) (r + J) ltac:(unfold J; lia) ltac:(lia)). exfalso.
      unfold p52, p53 in *. nia. }
  unfold round_rat. destruct (N.eqb_spec n 0) as [|_]; [lia|]. rewrite Hpick.
  destruct (scaled n d e) as (a, b) eqn:Es.
  destruct (scaled_spec n d e a b J Es Hd ltac:(unfold J; lia) ltac:(unfold J; lia)) as (t & Ht & Ha & Hb & Hb0).
  assert (Hab : a = (m * b)%N).
  { apply N2Z.inj. rewrite N2Z.inj_mul. rewrite <- Hb in Hx. nia. }
  subst a. rewrite N.div_mul by lia. rewrite N.mod_mul by lia.
  replace ((b <? 2 * 0)%N) with false by lia. replace ((b =? 2 * 0)%N) with false by lia. cbn [orb andb].
  replace ((m =? two53)%N) with false by (unfold two53; lia).
  replace (emax <? e) with false by (unfold emax; lia). reflexivity.
Qed.

(** Whatever is rounded, the result is a canonical double. *)
Lemma round_valid neg n d : (0 < d)%N -> f64_valid (round_rat neg n d) = true.
Proof.
  intro Hd. unfold round_rat. destruct (N.eqb_spec n 0) as [|Hn0]; [reflexivity|].
  assert (Hn : (0 < n)%N) by lia.
  set (J := Z.of_N (N.log2 n) + Z.of_N (N.log2 d) + 2000).
  destruct (raw_exp_spec n d J Hn Hd ltac:(unfold J; lia)) as (Hre & Hlo & Hhi).
  rewrite pick_raw. set (r := raw_exp n d) in *.
  set (e := Z.max r emin). destruct (scaled n d e) as (a, b) eqn:Es.
  assert (HeJ : 0 <= e + J) by (unfold e; lia).
  pose proof (scaled_floor n d e a b J Es Hd ltac:(unfold J; lia) HeJ) as Hq. cbn zeta in Hq.
  set (q := (a / b)%N) in *.
  assert (HY : 0 < Z.of_N d * 2 ^ (e + J)) by (apply Z.mul_pos_pos; [lia|apply pow2_pos; lia]).
  assert (Hq53 : Z.of_N q < p53).
  { destruct (Z.eq_dec r e) as [He|He].
    - rewrite <- He in *. nia.
    - assert (r < e) by (unfold e in *; lia).
      pose proof (pow2_lt (r + J) (e + J) Hre ltac:(lia)) as Hp. pose proof (pow2_pos (r + J) Hre).
      assert (HYY : Z.of_N d * 2 ^ (r + J) <= Z.of_N d * 2 ^ (e + J)) by (apply Z.mul_le_mono_nonneg_l; lia).
      assert (Hlt : Z.of_N q * (Z.of_N d * 2 ^ (e + J)) < p53 * (Z.of_N d * 2 ^ (e + J))) by (unfold p53 in *; lia).
      apply Z.mul_lt_mono_pos_r in Hlt; assumption. }
  assert (Hq52 : e = emin \/ p52 <= Z.of_N q).
  { destruct (Z.eq_dec e emin) as [|Hne]; [auto|]. right.
    assert (e = r) as He by (unfold e in *; lia). rewrite He in *. nia. }
  set (up := ((b <? 2 * (a mod b))%N || (b =? 2 * (a mod b))%N && N.odd q)).
  assert (Hemin : emin <= e) by (unfold e; lia).
  set (q' := if up then (q + 1)%N else q).
  assert (Hq' : Z.of_N q <= Z.of_N q' <= Z.of_N q + 1) by (unfold q'; destruct up; lia).
  destruct (N.eqb_spec q' two53) as [E|E].
  - destruct (Z.ltb_spec emax (e + 1)); [reflexivity|]. cbn [f64_valid]. unfold two52, two53, emin, emax in *.
    rewrite !andb_true_iff, orb_true_iff. lia.
  - destruct (Z.ltb_spec emax e); [reflexivity|]. cbn [f64_valid]. unfold two52, two53, p52, p53, emin, emax in *.
    rewrite !andb_true_iff, orb_true_iff. lia.
Qed.
Lemma round_dec_valid neg D k : f64_valid (round_dec neg D k) = true.
Proof.
  destruct k; cbn [round_dec]; apply round_valid; try lia.
Qed.
Lemma round_sign neg n d : match round_rat neg n d with FFin b _ _ | FInf b => b = neg end.
Proof.
  unfold round_rat. destruct (n =? 0)%N; [reflexivity|]. destruct (scaled _ _ _) as (a, b).
  destruct (_ =? two53)%N; destruct (_ <? _); reflexivity.
Qed.

(** ** Reading positional notation. *)
Lemma span_digits_spec ds rest : forallb is_digit ds = true ->
  match rest with c :: _ => is_digit c = false | [] => True end ->
  span_digits (ds ++ rest) = (ds, rest).
Proof.
  intros Hd Hr. induction ds as [|c ds IH]; cbn [app].
  - destruct rest as [|c r]; [reflexivity|]. cbn. rewrite Hr. reflexivity.
  - cbn in Hd. apply andb_true_iff in Hd as (Hc & Hd). cbn [span_digits]. rewrite Hc, (IH Hd). reflexivity.
Qed.
Lemma not_minus (c : char) : is_digit c = true -> (c =? 45)%N = false.
Proof. unfold is_digit. lia. Qed.

Lemma float_read_point (neg : bool) (ip fp : text) : ip <> [] -> forallb is_digit ip = true -> forallb is_digit fp = true ->
  float_read ((if neg then [45%N] else []) ++ ip ++ [46%N] ++ fp) =
  Some (round_dec neg (read_digits 0 (ip ++ fp)) (- Z.of_nat (List.length fp))).
Proof.
  intros Hne Hi Hf. destruct ip as [|c ip]; [congruence|].
  assert (Hc : is_digit c = true) by (cbn in Hi; apply andb_true_iff in Hi; tauto).
  assert (H1 : span_digits ((c :: ip) ++ [46%N] ++ fp) = (c :: ip, [46%N] ++ fp)) by (apply span_digits_spec; [exact Hi|reflexivity]).
  assert (H2 : span_digits fp = (fp, [])).
  { rewrite <- (app_nil_r fp) at 1. apply span_digits_spec; [exact Hf|exact I]. }
  unfold float_read.
  destruct neg.
  - cbn [app]. replace (45 =? 45)%N with true by reflexivity. cbn [app] in H1. rewrite H1.
    replace (46 =? 46)%N with true by reflexivity. rewrite H2. reflexivity.
  - cbn [app]. rewrite (not_minus c Hc). cbn [app] in H1. rewrite H1.
    replace (46 =? 46)%N with true by reflexivity. rewrite H2. reflexivity.
Qed.

(** [dec.dec]: sign, at least one digit, a point, at least one digit *)
Definition float_shape (neg : bool) (s : text) : Prop :=
  exists (ip fp : text), s = (if neg then [45%N] else []) ++ ip ++ [46%N] ++ fp /\
    ip <> [] /\ fp <> [] /\ forallb is_digit ip = true /\ forallb is_digit fp = true.

Lemma zeros_digits n : forallb is_digit (zeros n) = true.
Proof. induction n; [reflexivity|exact IHn]. Qed.
Lemma zeros_length n : List.length (zeros n) = n.
Proof. apply repeat_length. Qed.
Lemma read_zeros a n : read_digits a (zeros n) = (a * 10 ^ N.of_nat n)%N.
Proof.
  revert a. induction n as [|n IH]; intro a; [cbn; lia|].
  change (zeros (S n)) with (48%N :: zeros n). rewrite read_digits_cons, IH. unfold digit_val.
  rewrite Nat2N.inj_succ, N.pow_succ_r'. lia.
Qed.

Lemma forallb_firstn {A} (f : A -> bool) n l : forallb f l = true -> forallb f (firstn n l) = true.
Proof. revert n. induction l as [|x l IH]; destruct n; cbn; auto. intro H. apply andb_true_iff in H as (-> & H). cbn. auto. Qed.
Lemma forallb_skipn {A} (f : A -> bool) n l : forallb f l = true -> forallb f (skipn n l) = true.
Proof. revert n. induction l as [|x l IH]; destruct n; cbn; auto. intro H. apply andb_true_iff in H as (_ & H). auto. Qed.

(** [render neg D k] read as decimal: D' * 10^k' with the same value *)
Lemma render_spec neg D k :
  exists (ip fp : text), render neg D k = (if neg then [45%N] else []) ++ ip ++ [46%N] ++ fp /\
    ip <> [] /\ fp <> [] /\ forallb is_digit ip = true /\ forallb is_digit fp = true /\
    match k with
    | Zneg p => read_digits 0 (ip ++ fp) = D /\ List.length fp = Pos.to_nat p
    | _ => read_digits 0 (ip ++ fp) = (D * 10 ^ Z.to_N k * 10)%N /\ List.length fp = 1%nat
    end.
Proof.
  assert (Hpos : forall z, 0 <= z ->
    exists (ip fp : text), (if neg then [45%N] else []) ++ dec D ++ (if (D =? 0)%N then [] else zeros (Z.to_nat z)) ++ [46%N; 48%N] = (if neg then [45%N] else []) ++ ip ++ [46%N] ++ fp /\
    ip <> [] /\ fp <> [] /\ forallb is_digit ip = true /\ forallb is_digit fp = true /\
    read_digits 0 (ip ++ fp) = (D * 10 ^ Z.to_N z * 10)%N /\ List.length fp = 1%nat).
  { intros z Hz. exists (dec D ++ (if (D =? 0)%N then [] else zeros (Z.to_nat z))), [48%N].
    rewrite <- !app_assoc. split; [reflexivity|]. split; [pose proof (dec_nonempty D); destruct (dec D); [congruence|discriminate]|].
    split; [discriminate|]. split.
    { rewrite forallb_app, dec_digits. destruct (D =? 0)%N; [reflexivity|]. apply zeros_digits. }
    split; [reflexivity|]. split; [|reflexivity].
    rewrite !read_digits_app, read_dec. destruct (N.eqb_spec D 0) as [->|_]; [reflexivity|].
    rewrite read_zeros. cbn. unfold digit_val. replace (N.of_nat (Z.to_nat z)) with (Z.to_N z) by lia. lia. }
  destruct k as [|p|p]; [apply (Hpos 0); lia|apply (Hpos (Z.pos p)); lia|].
  unfold render. set (ds := dec D). set (fl := Pos.to_nat p).
  destruct (Nat.ltb_spec fl (List.length ds)) as [Hl|Hl].
  - exists (firstn (List.length ds - fl) ds), (skipn (List.length ds - fl) ds). split; [reflexivity|].
    assert (Hf : List.length (firstn (List.length ds - fl) ds) = (List.length ds - fl)%nat) by (rewrite firstn_length; lia).
    assert (Hs : List.length (skipn (List.length ds - fl) ds) = fl) by (rewrite skipn_length; lia).
    split; [intro H; rewrite H in Hf; cbn [List.length] in Hf; lia|]. split; [intro H; rewrite H in Hs; cbn [List.length] in Hs; lia|].
    split; [apply forallb_firstn, dec_digits|]. split; [apply forallb_skipn, dec_digits|].
    rewrite firstn_skipn. split; [apply read_dec|exact Hs].
  - exists [48%N], (zeros (fl - List.length ds) ++ ds). split; [reflexivity|]. split; [discriminate|].
    split; [pose proof (dec_nonempty D); fold ds in H; destruct ds; [congruence|]; destruct (zeros _); discriminate|].
    split; [reflexivity|]. split; [rewrite forallb_app, zeros_digits; apply dec_digits|].
    rewrite app_length, zeros_length. split; [|lia].
    cbn [app]. rewrite read_digits_cons, read_digits_app, read_zeros. unfold digit_val. cbn. apply read_dec.
Qed.

Lemma render_shape neg D k : float_shape neg (render neg D k).
Proof. destruct (render_spec neg D k) as (ip & fp & H & H1 & H2 & H3 & H4 & _). exists ip, fp. auto. Qed.
Lemma render_norm_shape neg D k : float_shape neg (render_norm neg D k).
Proof. unfold render_norm. destruct (_ =? 0)%N; apply render_shape. Qed.

Lemma shortest_shape neg m e s : In s (shortest neg m e) -> float_shape neg s.
Proof.
  unfold shortest. intro H. apply in_flat_map in H as (n & _ & H). unfold candidates in H.
  destruct (dec_scaled _ _ _) as (a, b). destruct (_ <? _)%N; cbn in H;
    destruct H as [<-|[<-|[]]]; apply render_norm_shape.
Qed.

Lemma f64_eqb_eq x y : f64_eqb x y = true -> x = y.
Proof.
  destruct x, y; cbn; try discriminate.
  - rewrite !andb_true_iff. intros ((H1 & H2) & H3). apply eqb_prop in H1. apply N.eqb_eq in H2. apply Z.eqb_eq in H3. congruence.
  - intro H. apply eqb_prop in H. congruence.
Qed.

(** exact expansions read back *)
Lemma exact_reads neg m e : (0 < m)%N -> f64_valid (FFin neg m e) = true ->
  forall D k, exact_dec m e = (D, k) -> float_read (render neg D k) = Some (FFin neg m e).
Proof.
  intros Hm Hv D k Hx. destruct (render_spec neg D k) as (ip & fp & -> & H1 & _ & H3 & H4 & Hk).
  rewrite float_read_point by assumption.
  destruct e as [|p|p]; cbn [exact_dec] in Hx; apply pair_equal_spec in Hx as (<- & <-); destruct Hk as (Hr & Hl); rewrite Hr, Hl.
  - cbn [round_dec Z.of_nat Z.opp Pos.of_succ_nat Z.to_N]. f_equal.
    apply round_exact with (K := 0); try assumption; try lia.
  - cbn [round_dec Z.of_nat Z.opp Pos.of_succ_nat Z.to_N]. f_equal.
    apply round_exact with (K := 0); try assumption; try lia.
    rewrite N.pow_0_r, N.mul_1_r, !N2Z.inj_mul, N2Z.inj_pow, Z.add_0_r. cbn [Z.of_N]. set (2 ^ Z.pos p). lia.
  - replace (- Z.of_nat (Pos.to_nat p)) with (Z.neg p) by lia. cbn [round_dec]. f_equal.
    apply round_exact with (K := Z.pos p); try assumption; try lia.
    rewrite !N2Z.inj_mul, !N2Z.inj_pow. cbn [Z.of_N]. replace (Z.neg p + Z.pos p) with 0 by lia.
      change 10 with (5 * 2). rewrite Z.pow_mul_l, Z.pow_0_r. set (5 ^ Z.pos p). set (2 ^ Z.pos p). lia.
Qed.

(** ** Every finite double is printed, in the shape [digits.digits], and reads back. *)
Theorem float_show_reads x : f64_valid x = true -> f64_finite x = true ->
  exists s neg, float_show x = Some s /\ float_shape neg s /\ float_read s = Some x /\
    neg = match x with FFin n _ _ => n | FInf n => n end.
Proof.
  intros Hv Hf. destruct x as [neg m e|]; [|discriminate]. unfold float_show.
  destruct (N.eqb_spec m 0) as [->|Hm].
  - exists (render neg 0 0), neg. split; [reflexivity|]. split; [apply render_shape|].
    assert (e = emin).
    { cbn [f64_valid] in Hv. rewrite !andb_true_iff, orb_true_iff in Hv. unfold two52 in Hv. lia. }
    subst e. split; [|reflexivity]. destruct neg; reflexivity.
  - destruct (find (reads_as (FFin neg m e)) (shortest neg m e)) as [s|] eqn:Hs.
    + apply find_some in Hs as (Hin & Hr). exists s, neg. split; [reflexivity|].
      split; [eapply shortest_shape; exact Hin|]. unfold reads_as in Hr.
      destruct (float_read s) as [y|]; [|discriminate]. apply f64_eqb_eq in Hr. subst. auto.
    + destruct (exact_dec m e) as (D, k) eqn:Hx. exists (render neg D k), neg. split; [reflexivity|].
      split; [apply render_shape|]. split; [|reflexivity]. eapply exact_reads; try eassumption. lia.
Qed.

Lemma float_read_valid s x : float_read s = Some x -> f64_valid x = true.
Proof.
  unfold float_read. destruct (match s with c :: r => _ | [] => _ end) as (neg, s1).
  destruct (span_digits s1) as (ip, s2). destruct (match s2 with c :: r => _ | [] => _ end) as (fp, s3).
  destruct (match ip, fp with [], [] => true | _, _ => false end); [discriminate|].
  destruct s3 as [|c r].
  - intro H. injection H as <-. apply round_dec_valid.
  - destruct (_ || _); [|discriminate]. destruct (match r with c :: r' => _ | [] => _ end) as (eneg, r').
    destruct (span_digits r') as (ep, rest). destruct ep; [discriminate|]. destruct rest; [|discriminate].
    intro H. injection H as <-. apply round_dec_valid.
Qed.
