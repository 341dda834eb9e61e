(** * C29: how a double is written: the shortest decimal that reads back, in plain notation. *)
From Coq Require Import QArith Qabs Qpower Lqa.
From Verif Require Import Base Float Literal Digits Syn Ast Derive Grammar Spec FloatFacts FloatNear FloatText PropFloat LitDenote FloatShort Examples.
Local Open Scope Z_scope.

(** ** Specification *)
(** [plain s D k]: [s] is [digits.digits], with no zero in front of the integer part and none at
    the end of the fraction beyond the one digit there must be, and it denotes D * 10^k. *)
Definition plain (s : text) (D : N) (k : Z) : Prop := exists ip fp : text,
  s = ip ++ [46%N] ++ fp /\ ip <> [] /\ fp <> [] /\ forallb is_digit ip = true /\ forallb is_digit fp = true /\
  (hd 0%N ip = 48%N -> ip = [48%N]) /\ (last fp 0%N = 48%N -> fp = [48%N]) /\
  (decimal (read_digits 0 (ip ++ fp)) (- Z.of_nat (List.length fp)) == decimal D k)%Q.
(** The decimal D' * 10^k' reads as [f], by the definition of rounding. *)
Definition reads_as_double (D' : N) (k' : Z) (f : f64) : Prop := rounds (decimal D' k') f.

(** ** Plain notation is one text per number *)
Lemma digit_below c : is_digit c = true -> (digit_val c < 10)%N /\ c = (48 + digit_val c)%N.
Proof. unfold is_digit, digit_val. rewrite andb_true_iff, !N.leb_le. lia. Qed.
Lemma digits_inj : forall a b x y, List.length a = List.length b -> forallb is_digit a = true -> forallb is_digit b = true -> read_digits x a = read_digits y b -> x = y /\ a = b.
Proof.
  induction a as [|c a IH]; intros [|d b] x y Hl Ha Hb H; try discriminate; [split; [exact H|reflexivity]|].
  cbn [forallb] in Ha, Hb. apply andb_true_iff in Ha as (Hc & Ha). apply andb_true_iff in Hb as (Hd & Hb). rewrite !read_digits_cons in H. injection Hl as Hl.
  destruct (IH b _ _ Hl Ha Hb H) as (E & ->). destruct (digit_below c Hc) as (Bc & ->). destruct (digit_below d Hd) as (Bd & ->). set (u := digit_val c) in *. set (v := digit_val d) in *. clearbody u v. split; [lia|f_equal; lia].
Qed.
Lemma read_split x a : read_digits x a = (x * 10 ^ N.of_nat (List.length a) + read_digits 0 a)%N.
Proof.
  revert x. induction a as [|c a IH]; intro x; [cbn; lia|]. rewrite !read_digits_cons, (IH (x * 10 + _)%N), (IH (0 * 10 + _)%N). cbn [List.length]. rewrite Nat2N.inj_succ, N.pow_succ_r'. lia.
Qed.
Lemma read_below a : forallb is_digit a = true -> (read_digits 0 a < 10 ^ N.of_nat (List.length a))%N.
Proof.
  induction a as [|c a IH]; [reflexivity|]. cbn [forallb]. intro H. apply andb_true_iff in H as (Hc & Ha). destruct (digit_below c Hc) as (Bc & _). specialize (IH Ha).
  rewrite read_digits_cons, read_split. cbn [List.length]. rewrite Nat2N.inj_succ, N.pow_succ_r'. nia.
Qed.
Lemma read_above c a : is_digit c = true -> c <> 48%N -> (10 ^ N.of_nat (List.length a) <= read_digits 0 (c :: a))%N.
Proof. intros Hc Hn. destruct (digit_below c Hc) as (_ & E). rewrite read_digits_cons, read_split. assert (1 <= digit_val c)%N by lia. nia. Qed.
Lemma read_last a : forallb is_digit a = true -> a <> [] -> last a 0%N = (48 + read_digits 0 a mod 10)%N.
Proof.
  intros Ha Hn. destruct (exists_last Hn) as (r & c & ->). rewrite last_last, read_digits_app. rewrite forallb_app in Ha. apply andb_true_iff in Ha as (_ & Hc). cbn [forallb] in Hc. rewrite andb_true_r in Hc.
  destruct (digit_below c Hc) as (B & E). change (read_digits (read_digits 0 r) [c]) with (read_digits 0 r * 10 + digit_val c)%N. rewrite (N.add_comm (_ * 10)), N.mod_add by lia. rewrite N.mod_small by exact B. exact E.
Qed.
Lemma no_leading_zero ip ip' : forallb is_digit ip = true -> forallb is_digit ip' = true -> ip <> [] -> (hd 0%N ip = 48%N -> ip = [48%N]) -> (hd 0%N ip' = 48%N -> ip' = [48%N]) ->
  read_digits 0 ip = read_digits 0 ip' -> (List.length ip' <= List.length ip)%nat.
Proof.
  intros H1 H2 Hn Z1 Z2 E. destruct (le_lt_dec (List.length ip') (List.length ip)) as [|Hlt]; [assumption|]. exfalso.
  destruct ip' as [|c r]; [cbn in Hlt; lia|]. assert (Hc : c <> 48%N). { intro C. specialize (Z2 C). rewrite Z2 in Hlt. destruct ip; [congruence|]. cbn in Hlt. lia. }
  cbn [forallb] in H2. apply andb_true_iff in H2 as (Dc & _). pose proof (read_above c r Dc Hc). pose proof (read_below ip H1).
  assert (10 ^ N.of_nat (List.length ip) <= 10 ^ N.of_nat (List.length r))%N by (apply N.pow_le_mono_r; [lia|]; cbn in Hlt; lia). lia.
Qed.
Lemma same_value A a B b : (decimal A (- Z.of_nat a) == decimal B (- Z.of_nat b))%Q <-> (A * 10 ^ N.of_nat b = B * 10 ^ N.of_nat a)%N.
Proof.
  assert (W : forall D n j, (decimal D (- Z.of_nat n) * (10 # 1) ^ (Z.of_nat n + Z.of_nat j) == inject_Z (Z.of_N (D * 10 ^ N.of_nat j)))%Q).
  { intros D n j. unfold decimal. rewrite N2Z.inj_mul, inject_Z_mult, ten_N, nat_N_Z, <- Qmult_assoc, <- ten_add. replace (- Z.of_nat n + (Z.of_nat n + Z.of_nat j)) with (Z.of_nat j) by lia. reflexivity. }
  pose proof (W A a b) as WA. pose proof (W B b a) as WB. rewrite (Z.add_comm (Z.of_nat b)) in WB. pose proof (ten_pos (Z.of_nat a + Z.of_nat b)) as P. split; intro H.
  - apply N2Z.inj. apply (proj1 (inject_Z_injective _ _)). rewrite <- WA, <- WB, H. reflexivity.
  - apply (Qmult_inj_r _ _ ((10 # 1) ^ (Z.of_nat a + Z.of_nat b))); [intro C; rewrite C in P; discriminate|]. rewrite WA, WB, H. reflexivity.
Qed.
Lemma fraction_ends A a B b : (A * 10 ^ N.of_nat b = B * 10 ^ N.of_nat a)%N -> (a < b)%nat -> (B mod 10 = 0)%N.
Proof.
  intros E H. replace (N.of_nat b) with (N.of_nat (b - a) + N.of_nat a)%N in E by lia. rewrite N.pow_add_r, N.mul_assoc in E. apply N.mul_cancel_r in E; [|apply N.pow_nonzero; lia].
  subst B. replace (N.of_nat (b - a)) with (N.succ (N.of_nat (b - a - 1))) by lia. rewrite N.pow_succ_r'. replace (A * (10 * 10 ^ N.of_nat (b - a - 1)))%N with (A * 10 ^ N.of_nat (b - a - 1) * 10)%N by ring. apply N.mod_mul. lia.
Qed.
(** A number has one plain notation. *)
Theorem C29_plain_notation_is_unique : forall s s' D k, plain s D k -> plain s' D k -> s = s'.
Proof.
  intros s s' D k (ip & fp & -> & N1 & N2 & D1 & D2 & Z1 & Z2 & V) (ip' & fp' & -> & N1' & N2' & D1' & D2' & Z1' & Z2' & V').
  rewrite <- V' in V. clear V'. apply same_value in V.
  assert (Hl : List.length fp = List.length fp').
  { assert (La : forall q r, forallb is_digit q = true -> forallb is_digit r = true -> r <> [] -> last r 0%N = (48 + read_digits 0 (q ++ r) mod 10)%N).
    { intros q r Hq Hr Hn. rewrite <- read_last; [|rewrite forallb_app, Hq; exact Hr|destruct q; [exact Hn|discriminate]]. destruct (exists_last Hn) as (r0 & c & ->). rewrite app_assoc, !last_last. reflexivity. }
    destruct (lt_eq_lt_dec (List.length fp) (List.length fp')) as [[H|H]|H]; [|exact H|]; exfalso.
    - pose proof (fraction_ends _ _ _ _ V H) as E. rewrite (Z2' ltac:(rewrite (La ip' fp' D1' D2' N2'), E; reflexivity)) in H. destruct fp; [congruence|cbn in H; lia].
    - symmetry in V. pose proof (fraction_ends _ _ _ _ V H) as E. rewrite (Z2 ltac:(rewrite (La ip fp D1 D2 N2), E; reflexivity)) in H. destruct fp'; [congruence|cbn in H; lia]. }
  rewrite Hl in V. apply N.mul_cancel_r in V; [|apply N.pow_nonzero; lia]. rewrite !read_digits_app in V.
  destruct (digits_inj fp fp' _ _ Hl D2 D2' V) as (E & <-).
  assert (Hi : List.length ip = List.length ip') by (apply Nat.le_antisymm; [apply (no_leading_zero ip' ip)|apply (no_leading_zero ip ip')]; auto).
  destruct (digits_inj ip ip' _ _ Hi D1 D1' E) as (_ & <-). reflexivity.
Qed.
Print Assumptions C29_plain_notation_is_unique.

(** ** What is printed *)
Lemma render_plain neg D k : (D mod 10 <> 0)%N -> exists s, render neg D k = (if neg then [45%N] else []) ++ s /\ plain s D k.
Proof.
  intro HD. assert (H0 : (0 < D)%N) by (destruct D; [exfalso; apply HD; reflexivity|lia]). destruct (dec_shape D H0) as (c & r & Ed & Hc & _ & Hlast).
  assert (Hl : last (dec D) 0%N <> 48%N) by (rewrite Hlast; unfold digit_char; lia).
  assert (Hdd : forallb is_digit (dec D) = true) by apply dec_digits. set (ds := dec D) in *.
  assert (Hv : read_digits 0 ds = D) by apply read_dec.
  assert (Hpos : forall z, 0 <= z -> plain ((ds ++ zeros (Z.to_nat z)) ++ [46%N; 48%N]) D z).
  { intros z Hz. exists (ds ++ zeros (Z.to_nat z)), [48%N]. split; [reflexivity|]. split; [rewrite Ed; discriminate|]. split; [discriminate|]. split; [rewrite forallb_app, Hdd; apply zeros_digits|]. split; [reflexivity|].
    split; [rewrite Ed; cbn; congruence|]. split; [reflexivity|]. rewrite !read_digits_app, Hv, read_zeros. change (- Z.of_nat (List.length [48%N])) with (-1). unfold decimal. change (read_digits (D * 10 ^ N.of_nat (Z.to_nat z)) [48%N]) with (D * 10 ^ N.of_nat (Z.to_nat z) * 10 + 0)%N.
    rewrite N.add_0_r, !N2Z.inj_mul, !inject_Z_mult, ten_N, nat_N_Z, Z2Nat.id by exact Hz. change ((10 # 1) ^ (-1))%Q with (1 # 10)%Q. change (inject_Z (Z.of_N 10)) with (10 # 1)%Q.
    transitivity (inject_Z (Z.of_N D) * (10 # 1) ^ z * ((10 # 1) * (1 # 10)))%Q; [ring|]. setoid_replace ((10 # 1) * (1 # 10))%Q with 1%Q by reflexivity. ring. }
  unfold render. fold ds. replace (D =? 0)%N with false by (symmetry; apply N.eqb_neq; lia). destruct k as [|p|p].
  - eexists. split; [reflexivity|]. rewrite app_assoc. apply (Hpos 0). lia.
  - eexists. split; [reflexivity|]. rewrite app_assoc. apply (Hpos (Z.pos p)). lia.
  - eexists. split; [reflexivity|]. set (fl := Pos.to_nat p). assert (Hfl : (1 <= fl)%nat) by (unfold fl; lia). replace (Z.neg p) with (- Z.of_nat fl) by (unfold fl; lia).
    destruct (Nat.ltb_spec fl (List.length ds)) as [Hlt|Hge].
    + set (j := (List.length ds - fl)%nat). assert (Hs : List.length (skipn j ds) = fl) by (rewrite skipn_length; unfold j; lia).
      assert (Hj : (1 <= j)%nat) by (unfold j; lia). assert (Ns : skipn j ds <> []) by (intro C; rewrite C in Hs; cbn in Hs; lia).
      assert (Ls : last (skipn j ds) 0%N = last ds 0%N). { rewrite <- (firstn_skipn j ds) at 2. destruct (exists_last Ns) as (a & b & ->). rewrite app_assoc, !last_last. reflexivity. }
      exists (firstn j ds), (skipn j ds). split; [reflexivity|]. split; [rewrite Ed; destruct j; [lia|discriminate]|]. split; [exact Ns|]. split; [apply forallb_firstn; exact Hdd|]. split; [apply forallb_skipn; exact Hdd|].
      split; [rewrite Ed; destruct j; [lia|]; cbn; congruence|]. split; [rewrite Ls; congruence|]. rewrite firstn_skipn, Hs, Hv. reflexivity.
    + exists [48%N], (zeros (fl - List.length ds) ++ ds). assert (Nd : ds <> []) by (rewrite Ed; discriminate). split; [reflexivity|]. split; [discriminate|].
      split; [destruct (zeros _); [exact Nd|discriminate]|]. split; [reflexivity|]. split; [rewrite forallb_app, zeros_digits; exact Hdd|]. split; [reflexivity|].
      split; [destruct (exists_last Nd) as (a & b & Eb); rewrite Eb in *; rewrite app_assoc, last_last in *; congruence|].
      rewrite app_length, zeros_length. replace (fl - List.length ds + List.length ds)%nat with fl by lia. cbn [app]. rewrite read_digits_cons, read_digits_app, read_zeros. change (0 * 10 + digit_val 48)%N with 0%N. rewrite N.mul_0_l, Hv. reflexivity.
Qed.

(** A finite double other than zero is written in plain notation, after a minus sign if it is
    negative; the decimal written reads as the double; no decimal with fewer significant digits
    does, and none with as many that does is closer.  Seventeen digits always suffice. *)
Theorem C29_prints_shortest : forall (U : unicode) neg m e sp, f64_valid (FFin neg m e) = true -> (0 < m)%N ->
  exists s D k,
    print (VLit (LFloat (FFin neg m e)) sp) = Some ((if neg then [TPunct 45 Alone sp] else []) ++ [TLit s sp]) /\
    plain s D k /\ reads_as_double D k (FFin neg m e) /\ (D < 10 ^ 17)%N /\ (D mod 10 <> 0)%N /\
    forall D' k', reads_as_double D' k' (FFin neg m e) ->
      (forall n, D' < 10 ^ n -> D < 10 ^ n)%N /\
      ((forall n, D < 10 ^ n -> D' < 10 ^ n)%N -> (Qabs (decimal D k - magnitude m e) <= Qabs (decimal D' k' - magnitude m e))%Q).
Proof.
  intros U neg m e sp Hv Hm. destruct (shown neg m e Hm Hv) as (D & k & Hs & Hz & H17 & HR & Hmin & Hcl). destruct (render_plain neg D k Hz) as (s & Er & Hp).
  exists s, D, k. split.
  { change (option_map (fun r => push_lit r sp) (float_show (FFin neg m e)) = Some ((if neg then [TPunct 45 Alone sp] else []) ++ [TLit s sp])). rewrite Hs, Er. cbn [option_map]. f_equal.
    destruct neg; [reflexivity|]. destruct Hp as (ip & fp & -> & Hn & _ & Hd & _). destruct ip as [|c ip]; [congruence|]. cbn [app]. cbn [forallb] in Hd. apply andb_true_iff in Hd as (Hc & _). unfold push_lit. rewrite (not_minus c Hc). reflexivity. }
  split; [exact Hp|]. split; [unfold reads_as_double; rewrite <- HR; apply round_dec_rounds|]. split; [exact H17|]. split; [exact Hz|].
  intros D' k' HD. assert (HR' : round_dec neg D' k' = FFin neg m e) by (apply round_is; [exact Hv|reflexivity|exact HD]). split; [exact (Hmin D' k' HR')|exact (Hcl D' k' HR')].
Qed.
Print Assumptions C29_prints_shortest.
(** Zero, of either sign, is written 0.0. *)
Theorem C29_prints_zero : forall (U : unicode) neg sp, print (VLit (LFloat (FFin neg 0 (-1074))) sp) = Some ((if neg then [TPunct 45 Alone sp] else []) ++ [TLit [48; 46; 48]%N sp]).
Proof. intros U [] sp; reflexivity. Qed.
Print Assumptions C29_prints_zero.

(** ** Examples *)
Local Existing Instance ascii_only.
Example C29_ex_shortest : f64_valid (FFin true 7205759403792794 (-56)) = true /\
  print (VLit (LFloat (FFin true 7205759403792794 (-56))) (sp 0 1)) = Some [TPunct 45 Alone (sp 0 1); TLit (T "0.1") (sp 0 1)] /\
  plain (T "0.1") 1 (-1) /\ print (VLit (LFloat (FFin false 1 (-1074))) call_site) <> None /\
  print (VLit (LFloat (FFin false 6004799503160661 (-54))) (sp 0 1)) = Some [TLit (T "0.3333333333333333") (sp 0 1)].
Proof.
  split; [reflexivity|]. split; [vm_compute; reflexivity|]. split; [|split; [vm_compute; discriminate|vm_compute; reflexivity]].
  exists (T "0"), (T "1"). repeat split; try reflexivity; discriminate.
Qed.
