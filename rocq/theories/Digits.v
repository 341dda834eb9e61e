(** * Digits: decimal digits. *)
From Verif Require Import Base Float.
Open Scope Z_scope.

(** ** Decimal digits. *)
Lemma digit_char_digit (d : N) : (d < 10)%N -> is_digit (digit_char d) = true.
Proof. unfold is_digit, digit_char. intro H. rewrite andb_true_iff, !N.leb_le. lia. Qed.
Lemma digit_val_char d : digit_val (digit_char d) = d.
Proof. unfold digit_val, digit_char. lia. Qed.

Lemma read_digits_app acc a b : read_digits acc (a ++ b) = read_digits (read_digits acc a) b.
Proof. unfold read_digits. apply fold_left_app. Qed.
Lemma read_digits_cons acc c r : read_digits acc (c :: r) = read_digits (acc * 10 + digit_val c)%N r.
Proof. reflexivity. Qed.

Lemma show_digits_spec fuel : forall n acc, (n < 2 ^ N.of_nat fuel)%N -> (0 < fuel)%nat ->
  exists ds, show_digits fuel n acc = ds ++ acc /\ ds <> [] /\ forallb is_digit ds = true /\
    forall a, read_digits a ds = (a * 10 ^ N.of_nat (List.length ds) + n)%N.
Proof.
  induction fuel as [|f IH]; intros n acc Hn Hf; [lia|]. cbn [show_digits].
  destruct (N.ltb_spec n 10) as [En|En].
  - exists [digit_char n]. split; [reflexivity|]. split; [discriminate|]. split.
    + cbn [forallb]. rewrite digit_char_digit by lia. reflexivity.
    + intro a. cbn [List.length]. rewrite read_digits_cons, digit_val_char. cbn [read_digits fold_left]. lia.
  - destruct f as [|f].
    { cbn in Hn. lia. }
    destruct (IH (n / 10)%N (digit_char (n mod 10) :: acc)) as (ds & Hs & Hne & Hd & Hr).
    { apply N.div_lt_upper_bound; [lia|].
      replace (N.of_nat (S (S f))) with (N.succ (N.of_nat (S f))) in Hn by lia.
      rewrite N.pow_succ_r' in Hn. lia. }
    { lia. }
    exists (ds ++ [digit_char (n mod 10)]). rewrite Hs, <- app_assoc. split; [reflexivity|].
    split; [destruct ds; discriminate|]. split.
    + rewrite forallb_app, Hd. cbn [forallb andb]. rewrite digit_char_digit; [reflexivity|]. apply N.mod_lt. lia.
    + intro a. rewrite read_digits_app, Hr, read_digits_cons, digit_val_char. cbn [read_digits fold_left].
      rewrite app_length. cbn [List.length]. rewrite Nat.add_1_r, Nat2N.inj_succ, N.pow_succ_r'.
      pose proof (N.div_mod n 10 ltac:(lia)). lia.
Qed.
Lemma dec_spec n : dec n <> [] /\ forallb is_digit (dec n) = true /\
  forall a, read_digits a (dec n) = (a * 10 ^ N.of_nat (List.length (dec n)) + n)%N.
Proof.
  unfold dec. destruct (show_digits_spec (S (N.size_nat n)) n []) as (ds & Hs & H).
  - destruct n as [|p]; [cbn; lia|].
    assert (N.pos p < 2 ^ N.size (N.pos p))%N by apply N.size_gt.
    rewrite Nat2N.inj_succ, N.pow_succ_r'.
    replace (N.of_nat (N.size_nat (N.pos p))) with (N.size (N.pos p)); [lia|].
    clear. cbn [N.size N.size_nat]. induction p as [p IH|p IH|]; cbn [Pos.size Pos.size_nat]; rewrite ?Nat2N.inj_succ, <- ?IH; lia.
  - lia.
  - rewrite app_nil_r in Hs. rewrite Hs. exact H.
Qed.
Lemma read_dec n : read_digits 0 (dec n) = n.
Proof. rewrite (proj2 (proj2 (dec_spec n))). lia. Qed.
Lemma dec_digits n : forallb is_digit (dec n) = true.
Proof. apply dec_spec. Qed.
Lemma dec_nonempty n : dec n <> [].
Proof. apply dec_spec. Qed.

