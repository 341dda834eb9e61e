(** * DecText: [to_string] of an unsigned number is its decimal numeral, as Coq's own library writes it. *)
From Coq Require Import Decimal DecimalFacts DecimalNat DecimalString.
From Verif Require Import Base Float Digits Derive Spec.
Local Open Scope nat_scope.

Fixpoint utext (d : uint) : text :=
  match d with
  | Nil => []
  | D0 d => 48%N :: utext d | D1 d => 49%N :: utext d | D2 d => 50%N :: utext d | D3 d => 51%N :: utext d | D4 d => 52%N :: utext d
  | D5 d => 53%N :: utext d | D6 d => 54%N :: utext d | D7 d => 55%N :: utext d | D8 d => 56%N :: utext d | D9 d => 57%N :: utext d
  end.
Lemma utext_string d : T (NilEmpty.string_of_uint d) = utext d.
Proof. induction d; [reflexivity|..]; cbn [utext]; rewrite <- IHd; reflexivity. Qed.

Lemma digit_cases c : is_digit c = true -> In c [48; 49; 50; 51; 52; 53; 54; 55; 56; 57]%N.
Proof. unfold is_digit. rewrite andb_true_iff, !N.leb_le. intros (H1 & H2). cbn. lia. Qed.
Lemma utext_of ds : forallb is_digit ds = true -> exists d, ds = utext d.
Proof.
  induction ds as [|c ds IH]; [exists Nil; reflexivity|]. cbn [forallb]. rewrite andb_true_iff. intros (Hc & Hs). destruct (IH Hs) as (d & ->).
  apply digit_cases in Hc. cbn in Hc.
  destruct Hc as [<-|[<-|[<-|[<-|[<-|[<-|[<-|[<-|[<-|[<-|[]]]]]]]]]]]; [exists (D0 d)|exists (D1 d)|exists (D2 d)|exists (D3 d)|exists (D4 d)|exists (D5 d)|exists (D6 d)|exists (D7 d)|exists (D8 d)|exists (D9 d)]; reflexivity.
Qed.
Lemma of_uint_read d : forall a, Nat.of_uint_acc d a = N.to_nat (read_digits (N.of_nat a) (utext d)).
Proof.
  induction d; intro a; [cbn; lia|..]; cbn [Nat.of_uint_acc utext]; rewrite IHd, read_digits_cons, Nat.tail_mul_spec; do 2 f_equal; unfold digit_val; lia.
Qed.

(** no leading zeros *)
Lemma show_digits_head fuel : forall n acc, (0 < n)%N -> (n < 2 ^ N.of_nat fuel)%N -> exists c r, show_digits fuel n acc = c :: r /\ c <> 48%N.
Proof.
  induction fuel as [|f IH]; intros n acc Hn Hf; [cbn in Hf; lia|]. cbn [show_digits]. destruct (N.ltb_spec n 10) as [H|H].
  - eexists _, _. split; [reflexivity|]. unfold digit_char. lia.
  - apply IH.
    + apply N.div_str_pos. lia.
    + rewrite Nat2N.inj_succ, N.pow_succ_r' in Hf. apply N.div_lt_upper_bound; [lia|]. lia.
Qed.
Lemma size_gt_nat n : (n < 2 ^ N.of_nat (S (N.size_nat n)))%N.
Proof.
  destruct n as [|p]; [cbn; lia|].
  assert (H : (N.pos p < 2 ^ N.size (N.pos p))%N) by apply N.size_gt.
  rewrite Nat2N.inj_succ, N.pow_succ_r'.
  replace (N.of_nat (N.size_nat (N.pos p))) with (N.size (N.pos p)); [lia|].
  clear. cbn [N.size N.size_nat]. induction p as [p IH|p IH|]; cbn [Pos.size Pos.size_nat]; rewrite ?Nat2N.inj_succ, <- ?IH; lia.
Qed.
Lemma dec_numeral n : dec (N.of_nat n) = numeral n.
Proof.
  unfold numeral. rewrite utext_string. destruct (utext_of _ (dec_digits (N.of_nat n))) as (d & Hd).
  assert (Hv : Nat.of_uint d = n).
  { unfold Nat.of_uint. rewrite of_uint_read, <- Hd. change (N.of_nat 0) with 0%N. rewrite read_dec. lia. }
  rewrite Hd. f_equal. rewrite <- Hv, DecimalNat.Unsigned.to_of. symmetry.
  destruct n as [|m].
  - cbn in Hd. destruct d; try discriminate Hd. injection Hd as Hd. destruct d; try discriminate Hd. reflexivity.
  - destruct (show_digits_head (S (N.size_nat (N.of_nat (S m)))) (N.of_nat (S m)) []) as (c & r & E & Hc); [lia|apply size_gt_nat|].
    unfold dec in Hd. rewrite E in Hd. destruct d; try discriminate Hd; try reflexivity. cbn in Hd. injection Hd as -> _. congruence.
Qed.
Lemma show_label_text l : show_label l = field_text l.
Proof. destruct l; [reflexivity|]. apply dec_numeral. Qed.
