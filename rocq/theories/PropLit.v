(** * PropLit: the properties of literals (C25-C29, C44). *)
From Verif Require Import Base Float Literal FloatFacts Syn Ast Derive Grammar Spec LitSpec LiteralFacts
  Conv ConvFacts Combinators GrammarBeh Examples.
From Coq Require Import ZifyN ZifyNat ZifyBool.
Local Open Scope nat_scope.

Lemma lit_yes {U : unicode} E k s v s' :
  yes (tbeh E (TyLit k)) s v s' <-> exists l sp, p_litty k s = (OOk (l, sp), s') /\ v = VLit l sp.
Proof.
  rewrite tbeh_yes_layer. cbn [p_layer]. split.
  - intros (n & H). apply pmap_ok in H as ((l & sp) & H & ->). exists l, sp. auto.
  - intros (l & sp & H & ->). exists 0. apply pmap_ok. exists (l, sp). auto.
Qed.
Lemma lit_no {U : unicode} E k s e : no (tbeh E (TyLit k)) s e <-> exists s', p_litty k s = (OErr e, s').
Proof.
  rewrite tbeh_no_layer. cbn [p_layer]. split.
  - intros (n & s' & H). apply pmap_err in H. eauto.
  - intros (s' & H). exists 0, s'. apply pmap_err. exact H.
Qed.
Lemma any_lit_yes {U : unicode} E s v s' :
  yes (tbeh E TyAnyLit) s v s' <-> exists l sp, p_any_lit s = (OOk (l, sp), s') /\ v = VLit l sp.
Proof.
  rewrite tbeh_yes_layer. cbn [p_layer]. split.
  - intros (n & H). apply pmap_ok in H as ((l & sp) & H & ->). exists l, sp. auto.
  - intros (l & sp & H & ->). exists 0. apply pmap_ok. exists (l, sp). auto.
Qed.

Lemma p_lit_int_at {U : unicode} s neg n sp r : int_at s neg n sp r ->
  p_lit s = (OOk (SLTok (KInt (sign neg ++ dec n)), sp), set_rest s r).
Proof.
  intros (repr & Hs & H). unfold p_lit. destruct neg.
  - destruct H as (g & sp1 & sp2 & r1 & -> & H2 & ->). change (45 =? 45)%N with true. cbv iota. rewrite H2.
    rewrite (lit_num_neg_int repr n Hs). reflexivity.
  - rewrite H. rewrite (lit_new_int repr n Hs). reflexivity.
Qed.
Lemma read_i64_sign neg n : read_i64 (sign neg ++ dec n) =
  if (i64_min <=? signed neg n)%Z && (signed neg n <=? i64_max)%Z then Some (signed neg n) else None.
Proof.
  destruct neg; cbn [sign signed app].
  - rewrite read_i64_neg. replace (- Z.of_N n <=? i64_max)%Z with true by (unfold i64_max; lia). rewrite andb_true_r. reflexivity.
  - rewrite read_i64_dec. replace (i64_min <=? Z.of_N n)%Z with true by (unfold i64_min; lia). reflexivity.
Qed.
Lemma read_u64_sign neg n : read_u64 (sign neg ++ dec n) =
  if negb neg && (signed neg n <=? u64_max)%Z then Some (signed neg n) else None.
Proof. destruct neg; cbn [sign signed app]; [apply read_u64_neg|apply read_u64_dec]. Qed.

(** ** C25 *)
Theorem C25_lit_int_exact_range : forall (U : unicode) E s neg n sp r, int_at s neg n sp r ->
  (forall v s', yes (tbeh E (TyLit LtInt)) s v s' <->
     (i64_min <= signed neg n <= i64_max)%Z /\ v = VLit (LInt (signed neg n)) sp /\ s' = set_rest s r) /\
  ((exists e, no (tbeh E (TyLit LtInt)) s e) <-> ~ (i64_min <= signed neg n <= i64_max)%Z).
Proof.
  intros U E s neg n sp r H. apply p_lit_int_at in H.
  assert (Hp : p_litty LtInt s = (int_try_from (sign neg ++ dec n) sp, set_rest s r)).
  { cbn [p_litty]. unfold p_lit_int, and_then, bind, p_syn_int, p_typed. rewrite H. reflexivity. }
  unfold int_try_from in Hp. rewrite read_i64_sign in Hp. split.
  - intros v s'. rewrite lit_yes. rewrite Hp. split.
    + intros (l & sp' & Hl & ->). destruct (_ && _) eqn:Eb; [|discriminate]. injection Hl as <- <- <-. repeat split; lia.
    + intros (Hr & -> & ->). eexists _, _. split; [|reflexivity]. replace (_ && _) with true by lia. reflexivity.
  - split.
    + intros (e & He) Hr. apply lit_no in He as (s' & He). rewrite Hp in He. replace (_ && _) with true in He by lia. discriminate.
    + intro Hr. eexists. apply lit_no. rewrite Hp. replace (_ && _) with false by lia. eauto.
Qed.
Print Assumptions C25_lit_int_exact_range.
Theorem C25_lit_uint_exact_range : forall (U : unicode) E s neg n sp r, int_at s neg n sp r ->
  (forall v s', yes (tbeh E (TyLit LtUint)) s v s' <->
     neg = false /\ (Z.of_N n <= u64_max)%Z /\ v = VLit (LUint (Z.of_N n)) sp /\ s' = set_rest s r) /\
  ((exists e, no (tbeh E (TyLit LtUint)) s e) <-> neg = true \/ (u64_max < Z.of_N n)%Z).
Proof.
  intros U E s neg n sp r H. apply p_lit_int_at in H.
  assert (Hp : p_litty LtUint s = (uint_try_from (sign neg ++ dec n) sp, set_rest s r)).
  { cbn [p_litty]. unfold p_lit_uint, and_then, bind, p_syn_int, p_typed. rewrite H. reflexivity. }
  unfold uint_try_from in Hp. rewrite read_u64_sign in Hp. split.
  - intros v s'. rewrite lit_yes. rewrite Hp. destruct neg; cbn [negb andb signed].
    + split; [intros (l & sp' & Hl & _); discriminate|intros (Hl & _); discriminate].
    + split.
      * intros (l & sp' & Hl & ->). destruct (_ <=? _)%Z eqn:Eb; [|discriminate]. injection Hl as <- <- <-. apply Z.leb_le in Eb. auto.
      * intros (_ & Hr & -> & ->). eexists _, _. split; [|reflexivity]. replace (_ <=? _)%Z with true by lia. reflexivity.
  - split.
    + intros (e & He). apply lit_no in He as (s' & He). rewrite Hp in He. destruct neg; [auto|]. right. cbn [negb andb signed] in He.
      destruct (_ <=? _)%Z eqn:Eb; [discriminate|]. apply Z.leb_gt in Eb. exact Eb.
    + intro Hr. eexists. apply lit_no. rewrite Hp. destruct neg; cbn [negb andb signed]; [eauto|].
      replace (_ <=? _)%Z with false by lia. eauto.
Qed.
Print Assumptions C25_lit_uint_exact_range.
(** conversely: whatever these nodes accept is an integer literal, with the value of its digits *)
Theorem C25_only_integer_literals : forall (U : unicode) E s v s',
  yes (tbeh E (TyLit LtInt)) s v s' \/ yes (tbeh E (TyLit LtUint)) s v s' ->
  exists repr (neg : bool) base body sfx n sp r,
    (ignore_none (ps_rest s) = TLit repr sp :: r \/
     exists g sp1 sp2 r1 repr', ignore_none (ps_rest s) = TPunct 45%N g sp1 :: r1 /\
        ignore_none r1 = TLit repr' sp2 :: r /\ sp = join_or sp1 sp2 /\ repr = 45%N :: repr') /\
    repr = sign neg ++ radix_prefix base ++ body ++ sfx /\ is_radix base /\
    body_value base 0 body = Some n /\ has_digit base body = true /\ s' = set_rest s r /\
    (v = VLit (LInt (signed neg n)) sp /\ (i64_min <= signed neg n <= i64_max)%Z \/
     v = VLit (LUint (signed neg n)) sp /\ (0 <= signed neg n <= u64_max)%Z).
Proof.
  intros U E s v s' H.
  assert (Hsyn : exists ds sp, p_syn_int s = (OOk (ds, sp), s') /\
     ((exists z, v = VLit (LInt z) sp /\ read_i64 ds = Some z) \/ (exists z, v = VLit (LUint z) sp /\ read_u64 ds = Some z))).
  { destruct H as [H|H]; apply lit_yes in H as (l & sp & H & ->); apply bind_ok in H as ((ds & sp') & s1 & H1 & H2); cbn [fst snd] in H2.
    - unfold int_try_from in H2. destruct (read_i64 ds) as [z|] eqn:Ez; [|discriminate]. injection H2 as <- <- <-. exists ds, sp'. eauto 6.
    - unfold uint_try_from in H2. destruct (read_u64 ds) as [z|] eqn:Ez; [|discriminate]. injection H2 as <- <- <-. exists ds, sp'. eauto 6. }
  clear H. destruct Hsyn as (ds & sp & Hp & Hv). unfold p_syn_int, p_typed in Hp.
  destruct (p_lit s) as ([(k, sp')|e| |], s1) eqn:El; try discriminate. destruct k as [|[]]; try discriminate. injection Hp as -> -> ->.
  assert (Hd : exists repr r, (ignore_none (ps_rest s) = TLit repr sp :: r \/
     exists g sp1 sp2 r1 repr', ignore_none (ps_rest s) = TPunct 45%N g sp1 :: r1 /\
        ignore_none r1 = TLit repr' sp2 :: r /\ sp = join_or sp1 sp2 /\ repr = 45%N :: repr') /\ s' = set_rest s r /\ lit_num repr = Some (KInt ds)).
  { unfold p_lit in El. destruct (ignore_none (ps_rest s)) as [|[w spw|c g spc|repr spr|d spd i] r] eqn:Er; try discriminate.
    - destruct (text_eqb w _); [discriminate|]. destruct (text_eqb w _); discriminate.
    - destruct (N.eqb_spec c 45) as [->|]; [|discriminate]. destruct (ignore_none r) as [|[| |repr spr|] r'] eqn:Er'; try discriminate.
      destruct (lit_num (45%N :: repr)) as [k|] eqn:Ek; [|discriminate]. injection El as Hk Hs' Hss. subst k s' sp. exists (45%N :: repr), r'. split; [|auto].
      right. exists g, spc, spr, r, repr. auto.
    - destruct (lit_new repr) as [k|] eqn:Ek; [|discriminate]. injection El as Hk Hs' Hss. subst k s' sp. exists repr, r. split; [auto|]. split; [auto|]. apply lit_new_int_inv. exact Ek. }
  destruct Hd as (repr & r & Hpos & -> & Hn). apply lit_num_int in Hn as (_ & _ & _ & sfx & Hn).
  apply parse_lit_int_inv in Hn as (neg & base & body & n & Hr & Hrepr & Hval & Hdig & ->).
  exists repr, neg, base, body, sfx, n, sp, r. split; [exact Hpos|]. split; [exact Hrepr|]. split; [exact Hr|]. split; [exact Hval|]. split; [exact Hdig|]. split; [reflexivity|].
  destruct Hv as [(z & -> & Hz)|(z & -> & Hz)].
  - left. rewrite read_i64_sign in Hz. destruct (_ && _) eqn:Eb; [|discriminate]. injection Hz as <-. split; [reflexivity|lia].
  - right. rewrite read_u64_sign in Hz. destruct (_ && _) eqn:Eb; [|discriminate]. injection Hz as <-. split; [reflexivity|].
    destruct neg; [discriminate|]. cbn [signed negb andb] in *. lia.
Qed.
Print Assumptions C25_only_integer_literals.

(** every printable literal node prints, and each typed node reads its own printing back *)
Definition litty_of (l : lit) : litty :=
  match l with
  | LBool _ => LtBool | LByte _ => LtByte | LInt _ => LtInt | LUint _ => LtUint | LFloat _ => LtFloat
  | LChar _ => LtChar | LStr _ => LtStr | LByteStr _ => LtByteStr
  end.
Lemma typed_round_trip {U : unicode} l sp : lit_valid l -> lit_finite l ->
  exists ts, print_lit l sp = Some ts /\
    forall rest scope u, p_litty (litty_of l) (PS (ts ++ rest) scope u) = (OOk (l, sp), PS rest scope u).
Proof.
  intros Hv Hf. destruct (print_lit_parses l sp Hv Hf) as (ts & k & Hp & Hk & H). exists ts. split; [exact Hp|].
  intros rest scope u. specialize (H rest scope u).
  destruct l; cbn [kind_of litty_of p_litty lit_valid] in *; subst;
    unfold p_lit_bool, p_lit_byte, p_lit_int, p_lit_uint, p_lit_float, p_lit_char, p_lit_str, p_lit_byte_str,
      pmap, and_then, bind, p_syn_bool, p_syn_byte, p_syn_int, p_syn_float, p_syn_char, p_syn_str, p_syn_byte_str, p_typed.
  all: try (rewrite H; reflexivity).
  - rewrite H. cbn [fst snd]. unfold int_try_from. rewrite read_show_i64 by exact Hv. reflexivity.
  - rewrite H. cbn [fst snd]. unfold uint_try_from. rewrite read_show_u64 by exact Hv. reflexivity.
  - destruct Hk as (ds & -> & Hr). rewrite H. cbn [fst snd]. unfold float_try_from. rewrite Hr. reflexivity.
Qed.
Lemma any_lit_round_trip {U : unicode} l sp : lit_valid l -> lit_finite l ->
  exists ts, print_lit l sp = Some ts /\
    forall rest scope u, p_any_lit (PS (ts ++ rest) scope u) = (OOk (by_sign l, sp), PS rest scope u).
Proof.
  intros Hv Hf. destruct (print_lit_parses l sp Hv Hf) as (ts & k & Hp & Hk & H). exists ts. split; [exact Hp|].
  intros rest scope u. unfold p_any_lit, and_then, bind. rewrite H. rewrite (lit_try_from_kind (fun _ => []) l k sp Hv Hk). reflexivity.
Qed.
Lemma whole_lit {U : unicode} E l sp : lit_valid l -> lit_finite l ->
  exists ts, print (VLit l sp) = Some ts /\ parses E (TyLit (litty_of l)) ts (VLit l sp) /\
    parses E TyAnyLit ts (VLit (by_sign l) sp).
Proof.
  intros Hv Hf. destruct (typed_round_trip l sp Hv Hf) as (ts & Hp & H1). destruct (any_lit_round_trip l sp Hv Hf) as (ts' & Hp' & H2).
  rewrite Hp in Hp'. injection Hp' as <-. exists ts. split; [exact Hp|].
  specialize (H1 [] call_site None). specialize (H2 [] call_site None). rewrite app_nil_r in H1, H2.
  split; exists 1; unfold parse2, start; cbn [pty p_layer]; unfold pmap, bind; rewrite ?H1, ?H2; reflexivity.
Qed.

Theorem C25_integers_round_trip : forall (U : unicode) E z sp,
  ((i64_min <= z <= i64_max)%Z ->
     exists ts, print (VLit (LInt z) sp) = Some ts /\ parses E (TyLit LtInt) ts (VLit (LInt z) sp)) /\
  ((0 <= z <= u64_max)%Z ->
     exists ts, print (VLit (LUint z) sp) = Some ts /\ parses E (TyLit LtUint) ts (VLit (LUint z) sp)).
Proof.
  intros U E z sp. split; intro H.
  - destruct (whole_lit E (LInt z) sp H I) as (ts & H1 & H2 & _). eauto.
  - destruct (whole_lit E (LUint z) sp H I) as (ts & H1 & H2 & _). eauto.
Qed.
Print Assumptions C25_integers_round_trip.
Section WithTables.
Local Existing Instance ascii_only.
Example C25_ex : int_at (start [TLit (T "0x_Ff_u8") (sp 0 8)]) false 255 (sp 0 8) [] /\
  int_at (start [TPunct 45%N Alone (sp 0 1); TLit (T "9223372036854775808") (sp 1 20)]) true 9223372036854775808 (sp 0 20) [].
Proof.
  split; eexists; (split; [|cbn; reflexivity || (eexists _, _, _, _; repeat split)]).
  - exists 16%N, (T "_Ff_"), (T "u8"). split; [unfold is_radix; auto|]. split; [reflexivity|]. split; [reflexivity|].
    split; [reflexivity|]. split; [reflexivity|]. discriminate.
  - exists 10%N, (T "9223372036854775808"), []. split; [unfold is_radix; auto|]. split; [reflexivity|]. split; [reflexivity|].
    split; [reflexivity|]. split; [reflexivity|]. intros _. split; [reflexivity|]. discriminate.
Qed.
End WithTables.

(** ** C26 *)
(** [Lit] classifies by sign: with a minus sign [Lit::Int], without [Lit::Uint]. *)
Theorem C26_classified_by_sign : forall (U : unicode) E s neg n sp r, int_at s neg n sp r ->
  forall v s', yes (tbeh E TyAnyLit) s v s' <->
    s' = set_rest s r /\
    if neg then v = VLit (LInt (- Z.of_N n)) sp /\ (i64_min <= - Z.of_N n)%Z
    else v = VLit (LUint (Z.of_N n)) sp /\ (Z.of_N n <= u64_max)%Z.
Proof.
  intros U E s neg n sp r H v s'. apply p_lit_int_at in H. rewrite any_lit_yes.
  unfold p_any_lit, and_then, bind. rewrite H. cbn [lit_try_from].
  destruct neg; cbn [sign app].
  - change (45 =? 45)%N with true. cbv iota. unfold int_try_from. rewrite read_i64_neg. split.
    + intros (l & sp' & Hl & ->). destruct (_ <=? _)%Z eqn:Eb; [|discriminate]. injection Hl as <- <- <-. apply Z.leb_le in Eb. auto.
    + intros (-> & -> & Hb). eexists _, _. split; [|reflexivity]. replace (_ <=? _)%Z with true by lia. reflexivity.
  - pose proof (dec_not_minus n) as Hd. destruct (dec n) as [|c ds] eqn:Ed; [contradiction|]. rewrite Hd, <- Ed.
    unfold uint_try_from. rewrite read_u64_dec. split.
    + intros (l & sp' & Hl & ->). destruct (_ <=? _)%Z eqn:Eb; [|discriminate]. injection Hl as <- <- <-. apply Z.leb_le in Eb. auto.
    + intros (-> & -> & Hb). eexists _, _. split; [|reflexivity]. replace (_ <=? _)%Z with true by lia. reflexivity.
Qed.
Print Assumptions C26_classified_by_sign.
(** Hence a parsed [Lit::Int] is never positive ... *)
Theorem C26_parsed_int_not_positive : forall (U : unicode) E s z sp s',
  yes (tbeh E TyAnyLit) s (VLit (LInt z) sp) s' -> (i64_min <= z <= 0)%Z.
Proof.
  intros U E s z sp s' H. apply any_lit_yes in H as (l & sp' & H & Hv). injection Hv as <- <-.
  unfold p_any_lit, and_then in H. apply bind_ok in H as ((k & sp1) & s1 & Hp & H). injection H as H _.
  destruct k as [|k]; cbn [lit_try_from] in H; [discriminate|]. destruct k; try discriminate.
  - assert (Hds : exists repr, lit_num repr = Some (KInt digits)).
    { unfold p_lit in Hp. destruct (ignore_none (ps_rest s)) as [|[w spw|c g spc|repr spr|d spd i] r] eqn:Er; try discriminate.
      - destruct (text_eqb w _); [discriminate|]. destruct (text_eqb w _); discriminate.
      - destruct (c =? 45)%N; [|discriminate]. destruct (ignore_none r) as [|[| |repr spr|] r'] eqn:Er'; try discriminate.
        destruct (lit_num (45%N :: repr)) as [k|] eqn:Ek; [|discriminate]. injection Hp as -> _ _. eauto.
      - destruct (lit_new repr) as [k|] eqn:Ek; [|discriminate]. injection Hp as -> _ _. exists repr. apply lit_new_int_inv. exact Ek. }
    destruct Hds as (repr & Hn). apply lit_num_int in Hn as (neg & n & -> & _). destruct neg; cbn [sign app] in H.
    + change (45 =? 45)%N with true in H. cbv iota in H. unfold int_try_from in H. rewrite read_i64_neg in H.
      destruct (_ <=? _)%Z eqn:Eb; [|discriminate]. injection H as <- _. lia.
    + pose proof (dec_not_minus n) as Hd. destruct (dec n) as [|c ds] eqn:Ed; [contradiction|]. rewrite Hd in H.
      unfold uint_try_from in H. destruct (read_u64 _); discriminate.
  - unfold float_try_from in H. destruct (float_read digits); discriminate.
Qed.
Print Assumptions C26_parsed_int_not_positive.
(** ... but it can be zero, for the literal [-0]. *)
Section WithTables.
Local Existing Instance ascii_only.
Theorem C26_parsed_int_negative_refuted : exists s sp s',
  yes (tbeh GE TyAnyLit) s (VLit (LInt 0) sp) s' /\ int_at s true 0 sp [].
Proof.
  exists (start [TPunct 45%N Alone (sp 0 1); TLit (T "0") (sp 1 2)]), (sp 0 2), (start []).
  assert (Hat : int_at (start [TPunct 45%N Alone (sp 0 1); TLit (T "0") (sp 1 2)]) true 0 (sp 0 2) []).
  { exists (T "0"). split; [apply (dec_spelling 0)|]. eexists _, _, _, _. repeat split. }
  split; [|exact Hat]. apply (C26_classified_by_sign _ _ _ _ _ _ _ Hat). split; [reflexivity|]. split; [reflexivity|]. unfold i64_min. lia.
Qed.
End WithTables.
Print Assumptions C26_parsed_int_negative_refuted.
(** Every printable [Lit] value comes back, except that [Lit::Int(n)] with n >= 0 becomes [Lit::Uint(n)]. *)
Theorem C26_lit_round_trip : forall (U : unicode) E l sp, lit_valid l -> lit_finite l ->
  exists ts, print (VLit l sp) = Some ts /\
    parses E TyAnyLit ts (VLit (match l with LInt z => if (z <? 0)%Z then LInt z else LUint z | _ => l end) sp).
Proof. intros U E l sp Hv Hf. destruct (whole_lit E l sp Hv Hf) as (ts & H1 & _ & H2). eauto. Qed.
Print Assumptions C26_lit_round_trip.
Theorem C26_exactly_the_exceptions : forall (U : unicode) E l sp ts, lit_valid l -> print (VLit l sp) = Some ts ->
  (parses E TyAnyLit ts (VLit l sp) <-> ~ (exists z, l = LInt z /\ (0 <= z)%Z)).
Proof.
  intros U E l sp ts Hv Hp.
  assert (Hf : lit_finite l). { destruct l; try exact I. destruct f; [reflexivity|]. cbn in Hp. discriminate. }
  destruct (C26_lit_round_trip U E l sp Hv Hf) as (ts' & Hp' & H). rewrite Hp in Hp'. injection Hp' as <-. split.
  - intros H' (z & -> & Hz). replace (z <? 0)%Z with false in H by lia. destruct H as (n & H), H' as (m & H').
    unfold parse2 in *. destruct (pty E n TyAnyLit (start ts)) as (o1, s1) eqn:E1. destruct (pty E m TyAnyLit (start ts)) as (o2, s2) eqn:E2.
    assert (o1 = OOk (VLit (LUint z) sp)). { destruct o1; try discriminate. destruct (ps_unexp s1); [discriminate|]. destruct (leftover (ps_rest s1)); congruence. }
    assert (o2 = OOk (VLit (LInt z) sp)). { destruct o2; try discriminate. destruct (ps_unexp s2); [discriminate|]. destruct (leftover (ps_rest s2)); congruence. }
    subst. destruct (tbeh_det_yes E TyAnyLit (start ts) (VLit (LUint z) sp) s1 (VLit (LInt z) sp) s2) as (Hc & _); [exists n; exact E1|exists m; exact E2|]. discriminate.
  - intro Hn. destruct l; try exact H. destruct (Z.ltb_spec z 0); [exact H|]. exfalso. apply Hn. eauto.
Qed.
Print Assumptions C26_exactly_the_exceptions.
Section WithTables.
Local Existing Instance ascii_only.
Example C26_ex : lit_valid (LInt 5) /\ exists ts, print (VLit (LInt 5) (sp 0 1)) = Some ts.
Proof. split; [cbn; unfold i64_min, i64_max; lia|]. eexists. reflexivity. Qed.
End WithTables.

(** ** C27 *)
Theorem C27_byte_literals : forall (U : unicode) E b sp, (b < 256)%N ->
  exists repr, lit_byte_repr b = Some repr /\ List.length repr <= 8 /\
    print (VLit (LByte b) sp) = Some [TLit repr sp] /\
    parses E (TyLit LtByte) [TLit repr sp] (VLit (LByte b) sp).
Proof.
  intros U E b sp Hb. destruct (lit_new_byte b Hb) as (repr & Hr & Hk). exists repr. split; [exact Hr|].
  pose proof Hr as Hr'. unfold lit_byte_repr, cursor_write in Hr'. destruct (Nat.leb_spec (List.length (([98; 39] ++ ascii_escape_default b ++ [39]))%N) lit_byte_buf) as [Hle|]; [|discriminate].
  injection Hr' as Hr'. split; [rewrite <- Hr'; exact Hle|].
  assert (Hpr : print (VLit (LByte b) sp) = Some [TLit repr sp]).
  { cbn [print print_lit]. rewrite Hr. cbn [option_map]. rewrite <- Hr'. reflexivity. }
  split; [exact Hpr|]. destruct (whole_lit E (LByte b) sp Hb I) as (ts & Hp & H & _). rewrite Hpr in Hp. injection Hp as <-. exact H.
Qed.
Print Assumptions C27_byte_literals.
(** no byte literal needs more than 7 of the 8 bytes, and some need all 7 *)
Theorem C27_buffer_has_slack : (forall (U : unicode) b repr, (b < 256)%N -> lit_byte_repr b = Some repr -> List.length repr <= 7) /\
  exists repr, lit_byte_repr 255 = Some repr /\ List.length repr = 7.
Proof.
  split; [|eexists; split; reflexivity]. intros U b repr Hb Hr.
  pose proof (below_all (fun b => match lit_byte_repr b with Some r => Nat.leb (List.length r) 7 | None => false end) 256 ltac:(vm_compute; reflexivity) b Hb) as H.
  cbn beta in H. rewrite Hr in H. apply Nat.leb_le in H. exact H.
Qed.
Print Assumptions C27_buffer_has_slack.

(** ** C28 *)
Theorem C28_strings_round_trip : forall (U : unicode) E s sp, forallb valid_char s = true ->
  exists ts, print (VLit (LStr s) sp) = Some ts /\ parses E (TyLit LtStr) ts (VLit (LStr s) sp).
Proof. intros U E s sp H. destruct (whole_lit E (LStr s) sp H I) as (ts & H1 & H2 & _). eauto. Qed.
Print Assumptions C28_strings_round_trip.
Theorem C28_chars_round_trip : forall (U : unicode) E c sp, valid_char c = true ->
  exists ts, print (VLit (LChar c) sp) = Some ts /\ parses E (TyLit LtChar) ts (VLit (LChar c) sp).
Proof. intros U E c sp H. destruct (whole_lit E (LChar c) sp H I) as (ts & H1 & H2 & _). eauto. Qed.
Print Assumptions C28_chars_round_trip.
Theorem C28_byte_strings_round_trip : forall (U : unicode) E s sp, Forall (fun b => (b < 256)%N) s ->
  exists ts, print (VLit (LByteStr s) sp) = Some ts /\ parses E (TyLit LtByteStr) ts (VLit (LByteStr s) sp).
Proof.
  intros U E s sp H. destruct (whole_lit E (LByteStr s) sp) as (ts & H1 & H2 & _); [|exact I|eauto].
  cbn [lit_valid]. apply forallb_forall. rewrite Forall_forall in H. intros x Hx. apply N.ltb_lt, H, Hx.
Qed.
Print Assumptions C28_byte_strings_round_trip.
(** quotes, NUL before a digit, newline, DEL and a non-printable character *)
Example C28_ex : forallb valid_char [34; 0; 49; 10; 127; 0x1F600; 39; 92]%N = true.
Proof. reflexivity. Qed.

(** ** C29 *)
Theorem C29_finite_round_trip : forall (U : unicode) E f sp, f64_valid f = true -> f64_finite f = true ->
  exists ts, print (VLit (LFloat f) sp) = Some ts /\ parses E (TyLit LtFloat) ts (VLit (LFloat f) sp).
Proof. intros U E f sp H1 H2. destruct (whole_lit E (LFloat f) sp H1 H2) as (ts & H3 & H4 & _). eauto. Qed.
Print Assumptions C29_finite_round_trip.
(** whatever is read is a proper double, never NaN (there is none in [f64]), and prints unless infinite *)
Theorem C29_parsed_floats_are_doubles : forall (U : unicode) E s f sp s',
  yes (tbeh E (TyLit LtFloat)) s (VLit (LFloat f) sp) s' -> f64_valid f = true.
Proof.
  intros U E s f sp s' H. apply lit_yes in H as (l & sp' & H & Hv). injection Hv as <- <-. cbn [p_litty] in H.
  unfold p_lit_float, and_then in H. apply bind_ok in H as ((ds & sp1) & s1 & _ & H). injection H as H _. cbn [fst snd] in H.
  unfold float_try_from in H. destruct (float_read ds) eqn:Ef; [|discriminate]. injection H as <- _. eapply float_read_valid. exact Ef.
Qed.
Print Assumptions C29_parsed_floats_are_doubles.
Theorem C29_infinity_cannot_be_printed : forall (U : unicode) neg sp, print (VLit (LFloat (FInf neg)) sp) = None.
Proof. reflexivity. Qed.
Print Assumptions C29_infinity_cannot_be_printed.
(** every decimal at or beyond 2^1024 is read as infinity *)
Lemma round_overflow neg n d : (0 < d)%N -> (Z.of_N d * 2 ^ 1024 <= Z.of_N n)%Z -> round_rat neg n d = FInf neg.
Proof.
  intros Hd Hb. assert (Hn : (0 < n)%N). { pose proof (pow2_pos 1024 ltac:(lia)). nia. }
  set (J := (Z.of_N (N.log2 n) + Z.of_N (N.log2 d) + 2000)%Z).
  destruct (raw_exp_spec n d J Hn Hd ltac:(unfold J; lia)) as (Hre & _ & Hhi).
  assert (Hr : (971 < raw_exp n d)%Z).
  { destruct (Z_lt_le_dec 971 (raw_exp n d)) as [|Hle]; [assumption|]. exfalso.
    assert (H1 : (2 ^ (raw_exp n d + J) <= 2 ^ (971 + J))%Z) by (apply Z.pow_le_mono_r; lia).
    assert (H2 : (2 ^ 1024 * 2 ^ J = p53 * 2 ^ (971 + J))%Z).
    { change p53 with (2 ^ 53)%Z. rewrite <- !Z.pow_add_r by (unfold J; lia). f_equal. lia. }
    pose proof (pow2_pos J ltac:(unfold J; lia)) as HJ.
    assert (H3 : (Z.of_N d * 2 ^ 1024 * 2 ^ J <= Z.of_N n * 2 ^ J)%Z) by (apply Z.mul_le_mono_nonneg_r; lia).
    rewrite <- Z.mul_assoc, H2 in H3.
    assert (H4 : (Z.of_N d * 2 ^ (raw_exp n d + J) <= Z.of_N d * 2 ^ (971 + J))%Z) by (apply Z.mul_le_mono_nonneg_l; lia).
    unfold p53 in *. lia. }
  unfold round_rat. destruct (N.eqb_spec n 0); [lia|]. rewrite pick_raw.
  assert (He : (emax < Z.max (raw_exp n d) emin)%Z) by (unfold emax; lia).
  set (e := Z.max (raw_exp n d) emin) in *. destruct (scaled n d e) as (a, b).
  destruct (_ =? two53)%N.
  - replace (emax <? e + 1)%Z with true by lia. reflexivity.
  - replace (emax <? e)%Z with true by lia. reflexivity.
Qed.
Theorem C29_overflow_is_infinity : forall neg D k, (2 ^ 1024 <= Z.of_N D * 10 ^ k)%Z -> (0 <= k)%Z -> round_dec neg D k = FInf neg.
Proof.
  intros neg D k H Hk. destruct k as [|p|p]; [| |lia]; cbn [round_dec]; apply round_overflow; try lia.
  all: rewrite ?N2Z.inj_mul, ?N2Z.inj_pow; cbn [Z.of_N]; rewrite Z.mul_1_l; lia.
Qed.
Print Assumptions C29_overflow_is_infinity.
Section WithTables.
Local Existing Instance ascii_only.
Example C29_ex : yes (tbeh GE (TyLit LtFloat)) (start [TLit (T "1e999") (sp 0 5)]) (VLit (LFloat (FInf false)) (sp 0 5)) (start []) /\
  f64_valid (FFin false 5404319552844596 (-54)) = true /\
  print (VLit (LFloat (FFin false 5404319552844596 (-54))) (sp 0 1)) = Some [TLit (T "0.30000000000000004") (sp 0 1)].
Proof. split; [exists 1; vm_compute; reflexivity|]. split; vm_compute; reflexivity. Qed.
End WithTables.

(** ** C44 *)
(** Through syn's literal types and back: value and span survive; [Lit] re-classifies integers by sign.
    [byte_token] is the token syn makes for a byte; bytes are treated below. *)
Theorem C44_via_syn : forall (U : unicode) byte_token l sp, lit_valid l -> lit_finite l -> (forall b, l <> LByte b) ->
  exists n, to_syn byte_token l sp = Some n /\ syn_span n = sp /\
    lit_from_syn n = OOk (match l with LInt z => if (z <? 0)%Z then LInt z else LUint z | _ => l end, sp) /\
    typed_from_syn (match l with LInt _ => true | _ => false end) n = OOk (l, sp).
Proof.
  intros U bt l sp Hv Hf Hb. destruct (to_syn_kind bt l sp Hv Hf Hb) as (n & k & H1 & H2 & H3 & H4 & H5). exists n. split; [exact H1|]. split; [exact H2|].
  pose proof (lit_try_from_kind (fun _ => []) l k sp Hv H4) as Hl. split; [unfold lit_from_syn; rewrite H3; exact Hl|].
  destruct l; cbn [by_sign] in Hl.
  3:{ rewrite (H5 z (or_introl eq_refl)). cbn [typed_from_syn]. unfold int_try_from. rewrite read_show_i64 by exact Hv. reflexivity. }
  3:{ rewrite (H5 z (or_intror eq_refl)). cbn [typed_from_syn]. unfold uint_try_from. rewrite read_show_u64 by exact Hv. reflexivity. }
  all: unfold typed_from_syn; destruct n; try (rewrite H3; exact Hl).
  all: cbn [syn_value] in H3; injection H3 as <- <-; cbn in Hl; exfalso; cbn [kind_of] in H4; try discriminate; destruct H4 as (? & ? & _); discriminate.
Qed.
Print Assumptions C44_via_syn.
(** Bytes survive exactly if syn's token for the byte is spelled as a byte literal of that byte;
    [syn::LitByte::new] in syn 2.0.66 makes the token [<n>u8], which does not. *)
Theorem C44_bytes_via_syn : forall (U : unicode) byte_token b sp,
  (exists n, to_syn byte_token (LByte b) sp = Some n /\ lit_from_syn n = OOk (LByte b, sp)) <->
  lit_new (byte_token b) = Some (KByte b).
Proof.
  intros U bt b sp. split.
  - intros (n & H & Hf). injection H as <-. unfold lit_from_syn in Hf. cbn [syn_value] in Hf.
    destruct (lit_new (bt b)) as [[]|]; try discriminate. cbn in Hf. congruence.
  - intro H. eexists. split; [reflexivity|]. unfold lit_from_syn. cbn [syn_value]. rewrite H. reflexivity.
Qed.
Print Assumptions C44_bytes_via_syn.
Theorem C44_bytes_via_u8_token_refuted : forall (U : unicode) b sp n,
  to_syn (fun b => dec b ++ T "u8") (LByte b) sp = Some n -> lit_from_syn n = OPanic.
Proof.
  intros U b sp n H. injection H as <-. unfold lit_from_syn. cbn [syn_value].
  assert (Hs : int_spelling (dec b ++ T "u8") b).
  { exists 10%N, (dec b), (T "u8"). split; [unfold is_radix; auto|]. split; [reflexivity|].
    pose proof (dec_digits b) as Hd. pose proof (dec_nonempty b) as Hne.
    split; [rewrite (body_value_digits _ Hd), read_dec; reflexivity|]. destruct (dec b) as [|c r]; [congruence|].
    cbn in Hd. apply andb_true_iff in Hd as (Hc & Hd). split; [cbn [has_digit existsb]; rewrite (radix10 c Hc); reflexivity|].
    split; [reflexivity|]. intros _. split; [exact Hc|]. intros x r' H. cbn [app] in H. injection H as _ H.
    destruct r as [|y r]; cbn [app] in H; injection H as <- _; [repeat split; discriminate|].
    cbn in Hd. apply andb_true_iff in Hd as (Hy & _). unfold is_digit in Hy. lia. }
  change (T "u8") with [117; 56]%N in Hs. rewrite (lit_new_int _ _ Hs). reflexivity.
Qed.
Print Assumptions C44_bytes_via_u8_token_refuted.
(** Equality, order and hash: spans are ignored; they form a total order, and equal nodes hash alike. *)
Theorem C44_spans_ignored : forall a b sp1 sp2 sp3 sp4,
  node_eqb (a, sp1) (b, sp2) = node_eqb (a, sp3) (b, sp4) /\
  node_cmp (a, sp1) (b, sp2) = node_cmp (a, sp3) (b, sp4) /\ node_hash (a, sp1) = node_hash (a, sp3).
Proof. repeat split. Qed.
Print Assumptions C44_spans_ignored.
Theorem C44_total_order : forall a b c o,
  node_cmp b a = option_map CompOpp (node_cmp a b) /\
  (node_cmp a b = Some o -> node_cmp b c = Some o -> node_cmp a c = Some o) /\
  (node_cmp a b = Some Eq <-> node_eqb a b = true).
Proof. intros. split; [apply node_cmp_opp|]. split; [apply node_cmp_trans|apply node_cmp_eqb]. Qed.
Print Assumptions C44_total_order.
Theorem C44_equal_nodes_hash_alike : forall a b, lit_valid (fst a) -> lit_valid (fst b) ->
  node_eqb a b = true -> node_hash a = node_hash b.
Proof. exact node_hash_eqb. Qed.
Print Assumptions C44_equal_nodes_hash_alike.
Example C44_ex : node_eqb (LFloat (FFin true 0 emin), sp 0 1) (LFloat (FFin false 0 emin), sp 2 3) = true /\
  node_cmp (LStr (T "a"), sp 0 1) (LStr (T "ab"), sp 0 1) = Some Lt.
Proof. split; reflexivity. Qed.

(** ** C25 with the bounds of the Rust types written out *)
Theorem C25_i64_exactly : forall (U : unicode) E s neg n sp r, int_at s neg n sp r ->
  (exists v s', yes (tbeh E (TyLit LtInt)) s v s') <-> (- 2 ^ 63 <= signed neg n < 2 ^ 63)%Z.
Proof.
  intros U E s neg n sp r H. destruct (C25_lit_int_exact_range U E s neg n sp r H) as (K & _). assert (B : i64_min = (- 2 ^ 63)%Z /\ i64_max = (2 ^ 63 - 1)%Z) by (split; reflexivity).
  destruct B as (B1 & B2). split; [intros (v & s' & Hy); apply K in Hy as (Hy & _); lia|intro Hb; eexists; eexists; apply K; split; [lia|split; reflexivity]].
Qed.
Print Assumptions C25_i64_exactly.
Theorem C25_u64_exactly : forall (U : unicode) E s neg n sp r, int_at s neg n sp r ->
  (exists v s', yes (tbeh E (TyLit LtUint)) s v s') <-> neg = false /\ (Z.of_N n < 2 ^ 64)%Z.
Proof.
  intros U E s neg n sp r H. destruct (C25_lit_uint_exact_range U E s neg n sp r H) as (K & _). assert (B : u64_max = (2 ^ 64 - 1)%Z) by reflexivity.
  split; [intros (v & s' & Hy); apply K in Hy as (H1 & H2 & _); lia|intros (Hn & Hb); eexists; eexists; apply K; split; [exact Hn|split; [lia|split; reflexivity]]].
Qed.
Print Assumptions C25_u64_exactly.
(** The values of the types round-trip. *)
Theorem C25_types_round_trip : forall (U : unicode) E z sp,
  ((- 2 ^ 63 <= z < 2 ^ 63)%Z ->
     exists ts, print (VLit (LInt z) sp) = Some ts /\ parses E (TyLit LtInt) ts (VLit (LInt z) sp)) /\
  ((0 <= z < 2 ^ 64)%Z ->
     exists ts, print (VLit (LUint z) sp) = Some ts /\ parses E (TyLit LtUint) ts (VLit (LUint z) sp)).
Proof.
  intros U E z sp. assert (B : i64_min = (- 2 ^ 63)%Z /\ i64_max = (2 ^ 63 - 1)%Z /\ u64_max = (2 ^ 64 - 1)%Z) by (repeat split; reflexivity). destruct B as (B1 & B2 & B3).
  destruct (C25_integers_round_trip U E z sp) as (K1 & K2). split; intro H; [apply K1|apply K2]; lia.
Qed.
Print Assumptions C25_types_round_trip.
