(** * LexPrint: the literals the printer writes are literals of the lexer. *)
From Verif Require Import Base Float Literal Syn Ast LitSpec FloatFacts LiteralFacts Fmt Reprint Lexer LexFacts LexWf LexOut.
Local Open Scope nat_scope.

Section LexPrint.
Context {U : unicode}.

Lemma digits_no_prefix c r : is_digit c = true -> lex_string DStr (c :: r) = None /\ lex_string DByte (c :: r) = None /\ lex_string DC (c :: r) = None /\
  lex_byte (c :: r) = None /\ lex_character (c :: r) = None.
Proof.
  intro H. apply digit_range in H. assert (E : forall x, (x < 48 \/ 57 < x)%N -> (x =? c)%N = false) by (intros x Hx; apply N.eqb_neq; lia).
  unfold lex_string, lex_byte, lex_character. cbn [app strip_prefix]. rewrite !E by lia. auto.
Qed.
Lemma start_digit c : is_digit c = true -> ident_start c = false.
Proof. intro H. destruct (ident_start c) eqn:E; [|reflexivity]. apply digit_start in E. congruence. Qed.
Lemma mantissa_digits ds : forall s dot, forallb is_digit ds = true -> mantissa (ds ++ s) dot = mantissa s dot.
Proof.
  induction ds as [|c ds IH]; intros s dot H; [reflexivity|]. cbn in H. apply andb_true_iff in H as (Hc & H). cbn [app mantissa]. rewrite Hc. cbn [orb]. apply IH. exact H.
Qed.
Lemma float_lexes s : float_shape false s -> literal_nocapture s = Some [].
Proof.
  intros (ip & fp & -> & Hi & Hf & Hdi & Hdf). cbn [app]. destruct ip as [|c ip]; [congruence|]. cbn in Hdi. apply andb_true_iff in Hdi as (Hc & Hdi).
  cbn [app]. unfold literal_nocapture. destruct (digits_no_prefix c (ip ++ 46%N :: fp) Hc) as (-> & -> & -> & -> & ->). cbn [orelse].
  assert (E : lex_float (c :: ip ++ 46%N :: fp) = Some []).
  { unfold lex_float, float_digits. rewrite Hc. rewrite mantissa_digits by exact Hdi. cbn [mantissa].
    change (is_digit 46 || (46 =? 95)%N) with false. change (46 =? 46)%N with true. cbv iota.
    destruct fp as [|d fp]; [congruence|]. pose proof Hdf as Hdf'. cbn in Hdf'. apply andb_true_iff in Hdf' as (Hd & _). rewrite start_digit by exact Hd.
    assert (Ed : (d =? 46)%N = false) by (apply digit_range in Hd; apply N.eqb_neq; lia). rewrite Ed. cbn [orb].
    rewrite <- (app_nil_r (d :: fp)), mantissa_digits by exact Hdf. reflexivity. }
  rewrite E. reflexivity.
Qed.
Lemma digit_run_digits ds : forallb is_digit ds = true -> forall e, (ds = [] -> e = false) -> digit_run 10 ds e = Some [].
Proof.
  induction ds as [|c ds IH]; intros H e He.
  - rewrite He by reflexivity. reflexivity.
  - cbn in H. apply andb_true_iff in H as (Hc & H). cbn [digit_run]. rewrite Hc.
    assert (E : (digit_val c <? 10)%N = true) by (apply digit_range in Hc; unfold digit_val; apply N.ltb_lt; lia). rewrite E. apply IH; auto.
Qed.
Lemma int_lexes s : s <> [] -> forallb is_digit s = true -> literal_nocapture s = Some [].
Proof.
  intros Hne H. destruct s as [|c s]; [congruence|]. pose proof H as H'. cbn in H'. apply andb_true_iff in H' as (Hc & Hs).
  unfold literal_nocapture. destruct (digits_no_prefix c s Hc) as (-> & -> & -> & -> & ->). cbn [orelse].
  assert (E : lex_float (c :: s) = None). { unfold lex_float, float_digits. rewrite Hc. rewrite <- (app_nil_r s), mantissa_digits by exact Hs. reflexivity. }
  rewrite E. cbn [orelse]. unfold lex_int, digits.
  assert (P : forall x, is_digit x = false -> strip_prefix [48; x]%N (c :: s) = None).
  { intros x Hx. cbn [strip_prefix]. destruct (48 =? c)%N; [|reflexivity]. destruct s as [|d s]; [reflexivity|]. cbn in Hs. apply andb_true_iff in Hs as (Hd & _).
    destruct (N.eqb_spec x d) as [<-|]; [congruence|reflexivity]. }
  rewrite !P by reflexivity. rewrite (digit_run_digits (c :: s) H) by discriminate. reflexivity.
Qed.
Lemma char_lexes c : valid_char c = true -> literal_nocapture (show_char c) = Some [].
Proof.
  intro Hv. assert (E : lex_character (show_char c) = Some []).
  { unfold lex_character, show_char. cbn [app strip_prefix N.eqb Pos.eqb]. destruct (N.eqb_spec c 34) as [->|H34]; [reflexivity|]. unfold escape_debug.
    destruct (N.eqb_spec c 0) as [->|]; [reflexivity|]. destruct (N.eqb_spec c 9) as [->|]; [reflexivity|]. destruct (N.eqb_spec c 13) as [->|]; [reflexivity|].
    destruct (N.eqb_spec c 10) as [->|]; [reflexivity|]. destruct (N.eqb_spec c 39) as [->|]; [reflexivity|]. destruct (N.eqb_spec c 34) as [->|]; [congruence|].
    destruct (N.eqb_spec c 92) as [->|H92]; [reflexivity|]. cbn [orb]. destruct (if (c <? 128)%N then _ else _).
    - cbn [app lex_quoted]. destruct (N.eqb_spec c 92); [congruence|]. reflexivity.
    - unfold escape_unicode. cbn [app lex_quoted N.eqb Pos.eqb negb andb]. pose proof (backslash_u_escape c [39%N] Hv) as Hb. cbn [app] in Hb. rewrite <- app_assoc. cbn [app]. rewrite Hb. reflexivity. }
  unfold literal_nocapture. unfold show_char in *. cbn [app] in *. unfold lex_string, lex_byte. cbn [app strip_prefix N.eqb Pos.eqb orelse]. rewrite E. reflexivity.
Qed.
Definition bytes256 : list N := Eval vm_compute in map N.of_nat (seq 0 256).
Lemma byte_in b : (b < 256)%N -> In b bytes256.
Proof.
  intro H. change bytes256 with (map N.of_nat (seq 0 256)). apply in_map_iff. exists (N.to_nat b). split; [apply N2Nat.id|]. apply in_seq. lia.
Qed.
Lemma byte_lexes b r : (b < 256)%N -> lit_byte_repr b = Some r -> literal_nocapture r = Some [].
Proof.
  intros H Hr. apply byte_in in H.
  assert (C : forallb (fun b => match lit_byte_repr b with Some r => match literal_nocapture r with Some [] => true | _ => false end | None => true end) bytes256 = true) by (vm_compute; reflexivity).
  rewrite forallb_forall in C. specialize (C b H). rewrite Hr in C. destruct (literal_nocapture r) as [[|]|]; congruence.
Qed.
Lemma lex_cooked_escape_bytes s : forall f rest, forallb (fun b => (b <? 256)%N) s = true -> List.length s < f ->
  lex_cooked f DByte (escape_bytes s ++ 34%N :: rest) = Some (literal_suffix rest).
Proof.
  induction s as [|b r IH]; intros f rest Hv Hf.
  - destruct f; [lia|]. reflexivity.
  - cbn in Hv. apply andb_true_iff in Hv as (Hb & Hr). cbn [List.length] in Hf. destruct f as [|f]; [lia|].
    cbn [escape_bytes]. rewrite <- app_assoc. specialize (IH f rest Hr ltac:(lia)). rewrite <- IH. set (t := escape_bytes r ++ 34%N :: rest). clearbody t.
    apply N.ltb_lt in Hb. apply byte_in in Hb. destruct (N.eqb_spec b 0) as [->|H0]; [destruct (octal_next r); reflexivity|].
    cbn [In bytes256] in Hb. repeat (destruct Hb as [<-|Hb]; [reflexivity|]). destruct Hb.
Qed.
Lemma byte_str_lexes s : forallb (fun b => (b <? 256)%N) s = true -> literal_nocapture (show_byte_str s) = Some [].
Proof.
  intro Hv. unfold literal_nocapture, show_byte_str, lex_string. cbn [app strip_prefix N.eqb Pos.eqb orelse].
  rewrite lex_cooked_escape_bytes; [reflexivity|exact Hv|]. rewrite app_length. cbn [List.length]. pose proof (escape_bytes_length s). lia.
Qed.
(** every literal the printer writes is a literal for the lexer, and begins with a quote exactly if
    it is a character *)
Theorem written_lexes r : written r -> literal_nocapture r = Some [] /\ (forall x, r = 39%N :: x -> exists c, r = show_char c).
Proof.
  intros (l & sp & ts & Hv & Hp & Hin).
  assert (Push : forall x, In (TLit r sp) (push_lit x sp) -> (x = r /\ match x with c :: _ => c <> 45%N | [] => True end) \/ x = 45%N :: r).
  { intros x H. unfold push_lit in H. destruct x as [|c x]; [destruct H as [H|[]]; injection H as <-; auto|].
    destruct (N.eqb_spec c 45) as [->|Hc]; [destruct H as [H|[H|[]]]; [discriminate|injection H as <-; auto]|]. destruct H as [H|[]]. injection H as <-. auto. }
  assert (Int : forall z, In (TLit r sp) (push_lit (show_int z) sp) -> r = dec (Z.abs_N z)).
  { intros z H. apply Push in H. unfold show_int in H. destruct (z <? 0)%Z; cbn [app] in H; destruct H as [(H & Hn)|H].
    - exfalso. apply Hn. reflexivity.
    - injection H as H. symmetry. exact H.
    - symmetry. exact H.
    - exfalso. pose proof (dec_not_minus (Z.abs_N z)) as F. rewrite H in F. discriminate. }
  assert (Num : forall n, literal_nocapture (dec n) = Some [] /\ (forall x, dec n = 39%N :: x -> exists c, dec n = show_char c)).
  { intro n. split; [apply int_lexes; [apply dec_nonempty|apply dec_digits]|].
    intros x E. pose proof (dec_digits n) as F. rewrite E in F. discriminate. }
  destruct l; cbn [print_lit lit_valid] in Hp, Hv.
  - injection Hp as <-. destruct Hin as [Hin|[]]. discriminate.
  - destruct (lit_byte_repr b) as [x|] eqn:Eb; [|discriminate]. cbn in Hp. injection Hp as <-. pose proof Eb as Eb'. unfold lit_byte_repr, cursor_write in Eb'. destruct (Nat.leb _ _); [|discriminate]. injection Eb' as Ex.
    apply Push in Hin as [(-> & _)|Hin]; [|rewrite <- Ex in Hin; discriminate]. split; [apply (byte_lexes b); assumption|]. intros y Hy. rewrite <- Ex in Hy. discriminate.
  - injection Hp as <-. rewrite (Int _ Hin). apply Num.
  - injection Hp as <-. rewrite (Int _ Hin). apply Num.
  - destruct (float_show f) as [x|] eqn:Ef; [|discriminate]. cbn in Hp. injection Hp as <-.
    destruct (f64_finite f) eqn:Hf; [|destruct f; discriminate]. destruct (float_show_reads f Hv Hf) as (s & neg & Hs & Hsh & _). assert (x = s) as -> by congruence.
    destruct Hsh as (ip & fp & Es & H1 & H2 & H3 & H4). assert (Hsh : float_shape false (ip ++ [46%N] ++ fp)) by (exists ip, fp; auto).
    assert (r = ip ++ [46%N] ++ fp).
    { apply Push in Hin as [(<- & Hn)|Hin].
      - rewrite Es in Hn |- *. destruct neg; [cbn in Hn; congruence|reflexivity].
      - rewrite Es in Hin. destruct neg; cbn [app] in Hin; [injection Hin as Hin; symmetry; exact Hin|]. destruct ip as [|c ip]; [congruence|]. cbn in Hin. injection Hin as -> _. discriminate. }
    subst r. split; [apply float_lexes; exact Hsh|]. intros y Hy. destruct ip as [|c ip]; [congruence|]. cbn in Hy. injection Hy as -> _. discriminate.
  - injection Hp as <-. destruct Hin as [Hin|[]]. injection Hin as <-. split; [apply char_lexes; exact Hv|]. eauto.
  - injection Hp as <-. destruct Hin as [Hin|[]]. injection Hin as <-. split; [apply show_str_lexes; exact Hv|]. discriminate.
  - injection Hp as <-. destruct Hin as [Hin|[]]. injection Hin as <-. split; [apply byte_str_lexes; exact Hv|]. discriminate.
Qed.
End LexPrint.
