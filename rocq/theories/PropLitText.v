(** * PropLitText: character, byte and string literals against the Rust Reference (C27, C28).
    [literal_text r l] (LitText.v) is the Reference's grammar: the text [r] is a literal that denotes [l]. *)
From Verif Require Import Base Float Literal Syn Ast Derive Grammar Spec LitSpec LiteralFacts Combinators GrammarBeh Examples PropLit
  Fmt FmtFacts Lexer LexFacts LexWf LexOut LexRun PropLex LexLit Writable PropStr LitText.
Local Open Scope nat_scope.

(** ** C27 *)
(** The token of a byte literal is a byte literal of Rust, and denotes that byte. *)
Theorem C27_token_is_a_byte_literal : forall (U : unicode) b sp, (b < 256)%N ->
  exists repr, print (VLit (LByte b) sp) = Some [TLit repr sp] /\ literal_text repr (LByte b).
Proof.
  intros U b sp H. destruct (byte_text b H) as (r & Hr & Ht). exists r. split; [|exact Ht]. cbn [print print_lit]. rewrite Hr. cbn [option_map].
  unfold lit_byte_repr, cursor_write in Hr. destruct (_ <=? _); [|discriminate Hr]. injection Hr as <-. reflexivity.
Qed.
Print Assumptions C27_token_is_a_byte_literal.

(** ** C28 *)
Theorem C28_tokens_are_literals : forall (U : unicode) sp,
  (forall s, forallb valid_char s = true -> exists repr, print (VLit (LStr s) sp) = Some [TLit repr sp] /\ literal_text repr (LStr s)) /\
  (forall c, valid_char c = true -> exists repr, print (VLit (LChar c) sp) = Some [TLit repr sp] /\ literal_text repr (LChar c)) /\
  (forall s, Forall (fun b => (b < 256)%N) s -> exists repr, print (VLit (LByteStr s) sp) = Some [TLit repr sp] /\ literal_text repr (LByteStr s)).
Proof.
  intros U sp. repeat split; intros x H; (eexists; split; [reflexivity|]); [apply show_str_text|apply show_char_text|apply show_byte_str_text]; exact H.
Qed.
Print Assumptions C28_tokens_are_literals.

(** However a literal is spelled, the typed node and [Lit] read the value it denotes. *)
Theorem C28_read_as_denoted : forall (U : unicode) E repr l sp, literal_text repr l ->
  parses E (TyLit (litty_of l)) [TLit repr sp] (VLit l sp) /\ parses E TyAnyLit [TLit repr sp] (VLit l sp).
Proof.
  intros U E r l sp H. pose proof (literal_text_reads r l H) as Hk.
  assert (Hp : exists k, text_kind l = Some k /\ p_lit (PS [TLit r sp] call_site None) = (OOk (SLTok k, sp), PS [] call_site None)).
  { assert (exists k, text_kind l = Some k) as (k & Ek) by (destruct H; eexists; reflexivity). exists k. split; [exact Ek|]. rewrite Ek in Hk. unfold p_lit. cbn [ps_rest]. change (ignore_none [TLit r sp]) with [TLit r sp]. cbv iota. rewrite Hk. reflexivity. }
  destruct Hp as (k & Ek & Hp).
  split; exists 1; unfold parse2, start; cbn [pty p_layer]; unfold pmap, bind; destruct H; cbn [text_kind litty_of p_litty] in *; injection Ek as <-;
    unfold p_any_lit, and_then, p_lit_byte, p_lit_char, p_lit_str, p_lit_byte_str, pmap, bind, p_syn_byte, p_syn_char, p_syn_str, p_syn_byte_str, p_typed;
    rewrite Hp; reflexivity.
Qed.
Print Assumptions C28_read_as_denoted.
(** A literal denotes one value. *)
Theorem C28_one_denotation : forall (U : unicode) r l l', literal_text r l -> literal_text r l' -> l = l'.
Proof. intros U r l l'. apply literal_text_det. Qed.
Print Assumptions C28_one_denotation.

(** The characters the theorems speak of are the Unicode scalar values: all code points but the surrogates. *)
Definition scalar_value (c : N) : Prop := (c <= 0x10FFFF /\ ~ (0xD800 <= c <= 0xDFFF))%N.
Theorem C28_characters_are_the_scalar_values : forall c, valid_char c = true <-> scalar_value c.
Proof.
  intro c. unfold valid_char, scalar_value. rewrite ?orb_true_iff, ?andb_true_iff, ?N.ltb_lt, ?N.leb_le. lia.
Qed.
Print Assumptions C28_characters_are_the_scalar_values.
Theorem C28_every_scalar_value_round_trips : forall (U : unicode) E s sp, Forall scalar_value s ->
  (exists ts, print (VLit (LStr s) sp) = Some ts /\ parses E (TyLit LtStr) ts (VLit (LStr s) sp)) /\
  forall c, In c s -> exists ts, print (VLit (LChar c) sp) = Some ts /\ parses E (TyLit LtChar) ts (VLit (LChar c) sp).
Proof.
  intros U E s sp H. rewrite Forall_forall in H. split.
  - apply C28_strings_round_trip. apply forallb_forall. intros x Hx. apply C28_characters_are_the_scalar_values, H, Hx.
  - intros c Hc. apply C28_chars_round_trip. apply C28_characters_are_the_scalar_values, H, Hc.
Qed.
Print Assumptions C28_every_scalar_value_round_trips.
(** From source text: every such literal is one token, and [from_str] gives the value it denotes. *)
Theorem C28_from_str_reads_as_denoted : forall (U : unicode), sane_tables U -> forall E file repr l, literal_text repr l ->
  exists sp, lex file repr = LOk [TLit repr sp] /\
    from_str E (TyLit (litty_of l)) file repr (VLit l sp) /\ from_str E TyAnyLit file repr (VLit l sp).
Proof.
  intros U sane E file r l H. assert (W : wf [TLit r call_site]). { cbn. split; [left; exact (literal_text_lexes r l H)|auto]. }
  destruct (wf_relexes sane None 0 _ file I W) as (l' & Hl & Eu).
  assert (Ht : text_with None 0 [TLit r call_site] = r). { rewrite text_with_calls. unfold c_write. cbn. rewrite ?app_nil_r. reflexivity. }
  rewrite Ht in Hl. destruct l' as [|x [|? ?]]; try discriminate Eu. cbn [map] in Eu. destruct x as [|? ? ?|r' s|]; try discriminate Eu. injection Eu as ->.
  eexists. split; [exact Hl|]. destruct (C28_read_as_denoted U E r l s H) as (H1 & H2). split; apply from_str_parses; eauto.
Qed.
Print Assumptions C28_from_str_reads_as_denoted.
(** line continuation, unicode escape with underscore; pounds and quotes inside a raw byte string; a suffix *)
Local Existing Instance ascii_only.
Example C28_ex_literals :
  literal_text (T """a\u{1_f600}\" ++ [13; 10; 32; 9]%N ++ T "b\x7E""") (LStr [97; 0x1F600; 98; 126]%N) /\
  literal_text (T "br##""x""#y""##") (LByteStr (T "x""#y")) /\
  literal_text (T "'\''u8") (LChar 39) /\ literal_text (T "b'\xfF'") (LByte 255).
Proof.
  split; [|split; [|split]].
  - assert (D : uni_digits (T "1_f600") 0x1F600 5).
    { assert (H1 : uni_digits (T "1_") 1 1). { apply (ud_first 49 1 [95%N]); [unfold hex_digit; lia|repeat constructor]. }
      assert (H2 : uni_digits (T "1_f") 0x1F 2). { apply (ud_next _ _ _ 102 15 [] H1); [unfold hex_digit; lia|constructor]. }
      assert (H3 : uni_digits (T "1_f6") 0x1F6 3). { apply (ud_next _ _ _ 54 6 [] H2); [unfold hex_digit; lia|constructor]. }
      assert (H4 : uni_digits (T "1_f60") 0x1F60 4). { apply (ud_next _ _ _ 48 0 [] H3); [unfold hex_digit; lia|constructor]. }
      apply (ud_next _ _ _ 48 0 [] H4); [unfold hex_digit; lia|constructor]. }
    assert (C1 : content false (T "b\x7E") [98; 126]%N).
    { apply c_plain; try discriminate. apply (c_escape false (T "\x7E") 126 [] []); [|constructor]. apply (e_hex false 55 69 7 14); unfold hex_digit; lia. }
    assert (C2 : content false (T "\" ++ [13; 10; 32; 9]%N ++ T "b\x7E") [98; 126]%N).
    { apply (c_continue false [13; 10]%N [32; 9]%N _ _ (or_intror eq_refl)); [apply cw_one; [auto|apply cw_one; [auto|constructor]]|exact C1|].
      intros (c & E & H). injection E as <-. cbn in H. destruct H as [H|[H|[H|[H|[]]]]]; discriminate H. }
    assert (C3 : content false (T "a\u{1_f600}\" ++ [13; 10; 32; 9]%N ++ T "b\x7E") [97; 0x1F600; 98; 126]%N).
    { apply c_plain; try discriminate. apply (c_escape false (T "\u{1_f600}")); [|exact C2]. apply (e_uni false (T "1_f600") _ 5 eq_refl D); [lia|reflexivity]. }
    exact (lt_str _ _ [] C3 (or_introl eq_refl)).
  - refine (lt_raw_byte_str 2 (T "x""#y") [] _ _ (or_introl eq_refl)); [lia|]. split; [|split].
    + cbn. intros [H|[H|[H|[H|[]]]]]; discriminate H.
    + intros _. repeat constructor.
    + intros (a & b & E). destruct a as [|a1 [|a2 [|a3 [|a4 [|? ?]]]]]; discriminate E.
  - refine (lt_char (T "\'") 39 (T "u8") _ eq_refl _); [apply q_escape, e_one; cbn; auto 9|]. right. split; [reflexivity|discriminate].
  - refine (lt_byte (T "\xfF") 255 [] _ (or_introl eq_refl)). apply q_escape. apply (e_hex true 102 70 15 15); unfold hex_digit; try lia.
Qed.
