(** * Property C52: what an error says. *)
From Verif Require Import Base Float Literal Syn Ast Derive Grammar Spec SynFacts Lawful Combinators GrammarBeh LitSpec LiteralFacts FloatFacts PropLit PropParse Origin Examples.
Local Open Scope nat_scope.

(** ** Specification *)
(** where a message is shown: at the next token (a group: at its opening delimiter), or at the end of
    the stream with a remark *)
Definition says (s : pstate) (msg : text) (e : error) : Prop :=
  match ps_rest s with
  | [] => e = Err (ps_scope s) (T "unexpected end of input, " ++ msg)
  | TGroup _ sp _ :: _ => e = Err (open_span sp) msg
  | t :: _ => e = Err (tt_span t) msg
  end.
Definition word_next (s : pstate) (w : text) (sp : span) : Prop := exists r, ignore_none (ps_rest s) = TIdent w sp :: r.
Definition no_word_next (s : pstate) : Prop := forall w sp, ~ word_next s w sp.
Definition lit_name (k : litty) : text :=
  match k with
  | LtBool => T "boolean literal" | LtByte => T "byte literal" | LtInt | LtUint => T "integer literal" | LtFloat => T "floating point literal"
  | LtChar => T "character literal" | LtStr => T "string literal" | LtByteStr => T "byte string literal"
  end.
(** an integer literal (with its sign) is next; [sp] is its span, minus sign included *)
Definition number_next (s : pstate) (neg : bool) (n : N) (sp : span) : Prop :=
  exists repr base body sfx r,
    (ignore_none (ps_rest s) = TLit repr sp :: r \/
     exists g sp1 sp2 r1 repr', ignore_none (ps_rest s) = TPunct 45%N g sp1 :: r1 /\
        ignore_none r1 = TLit repr' sp2 :: r /\ sp = join_or sp1 sp2 /\ repr = 45%N :: repr') /\
    repr = sign neg ++ radix_prefix base ++ body ++ sfx /\ is_radix base /\ body_value base 0 body = Some n.
Definition bad_i64 (s : pstate) (e : error) : Prop :=
  exists neg n sp, number_next s neg n sp /\ ~ (- 2 ^ 63 <= signed neg n < 2 ^ 63)%Z /\
    e = Err sp (if neg then T "number too small to fit in target type" else T "number too large to fit in target type").
Definition bad_u64 (s : pstate) (e : error) : Prop :=
  exists neg n sp, number_next s neg n sp /\ (neg = true \/ ~ (Z.of_N n < 2 ^ 64)%Z) /\
    e = Err sp (if neg then T "invalid digit found in string" else T "number too large to fit in target type").

(** what a leaf complains about *)
Definition complaint (t : ty) (s : pstate) (e : error) : Prop :=
  match t with
  | TyIdent =>
      (exists w sp, word_next s w sp /\ rust_keyword w /\ says s (T "expected identifier, found keyword `" ++ w ++ T "`") e) \/
      no_word_next s /\ says s (T "expected identifier") e
  | TyCustomIdent kws =>
      (exists w sp, word_next s w sp /\ In w kws /\ e = Err sp (T "expected identifier, found keyword")) \/
      no_word_next s /\ says s (T "expected ident") e
  | TyKeyword k =>
      (exists w sp, word_next s w sp /\ w <> k /\ e = Err sp (T "expected keyword `" ++ k ++ T "`")) \/
      no_word_next s /\ says s (T "expected ident") e
  | TyTokenKw k => (forall sp, ~ word_next s k sp) /\ says s (T "expected `" ++ k ++ T "`") e
  | TyToken op => e_msg e = T "expected `" ++ op ++ T "`" /\
      ((exists c g sp r, ignore_none (ps_rest s) = TPunct c g sp :: r /\ c <> 39%N /\ e_span e = sp) \/
       e_span e = stream_span s)
  | TyLit k =>
      says s (T "expected " ++ lit_name k) e \/
      match k with
      | LtInt => bad_i64 s e
      | LtUint => bad_u64 s e
      | LtFloat => e_msg e = T "invalid float literal"
      | _ => False
      end
  | TyAnyLit =>
      says s (T "expected literal") e \/ bad_i64 s e \/ bad_u64 s e \/ e_msg e = T "invalid float literal" \/ e_msg e = T "unhandled literal"
  | TyEof => ps_rest s <> [] /\ says s (T "expected end of input or group, found garbage") e
  | TyNotEof => e = Err (ps_scope s) (T "unexpected end of input, unexpected end of input")
  | TyParen _ => says s (T "expected parentheses") e
  | TyBracket _ => says s (T "expected square brackets") e
  | TyBrace _ => says s (T "expected curly braces") e
  | TyRef _ => says s (T "parsing an empty choice (enum) always fails") e
  | _ => False
  end.

(** ** Proofs *)
Lemma says_at s msg : says s msg (error_at s msg).
Proof. unfold says, error_at. destruct (ps_rest s) as [|[| | |d sp l] r]; reflexivity. Qed.

Section Leaves.
Context {U : unicode}.
Lemma no_word s : (forall w sp r, ignore_none (ps_rest s) <> TIdent w sp :: r) -> no_word_next s.
Proof. intros H w sp (r & Hr). exact (H w sp r Hr). Qed.
Lemma msg_ident s e s' : p_ident s = (OErr e, s') -> complaint TyIdent s e.
Proof.
  unfold p_ident. destruct (ignore_none (ps_rest s)) as [|[w sp| | |] r] eqn:Ei; intro H; try (injection H as <- <-; right; split; [apply no_word; congruence|apply says_at]).
  destruct (text_mem w rust_keywords) eqn:Em; [|discriminate H]. injection H as <- <-. left. exists w, sp. split; [exists r; exact Ei|].
  split; [apply rust_keyword_list, text_mem_In, Em|apply says_at].
Qed.
Lemma msg_ident_any s e s' : p_ident_any s = (OErr e, s') -> no_word_next s /\ says s (T "expected ident") e.
Proof.
  unfold p_ident_any. destruct (ignore_none (ps_rest s)) as [|[w sp| | |] r] eqn:Ei; intro H; try discriminate H; injection H as <- <-; (split; [apply no_word; congruence|apply says_at]).
Qed.
Lemma ident_any_ok s w sp s' : p_ident_any s = (OOk (w, sp), s') -> word_next s w sp.
Proof. unfold p_ident_any. destruct (ignore_none (ps_rest s)) as [|[w0 sp0| | |] r] eqn:Ei; intro H; try discriminate H. injection H as <- <- <-. exists r. exact Ei. Qed.
Lemma msg_custom kws s e s' : p_custom_ident kws s = (OErr e, s') -> complaint (TyCustomIdent kws) s e.
Proof.
  unfold p_custom_ident. intro H. apply bind_err in H as [H|((w & sp) & s1 & H1 & H2)]; [right; eapply msg_ident_any; exact H|].
  cbn [fst snd] in H2. destruct (text_mem w kws) eqn:Em; [|discriminate H2]. injection H2 as <- <-. left. exists w, sp. split; [eapply ident_any_ok; exact H1|]. split; [apply text_mem_In, Em|reflexivity].
Qed.
Lemma msg_keyword k s e s' : p_keyword k s = (OErr e, s') -> complaint (TyKeyword k) s e.
Proof.
  unfold p_keyword. intro H. apply bind_err in H as [H|((w & sp) & s1 & H1 & H2)]; [right; eapply msg_ident_any; exact H|].
  cbn [fst snd] in H2. destruct (text_eqb w k) eqn:Em; [discriminate H2|]. injection H2 as <- <-. left. exists w, sp. split; [eapply ident_any_ok; exact H1|].
  split; [intros ->; rewrite text_eqb_refl in Em; discriminate|reflexivity].
Qed.
Lemma msg_token_kw k s e s' : p_token_kw k s = (OErr e, s') -> complaint (TyTokenKw k) s e.
Proof.
  unfold p_token_kw. destruct (ignore_none (ps_rest s)) as [|[w sp| | |] r] eqn:Ei; intro H; try (injection H as <- <-; split; [intros spx (rx & Hr); congruence|apply says_at]).
  destruct (text_eqb w k) eqn:Em; [discriminate H|]. injection H as <- <-. split; [|apply says_at]. intros sp0 (r0 & Hr). rewrite Ei in Hr. injection Hr as -> _ _. rewrite text_eqb_refl in Em. discriminate.
Qed.
Lemma msg_token op s e s' : p_token op s = (OErr e, s') -> complaint (TyToken op) s e.
Proof.
  unfold p_token. destruct (take_op op (ps_rest s)) as [(sps & r)|]; intro H; [discriminate H|]. injection H as <- <-. split; [reflexivity|]. cbn [e_span]. unfold op_error_span.
  destruct (ignore_none (ps_rest s)) as [|[|c g sp| |] r]; try (right; reflexivity). destruct (N.eqb_spec c 39) as [->|Hc]; [right; reflexivity|]. left. exists c, g, sp, r. auto.
Qed.
Lemma msg_typed {A} (sel : slit -> option A) what s e s' : p_typed sel what s = (OErr e, s') -> says s (T "expected " ++ what) e.
Proof.
  unfold p_typed. destruct (p_lit s) as ([(k & sp)|e0| |] & s1); intro H; try discriminate H.
  - destruct (sel k); [discriminate H|]. injection H as <- <-. apply says_at.
  - injection H as <- <-. apply says_at.
Qed.
Lemma pmap_err {A B} (f : A -> B) p s e s' : pmap f p s = (OErr e, s') -> p s = (OErr e, s').
Proof. unfold pmap, bind. destruct (p s) as ([v|e0| |] & s1); intro H; try discriminate H. injection H as <- <-. reflexivity. Qed.
Lemma int_shape s ds sp s' : p_lit s = (OOk (SLTok (KInt ds), sp), s') -> exists neg n, ds = sign neg ++ dec n /\ number_next s neg n sp.
Proof.
  intro El.
  assert (Hd : exists repr r, (ignore_none (ps_rest s) = TLit repr sp :: r \/
     exists g sp1 sp2 r1 repr', ignore_none (ps_rest s) = TPunct 45%N g sp1 :: r1 /\
        ignore_none r1 = TLit repr' sp2 :: r /\ sp = join_or sp1 sp2 /\ repr = 45%N :: repr') /\ lit_num repr = Some (KInt ds)).
  { unfold p_lit in El. destruct (ignore_none (ps_rest s)) as [|[w spw|c g spc|repr spr|d spd i] r] eqn:Er; try discriminate.
    - destruct (text_eqb w _); [discriminate|]. destruct (text_eqb w _); discriminate.
    - destruct (N.eqb_spec c 45) as [->|]; [|discriminate]. destruct (ignore_none r) as [|[| |repr spr|] r'] eqn:Er'; try discriminate.
      destruct (lit_num (45%N :: repr)) as [k|] eqn:Ek; [|discriminate]. injection El as Hk Hs' Hss. subst k s' sp. exists (45%N :: repr), r'. split; [|exact Ek].
      right. exists g, spc, spr, r, repr. auto.
    - destruct (lit_new repr) as [k|] eqn:Ek; [|discriminate]. injection El as Hk Hs' Hss. subst k s' sp. exists repr, r. split; [auto|]. apply lit_new_int_inv. exact Ek. }
  destruct Hd as (repr & r & Hpos & Hn). apply lit_num_int in Hn as (_ & _ & _ & sfx & Hn).
  apply parse_lit_int_inv in Hn as (neg & base & body & n & Hr & Hrepr & Hval & Hdig & ->).
  exists neg, n. split; [reflexivity|]. exists repr, base, body, sfx, r. auto.
Qed.
Lemma dec_head_not_minus n c r : dec n = c :: r -> (c =? 45)%N = false.
Proof. intro H. pose proof (dec_digits n) as D. rewrite H in D. cbn in D. apply andb_true_iff in D as (D & _). unfold is_digit in D. destruct (N.eqb_spec c 45) as [->|]; [discriminate D|reflexivity]. Qed.
Lemma msg_i64 s neg n sp e : number_next s neg n sp -> int_try_from (sign neg ++ dec n) sp = OErr e -> bad_i64 s e.
Proof.
  intros Hn H. unfold int_try_from in H. rewrite read_i64_sign in H. destruct (_ && _) eqn:Eb; [discriminate H|]. injection H as <-. exists neg, n, sp. split; [exact Hn|]. split.
  - assert (B : i64_min = (- 2 ^ 63)%Z /\ i64_max = (2 ^ 63 - 1)%Z) by (split; reflexivity). destruct B as (B1 & B2). rewrite B1, B2 in Eb. lia.
  - destruct neg; [reflexivity|]. cbn [sign app]. pose proof (dec_nonempty n) as Hd. destruct (dec n) as [|c r] eqn:Ed; [congruence|]. cbn [int_error]. rewrite (dec_head_not_minus n c r Ed). reflexivity.
Qed.
Lemma msg_u64 s neg n sp e : number_next s neg n sp -> uint_try_from (sign neg ++ dec n) sp = OErr e -> bad_u64 s e.
Proof.
  intros Hn H. unfold uint_try_from in H. rewrite read_u64_sign in H. destruct (_ && _) eqn:Eb; [discriminate H|]. injection H as <-. exists neg, n, sp. split; [exact Hn|]. split.
  - assert (B : u64_max = (2 ^ 64 - 1)%Z) by reflexivity. rewrite B in Eb. destruct neg; [left; reflexivity|right]. cbn [negb andb signed] in Eb. apply Z.leb_gt in Eb. lia.
  - destruct neg; [reflexivity|]. cbn [sign app]. pose proof (dec_nonempty n) as Hd. destruct (dec n) as [|c r] eqn:Ed; [congruence|]. cbn [uint_error]. rewrite (dec_head_not_minus n c r Ed). reflexivity.
Qed.
Lemma and_then_err {A B} (p : parser A) (k : A -> outcome B) s e s' : and_then p k s = (OErr e, s') -> p s = (OErr e, s') \/ exists v, p s = (OOk v, s') /\ k v = OErr e.
Proof.
  unfold and_then, bind. destruct (p s) as ([v|e0| |] & s1); intro H; try discriminate H.
  - injection H as H <-. right. exists v. auto.
  - left. injection H as <- <-. reflexivity.
Qed.
Lemma syn_int_ok s ds sp s' : p_syn_int s = (OOk (ds, sp), s') -> p_lit s = (OOk (SLTok (KInt ds), sp), s').
Proof. unfold p_syn_int, p_typed. destruct (p_lit s) as ([(k & sp0)|e0| |] & s1); intro H; try discriminate H. destruct k as [|[]]; try discriminate H. injection H as <- <- <-. reflexivity. Qed.
Lemma msg_lit k s e s' : p_litty k s = (OErr e, s') -> complaint (TyLit k) s e.
Proof.
  destruct k; cbn [p_litty]; intro H;
    try (left; apply pmap_err in H; exact (msg_typed _ _ _ _ _ H)).
  - apply and_then_err in H as [H|((ds & sp) & H & He)]; [left; exact (msg_typed _ _ _ _ _ H)|]. apply syn_int_ok, int_shape in H as (neg & n & -> & Hn). right. exact (msg_i64 _ _ _ _ _ Hn He).
  - apply and_then_err in H as [H|((ds & sp) & H & He)]; [left; exact (msg_typed _ _ _ _ _ H)|]. apply syn_int_ok, int_shape in H as (neg & n & -> & Hn). right. exact (msg_u64 _ _ _ _ _ Hn He).
  - apply and_then_err in H as [H|((ds & sp) & H & He)]; [left; exact (msg_typed _ _ _ _ _ H)|]. cbn [fst snd] in He. unfold float_try_from in He. destruct (float_read ds); [discriminate He|]. injection He as <-. right. reflexivity.
Qed.
Lemma msg_p_lit s e s' : p_lit s = (OErr e, s') -> says s (T "expected literal") e.
Proof.
  unfold p_lit. intro H.
  repeat match type of H with
  | (OErr _, _) = _ => injection H as <- <-; apply says_at
  | (OOk _, _) = _ => discriminate H
  | (OPanic, _) = _ => discriminate H
  | (match ?x with _ => _ end) = _ => destruct x
  end.
Qed.
Lemma msg_any_lit s e s' : p_any_lit s = (OErr e, s') -> complaint TyAnyLit s e.
Proof.
  unfold p_any_lit. intro H. apply and_then_err in H as [H|((k & sp) & H & He)]; [left; exact (msg_p_lit _ _ _ H)|]. right. unfold lit_try_from in He.
  destruct k as [b|[]]; try discriminate He.
  - injection He as <-. auto.
  - apply int_shape in H as (neg & n & -> & Hn). destruct neg; cbn [sign app] in He.
    + cbn in He. left. exact (msg_i64 s true n sp e Hn He).
    + pose proof (dec_nonempty n) as Hd. destruct (dec n) as [|c r] eqn:Ed; [congruence|]. rewrite (dec_head_not_minus n c r Ed) in He. right. left. apply (msg_u64 s false n sp e Hn). cbn [sign app]. rewrite Ed. exact He.
  - unfold float_try_from in He. destruct (float_read digits); [discriminate He|]. injection He as <-. auto.
Qed.
End Leaves.

(** Every leaf that fails says what it expected, where it is. *)
Theorem C52_leaf_messages : forall (U : unicode) E t s e, raises_itself t -> no (tbeh E t) s e -> complaint t s e.
Proof.
  intros U E t s e Hr H. rewrite tbeh_no_layer in H. cbn [of_parser no] in H. destruct H as (n & s' & H). destruct t; try contradiction Hr; cbn [p_layer] in H; apply pmap_err in H.
  - exact (msg_ident _ _ _ H).
  - exact (msg_custom _ _ _ _ H).
  - exact (msg_keyword _ _ _ _ H).
  - exact (msg_token_kw _ _ _ _ H).
  - exact (msg_token _ _ _ _ H).
  - exact (msg_lit _ _ _ _ H).
  - exact (msg_any_lit _ _ _ H).
  - unfold p_eof in H. destruct (is_empty s) eqn:Ee; [discriminate H|]. injection H as <- <-. split; [intro Hx; unfold is_empty in Ee; rewrite Hx in Ee; discriminate|apply says_at].
  - unfold p_not_eof in H. destruct (is_empty s) eqn:Ee; [|discriminate H]. injection H as <- <-. cbn [complaint]. unfold is_empty in Ee. unfold error_at. destruct (ps_rest s); [reflexivity|discriminate Ee].
Qed.
Print Assumptions C52_leaf_messages.

(** Every error of every grammar is such a complaint, made at a stream the failing node was reached with, under
    one line per enclosing production. *)
Lemma origin_complaint {U : unicode} E t s path s0 e : origin E t s path s0 e -> exists t0, complaint t0 s0 e.
Proof.
  induction 1; eauto.
  - exists t. eapply C52_leaf_messages; eassumption.
  - exists (TyGroup d t). destruct d; try contradiction; apply says_at.
  - exists (TyRef i). apply says_at.
Qed.
Theorem C52_every_message : forall (U : unicode) E t s e, named E -> no (tbeh E t) s e ->
  exists path s0 t0 e0, origin E t s path s0 e0 /\ complaint t0 s0 e0 /\ e = Err (e_span e0) (List.concat (map hop_line path) ++ e_msg e0).
Proof.
  intros U E t s e HE H. destruct (C06_error_chain U E t s e HE H) as (path & s0 & e0 & Ho & H1 & H2). destruct (origin_complaint _ _ _ _ _ _ Ho) as (t0 & Hc).
  exists path, s0, t0, e0. split; [exact Ho|]. split; [exact Hc|]. destruct e as [sp m]. cbn in *. congruence.
Qed.
Print Assumptions C52_every_message.

(** ** Input left over *)
Lemma leftover_next l : leftover l = match ignore_none l with [] => None | t :: _ => Some (tt_span t) end.
Proof.
  induction l as [|t r Hv IH|sp i r IH] using stream_ind; [reflexivity| |].
  - rewrite ignore_none_visible by exact Hv. destruct t as [n sp|c s sp|rp sp|d sp l]; try reflexivity. destruct d; try reflexivity. exfalso. eapply Hv. reflexivity.
  - rewrite ignore_none_open, <- IH. cbn [leftover].
    assert (E : tt_leftover (TGroup DNone sp i) = leftover i).
    { clear. induction i as [|x i IH]; cbn; [reflexivity|]. destruct (tt_leftover x); [reflexivity|exact IH]. }
    rewrite E. clear. induction i as [|x i IH]; [reflexivity|]. cbn [leftover app]. destruct (tt_leftover x); [reflexivity|exact IH].
Qed.
(** A parse of the whole input fails with the error of the parse, or because a group was left early (see C11), or at
    the first token that is left. *)
Theorem C52_whole_input : forall (U : unicode) E t n ts e, parse2 (pty E n t) ts = RErr e ->
  (exists s', pty E n t (start ts) = (OErr e, s')) \/
  exists v s', pty E n t (start ts) = (OOk v, s') /\ e_msg e = T "unexpected token" /\
    (ps_unexp s' = Some (e_span e) \/ ps_unexp s' = None /\ exists x r, ignore_none (ps_rest s') = x :: r /\ e_span e = tt_span x).
Proof.
  intros U E t n ts e H. unfold parse2 in H. destruct (pty E n t (start ts)) as ([v|e0| |] & s1); try discriminate H; [|left; injection H as <-; eauto].
  right. exists v, s1. split; [reflexivity|]. destruct (ps_unexp s1) as [sp|] eqn:Eu.
  - injection H as <-. split; [reflexivity|]. left. reflexivity.
  - rewrite leftover_next in H. destruct (ignore_none (ps_rest s1)) as [|x r]; [discriminate H|]. injection H as <-. split; [reflexivity|]. right. split; [reflexivity|]. exists x, r. auto.
Qed.
Print Assumptions C52_whole_input.

(** *** Examples: messages of the documentation *)
Section WithTables.
Local Existing Instance ascii_only.
Definition noE : env := fun _ => DStruct (Ctor [] []).
Definition msg_of {A} (r : result A) : option text := match r with RErr e => Some (e_msg e) | _ => None end.
(** ast.rs:224-241 *)
Example C52_ex_keyword : msg_of (parse2 (pty noE 2 (TyKeyword (T "quux"))) [TIdent (T "somethingelse") (sp 0 13)]) = Some (T "expected keyword `quux`").
Proof. reflexivity. Qed.
Example C52_ex_custom : msg_of (parse2 (pty noE 2 (TyCustomIdent (map T ["bar"; "quux"; "_"]%string))) [TIdent (T "_") (sp 0 1)]) = Some (T "expected identifier, found keyword").
Proof. reflexivity. Qed.
Example C52_ex_end : parse2 (pty noE 3 (TyParen TyIdent)) [TGroup DParen (sp 0 2) []] = RErr (Err (sp 1 2) (T "unexpected end of input, expected identifier")).
Proof. vm_compute. reflexivity. Qed.
Example C52_ex_range : parse2 (pty noE 3 (TyLit LtUint)) [TPunct 45 Alone (sp 0 1); TLit (T "1") (sp 1 2)] = RErr (Err (sp 0 2) (T "invalid digit found in string")).
Proof. vm_compute. reflexivity. Qed.
Example C52_ex_leftover : parse2 (pty noE 3 TyIdent) [TIdent (T "x") (sp 0 1); TIdent (T "y") (sp 2 3)] = RErr (Err (sp 2 3) (T "unexpected token")).
Proof. vm_compute. reflexivity. Qed.
(** and the remark is doubled for [NotEof] *)
Example C52_ex_not_eof : msg_of (parse2 (pty noE 2 TyNotEof) []) = Some (T "unexpected end of input, unexpected end of input").
Proof. vm_compute. reflexivity. Qed.
End WithTables.
