(** * LitText: the character, byte and string literals of Rust and what they denote (C27, C28).

    Specification: Rust Reference, "Tokens", sections on character, string, raw string, byte,
    byte string and raw byte string literals.  One addition: a line of a literal may end in CR LF
    (rustc turns CR LF into LF before it reads tokens), except in raw strings. *)
From Verif Require Import Base Float Literal Syn Ast LitSpec LiteralFacts Lexer LexFacts LexLit.
Local Open Scope N_scope.

Section LitText.
Context {U : unicode}.
(** HEX_DIGIT *)
Definition hex_digit (c : char) (d : N) : Prop :=
  (48 <= c <= 57 /\ d = c - 48) \/ (97 <= c <= 102 /\ d = c - 97 + 10) \/ (65 <= c <= 70 /\ d = c - 65 + 10).
(** ( HEX_DIGIT _* ) n times *)
Inductive uni_digits : text -> N -> nat -> Prop :=
| ud_first c d us : hex_digit c d -> Forall (eq 95) us -> uni_digits ([c] ++ us) d 1
| ud_next s v n c d us : uni_digits s v n -> hex_digit c d -> Forall (eq 95) us -> uni_digits (s ++ [c] ++ us) (v * 16 + d) (S n).
(** the character after the backslash, and the character denoted *)
Definition one_char_escapes : list (char * N) :=
  [(110, 10); (114, 13); (116, 9); (92, 92); (48, 0); (39, 39); (34, 34)].
(** QUOTE_ESCAPE, ASCII_ESCAPE, UNICODE_ESCAPE; with [bytes], BYTE_ESCAPE *)
Inductive escape (bytes : bool) : text -> N -> Prop :=
| e_one c v : In (c, v) one_char_escapes -> escape bytes [92; c] v
| e_hex a b x y : hex_digit a x -> hex_digit b y -> (bytes = false -> x <= 7) -> escape bytes [92; 120; a; b] (x * 16 + y)
| e_uni ds v n : bytes = false -> uni_digits ds v n -> (n <= 6)%nat -> valid_char v = true ->
    escape bytes ([92; 117; 123] ++ ds ++ [125]) v.
(** white space that STRING_CONTINUE skips *)
Inductive continue_white : text -> Prop :=
| cw_nil : continue_white []
| cw_one c w : c = 32 \/ c = 9 \/ c = 10 -> continue_white w -> continue_white (c :: w)
| cw_crlf w : continue_white w -> continue_white ([13; 10] ++ w).
(** between the quotes of a string literal: the text, and the characters (or bytes) denoted *)
Inductive content (bytes : bool) : text -> list N -> Prop :=
| c_nil : content bytes [] []
| c_plain c s v : c <> 34 -> c <> 92 -> c <> 13 -> (bytes = true -> c < 128) -> content bytes s v -> content bytes (c :: s) (c :: v)
| c_escape e x s v : escape bytes e x -> content bytes s v -> content bytes (e ++ s) (x :: v)
| c_crlf s v : content bytes s v -> content bytes ([13; 10] ++ s) (10 :: v)
| c_continue nl w s v : nl = [10] \/ nl = [13; 10] -> continue_white w -> content bytes s v ->
    ~ (exists c, hd_error s = Some c /\ In c [32; 9; 10; 13]) -> content bytes ([92] ++ nl ++ w ++ s) v.
(** between the apostrophes of a character or byte literal *)
Inductive quoted (bytes : bool) : text -> N -> Prop :=
| q_plain c : ~ In c [39; 92; 10; 13; 9] -> (bytes = true -> c < 128) -> quoted bytes [c] c
| q_escape e x : escape bytes e x -> quoted bytes e x.
(** between the quotes of a raw string with [n] pounds *)
Definition raw_content (bytes : bool) (n : nat) (s : text) : Prop :=
  ~ In 13 s /\ (bytes = true -> Forall (fun c => c < 128) s) /\ ~ (exists a b, s = a ++ [34] ++ repeat 35 n ++ b).
(** SUFFIX: an identifier *)
Definition lit_suffix (s : text) : Prop := s = [] \/ (xid_ok s = true /\ s <> [95]).

Inductive literal_text : text -> lit -> Prop :=
| lt_char q c sfx : quoted false q c -> valid_char c = true -> lit_suffix sfx -> literal_text ([39] ++ q ++ [39] ++ sfx) (LChar c)
| lt_byte q b sfx : quoted true q b -> lit_suffix sfx -> literal_text ([98; 39] ++ q ++ [39] ++ sfx) (LByte b)
| lt_str s v sfx : content false s v -> lit_suffix sfx -> literal_text ([34] ++ s ++ [34] ++ sfx) (LStr v)
| lt_byte_str s v sfx : content true s v -> lit_suffix sfx -> literal_text ([98; 34] ++ s ++ [34] ++ sfx) (LByteStr v)
| lt_raw_str n s sfx : (n <= 255)%nat -> raw_content false n s -> lit_suffix sfx ->
    literal_text ([114] ++ repeat 35 n ++ [34] ++ s ++ [34] ++ repeat 35 n ++ sfx) (LStr s)
| lt_raw_byte_str n s sfx : (n <= 255)%nat -> raw_content true n s -> lit_suffix sfx ->
    literal_text ([98; 114] ++ repeat 35 n ++ [34] ++ s ++ [34] ++ repeat 35 n ++ sfx) (LByteStr s).

(** what syn calls these literals *)
Definition text_kind (l : lit) : option lkind :=
  match l with
  | LChar c => Some (KChar c) | LByte b => Some (KByte b) | LStr s => Some (KStr s) | LByteStr s => Some (KByteStr s)
  | _ => None
  end.

(** ** Escapes *)
Lemma hex_digit_val c d : hex_digit c d -> hex_val c = Some d /\ d < 16 /\ c <> 95 /\ c <> 125 /\ (d <= 7 -> is_digit c = true).
Proof.
  unfold hex_digit, hex_val, is_digit, digit_val. intros [(H & ->)|[(H & ->)|(H & ->)]].
  - replace (48 <=? c) with true by lia. replace (c <=? 57) with true by lia. cbn [andb]. repeat split; lia.
  - replace (c <=? 57) with false by lia. rewrite andb_false_r. replace (97 <=? c) with true by lia. replace (c <=? 102) with true by lia. cbn [andb]. repeat split; try lia. f_equal. lia.
  - replace (c <=? 57) with false by lia. rewrite andb_false_r. replace (97 <=? c) with false by lia. cbn [andb]. replace (65 <=? c) with true by lia. replace (c <=? 70) with true by lia. cbn [andb]. repeat split; try lia. f_equal. lia.
Qed.
Lemma under_loop us : forall rest v k, Forall (eq 95) us -> (0 < k)%nat -> backslash_u_loop (us ++ rest) v k = backslash_u_loop rest v k.
Proof.
  induction us as [|u us IH]; intros rest v k H Hk; [reflexivity|]. inversion H as [|? ? <- H']; subst. cbn [app backslash_u_loop]. change (hex_val 95) with (@None N). cbv iota.
  replace (0 <? k)%nat with true by (symmetry; apply Nat.ltb_lt; exact Hk). cbn [N.eqb Pos.eqb andb]. apply IH; assumption.
Qed.
Lemma uni_loop ds v n : uni_digits ds v n -> forall rest, (n <= 6)%nat -> backslash_u_loop (ds ++ rest) 0 0 = backslash_u_loop rest v n.
Proof.
  induction 1 as [c d us Hc Hu|s v n c d us Hs IH Hc Hu]; intros rest Hn.
  - rewrite <- app_assoc. cbn [app backslash_u_loop]. destruct (hex_digit_val c d Hc) as (-> & _). cbn [Nat.eqb]. rewrite under_loop by (auto; lia). reflexivity.
  - rewrite <- !app_assoc. rewrite IH by lia. cbn [app backslash_u_loop]. destruct (hex_digit_val c d Hc) as (-> & _). replace (n =? 6)%nat with false by (symmetry; apply Nat.eqb_neq; lia). rewrite under_loop by (auto; lia). reflexivity.
Qed.
Lemma uni_pos ds v n : uni_digits ds v n -> (0 < n)%nat.
Proof. induction 1; lia. Qed.
Lemma uni_reads ds v n rest : uni_digits ds v n -> (n <= 6)%nat -> valid_char v = true -> backslash_u ([123] ++ ds ++ [125] ++ rest) = Some (v, rest).
Proof.
  intros H Hn Hv. cbn [app backslash_u N.eqb Pos.eqb]. rewrite (uni_loop ds v n H _ Hn). cbn [app backslash_u_loop]. change (hex_val 125) with (@None N). cbv iota. cbn [N.eqb Pos.eqb andb].
  pose proof (uni_pos ds v n H). replace (0 <? n)%nat with true by (symmetry; apply Nat.ltb_lt; assumption). rewrite Hv. reflexivity.
Qed.
Definition dial (bytes : bool) : dialect := if bytes then DByte else DStr.
Lemma one_char c v : In (c, v) one_char_escapes -> simple_escape c = Some v /\ (forall d, d <> DC -> lex_simple d c = true) /\ c <> 120 /\ c <> 117 /\ c <> 10 /\ c <> 13.
Proof.
  cbn. intros [H|[H|[H|[H|[H|[H|[H|[]]]]]]]]; injection H as <- <-; (split; [reflexivity|]); (split; [intros [] Hd; try reflexivity; congruence|]); repeat split; discriminate.
Qed.
Lemma cooked_escape bytes e x : escape bytes e x -> forall f rest out, cooked (S f) bytes (e ++ rest) out = cooked f bytes rest (x :: out).
Proof.
  intros H f rest out. destruct H as [c v H|a b x y Ha Hb Hx|ds v n -> Hd Hn Hv].
  - destruct (one_char c v H) as (E & _ & H1 & H2 & _). cbn [app cooked N.eqb Pos.eqb]. replace (c =? 120) with false by lia. replace (c =? 117) with false by lia. cbn [andb]. rewrite E. reflexivity.
  - destruct (hex_digit_val a x Ha) as (Ea & _). destruct (hex_digit_val b y Hb) as (Eb & Hy & _). cbn [app cooked N.eqb Pos.eqb backslash_x]. rewrite Ea, Eb.
    assert (bytes || (x * 16 + y <=? 127) = true) as -> by (destruct bytes; [reflexivity|specialize (Hx eq_refl); cbn; apply N.leb_le; lia]). reflexivity.
  - rewrite <- !app_assoc. cbn [app]. cbn [cooked N.eqb Pos.eqb negb andb]. change (123 :: ds ++ 125 :: rest) with ([123] ++ ds ++ [125] ++ rest). rewrite (uni_reads ds v n rest Hd Hn Hv). reflexivity.
Qed.
Lemma lex_x_digits bytes a b x y rest : hex_digit a x -> hex_digit b y -> (bytes = false -> x <= 7) -> lex_x (dial bytes) (a :: b :: rest) = Some rest.
Proof.
  intros Ha Hb Hx. destruct (hex_digit_val a x Ha) as (Ea & _ & _ & _ & Ed). destruct (hex_digit_val b y Hb) as (Eb & _). cbn [lex_x]. rewrite Ea, Eb. destruct bytes; [reflexivity|]. cbn [dial].
  specialize (Hx eq_refl). rewrite (Ed Hx). replace (x <=? 7) with true by lia. reflexivity.
Qed.
Lemma lex_escape bytes e x : escape bytes e x -> forall f rest, lex_cooked (S f) (dial bytes) (e ++ rest) = lex_cooked f (dial bytes) rest.
Proof.
  intros H f rest. destruct H as [c v H|a b x y Ha Hb Hx|ds v n -> Hd Hn Hv].
  - destruct (one_char c v H) as (_ & E & H1 & H2 & _). cbn [app lex_cooked N.eqb Pos.eqb]. replace (c =? 120) with false by lia. rewrite E by (destruct bytes; discriminate). reflexivity.
  - cbn [app lex_cooked N.eqb Pos.eqb]. rewrite (lex_x_digits bytes a b x y rest Ha Hb Hx). reflexivity.
  - rewrite <- !app_assoc. cbn [app dial]. cbn [lex_cooked N.eqb Pos.eqb andb]. change (lex_simple DStr 117) with false. cbv iota. change (123 :: ds ++ 125 :: rest) with ([123] ++ ds ++ [125] ++ rest).
    rewrite (uni_reads ds v n rest Hd Hn Hv), andb_false_r. reflexivity.
Qed.
Lemma escape_head bytes e x : escape bytes e x -> exists b r, e = 92 :: b :: r.
Proof. destruct 1; cbn [app]; eauto. Qed.

(** ** Strings *)
Definition no_white (s : text) : Prop := ~ (exists c, hd_error s = Some c /\ In c [32; 9; 10; 13]).
Lemma no_white_cons c s : no_white (c :: s) -> (c =? 32) || (c =? 9) || (c =? 10) || (c =? 13) = false.
Proof.
  intro H. destruct ((c =? 32) || (c =? 9) || (c =? 10) || (c =? 13)) eqn:E; [|reflexivity]. exfalso. apply H. exists c. split; [reflexivity|]. cbn.
  destruct (N.eqb_spec c 32); [auto|]. destruct (N.eqb_spec c 9); [auto|]. destruct (N.eqb_spec c 10); [auto|]. destruct (N.eqb_spec c 13); [auto|]. discriminate.
Qed.
Lemma no_white_app s rest : no_white s -> no_white (s ++ 34 :: rest).
Proof. destruct s as [|c s]; [|intro H; exact H]. intros _ (c & E & H). injection E as <-. cbn in H. destruct H as [H|[H|[H|[H|[]]]]]; discriminate. Qed.
Lemma skip_white_spec w s : continue_white w -> no_white s -> s <> [] -> skip_cont (w ++ s) = s /\ trailing_backslash false (w ++ s) = Some s.
Proof.
  intros Hw Hs Hn. induction Hw as [|c w Hc Hw (IH1 & IH2)|w Hw (IH1 & IH2)].
  - destruct s as [|c s]; [congruence|]. cbn [app skip_cont trailing_backslash]. rewrite (no_white_cons c s Hs). auto.
  - cbn [app skip_cont trailing_backslash]. destruct Hc as [->|[->| ->]]; cbn [N.eqb Pos.eqb orb]; auto.
  - cbn [app skip_cont trailing_backslash N.eqb Pos.eqb orb]. auto.
Qed.
Lemma content_reads bytes s v : content bytes s v -> forall f rest out, (List.length s < f)%nat -> cooked f bytes (s ++ 34 :: rest) out = Some (rev out ++ v, rest).
Proof.
  induction 1 as [|c s v H1 H2 H3 H4 _ IH|e x s v He _ IH|s v _ IH|nl w s v Hnl Hw _ IH Hs]; intros f rest out Hf.
  - destruct f as [|f]; [cbn in Hf; lia|]. cbn. rewrite app_nil_r. reflexivity.
  - cbn [List.length] in Hf. destruct f as [|f]; [lia|]. cbn [app]. rewrite cooked_raw by assumption. rewrite IH by lia. cbn [rev]. rewrite <- app_assoc. reflexivity.
  - rewrite app_length in Hf. destruct (escape_head bytes e x He) as (b & r & E). assert (Hl : (2 <= List.length e)%nat) by (rewrite E; cbn [List.length]; lia). destruct f as [|f]; [lia|]. rewrite <- app_assoc, (cooked_escape bytes e x He), IH by lia. cbn [rev]. rewrite <- app_assoc. reflexivity.
  - cbn [app List.length] in *. destruct f as [|f]; [lia|]. cbn [cooked N.eqb Pos.eqb]. rewrite IH by lia. cbn [rev]. rewrite <- app_assoc. reflexivity.
  - rewrite !app_length in Hf. destruct f as [|f]; [cbn in Hf; lia|]. rewrite <- !app_assoc.
    destruct (skip_white_spec w (s ++ 34 :: rest) Hw (no_white_app _ _ Hs) ltac:(destruct s; discriminate)) as (E & _).
    assert (Hf' : (List.length s < f)%nat) by (destruct Hnl as [->| ->]; cbn [List.length] in Hf; lia).
    destruct Hnl as [->| ->]; cbn [app cooked N.eqb Pos.eqb negb andb orb simple_escape]; cbn [skip_cont N.eqb Pos.eqb orb]; rewrite E; apply IH; exact Hf'.
Qed.
Lemma content_lexes bytes s v : content bytes s v -> forall f rest, (List.length s < f)%nat -> lex_cooked f (dial bytes) (s ++ 34 :: rest) = Some (literal_suffix rest).
Proof.
  induction 1 as [|c s v H1 H2 H3 H4 _ IH|e x s v He _ IH|s v _ IH|nl w s v Hnl Hw _ IH Hs]; intros f rest Hf.
  - destruct f as [|f]; [cbn in Hf; lia|]. reflexivity.
  - cbn [List.length] in Hf. destruct f as [|f]; [lia|]. cbn [app lex_cooked]. replace (c =? 34) with false by lia. replace (c =? 13) with false by lia. replace (c =? 92) with false by lia.
    destruct bytes; cbn [dial]; [specialize (H4 eq_refl); replace (c <? 128) with true by lia|]; apply IH; lia.
  - rewrite app_length in Hf. destruct (escape_head bytes e x He) as (b & r & E). assert (Hl : (2 <= List.length e)%nat) by (rewrite E; cbn [List.length]; lia). destruct f as [|f]; [lia|]. rewrite <- app_assoc, (lex_escape bytes e x He). apply IH. lia.
  - cbn [app List.length] in *. destruct f as [|f]; [lia|]. cbn [lex_cooked N.eqb Pos.eqb]. apply IH. lia.
  - rewrite !app_length in Hf. destruct f as [|f]; [cbn in Hf; lia|]. rewrite <- !app_assoc.
    destruct (skip_white_spec w (s ++ 34 :: rest) Hw (no_white_app _ _ Hs) ltac:(destruct s; discriminate)) as (_ & E).
    assert (Hf' : (List.length s < f)%nat) by (destruct Hnl as [->| ->]; cbn [List.length] in Hf; lia).
    destruct Hnl as [->| ->]; cbn [app lex_cooked N.eqb Pos.eqb orb]; destruct bytes; cbn [dial lex_simple existsb N.eqb Pos.eqb orb andb trailing_backslash]; rewrite E; apply IH; exact Hf'.
Qed.

(** ** Characters *)
Lemma quoted_read bytes q x sfx : quoted bytes q x -> quoted_char bytes (q ++ 39 :: sfx) = Some (x, sfx).
Proof.
  intros [c Hc Hb|e y He].
  - cbn [app quoted_char]. destruct (N.eqb_spec c 92) as [->|_]; [exfalso; apply Hc; cbn; auto|]. reflexivity.
  - destruct He as [c v H|a b x1 y1 Ha Hb Hx|ds v n -> Hd Hn Hv].
    + destruct (one_char c v H) as (E & _ & H1 & H2 & _). cbn [app quoted_char N.eqb Pos.eqb]. replace (c =? 120) with false by lia. replace (c =? 117) with false by lia. cbn [andb]. rewrite E. reflexivity.
    + destruct (hex_digit_val a x1 Ha) as (Ea & _). destruct (hex_digit_val b y1 Hb) as (Eb & Hy & _). cbn [app quoted_char N.eqb Pos.eqb backslash_x]. rewrite Ea, Eb.
      assert (bytes || (x1 * 16 + y1 <=? 128) = true) as -> by (destruct bytes; [reflexivity|specialize (Hx eq_refl); cbn; apply N.leb_le; lia]). reflexivity.
    + rewrite <- !app_assoc. cbn [app]. cbn [quoted_char N.eqb Pos.eqb negb andb]. change (123 :: ds ++ 125 :: 39 :: sfx) with ([123] ++ ds ++ [125] ++ 39 :: sfx). rewrite (uni_reads ds v n _ Hd Hn Hv). reflexivity.
Qed.
Lemma quoted_lexes bytes q x sfx : quoted bytes q x -> lex_quoted bytes (q ++ 39 :: sfx) = Some (literal_suffix sfx).
Proof.
  intros [c Hc Hb|e y He].
  - cbn [app lex_quoted]. destruct (N.eqb_spec c 92) as [->|_]; [exfalso; apply Hc; cbn; auto|]. destruct bytes; [specialize (Hb eq_refl); replace (c <? 128) with true by lia|]; reflexivity.
  - destruct He as [c v H|a b x1 y1 Ha Hb Hx|ds v n -> Hd Hn Hv].
    + destruct (one_char c v H) as (_ & E & H1 & H2 & _). cbn [app lex_quoted N.eqb Pos.eqb]. replace (c =? 120) with false by lia. replace (c =? 117) with false by lia. cbn [andb]. rewrite E by discriminate. reflexivity.
    + cbn [app lex_quoted N.eqb Pos.eqb]. fold (dial bytes). rewrite (lex_x_digits bytes a b x1 y1 _ Ha Hb Hx). reflexivity.
    + rewrite <- !app_assoc. cbn [app]. cbn [lex_quoted N.eqb Pos.eqb negb andb]. change (123 :: ds ++ 125 :: 39 :: sfx) with ([123] ++ ds ++ [125] ++ 39 :: sfx). rewrite (uni_reads ds v n _ Hd Hn Hv). reflexivity.
Qed.

(** ** Raw strings *)
Lemma suffix_all sfx : lit_suffix sfx -> literal_suffix sfx = [].
Proof.
  intros [->|(H & _)]; [reflexivity|]. unfold literal_suffix. destruct sfx as [|c r]; [reflexivity|]. cbn [xid_ok] in H. apply andb_true_iff in H as (Hc & Hr).
  rewrite <- (app_nil_r (c :: r)), ident_not_raw_app; [reflexivity| |exact I]. exists c, r. split; [reflexivity|]. split; [exact Hc|]. apply Forall_forall. rewrite forallb_forall in Hr. exact Hr.
Qed.
Lemma pounds_no_quote n : ~ In 34 (repeat 35 n).
Proof. induction n as [|n IH]; cbn; [auto|]. intros [H|H]; [discriminate|auto]. Qed.
Lemma raw_reads_text n s sfx : lit_suffix sfx -> raw_str (repeat 35 n ++ [34] ++ s ++ [34] ++ repeat 35 n ++ sfx) = Some (s, sfx).
Proof.
  intro Hs. unfold raw_str. rewrite count_pounds_app by (cbn; discriminate). cbn [app N.eqb Pos.eqb]. rewrite rsplit_last.
  - rewrite (proj2 (strip_pounds_some n _ sfx) eq_refl). reflexivity.
  - rewrite in_app_iff. intros [H|H]; [exact (pounds_no_quote n H)|]. exact (suffix_no_quote sfx (suffix_all sfx Hs) H).
Qed.
Lemma raw_scan_content bytes n s rest : (bytes = true -> Forall (fun c => c < 128) s) -> ~ In 13 s -> ~ (exists a b, s = a ++ [34] ++ repeat 35 n ++ b) ->
  raw_scan (dial bytes) n (s ++ 34 :: repeat 35 n ++ rest) = Some (literal_suffix rest).
Proof.
  induction s as [|c s IH]; intros H1 H2 H3.
  - cbn [app raw_scan N.eqb Pos.eqb]. rewrite (proj2 (strip_pounds_some n _ rest) eq_refl). reflexivity.
  - assert (IH' : raw_scan (dial bytes) n (s ++ 34 :: repeat 35 n ++ rest) = Some (literal_suffix rest)).
    { apply IH; [intro Hb; specialize (H1 Hb); inversion H1; assumption|intro F; apply H2; right; exact F|]. intros (a & b & ->). apply H3. exists (c :: a), b. reflexivity. }
    cbn [app raw_scan]. destruct (N.eqb_spec c 13) as [->|Hc]; [exfalso; apply H2; left; reflexivity|].
    assert (Ho : match dial bytes with DStr => raw_scan (dial bytes) n (s ++ 34 :: repeat 35 n ++ rest) | DByte => if c <? 128 then raw_scan (dial bytes) n (s ++ 34 :: repeat 35 n ++ rest) else None
                 | DC => if c =? 0 then None else raw_scan (dial bytes) n (s ++ 34 :: repeat 35 n ++ rest) end = Some (literal_suffix rest)).
    { destruct bytes; cbn [dial] in *; [|exact IH']. specialize (H1 eq_refl). inversion H1 as [|? ? Hlt _]; subst. replace (c <? 128) with true by lia. exact IH'. }
    destruct (N.eqb_spec c 34) as [->|]; [|exact Ho]. destruct (strip_pounds n (s ++ 34 :: repeat 35 n ++ rest)) as [r|] eqn:E; [|exact Ho]. exfalso.
    apply strip_pounds_some in E.
    (* the pounds would have to be in [s]: a quote stops them *)
    assert (Hp : exists b, s = repeat 35 n ++ b).
    { clear -E. revert n E. intro n. generalize (repeat 35 n ++ rest) as tl. intro tl. revert s. induction n as [|n IH]; intros s E; [exists s; reflexivity|].
      destruct s as [|x s]; cbn [repeat app] in E; [discriminate|]. injection E as -> E. destruct (IH s E) as (b & ->). exists b. reflexivity. }
    destruct Hp as (b & ->). apply H3. exists [], b. reflexivity.
Qed.
Lemma raw_lexes bytes n s sfx : (n <= 255)%nat -> raw_content bytes n s -> lit_suffix sfx -> lex_raw (dial bytes) (repeat 35 n ++ [34] ++ s ++ [34] ++ repeat 35 n ++ sfx) = Some [].
Proof.
  intros Hn (H1 & H2 & H3) Hs. unfold lex_raw, raw_delimiter. rewrite count_pounds_app by (cbn; discriminate). cbn [app N.eqb Pos.eqb]. replace (n <=? 255)%nat with true by (symmetry; apply Nat.leb_le; exact Hn). cbn [andb].
  rewrite raw_scan_content by assumption. rewrite suffix_all by exact Hs. reflexivity.
Qed.

(** ** Reading and lexing *)
Theorem literal_text_reads r l : literal_text r l -> lit_new r = text_kind l.
Proof.
  destruct 1 as [q c sfx Hq Hc Hs|q b sfx Hq Hs|s v sfx Hc Hs|s v sfx Hc Hs|n s sfx Hn Hr Hs|n s sfx Hn Hr Hs]; cbn [text_kind].
  - cbn [app]. unfold lit_new. cbn [N.eqb Pos.eqb orb]. rewrite (quoted_read false q c sfx Hq). reflexivity.
  - cbn [app]. unfold lit_new. cbn [N.eqb Pos.eqb orb]. rewrite (quoted_read true q b sfx Hq). reflexivity.
  - cbn [app]. unfold lit_new, lit_str. cbn [N.eqb Pos.eqb orb]. rewrite (content_reads false s v Hc); [reflexivity|]. cbn [List.length]. rewrite app_length. cbn [List.length]. lia.
  - cbn [app]. unfold lit_new, lit_byte_str. cbn [N.eqb Pos.eqb orb]. rewrite (content_reads true s v Hc); [reflexivity|]. cbn [List.length]. rewrite app_length. cbn [List.length]. lia.
  - pose proof (raw_reads_text n s sfx Hs) as E. set (x := repeat 35 n ++ [34] ++ s ++ [34] ++ repeat 35 n ++ sfx) in *. cbn [app]. unfold lit_new, lit_str. cbn [N.eqb Pos.eqb orb]. rewrite E. reflexivity.
  - pose proof (raw_reads_text n s sfx Hs) as E. set (x := repeat 35 n ++ [34] ++ s ++ [34] ++ repeat 35 n ++ sfx) in *. cbn [app]. unfold lit_new, lit_byte_str. cbn [N.eqb Pos.eqb orb]. rewrite E. reflexivity.
Qed.
Theorem literal_text_lexes r l : literal_text r l -> literal_nocapture r = Some [].
Proof.
  destruct 1 as [q c sfx Hq Hc Hs|q b sfx Hq Hs|s v sfx Hc Hs|s v sfx Hc Hs|n s sfx Hn Hr Hs|n s sfx Hn Hr Hs]; unfold literal_nocapture.
  - cbn [app lex_string strip_prefix N.eqb Pos.eqb orelse lex_byte lex_character]. rewrite (quoted_lexes false q c sfx Hq), suffix_all by exact Hs. reflexivity.
  - cbn [app lex_string strip_prefix N.eqb Pos.eqb orelse lex_byte lex_character]. rewrite (quoted_lexes true q b sfx Hq), suffix_all by exact Hs. reflexivity.
  - cbn [app]. unfold lex_string at 1. cbn [app strip_prefix N.eqb Pos.eqb]. rewrite (content_lexes false s v Hc), suffix_all; [reflexivity|exact Hs|]. rewrite app_length. cbn [List.length]. lia.
  - cbn [app]. unfold lex_string at 1 2. cbn [app strip_prefix N.eqb Pos.eqb orelse]. change DByte with (dial true). rewrite (content_lexes true s v Hc), suffix_all; [reflexivity|exact Hs|]. rewrite app_length. cbn [List.length]. lia.
  - pose proof (raw_lexes false n s sfx Hn Hr Hs) as E. set (x := repeat 35 n ++ [34] ++ s ++ [34] ++ repeat 35 n ++ sfx) in *. cbn [app]. unfold lex_string at 1. cbn [app strip_prefix N.eqb Pos.eqb]. cbn [dial] in E. rewrite E. reflexivity.
  - pose proof (raw_lexes true n s sfx Hn Hr Hs) as E. set (x := repeat 35 n ++ [34] ++ s ++ [34] ++ repeat 35 n ++ sfx) in *. cbn [app]. unfold lex_string at 1 2. cbn [app strip_prefix N.eqb Pos.eqb orelse]. cbn [dial] in E. rewrite E. reflexivity.
Qed.

(** ** Printing *)
Lemma hex_lower_digit d : d < 16 -> hex_digit (hex_lower d) d.
Proof. intro H. unfold hex_digit, hex_lower. destruct (N.ltb_spec d 10); lia. Qed.
Lemma hex_upper_digit d : d < 16 -> hex_digit (hex_upper d) d.
Proof. intro H. unfold hex_digit, hex_upper. destruct (N.ltb_spec d 10); lia. Qed.
Lemma uni_of_digits ds : Forall (fun d => d < 16) ds -> ds <> [] ->
  uni_digits (map hex_lower ds) (fold_left (fun v d => v * 16 + d) ds 0) (List.length ds).
Proof.
  induction ds as [|d ds IH] using rev_ind; intros H Hn; [congruence|]. apply Forall_app in H as (H & Hd). inversion Hd as [|? ? Hd' _]; subst.
  rewrite map_app, fold_left_app, app_length. cbn [map fold_left List.length]. rewrite Nat.add_1_r. change [hex_lower d] with ([hex_lower d] ++ []).
  destruct ds as [|e ds].
  - cbn [map app fold_left List.length]. rewrite N.mul_0_l, N.add_0_l. change [hex_lower d] with ([hex_lower d] ++ []). apply ud_first; [apply hex_lower_digit; exact Hd'|constructor].
  - apply ud_next; [apply IH; [exact H|discriminate]|apply hex_lower_digit; exact Hd'|constructor].
Qed.
Lemma escape_unicode_escape c : valid_char c = true -> escape false (escape_unicode c) c.
Proof.
  intro Hv. unfold escape_unicode. assert (Hc : c < 16 ^ N.of_nat 6) by (unfold valid_char in Hv; cbn; lia).
  rewrite (show_hex_fuel 6 8 c [] Hc) by lia. destruct (show_hex_spec 6 c [] Hc) as (ds & -> & Hle & Hne & Hd & Hval). rewrite app_nil_r.
  specialize (Hne ltac:(discriminate)). pose proof (uni_of_digits ds Hd Hne) as H. rewrite Hval, N.mul_0_l, N.add_0_l in H. exact (e_uni false _ c _ eq_refl H Hle Hv).
Qed.
Lemma escape_debug_cases c : valid_char c = true -> escape false (escape_debug c) c \/ (escape_debug c = [c] /\ ~ In c [39; 34; 92; 10; 13; 9]).
Proof.
  intro Hv. unfold escape_debug. destruct (N.eqb_spec c 0) as [->|H0]; [left; apply e_one; cbn; auto 9|]. destruct (N.eqb_spec c 9) as [->|H1]; [left; apply e_one; cbn; auto 9|].
  destruct (N.eqb_spec c 13) as [->|H2]; [left; apply e_one; cbn; auto 9|]. destruct (N.eqb_spec c 10) as [->|H3]; [left; apply e_one; cbn; auto 9|].
  destruct (N.eqb_spec c 39) as [->|H4]; [left; apply e_one; cbn; auto 9|]. destruct (N.eqb_spec c 34) as [->|H5]; [left; apply e_one; cbn; auto 9|]. destruct (N.eqb_spec c 92) as [->|H6]; [left; apply e_one; cbn; auto 9|].
  cbn [orb]. match goal with |- context [if ?b then [c] else _] => destruct b end; [|left; apply escape_unicode_escape; exact Hv].
  right. split; [reflexivity|]. cbn. intros [H|[H|[H|[H|[H|[H|[]]]]]]]; congruence.
Qed.
Lemma escape_utf8_content s : forallb valid_char s = true -> content false (escape_utf8 s) s.
Proof.
  induction s as [|c s IH]; intro H; [constructor|]. cbn [forallb] in H. apply andb_true_iff in H as (Hv & H). specialize (IH H). cbn [escape_utf8].
  destruct (N.eqb_spec c 0) as [->|H0].
  - destruct (octal_next s); apply c_escape; auto.
    + match goal with |- escape ?b ?t 0 => change (escape b t (0 * 16 + 0)) end. apply e_hex; unfold hex_digit; lia.
    + apply e_one; cbn; auto 9.
  - destruct (N.eqb_spec c 39) as [->|H1]; [cbn [app]; apply c_plain; auto; discriminate|].
    destruct (escape_debug_cases c Hv) as [He|(-> & Hn)]; [apply c_escape; assumption|]. cbn [app]. apply c_plain; auto; try discriminate; intros ->; apply Hn; cbn; auto 9.
Qed.
Lemma escape_bytes_content s : Forall (fun b => b < 256) s -> content true (escape_bytes s) s.
Proof.
  induction s as [|c s IH]; intro H; [constructor|]. inversion H as [|? ? Hv Hr]; subst. specialize (IH Hr). cbn [escape_bytes].
  destruct (N.eqb_spec c 0) as [->|H0].
  { destruct (octal_next s); apply c_escape; auto.
    - match goal with |- escape ?b ?t 0 => change (escape b t (0 * 16 + 0)) end. apply e_hex; unfold hex_digit; lia.
    - apply e_one; cbn; auto 9. }
  destruct (N.eqb_spec c 9) as [->|H1]; [apply c_escape; [apply e_one; cbn; auto 9|exact IH]|]. destruct (N.eqb_spec c 10) as [->|H2]; [apply c_escape; [apply e_one; cbn; auto 9|exact IH]|].
  destruct (N.eqb_spec c 13) as [->|H3]; [apply c_escape; [apply e_one; cbn; auto 9|exact IH]|]. destruct (N.eqb_spec c 34) as [->|H4]; [apply c_escape; [apply e_one; cbn; auto 9|exact IH]|].
  destruct (N.eqb_spec c 92) as [->|H5]; [apply c_escape; [apply e_one; cbn; auto 9|exact IH]|].
  destruct (N.leb_spec 32 c), (N.leb_spec c 126); cbn [andb]; [cbn [app]; apply c_plain; auto; lia|..];
    (apply c_escape; [|exact IH]; rewrite (N.div_mod c 16) at 3 by discriminate; rewrite (N.mul_comm 16); apply e_hex;
     [apply hex_upper_digit, N.div_lt_upper_bound; lia|apply hex_upper_digit, N.mod_lt; lia|discriminate]).
Qed.
Lemma show_str_text s : forallb valid_char s = true -> literal_text (show_str s) (LStr s).
Proof. intro H. exact (lt_str _ s [] (escape_utf8_content s H) (or_introl eq_refl)). Qed.
Lemma show_byte_str_text s : Forall (fun b => b < 256) s -> literal_text (show_byte_str s) (LByteStr s).
Proof. intro H. exact (lt_byte_str _ s [] (escape_bytes_content s H) (or_introl eq_refl)). Qed.
Lemma show_char_text c : valid_char c = true -> literal_text (show_char c) (LChar c).
Proof.
  intro Hv. unfold show_char. apply (lt_char _ c []); [|exact Hv|left; reflexivity].
  destruct (N.eqb_spec c 34) as [->|H]; [apply q_plain; [cbn; intros [H|[H|[H|[H|[H|[]]]]]]; discriminate|discriminate]|].
  destruct (escape_debug_cases c Hv) as [He|(-> & Hn)]; [apply q_escape; exact He|]. apply q_plain; [|discriminate]. intro F. apply Hn. cbn in F |- *. tauto.
Qed.
Lemma byte_text b : b < 256 -> exists r, lit_byte_repr b = Some r /\ literal_text r (LByte b).
Proof.
  intro Hb. assert (Hq : quoted true (ascii_escape_default b) b /\ (List.length (ascii_escape_default b) <= 4)%nat).
  { unfold ascii_escape_default. destruct (N.eqb_spec b 9) as [->|H1]; [split; [apply q_escape, e_one; cbn; auto 9|cbn; lia]|]. destruct (N.eqb_spec b 13) as [->|H2]; [split; [apply q_escape, e_one; cbn; auto 9|cbn; lia]|].
    destruct (N.eqb_spec b 10) as [->|H3]; [split; [apply q_escape, e_one; cbn; auto 9|cbn; lia]|]. destruct (N.eqb_spec b 39) as [->|H4]; [split; [apply q_escape, e_one; cbn; auto 9|cbn; lia]|].
    destruct (N.eqb_spec b 34) as [->|H5]; [split; [apply q_escape, e_one; cbn; auto 9|cbn; lia]|]. destruct (N.eqb_spec b 92) as [->|H6]; [split; [apply q_escape, e_one; cbn; auto 9|cbn; lia]|]. cbn [orb].
    destruct (N.leb_spec 32 b), (N.leb_spec b 126); cbn [andb]; [split; [apply q_plain; [cbn; intros [F|[F|[F|[F|[F|[]]]]]]; congruence|lia]|cbn; lia]|..];
    (split; [|cbn; lia]; apply q_escape; rewrite (N.div_mod b 16) at 3 by discriminate; rewrite (N.mul_comm 16); apply e_hex;
     [apply hex_lower_digit, N.div_lt_upper_bound; lia|apply hex_lower_digit, N.mod_lt; lia|discriminate]). }
  destruct Hq as (Hq & Hl). unfold lit_byte_repr, cursor_write. exists ([98; 39] ++ ascii_escape_default b ++ [39])%N.
  replace (List.length ([98; 39] ++ ascii_escape_default b ++ [39])%N <=? lit_byte_buf)%nat with true by (symmetry; apply Nat.leb_le; rewrite !app_length; cbn [List.length]; unfold lit_byte_buf; lia).
  split; [reflexivity|]. exact (lt_byte _ b [] Hq (or_introl eq_refl)).
Qed.
(** a literal denotes one value *)
Lemma literal_text_det r l l' : literal_text r l -> literal_text r l' -> l = l'.
Proof.
  intros H H'. pose proof (literal_text_reads r l H) as E. rewrite (literal_text_reads r l' H') in E. destruct H, H'; cbn [text_kind] in E; congruence.
Qed.
End LitText.
