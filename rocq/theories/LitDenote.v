(** * LitDenote: what literal tokens mean, with and without a minus sign in front, and what
    is printed for them. *)
From Verif Require Import Base Float Literal FloatFacts Syn Ast Derive Grammar Spec LitSpec LiteralFacts Reprint Combinators.
From Coq Require Import ZifyN ZifyNat ZifyBool.
Open Scope N_scope.

Section LitDenote.
Context {U : unicode}.

Definition neg_kind (k : option lkind) : option lkind :=
  match k with
  | Some (KInt d) => Some (KInt (45 :: d))
  | Some (KFloat d) => Some (KFloat (45 :: d))
  | _ => None
  end.
Lemma parse_lit_int_neg r : unsigned r ->
  parse_lit_int (45 :: r) = option_map (fun '(d, x) => (45 :: d, x)) (parse_lit_int r).
Proof.
  intro Hu. unfold parse_lit_int. change (45 =? 45) with true. cbv iota beta.
  assert (Hs : (match r with c :: r0 => if c =? 45 then (true, r0) else (false, r) | [] => (false, r) end) = (false, r)).
  { destruct r as [|c r]; [reflexivity|]. cbn in Hu. destruct (N.eqb_spec c 45); [contradiction|reflexivity]. }
  rewrite Hs.
  assert (Hr : forall base s, 
    match int_loop base s 0 false with
    | Some (v, true, suffix) => if match suffix with [] => true | _ => xid_ok suffix end then Some ([45] ++ dec v, suffix) else None
    | _ => None end = option_map (fun '(d, x) => (45 :: d, x))
    match int_loop base s 0 false with
    | Some (v, true, suffix) => if match suffix with [] => true | _ => xid_ok suffix end then Some ([] ++ dec v, suffix) else None
    | _ => None end).
  { intros base s. destruct (int_loop base s 0 false) as [((v & []) & sfx)|]; try reflexivity.
    destruct (match sfx with [] => true | _ => xid_ok sfx end); reflexivity. }
  cbv zeta. destruct r as [|c [|x r]]; [reflexivity| |].
  - destruct (is_digit c); [apply Hr|reflexivity].
  - destruct ((c =? 48) && (x =? 120)); [apply Hr|]. destruct ((c =? 48) && (x =? 111)); [apply Hr|].
    destruct ((c =? 48) && (x =? 98)); [apply Hr|]. destruct (is_digit c); [apply Hr|reflexivity].
Qed.
Lemma parse_lit_float_neg r : unsigned r ->
  parse_lit_float (45 :: r) = option_map (fun '(d, x) => (45 :: d, x)) (parse_lit_float r).
Proof.
  intro Hu. unfold parse_lit_float. change (45 =? 45) with true. cbv iota beta.
  destruct r as [|c r]; [reflexivity|]. cbn in Hu. destruct (N.eqb_spec c 45); [contradiction|].
  destruct (is_digit c); [|reflexivity]. destruct (float_scan _ _ _ _ _ _) as [(((ds & sfx) & has_e) & has_exp)|]; [|reflexivity].
  destruct (has_e && negb has_exp); [reflexivity|]. destruct (match sfx with [] => true | _ => xid_ok sfx end); reflexivity.
Qed.
Lemma parse_num_digit c r : is_digit c = false -> c <> 45 -> lit_num (c :: r) = None.
Proof.
  intros Hd Hc. unfold lit_num, parse_lit_int, parse_lit_float. destruct (N.eqb_spec c 45); [contradiction|]. cbv iota beta. rewrite Hd.
  destruct (N.eqb_spec c 48) as [->|]; [discriminate|]. cbn [andb]. destruct r; reflexivity.
Qed.
Lemma lit_new_not_num c r : is_digit c = false -> c <> 45 -> neg_kind (lit_new (c :: r)) = None.
Proof.
  intros Hd Hc. unfold lit_new. destruct ((c =? 34) || (c =? 114)); [destruct (lit_str _); reflexivity|].
  destruct (c =? 98). { destruct r as [|x r]; [reflexivity|]. destruct ((x =? 34) || (x =? 114)); [destruct (lit_byte_str _); reflexivity|].
    destruct (x =? 39); [destruct (quoted_char true r); reflexivity|reflexivity]. }
  destruct (c =? 99); [reflexivity|]. destruct (c =? 40); [destruct (text_eqb _ _); reflexivity|]. destruct (c =? 39); [destruct (quoted_char false r); reflexivity|].
  rewrite Hd. destruct (N.eqb_spec c 45); [contradiction|reflexivity].
Qed.
Lemma lit_num_neg r : unsigned r -> lit_num (45 :: r) = neg_kind (lit_new r).
Proof.
  intro Hu. destruct r as [|c r]; [reflexivity|]. destruct (is_digit c) eqn:Hd.
  - rewrite (lit_new_number c r Hd). unfold lit_num. rewrite parse_lit_int_neg, parse_lit_float_neg by exact Hu.
    destruct (parse_lit_int (c :: r)) as [(d, x)|]; [reflexivity|]. destruct (parse_lit_float (c :: r)) as [(d, x)|]; reflexivity.
  - cbn in Hu. rewrite (lit_new_not_num c r Hd Hu). unfold lit_num. rewrite parse_lit_int_neg, parse_lit_float_neg by exact Hu.
    pose proof (parse_num_digit c r Hd Hu) as H. unfold lit_num in H.
    destruct (parse_lit_int (c :: r)) as [(d, x)|]; [discriminate|]. destruct (parse_lit_float (c :: r)) as [(d, x)|]; [discriminate|reflexivity].
Qed.

(** digits handed to the number readers carry a sign only if the token does *)
Lemma float_scan_out s : forall out hd he hs hx ds sfx a b, float_scan s out hd he hs hx = Some (ds, sfx, a, b) ->
  exists ds', ds = rev out ++ ds'.
Proof.
  induction s as [|c s IH]; intros out hd he hs hx ds sfx a b H; cbn [float_scan] in H.
  - injection H as <- _ _ _. exists []. rewrite app_nil_r. reflexivity.
  - assert (Hend : Some (rev out, c :: s, he, hx) = Some (ds, sfx, a, b) -> exists ds', ds = rev out ++ ds').
    { intro E. injection E as <- _ _ _. exists []. rewrite app_nil_r. reflexivity. }
    assert (Hone : forall x hd he hs hx, float_scan s (x :: out) hd he hs hx = Some (ds, sfx, a, b) -> exists ds', ds = rev out ++ ds').
    { intros x ? ? ? ? E. apply IH in E as (ds' & ->). cbn [rev]. rewrite <- app_assoc. eauto. }
    destruct (c =? 95); [eauto|]. destruct (is_digit c); [eauto|]. destruct (c =? 46).
    { destruct (he || hd); [discriminate|eauto]. }
    destruct ((c =? 101) || (c =? 69)).
    { destruct (_ || _ || _); [|eauto]. destruct he; [destruct hx; [eauto|discriminate]|eauto]. }
    destruct ((c =? 45) || (c =? 43)); [|eauto]. destruct (hs || hx || negb he); [discriminate|]. destruct (c =? 45); eauto.
Qed.
Lemma lit_new_digits_unsigned r : unsigned r ->
  match lit_new r with Some (KInt d) | Some (KFloat d) => unsigned d | _ => True end.
Proof.
  intro Hu. destruct r as [|c r]; [exact I|]. destruct (is_digit c) eqn:Hd.
  - rewrite (lit_new_number c r Hd). destruct (lit_num (c :: r)) as [k|] eqn:Hk; [|exact I]. destruct k; try exact I.
    + apply lit_num_int in Hk as (neg & n & -> & sfx & Hp). apply parse_lit_int_inv in Hp as (neg' & base & body & m & _ & Hs & _ & _ & E).
      pose proof (dec_not_minus n) as Hn. destruct neg; cbn [sign app].
      * destruct neg'; [exfalso; cbn in Hs, Hu; congruence|]. cbn [sign app] in E. pose proof (dec_not_minus m) as Hm. rewrite <- E in Hm. discriminate.
      * destruct (dec n) as [|x y]; [exact I|]. cbn. intros ->. discriminate.
    + unfold lit_num in Hk. destruct (parse_lit_int (c :: r)) as [(?, ?)|]; [discriminate|].
      unfold parse_lit_float in Hk. cbn in Hu. destruct (N.eqb_spec c 45); [contradiction|]. rewrite Hd in Hk.
      destruct (float_scan _ _ _ _ _ _) as [(((ds & sfx) & has_e) & has_exp)|] eqn:Ef; [|discriminate].
      cbn [float_scan] in Ef. replace (c =? 95) with false in Ef by (unfold is_digit in Hd; lia). rewrite Hd in Ef.
      apply float_scan_out in Ef as (ds' & ->). destruct (has_e && negb has_exp); [discriminate|].
      destruct (match sfx with [] => true | _ => xid_ok sfx end); [|discriminate]. cbn in Hk. injection Hk as <-. cbn. assumption.
  - cbn in Hu. pose proof (lit_new_not_num c r Hd Hu) as H. destruct (lit_new (c :: r)) as [[]|]; try exact I; discriminate.
Qed.

Lemma round_rat_opp n d : round_rat true n d = f64_opp (round_rat false n d).
Proof.
  unfold round_rat. destruct (n =? 0); [reflexivity|]. destruct (scaled _ _ _) as (a, b).
  destruct (_ =? two53); destruct (_ <? _)%Z; reflexivity.
Qed.
Lemma float_read_neg ds : unsigned ds -> float_read (45 :: ds) = option_map f64_opp (float_read ds).
Proof.
  intro Hu. unfold float_read. change (45 =? 45) with true. cbv iota beta.
  assert (Hs : (match ds with c :: r0 => if c =? 45 then (true, r0) else (false, ds) | [] => (false, ds) end) = (false, ds)).
  { destruct ds as [|c r]; [reflexivity|]. cbn in Hu. destruct (N.eqb_spec c 45); [contradiction|reflexivity]. }
  rewrite Hs. clear Hs. assert (Hr : forall D k, round_dec true D k = f64_opp (round_dec false D k)) by (intros D [|p|p]; cbn [round_dec]; apply round_rat_opp).
  destruct (span_digits ds) as (ip, s2). destruct (match s2 with c :: r => _ | [] => _ end) as (fp, s3).
  destruct (match ip, fp with [], [] => true | _, _ => false end); [reflexivity|]. destruct s3 as [|c r].
  - cbn [option_map]. rewrite Hr. reflexivity.
  - destruct (_ || _); [|reflexivity]. destruct (match r with c :: r' => _ | [] => _ end) as (eneg, r').
    destruct (span_digits r') as (ep, rest). destruct ep; [reflexivity|]. destruct rest; [|reflexivity]. cbn [option_map]. rewrite Hr. reflexivity.
Qed.
Lemma round_dec_sign neg D k : match round_dec neg D k with FFin b _ _ | FInf b => b = neg end.
Proof. destruct k; cbn [round_dec]; apply round_sign. Qed.
Lemma float_read_unsigned ds f : unsigned ds -> float_read ds = Some f -> match f with FFin b _ _ | FInf b => b = false end.
Proof.
  intros Hu. unfold float_read.
  assert (Hs : (match ds with c :: r0 => if c =? 45 then (true, r0) else (false, ds) | [] => (false, ds) end) = (false, ds)).
  { destruct ds as [|c r]; [reflexivity|]. cbn in Hu. destruct (N.eqb_spec c 45); [contradiction|reflexivity]. }
  rewrite Hs. clear Hs.
  destruct (span_digits ds) as (ip, s2). destruct (match s2 with c :: r => _ | [] => _ end) as (fp, s3).
  destruct (match ip, fp with [], [] => true | _, _ => false end); [discriminate|]. destruct s3 as [|c r].
  - intro H. injection H as <-. apply round_dec_sign.
  - destruct (_ || _); [|discriminate]. destruct (match r with c :: r' => _ | [] => _ end) as (eneg, r').
    destruct (span_digits r') as (ep, rest). destruct ep; [discriminate|]. destruct rest; [|discriminate]. intro H. injection H as <-. apply round_dec_sign.
Qed.

(** ** What is read for a literal, from what token. *)
Definition conv (l : lit) (k : slit) : Prop :=
  match l with
  | LBool b => k = SLBool b
  | LByte b => k = SLTok (KByte b)
  | LInt z => exists ds, k = SLTok (KInt ds) /\ read_i64 ds = Some z
  | LUint z => exists ds, k = SLTok (KInt ds) /\ read_u64 ds = Some z
  | LFloat f => exists ds, k = SLTok (KFloat ds) /\ float_read ds = Some f
  | LChar c => k = SLTok (KChar c)
  | LStr s => k = SLTok (KStr s)
  | LByteStr s => k = SLTok (KByteStr s)
  end.
Lemma p_typed_inv {A} (sel : slit -> option A) w s v sp s' : p_typed sel w s = (OOk (v, sp), s') ->
  exists k, p_lit s = (OOk (k, sp), s') /\ sel k = Some v.
Proof.
  unfold p_typed. destruct (p_lit s) as ([(k, sp1)|e| |], s1); try discriminate. destruct (sel k) eqn:Ek; [|discriminate].
  intro H. injection H as -> -> ->. eauto.
Qed.
Lemma p_litty_inv k s l sp s' : p_litty k s = (OOk (l, sp), s') -> exists sl, p_lit s = (OOk (sl, sp), s') /\ conv l sl.
Proof.
  assert (Hm : forall A (f : A -> lit) (sel : slit -> option A) w, (forall k v, sel k = Some v -> conv (f v) k) ->
     pmap (fun x => (f (fst x), snd x)) (p_typed sel w) s = (OOk (l, sp), s') -> exists sl, p_lit s = (OOk (sl, sp), s') /\ conv l sl).
  { intros A f sel w Hc H. apply pmap_ok in H as ((v & sp1) & H & E). cbn in E. injection E as -> ->.
    apply p_typed_inv in H as (k0 & Hk & Hs). exists k0. split; [exact Hk|apply Hc, Hs]. }
  destruct k; cbn [p_litty].
  1:{ apply (Hm bool LBool). intros [|[]] x H; try discriminate; injection H as ->; reflexivity. }
  1:{ apply (Hm N LByte). intros [|[]] x H; try discriminate; injection H as ->; reflexivity. }
  4:{ apply (Hm N LChar). intros [|[]] x H; try discriminate; injection H as ->; reflexivity. }
  4:{ apply (Hm (list N) LStr). intros [|[]] x H; try discriminate; injection H as ->; reflexivity. }
  4:{ apply (Hm (list N) LByteStr). intros [|[]] x H; try discriminate; injection H as ->; reflexivity. }
  all: unfold p_lit_int, p_lit_uint, p_lit_float, and_then; intro H; apply bind_ok in H as ((ds & sp1) & s1 & Hp & H);
    apply p_typed_inv in Hp as (k & Hk & Hs); destruct k as [|[]]; try discriminate; injection Hs as ->; injection H as H ->; cbn [fst snd] in H.
  - unfold int_try_from in H. destruct (read_i64 ds) eqn:E; [|discriminate]. injection H as <- ->. eexists. split; [exact Hk|]. cbn. eauto.
  - unfold uint_try_from in H. destruct (read_u64 ds) eqn:E; [|discriminate]. injection H as <- ->. eexists. split; [exact Hk|]. cbn. eauto.
  - unfold float_try_from in H. destruct (float_read ds) eqn:E; [|discriminate]. injection H as <- ->. eexists. split; [exact Hk|]. cbn. eauto.
Qed.
Lemma lit_try_from_inv k sp l sp' : lit_try_from (k, sp) = OOk (l, sp') -> sp' = sp /\ conv l k.
Proof.
  assert (Hi : forall ds, int_try_from ds sp = OOk (l, sp') -> sp' = sp /\ conv l (SLTok (KInt ds))).
  { intros ds. unfold int_try_from. destruct (read_i64 ds) eqn:E; [|discriminate]. intro H. injection H as <- <-. cbn. eauto. }
  assert (Hu : forall ds, uint_try_from ds sp = OOk (l, sp') -> sp' = sp /\ conv l (SLTok (KInt ds))).
  { intros ds. unfold uint_try_from. destruct (read_u64 ds) eqn:E; [|discriminate]. intro H. injection H as <- <-. cbn. eauto. }
  destruct k as [b|[]]; cbn [lit_try_from]; try (intro H; injection H as <- <-; cbn; auto; fail); try discriminate.
  - destruct digits as [|c ds]; [apply Hu|]. destruct (c =? 45); [apply Hi|apply Hu].
  - unfold float_try_from. destruct (float_read digits) eqn:E; [|discriminate]. intro H. injection H as <- <-. cbn. eauto.
Qed.
Lemma p_any_lit_inv s l sp s' : p_any_lit s = (OOk (l, sp), s') -> exists sl, p_lit s = (OOk (sl, sp), s') /\ conv l sl.
Proof.
  unfold p_any_lit, and_then. intro H. apply bind_ok in H as ((k & sp1) & s1 & Hp & H). injection H as H ->.
  apply lit_try_from_inv in H as (-> & H). eauto.
Qed.

(** the tokens a literal is read from *)
Lemma p_lit_inv s k sp s' : p_lit s = (OOk (k, sp), s') -> exists r, s' = set_rest s r /\
  ((exists b, ignore_none (ps_rest s) = TIdent (if b : bool then T "true" else T "false") sp :: r /\ k = SLBool b) \/
   (exists repr k', ignore_none (ps_rest s) = TLit repr sp :: r /\ lit_new repr = Some k' /\ k = SLTok k') \/
   (exists g sp1 sp2 repr r1 k', ignore_none (ps_rest s) = TPunct 45 g sp1 :: r1 /\ ignore_none r1 = TLit repr sp2 :: r /\
      sp = join_or sp1 sp2 /\ lit_num (45 :: repr) = Some k' /\ k = SLTok k')).
Proof.
  unfold p_lit. destruct (ignore_none (ps_rest s)) as [|[n spn|c g spc|repr spr|d spd i] r] eqn:Er; try discriminate.
  - destruct (text_eqb n (T "true")) eqn:E1.
    + intro H. injection H as <- <- <-. apply text_eqb_eq in E1. subst n. exists r. split; [reflexivity|]. left. exists true. auto.
    + destruct (text_eqb n (T "false")) eqn:E2; [|discriminate].
      intro H. injection H as <- <- <-. apply text_eqb_eq in E2. subst n. exists r. split; [reflexivity|]. left. exists false. auto.
  - destruct (N.eqb_spec c 45) as [->|]; [|discriminate]. destruct (ignore_none r) as [|[| |repr spr|] r'] eqn:Er'; try discriminate.
    destruct (lit_num (45 :: repr)) as [k'|] eqn:Ek; [|discriminate]. intro H. injection H as <- <- <-. exists r'. split; [reflexivity|].
    right. right. exists g, spc, spr, repr, r, k'. auto.
  - destruct (lit_new repr) as [k'|] eqn:Ek; [|discriminate]. intro H. injection H as <- <- <-. exists r. split; [reflexivity|]. right. left. eauto.
Qed.

(** ** What is printed for what was read. *)
Lemma denotes_num k r : lit_new r = Some k -> (match k with KFloat _ => False | _ => True end) -> denotes r = Some (MTok k).
Proof. unfold denotes. intros ->. destruct k; tauto. Qed.
Lemma shape_unsigned s : float_shape false s -> unsigned s /\ lit_new s = Some (KFloat s).
Proof.
  intro H. pose proof (lit_num_float false s H) as Hn. destruct H as (ip & fp & -> & Hi & Hf & Hdi & _).
  destruct ip as [|c ip]; [congruence|]. cbn in Hdi. apply andb_true_iff in Hdi as (Hc & _). cbn [app] in *.
  split; [cbn; unfold is_digit in Hc; lia|]. rewrite (lit_new_number c _ Hc). exact Hn.
Qed.
Lemma opp_inj a b : f64_opp a = f64_opp b -> a = b.
Proof.
  intro H. apply (f_equal f64_opp) in H. destruct a, b; cbn in H; rewrite ?negb_involutive in H; congruence.
Qed.

(** print_lit of an unsigned literal *)
Lemma print_unsigned repr k l sp ts : lit_ok repr -> lit_new repr = Some k -> conv l (SLTok k) -> print_lit l sp = Some ts ->
  exists r2, ts = [TLit r2 sp] /\ unsigned r2 /\ denotes r2 = denotes repr.
Proof.
  intros (Hu & Hok) Hk Hc Hp. pose proof (lit_new_digits_unsigned repr Hu) as Hd. rewrite Hk in Hd, Hok.
  destruct l; cbn [conv print_lit] in *.
  - discriminate.
  - injection Hc as ->. destruct (lit_new_byte b Hok) as (r2 & Hr & Hn). rewrite Hr in Hp. cbn in Hp. injection Hp as <-. exists r2.
    destruct r2 as [|c r2]; [discriminate|].
    assert (H98 : c = 98). { unfold lit_byte_repr, cursor_write in Hr. destruct (Nat.leb _ _); [|discriminate]. cbn [app] in Hr. congruence. }
    subst c. split; [reflexivity|]. split; [discriminate|]. unfold denotes. rewrite Hk, Hn. reflexivity.
  - destruct Hc as (ds & Hc & Hz). injection Hc as ->. apply lit_new_int_inv in Hk as Hk'. apply lit_num_int in Hk' as (neg & n & -> & _).
    destruct neg; [exfalso; cbn in Hd; congruence|]. cbn [sign app] in *. rewrite read_i64_dec in Hz. destruct (_ <=? _)%Z; [|discriminate]. injection Hz as <-.
    assert (Hs : show_int (Z.of_N n) = dec n). { unfold show_int. replace (Z.of_N n <? 0)%Z with false by lia. cbn [app]. f_equal. lia. }
    rewrite Hs in Hp. injection Hp as <-. exists (dec n). pose proof (dec_not_minus n) as Hm. unfold push_lit.
    destruct (dec n) as [|c r] eqn:Ed; [contradiction|]. rewrite Hm. split; [reflexivity|]. split; [exact Hd|].
    unfold denotes. rewrite Hk. rewrite <- Ed. rewrite (lit_new_int _ _ (dec_spelling n)). reflexivity.
  - destruct Hc as (ds & Hc & Hz). injection Hc as ->. apply lit_new_int_inv in Hk as Hk'. apply lit_num_int in Hk' as (neg & n & -> & _).
    destruct neg; [exfalso; cbn in Hd; congruence|]. cbn [sign app] in *. rewrite read_u64_dec in Hz. destruct (_ <=? _)%Z; [|discriminate]. injection Hz as <-.
    assert (Hs : show_int (Z.of_N n) = dec n). { unfold show_int. replace (Z.of_N n <? 0)%Z with false by lia. cbn [app]. f_equal. lia. }
    rewrite Hs in Hp. injection Hp as <-. exists (dec n). pose proof (dec_not_minus n) as Hm. unfold push_lit.
    destruct (dec n) as [|c r] eqn:Ed; [contradiction|]. rewrite Hm. split; [reflexivity|]. split; [exact Hd|].
    unfold denotes. rewrite Hk. rewrite <- Ed. rewrite (lit_new_int _ _ (dec_spelling n)). reflexivity.
  - destruct Hc as (ds & Hc & Hz). injection Hc as ->. pose proof (float_read_valid _ _ Hz) as Hv. pose proof (float_read_unsigned _ _ Hd Hz) as Hsg.
    destruct (f64_finite f) eqn:Hf; [|destruct f; discriminate]. destruct (float_show_reads f Hv Hf) as (s & neg & Hs & Hsh & Hr & Hneg).
    assert (neg = false) as -> by (destruct f; congruence). rewrite Hs in Hp. cbn in Hp. injection Hp as <-.
    destruct (shape_unsigned s Hsh) as (Hus & Hn). exists s. unfold push_lit. destruct s as [|c s]; [discriminate|].
    cbn in Hus. destruct (N.eqb_spec c 45); [contradiction|]. split; [reflexivity|]. split; [exact Hus|]. unfold denotes. rewrite Hk, Hn, Hr, Hz. reflexivity.
  - injection Hc as ->. injection Hp as <-. exists (show_char c). split; [reflexivity|]. split; [discriminate|]. unfold denotes.
    rewrite Hk, (lit_new_show_char c Hok). reflexivity.
  - injection Hc as ->. injection Hp as <-. exists (show_str s). split; [reflexivity|]. split; [discriminate|]. unfold denotes.
    rewrite Hk, (lit_new_show_str s Hok). reflexivity.
  - injection Hc as ->. injection Hp as <-. exists (show_byte_str s). split; [reflexivity|]. split; [discriminate|]. unfold denotes.
    rewrite Hk, (lit_new_show_byte_str s Hok). reflexivity.
Qed.

(** print_lit of a literal with a minus sign *)
Lemma print_negative repr k l sp ts : unsigned repr -> lit_num (45 :: repr) = Some k -> conv l (SLTok k) -> print_lit l sp = Some ts ->
  (exists r2, ts = [TPunct 45 Alone sp; TLit r2 sp] /\ unsigned r2 /\ denotes r2 = denotes repr) \/
  (ts = [TLit (T "0") sp] /\ denotes repr = Some (MTok (KInt (T "0")))).
Proof.
  intros Hu Hk Hc Hp. rewrite (lit_num_neg repr Hu) in Hk. pose proof (lit_new_digits_unsigned repr Hu) as Hd.
  destruct (lit_new repr) as [[]|] eqn:Hn; try discriminate; cbn in Hk; injection Hk as <-.
  - pose proof Hn as Hn'. apply lit_new_int_inv in Hn'. apply lit_num_int in Hn' as (neg & n & -> & _).
    destruct neg; [exfalso; cbn in Hd; congruence|]. cbn [sign app] in *. destruct l; cbn [conv print_lit] in *; try discriminate.
    + destruct Hc as (ds & Hc & Hz). injection Hc as <-. rewrite read_i64_neg in Hz. destruct (_ <=? _)%Z; [|discriminate]. injection Hz as <-.
      injection Hp as <-. unfold show_int. destruct (Z.ltb_spec (- Z.of_N n) 0).
      * left. exists (dec n). cbn [app push_lit]. change (45 =? 45) with true. replace (Z.abs_N (- Z.of_N n)) with n by lia.
        split; [reflexivity|]. split; [exact Hd|]. unfold denotes. rewrite Hn. rewrite (lit_new_int _ _ (dec_spelling n)). reflexivity.
      * right. assert (n = 0) as -> by lia. split; [reflexivity|]. unfold denotes. rewrite Hn. reflexivity.
    + destruct Hc as (ds & Hc & Hz). injection Hc as <-. rewrite read_u64_neg in Hz. discriminate.
    + destruct Hc as (ds & Hc & Hz). discriminate.
  - destruct l; cbn [conv print_lit] in *; try discriminate; destruct Hc as (ds & Hc & Hz); try discriminate.
    injection Hc as <-. left. rewrite (float_read_neg digits Hd) in Hz. destruct (float_read digits) as [f0|] eqn:Ef; [|discriminate].
    cbn in Hz. injection Hz as <-. pose proof (float_read_valid _ _ Ef) as Hv. pose proof (float_read_unsigned _ _ Hd Ef) as Hsg.
    assert (Hv' : f64_valid (f64_opp f0) = true) by (destruct f0; exact Hv).
    destruct (f64_finite (f64_opp f0)) eqn:Hf; [|destruct f0; discriminate]. destruct (float_show_reads _ Hv' Hf) as (s & neg & Hs & Hsh & Hr & Hneg).
    assert (neg = true) as -> by (destruct f0; cbn in Hneg; subst; reflexivity). rewrite Hs in Hp. cbn in Hp. injection Hp as <-.
    destruct Hsh as (ip & fp & Es & H1 & H2 & H3 & H4). cbn [app] in Es. subst s. cbn [push_lit]. change (45 =? 45) with true. cbv iota.
    assert (Hsh : float_shape false (ip ++ [46] ++ fp)) by (exists ip, fp; auto). cbn [app] in Hsh. destruct (shape_unsigned _ Hsh) as (Hus & Hn').
    exists (ip ++ 46 :: fp). split; [reflexivity|]. split; [exact Hus|]. unfold denotes. rewrite Hn, Hn'.
    rewrite (float_read_neg _ Hus) in Hr. destruct (float_read (ip ++ 46 :: fp)) as [f1|]; [|discriminate]. cbn in Hr. injection Hr as Hr. apply opp_inj in Hr. congruence.
Qed.
(** the value read is one the Rust type can hold *)
Lemma conv_valid repr k l : lit_ok repr -> lit_new repr = Some k -> conv l (SLTok k) -> lit_valid l.
Proof.
  intros (Hu & Hok) Hk Hc. rewrite Hk in Hok. destruct l; cbn [conv lit_valid] in *; try exact I; try (injection Hc as ->; exact Hok); destruct Hc as (ds & Hc & Hz); injection Hc as ->.
  - apply lit_new_int_inv in Hk as Hk'. apply lit_num_int in Hk' as (neg & n & -> & _). destruct neg; cbn [sign app] in *.
    + rewrite read_i64_neg in Hz. destruct (_ <=? _)%Z eqn:E; [|discriminate]. injection Hz as <-. apply Z.leb_le in E. unfold i64_min, i64_max in *. lia.
    + rewrite read_i64_dec in Hz. destruct (_ <=? _)%Z eqn:E; [|discriminate]. injection Hz as <-. apply Z.leb_le in E. unfold i64_min, i64_max in *. lia.
  - apply lit_new_int_inv in Hk as Hk'. apply lit_num_int in Hk' as (neg & n & -> & _). destruct neg; cbn [sign app] in *.
    + rewrite read_u64_neg in Hz. discriminate.
    + rewrite read_u64_dec in Hz. destruct (_ <=? _)%Z eqn:E; [|discriminate]. injection Hz as <-. apply Z.leb_le in E. unfold u64_max in *. lia.
  - exact (float_read_valid _ _ Hz).
Qed.
Lemma conv_valid_neg repr k l : unsigned repr -> lit_num (45 :: repr) = Some k -> conv l (SLTok k) -> lit_valid l.
Proof.
  intros Hu Hk Hc. rewrite (lit_num_neg repr Hu) in Hk. pose proof (lit_new_digits_unsigned repr Hu) as Hd.
  destruct (lit_new repr) as [[]|] eqn:Hn; try discriminate; cbn in Hk; injection Hk as <-.
  - pose proof Hn as Hn'. apply lit_new_int_inv in Hn'. apply lit_num_int in Hn' as (neg & n & -> & _).
    destruct neg; [exfalso; cbn in Hd; congruence|]. cbn [sign app] in *. destruct l; cbn [conv lit_valid] in *; try exact I; try discriminate; destruct Hc as (ds & Hc & Hz); try discriminate; injection Hc as <-.
    + rewrite read_i64_neg in Hz. destruct (_ <=? _)%Z eqn:E; [|discriminate]. injection Hz as <-. apply Z.leb_le in E. unfold i64_min, i64_max in *. lia.
    + rewrite read_u64_neg in Hz. discriminate.
  - destruct l; cbn [conv lit_valid] in *; try exact I; try discriminate; destruct Hc as (ds & Hc & Hz); try discriminate. injection Hc as <-. exact (float_read_valid _ _ Hz).
Qed.
End LitDenote.
