(** * FloatText: the floating-point literals of Rust and what they denote (C29). *)
From Coq Require Import QArith.
From Verif Require Import Base Float Literal Syn Ast LitSpec FloatFacts LiteralFacts FloatNear.
Local Open Scope N_scope.

(** ** Specification: Rust Reference, "Floating-point literals" *)
Section FloatText.
Context {U : unicode}.
(** DEC_LITERAL: a digit, then digits and underscores *)
Definition dec_literal (s : text) : Prop :=
  match s with c :: r => is_digit c = true /\ forallb (fun c => is_digit c || (c =? 95)) r = true | [] => False end.
Definition digits_of (s : text) : text := filter (fun c => negb (c =? 95)) s.
Definition number (s : text) : N := read_digits 0 (digits_of s).
Definition decimals (s : text) : Z := Z.of_nat (List.length (digits_of s)).
(** SUFFIX: a word that does not start with an underscore *)
Definition suffix (s : text) : Prop := match s with [] => True | c :: _ => xid_ok s = true /\ c <> 95 end.
Definition suffix_no_e (s : text) : Prop := suffix s /\ match s with [] => True | c :: _ => c <> 101 /\ c <> 69 end.
(** exponent digits: digits and underscores, at least one digit *)
Definition exp_digits (s : text) : Prop := forallb (fun c => is_digit c || (c =? 95)) s = true /\ digits_of s <> [].
Definition e_sign (s : text) (z : Z) : Z := if text_eqb s [45] then (- z)%Z else z.

(** [float_spelling repr D k]: a literal that denotes D * 10^k *)
Inductive float_spelling : text -> N -> Z -> Prop :=
| fs_point ip : dec_literal ip -> float_spelling (ip ++ [46]) (number ip) 0
| fs_frac ip fp sfx : dec_literal ip -> dec_literal fp -> suffix_no_e sfx ->
    float_spelling (ip ++ [46] ++ fp ++ sfx) (number (ip ++ fp)) (- decimals fp)
| fs_exp ip fp point e sg ep sfx : dec_literal ip -> (point = [] /\ fp = [] \/ point = [46] /\ dec_literal fp) ->
    (e = 101 \/ e = 69) -> (sg = [] \/ sg = [43] \/ sg = [45]) -> exp_digits ep -> suffix sfx ->
    float_spelling (ip ++ point ++ fp ++ [e] ++ sg ++ ep ++ sfx) (number (ip ++ fp)) (e_sign sg (Z.of_N (number ep)) - decimals fp).

(** ** Scanning *)
Notation digitish := (fun c => is_digit c || (c =? 95)).
Lemma digits_app a b : digits_of (a ++ b) = digits_of a ++ digits_of b.
Proof. unfold digits_of. apply filter_app. Qed.
Lemma digits_all s : forallb digitish s = true -> forallb is_digit (digits_of s) = true.
Proof.
  induction s as [|c s IH]; [reflexivity|]. cbn [forallb digits_of filter]. intro H. apply andb_true_iff in H as (Hc & H). destruct (N.eqb_spec c 95); cbn [negb]; [exact (IH H)|].
  cbn [forallb]. rewrite orb_false_r in Hc. rewrite Hc. exact (IH H).
Qed.
Lemma dec_digitish s : dec_literal s -> forallb digitish s = true /\ digits_of s <> [] /\ match s with c :: _ => is_digit c = true | [] => False end.
Proof.
  destruct s as [|c r]; [intros []|]. intros (Hc & Hr). split; [cbn [forallb]; rewrite Hc; exact Hr|]. split; [|exact Hc].
  cbn. destruct (N.eqb_spec c 95) as [->|]; [discriminate|]. discriminate.
Qed.
Lemma scan_digits ds : forall rest out hd he hs hx, forallb digitish ds = true ->
  float_scan (ds ++ rest) out hd he hs hx = float_scan rest (rev (digits_of ds) ++ out) hd he hs (hx || (he && match digits_of ds with [] => false | _ => true end)).
Proof.
  induction ds as [|c ds IH]; intros rest out hd he hs hx H; [cbn; rewrite andb_false_r, orb_false_r; reflexivity|].
  cbn [forallb] in H. apply andb_true_iff in H as (Hc & H). cbn [app float_scan digits_of filter]. destruct (N.eqb_spec c 95) as [->|Hn]; cbn [negb].
  - rewrite IH by exact H. reflexivity.
  - rewrite orb_false_r in Hc. rewrite Hc, IH by exact H. fold (digits_of ds). cbn [rev]. rewrite <- app_assoc. cbn [app]. f_equal. destruct hx, he, (digits_of ds); reflexivity.
Qed.
Lemma suffix_head c r : suffix (c :: r) -> c <> 95 /\ is_digit c = false /\ c <> 46 /\ c <> 45 /\ c <> 43 /\ xid_ok (c :: r) = true.
Proof.
  intros (H & Hn). split; [exact Hn|]. pose proof H as H'. cbn [xid_ok] in H'. apply andb_true_iff in H' as (Hc & _). replace (c =? 95) with false in Hc by (symmetry; apply N.eqb_neq; exact Hn). cbn [orb] in Hc.
  unfold xid_start in Hc. destruct (N.ltb_spec c 128) as [Hl|Hl].
  - unfold is_alpha, is_lower, is_upper in Hc. unfold is_digit. assert (E : (97 <= c <= 122) \/ (65 <= c <= 90)) by lia. repeat split; try exact H; lia.
  - unfold is_digit. repeat split; try assumption; lia.
Qed.
Lemma scan_suffix sfx out hd hs : forall he hx, suffix sfx -> (he = false -> suffix_no_e sfx) -> (he = true -> hx = true) ->
  float_scan sfx out hd he hs hx = Some (rev out, sfx, he, hx).
Proof.
  intros he hx Hs Hne Hx. destruct sfx as [|c r]; [reflexivity|]. destruct (suffix_head c r Hs) as (H1 & H2 & H3 & H4 & H5 & _).
  cbn [float_scan]. rewrite H2. replace (c =? 95) with false by (symmetry; apply N.eqb_neq; exact H1). replace (c =? 46) with false by (symmetry; apply N.eqb_neq; exact H3).
  destruct ((c =? 101) || (c =? 69)) eqn:Ee.
  - destruct he; [|exfalso; destruct (Hne eq_refl) as (_ & Ha & Hb); lia]. rewrite (Hx eq_refl). cbv zeta. match goal with |- (if ?b then _ else _) = _ => destruct b end; reflexivity.
  - replace (c =? 45) with false by (symmetry; apply N.eqb_neq; exact H4). replace (c =? 43) with false by (symmetry; apply N.eqb_neq; exact H5). reflexivity.
Qed.
Lemma first_digit s rest : exp_digits s -> is_digit (first_non_underscore (s ++ rest)) = true.
Proof.
  intros (H1 & H2). induction s as [|c s IH]; [contradiction|]. cbn [forallb] in H1. apply andb_true_iff in H1 as (Hc & H1). cbn [app first_non_underscore]. cbn [digits_of filter] in H2.
  destruct (N.eqb_spec c 95) as [->|]; [apply IH; [exact H1|exact H2]|]. rewrite orb_false_r in Hc. exact Hc.
Qed.

(** ** The integer parser declines *)
Lemma exp_scan_digits s : forall rest h, forallb digitish s = true -> exp_scan (s ++ rest) h = exp_scan rest (h || match digits_of s with [] => false | _ => true end).
Proof.
  induction s as [|c s IH]; intros rest h H; [cbn; rewrite orb_false_r; reflexivity|]. cbn [forallb] in H. apply andb_true_iff in H as (Hc & H). cbn [app exp_scan digits_of filter].
  destruct (N.eqb_spec c 95) as [->|Hn]; cbn [negb]; [apply IH; exact H|]. rewrite orb_false_r in Hc. rewrite Hc.
  replace ((c =? 45) || (c =? 43)) with false by (unfold is_digit in Hc; lia). rewrite IH by exact H. rewrite orb_true_r. reflexivity.
Qed.
Lemma int_loop_digits ds : forall rest v h, forallb digitish ds = true -> exists v' h', int_loop 10 (ds ++ rest) v h = int_loop 10 rest v' h'.
Proof.
  induction ds as [|c ds IH]; intros rest v h H; [exists v, h; reflexivity|]. cbn [forallb] in H. apply andb_true_iff in H as (Hc & H). cbn [app].
  destruct (is_digit c) eqn:Ed.
  - rewrite (int_loop_digit 10 c _ v h (digit_val c)); [|unfold is_radix; auto|apply radix10; exact Ed]. apply IH. exact H.
  - cbn [orb] in Hc. apply N.eqb_eq in Hc. subst c. change (int_loop 10 (95 :: ds ++ rest) v h) with (int_loop 10 (ds ++ rest) v h). apply IH. exact H.
Qed.
Definition floaty (r : text) : Prop := (exists r', r = 46 :: r') \/ (exists e r', r = e :: r' /\ (e = 101 \/ e = 69) /\ exp_scan r' false = true).
Lemma floaty_not_int (neg : bool) ip r : dec_literal ip -> floaty r -> parse_lit_int ((if neg then [45] else []) ++ ip ++ r) = None.
Proof.
  intros Hip Hr. destruct (dec_digitish ip Hip) as (Hd & _ & _). destruct ip as [|c ip]; [contradiction|]. destruct Hip as (Hc & Hip).
  assert (Hl : int_loop 10 ((c :: ip) ++ r) 0 false = None).
  { destruct (int_loop_digits (c :: ip) r 0 false Hd) as (v & h & ->). destruct Hr as [(r' & ->)|(e & r' & -> & He & Hx)]; [reflexivity|].
    destruct He as [-> | ->]; cbn [int_loop]; cbn; rewrite Hx; reflexivity. }
  assert (H2 : exists x r', ip ++ r = x :: r' /\ (x =? 120) = false /\ (x =? 111) = false /\ (x =? 98) = false).
  { destruct ip as [|y ip]; cbn [app].
    - destruct Hr as [(r' & ->)|(e & r' & -> & [-> | ->] & _)]; eexists; eexists; split; try reflexivity; repeat split; reflexivity.
    - exists y, (ip ++ r). split; [reflexivity|]. cbn [forallb] in Hip. apply andb_true_iff in Hip as (Hy & _). unfold is_digit in Hy. lia. }
  destruct H2 as (x & r' & Ex & X1 & X2 & X3). unfold parse_lit_int. cbn [app] in *. rewrite Ex in *. destruct neg; cbn [app].
  - change (45 =? 45) with true. cbv iota beta. rewrite X1, X2, X3, !andb_false_r, Hc, Hl. reflexivity.
  - rewrite (not_minus c Hc). cbv iota beta. rewrite X1, X2, X3, !andb_false_r, Hc, Hl. reflexivity.
Qed.

(** ** Reading the digits handed to [f64::from_str] *)
Lemma read_parts (neg : bool) (ip fp : text) (point : bool) (ex : option (bool * text)) :
  ip <> [] -> forallb is_digit ip = true -> forallb is_digit fp = true -> (point = false -> fp = []) ->
  match ex with Some (_, ep) => ep <> [] /\ forallb is_digit ep = true | None => True end ->
  float_read ((if neg then [45] else []) ++ ip ++ (if point then [46] else []) ++ fp ++
              match ex with Some (sg, ep) => [101] ++ (if sg : bool then [45] else []) ++ ep | None => [] end) =
  Some (round_dec neg (read_digits 0 (ip ++ fp))
    (match ex with Some (sg, ep) => (if sg then - Z.of_N (read_digits 0 ep) else Z.of_N (read_digits 0 ep)) | None => 0 end - Z.of_nat (List.length fp))%Z).
Proof.
  intros Hi Hdi Hdf Hp Hex. destruct ip as [|c ip]; [congruence|]. pose proof Hdi as Hdi'. cbn [forallb] in Hdi'. apply andb_true_iff in Hdi' as (Hc & _).
  set (tail := match ex with Some (sg, ep) => [101] ++ (if sg : bool then [45] else []) ++ ep | None => [] end).
  assert (Ht : match tail with [] => ex = None | t :: _ => t = 101 end) by (unfold tail; destruct ex as [(sg, ep)|]; reflexivity).
  assert (Hnd : match tail with t :: _ => is_digit t = false | [] => True end) by (destruct tail; [exact I|subst; reflexivity]).
  unfold float_read.
  assert (E1 : (match (if neg then [45] else []) ++ (c :: ip) ++ (if point then [46] else []) ++ fp ++ tail with
               | x :: r => if x =? 45 then (true, r) else (false, (if neg then [45] else []) ++ (c :: ip) ++ (if point then [46] else []) ++ fp ++ tail)
               | [] => (false, (if neg then [45] else []) ++ (c :: ip) ++ (if point then [46] else []) ++ fp ++ tail) end) = (neg, (c :: ip) ++ (if point then [46] else []) ++ fp ++ tail)).
  { destruct neg; cbn [app]; [reflexivity|]. rewrite (not_minus c Hc). reflexivity. }
  rewrite E1. clear E1.
  assert (E2 : span_digits ((c :: ip) ++ (if point then [46] else []) ++ fp ++ tail) = (c :: ip, (if point then [46] else []) ++ fp ++ tail)).
  { apply span_digits_spec; [exact Hdi|]. destruct point; [reflexivity|]. rewrite (Hp eq_refl). cbn [app]. destruct tail; [exact I|subst; reflexivity]. }
  rewrite E2. clear E2.
  assert (E3 : (match (if point then [46] else []) ++ fp ++ tail with
                | x :: r => if x =? 46 then span_digits r else ([], (if point then [46] else []) ++ fp ++ tail)
                | [] => ([], []) end) = (fp, tail)).
  { destruct point; cbn [app].
    - change (46 =? 46) with true. cbv iota. apply span_digits_spec; [exact Hdf|exact Hnd].
    - rewrite (Hp eq_refl). cbn [app]. destruct tail as [|t tl]; [reflexivity|]. rewrite Ht. reflexivity. }
  rewrite E3. clear E3. cbv iota beta. destruct tail as [|t tl] eqn:Et.
  - rewrite Ht. f_equal.
  - subst t. change ((101 =? 101) || (101 =? 69)) with true. cbv iota. destruct ex as [(sg, ep)|]; [|discriminate]. unfold tail in Et. cbn [app] in Et.
    assert (Etl : tl = (if sg then [45] else []) ++ ep) by congruence. subst tl. destruct Hex as (He & Hde). destruct ep as [|x ep]; [congruence|].
    pose proof Hde as Hde'. cbn [forallb] in Hde'. apply andb_true_iff in Hde' as (Hx & _).
    assert (E4 : (match (if sg then [45] else []) ++ x :: ep with
             | y :: r' => if y =? 45 then (true, r') else if y =? 43 then (false, r') else (false, (if sg then [45] else []) ++ x :: ep)
             | [] => (false, (if sg then [45] else []) ++ x :: ep) end) = (sg, x :: ep)).
    { destruct sg; cbn [app]; [reflexivity|]. rewrite (not_minus x Hx). replace (x =? 43) with false by (unfold is_digit in Hx; lia). reflexivity. }
    rewrite E4. clear E4. pose proof (span_digits_spec (x :: ep) [] Hde I) as E5. rewrite app_nil_r in E5. rewrite E5. cbv iota beta. f_equal. f_equal. destruct sg; lia.
Qed.

(** ** Putting it together *)
Lemma lit_num_scanned (neg : bool) c body ds sfx he hx : is_digit c = true -> parse_lit_int ((if neg then [45] else []) ++ c :: body) = None ->
  float_scan (c :: body) [] false false false false = Some (ds, sfx, he, hx) -> (he = true -> hx = true) -> suffix sfx ->
  lit_num ((if neg then [45] else []) ++ c :: body) = Some (KFloat ((if neg then [45] else []) ++ ds)).
Proof.
  intros Hc Hi Hs Hx Hsfx. unfold lit_num. rewrite Hi. unfold parse_lit_float.
  assert (Hok : match sfx with [] => true | _ => xid_ok sfx end = true) by (destruct sfx as [|x r]; [reflexivity|apply Hsfx]).
  assert (Hhe : he && negb hx = false) by (destruct he; [rewrite Hx; reflexivity|reflexivity]).
  destruct neg; cbn [app].
  - change (45 =? 45) with true. cbv iota beta. rewrite Hc, Hs. rewrite Hhe. rewrite Hok. reflexivity.
  - rewrite (not_minus c Hc). cbv iota beta. rewrite Hc, Hs. rewrite Hhe, Hok. reflexivity.
Qed.
Theorem spelling_reads (neg : bool) repr D k : float_spelling repr D k ->
  exists ds, lit_num ((if neg then [45] else []) ++ repr) = Some (KFloat ds) /\ float_read ds = Some (round_dec neg D k) /\
    match repr with c :: _ => is_digit c = true | [] => False end.
Proof.
  intro H. destruct H as [ip Hip|ip fp sfx Hip Hfp Hs|ip fp point e sg ep sfx Hip Hpt He Hsg Hep Hs].
  - destruct (dec_digitish ip Hip) as (D1 & D2 & D3). destruct ip as [|c ip]; [contradiction|].
    exists ((if neg then [45] else []) ++ digits_of (c :: ip) ++ [46]). split; [|split; [|exact D3]].
    + cbn [app]. apply (lit_num_scanned neg c (ip ++ [46]) (digits_of (c :: ip) ++ [46]) [] false false D3); [| |discriminate|exact I].
      * apply (floaty_not_int neg (c :: ip) [46] Hip). left. eauto.
      * change (c :: ip ++ [46]) with ((c :: ip) ++ [46]). rewrite scan_digits by exact D1. cbn [float_scan]. cbn [orb andb]. cbn. rewrite app_nil_r, rev_involutive. reflexivity.
    + pose proof (read_parts neg (digits_of (c :: ip)) [] true None D2 (digits_all _ D1) eq_refl ltac:(discriminate) I) as R. cbn [app] in R. rewrite !app_nil_r in R. exact R.
  - destruct (dec_digitish ip Hip) as (D1 & D2 & D3). destruct (dec_digitish fp Hfp) as (F1 & F2 & _). destruct ip as [|c ip]; [contradiction|].
    exists ((if neg then [45] else []) ++ digits_of (c :: ip) ++ [46] ++ digits_of fp). split; [|split; [|exact D3]].
    + cbn [app]. apply (lit_num_scanned neg c (ip ++ 46 :: fp ++ sfx) (digits_of (c :: ip) ++ [46] ++ digits_of fp) sfx false false D3); [| |discriminate|apply Hs].
      * apply (floaty_not_int neg (c :: ip) (46 :: fp ++ sfx) Hip). left. eauto.
      * change (c :: ip ++ 46 :: fp ++ sfx) with ((c :: ip) ++ 46 :: fp ++ sfx). rewrite scan_digits by exact D1. cbn [float_scan]. change (46 =? 95) with false. change (is_digit 46) with false. change (46 =? 46) with true. cbn [orb andb]. cbv iota.
        rewrite scan_digits by exact F1. rewrite scan_suffix; [|apply Hs|intros _; exact Hs|discriminate]. cbn [orb andb]. rewrite app_nil_r, rev_app_distr. cbn [rev]. rewrite !rev_involutive, <- app_assoc. reflexivity.
    + pose proof (read_parts neg (digits_of (c :: ip)) (digits_of fp) true None D2 (digits_all _ D1) (digits_all _ F1) ltac:(discriminate) I) as R. cbn [app] in R |- *. rewrite app_nil_r in R.
      rewrite R. unfold number. rewrite <- digits_app. reflexivity.
  - destruct (dec_digitish ip Hip) as (D1 & D2 & D3). destruct ip as [|c ip]; [contradiction|].
    assert (F1 : forallb digitish fp = true) by (destruct Hpt as [(_ & ->)|(_ & Hfp)]; [reflexivity|apply dec_digitish; exact Hfp]).
    pose proof (first_digit ep sfx Hep) as Hfd. destruct Hep as (E1 & E2).
    set (pt := match point with [] => false | _ => true end). set (mi := text_eqb sg [45]).
    assert (Eds : digits_of ep <> []) by exact E2.
    set (ds := digits_of (c :: ip) ++ (if pt then [46] else []) ++ digits_of fp ++ [101] ++ (if mi then [45] else []) ++ digits_of ep).
    exists ((if neg then [45] else []) ++ ds). split; [|split; [|exact D3]].
    + cbn [app]. apply (lit_num_scanned neg c (ip ++ point ++ fp ++ e :: sg ++ ep ++ sfx) ds sfx true true D3); [| |auto|exact Hs].
      * apply (floaty_not_int neg (c :: ip) (point ++ fp ++ e :: sg ++ ep ++ sfx) Hip). destruct Hpt as [(-> & ->)|(-> & _)]; [|left; cbn; eauto].
        right. exists e, (sg ++ ep ++ sfx). split; [reflexivity|]. split; [exact He|]. destruct Hsg as [->|[->| ->]]; [|reflexivity|reflexivity].
        cbn [app]. rewrite exp_scan_digits by exact E1. cbn [orb]. destruct (digits_of ep); [congruence|]. destruct sfx as [|x r]; [reflexivity|]. destruct (suffix_head x r Hs) as (S1 & S2 & S3 & S4 & S5 & S6).
        cbn [exp_scan]. rewrite S2. replace (x =? 95) with false by (symmetry; apply N.eqb_neq; exact S1). replace (x =? 45) with false by (symmetry; apply N.eqb_neq; exact S4). replace (x =? 43) with false by (symmetry; apply N.eqb_neq; exact S5). exact S6.
      * change (c :: ip ++ point ++ fp ++ e :: sg ++ ep ++ sfx) with ((c :: ip) ++ point ++ fp ++ e :: sg ++ ep ++ sfx). rewrite scan_digits by exact D1. cbn [andb orb]. rewrite app_nil_r.
        assert (P : float_scan (point ++ fp ++ e :: sg ++ ep ++ sfx) (rev (digits_of (c :: ip))) false false false false =
                    float_scan (e :: sg ++ ep ++ sfx) (rev (digits_of (c :: ip) ++ (if pt then [46] else []) ++ digits_of fp)) pt false false false).
        { destruct Hpt as [(-> & ->)|(-> & _)]; unfold pt; cbn [app]; [rewrite app_nil_r; reflexivity|].
          cbn [float_scan]. change (46 =? 95) with false. change (is_digit 46) with false. change (46 =? 46) with true. cbn [orb andb]. cbv iota. rewrite scan_digits by exact F1. cbn [orb andb].
          rewrite rev_app_distr. cbn [rev]. rewrite <- !app_assoc. reflexivity. }
        rewrite P. clear P. set (out := digits_of (c :: ip) ++ (if pt then [46] else []) ++ digits_of fp).
        assert (Q : float_scan (e :: sg ++ ep ++ sfx) (rev out) pt false false false = float_scan (ep ++ sfx) (rev (out ++ [101] ++ (if mi then [45] else []))) pt true (match sg with [] => false | _ => true end) false).
        { assert (Hn : match sg with [] => True | x :: _ => (first_non_underscore (sg ++ ep ++ sfx) =? 45) || (first_non_underscore (sg ++ ep ++ sfx) =? 43) = true end) by (destruct Hsg as [->|[->| ->]]; reflexivity || exact I).
          cbn [float_scan]. replace (e =? 95) with false by (destruct He as [-> | ->]; reflexivity). replace (is_digit e) with false by (destruct He as [-> | ->]; reflexivity).
          replace (e =? 46) with false by (destruct He as [-> | ->]; reflexivity). replace ((e =? 101) || (e =? 69)) with true by (destruct He as [-> | ->]; reflexivity). cbv zeta.
          replace ((first_non_underscore (sg ++ ep ++ sfx) =? 45) || (first_non_underscore (sg ++ ep ++ sfx) =? 43) || is_digit (first_non_underscore (sg ++ ep ++ sfx))) with true.
          - rewrite rev_app_distr. destruct Hsg as [->|[->| ->]]; unfold mi; cbn; rewrite ?rev_app_distr; reflexivity.
          - symmetry. destruct Hsg as [->|[->| ->]]; [cbn [app]; rewrite Hfd; apply orb_true_r|rewrite Hn; reflexivity|rewrite Hn; reflexivity]. }
        rewrite Q. clear Q. rewrite scan_digits by exact E1. replace (false || true && match digits_of ep with [] => false | _ :: _ => true end) with true by (destruct (digits_of ep); [congruence|reflexivity]).
        rewrite scan_suffix; [|exact Hs|discriminate|reflexivity]. rewrite <- rev_app_distr, rev_involutive. unfold ds, out. rewrite <- !app_assoc. reflexivity.
    + pose proof (read_parts neg (digits_of (c :: ip)) (digits_of fp) pt (Some (mi, digits_of ep)) D2 (digits_all _ D1) (digits_all _ F1)) as R.
      unfold ds. rewrite R; [|unfold pt; destruct Hpt as [(-> & ->)|(-> & _)]; [reflexivity|discriminate]|split; [exact Eds|apply digits_all; exact E1]].
      unfold number, e_sign, decimals. rewrite <- digits_app. reflexivity.
Qed.
End FloatText.
