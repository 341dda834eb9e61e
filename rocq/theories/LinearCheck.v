(** * LinearCheck: a decidable check for grammars decided by the next token alone; their parsers make linearly many calls (C55). *)
From Verif Require Import Base Float Literal Syn Ast Derive Grammar Spec SynFacts Lawful Mono Combinators GrammarBeh Term TermCheck LL1 LL1Facts LL1Check Cost CostFacts Depth Linear.
Local Open Scope nat_scope.

(** ** What a type can begin with, and before what it can stop though it would have read it. *)
Section Heads.
Variable nu : nat -> bool.
Variable fi : nat -> list head.
Variable po : nat -> list head.
Notation nullb := (nullb nu).
Fixpoint begins_with (t : ty) : list head :=
  match t with
  | TyIdent => [HWordNot rust_keywords]
  | TyCustomIdent kws => [HWordNot kws]
  | TyKeyword kw | TyTokenKw kw => [HWord kw]
  | TyToken op => [HOp op]
  | TyLit k => lit_heads k
  | TyAnyLit => any_lit_heads
  | TyEmpty | TyNotEof | TyEof => []
  | TyMaybe a b | TySeparated a b | TyLeftAssoc b a | TyRightAssoc b a | TyPunctuated a b => begins_with a ++ (if nullb a then begins_with b else [])
  | TyParen _ => [HGroup DParen] | TyBracket _ => [HGroup DBracket] | TyBrace _ => [HGroup DBrace]
  | TyAny a | TyBox a => begins_with a
  | TyEither a b => begins_with a ++ begins_with b
  | TyRef i => fi i
  end.
Fixpoint begins_fields (fs : list (label * ty)) : list head :=
  match fs with [] => [] | (_, t) :: r => begins_with t ++ (if nullb t then begins_fields r else []) end.
Definition begins_def (d : tdef) : list head :=
  match d with DStruct c => begins_fields (c_fields c) | DEnum _ cs => List.concat (map (fun c => begins_fields (c_fields c)) cs) end.
Fixpoint gives_up (t : ty) : list head :=
  match t with
  | TyMaybe a b => begins_with a ++ gives_up b ++ (if nullb b then gives_up a else [])
  | TyPunctuated a b => gives_up a ++ gives_up b
  | TySeparated a b | TyLeftAssoc b a | TyRightAssoc b a => gives_up a ++ begins_with b ++ (if nullb a then gives_up b else [])
  | TyAny a => begins_with a ++ gives_up a
  | TyEither a b => gives_up a ++ gives_up b ++ (if nullb b then begins_with a else [])
  | TyBox a => gives_up a
  | TyRef i => po i
  | _ => []
  end.
Fixpoint gives_fields (fs : list (label * ty)) : list head :=
  match fs with [] => [] | (_, t) :: r => gives_fields r ++ (if nullb_fields nu r then gives_up t else []) end.
(** the variants, of which one that can be empty is tried after all before it have failed *)
Fixpoint gives_variants (cs : list ctor) : list head :=
  match cs with
  | [] => []
  | c :: r => gives_fields (c_fields c) ++ gives_variants r ++ (if existsb (fun c => nullb_fields nu (c_fields c)) r then begins_fields (c_fields c) else [])
  end.
Definition gives_def (d : tdef) : list head :=
  match d with DStruct c => gives_fields (c_fields c) | DEnum _ cs => gives_variants cs end.

(** ** The check. *)
Fixpoint lookahead (t : ty) : bool :=
  match t with
  | TyMaybe a b => lookahead a && lookahead b && disjoint (gives_up a) (begins_with b)
  | TyParen a | TyBracket a | TyBrace a | TyBox a => lookahead a
  | TyPunctuated a b => lookahead a && lookahead b && negb (nullb a)
      && disjoint (gives_up a) (begins_with b ++ (if nullb b then begins_with a else [])) && disjoint (gives_up b) (begins_with a)
  | TySeparated a b | TyLeftAssoc b a | TyRightAssoc b a => lookahead a && lookahead b && negb (nullb b)
      && disjoint (gives_up a) (begins_with b) && disjoint (gives_up b) (begins_with a ++ (if nullb a then begins_with b else []))
  | TyAny a => lookahead a && negb (nullb a) && disjoint (gives_up a) (begins_with a)
  | TyEither a b => lookahead a && lookahead b && disjoint (begins_with a) (begins_with b)
  | _ => true
  end.
Fixpoint lookahead_fields (fs : list (label * ty)) : bool :=
  match fs with [] => true | (_, t) :: r => lookahead t && disjoint (gives_up t) (begins_fields r) && lookahead_fields r end.
Fixpoint lookahead_variants (cs : list ctor) : bool :=
  match cs with
  | [] => true
  | c :: r => lookahead_fields (c_fields c) && disjoint (begins_fields (c_fields c)) (List.concat (map (fun c => begins_fields (c_fields c)) r)) && lookahead_variants r
  end.
Definition lookahead_def (d : tdef) : bool :=
  match d with DStruct c => lookahead_fields (c_fields c) | DEnum _ cs => lookahead_variants cs end.
End Heads.

Section Tables.
Variable g : list tdef.
Notation rounds := (S (List.length g)).
Definition fi_of : nat -> list head := look (iter rounds (fun l => map (fun d => dedup (begins_def (nu_of g) (look l []) d)) g) (map (fun _ => []) g)) [].
Definition po_of (fi : nat -> list head) : nat -> list head := look (iter rounds (fun l => map (fun d => dedup (gives_def (nu_of g) fi (look l []) d)) g) (map (fun _ => []) g)) [].
(** The tables are not trusted: that they are closed is part of the check. *)
Definition predictive (t : ty) : bool :=
  let nu := nu_of g in let fi := fi_of in let po := po_of fi in
  terminating g t
  && forallb (fun i => inclb (begins_def nu fi (env_of g i)) (fi i) && inclb (gives_def nu fi po (env_of g i)) (po i) && lookahead_def nu fi po (env_of g i)) (seq 0 (List.length g))
  && lookahead nu fi po t.
End Tables.

(** ** The loops. *)
Ltac inc := rewrite ?andb_true_r, ?andb_false_r, ?orb_true_r, ?orb_false_r; cbn [andb orb app];
  repeat match goal with |- context [if ?b then _ else _] => destruct b end; let h := fresh "h" in let Hh := fresh "Hh" in intros h Hh;
  repeat (rewrite ?in_app_iff in *; cbn [In] in * ); tauto.
Section Loops.
Context {U : unicode}.
Variables A b g : nat.
Hypothesis HA : g + 3 * b <= A.
Notation lin := (lin A).
Lemma lin_div {V} B G n F P (w : cparser V) : (forall s, w s = (ODiverge, s, free)) -> lin B G n F P w.
Proof. intros H s o s' c E. rewrite H in E. injection E as <- <- <-. exact I. Qed.
Lemma lin_any (pa : cparser val) Fa Pa : lin b g false Fa Pa pa -> disjoint Pa Fa = true -> forall f acc B1 G1, B1 <= b -> lin B1 G1 false Fa Pa pa ->
  lin B1 (G1 + b) true Fa (Fa ++ Pa) (w_any f pa acc).
Proof.
  intros Ha D. induction f as [|f IH]; intros acc B1 G1 HB H1; [apply lin_div; reflexivity|]. cbn [w_any].
  eapply lin_weaken; [apply le_n|apply le_n| | | |eapply (lin_speculate A B1 G1 false Fa Pa 0 0 b true Fa (Fa ++ Pa) 0 0 true [] [] B1 (G1 + b)); try exact H1].
  - reflexivity.
  - inc.
  - inc.
  - intro v. eapply lin_weaken; [| | | | |apply (IH (v :: acc) b g (le_n _) Ha)]; try apply incl_refl; try lia; auto.
  - discriminate.
  - intro. apply lin_ret.
  - exact D.
  - apply disjoint_nil.
  - lia.
  - discriminate.
  - lia.
  - lia.
  - lia.
Qed.
Lemma lin_terminated (pa pp : cparser val) nb Fa Pa Fb Pb : lin b g false Fa Pa pa -> lin b g nb Fb Pb pp ->
  disjoint Pa (Fb ++ (if nb then Fa else [])) = true -> disjoint Pb Fa = true -> forall f acc B1 G1, B1 <= b -> lin B1 G1 false Fa Pa pa ->
  lin B1 (G1 + 2 * b) true Fa (Pa ++ Pb) (w_terminated f pa pp acc).
Proof.
  intros Ha Hb D1 D2. induction f as [|f IH]; intros acc B1 G1 HB H1; [apply lin_div; reflexivity|].
  change (lin B1 (G1 + 2 * b) true Fa (Pa ++ Pb) (fun s => if is_empty s then (OOk (Pn (rev acc) None), s, free) else
    w_bind pa (fun v => fun s1 => if is_empty s1 then (OOk (Pn (rev acc) (Some v)), s1, free) else w_bind pp (fun p => w_terminated f pa pp ((v, p) :: acc)) s1) s)).
  eapply lin_unless.
  eapply lin_weaken; [apply le_n|apply le_n| | | |eapply (lin_bind A B1 G1 false Fa Pa 0 0 (2 * b) true (Fb ++ (if nb then Fa else [])) (Pa ++ Pb) B1 (G1 + 2 * b)); try exact H1].
  - intro X. exact X.
  - inc.
  - inc.
  - intro v. apply (lin_unless A _ _ (nb && true) _ _ (Pn (rev acc) (Some v))).
    eapply lin_weaken; [| | | | |eapply (lin_bind A b g nb Fb Pb b (g + 2 * b) b true Fa (Pa ++ Pb) (2 * b) (g + 3 * b)); try exact Hb]; try apply incl_refl; try lia; auto; try inc.
    + intro p. eapply lin_weaken; [| | | | |apply (IH ((v, p) :: acc) b g (le_n _) Ha)]; try apply incl_refl; try lia; auto.
  - discriminate.
  - exact D1.
  - lia.
  - discriminate.
  - lia.
Qed.
Lemma lin_separated_loop (pa pp : cparser val) na Fa Pa Fb Pb : lin b g na Fa Pa pa -> lin b g false Fb Pb pp ->
  disjoint Pa Fb = true -> disjoint Pb (Fa ++ (if na then Fb else [])) = true -> forall f acc cur B1 G1, B1 <= b -> lin B1 G1 false Fb Pb pp ->
  lin B1 (G1 + 2 * b) true Fb (Pa ++ Fb ++ (if na then Pb else [])) (w_separated_loop f pa pp acc cur).
Proof.
  intros Ha Hb D1 D2. induction f as [|f IH]; intros acc cur B1 G1 HB H1; [apply lin_div; reflexivity|]. cbn [w_separated_loop].
  eapply lin_weaken; [apply le_n|apply le_n| | | |eapply (lin_speculate A B1 G1 false Fb Pb 0 0 (2 * b) (na && true) (Fa ++ (if na then Fb else [])) ((Pa ++ Fb ++ (if na then Pb else [])) ++ Pa) 0 0 true [] [] B1 (G1 + 2 * b)); try exact H1].
  - reflexivity.
  - inc.
  - inc.
  - intro q. eapply lin_weaken; [| | | | |eapply (lin_bind A b g na Fa Pa b (g + 2 * b) b true Fb (Pa ++ Fb ++ (if na then Pb else [])) (2 * b) (g + 3 * b)); try exact Ha]; try apply incl_refl; try lia; auto.
    + intro v. eapply lin_weaken; [| | | | |apply (IH ((cur, q) :: acc) v b g (le_n _) Hb)]; try apply incl_refl; try lia; auto.
  - discriminate.
  - intro. apply lin_ret.
  - exact D2.
  - apply disjoint_nil.
  - lia.
  - discriminate.
  - lia.
  - lia.
  - lia.
Qed.
Lemma lin_separated (pa pp : cparser val) na Fa Pa Fb Pb f b1 g1 : lin b g na Fa Pa pa -> lin b g false Fb Pb pp ->
  disjoint Pa Fb = true -> disjoint Pb (Fa ++ (if na then Fb else [])) = true -> b1 <= b -> lin b1 g1 na Fa Pa pa -> (na = true -> lin b1 g1 false Fb Pb pp) ->
  lin (2 * b1) (g1 + 3 * b) na (Fa ++ (if na then Fb else [])) (Pa ++ Fb ++ (if na then Pb else [])) (w_separated f pa pp).
Proof.
  intros Ha Hb D1 D2 HB H1 H2. unfold w_separated.
  eapply lin_weaken; [apply le_n|apply le_n| | | |eapply (lin_bind A b1 g1 na Fa Pa b1 (g1 + 2 * b) b true Fb (Pa ++ Fb ++ (if na then Pb else [])) (2 * b1) (g1 + 3 * b)); try exact H1].
  - rewrite andb_true_r. auto.
  - inc.
  - inc.
  - intro v. eapply lin_weaken; [| | | | |eapply (lin_separated_loop pa pp na Fa Pa Fb Pb Ha Hb D1 D2 f [] v b g (le_n _) Hb)]; try apply incl_refl; try lia; auto.
  - intros Hn v. eapply lin_separated_loop; eauto.
  - exact D1.
  - lia.
  - intros _. lia.
  - lia.
Qed.

(** ** Fields and variants. *)
Variable nu : nat -> bool.
Variables fi po : nat -> list head.
Variable w : ty -> cparser val.
Notation nullb := (nullb nu). Notation begins_with := (begins_with nu fi). Notation gives_up := (gives_up nu fi po).
Definition paid (B G : nat) (t : ty) : Prop := lin B G (nullb t) (begins_with t) (gives_up t) (w t).
Lemma lin_fields en ct fs : (forall l t, In (l, t) fs -> paid b g t) -> lookahead_fields nu fi po fs = true -> g + List.length fs * b <= A ->
  lin (List.length fs * b) (g + List.length fs * b) (nullb_fields nu fs) (begins_fields nu fi fs) (gives_fields nu fi po fs) (w_fields en ct (map (fun '(l, t) => (l, w t)) fs)).
Proof.
  induction fs as [|(l, t) fs IH]; intros Hall Hl HK; [apply lin_ret|]. cbn [List.length] in *. cbn [lookahead_fields] in Hl. rewrite !andb_true_iff in Hl. destruct Hl as ((Hl1 & D) & Hl2).
  cbn [map w_fields begins_fields gives_fields]. change (nullb_fields nu ((l, t) :: fs)) with (nullb t && nullb_fields nu fs).
  assert (IH' := IH (fun l0 t0 H0 => Hall l0 t0 (or_intror H0)) Hl2 ltac:(lia)).
  eapply (lin_bind A b g (nullb t) _ _ (List.length fs * b) (g + List.length fs * b) (List.length fs * b)); [apply lin_map_err, (Hall l); left; reflexivity| | |exact D| | |]; try lia.
  - intro v. apply lin_map with (f := cons v). eapply lin_weaken; [| | | | |exact IH']; try apply incl_refl; try lia; auto.
  - intros _ v. apply lin_map with (f := cons v). exact IH'.
Qed.
Fixpoint left_paid (b1 g1 : nat) (fs : list (label * ty)) : Prop :=
  match fs with [] => True | (_, t) :: r => paid b1 g1 t /\ (nullb t = true -> left_paid b1 g1 r) end.
Lemma lin_fields_left b1 g1 en ct fs : b1 <= b -> (forall l t, In (l, t) fs -> paid b g t) -> left_paid b1 g1 fs -> lookahead_fields nu fi po fs = true -> g + List.length fs * b <= A ->
  lin (List.length fs * b1) (g1 + List.length fs * b) (nullb_fields nu fs) (begins_fields nu fi fs) (gives_fields nu fi po fs) (w_fields en ct (map (fun '(l, t) => (l, w t)) fs)).
Proof.
  intros HB. induction fs as [|(l, t) fs IH]; intros Hall Hleft Hl HK; [apply lin_ret|]. cbn [List.length] in *. destruct Hleft as (Ht & Hleft). cbn [lookahead_fields] in Hl. rewrite !andb_true_iff in Hl. destruct Hl as ((Hl1 & D) & Hl2).
  cbn [map w_fields begins_fields gives_fields]. change (nullb_fields nu ((l, t) :: fs)) with (nullb t && nullb_fields nu fs).
  assert (Hall' : forall l0 t0, In (l0, t0) fs -> paid b g t0) by (intros l0 t0 H0; apply (Hall l0); right; exact H0).
  assert (HM : List.length fs * b1 <= List.length fs * b) by (apply Nat.mul_le_mono_l; exact HB).
  eapply (lin_bind A b1 g1 (nullb t) _ _ (List.length fs * b1) (g1 + List.length fs * b) (List.length fs * b)); [apply lin_map_err, Ht| | |exact D| | |]; try lia.
  - intro v. apply lin_map with (f := cons v). eapply lin_weaken; [| | | | |apply lin_fields]; try apply incl_refl; try lia; auto; lia.
  - intros Hn v. apply lin_map with (f := cons v). apply IH; auto. lia.
Qed.
Definition total (cs : list ctor) : nat := list_sum (map (fun c => List.length (c_fields c)) cs).
Lemma lin_variants b1 g1 en cs : b1 <= b -> (forall c, In c cs -> (forall l t, In (l, t) (c_fields c) -> paid b g t) /\ left_paid b1 g1 (c_fields c)) -> lookahead_variants nu fi po cs = true ->
  g + total cs * b <= A -> forall k acc,
  lin (total cs * b1) (g1 + 2 * total cs * b) (existsb (fun c => nullb_fields nu (c_fields c)) cs) (List.concat (map (fun c => begins_fields nu fi (c_fields c)) cs)) (gives_variants nu fi po cs)
      (w_variants en k acc (map (fun c => (c_name c, map (fun '(l, t) => (l, w t)) (c_fields c))) cs)).
Proof.
  intros HB. induction cs as [|c cs IH]; intros Hall Hl HK k acc.
  - apply lin_fail. intro s. eexists. split; [reflexivity|exact I].
  - cbn [lookahead_variants] in Hl. rewrite !andb_true_iff in Hl. destruct Hl as ((Hl1 & D) & Hl2). change (total (c :: cs)) with (List.length (c_fields c) + total cs) in *.
    destruct (Hall c (or_introl eq_refl)) as (H1 & H2). cbn [map w_variants existsb List.concat gives_variants].
    assert (M1 : List.length (c_fields c) * b1 <= List.length (c_fields c) * b) by (apply Nat.mul_le_mono_l; exact HB).
    assert (M2 : total cs * b1 <= total cs * b) by (apply Nat.mul_le_mono_l; exact HB).
    assert (IH' := fun k acc => IH (fun c0 H0 => Hall c0 (or_intror H0)) Hl2 ltac:(lia) k acc).
    eapply lin_weaken; [apply le_n|apply le_n| | | |eapply (lin_speculate A (List.length (c_fields c) * b1) (g1 + List.length (c_fields c) * b) (nullb_fields nu (c_fields c)) _ _ 0 0 0 true [] [] (total cs * b1) (g1 + 2 * total cs * b));
      [apply lin_fields_left; eauto; lia|intro; apply lin_ret|intros _ v; apply lin_ret|intro e; apply IH'|apply disjoint_nil|exact D|lia|intros _; lia|lia|lia|lia]].
    + rewrite andb_true_r. auto.
    + inc.
    + inc.
Qed.
End Loops.

(** ** Every type. *)
Section Main.
Context {U : unicode}.
Variable E : env.
Variable nu : nat -> bool.
Variables fi po : nat -> list head.
Variable rk : nat -> nat.
Variables H R W : nat.
Notation nullb := (nullb nu). Notation begins_with := (begins_with nu fi). Notation gives_up := (gives_up nu fi po). Notation lookahead := (lookahead nu fi po).
Definition width (d : tdef) : nat := match d with DStruct c => total [c] | DEnum _ cs => total cs end.
Hypothesis Hnu : forall i, nullb_def nu (E i) = true -> nu i = true.
Hypothesis Hrk : forall i j, In j (left_refs_def nu (E i)) -> rk j < rk i.
Hypothesis Hh : forall i, def_height (E i) <= H.
Hypothesis HR : forall i, rk i < R.
Hypothesis HW : forall i, width (E i) <= W.
Hypothesis Hfi : forall i, incl (begins_def nu fi (E i)) (fi i).
Hypothesis Hpo : forall i, incl (gives_def nu fi po (E i)) (po i).
Hypothesis Hla : forall i, lookahead_def nu fi po (E i) = true.
Notation lr := (lr nu rk).
(** how many calls a type makes before it has read anything, by what it can begin with *)
Definition rung (t : ty) : nat := lr t * (H + 2) + height t.
Definition top : nat := R * (H + 2) + H.
Definition K : nat := 2 * W + 5.
Fixpoint bf (k : nat) : nat := match k with O => O | S k => S (K * bf k) end.
Definition bb : nat := bf (S top).
Fixpoint gf (k : nat) : nat := match k with O => O | S k => S (gf k + K * bb) end.
Definition gg : nat := gf (S top).
Definition AA : nat := gg + K * bb.
Lemma bf_mono j k : j <= k -> bf j <= bf k.
Proof.
  induction 1 as [|k _ IH]; [apply le_n|]. cbn [bf]. etransitivity; [exact IH|]. unfold K. lia.
Qed.
Lemma gf_mono j k : j <= k -> gf j <= gf k.
Proof. induction 1 as [|k _ IH]; [apply le_n|]. cbn [gf]. lia. Qed.
Lemma rung_top t : height t <= H -> rung t <= top.
Proof. intro Ht. unfold rung, top. assert (lr t <= R) by (apply lr_R; exact HR). assert (lr t * (H + 2) <= R * (H + 2)) by (apply Nat.mul_le_mono_r; assumption). lia. Qed.
Lemma HAA : gg + 3 * bb <= AA.
Proof. unfold AA, K. lia. Qed.

Definition leaf (t : ty) : bool :=
  match t with TyIdent | TyCustomIdent _ | TyKeyword _ | TyTokenKw _ | TyToken _ | TyLit _ | TyAnyLit | TyEmpty | TyEof | TyNotEof => true | _ => false end.
Lemma leaf_layer n p t s : leaf t = true -> calls (snd (w_layer E n p t s)) = 0 /\ fst (w_layer E n p t s) = p_layer (fun _ => unit_def) n (pty (fun _ => unit_def) n) t s.
Proof.
  intro Hl. destruct t; try discriminate Hl; cbn [w_layer p_layer]; unfold w_pmap, w_bind, w_leaf, pmap, bind;
    match goal with |- context [let '(_, _) := ?x in _] => destruct x as ([v|e| |], s1) eqn:?; cbn end; auto.
Qed.
Lemma leaf_lin n p t B G : leaf t = true -> lin AA B G (nullb t) (begins_with t) (gives_up t) (w_layer E n p t).
Proof.
  intros Hl s o s' c Hw. destruct (leaf_layer n p t s Hl) as (Hc & Hp). rewrite Hw in Hc, Hp. cbn [fst snd] in Hc, Hp. symmetry in Hp.
  destruct o as [v|e| |]; [|left; lia|left; lia|exact I]. rewrite <- pty_S in Hp.
  destruct (nullb t) eqn:En.
  - left. split; [|split; [reflexivity|lia]]. rewrite pty_S in Hp. destruct t; try discriminate Hl; try discriminate En; cbn [p_layer] in Hp; apply pmap_ok in Hp as (x & Hp & _).
    + destruct op; [|discriminate En]. unfold p_token in Hp. cbn [take_op] in Hp. injection Hp as _ <-. reflexivity.
    + injection Hp as _ <-. reflexivity.
    + unfold p_eof in Hp. destruct (is_empty s); [|discriminate Hp]. injection Hp as _ <-. reflexivity.
    + unfold p_not_eof in Hp. destruct (is_empty s); [discriminate Hp|]. injection Hp as _ <-. reflexivity.
  - right; left. assert (Hz : sz s' < sz s).
    { eapply (not_nullb (fun _ => unit_def) (fun _ => true)); [reflexivity| |exact Hp]. destruct t; try discriminate Hl; exact En. }
    split; [exact Hz|]. split.
    + pose proof (accepts_begun (fun _ => unit_def) (fun _ => true) (fun _ => []) (fun _ _ => eq_refl) (fun _ => incl_refl _) (S n) t s v s' Hp) as Hb.
      destruct Hb as [(a & Ha & Hs)|(Ha & Hs)].
      * exists a. destruct t; try discriminate Hl; try discriminate En; cbn [LL1.acc] in Ha; cbn [LinearCheck.begins_with]; (split; [exact Ha|split; [|exact Hs]]);
          try (destruct Ha as [<-|[]]; reflexivity).
        -- destruct Ha as [<-|[]]. destruct op; [discriminate En|reflexivity].
        -- destruct k; cbn in Ha; repeat (destruct Ha as [<-|Ha]; [reflexivity|]); contradiction.
        -- cbn in Ha; repeat (destruct Ha as [<-|Ha]; [reflexivity|]); contradiction.
      * exfalso. unfold sz in Hz. rewrite Hs in Hz. lia.
    + rewrite Hc. assert (AA * S (sz s') <= AA * sz s) by (apply Nat.mul_le_mono_l; exact Hz). lia.
Qed.

Definition claim n : Prop := forall t, lookahead t = true -> height t <= H -> paid AA nu fi po (wty E n) (bf (S (rung t))) (gf (S (rung t))) t.
Section Step.
Variable n : nat.
Hypothesis IH : claim n.
Notation paid := (paid AA nu fi po (wty E n)).
Lemma claim_any t : lookahead t = true -> height t <= H -> paid bb gg t.
Proof.
  intros Ht Hz. unfold LinearCheck.paid. eapply lin_weaken; [| | | | |apply IH; assumption]; try apply incl_refl; auto.
  - apply bf_mono. apply le_n_S, rung_top. exact Hz.
  - apply gf_mono. apply le_n_S, rung_top. exact Hz.
Qed.
Lemma claim_left t k : lookahead t = true -> height t <= H -> rung t < k -> paid (bf k) (gf k) t.
Proof.
  intros Ht Hz Hk. unfold LinearCheck.paid. eapply lin_weaken; [| | | | |apply IH; assumption]; try apply incl_refl; auto; [apply bf_mono|apply gf_mono]; exact Hk.
Qed.
Lemma rung_left t t' : height t' < height t -> incl (left_refs nu t') (left_refs nu t) -> rung t' < rung t.
Proof.
  intros Hz Hi. unfold rung. assert (lr t' <= lr t) by (apply lr_incl; exact Hi). assert (lr t' * (H + 2) <= lr t * (H + 2)) by (apply Nat.mul_le_mono_r; assumption). lia.
Qed.
Lemma rung_field i t' : height t' <= H -> (forall j, In j (left_refs nu t') -> rk j < rk i) -> rung t' < rung (TyRef i).
Proof.
  intros Hz Hi. unfold rung. assert (L : lr t' <= rk i). { apply list_max_le. intros m Hm. apply in_map_iff in Hm as (j & <- & Hj). apply Hi. exact Hj. }
  assert (L2 : lr (TyRef i) = S (rk i)) by (unfold Depth.lr; cbn; lia). rewrite L2. cbn [height]. assert (lr t' * (H + 2) <= rk i * (H + 2)) by (apply Nat.mul_le_mono_r; assumption). lia.
Qed.
Lemma left_fields i fs : Forall (fun f => lookahead (snd f) = true /\ height (snd f) <= H) fs -> (forall j, In j (left_refs_fields nu fs) -> rk j < rk i) ->
  left_paid AA nu fi po (wty E n) (bf (rung (TyRef i))) (gf (rung (TyRef i))) fs.
Proof.
  induction 1 as [|(l, t) fs (Ht & Hz) _ IHf]; intro Hi; [exact I|]. cbn [left_paid left_refs_fields] in *. split.
  - apply claim_left; [exact Ht|exact Hz|]. apply rung_field; [exact Hz|]. intros j Hj. apply Hi. apply in_or_app. left. exact Hj.
  - intro Hn. apply IHf. intros j Hj. apply Hi. apply in_or_app. right. rewrite Hn. exact Hj.
Qed.
Lemma look_fields fs : lookahead_fields nu fi po fs = true -> forall l t, In (l, t) fs -> lookahead t = true.
Proof.
  induction fs as [|(l, t) fs IHf]; cbn [lookahead_fields]; [contradiction|]. rewrite !andb_true_iff. intros ((? & ?) & ?) l0 t0 [[= <- <-]|Hin]; [assumption|]. eapply IHf; eassumption.
Qed.
Lemma sep_lin t a b0 : lookahead a = true -> lookahead b0 = true -> nullb b0 = false -> disjoint (gives_up a) (begins_with b0) = true ->
  disjoint (gives_up b0) (begins_with a ++ (if nullb a then begins_with b0 else [])) = true -> height t <= H -> height a < height t -> height b0 < height t ->
  left_refs nu t = left_refs nu a ++ (if nullb a then left_refs nu b0 else []) ->
  lin AA (K * bf (rung t)) (gf (rung t) + K * bb) (nullb a) (begins_with a ++ (if nullb a then begins_with b0 else [])) (gives_up a ++ begins_with b0 ++ (if nullb a then gives_up b0 else []))
    (w_separated n (wty E n a) (wty E n b0)).
Proof.
  intros La Lb Nb D1 D2 Hz Hza Hzb HL. eapply lin_weaken; [| | | | |apply (lin_separated AA bb gg HAA (wty E n a) (wty E n b0) (nullb a) (begins_with a) (gives_up a) (begins_with b0) (gives_up b0) n (bf (rung t)) (gf (rung t)))]; try apply incl_refl; auto.
  - unfold K. lia.
  - unfold K. lia.
  - apply claim_any; [assumption|lia].
  - rewrite <- Nb. apply claim_any; [assumption|lia].
  - unfold bb. apply bf_mono. pose proof (rung_top t Hz). lia.
  - apply claim_left; [assumption|lia|]. apply rung_left; [assumption|]. rewrite HL. apply incl_appl, incl_refl.
  - intro Na. rewrite <- Nb. apply claim_left; [assumption|lia|]. apply rung_left; [assumption|]. rewrite HL, Na. apply incl_appr, incl_refl.
Qed.
Lemma layer t : lookahead t = true -> height t <= H -> lin AA (K * bf (rung t)) (gf (rung t) + K * bb) (nullb t) (begins_with t) (gives_up t) (w_layer E n (wty E n) t).
Proof.
  intros Ht Hz. destruct (leaf t) eqn:Hleaf; [apply leaf_lin; exact Hleaf|].
  assert (Hbb : bf (rung t) <= bb) by (unfold bb; apply bf_mono; pose proof (rung_top t Hz); lia).
  assert (HA1 : gg <= AA) by (pose proof HAA; lia).
  assert (HK : 5 <= K) by (unfold K; lia).
  assert (HKb : 5 * bb <= K * bb) by (apply Nat.mul_le_mono_r; exact HK).
  assert (HKt : 5 * bf (rung t) <= K * bf (rung t)) by (apply Nat.mul_le_mono_r; exact HK).
  destruct t as [| | | | | | | | | |a b0|a|a|a|a b0|a b0|a|b0 a|b0 a|a b0|a|i]; try discriminate Hleaf; cbn [LinearCheck.lookahead] in Ht; rewrite ?andb_true_iff, ?negb_true_iff in Ht; cbn [height] in Hz.
  - (* Maybe *) destruct Ht as ((La & Lb) & D). cbn [w_layer]. apply lin_map. unfold w_maybe.
    assert (Pa : paid (bf (rung (TyMaybe a b0))) (gf (rung (TyMaybe a b0))) a) by (apply claim_left; [assumption|lia|apply rung_left; cbn [height left_refs]; [lia|apply incl_appl, incl_refl]]).
    assert (Pb : nullb a = true -> paid (bf (rung (TyMaybe a b0))) (gf (rung (TyMaybe a b0))) b0) by (intro Na; apply claim_left; [assumption|lia|apply rung_left; cbn [height left_refs]; [lia|rewrite Na; apply incl_appr, incl_refl]]).
    assert (Qb : paid bb gg b0) by (apply claim_any; [assumption|lia]).
    set (b1 := bf (rung (TyMaybe a b0))) in *. set (g1 := gf (rung (TyMaybe a b0))) in *. clearbody b1 g1.
    eapply lin_weaken; [apply le_n|apply le_n| | | |eapply (lin_speculate AA b1 g1 (nullb a) (begins_with a) (gives_up a) b1 g1 bb (nullb b0) (begins_with b0) (gives_up b0) 0 0 true [] [])]; try exact Pa.
    + reflexivity.
    + cbn [LinearCheck.begins_with]. inc.
    + cbn [LinearCheck.gives_up]. inc.
    + intro v. apply (lin_map AA bb AA (nullb b0) (begins_with b0) (gives_up b0) (fun v0 => Some (v, v0))). eapply lin_weaken; [| | | | |exact Qb]; try apply incl_refl; auto.
    + intros Na v. apply (lin_map AA b1 g1 (nullb b0) (begins_with b0) (gives_up b0) (fun v0 => Some (v, v0))). apply Pb. exact Na.
    + intro. apply lin_ret.
    + exact D.
    + apply disjoint_nil.
    + lia.
    + intros _. lia.
    + lia.
    + lia.
    + lia.
  - (* Paren *) cbn [w_layer]. apply lin_map. eapply lin_weaken; [| | | | |eapply (lin_group AA bb); [|apply le_n]]; try apply incl_refl; [lia|lia|auto|].
    eapply lin_weaken; [apply le_n|exact HA1| | | |apply claim_any; [exact Ht|lia]]; try apply incl_refl. auto.
  - (* Bracket *) cbn [w_layer]. apply lin_map. eapply lin_weaken; [| | | | |eapply (lin_group AA bb); [|apply le_n]]; try apply incl_refl; [lia|lia|auto|].
    eapply lin_weaken; [apply le_n|exact HA1| | | |apply claim_any; [exact Ht|lia]]; try apply incl_refl. auto.
  - (* Brace *) cbn [w_layer]. apply lin_map. eapply lin_weaken; [| | | | |eapply (lin_group AA bb); [|apply le_n]]; try apply incl_refl; [lia|lia|auto|].
    eapply lin_weaken; [apply le_n|exact HA1| | | |apply claim_any; [exact Ht|lia]]; try apply incl_refl. auto.
  - (* Punctuated *) destruct Ht as ((((La & Lb) & Na) & D1) & D2). cbn [w_layer]. apply lin_map.
    eapply lin_weaken; [| | | | |eapply (lin_terminated AA bb gg HAA (wty E n a) (wty E n b0) (nullb b0) (begins_with a) (gives_up a) (begins_with b0) (gives_up b0)); try exact D1; try exact D2; try exact Hbb]; try exact (fun X => X).
    + lia.
    + apply Nat.add_le_mono_l. lia.
    + cbn [LinearCheck.begins_with]. rewrite Na. inc.
    + cbn [LinearCheck.gives_up]. inc.
    + rewrite <- Na. apply claim_any; [assumption|lia].
    + apply claim_any; [assumption|lia].
    + rewrite <- Na. apply claim_left; [assumption|lia|apply rung_left; cbn [height left_refs]; [lia|apply incl_appl, incl_refl]].
  - (* Separated *) destruct Ht as ((((La & Lb) & Nb) & D1) & D2). cbn [w_layer]. apply lin_map. exact (sep_lin (TySeparated a b0) a b0 La Lb Nb D1 D2 ltac:(cbn [height]; lia) ltac:(cbn [height]; lia) ltac:(cbn [height]; lia) eq_refl).
  - (* Any *) destruct Ht as ((La & Na) & D). cbn [w_layer]. apply lin_map.
    eapply lin_weaken; [| | | | |eapply (lin_any AA bb gg HAA (wty E n a) (begins_with a) (gives_up a)); try exact D; try exact Hbb]; try apply incl_refl; try exact (fun X => X).
    + lia.
    + apply Nat.add_le_mono_l. lia.
    + rewrite <- Na. apply claim_any; [assumption|lia].
    + rewrite <- Na. apply claim_left; [assumption|lia|apply rung_left; cbn [height left_refs]; [lia|apply incl_refl]].
  - (* LeftAssoc *) destruct Ht as ((((La & Lb) & Nb) & D1) & D2). cbn [w_layer]. apply lin_map. unfold w_left_assoc. apply lin_then_pure.
    + exact (sep_lin (TyLeftAssoc b0 a) a b0 La Lb Nb D1 D2 ltac:(cbn [height]; lia) ltac:(cbn [height]; lia) ltac:(cbn [height]; lia) eq_refl).
    + intros v s. destruct (into_first_rest v) as [(x, y)|]; eexists; (split; [reflexivity|exact I]).
  - (* RightAssoc *) destruct Ht as ((((La & Lb) & Nb) & D1) & D2). cbn [w_layer]. apply lin_map. unfold w_right_assoc. apply lin_then_pure.
    + exact (sep_lin (TyRightAssoc b0 a) a b0 La Lb Nb D1 D2 ltac:(cbn [height]; lia) ltac:(cbn [height]; lia) ltac:(cbn [height]; lia) eq_refl).
    + intros v s. destruct (into_last_rest v) as [(x, y)|]; eexists; (split; [reflexivity|exact I]).
  - (* Either *) destruct Ht as ((La & Lb) & D). cbn [w_layer]. apply lin_map. unfold w_either.
    assert (Pa : paid (bf (rung (TyEither a b0))) (gf (rung (TyEither a b0))) a) by (apply claim_left; [assumption|lia|apply rung_left; cbn [height left_refs]; [lia|apply incl_appl, incl_refl]]).
    assert (Pb : paid (bf (rung (TyEither a b0))) (gf (rung (TyEither a b0))) b0) by (apply claim_left; [assumption|lia|apply rung_left; cbn [height left_refs]; [lia|apply incl_appr, incl_refl]]).
    set (b1 := bf (rung (TyEither a b0))) in *. set (g1 := gf (rung (TyEither a b0))) in *. clearbody b1 g1.
    eapply lin_weaken; [apply le_n|apply le_n| | | |eapply (lin_speculate AA b1 g1 (nullb a) (begins_with a) (gives_up a) 0 0 0 true [] [] b1 (g1 + b1) (nullb b0) (begins_with b0) (gives_up b0))]; try exact Pa.
    + cbn [TermCheck.nullb]. rewrite andb_true_r. auto.
    + cbn [LinearCheck.begins_with]. inc.
    + cbn [LinearCheck.gives_up]. inc.
    + intro. apply lin_ret.
    + intros _ v. apply lin_ret.
    + intro e1. eapply lin_weaken; [apply le_n|apply le_n| | | |eapply (lin_speculate AA b1 g1 (nullb b0) (begins_with b0) (gives_up b0) 0 0 0 true [] [] 0 0 false [] [])]; try exact Pb.
      * rewrite andb_true_r, orb_false_r. auto.
      * inc.
      * inc.
      * intro. apply lin_ret.
      * intros _ v. apply lin_ret.
      * intro e2. apply lin_fail. intro s. eexists. split; [reflexivity|exact I].
      * apply disjoint_nil.
      * apply disjoint_nil.
      * lia.
      * intros _. lia.
      * lia.
      * lia.
      * lia.
    + apply disjoint_nil.
    + exact D.
    + lia.
    + intros _. lia.
    + lia.
    + lia.
    + lia.
  - (* Box *) cbn [w_layer]. eapply lin_weaken; [| | | | |eapply (claim_left a (rung (TyBox a))); [exact Ht|lia|apply rung_left; cbn [height left_refs]; [lia|apply incl_refl]]]; try apply incl_refl; try exact (fun X => X); lia.
  - (* a derived type *) cbn [w_layer]. pose proof (Hnu i) as Hn. pose proof (Hrk i) as Hr. pose proof (Hh i) as Hhi. pose proof (HW i) as Hw. pose proof (Hfi i) as Hf. pose proof (Hpo i) as Hp. pose proof (Hla i) as Hl.
    destruct (E i) as [c|en cs]; cbn [w_def nullb_def left_refs_def def_height width begins_def gives_def lookahead_def] in *.
    + apply lin_map. pose proof (look_fields _ Hl) as Hlf.
      assert (Hhf : forall l t, In (l, t) (c_fields c) -> height t <= H).
      { intros l t Hin. etransitivity; [|exact Hhi]. apply list_max_In. apply in_map_iff. exists (l, t). auto. }
      assert (Hlen : List.length (c_fields c) <= W) by (unfold total in Hw; cbn in Hw; lia).
      assert (M1 : List.length (c_fields c) * bb <= K * bb) by (apply Nat.mul_le_mono_r; unfold K; lia).
      assert (M2 : List.length (c_fields c) * bf (rung (TyRef i)) <= K * bf (rung (TyRef i))) by (apply Nat.mul_le_mono_r; unfold K; lia).
      eapply lin_weaken; [exact M2|apply Nat.add_le_mono_l; exact M1|exact Hn|exact Hf|exact Hp|].
      apply (lin_fields_left AA bb gg HAA); [exact Hbb| | |exact Hl|unfold AA; lia].
      * intros l t Hin. apply claim_any; eauto.
      * apply left_fields; [|exact Hr]. apply Forall_forall. intros (l, t) Hin. cbn [snd]. eauto.
    + apply lin_map.
      assert (Hcs : forall c, In c cs -> lookahead_fields nu fi po (c_fields c) = true).
      { clear -Hl. induction cs as [|c cs IHc]; [contradiction|]. cbn [lookahead_variants] in Hl. rewrite !andb_true_iff in Hl. destruct Hl as ((? & ?) & ?). intros c0 [<-|Hin]; auto. }
      assert (Hhf : forall c l t, In c cs -> In (l, t) (c_fields c) -> height t <= H).
      { intros c l t Hc Hin. etransitivity; [|exact Hhi]. etransitivity; [|apply list_max_In; apply in_map_iff; exists c; split; [reflexivity|exact Hc]]. apply list_max_In. apply in_map_iff. exists (l, t). auto. }
      assert (M1 : 2 * total cs * bb <= K * bb) by (apply Nat.mul_le_mono_r; unfold K; lia).
      assert (M2 : total cs * bf (rung (TyRef i)) <= K * bf (rung (TyRef i))) by (apply Nat.mul_le_mono_r; unfold K; lia).
      assert (M3 : total cs * bb <= K * bb) by (apply Nat.mul_le_mono_r; unfold K; lia).
      eapply lin_weaken; [exact M2|apply Nat.add_le_mono_l; exact M1|exact Hn|exact Hf|exact Hp|].
      apply (lin_variants AA bb gg HAA); [exact Hbb| |exact Hl|unfold AA; lia].
      intros c Hc. pose proof (look_fields _ (Hcs c Hc)) as Hlf. split.
      * intros l t Hin. apply claim_any; eauto.
      * apply left_fields.
        -- apply Forall_forall. intros (l, t) Hin. cbn [snd]. eauto.
        -- intros j Hj. apply Hr. apply in_concat. exists (left_refs_fields nu (c_fields c)). split; [apply in_map_iff; eauto|exact Hj].
Unshelve. all: exact 0.
Qed.
End Step.
Theorem all_paid n : claim n.
Proof.
  induction n as [|n IH]; intros t Ht Hz.
  - apply lin_div. reflexivity.
  - unfold paid. cbn [bf gf]. apply lin_inside. apply layer; assumption.
Qed.
Theorem linear_work n t s o s' c : lookahead t = true -> height t <= H -> wty E n t s = (o, s', c) -> o <> ODiverge -> calls c <= AA * (sz s + 1).
Proof.
  intros Ht Hz Hw Ho. pose proof (all_paid n t Ht Hz s o s' c Hw) as Hp. unfold idle, ahead, dead in Hp.
  assert (HB : bf (S (rung t)) <= AA). { etransitivity; [apply bf_mono, le_n_S, rung_top, Hz|]. pose proof HAA. unfold bb in *. lia. }
  assert (HG : gf (S (rung t)) <= AA). { etransitivity; [apply gf_mono, le_n_S, rung_top, Hz|]. pose proof HAA. unfold gg in *. lia. }
  assert (AA * (sz s + 1) = AA * sz s + AA) by lia.
  destruct o as [v|e| |]; [|destruct Hp as [Hp|(_ & Hp)]; lia|destruct Hp as [Hp|(_ & Hp)]; lia|congruence].
  destruct Hp as [(_ & _ & Hp)|[(_ & _ & Hp)|(_ & _ & _ & Hp)]]; lia.
Qed.
End Main.

(** ** Grammars that pass the check. *)
Section Checked.
Variable g : list tdef.
Lemma width_le i : width (env_of g i) <= list_max (map width g).
Proof.
  unfold env_of. destruct (Nat.lt_ge_cases i (List.length g)) as [Hlt|Hge].
  - apply list_max_In. apply in_map. apply nth_In. exact Hlt.
  - rewrite nth_overflow by exact Hge. apply Nat.le_0_l.
Qed.
Lemma predictive_facts t : predictive g t = true ->
  terminating g t = true /\ (forall i, incl (begins_def (nu_of g) (fi_of g) (env_of g i)) (fi_of g i)) /\ (forall i, incl (gives_def (nu_of g) (fi_of g) (po_of g (fi_of g)) (env_of g i)) (po_of g (fi_of g) i)) /\
  (forall i, lookahead_def (nu_of g) (fi_of g) (po_of g (fi_of g)) (env_of g i) = true) /\ lookahead (nu_of g) (fi_of g) (po_of g (fi_of g)) t = true.
Proof.
  unfold predictive. set (fi := fi_of g). set (po := po_of g fi). clearbody fi po. cbv zeta. rewrite !andb_true_iff, forallb_forall. intros ((Ht & Hall) & Hl).
  assert (Hin : forall i, i < List.length g -> inclb (begins_def (nu_of g) fi (env_of g i)) (fi i) = true /\ inclb (gives_def (nu_of g) fi po (env_of g i)) (po i) = true /\ lookahead_def (nu_of g) fi po (env_of g i) = true).
  { intros i Hi. specialize (Hall i). rewrite !andb_true_iff in Hall. destruct Hall as ((? & ?) & ?); [apply in_seq; lia|auto]. }
  assert (Hout : forall i, List.length g <= i -> env_of g i = unit_def) by (intros i Hi; apply nth_overflow; exact Hi).
  split; [exact Ht|]. split; [|split; [|split; [|exact Hl]]]; intro i; (destruct (Nat.lt_ge_cases i (List.length g)) as [Hlt|Hge]; [destruct (Hin i Hlt) as (H1 & H2 & H3)|rewrite (Hout i Hge)]).
  - apply inclb_incl. exact H1.
  - intros x [].
  - apply inclb_incl. exact H2.
  - intros x [].
  - exact H3.
  - reflexivity.
Qed.
(** the constant of the grammar *)
Definition per_token (t : ty) : nat := AA (max_height g t) (max_rank g) (list_max (map width g)).
Theorem predictive_linear {U : unicode} t n s o s' c : predictive g t = true -> wty (env_of g) n t s = (o, s', c) -> o <> ODiverge -> calls c <= per_token t * (sz s + 1).
Proof.
  intros Hp Hw Ho. destruct (predictive_facts t Hp) as (Ht & Hf & Hg & Hl & Hlt). destruct (terminating_facts g t Ht) as (Hn & Hr & _ & _).
  eapply (linear_work (env_of g) (nu_of g) (fi_of g) (po_of g (fi_of g)) (rank_of g) (max_height g t) (max_rank g) (list_max (map width g)) Hn Hr (height_le g t) (rank_lt g) width_le Hf Hg Hl); [exact Hlt| |exact Hw|exact Ho].
  unfold max_height. lia.
Qed.
End Checked.
