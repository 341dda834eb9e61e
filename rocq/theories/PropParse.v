(** * PropParse: properties of parsing (C01-C06, C11-C16, C19-C21, C23, C24, C36, C39, C41, C43).

    Vocabulary: [Spec.v].  [yes (tbeh E t) s v s'] / [no (tbeh E t) s e] say that parsing a [t]
    from the stream [s] returns [v] leaving [s'], resp. returns the error [e]. *)
From Verif Require Import Base Float Literal Syn Ast Derive Grammar Spec SynFacts Lawful Mono
  Combinators GrammarBeh Assoc Origin Furthest ManyFacts Examples.

Notation fields_of E c := (map (tbeh E) (map snd (c_fields c))).

(** ** C01 *)
Theorem C01_struct_is_sequence : forall (U : unicode) E i c, E i = DStruct c -> forall s v s',
  yes (tbeh E (TyRef i)) s v s' <->
  exists vs, v = VStruct vs /\ seq_yes (fields_of E c) s vs s'.
Proof. exact @struct_yes. Qed.
Print Assumptions C01_struct_is_sequence.

Theorem C01_struct_first_failure : forall (U : unicode) E i c, E i = DStruct c -> forall s e,
  no (tbeh E (TyRef i)) s e <->
  exists k l t e0, nth_error (c_fields c) k = Some (l, t) /\ seq_no (fields_of E c) s k e0 /\
    e = chained [Hop None (c_name c) l] e0.
Proof. exact @struct_no. Qed.
Print Assumptions C01_struct_first_failure.

(** The same for fields whose [Parse] impl is arbitrary Rust code. *)
Theorem C01_any_field_parsers : forall V name (fs : list (label * parser V)) s vs s',
  p_struct name fs s = (OOk vs, s') <->
  seq_yes (map (fun f => of_parser (snd f)) fs) s vs s'.
Proof. intros V name fs s vs s'. exact (fields_ok [] name fs s vs s'). Qed.
Print Assumptions C01_any_field_parsers.

Section WithTables.
Local Existing Instance ascii_only.
Example C01_ex : exists vs s', seq_yes (fields_of GE (Ctor (T "Assign")
    [(LName (T "lhs"), TyIdent); (LName (T "eq"), TyToken [61%N]); (LName (T "rhs"), TyRef expr)]))
    (start src1) vs s' /\ List.length vs = 3 /\ ps_rest s' = [].
Proof.
  assert (H : yes (tbeh GE (TyRef assign)) (start src1) val1 (PS [] call_site None)) by (exists 20; vm_compute; reflexivity).
  apply (C01_struct_is_sequence _ GE assign _ eq_refl) in H as (vs & Hv & H).
  exists vs, (PS [] call_site None). split; [exact H|]. injection Hv as <-. split; reflexivity.
Qed.
Example C01_ex_fail : exists e, no (tbeh GE (TyRef assign)) (start [word "x" 0; word "y" 2]) e.
Proof. eexists. exists 5. eexists. vm_compute. reflexivity. Qed.
End WithTables.

(** ** C02 *)
Theorem C02_enum_is_ordered_choice : forall (U : unicode) E i en cs, E i = DEnum en cs ->
  forall s v s',
  yes (tbeh E (TyRef i)) s v s' <->
  exists k vs c, v = VVariant k vs /\ nth_error cs k = Some c /\
    seq_yes (fields_of E c) s vs s' /\
    forall j d, j < k -> nth_error cs j = Some d -> exists e, ctor_no E en d s e.
Proof. exact @enum_yes. Qed.
Print Assumptions C02_enum_is_ordered_choice.

(** [ctor_no]: some field of the constructor is the first to fail. *)
Theorem C02_variant_failure : forall (U : unicode) E en c s e, ctor_no E en c s e ->
  exists k e0, seq_no (fields_of E c) s k e0 /\ e_span e = e_span e0.
Proof. intros U E en c s e (k & l & t & e0 & _ & H & ->). exists k, e0. split; [exact H|reflexivity]. Qed.
Print Assumptions C02_variant_failure.

(** later variants are not consulted: changing them does not change the result *)
Theorem C02_later_variants_irrelevant : forall V en (vs ws ws' : list (text * list (label * parser V))) s k xs s',
  p_enum en (vs ++ ws) s = (OOk (k, xs), s') -> k < List.length vs ->
  p_enum en (vs ++ ws') s = (OOk (k, xs), s').
Proof.
  intros V en vs ws ws' s k xs s'. unfold p_enum. revert k.
  assert (H : forall vs k0 acc k, p_variants en k0 acc (vs ++ ws) s = (OOk (k, xs), s') ->
      k < k0 + List.length vs -> p_variants en k0 acc (vs ++ ws') s = (OOk (k, xs), s')).
  { clear vs. induction vs as [|[ct fs] vs IH]; intros k0 acc k H Hk.
    - exfalso. cbn in Hk. clear -H Hk. revert k0 acc Hk H. induction ws as [|[ct fs] ws IH]; intros k0 acc Hk H; cbn in H; [discriminate|].
      unfold try_parse_variant in H. destruct (p_fields en ct fs (fork s)) as [[x|e| |] fk]; try discriminate.
      + injection H as <- _ _. lia.
      + apply IH in H; lia.
    - cbn in *. unfold try_parse_variant in *. destruct (p_fields en ct fs (fork s)) as [[x|e| |] fk]; try discriminate; [exact H|].
      apply (IH (S k0) _ k); [exact H|lia]. }
  intros k H1 H2. apply (H vs 0 None k H1). lia.
Qed.
Print Assumptions C02_later_variants_irrelevant.

Section WithTables.
Local Existing Instance ascii_only.
Example C02_ex : yes (tbeh GE (TyRef expr)) (start [word "y" 0]) (VVariant 2 [VIdent (T "y") (sp 0 1)]) (PS [] call_site None).
Proof. exists 5. vm_compute. reflexivity. Qed.
End WithTables.

(** ** C03 *)
(** for arbitrary parsers of the alternatives, lawful or not *)
Theorem C03_enum_failure_restores_stream : forall V en (vs : list (text * list (label * parser V))) s e s',
  p_enum en vs s = (OErr e, s') -> s' = s.
Proof.
  intros V en vs s e s'. unfold p_enum. generalize 0 (@None error). induction vs as [|[ct fs] vs IH]; intros k acc H; cbn in H.
  - injection H as _ <-. reflexivity.
  - unfold try_parse_variant in H. destruct (p_fields en ct fs (fork s)) as [[x|e1| |] fk]; try discriminate.
    eapply IH. exact H.
Qed.
Print Assumptions C03_enum_failure_restores_stream.
Theorem C03_either_failure_restores_stream : forall L R (pl : parser L) (pr : parser R) s e s',
  p_either pl pr s = (OErr e, s') -> s' = s.
Proof.
  intros L R pl pr s e s' H. unfold p_either in H. destruct (pl (fork s)) as [[x|e1| |] fk]; try discriminate.
  destruct (pr (fork s)) as [[y|e2| |] fk2]; try discriminate. injection H as _ <-. reflexivity.
Qed.
Print Assumptions C03_either_failure_restores_stream.
Theorem C03_absent_maybe_restores_stream : forall P A (pp : parser P) (pa : parser A) s s',
  p_maybe pp pa s = (OOk None, s') -> s' = s.
Proof.
  intros P A pp pa s s' H. unfold p_maybe in H. destruct (pp (fork s)) as [[x|e1| |] fk]; try discriminate.
  - unfold bind, ret in H. destruct (pa (advance_to s fk)) as [[y|e2| |] s2]; discriminate.
  - injection H as <-. reflexivity.
Qed.
Print Assumptions C03_absent_maybe_restores_stream.
(** [Any] and [Separated] end exactly where the last good item ended; the failing attempt
    after it leaves no trace (tokens, scope and recorded leftovers are all in [pstate]). *)
Theorem C03_any_stops_after_last_item : forall A (pa : parser A) n s l s', lawful pa ->
  p_any n pa s = (OOk l, s') -> run_yes (of_parser pa) s l s'.
Proof.
  intros A pa n s l s' Hl H. apply any_loop_ok in H as (r & -> & H); [|exact Hl]. exact H.
Qed.
Print Assumptions C03_any_stops_after_last_item.
Theorem C03_separated_stops_after_last_item : forall A P (pa : parser A) (pp : parser P) n s x s', lawful pp ->
  p_separated n pa pp s = (OOk x, s') ->
  exists v s1 l, pa s = (OOk v, s1) /\ tail_yes (of_parser pa) (of_parser pp) s1 l s'.
Proof.
  intros A P pa pp n s x s' Hl H. apply bind_ok in H as (v & s1 & H1 & H2).
  apply separated_loop_ok in H2 as (l & H2 & _); [|exact Hl]. eauto.
Qed.
Print Assumptions C03_separated_stops_after_last_item.
(** every grammar is lawful *)
Theorem C03_grammars_are_lawful : forall (U : unicode) E n t, lawful (pty E n t).
Proof. exact @lawful_pty. Qed.
Print Assumptions C03_grammars_are_lawful.
Section WithTables.
Local Existing Instance ascii_only.
Example C03_ex : exists e s', pty GE 9 (TyRef expr) (start [parens 0 3 [word "a" 1]; word "b" 4]) = (OErr e, s').
Proof. eexists _, _. vm_compute. reflexivity. Qed.
End WithTables.

(** ** C04 *)
Theorem C04_enum_reports_last_ending_error : forall (U : unicode) E i en cs, E i = DEnum en cs ->
  forall s e,
  no (tbeh E (TyRef i)) s e <->
  exists errs, Forall2 (fun c x => ctor_no E en c s x) cs errs /\
    (reported errs e \/
     cs = [] /\ e = error_at s (T "parsing an empty choice (enum) always fails")).
Proof. exact @enum_no. Qed.
Print Assumptions C04_enum_reports_last_ending_error.
Theorem C04_either_reports_last_ending_error : forall (U : unicode) E a b s e,
  no (tbeh E (TyEither a b)) s e <->
  exists e1 e2, no (tbeh E a) s e1 /\ no (tbeh E b) s e2 /\ reported [e1; e2] e.
Proof. exact @either_no. Qed.
Print Assumptions C04_either_reports_last_ending_error.
(** [reported] determines the error *)
Theorem C04_reported_unique : forall errs a b, reported errs a -> reported errs b -> a = b.
Proof. exact reported_unique. Qed.
Print Assumptions C04_reported_unique.
Section WithTables.
Local Existing Instance ascii_only.
Example C04_ex : exists e, no (tbeh GE (TyRef expr)) (start [parens 0 2 []]) e.
Proof. eexists. exists 5. eexists. vm_compute. reflexivity. Qed.
End WithTables.

(** ** C05 *)
(** Positive: if every alternative gets stuck at a place of the source, the reported
    error is at the furthest of these places. *)
Theorem C05_furthest_place : forall (U : unicode) E i en cs ts e errs, E i = DEnum en cs ->
  in_source_order (spots ts) ->
  no (tbeh E (TyRef i)) (start ts) e -> cs <> [] ->
  Forall2 (fun c x => ctor_no E en c (start ts) x) cs errs ->
  (forall x, In x errs -> In (e_span x) (spots ts)) ->
  exists k, nth_error (spots ts) k = Some (e_span e) /\
    forall x j, In x errs -> nth_error (spots ts) j = Some (e_span x) -> j <= k.
Proof.
  intros U E i en cs ts e errs Hi Ho Hn Hne Hf Hin.
  apply (enum_no E i en cs Hi) in Hn as (errs' & Hf' & [Hr|(-> & _)]); [|contradiction].
  assert (errs' = errs).
  { clear -Hf Hf'. revert errs Hf. induction Hf' as [|c x cs xs Hc Hcs IH]; intros errs Hf; inversion Hf; subst; [reflexivity|].
    f_equal; [|apply IH; assumption].
    destruct (proj2 (fields_no_iff E en (c_name c) (c_fields c) (start ts) x) Hc) as (n & s1 & HA).
    match goal with H : ctor_no E en c _ ?y |- _ => destruct (proj2 (fields_no_iff E en (c_name c) (c_fields c) (start ts) y) H) as (m & s2 & HB) end.
    apply (fields_mono_ok E en (c_name c) (c_fields c) n (n + m)) in HA; [|lia|discriminate].
    apply (fields_mono_ok E en (c_name c) (c_fields c) m (n + m)) in HB; [|lia|discriminate]. congruence. }
  subst. eapply reported_furthest; eassumption.
Qed.
Print Assumptions C05_furthest_place.
(** ... and that is where nodes get stuck: an error raised anywhere in the parse of a source
    without invisible groups points at the token (or closing delimiter) where its node got
    stuck, except for a negative number out of range, and except at the end of the
    whole input. *)
Theorem C05_errors_point_at_places : forall (U : unicode) E t ts e, named E -> visible ts = true ->
  no (tbeh E t) (start ts) e ->
  exists path s0 e0, origin E t (start ts) path s0 e0 /\ e = chained path e0 /\
    (In (e_span e) (spots ts) \/ negative_literal s0 (e_span e) \/
     ps_rest s0 = [] /\ e_span e = call_site).
Proof.
  intros U E t ts e HE Hv (n & s' & H). apply (traced_pty E HE) in H as (path & s0 & e0 & H & ->).
  exists path, s0, e0. split; [exact H|]. split; [reflexivity|].
  pose proof (within_start ts Hv) as Hw. pose proof (origin_within E ts _ _ _ _ _ H Hw) as Hw0.
  change (e_span (chained path e0)) with (e_span e0).
  destruct (origin_span E ts _ _ _ _ _ H Hw) as [Hs|Hs]; [|auto]. rewrite Hs.
  destruct (ps_rest s0) as [|t0 r0] eqn:Er.
  - destruct Hw0 as (Hv0 & [(Hc & a & Hsp)|(a & b & Hsp)]).
    + right. right. split; [reflexivity|]. unfold stream_span. rewrite Er. exact Hc.
    + left. unfold stream_span. rewrite Er. rewrite Hsp. apply in_or_app. right. rewrite Er. left. reflexivity.
  - left. apply within_spot; [exact Hw0|]. left. congruence.
Qed.
Print Assumptions C05_errors_point_at_places.
(** Negative: an alternative that runs out of input at top level has an error at 1:0, so it
    loses to one that failed on the first token.  [Two { A(Ident, Ident), B(LitInt) }] on [foo]:
    variant A consumed [foo]; B consumed nothing; B's error is reported. *)
Section WithTables.
Local Existing Instance ascii_only.
Theorem C05_furthest_refuted :
  exists s1 e eA eB,
    no (tbeh GE (TyRef two)) (start [word "foo" 0]) e /\
    (* A got past the only token *)
    yes (tbeh GE TyIdent) (start [word "foo" 0]) (VIdent (T "foo") (sp 0 3)) s1 /\
    ps_rest s1 = [] /\ no (tbeh GE TyIdent) s1 eA /\
    (* B failed on it *)
    no (tbeh GE (TyLit LtInt)) (start [word "foo" 0]) eB /\
    e = chained [Hop (Some (T "Two")) (T "B") (LIndex 0)] eB /\
    e <> chained [Hop (Some (T "Two")) (T "A") (LIndex 1)] eA.
Proof.
  eexists _, _, _, _. split; [exists 5; eexists; vm_compute; reflexivity|].
  split; [exists 5; vm_compute; reflexivity|]. split; [reflexivity|].
  split; [exists 5; eexists; vm_compute; reflexivity|].
  split; [exists 5; eexists; vm_compute; reflexivity|].
  split; [vm_compute; reflexivity|]. vm_compute. discriminate.
Qed.
End WithTables.
Print Assumptions C05_furthest_refuted.
Example C05_ex : in_source_order (spots src1) /\ visible src1 = true.
Proof.
  split; [|reflexivity].
  assert (HH : forall i j, i < j -> j < List.length (spots src1) ->
     match nth_error (spots src1) i, nth_error (spots src1) j with Some a, Some b => lc_ltb (sp_end a) (sp_end b) = true | _, _ => True end).
  { assert (HB : forallb (fun i => forallb (fun j => negb (i <? j)%nat ||
        match nth_error (spots src1) i, nth_error (spots src1) j with Some a, Some b => lc_ltb (sp_end a) (sp_end b) | _, _ => true end)
        (seq 0 (List.length (spots src1)))) (seq 0 (List.length (spots src1))) = true) by (vm_compute; reflexivity).
    intros i j Hij Hj. rewrite forallb_forall in HB. specialize (HB i ltac:(apply in_seq; lia)).
    rewrite forallb_forall in HB. specialize (HB j ltac:(apply in_seq; lia)).
    apply Nat.ltb_lt in Hij. rewrite Hij in HB. cbn [negb orb] in HB.
    destruct (nth_error (spots src1) i); [|exact I]. destruct (nth_error (spots src1) j); [exact HB|exact I]. }
  intros i j a b Hij Ha Hb. assert (Hj : j < List.length (spots src1)) by (apply nth_error_Some; congruence).
  specialize (HH i j Hij Hj). rewrite Ha, Hb in HH. apply lc_ltb_spec. exact HH.
Qed.

(** ** C06 *)
Theorem C06_error_chain : forall (U : unicode) E t s e, named E ->
  no (tbeh E t) s e ->
  exists path s0 e0, origin E t s path s0 e0 /\
    e_span e = e_span e0 /\
    e_msg e = List.concat (map hop_line path) ++ e_msg e0.
Proof.
  intros U E t s e HE (n & s' & H). apply (traced_pty E HE) in H as (path & s0 & e0 & H & ->).
  exists path, s0, e0. auto.
Qed.
Print Assumptions C06_error_chain.
Section WithTables.
Local Existing Instance ascii_only.
Example C06_ex : exists e, no (tbeh GE (TyRef assign)) (start [word "x" 0; punct "=" Alone 2; punct "+" Alone 4]) e /\
  e_span e = sp 4 5 /\
  e_msg e = T "error parsing Assign::rhs, caused by:" ++ [10%N] ++ T "error parsing Expr::Var::0, caused by:" ++ [10%N]
            ++ T "expected identifier".
Proof. eexists. split; [exists 6; eexists; vm_compute; reflexivity|]. split; reflexivity. Qed.
End WithTables.

(** ** C11 *)
Theorem C11_group_accepts : forall (U : unicode) E d t s v s', d <> DNone ->
  yes (tbeh E (TyGroup d t)) s v s' <->
  exists sp w inner r si, v = VGroup d sp w /\
    ignore_none (ps_rest s) = TGroup d sp inner :: r /\
    yes (tbeh E t) (PS inner (close_span sp) (ps_unexp s)) w si /\
    s' = PS r (ps_scope s) (drop_unexp (ps_unexp si) (ps_rest si)).
Proof. exact @group_yes. Qed.
Print Assumptions C11_group_accepts.
Theorem C11_group_rejects : forall (U : unicode) E d t s e, d <> DNone ->
  no (tbeh E (TyGroup d t)) s e <->
  (exists sp inner r, ignore_none (ps_rest s) = TGroup d sp inner :: r /\
     no (tbeh E t) (PS inner (close_span sp) (ps_unexp s)) e) \/
  ((forall sp inner r, ignore_none (ps_rest s) <> TGroup d sp inner :: r) /\
   e = error_at s (delim_msg d)).
Proof. exact @group_no. Qed.
Print Assumptions C11_group_rejects.
(** unread contents are remembered for good and make the whole parse fail *)
Theorem C11_leftovers_are_fatal : forall (U : unicode) E t ts n v s',
  pty E n t (start ts) = (OOk v, s') ->
  (exists e, parse2 (pty E n t) ts = RErr e) <-> (ps_unexp s' <> None \/ flat (ps_rest s') <> []).
Proof.
  intros U E t ts n v s' H. unfold parse2. rewrite H. destruct (ps_unexp s') as [sp0|] eqn:Eu.
  - split; [intros _; left; discriminate|]. eauto.
  - destruct (leftover (ps_rest s')) as [sp0|] eqn:El.
    + split; [|eauto]. intros _. right. intro Hc. apply leftover_none_flat in Hc. congruence.
    + apply leftover_none_flat in El. split; [intros (e & He); discriminate|]. intros [Hc|Hc]; congruence.
Qed.
Print Assumptions C11_leftovers_are_fatal.
Theorem C11_leftovers_are_recorded : forall (U : unicode) E d t s v s', d <> DNone ->
  yes (tbeh E (TyGroup d t)) s v s' ->
  (forall sp inner r w si, ignore_none (ps_rest s) = TGroup d sp inner :: r ->
     yes (tbeh E t) (PS inner (close_span sp) (ps_unexp s)) w si -> flat (ps_rest si) <> [] ->
     ps_unexp s' <> None) /\
  (forall u s'' w, ps_unexp s' <> None -> yes (tbeh E u) s' w s'' -> ps_unexp s'' = ps_unexp s').
Proof.
  intros U E d t s v s' Hd H. split.
  - intros sp0 inner r w si Hi Hy Hfl. apply group_yes in H as (sp1 & w1 & inner1 & r1 & si1 & -> & Hi1 & Hy1 & ->); [|exact Hd].
    rewrite Hi in Hi1. injection Hi1 as <- <- <-. destruct (tbeh_det_yes E _ _ _ _ _ _ Hy Hy1) as [<- <-].
    cbn. unfold drop_unexp. destruct (ps_unexp si); [discriminate|]. intro Hc. apply Hfl, leftover_none_flat, Hc.
  - intros u s'' w Hu Hy. destruct (yes_frame E _ _ _ _ Hy) as (_ & _ & F & _). destruct (ps_unexp s') as [x|]; [|contradiction].
    apply F. reflexivity.
Qed.
Print Assumptions C11_leftovers_are_recorded.
(** no backtracking over leftovers: [Groups { One(Paren<Ident>), Pair(Paren<P>) }] on [(a b)]
    commits to the first variant and the whole parse fails, though the second would fit *)
Section WithTables.
Local Existing Instance ascii_only.
Theorem C11_leftovers_not_backtracked :
  (exists e, forall n, 5 <= n -> parse2 (pty GE n (TyRef 5)) [parens 0 5 [word "a" 1; word "b" 3]] = RErr e) /\
  exists v, parse2 (pty GE 5 (TyParen (TyRef 6))) [parens 0 5 [word "a" 1; word "b" 3]] = ROk v.
Proof.
  split; [|eexists; vm_compute; reflexivity].
  eexists. intros n Hn.
  assert (H5 : pty GE 5 (TyRef 5) (start [parens 0 5 [word "a" 1; word "b" 3]]) =
     (OOk (VVariant 0 [VGroup DParen (sp 0 5) (VIdent (T "a") (sp 1 2))]), PS [] call_site (Some (sp 3 4)))) by (vm_compute; reflexivity).
  unfold parse2. rewrite (pty_mono GE 5 n _ _ _ _ Hn H5) by discriminate. reflexivity.
Qed.
End WithTables.
Print Assumptions C11_leftovers_not_backtracked.

(** ** C12 *)
Theorem C12_maybe : forall (U : unicode) E a b s v s',
  yes (tbeh E (TyMaybe a b)) s v s' <->
  (exists e, v = VNothing /\ s' = s /\ no (tbeh E a) s e) \/
  (exists x w s1, v = VJust x w /\ yes (tbeh E a) s x s1 /\ yes (tbeh E b) s1 w s').
Proof. exact @maybe_yes. Qed.
Print Assumptions C12_maybe.
Theorem C12_maybe_committed_failure : forall (U : unicode) E a b s e,
  no (tbeh E (TyMaybe a b)) s e <-> exists x s1, yes (tbeh E a) s x s1 /\ no (tbeh E b) s1 e.
Proof. exact @maybe_no. Qed.
Print Assumptions C12_maybe_committed_failure.
Theorem C12_maybe_print : forall (U : unicode), print VNothing = Some [] /\
  forall x w a b, print x = Some a -> print w = Some b -> print (VJust x w) = Some (a ++ b).
Proof. intro U. split; [reflexivity|]. intros x w a b Ha Hb. cbn. rewrite Ha, Hb. reflexivity. Qed.
Print Assumptions C12_maybe_print.
Section WithTables.
Local Existing Instance ascii_only.
Example C12_ex : exists e, no (tbeh GE (TyMaybe (TyToken [61%N]) TyIdent)) (start [punct "=" Alone 0; num "1" 2]) e.
Proof. eexists. exists 4. eexists. vm_compute. reflexivity. Qed.
End WithTables.

(** ** C13 *)
Theorem C13_punctuated : forall (U : unicode) E a p s v s',
  yes (tbeh E (TyPunctuated a p)) s v s' <->
  exists l o, v = VPunct l o /\ fill_yes (tbeh E a) (tbeh E p) s l o s'.
Proof. exact @punctuated_yes. Qed.
Print Assumptions C13_punctuated.
Theorem C13_punctuated_fails : forall (U : unicode) E a p s e,
  no (tbeh E (TyPunctuated a p)) s e <-> fill_no (tbeh E a) (tbeh E p) s e.
Proof. exact @punctuated_no. Qed.
Print Assumptions C13_punctuated_fails.
Theorem C13_punctuated_consumes_everything : forall (U : unicode) E a p s v s',
  yes (tbeh E (TyPunctuated a p)) s v s' -> ps_rest s' = [].
Proof.
  intros U E a p s v s' H. apply punctuated_yes in H as (l & o & _ & H). induction H; auto.
Qed.
Print Assumptions C13_punctuated_consumes_everything.
Section WithTables.
Local Existing Instance ascii_only.
Example C13_ex : yes (tbeh GE (TyPunctuated TyIdent (TyToken [44%N]))) (start [word "a" 0; punct "," Alone 1])
  (VPunct [(VIdent (T "a") (sp 0 1), VOp [44%N] [sp 1 2])] None) (PS [] call_site None).
Proof. exists 5. vm_compute. reflexivity. Qed.
End WithTables.

(** ** C14 *)
Theorem C14_many : forall (U : unicode) E a s v s',
  yes (tbeh E (TyMany a)) s v s' <->
  exists vs, v = VPunct (fst (many_val vs)) (snd (many_val vs)) /\ many_yes (tbeh E a) s vs s'.
Proof. exact @many_yes_iff. Qed.
Print Assumptions C14_many.
Theorem C14_many_prints_items : forall (U : unicode) vs,
  print (VPunct (fst (many_val vs)) (snd (many_val vs))) = oconcat (map print vs).
Proof. exact @print_many. Qed.
Print Assumptions C14_many_prints_items.
Theorem C14_many_items : forall vs, map fst (fst (many_val vs)) ++ match snd (many_val vs) with Some z => [z] | None => [] end = vs.
Proof.
  induction vs as [|v [|w vs] IH]; [reflexivity..|].
  change (many_val (v :: w :: vs)) with (let '(l, o) := many_val (w :: vs) in ((v, VUnit) :: l, o)).
  destruct (many_val (w :: vs)) as [l o]. cbn in *. f_equal. exact IH.
Qed.
Print Assumptions C14_many_items.
Section WithTables.
Local Existing Instance ascii_only.
Example C14_ex : exists v, yes (tbeh GE (TyMany TyIdent)) (start [word "a" 0; word "b" 2; word "c" 4]) v (PS [] call_site None).
Proof. eexists. exists 9. vm_compute. reflexivity. Qed.
End WithTables.

(** ** C15 *)
Theorem C15_separated : forall (U : unicode) E a p s v s',
  yes (tbeh E (TySeparated a p)) s v s' <->
  exists x s1 l, yes (tbeh E a) s x s1 /\ tail_yes (tbeh E a) (tbeh E p) s1 l s' /\
    v = VPunct (fst (pairs_of x l)) (Some (snd (pairs_of x l))).
Proof. exact @separated_yes. Qed.
Print Assumptions C15_separated.
Theorem C15_separated_fails : forall (U : unicode) E a p s e,
  no (tbeh E (TySeparated a p)) s e <->
  no (tbeh E a) s e \/ exists x s1, yes (tbeh E a) s x s1 /\ tail_no (tbeh E a) (tbeh E p) s1 e.
Proof. exact @separated_no. Qed.
Print Assumptions C15_separated_fails.
Section WithTables.
Local Existing Instance ascii_only.
Example C15_ex : exists e, no (tbeh GE (TySeparated TyIdent (TyToken [44%N]))) (start [word "a" 0; punct "," Alone 1]) e.
Proof. eexists. exists 5. eexists. vm_compute. reflexivity. Qed.
End WithTables.

(** ** C16 *)
Theorem C16_any : forall (U : unicode) E a s v s',
  yes (tbeh E (TyAny a)) s v s' <-> exists l, v = VList l /\ run_yes (tbeh E a) s l s'.
Proof. exact @any_yes. Qed.
Print Assumptions C16_any.
Theorem C16_any_never_fails : forall (U : unicode) E a s e, ~ no (tbeh E (TyAny a)) s e.
Proof. exact @any_no. Qed.
Print Assumptions C16_any_never_fails.
Section WithTables.
Local Existing Instance ascii_only.
Example C16_ex : exists v, yes (tbeh GE (TyAny TyIdent)) (start [word "a" 0; word "b" 2; num "1" 4]) v (PS [num "1" 4] call_site None).
Proof. eexists. exists 9. vm_compute. reflexivity. Qed.
End WithTables.

(** ** C19 *)
Theorem C19_left_assoc : forall (U : unicode) E o r s v s',
  yes (tbeh E (TyLeftAssoc o r)) s v s' <->
  exists x s1 l t, yes (tbeh E r) s x s1 /\ tail_yes (tbeh E r) (tbeh E o) s1 l s' /\
    left_form x l t /\ v = val_of_left t.
Proof. exact @left_yes. Qed.
Print Assumptions C19_left_assoc.
Theorem C19_left_assoc_accepts_separated : forall (U : unicode) E o r s s',
  ((exists v, yes (tbeh E (TyLeftAssoc o r)) s v s') <-> (exists v, yes (tbeh E (TySeparated r o)) s v s')) /\
  (forall e, no (tbeh E (TyLeftAssoc o r)) s e <-> no (tbeh E (TySeparated r o)) s e).
Proof.
  intros U E o r s s'. split; [|intro e; apply left_no]. split; intros (v & H).
  - apply left_yes in H as (x & s1 & l & t & H1 & H2 & _). eexists. apply separated_yes. exists x, s1, l. eauto.
  - apply separated_yes in H as (x & s1 & l & H1 & H2 & _). exists (val_of_left (build_left x l)). apply left_yes.
    exists x, s1, l, (build_left x l). auto using build_left_form.
Qed.
Print Assumptions C19_left_assoc_accepts_separated.
Theorem C19_left_assoc_folds_left : forall O R B (leaf : R -> B) (ap : B -> O -> B -> B) x l t,
  left_form x l t -> eval_left leaf ap t = fold_left_ops leaf ap x l.
Proof. exact @eval_left_form. Qed.
Print Assumptions C19_left_assoc_folds_left.
Section WithTables.
Local Existing Instance ascii_only.
Example C19_ex : yes (tbeh GE (TyLeftAssoc (TyToken [45%N]) TyIdent))
   (start [word "a" 0; punct "-" Alone 2; word "b" 4; punct "-" Alone 6; word "c" 8])
   (VBinL (VBinL (VRhs (VIdent (T "a") (sp 0 1))) (VOp [45%N] [sp 2 3]) (VIdent (T "b") (sp 4 5)))
          (VOp [45%N] [sp 6 7]) (VIdent (T "c") (sp 8 9))) (PS [] call_site None).
Proof. exists 9. vm_compute. reflexivity. Qed.
End WithTables.

(** ** C20 *)
Theorem C20_right_assoc : forall (U : unicode) E o l0 s v s',
  yes (tbeh E (TyRightAssoc o l0)) s v s' <->
  exists x s1 l t, yes (tbeh E l0) s x s1 /\ tail_yes (tbeh E l0) (tbeh E o) s1 l s' /\
    right_form x l t /\ v = val_of_right t.
Proof. exact @right_yes. Qed.
Print Assumptions C20_right_assoc.
Theorem C20_right_assoc_accepts_separated : forall (U : unicode) E o l0 s s',
  ((exists v, yes (tbeh E (TyRightAssoc o l0)) s v s') <-> (exists v, yes (tbeh E (TySeparated l0 o)) s v s')) /\
  (forall e, no (tbeh E (TyRightAssoc o l0)) s e <-> no (tbeh E (TySeparated l0 o)) s e).
Proof.
  intros U E o r s s'. split; [|intro e; apply right_no]. split; intros (v & H).
  - apply right_yes in H as (x & s1 & l & t & H1 & H2 & _). eexists. apply separated_yes. exists x, s1, l. eauto.
  - apply separated_yes in H as (x & s1 & l & H1 & H2 & _). eexists. apply right_yes.
    exists x, s1, l. eexists. split; [exact H1|]. split; [exact H2|]. split; [apply build_right_form|reflexivity].
Qed.
Print Assumptions C20_right_assoc_accepts_separated.
Theorem C20_right_assoc_folds_right : forall O L B (leaf : L -> B) (ap : B -> O -> B -> B) x l t,
  right_form x l t -> eval_right leaf ap t = fold_right_ops leaf ap x l.
Proof. exact @eval_right_form. Qed.
Print Assumptions C20_right_assoc_folds_right.
(** the documented equivalence with [enum { Binary(L, O, Box<Self>), Lhs(L) }] *)
Theorem C20_agrees_with_right_recursion : forall (U : unicode) E i en b a l1 l2 l3 l4 o l,
  E i = DEnum en [Ctor b [(l1, l); (l2, o); (l3, TyBox (TyRef i))]; Ctor a [(l4, l)]] ->
  forall s v s', yes (tbeh E (TyRightAssoc o l)) s v s' ->
  exists t, v = val_of_right t /\ yes (tbeh E (TyRef i)) s (as_variants t) s'.
Proof.
  intros U E i en b a l1 l2 l3 l4 o l Hi s v s' H. apply right_yes in H as (x & s1 & m & t & H1 & H2 & Hf & ->).
  exists t. split; [reflexivity|]. eapply right_recursive; eassumption.
Qed.
Print Assumptions C20_agrees_with_right_recursion.
(** the converse fails: after [a ^] the enum gives up the operator, [RightAssoc] is an error *)
Section WithTables.
Local Existing Instance ascii_only.
Theorem C20_converse_refuted :
  (exists v s', yes (tbeh GE (TyRef rrec)) (start [word "a" 0; punct "^" Alone 2]) v s') /\
  exists e, no (tbeh GE (TyRightAssoc (TyToken [94%N]) TyIdent)) (start [word "a" 0; punct "^" Alone 2]) e.
Proof.
  split; [eexists _, _; exists 9; vm_compute; reflexivity|]. eexists. exists 9. eexists. vm_compute. reflexivity.
Qed.
End WithTables.
Print Assumptions C20_converse_refuted.
Section WithTables.
Local Existing Instance ascii_only.
Example C20_ex : exists v, yes (tbeh GE (TyRightAssoc (TyToken [94%N]) TyIdent))
   (start [word "a" 0; punct "^" Alone 2; word "b" 4; punct "^" Alone 6; word "c" 8]) v (PS [] call_site None).
Proof. eexists. exists 9. vm_compute. reflexivity. Qed.
End WithTables.

(** ** C21 *)
Theorem C21_prints_in_source_order : forall (U : unicode) x l,
  (forall t, left_form x l t ->
     print (val_of_left t) = oapp (print x) (oconcat (map (fun oy => oapp (print (fst oy)) (print (snd oy))) l))) /\
  (forall t, right_form x l t ->
     print (val_of_right t) = oapp (print x) (oconcat (map (fun oy => oapp (print (fst oy)) (print (snd oy))) l))) /\
  print (VPunct (fst (pairs_of x l)) (Some (snd (pairs_of x l)))) =
     oapp (print x) (oconcat (map (fun oy => oapp (print (fst oy)) (print (snd oy))) l)).
Proof.
  intros U x l. split; [|split].
  - intros t H. apply print_left_form. exact H.
  - intros t H. apply print_right_form. exact H.
  - apply print_separated.
Qed.
Print Assumptions C21_prints_in_source_order.
(** every tree is the tree of exactly one sequence, every sequence has exactly one tree *)
Theorem C21_left_bijection : forall O R,
  (forall t : left_assoc O R, exists x l, left_form x l t) /\
  (forall (x : R) (l : list (O * R)), exists t, left_form x l t) /\
  (forall (x y : R) (l m : list (O * R)) t, left_form x l t -> left_form y m t -> x = y /\ l = m) /\
  (forall (x : R) (l : list (O * R)) t u, left_form x l t -> left_form x l u -> t = u).
Proof.
  intros O R. split; [exact left_form_total|]. split; [intros x l; exists (build_left x l); apply build_left_form|].
  split; [exact left_form_inj|]. intros x l t u H1 H2. rewrite (left_form_unique _ _ _ H1), (left_form_unique _ _ _ H2). reflexivity.
Qed.
Print Assumptions C21_left_bijection.
Theorem C21_right_bijection : forall O L,
  (forall t : right_assoc O L, exists x l, right_form x l t) /\
  (forall (x : L) (l : list (O * L)), exists t, right_form x l t) /\
  (forall (x y : L) (l m : list (O * L)) t, right_form x l t -> right_form y m t -> x = y /\ l = m) /\
  (forall (x : L) (l : list (O * L)) t u, right_form x l t -> right_form x l u -> t = u).
Proof.
  intros O L. split; [exact right_form_total|]. split; [intros x l; eexists; apply build_right_form|].
  split; [exact right_form_inj|]. exact right_form_unique.
Qed.
Print Assumptions C21_right_bijection.

(** ** C23 *)
(** [v0 (p1 v1) (p2 v2) ...]: for every non-empty sequence without trailing separator *)
Theorem C23_into_first_rest : forall A P (v : A) (l : list (P * A)),
  into_first_rest (Pn (fst (pairs_of v l)) (Some (snd (pairs_of v l)))) = Some (v, l).
Proof. exact @into_first_rest_spec. Qed.
Print Assumptions C23_into_first_rest.
Theorem C23_into_last_rest : forall A P (inner : list (A * P)) z,
  into_last_rest (Pn inner (Some z)) = Some (z, inner).
Proof. exact @into_last_rest_spec. Qed.
Print Assumptions C23_into_last_rest.
(** ... and these are all of them: any sequence with a last value arises this way, uniquely *)
Theorem C23_every_sequence : forall A P (inner : list (A * P)) z,
  exists! vl : A * list (P * A), pairs_of (fst vl) (snd vl) = (inner, z).
Proof.
  intros A P inner z. exists (unpairs inner z). split; [apply pairs_unpairs|].
  intros [v l] H. cbn in H. pose proof (unpairs_pairs v l) as Hu. rewrite H in Hu. cbn in Hu. exact Hu.
Qed.
Print Assumptions C23_every_sequence.
Example C23_ex : into_first_rest (Pn [(1, true); (2, false)] (Some 3)) = Some (1, [(true, 2); (false, 3)]).
Proof. reflexivity. Qed.

(** ** C24 *)
Theorem C24_keyword_exact : forall (U : unicode) E k s v s',
  yes (tbeh E (TyKeyword k)) s v s' <->
  exists sp r, ignore_none (ps_rest s) = TIdent k sp :: r /\ v = VKw k sp /\ s' = set_rest s r.
Proof. exact @keyword_yes. Qed.
Print Assumptions C24_keyword_exact.
Theorem C24_custom_ident_exact : forall (U : unicode) E kws s v s',
  yes (tbeh E (TyCustomIdent kws)) s v s' <->
  exists w sp r, ignore_none (ps_rest s) = TIdent w sp :: r /\ ~ In w kws /\ v = VIdent w sp /\ s' = set_rest s r.
Proof. exact @custom_yes. Qed.
Print Assumptions C24_custom_ident_exact.
Theorem C24_partition : forall (U : unicode) E kws u s w sp r,
  ignore_none (ps_rest s) = TIdent w sp :: r ->
  let keywords := keyword_list kws u in
  let accepts t := exists v s', yes (tbeh E t) s v s' in
  let rejects t := exists e, no (tbeh E t) s e in
  (In w keywords /\ rejects (TyCustomIdent keywords) /\ accepts (TyKeyword w) /\
     (forall k, k <> w -> rejects (TyKeyword k))) \/
  (~ In w keywords /\ accepts (TyCustomIdent keywords) /\ forall k, In k keywords -> rejects (TyKeyword k)).
Proof.
  intros U E kws u s w sp0 r H keywords accepts rejects.
  assert (HK : forall k, k <> w -> rejects (TyKeyword k)).
  { intros k Hk. destruct (keyword_dec E k s) as [(v & s' & Hy)|Hn]; [|exact Hn].
    apply keyword_yes in Hy as (sp1 & r1 & H1 & _). rewrite H in H1. injection H1 as -> _ _. contradiction. }
  destruct (in_dec text_eq_dec w keywords) as [Hin|Hin].
  - left. split; [exact Hin|]. split; [|split; [|exact HK]].
    + destruct (custom_dec E keywords s) as [(v & s' & Hy)|Hn]; [|exact Hn].
      apply custom_yes in Hy as (w1 & sp1 & r1 & H1 & H2 & _). rewrite H in H1. injection H1 as <- _ _. contradiction.
    + eexists _, _. apply keyword_yes. eauto.
  - right. split; [exact Hin|]. split.
    + eexists _, _. apply custom_yes. exists w, sp0, r. eauto.
    + intros k Hk. apply HK. intros ->. contradiction.
Qed.
Print Assumptions C24_partition.
(** The list is the words given to the macro, and [_] if it was given. *)
Theorem C24_keyword_list_exact : forall kws u w, In w (keyword_list kws u) <-> In w kws \/ (u = true /\ w = T "_").
Proof.
  intros kws u w. unfold keyword_list. rewrite in_app_iff. destruct u; cbn; [|intuition congruence].
  split; [intros [H|[H|[]]]; [auto|right; split; [reflexivity|symmetry; exact H]]|intros [H|(_ & ->)]; [auto|right; left; reflexivity]].
Qed.
Print Assumptions C24_keyword_list_exact.
(** [Word] takes every word; raw identifiers are words of their own *)
Theorem C24_word_accepts_all : forall (U : unicode) E s w sp r,
  ignore_none (ps_rest s) = TIdent w sp :: r ->
  yes (tbeh E (TyCustomIdent [])) s (VIdent w sp) (set_rest s r).
Proof. intros U E s w sp0 r H. apply custom_yes. exists w, sp0, r. auto. Qed.
Print Assumptions C24_word_accepts_all.
Theorem C24_raw_identifiers_distinct : forall (U : unicode) E k s sp r,
  ignore_none (ps_rest s) = TIdent (T "r#" ++ k) sp :: r ->
  exists e, no (tbeh E (TyKeyword k)) s e.
Proof.
  intros U E k s sp0 r H. destruct (keyword_dec E k s) as [(v & s' & Hy)|Hn]; [|exact Hn].
  apply keyword_yes in Hy as (sp1 & r1 & H1 & _). rewrite H in H1. injection H1 as Hk _ _.
  exfalso. assert (List.length k = S (S (List.length k))) by (rewrite <- Hk at 1; reflexivity). lia.
Qed.
Print Assumptions C24_raw_identifiers_distinct.

(** Rust's own keywords, as the Rust Reference lists them *)
Definition strict_keywords : list string :=
  ["as"; "break"; "const"; "continue"; "crate"; "else"; "enum"; "extern"; "false"; "fn"; "for"; "if"; "impl"; "in"; "let"; "loop"; "match"; "mod"; "move";
   "mut"; "pub"; "ref"; "return"; "self"; "Self"; "static"; "struct"; "super"; "trait"; "true"; "type"; "unsafe"; "use"; "where"; "while"; "async"; "await"; "dyn"]%string.
Definition reserved_keywords : list string :=
  ["abstract"; "become"; "box"; "do"; "final"; "macro"; "override"; "priv"; "typeof"; "unsized"; "virtual"; "yield"; "try"]%string.
Definition rust_keyword (w : text) : Prop := w = T "_" \/ exists k, In k (strict_keywords ++ reserved_keywords) /\ w = T k.
Lemma rust_keyword_list w : In w rust_keywords <-> rust_keyword w.
Proof.
  assert (E : forall x, In x rust_keywords <-> In x (map T ("_" :: strict_keywords ++ reserved_keywords)%string)).
  { assert (H1 : incl rust_keywords (map T ("_" :: strict_keywords ++ reserved_keywords)%string)).
    { intros x Hx. apply text_mem_In. revert x Hx. apply Forall_forall. vm_compute. repeat constructor. }
    assert (H2 : incl (map T ("_" :: strict_keywords ++ reserved_keywords)%string) rust_keywords).
    { intros x Hx. apply text_mem_In. revert x Hx. apply Forall_forall. vm_compute. repeat constructor. }
    intro x. split; [apply H1|apply H2]. }
  rewrite E. unfold rust_keyword. cbn [map In]. rewrite in_map_iff. split.
  - intros [<-|(k & <- & H)]; [left; reflexivity|right; exists k; auto].
  - intros [->|(k & H & ->)]; [left; reflexivity|right; exists k; auto].
Qed.
(** [Ident], unlike [CustomIdent], refuses exactly Rust's keywords and [_] *)
Theorem C24_ident_exact : forall (U : unicode) E s v s',
  yes (tbeh E TyIdent) s v s' <->
  exists w sp r, ignore_none (ps_rest s) = TIdent w sp :: r /\ ~ rust_keyword w /\ v = VIdent w sp /\ s' = set_rest s r.
Proof.
  intros U E s v s'. rewrite tbeh_yes_layer. cbn [p_layer]. split.
  - intros (n & H). apply pmap_ok in H as ((w & sp0) & H & ->). unfold p_ident in H.
    destruct (ignore_none (ps_rest s)) as [|[w1 sp1| | |] r]; try discriminate H. destruct (text_mem w1 rust_keywords) eqn:Em; [discriminate H|].
    injection H as <- <- <-. exists w1, sp1, r. split; [reflexivity|]. split; [|split; reflexivity]. rewrite <- rust_keyword_list. intro Hi. apply text_mem_In in Hi. congruence.
  - intros (w & sp0 & r & H1 & H2 & -> & ->). exists 0. apply pmap_ok. exists (w, sp0). split; [|reflexivity]. unfold p_ident. rewrite H1.
    destruct (text_mem w rust_keywords) eqn:Em; [|reflexivity]. apply text_mem_In, rust_keyword_list in Em. contradiction.
Qed.
Print Assumptions C24_ident_exact.
(** The messages of the documentation, at the word that is refused. *)
Theorem C24_messages : forall (U : unicode) E s w sp r, ignore_none (ps_rest s) = TIdent w sp :: r ->
  (forall k, w <> k -> no (tbeh E (TyKeyword k)) s (Err sp (T "expected keyword `" ++ k ++ T "`"))) /\
  (forall kws, In w kws -> no (tbeh E (TyCustomIdent kws)) s (Err sp (T "expected identifier, found keyword"))).
Proof.
  intros U E s w sp0 r H. split.
  - intros k Hk. rewrite tbeh_no_layer. cbn [p_layer of_parser no]. exists 0, (set_rest s r). unfold pmap, bind, p_keyword, bind, p_ident_any. rewrite H. cbn [fst snd].
    destruct (text_eqb w k) eqn:Ek; [apply text_eqb_eq in Ek; contradiction|reflexivity].
  - intros kws Hi. rewrite tbeh_no_layer. cbn [p_layer of_parser no]. exists 0, (set_rest s r). unfold pmap, bind, p_custom_ident, bind, p_ident_any. rewrite H. cbn [fst snd].
    apply text_mem_In in Hi. rewrite Hi. reflexivity.
Qed.
Print Assumptions C24_messages.
Section WithTables.
Local Existing Instance ascii_only.
Example C24_ex : exists v s', yes (tbeh GE (TyCustomIdent (keyword_list [T "let"; T "in"] true))) (start [word "foo" 0]) v s'.
Proof. eexists _, _. exists 3. vm_compute. reflexivity. Qed.
End WithTables.

(** ** C36 *)
Theorem C36_either_is_two_variant_enum : forall (U : unicode) E i en l1 l2 a b,
  E i = DEnum en [Ctor (T "Left") [(l1, a)]; Ctor (T "Right") [(l2, b)]] -> forall s,
  (forall w s', yes (tbeh E (TyEither a b)) s (VLeft w) s' <-> yes (tbeh E (TyRef i)) s (VVariant 0 [w]) s') /\
  (forall w s', yes (tbeh E (TyEither a b)) s (VRight w) s' <-> yes (tbeh E (TyRef i)) s (VVariant 1 [w]) s') /\
  (forall v s', yes (tbeh E (TyEither a b)) s v s' -> exists w, v = VLeft w \/ v = VRight w) /\
  (forall v s', yes (tbeh E (TyRef i)) s v s' -> exists w, v = VVariant 0 [w] \/ v = VVariant 1 [w]) /\
  (forall e, no (tbeh E (TyEither a b)) s e -> exists e', no (tbeh E (TyRef i)) s e' /\ e_span e' = e_span e) /\
  (forall e', no (tbeh E (TyRef i)) s e' -> exists e, no (tbeh E (TyEither a b)) s e /\ e_span e' = e_span e).
Proof.
  intros U E i en l1 l2 a b Hi s.
  assert (Hno : forall c l t e, ctor_no E en (Ctor c [(l, t)]) s e <-> exists e0, no (tbeh E t) s e0 /\ e = chained [context en c l] e0).
  { intros c l t e. split.
    - intros (k & l' & t' & e0 & Hk & (b0 & vs & s1 & Hb & Hs & Hn) & ->). destruct k as [|k]; [|destruct k; discriminate].
      injection Hk as <- <-. injection Hb as <-. inversion Hs; subst. eauto.
    - intros (e0 & Hn & ->). exists 0, l, t, e0. split; [reflexivity|]. split; [|reflexivity].
      exists (tbeh E t), [], s. split; [reflexivity|]. split; [constructor|exact Hn]. }
  assert (Hseq : forall t vs s', seq_yes [tbeh E t] s vs s' <-> exists w, vs = [w] /\ yes (tbeh E t) s w s').
  { intros t vs s'. split.
    - intro H. inversion H as [|b0 bs s0 v s1 vs0 s2 Hy Hr]; subst. inversion Hr; subst. eauto.
    - intros (w & -> & H). econstructor; [exact H|constructor]. }
  assert (Hsw : forall e1 e2 r1 r2 e, e_span r1 = e_span e1 -> e_span r2 = e_span e2 -> reported [e1; e2] e ->
     exists r, reported [r1; r2] r /\ e_span r = e_span e).
  { intros e1 e2 r1 r2 e H1 H2 (k & Hk & Hle & Hlt).
    assert (Hx : forall j r', nth_error [r1; r2] j = Some r' -> exists e', nth_error [e1; e2] j = Some e' /\ err_end r' = err_end e').
    { intros [|[|j]] r' Hr; cbn in Hr; [injection Hr as <-; exists e1|injection Hr as <-; exists e2|destruct j; discriminate]; split; try reflexivity; unfold err_end; congruence. }
    assert (Hke : exists r, nth_error [r1; r2] k = Some r /\ e_span r = e_span e).
    { destruct k as [|[|k]]; cbn in Hk; [exists r1|exists r2|destruct k; discriminate]; (split; [reflexivity|congruence]). }
    destruct Hke as (r & Hr & Hre). exists r. split; [|exact Hre]. exists k. split; [exact Hr|].
    assert (Hend : err_end r = err_end e) by (unfold err_end; congruence). rewrite Hend. split.
    - intros j e' Hj. destruct (Hx _ _ Hj) as (e'' & H3 & H4). rewrite H4. eapply Hle; exact H3.
    - intros j e' Hlj Hj. destruct (Hx _ _ Hj) as (e'' & H3 & H4). rewrite H4. eapply Hlt; [exact Hlj|exact H3]. }
  split; [|split; [|split; [|split; [|split]]]].
  - intros w s'. rewrite either_yes, (enum_yes E i _ _ Hi). split.
    + intros [(w' & Hw & H)|(e & w' & Hw & _)]; [|discriminate]. injection Hw as <-.
      eexists 0, [w], _. split; [reflexivity|]. split; [reflexivity|]. split; [apply Hseq; eauto|]. intros; lia.
    + intros (k & vs & c & Hv & Hc & Hy & _). injection Hv as <- <-. injection Hc as <-. apply Hseq in Hy as (w' & Hw & H).
      injection Hw as <-. left. eauto.
  - intros w s'. rewrite either_yes, (enum_yes E i _ _ Hi). split.
    + intros [(w' & Hw & _)|(e & w' & Hw & Hn & H)]; [discriminate|]. injection Hw as <-.
      eexists 1, [w], _. split; [reflexivity|]. split; [reflexivity|]. split; [apply Hseq; eauto|].
      intros j d Hj Hd. destruct j; [|lia]. injection Hd as <-. eexists. apply Hno. eauto.
    + intros (k & vs & c & Hv & Hc & Hy & Hpre). injection Hv as <- <-. injection Hc as <-. apply Hseq in Hy as (w' & Hw & H).
      injection Hw as <-. right. destruct (Hpre 0 _ ltac:(lia) eq_refl) as (e & He). apply Hno in He as (e0 & He & _). eauto.
  - intros v s' H. apply either_yes in H as [(w & -> & _)|(e & w & -> & _)]; eauto.
  - intros v s' H. apply (enum_yes E i _ _ Hi) in H as (k & vs & c & -> & Hc & Hy & _).
    destruct k as [|[|k]]; cbn in Hc; [..|destruct k; discriminate]; injection Hc as <-; apply Hseq in Hy as (w & -> & _); eauto.
  - intros e H. apply either_no in H as (e1 & e2 & H1 & H2 & Hr).
    destruct (Hsw e1 e2 (chained [context en (T "Left") l1] e1) (chained [context en (T "Right") l2] e2) e) as (r & Hr' & Hs); [reflexivity..|exact Hr|].
    exists r. split; [|exact Hs]. apply (enum_no E i _ _ Hi). eexists. split; [|left; exact Hr'].
    constructor; [apply Hno; eauto|]. constructor; [apply Hno; eauto|constructor].
  - intros e' H. apply (enum_no E i _ _ Hi) in H as (errs & Hf & [Hr|(Hc & _)]); [|discriminate].
    inversion Hf as [|c0 x0 cs0 xs0 Hc0 Hf0]; subst. inversion Hf0 as [|c1 x1 cs1 xs1 Hc1 Hf1]; subst. inversion Hf1; subst.
    apply Hno in Hc0 as (e1 & H1 & ->). apply Hno in Hc1 as (e2 & H2 & ->).
    destruct (Hsw _ _ e1 e2 _ (eq_refl : e_span e1 = e_span (chained _ e1)) (eq_refl : e_span e2 = e_span (chained _ e2)) Hr) as (r & Hr' & Hs).
    exists r. split; [apply either_no; eauto 8|congruence].
Qed.
Print Assumptions C36_either_is_two_variant_enum.
Example C36_ex : GE 7 = DEnum (T "E") [Ctor (T "Left") [(LIndex 0, TyIdent)]; Ctor (T "Right") [(LIndex 0, TyLit LtInt)]].
Proof. reflexivity. Qed.

(** ** C39 *)
Theorem C39_assertions : forall (U : unicode) E s v s',
  (yes (tbeh E TyEmpty) s v s' <-> v = VUnit /\ s' = s) /\
  (yes (tbeh E TyEof) s v s' <-> ps_rest s = [] /\ v = VUnit /\ s' = s) /\
  (yes (tbeh E TyNotEof) s v s' <-> ps_rest s <> [] /\ v = VUnit /\ s' = s) /\
  ((exists e, no (tbeh E TyEof) s e) <-> ps_rest s <> []) /\
  ((exists e, no (tbeh E TyNotEof) s e) <-> ps_rest s = []) /\
  print VUnit = Some [].
Proof.
  intros U E s v s'. split; [apply empty_yes|]. split; [apply eof_yes|]. split; [apply not_eof_yes|].
  split; [|split; [|reflexivity]]; split.
  - intros (e & H). apply eof_no in H. apply H.
  - intro H. eexists. apply eof_no. eauto.
  - intros (e & H). apply not_eof_no in H. apply H.
  - intro H. eexists. apply not_eof_no. eauto.
Qed.
Print Assumptions C39_assertions.

(** ** C41 *)
Theorem C41_consumes_a_prefix : forall (U : unicode) E n t s o s', pty E n t s = (o, s') ->
  pops (ps_rest s) (ps_rest s') /\ ps_scope s' = ps_scope s /\
  (forall sp, ps_unexp s = Some sp -> ps_unexp s' = Some sp) /\
  (forall sp, ps_unexp s = None -> ps_unexp s' = Some sp -> In sp (token_spans (ps_rest s))).
Proof. intros U E n t s o s' H. exact (proj1 (lawful_pty E n t) s o s' H). Qed.
Print Assumptions C41_consumes_a_prefix.
Theorem C41_prefix_of_visible_tokens : forall (U : unicode) E n t s o s', pty E n t s = (o, s') ->
  exists consumed, flat (ps_rest s) = consumed ++ flat (ps_rest s').
Proof.
  intros U E n t s o s' H. apply pops_flat. exact (proj1 (proj1 (lawful_pty E n t) s o s' H)).
Qed.
Print Assumptions C41_prefix_of_visible_tokens.

(** ** C43 *)
Definition prints_as {V} (p : printer V) (v : V) (ts : list tt) : Prop := p v = Some ts.
Theorem C43_struct_prints_fields_in_order : forall V (ps : list (printer V)) vs ts,
  List.length ps = List.length vs ->
  (print_fields ps vs = Some ts <->
   exists tss, Forall2 (fun pv t => prints_as (fst pv) (snd pv) t) (combine ps vs) tss /\ ts = List.concat tss).
Proof.
  intros V ps. induction ps as [|p ps IH]; intros [|v vs] ts Hl; try discriminate; cbn [print_fields combine].
  - split; [intro H; injection H as <-; exists []; split; [constructor|reflexivity]|].
    intros (tss & H & ->). inversion H; subst. reflexivity.
  - injection Hl as Hl. split.
    + intro H. destruct (p v) as [a|] eqn:Ea; [|discriminate]. destruct (print_fields ps vs) as [b|] eqn:Eb; [|discriminate].
      injection H as <-. destruct (proj1 (IH vs b Hl) Eb) as (tss & H1 & ->). exists (a :: tss). split; [constructor; [exact Ea|exact H1]|reflexivity].
    + intros (tss & H & ->). inversion H as [|x a l tss' Ha Hr]; subst. cbn in Ha. unfold prints_as in Ha. rewrite Ha.
      rewrite (proj2 (IH vs (List.concat tss') Hl)) by eauto. reflexivity.
Qed.
Print Assumptions C43_struct_prints_fields_in_order.
Theorem C43_enum_prints_active_variant : forall V (pss : list (list (printer V))) k ps vs,
  nth_error pss k = Some ps -> print_enum pss (k, vs) = print_fields ps vs.
Proof. intros V pss k ps vs H. unfold print_enum. cbn [fst snd]. rewrite H. reflexivity. Qed.
Print Assumptions C43_enum_prints_active_variant.
Theorem C43_unit_prints_nothing : forall V (p : list (printer V)), print_fields p [] = Some [] /\ print_fields [] (@nil V) = Some [].
Proof. intros V [|p ps]; split; reflexivity. Qed.
Print Assumptions C43_unit_prints_nothing.
