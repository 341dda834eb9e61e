(** * PropContext: trees are read back wherever they stand: before other tokens, and one after another (C67).

    C10 and C62 are about whole inputs.  A user who writes [impl Parse] by hand calls [input.parse::<T>()] in the middle of a
    stream, and relies on it to read one [T] and to leave the rest alone. *)
From Verif Require Furthest.
From Verif Require Import Base Float Literal Syn Ast Derive Grammar Spec LitSpec LiteralFacts Reprint LitDenote SynFacts Lawful Mono
  Combinators GrammarBeh Assoc ManyFacts Sound Sim RoundFacts Examples PropLit PropRoundtrip Term TermCheck NoPanic Typed LL1 LL1Facts LL1Check PropLL1
  Fmt Lexer LexFacts LexWf LexOut LexRun PropLex Writable PropStr ParsedTyped PropAgain PropEq PropExtend Lang PropLang.
Local Open Scope nat_scope.

(** ** Specification *)
(** [input.parse::<T>()] on the stream [s] gives [v] and leaves the stream [s'] *)
Definition reads {U : unicode} (E : env) (t : ty) (s : pstate) (v : val) (s' : pstate) : Prop := exists n, pty E n t s = (OOk v, s').
(** several in a row *)
Inductive reads_all {U : unicode} (E : env) : pstate -> list (ty * val) -> pstate -> Prop :=
| ra_nil s : reads_all E s [] s
| ra_cons s t v s1 l s' : reads E t s v s1 -> reads_all E s1 l s' -> reads_all E s ((t, v) :: l) s'.
(** [rest] begins with something of [F], if the spacing of the operator characters not in [K] is of no matter *)
Definition can_begin {U : unicode} (K : char -> bool) (F : list head) (rest : list tt) : Prop :=
  exists h rest', In h F /\ sees h rest' /\ sim K rest' rest.
(** ** The check of C10 with [F], the beginnings of what may follow, in place of the end of the input. *)
Section Tables.
Variable g : list tdef.
Notation rounds := (S (List.length g)).
Definition fo_before (pn : nat -> bool) (pf : nat -> list head) (t : ty) (F : list head) : nat -> list head :=
  look (iter rounds (fun l =>
          let os := occ pn pf t F ++ List.concat (map (fun i => occ_def pn pf (env_of g i) (look l [] i)) (seq 0 (List.length g))) in
          map (fun i => at_ref i os) (seq 0 (List.length g)))
        (map (fun _ => []) g)) [].
Definition ll1_before (t : ty) (F : list head) : bool :=
  let an := an_of g in let ac := ac_of g an in let pn := pn_of g in let pf := pf_of g pn in let fo := fo_before pn pf t F in
  forallb (fun i => implb (anull_def an (env_of g i)) (an i) && inclb (acc_def an ac (env_of g i)) (ac i)
                    && implb (pnull_def pn (env_of g i)) (pn i) && inclb (pfirst_def pn pf (env_of g i)) (pf i)
                    && ok_def an ac pn pf fo (terminating g) (env_of g i) (fo i)) (seq 0 (List.length g))
  && ok an ac pn pf fo (terminating g) t F.
(** what a value of type [t] can begin with *)
Definition begins (t : ty) : list head := pfirst (pn_of g) (pf_of g (pn_of g)) t.
End Tables.
Theorem C67_end_of_input g t : ll1_before g t [HEnd] = ll1 g t.
Proof. reflexivity. Qed.

Lemma sim_readable {U : unicode} K a b : sim K a b -> readable b -> readable a.
Proof.
  unfold readable. induction 1 as [|n sp1 sp2 a b H IH|c g1 g2 sp1 sp2 a b Hg H IH|r1 r2 sp1 sp2 a b Hl H IH|d sp1 sp2 i j a b Hi IHi H IH]; cbn [lits]; auto.
  - cbn [lits1 app]. intro Q. apply Forall_cons_iff in Q as (Q1 & Q). constructor; [|auto]. destruct Hl as [->|(D & _)]; [exact Q1|]. unfold denotes in D. intro N. rewrite N in D.
    destruct (lit_new r2) as [[]|]; congruence.
  - rewrite !lits1_group. rewrite !Forall_app. intros (Q1 & Q2). auto.
Qed.

Lemma sim_same {U : unicode} K : forall a, sim K a a.
Proof.
  assert (H1 : forall t, forall a b, sim K a b -> sim K (t :: a) (t :: b)).
  { intro t. induction t as [n sp|c g sp|r sp|d sp l IH] using tt_ind'; intros a b Hab; constructor; auto; [left; reflexivity|].
    induction IH as [|x l Hx _ IHl]; [constructor|apply Hx, IHl]. }
  induction a as [|x a IH]; [constructor|apply H1, IH].
Qed.

Section Before.
Context {U : unicode} (g : list tdef).
Notation E := (env_of g).
Lemma closed_tables t F : ll1_before g t F = true ->
  let an := an_of g in let ac := ac_of g an in let pn := pn_of g in let pf := pf_of g pn in let fo := fo_before g pn pf t F in
  (forall i, (anull_def an (E i) = true -> an i = true) /\ incl (acc_def an ac (E i)) (ac i) /\
    (pnull_def pn (E i) = true -> pn i = true) /\ incl (pfirst_def pn pf (E i)) (pf i) /\
    ok_def an ac pn pf fo (terminating g) (E i) (fo i) = true) /\ ok an ac pn pf fo (terminating g) t F = true.
Proof.
  unfold ll1_before. cbv zeta. set (an := an_of g). set (ac := ac_of g an). set (pn := pn_of g). set (pf := pf_of g pn). set (fo := fo_before g pn pf t F).
  rewrite andb_true_iff, forallb_forall. intros (H & Hok). split; [|exact Hok]. intro i.
  assert (Out : List.length g <= i -> E i = unit_def /\ an i = true /\ pn i = true).
  { intros Hi. split; [apply nth_overflow; exact Hi|].
    split; apply nth_overflow; (rewrite (iter_length _ _ g); [exact Hi|intro; apply map_length|apply map_length]). }
  destruct (Nat.lt_ge_cases i (List.length g)) as [Hi|Hi].
  - specialize (H i ltac:(apply in_seq; lia)). rewrite !andb_true_iff in H. destruct H as ((((H1 & H2) & H3) & H4) & H5).
    apply inclb_incl in H2. apply inclb_incl in H4. split; [intro X; rewrite X in H1; exact H1|]. split; [exact H2|]. split; [intro X; rewrite X in H3; exact H3|]. auto.
  - destruct (Out Hi) as (-> & -> & ->). cbn. repeat split; try (intros ? []).
Qed.
(** What is printed is read back before whatever may follow, and nothing more is read. *)
Theorem C67_printed_reads_before t F v ts rest s : ll1_before g t F = true -> typed E t v -> print v = Some ts ->
  (exists h, In h F /\ sees h rest) -> (forall repr, In repr (lits rest) -> lit_new repr <> None) -> ps_rest s = ts ++ rest ->
  reads E t s v (set_rest s rest).
Proof.
  intros H Ht Hp HF Hr Hs. destruct (closed_tables t F H) as (Each & Hok).
  refine (read_back E _ _ _ _ (terminating g) _ _ _ _ _ _ _ t v Ht F ts rest s Hok Hp HF _ Hs); try (intro i; apply (Each i)).
  - intro. apply terminating_sound.
  - apply Forall_forall. exact Hr.
Qed.
Lemma begins_shown t F v ts : ll1_before g t F = true -> typed E t v -> print v = Some ts -> shown (begins g t) (pnull (pn_of g) t) ts.
Proof.
  intros H Ht Hp. destruct (closed_tables t F H) as (Each & _).
  refine (typed_shows E _ _ _ _ t v Ht ts Hp); intro i; apply (Each i).
Qed.
Lemma oapp_some a b ts : oapp a b = Some ts -> exists x y, a = Some x /\ b = Some y /\ ts = x ++ y.
Proof. destruct a as [x|], b as [y|]; cbn; intro H; try discriminate H. injection H as <-. eauto. Qed.
(** Values of several types, one after another, in any order. *)
Section Row.
Variable tys : list ty.
Notation F := (HEnd :: List.concat (map (begins g) tys)).
Hypothesis Hc : forall t, In t tys -> ll1_before g t F = true.
Lemma row_seen l : Forall (fun x => In (fst x) tys /\ typed E (fst x) (snd x)) l -> forall ts, oconcat (map (fun x : ty * val => print (snd x)) l) = Some ts ->
  readable ts /\ seen F ts.
Proof.
  induction 1 as [|(t, v) l (Hi & Ht) Hl IH]; intros ts Hp; cbn [map oconcat fold_right] in Hp.
  - injection Hp as <-. split; [constructor|]. exists HEnd. split; [left; reflexivity|reflexivity].
  - cbn [fst snd] in *. apply oapp_some in Hp as (a & b & Ha & Hb & ->). destruct (IH b Hb) as (Rb & Sb).
    pose proof (begins_shown t F v a (Hc t Hi) Ht Ha) as Sa. split; [apply readable_app; split; [apply Sa|exact Rb]|].
    destruct (shown_seen _ _ _ F b Sa Sb) as (h & Hh & Sh). exists h. split; [|exact Sh].
    assert (B : incl (begins g t) F). { intros x Hx. right. apply in_concat. exists (begins g t). split; [apply in_map; exact Hi|exact Hx]. }
    apply in_app_iff in Hh as [Hh|Hh]; [apply B, Hh|]. destruct (pnull (pn_of g) t); [exact Hh|contradiction].
Qed.
Theorem C67_one_after_another l ts s : Forall (fun x => In (fst x) tys /\ typed E (fst x) (snd x)) l ->
  oconcat (map (fun x : ty * val => print (snd x)) l) = Some ts -> ps_rest s = ts -> reads_all E s l (set_rest s []).
Proof.
  intro Hl. revert ts s. induction Hl as [|(t, v) l (Hi & Ht) Hl IH]; intros ts s Hp Hs; cbn [map oconcat fold_right] in Hp.
  - injection Hp as <-. replace (set_rest s []) with s; [constructor|]. destruct s. cbn in *. subst. reflexivity.
  - cbn [fst snd] in *. apply oapp_some in Hp as (a & b & Ha & Hb & ->). destruct (row_seen l Hl b Hb) as (Rb & Sb).
    apply (ra_cons E s t v (set_rest s b) l).
    + apply (C67_printed_reads_before t F v a b s (Hc t Hi) Ht Ha Sb); [apply Forall_forall; exact Rb|exact Hs].
    + apply (IH b (set_rest s b) Hb). reflexivity.
Qed.
End Row.

(** Not only what the printer writes: whatever spells a value is read as that value, and what follows it is left where it is. *)
Section Spelled.
Variable K : char -> bool.
Context (t : ty) (F : list head) (Hg : ll1_before g t F = true) (HE : env_leaves (leaf_sharp K) E) (Ht : leaves (leaf_sharp K) t).
Theorem C67_spelled_reads_before v ts rest s : visible (ts ++ rest) = true -> lits_ok ts -> tame ts -> spells K E t v ts ->
  can_begin K F rest -> (forall repr, In repr (lits rest) -> lit_new repr <> None) -> ps_rest s = ts ++ rest ->
  reads E t s v (set_rest s rest).
Proof.
  intros Hv Hok Htm H (h & rest' & Hh & Sh & Sr) Hr Hs. pose proof (spells_typed K E t v ts H Hok Htm) as Hty. destruct (spells_prints K E t v ts H Hok Htm) as (us & Hp).
  pose proof (spells_reprints K E t v ts us H Hok Hp) as R.
  assert (S : sim K us ts). { apply sim_sym. eapply reprints_sim; [|exact R|eapply tame_puncts; [exact R|exact Htm]]. intros c g1 g2 Hq. exact Hq. }
  (* on a fork *)
  set (s0 := fork s). set (s' := set_rest s0 (us ++ rest')).
  destruct (C67_printed_reads_before t F v us rest' s' Hg Hty Hp ltac:(eauto) ltac:(apply Forall_forall; eapply sim_readable; [exact Sr|apply Forall_forall; exact Hr]) eq_refl) as (n & Hn).
  assert (SS : ssim K s' s0). { split; [cbn; rewrite Hs; apply sim_app; assumption|cbn; tauto]. }
  pose proof (par_pty K E n t HE Ht s' s0 SS) as (P1 & P2). rewrite Hn in P1, P2. cbn [fst snd] in P1, P2.
  destruct (pty E n t s0) as (o, s1) eqn:E0. cbn [fst snd] in P1, P2. destruct o as [w|e| |]; try contradiction.
  destruct P2 as (_ & Pu). assert (Nu : ps_unexp s1 = None) by (apply Pu; reflexivity).
  destruct (spelled_pty E n t s0 w s1 E0) as (Fr & Hc). destruct (Hc Nu) as (c & Ec & W). destruct Fr as (Fp & Fs & _).
  assert (Es : ps_rest s0 = ts ++ rest) by exact Hs.
  rewrite Es in Ec, Fp. destruct (Furthest.pops_visible _ _ Fp Hv) as (Hv1 & _). rewrite (visible_flat _ Hv), (visible_flat _ Hv1) in Ec.
  destruct (proj1 (spells_same_mut anyhow E) t v ts (spells_anyhow K E t v ts H) w c rest (ps_rest s1) W P1 Ec) as (<- & <-).
  apply app_inv_head in Ec. exists n. destruct (lawful_pty E n t) as (_ & Ob). rewrite (Ob s). fold s0. rewrite E0. cbn [fst snd]. f_equal.
  unfold advance_to, set_rest. rewrite <- Ec, Nu. f_equal. destruct (ps_unexp s); reflexivity.
Qed.
(** In particular a document accepted as a whole is read the same way when something follows it. *)
Theorem C67_accepted_reads_before v ts rest s : spacing_free K g t -> parses E t ts v -> visible (ts ++ rest) = true -> lits_ok ts -> tame ts ->
  can_begin K F rest -> (forall repr, In repr (lits rest) -> lit_new repr <> None) -> ps_rest s = ts ++ rest ->
  reads E t s v (set_rest s rest).
Proof.
  intros (FE & FT) H Hv Hok Htm. apply C67_spelled_reads_before; try assumption.
  apply parsed_spelled in H. rewrite visible_flat in H; [|rewrite visible_app in Hv; apply andb_true_iff in Hv as (X & _); exact X].
  apply spells_free; assumption.
Qed.
End Spelled.
(** Documents, each accepted as a whole, are read one by one when they are written one after another. *)
Theorem C67_documents_one_after_another K tys l s :
  (forall t, In t tys -> ll1_before g t (HEnd :: List.concat (map (begins g) tys)) = true /\ spacing_free K g t) ->
  Forall (fun '(t, v, ts) => In t tys /\ parses E t ts v /\ visible ts = true /\ lits_ok ts /\ tame ts) l ->
  ps_rest s = List.concat (map snd l) -> reads_all E s (map fst l) (set_rest s []).
Proof.
  intros Hc Hl. assert (Hc1 : forall t, In t tys -> ll1_before g t (HEnd :: List.concat (map (begins g) tys)) = true) by (intros t Hi; apply Hc, Hi).
  assert (W : forall l, Forall (fun '(t, v, ts) => In t tys /\ parses E t ts v /\ visible ts = true /\ lits_ok ts /\ tame ts) l ->
    visible (List.concat (map snd l)) = true /\ Forall (fun x : ty * val => In (fst x) tys /\ typed E (fst x) (snd x)) (map fst l) /\
    exists us, oconcat (map (fun x : ty * val => print (snd x)) (map fst l)) = Some us /\ sim K us (List.concat (map snd l))).
  { clear l s Hl. induction 1 as [|((t, v), ts) l (Hi & Hp & Hv & Hok & Htm) Hl (IV & IT & us & IP & IS)]; [cbn; repeat split; [constructor|]; exists []; split; [reflexivity|constructor]|].
    cbn [map fst snd List.concat]. destruct (Hc t Hi) as (_ & FE & FT). apply parsed_spelled in Hp. rewrite (visible_flat ts Hv) in Hp.
    assert (H : spells K E t v ts) by (apply spells_free; assumption).
    pose proof (spells_typed K E t v ts H Hok Htm) as Hty. destruct (spells_prints K E t v ts H Hok Htm) as (ws & Hw).
    pose proof (spells_reprints K E t v ts ws H Hok Hw) as R.
    split; [rewrite visible_app, Hv, IV; reflexivity|]. split; [constructor; [split; assumption|exact IT]|].
    exists (ws ++ us). cbn [oconcat fold_right]. fold (oconcat (map (fun x : ty * val => print (snd x)) (map fst l))). rewrite Hw, IP. split; [reflexivity|].
    apply sim_app; [|exact IS]. apply sim_sym. eapply reprints_sim; [|exact R|eapply tame_puncts; [exact R|exact Htm]]. intros c g1 g2 Hq. exact Hq. }
  revert s. induction Hl as [|((t, v), ts) l (Hi & Hp & Hv & Hok & Htm) Hl IH]; intros s Hs; cbn [map fst snd List.concat] in *.
  - replace (set_rest s []) with s; [constructor|]. destruct s. cbn in *. subst. reflexivity.
  - destruct (W l Hl) as (V & T' & us & P & S). destruct (row_seen tys Hc1 _ T' us P) as (Ru & Su).
    apply (ra_cons E s t v (set_rest s (List.concat (map snd l))) (map fst l)).
    + destruct (Hc t Hi) as (Hg & FE & FT).
      apply (C67_accepted_reads_before K t _ Hg ltac:(eapply env_leaves_impl; [apply free_sharp|exact FE]) ltac:(eapply leaves_impl; [apply free_sharp|exact FT]) v ts); auto.
      * split; assumption.
      * rewrite visible_app, Hv. exact V.
      * destruct Su as (h & Hh & Sh). exists h, us. auto.
      * apply Forall_forall. eapply sim_readable; [apply sim_sym; exact S|exact Ru].
    + exact (IH (set_rest s (List.concat (map snd l))) eq_refl).
Qed.
End Before.

(** ** Examples *)
(** The documents [x <= ("s")] and [y] of the calculator of C62, written one after the other, then read one after the other;
    and before a [;]. *)
Example C67_ex_checked : ll1_before calc (TyRef 0) (HEnd :: List.concat (map (begins calc) [TyRef 0])) = true /\
  ll1_before calc (TyRef 0) [HOp (T ";"); HOp (T "}"); HWord (T "x"); HLit KdStr; HGroup DBrace] = true /\
  (* not before [+] or [<], which would be read *)
  ll1_before calc (TyRef 0) [HOp (T "+")] = false /\ ll1_before calc (TyRef 0) [HOp (T "<=")] = false.
Proof. vm_compute. auto. Qed.
Section WithTables.
Local Existing Instance ascii_only.
Definition just_y : list tt := [TIdent (T "y") call_site].
Definition y_tree : val := VStruct [VRhs (VVariant 1 [VIdent (T "y") call_site])].
Example C67_ex_documents s : ps_rest s = written_out ++ just_y ++ written_out ->
  reads_all (env_of calc) s [(TyRef 0, meant); (TyRef 0, y_tree); (TyRef 0, meant)] (set_rest s []).
Proof.
  intro Hs. destruct C67_ex_checked as (H & _), C62_ex_free as (F & _).
  assert (Q1 : lits_ok written_out /\ tame written_out).
  { split; [constructor; [|constructor]; split; [vm_compute; intuition discriminate|vm_compute; reflexivity]|]. split.
    - intro Z. repeat match goal with Z : minus_zero _ |- _ => inversion Z; clear Z; subst end.
    - repeat constructor. intros f Q. vm_compute in Q. discriminate Q. }
  assert (Q2 : parses (env_of calc) (TyRef 0) just_y y_tree /\ lits_ok just_y /\ tame just_y).
  { split; [exists 15; vm_compute; reflexivity|]. split; [constructor|]. split; [|constructor].
    intro Z. repeat match goal with Z : minus_zero _ |- _ => inversion Z; clear Z; subst end. }
  destruct Q1, Q2 as (P2 & ? & ?). pose proof C62_ex_read as P1.
  apply (C67_documents_one_after_another calc lt_only [TyRef 0] [(TyRef 0, meant, written_out); (TyRef 0, y_tree, just_y); (TyRef 0, meant, written_out)] s).
  - intros t [<-|[]]. split; [exact H|exact F].
  - apply Forall_cons; [|apply Forall_cons; [|apply Forall_cons; [|constructor]]]; (split; [left; reflexivity|]); (split; [assumption|]); (split; [reflexivity|]); split; assumption.
  - exact Hs.
Qed.
(** values of two types: the tree of [y], a [;], and the tree of [y] twice *)
Example C67_ex_two_types s : ps_rest s = just_y ++ [TPunct 59 Alone call_site] ++ just_y ++ just_y ->
  reads_all (env_of calc) s [(TyRef 0, y_tree); (TyToken (T ";"), VOp (T ";") [call_site]); (TyRef 0, y_tree); (TyRef 0, y_tree)] (set_rest s []).
Proof.
  intro Hs. assert (Ty : typed (env_of calc) (TyRef 0) y_tree).
  { apply (spells_typed lt_only (env_of calc) (TyRef 0) y_tree just_y); [|constructor|split; [|constructor]].
    - destruct C62_ex_free as ((FE & FT) & _). apply spells_free; [exact FE|exact FT|]. apply (parsed_spelled (env_of calc) (TyRef 0) just_y y_tree). exists 15. vm_compute. reflexivity.
    - intro Z. repeat match goal with Z : minus_zero _ |- _ => inversion Z; clear Z; subst end. }
  assert (To : typed (env_of calc) (TyToken (T ";")) (VOp (T ";") [call_site])) by (constructor; reflexivity).
  apply (C67_one_after_another calc [TyRef 0; TyToken (T ";")]) with (ts := just_y ++ [TPunct 59 Alone call_site] ++ just_y ++ just_y).
  - intros t [<-|[<-|[]]]; vm_compute; reflexivity.
  - repeat (apply Forall_cons; [split; [cbn; tauto|assumption]|]). constructor.
  - reflexivity.
  - exact Hs.
Qed.
Example C67_ex_before s r : ps_rest s = just_y ++ TPunct 59 Joint call_site :: TPunct 43 Alone call_site :: r -> visible r = true ->
  (forall repr, In repr (lits r) -> lit_new repr <> None) -> reads (env_of calc) (TyRef 0) s y_tree (set_rest s (TPunct 59 Joint call_site :: TPunct 43 Alone call_site :: r)).
Proof.
  intros Hs Hv Hr. destruct C67_ex_checked as (_ & H & _), C62_ex_free as (F & _).
  apply (C67_accepted_reads_before calc lt_only (TyRef 0) _ H ltac:(eapply env_leaves_impl; [apply free_sharp|apply F]) ltac:(eapply leaves_impl; [apply free_sharp|apply F]) _ just_y); auto.
  - exists 15. vm_compute. reflexivity.
  - constructor.
  - split; [|constructor]. intro Z. repeat match goal with Z : minus_zero _ |- _ => inversion Z; clear Z; subst end.
  - exists (HOp (T ";")), (TPunct 59 Alone call_site :: TPunct 43 Alone call_site :: r). split; [left; reflexivity|]. split.
    + exists [call_site], (TPunct 43 Alone call_site :: r). split; [discriminate|]. split; reflexivity.
    + constructor; [intro Q; discriminate Q|]. apply sim_same.
Qed.
(** Without the check: [Any<Ident>] is read back as a whole (C10), but not before an identifier: of the values [a] and [b], written one after
    the other, the first is read as [a b]. *)
Definition names_ty : ty := TyAny TyIdent.
Theorem C67_unchecked_refuted : exists a b ta tb, ll1 [] names_ty = true /\ ll1_before [] names_ty (HEnd :: begins [] names_ty) = false /\
  typed (env_of []) names_ty a /\ typed (env_of []) names_ty b /\ print a = Some ta /\ print b = Some tb /\ parses (env_of []) names_ty ta a /\
  forall v s, ~ reads_all (env_of []) (start (ta ++ tb)) [(names_ty, a); (names_ty, b)] s /\ (reads (env_of []) names_ty (start (ta ++ tb)) v s -> v = VList [VIdent (T "a") call_site; VIdent (T "b") call_site]).
Proof.
  assert (Ha : ~ In (T "a") rust_keywords) by (intro H; vm_compute in H; intuition discriminate).
  assert (Hb : ~ In (T "b") rust_keywords) by (intro H; vm_compute in H; intuition discriminate).
  exists (VList [VIdent (T "a") call_site]), (VList [VIdent (T "b") call_site]), [TIdent (T "a") call_site], [TIdent (T "b") call_site].
  split; [vm_compute; reflexivity|]. split; [vm_compute; reflexivity|]. split; [repeat constructor; exact Ha|]. split; [repeat constructor; exact Hb|].
  split; [reflexivity|]. split; [reflexivity|]. split; [exists 5; vm_compute; reflexivity|].
  assert (X : forall v s', reads (env_of []) names_ty (start [TIdent (T "a") call_site; TIdent (T "b") call_site]) v s' -> v = VList [VIdent (T "a") call_site; VIdent (T "b") call_site]).
  { intros v s' (n & Hn). assert (P : pty (env_of []) 5 names_ty (start [TIdent (T "a") call_site; TIdent (T "b") call_site]) = (OOk (VList [VIdent (T "a") call_site; VIdent (T "b") call_site]), start [])) by (vm_compute; reflexivity).
    destruct (Nat.le_ge_cases n 5) as [Q|Q].
    - destruct (Mono.le_pty (env_of []) n 5 names_ty Q (start [TIdent (T "a") call_site; TIdent (T "b") call_site])) as [Hd|He]; [rewrite Hn in Hd; discriminate Hd|]. rewrite Hn, P in He. injection He. auto.
    - destruct (Mono.le_pty (env_of []) 5 n names_ty Q (start [TIdent (T "a") call_site; TIdent (T "b") call_site])) as [Hd|He]; [rewrite P in Hd; discriminate Hd|]. rewrite Hn, P in He. injection He. auto. }
  intros s1 s2. split; [|apply X]. intro H. inversion H as [|s t v s' l s'' R]; subst. apply X in R. discriminate R.
Qed.
End WithTables.

Print Assumptions C67_end_of_input.
Print Assumptions C67_printed_reads_before.
Print Assumptions C67_one_after_another.
Print Assumptions C67_spelled_reads_before.
Print Assumptions C67_accepted_reads_before.
Print Assumptions C67_documents_one_after_another.
Print Assumptions C67_unchecked_refuted.
