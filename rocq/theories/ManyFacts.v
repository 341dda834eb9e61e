(** * ManyFacts: leaf nodes, [Many], and printing of sequences. *)
From Verif Require Import Base Float Literal Syn Ast Derive Grammar Spec SynFacts Lawful Mono Combinators GrammarBeh Assoc.

(** back-to-back items filling the stream *)
Inductive many_yes {A} (b : behaviour A) : pstate -> list A -> pstate -> Prop :=
| many_end s : ps_rest s = [] -> many_yes b s [] s
| many_step s v s1 vs s2 : ps_rest s <> [] -> yes b s v s1 -> many_yes b s1 vs s2 ->
    many_yes b s (v :: vs) s2.
(** the value of a [Many<T>]: items, with [NotEof] between them *)
Fixpoint many_val (vs : list val) : list (val * val) * option val :=
  match vs with
  | [] => ([], None)
  | [v] => ([], Some v)
  | v :: r => let '(l, o) := many_val r in ((v, VUnit) :: l, o)
  end.

Section G.
Context {U : unicode}.
Variable E : env.

Lemma not_eof_yes s v s' : yes (tbeh E TyNotEof) s v s' <-> ps_rest s <> [] /\ v = VUnit /\ s' = s.
Proof.
  rewrite tbeh_yes_layer. cbn [p_layer]. split.
  - intros (n & H). apply pmap_ok in H as (u & H & ->). unfold p_not_eof in H.
    destruct (is_empty s) eqn:Es; [discriminate|]. injection H as _ <-. apply is_empty_false in Es. auto.
  - intros (H & -> & ->). exists 0. apply is_empty_false in H. apply pmap_ok. exists Datatypes.tt. split; [|reflexivity].
    unfold p_not_eof. rewrite H. reflexivity.
Qed.
Lemma not_eof_no s e : no (tbeh E TyNotEof) s e <-> ps_rest s = [] /\ e = error_at s (T "unexpected end of input").
Proof.
  rewrite tbeh_no_layer. cbn [p_layer of_parser no]. split.
  - intros (n & s' & H). apply pmap_err in H. unfold p_not_eof in H.
    destruct (is_empty s) eqn:Es; [|discriminate]. injection H as <- _. apply is_empty_true in Es. auto.
  - intros (H & ->). exists 0, s. apply is_empty_true in H. apply pmap_err.
    unfold p_not_eof. rewrite H. reflexivity.
Qed.
Lemma eof_yes s v s' : yes (tbeh E TyEof) s v s' <-> ps_rest s = [] /\ v = VUnit /\ s' = s.
Proof.
  rewrite tbeh_yes_layer. cbn [p_layer]. split.
  - intros (n & H). apply pmap_ok in H as (u & H & ->). unfold p_eof in H.
    destruct (is_empty s) eqn:Es; [|discriminate]. injection H as _ <-. apply is_empty_true in Es. auto.
  - intros (H & -> & ->). exists 0. apply is_empty_true in H. apply pmap_ok. exists Datatypes.tt. split; [|reflexivity].
    unfold p_eof. rewrite H. reflexivity.
Qed.
Lemma eof_no s e : no (tbeh E TyEof) s e <->
  ps_rest s <> [] /\ e = error_at s (T "expected end of input or group, found garbage").
Proof.
  rewrite tbeh_no_layer. cbn [p_layer of_parser no]. split.
  - intros (n & s' & H). apply pmap_err in H. unfold p_eof in H.
    destruct (is_empty s) eqn:Es; [discriminate|]. injection H as <- _. apply is_empty_false in Es. auto.
  - intros (H & ->). exists 0, s. apply is_empty_false in H. apply pmap_err.
    unfold p_eof. rewrite H. reflexivity.
Qed.
Lemma empty_yes s v s' : yes (tbeh E TyEmpty) s v s' <-> v = VUnit /\ s' = s.
Proof.
  rewrite tbeh_yes_layer. cbn [p_layer]. split.
  - intros (n & H). injection H as <- <-. auto.
  - intros (-> & ->). exists 0. reflexivity.
Qed.
Lemma empty_no s e : ~ no (tbeh E TyEmpty) s e.
Proof. rewrite tbeh_no_layer. intros (n & s' & H). discriminate. Qed.

Lemma many_fill a s vs s' : many_yes (tbeh E a) s vs s' ->
  fill_yes (tbeh E a) (tbeh E TyNotEof) s (fst (many_val vs)) (snd (many_val vs)) s'.
Proof.
  induction 1 as [s H|s v s1 vs s2 H1 H2 Hr IH]; [apply fill_end; exact H|].
  destruct vs as [|w vs].
  - inversion Hr; subst. apply fill_last; assumption.
  - inversion Hr; subst. change (many_val (v :: w :: vs)) with
      (let '(l, o) := many_val (w :: vs) in ((v, VUnit) :: l, o)).
    destruct (many_val (w :: vs)) as [l o]. cbn [fst snd] in *.
    eapply fill_step; [exact H1|exact H2|assumption| |exact IH]. apply not_eof_yes. auto.
Qed.
Lemma fill_many a s l o s' : fill_yes (tbeh E a) (tbeh E TyNotEof) s l o s' ->
  exists vs, (l, o) = many_val vs /\ many_yes (tbeh E a) s vs s'.
Proof.
  induction 1 as [s H|s v s1 H1 H2 H3|s v s1 p s2 l o s3 H1 H2 H3 Hp Hr (vs & Hv & IH)].
  - exists []. split; [reflexivity|constructor; exact H].
  - exists [v]. split; [reflexivity|]. econstructor; [exact H1|exact H2|constructor; exact H3].
  - apply not_eof_yes in Hp as (_ & -> & ->). exists (v :: vs). split; [|econstructor; eassumption].
    destruct vs as [|w vs].
    + inversion IH; subst. contradiction.
    + change (many_val (v :: w :: vs)) with (let '(l, o) := many_val (w :: vs) in ((v, VUnit) :: l, o)).
      rewrite <- Hv. reflexivity.
Qed.
Lemma many_yes_iff a s v s' :
  yes (tbeh E (TyMany a)) s v s' <->
  exists vs, v = VPunct (fst (many_val vs)) (snd (many_val vs)) /\ many_yes (tbeh E a) s vs s'.
Proof.
  unfold TyMany. rewrite punctuated_yes. split.
  - intros (l & o & -> & H). apply fill_many in H as (vs & Hv & H). exists vs. rewrite <- Hv. auto.
  - intros (vs & -> & H). eexists _, _. split; [reflexivity|]. apply many_fill. exact H.
Qed.
Lemma oapp_nil_r x : oapp x (Some []) = x.
Proof. destruct x; cbn; [rewrite app_nil_r|]; reflexivity. Qed.
Lemma oapp_assoc x y z : oapp (oapp x y) z = oapp x (oapp y z).
Proof. destruct x, y, z; cbn; try reflexivity. rewrite app_assoc. reflexivity. Qed.
Lemma oconcat_app a b : oconcat (a ++ b) = oapp (oconcat a) (oconcat b).
Proof.
  induction a as [|x a IH].
  - change (oconcat b = oapp (Some []) (oconcat b)). destruct (oconcat b); reflexivity.
  - change (oapp x (oconcat (a ++ b)) = oapp (oapp x (oconcat a)) (oconcat b)). rewrite IH, oapp_assoc. reflexivity.
Qed.
Lemma print_many vs : print (VPunct (fst (many_val vs)) (snd (many_val vs))) = oconcat (map print vs).
Proof.
  induction vs as [|v vs IH]; [reflexivity|]. destruct vs as [|w vs].
  - cbn. rewrite oapp_nil_r. destruct (print v); reflexivity.
  - change (many_val (v :: w :: vs)) with (let '(l, o) := many_val (w :: vs) in ((v, VUnit) :: l, o)).
    destruct (many_val (w :: vs)) as [l o]. cbn [fst snd] in *. cbn [print map oconcat fold_right] in *.
    cbn [print_unit]. change (print_unit Datatypes.tt) with (Some (@nil tt)). rewrite oapp_nil_r, oapp_assoc. f_equal. exact IH.
Qed.

(** words *)
Lemma keyword_yes k s v s' :
  yes (tbeh E (TyKeyword k)) s v s' <->
  exists sp r, ignore_none (ps_rest s) = TIdent k sp :: r /\ v = VKw k sp /\ s' = set_rest s r.
Proof.
  rewrite tbeh_yes_layer. cbn [p_layer]. split.
  - intros (n & H). apply pmap_ok in H as (sp & H & ->). apply bind_ok in H as ([w sp'] & s1 & H1 & H2).
    cbn [fst snd] in H2. destruct (text_eqb w k) eqn:Ek; [|discriminate]. injection H2 as -> ->. apply text_eqb_eq in Ek. subst w.
    unfold p_ident_any in H1. destruct (ignore_none (ps_rest s)) as [|[w1 sp1| | |] r]; try discriminate.
    injection H1 as -> -> <-. eauto.
  - intros (sp & r & H & -> & ->). exists 0. apply pmap_ok. exists sp. split; [|reflexivity].
    apply bind_ok. exists (k, sp), (set_rest s r). split.
    + unfold p_ident_any. rewrite H. reflexivity.
    + cbn [fst snd]. rewrite text_eqb_refl. reflexivity.
Qed.
Lemma custom_yes kws s v s' :
  yes (tbeh E (TyCustomIdent kws)) s v s' <->
  exists w sp r, ignore_none (ps_rest s) = TIdent w sp :: r /\ ~ In w kws /\ v = VIdent w sp /\ s' = set_rest s r.
Proof.
  rewrite tbeh_yes_layer. cbn [p_layer]. split.
  - intros (n & H). apply pmap_ok in H as ([w sp] & H & ->). apply bind_ok in H as ([w' sp'] & s1 & H1 & H2).
    cbn [fst snd] in *. destruct (text_mem w' kws) eqn:Ek; [discriminate|]. injection H2 as -> -> ->.
    unfold p_ident_any in H1. destruct (ignore_none (ps_rest s)) as [|[w1 sp1| | |] r]; try discriminate.
    injection H1 as -> -> <-. exists w, sp, r. split; [reflexivity|]. split; [|auto].
    rewrite <- text_mem_In. congruence.
  - intros (w & sp & r & H & Hn & -> & ->). exists 0. apply pmap_ok. exists (w, sp). split; [|reflexivity].
    apply bind_ok. exists (w, sp), (set_rest s r). split.
    + unfold p_ident_any. rewrite H. reflexivity.
    + cbn [fst snd]. destruct (text_mem w kws) eqn:Ek; [|reflexivity]. apply text_mem_In in Ek. contradiction.
Qed.
(** both only ever fail, never panic, so "does not accept" is "fails" *)
Lemma keyword_dec k s : (exists v s', yes (tbeh E (TyKeyword k)) s v s') \/ (exists e, no (tbeh E (TyKeyword k)) s e).
Proof.
  destruct (pty E 1 (TyKeyword k) s) as [[v|e| |] s'] eqn:H.
  - left. exists v, s'. exists 1. exact H.
  - right. exists e, 1, s'. exact H.
  - exfalso. cbn in H. unfold pmap, p_keyword, bind, p_ident_any, ret, fail in H.
    destruct (ignore_none (ps_rest s)) as [|[] ]; try discriminate H; cbn [fst snd] in H; match type of H with context [if ?x then _ else _] => destruct x; discriminate H end.
  - exfalso. cbn in H. unfold pmap, p_keyword, bind, p_ident_any, ret, fail in H.
    destruct (ignore_none (ps_rest s)) as [|[] ]; try discriminate H; cbn [fst snd] in H; match type of H with context [if ?x then _ else _] => destruct x; discriminate H end.
Qed.
Lemma custom_dec k s : (exists v s', yes (tbeh E (TyCustomIdent k)) s v s') \/ (exists e, no (tbeh E (TyCustomIdent k)) s e).
Proof.
  destruct (pty E 1 (TyCustomIdent k) s) as [[v|e| |] s'] eqn:H.
  - left. exists v, s'. exists 1. exact H.
  - right. exists e, 1, s'. exact H.
  - exfalso. cbn in H. unfold pmap, p_custom_ident, bind, p_ident_any, ret, fail in H.
    destruct (ignore_none (ps_rest s)) as [|[] ]; try discriminate H; cbn [fst snd] in H; match type of H with context [if ?x then _ else _] => destruct x; discriminate H end.
  - exfalso. cbn in H. unfold pmap, p_custom_ident, bind, p_ident_any, ret, fail in H.
    destruct (ignore_none (ps_rest s)) as [|[] ]; try discriminate H; cbn [fst snd] in H; match type of H with context [if ?x then _ else _] => destruct x; discriminate H end.
Qed.
Lemma print_left_form x l t : left_form x l t ->
  print (val_of_left t) = oapp (print x) (oconcat (map (fun oy => oapp (print (fst oy)) (print (snd oy))) l)).
Proof.
  induction 1 as [|l t o y H IH]; cbn [val_of_left print map oconcat fold_right]; [rewrite oapp_nil_r; reflexivity|].
  rewrite IH, oapp_assoc, map_app, oconcat_app. f_equal. f_equal. cbn. rewrite oapp_nil_r. reflexivity.
Qed.
Lemma print_right_form x l t : right_form x l t ->
  print (val_of_right t) = oapp (print x) (oconcat (map (fun oy => oapp (print (fst oy)) (print (snd oy))) l)).
Proof.
  induction 1 as [x|x o y l t H IH]; cbn [val_of_right print map oconcat fold_right fst snd]; [rewrite oapp_nil_r; reflexivity|].
  rewrite IH, !oapp_assoc. reflexivity.
Qed.
Lemma print_separated x l :
  print (VPunct (fst (pairs_of x l)) (Some (snd (pairs_of x l)))) =
  oapp (print x) (oconcat (map (fun oy => oapp (print (fst oy)) (print (snd oy))) l)).
Proof.
  revert x. induction l as [|[p y] l IH]; intro x.
  - cbn. rewrite oapp_nil_r. destruct (print x); reflexivity.
  - cbn [pairs_of]. specialize (IH y). destruct (pairs_of y l) as [ps z]. cbn [fst snd] in *. cbn [print map oconcat fold_right fst snd] in *.
    rewrite !oapp_assoc. f_equal. f_equal. exact IH.
Qed.
End G.
