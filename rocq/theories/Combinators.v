(** * Combinators: each node meets its specification in [Spec.v]. *)
From Verif Require Import Base Float Literal Syn Ast Derive Grammar Spec SynFacts Lawful DecText.

(** ** Sequences. *)
Lemma bind_ok {A B} (p : parser A) (k : A -> parser B) s v s' :
  bind p k s = (OOk v, s') <-> exists x s1, p s = (OOk x, s1) /\ k x s1 = (OOk v, s').
Proof.
  unfold bind. destruct (p s) as [[x|e| |] s1]; split; try discriminate; try (intros (?&?&?&?); discriminate).
  - intro H. exists x, s1. auto.
  - intros (y & s2 & H1 & H2). injection H1 as -> ->. exact H2.
Qed.
Lemma bind_err {A B} (p : parser A) (k : A -> parser B) s e s' :
  bind p k s = (OErr e, s') <->
  p s = (OErr e, s') \/ exists x s1, p s = (OOk x, s1) /\ k x s1 = (OErr e, s').
Proof.
  unfold bind. destruct (p s) as [[x|e0| |] s1]; split; try discriminate.
  - intro H. right. exists x, s1. auto.
  - intros [H|(y & s2 & H1 & H2)]; [discriminate|]. injection H1 as -> ->. exact H2.
  - intro H. left. congruence.
  - intros [H|(?&?&H&?)]; [congruence|discriminate].
  - intros [H|(?&?&H&?)]; discriminate.
  - intros [H|(?&?&H&?)]; discriminate.
Qed.
Lemma map_err_ok {A} f (p : parser A) s v s' : map_err f p s = (OOk v, s') <-> p s = (OOk v, s').
Proof. unfold map_err. destruct (p s) as [[x|e| |] s1]; split; congruence. Qed.
Lemma map_err_err {A} f (p : parser A) s e s' :
  map_err f p s = (OErr e, s') <-> exists e0, p s = (OErr e0, s') /\ e = f e0.
Proof.
  unfold map_err. destruct (p s) as [[x|e0| |] s1]; split; try congruence; try (intros (?&?&?); congruence).
  intro H. exists e0. split; congruence.
Qed.
Lemma pmap_ok {A B} (f : A -> B) p s w s' :
  pmap f p s = (OOk w, s') <-> exists v, p s = (OOk v, s') /\ w = f v.
Proof.
  unfold pmap. rewrite bind_ok. unfold ret. split.
  - intros (x & s1 & H1 & H2). injection H2 as <- <-. eauto.
  - intros (v & H1 & ->). eauto.
Qed.
Lemma pmap_err {A B} (f : A -> B) p s e s' : pmap f p s = (OErr e, s') <-> p s = (OErr e, s').
Proof.
  unfold pmap. rewrite bind_err. unfold ret. split; [|auto].
  intros [H|(?&?&?&?)]; [exact H|discriminate].
Qed.

Section Seq.
Context {V : Type}.
Notation parsers fs := (map (fun f : label * parser V => of_parser (snd f)) fs).

Lemma fields_ok en ct (fs : list (label * parser V)) s vs s' :
  p_fields en ct fs s = (OOk vs, s') <-> seq_yes (parsers fs) s vs s'.
Proof.
  revert s vs. induction fs as [|[l p] fs IH]; intros s vs; cbn [p_fields map].
  - split; intro H.
    + injection H as <- <-. constructor.
    + inversion H; subst. reflexivity.
  - rewrite bind_ok. split.
    + intros (x & s1 & H1 & H2). apply map_err_ok in H1. apply bind_ok in H2 as (xs & s2 & H2 & H3).
      injection H3 as <- <-. econstructor; [exact H1|]. apply IH. exact H2.
    + intro H. inversion H as [|b bs s0 v s1 vs0 s2 Hy Hr]; subst. cbn in Hy.
      exists v, s1. split; [apply map_err_ok; exact Hy|].
      apply bind_ok. exists vs0, s'. split; [apply IH; exact Hr|reflexivity].
Qed.

Definition context (en ct : text) (l : label) : hop :=
  Hop (match en with [] => None | _ => Some en end) ct l.
Lemma chain_error_chained en ct l e : chain_error en ct l e = chained [context en ct l] e.
Proof.
  unfold chain_error, chained, context, hop_line. rewrite !show_label_text. destruct en as [|c en]; cbn [h_enum h_ctor h_field map List.concat];
  rewrite app_nil_r; rewrite <- ?app_assoc; reflexivity.
Qed.

Lemma fields_err en ct (fs : list (label * parser V)) s e :
  (exists s', p_fields en ct fs s = (OErr e, s')) <->
  exists k l p e0, nth_error fs k = Some (l, p) /\ seq_no (parsers fs) s k e0 /\
     e = chained [context en ct l] e0.
Proof.
  revert s. induction fs as [|[l p] fs IH]; intros s; cbn [p_fields map].
  - split.
    + intros (s' & H). discriminate.
    + intros (k & l & p & e0 & H & _). destruct k; discriminate.
  - split.
    + intros (s' & H). apply bind_err in H as [H|(x & s1 & H1 & H2)].
      * apply map_err_err in H as (e0 & H & ->). exists 0, l, p, e0. split; [reflexivity|].
        split; [|apply chain_error_chained]. exists (of_parser p), [], s. split; [reflexivity|].
        split; [constructor|]. exists s'. exact H.
      * apply map_err_ok in H1. apply bind_err in H2 as [H2|(?&?&?&H2)]; [|discriminate].
        destruct (proj1 (IH s1) (ex_intro _ s' H2)) as (k & l' & p' & e0 & Hn & (b & vs & s2 & Hb & Hs & Hno) & He).
        exists (S k), l', p', e0. split; [exact Hn|]. split; [|exact He].
        exists b, (x :: vs), s2. split; [exact Hb|]. split; [|exact Hno].
        cbn [firstn]. econstructor; [exact H1|exact Hs].
    + intros (k & l' & p' & e0 & Hn & (b & vs & s2 & Hb & Hs & Hno) & ->).
      destruct k as [|k]; cbn in Hn, Hb, Hs.
      * injection Hn as <- <-. injection Hb as <-. inversion Hs; subst. destruct Hno as (s' & Hno).
        exists s'. apply bind_err. left. apply map_err_err. exists e0. split; [exact Hno|].
        symmetry. apply chain_error_chained.
      * inversion Hs as [|b0 bs s0 v s1 vs0 s3 Hy Hr]; subst. cbn in Hy.
        destruct (proj2 (IH s1)) as (s' & H).
        { exists k, l', p', e0. split; [exact Hn|]. split; [|reflexivity]. exists b, vs0, s2. auto. }
        exists s'. apply bind_err. right. exists v, s1. split; [apply map_err_ok; exact Hy|].
        apply bind_err. left. exact H.
Qed.

(** ** Ordered choice. *)
Notation variant := (text * list (label * parser V))%type.
Definition vparser (en : text) (v : variant) : parser (list V) := p_fields en (fst v) (snd v).

Lemma lc_leb_spec a b : lc_leb a b = true <-> pos_le a b.
Proof.
  unfold lc_leb, pos_le. rewrite orb_true_iff, andb_true_iff, Nat.ltb_lt, Nat.eqb_eq, Nat.leb_le. reflexivity.
Qed.
Lemma pos_le_lt a b : pos_lt a b <-> ~ pos_le b a.
Proof. unfold pos_lt, pos_le. lia. Qed.
Lemma lc_ltb_spec a b : lc_ltb a b = true <-> pos_lt a b.
Proof.
  unfold lc_ltb. rewrite negb_true_iff, pos_le_lt, <- lc_leb_spec.
  destruct (lc_leb b a); split; congruence.
Qed.
Lemma pos_le_refl a : pos_le a a.
Proof. unfold pos_le. lia. Qed.
Lemma pos_le_trans a b c : pos_le a b -> pos_le b c -> pos_le a c.
Proof. unfold pos_le. lia. Qed.
Lemma pos_lt_le_trans a b c : pos_lt a b -> pos_le b c -> pos_lt a c.
Proof. unfold pos_le, pos_lt. lia. Qed.
Lemma pos_lt_le a b : pos_lt a b -> pos_le a b.
Proof. unfold pos_le, pos_lt. lia. Qed.

(** the accumulator of the Rust code: fold [max_error] *)
Definition fold_err (acc : option error) (e : error) : error :=
  match acc with Some a => max_error a e | None => e end.
Lemma reported_one e : reported [e] e.
Proof.
  exists 0. split; [reflexivity|]. split.
  - intros [|j] e' H; [injection H as <-; apply pos_le_refl|destruct j; discriminate].
  - intros [|[|j]] e' Hj H; try lia; discriminate.
Qed.
Lemma reported_snoc errs a e : reported errs a -> reported (errs ++ [e]) (max_error a e).
Proof.
  intros (i & Hi & Hle & Hlt). unfold max_error.
  assert (Hil : i < List.length errs) by (apply nth_error_Some; congruence).
  destruct (lc_ltb (sp_end (e_span e)) (sp_end (e_span a))) eqn:Ec.
  - apply lc_ltb_spec in Ec. exists i. split; [|split].
    + rewrite nth_error_app1; assumption.
    + intros j e' H. destruct (Nat.ltb_spec j (List.length errs)).
      * rewrite nth_error_app1 in H by assumption. eapply Hle; eassumption.
      * rewrite nth_error_app2 in H by assumption. destruct (j - List.length errs) as [|[|k]]; try discriminate.
        injection H as <-. apply pos_lt_le. exact Ec.
    + intros j e' Hj H. destruct (Nat.ltb_spec j (List.length errs)).
      * rewrite nth_error_app1 in H by assumption. eapply Hlt; eassumption.
      * rewrite nth_error_app2 in H by assumption. destruct (j - List.length errs) as [|[|k]]; try discriminate.
        injection H as <-. exact Ec.
  - assert (Ec' : pos_le (err_end a) (err_end e)).
    { destruct (lc_leb (err_end a) (err_end e)) eqn:L; [apply lc_leb_spec; exact L|].
      unfold lc_ltb in Ec. unfold err_end in L. rewrite L in Ec. discriminate. }
    exists (List.length errs). split; [|split].
    + rewrite nth_error_app2 by lia. rewrite Nat.sub_diag. reflexivity.
    + intros j e' H. destruct (Nat.ltb_spec j (List.length errs)).
      * rewrite nth_error_app1 in H by assumption. eapply pos_le_trans; [eapply Hle; eassumption|exact Ec'].
      * rewrite nth_error_app2 in H by assumption. destruct (j - List.length errs) as [|[|k]]; try discriminate.
        injection H as <-. apply pos_le_refl.
    + intros j e' Hj H.
      assert (j < List.length (errs ++ [e])) by (apply nth_error_Some; congruence).
      rewrite app_length in H0. cbn in H0. lia.
Qed.
Lemma reported_unique errs a b : reported errs a -> reported errs b -> a = b.
Proof.
  intros (i & Hi & Hle & Hlt) (j & Hj & Hle' & Hlt').
  destruct (Nat.lt_trichotomy i j) as [H|[H|H]].
  - specialize (Hlt j b H Hj). specialize (Hle' i a Hi). unfold pos_lt, pos_le in *. lia.
  - subst. congruence.
  - specialize (Hlt' i a H Hi). specialize (Hle j b Hj). unfold pos_lt, pos_le in *. lia.
Qed.

Lemma variants_ok en (vs : list variant) : Forall (fun v => lawful (vparser en v)) vs ->
  forall k0 acc s k xs s',
  p_variants en k0 acc vs s = (OOk (k, xs), s') <->
  exists i v, k = k0 + i /\ nth_error vs i = Some v /\ vparser en v s = (OOk xs, s') /\
    forall j w, j < i -> nth_error vs j = Some w -> exists e s1, vparser en w s = (OErr e, s1).
Proof.
  induction 1 as [|v vs Hv Hvs IH]; intros k0 acc s k xs s'.
  - cbn. split; [discriminate|]. intros (i & v & _ & H & _). destruct i; discriminate.
  - destruct v as [ct fs]. rewrite p_variants_speculate, speculate_spec by exact Hv.
    change (p_fields en ct fs) with (vparser en (ct, fs)).
    destruct (vparser en (ct, fs) s) as [[x|e| |] s1] eqn:Ep; split.
    + intro H. unfold ret in H. injection H as <- <- <-. exists 0, (ct, fs). split; [lia|].
      split; [reflexivity|]. split; [exact Ep|]. intros j w Hj. lia.
    + intros (i & v & -> & Hn & Hok & Hpre). destruct i as [|i].
      * injection Hn as <-. rewrite Ep in Hok. injection Hok as -> ->. unfold ret. f_equal. f_equal. f_equal. lia.
      * destruct (Hpre 0 (ct, fs)) as (e & s2 & H); [lia|reflexivity|]. rewrite Ep in H. discriminate.
    + intro H. apply IH in H as (i & v & -> & Hn & Hok & Hpre). exists (S i), v. split; [lia|].
      split; [exact Hn|]. split; [exact Hok|]. intros [|j] w Hj Hw.
      * injection Hw as <-. eauto.
      * apply (Hpre j); [lia|exact Hw].
    + intros (i & v & -> & Hn & Hok & Hpre). destruct i as [|i].
      * injection Hn as <-. rewrite Ep in Hok. discriminate.
      * apply IH. exists i, v. split; [lia|]. split; [exact Hn|]. split; [exact Hok|].
        intros j w Hj Hw. apply (Hpre (S j)); [lia|exact Hw].
    + discriminate.
    + intros (i & v & -> & Hn & Hok & Hpre). destruct i as [|i].
      * injection Hn as <-. rewrite Ep in Hok. discriminate.
      * destruct (Hpre 0 (ct, fs)) as (e & s2 & H); [lia|reflexivity|]. rewrite Ep in H. discriminate.
    + discriminate.
    + intros (i & v & -> & Hn & Hok & Hpre). destruct i as [|i].
      * injection Hn as <-. rewrite Ep in Hok. discriminate.
      * destruct (Hpre 0 (ct, fs)) as (e & s2 & H); [lia|reflexivity|]. rewrite Ep in H. discriminate.
Qed.

Lemma variants_err en (vs : list variant) : Forall (fun v => lawful (vparser en v)) vs ->
  forall k0 acc s e s',
  p_variants en k0 acc vs s = (OErr e, s') ->
  s' = s /\
  exists errs, Forall2 (fun v x => exists s1, vparser en v s = (OErr x, s1)) vs errs /\
    match fold_left (fun a x => Some (fold_err a x)) errs acc with
    | Some r => e = r
    | None => e = error_at s (T "parsing an empty choice (enum) always fails")
    end.
Proof.
  induction 1 as [|v vs Hv Hvs IH]; intros k0 acc s e s' H.
  - cbn in H. injection H as <- <-. split; [reflexivity|]. exists []. split; [constructor|]. cbn.
    destruct acc; reflexivity.
  - destruct v as [ct fs]. rewrite p_variants_speculate, speculate_spec in H by exact Hv.
    change (p_fields en ct fs) with (vparser en (ct, fs)) in H.
    destruct (vparser en (ct, fs) s) as [[x|e0| |] s1] eqn:Ep; try discriminate.
    apply IH in H as (-> & errs & H1 & H2). split; [reflexivity|]. exists (e0 :: errs).
    split; [constructor; eauto|]. exact H2.
Qed.
Lemma variants_err_conv en (vs : list variant) : Forall (fun v => lawful (vparser en v)) vs ->
  forall s errs, Forall2 (fun v x => exists s1, vparser en v s = (OErr x, s1)) vs errs ->
  forall k0 acc,
  p_variants en k0 acc vs s =
  (OErr match fold_left (fun a x => Some (fold_err a x)) errs acc with
        | Some r => r
        | None => error_at s (T "parsing an empty choice (enum) always fails")
        end, s).
Proof.
  intros Hl s errs H. revert Hl. induction H as [|v x vs errs (s1 & Hx) Hvs IH]; intros Hl k0 acc.
  - cbn. destruct acc; reflexivity.
  - inversion Hl; subst. destruct v as [ct fs]. rewrite p_variants_speculate, speculate_spec by assumption.
    change (p_fields en ct fs) with (vparser en (ct, fs)). rewrite Hx. rewrite IH by assumption.
    cbn [fold_left]. destruct acc; reflexivity.
Qed.

Lemma fold_reported errs : forall pre acc, reported pre acc ->
  exists r, fold_left (fun a x => Some (fold_err a x)) errs (Some acc) = Some r /\ reported (pre ++ errs) r.
Proof.
  induction errs as [|x errs IH]; intros pre acc H; cbn.
  - exists acc. rewrite app_nil_r. auto.
  - destruct (IH (pre ++ [x]) (max_error acc x)) as (r & H1 & H2); [apply reported_snoc; exact H|].
    exists r. split; [exact H1|]. rewrite <- app_assoc in H2. exact H2.
Qed.
Lemma fold_reported0 x errs :
  exists r, fold_left (fun a x => Some (fold_err a x)) (x :: errs) None = Some r /\ reported (x :: errs) r.
Proof. cbn. apply (fold_reported errs [x] x). apply reported_one. Qed.
End Seq.

(** ** [Maybe], [Either], [Any], [Separated], [Punctuated], groups. *)
Lemma maybe_ok {P A} (pp : parser P) (pa : parser A) s r s' : lawful pp ->
  p_maybe pp pa s = (OOk r, s') <->
  match r with
  | None => (exists e, no (of_parser pp) s e) /\ s' = s
  | Some (x, v) => exists s1, yes (of_parser pp) s x s1 /\ yes (of_parser pa) s1 v s'
  end.
Proof.
  intro Hp. rewrite p_maybe_speculate, speculate_spec by exact Hp. cbn [of_parser yes no].
  destruct (pp s) as [[x|e| |] s1] eqn:E.
  - rewrite bind_ok. split.
    + intros (v & s2 & H1 & H2). unfold ret in H2. injection H2 as <- <-. exists s1. auto.
    + destruct r as [[y w]|].
      * intros (s2 & H1 & H2). injection H1 as <- <-. exists w, s'. split; [exact H2|reflexivity].
      * intros ((e & s2 & H) & _). discriminate.
  - unfold ret. split.
    + intro H. injection H as <- <-. split; [|reflexivity]. eauto.
    + destruct r as [[y w]|].
      * intros (s2 & H1 & H2). discriminate.
      * intros (_ & ->). reflexivity.
  - split; [discriminate|]. destruct r as [[y w]|]; [intros (?&?&?); discriminate|].
    intros ((e & s2 & H) & _). discriminate.
  - split; [discriminate|]. destruct r as [[y w]|]; [intros (?&?&?); discriminate|].
    intros ((e & s2 & H) & _). discriminate.
Qed.
Lemma maybe_err {P A} (pp : parser P) (pa : parser A) s e : lawful pp ->
  no (of_parser (p_maybe pp pa)) s e <->
  exists x s1, yes (of_parser pp) s x s1 /\ no (of_parser pa) s1 e.
Proof.
  intro Hp. cbn [of_parser yes no]. rewrite p_maybe_speculate, speculate_spec by exact Hp.
  destruct (pp s) as [[x|e0| |] s1] eqn:E.
  - split.
    + intros (s' & H). apply bind_err in H as [H|(?&?&?&H)]; [|discriminate]. eauto 6.
    + intros (y & s2 & H1 & (s' & H2)). injection H1 as <- <-. exists s'. apply bind_err. auto.
  - split; [intros (?&?); discriminate|]. intros (?&?&?&?). discriminate.
  - split; [intros (?&?); discriminate|]. intros (?&?&?&?). discriminate.
  - split; [intros (?&?); discriminate|]. intros (?&?&?&?). discriminate.
Qed.

Lemma either_ok {L R} (pl : parser L) (pr : parser R) s r s' : lawful pl -> lawful pr ->
  p_either pl pr s = (OOk r, s') <->
  match r with
  | ELeft v => yes (of_parser pl) s v s'
  | ERight v => (exists e, no (of_parser pl) s e) /\ yes (of_parser pr) s v s'
  end.
Proof.
  intros Hl Hr. rewrite p_either_speculate, speculate_spec by exact Hl. cbn [of_parser yes no].
  destruct (pl s) as [[x|e| |] s1] eqn:E; [| |destruct r; split; try discriminate; intros ((?&?&?)&?); discriminate..].
  - unfold ret. destruct r; split; intro H; try congruence. destruct H as ((?&?&?)&?). discriminate.
  - rewrite speculate_spec by exact Hr.
    destruct (pr s) as [[y|e2| |] s2] eqn:E2; destruct r; split; try discriminate; unfold ret; intro H;
      try (destruct H as ((?&?&?)&?); congruence).
    injection H as -> ->. eauto 6.
Qed.
Lemma either_err {L R} (pl : parser L) (pr : parser R) s e : lawful pl -> lawful pr ->
  no (of_parser (p_either pl pr)) s e <->
  exists e1 e2, no (of_parser pl) s e1 /\ no (of_parser pr) s e2 /\ reported [e1; e2] e.
Proof.
  intros Hl Hr. cbn [of_parser yes no]. rewrite p_either_speculate, speculate_spec by exact Hl.
  destruct (pl s) as [[x|e1| |] s1] eqn:E;
    [split; [intros (?&?); discriminate|intros (?&?&(?&?)&?); discriminate]| |
     split; [intros (?&?); discriminate|intros (?&?&(?&?)&?); discriminate]..].
  rewrite speculate_spec by exact Hr.
  destruct (pr s) as [[y|e2| |] s2] eqn:E2;
    [split; [intros (?&?); discriminate|intros (?&?&?&(?&?)&?); discriminate]| |
     split; [intros (?&?); discriminate|intros (?&?&?&(?&?)&?); discriminate]..].
  assert (HR : reported [e1; e2] (max_error e1 e2)) by apply (reported_snoc [e1]), reported_one.
  unfold fail. split.
  - intros (s' & H). injection H as <- <-. exists e1, e2. eauto.
  - intros (a & b & (s3 & Ha) & (s4 & Hb) & Hrep). injection Ha as <- <-. injection Hb as <- <-.
    exists s. f_equal. f_equal. eapply reported_unique; eassumption.
Qed.

Lemma any_loop_ok {A} (pa : parser A) : lawful pa -> forall n acc s l s',
  any_loop n pa acc s = (OOk l, s') -> exists r, l = rev acc ++ r /\ run_yes (of_parser pa) s r s'.
Proof.
  intros Ha n. induction n as [|n IH]; intros acc s l s' H; [discriminate|].
  rewrite any_loop_speculate, speculate_spec in H by exact Ha.
  destruct (pa s) as [[v|e| |] s1] eqn:E; try discriminate.
  - apply IH in H as (r & -> & H). exists (v :: r). split; [cbn; rewrite <- app_assoc; reflexivity|].
    econstructor; [exact E|exact H].
  - unfold ret in H. injection H as <- <-. exists []. split; [rewrite app_nil_r; reflexivity|].
    econstructor. exists s1. exact E.
Qed.
Lemma any_loop_ok_conv {A} (pa : parser A) : lawful pa -> forall s r s',
  run_yes (of_parser pa) s r s' -> forall acc,
  any_loop (S (List.length r)) pa acc s = (OOk (rev acc ++ r), s').
Proof.
  intros Ha s r s' H. induction H as [s e (s1 & H)|s v s1 vs s2 H Hr IH]; intro acc.
  - rewrite any_loop_speculate, speculate_spec by exact Ha. rewrite H, app_nil_r. reflexivity.
  - cbn [List.length]. rewrite any_loop_speculate, speculate_spec by exact Ha. cbn in H. rewrite H.
    rewrite IH. cbn [rev]. rewrite <- app_assoc. reflexivity.
Qed.
Lemma any_never_err {A} (pa : parser A) n s e s' : p_any n pa s <> (OErr e, s').
Proof.
  unfold p_any. generalize (@nil A). revert s. induction n as [|n IH]; intros s acc; [discriminate|].
  cbn [any_loop]. destruct (pa (fork s)) as [[v|e0| |] fk]; try discriminate. apply IH.
Qed.

Lemma separated_loop_ok {A P} (pa : parser A) (pp : parser P) : lawful pp -> forall n acc cur s x s',
  separated_loop n pa pp acc cur s = (OOk x, s') ->
  exists l, tail_yes (of_parser pa) (of_parser pp) s l s' /\
    x = Pn (rev acc ++ fst (pairs_of cur l)) (Some (snd (pairs_of cur l))).
Proof.
  intros Hp n. induction n as [|n IH]; intros acc cur s x s' H; [discriminate|].
  rewrite separated_loop_speculate, speculate_spec in H by exact Hp.
  destruct (pp s) as [[p|e| |] s1] eqn:E; try discriminate.
  - apply bind_ok in H as (v & s2 & H1 & H2). apply IH in H2 as (l & Hl & ->).
    exists ((p, v) :: l). split; [econstructor; [exact E|exact H1|exact Hl]|].
    cbn [pairs_of]. destruct (pairs_of v l) as [ps z]. cbn. rewrite <- app_assoc. reflexivity.
  - unfold ret in H. injection H as <- <-. exists []. split; [econstructor; exists s1; exact E|].
    cbn. rewrite app_nil_r. reflexivity.
Qed.
Lemma separated_loop_ok_conv {A P} (pa : parser A) (pp : parser P) : lawful pp -> forall s l s',
  tail_yes (of_parser pa) (of_parser pp) s l s' -> forall acc cur,
  separated_loop (S (List.length l)) pa pp acc cur s =
  (OOk (Pn (rev acc ++ fst (pairs_of cur l)) (Some (snd (pairs_of cur l)))), s').
Proof.
  intros Hp s l s' H. induction H as [s e (s1 & H)|s p s1 v s2 l s3 H1 H2 Hr IH]; intros acc cur.
  - rewrite separated_loop_speculate, speculate_spec by exact Hp. rewrite H. cbn. rewrite app_nil_r. reflexivity.
  - cbn [List.length]. rewrite separated_loop_speculate, speculate_spec by exact Hp. cbn in H1, H2. rewrite H1.
    unfold bind. rewrite H2, IH. cbn [pairs_of]. destruct (pairs_of v l) as [ps z]. cbn [rev fst snd].
    rewrite <- app_assoc. reflexivity.
Qed.
Lemma separated_loop_err {A P} (pa : parser A) (pp : parser P) : lawful pp -> forall n acc cur s e s',
  separated_loop n pa pp acc cur s = (OErr e, s') -> tail_no (of_parser pa) (of_parser pp) s e.
Proof.
  intros Hp n. induction n as [|n IH]; intros acc cur s e s' H; [discriminate|].
  rewrite separated_loop_speculate, speculate_spec in H by exact Hp.
  destruct (pp s) as [[p|e0| |] s1] eqn:E; try discriminate.
  apply bind_err in H as [H|(v & s2 & H1 & H2)].
  - eapply tail_fail; [exact E|]. exists s'. exact H.
  - eapply tail_later; [exact E|exact H1|]. eapply IH. exact H2.
Qed.
Lemma separated_loop_err_conv {A P} (pa : parser A) (pp : parser P) : lawful pp -> forall s e,
  tail_no (of_parser pa) (of_parser pp) s e -> exists n, forall acc cur, exists s',
  separated_loop n pa pp acc cur s = (OErr e, s').
Proof.
  intros Hp s e H. induction H as [s p s1 e H1 (s2 & H2)|s p s1 v s2 e H1 H2 Hr (n & IH)]; cbn in H1, H2.
  - exists 1. intros acc cur. rewrite separated_loop_speculate, speculate_spec by exact Hp. rewrite H1.
    unfold bind. rewrite H2. eauto.
  - exists (S n). intros acc cur. rewrite separated_loop_speculate, speculate_spec by exact Hp. rewrite H1.
    unfold bind. rewrite H2. apply IH.
Qed.

Lemma is_empty_true s : is_empty s = true <-> ps_rest s = [].
Proof. unfold is_empty. destruct (ps_rest s); split; congruence. Qed.
Lemma is_empty_false s : is_empty s = false <-> ps_rest s <> [].
Proof. unfold is_empty. destruct (ps_rest s); split; congruence. Qed.

Lemma terminated_loop_S {A P} (pa : parser A) (pp : parser P) f acc s :
  terminated_loop (S f) pa pp acc s =
  if is_empty s then (OOk (Pn (rev acc) None), s)
  else bind pa (fun v => fun s1 =>
         if is_empty s1 then (OOk (Pn (rev acc) (Some v)), s1)
         else bind pp (fun p => terminated_loop f pa pp ((v, p) :: acc)) s1) s.
Proof. reflexivity. Qed.
Lemma terminated_loop_ok {A P} (pa : parser A) (pp : parser P) n : forall acc s x s',
  terminated_loop n pa pp acc s = (OOk x, s') ->
  exists l o, fill_yes (of_parser pa) (of_parser pp) s l o s' /\ x = Pn (rev acc ++ l) o.
Proof.
  induction n as [|n IH]; intros acc s x s' H; [discriminate|]. cbn [terminated_loop] in H.
  destruct (is_empty s) eqn:E.
  - injection H as <- <-. exists [], None. rewrite app_nil_r. split; [|reflexivity].
    constructor. apply is_empty_true. exact E.
  - apply is_empty_false in E. apply bind_ok in H as (v & s1 & H1 & H2).
    destruct (is_empty s1) eqn:E1.
    + injection H2 as <- <-. exists [], (Some v). rewrite app_nil_r. split; [|reflexivity].
      apply fill_last; [exact E|exact H1|]. apply is_empty_true. exact E1.
    + apply is_empty_false in E1. apply bind_ok in H2 as (p & s2 & H2 & H3).
      apply IH in H3 as (l & o & H3 & ->). exists ((v, p) :: l), o.
      split; [|cbn; rewrite <- app_assoc; reflexivity].
      eapply fill_step; [exact E|exact H1|exact E1|exact H2|exact H3].
Qed.
Lemma terminated_loop_ok_conv {A P} (pa : parser A) (pp : parser P) s l o s' :
  fill_yes (of_parser pa) (of_parser pp) s l o s' -> forall acc,
  terminated_loop (S (List.length l)) pa pp acc s = (OOk (Pn (rev acc ++ l) o), s').
Proof.
  intro H. induction H as [s E|s v s1 E H1 E1|s v s1 p s2 l o s3 E H1 E1 H2 Hr IH]; intro acc;
    cbn [List.length]; rewrite terminated_loop_S.
  - apply is_empty_true in E. rewrite E, app_nil_r. reflexivity.
  - apply is_empty_false in E. apply is_empty_true in E1. cbn in H1. rewrite E. unfold bind. rewrite H1, E1, app_nil_r. reflexivity.
  - apply is_empty_false in E. apply is_empty_false in E1. cbn in H1, H2. rewrite E. unfold bind at 1. rewrite H1, E1.
    unfold bind. rewrite H2, IH. cbn [rev]. rewrite <- app_assoc. reflexivity.
Qed.
Lemma terminated_loop_err {A P} (pa : parser A) (pp : parser P) n : forall acc s e s',
  terminated_loop n pa pp acc s = (OErr e, s') -> fill_no (of_parser pa) (of_parser pp) s e.
Proof.
  induction n as [|n IH]; intros acc s e s' H; [discriminate|]. cbn [terminated_loop] in H.
  destruct (is_empty s) eqn:E; [discriminate|].
  apply is_empty_false in E. apply bind_err in H as [H|(v & s1 & H1 & H2)].
  - apply fill_no_item; [exact E|]. exists s'. exact H.
  - destruct (is_empty s1) eqn:E1; [discriminate|]. apply is_empty_false in E1.
    apply bind_err in H2 as [H2|(p & s2 & H2 & H3)].
    + eapply fill_no_punct; [exact E|exact H1|exact E1|]. exists s'. exact H2.
    + eapply fill_no_later; [exact E|exact H1|exact E1|exact H2|]. eapply IH; exact H3.
Qed.
Lemma terminated_loop_err_conv {A P} (pa : parser A) (pp : parser P) s e :
  fill_no (of_parser pa) (of_parser pp) s e -> exists n, forall acc, exists s',
  terminated_loop n pa pp acc s = (OErr e, s').
Proof.
  intro H. induction H as [s e E (s' & H)|s v s1 e E H1 E1 (s' & H)|s v s1 p s2 e E H1 E1 H2 Hr (n & IH)];
    apply is_empty_false in E.
  - exists 1. intro acc. cbn [terminated_loop]. rewrite E. unfold bind. rewrite H. eauto.
  - apply is_empty_false in E1. cbn in H1. exists 1. intro acc. cbn [terminated_loop]. rewrite E. unfold bind. rewrite H1, E1, H. eauto.
  - apply is_empty_false in E1. cbn in H1, H2. exists (S n). intro acc. cbn [terminated_loop]. rewrite E. unfold bind. rewrite H1, E1, H2. apply IH.
Qed.

(** ** Groups. *)
Lemma group_ok {A} d (p : parser A) s sp v s' :
  p_group d p s = (OOk (sp, v), s') <->
  exists inner r si, ignore_none (ps_rest s) = TGroup d sp inner :: r /\
    p (PS inner (close_span sp) (ps_unexp s)) = (OOk v, si) /\
    s' = PS r (ps_scope s) (drop_unexp (ps_unexp si) (ps_rest si)).
Proof.
  unfold p_group. destruct (ignore_none (ps_rest s)) as [|[n0 sp0|c0 s0 sp0|r0 sp0|d' sp' i] r] eqn:E;
    try (split; [discriminate|intros (?&?&?&?&?); discriminate]).
  destruct (delim_eqb d d') eqn:Ed.
  - apply delim_eqb_eq in Ed. subst d'.
    destruct (p (PS i (close_span sp') (ps_unexp s))) as [[w|e| |] si] eqn:Ep; split; intro H;
      try discriminate.
    + injection H as <- <- <-. exists i, r, si. auto.
    + destruct H as (i' & r' & si' & H1 & H2 & ->). injection H1 as <- <- <-. rewrite Ep in H2.
      injection H2 as <- <-. reflexivity.
    + destruct H as (i' & r' & si' & H1 & H2 & ->). injection H1 as <- <- <-. rewrite Ep in H2. discriminate.
    + destruct H as (i' & r' & si' & H1 & H2 & ->). injection H1 as <- <- <-. rewrite Ep in H2. discriminate.
    + destruct H as (i' & r' & si' & H1 & H2 & ->). injection H1 as <- <- <-. rewrite Ep in H2. discriminate.
  - split; [discriminate|]. intros (?&?&?&H&?). injection H as -> _ _ _. rewrite delim_eqb_refl in Ed. discriminate.
Qed.
Lemma group_err {A} d (p : parser A) s e :
  no (of_parser (p_group d p)) s e <->
  (exists sp inner r, ignore_none (ps_rest s) = TGroup d sp inner :: r /\
     no (of_parser p) (PS inner (close_span sp) (ps_unexp s)) e) \/
  ((forall sp inner r, ignore_none (ps_rest s) <> TGroup d sp inner :: r) /\
   e = error_at s (delim_msg d)).
Proof.
  cbn [of_parser no]. unfold p_group. split.
  - intros (s' & H). destruct (ignore_none (ps_rest s)) as [|[n0 sp0|c0 s0 sp0|r0 sp0|d' sp' i] r] eqn:E;
      try (right; split; [intros sp1 i1 r1 H1; discriminate|congruence]).
    destruct (delim_eqb d d') eqn:Ed.
    + apply delim_eqb_eq in Ed. subst d'. left. exists sp', i, r. split; [reflexivity|].
      destruct (p (PS i (close_span sp') (ps_unexp s))) as [[w|e1| |] si] eqn:Ep; try discriminate.
      injection H as <- <-. eauto.
    + right. split; [|congruence]. intros sp inner r' H'. injection H' as -> _ _ _. rewrite delim_eqb_refl in Ed. discriminate.
  - intros [(sp & inner & r & H1 & (si & H2))|(H1 & ->)].
    + rewrite H1, delim_eqb_refl, H2. eauto.
    + destruct (ignore_none (ps_rest s)) as [|[n0 sp0|c0 s0 sp0|r0 sp0|d' sp' i] r] eqn:E; eauto.
      destruct (delim_eqb d d') eqn:Ed; eauto. apply delim_eqb_eq in Ed. subst. exfalso. eapply H1. reflexivity.
Qed.
