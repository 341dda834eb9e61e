(** * Furthest: where errors point, and when the reported one is the furthest. *)
From Verif Require Import Base Float Literal Syn Ast Derive Grammar Spec SynFacts Lawful Mono Combinators GrammarBeh Assoc Origin.

Lemma spots_app a b : spots (a ++ b) = spots a ++ spots b.
Proof. induction a; cbn; [reflexivity|]. rewrite IHa. apply app_assoc. Qed.
Lemma spots1_group d sp l : spots1 (TGroup d sp l) = open_span sp :: spots l ++ [close_span sp].
Proof. cbn. f_equal. Qed.
Lemma spots1_head t : exists r, spots1 t = head_span t :: r.
Proof. destruct t; cbn; eauto. Qed.

(** [s] is a position in the source [ts] *)
Definition within (ts : list tt) (s : pstate) : Prop :=
  visible (ps_rest s) = true /\
  ((ps_scope s = call_site /\ exists a, spots ts = a ++ spots (ps_rest s)) \/
   exists a b, spots ts = a ++ spots (ps_rest s) ++ ps_scope s :: b).

Lemma pops_visible l l' : pops l l' -> visible l = true -> visible l' = true /\ exists a, l = a ++ l'.
Proof.
  induction 1 as [l|x r l H IH|sp i r l H IH]; intro Hv.
  - split; [exact Hv|]. exists []. reflexivity.
  - cbn in Hv. apply andb_true_iff in Hv as [_ Hv]. destruct (IH Hv) as (H1 & a & ->). split; [exact H1|]. exists (x :: a). reflexivity.
  - cbn in Hv. discriminate.
Qed.
Lemma within_pops ts s s' : within ts s -> pops (ps_rest s) (ps_rest s') -> ps_scope s' = ps_scope s -> within ts s'.
Proof.
  intros (Hv & H) Hp Hs. destruct (pops_visible _ _ Hp Hv) as (Hv' & c & Hc). split; [exact Hv'|].
  rewrite Hs. rewrite Hc, spots_app in H. destruct H as [(Hsc & a & H)|(a & b & H)].
  - left. split; [exact Hsc|]. exists (a ++ spots c). rewrite <- app_assoc. exact H.
  - right. exists (a ++ spots c), b. rewrite H, <- !app_assoc. reflexivity.
Qed.
Lemma within_group ts s d sp inner r u : within ts s -> ignore_none (ps_rest s) = TGroup d sp inner :: r ->
  within ts (PS inner (close_span sp) u).
Proof.
  intros (Hv & H) Hi. rewrite visible_ignore_none in Hi by exact Hv. rewrite Hi in *.
  assert (Hv' : visible inner = true).
  { cbn [visible] in Hv. apply andb_true_iff in Hv as [Hv _]. rewrite visible1_group in Hv. destruct d; [exact Hv..|discriminate]. }
  split; [exact Hv'|]. cbn [ps_rest ps_scope]. right.
  cbn [spots] in H. rewrite spots1_group in H. destruct H as [(_ & a & H)|(a & b & H)].
  - exists (a ++ [open_span sp]), (spots r). rewrite H, <- !app_assoc. cbn. rewrite <- app_assoc. reflexivity.
  - exists (a ++ [open_span sp]), (spots r ++ ps_scope s :: b). rewrite H, <- !app_assoc. cbn. rewrite <- !app_assoc. reflexivity.
Qed.
Lemma within_start ts : visible ts = true -> within ts (start ts).
Proof. intro H. split; [exact H|]. left. split; [reflexivity|]. exists []. reflexivity. Qed.

Lemma within_spot ts s : within ts s -> (ps_rest s <> [] \/ ps_scope s <> call_site) ->
  In (stream_span s) (spots ts).
Proof.
  intros (Hv & H) Hne. unfold stream_span. destruct (ps_rest s) as [|t r].
  - destruct H as [(H & _)|(a & b & H)]; [destruct Hne; contradiction|].
    rewrite H. cbn. apply in_or_app. right. left. reflexivity.
  - destruct (spots1_head t) as (q & Hq). cbn [spots] in H. rewrite Hq in H.
    destruct H as [(_ & a & H)|(a & b & H)]; rewrite H; apply in_or_app; right; left; reflexivity.
Qed.

Section G.
Context {U : unicode}.
Variable E : env.

Lemma yes_frame t s v s' : yes (tbeh E t) s v s' -> frame s s'.
Proof. intros (n & H). eapply (proj1 (lawful_pty E n t)). exact H. Qed.
Lemma seq_frame ts s vs s' : seq_yes (map (tbeh E) ts) s vs s' -> frame s s'.
Proof.
  revert s vs. induction ts as [|t ts IH]; intros s vs H; cbn in H; inversion H; subst; [apply frame_refl|].
  eapply frame_trans; [eapply yes_frame; eassumption|]. eapply IH. eassumption.
Qed.
Lemma within_frame ts s s' : within ts s -> frame s s' -> within ts s'.
Proof. intros H (H1 & H2 & _). eapply within_pops; eauto. Qed.

Lemma origin_within ts t s path s0 e : origin E t s path s0 e -> within ts s -> within ts s0.
Proof.
  intros H. induction H; intro Hw; auto;
  repeat match goal with
  | H : yes (tbeh E ?t) ?s ?x ?s1, W : within ts ?s |- _ =>
      lazymatch goal with
      | _ : within ts s1 |- _ => fail
      | _ => assert (within ts s1) by (eapply within_frame; [exact W|eapply yes_frame; exact H])
      end
  end; auto.
  - apply IHorigin. eapply within_group; eassumption.
  - apply IHorigin. eapply within_frame; [exact Hw|eapply seq_frame; eassumption].
  - apply IHorigin. eapply within_frame; [exact Hw|eapply seq_frame; eassumption].
Qed.

(** The one kind of error that points at more than one token. *)
Definition negative_literal (s : pstate) (sp : span) : Prop :=
  exists sg sp1 repr sp2 r, ps_rest s = TPunct 45%N sg sp1 :: TLit repr sp2 :: r /\ sp = join_or sp1 sp2.

Lemma error_at_span s m : e_span (error_at s m) = stream_span s.
Proof. unfold error_at, stream_span. destruct (ps_rest s); reflexivity. Qed.

Lemma p_lit_span s k sp s' : visible (ps_rest s) = true -> p_lit s = (OOk (k, sp), s') ->
  sp = stream_span s \/ negative_literal s sp.
Proof.
  intros Hv H. unfold p_lit in H. rewrite visible_ignore_none in H by exact Hv.
  unfold stream_span, negative_literal.
  destruct (ps_rest s) as [|[n1 sp1|c1 s1 sp1|r1 sp1|d1 sp1 i1] r] eqn:Er; try discriminate.
  - destruct (text_eqb n1 (T "true")); [injection H as <- <- <-; auto|].
    destruct (text_eqb n1 (T "false")); [injection H as <- <- <-; auto|discriminate].
  - destruct (c1 =? 45)%N eqn:Ec; [|discriminate]. apply N.eqb_eq in Ec. subst.
    cbn in Hv. rewrite visible_ignore_none in H by exact Hv.
    destruct r as [|[n2 sp2|c2 s2 sp2|r2 sp2|d2 sp2 i2] r']; try discriminate.
    destruct (lit_num (45%N :: r2)); [|discriminate]. injection H as <- <- <-.
    right. exists s1, sp1, r2, sp2, r'. auto.
  - destruct (lit_new r1); [|discriminate]. injection H as <- <- <-. auto.
Qed.

Lemma leaf_span t s e : raises_itself t -> visible (ps_rest s) = true -> no (tbeh E t) s e ->
  e_span e = stream_span s \/ negative_literal s (e_span e).
Proof.
  intros Hr Hv Hn. apply tbeh_no_layer in Hn as (n & s' & H).
  assert (Htyped : forall A (sel : slit -> option A) w s2, p_typed sel w s = (OErr e, s2) -> e_span e = stream_span s).
  { intros A sel w s2 H2. unfold p_typed in H2. destruct (p_lit s) as [[[k sp]|e1| |] s1]; try discriminate.
    - destruct (sel k); [discriminate|]. injection H2 as <- _. apply error_at_span.
    - injection H2 as <- _. apply error_at_span. }
  assert (Htyped_sp : forall A (sel : slit -> option A) w x sp s2, p_typed sel w s = (OOk (x, sp), s2) ->
     sp = stream_span s \/ negative_literal s sp).
  { intros A sel w x sp s2 H2. unfold p_typed in H2. destruct (p_lit s) as [[[k sp1]|e1| |] s1] eqn:El; try discriminate.
    destruct (sel k); [|discriminate]. injection H2 as <- <- <-. eapply p_lit_span; eassumption. }
  assert (Hany : forall s2, p_lit s = (OErr e, s2) -> e_span e = stream_span s).
  { intros s2 H2. unfold p_lit in H2.
    repeat match type of H2 with
    | (match ?x with _ => _ end) = _ => destruct x; try discriminate
    end; injection H2 as <- _; apply error_at_span. }
  destruct t; try contradiction; cbn [p_layer] in H; apply pmap_err in H.
  - left. unfold p_ident in H. repeat match type of H with
      | (match ?x with _ => _ end) = _ => destruct x; try discriminate end; injection H as <- _; apply error_at_span.
  - left. unfold p_custom_ident in H. apply bind_err in H as [H|([nm sp] & s1 & H1 & H2)].
    + unfold p_ident_any in H. repeat match type of H with
      | (match ?x with _ => _ end) = _ => destruct x; try discriminate end; injection H as <- _; apply error_at_span.
    + destruct (text_mem _ _); [|discriminate]. injection H2 as <- _. cbn [e_span snd].
      unfold p_ident_any in H1. rewrite visible_ignore_none in H1 by exact Hv. unfold stream_span.
      destruct (ps_rest s) as [|[n1 sp1|c1 s2 sp1|r1 sp1|d1 sp1 i1] r]; try discriminate. injection H1 as <- <- _. reflexivity.
  - left. unfold p_keyword in H. apply bind_err in H as [H|([nm sp] & s1 & H1 & H2)].
    + unfold p_ident_any in H. repeat match type of H with
      | (match ?x with _ => _ end) = _ => destruct x; try discriminate end; injection H as <- _; apply error_at_span.
    + destruct (text_eqb _ _); [discriminate|]. injection H2 as <- _. cbn [e_span snd].
      unfold p_ident_any in H1. rewrite visible_ignore_none in H1 by exact Hv. unfold stream_span.
      destruct (ps_rest s) as [|[n1 sp1|c1 s2 sp1|r1 sp1|d1 sp1 i1] r]; try discriminate. injection H1 as <- <- _. reflexivity.
  - left. unfold p_token_kw in H. repeat match type of H with
      | (match ?x with _ => _ end) = _ => destruct x; try discriminate end; injection H as <- _; apply error_at_span.
  - left. unfold p_token in H. destruct (take_op _ _) as [[? ?]|]; [discriminate|]. injection H as <- _. cbn [e_span].
    unfold op_error_span, stream_span. rewrite visible_ignore_none by exact Hv.
    destruct (ps_rest s) as [|[n1 sp1|c1 s2 sp1|r1 sp1|d1 sp1 i1] r]; try reflexivity. destruct (c1 =? 39)%N; reflexivity.
  - destruct k; cbn [p_litty] in H;
      unfold p_lit_bool, p_lit_byte, p_lit_int, p_lit_uint, p_lit_float, p_lit_char, p_lit_str, p_lit_byte_str, and_then in H;
      apply bind_err in H as [H|([x sp] & s1 & H1 & H2)];
      try (left; eapply Htyped; exact H); cbn in H2; try discriminate H2.
    all: apply Htyped_sp in H1; unfold int_try_from, uint_try_from, float_try_from in H2.
    + destruct (read_i64 x); [discriminate|]. injection H2 as <- _. exact H1.
    + destruct (read_u64 x); [discriminate|]. injection H2 as <- _. exact H1.
    + destruct (float_read x); [discriminate|]. injection H2 as <- _. exact H1.
  - unfold p_any_lit, and_then in H. apply bind_err in H as [H|([x sp] & s1 & H1 & H2)]; [left; eapply Hany; exact H|].
    apply p_lit_span in H1; [|exact Hv]. unfold lit_try_from, int_try_from, uint_try_from, float_try_from in H2.
    repeat match type of H2 with
    | ((match ?x with _ => _ end), _) = _ => destruct x; try discriminate
    | (match ?x with _ => _ end) = _ => destruct x; try discriminate
    end; injection H2 as <- _; exact H1.
  - left. unfold p_eof in H. destruct (is_empty s); [discriminate|]. injection H as <- _. apply error_at_span.
  - left. unfold p_not_eof in H. destruct (is_empty s); [|discriminate]. injection H as <- _. apply error_at_span.
Qed.

(** every error raised in a visible source points at the place where its node got stuck *)
Lemma origin_span ts t s path s0 e : origin E t s path s0 e -> within ts s ->
  e_span e = stream_span s0 \/ negative_literal s0 (e_span e).
Proof.
  intros H. induction H; intro Hw; auto; try (left; apply error_at_span);
  repeat match goal with
  | H : yes (tbeh E ?t) ?s ?x ?s1, W : within ts ?s |- _ =>
      lazymatch goal with
      | _ : within ts s1 |- _ => fail
      | _ => assert (within ts s1) by (eapply within_frame; [exact W|eapply yes_frame; exact H])
      end
  end; auto.
  - eapply leaf_span; [eassumption| |eassumption]. apply Hw.
  - apply IHorigin. eapply within_group; eassumption.
  - apply IHorigin. eapply within_frame; [exact Hw|eapply seq_frame; eassumption].
  - apply IHorigin. eapply within_frame; [exact Hw|eapply seq_frame; eassumption].
Qed.
End G.

(** the reported error is the one whose place is furthest in the source *)
Lemma reported_furthest l errs e : in_source_order l -> reported errs e ->
  (forall x, In x errs -> In (e_span x) l) ->
  exists k, nth_error l k = Some (e_span e) /\
    forall x j, In x errs -> nth_error l j = Some (e_span x) -> j <= k.
Proof.
  intros Hl (i & Hi & Hle & Hlt) Hin.
  destruct (In_nth_error _ _ (Hin e (nth_error_In _ _ Hi))) as (k & Hk).
  exists k. split; [exact Hk|]. intros x j Hx Hj.
  destruct (Nat.le_gt_cases j k) as [H|H]; [exact H|]. exfalso.
  specialize (Hl k j _ _ H Hk Hj). destruct (In_nth_error _ _ Hx) as (q & Hq).
  specialize (Hle q x Hq). unfold err_end, pos_lt, pos_le in *. lia.
Qed.
