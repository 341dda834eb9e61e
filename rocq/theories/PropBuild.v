(** * PropBuild: trees made and changed by hand (C57). *)
From Verif Require Import Base Float Literal Syn Ast Derive Grammar Spec LitSpec Reprint Sound PropLit Typed LL1 LL1Facts LL1Check TermCheck
  Lexer LexFacts LexWf LexOut LexPrint LexLit Writable ParsedTyped PropAgain TypedWritable PropLL1 PropStr NodeSpan Punctuated PropSeq Assoc SynFacts Build Usage PropUsage Examples.
Local Open Scope nat_scope.

(** ** What can be obtained through the API

    [obtainable E t v]: there is a history of calls of the public API that ends with the value [v] of
    type [t].  Three things are asked of the caller (see the refutations below for what happens
    otherwise): an [Ident] put into a tree is no Rust keyword; an integer put into a [Lit] is a
    [Lit::Int] exactly if it is negative; a [Many] does not end in its (invisible) separator. *)
Section Obtainable.
Context {U : unicode} (E : env).
Definition not_keyword (v : val) : Prop := match v with VIdent n _ => ~ In n rust_keywords | _ => False end.
Definition ends_in_separator (x : punctuated val val) : Prop := pn_last x = None /\ pn_inner x <> [].
Inductive obtainable : ty -> val -> Prop :=
(* from text ([punct_ops]: the operators of the type are operators) *)
| ob_from_str t file src v : leaves punct_ops t -> forallb valid_char src = true -> from_str E t file src v ->
    (~ In (LInt 0) (val_lits v) \/ (env_leaves not_any_lit E /\ leaves not_any_lit t)) -> obtainable t v
(* leaves *)
| ob_ident v : some_ident v -> not_keyword v -> obtainable TyIdent v
| ob_word s sp v : word_new s sp = Some v -> obtainable (TyCustomIdent []) v
| ob_custom kws v w : some_ident v -> custom_try_from kws v = Some w -> obtainable (TyCustomIdent kws) w
| ob_keyword kw sp : obtainable (TyKeyword kw) (keyword_new kw sp)
| ob_token_kw kw sp : obtainable (TyTokenKw kw) (keyword_new kw sp)
| ob_token op sps : List.length sps = List.length op -> obtainable (TyToken op) (token_new op sps)
| ob_lit l sp : lit_valid l -> obtainable (TyLit (litty_of l)) (lit_make l sp)
| ob_any_lit k l sp : obtainable (TyLit k) (VLit l sp) -> by_sign l = l -> obtainable TyAnyLit (VLit l sp)
| ob_lit_of_any l sp : obtainable TyAnyLit (VLit l sp) -> obtainable (TyLit (litty_of l)) (VLit l sp)
| ob_unit t : In t [TyEmpty; TyEof; TyNotEof] -> obtainable t VUnit
| ob_default t v : default_val t = Some v -> obtainable t v
| ob_set_span t v sp w : obtainable t v -> set_span sp v = Some w -> obtainable t w
(* inner nodes *)
| ob_maybe_new a b : obtainable (TyMaybe a b) maybe_new
| ob_maybe_parts a b x y : obtainable a x -> obtainable b y -> obtainable (TyMaybe a b) (maybe_from_parts x y)
| ob_maybe_option_parts a b o : (forall x y, o = Some (x, y) -> obtainable a x) -> (forall x y, o = Some (x, y) -> obtainable b y) -> obtainable (TyMaybe a b) (maybe_from_option_parts o)
| ob_maybe_from a b d y : obtainable a d -> obtainable b y -> obtainable (TyMaybe a b) (maybe_from d y)
| ob_maybe_option a b d o : obtainable a d -> (forall y, o = Some y -> obtainable b y) -> obtainable (TyMaybe a b) (maybe_from_option d o)
| ob_group d a v sp : d <> DNone -> obtainable a v -> obtainable (TyGroup d a) (group_new d v sp)
| ob_group_from d a v w : d <> DNone -> obtainable a v -> group_from d v = Some w -> obtainable (TyGroup d a) w
| ob_punctuated a p x : obtainable_seq a p x -> (p = TyNotEof -> ~ ends_in_separator x) ->
    obtainable (TyPunctuated a p) (VPunct (pn_inner x) (pn_last x))
| ob_separated a p x : obtainable_sep a p x -> obtainable (TySeparated a p) (VPunct (pn_inner x) (pn_last x))
| ob_any a l : (forall x, In x l -> obtainable a x) -> obtainable (TyAny a) (any_from l)
| ob_any_extend a v more w : obtainable (TyAny a) v -> (forall x, In x more -> obtainable a x) -> any_extend more v = Some w -> obtainable (TyAny a) w
| ob_left_from o r x : obtainable r x -> obtainable (TyLeftAssoc o r) (left_from x)
| ob_left_binary o r x y z : obtainable (TyLeftAssoc o r) x -> obtainable o y -> obtainable r z -> obtainable (TyLeftAssoc o r) (left_binary x y z)
| ob_right_from o l x : obtainable l x -> obtainable (TyRightAssoc o l) (right_from x)
| ob_right_binary o l x y z : obtainable l x -> obtainable o y -> obtainable (TyRightAssoc o l) z -> obtainable (TyRightAssoc o l) (right_binary x y z)
| ob_either_left a b x : obtainable a x -> obtainable (TyEither a b) (VLeft x)
| ob_either_right a b x : obtainable b x -> obtainable (TyEither a b) (VRight x)
| ob_either_flip a b v w : obtainable (TyEither a b) v -> either_flip v = Some w -> obtainable (TyEither b a) w
| ob_either_map a b c d f g v w : obtainable (TyEither a b) v -> (forall x, v = VLeft x -> obtainable c (f x)) ->
    (forall x, v = VRight x -> obtainable d (g x)) -> either_map f g v = Some w -> obtainable (TyEither c d) w
| ob_either_into a v x : obtainable (TyEither a a) v -> either_into_inner v = Some x -> obtainable a x
| ob_box a x : obtainable a x -> obtainable (TyBox a) x
| ob_unbox a x : obtainable (TyBox a) x -> obtainable a x
| ob_struct i c vs : E i = DStruct c -> List.length vs = List.length (c_fields c) ->
    (forall k f x, nth_error (c_fields c) k = Some f -> nth_error vs k = Some x -> obtainable (snd f) x) -> obtainable (TyRef i) (VStruct vs)
| ob_variant i en cs n c vs : E i = DEnum en cs -> nth_error cs n = Some c -> List.length vs = List.length (c_fields c) ->
    (forall k f x, nth_error (c_fields c) k = Some f -> nth_error vs k = Some x -> obtainable (snd f) x) -> obtainable (TyRef i) (VVariant n vs)
(* parts, and writing to them *)
| ob_get t v s a x : obtainable t v -> part_ty E t s v = Some a -> get_part s v = Some x -> obtainable a x
| ob_set t v s a x w : obtainable t v -> part_ty E t s v = Some a -> obtainable a x -> set_part s x v = Some w -> obtainable t w
(* an [Ident], keyword or not *)
with some_ident : val -> Prop :=
| si_new s sp v : ident_new s sp = Some v -> some_ident v
| si_raw s sp v : ident_new_raw s sp = Some v -> some_ident v
| si_ident v : obtainable TyIdent v -> some_ident v
| si_custom kws v : obtainable (TyCustomIdent kws) v -> some_ident (custom_into_ident v)
(* a [Punctuated], perhaps with a separator at the end; [snd]: a panic may have been caught *)
with obtainable_seq : ty -> ty -> punctuated val val -> Prop :=
| os_new a p : obtainable_seq a p pn_new
| os_of a p inner last : obtainable (TyPunctuated a p) (VPunct inner last) -> obtainable_seq a p (Pn inner last)
| os_separated a p x : obtainable_sep a p x -> obtainable_seq a p x
| os_change a p x c : obtainable_seq a p x -> (forall v, In v (seq_values c) -> obtainable a v) -> (forall v, In v (seq_puncts c) -> obtainable p v) ->
    obtainable_seq a p (snd (seq_apply c x))
(* a [Separated] *)
with obtainable_sep : ty -> ty -> punctuated val val -> Prop :=
| op_of a p inner last : obtainable (TySeparated a p) (VPunct inner last) -> obtainable_sep a p (Pn inner last)
| op_try_from a p x y : obtainable_seq a p x -> sep_try_from x = Some y -> obtainable_sep a p y
| op_change a p x c : obtainable_sep a p x -> (forall v, In v (sep_values c) -> obtainable a v) -> (forall v, In v (sep_puncts c) -> obtainable p v) ->
    obtainable_sep a p (snd (apply_change c x)).
End Obtainable.
Scheme obtainable_mind := Minimality for obtainable Sort Prop
  with some_ident_mind := Minimality for some_ident Sort Prop
  with obtainable_seq_mind := Minimality for obtainable_seq Sort Prop
  with obtainable_sep_mind := Minimality for obtainable_sep Sort Prop.

(** ** All of it is well formed *)
Section Good.
Context {U : unicode} (E : env).
Notation okw v := (Forall ident_ok (val_words v)).
Definition good (t : ty) (v : val) : Prop := typed E t v /\ okw v.
Ltac bad := match goal with H : TyGroup ?d _ = _ |- _ => exfalso; destruct d; (discriminate H || congruence) end.

Lemma xid_sym s : xid_ok s = true -> sym_ok s.
Proof.
  destruct s as [|c r]; [discriminate|]. cbn. intro H. apply andb_true_iff in H as (H1 & H2). exists c, r. split; [reflexivity|]. split; [exact H1|].
  apply Forall_forall. intros x Hx. rewrite forallb_forall in H2. auto.
Qed.
Lemma words_all (f : val -> list text) l : Forall ident_ok (List.concat (map f l)) <-> Forall (fun v => Forall ident_ok (f v)) l.
Proof.
  induction l as [|x l IH]; cbn; [split; constructor|]. rewrite Forall_app, IH. split; [intros (H1 & H2); constructor; assumption|intro H; inversion H; auto].
Qed.
Lemma pairs_words (l : list (val * val)) : Forall ident_ok (List.concat (map (fun '(x, y) => val_words x ++ val_words y) l)) <->
  Forall (fun x => okw (fst x) /\ okw (snd x)) l.
Proof.
  induction l as [|(x, y) l IH]; cbn; [split; constructor|]. rewrite !Forall_app, IH. split; [intros ((H1 & H2) & H3); constructor; auto|intro H; inversion H; tauto].
Qed.
Lemma good_maybe a b v : good (TyMaybe a b) v <-> v = VNothing \/ exists x y, v = VJust x y /\ good a x /\ good b y.
Proof.
  unfold good. split.
  - intros (H & Hw). inversion H; subst; try bad; [auto|]. cbn in Hw. apply Forall_app in Hw as (W1 & W2). right. eauto 8.
  - intros [-> |(x & y & -> & (H1 & W1) & (H2 & W2))]; [split; [constructor|constructor]|]. split; [constructor; assumption|]. cbn. apply Forall_app. auto.
Qed.
Lemma group_inj d a d' a' : d <> DNone -> d' <> DNone -> TyGroup d a = TyGroup d' a' -> d = d' /\ a = a'.
Proof. destruct d, d'; cbn; intros; try congruence; split; congruence. Qed.
Lemma good_group d a v : d <> DNone -> (good (TyGroup d a) v <-> exists sp x, v = VGroup d sp x /\ good a x).
Proof.
  intro Hd. unfold good. split.
  - intros (H & Hw). inversion H; subst; try (exfalso; destruct d; (discriminate || congruence)).
    match goal with H : TyGroup _ _ = TyGroup _ _ |- _ => apply group_inj in H; [|assumption|assumption]; destruct H; subst end. eauto 6.
  - intros (sp & x & -> & H & W). split; [constructor; assumption|exact W].
Qed.
Lemma pairs_good a p l : typed_pairs E a p l /\ Forall (fun x => okw (fst x) /\ okw (snd x)) l <-> Forall (fun x => good a (fst x) /\ good p (snd x)) l.
Proof.
  unfold good. induction l as [|(x, y) l IH].
  - split; [constructor|]. split; [apply tp_nil|constructor].
  - split.
    + intros (H & W). inversion H; subst. inversion W; subst. constructor; [cbn in *; tauto|]. apply IH. auto.
    + intro H. inversion H as [|? ? H1 H2]; subst. apply IH in H2 as (H2 & H3). cbn in H1. split; [apply tp_cons; tauto|constructor; [cbn; tauto|exact H3]].
Qed.
Definition good_seq (a p : ty) (x : punctuated val val) : Prop :=
  Forall (fun y => good a (fst y) /\ good p (snd y)) (pn_inner x) /\ (forall v, pn_last x = Some v -> good a v).
Lemma good_seq_iff a p inner last : good_seq a p (Pn inner last) <-> (typed_pairs E a p inner /\ typed_opt E a last) /\ okw (VPunct inner last).
Proof.
  unfold good_seq. cbn [pn_inner pn_last val_words]. rewrite <- pairs_good, Forall_app, pairs_words. split.
  - intros ((H1 & H2) & H3). destruct last as [v|].
    + destruct (H3 v eq_refl) as (H4 & H5). repeat split; try assumption. constructor. assumption.
    + repeat split; try assumption; constructor.
  - intros ((H1 & H2) & H3 & H4). split; [split; assumption|]. intros v ->. inversion H2; subst. split; assumption.
Qed.
Lemma good_punctuated a p v : good (TyPunctuated a p) v <-> exists x, v = VPunct (pn_inner x) (pn_last x) /\ good_seq a p x /\ (p = TyNotEof -> ~ ends_in_separator x).
Proof.
  split.
  - intros (H & Hw). inversion H; subst; try bad. exists (Pn inner last). split; [reflexivity|]. split; [apply good_seq_iff; auto|].
    intros Hp (Q1 & Q2). cbn in Q1, Q2. auto.
  - intros ([inner last] & -> & H & Hn). cbn [pn_inner pn_last] in *. apply good_seq_iff in H as ((H1 & H2) & H3). split; [|exact H3]. constructor; [assumption|assumption|].
    intros Hp ->. destruct inner; [reflexivity|]. exfalso. apply (Hn Hp). split; [reflexivity|discriminate].
Qed.
Lemma good_separated a p v : good (TySeparated a p) v <-> exists x, v = VPunct (pn_inner x) (pn_last x) /\ good_seq a p x /\ separated x.
Proof.
  split.
  - intros (H & Hw). inversion H; subst; try bad. match goal with |- exists _, VPunct ?i (Some ?z) = _ /\ _ => exists (Pn i (Some z)) end. split; [reflexivity|]. split; [|apply separated_iff; eauto].
    apply good_seq_iff. split; [|assumption]. split; [assumption|]. constructor. assumption.
  - intros (x & -> & H & Hs). apply separated_iff in Hs as (inner & z & ->). cbn [pn_inner pn_last] in *. apply good_seq_iff in H as ((H1 & H2) & H3). split; [|exact H3].
    inversion H2; subst. constructor; assumption.
Qed.
Lemma good_any a v : good (TyAny a) v <-> exists l, v = VList l /\ Forall (good a) l.
Proof.
  assert (L : forall l, typed_list E a l /\ Forall (fun v => okw v) l <-> Forall (good a) l).
  { induction l as [|x l IH]; [split; [constructor|split; constructor]|]. split.
    - intros (H & W). inversion H; subst. inversion W; subst. constructor; [split; assumption|]. apply IH. auto.
    - intro H. inversion H as [|? ? (H1 & W1) H2]; subst. apply IH in H2 as (H2 & W2). split; constructor; assumption. }
  unfold good at 1. split.
  - intros (H & Hw). inversion H; subst; try bad. cbn in Hw. apply words_all in Hw. exists l. split; [reflexivity|]. apply L. auto.
  - intros (l & -> & H). apply L in H as (H1 & H2). split; [constructor; assumption|]. cbn. apply words_all. exact H2.
Qed.
Lemma pairs_snoc a p l x y : typed_pairs E a p l -> typed E a x -> typed E p y -> typed_pairs E a p (l ++ [(x, y)]).
Proof. induction 1; intros; cbn; [repeat constructor; assumption|constructor; auto]. Qed.
Lemma pairs_snoc_inv a p l x y : typed_pairs E a p (l ++ [(x, y)]) -> typed_pairs E a p l /\ typed E a x /\ typed E p y.
Proof.
  induction l as [|(u, w) l IH]; cbn; intro H; inversion H; subst; [repeat split; [constructor|assumption|assumption]|].
  destruct IH as (H1 & H2 & H3); [assumption|]. repeat split; [constructor; assumption|assumption|assumption].
Qed.
Lemma good_left o r v : good (TyLeftAssoc o r) v <-> (exists x, v = VRhs x /\ good r x) \/ (exists l m x, v = VBinL l m x /\ good (TyLeftAssoc o r) l /\ good o m /\ good r x).
Proof.
  split.
  - intros (H & Hw). inversion H; subst; try bad. match goal with H : left_form _ _ _ |- _ => inversion H; subst end.
    + left. eexists. split; [reflexivity|]. split; assumption.
    + right. cbn [val_of_left val_words] in *. apply Forall_app in Hw as (W1 & W2). apply Forall_app in W2 as (W2 & W3).
      match goal with H : typed_pairs _ _ _ (_ ++ _) |- _ => apply pairs_snoc_inv in H as (P1 & P2 & P3) end.
      eexists _, _, _. split; [reflexivity|]. split; [|split; split; assumption]. split; [|assumption]. eapply td_left; [| |eassumption]; eassumption.
  - intros [(x & -> & H & W)|(l & m & x & -> & (H1 & W1) & (H2 & W2) & (H3 & W3))].
    + split; [|exact W]. change (VRhs x) with (val_of_left (LRhs x)). eapply td_left; [eassumption|apply tp_nil|constructor].
    + split; [|cbn; rewrite !Forall_app; auto]. inversion H1; subst; try bad. change (VBinL (val_of_left t) m x) with (val_of_left (LBinary t m x)).
      eapply td_left; [| |apply lf_snoc; eassumption]; [eassumption|apply pairs_snoc; assumption].
Qed.
Lemma good_right o l v : good (TyRightAssoc o l) v <-> (exists x, v = VLhs x /\ good l x) \/ (exists x m r, v = VBinR x m r /\ good l x /\ good o m /\ good (TyRightAssoc o l) r).
Proof.
  split.
  - intros (H & Hw). inversion H; subst; try bad. match goal with H : right_form _ _ _ |- _ => inversion H; subst end.
    + left. eexists. split; [reflexivity|]. split; assumption.
    + right. cbn [val_of_right val_words] in *. apply Forall_app in Hw as (W1 & W2). apply Forall_app in W2 as (W2 & W3).
      match goal with H : typed_pairs _ _ _ (_ :: _) |- _ => inversion H; subst end.
      eexists _, _, _. split; [reflexivity|]. split; [split; assumption|]. split; [split; assumption|]. split; [|assumption]. eapply td_right; [| |eassumption]; eassumption.
  - intros [(x & -> & H & W)|(x & m & r & -> & (H1 & W1) & (H2 & W2) & (H3 & W3))].
    + split; [|exact W]. change (VLhs x) with (val_of_right (RLhs x)). eapply td_right; [eassumption|apply tp_nil|constructor].
    + split; [|cbn; rewrite !Forall_app; auto]. inversion H3; subst; try bad. change (VBinR x m (val_of_right t)) with (val_of_right (RBinary x m t)).
      eapply td_right; [| |apply rf_cons; eassumption]; [eassumption|constructor; assumption].
Qed.
Lemma good_either a b v : good (TyEither a b) v <-> (exists x, v = VLeft x /\ good a x) \/ (exists x, v = VRight x /\ good b x).
Proof.
  split.
  - intros (H & Hw). inversion H; subst; try bad; [left|right]; eexists; (split; [reflexivity|split; assumption]).
  - intros [(x & -> & H & W)|(x & -> & H & W)]; (split; [constructor; assumption|exact W]).
Qed.
Lemma good_box a v : good (TyBox a) v <-> good a v.
Proof. split; intros (H & W); (split; [|exact W]); [inversion H; subst; try bad; assumption|constructor; assumption]. Qed.
Definition good_fields (fs : list (label * ty)) (vs : list val) : Prop :=
  List.length vs = List.length fs /\ forall k f x, nth_error fs k = Some f -> nth_error vs k = Some x -> good (snd f) x.
Lemma good_fields_iff fs vs : good_fields fs vs <-> typed_fields E fs vs /\ Forall (fun v => okw v) vs.
Proof.
  revert vs. induction fs as [|(l, t) fs IH]; intros [|v vs].
  - split; [intros _; split; constructor|]. intros _. split; [reflexivity|]. intros [|k] f x; discriminate.
  - split; [intros (H & _); discriminate H|]. intros (H & _). inversion H.
  - split; [intros (H & _); discriminate H|]. intros (H & _). inversion H.
  - split.
    + intros (H & G). destruct (proj1 (IH vs)) as (H1 & H2).
      { split; [cbn in H; lia|]. intros k f x. exact (G (S k) f x). }
      destruct (G 0 (l, t) v eq_refl eq_refl) as (G1 & G2). split; constructor; assumption.
    + intros (H & W). inversion H; subst. inversion W; subst. destruct (proj2 (IH vs)) as (Q1 & Q2); [split; assumption|]. split; [cbn; lia|].
      intros [|k] f x; cbn; [|apply Q2]. intros [= <-] [= <-]. split; assumption.
Qed.
Lemma good_ref i v : good (TyRef i) v <-> (exists c vs, v = VStruct vs /\ E i = DStruct c /\ good_fields (c_fields c) vs) \/
  (exists en cs n c vs, v = VVariant n vs /\ E i = DEnum en cs /\ nth_error cs n = Some c /\ good_fields (c_fields c) vs).
Proof.
  split.
  - intros (H & Hw). inversion H; subst; try bad; [left|right]; cbn in Hw; apply words_all in Hw.
    + eexists _, _. split; [reflexivity|]. split; [eassumption|]. apply good_fields_iff. auto.
    + eexists _, _, _, _, _. split; [reflexivity|]. split; [eassumption|]. split; [eassumption|]. apply good_fields_iff. auto.
  - intros [(c & vs & -> & He & H)|(en & cs & n & c & vs & -> & He & Hn & H)]; apply good_fields_iff in H as (H1 & H2).
    + split; [econstructor; eassumption|]. cbn. apply words_all. exact H2.
    + split; [econstructor; eassumption|]. cbn. apply words_all. exact H2.
Qed.
End Good.

(** ** Sequences keep what they are given *)
Section Keeps.
Context (QA QP : val -> Prop).
Notation seq := (punctuated val val).
Definition seq_all (x : seq) : Prop := Forall (fun y => QA (fst y) /\ QP (snd y)) (pn_inner x) /\ (forall v, pn_last x = Some v -> QA v).
Definition keeps {R} (m : method seq R) : Prop := forall x, seq_all x -> seq_all (snd (m x)).
Lemma keeps_bind {R S} (m : method seq R) (k : R -> method seq S) : keeps m -> (forall r, keeps (k r)) -> keeps (mbind m k).
Proof. intros Hm Hk x Hx. unfold mbind. specialize (Hm x Hx). destruct (m x) as [[r|] x']; cbn in *; [apply Hk; exact Hm|exact Hm]. Qed.
Lemma keeps_user {R} (o : option R) : keeps (muser o).
Proof. intros x Hx. exact Hx. Qed.
Lemma keeps_bind_user {R S} (o : option R) (k : R -> method seq S) : (forall r, o = Some r -> keeps (k r)) -> keeps (mbind (muser o) k).
Proof. intros Hk x Hx. unfold mbind, muser. destruct o as [r|]; cbn; [apply Hk; auto|exact Hx]. Qed.
Lemma keeps_push_value v : QA v -> keeps (push_value v).
Proof. intros Hv x (H1 & H2). unfold push_value. destruct (empty_or_trailing x); cbn; [|split; assumption]. split; [exact H1|]. intros u [= <-]. exact Hv. Qed.
Lemma keeps_push_punct p : QP p -> keeps (push_punct p).
Proof.
  intros Hp x (H1 & H2). unfold push_punct. destruct (pn_last x) as [v|] eqn:El; cbn; [|split; [assumption|rewrite El; discriminate]]. split; [|discriminate].
  apply Forall_app. split; [exact H1|]. constructor; [|constructor]. auto.
Qed.
Lemma keeps_push v d : QA v -> (forall p, d = Some p -> QP p) -> keeps (pn_push v d).
Proof.
  intros Hv Hd x Hx. unfold pn_push. destruct (empty_or_trailing x); [apply keeps_push_value; assumption|].
  refine (keeps_bind_user d _ _ x Hx). intros p Hp. apply keeps_bind; [apply keeps_push_punct; auto|]. intros _. apply keeps_push_value. exact Hv.
Qed.
Lemma Forall_cut {X} (Q : X -> Prop) n l : Forall Q l -> Forall Q (firstn n l) /\ Forall Q (skipn n l).
Proof. intro H. rewrite <- (firstn_skipn n l) in H. apply Forall_app in H. exact H. Qed.
Lemma keeps_insert i v d : QA v -> (forall p, d = Some p -> QP p) -> keeps (pn_insert i v d).
Proof.
  intros Hv Hd x Hx. unfold pn_insert. destruct (i <=? pn_len x); [|exact Hx]. destruct (i =? pn_len x); [apply keeps_push; assumption|].
  refine (keeps_bind_user d _ _ x Hx). intros p Hp y (H1 & H2). cbn. split; [|exact H2]. destruct (Forall_cut _ i _ H1) as (F1 & F2).
  apply Forall_app. split; [exact F1|]. constructor; auto.
Qed.
Lemma keeps_pop : keeps pn_pop.
Proof.
  intros x (H1 & H2). unfold pn_pop. destruct (pn_last x); cbn; (split; [|discriminate]); [exact H1|]. clear H2. induction H1 as [|y l Hy H IH]; cbn; [constructor|].
  destruct l; [constructor|]. constructor; assumption.
Qed.
Lemma keeps_pop_punct : keeps pn_pop_punct.
Proof.
  intros x (H1 & H2). unfold pn_pop_punct. destruct (pn_last x) as [z|] eqn:El; cbn; [split; [exact H1|rewrite El; exact H2]|].
  destruct (rev (pn_inner x)) as [|(v, p) r] eqn:Er; cbn; [split; [exact H1|rewrite El; exact H2]|]. apply Forall_rev in H1. rewrite Er in H1. inversion H1 as [|? ? Hv Hr]; subst. cbn in Hv.
  split; [apply Forall_rev; exact Hr|]. intros u [= <-]. tauto.
Qed.
Lemma keeps_clear : keeps pn_clear.
Proof. intros x Hx. split; [constructor|discriminate]. Qed.
Lemma keeps_extend items stop : (forall v, In v (map fst items) -> QA v) -> (forall p, In p (List.concat (map (fun x => opt_list (snd x)) items)) -> QP p) -> keeps (pn_extend items stop).
Proof.
  induction items as [|(v, d) r IH]; intros Hv Hp; cbn [pn_extend]; [apply keeps_user|]. apply keeps_bind.
  - apply keeps_push; [apply Hv; left; reflexivity|]. intros p ->. apply Hp. left. reflexivity.
  - intros _. apply IH; [intros u Hu; apply Hv; right; exact Hu|]. intros p Hpp. apply Hp. cbn. apply in_or_app. right. exact Hpp.
Qed.
Lemma keeps_do_extend l stop : (forall v, In v (map pair_value l) -> QA v) -> (forall p, In p (List.concat (map pair_puncts l)) -> QP p) -> forall nomore, keeps (do_extend nomore l stop).
Proof.
  induction l as [|y r IH]; intros Hv Hp nomore; cbn [do_extend]; [apply keeps_user|]. destruct nomore; [intros x Hx; exact Hx|].
  assert (IH' : forall nomore, keeps (do_extend nomore r stop)).
  { apply IH; [intros u Hu; apply Hv; right; exact Hu|]. intros p Hpp. apply Hp. cbn. apply in_or_app. right. exact Hpp. }
  pose proof (Hv (pair_value y) (or_introl eq_refl)) as Hy. destruct y as [v p|v]; cbn in Hy; intros x (H1 & H2); apply IH'; split; cbn [pn_inner pn_last].
  - apply Forall_app. split; [exact H1|]. constructor; [|constructor]. split; [exact Hy|]. apply Hp. left. reflexivity.
  - exact H2.
  - exact H1.
  - intros u [= <-]. exact Hy.
Qed.
Lemma keeps_extend_pairs l d stop : (forall v, In v (map pair_value l) -> QA v) -> (forall p, In p (opt_list d ++ List.concat (map pair_puncts l)) -> QP p) -> keeps (pn_extend_pairs l d stop).
Proof.
  intros Hv Hp x Hx. assert (Hl : forall nomore, keeps (do_extend nomore l stop)) by (apply keeps_do_extend; [exact Hv|intros p Hpp; apply Hp; apply in_or_app; right; exact Hpp]).
  unfold pn_extend_pairs. destruct (empty_or_trailing x); [apply Hl; exact Hx|]. refine (keeps_bind_user d _ _ x Hx). intros p ->. apply keeps_bind; [|intros _; apply Hl].
  apply keeps_push_punct. apply Hp. left. reflexivity.
Qed.
Lemma keeps_set i v : QA v -> keeps (pn_set i v).
Proof.
  intros Hv x (H1 & H2). unfold pn_set. destruct (i <? List.length (pn_inner x)); cbn.
  - split; [|exact H2]. destruct (Forall_cut _ i _ H1) as (F1 & _). destruct (Forall_cut _ (S i) _ H1) as (_ & F2). apply Forall_app. split; [exact F1|].
    destruct (nth_error (pn_inner x) i) as [(u, p)|] eqn:En; [|constructor]. apply nth_error_In in En. rewrite Forall_forall in H1. apply H1 in En. constructor; [cbn in *; tauto|exact F2].
  - destruct (pn_last x) as [z|] eqn:El; [|cbn; split; [exact H1|rewrite El; exact H2]]. destruct (i =? List.length (pn_inner x)); cbn; [|split; [exact H1|rewrite El; exact H2]].
    split; [exact H1|]. intros u [= <-]. exact Hv.
Qed.
Lemma keeps_set_punct i p : QP p -> keeps (pn_set_punct i p).
Proof.
  intros Hp x (H1 & H2). unfold pn_set_punct. destruct (nth_error (pn_inner x) i) as [(u, q)|] eqn:En; [|split; assumption]. cbn. split; [|exact H2].
  destruct (Forall_cut _ i _ H1) as (F1 & _). destruct (Forall_cut _ (S i) _ H1) as (_ & F2). apply Forall_app. split; [exact F1|].
  apply nth_error_In in En. rewrite Forall_forall in H1. apply H1 in En. constructor; [cbn in *; tauto|exact F2].
Qed.
Lemma keeps_seq c : (forall v, In v (seq_values c) -> QA v) -> (forall p, In p (seq_puncts c) -> QP p) -> keeps (seq_apply c).
Proof.
  intros Hv Hp. destruct c; cbn [seq_apply seq_values seq_puncts] in *.
  - apply keeps_push_value. apply Hv. left. reflexivity.
  - apply keeps_push_punct. apply Hp. left. reflexivity.
  - apply keeps_push; [apply Hv; left; reflexivity|]. intros p ->. apply Hp. left. reflexivity.
  - apply keeps_insert; [apply Hv; left; reflexivity|]. intros p ->. apply Hp. left. reflexivity.
  - apply keeps_pop.
  - apply keeps_pop_punct.
  - apply keeps_clear.
  - apply keeps_extend; assumption.
  - apply keeps_extend_pairs; assumption.
  - apply keeps_set. apply Hv. left. reflexivity.
  - apply keeps_set_punct. apply Hp. left. reflexivity.
Qed.
Lemma keeps_sep_push p v : QA v -> QP p -> keeps (sep_push p v).
Proof. intros Hv Hp. apply keeps_bind; [apply keeps_push_punct; exact Hp|]. intros _. apply keeps_push_value. exact Hv. Qed.
Lemma keeps_sep c : (forall v, In v (sep_values c) -> QA v) -> (forall p, In p (sep_puncts c) -> QP p) -> keeps (apply_change c).
Proof.
  intros Hv Hp. destruct c; cbn [apply_change sep_values sep_puncts] in *.
  - apply keeps_insert; [apply Hv; left; reflexivity|]. intros p ->. apply Hp. left. reflexivity.
  - apply keeps_sep_push; [apply Hv|apply Hp]; left; reflexivity.
  - apply keeps_bind_user. intros p ->. apply keeps_sep_push; [apply Hv|apply Hp]; left; reflexivity.
  - apply keeps_extend; assumption.
  - induction items as [|(p, v) r IH]; cbn [sep_extend_pairs]; [apply keeps_user|]. apply keeps_bind; [apply keeps_sep_push; [apply Hv|apply Hp]; left; reflexivity|].
    intros _. apply IH; intros u Hu; [apply Hv|apply Hp]; right; exact Hu.
  - intros x Hx. unfold sep_set_first. destruct (pn_first x); [apply keeps_set; [apply Hv; left; reflexivity|exact Hx]|exact Hx].
  - intros x Hx. unfold sep_set_last. destruct (pn_last_value x); [apply keeps_set; [apply Hv; left; reflexivity|exact Hx]|exact Hx].
  - apply keeps_set. apply Hv. left. reflexivity.
  - apply keeps_set_punct. apply Hp. left. reflexivity.
Qed.
Lemma seq_all_values x i v : seq_all x -> nth_error (pn_iter x) i = Some v -> QA v.
Proof.
  intros (H1 & H2) Hn. apply nth_error_In in Hn. unfold pn_iter in Hn. apply in_app_or in Hn as [Hn|Hn].
  - apply in_map_iff in Hn as (y & <- & Hy). rewrite Forall_forall in H1. apply H1. exact Hy.
  - destruct (pn_last x) as [z|]; [|contradiction]. destruct Hn as [<-|[]]. auto.
Qed.
Lemma seq_all_puncts x i p : seq_all x -> nth_error (map snd (pn_inner x)) i = Some p -> QP p.
Proof.
  intros (H1 & H2) Hn. apply nth_error_In in Hn. apply in_map_iff in Hn as (y & <- & Hy). rewrite Forall_forall in H1. apply H1. exact Hy.
Qed.
End Keeps.
(** writing to a value or separator does not change where the separators are *)
Lemma set_shape i v (x : punctuated val val) : (pn_last (snd (pn_set i v x)) = None <-> pn_last x = None) /\ List.length (pn_inner (snd (pn_set i v x))) = List.length (pn_inner x).
Proof.
  unfold pn_set. destruct (Nat.ltb_spec i (List.length (pn_inner x))) as [L|L]; cbn [snd pn_inner pn_last].
  - split; [reflexivity|]. destruct (nth_error (pn_inner x) i) as [(u, p)|] eqn:En; [|apply nth_error_None in En; lia].
    rewrite app_length, firstn_length. cbn [List.length]. rewrite skipn_length. lia.
  - destruct (pn_last x) as [z|] eqn:El; [|cbn; rewrite El; split; reflexivity]. destruct (i =? List.length (pn_inner x)); cbn; [split; [split; discriminate|reflexivity]|rewrite El; split; reflexivity].
Qed.
Lemma set_punct_shape i v (x : punctuated val val) : (pn_last (snd (pn_set_punct i v x)) = None <-> pn_last x = None) /\ List.length (pn_inner (snd (pn_set_punct i v x))) = List.length (pn_inner x).
Proof.
  unfold pn_set_punct. destruct (nth_error (pn_inner x) i) as [(u, p)|] eqn:En; cbn [snd pn_inner pn_last]; [|split; reflexivity]. split; [reflexivity|].
  assert (i < List.length (pn_inner x)) by (apply nth_error_Some; congruence). rewrite app_length, firstn_length. cbn [List.length]. rewrite skipn_length. lia.
Qed.

Section All.
Context {U : unicode} (sane : sane_tables U) (E : env).
Notation good := (good E).
Notation good_seq := (good_seq E).
Lemma set_nth_spec i x l l' : set_nth i x l = Some l' -> List.length l' = List.length l /\ nth_error l' i = Some x /\ (forall k, k <> i -> nth_error l' k = nth_error l k).
Proof.
  unfold set_nth. destruct (Nat.ltb_spec i (List.length l)) as [L|L]; [|discriminate]. intro Q. assert (l' = firstn i l ++ x :: skipn (S i) l) as -> by congruence. repeat split.
  - rewrite app_length, firstn_length. cbn [List.length]. rewrite skipn_length. lia.
  - rewrite nth_error_app2; rewrite firstn_length; [|lia]. replace (i - Nat.min i (List.length l)) with 0 by lia. reflexivity.
  - intros k Hk. destruct (Nat.lt_ge_cases k i) as [Hi|Hi].
    + rewrite nth_error_app1 by (rewrite firstn_length; lia). clear -Hi. revert l k Hi. induction i as [|i IH]; intros l k Hi; [lia|]. destruct l as [|y l]; [destruct k; reflexivity|]. destruct k as [|k]; [reflexivity|]. cbn. apply IH. lia.
    + rewrite nth_error_app2 by (rewrite firstn_length; lia). rewrite firstn_length. replace (k - Nat.min i (List.length l)) with (S (k - S i)) by lia. cbn [nth_error].
      clear -Hk Hi. assert (Hx : k = S i + (k - S i)) by lia. remember (k - S i) as j. subst k. clear. revert l. induction i as [|i IH]; intros l; [destruct l as [|y l]; [destruct j; reflexivity|reflexivity]|]. destruct l as [|y l]; [destruct j; reflexivity|]. exact (IH l).
Qed.
Lemma good_get t : forall v s a x, good t v -> part_ty E t s v = Some a -> get_part s v = Some x -> good a x.
Proof.
  assert (Grp : forall d t, d <> DNone -> forall v s a x, good (TyGroup d t) v -> match s with PInner => Some t | _ => None end = Some a -> get_part s v = Some x -> good a x).
  { clear t. intros d t Hd v s a x H Hp G. apply good_group in H as (sp & y & -> & H); [|exact Hd]. destruct s; try discriminate Hp. injection Hp as <-. injection G as <-. exact H. }
  induction t; intros v s a x H Hp G; cbn [part_ty] in Hp; try discriminate Hp.
  - apply good_maybe in H as [-> |(y & z & -> & Hy & Hz)]; [destruct s; discriminate G|]. destruct s; try discriminate Hp; injection Hp as <-; injection G as <-; assumption.
  - exact (Grp DParen t ltac:(discriminate) v s a x H Hp G).
  - exact (Grp DBracket t ltac:(discriminate) v s a x H Hp G).
  - exact (Grp DBrace t ltac:(discriminate) v s a x H Hp G).
  - apply good_punctuated in H as ([inner last] & -> & H & _). destruct s; try discriminate Hp; injection Hp as <-; cbn [get_part pn_inner pn_last] in G.
    + exact (seq_all_values _ _ _ _ _ H G). + exact (seq_all_puncts _ _ _ _ _ H G).
  - apply good_separated in H as ([inner last] & -> & H & _). destruct s; try discriminate Hp; injection Hp as <-; cbn [get_part pn_inner pn_last] in G.
    + exact (seq_all_values _ _ _ _ _ H G). + exact (seq_all_puncts _ _ _ _ _ H G).
  - apply good_any in H as (l & -> & H). destruct s; try discriminate Hp. injection Hp as <-. cbn in G. apply nth_error_In in G. rewrite Forall_forall in H. auto.
  - apply good_left in H as [(y & -> & H)|(l & m & y & -> & H1 & H2 & H3)]; destruct s; try discriminate Hp; try discriminate G; injection Hp as <-; injection G as <-; assumption.
  - apply good_right in H as [(y & -> & H)|(l & m & y & -> & H1 & H2 & H3)]; destruct s; try discriminate Hp; try discriminate G; injection Hp as <-; injection G as <-; assumption.
  - apply good_either in H as [(y & -> & H)|(y & -> & H)]; destruct s; try discriminate Hp; injection Hp as <-; injection G as <-; assumption.
  - apply (proj1 (good_box E _ _)) in H. exact (IHt v s a x H Hp G).
  - apply good_ref in H as [(c & vs & -> & He & Hl & Hf)|(en & cs & n & c & vs & -> & He & Hn & Hl & Hf)]; destruct s; try discriminate Hp; rewrite He in Hp; cbn in G.
    + destruct (nth_error (c_fields c) k) as [f|] eqn:Ef; [|discriminate Hp]. injection Hp as <-. exact (Hf k f x Ef G).
    + rewrite Hn in Hp. destruct (nth_error (c_fields c) k) as [f|] eqn:Ef; [|discriminate Hp]. injection Hp as <-. exact (Hf k f x Ef G).
Qed.
Lemma write_spec m inner last w : seq_write m inner last = Some w -> w = VPunct (pn_inner (snd (m (Pn inner last)))) (pn_last (snd (m (Pn inner last)))).
Proof. unfold seq_write. destruct (m (Pn inner last)) as [[r|] x]; [intros [= <-]; reflexivity|discriminate]. Qed.
Lemma fields_set fs vs k f x vs' : good_fields E fs vs -> nth_error fs k = Some f -> good (snd f) x -> set_nth k x vs = Some vs' -> good_fields E fs vs'.
Proof.
  intros (Hl & Hf) Hk Hx Hs. apply set_nth_spec in Hs as (S1 & S2 & S3). split; [lia|]. intros j g y Hj Hy. destruct (Nat.eq_dec j k) as [-> |Hn].
  - rewrite S2 in Hy. injection Hy as <-. rewrite Hk in Hj. injection Hj as <-. exact Hx.
  - rewrite (S3 j Hn) in Hy. eapply Hf; eassumption.
Qed.
Lemma good_set t : forall v s a x w, good t v -> part_ty E t s v = Some a -> good a x -> set_part s x v = Some w -> good t w.
Proof.
  assert (Grp : forall d t, d <> DNone -> forall v s a x w, good (TyGroup d t) v -> match s with PInner => Some t | _ => None end = Some a -> good a x -> set_part s x v = Some w -> good (TyGroup d t) w).
  { clear t. intros d t Hd v s a x w H Hp Hx G. apply good_group in H as (sp & y & -> & H); [|exact Hd]. destruct s; try discriminate Hp. injection Hp as <-. injection G as <-. apply good_group; [exact Hd|]. eauto. }
  induction t; intros v s a x w H Hp Hx G; cbn [part_ty] in Hp; try discriminate Hp.
  - apply good_maybe in H as [-> |(y & z & -> & Hy & Hz)]; [destruct s; discriminate G|]. destruct s; try discriminate Hp; injection Hp as <-; injection G as <-; apply good_maybe; right; eauto 6.
  - exact (Grp DParen t ltac:(discriminate) v s a x w H Hp Hx G).
  - exact (Grp DBracket t ltac:(discriminate) v s a x w H Hp Hx G).
  - exact (Grp DBrace t ltac:(discriminate) v s a x w H Hp Hx G).
  - apply good_punctuated in H as ([inner last] & -> & H & Hn). destruct s; try discriminate Hp; injection Hp as <-; cbn [set_part pn_inner pn_last] in G; apply write_spec in G as ->; apply good_punctuated; eexists; (split; [reflexivity|]).
    + split; [exact (keeps_set _ _ i x Hx _ H)|]. intros Hq (Q1 & Q2). apply (Hn Hq). destruct (set_shape i x (Pn inner last)) as (S1 & S2). split; [apply S1; exact Q1|]. intro Q. apply Q2. apply length_zero_iff_nil. rewrite S2, Q. reflexivity.
    + split; [exact (keeps_set_punct _ _ i x Hx _ H)|]. intros Hq (Q1 & Q2). apply (Hn Hq). destruct (set_punct_shape i x (Pn inner last)) as (S1 & S2). split; [apply S1; exact Q1|]. intro Q. apply Q2. apply length_zero_iff_nil. rewrite S2, Q. reflexivity.
  - apply good_separated in H as (y & -> & H & Hn). apply separated_iff in Hn as (inner & z & ->). cbn [pn_inner pn_last] in *. destruct s; try discriminate Hp; injection Hp as <-; cbn [set_part pn_inner pn_last] in G; apply write_spec in G as ->; apply good_separated; eexists; (split; [reflexivity|]).
    + split; [exact (keeps_set _ _ i x Hx _ H)|]. destruct (set_effect i x inner z) as (inner' & z' & Q & _). unfold sep_set in Q. rewrite Q. apply separated_iff. eauto.
    + split; [exact (keeps_set_punct _ _ i x Hx _ H)|]. destruct (punct_effect i x inner z) as (inner' & z' & Q & _). unfold sep_set_punct in Q. rewrite Q. apply separated_iff. eauto.
  - apply good_any in H as (l & -> & H). destruct s; try discriminate Hp. injection Hp as <-. cbn in G. destruct (set_nth i x l) as [l'|] eqn:Es; [|discriminate G]. injection G as <-. apply good_any. eexists. split; [reflexivity|].
    apply set_nth_spec in Es as (S1 & S2 & S3). apply Forall_forall. intros y Hy. apply In_nth_error in Hy as (k & Hk). destruct (Nat.eq_dec k i) as [-> |Hn]; [congruence|]. rewrite (S3 k Hn) in Hk. apply nth_error_In in Hk. rewrite Forall_forall in H. auto.
  - apply good_left in H as [(y & -> & H)|(l & m & y & -> & H1 & H2 & H3)]; destruct s; try discriminate Hp; try discriminate G; injection Hp as <-; injection G as <-; apply good_left; eauto 9.
  - apply good_right in H as [(y & -> & H)|(l & m & y & -> & H1 & H2 & H3)]; destruct s; try discriminate Hp; try discriminate G; injection Hp as <-; injection G as <-; apply good_right; eauto 9.
  - apply good_either in H as [(y & -> & H)|(y & -> & H)]; destruct s; try discriminate Hp; injection Hp as <-; injection G as <-; apply good_either; eauto.
  - apply (proj1 (good_box E _ _)) in H. apply (proj2 (good_box E _ _)). exact (IHt v s a x w H Hp Hx G).
  - apply good_ref in H as [(c & vs & -> & He & Hf)|(en & cs & n & c & vs & -> & He & Hn & Hf)]; destruct s; try discriminate Hp; rewrite He in Hp; cbn in G.
    + destruct (nth_error (c_fields c) k) as [f|] eqn:Ef; [|discriminate Hp]. injection Hp as <-. destruct (set_nth k x vs) as [vs'|] eqn:Es; [|discriminate G]. injection G as <-. apply good_ref. left. eexists _, _. split; [reflexivity|]. split; [exact He|]. eapply fields_set; eassumption.
    + rewrite Hn in Hp. destruct (nth_error (c_fields c) k) as [f|] eqn:Ef; [|discriminate Hp]. injection Hp as <-. destruct (set_nth k x vs) as [vs'|] eqn:Es; [|discriminate G]. injection G as <-. apply good_ref. right. eexists _, _, _, _, _. split; [reflexivity|]. split; [exact He|]. split; [exact Hn|]. eapply fields_set; eassumption.
Qed.
Lemma good_default t : forall v, default_val t = Some v -> good t v.
Proof.
  induction t; intros v H; cbn [default_val] in H; try discriminate H; try (injection H as <-).
  - split; constructor.
  - split; constructor.
  - split; [constructor; apply map_length|constructor].
  - split; [|constructor]. assert (Hk : litty_of (lit_default k) = k) by (destruct k; reflexivity). rewrite <- Hk at 1. apply td_lit. destruct k; cbn; try reflexivity; try lia; try exact I; vm_compute; split; discriminate.
  - split; constructor.
  - split; constructor.
  - split; constructor.
  - split; constructor.
  - destruct (default_val t) as [x|]; [|discriminate H]. injection H as <-. apply (good_group E DParen); [discriminate|]. eauto.
  - destruct (default_val t) as [x|]; [|discriminate H]. injection H as <-. apply (good_group E DBracket); [discriminate|]. eauto.
  - destruct (default_val t) as [x|]; [|discriminate H]. injection H as <-. apply (good_group E DBrace); [discriminate|]. eauto.
  - split; [|constructor]. constructor; [constructor|constructor|reflexivity].
  - split; [|constructor]. constructor. constructor.
  - apply (proj2 (good_box E _ _)). auto.
Qed.
Lemma writable_words v : writable v -> Forall ident_ok (val_words v).
Proof.
  assert (L : forall l, Forall (fun v => writable v -> Forall ident_ok (val_words v)) l -> (fix all l := match l with [] => True | x :: r => writable x /\ all r end) l -> Forall ident_ok (List.concat (map val_words l))).
  { induction 1 as [|x l Hx H IH]; cbn; [constructor|]. intros (W1 & W2). apply Forall_app. auto. }
  induction v as [n sp|k sp|op sps|l sp| | |x y Hx Hy|d sp x Hx|inner last Hi Hl|l Hl|l o r H1 H2 H3|r Hr|l o r H1 H2 H3|l Hl|x Hx|x Hx|l Hl|k l Hl] using val_ind'; cbn [val_words writable]; intro W; try (constructor; fail).
  - constructor; [exact W|constructor].
  - apply Forall_app. tauto.
  - tauto.
  - destruct W as (W1 & W2). apply Forall_app. split; [|destruct last as [z|]; [exact (Hl z eq_refl W2)|constructor]].
    clear Hl W2. induction Hi as [|(x, y) l (Hx & Hy) H IH]; cbn; [constructor|]. destruct W1 as (W1 & W2 & W3). rewrite !Forall_app. cbn in *. auto.
  - exact (L l Hl W).
  - rewrite !Forall_app. tauto.
  - auto.
  - rewrite !Forall_app. tauto.
  - auto.
  - auto.
  - auto.
  - exact (L l Hl W).
  - exact (L l Hl W).
Qed.
Definition good_ident (v : val) : Prop := exists n sp, v = VIdent n sp /\ ident_ok n.
Lemma good_seq_change a p x c : good_seq a p x -> (forall v, In v (seq_values c) -> good a v) -> (forall v, In v (seq_puncts c) -> good p v) -> good_seq a p (snd (seq_apply c x)).
Proof. intros Hx Hv Hp. exact (keeps_seq (good a) (good p) c Hv Hp x Hx). Qed.
Lemma good_sep_change a p x c : good_seq a p x -> (forall v, In v (sep_values c) -> good a v) -> (forall v, In v (sep_puncts c) -> good p v) -> good_seq a p (snd (apply_change c x)).
Proof. intros Hx Hv Hp. exact (keeps_sep (good a) (good p) c Hv Hp x Hx). Qed.
Ltac bad := match goal with H : TyGroup ?d _ = _ |- _ => exfalso; destruct d; (discriminate H || congruence) end.
Theorem obtainable_good : env_leaves punct_ops E -> forall t v, obtainable E t v -> good t v.
Proof.
  intro HE. apply (obtainable_mind U E good good_ident good_seq (fun a p x => good_seq a p x /\ separated x)).
  - intros t file src v Ht Hv F Hz. split; [|apply writable_words; exact (from_str_writable sane E t file src v HE Ht Hv F)].
    pose proof F as F'. apply from_str_parses in F' as (ts & Hl & P). pose proof (lexed_lits_ok sane file src ts Hv Hl) as Hok. destruct Hz as [Hz|(N1 & N2)].
    + exact (C09_parsed_values_are_typed E t ts v Hok P Hz).
    + exact (C09_parsed_values_are_typed_no_lit E t ts v N1 N2 Hok P).
  - intros v _ (n & sp & -> & Hn) Hk. cbn in Hk. split; [constructor; exact Hk|]. constructor; [exact Hn|constructor].
  - intros s sp v H. unfold word_new, ident_new in H. destruct (xid_ok s) eqn:Ex; [|discriminate H]. injection H as <-. split; [constructor; intros []|]. constructor; [left; apply xid_sym; exact Ex|constructor].
  - intros kws v w _ (n & sp & -> & Hn) H. cbn in H. destruct (text_mem n kws) eqn:Em; [discriminate H|]. injection H as <-. split; [constructor; intro Q; apply text_mem_In in Q; congruence|]. constructor; [exact Hn|constructor].
  - intros kw sp. split; constructor.
  - intros kw sp. split; constructor.
  - intros op sps H. split; [constructor; exact H|constructor].
  - intros l sp H. split; [constructor; exact H|constructor].
  - intros k l sp _ (H & _) Hs. split; [|constructor]. inversion H; subst; try bad. constructor; assumption.
  - intros l sp _ (H & _). split; [|constructor]. inversion H; subst; try bad. constructor; assumption.
  - intros t [<-|[<-|[<-|[]]]]; split; constructor.
  - intros t v H. apply good_default. exact H.
  - intros t v sp w _ (H & W) Hs. destruct v; try discriminate Hs; injection Hs as <-; (split; [|exact W]).
    + clear W. remember (VIdent n sp0) as v eqn:Ev. induction H; try discriminate Ev.
      * constructor. congruence.
      * constructor. congruence.
      * exfalso. destruct t; discriminate Ev.
      * exfalso. destruct t; discriminate Ev.
      * constructor. auto.
    + clear W. remember (VKw kw sp0) as v eqn:Ev. induction H; try discriminate Ev.
      * injection Ev as -> ->. constructor.
      * injection Ev as -> ->. constructor.
      * exfalso. destruct t; discriminate Ev.
      * exfalso. destruct t; discriminate Ev.
      * constructor. auto.
    + clear W. remember (VLit l sp0) as v eqn:Ev. induction H; try discriminate Ev.
      * injection Ev as -> ->. constructor. assumption.
      * injection Ev as -> ->. constructor; assumption.
      * exfalso. destruct t; discriminate Ev.
      * exfalso. destruct t; discriminate Ev.
      * constructor. auto.
  - intros a b. apply good_maybe. left. reflexivity.
  - intros a b x y _ Hx _ Hy. apply good_maybe. right. exists x, y. auto.
  - intros a b o _ H1 _ H2. apply good_maybe. destruct o as [(x, y)|]; [|left; reflexivity]. right. exists x, y. specialize (H1 x y eq_refl). specialize (H2 x y eq_refl). auto.
  - intros a b x y _ Hx _ Hy. apply good_maybe. right. exists x, y. auto.
  - intros a b d o _ Hd _ Ho. apply good_maybe. destruct o as [y|]; [|left; reflexivity]. right. exists d, y. auto.
  - intros d a v sp Hd _ H. apply good_group; [exact Hd|]. exists sp, v. auto.
  - intros d a v w Hd _ H Hw. unfold group_from in Hw. destruct (node_span v) as [sp|]; [|discriminate Hw]. injection Hw as <-. apply good_group; [exact Hd|]. exists sp, v. auto.
  - intros a p x _ H Hn. apply good_punctuated. eauto.
  - intros a p x _ (H & Hs). apply good_separated. eauto.
  - intros a l _ H. apply good_any. exists l. split; [reflexivity|]. apply Forall_forall. exact H.
  - intros a v more w _ H _ Hm Hw. apply good_any in H as (l & -> & H). injection Hw as <-. apply good_any. eexists. split; [reflexivity|]. apply Forall_app. split; [exact H|]. apply Forall_forall. exact Hm.
  - intros o r x _ H. apply good_left. left. eexists. split; [reflexivity|exact H].
  - intros o r x y z _ H1 _ H2 _ H3. apply good_left. right. eexists _, _, _. split; [reflexivity|]. auto.
  - intros o r x _ H. apply good_right. left. eexists. split; [reflexivity|exact H].
  - intros o r x y z _ H1 _ H2 _ H3. apply good_right. right. eexists _, _, _. split; [reflexivity|]. auto.
  - intros a b x _ H. apply good_either. eauto.
  - intros a b x _ H. apply good_either. eauto.
  - intros a b v w _ H Hw. apply good_either in H as [(x & -> & H)|(x & -> & H)]; injection Hw as <-; apply good_either; eauto.
  - intros a b c d f g v w _ H _ Hf _ Hg Hw. apply good_either in H as [(x & -> & H)|(x & -> & H)]; injection Hw as <-; apply good_either; eauto.
  - intros a v x _ H Hx. apply good_either in H as [(y & -> & H)|(y & -> & H)]; injection Hx as <-; exact H.
  - intros a x _ H. apply good_box. exact H.
  - intros a x _ H. apply (proj1 (good_box E _ _)). exact H.
  - intros i c vs He Hl _ Hf. apply good_ref. left. eexists _, _. split; [reflexivity|]. split; [exact He|]. split; [exact Hl|exact Hf].
  - intros i en cs n c vs He Hn Hl _ Hf. apply good_ref. right. eexists _, _, _, _, _. split; [reflexivity|]. split; [exact He|]. split; [exact Hn|]. split; [exact Hl|exact Hf].
  - intros t v s a x _ H Hp G. exact (good_get t v s a x H Hp G).
  - intros t v s a x w _ H Hp _ Hx G. exact (good_set t v s a x w H Hp Hx G).
  - intros s sp v H. unfold ident_new in H. destruct (xid_ok s) eqn:Ex; [|discriminate H]. injection H as <-. eexists _, _. split; [reflexivity|]. left. apply xid_sym. exact Ex.
  - intros s sp v H. unfold ident_new_raw in H. destruct (xid_ok s) eqn:Ex; [|discriminate H]. destruct (text_mem s no_raw) eqn:Er; [discriminate H|]. cbn [andb negb] in H. injection H as <-. eexists _, _. split; [reflexivity|]. right. exists s. split; [reflexivity|]. split; [apply xid_sym; exact Ex|exact Er].
  - intros v _ (H & W). inversion H; subst; try bad. inversion W; subst. eexists _, _. eauto.
  - intros kws v _ (H & W). inversion H; subst; try bad. inversion W; subst. eexists _, _. split; [reflexivity|]. assumption.
  - intros a p. split; [constructor|discriminate].
  - intros a p inner last _ H. apply good_punctuated in H as ([i l] & [= -> ->] & H & _). exact H.
  - intros a p x _ (H & _). exact H.
  - intros a p x c _ H _ Hv _ Hp. apply good_seq_change; assumption.
  - intros a p inner last _ H. apply good_separated in H as ([i l] & [= -> ->] & H & Hs). auto.
  - intros a p x y _ H Ht. unfold sep_try_from in Ht. destruct (empty_or_trailing x) eqn:Ee; [discriminate Ht|]. injection Ht as <-. split; [exact H|]. apply separated_iff. destruct x as [inner [z|]]; [eauto|discriminate Ee].
  - intros a p x c _ (H & Hs) _ Hv _ Hp. split; [apply good_sep_change; assumption|]. apply separated_iff in Hs as (inner & z & ->). destruct (change_effect c inner z) as (inner' & z' & -> & _). apply separated_iff. eauto.
Qed.
End All.

(** ** C57 *)
(** Whatever was made and changed through the API is well formed, prints, and reads back. *)
Theorem C57_obtainable_is_typed : forall (U : unicode), sane_tables U -> forall E t v, env_leaves rust_leaf E -> obtainable E t v ->
  typed E t v /\ (forall n, In n (val_words v) -> ident_ok n).
Proof.
  intros U sane E t v HE H. destruct (obtainable_good sane E (rust_punct_env E HE) t v H) as (H1 & H2). split; [exact H1|]. rewrite Forall_forall in H2. exact H2.
Qed.
Theorem C57_prints : forall (U : unicode), sane_tables U -> forall E t v, env_leaves rust_leaf E -> obtainable E t v ->
  (forall l, In l (val_lits v) -> lit_finite l) -> exists ts, print v = Some ts.
Proof. intros U sane E t v HE H. apply (C10_values_print U E t v). exact (proj1 (C57_obtainable_is_typed U sane E t v HE H)). Qed.
Theorem C57_tokens_read_back : forall (U : unicode), sane_tables U -> forall g t v ts, ll1 g t = true -> env_leaves rust_leaf (env_of g) ->
  obtainable (env_of g) t v -> print v = Some ts -> parses (env_of g) t ts v.
Proof.
  intros U sane g t v ts Hg HE H. apply (C10_parse_of_print U g t v ts Hg). exact (proj1 (C57_obtainable_is_typed U sane _ t v HE H)).
Qed.
Theorem C57_text_reads_back : forall (U : unicode), sane_tables U -> forall g t v alternate out file, ll1 g t = true -> env_leaves rust_leaf (env_of g) -> leaves rust_leaf t ->
  obtainable (env_of g) t v -> to_string alternate v = Some out -> exists v', from_str (env_of g) t file out v' /\ strip v' = strip v.
Proof.
  intros U sane g t v alternate out file Hg HE Ht H. destruct (C57_obtainable_is_typed U sane _ t v HE H) as (H1 & H2).
  apply (C38_to_string_from_str sane g t v alternate out file Hg H1). apply (typed_writable (env_of g) t v HE Ht H1). apply Forall_forall. exact H2.
Qed.
Print Assumptions C57_obtainable_is_typed.
Print Assumptions C57_prints.
Print Assumptions C57_tokens_read_back.
Print Assumptions C57_text_reads_back.

(** ** Changing a part changes the tokens of that part and nothing else *)
(** a token stream with a hole, perhaps inside groups *)
Inductive around := Flat (pre post : list tt) | Nested (pre : list tt) (d : delim) (sp : span) (c : around) (post : list tt).
Fixpoint fill (c : around) (ts : list tt) : list tt :=
  match c with
  | Flat pre post => pre ++ ts ++ post
  | Nested pre d sp c post => pre ++ TGroup d sp (fill c ts) :: post
  end.
Section Local.
Context {U : unicode}.
Definition wraps (f : option (list tt) -> option (list tt)) : Prop := f = (fun o => o) \/ exists d sp, f = option_map (fun ts => [TGroup d sp ts]).
Definition focus (get : val -> option val) (set : val -> val -> option val) (K : val -> val) : Prop :=
  forall x, get (K x) = Some x /\ forall y, set y (K x) = Some (K y).
Lemma oapp_assoc a b c : oapp a (oapp b c) = oapp (oapp a b) c.
Proof. destruct a, b, c; cbn; try reflexivity. rewrite app_assoc. reflexivity. Qed.
Lemma oapp_nil_l a : oapp (Some []) a = a.
Proof. destruct a; reflexivity. Qed.
Lemma oapp_nil_r a : oapp a (Some []) = a.
Proof. destruct a; cbn; [rewrite app_nil_r|]; reflexivity. Qed.
Lemma oconcat_app a b : oconcat (a ++ b) = oapp (oconcat a) (oconcat b).
Proof. induction a as [|x a IH]; cbn [List.app oconcat fold_right]; [symmetry; apply oapp_nil_l|]. unfold oconcat in *. cbn. rewrite IH. apply oapp_assoc. Qed.
Lemma nth_cut {X} (l : list X) i x : nth_error l i = Some x -> l = firstn i l ++ x :: skipn (S i) l /\ List.length (firstn i l) = i.
Proof.
  revert i. induction l as [|y l IH]; intros [|i] H; try discriminate H.
  - injection H as ->. split; reflexivity.
  - cbn in H. destruct (IH i H) as (H1 & H2). cbn. split; [f_equal; exact H1|]. f_equal. exact H2.
Qed.
Lemma list_focus a b : focus (fun v => match v with VList l => nth_error l (List.length a) | _ => None end) (fun y v => match v with VList l => option_map VList (set_nth (List.length a) y l) | _ => None end) (fun x => VList (a ++ x :: b)).
Proof.
  intros x. split; [rewrite nth_error_app2, Nat.sub_diag; [reflexivity|lia]|]. intro y. unfold set_nth. rewrite app_length. cbn [List.length].
  destruct (Nat.ltb_spec (List.length a) (List.length a + S (List.length b))) as [L|L]; [|lia]. cbn [option_map]. rewrite firstn_app, firstn_all, Nat.sub_diag. cbn [firstn]. rewrite app_nil_r.
  replace (S (List.length a)) with (List.length (a ++ [x])) by (rewrite app_length; cbn; lia). replace (a ++ x :: b) with ((a ++ [x]) ++ b) by (rewrite <- app_assoc; reflexivity).
  rewrite skipn_app, skipn_all, Nat.sub_diag. reflexivity.
Qed.
Lemma set_mid a x y b : set_nth (List.length a) y (a ++ x :: b) = Some (a ++ y :: b).
Proof. pose proof (proj2 (list_focus a b x) y) as H. cbn in H. destruct (set_nth (List.length a) y (a ++ x :: b)) as [l|]; [|discriminate H]. injection H as ->. reflexivity. Qed.
Lemma nth_mid (a : list val) x b : nth_error (a ++ x :: b) (List.length a) = Some x.
Proof. rewrite nth_error_app2, Nat.sub_diag; [reflexivity|lia]. Qed.
Lemma print_mid a x b : oconcat (map print (a ++ x :: b)) = oapp (oconcat (map print a)) (oapp (print x) (oconcat (map print b))).
Proof. rewrite map_app, oconcat_app. reflexivity. Qed.
Lemma pset_mid (a b : list (val * val)) u p last v : pn_set (List.length a) v (Pn (a ++ (u, p) :: b) last) = (Some done, Pn (a ++ (v, p) :: b) last).
Proof.
  unfold pn_set. cbn [pn_inner pn_last]. rewrite app_length. cbn [List.length]. destruct (Nat.ltb_spec (List.length a) (List.length a + S (List.length b))) as [L|L]; [|lia].
  rewrite nth_error_app2, Nat.sub_diag by lia. cbn [nth_error]. rewrite firstn_app, firstn_all, Nat.sub_diag. cbn [firstn]. rewrite app_nil_r.
  replace (S (List.length a)) with (List.length (a ++ [(u, p)])) by (rewrite app_length; cbn; lia). replace (a ++ (u, p) :: b) with ((a ++ [(u, p)]) ++ b) by (rewrite <- app_assoc; reflexivity).
  rewrite skipn_app, skipn_all, Nat.sub_diag. reflexivity.
Qed.
Lemma psetp_mid (a b : list (val * val)) u p last q : pn_set_punct (List.length a) q (Pn (a ++ (u, p) :: b) last) = (Some done, Pn (a ++ (u, q) :: b) last).
Proof.
  unfold pn_set_punct. cbn [pn_inner pn_last]. rewrite nth_error_app2, Nat.sub_diag by lia. cbn [nth_error]. rewrite firstn_app, firstn_all, Nat.sub_diag. cbn [firstn]. rewrite app_nil_r.
  replace (S (List.length a)) with (List.length (a ++ [(u, p)])) by (rewrite app_length; cbn; lia). replace (a ++ (u, p) :: b) with ((a ++ [(u, p)]) ++ b) by (rewrite <- app_assoc; reflexivity).
  rewrite skipn_app, skipn_all, Nat.sub_diag. reflexivity.
Qed.
Lemma pset_last (a : list (val * val)) z v : pn_set (List.length a) v (Pn a (Some z)) = (Some done, Pn a (Some v)).
Proof. unfold pn_set. cbn [pn_inner pn_last]. rewrite Nat.ltb_irrefl, Nat.eqb_refl. reflexivity. Qed.
Notation pair_tokens := (fun '(x, y) => oapp (print x) (print y)).
Lemma step_focus s v x0 : get_part s v = Some x0 -> exists K f A B, v = K x0 /\ focus (get_part s) (set_part s) K /\ wraps f /\
  forall x, print (K x) = oapp A (oapp (f (print x)) B).
Proof.
  assert (Id : wraps (fun o => o)) by (left; reflexivity).
  intro H. destruct s, v; try discriminate H; cbn [get_part] in H.
  - injection H as <-. exists (fun x => VJust x v2), (fun o => o), (Some []), (print v2). repeat split; auto. intro x. symmetry. apply oapp_nil_l.
  - injection H as <-. exists (fun x => VJust v1 x), (fun o => o), (print v1), (Some []). repeat split; auto. intro x. rewrite oapp_nil_r. reflexivity.
  - injection H as <-. exists (fun x => VGroup d sp x), (option_map (fun ts => [TGroup d sp ts])), (Some []), (Some []). repeat split; [right; eauto|]. intro x. rewrite oapp_nil_r, oapp_nil_l. reflexivity.
  - unfold pn_iter in H. cbn [pn_inner pn_last] in H. destruct (Nat.lt_ge_cases i (List.length inner)) as [L|L].
    + rewrite nth_error_app1 in H by (rewrite map_length; exact L). rewrite nth_error_map in H. destruct (nth_error inner i) as [(u, p)|] eqn:En; [|discriminate H]. injection H as <-.
      destruct (nth_cut _ _ _ En) as (Hc & Hl). set (a := firstn i inner) in *. set (b := skipn (S i) inner) in *. clearbody a b. subst i. clear L En.
      exists (fun x => VPunct (a ++ (x, p) :: b) last), (fun o => o), (oconcat (map pair_tokens a)), (oapp (print p) (oapp (oconcat (map pair_tokens b)) (match last with Some z => print z | None => Some [] end))).
      split; [rewrite Hc; reflexivity|]. split; [|split; [exact Id|]].
      * intro x. split; [|intro y; cbn [set_part]; unfold seq_write; rewrite pset_mid; reflexivity]. cbn [get_part]. unfold pn_iter. cbn [pn_inner pn_last].
        rewrite nth_error_app1 by (rewrite map_length, app_length; cbn; lia). rewrite nth_error_map, nth_error_app2, Nat.sub_diag by lia. reflexivity.
      * intro x. cbn [print]. rewrite map_app, oconcat_app. cbn [map oconcat fold_right]. fold (oconcat (map pair_tokens b)). rewrite <- !oapp_assoc. reflexivity.
    + rewrite nth_error_app2 in H by (rewrite map_length; exact L). rewrite map_length in H. destruct last as [z|]; [|destruct (i - List.length inner); discriminate H].
      destruct (i - List.length inner) as [|j] eqn:Ej; [|destruct j; discriminate H]. injection H as <-. assert (i = List.length inner) as -> by lia.
      exists (fun x => VPunct inner (Some x)), (fun o => o), (oconcat (map pair_tokens inner)), (Some []). split; [reflexivity|]. split; [|split; [exact Id|intro x; rewrite oapp_nil_r; reflexivity]].
      intro x. split; [|intro y; cbn [set_part]; unfold seq_write; rewrite pset_last; reflexivity]. cbn [get_part]. unfold pn_iter. cbn [pn_inner pn_last]. rewrite nth_error_app2; rewrite map_length; [|lia]. rewrite Nat.sub_diag. reflexivity.
  - rewrite nth_error_map in H. destruct (nth_error inner i) as [(u, p)|] eqn:En; [|discriminate H]. injection H as <-.
    destruct (nth_cut _ _ _ En) as (Hc & Hl). set (a := firstn i inner) in *. set (b := skipn (S i) inner) in *. clearbody a b. subst i. clear En.
    exists (fun x => VPunct (a ++ (u, x) :: b) last), (fun o => o), (oapp (oconcat (map pair_tokens a)) (print u)), (oapp (oconcat (map pair_tokens b)) (match last with Some z => print z | None => Some [] end)).
    split; [rewrite Hc; reflexivity|]. split; [|split; [exact Id|]].
    + intro x. split; [|intro y; cbn [set_part]; unfold seq_write; rewrite psetp_mid; reflexivity]. cbn [get_part]. rewrite nth_error_map, nth_error_app2, Nat.sub_diag by lia. reflexivity.
    + intro x. cbn [print]. rewrite map_app, oconcat_app. cbn [map oconcat fold_right]. fold (oconcat (map pair_tokens b)). rewrite <- !oapp_assoc. reflexivity.
  - destruct (nth_cut _ _ _ H) as (Hc & Hl). set (a := firstn i l) in *. set (b := skipn (S i) l) in *. clearbody a b. subst i. clear H.
    exists (fun x => VList (a ++ x :: b)), (fun o => o), (oconcat (map print a)), (oconcat (map print b)). split; [rewrite Hc; reflexivity|]. split; [|split; [exact Id|intro x; apply print_mid]].
    intro x. cbn [get_part set_part]. split; [apply nth_mid|]. intro y. rewrite set_mid. reflexivity.
  - injection H as <-. exists (fun x => VBinL x v2 v3), (fun o => o), (Some []), (oapp (print v2) (print v3)). repeat split; auto. intro x. symmetry. apply oapp_nil_l.
  - injection H as <-. exists (fun x => VBinR x v2 v3), (fun o => o), (Some []), (oapp (print v2) (print v3)). repeat split; auto. intro x. symmetry. apply oapp_nil_l.
  - injection H as <-. exists (fun x => VLhs x), (fun o => o), (Some []), (Some []). repeat split; auto. intro x. rewrite oapp_nil_r, oapp_nil_l. reflexivity.
  - injection H as <-. exists (fun x => VBinL v1 x v3), (fun o => o), (print v1), (print v3). repeat split; auto.
  - injection H as <-. exists (fun x => VBinR v1 x v3), (fun o => o), (print v1), (print v3). repeat split; auto.
  - injection H as <-. exists (fun x => VBinL v1 v2 x), (fun o => o), (oapp (print v1) (print v2)), (Some []). repeat split; auto. intro x. rewrite oapp_nil_r, <- oapp_assoc. reflexivity.
  - injection H as <-. exists (fun x => VRhs x), (fun o => o), (Some []), (Some []). repeat split; auto. intro x. rewrite oapp_nil_r, oapp_nil_l. reflexivity.
  - injection H as <-. exists (fun x => VBinR v1 v2 x), (fun o => o), (oapp (print v1) (print v2)), (Some []). repeat split; auto. intro x. rewrite oapp_nil_r, <- oapp_assoc. reflexivity.
  - injection H as <-. exists (fun x => VLeft x), (fun o => o), (Some []), (Some []). repeat split; auto. intro x. rewrite oapp_nil_r, oapp_nil_l. reflexivity.
  - injection H as <-. exists (fun x => VRight x), (fun o => o), (Some []), (Some []). repeat split; auto. intro x. rewrite oapp_nil_r, oapp_nil_l. reflexivity.
  - destruct (nth_cut _ _ _ H) as (Hc & Hl). set (a := firstn k fs) in *. set (b := skipn (S k) fs) in *. clearbody a b. subst k. clear H.
    exists (fun x => VStruct (a ++ x :: b)), (fun o => o), (oconcat (map print a)), (oconcat (map print b)). split; [rewrite Hc; reflexivity|]. split; [|split; [exact Id|intro x; apply print_mid]].
    intro x. cbn [get_part set_part]. split; [apply nth_mid|]. intro y. rewrite set_mid. reflexivity.
  - destruct (nth_cut _ _ _ H) as (Hc & Hl). set (a := firstn k fs) in *. set (b := skipn (S k) fs) in *. clearbody a b. subst k. clear H.
    exists (fun x => VVariant k0 (a ++ x :: b)), (fun o => o), (oconcat (map print a)), (oconcat (map print b)). split; [rewrite Hc; reflexivity|]. split; [|split; [exact Id|intro x; apply print_mid]].
    intro x. cbn [get_part set_part]. split; [apply nth_mid|]. intro y. rewrite set_mid. reflexivity.
Qed.

Lemma path_focus ss : forall v x0, get_path ss v = Some x0 -> exists K, v = K x0 /\ focus (get_path ss) (set_path ss) K /\
  forall ts, print v = Some ts -> exists c, forall x, print (K x) = option_map (fill c) (print x).
Proof.
  induction ss as [|s ss IH]; intros v x0 H; cbn [get_path] in H.
  - injection H as <-. exists (fun x => x). split; [reflexivity|]. split; [intro x; split; reflexivity|]. intros ts _. exists (Flat [] []). intro x. destruct (print x); cbn; [rewrite app_nil_r|]; reflexivity.
  - destruct (get_part s v) as [y|] eqn:Eg; [|discriminate H]. destruct (step_focus s v y Eg) as (K & f & A & B & -> & HK & Hf & Hp). destruct (IH y x0 H) as (L & -> & HL & Hq).
    exists (fun x => K (L x)). split; [reflexivity|]. split.
    + intro x. destruct (HK (L x)) as (G1 & G2). destruct (HL x) as (G3 & G4). split; [cbn [get_path]; rewrite G1; exact G3|]. intro z. cbn [set_path]. rewrite G1, G4. apply G2.
    + intros ts Ht. rewrite Hp in Ht. destruct A as [pre|]; [|discriminate Ht]. destruct B as [post|]; [|destruct (f (print (L x0))); discriminate Ht].
      assert (exists u, print (L x0) = Some u) as (u & Hu) by (destruct Hf as [-> |(d & sp & ->)]; destruct (print (L x0)); eauto; discriminate Ht).
      destruct (Hq u Hu) as (c & Hc). destruct Hf as [-> |(d & sp & ->)].
      * destruct c as [pre' post'|pre' d sp c post']; [exists (Flat (pre ++ pre') (post' ++ post))|exists (Nested (pre ++ pre') d sp c (post' ++ post))]; intro x; rewrite Hp, Hc; destruct (print x); cbn; try reflexivity; rewrite <- !app_assoc; reflexivity.
      * exists (Nested pre d sp c post). intro x. rewrite Hp, Hc. destruct (print x); cbn; reflexivity.
Qed.
End Local.
(** A part that can be read can be written; reading gives what was written last, and writing back what was read changes nothing. *)
Theorem C57_read_what_was_written : forall (ss : list part) v x0, get_path ss v = Some x0 ->
  set_path ss x0 v = Some v /\
  forall x, exists w, set_path ss x v = Some w /\ get_path ss w = Some x /\ forall y, set_path ss y w = set_path ss y v.
Proof.
  intros ss v x0 H. destruct (@path_focus ascii_only ss v x0 H) as (K & -> & HK & _). split; [apply HK|]. intro x. exists (K x). split; [apply HK|]. split; [apply HK|].
  intro y. rewrite (proj2 (HK x) y), (proj2 (HK x0) y). reflexivity.
Qed.
(** Writing to a part replaces its tokens, and leaves all tokens before and after it, and the groups around it, as they were. *)
Theorem C57_edits_are_local : forall (U : unicode) (ss : list part) v x0 ts, get_path ss v = Some x0 -> print v = Some ts ->
  exists around ts0, print x0 = Some ts0 /\ ts = fill around ts0 /\
    forall x w, set_path ss x v = Some w -> print w = option_map (fill around) (print x).
Proof.
  intros U ss v x0 ts H Hp. destruct (path_focus ss v x0 H) as (K & -> & HK & Hq). destruct (Hq ts Hp) as (c & Hc). pose proof (Hc x0) as H0. rewrite Hp in H0.
  destruct (print x0) as [ts0|]; [|discriminate H0]. injection H0 as H0. exists c, ts0. split; [reflexivity|]. split; [exact H0|]. intros x w Hw. rewrite (proj2 (HK x0) x) in Hw. injection Hw as <-. apply Hc.
Qed.
Print Assumptions C57_read_what_was_written.
Print Assumptions C57_edits_are_local.

(** [Paren::from(x)] etc. is where [x] is, and holds [x]. *)
Theorem C57_wrapping_keeps_the_place : forall (U : unicode) d v w, group_from d v = Some w ->
  node_span w = node_span v /\ get_part PInner w = Some v /\
  exists ts sp, print v = Some ts /\ node_span v = Some sp /\ print w = Some [TGroup d sp ts].
Proof.
  intros U d v w H. unfold group_from, node_span in *. destruct (print v) as [ts|] eqn:Hp; [|discriminate H]. cbn [option_map] in H. injection H as <-.
  unfold group_new. cbn [print get_part option_map]. rewrite Hp. cbn [option_map join_spans rev tt_span]. split; [reflexivity|]. split; [reflexivity|]. eexists _, _. split; [reflexivity|]. split; reflexivity.
Qed.
(** Taking apart and putting together are inverse, and [as_parts]/[into_parts] return what the single accessors return. *)
Theorem C57_taken_apart : forall (U : unicode) E a b d,
  (forall v, typed E (TyMaybe a b) v -> maybe_from_option_parts (maybe_parts v) = v /\
     maybe_parts v = match get_part PPrefix v, get_part PTail v with Some p, Some t => Some (p, t) | _, _ => None end) /\
  (forall p t, maybe_parts (maybe_from_parts p t) = Some (p, t)) /\ maybe_parts maybe_new = None /\
  (d <> DNone -> forall v, typed E (TyGroup d a) v -> exists sp x, group_parts v = Some (sp, x) /\ v = group_new d x sp /\ get_part PInner v = Some x /\ typed E a x) /\
  (forall x sp, group_parts (group_new d x sp) = Some (sp, x)) /\
  (forall v, typed E (TyAny a) v -> exists l, any_items v = Some l /\ v = any_from l) /\ (forall l, any_items (any_from l) = Some l) /\
  (forall v, typed E (TyEither a b) v -> exists w x, either_flip v = Some w /\ either_flip w = Some v /\ typed E (TyEither b a) w /\ either_into_inner v = Some x /\ either_into_inner w = Some x /\ get_part PSide v = Some x).
Proof.
  intros U E a b d. split; [|split; [|split; [|split; [|split; [|split; [|split]]]]]]; try reflexivity.
  - intros v H. inversion H; subst; try (match goal with Q : TyGroup ?d _ = _ |- _ => destruct d; discriminate Q end); split; reflexivity.
  - intros Hd v H. inversion H; subst; try (destruct d; discriminate); try congruence.
    eexists _, _. split; [reflexivity|]. split; [|split; [reflexivity|]]; destruct d, d0; cbn in *; unfold group_new; congruence.
  - intros v H. inversion H; subst; try (match goal with Q : TyGroup ?d _ = _ |- _ => destruct d; discriminate Q end). eexists. split; reflexivity.
  - intros v H. inversion H; subst; try (match goal with Q : TyGroup ?d _ = _ |- _ => destruct d; discriminate Q end); (eexists _, _; split; [reflexivity|]; split; [reflexivity|]; split; [constructor; assumption|]; repeat split).
Qed.
(** The defaults of the literal types are what these literals are read as. *)
Definition default_text (k : litty) (sp : span) : tt :=
  match k with
  | LtBool => TIdent (T "false") sp | LtByte => TLit [98; 39; 92; 48; 39]%N sp | LtInt | LtUint => TLit (T "0") sp
  | LtFloat => TLit (T "0.0") sp | LtChar => TLit [39; 92; 48; 39]%N sp | LtStr => TLit [34; 34]%N sp | LtByteStr => TLit [98; 34; 34]%N sp
  end.
Theorem C57_default_literals : forall (U : unicode) E k sp, exists v, parses E (TyLit k) [default_text k sp] v /\ option_map strip (default_val (TyLit k)) = Some (strip v).
Proof.
  intros U E k sp. exists (VLit (lit_default k) sp). split; [|reflexivity]. exists 2. destruct k; vm_compute; reflexivity.
Qed.
(** [set_span]: [span] gives the new span, all tokens have it, and nothing but locations has changed. *)
Theorem C57_set_span : forall (U : unicode) sp v w, set_span sp v = Some w ->
  get_span w = Some sp /\ strip w = strip v /\ forall ts, print w = Some ts -> Forall (fun t => tt_span t = sp) ts.
Proof.
  intros U sp v w H. destruct v; try discriminate H; injection H as <-; (split; [reflexivity|]; split; [reflexivity|]).
  - intros ts [= <-]. repeat constructor.
  - intros ts [= <-]. repeat constructor.
  - assert (P : forall r ts, Some (push_lit r sp) = Some ts -> Forall (fun t => tt_span t = sp) ts).
    { intros r ts Q. assert (ts = push_lit r sp) as -> by congruence. unfold push_lit. destruct r as [|c r]; [repeat constructor|]. destruct (c =? 45)%N; repeat constructor. }
    intros ts. cbn [print]. unfold print_lit. destruct l; try apply P.
    + intros [= <-]. repeat constructor.
    + destruct (lit_byte_repr b); [apply P|discriminate].
    + destruct (float_show f); [apply P|discriminate].
Qed.
Print Assumptions C57_wrapping_keeps_the_place.
Print Assumptions C57_set_span.
Print Assumptions C57_taken_apart.
Print Assumptions C57_default_literals.

(** ** What the caller has to see to *)
Section WithTables.
Local Existing Instance ascii_only.
(** An [Ident] made from a Rust keyword prints a word that [Ident] does not read: *)
Theorem C57_keyword_ident_refuted : exists v ts, ident_new (T "fn") call_site = Some v /\ print v = Some ts /\ refuses (env_of []) TyIdent ts.
Proof. eexists _, _. split; [vm_compute; reflexivity|]. split; [reflexivity|]. exists 3. eexists. vm_compute. reflexivity. Qed.
(** a [Many] with a separator at the end (which prints nothing) reads back without it: *)
Theorem C57_many_separator_refuted : exists x v, ident_new (T "a") call_site = Some x /\
  snd (seq_apply (QPushPunct VUnit) (snd (seq_apply (QPush x None) pn_new))) = Pn [(x, VUnit)] None /\ v = VPunct [(x, VUnit)] None /\
  exists ts w, print v = Some ts /\ parses (env_of []) (TyMany TyIdent) ts w /\ strip w <> strip v.
Proof.
  eexists _, _. split; [vm_compute; reflexivity|]. split; [reflexivity|]. split; [reflexivity|]. eexists _, _. split; [reflexivity|]. split; [exists 5; vm_compute; reflexivity|]. vm_compute. discriminate.
Qed.
(** a non-negative [Lit::Int] reads back as [Lit::Uint]: *)
Theorem C57_positive_int_refuted : exists ts w, print (VLit (LInt 5) call_site) = Some ts /\ parses (env_of []) TyAnyLit ts w /\ strip w <> strip (VLit (LInt 5) call_site).
Proof. eexists _, _. split; [vm_compute; reflexivity|]. split; [exists 3; vm_compute; reflexivity|]. vm_compute. discriminate. Qed.

(** ** An example: parse `(a, b)`, take the list out, push a word, rename an item, wrap it again *)
Definition names : ty := TyParen (TySeparated TyIdent (TyToken (T ","))).
Definition renamed : val :=
  VGroup DParen call_site (VPunct [(VIdent (T "a") (sp 1 2), VOp (T ",") [sp 2 3]); (VIdent (T "c") call_site, VOp (T ",") [call_site])] (Some (VIdent (T "d") call_site))).
Example C57_ex : obtainable (env_of []) names renamed /\ ll1 [] names = true /\ leaves rust_leaf names /\ env_leaves rust_leaf (env_of []) /\
  to_string true renamed = Some (T "(a , c , d)").
Proof.
  assert (Name : forall s, In s [T "c"; T "d"] -> obtainable (env_of []) TyIdent (VIdent s call_site)).
  { intros s [<-|[<-|[]]]; (apply ob_ident; [match goal with |- some_ident _ (VIdent ?n ?q) => apply (si_new _ n q) end; vm_compute; reflexivity|intro H; vm_compute in H; intuition discriminate]). }
  assert (L : leaves rust_leaf names).
  { assert (C : leavesb rust_leafb names = true) by (vm_compute; reflexivity). exact (leavesb_ok rust_leafb rust_leaf rust_leafb_ok names C). }
  split; [|split; [vm_compute; reflexivity|]; split; [exact L|]; split; [intro i; destruct i; constructor|vm_compute; reflexivity]].
  assert (P : exists sp0, obtainable (env_of []) names (VGroup DParen sp0 (VPunct [(VIdent (T "a") (sp 1 2), VOp (T ",") [sp 2 3])] (Some (VIdent (T "b") (sp 4 5)))))).
  { eexists. eapply (ob_from_str _ _ 1 (T "(a, b)")); [exact (rust_punct _ L)|vm_compute; reflexivity|exists 9; vm_compute; reflexivity|]. left. intros []. }
  destruct P as (sp0 & P). assert (S0 := ob_get _ _ _ PInner _ _ P eq_refl eq_refl).
  apply (ob_group (env_of []) DParen); [discriminate|].
  assert (S1 := ob_separated _ _ _ _ (op_change _ _ _ _ (Push (VOp (T ",") [call_site]) (VIdent (T "d") call_site)) (op_of _ _ _ _ _ S0) ltac:(intros v [<-|[]]; apply Name; right; left; reflexivity) ltac:(intros v [<-|[]]; apply ob_token; reflexivity))).
  refine (ob_set _ _ _ (PValue 1) _ (VIdent (T "c") call_site) _ S1 eq_refl _ eq_refl). apply Name. left. reflexivity.
Qed.
End WithTables.
Print Assumptions C57_keyword_ident_refuted.
Print Assumptions C57_many_separator_refuted.
Print Assumptions C57_positive_int_refuted.
