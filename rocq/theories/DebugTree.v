(** * DebugTree: equal texts are of equal trees (C65). *)
From Verif Require Import Base Float Literal Syn Ast Derive Grammar Spec LitSpec Lexer Offsets LiteralFacts Digits LitText PropSpan Reprint PropLit Writable HashCalls HashFacts Debug DebugFacts.
Local Open Scope nat_scope.

Section Tree.
Context {U : unicode}.
Variable S : shown.
Variable E : env.
(** Immediate parts of a type. *)
Inductive piece : ty -> ty -> Prop :=
| p_box a : piece (TyBox a) a
| p_maybe1 a b : piece (TyMaybe a b) a | p_maybe2 a b : piece (TyMaybe a b) b
| p_paren a : piece (TyParen a) a | p_bracket a : piece (TyBracket a) a | p_brace a : piece (TyBrace a) a
| p_punct1 a p : piece (TyPunctuated a p) a | p_punct2 a p : piece (TyPunctuated a p) p
| p_sep1 a p : piece (TySeparated a p) a | p_sep2 a p : piece (TySeparated a p) p
| p_any a : piece (TyAny a) a
| p_left1 p r : piece (TyLeftAssoc p r) p | p_left2 p r : piece (TyLeftAssoc p r) r
| p_right1 p r : piece (TyRightAssoc p r) p | p_right2 p r : piece (TyRightAssoc p r) r
| p_either1 a b : piece (TyEither a b) a | p_either2 a b : piece (TyEither a b) b
| p_struct i c l u : E i = DStruct c -> In (l, u) (c_fields c) -> piece (TyRef i) u
| p_enum i n cs c l u : E i = DEnum n cs -> In c cs -> In (l, u) (c_fields c) -> piece (TyRef i) u.
(** the types that occur in a type, itself included *)
Inductive occurs (t : ty) : ty -> Prop :=
| o_refl : occurs t t
| o_step u v : occurs t u -> piece u v -> occurs t v.
Lemma occurs_unbox t u : occurs t u -> occurs t (unbox u).
Proof. induction u; cbn [unbox]; auto. intro H. apply IHu. eapply o_step; [exact H|constructor]. Qed.
(** the identifiers and keywords in a tree are words *)
Fixpoint words (v : val) : Prop :=
  match v with
  | VIdent n _ => word n
  | VKw n _ => word n
  | VOp _ _ | VLit _ _ | VUnit | VNothing => True
  | VJust x y => words x /\ words y
  | VGroup _ _ x | VRhs x | VLhs x | VLeft x | VRight x => words x
  | VPunct i l => all (fun '(x, y) => words x /\ words y) i /\ match l with Some x => words x | None => True end
  | VBinL x o y | VBinR x o y => words x /\ words o /\ words y
  | VList l | VStruct l | VVariant _ l => all words l
  end.
(** What the text leaves out, the texts of the parts have to make up for: [Either] does not say which side it is, and an association does not
    say whether it is an operand. *)
Definition apart (u : ty) : Prop :=
  match u with
  | TyEither a b => forall x y, of_type E a x -> of_type E b y -> words x -> words y -> dbg S E a x <> dbg S E b y
  | TyLeftAssoc p r => forall x l o y, of_type E r x -> of_type E (TyLeftAssoc p r) (VBinL l o y) -> words x -> words (VBinL l o y) -> dbg S E r x <> dbg S E (TyLeftAssoc p r) (VBinL l o y)
  | TyRightAssoc p r => forall x l o y, of_type E r x -> of_type E (TyRightAssoc p r) (VBinR l o y) -> words x -> words (VBinR l o y) -> dbg S E r x <> dbg S E (TyRightAssoc p r) (VBinR l o y)
  | _ => True
  end.
(** the locations of the identifiers and literals, in order *)
Fixpoint leaf_offsets (v : val) : list (N * N) :=
  match v with
  | VIdent _ sp | VLit _ sp => [offsets S sp]
  | VKw _ _ | VOp _ _ | VUnit | VNothing => []
  | VJust x y => leaf_offsets x ++ leaf_offsets y
  | VGroup _ _ x | VRhs x | VLhs x | VLeft x | VRight x => leaf_offsets x
  | VPunct i l => List.concat (map (fun '(x, y) => leaf_offsets x ++ leaf_offsets y) i) ++ match l with Some x => leaf_offsets x | None => [] end
  | VBinL x o y | VBinR x o y => leaf_offsets x ++ leaf_offsets o ++ leaf_offsets y
  | VList l | VStruct l | VVariant _ l => List.concat (map leaf_offsets l)
  end.
(** the names in the grammar *)
Definition ctor_fine (c : ctor) : Prop := word (c_name c) /\ c_name c <> T "bytes" /\ Forall (fun '(l, u) => word (show_label l)) (c_fields c).
Definition names_fine : Prop := forall i, match E i with DStruct c => ctor_fine c | DEnum _ cs => Forall ctor_fine cs /\ NoDup (map c_name cs) end.
(** what the model leaves open is as one would expect *)
Definition sane : Prop :=
  (forall k, word (token_name S k)) /\ (forall x, f64_valid x = true -> word (float_text S x)) /\
  (forall x y, f64_valid x = true -> f64_valid y = true -> float_text S x = float_text S y -> x = y).
(** ** Everything shown is well-formed *)
Hypothesis Sane : sane.
Hypothesis Fine : names_fine.
Lemma digits_word n : word (dec n).
Proof.
  split; [apply dec_nonempty|]. pose proof (dec_digits n) as H. rewrite forallb_forall in H |- *. intros c Hc. specialize (H c Hc). unfold is_digit in H. unfold wordc. cbn [existsb]. lia.
Qed.
Lemma int_word z : word (show_int z).
Proof. unfold show_int. destruct (digits_word (Z.abs_N z)) as (A & B). destruct (z <? 0)%Z; cbn [app]; split; auto; discriminate. Qed.
Lemma all_every {A} (P : A -> Prop) l : all P l = every P l.
Proof. reflexivity. Qed.
Lemma lit_wf l : lit_valid l -> wf (lit_doc S l).
Proof.
  destruct Sane as (_ & F & _). destruct l as [[|]|b|z|z|x|c|s|s]; cbn [lit_valid lit_doc wf]; intro H; auto using digits_word, int_word; try (split; [discriminate|reflexivity]).
  apply every_forall. rewrite Forall_map. apply Forall_forall. intros b _. apply digits_word.
Qed.
Lemma ctor_wf c (g : ty -> val -> doc) l : ctor_fine c -> all2 (fun a x => wf (g a x)) (c_fields c) l -> wf (ctor_doc (c_name c) (g_fields g (c_fields c) l)).
Proof.
  intros (Wn & Nb & Wl). revert Wl. generalize (c_fields c). intros fs Wl H.
  assert (A : Forall (fun f => word (show_label (fst f)) /\ wf (snd f)) (g_fields g fs l)).
  { revert fs Wl H. induction l as [|x l IH]; intros [|(la, u) fs] Wl H; cbn [all2 g_fields] in *; try contradiction; try (constructor; fail).
    apply Forall_cons_iff in Wl as (W1 & Wl). destruct H as (Hx & H). cbn [snd fst] in *. constructor; [auto|]. apply IH; assumption. }
  destruct (g_fields g fs l) as [|[[m|m] d] r]; cbn [ctor_doc].
  - exact Wn.
  - cbn [wf]. split; [exact Wn|]. split; [discriminate|]. apply every_forall. rewrite Forall_map. eapply Forall_impl; [|exact A]. intros (f, x) H'. exact H'.
  - cbn [wf]. split; [apply Wn|]. split; [exact Nb|]. split; [discriminate|]. apply every_forall. rewrite Forall_map. eapply Forall_impl; [|exact A]. intros (f, x) H'. apply H'.
Qed.
Lemma ident_wf n sp : word n -> wf (ident_doc S n sp).
Proof. intro H. unfold ident_doc. cbn [wf]. split; [split; [discriminate|reflexivity]|]. split; [discriminate|]. destruct (offsets S sp) as ([|p], [|q]); cbn; repeat split; try apply H; discriminate. Qed.
Ltac known := split; [discriminate|reflexivity].
Lemma fields_wf l : Forall (fun v => forall t, of_type E t v -> words v -> wf (dbg S E t v)) l -> forall fs, all2 (fun a x => of_type E a x) fs l -> all words l -> all2 (fun a x => wf (dbg S E a x)) fs l.
Proof.
  induction 1 as [|v l Hv Hl IH]; intros [|f fs] T W; cbn [all2] in *; try contradiction; auto. destruct T, W. auto.
Qed.
Lemma dbg_wf v : forall t, of_type E t v -> words v -> wf (dbg S E t v).
Proof.
  induction v as [n sp|k sp|op sps|l sp| | |x y IHx IHy|d sp x IHx|inner last IHi IHl|l IHl|l o r IH1 IH2 IH3|x IHx|l o r IH1 IH2 IH3|x IHx|x IHx|x IHx|l IHl|k l IHl] using val_ind';
    intros t Ty W; cbn [of_type words] in Ty, W; destruct (unbox t) eqn:Ut; try contradiction; try (destruct Ty; contradiction); cbn [dbg]; rewrite ?Ut.
  - apply ident_wf, W.
  - apply ident_wf, W.
  - exact W.
  - apply Sane.
  - apply Sane.
  - cbn [wf]. destruct Ty. split; [destruct l; known|]. repeat split; try discriminate; auto using lit_wf. 
  - cbn [wf]. destruct Ty. split; [destruct l; known|]. repeat split; try discriminate; auto using lit_wf.
  - known.
  - known.
  - known.
  - known.
  - destruct Ty, W. cbn [wf]. repeat split; try discriminate; auto.
  - destruct Ty. cbn [wf]. repeat split; try discriminate; auto.
  - destruct Ty. cbn [wf]. repeat split; try discriminate; auto.
  - destruct Ty. cbn [wf]. repeat split; try discriminate; auto.
  - destruct Ty as (Ti & Tl), W as (Wi & Wl). cbn [wf]. apply every_forall, Forall_app. split.
    + clear IHl Tl Wl. induction inner as [|(x, y) r IH]; [constructor|]. cbn [map List.concat]. apply Forall_cons_iff in IHi as ((Hx & Hy) & IHi). destruct Ti as ((? & ?) & Ti), Wi as ((? & ?) & Wi). cbn [fst snd] in *. repeat (constructor; auto).
    + destruct last; repeat (constructor; auto).
  - destruct Ty as (Ti & Tl), W as (Wi & Wl). cbn [wf]. apply every_forall, Forall_app. split.
    + clear IHl Tl Wl. induction inner as [|(x, y) r IH]; [constructor|]. cbn [map List.concat]. apply Forall_cons_iff in IHi as ((Hx & Hy) & IHi). destruct Ti as ((? & ?) & Ti), Wi as ((? & ?) & Wi). cbn [fst snd] in *. repeat (constructor; auto).
    + destruct last; repeat (constructor; auto).
  - cbn [wf]. apply every_forall. rewrite Forall_map. clear Ut. induction l as [|x l IH]; [constructor|]. apply Forall_cons_iff in IHl as (Hx & IHl). destruct Ty, W. constructor; auto.
  - destruct Ty as (? & ? & ?), W as (? & ? & ?). cbn [wf]. auto.
  - auto.
  - destruct Ty as (? & ? & ?), W as (? & ? & ?). cbn [wf]. auto.
  - auto.
  - auto.
  - auto.
  - specialize (Fine i). destruct (E i) as [c|en cs] eqn:Ei; try contradiction. apply ctor_wf; [exact Fine|]. apply fields_wf; assumption.
  - specialize (Fine i). destruct (E i) as [c|en cs] eqn:Ei; try contradiction. destruct (nth_error cs k) as [c|] eqn:Nk; [|contradiction]. destruct Fine as (Fc & _). rewrite Forall_forall in Fc.
    apply ctor_wf; [exact (Fc c (nth_error_In _ _ Nk))|]. apply fields_wf; assumption.
Qed.

(** ** Equal documents are of equal trees *)
Lemma show_int_inj z z' : show_int z = show_int z' -> z = z'.
Proof.
  intro H. unfold show_int in H. assert (D : forall a b x, dec a = 45%N :: x ++ dec b -> False) by (intros a b x H'; pose proof (dec_digits a) as Q; rewrite H' in Q; discriminate Q).
  destruct (Z.ltb_spec z 0), (Z.ltb_spec z' 0); cbn [app] in H.
  - injection H as H. apply dec_inj in H. lia.
  - exfalso. exact (D _ _ [] (eq_sym H)).
  - exfalso. exact (D _ _ [] H).
  - apply dec_inj in H. lia.
Qed.
Lemma lit_doc_inj l m : lit_valid l -> lit_valid m -> lit_name l = lit_name m -> lit_doc S l = lit_doc S m -> l = m.
Proof.
  destruct Sane as (_ & _ & F). pose proof show_int_inj as Z.
  destruct l as [b|b|z|z|x|c|s|s], m as [b'|b'|z'|z'|x'|c'|s'|s']; cbn [lit_valid lit_name lit_doc]; intros V V' N H; try discriminate N; clear N.
  - destruct b, b'; congruence || discriminate H.
  - injection H as H. apply dec_inj in H. congruence.
  - injection H as H. f_equal. auto.
  - injection H as H. f_equal. auto.
  - injection H as H. f_equal. auto.
  - congruence.
  - congruence.
  - injection H as H. f_equal. clear V V'. revert s' H. induction s as [|b s IH]; intros [|b' s'] H; try discriminate H; [reflexivity|]. cbn [map] in H. injection H as Hb H. apply dec_inj in Hb. f_equal; auto.
Qed.
Lemma ident_doc_inj n n' sp sp' : ident_doc S n sp = ident_doc S n' sp' <-> n = n' /\ offsets S sp = offsets S sp'.
Proof. unfold ident_doc. split; [|intros (-> & ->); reflexivity]. intro H. destruct (offsets S sp) as ([|p], [|q]), (offsets S sp') as ([|p'], [|q']); split; congruence || discriminate H. Qed.
(** the top type is [t0] *)
Variable t0 : ty.
Hypothesis Apart : forall u, occurs t0 u -> apart u.
Definition told (v : val) : Prop := forall t w, occurs t0 t -> of_type E t v -> of_type E t w -> words v -> words w -> dbg S E t v = dbg S E t w -> strip v = strip w /\ leaf_offsets v = leaf_offsets w.
Lemma told_list l : Forall told l -> forall t l', occurs t0 t -> all (of_type E t) l -> all (of_type E t) l' -> all words l -> all words l' -> map (dbg S E t) l = map (dbg S E t) l' ->
  map strip l = map strip l' /\ List.concat (map leaf_offsets l) = List.concat (map leaf_offsets l').
Proof.
  induction 1 as [|v l Hv Hl IH]; intros t [|w l'] O T T' W W' H; try discriminate H; [auto|]. cbn [map List.concat] in *. injection H as H H'. destruct T, T', W, W'.
  destruct (Hv t w) as ( -> & -> ); auto. destruct (IH t l') as ( -> & -> ); auto.
Qed.
Lemma told_fields l : Forall told l -> forall fs l', Forall (fun f => occurs t0 (snd f)) fs -> all2 (fun a x => of_type E a x) fs l -> all2 (fun a x => of_type E a x) fs l' -> all words l -> all words l' ->
  map snd (g_fields (fun a x => dbg S E a x) fs l) = map snd (g_fields (fun a x => dbg S E a x) fs l') -> map strip l = map strip l' /\ List.concat (map leaf_offsets l) = List.concat (map leaf_offsets l').
Proof.
  induction 1 as [|v l Hv Hl IH]; intros [|f fs] [|w l'] O T T' W W' H; cbn [all2 g_fields map List.concat] in *; try contradiction; try discriminate T; try discriminate T'; [auto|].
  injection H as H H'. destruct T, T', W, W'. apply Forall_cons_iff in O as (Of & O). destruct (Hv (snd f) w) as ( -> & -> ); auto. destruct (IH fs l') as ( -> & -> ); auto.
Qed.
Lemma ctor_doc_fields c (g : ty -> val -> doc) l l' : all2 (fun _ _ => True) (c_fields c) l -> all2 (fun _ _ => True) (c_fields c) l' ->
  ctor_doc (c_name c) (g_fields g (c_fields c) l) = ctor_doc (c_name c) (g_fields g (c_fields c) l') -> map snd (g_fields g (c_fields c) l) = map snd (g_fields g (c_fields c) l').
Proof.
  destruct (c_fields c) as [|[[m|m] u] fs], l as [|x l], l' as [|y l']; cbn [all2 g_fields]; intros A A' H; try contradiction; try discriminate A; try discriminate A'; try reflexivity.
  - cbn [ctor_doc fst snd] in H. injection H as H Hr. cbn [map snd]. f_equal; [exact H|]. apply (f_equal (map snd)) in Hr. rewrite !map_map in Hr. exact Hr.
  - cbn [ctor_doc fst snd] in H. injection H as H Hr. cbn [map snd]. f_equal; [exact H|exact Hr].
Qed.
Lemma ctor_doc_name n n' fs fs' : ctor_doc n fs = ctor_doc n' fs' -> n = n'.
Proof. destruct fs as [|[[m|m] x] fs], fs' as [|[[m'|m'] x'] fs']; cbn [ctor_doc]; intro H; congruence || discriminate H. Qed.
Lemma all2_len fs l : all2 (fun a x => of_type E a x) fs l -> all2 (fun _ _ => True) fs l.
Proof. revert fs. induction l as [|x l IH]; intros [|f fs]; cbn [all2]; intro H; try contradiction; auto. destruct H; auto. Qed.
Lemma told_punct inner last a p i' l' : Forall (fun x : val * val => told (fst x) /\ told (snd x)) inner -> (forall x, last = Some x -> told x) -> occurs t0 a -> occurs t0 p ->
  all (fun '(x, y) => of_type E a x /\ of_type E p y) inner /\ match last with Some x => of_type E a x | None => True end ->
  all (fun '(x, y) => of_type E a x /\ of_type E p y) i' /\ match l' with Some x => of_type E a x | None => True end -> words (VPunct inner last) -> words (VPunct i' l') ->
  List.concat (map (fun '(x, y) => [dbg S E a x; dbg S E p y]) inner) ++ match last with Some x => [dbg S E a x] | None => [] end =
  List.concat (map (fun '(x, y) => [dbg S E a x; dbg S E p y]) i') ++ match l' with Some x => [dbg S E a x] | None => [] end ->
  strip (VPunct inner last) = strip (VPunct i' l') /\ leaf_offsets (VPunct inner last) = leaf_offsets (VPunct i' l').
Proof.
  intros Hi Hl Oa Op (T & Tl) T1 Wd. revert i' Hi T1. induction inner as [|(x, y) inner IH]; intros [|(x', y') i'] Hi (T' & Tl') Wd' H; cbn [words] in Wd, Wd'; destruct Wd as (Wi & Wl), Wd' as (Wi' & Wl'); cbn [map List.concat app] in H.
  - destruct last as [x|], l' as [x'|]; try discriminate H; [|auto]. injection H as H. destruct (Hl x eq_refl a x') as (E1 & E2); auto. cbn [strip map option_map leaf_offsets List.concat app]. rewrite E1, E2. auto.
  - destruct last; discriminate H.
  - destruct l'; discriminate H.
  - injection H as Hx Hy H. destruct T as ((Tx & Ty) & T), T' as ((Tx' & Ty') & T'), Wi as ((Wx & Wy) & Wi), Wi' as ((Wx' & Wy') & Wi'). apply Forall_cons_iff in Hi as ((Fx & Fy) & Hi). cbn [fst snd] in *.
    destruct (Fx a x') as (E1 & E2); auto. destruct (Fy p y') as (E3 & E4); auto. destruct (IH T (conj Wi Wl) i' Hi (conj T' Tl') (conj Wi' Wl') H) as (E5 & E6). cbn [strip map leaf_offsets List.concat] in E5, E6 |- *. injection E5 as E5 E7. rewrite E1, E2, E3, E4, E5, E7, <- !app_assoc, E6. auto.
Qed.
Ltac alike := intros t w O Tv Tw Wv Ww H; apply occurs_unbox in O; cbn [of_type dbg words] in Tv, Wv, H; destruct (unbox t) eqn:Ut; try contradiction;
  destruct w; cbn [of_type dbg words] in Tw, Ww, H; rewrite Ut in *; try contradiction; try (destruct Tw; contradiction).
Ltac piece_of O := eapply o_step; [exact O|constructor].
Lemma dbg_told v : told v.
Proof.
  induction v as [n sp|k sp|op sps|l sp| | |x y IHx IHy|d sp x IHx|inner last IHi IHl|l IHl|l o r IH1 IH2 IH3|x IHx|l o r IH1 IH2 IH3|x IHx|x IHx|x IHx|l IHl|k l IHl] using val_ind'; unfold told.
  - alike; apply ident_doc_inj in H as (-> & H); cbn; rewrite H; auto.
  - alike; subst; auto.
  - alike. destruct Tv as (-> & L1), Tw as (-> & L2). split; [|reflexivity]. cbn [strip]. f_equal. assert (Q : List.length sps = List.length sps0) by congruence. clear - Q. revert sps0 Q. induction sps as [|u l IH]; intros [|u' l'] Q; try discriminate Q; [reflexivity|]. cbn [map]. f_equal. apply IH. injection Q as Q. exact Q.
  - alike; try (destruct Tv; contradiction); destruct Tv as (Vl & _), Tw as (Vm & _); injection H as Hn H A B; apply lit_doc_inj in H as <-; auto; cbn; destruct (offsets S sp), (offsets S sp0); cbn in A, B; subst; auto.
  - alike; auto.
  - alike; auto; discriminate H.
  - alike; try discriminate H. injection H as Hx Hy. destruct Tv, Tw, Wv, Ww. apply IHx in Hx as (E1 & E2); auto; [|piece_of O]. apply IHy in Hy as (E3 & E4); auto; [|piece_of O]. cbn [strip leaf_offsets]. rewrite E1, E2, E3, E4. auto.
  - alike; destruct Tv as (-> & Tv), Tw as (-> & Tw); injection H as H; apply IHx in H as (E1 & E2); auto; try (piece_of O); cbn [strip leaf_offsets]; rewrite E1, E2; auto.
  - alike; injection H as H; (apply (told_punct _ _ t1_1 t1_2 _ _ IHi IHl); [piece_of O|piece_of O|exact Tv|exact Tw|exact Wv|exact Ww|exact H]).
  - alike. injection H as H. destruct (told_list l IHl t1 l0) as (E1 & E2); auto; [piece_of O|]. cbn [strip leaf_offsets]. rewrite E1, E2. auto.
  - alike.
    + injection H as Ho Hl Hr. destruct Tv as (? & ? & ?), Tw as (? & ? & ?), Wv as (? & ? & ?), Ww as (? & ? & ?). apply IH1 in Hl as (E1 & F1); auto. apply IH2 in Ho as (E2 & F2); auto; [|piece_of O]. apply IH3 in Hr as (E3 & F3); auto; [|piece_of O].
      cbn [strip leaf_offsets]. rewrite E1, E2, E3, F1, F2, F3. auto.
    + exfalso. eapply (Apart _ O); [exact Tw|cbn [of_type unbox]; exact Tv|exact Ww|exact Wv|symmetry; exact H].
  - alike.
    + exfalso. eapply (Apart _ O); [exact Tv|cbn [of_type unbox]; exact Tw|exact Wv|exact Ww|exact H].
    + apply IHx in H as (E1 & E2); auto; [|piece_of O]. cbn [strip leaf_offsets]. rewrite E1, E2. auto.
  - alike.
    + injection H as Ho Hl Hr. destruct Tv as (? & ? & ?), Tw as (? & ? & ?), Wv as (? & ? & ?), Ww as (? & ? & ?). apply IH1 in Hl as (E1 & F1); auto; [|piece_of O]. apply IH2 in Ho as (E2 & F2); auto; [|piece_of O]. apply IH3 in Hr as (E3 & F3); auto.
      cbn [strip leaf_offsets]. rewrite E1, E2, E3, F1, F2, F3. auto.
    + exfalso. eapply (Apart _ O); [exact Tw|cbn [of_type unbox]; exact Tv|exact Ww|exact Wv|symmetry; exact H].
  - alike.
    + exfalso. eapply (Apart _ O); [exact Tv|cbn [of_type unbox]; exact Tw|exact Wv|exact Ww|exact H].
    + apply IHx in H as (E1 & E2); auto; [|piece_of O]. cbn [strip leaf_offsets]. rewrite E1, E2. auto.
  - alike.
    + apply IHx in H as (E1 & E2); auto; [|piece_of O]. cbn [strip leaf_offsets]. rewrite E1, E2. auto.
    + exfalso. eapply (Apart _ O); [exact Tv|exact Tw|exact Wv|exact Ww|exact H].
  - alike.
    + exfalso. eapply (Apart _ O); [exact Tw|exact Tv|exact Ww|exact Wv|symmetry; exact H].
    + apply IHx in H as (E1 & E2); auto; [|piece_of O]. cbn [strip leaf_offsets]. rewrite E1, E2. auto.
  - alike; destruct (E i) as [c|en cs] eqn:Ei; try contradiction. apply ctor_doc_fields in H; try (apply all2_len; assumption).
    destruct (told_fields l IHl (c_fields c) fs) as (E1 & E2); auto; [|cbn [strip leaf_offsets]; rewrite E1, E2; auto].
    apply Forall_forall. intros (la, u) Hf. cbn [snd]. eapply o_step; [exact O|]. eapply p_struct; eassumption.
  - alike; destruct (E i) as [c|en cs] eqn:Ei; try contradiction. destruct (nth_error cs k) as [c|] eqn:Nk; [|contradiction]. destruct (nth_error cs k0) as [c'|] eqn:Nk'; [|contradiction].
    pose proof (Fine i) as F. rewrite Ei in F. destruct F as (_ & F). assert (Kk : k = k0).
    { apply ctor_doc_name in H. eapply NoDup_nth_error; [exact F|rewrite map_length; apply nth_error_Some; congruence|]. rewrite !nth_error_map, Nk, Nk'. cbn. congruence. }
    subst k0. rewrite Nk in Nk'. injection Nk' as <-. apply ctor_doc_fields in H; try (apply all2_len; assumption).
    destruct (told_fields l IHl (c_fields c) fs) as (E1 & E2); auto; [|cbn [strip leaf_offsets]; rewrite E1, E2; auto].
    apply Forall_forall. intros (la, u) Hf. cbn [snd]. eapply o_step; [exact O|]. eapply p_enum; try eassumption. eapply nth_error_In; eassumption.
Qed.

(** ** and the other way round *)
Lemma leaf_number v : List.length (leaf_offsets (strip v)) = List.length (leaf_offsets v).
Proof.
  induction v as [n sp|k sp|op sps|l sp| | |x y IHx IHy|d sp x IHx|inner last IHi IHl|l IHl|l o r IH1 IH2 IH3|x IHx|l o r IH1 IH2 IH3|x IHx|x IHx|x IHx|l IHl|k l IHl] using val_ind'; cbn [strip leaf_offsets]; rewrite ?app_length; auto.
  - f_equal.
    + induction IHi as [|(x, y) r (Hx & Hy) _ IH]; [reflexivity|]. cbn [map List.concat fst snd] in *. rewrite !app_length, Hx, Hy, IH. reflexivity.
    + destruct last; [apply IHl|]; reflexivity.
  - induction IHl as [|x r Hx _ IH]; [reflexivity|]. cbn [map List.concat]. rewrite !app_length, Hx, IH. reflexivity.
  - induction IHl as [|x r Hx _ IH]; [reflexivity|]. cbn [map List.concat]. rewrite !app_length, Hx, IH. reflexivity.
  - induction IHl as [|x r Hx _ IH]; [reflexivity|]. cbn [map List.concat]. rewrite !app_length, Hx, IH. reflexivity.
Qed.
Lemma app_leaves {A} (a b c d : list A) : List.length a = List.length b -> a ++ c = b ++ d -> a = b /\ c = d.
Proof. revert b. induction a as [|x a IH]; intros [|y b] L H; cbn in *; try discriminate L; [auto|]. injection H as -> H. injection L as L. destruct (IH b L H) as ( -> & -> ). auto. Qed.
Lemma split_leaves x y c d : strip x = strip y -> leaf_offsets x ++ c = leaf_offsets y ++ d -> leaf_offsets x = leaf_offsets y /\ c = d.
Proof. intro H. apply app_leaves. rewrite <- (leaf_number x), <- (leaf_number y), H. reflexivity. Qed.
Definition showing (v : val) : Prop := forall t w, strip v = strip w -> leaf_offsets v = leaf_offsets w -> dbg S E t v = dbg S E t w.
Lemma showing_list l : Forall showing l -> forall l', map strip l = map strip l' -> List.concat (map leaf_offsets l) = List.concat (map leaf_offsets l') -> Forall2 (fun v w => forall t, dbg S E t v = dbg S E t w) l l'.
Proof.
  induction 1 as [|v l Hv Hl IH]; intros [|w l'] H L; try discriminate H; [constructor|]. cbn [map List.concat] in *. injection H as H H'. apply split_leaves in L as (L & L'); [|exact H]. constructor; auto.
Qed.
Lemma showing_map t l l' : Forall2 (fun v w => forall t, dbg S E t v = dbg S E t w) l l' -> map (dbg S E t) l = map (dbg S E t) l'.
Proof. induction 1; cbn [map]; congruence. Qed.
Lemma showing_fields fs l l' : Forall2 (fun v w => forall t, dbg S E t v = dbg S E t w) l l' -> g_fields (fun a x => dbg S E a x) fs l = g_fields (fun a x => dbg S E a x) fs l'.
Proof. intro H. revert fs. induction H as [|x y l l' Hx H IH]; intros [|f fs]; cbn [g_fields]; try reflexivity. rewrite Hx, IH. reflexivity. Qed.
Ltac both := intros t w H L; destruct w; cbn [strip leaf_offsets] in H, L; try discriminate H; injection H as H; cbn [dbg].
Lemma dbg_showing v : showing v.
Proof.
  induction v as [n sp|k sp|op sps|l sp| | |x y IHx IHy|d sp x IHx|inner last IHi IHl|l IHl|l o r IH1 IH2 IH3|x IHx|l o r IH1 IH2 IH3|x IHx|x IHx|x IHx|l IHl|k l IHl] using val_ind'; unfold showing.
  - both. subst. apply ident_doc_inj. injection L as L. auto.
  - both. subst. reflexivity.
  - both. subst. reflexivity.
  - both. subst. injection L as ->. reflexivity.
  - intros t w H L. destruct w; try discriminate H. reflexivity.
  - intros t w H L. destruct w; try discriminate H. reflexivity.
  - intros t w H L. destruct w; cbn [strip leaf_offsets] in H, L; try discriminate H. injection H as H1 H2. apply split_leaves in L as (L1 & L2); [|exact H1]. cbn [dbg]. destruct (unbox t); try reflexivity. rewrite (IHx _ _ H1 L1), (IHy _ _ H2 L2). reflexivity.
  - intros t w H L. destruct w; cbn [strip leaf_offsets] in H, L; try discriminate H. injection H as H1 H2. cbn [dbg]. destruct (unbox t); try reflexivity; (rewrite (IHx _ _ H2 L); reflexivity).
  - intros t w H L. destruct w as [| | | | | | | |i' l'| | | | | | | | |]; cbn [strip leaf_offsets] in H, L; try discriminate H. injection H as H1 H2. cbn [dbg].
    assert (G : forall a p, List.concat (map (fun '(x, y) => [dbg S E a x; dbg S E p y]) inner) ++ match last with Some x => [dbg S E a x] | None => [] end =
      List.concat (map (fun '(x, y) => [dbg S E a x; dbg S E p y]) i') ++ match l' with Some x => [dbg S E a x] | None => [] end).
    { intros a p. clear t. revert i' H1 L. induction inner as [|(x, y) inner IH]; intros [|(x', y') i'] H1 L; try discriminate H1; cbn [map List.concat app] in *.
      - destruct last as [x|], l' as [x'|]; try discriminate H2; [|reflexivity]. injection H2 as H2. cbn [app] in L. erewrite (IHl x eq_refl); eauto.
      - apply Forall_cons_iff in IHi as ((Hx & Hy) & IHi). cbn [fst snd] in *. injection H1 as H1 H1' H1''. rewrite <- !app_assoc in L. apply split_leaves in L as (L1 & L); [|exact H1]. apply split_leaves in L as (L2 & L); [|exact H1'].
        rewrite (Hx a x' H1 L1), (Hy p y' H1' L2), (IH IHi i' H1'' L). reflexivity. }
    destruct (unbox t); try reflexivity; rewrite G; reflexivity.
  - both. apply showing_list with (l' := l0) in L; auto. destruct (unbox t); try reflexivity. f_equal. apply showing_map, L.
  - intros t w H L. destruct w; cbn [strip leaf_offsets] in H, L; try discriminate H. injection H as H1 H2 H3. apply split_leaves in L as (L1 & L); [|exact H1]. apply split_leaves in L as (L2 & L3); [|exact H2]. cbn [dbg]. destruct (unbox t); try reflexivity. rewrite (IH1 _ _ H1 L1), (IH2 _ _ H2 L2), (IH3 _ _ H3 L3). reflexivity.
  - both. destruct (unbox t); try reflexivity; apply IHx; auto.
  - intros t w H L. destruct w; cbn [strip leaf_offsets] in H, L; try discriminate H. injection H as H1 H2 H3. apply split_leaves in L as (L1 & L); [|exact H1]. apply split_leaves in L as (L2 & L3); [|exact H2]. cbn [dbg]. destruct (unbox t); try reflexivity. rewrite (IH1 _ _ H1 L1), (IH2 _ _ H2 L2), (IH3 _ _ H3 L3). reflexivity.
  - both. destruct (unbox t); try reflexivity; apply IHx; auto.
  - both. destruct (unbox t); try reflexivity; apply IHx; auto.
  - both. destruct (unbox t); try reflexivity; apply IHx; auto.
  - both. apply showing_list with (l' := fs) in L; auto. destruct (unbox t); try reflexivity. destruct (E i); try reflexivity. erewrite showing_fields; [reflexivity|exact L].
  - intros t w H L. destruct w as [| | | | | | | | | | | | | | | | |k' l']; cbn [strip leaf_offsets] in H, L; try discriminate H. injection H as -> H. cbn [dbg]. apply showing_list with (l' := l') in L; auto. destruct (unbox t); try reflexivity. destruct (E i); try reflexivity. destruct (nth_error _ _); try reflexivity.
    erewrite showing_fields; [reflexivity|exact L].
Qed.
End Tree.
