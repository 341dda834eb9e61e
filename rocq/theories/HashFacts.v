(** * HashFacts: equal trees make the same calls, different trees of a type give different bytes (C64). *)
From Verif Require Import Base Float Literal Syn Ast Derive Grammar Spec LitSpec Conv ConvFacts PropSpan Reprint PropLit Typed Writable NodeEq PropLL1 PropEq PropOrder HashCalls.
From Coq Require Import ZifyN ZifyNat ZifyBool.
Local Open Scope nat_scope.

(** ** Specification *)
Definition all {A} (P : A -> Prop) : list A -> Prop := fix go l := match l with x :: r => P x /\ go r | [] => True end.
Definition all2 (P : ty -> val -> Prop) : list (label * ty) -> list val -> Prop :=
  fix go fs l {struct l} := match l with x :: l' => match fs with f :: fs' => P (snd f) x /\ go fs' l' | [] => False end | [] => fs = [] end.
(** the value has the Rust type: the right constructors, nothing more *)
Fixpoint of_type (E : env) (t : ty) (v : val) : Prop :=
  match v with
  | VIdent _ _ => match unbox t with TyIdent | TyCustomIdent _ => True | _ => False end
  | VKw k _ => match unbox t with TyKeyword kw | TyTokenKw kw => k = kw | _ => False end
  | VOp op sps => match unbox t with TyToken o => op = o /\ List.length sps = List.length op | _ => False end
  | VLit l _ => lit_valid l /\ match unbox t with TyAnyLit => True | TyLit k => litty_of l = k | _ => False end
  | VUnit => match unbox t with TyEmpty | TyEof | TyNotEof => True | _ => False end
  | VNothing => match unbox t with TyMaybe _ _ => True | _ => False end
  | VJust x y => match unbox t with TyMaybe a b => of_type E a x /\ of_type E b y | _ => False end
  | VGroup d _ x =>
      match unbox t with
      | TyParen a => d = DParen /\ of_type E a x | TyBracket a => d = DBracket /\ of_type E a x | TyBrace a => d = DBrace /\ of_type E a x
      | _ => False
      end
  | VPunct i l =>
      match unbox t with
      | TyPunctuated a p | TySeparated a p => all (fun '(x, y) => of_type E a x /\ of_type E p y) i /\ match l with Some x => of_type E a x | None => True end
      | _ => False
      end
  | VList l => match unbox t with TyAny a => all (of_type E a) l | _ => False end
  | VBinL x o y => match unbox t with TyLeftAssoc p r => of_type E (TyLeftAssoc p r) x /\ of_type E p o /\ of_type E r y | _ => False end
  | VRhs x => match unbox t with TyLeftAssoc p r => of_type E r x | _ => False end
  | VBinR x o y => match unbox t with TyRightAssoc p r => of_type E r x /\ of_type E p o /\ of_type E (TyRightAssoc p r) y | _ => False end
  | VLhs x => match unbox t with TyRightAssoc p r => of_type E r x | _ => False end
  | VLeft x => match unbox t with TyEither a b => of_type E a x | _ => False end
  | VRight x => match unbox t with TyEither a b => of_type E b x | _ => False end
  | VStruct l => match unbox t with TyRef i => match E i with DStruct c => all2 (fun a x => of_type E a x) (c_fields c) l | _ => False end | _ => False end
  | VVariant k l =>
      match unbox t with
      | TyRef i =>
          match E i with
          | DEnum _ cs => match nth_error cs k with Some c => all2 (fun a x => of_type E a x) (c_fields c) l | None => False end
          | _ => False
          end
      | _ => False
      end
  end.
(** a number that fits a [usize] *)
Definition fits (n : nat) : Prop := (N.of_nat n < two64)%N.
(** text is text, and nothing is longer than the address space *)
Fixpoint in_memory (v : val) : Prop :=
  match v with
  | VIdent n _ => forallb valid_char n = true
  | VLit (LByteStr s) _ => fits (List.length s)
  | VKw _ _ | VOp _ _ | VLit _ _ | VUnit | VNothing => True
  | VJust x y => in_memory x /\ in_memory y
  | VGroup _ _ x | VRhs x | VLhs x | VLeft x | VRight x => in_memory x
  | VPunct i l => fits (List.length i) /\ all (fun '(x, y) => in_memory x /\ in_memory y) i /\ match l with Some x => in_memory x | None => True end
  | VList l => fits (List.length l) /\ all in_memory l
  | VBinL x o y | VBinR x o y => in_memory x /\ in_memory o /\ in_memory y
  | VStruct l => all in_memory l
  | VVariant k l => fits k /\ all in_memory l
  end.
(** a double so small that it has fewer than 53 digits *)
Definition subnormal (l : lit) : Prop := match l with LFloat (FFin _ m _) => (0 < m < two52)%N | _ => False end.
Definition no_subnormal (v : val) : Prop := Forall (fun l => ~ subnormal l) (val_lits v).

(** ** Every value of a type has the type *)
Lemma unbox_unbox t : unbox (unbox t) = unbox t.
Proof. induction t; cbn [unbox]; auto. Qed.
Lemma all_forall {A} (P : A -> Prop) l : all P l <-> Forall P l.
Proof. induction l; cbn; [split; constructor|]. rewrite IHl. split; [intros (? & ?); constructor; assumption|intro H; inversion H; auto]. Qed.
Lemma of_type_box E t v : of_type E (TyBox t) v <-> of_type E t v.
Proof. destruct v; reflexivity. Qed.
Lemma all2_forall2 P fs l : Forall2 (fun (f : label * ty) v => P (snd f) v) fs l -> all2 P fs l.
Proof. induction 1; cbn; auto. Qed.
Lemma typed_of_type E t v : typed E t v -> of_type E t v.
Proof.
  revert t v. apply (typed_rect E (of_type E)); intros; cbn [of_type unbox]; auto.
  - destruct d; cbn; auto. contradiction.
  - split; [apply all_forall; apply Forall_forall; intros (x, y) Hx; rewrite Forall_forall in H; apply (H _ Hx)|]. destruct last; auto.
  - split; [apply all_forall; apply Forall_forall; intros (x, y) Hx; rewrite Forall_forall in H; apply (H _ Hx)|]. assumption.
  - apply all_forall. assumption.
  - induction H1 as [|l t o0 y H1 IH]; cbn [val_of_left of_type unbox]; [assumption|]. apply Forall_app in H0 as (H0 & H0'). inversion H0' as [|? ? (A & B)]; subst. auto.
  - induction H1 as [x|x o0 y l t H1 IH]; cbn [val_of_right of_type unbox]; [assumption|]. inversion H0 as [|? ? (A & B)]; subst. cbn [fst snd] in *. auto.
  - apply of_type_box. assumption.
  - rewrite H. apply all2_forall2. assumption.
  - rewrite H, H0. apply all2_forall2. assumption.
Qed.
Lemma of_type_proper E v : forall t, of_type E t v -> proper v.
Proof.
  assert (L : forall l, Forall (fun v => forall t, of_type E t v -> proper v) l -> forall fs, all2 (fun a x => of_type E a x) fs l -> Forall proper l).
  { induction 1 as [|x l Hx Hl IH]; intros [|f fs] H; cbn in H; try contradiction; constructor; [eapply Hx|eapply IH]; apply H. }
  induction v as [n sp|k sp|op sps|l sp| | |x y IHx IHy|d sp x IHx|inner last IHi IHl|l IHl|l o r IH1 IH2 IH3|x IHx|l o r IH1 IH2 IH3|x IHx|x IHx|x IHx|l IHl|k l IHl] using val_ind'; intros t H; cbn [of_type] in H;
    rewrite proper_forall; cbn [leaf_nodes]; rewrite ?Forall_app, <- ?proper_forall, ?proper_list.
  1,2,5,6: repeat constructor.
  - destruct (unbox t); try contradiction. repeat constructor. apply H.
  - repeat constructor. apply H.
  - destruct (unbox t); try contradiction. split; [eapply IHx|eapply IHy]; apply H.
  - destruct (unbox t); try contradiction; eapply IHx; apply H.
  - assert (G : exists a p, all (fun '(x, y) => of_type E a x /\ of_type E p y) inner /\ match last with Some x => of_type E a x | None => True end) by (destruct (unbox t); try contradiction; eauto).
    destruct G as (a & p & G & Gl). apply all_forall in G. split.
    + apply proper_pairs. clear Gl IHl H. induction IHi as [|(x, y) i (Hx & Hy) Hi IH]; [constructor|]. apply Forall_cons_iff in G as ((A & B) & G). constructor; [split; cbn [fst snd] in *; eauto|auto].
    + destruct last as [x|]; [|constructor]. apply proper_forall. eapply IHl; [reflexivity|exact Gl].
  - destruct (unbox t); try contradiction. apply all_forall in H. rewrite Forall_forall in *. intros x Hx. eapply IHl; [exact Hx|]. apply H. exact Hx.
  - destruct (unbox t); try contradiction. destruct H as (A & B & C). split; [eapply IH1; exact A|split; [eapply IH2; exact B|eapply IH3; exact C]].
  - destruct (unbox t); try contradiction. eapply IHx; exact H.
  - destruct (unbox t); try contradiction. destruct H as (A & B & C). split; [eapply IH1; exact A|split; [eapply IH2; exact B|eapply IH3; exact C]].
  - destruct (unbox t); try contradiction. eapply IHx; exact H.
  - destruct (unbox t); try contradiction. eapply IHx; exact H.
  - destruct (unbox t); try contradiction. eapply IHx; exact H.
  - destruct (unbox t); try contradiction. destruct (E i); try contradiction. eapply L; eassumption.
  - destruct (unbox t); try contradiction. destruct (E i); try contradiction. destruct (nth_error cs k); try contradiction. eapply L; eassumption.
Qed.

(** ** Equal trees make the same calls *)
Lemma h_lit_plus l : h_lit (plus_zero l) = h_lit l.
Proof. destruct l as [| | | |[n [|m] e|n]| | |]; reflexivity. Qed.
Lemma index_plus l : lit_index (plus_zero l) = lit_index l.
Proof. destruct l as [| | | |[n [|m] e|n]| | |]; reflexivity. Qed.
Lemma hv_bare E v : forall t, hv E t (strip (plus_zeros v)) = hv E t v.
Proof.
  assert (L : forall l, Forall (fun v => forall t, hv E t (strip (plus_zeros v)) = hv E t v) l -> forall fs, h_fields (fun a x => hv E a x) fs (map strip (map plus_zeros l)) = h_fields (fun a x => hv E a x) fs l).
  { induction 1 as [|x l Hx Hl IH]; intros [|f fs]; cbn; try reflexivity. rewrite Hx. f_equal. apply IH. }
  assert (M : forall a l, Forall (fun v => forall t, hv E t (strip (plus_zeros v)) = hv E t v) l -> map (hv E a) (map strip (map plus_zeros l)) = map (hv E a) l).
  { intros a l H. rewrite !map_map. apply map_ext_in. intros x Hx. rewrite Forall_forall in H. auto. }
  induction v as [n sp|k sp|op sps|l sp| | |x y IHx IHy|d sp x IHx|inner last IHi IHl|l IHl|l o r IH1 IH2 IH3|x IHx|l o r IH1 IH2 IH3|x IHx|x IHx|x IHx|l IHl|k l IHl] using val_ind'; intro t; cbn [plus_zeros strip hv]; try reflexivity.
  - rewrite h_lit_plus, index_plus. reflexivity.
  - destruct (unbox t); rewrite ?IHx, ?IHy; reflexivity.
  - destruct (unbox t); rewrite ?IHx; reflexivity.
  - assert (G : forall a p, List.concat (map (fun '(x, y) => hv E a x ++ hv E p y) (map (fun '(x, y) => (strip x, strip y)) (map (fun '(x, y) => (plus_zeros x, plus_zeros y)) inner))) = List.concat (map (fun '(x, y) => hv E a x ++ hv E p y) inner)).
    { intros a p. clear IHl. induction IHi as [|(x, y) i (Hx & Hy) Hi IH]; [reflexivity|]. cbn [map List.concat]. cbn [fst snd] in *. rewrite Hx, Hy, IH. reflexivity. }
    assert (G' : forall a, match option_map strip (option_map plus_zeros last) with Some x => h_discr 2 1 ++ hv E a x | None => h_discr 2 0 end = match last with Some x => h_discr 2 1 ++ hv E a x | None => h_discr 2 0 end).
    { intro a. destruct last as [x|]; [|reflexivity]. cbn [option_map]. rewrite IHl by reflexivity. reflexivity. }
    rewrite !map_length. destruct (unbox t); try reflexivity; rewrite G, G'; reflexivity.
  - rewrite !map_length. destruct (unbox t); try reflexivity. rewrite M by assumption. reflexivity.
  - destruct (unbox t); rewrite ?IH1, ?IH2, ?IH3; reflexivity.
  - destruct (unbox t); rewrite ?IHx; reflexivity.
  - destruct (unbox t); rewrite ?IH1, ?IH2, ?IH3; reflexivity.
  - destruct (unbox t); rewrite ?IHx; reflexivity.
  - destruct (unbox t); rewrite ?IHx; reflexivity.
  - destruct (unbox t); rewrite ?IHx; reflexivity.
  - destruct (unbox t); try reflexivity. destruct (E i); try reflexivity. apply L. assumption.
  - destruct (unbox t); try reflexivity. destruct (E i); try reflexivity. destruct (nth_error cs k); try reflexivity. f_equal. apply L. assumption.
Qed.
Lemma hv_equal E t v w : proper v -> proper w -> veqb v w = true -> hv E t v = hv E t w.
Proof. intros Pv Pw H. apply (veqb_bare v w Pv Pw) in H. rewrite <- (hv_bare E v), <- (hv_bare E w), H. reflexivity. Qed.

(** ** Different bytes *)
Lemma app_split {A} (a b c d : list A) : List.length a = List.length c -> a ++ b = c ++ d -> a = c /\ b = d.
Proof. revert c. induction a as [|x a IH]; intros [|y c] L H; cbn in *; try discriminate; [auto|]. injection H as -> H. destruct (IH c ltac:(lia) H) as (-> & ->). auto. Qed.
Lemma le_length k : forall n, List.length (le k n) = k.
Proof. induction k; intro n; cbn; auto. Qed.
Lemma le_inj k : forall n m, (n < 256 ^ N.of_nat k)%N -> (m < 256 ^ N.of_nat k)%N -> le k n = le k m -> n = m.
Proof.
  induction k as [|k IH]; intros n m Hn Hm H; [cbn in *; lia|]. cbn [le] in H. injection H as H1 H2.
  replace (256 ^ N.of_nat (S k))%N with (256 * 256 ^ N.of_nat k)%N in * by (rewrite Nat2N.inj_succ, N.pow_succ_r'; reflexivity).
  apply IH in H2; [|apply N.div_lt_upper_bound; lia|apply N.div_lt_upper_bound; lia].
  rewrite (N.div_mod n 256), (N.div_mod m 256), H1, H2 by discriminate. reflexivity.
Qed.
Lemma num_length big k n : List.length (num big k n) = k.
Proof. unfold num. destruct big; rewrite ?rev_length; apply le_length. Qed.
Lemma num_inj big k n m a b : (n < 256 ^ N.of_nat k)%N -> (m < 256 ^ N.of_nat k)%N -> num big k n ++ a = num big k m ++ b -> n = m /\ a = b.
Proof.
  intros Hn Hm H. apply app_split in H as (H & ->); [|rewrite !num_length; reflexivity]. split; [|reflexivity].
  unfold num in H. destruct big; [apply (f_equal (@rev N)) in H; rewrite !rev_involutive in H|]; eapply le_inj; eassumption.
Qed.
Lemma num8_inj big n m a b : (n < two64)%N -> (m < two64)%N -> num big 8 n ++ a = num big 8 m ++ b -> n = m /\ a = b.
Proof. intros Hn Hm H. apply (num_inj big 8 n m a b); [exact Hn|exact Hm|exact H]. Qed.
Lemma dict_irrefl a : ~ dict a a.
Proof. induction a; intro D; inversion D; subst; [lia|auto]. Qed.
Lemma utf8_bytes c b : In b (utf8 c) -> valid_char c = true -> (b < 255)%N.
Proof.
  intros H V. assert (B : (c < 1114112)%N) by (unfold valid_char in V; lia). clear V. unfold utf8 in H.
  repeat match goal with H : context [(?u <? ?v)%N] |- _ => destruct (N.ltb_spec u v) end; cbn [In] in H; repeat destruct H as [<-|H]; try contradiction; zify; Z.to_euclidean_division_equations; lia.
Qed.
Lemma utf8_inj s : forall t a b, forallb valid_char s = true -> forallb valid_char t = true -> flat_map utf8 s ++ 255%N :: a = flat_map utf8 t ++ 255%N :: b -> s = t /\ a = b.
Proof.
  induction s as [|x s IH]; intros [|y t] a b Hs Ht H; cbn [flat_map app forallb] in *.
  - injection H as <-. auto.
  - exfalso. apply andb_true_iff in Ht as (Vy & _). destruct (utf8_nonempty y) as (z & l & Ez). assert (B : (z < 255)%N) by (eapply utf8_bytes; [rewrite Ez; left; reflexivity|exact Vy]).
    rewrite Ez in H. injection H as H _. lia.
  - exfalso. apply andb_true_iff in Hs as (Vy & _). destruct (utf8_nonempty x) as (z & l & Ez). assert (B : (z < 255)%N) by (eapply utf8_bytes; [rewrite Ez; left; reflexivity|exact Vy]).
    rewrite Ez in H. injection H as H _. lia.
  - apply andb_true_iff in Hs as (Vx & Hs), Ht as (Vy & Ht). rewrite <- !app_assoc in H.
    assert (x = y) as <-.
    { destruct (N.lt_trichotomy x y) as [Q|[Q|Q]]; [|exact Q|]; exfalso.
      - pose proof (utf8_less x y Vx Vy Q (flat_map utf8 s ++ 255%N :: a) (flat_map utf8 t ++ 255%N :: b)) as D. rewrite H in D. exact (dict_irrefl _ D).
      - pose proof (utf8_less y x Vy Vx Q (flat_map utf8 t ++ 255%N :: b) (flat_map utf8 s ++ 255%N :: a)) as D. rewrite H in D. exact (dict_irrefl _ D). }
    apply app_inv_head in H. destruct (IH t a b Hs Ht H) as (-> & ->). auto.
Qed.
Lemma str_inj big s t a b : forallb valid_char s = true -> forallb valid_char t = true -> hash_bytes big (h_str s) ++ a = hash_bytes big (h_str t) ++ b -> s = t /\ a = b.
Proof.
  intros Hs Ht H. unfold hash_bytes, h_str in H. cbn [flat_map call_bytes] in H. rewrite !app_nil_r, <- !app_assoc in H.
  assert (N1 : num big 1 255 = [255%N]) by (destruct big; reflexivity). rewrite N1 in H. apply utf8_inj in H; assumption.
Qed.
Lemma f64_bits x y : f64_valid x = true -> f64_valid y = true -> ~ subnormal (LFloat x) -> ~ subnormal (LFloat y) ->
  raw_double_bits (canonicalize_signed_zero x) = raw_double_bits (canonicalize_signed_zero y) -> plus_zero (LFloat x) = plus_zero (LFloat y).
Proof.
  assert (B : forall a b c a' b' c', (a < two52)%N -> (a' < two52)%N -> (b < 2048)%N -> (b' < 2048)%N ->
    (a + b * two52 + (if c : bool then 9223372036854775808 else 0) = a' + b' * two52 + (if c' : bool then 9223372036854775808 else 0))%N -> a = a' /\ b = b' /\ c = c').
  { unfold two52. intros a b c a' b' c' ? ? ? ? H. destruct c, c'; repeat split; lia. }
  assert (C : forall x, f64_valid x = true -> ~ subnormal (LFloat x) -> exists man exp pos, raw_double_bits (canonicalize_signed_zero x) = (man + exp * two52 + (if pos : bool then 9223372036854775808 else 0))%N /\ (man < two52)%N /\ (exp < 2048)%N /\
    match x with
    | FFin n m e => (m = 0 /\ e = emin /\ pos = true /\ man = 0 /\ exp = 973)%N \/ (m = man + two52 /\ pos = negb n /\ e = if (exp <? 974)%N then Z.of_N exp else (Z.of_N exp - 2048)%Z)%N /\ exp <> 973%N /\ exp <> 972%N
    | FInf n => pos = negb n /\ man = 0%N /\ exp = 972%N
    end).
  { intros [n m e|n] V S.
    - cbn [subnormal] in S. unfold f64_valid, emin, emax in V. apply andb_true_iff in V as (V & V4). apply andb_true_iff in V as (V & V3). apply andb_true_iff in V as (V1 & V2).
      apply N.ltb_lt in V1. apply Z.leb_le in V2, V3. destruct m as [|m].
      + exists 0%N, 973%N, true. split; [reflexivity|]. split; [reflexivity|]. split; [reflexivity|]. left. split; [reflexivity|]. split; [|auto]. cbn in V4. apply Z.eqb_eq in V4. exact V4.
      + cbn [canonicalize_signed_zero]. unfold raw_double_bits, integer_decode. assert (G : (two52 <= N.pos m)%N) by lia. destruct (N.ltb_spec (N.pos m) two52); [lia|].
        exists (N.pos m - two52)%N, (Z.to_N (e mod 2048)), (negb n). unfold two52, two53 in *.
        assert (M : (N.pos m mod 4503599627370496 = N.pos m - 4503599627370496)%N) by (symmetry; apply (N.mod_unique _ _ 1); lia).
        rewrite M. split; [reflexivity|]. split; [lia|]. split; [zify; Z.to_euclidean_division_equations; lia|]. right.
        destruct (Z.ltb_spec e 0).
        * assert (K : (e mod 2048 = e + 2048)%Z) by (symmetry; apply (Z.mod_unique _ _ (-1)); lia). rewrite K. destruct (N.ltb_spec (Z.to_N (e + 2048)) 974); split; [split; [lia|split; [reflexivity|lia]]|lia|split; [lia|split; [reflexivity|lia]]|lia].
        * assert (K : (e mod 2048 = e)%Z) by (apply Z.mod_small; lia). rewrite K. destruct (N.ltb_spec (Z.to_N e) 974); split; [split; [lia|split; [reflexivity|lia]]|lia|split; [lia|split; [reflexivity|lia]]|lia].
    - exists 0%N, 972%N, (negb n). split; [reflexivity|]. split; [reflexivity|]. split; [reflexivity|]. auto. }
  intros Vx Vy Sx Sy H. destruct (C x Vx Sx) as (a & b & c & Ex & A1 & A2 & Cx), (C y Vy Sy) as (a' & b' & c' & Ey & A1' & A2' & Cy). rewrite Ex, Ey in H.
  apply B in H as (<- & <- & <-); try assumption. destruct x as [n m e|n], y as [n' m' e'|n'].
  - destruct Cx as [(-> & -> & -> & -> & ->)|((-> & -> & ->) & N1 & N2)], Cy as [(-> & -> & Q & Q' & Q'')|((-> & Q & ->) & N1' & N2')]; try congruence.
    + reflexivity.
    + destruct n, n'; cbn in Q; congruence.
  - destruct Cy as (_ & _ & ->). exfalso. destruct Cx as [(_ & _ & _ & _ & Q)|(_ & _ & Q)]; congruence.
  - destruct Cx as (_ & _ & ->). exfalso. destruct Cy as [(_ & _ & _ & _ & Q)|(_ & _ & Q)]; congruence.
  - destruct Cx as (-> & _), Cy as (Q & _). destruct n, n'; cbn in Q; congruence.
Qed.
Lemma lit_inj big l m a b : lit_valid l -> lit_valid m -> ~ subnormal l -> ~ subnormal m -> in_memory (VLit l call_site) -> in_memory (VLit m call_site) -> litty_of l = litty_of m ->
  hash_bytes big (h_lit l) ++ a = hash_bytes big (h_lit m) ++ b -> plus_zero l = plus_zero m /\ a = b.
Proof.
  intros Vl Vm Sl Sm Ml Mm T H. destruct l, m; try discriminate T; cbn [lit_valid in_memory] in *.
  - unfold hash_bytes in H. cbn [h_lit flat_map call_bytes] in H. rewrite !app_nil_r in H. apply num_inj in H as (H & ->); [|destruct b0; reflexivity|destruct b1; reflexivity]. destruct b0, b1; try discriminate H; auto.
  - unfold hash_bytes in H. cbn [h_lit flat_map call_bytes] in H. rewrite !app_nil_r in H. apply num_inj in H as (-> & ->); auto.
  - unfold hash_bytes in H. cbn [h_lit flat_map call_bytes] in H. rewrite !app_nil_r in H. unfold i64_min, i64_max in *.
    apply num8_inj in H as (H & ->); [|unfold two64; zify; Z.to_euclidean_division_equations; lia|unfold two64; zify; Z.to_euclidean_division_equations; lia].
    split; [|reflexivity]. cbn [plus_zero]. f_equal. change (Z.of_N two64) with 18446744073709551616%Z in H. zify; Z.to_euclidean_division_equations; lia.
  - unfold hash_bytes in H. cbn [h_lit flat_map call_bytes] in H. rewrite !app_nil_r in H. unfold u64_max in *. apply num8_inj in H as (H & ->); [|unfold two64; lia|unfold two64; lia].
    split; [|reflexivity]. cbn [plus_zero]. f_equal. lia.
  - unfold hash_bytes, h_f64 in H. cbn [h_lit flat_map call_bytes h_f64] in H. rewrite !app_nil_r in H.
    assert (R : forall x, (raw_double_bits x < two64)%N).
    { intro x. unfold raw_double_bits. destruct (integer_decode x) as ((man, exp), pos). pose proof (N.mod_lt man two52 ltac:(discriminate)). pose proof (Z.mod_pos_bound exp 2048 eq_refl). unfold two52, two64 in *. destruct pos; lia. }
    apply num8_inj in H as (H & ->); [|apply R|apply R]. split; [|reflexivity]. apply f64_bits; assumption.
  - unfold hash_bytes in H. cbn [h_lit flat_map call_bytes] in H. rewrite !app_nil_r in H. unfold valid_char in *. apply num_inj in H as (-> & ->); [auto| |]; change (256 ^ N.of_nat 4)%N with 4294967296%N; lia.
  - apply str_inj in H as (-> & ->); auto.
  - unfold hash_bytes, h_bytes in H. cbn [h_lit flat_map call_bytes h_bytes] in H. rewrite !app_nil_r, <- !app_assoc in H. apply num8_inj in H as (H & H'); [|assumption|assumption].
    apply app_split in H' as (-> & ->); [auto|lia].
Qed.

Lemma hash_bytes_app big a b : hash_bytes big (a ++ b) = hash_bytes big a ++ hash_bytes big b.
Proof. apply flat_map_app. Qed.
Lemma discr_inj big n j k a b : (n <= 1 -> j = k) -> fits j -> fits k -> hash_bytes big (h_discr n j) ++ a = hash_bytes big (h_discr n k) ++ b -> j = k /\ a = b.
Proof.
  intros Hn Hj Hk H. unfold h_discr in H. destruct (Nat.leb_spec n 1); [auto|]. unfold hash_bytes in H. cbn [flat_map call_bytes] in H. rewrite !app_nil_r in H.
  apply num8_inj in H as (H & ->); [split; [lia|reflexivity]|exact Hj|exact Hk].
Qed.
Lemma len_inj big n m l l' a b : fits n -> fits m -> hash_bytes big (CUsize n :: l) ++ a = hash_bytes big (CUsize m :: l') ++ b -> n = m /\ hash_bytes big l ++ a = hash_bytes big l' ++ b.
Proof.
  intros Hn Hm H. unfold hash_bytes in *. cbn [flat_map call_bytes] in H. rewrite <- !app_assoc in H. apply num8_inj in H as (H & ->); [split; [lia|reflexivity]|exact Hn|exact Hm].
Qed.
Section Inj.
Context (big : bool) (E : env).
Notation by_ t v := (hash_bytes big (hv E t v)).
Definition inj (v : val) : Prop := forall t w a b, of_type E t v -> of_type E t w -> in_memory v -> in_memory w -> no_subnormal v -> no_subnormal w ->
  by_ t v ++ a = by_ t w ++ b -> bare v = bare w /\ a = b.
Lemma f2 : fits 0 /\ fits 1 /\ forall l, fits (lit_index l).
Proof. split; [|split; [|intros []]]; reflexivity. Qed.
Lemma inj_fields l : Forall inj l -> forall fs l' a b, all2 (fun a x => of_type E a x) fs l -> all2 (fun a x => of_type E a x) fs l' -> all in_memory l -> all in_memory l' ->
  Forall (fun l => ~ subnormal l) (List.concat (map val_lits l)) -> Forall (fun l => ~ subnormal l) (List.concat (map val_lits l')) ->
  hash_bytes big (h_fields (fun a x => hv E a x) fs l) ++ a = hash_bytes big (h_fields (fun a x => hv E a x) fs l') ++ b -> map (fun v => bare v) l = map (fun v => bare v) l' /\ a = b.
Proof.
  induction 1 as [|v l Hv Hl IH]; intros [|f fs] [|w l'] a b T T' M M' S S' H; cbn [all2] in T, T'; try contradiction; try discriminate T; try discriminate T'.
  - cbn in H. auto.
  - destruct T as (Tv & T), T' as (Tw & T'), M as (Mv & M), M' as (Mw & M'). cbn [map List.concat] in S, S'. apply Forall_app in S as (Sv & S), S' as (Sw & S').
    cbn [h_fields] in H. rewrite !hash_bytes_app, <- !app_assoc in H. destruct (Hv _ _ _ _ Tv Tw Mv Mw Sv Sw H) as (E1 & H').
    destruct (IH _ _ _ _ T T' M M' S S' H') as (E2 & ->). cbn [map]. rewrite E1, E2. auto.
Qed.
Lemma inj_list l : Forall inj l -> forall t l' a b, List.length l = List.length l' -> all (of_type E t) l -> all (of_type E t) l' -> all in_memory l -> all in_memory l' ->
  Forall (fun l => ~ subnormal l) (List.concat (map val_lits l)) -> Forall (fun l => ~ subnormal l) (List.concat (map val_lits l')) ->
  hash_bytes big (List.concat (map (hv E t) l)) ++ a = hash_bytes big (List.concat (map (hv E t) l')) ++ b -> map (fun v => bare v) l = map (fun v => bare v) l' /\ a = b.
Proof.
  induction 1 as [|v l Hv Hl IH]; intros t [|w l'] a b L T T' M M' S S' H; try discriminate L.
  - cbn in H. auto.
  - destruct T as (Tv & T), T' as (Tw & T'), M as (Mv & M), M' as (Mw & M'). cbn [map List.concat] in S, S', H. apply Forall_app in S as (Sv & S), S' as (Sw & S').
    rewrite !hash_bytes_app, <- !app_assoc in H. destruct (Hv _ _ _ _ Tv Tw Mv Mw Sv Sw H) as (E1 & H'). injection L as L.
    destruct (IH _ _ _ _ L T T' M M' S S' H') as (E2 & ->). cbn [map]. rewrite E1, E2. auto.
Qed.
Lemma inj_pairs l : Forall (fun x : val * val => inj (fst x) /\ inj (snd x)) l -> forall s p l' a b, List.length l = List.length l' ->
  all (fun '(x, y) => of_type E s x /\ of_type E p y) l -> all (fun '(x, y) => of_type E s x /\ of_type E p y) l' ->
  all (fun '(x, y) => in_memory x /\ in_memory y) l -> all (fun '(x, y) => in_memory x /\ in_memory y) l' ->
  Forall (fun l => ~ subnormal l) (List.concat (map (fun '(x, y) => val_lits x ++ val_lits y) l)) -> Forall (fun l => ~ subnormal l) (List.concat (map (fun '(x, y) => val_lits x ++ val_lits y) l')) ->
  hash_bytes big (List.concat (map (fun '(x, y) => hv E s x ++ hv E p y) l)) ++ a = hash_bytes big (List.concat (map (fun '(x, y) => hv E s x ++ hv E p y) l')) ++ b ->
  map (fun '(x, y) => (bare x, bare y)) l = map (fun '(x, y) => (bare x, bare y)) l' /\ a = b.
Proof.
  induction 1 as [|(v, v2) l (Hv & Hv2) Hl IH]; intros s p [|(w, w2) l'] a b L T T' M M' S S' H; try discriminate L.
  - cbn in H. auto.
  - destruct T as ((Tv & Tv2) & T), T' as ((Tw & Tw2) & T'), M as ((Mv & Mv2) & M), M' as ((Mw & Mw2) & M'). cbn [map List.concat fst snd] in S, S', H, Hv, Hv2.
    apply Forall_app in S as (Sv & S), S' as (Sw & S'). apply Forall_app in Sv as (Sv & Sv2), Sw as (Sw & Sw2).
    rewrite !hash_bytes_app, <- !app_assoc in H. destruct (Hv _ _ _ _ Tv Tw Mv Mw Sv Sw H) as (E1 & H1). destruct (Hv2 _ _ _ _ Tv2 Tw2 Mv2 Mw2 Sv2 Sw2 H1) as (E2 & H2).
    injection L as L. destruct (IH _ _ _ _ _ L T T' M M' S S' H2) as (E3 & ->). cbn [map]. rewrite E1, E2, E3. auto.
Qed.
Ltac same := intros t w a b Tv Tw Mv Mw Sv Sw H; unfold no_subnormal in Sv, Sw; cbn [of_type hv in_memory val_lits] in Tv, Mv, Sv, H; destruct (unbox t) eqn:Ut; try contradiction;
  destruct w; cbn [of_type hv in_memory val_lits] in Tw, Mw, Sw, H; rewrite Ut in *; try contradiction; try (destruct Tw; contradiction).
Lemma hv_inj v : inj v.
Proof.
  destruct f2 as (F0 & F1 & Fl).
  induction v as [n sp|k sp|op sps|l sp| | |x y IHx IHy|d sp x IHx|inner last IHi IHl|l IHl|l o r IH1 IH2 IH3|x IHx|l o r IH1 IH2 IH3|x IHx|x IHx|x IHx|l IHl|k l IHl] using val_ind'; unfold inj.
  - same; apply str_inj in H as (-> & ->); auto.
  - same; subst; cbn in H; subst; auto.
  - same. destruct Tv as (-> & L1), Tw as (-> & L2). cbn in H. subst. split; [|reflexivity]. cbn [plus_zeros strip]. f_equal. assert (Q : List.length sps = List.length sps0) by congruence. clear - Q. revert sps0 Q. induction sps as [|u l IH]; intros [|u' l'] Q; try discriminate Q; [reflexivity|]. cbn [map]. f_equal. apply IH. injection Q as Q. exact Q.
  - same; try (destruct Tv; contradiction); destruct Tv as (Vl & Tv), Tw as (Vm & Tw); inversion Sv; inversion Sw; subst.
    + rewrite <- Tw in *. apply lit_inj in H as (H & ->); auto; try (destruct l, l0; assumption). cbn [plus_zeros strip]. rewrite H. auto.
    + rewrite !hash_bytes_app, <- !app_assoc in H. apply discr_inj in H as (Hi & H); [|lia|apply Fl|apply Fl].
      apply lit_inj in H as (H & ->); auto; try (destruct l, l0; assumption); try (destruct l, l0; try discriminate Hi; reflexivity). cbn [plus_zeros strip]. rewrite H. auto.
  - same; cbn in H; auto.
  - same; [apply discr_inj in H as (_ & H); [auto|lia|assumption|assumption]|]. exfalso. rewrite hash_bytes_app, <- app_assoc in H. apply discr_inj in H as (H & _); [discriminate H|lia|assumption|assumption].
  - same.
    + exfalso. rewrite hash_bytes_app, <- app_assoc in H. apply discr_inj in H as (H & _); [discriminate H|lia|assumption|assumption].
    + rewrite !hash_bytes_app, <- !app_assoc in H. apply discr_inj in H as (_ & H); [|lia|assumption|assumption]. destruct Tv, Tw, Mv, Mw. apply Forall_app in Sv as (? & ?), Sw as (? & ?).
      apply IHx in H as (E1 & H); try assumption. apply IHy in H as (E2 & ->); try assumption. cbn [plus_zeros strip]. rewrite E1, E2. auto.
  - same; destruct Tv as (-> & Tv), Tw as (-> & Tw); apply IHx in H as (E1 & ->); try assumption; cbn [plus_zeros strip]; rewrite E1; auto.
  - assert (G : forall a p i' l' b c, all (fun '(x, y) => of_type E a x /\ of_type E p y) inner /\ match last with Some x => of_type E a x | None => True end ->
      all (fun '(x, y) => of_type E a x /\ of_type E p y) i' /\ match l' with Some x => of_type E a x | None => True end ->
      in_memory (VPunct inner last) -> in_memory (VPunct i' l') -> no_subnormal (VPunct inner last) -> no_subnormal (VPunct i' l') ->
      hash_bytes big (CUsize (List.length inner) :: List.concat (map (fun '(x, y) => hv E a x ++ hv E p y) inner) ++ match last with Some x => h_discr 2 1 ++ hv E a x | None => h_discr 2 0 end) ++ b =
      hash_bytes big (CUsize (List.length i') :: List.concat (map (fun '(x, y) => hv E a x ++ hv E p y) i') ++ match l' with Some x => h_discr 2 1 ++ hv E a x | None => h_discr 2 0 end) ++ c ->
      bare (VPunct inner last) = bare (VPunct i' l') /\ b = c).
    { intros a p i' l' b c (T & Tl) (T' & Tl') M M' S S' H. unfold no_subnormal in S, S'. cbn [in_memory val_lits] in M, M', S, S'. destruct M as (Fi & M & Ml), M' as (Fi' & M' & Ml'). apply Forall_app in S as (S & Sl), S' as (S' & Sl').
      apply len_inj in H as (L & H); [|assumption|assumption]. rewrite !hash_bytes_app, <- !app_assoc in H. destruct (inj_pairs inner IHi a p i' _ _ L T T' M M' S S' H) as (E1 & H').
      assert (E2 : option_map (fun v => bare v) last = option_map (fun v => bare v) l' /\ b = c).
      { clear H. destruct last as [x|], l' as [y|].
        - rewrite !hash_bytes_app, <- !app_assoc in H'. apply discr_inj in H' as (_ & H'); [|lia|assumption|assumption]. apply (IHl x eq_refl) in H' as (E2 & ->); try assumption. cbn. rewrite E2. auto.
        - rewrite hash_bytes_app, <- app_assoc in H'. apply discr_inj in H' as (H' & _); [discriminate H'|lia|assumption|assumption].
        - rewrite hash_bytes_app, <- app_assoc in H'. apply discr_inj in H' as (H' & _); [discriminate H'|lia|assumption|assumption].
        - apply discr_inj in H' as (_ & H'); [auto|lia|assumption|assumption]. }
      destruct E2 as (E2 & ->). split; [|reflexivity]. cbn [plus_zeros strip]. f_equal.
      - rewrite !map_map. etransitivity; [|etransitivity; [exact E1|]]; apply map_ext; intros (x, y); reflexivity.
      - destruct last, l'; cbn in *; congruence. }
    same; eapply G; eassumption.
  - same. destruct Mv as (F & Mv), Mw as (F' & Mw). apply len_inj in H as (L & H); [|assumption|assumption].
    destruct (inj_list l IHl _ _ _ _ L Tv Tw Mv Mw Sv Sw H) as (E1 & ->). cbn [plus_zeros strip]. rewrite !map_map. rewrite E1. auto.
  - same; rewrite !hash_bytes_app, <- !app_assoc in H; apply discr_inj in H as (K & H); try lia; try assumption; try discriminate K.
    destruct Tv as (? & ? & ?), Tw as (? & ? & ?), Mv as (? & ? & ?), Mw as (? & ? & ?). rewrite !Forall_app in Sv, Sw. destruct Sv as (? & ? & ?), Sw as (? & ? & ?).
    apply IH1 in H as (E1 & H); try assumption. apply IH2 in H as (E2 & H); try assumption. apply IH3 in H as (E3 & ->); try assumption. cbn [plus_zeros strip]. rewrite E1, E2, E3. auto.
  - same; rewrite !hash_bytes_app, <- !app_assoc in H; apply discr_inj in H as (K & H); try lia; try assumption; try discriminate K. apply IHx in H as (E1 & ->); try assumption. cbn [plus_zeros strip]. rewrite E1. auto.
  - same; rewrite !hash_bytes_app, <- !app_assoc in H; apply discr_inj in H as (K & H); try lia; try assumption; try discriminate K.
    destruct Tv as (? & ? & ?), Tw as (? & ? & ?), Mv as (? & ? & ?), Mw as (? & ? & ?). rewrite !Forall_app in Sv, Sw. destruct Sv as (? & ? & ?), Sw as (? & ? & ?).
    apply IH1 in H as (E1 & H); try assumption. apply IH2 in H as (E2 & H); try assumption. apply IH3 in H as (E3 & ->); try assumption. cbn [plus_zeros strip]. rewrite E1, E2, E3. auto.
  - same; rewrite !hash_bytes_app, <- !app_assoc in H; apply discr_inj in H as (K & H); try lia; try assumption; try discriminate K. apply IHx in H as (E1 & ->); try assumption. cbn [plus_zeros strip]. rewrite E1. auto.
  - same; rewrite !hash_bytes_app, <- !app_assoc in H; apply discr_inj in H as (K & H); try lia; try assumption; try discriminate K. apply IHx in H as (E1 & ->); try assumption. cbn [plus_zeros strip]. rewrite E1. auto.
  - same; rewrite !hash_bytes_app, <- !app_assoc in H; apply discr_inj in H as (K & H); try lia; try assumption; try discriminate K. apply IHx in H as (E1 & ->); try assumption. cbn [plus_zeros strip]. rewrite E1. auto.
  - same; destruct (E i) as [c|en cs]; try contradiction. destruct (inj_fields l IHl _ _ _ _ Tv Tw Mv Mw Sv Sw H) as (E1 & ->). cbn [plus_zeros strip]. rewrite !map_map, E1. auto.
  - same; destruct (E i) as [c|en cs]; try contradiction.
    destruct (nth_error cs k) as [c|] eqn:Nk; [|contradiction]. destruct (nth_error cs k0) as [c'|] eqn:Nk'; [|contradiction]. destruct Mv as (Fk & Mv), Mw as (Fk' & Mw).
    rewrite !hash_bytes_app, <- !app_assoc in H. apply discr_inj in H as (<- & H); [| |exact Fk|exact Fk'].
    + rewrite Nk in Nk'. injection Nk' as <-. destruct (inj_fields l IHl _ _ _ _ Tv Tw Mv Mw Sv Sw H) as (E1 & ->). cbn [plus_zeros strip]. rewrite !map_map, E1. auto.
    + intro Q. apply (f_equal (fun o => negb match o with Some _ => true | None => false end)) in Nk, Nk'. assert (k < List.length cs) by (apply nth_error_Some; destruct (nth_error cs k); discriminate). assert (k0 < List.length cs) by (apply nth_error_Some; destruct (nth_error cs k0); discriminate). lia.
Qed.
End Inj.
