(** * PropOrder: C44, C53, which node is the smaller one. *)
From Verif Require Import Base Float Literal FloatFacts Syn Ast Derive Grammar Spec LitSpec Conv ConvFacts PropSpan NodeEq PropEq.
From Coq Require Import ZifyN ZifyNat ZifyBool.
Local Open Scope N_scope.

(** ** Specification *)
(** lexicographic order of byte sequences *)
Inductive dict : list N -> list N -> Prop :=
| d_end y b : dict [] (y :: b)
| d_here x y a b : x < y -> dict (x :: a) (y :: b)
| d_later x a b : dict a b -> dict (x :: a) (x :: b).
(** the integer [v] such that the finite double is [v] times two to the [k] *)
Definition scaled (neg : bool) (m : N) (e k : Z) : Z := ((if neg then - Z.of_N m else Z.of_N m) * 2 ^ (e - k))%Z.
Inductive lit_less : lit -> lit -> Prop :=
| ll_bool : lit_less (LBool false) (LBool true)
| ll_byte x y : x < y -> lit_less (LByte x) (LByte y)
| ll_int x y : (x < y)%Z -> lit_less (LInt x) (LInt y)
| ll_uint x y : (x < y)%Z -> lit_less (LUint x) (LUint y)
| ll_float n1 m1 e1 n2 m2 e2 k : (k <= e1)%Z -> (k <= e2)%Z -> (scaled n1 m1 e1 k < scaled n2 m2 e2 k)%Z ->
    lit_less (LFloat (FFin n1 m1 e1)) (LFloat (FFin n2 m2 e2))
| ll_below n m e : lit_less (LFloat (FInf true)) (LFloat (FFin n m e))
| ll_above n m e : lit_less (LFloat (FFin n m e)) (LFloat (FInf false))
| ll_infinite : lit_less (LFloat (FInf true)) (LFloat (FInf false))
| ll_char x y : x < y -> lit_less (LChar x) (LChar y)
| ll_str s t : dict (flat_map utf8 s) (flat_map utf8 t) -> lit_less (LStr s) (LStr t)
| ll_byte_str s t : dict s t -> lit_less (LByteStr s) (LByteStr t).

(** ** lists *)
Lemma dict_cmp a : forall b, list_cmp a b = Lt <-> dict a b.
Proof.
  induction a as [|x a IH]; intros [|y b]; cbn; try (split; [discriminate|]; intro H; inversion H; fail).
  - split; [constructor|reflexivity].
  - destruct (N.compare_spec x y) as [->|H|H].
    + rewrite IH. split; [intro; apply d_later; assumption|]. intro D. inversion D; subst; [lia|assumption].
    + split; [intro; apply d_here; assumption|reflexivity].
    + split; [discriminate|]. intro D. inversion D; subst; lia.
Qed.
Lemma dict_app p a b : dict (p ++ a) (p ++ b) <-> dict a b.
Proof. induction p as [|x p IH]; [reflexivity|]. cbn [app]. rewrite <- IH. split; [intro D; inversion D; subst; [lia|assumption]|apply d_later]. Qed.
(** ** UTF-8 *)
Lemma utf8_less x y : valid_char x = true -> valid_char y = true -> x < y -> forall a b, dict (utf8 x ++ a) (utf8 y ++ b).
Proof.
  unfold valid_char. intros Vx Vy H a b. unfold utf8.
  assert (D1 : forall x1 y1 p q, x1 < y1 -> dict (x1 :: p) (y1 :: q)) by (intros; apply d_here; assumption).
  assert (D2 : forall x1 y1 x2 y2 p q, x1 < y1 \/ (x1 = y1 /\ x2 < y2) -> dict (x1 :: x2 :: p) (y1 :: y2 :: q)).
  { intros ? ? ? ? ? ? [?|(-> & ?)]; [apply d_here|apply d_later, d_here]; assumption. }
  assert (D3 : forall x1 y1 x2 y2 x3 y3 p q, x1 < y1 \/ (x1 = y1 /\ (x2 < y2 \/ (x2 = y2 /\ x3 < y3))) -> dict (x1 :: x2 :: x3 :: p) (y1 :: y2 :: y3 :: q)).
  { intros ? ? ? ? ? ? ? ? [?|(-> & [?|(-> & ?)])]; [apply d_here|apply d_later, d_here|apply d_later, d_later, d_here]; assumption. }
  assert (D4 : forall x1 y1 x2 y2 x3 y3 x4 y4 p q, x1 < y1 \/ (x1 = y1 /\ (x2 < y2 \/ (x2 = y2 /\ (x3 < y3 \/ (x3 = y3 /\ x4 < y4))))) -> dict (x1 :: x2 :: x3 :: x4 :: p) (y1 :: y2 :: y3 :: y4 :: q)).
  { intros ? ? ? ? ? ? ? ? ? ? [?|(-> & [?|(-> & [?|(-> & ?)])])]; [apply d_here|apply d_later, d_here|apply d_later, d_later, d_here|apply d_later, d_later, d_later, d_here]; assumption. }
  repeat match goal with |- context [?u <? ?v] => destruct (N.ltb_spec u v) end; try lia; cbn [app];
    first [apply D1; zify; Z.to_euclidean_division_equations; lia
          |apply D2; zify; Z.to_euclidean_division_equations; lia
          |apply D3; zify; Z.to_euclidean_division_equations; lia
          |apply D4; zify; Z.to_euclidean_division_equations; lia].
Qed.
Lemma utf8_nonempty c : exists x l, utf8 c = x :: l.
Proof. unfold utf8. repeat destruct (_ <? _); eauto. Qed.
Lemma str_less s : forall t, forallb valid_char s = true -> forallb valid_char t = true ->
  list_cmp s t = Lt <-> dict (flat_map utf8 s) (flat_map utf8 t).
Proof.
  induction s as [|x s IH]; intros [|y t] Hs Ht.
  - cbn. split; [discriminate|]. intro H. inversion H.
  - cbn [list_cmp flat_map]. destruct (utf8_nonempty y) as (z & l & ->). split; [intros _; apply d_end|reflexivity].
  - cbn [list_cmp flat_map]. destruct (utf8_nonempty x) as (z & l & ->). split; [discriminate|]. intro H. inversion H.
  - cbn [forallb] in Hs, Ht. apply andb_true_iff in Hs as (Vx & Vs), Ht as (Vy & Vt). cbn [list_cmp flat_map].
    destruct (N.compare_spec x y) as [->|H|H].
    + rewrite dict_app. apply IH; assumption.
    + split; [intros _; apply utf8_less; assumption|reflexivity].
    + split; [discriminate|]. intro D. exfalso. pose proof (utf8_less y x Vy Vx H (flat_map utf8 t) (flat_map utf8 s)) as D'.
      apply dict_cmp in D, D'. rewrite list_cmp_opp, D' in D. discriminate.
Qed.
Lemma scaled_num n m e : scaled n m e emin = f64_num n m e.
Proof. unfold scaled, f64_num. destruct n; ring. Qed.
Lemma scaled_shift n m e k j : (k <= j)%Z -> (j <= e)%Z -> scaled n m e k = (scaled n m e j * 2 ^ (j - k))%Z.
Proof. intros H1 H2. unfold scaled. rewrite <- Z.mul_assoc, <- Z.pow_add_r by lia. do 2 f_equal. lia. Qed.
Lemma scaled_less n1 m1 e1 n2 m2 e2 k : (emin <= e1)%Z -> (emin <= e2)%Z -> (k <= e1)%Z -> (k <= e2)%Z ->
  (scaled n1 m1 e1 k < scaled n2 m2 e2 k <-> f64_num n1 m1 e1 < f64_num n2 m2 e2)%Z.
Proof.
  intros E1 E2 K1 K2. rewrite <- !scaled_num. destruct (Z.le_ge_cases k emin) as [L|L].
  - rewrite (scaled_shift n1 m1 e1 k emin), (scaled_shift n2 m2 e2 k emin) by lia. pose proof (pow2_pos (emin - k) ltac:(lia)). split; intro; nia.
  - rewrite (scaled_shift n1 m1 e1 emin k), (scaled_shift n2 m2 e2 emin k) by lia. pose proof (pow2_pos (k - emin) ltac:(lia)). split; intro; nia.
Qed.
Lemma valid_emin n m e : f64_valid (FFin n m e) = true -> (emin <= e)%Z.
Proof. cbn [f64_valid]. unfold emin, emax, two52, two53. lia. Qed.

(** ** C44 *)
(** [a < b] on literal nodes: [false] before [true]; numbers by value, [-inf] first and [inf] last; characters by
    code point; strings lexicographically by their UTF-8 bytes; byte strings lexicographically. *)
Theorem C44_order_means : forall a b sp1 sp2, lit_valid a -> lit_valid b ->
  (node_cmp (a, sp1) (b, sp2) = Some Lt <-> lit_less a b) /\ (node_cmp (a, sp1) (b, sp2) = Some Gt <-> lit_less b a).
Proof.
  assert (L : forall a b sp1 sp2, lit_valid a -> lit_valid b -> node_cmp (a, sp1) (b, sp2) = Some Lt <-> lit_less a b).
  { intros a b sp1 sp2 Ha Hb. unfold node_cmp. cbn [fst]. destruct a, b; cbn [lit_valid] in Ha, Hb; try (split; [discriminate|]; intro H; inversion H; fail).
    - destruct b0, b; cbn; split; try discriminate; try constructor; intro H; inversion H.
    - split; [intro H; injection H as H; constructor; rewrite N.compare_lt_iff in H; exact H|intro H; inversion H; subst; f_equal; rewrite N.compare_lt_iff; assumption].
    - split; [intro H; injection H as H; constructor; rewrite Z.compare_lt_iff in H; exact H|intro H; inversion H; subst; f_equal; rewrite Z.compare_lt_iff; assumption].
    - split; [intro H; injection H as H; constructor; rewrite Z.compare_lt_iff in H; exact H|intro H; inversion H; subst; f_equal; rewrite Z.compare_lt_iff; assumption].
    - destruct f as [n1 m1 e1|n1], f0 as [n2 m2 e2|n2]; cbn [f64_cmp].
      + pose proof (valid_emin _ _ _ Ha) as E1. pose proof (valid_emin _ _ _ Hb) as E2. split.
        * intro H. injection H as H. rewrite Z.compare_lt_iff in H. apply (ll_float _ _ _ _ _ _ emin E1 E2). rewrite !scaled_num. exact H.
        * intro H. inversion H; subst. f_equal. apply Z.compare_lt_iff. eapply scaled_less; [| | | |eassumption]; assumption.
      + destruct n2; split; try discriminate; try constructor; intro H; inversion H.
      + destruct n1; split; try discriminate; try constructor; intro H; inversion H.
      + destruct n1, n2; split; try discriminate; try constructor; intro H; inversion H.
    - split; [intro H; injection H as H; constructor; rewrite N.compare_lt_iff in H; exact H|intro H; inversion H; subst; f_equal; rewrite N.compare_lt_iff; assumption].
    - split; [intro H; injection H as H; constructor; apply str_less; assumption|intro H; inversion H; subst; f_equal; apply str_less; assumption].
    - split; [intro H; injection H as H; constructor; apply dict_cmp; assumption|intro H; inversion H; subst; f_equal; apply dict_cmp; assumption]. }
  intros a b sp1 sp2 Ha Hb. split; [apply L; assumption|]. rewrite <- (L b a sp2 sp1 Hb Ha), (node_cmp_opp (b, sp2) (a, sp1)).
  destruct (node_cmp (b, sp2) (a, sp1)) as [[]|]; cbn; split; congruence.
Qed.
(** Comparing code points is comparing UTF-8 bytes. *)
Theorem C44_strings_compare_as_utf8 : forall s t, forallb valid_char s = true -> forallb valid_char t = true ->
  list_cmp s t = list_cmp (flat_map utf8 s) (flat_map utf8 t).
Proof.
  intros s t Hs Ht. destruct (list_cmp s t) eqn:E.
  - apply list_cmp_eq in E. subst. symmetry. apply list_cmp_eq. reflexivity.
  - symmetry. apply dict_cmp. apply str_less; assumption.
  - rewrite list_cmp_opp in E. destruct (list_cmp t s) eqn:E'; try discriminate. apply (str_less t s Ht Hs) in E'. apply dict_cmp in E'. rewrite list_cmp_opp, E'. reflexivity.
Qed.

(** ** C53: which of two nodes is smaller *)
(** identifiers by text, keywords and marker nodes never, [Left] before [Right], an earlier variant before a later one, and
    otherwise the first field that is not equal decides *)
Inductive less : val -> val -> Prop :=
| ls_ident n m sp1 sp2 : dict (flat_map utf8 n) (flat_map utf8 m) -> less (VIdent n sp1) (VIdent m sp2)
| ls_lit a b sp1 sp2 : lit_less a b -> less (VLit a sp1) (VLit b sp2)
| ls_left_right v w : less (VLeft v) (VRight w)
| ls_left v w : less v w -> less (VLeft v) (VLeft w)
| ls_right v w : less v w -> less (VRight v) (VRight w)
| ls_struct l l' : less_fields l l' -> less (VStruct l) (VStruct l')
| ls_variant j k l l' : (j < k)%nat -> less (VVariant j l) (VVariant k l')
| ls_fields k l l' : less_fields l l' -> less (VVariant k l) (VVariant k l')
with less_fields : list val -> list val -> Prop :=
| lf_here v w l l' : less v w -> less_fields (v :: l) (w :: l')
| lf_later v w l l' : veqb v w = true -> less_fields l l' -> less_fields (v :: l) (w :: l').
(** text and literals of a node are those of Rust *)
Definition leaf_sound (v : val) : Prop :=
  match v with VIdent n _ => forallb valid_char n = true | VLit l _ => lit_valid l | _ => True end.
Definition sound (v : val) : Prop := forall x, In x (leaf_nodes v) -> leaf_sound x.
Lemma sound_list l : Forall leaf_sound (List.concat (map leaf_nodes l)) <-> Forall sound l.
Proof.
  unfold sound. induction l as [|x l IH]; cbn [map List.concat]; [split; constructor|]. rewrite Forall_app, IH, Forall_forall. split; [intros (A & B); constructor; assumption|].
  intro H. inversion H; subst. split; assumption.
Qed.
Lemma fields_less l : Forall (fun v => forall w, sound v -> sound w -> vcmp v w <> None -> vcmp v w = Some Lt <-> less v w) l ->
  forall l', Forall sound l -> Forall sound l' -> lex_cmp (fun a b => vcmp a b) l l' <> None -> lex_cmp (fun a b => vcmp a b) l l' = Some Lt <-> less_fields l l'.
Proof.
  induction 1 as [|v l Hv Hl IH]; intros [|w l'] Sl Sl' N; try (split; [discriminate|]; intro H; inversion H; fail).
  inversion Sl; subst. inversion Sl'; subst. cbn [lex_cmp] in *. fold (lex_cmp (fun a b => vcmp a b)) in *. specialize (Hv w H1 H3).
  pose proof (vcmp_eqb v w) as Q. destruct (vcmp v w) as [c|] eqn:E; [|exfalso; apply N; reflexivity]. specialize (Hv ltac:(discriminate)). specialize (Q ltac:(discriminate)).
  destruct c.
  - rewrite (IH l' H2 H4 N). split; [intro D; apply lf_later; [apply Q; reflexivity|exact D]|]. intro D. inversion D as [? ? ? ? D1|? ? ? ? D1 D2]; subst; [|assumption]. exfalso. apply Hv in D1. discriminate.
  - split; [intros _; apply lf_here, Hv; reflexivity|reflexivity].
  - split; [discriminate|]. intro D. inversion D as [? ? ? ? D1|? ? ? ? D1 D2]; subst; [apply Hv in D1; discriminate|]. apply Q in D1. discriminate.
Qed.
(** On nodes that can be compared, [v < w] exactly when [less v w]. *)
Theorem C53_order_means : forall v w, sound v -> sound w -> vcmp v w <> None -> vcmp v w = Some Lt <-> less v w.
Proof.
  intro v. induction v as [n sp|k sp|op sps|l sp| | |x y IHx IHy|d sp x IHx|inner last IHi IHl|l IHl|l o r IH1 IH2 IH3|x IHx|l o r IH1 IH2 IH3|x IHx|x IHx|x IHx|l IHl|k l IHl] using Writable.val_ind'; intros w Sv Sw;
    destruct w as [n' sp'|k' sp'|op' sps'|l' sp'| | |x' y'|d' sp' x'|inner' last'|l'|l' o' r'|x'|l' o' r'|x'|x'|x'|l'|k' l']; cbn [vcmp]; intro N; try (exfalso; apply N; reflexivity); try (split; [discriminate|]; intro H; inversion H; fail).
  - pose proof (Sv _ (or_introl eq_refl)) as V. pose proof (Sw _ (or_introl eq_refl)) as W. cbn [leaf_sound] in V, W.
    split; [intro H; injection H as H; constructor; apply str_less; assumption|intro H; inversion H; subst; f_equal; apply str_less; assumption].
  - destruct (text_eqb k k'); split; try discriminate; intro H; inversion H.
  - pose proof (Sv _ (or_introl eq_refl)) as V. pose proof (Sw _ (or_introl eq_refl)) as W. cbn [leaf_sound] in V, W. rewrite (proj1 (C44_order_means l l' sp sp' V W)).
    split; [constructor; assumption|]. intro H. inversion H; subst. assumption.
  - rewrite (IHx x' Sv Sw N). split; [constructor; assumption|]. intro H. inversion H; subst. assumption.
  - split; [constructor|reflexivity].
  - rewrite (IHx x' Sv Sw N). split; [constructor; assumption|]. intro H. inversion H; subst. assumption.
  - unfold sound in Sv, Sw. cbn [leaf_nodes] in Sv, Sw. rewrite <- Forall_forall, sound_list in Sv, Sw. rewrite (fields_less l IHl l' Sv Sw N). split; [constructor; assumption|]. intro H. inversion H; subst. assumption.
  - unfold sound in Sv, Sw. cbn [leaf_nodes] in Sv, Sw. rewrite <- Forall_forall, sound_list in Sv, Sw. destruct (Nat.compare_spec k k') as [->|H|H].
    + rewrite (fields_less l IHl l' Sv Sw N). split; [intro; apply ls_fields; assumption|]. intro H. inversion H; subst; [lia|assumption].
    + split; [intros _; apply ls_variant; assumption|reflexivity].
    + split; [discriminate|]. intro D. inversion D; subst; lia.
Qed.
Print Assumptions C44_order_means.
Print Assumptions C44_strings_compare_as_utf8.
Print Assumptions C53_order_means.

(** ** Examples *)
Example C44_order_ex : lit_less (LFloat (FFin true 0 emin)) (LFloat (FFin false 1 emin)) /\ lit_less (LStr [0xE9]) (LStr [0x20AC; 97]) /\ lit_less (LStr [97]) (LStr [97; 98]).
Proof.
  split; [apply (ll_float _ _ _ _ _ _ emin); [apply Z.le_refl|apply Z.le_refl|reflexivity]|]. split; constructor; vm_compute; [apply d_here; reflexivity|apply d_later, d_end].
Qed.
Example C53_order_ex : less (VVariant 0 [VIdent [98] call_site; VLit (LInt (-7)) call_site]) (VVariant 0 [VIdent [98] call_site; VLit (LInt 2) call_site]).
Proof. apply ls_fields. apply lf_later; [reflexivity|]. apply lf_here, ls_lit, ll_int. reflexivity. Qed.
