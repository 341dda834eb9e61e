(** * LexFacts: lexing a token does not depend on what follows it, if that is a break. *)
From Verif Require Import Base Float Literal Syn Fmt Lexer.
Local Open Scope nat_scope.

(** what the formatter may write directly after a word or a literal *)
Definition brkc (c : char) : bool := existsb (N.eqb c) [32; 10; 41; 93; 125]%N.
Definition brk (s : text) : Prop := match s with [] => True | c :: _ => brkc c = true end.
Lemma brkc_cases c : brkc c = true -> c = 32%N \/ c = 10%N \/ c = 41%N \/ c = 93%N \/ c = 125%N.
Proof. unfold brkc. cbn. rewrite !orb_true_iff, !N.eqb_eq. intuition discriminate. Qed.

(** what may follow a word or a literal directly without becoming part of it; for a number with an
    exponent mark, a sign may not: see [calm] *)
Definition touchc (c : char) : bool :=
  existsb (N.eqb c) [32; 9; 10; 11; 12; 13; 40; 91; 123; 41; 93; 125; 44; 59; 58; 61; 60; 62; 33; 126; 64; 94; 38; 124; 42; 37; 63; 36; 47; 43; 45]%N.
Definition touch (s : text) : Prop := match s with [] => True | c :: _ => touchc c = true end.
Lemma touchc_in (P : char -> Prop) c : touchc c = true ->
  (P 32 -> P 9 -> P 10 -> P 11 -> P 12 -> P 13 -> P 40 -> P 91 -> P 123 -> P 41 -> P 93 -> P 125 -> P 44 -> P 59 -> P 58 -> P 61 -> P 60 -> P 62 -> P 33 ->
   P 126 -> P 64 -> P 94 -> P 38 -> P 124 -> P 42 -> P 37 -> P 63 -> P 36 -> P 47 -> P 43 -> P 45 -> P c)%N.
Proof.
  intros H. unfold touchc in H. apply existsb_exists in H as (x & Hx & E). apply N.eqb_eq in E. subst x. cbn [In] in Hx.
  intros. repeat (destruct Hx as [<-|Hx]; [assumption|]). destruct Hx.
Qed.
Lemma brk_touch s : brk s -> touch s.
Proof. destruct s as [|c s]; [auto|]. cbn. intro H. apply brkc_cases in H as [->|[->|[->|[->| ->]]]]; reflexivity. Qed.
Definition no_sign (s : text) : Prop := match s with c :: _ => c <> 43%N /\ c <> 45%N | [] => True end.
Definition calm (p s : text) : Prop :=
  no_sign s \/ Forall (fun c => c <> 101%N /\ c <> 69%N) p \/
  match p with c :: _ => is_digit c = false | [] => False end.
Lemma brk_calm p s : brk s -> calm p s.
Proof. intro H. left. destruct s as [|c s]; [auto|]. cbn in H. apply brkc_cases in H as [->|[->|[->|[->| ->]]]]; split; discriminate. Qed.

Section LexFacts.
Context {U : unicode}.

Lemma touch_continue c : touchc c = true -> xid_continue c = false.
Proof. intro H. pattern c. apply (touchc_in _ c H); reflexivity. Qed.
Lemma touch_start c : touchc c = true -> ident_start c = false.
Proof. intro H. pattern c. apply (touchc_in _ c H); reflexivity. Qed.

Lemma strip_prefix_spec p : forall s r, strip_prefix p s = Some r <-> s = p ++ r.
Proof.
  induction p as [|a p IH]; intros s r; cbn; [split; congruence|].
  destruct s as [|b s]; [split; discriminate|]. destruct (N.eqb_spec a b) as [->|Hn].
  - rewrite IH. split; congruence.
  - split; [discriminate|congruence].
Qed.
Lemma strip_prefix_app p s : strip_prefix p (p ++ s) = Some s.
Proof. apply strip_prefix_spec. reflexivity. Qed.
Lemma starts_with_spec p s : starts_with p s = true <-> exists r, s = p ++ r.
Proof.
  unfold starts_with. destruct (strip_prefix p s) as [r|] eqn:E.
  - apply strip_prefix_spec in E. split; eauto.
  - split; [discriminate|]. intros (r & ->). rewrite strip_prefix_app in E. discriminate.
Qed.

Lemma take_continue_spec s a b : take_continue s = (a, b) ->
  s = a ++ b /\ Forall (fun c => xid_continue c = true) a /\ match b with c :: _ => xid_continue c = false | [] => True end.
Proof.
  revert a b. induction s as [|c s IH]; intros a b H; cbn in H.
  - injection H as <- <-. auto.
  - destruct (xid_continue c) eqn:Ec.
    + destruct (take_continue s) as (a', b') eqn:E. injection H as <- <-. destruct (IH a' b' eq_refl) as (-> & H2 & H3). cbn. auto.
    + injection H as <- <-. auto.
Qed.
Lemma take_continue_app a s2 : Forall (fun c => xid_continue c = true) a -> match s2 with c :: _ => xid_continue c = false | [] => True end ->
  take_continue (a ++ s2) = (a, s2).
Proof.
  intro H. induction H as [|c a Hc Ha IH]; intro H2; cbn.
  - destruct s2 as [|c s2]; [reflexivity|]. cbn. rewrite H2. reflexivity.
  - rewrite Hc, IH by exact H2. reflexivity.
Qed.
Lemma touch_nc s : touch s -> match s with c :: _ => xid_continue c = false | [] => True end.
Proof. destruct s; [auto|]. apply touch_continue. Qed.

(** ** identifiers *)
Definition sym_ok (n : text) : Prop := exists c r, n = c :: r /\ ident_start c = true /\ Forall (fun c => xid_continue c = true) r.
Lemma ident_not_raw_spec s n r : ident_not_raw s = Some (n, r) ->
  s = n ++ r /\ sym_ok n /\ match r with c :: _ => xid_continue c = false | [] => True end.
Proof.
  destruct s as [|c s]; cbn; [discriminate|]. destruct (ident_start c) eqn:Ec; [|discriminate].
  destruct (take_continue s) as (a, b) eqn:E. intro H. injection H as <- <-. apply take_continue_spec in E as (-> & H2 & H3).
  split; [reflexivity|]. split; [|exact H3]. exists c, a. auto.
Qed.
Lemma ident_not_raw_app n s2 : sym_ok n -> match s2 with c :: _ => xid_continue c = false | [] => True end -> ident_not_raw (n ++ s2) = Some (n, s2).
Proof.
  intros (c & r & -> & Hc & Hr) H. cbn. rewrite Hc, take_continue_app by assumption. reflexivity.
Qed.
Lemma literal_suffix_spec s : exists p, s = p ++ literal_suffix s /\ forall s2, touch s2 -> literal_suffix (p ++ s2) = s2.
Proof.
  unfold literal_suffix at 1. destruct (ident_not_raw s) as [(n, r)|] eqn:E.
  - apply ident_not_raw_spec in E as (-> & Hn & _). exists n. split; [reflexivity|]. intros s2 H2. unfold literal_suffix.
    rewrite ident_not_raw_app; [reflexivity|exact Hn|apply touch_nc; exact H2].
  - exists []. split; [reflexivity|]. intros s2 H2. unfold literal_suffix. cbn. destruct s2 as [|c s2]; [reflexivity|]. cbn. rewrite touch_start by exact H2. reflexivity.
Qed.

(** ** strings *)
Lemma lex_x_spec d s s' : lex_x d s = Some s' -> exists p, s = p ++ s' /\ forall s2, lex_x d (p ++ s2) = Some s2.
Proof.
  destruct s as [|a [|b r]]; try discriminate. cbn. intro H. exists [a; b].
  destruct (hex_val a) as [x|] eqn:Ha; [|discriminate]. destruct (hex_val b) as [y|] eqn:Hb; [|discriminate].
  cbn. rewrite Ha, Hb. destruct d; cbn in *.
  - destruct (is_digit a && (x <=? 7)%N); [|discriminate]. injection H as ->. auto.
  - injection H as ->. auto.
  - destruct ((a =? 48)%N && (b =? 48)%N); [discriminate|]. injection H as ->. auto.
Qed.
Lemma backslash_u_loop_spec s : forall v k w s', backslash_u_loop s v k = Some (w, s') ->
  exists p, s = p ++ s' /\ forall s2, backslash_u_loop (p ++ s2) v k = Some (w, s2).
Proof.
  induction s as [|c s IH]; intros v k w s' H; cbn [backslash_u_loop] in H; [discriminate|].
  destruct (hex_val c) as [d|] eqn:Ed.
  - destruct (Nat.eqb k 6) eqn:Ek; [discriminate|]. destruct (IH _ _ _ _ H) as (p & -> & Hp). exists (c :: p). split; [reflexivity|].
    intro s2. cbn [backslash_u_loop app]. rewrite Ed, Ek. apply Hp.
  - destruct ((c =? 95)%N && Nat.ltb 0 k) eqn:E1.
    + destruct (IH _ _ _ _ H) as (p & -> & Hp). exists (c :: p). split; [reflexivity|]. intro s2. cbn [backslash_u_loop app]. rewrite Ed, E1. apply Hp.
    + destruct ((c =? 125)%N && Nat.ltb 0 k) eqn:E2; [|discriminate]. destruct (valid_char v) eqn:Ev; [|discriminate]. injection H as <- <-.
      exists [c]. split; [reflexivity|]. intro s2. cbn [backslash_u_loop app]. rewrite Ed, E1, E2, Ev. reflexivity.
Qed.
Lemma backslash_u_spec s v s' : backslash_u s = Some (v, s') -> exists p, s = p ++ s' /\ forall s2, backslash_u (p ++ s2) = Some (v, s2).
Proof.
  destruct s as [|c r]; cbn; [discriminate|]. destruct (c =? 123)%N eqn:E; [|discriminate]. intro H.
  destruct (backslash_u_loop_spec _ _ _ _ _ H) as (p & -> & Hp). exists (c :: p). split; [reflexivity|]. intro s2. cbn. rewrite E. apply Hp.
Qed.
Lemma trailing_spec s : forall cr s', trailing_backslash cr s = Some s' ->
  exists p c r, s = p ++ s' /\ s' = c :: r /\ forall s2, trailing_backslash cr (p ++ c :: s2) = Some (c :: s2).
Proof.
  induction s as [|c s IH]; intros cr s' H; cbn in H; [discriminate|]. destruct cr.
  - destruct (c =? 10)%N eqn:Ec; [|discriminate]. destruct (IH _ _ H) as (p & c2 & r & -> & -> & Hp). exists (c :: p), c2, r. split; [reflexivity|]. split; [reflexivity|].
    intro s2. cbn. rewrite Ec. apply Hp.
  - destruct ((c =? 32)%N || (c =? 9)%N || (c =? 10)%N || (c =? 13)%N) eqn:Ew.
    + destruct (IH _ _ H) as (p & c2 & r & -> & -> & Hp). exists (c :: p), c2, r. split; [reflexivity|]. split; [reflexivity|].
      intro s2. cbn. rewrite Ew. apply Hp.
    + injection H as <-. exists [], c, s. split; [reflexivity|]. split; [reflexivity|]. intro s2. cbn. rewrite Ew. reflexivity.
Qed.
Lemma lex_cooked_spec f d : forall s s', lex_cooked f d s = Some s' ->
  exists p, p <> [] /\ s = p ++ s' /\ forall f2 s2, touch s2 -> List.length p <= f2 -> lex_cooked f2 d (p ++ s2) = Some s2.
Proof.
  induction f as [|f IH]; intros s s' H; cbn in H; [discriminate|]. destruct s as [|c r]; [discriminate|].
  destruct (c =? 34)%N eqn:E34.
  { injection H as <-. destruct (literal_suffix_spec r) as (p & Hr & Hp). exists (c :: p). split; [discriminate|]. split; [cbn; congruence|].
    intros [|f2] s2 H2 Hf; [cbn in Hf; lia|]. cbn. rewrite E34, Hp by exact H2. reflexivity. }
  destruct (c =? 13)%N eqn:E13.
  { destruct r as [|n r]; [discriminate|]. destruct (n =? 10)%N eqn:E10; [|discriminate]. destruct (IH _ _ H) as (p & Hn & -> & Hp).
    exists (c :: n :: p). split; [discriminate|]. split; [reflexivity|]. intros [|f2] s2 H2 Hf; [cbn in Hf; lia|]. cbn. rewrite E34, E13, E10. apply Hp; [exact H2|cbn in Hf; lia]. }
  destruct (c =? 92)%N eqn:E92.
  { destruct r as [|b r]; [discriminate|]. destruct (b =? 120)%N eqn:Eb.
    { destruct (lex_x d r) as [r2|] eqn:Ex; [|discriminate]. destruct (lex_x_spec _ _ _ Ex) as (q & -> & Hq). destruct (IH _ _ H) as (p & Hn & -> & Hp).
      exists (c :: b :: q ++ p). split; [discriminate|]. split; [cbn; rewrite <- app_assoc; reflexivity|].
      intros [|f2] s2 H2 Hf; [cbn in Hf; lia|]. cbn. rewrite E34, E13, E92, Eb, <- app_assoc, Hq. apply Hp; [exact H2|cbn in Hf; rewrite app_length in Hf; lia]. }
    destruct (lex_simple d b) eqn:Es.
    { destruct (IH _ _ H) as (p & Hn & -> & Hp). exists (c :: b :: p). split; [discriminate|]. split; [reflexivity|].
      intros [|f2] s2 H2 Hf; [cbn in Hf; lia|]. cbn [lex_cooked app]. rewrite E34, E13, E92, Eb, Es. apply Hp; [exact H2|cbn in Hf; lia]. }
    destruct ((b =? 117)%N && match d with DByte => false | _ => true end) eqn:Eu.
    { destruct (backslash_u r) as [(v, r2)|] eqn:Ex; [|discriminate]. destruct ((v =? 0)%N && match d with DC => true | _ => false end) eqn:Ev; [discriminate|].
      destruct (backslash_u_spec _ _ _ Ex) as (q & -> & Hq). destruct (IH _ _ H) as (p & Hn & -> & Hp).
      exists (c :: b :: q ++ p). split; [discriminate|]. split; [cbn; rewrite <- app_assoc; reflexivity|].
      intros [|f2] s2 H2 Hf; [cbn in Hf; lia|]. cbn [lex_cooked app]. rewrite E34, E13, E92, Eb, Es, Eu, <- app_assoc, Hq, Ev. apply Hp; [exact H2|cbn in Hf; rewrite app_length in Hf; lia]. }
    destruct ((b =? 10)%N || (b =? 13)%N) eqn:En; [|discriminate].
    destruct (trailing_backslash (b =? 13)%N r) as [r2|] eqn:Ex; [|discriminate].
    destruct (trailing_spec _ _ _ Ex) as (q & c2 & r3 & -> & -> & Hq). destruct (IH _ _ H) as (p & Hn & Hr & Hp).
    destruct p as [|c3 p]; [congruence|]. cbn in Hr. injection Hr as <- ->.
    exists (c :: b :: q ++ c2 :: p). split; [discriminate|]. split; [cbn; rewrite <- app_assoc; reflexivity|].
    intros [|f2] s2 H2 Hf; [cbn in Hf; lia|]. cbn [lex_cooked app]. rewrite E34, E13, E92, Eb, Es, Eu, En, <- app_assoc. cbn [app]. rewrite Hq.
    apply (Hp f2 s2); [exact H2|cbn in Hf; rewrite app_length in Hf; cbn in *; lia]. }
  assert (G : (match d with DStr => true | DByte => (c <? 128)%N | DC => negb (c =? 0)%N end) = true /\ lex_cooked f d r = Some s').
  { destruct d; [auto|destruct (c <? 128)%N; [auto|discriminate]|destruct (c =? 0)%N; [discriminate|auto]]. }
  destruct G as (G & H'). destruct (IH _ _ H') as (p & Hn & -> & Hp). exists (c :: p). split; [discriminate|]. split; [reflexivity|].
  intros [|f2] s2 H2 Hf; [cbn in Hf; lia|]. cbn [lex_cooked app]. rewrite E34, E13, E92.
  assert (Hp' : lex_cooked f2 d (p ++ s2) = Some s2) by (apply Hp; [exact H2|cbn in Hf; lia]).
  destruct d; [exact Hp'|rewrite G; exact Hp'|]. apply negb_true_iff in G. rewrite G. exact Hp'.
Qed.
Lemma count_pounds_spec s : exists n, s = repeat 35%N n ++ snd (count_pounds s) /\ fst (count_pounds s) = n /\
  match snd (count_pounds s) with c :: _ => c <> 35%N | [] => True end.
Proof.
  induction s as [|c s IH]. { exists 0. cbn. auto. } cbn [count_pounds]. destruct (N.eqb_spec c 35) as [->|Hn].
  - destruct IH as (n & H1 & H2 & H3). destruct (count_pounds s) as (m, t). cbn in *. exists (S n). cbn. subst m. rewrite <- H1. auto.
  - exists 0. cbn. auto.
Qed.
Lemma count_pounds_app n s : match s with c :: _ => c <> 35%N | [] => True end -> count_pounds (repeat 35%N n ++ s) = (n, s).
Proof.
  intro H. induction n as [|n IH]; cbn.
  - destruct s as [|c s]; [reflexivity|]. cbn. destruct (N.eqb_spec c 35); [contradiction|reflexivity].
  - rewrite IH. reflexivity.
Qed.
Lemma strip_pounds_some n : forall s r, strip_pounds n s = Some r <-> s = repeat 35%N n ++ r.
Proof.
  induction n as [|n IH]; intros s r; cbn; [split; congruence|]. destruct s as [|c s]; [split; discriminate|].
  destruct (N.eqb_spec c 35) as [->|Hn]; [rewrite IH; split; congruence|split; [discriminate|congruence]].
Qed.
Lemma strip_pounds_none n : forall p x y, In 34%N p -> strip_pounds n (p ++ x) = None -> strip_pounds n (p ++ y) = None.
Proof.
  induction n as [|n IH]; intros p x y Hi H; cbn in *; [discriminate|]. destruct p as [|c p]; [destruct Hi|]. cbn in *.
  destruct (N.eqb_spec c 35) as [->|Hn]; [|reflexivity]. destruct Hi as [Hi|Hi]; [discriminate|]. eapply IH; eassumption.
Qed.
Lemma raw_scan_spec d n m : forall s s', List.length s <= m -> raw_scan d n s = Some s' ->
  exists p, p <> [] /\ In 34%N p /\ s = p ++ s' /\ forall s2, touch s2 -> raw_scan d n (p ++ s2) = Some s2.
Proof.
  induction m as [|m IH]; intros s s' Hm H; destruct s as [|c r]; cbn in H; try discriminate; [cbn in Hm; lia|]. cbn in Hm.
  assert (Other : (if (c =? 13)%N then match r with b :: r' => if (b =? 10)%N then raw_scan d n r' else None | [] => None end
        else match d with DStr => raw_scan d n r | DByte => if (c <? 128)%N then raw_scan d n r else None | DC => if (c =? 0)%N then None else raw_scan d n r end) = Some s' ->
      exists p, p <> [] /\ In 34%N p /\ r = p ++ s' /\ forall s2, touch s2 ->
        (if (c =? 13)%N then match p ++ s2 with b :: r' => if (b =? 10)%N then raw_scan d n r' else None | [] => None end
        else match d with DStr => raw_scan d n (p ++ s2) | DByte => if (c <? 128)%N then raw_scan d n (p ++ s2) else None | DC => if (c =? 0)%N then None else raw_scan d n (p ++ s2) end) = Some s2).
  { intro H'. destruct (c =? 13)%N.
    - destruct r as [|b r']; [discriminate|]. destruct (b =? 10)%N eqn:Eb; [|discriminate]. destruct (IH r' s') as (p & H1 & H2 & -> & H3); [cbn in Hm; lia|exact H'|].
      exists (b :: p). cbn. rewrite Eb. split; [discriminate|]. auto.
    - assert (G : (match d with DStr => true | DByte => (c <? 128)%N | DC => negb (c =? 0)%N end) = true /\ raw_scan d n r = Some s').
      { destruct d; [auto|destruct (c <? 128)%N; [auto|discriminate]|destruct (c =? 0)%N; [discriminate|auto]]. }
      destruct G as (G & H''). destruct (IH r s') as (p & H1 & H2 & -> & H3); [lia|exact H''|]. exists p. split; [exact H1|]. split; [exact H2|]. split; [reflexivity|].
      intros s2 Hb. destruct d; [auto|rewrite G; auto|]. apply negb_true_iff in G. rewrite G. auto. }
  destruct (N.eqb_spec c 34) as [->|Hn].
  - destruct (strip_pounds n r) as [rest|] eqn:Ep.
    + injection H as <-. apply strip_pounds_some in Ep. destruct (literal_suffix_spec rest) as (q & Hr & Hq).
      exists (34%N :: repeat 35%N n ++ q). split; [discriminate|]. split; [left; reflexivity|]. split; [cbn; rewrite Ep, <- app_assoc; congruence|].
      intros s2 H2. cbn. rewrite <- app_assoc. rewrite (proj2 (strip_pounds_some n _ (q ++ s2)) eq_refl), Hq by exact H2. reflexivity.
    + destruct (Other H) as (p & H1 & H2 & -> & H3). exists (34%N :: p). split; [discriminate|]. split; [left; reflexivity|]. split; [reflexivity|].
      intros s2 Hb. cbn [app raw_scan]. change (34 =? 34)%N with true. cbn iota. rewrite (strip_pounds_none n p s' s2 H2 Ep). apply H3. exact Hb.
  - destruct (Other H) as (p & H1 & H2 & -> & H3). exists (c :: p). split; [discriminate|]. split; [right; exact H2|]. split; [reflexivity|].
    intros s2 Hb. cbn [app raw_scan]. destruct (N.eqb_spec c 34); [contradiction|]. apply H3. exact Hb.
Qed.
(** [f] consumes a non-empty prefix, which it also consumes in front of any break *)
Definition bstable (f : text -> option text) : Prop := forall s s', f s = Some s' ->
  exists p, p <> [] /\ s = p ++ s' /\ forall s2, touch s2 -> f (p ++ s2) = Some s2.
Lemma lex_raw_spec d : bstable (lex_raw d).
Proof.
  intros s s' H. unfold lex_raw, raw_delimiter in H. destruct (count_pounds_spec s) as (n & H1 & H2 & H3). destruct (count_pounds s) as (m, t). cbn [fst snd] in *. subst m.
  destruct t as [|c r]; [discriminate|]. destruct ((c =? 34)%N && Nat.leb n 255) eqn:Ec; [|discriminate].
  destruct (raw_scan_spec d n (List.length r) r s' (le_n _) H) as (p & Hp & Hi & -> & Hq).
  exists (repeat 35%N n ++ c :: p). split; [destruct n; discriminate|]. split; [rewrite H1, <- app_assoc; reflexivity|].
  intros s2 Hb. unfold lex_raw, raw_delimiter. rewrite <- app_assoc. rewrite count_pounds_app; [|exact H3]. cbn [app]. rewrite Ec. apply Hq. exact Hb.
Qed.
Lemma strip_stable p f : bstable f -> bstable (fun s => match strip_prefix p s with Some r => f r | None => None end).
Proof.
  intros Hf s s' H. destruct (strip_prefix p s) as [r|] eqn:E; [|discriminate]. apply strip_prefix_spec in E. subst s.
  destruct (Hf _ _ H) as (q & Hq & -> & H2). exists (p ++ q). split; [destruct p; [exact Hq|discriminate]|]. split; [apply app_assoc|].
  intros s2 Hb. rewrite <- app_assoc, strip_prefix_app. apply H2. exact Hb.
Qed.
Lemma cooked_stable d : bstable (fun r => lex_cooked (List.length r) d r).
Proof.
  intros s s' H. destruct (lex_cooked_spec _ _ _ _ H) as (p & H1 & -> & H2). exists p. split; [exact H1|]. split; [reflexivity|].
  intros s2 Hb. apply H2; [exact Hb|]. rewrite app_length. lia.
Qed.
Lemma strip_snoc p a b (s : text) : a <> b -> strip_prefix (p ++ [a]) (p ++ b :: s) = None.
Proof. intro H. induction p as [|x p IH]; cbn; [destruct (N.eqb_spec a b); [contradiction|reflexivity]|]. rewrite N.eqb_refl. exact IH. Qed.
Lemma lex_string_stable d : bstable (lex_string d).
Proof.
  intros s s' H. unfold lex_string in *. set (p := match d with DStr => [] | DByte => [98%N] | DC => [99%N] end) in *.
  destruct (strip_prefix (p ++ [34%N]) s) as [r|] eqn:E.
  - destruct (strip_stable (p ++ [34%N]) _ (cooked_stable d) s s') as (q & Hq & -> & H2); [rewrite E; exact H|].
    exists q. split; [exact Hq|]. split; [reflexivity|]. intros s2 Hb. specialize (H2 s2 Hb). destruct (strip_prefix (p ++ [34%N]) (q ++ s2)); [exact H2|discriminate].
  - destruct (strip_prefix (p ++ [114%N]) s) as [r|] eqn:E2; [|discriminate].
    pose proof (proj1 (strip_prefix_spec _ _ _) E2) as Hs.
    destruct (lex_raw_spec d r s' H) as (q & Hq & -> & H2). exists ((p ++ [114%N]) ++ q). split; [destruct p; discriminate|]. split; [rewrite <- app_assoc; exact Hs|].
    intros s2 Hb. rewrite <- !app_assoc. cbn [app]. rewrite strip_snoc by discriminate.
    replace (p ++ 114%N :: q ++ s2) with ((p ++ [114%N]) ++ q ++ s2) by (rewrite <- app_assoc; reflexivity). rewrite strip_prefix_app. apply H2. exact Hb.
Qed.
Lemma lex_quoted_stable b : bstable (lex_quoted b).
Proof.
  set (close := fun r : text => match r with c :: r' => if (c =? 39)%N then Some (literal_suffix r') else None | [] => None end).
  assert (C : bstable close).
  { intros s s' H. destruct s as [|c r]; [discriminate|]. cbn in H. destruct (c =? 39)%N eqn:E; [|discriminate]. injection H as <-.
    destruct (literal_suffix_spec r) as (q & Hr & Hq). exists (c :: q). split; [discriminate|]. split; [cbn; congruence|]. intros s2 Hb. cbn. rewrite E, Hq by exact Hb. reflexivity. }
  intros s s' H. unfold lex_quoted in *. fold close in H. destruct s as [|c r]; [discriminate|]. destruct (c =? 92)%N eqn:Ec.
  - destruct r as [|b' r]; [discriminate|]. destruct (b' =? 120)%N eqn:Eb.
    + destruct (lex_x _ r) as [r2|] eqn:Ex; [|discriminate]. destruct (lex_x_spec _ _ _ Ex) as (q & -> & Hq). destruct (C _ _ H) as (p & Hp & -> & H2).
      exists (c :: b' :: q ++ p). split; [discriminate|]. split; [cbn; rewrite <- app_assoc; reflexivity|]. intros s2 Hb. cbn [app]. rewrite Ec, Eb, <- app_assoc, Hq. exact (H2 s2 Hb).
    + destruct ((b' =? 117)%N && negb b) eqn:Eu.
      * destruct (backslash_u r) as [(v, r2)|] eqn:Ex; [|discriminate]. destruct (backslash_u_spec _ _ _ Ex) as (q & -> & Hq). destruct (C _ _ H) as (p & Hp & -> & H2).
        exists (c :: b' :: q ++ p). split; [discriminate|]. split; [cbn; rewrite <- app_assoc; reflexivity|]. intros s2 Hb. cbn [app]. rewrite Ec, Eb, Eu, <- app_assoc, Hq. exact (H2 s2 Hb).
      * destruct (lex_simple DStr b') eqn:Es; [|discriminate]. destruct (C _ _ H) as (p & Hp & -> & H2).
        exists (c :: b' :: p). split; [discriminate|]. split; [reflexivity|]. intros s2 Hb. cbn [app]. rewrite Ec, Eb, Eu, Es. exact (H2 s2 Hb).
  - destruct (b && negb (c <? 128)%N) eqn:En; [discriminate|]. destruct (C _ _ H) as (p & Hp & -> & H2).
    exists (c :: p). split; [discriminate|]. split; [reflexivity|]. intros s2 Hb. cbn [app]. rewrite Ec, En. exact (H2 s2 Hb).
Qed.

(** ** numbers *)
Definition like (rest s2 : text) : Prop := touch s2 \/ match rest, s2 with a :: _, b :: _ => a = b | _, _ => False end.
Ltac ascii_cases H := match type of H with touchc ?c = true =>
    let E := fresh in assert (E : In c [32; 9; 10; 11; 12; 13; 40; 91; 123; 41; 93; 125; 44; 59; 58; 61; 60; 62; 33; 126; 64; 94; 38; 124; 42; 37; 63; 36; 47; 43; 45]%N)
      by (let x := fresh in let Hx := fresh in let Hq := fresh in unfold touchc in H; apply existsb_exists in H as (x & Hx & Hq); apply N.eqb_eq in Hq; subst x; exact Hx);
    clear H; cbn [In] in E; repeat (destruct E as [<-|E]); [..|destruct E] end.
Lemma mantissa_spec s : forall hd hd' at_, mantissa s hd = Some (hd', at_, None) ->
  exists p, s = p ++ at_ /\ forall s2, like at_ s2 -> mantissa (p ++ s2) hd = Some (hd', s2, None).
Proof.
  induction s as [|c r IH]; intros hd hd' at_ H; cbn [mantissa] in H.
  - injection H as <- <-. exists []. split; [reflexivity|]. intros s2 [Hb|F]; [|destruct F]. cbn. destruct s2 as [|a s2]; [reflexivity|]. cbn [touch] in Hb. ascii_cases Hb; reflexivity.
  - assert (Stop : (hd, c :: r, None) = (hd', at_, @None text) -> is_digit c || (c =? 95)%N = false -> ((c =? 46)%N = true -> hd = true) -> ((c =? 101)%N || (c =? 69)%N = true -> (c =? 46)%N = true) ->
       exists p, c :: r = p ++ at_ /\ forall s2, like at_ s2 -> mantissa (p ++ s2) hd = Some (hd', s2, None)).
    { intros E Hd H46 He. injection E as <- <-. exists []. split; [reflexivity|]. intros s2 [Hb|F].
      - cbn. destruct s2 as [|a s2]; [reflexivity|]. cbn [touch] in Hb. ascii_cases Hb; reflexivity.
      - destruct s2 as [|a s2]; [destruct F|]. subst a. cbn [app mantissa]. rewrite Hd. destruct (c =? 46)%N eqn:E46; [rewrite H46 by reflexivity; reflexivity|].
        destruct ((c =? 101)%N || (c =? 69)%N); [discriminate (He eq_refl)|reflexivity]. }
    destruct (is_digit c || (c =? 95)%N) eqn:Ed.
    { destruct (IH _ _ _ H) as (p & -> & Hp). exists (c :: p). split; [reflexivity|]. intros s2 Hl. cbn [app mantissa]. rewrite Ed. apply Hp. exact Hl. }
    destruct (c =? 46)%N eqn:E46.
    { destruct hd. { apply Stop; [congruence|reflexivity|auto|auto]. }
      destruct (match r with c2 :: _ => (c2 =? 46)%N || ident_start c2 | [] => false end) eqn:El; [discriminate|].
      destruct (IH _ _ _ H) as (p & -> & Hp). exists (c :: p). split; [reflexivity|]. intros s2 Hl. cbn [app mantissa]. rewrite Ed, E46.
      assert (El2 : match p ++ s2 with c2 :: _ => (c2 =? 46)%N || ident_start c2 | [] => false end = false).
      { destruct p as [|x p]; [|exact El]. cbn in *. destruct s2 as [|y s2]; [reflexivity|]. destruct Hl as [Hb|F].
        - cbn [touch] in Hb. ascii_cases Hb; reflexivity.
        - destruct at_; [destruct F|]. subst. exact El. }
      rewrite El2. apply Hp. exact Hl. }
    destruct ((c =? 101)%N || (c =? 69)%N) eqn:Ee; [discriminate|]. apply Stop; [congruence|reflexivity|discriminate|discriminate].
Qed.
Lemma mantissa_e_spec s : forall hd hd' at_ after, mantissa s hd = Some (hd', at_, Some after) ->
  exists p e, s = p ++ at_ /\ at_ = e :: after /\ ((e =? 101)%N || (e =? 69)%N) = true /\ forall s2, mantissa (p ++ e :: s2) hd = Some (hd', e :: s2, Some s2).
Proof.
  induction s as [|c r IH]; intros hd hd' at_ after H; cbn [mantissa] in H; [discriminate|].
  destruct (is_digit c || (c =? 95)%N) eqn:Ed.
  { destruct (IH _ _ _ _ H) as (p & e & -> & -> & He & Hp). exists (c :: p), e. split; [reflexivity|]. split; [reflexivity|]. split; [exact He|]. intros s2. cbn [app mantissa]. rewrite Ed. apply Hp. }
  destruct (c =? 46)%N eqn:E46.
  { destruct hd; [discriminate|].
    destruct (match r with c2 :: _ => (c2 =? 46)%N || ident_start c2 | [] => false end) eqn:El; [discriminate|].
    destruct (IH _ _ _ _ H) as (p & e & -> & -> & He & Hp). exists (c :: p), e. split; [reflexivity|]. split; [reflexivity|]. split; [exact He|]. intros s2. cbn [app mantissa]. rewrite Ed, E46.
    assert (El2 : match p ++ e :: s2 with c2 :: _ => (c2 =? 46)%N || ident_start c2 | [] => false end = false) by (destruct p as [|x p]; exact El).
    rewrite El2. apply Hp. }
  destruct ((c =? 101)%N || (c =? 69)%N) eqn:Ee; [|discriminate]. injection H as <- <- <-. exists [], c. split; [reflexivity|]. split; [reflexivity|]. split; [exact Ee|].
  intro s2. cbn [app mantissa]. rewrite Ed, E46, Ee. reflexivity.
Qed.
Lemma exponent_orelse s : forall hs hv before, exponent s hs hv before = orelse (exponent s hs hv None) before.
Proof.
  induction s as [|c r IH]; intros hs hv before; cbn [exponent].
  - destruct hv; reflexivity.
  - destruct ((c =? 43)%N || (c =? 45)%N); [destruct hv, hs; try reflexivity; apply IH|]. destruct (is_digit c); [apply IH|]. destruct (c =? 95)%N; [apply IH|]. destruct hv; reflexivity.
Qed.
(** the exponent was read *)
Lemma exponent_spec s : forall hs hv rest, exponent s hs hv None = Some rest ->
  exists p, s = p ++ rest /\ forall s2, like rest s2 -> exponent (p ++ s2) hs hv None = Some s2.
Proof.
  induction s as [|c r IH]; intros hs hv rest H; cbn [exponent] in H.
  - destruct hv; [|discriminate]. injection H as <-. exists []. split; [reflexivity|]. intros s2 [Hk|F]; [|destruct F].
    destruct s2 as [|a s2]; [reflexivity|]. cbn [touch] in Hk. ascii_cases Hk; reflexivity.
  - assert (Stop : (if hv then Some (c :: r) else None) = Some rest -> is_digit c || (c =? 95)%N = false ->
        exists p, c :: r = p ++ rest /\ forall s2, like rest s2 -> exponent (p ++ s2) hs hv None = Some s2).
    { intros E Hd. destruct hv; [|discriminate]. injection E as <-. exists []. split; [reflexivity|]. apply orb_false_iff in Hd as (Hd1 & Hd2). intros s2 [Hk|F].
      - destruct s2 as [|a s2]; [reflexivity|]. cbn [touch] in Hk. ascii_cases Hk; reflexivity.
      - destruct s2 as [|a s2]; [destruct F|]. subst a. cbn [app exponent]. rewrite Hd1, Hd2. destruct ((c =? 43)%N || (c =? 45)%N); reflexivity. }
    destruct ((c =? 43)%N || (c =? 45)%N) eqn:Es.
    + assert (Hd : is_digit c || (c =? 95)%N = false). { apply orb_true_iff in Es as [Es|Es]; apply N.eqb_eq in Es; subst c; reflexivity. }
      destruct hv; [exact (Stop H Hd)|]. destruct hs; [discriminate|].
      destruct (IH _ _ _ H) as (p & -> & Hp). exists (c :: p). split; [reflexivity|]. intros s2 Hk. cbn [app exponent]. rewrite Es. apply Hp. exact Hk.
    + destruct (is_digit c) eqn:Ed.
      { destruct (IH _ _ _ H) as (p & -> & Hp). exists (c :: p). split; [reflexivity|]. intros s2 Hk. cbn [app exponent]. rewrite Es, Ed. apply Hp. exact Hk. }
      destruct (c =? 95)%N eqn:E95.
      { destruct (IH _ _ _ H) as (p & -> & Hp). exists (c :: p). split; [reflexivity|]. intros s2 Hk. cbn [app exponent]. rewrite Es, Ed, E95. apply Hp. exact Hk. }
      exact (Stop H eq_refl).
Qed.
Lemma exponent_value s : forall hs, exponent s hs true None <> None.
Proof.
  induction s as [|y l IHl]; intros hs H; cbn [exponent] in H; [discriminate|].
  destruct ((y =? 43)%N || (y =? 45)%N); [discriminate|]. destruct (is_digit y); [exact (IHl _ H)|]. destruct (y =? 95)%N; [exact (IHl _ H)|discriminate].
Qed.
(** ... or there is none: then the run of identifier characters after the [e] has no digit where one is needed *)
Lemma exponent_before run : forall rest hs s2, Forall (fun c => xid_continue c = true) run -> touch s2 -> no_sign s2 ->
  exponent (run ++ rest) hs false None = None -> exponent (run ++ s2) hs false None = None.
Proof.
  induction run as [|c run IH]; intros rest hs s2 Hr Hb Hc0 H; cbn [app] in *.
  - destruct s2 as [|a s2]; [reflexivity|]. cbn [touch] in Hb. ascii_cases Hb; try reflexivity; destruct Hc0; congruence.
  - inversion Hr as [|c' r' Hc Hr']; subst. cbn [exponent] in *.
    destruct ((c =? 43)%N || (c =? 45)%N) eqn:Es. { exfalso. apply orb_true_iff in Es as [Es|Es]; apply N.eqb_eq in Es; subst c; discriminate. }
    destruct (is_digit c); [exfalso; exact (exponent_value _ _ H)|].
    destruct (c =? 95)%N; [|reflexivity]. exact (IH rest hs s2 Hr' Hb Hc0 H).
Qed.
Lemma number_end_spec s s' : number_end s = Some s' ->
  match s' with c :: _ => xid_continue c = false | [] => True end /\
  exists p, s = p ++ s' /\ (p = [] \/ sym_ok p) /\ forall s2, touch s2 -> number_end (p ++ s2) = Some s2.
Proof.
  assert (W : forall s2, touch s2 -> word_break s2 = Some s2).
  { intros [|a s2] Hb; [reflexivity|]. cbn in *. rewrite touch_continue by exact Hb. reflexivity. }
  assert (W' : forall s s', word_break s = Some s' -> s = s' /\ match s' with c :: _ => xid_continue c = false | [] => True end).
  { intros [|a s0] s0' H; cbn in H; [injection H as <-; auto|]. destruct (xid_continue a) eqn:E; [discriminate|]. injection H as <-. auto. }
  intro H. destruct s as [|c r]; unfold number_end in H.
  - apply W' in H as (<- & H). split; [exact H|]. exists []. split; [reflexivity|]. split; [auto|]. intros s2 Hb. unfold number_end. cbn [app].
    destruct s2 as [|a s2]; [reflexivity|]. rewrite touch_start by exact Hb. apply W. exact Hb.
  - destruct (ident_start c) eqn:Ec.
    + destruct (ident_not_raw (c :: r)) as [(n, r2)|] eqn:Ei; [|discriminate]. apply W' in H as (-> & H). split; [exact H|].
      apply ident_not_raw_spec in Ei as (E & Hn & _). exists n. split; [exact E|]. split; [auto|]. intros s2 Hb. pose proof Hn as (c2 & r3 & -> & Hc2 & _).
      unfold number_end. cbn [app]. rewrite Hc2. change (c2 :: r3 ++ s2) with ((c2 :: r3) ++ s2). rewrite (ident_not_raw_app _ s2 Hn (touch_nc s2 Hb)). apply W. exact Hb.
    + apply W' in H as (<- & H). split; [exact H|]. exists []. split; [reflexivity|]. split; [auto|]. intros s2 Hb. unfold number_end. cbn [app].
      destruct s2 as [|a s2]; [reflexivity|]. rewrite touch_start by exact Hb. apply W. exact Hb.
Qed.
Lemma like_suffix p rest s2 : (p = [] \/ sym_ok p) -> touch s2 -> like (p ++ rest) (p ++ s2).
Proof. intros [->|(c & r & -> & _)] H; [left; exact H|right; reflexivity]. Qed.
Lemma sym_continue c r : sym_ok (c :: r) -> Forall (fun c => xid_continue c = true) r.
Proof. intros (c' & r' & E & _ & H). injection E as <- <-. exact H. Qed.

Lemma sym_e c : ((c =? 101)%N || (c =? 69)%N) = true -> ident_start c = true.
Proof. intro H. apply orb_true_iff in H as [H|H]; apply N.eqb_eq in H; subst c; reflexivity. Qed.
Lemma float_digits_alt s : float_digits s = match s with
  | c :: r => if is_digit c then match mantissa r false with
      | Some (hd, before, Some after) => orelse (exponent after false false None) (if hd then Some before else None)
      | Some (hd, rest, None) => if hd then Some rest else None
      | None => None end else None
  | [] => None end.
Proof.
  destruct s as [|c r]; [reflexivity|]. cbn [float_digits]. destruct (is_digit c); [|reflexivity]. destruct (mantissa r false) as [[[[|] b] [a|]]|]; try reflexivity; apply exponent_orelse.
Qed.
(** the same for numbers, if no sign comes directly after an exponent mark *)
Definition nstable (f : text -> option text) : Prop := forall s s', f s = Some s' ->
  exists p, p <> [] /\ s = p ++ s' /\ forall s2, touch s2 -> calm p s2 -> f (p ++ s2) = Some s2.
Lemma calm_e c p e r s2 : is_digit c = true -> ((e =? 101)%N || (e =? 69)%N) = true -> calm ((c :: p) ++ e :: r) s2 -> no_sign s2.
Proof.
  intros Hc He [H|[H|H]]; [exact H| |cbn in H; congruence]. exfalso. apply Forall_app in H as (_ & H). inversion H as [|? ? (F1 & F2) _]; subst. apply orb_true_iff in He as [He|He]; apply N.eqb_eq in He; congruence.
Qed.
Lemma lex_float_stable : nstable lex_float.
Proof.
  intros s s' H. unfold lex_float in H. rewrite float_digits_alt in H. destruct s as [|c r]; [discriminate|]. destruct (is_digit c) eqn:Ec; [|discriminate].
  destruct (mantissa r false) as [[[hd at_] [after|]]|] eqn:Em; [| |discriminate].
  - destruct (mantissa_e_spec _ _ _ _ _ Em) as (pm & e & -> & -> & He & Hm).
    destruct (exponent after false false None) as [rest|] eqn:Ex; cbn [orelse] in H.
    + destruct (number_end_spec rest s' H) as (_ & p & -> & Hp & Hq). destruct (exponent_spec _ _ _ _ Ex) as (pe & -> & Hpe).
      exists (c :: pm ++ e :: pe ++ p). split; [discriminate|]. split; [cbn; rewrite <- !app_assoc; cbn; rewrite <- app_assoc; reflexivity|].
      intros s2 Hb Hcm. unfold lex_float. rewrite float_digits_alt. cbn [app]. rewrite Ec, <- app_assoc. cbn [app]. rewrite Hm, <- app_assoc.
      rewrite (Hpe (p ++ s2)); [|apply like_suffix; assumption]. cbn [orelse]. apply Hq. exact Hb.
    + destruct hd; [|discriminate]. destruct (number_end_spec (e :: after) s' H) as (Hnc & p & E & Hp & Hq).
      assert (Hp' : sym_ok p).
      { destruct Hp as [->|Hp]; [|exact Hp]. exfalso. cbn in E. subst s'. clear - Hnc He. apply orb_true_iff in He as [He|He]; apply N.eqb_eq in He; subst e; discriminate. }
      destruct p as [|e' run]; [destruct Hp' as (? & ? & E' & _); discriminate|]. cbn in E. injection E as <- ->.
      exists (c :: pm ++ e :: run). split; [discriminate|]. split; [cbn; rewrite <- app_assoc; reflexivity|].
      intros s2 Hb Hcm. unfold lex_float. rewrite float_digits_alt. cbn [app]. rewrite Ec, <- app_assoc. cbn [app]. rewrite Hm.
      rewrite (exponent_before run s' false s2 (sym_continue _ _ Hp') Hb (calm_e c pm e run s2 Ec He Hcm) Ex). cbn [orelse]. apply (Hq s2 Hb).
  - destruct hd; [|discriminate]. destruct (mantissa_spec _ _ _ _ Em) as (pm & -> & Hm). destruct (number_end_spec _ _ H) as (_ & p & -> & Hp & Hq).
    exists (c :: pm ++ p). split; [discriminate|]. split; [cbn; rewrite <- app_assoc; reflexivity|].
    intros s2 Hb Hcm. unfold lex_float. rewrite float_digits_alt. cbn [app]. rewrite Ec, <- app_assoc. rewrite (Hm (p ++ s2)); [|apply like_suffix; assumption]. apply Hq. exact Hb.
Qed.
Lemma digit_run_spec base s : forall empty rest, digit_run base s empty = Some rest ->
  exists p, s = p ++ rest /\ Forall (fun c => xid_continue c = true) p /\ (empty = true -> p <> []) /\ forall s2, like rest s2 -> digit_run base (p ++ s2) empty = Some s2.
Proof.
  induction s as [|c r IH]; intros empty rest H; cbn [digit_run] in H.
  - destruct empty; [discriminate|]. injection H as <-. exists []. split; [reflexivity|]. split; [constructor|]. split; [discriminate|]. intros s2 [Hk|F]; [|destruct F].
    destruct s2 as [|a s2]; [reflexivity|]. cbn [touch] in Hk. ascii_cases Hk; reflexivity.
  - assert (Step : forall e, digit_run base r e = Some rest -> xid_continue c = true -> (forall s2, digit_run base (c :: s2) empty = digit_run base s2 e) ->
        exists p, c :: r = p ++ rest /\ Forall (fun c => xid_continue c = true) p /\ (empty = true -> p <> []) /\ forall s2, like rest s2 -> digit_run base (p ++ s2) empty = Some s2).
    { intros e E Hc He. destruct (IH e rest E) as (p & -> & H1 & _ & H3). exists (c :: p). split; [reflexivity|]. split; [auto|]. split; [discriminate|].
      intros s2 Hl. cbn [app]. rewrite He. apply H3. exact Hl. }
    assert (Stop : (if empty then None else Some (c :: r)) = Some rest -> digit_run base (c :: r) empty = Some rest ->
        (forall s2, digit_run base (c :: s2) empty = if empty then None else Some (c :: s2)) ->
        exists p, c :: r = p ++ rest /\ Forall (fun c => xid_continue c = true) p /\ (empty = true -> p <> []) /\ forall s2, like rest s2 -> digit_run base (p ++ s2) empty = Some s2).
    { intros E _ He. destruct empty; [discriminate|]. injection E as <-. exists []. split; [reflexivity|]. split; [constructor|]. split; [discriminate|].
      intros s2 [Hk|F]; cbn [app].
      - destruct s2 as [|a s2]; [reflexivity|]. cbn [touch] in Hk. ascii_cases Hk; reflexivity.
      - destruct s2 as [|a s2]; [destruct F|]. subst a. apply He. }
    destruct (is_digit c) eqn:Ed.
    { destruct (digit_val c <? base)%N eqn:Ev; [|discriminate]. apply (Step false H).
      - unfold xid_continue. rewrite Ed. unfold is_digit in Ed. apply andb_true_iff in Ed as (E1 & E2). apply N.leb_le in E1, E2. replace (c <? 128)%N with true by (symmetry; apply N.ltb_lt; lia). rewrite orb_true_r. reflexivity.
      - intro s2. cbn [digit_run]. rewrite Ed, Ev. reflexivity. }
    destruct ((97 <=? c)%N && (c <=? 102)%N) eqn:El.
    { assert (Hc : xid_continue c = true).
      { unfold xid_continue, is_alpha, is_lower. apply andb_true_iff in El as (E1 & E2). apply N.leb_le in E1, E2. replace (c <? 128)%N with true by (symmetry; apply N.ltb_lt; lia).
        replace (97 <=? c)%N with true by (symmetry; apply N.leb_le; lia). replace (c <=? 122)%N with true by (symmetry; apply N.leb_le; lia). reflexivity. }
      destruct (c - 87 <? base)%N eqn:Ev; [apply (Step false H Hc)|apply Stop; [exact H|cbn [digit_run]; rewrite Ed, El, Ev; exact H|]]; intro s2; cbn [digit_run]; rewrite Ed, El, Ev; reflexivity. }
    destruct ((65 <=? c)%N && (c <=? 70)%N) eqn:Eu.
    { assert (Hc : xid_continue c = true).
      { unfold xid_continue, is_alpha, is_upper. apply andb_true_iff in Eu as (E1 & E2). apply N.leb_le in E1, E2. replace (c <? 128)%N with true by (symmetry; apply N.ltb_lt; lia).
        replace (65 <=? c)%N with true by (symmetry; apply N.leb_le; lia). replace (c <=? 90)%N with true by (symmetry; apply N.leb_le; lia). cbn [andb]. rewrite orb_true_r. reflexivity. }
      destruct (c - 55 <? base)%N eqn:Ev; [apply (Step false H Hc)|apply Stop; [exact H|cbn [digit_run]; rewrite Ed, El, Eu, Ev; exact H|]]; intro s2; cbn [digit_run]; rewrite Ed, El, Eu, Ev; reflexivity. }
    destruct (c =? 95)%N eqn:E95.
    { destruct (empty && (base =? 10)%N) eqn:Ee; [discriminate|]. apply (Step empty H).
      - apply N.eqb_eq in E95. subst c. reflexivity.
      - intro s2. cbn [digit_run]. rewrite Ed, El, Eu, E95, Ee. reflexivity. }
    apply Stop; [exact H|cbn [digit_run]; rewrite Ed, El, Eu, E95; exact H|]. intro s2. cbn [digit_run]. rewrite Ed, El, Eu, E95. reflexivity.
Qed.
Lemma strip2_none x p rest s2 : touchc x = false -> p <> [] -> like rest s2 -> strip_prefix [48%N; x] (p ++ rest) = None -> strip_prefix [48%N; x] (p ++ s2) = None.
Proof.
  intros Hx Hp Hl H. destruct (strip_prefix [48%N; x] (p ++ s2)) as [t|] eqn:E; [|reflexivity]. exfalso. apply strip_prefix_spec in E. cbn [app] in E.
  destruct p as [|a [|b p]]; [congruence| |]; cbn [app] in E; injection E as -> E.
  - subst s2. destruct Hl as [Hb|Hl]; [cbn [touch] in Hb; congruence|]. destruct rest as [|z rest]; [destruct Hl|]. subst z.
    change ([48%N] ++ x :: rest) with ([48%N; x] ++ rest) in H. rewrite strip_prefix_app in H. discriminate.
  - subst b. change ((48%N :: x :: p) ++ rest) with ([48%N; x] ++ (p ++ rest)) in H. rewrite strip_prefix_app in H. discriminate.
Qed.
Lemma digits_spec s rest : digits s = Some rest -> exists p, p <> [] /\ s = p ++ rest /\ Forall (fun c => xid_continue c = true) p /\ forall s2, like rest s2 -> digits (p ++ s2) = Some s2.
Proof.
  intro H. unfold digits in H.
  destruct (strip_prefix [48; 120]%N s) as [r|] eqn:E1.
  { apply strip_prefix_spec in E1. destruct (digit_run_spec _ _ _ _ H) as (p & -> & H1 & _ & H2). exists ([48; 120]%N ++ p). split; [discriminate|]. split; [rewrite E1; apply app_assoc|].
    split; [repeat constructor; assumption|]. intros s2 Hl. unfold digits. rewrite <- app_assoc, strip_prefix_app. apply H2. exact Hl. }
  destruct (strip_prefix [48; 111]%N s) as [r|] eqn:E2.
  { apply strip_prefix_spec in E2. destruct (digit_run_spec _ _ _ _ H) as (p & -> & H1 & _ & H2). exists ([48; 111]%N ++ p). split; [discriminate|]. split; [rewrite E2; apply app_assoc|].
    split; [repeat constructor; assumption|]. intros s2 Hl. unfold digits. rewrite <- app_assoc. cbn [strip_prefix app N.eqb Pos.eqb]. apply H2. exact Hl. }
  destruct (strip_prefix [48; 98]%N s) as [r|] eqn:E3.
  { apply strip_prefix_spec in E3. destruct (digit_run_spec _ _ _ _ H) as (p & -> & H1 & _ & H2). exists ([48; 98]%N ++ p). split; [discriminate|]. split; [rewrite E3; apply app_assoc|].
    split; [repeat constructor; assumption|]. intros s2 Hl. unfold digits. rewrite <- app_assoc. cbn [strip_prefix app N.eqb Pos.eqb]. apply H2. exact Hl. }
  destruct (digit_run_spec _ _ _ _ H) as (p & -> & H1 & Hne & H2). exists p. specialize (Hne eq_refl). split; [exact Hne|]. split; [reflexivity|]. split; [exact H1|].
  intros s2 Hl. unfold digits. rewrite (strip2_none 120 p rest s2), (strip2_none 111 p rest s2), (strip2_none 98 p rest s2); try assumption; try reflexivity. apply H2. exact Hl.
Qed.
Lemma sym_all n : sym_ok n -> Forall (fun c => ident_start c = true \/ xid_continue c = true) n.
Proof. intros (c & r & -> & Hc & Hr). constructor; [auto|]. eapply Forall_impl; [|exact Hr]. auto. Qed.

(** characters of words *)
Definition wordc (c : char) : Prop := ident_start c = true \/ xid_continue c = true.
Lemma wordc_not c : wordc c -> (c =? 46)%N = false /\ ((c =? 43)%N || (c =? 45)%N) = false.
Proof.
  intro H. split.
  - apply N.eqb_neq. intros ->. destruct H; discriminate.
  - apply orb_false_iff. split; apply N.eqb_neq; intros ->; destruct H; discriminate.
Qed.
Definition nc (s : text) : Prop := match s with c :: _ => xid_continue c = false | [] => True end.
Lemma digit_continue c : is_digit c = true -> xid_continue c = true.
Proof.
  intro Ed. unfold xid_continue. rewrite Ed. unfold is_digit in Ed. apply andb_true_iff in Ed as (E1 & E2). apply N.leb_le in E1, E2.
  replace (c <? 128)%N with true by (symmetry; apply N.ltb_lt; lia). rewrite orb_true_r. reflexivity.
Qed.
Lemma mantissa_word p : forall s2, Forall wordc p -> touch s2 ->
  (exists at_, mantissa (p ++ s2) false = Some (false, at_, None)) \/
  (exists q e r, p = q ++ e :: r /\ ((e =? 101)%N || (e =? 69)%N) = true /\ forall t, mantissa (p ++ t) false = Some (false, e :: r ++ t, Some (r ++ t))).
Proof.
  induction p as [|c p IH]; intros s2 Hp Hb; cbn [app].
  - left. destruct s2 as [|a s2]; [eexists; reflexivity|]. cbn [touch] in Hb. ascii_cases Hb; eexists; reflexivity.
  - inversion Hp as [|c' p' Hc Hp']; subst. destruct (wordc_not c Hc) as (Hd & _). cbn [mantissa]. rewrite Hd.
    destruct (is_digit c || (c =? 95)%N) eqn:E1.
    + destruct (IH s2 Hp' Hb) as [H|(q & e & r & -> & He & H)]; [left; exact H|]. right. exists (c :: q), e, r. split; [reflexivity|]. split; [exact He|]. exact H.
    + destruct ((c =? 101)%N || (c =? 69)%N) eqn:E2; [|left; eexists; reflexivity]. right. exists [], c, p. split; [reflexivity|]. split; [exact E2|]. reflexivity.
Qed.
Lemma exponent_word p : forall s s2 hs hv rest, Forall wordc p -> nc s -> touch s2 -> no_sign s2 -> exponent (p ++ s2) hs hv None = Some rest ->
  exists q1 q, p = q1 ++ q /\ rest = q ++ s2 /\ exponent (p ++ s) hs hv None = Some (q ++ s).
Proof.
  induction p as [|c p IH]; intros s s2 hs hv rest Hp Hs Hb Hcm H; cbn [app] in *.
  - exists [], []. split; [reflexivity|]. assert (H2 : (if hv then Some s2 else None) = Some rest).
    { destruct s2 as [|a s2]; [exact H|]. cbn [touch] in Hb. ascii_cases Hb; try exact H; destruct Hcm; congruence. }
    destruct hv; [|discriminate]. injection H2 as <-. split; [reflexivity|]. destruct s as [|a s]; [reflexivity|]. cbn [exponent app].
    destruct ((a =? 43)%N || (a =? 45)%N); [reflexivity|]. destruct (is_digit a) eqn:Ed; [apply digit_continue in Ed; cbn in Hs; congruence|].
    destruct (N.eqb_spec a 95) as [->|_]; [discriminate|reflexivity].
  - inversion Hp as [|c' p' Hc Hp']; subst. destruct (wordc_not c Hc) as (_ & Hd). cbn [exponent] in *. rewrite Hd in *.
    assert (Step : forall hv', exponent (p ++ s2) hs hv' None = Some rest -> exists q1 q, c :: p = q1 ++ q /\ rest = q ++ s2 /\ exponent (p ++ s) hs hv' None = Some (q ++ s)).
    { intros hv' H'. destruct (IH s s2 hs hv' rest Hp' Hs Hb Hcm H') as (q1 & q & -> & E & F). exists (c :: q1), q. auto. }
    destruct (is_digit c); [apply Step; exact H|]. destruct (c =? 95)%N; [apply Step; exact H|].
    destruct hv; [|discriminate]. injection H as <-. exists [], (c :: p). auto.
Qed.
Lemma number_end_word q s s2 : Forall wordc q -> nc s -> touch s2 -> number_end (q ++ s2) <> None -> number_end (q ++ s) <> None.
Proof.
  intros Hq Hs Hb H. assert (I : forall c r, ident_start c = true -> match ident_not_raw (c :: r) with Some (_, r) => word_break r | None => None end <> None).
  { intros c r Hc. destruct (ident_not_raw (c :: r)) as [(n, t)|] eqn:E.
    - apply ident_not_raw_spec in E as (_ & _ & E). destruct t as [|a t]; [discriminate|]. cbn. rewrite E. discriminate.
    - cbn in E. rewrite Hc in E. destruct (take_continue r). discriminate. }
  destruct q as [|c q]; cbn [app] in *; unfold number_end in *.
  - destruct s as [|a s]; [discriminate|]. destruct (ident_start a) eqn:E; [apply I; exact E|]. cbn in *. rewrite Hs. discriminate.
  - destruct (ident_start c) eqn:E; [apply I; exact E|]. cbn in *. destruct (xid_continue c); [congruence|discriminate].
Qed.
Lemma lex_float_none p s s2 : Forall wordc p -> p <> [] -> nc s -> touch s2 -> calm p s2 -> lex_float (p ++ s) = None -> lex_float (p ++ s2) = None.
Proof.
  intros Hp Hne Hs Hb Hcm H. destruct (lex_float (p ++ s2)) as [x|] eqn:E; [|reflexivity]. exfalso. unfold lex_float in *. rewrite float_digits_alt in *.
  destruct p as [|c p]; [congruence|]. cbn [app] in *. inversion Hp as [|c' p' Hc Hp']; subst. destruct (is_digit c) eqn:Edc; [|discriminate].
  destruct (mantissa_word p s2 Hp' Hb) as [(at_ & Em)|(q & e & r & -> & He & Em)]; [rewrite Em in E; discriminate|].
  rewrite Em in E, H. assert (Hr : Forall wordc r). { apply Forall_app in Hp' as (_ & Hp'). inversion Hp'. assumption. }
  destruct (exponent (r ++ s2) false false None) as [rest|] eqn:Ex; cbn [orelse] in E; [|discriminate].
  destruct (exponent_word r s s2 false false rest Hr Hs Hb (calm_e c q e r s2 Edc He Hcm) Ex) as (q1 & q2 & -> & -> & Ex'). rewrite Ex' in H. cbn [orelse] in H.
  apply (number_end_word q2 s s2); [apply Forall_app in Hr; tauto|exact Hs|exact Hb|rewrite E; discriminate|exact H].
Qed.
Lemma lex_int_stable s s' : lex_int s = Some s' -> nc s' /\
  exists p, p <> [] /\ Forall wordc p /\ s = p ++ s' /\ forall s2, touch s2 -> lex_int (p ++ s2) = Some s2.
Proof.
  intro H. unfold lex_int in H. destruct (digits s) as [rest|] eqn:Ed; [|discriminate]. destruct (digits_spec _ _ Ed) as (p & Hp & -> & Hc & Hd).
  destruct (number_end_spec _ _ H) as (Hn & q & -> & Hq & He). split; [exact Hn|]. exists (p ++ q). split; [destruct p; [congruence|discriminate]|].
  split.
  { apply Forall_app. split; [eapply Forall_impl; [|exact Hc]; intros a Ha; right; exact Ha|]. destruct Hq as [->|Hq]; [constructor|]. eapply Forall_impl; [|apply sym_all; exact Hq]. auto. }
  split; [apply app_assoc|]. intros s2 Hb. unfold lex_int. rewrite <- app_assoc, (Hd (q ++ s2)); [|apply like_suffix; assumption]. apply He. exact Hb.
Qed.
Lemma lex_float_digit c r s' : lex_float (c :: r) = Some s' -> is_digit c = true.
Proof. unfold lex_float. cbn [float_digits]. destruct (is_digit c); [reflexivity|discriminate]. Qed.
Lemma strip_first x l (c : char) r : (x =? c)%N = false -> strip_prefix (x :: l) (c :: r) = None.
Proof. intro H. cbn. rewrite H. reflexivity. Qed.
Lemma lex_int_digit c r s' : lex_int (c :: r) = Some s' -> is_digit c = true.
Proof.
  intro H. destruct (is_digit c) eqn:Ed; [reflexivity|]. exfalso. unfold lex_int, digits in H.
  assert (E48 : (48 =? c)%N = false). { apply N.eqb_neq. intros <-. discriminate. }
  rewrite !strip_first in H by exact E48. cbn [digit_run] in H. rewrite Ed in H.
  destruct ((97 <=? c)%N && (c <=? 102)%N) eqn:E1.
  { apply andb_true_iff in E1 as (A & _). apply N.leb_le in A. replace (c - 87 <? 10)%N with false in H by (symmetry; apply N.ltb_ge; lia). discriminate. }
  destruct ((65 <=? c)%N && (c <=? 70)%N) eqn:E2.
  { apply andb_true_iff in E2 as (A & _). apply N.leb_le in A. replace (c - 55 <? 10)%N with false in H by (symmetry; apply N.ltb_ge; lia). discriminate. }
  destruct (c =? 95)%N; discriminate.
Qed.
(** the alternatives of a literal are told apart by their first characters *)
Lemma string_first c r s' : lex_string DStr (c :: r) = Some s' -> c = 34%N \/ c = 114%N.
Proof.
  unfold lex_string. cbn [app strip_prefix]. destruct (N.eqb_spec 34 c); [auto|]. destruct (N.eqb_spec 114 c); [auto|discriminate].
Qed.
Lemma byte_string_first c r s' : lex_string DByte (c :: r) = Some s' -> c = 98%N.
Proof.
  unfold lex_string. cbn [app strip_prefix]. destruct (N.eqb_spec 98 c); [auto|discriminate].
Qed.
Lemma c_string_first c r s' : lex_string DC (c :: r) = Some s' -> c = 99%N.
Proof.
  unfold lex_string. cbn [app strip_prefix]. destruct (N.eqb_spec 99 c); [auto|discriminate].
Qed.
Lemma byte_first s s' : lex_byte s = Some s' -> exists r, s = 98%N :: 39%N :: r.
Proof.
  unfold lex_byte. destruct (strip_prefix [98; 39]%N s) as [r|] eqn:E; [|discriminate]. apply strip_prefix_spec in E. exists r. exact E.
Qed.
Lemma character_first c r s' : lex_character (c :: r) = Some s' -> c = 39%N.
Proof. unfold lex_character. cbn [strip_prefix]. destruct (N.eqb_spec 39 c); [auto|discriminate]. Qed.
Lemma lex_byte_stable : bstable lex_byte.
Proof. apply (strip_stable [98; 39]%N (lex_quoted true)), lex_quoted_stable. Qed.
Lemma lex_character_stable : bstable lex_character.
Proof. apply (strip_stable [39%N] (lex_quoted false)), lex_quoted_stable. Qed.
Lemma digit_first c r : is_digit c = true ->
  lex_string DStr (c :: r) = None /\ lex_string DByte (c :: r) = None /\ lex_string DC (c :: r) = None /\ lex_byte (c :: r) = None /\ lex_character (c :: r) = None.
Proof.
  intro H. assert (N : forall x, is_digit x = false -> (x =? c)%N = false) by (intros x Hx; apply N.eqb_neq; intros ->; congruence).
  unfold lex_string, lex_byte, lex_character. cbn [app]. rewrite !strip_first by (apply N; reflexivity). auto.
Qed.
Lemma literal_stable : nstable literal_nocapture.
Proof.
  intros s s' H. unfold literal_nocapture in H.
  destruct (lex_string DStr s) as [x|] eqn:E1; cbn [orelse] in H.
  { injection H as ->. destruct (lex_string_stable _ _ _ E1) as (p & Hp & -> & Hs). exists p. split; [exact Hp|]. split; [reflexivity|]. intros s2 Hb _. unfold literal_nocapture. rewrite Hs by exact Hb. reflexivity. }
  destruct (lex_string DByte s) as [x|] eqn:E2; cbn [orelse] in H.
  { injection H as ->. destruct (lex_string_stable _ _ _ E2) as (p & Hp & -> & Hs). exists p. split; [exact Hp|]. split; [reflexivity|]. intros s2 Hb _.
    destruct p as [|c p]; [congruence|]. cbn [app] in *. pose proof (byte_string_first _ _ _ E2) as ->. unfold literal_nocapture. rewrite Hs by exact Hb. reflexivity. }
  destruct (lex_string DC s) as [x|] eqn:E3; cbn [orelse] in H.
  { injection H as ->. destruct (lex_string_stable _ _ _ E3) as (p & Hp & -> & Hs). exists p. split; [exact Hp|]. split; [reflexivity|]. intros s2 Hb _.
    destruct p as [|c p]; [congruence|]. cbn [app] in *. pose proof (c_string_first _ _ _ E3) as ->. unfold literal_nocapture. rewrite Hs by exact Hb. reflexivity. }
  destruct (lex_byte s) as [x|] eqn:E4; cbn [orelse] in H.
  { injection H as ->. destruct (lex_byte_stable _ _ E4) as (p & Hp & -> & Hs). exists p. split; [exact Hp|]. split; [reflexivity|]. intros s2 Hb _.
    destruct (byte_first _ _ (Hs [] I)) as (r & Er). rewrite app_nil_r in Er. subst p. cbn [app] in *. unfold literal_nocapture. rewrite Hs by exact Hb. reflexivity. }
  destruct (lex_character s) as [x|] eqn:E5; cbn [orelse] in H.
  { injection H as ->. destruct (lex_character_stable _ _ E5) as (p & Hp & -> & Hs). exists p. split; [exact Hp|]. split; [reflexivity|]. intros s2 Hb _.
    destruct p as [|c p]; [congruence|]. cbn [app] in *. pose proof (character_first _ _ _ E5) as ->. unfold literal_nocapture. rewrite Hs by exact Hb. reflexivity. }
  destruct (lex_float s) as [x|] eqn:E6; cbn [orelse] in H.
  { injection H as ->. destruct (lex_float_stable _ _ E6) as (p & Hp & -> & Hs). exists p. split; [exact Hp|]. split; [reflexivity|]. intros s2 Hb Hcm.
    destruct p as [|c p]; [congruence|]. cbn [app] in *. pose proof (lex_float_digit _ _ _ E6) as Hd. unfold literal_nocapture.
    destruct (digit_first c (p ++ s2) Hd) as (-> & -> & -> & -> & ->). rewrite (Hs s2 Hb Hcm). reflexivity. }
  destruct (lex_int_stable _ _ H) as (Hn & p & Hp & Hw & -> & Hs). exists p. split; [exact Hp|]. split; [reflexivity|]. intros s2 Hb Hcm.
  pose proof (lex_float_none p s' s2 Hw Hp Hn Hb Hcm E6) as Hf.
  destruct p as [|c p]; [congruence|]. cbn [app] in *. pose proof (lex_int_digit _ _ _ H) as Hd. unfold literal_nocapture.
  destruct (digit_first c (p ++ s2) Hd) as (-> & -> & -> & -> & ->). rewrite Hf, Hs by exact Hb. reflexivity.
Qed.
End LexFacts.
