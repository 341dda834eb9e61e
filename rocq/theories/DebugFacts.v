(** * DebugFacts: the text determines what was shown (C65). *)
From Verif Require Import Base Float Literal Syn Ast Derive Grammar Spec LitSpec Lexer Offsets LiteralFacts Digits LitText PropSpan HashCalls Debug.
Local Open Scope nat_scope.

(** ** Words *)
(** characters with a meaning in the texts of [core::fmt]: blank, newline, quotes, brackets, comma, colon *)
Definition wordc (c : char) : bool := negb (existsb (N.eqb c) [32; 10; 34; 39; 40; 41; 44; 58; 60; 62; 91; 93; 123; 125]%N).
Definition word (w : text) : Prop := w <> [] /\ forallb wordc w = true.
Definition other (b : text) : Prop := match b with [] => True | c :: _ => wordc c = false end.
Lemma word_split a b x y : forallb wordc a = true -> forallb wordc b = true -> other x -> other y -> a ++ x = b ++ y -> a = b /\ x = y.
Proof.
  revert b. induction a as [|c a IH]; intros [|d b] Ha Hb Hx Hy E; cbn in *.
  - auto.
  - subst x. apply andb_true_iff in Hb as (Hd & _). cbn in Hx. congruence.
  - subst y. apply andb_true_iff in Ha as (Hd & _). cbn in Hy. congruence.
  - injection E as <- E. apply andb_true_iff in Ha as (_ & Ha), Hb as (_ & Hb). destruct (IH b Ha Hb Hx Hy E) as (-> & ->). auto.
Qed.

(** ** Documents *)
Section DocInd.
Variable P : doc -> Prop.
Hypotheses (H1 : forall w, P (GWord w)) (H2 : forall s, P (GStr s)) (H3 : forall c, P (GChar c)) (H4 : forall a b, P (GSpan a b))
  (H5 : forall n fs, Forall (fun f => P (snd f)) fs -> P (GRecord n fs)) (H6 : forall n l, Forall P l -> P (GTuple n l)) (H7 : forall l, Forall P l -> P (GList l))
  (H8 : forall o l r, P o -> P l -> P r -> P (GBinary o l r)).
Fixpoint doc_ind' (d : doc) : P d :=
  match d with
  | GWord w => H1 w | GStr s => H2 s | GChar c => H3 c | GSpan a b => H4 a b
  | GRecord n fs => H5 n fs ((fix go l : Forall (fun f => P (snd f)) l := match l with [] => Forall_nil _ | (f, x) :: r => Forall_cons (f, x) (doc_ind' x) (go r) end) fs)
  | GTuple n l => H6 n l ((fix go l : Forall P l := match l with [] => Forall_nil _ | x :: r => Forall_cons x (doc_ind' x) (go r) end) l)
  | GList l => H7 l ((fix go l : Forall P l := match l with [] => Forall_nil _ | x :: r => Forall_cons x (doc_ind' x) (go r) end) l)
  | GBinary o l r => H8 o l r (doc_ind' o) (doc_ind' l) (doc_ind' r)
  end.
End DocInd.
Definition every {A} (P : A -> Prop) : list A -> Prop := fix go l := match l with x :: r => P x /\ go r | [] => True end.
Lemma every_forall {A} (P : A -> Prop) l : every P l <-> Forall P l.
Proof. induction l; cbn; [split; constructor|]. rewrite IHl. split; [intros (? & ?); constructor; assumption|intro H; inversion H; auto]. Qed.
Fixpoint wf (d : doc) : Prop :=
  match d with
  | GWord w => word w
  | GStr s => forallb valid_char s = true
  | GChar c => valid_char c = true
  | GSpan _ _ => True
  | GRecord n fs => word n /\ fs <> [] /\ every (fun '(f, x) => word f /\ wf x) fs
  | GTuple n l => forallb wordc n = true /\ n <> T "bytes" /\ l <> [] /\ every wf l
  | GList l => every wf l
  | GBinary o x y => wf o /\ wf x /\ wf y
  end.

(** ** The texts once more, with the indentation as a parameter *)
Section Render.
Context {U : unicode}.
Definition nl (k : nat) : text := 10%N :: repeat 32%N (4 * k).
Definition lead (alt : bool) (k : nat) (pad : text) : text := if alt then nl (S k) else pad.
Definition sep (alt : bool) (k : nat) : text := if alt then 44%N :: nl (S k) else T ", ".
Definition trail (alt : bool) (k : nat) (pad : text) : text := if alt then 44%N :: nl k else pad.
Definition join (s : text) (l : list text) : text := match l with [] => [] | x :: r => x ++ flat_map (fun y => s ++ y) r end.
Definition body (alt : bool) (k : nat) (pad : text) (l : list text) : text := lead alt k pad ++ join (sep alt k) l ++ trail alt k pad.
Fixpoint rend (alt : bool) (k : nat) (d : doc) : text :=
  match d with
  | GWord w => w
  | GStr s => debug_str s
  | GChar c => debug_char c
  | GSpan a b => T "bytes(" ++ dec a ++ T ".." ++ dec b ++ T ")"
  | GRecord n fs => n ++ T " {" ++ body alt k (T " ") (map (fun '(f, x) => f ++ T ": " ++ rend alt (S k) x) fs) ++ T "}"
  | GTuple n l => n ++ T "(" ++ body alt k [] (map (rend alt (S k)) l) ++ T ")"
  | GList l => match l with [] => T "[]" | _ => T "[" ++ body alt k [] (map (rend alt (S k)) l) ++ T "]" end
  | GBinary o x y => T "Binary<" ++ rend false 0 o ++ T ">" ++ T " {" ++ body alt k (T " ") [T "lhs: " ++ rend alt (S k) x; T "rhs: " ++ rend alt (S k) y] ++ T "}"
  end.

Lemma show_line d : forall k, show false d = rend false k d.
Proof.
  induction d as [w|s|c|a b|n fs IH|n l IH|l IH|o x y IHo IHx IHy] using doc_ind'; intro k; cbn [show rend]; try reflexivity.
  - f_equal. unfold body, lead, trail, sep, items. change (commas ?l) with (join (T ", ") l). change (T " { ") with (T " {" ++ T " "). change (T " }") with (T " " ++ T "}"). rewrite <- !app_assoc.
    do 2 f_equal. f_equal. f_equal. apply map_ext_Forall. eapply Forall_impl; [|exact IH]. intros (f, x) H. cbn in H. rewrite (H (S k)). reflexivity.
  - do 2 f_equal. unfold body, lead, trail, sep, items. cbn [app]. rewrite app_nil_r. change (commas ?l) with (join (T ", ") l). f_equal. f_equal. apply map_ext_Forall. eapply Forall_impl; [|exact IH]. intros x H. apply H.
  - destruct l as [|z l]; [reflexivity|]. f_equal. unfold body, lead, trail, sep, items. cbn [app]. rewrite app_nil_r. change (commas ?l) with (join (T ", ") l). f_equal. f_equal. apply map_ext_Forall. eapply Forall_impl; [|exact IH]. intros x H. apply H.
  - rewrite (IHo 0), (IHx (S k)), (IHy (S k)). unfold body, lead, trail, sep, items. rewrite <- !app_assoc. reflexivity.
Qed.

(** ** [{:#?}] *)
Definition sp4 : text := T "    ".
Definition shift (s : text) : text := flat_map (fun c => if (c =? 10)%N then 10%N :: sp4 else [c]) s.
Lemma split_nonempty s : exists l ls, split_inclusive (s ++ [10%N]) = l :: ls.
Proof. destruct s as [|c s]; cbn; [eauto|]. destruct (c =? 10)%N; [eauto|]. destruct (split_inclusive _); eauto. Qed.
Lemma indent_line x : indent (x ++ [10%N]) = sp4 ++ shift x ++ [10%N].
Proof.
  unfold indent. induction x as [|c x IH]; [reflexivity|]. cbn [app split_inclusive shift flat_map]. destruct (c =? 10)%N eqn:Ec.
  - apply N.eqb_eq in Ec as ->. cbn [flat_map]. rewrite IH. reflexivity.
  - destruct (split_nonempty x) as (l & ls & El). rewrite El in *. cbn [flat_map] in *. rewrite <- !app_assoc in *. apply app_inv_head in IH. change (T "    ") with sp4. f_equal. cbn [app]. f_equal. exact IH.
Qed.
Lemma shift_app a b : shift (a ++ b) = shift a ++ shift b.
Proof. apply flat_map_app. Qed.
Lemma shift_none s : ~ In 10%N s -> shift s = s.
Proof. induction s as [|c s IH]; intro H; [reflexivity|]. cbn [shift flat_map]. destruct (N.eqb_spec c 10) as [->|]; [exfalso; apply H; cbn; auto|]. cbn [app]. f_equal. apply IH. intro F. apply H. cbn. auto. Qed.
Lemma shift_nl k : shift (nl k) = nl (S k).
Proof.
  unfold nl. cbn [shift flat_map N.eqb Pos.eqb]. change (flat_map (fun c => if (c =? 10)%N then 10%N :: sp4 else [c])) with shift. rewrite shift_none; [|intro F; apply repeat_spec in F; discriminate F].
  replace (4 * S k) with (4 + 4 * k) by lia. rewrite repeat_app. reflexivity.
Qed.
Lemma shift_join s l : shift (join s l) = join (shift s) (map shift l).
Proof.
  destruct l as [|x r]; [reflexivity|]. cbn [join map]. rewrite shift_app. f_equal. induction r as [|y r IH]; [reflexivity|]. cbn [flat_map map]. rewrite !shift_app, IH. reflexivity.
Qed.
Lemma shift_body k pad l : shift (body true k pad l) = body true (S k) pad (map shift l).
Proof.
  unfold body, lead, sep, trail. rewrite !shift_app, shift_join, shift_nl. do 2 f_equal.
  - change (44%N :: nl (S k)) with ([44%N] ++ nl (S k)). rewrite shift_app, shift_nl. reflexivity.
  - change (44%N :: nl k) with ([44%N] ++ nl k). rewrite shift_app, shift_nl. reflexivity.
Qed.
Lemma word_line w : forallb wordc w = true -> ~ In 10%N w.
Proof. intros H F. rewrite forallb_forall in H. specialize (H _ F). discriminate H. Qed.
Lemma hex_lower_line d : (d < 16)%N -> hex_lower d <> 10%N.
Proof. unfold hex_lower. destruct (N.ltb_spec d 10); lia. Qed.
Lemma escape_line c : valid_char c = true -> ~ In 10%N (escape_debug c).
Proof.
  intros Hv. unfold escape_debug.
  destruct (N.eqb_spec c 0); [cbn; intuition congruence|]. destruct (N.eqb_spec c 9); [cbn; intuition congruence|]. destruct (N.eqb_spec c 13); [cbn; intuition congruence|].
  destruct (N.eqb_spec c 10) as [|H10]; [cbn; intuition congruence|]. destruct (_ || _)%bool; [cbn; intros [F|[F|[]]]; congruence|].
  match goal with |- context [if ?b then [c] else _] => destruct b end; [cbn; intros [F|[]]; congruence|]. unfold escape_unicode.
  assert (Hc : (c < 16 ^ N.of_nat 8)%N) by (unfold valid_char in Hv; cbn; lia). destruct (show_hex_spec 8 c [] Hc) as (ds & -> & _ & _ & Hd & _). rewrite app_nil_r. cbn [app].
  intros [F|[F|[F|F]]]; try discriminate F. apply in_app_iff in F as [F|[F|[]]]; [|discriminate F]. apply in_map_iff in F as (d & F & Hi). rewrite Forall_forall in Hd. exact (hex_lower_line d (Hd d Hi) F).
Qed.
Lemma str_line s : forallb valid_char s = true -> ~ In 10%N (debug_str s).
Proof.
  intros H F. unfold debug_str in F. cbn [app] in F. destruct F as [F|F]; [discriminate F|]. apply in_app_iff in F as [F|[F|[]]]; [|discriminate F]. apply in_flat_map in F as (c & Hc & F).
  rewrite forallb_forall in H. specialize (H c Hc). destruct (N.eqb_spec c 39) as [->|]; [destruct F as [F|[]]; discriminate F|]. exact (escape_line c H F).
Qed.
Lemma char_line c : valid_char c = true -> ~ In 10%N (debug_char c).
Proof.
  intros H F. unfold debug_char in F. cbn [app] in F. destruct F as [F|F]; [discriminate F|]. apply in_app_iff in F as [F|[F|[]]]; [|discriminate F].
  destruct (N.eqb_spec c 34) as [->|]; [destruct F as [F|[]]; discriminate F|]. exact (escape_line c H F).
Qed.
Lemma dec_line n : ~ In 10%N (dec n).
Proof. intro F. pose proof (dec_digits n) as H. rewrite forallb_forall in H. specialize (H _ F). discriminate H. Qed.
Lemma span_line a b : ~ In 10%N (T "bytes(" ++ dec a ++ T ".." ++ dec b ++ T ")").
Proof. rewrite !in_app_iff. pose proof (dec_line a). pose proof (dec_line b). cbn. intuition discriminate. Qed.
Lemma rend_line k d : wf d -> ~ In 10%N (rend false k d).
Proof.
  assert (J : forall l, (forall x, In x l -> ~ In 10%N x) -> ~ In 10%N (join (T ", ") l)).
  { intros [|x r] H F; [exact F|]. cbn [join] in F. apply in_app_iff in F as [F|F]; [exact (H x (or_introl eq_refl) F)|]. apply in_flat_map in F as (y & Hy & F). apply in_app_iff in F as [F|F]; [cbn in F; intuition discriminate|].
    exact (H y (or_intror Hy) F). }
  revert k. induction d as [w|s|c|a b|n fs IH|n l IH|l IH|o x y IHo IHx IHy] using doc_ind'; intros k W; cbn [rend wf] in *.
  - apply word_line, W.
  - apply str_line, W.
  - apply char_line, W.
  - apply span_line.
  - destruct W as (Wn & _ & W). apply every_forall in W. unfold body, lead, sep, trail. rewrite !in_app_iff. pose proof (word_line n (proj2 Wn)).
    assert (~ In 10%N (join (T ", ") (map (fun '(f, x) => f ++ T ": " ++ rend false (S k) x) fs))).
    { apply J. intros x Hx. apply in_map_iff in Hx as ((f, d) & <- & Hi). rewrite Forall_forall in IH, W. destruct (W _ Hi) as (Wf & Wd). rewrite !in_app_iff. pose proof (word_line f (proj2 Wf)).
      pose proof (IH _ Hi (S k) Wd). cbn. intuition discriminate. }
    cbn. intuition discriminate.
  - destruct W as (Wn & _ & _ & W). apply every_forall in W. unfold body, lead, sep, trail. rewrite !in_app_iff. pose proof (word_line n Wn).
    assert (~ In 10%N (join (T ", ") (map (rend false (S k)) l))).
    { apply J. intros x Hx. apply in_map_iff in Hx as (d & <- & Hi). rewrite Forall_forall in IH, W. exact (IH _ Hi (S k) (W _ Hi)). }
    cbn. intuition discriminate.
  - apply every_forall in W. assert (~ In 10%N (join (T ", ") (map (rend false (S k)) l))).
    { apply J. intros x Hx. apply in_map_iff in Hx as (d & <- & Hi). rewrite Forall_forall in IH, W. exact (IH _ Hi (S k) (W _ Hi)). }
    destruct l as [|z l]; [cbn; intuition discriminate|]. unfold body, lead, sep, trail. rewrite !in_app_iff. cbn [In T]. cbn. intuition discriminate.
  - destruct W as (Wo & Wx & Wy). specialize (IHo 0 Wo). specialize (IHx (S k) Wx). specialize (IHy (S k) Wy). unfold body, lead, sep, trail, join, flat_map. rewrite !in_app_iff. cbn. intuition discriminate.
Qed.
Lemma shift_rend d : forall k, wf d -> shift (rend true k d) = rend true (S k) d.
Proof.
  induction d as [w|s|c|a b|n fs IH|n l IH|l IH|o x y IHo IHx IHy] using doc_ind'; intros k W; cbn [rend wf] in *.
  - apply shift_none, word_line, W.
  - apply shift_none, str_line, W.
  - apply shift_none, char_line, W.
  - apply shift_none, span_line.
  - destruct W as (Wn & _ & W). apply every_forall in W. rewrite !shift_app, (shift_none n), shift_body by (apply word_line, Wn). rewrite map_map. do 4 f_equal. apply map_ext_Forall.
    eapply Forall_impl; [|exact (Forall_and IH W)]. intros (f, x) (Hx & Wf & Wx). cbn in Hx. rewrite !shift_app, (shift_none f), Hx by (apply word_line, Wf || exact Wx). reflexivity.
  - destruct W as (Wn & _ & _ & W). apply every_forall in W. rewrite !shift_app, (shift_none n), shift_body by (apply word_line, Wn). rewrite map_map. do 4 f_equal. apply map_ext_Forall.
    eapply Forall_impl; [|exact (Forall_and IH W)]. intros x (Hx & Wx). apply Hx, Wx.
  - apply every_forall in W. destruct l as [|z l]; [reflexivity|]. rewrite !shift_app, shift_body, map_map. do 3 f_equal. apply map_ext_Forall.
    eapply Forall_impl; [|exact (Forall_and IH W)]. intros x (Hx & Wx). apply Hx, Wx.
  - destruct W as (Wo & Wx & Wy). rewrite !shift_app, shift_body, (shift_none (rend false 0 o)) by (apply rend_line, Wo). cbn [map]. rewrite !shift_app, IHx, IHy by assumption. reflexivity.
Qed.
Lemma items_lines pad l l' : l <> [] -> Forall2 (fun x y => shift x = y) l l' -> items true l = body true 0 pad l'.
Proof.
  intros Hn F. destruct F as [|x y r r' Hx F]; [contradiction|]. subst y. clear Hn. unfold items, body, lead, trail, sep, nl. cbn [join flat_map].
  assert (I : forall x, indent (x ++ [44; 10]%N) = sp4 ++ shift x ++ [44; 10]%N).
  { intro z. change [44; 10]%N with ([44]%N ++ [10]%N). rewrite app_assoc, indent_line, shift_app, <- app_assoc. reflexivity. }
  rewrite I. change (10%N :: repeat 32%N (4 * 1)) with ([10%N] ++ sp4). change (repeat 32%N (4 * 0)) with (@nil N). rewrite <- !app_assoc. do 3 f_equal. clear x.
  induction F as [|x y r r' Hx F IH]; [reflexivity|]. subst y. cbn [flat_map]. rewrite I, <- !app_assoc. change [44; 10]%N with ([44; 10]%N ++ []) at 1. rewrite <- !app_assoc. cbn [app]. do 2 f_equal. f_equal. cbn [app] in IH. rewrite IH. reflexivity.
Qed.
Lemma show_lines d : wf d -> show true d = rend true 0 d.
Proof.
  induction d as [w|s|c|a b|n fs IH|n l IH|l IH|o x y IHo IHx IHy] using doc_ind'; intro W; cbn [show rend wf] in *; try reflexivity.
  - destruct W as (Wn & Wz & W). apply every_forall in W. rewrite (items_lines (T " ") _ (map (fun '(f, x) => f ++ T ": " ++ rend true 1 x) fs)); [reflexivity|destruct fs; [contradiction|discriminate]|].
    clear Wz. induction fs as [|(f, x) fs IHf]; [constructor|]. apply Forall_cons_iff in IH as (Hx & IH'), W as ((Wf & Wx) & W'). constructor; [|exact (IHf IH' W')].
    cbn in Hx. rewrite !shift_app, (shift_none f), (Hx Wx), shift_rend by (apply word_line, Wf || exact Wx). reflexivity.
  - destruct W as (Wn & _ & Wz & W). apply every_forall in W. rewrite (items_lines [] _ (map (rend true 1) l)); [reflexivity|destruct l; [contradiction|discriminate]|].
    clear Wz. induction l as [|x l IHf]; [constructor|]. inversion IH as [|? ? Hx IH']; inversion W as [|? ? Wx W']; subst. constructor; [|exact (IHf IH' W')]. rewrite (Hx Wx). apply shift_rend, Wx.
  - apply every_forall in W. destruct l as [|z l]; [reflexivity|]. rewrite (items_lines [] _ (map (rend true 1) (z :: l))); [reflexivity|discriminate|].
    revert IH W. generalize (z :: l). clear. intro l. induction l as [|x l IHf]; intros IH W; [constructor|]. inversion IH as [|? ? Hx IH']; inversion W as [|? ? Wx W']; subst. constructor; [|exact (IHf IH' W')]. rewrite (Hx Wx). apply shift_rend, Wx.
  - destruct W as (Wo & Wx & Wy). rewrite (items_lines (T " ") _ [T "lhs: " ++ rend true 1 x; T "rhs: " ++ rend true 1 y]); [rewrite (show_line o 0), <- !app_assoc; reflexivity|discriminate|].
    repeat constructor; rewrite shift_app; [rewrite (IHx Wx), shift_rend by exact Wx|rewrite (IHy Wy), shift_rend by exact Wy]; reflexivity.
Qed.

(** ** The text determines the document *)
(** what may follow an item *)
Definition stop (r : text) : Prop := match r with [] => True | c :: r' => In c [44; 41; 93; 62]%N \/ (c = 32%N /\ exists r'', r' = 125%N :: r'') end.
Lemma stop_other r : stop r -> other r.
Proof. destruct r as [|c r]; cbn; [auto|]. intros [[<-|[<-|[<-|[<-|[]]]]]|(-> & _)]; reflexivity. Qed.
Definition head (d : doc) : text :=
  match d with GWord w => w | GSpan _ _ => T "bytes" | GRecord n _ | GTuple n _ => n | GBinary _ _ _ => T "Binary" | _ => [] end.
Definition tail (alt : bool) (k : nat) (d : doc) : text :=
  match d with
  | GWord w => []
  | GStr s => debug_str s
  | GChar c => debug_char c
  | GSpan a b => T "(" ++ dec a ++ T ".." ++ dec b ++ T ")"
  | GRecord n fs => T " {" ++ body alt k (T " ") (map (fun '(f, x) => f ++ T ": " ++ rend alt (S k) x) fs) ++ T "}"
  | GTuple n l => T "(" ++ body alt k [] (map (rend alt (S k)) l) ++ T ")"
  | GList l => match l with [] => T "[]" | _ => T "[" ++ body alt k [] (map (rend alt (S k)) l) ++ T "]" end
  | GBinary o x y => T "<" ++ rend false 0 o ++ T ">" ++ T " {" ++ body alt k (T " ") [T "lhs: " ++ rend alt (S k) x; T "rhs: " ++ rend alt (S k) y] ++ T "}"
  end.
Lemma rend_split alt k d : rend alt k d = head d ++ tail alt k d.
Proof. destruct d; cbn [rend head tail app]; try reflexivity. rewrite app_nil_r. reflexivity. Qed.
Lemma head_word d : wf d -> forallb wordc (head d) = true.
Proof. destruct d; cbn [wf head]; try reflexivity; intro W; apply W. Qed.
Lemma tail_other alt k d r : stop r -> other (tail alt k d ++ r).
Proof.
  intro S. destruct d; cbn [tail]; try reflexivity.
  - apply stop_other, S.
  - destruct l; reflexivity.
Qed.
Lemma not_close alt k d r r' : wf d -> rend alt k d ++ r <> 93%N :: r'.
Proof.
  intros W E. rewrite rend_split, <- app_assoc in E. assert (H := head_word d W). destruct (head d) as [|c w] eqn:Eh.
  - destruct d; cbn [head wf tail] in *; try discriminate Eh; try discriminate E.
    + subst w. destruct W as (W & _). contradiction.
    + destruct l; discriminate E.
  - cbn in H, E. injection E as -> _. discriminate H.
Qed.
(** strings and characters are read back as in source texts *)
Lemma str_read s : forall f out rest, forallb valid_char s = true -> List.length s < f ->
  cooked f false (flat_map (fun c => if (c =? 39)%N then [c] else escape_debug c) s ++ 34%N :: rest) out = Some (rev out ++ s, rest).
Proof.
  induction s as [|c r IH]; intros f out rest Hv Hf.
  - destruct f; [lia|]. cbn. rewrite app_nil_r. reflexivity.
  - cbn in Hv. apply andb_true_iff in Hv as (Hc & Hr). cbn [List.length] in Hf. destruct f as [|f]; [lia|]. cbn [flat_map]. rewrite <- app_assoc.
    replace (rev out ++ c :: r) with (rev (c :: out) ++ r) by (cbn; rewrite <- app_assoc; reflexivity).
    destruct (N.eqb_spec c 39) as [->|].
    + rewrite <- (IH f (39%N :: out) rest Hr ltac:(lia)). cbn [app]. apply cooked_raw; discriminate.
    + rewrite cooked_escape_debug by exact Hc. apply IH; [exact Hr|lia].
Qed.
Lemma str_text_inj s s' r r' : forallb valid_char s = true -> forallb valid_char s' = true -> debug_str s ++ r = debug_str s' ++ r' -> s = s' /\ r = r'.
Proof.
  intros H H' E. unfold debug_str in E. rewrite <- !app_assoc in E. cbn [app] in E. injection E as E.
  pose proof (str_read s (S (List.length s + List.length s')) [] r H ltac:(lia)) as A. pose proof (str_read s' (S (List.length s + List.length s')) [] r' H' ltac:(lia)) as B.
  rewrite E, B in A. cbn in A. injection A as <- <-. auto.
Qed.
Lemma char_read c r : valid_char c = true -> quoted_char false ((if (c =? 34)%N then [c] else escape_debug c) ++ 39%N :: r) = Some (c, r).
Proof.
  intro Hv. apply quoted_read. destruct (N.eqb_spec c 34) as [->|H]; [apply q_plain; [cbn; intros [H|[H|[H|[H|[H|[]]]]]]; discriminate|discriminate]|].
  destruct (escape_debug_cases c Hv) as [He|(-> & Hn)]; [apply q_escape; exact He|]. apply q_plain; [|discriminate]. intro F. apply Hn. cbn in F |- *. tauto.
Qed.
Lemma char_text_inj c c' r r' : valid_char c = true -> valid_char c' = true -> debug_char c ++ r = debug_char c' ++ r' -> c = c' /\ r = r'.
Proof.
  intros H H' E. unfold debug_char in E. rewrite <- !app_assoc in E. cbn [app] in E. injection E as E.
  pose proof (char_read c r H) as A. rewrite E, char_read in A by exact H'. injection A as <- <-. auto.
Qed.
(** lists of items *)
Lemma join_inj {A} (R : A -> text) (sp : text) : (forall r, stop (sp ++ r)) -> forall l1 l2 c1 c2, l1 <> [] -> l2 <> [] -> stop c1 -> stop c2 ->
  (forall r, sp ++ r <> c1) -> (forall r, sp ++ r <> c2) ->
  (forall x y r r', In x l1 -> In y l2 -> stop r -> stop r' -> R x ++ r = R y ++ r' -> x = y /\ r = r') ->
  join sp (map R l1) ++ c1 = join sp (map R l2) ++ c2 -> l1 = l2 /\ c1 = c2.
Proof.
  intros Ss l1 l2 c1 c2 N1 N2 S1 S2 D1 D2. destruct l1 as [|x l1]; [contradiction|]. destruct l2 as [|y l2]; [contradiction|]. intros H E. cbn [map join] in E. rewrite <- !app_assoc in E.
  assert (St : forall l c, stop c -> stop (flat_map (fun y => sp ++ y) (map R l) ++ c)). { intros [|z l] c Sc; [exact Sc|]. cbn [map flat_map]. rewrite <- !app_assoc. apply Ss. }
  apply H in E as (<- & E); [|cbn; auto|cbn; auto|auto|auto].
  assert (G : l1 = l2 /\ c1 = c2); [|destruct G as (-> & ->); auto].
  assert (H' : forall x y r r', In x l1 -> In y l2 -> stop r -> stop r' -> R x ++ r = R y ++ r' -> x = y /\ r = r') by (intros a b r r' Ha Hb; apply H; cbn; auto).
  clear H N1 N2 x. revert l2 E H'. induction l1 as [|x l1 IH]; intros [|y l2] E H.
  - auto.
  - exfalso. cbn [map flat_map app] in E. rewrite <- !app_assoc in E. exact (D1 _ (eq_sym E)).
  - exfalso. cbn [map flat_map app] in E. rewrite <- !app_assoc in E. exact (D2 _ E).
  - cbn [map flat_map] in E. rewrite <- !app_assoc in E. apply app_inv_head in E. apply H in E as (<- & E); [|cbn; auto|cbn; auto|auto|auto].
    destruct (IH l2 E) as (<- & ->); [|auto]. intros a b r r' Ha Hb. apply H; cbn; auto.
Qed.
Definition closing (pad close : text) : Prop := (pad = T " " /\ close = T "}") \/ (pad = [] /\ (close = T ")" \/ close = T "]")).
Lemma body_inj {A} (R : A -> text) alt k pad close l1 l2 r1 r2 : closing pad close -> l1 <> [] -> l2 <> [] ->
  (forall x y r r', In x l1 -> In y l2 -> stop r -> stop r' -> R x ++ r = R y ++ r' -> x = y /\ r = r') ->
  (body alt k pad (map R l1) ++ close) ++ r1 = (body alt k pad (map R l2) ++ close) ++ r2 -> l1 = l2 /\ r1 = r2.
Proof.
  intros C N1 N2 H E. unfold body in E. rewrite <- !app_assoc in E. apply app_inv_head in E.
  assert (D : forall r, stop (trail alt k pad ++ close ++ r) /\ forall r', sep alt k ++ r' <> trail alt k pad ++ close ++ r).
  { intro r. unfold trail, sep. destruct alt.
    - split; [cbn; auto|]. intros r' F. cbn [app] in F. injection F as F. change (repeat 32%N (4 * S k) ++ r' = repeat 32%N (4 * k) ++ close ++ r) in F. replace (4 * S k) with (4 * k + 4) in F by lia. rewrite repeat_app, <- app_assoc in F. apply app_inv_head in F.
      destruct C as [(-> & ->)|(-> & [-> | ->])]; discriminate F.
    - destruct C as [(-> & ->)|(-> & [-> | ->])]; cbn; (split; [eauto 10|intros r' F; discriminate F]). }
  assert (Ss : forall r, stop (sep alt k ++ r)) by (intro r; unfold sep; destruct alt; cbn; auto).
  destruct (join_inj R (sep alt k) Ss l1 l2 _ _ N1 N2 (proj1 (D r1)) (proj1 (D r2)) (proj2 (D r1)) (proj2 (D r2)) H E) as (-> & F). split; [reflexivity|]. apply app_inv_head in F. apply app_inv_head in F. exact F.
Qed.
Definition fixed (d1 : doc) : Prop := forall d2 alt k r1 r2, wf d1 -> wf d2 -> stop r1 -> stop r2 -> rend alt k d1 ++ r1 = rend alt k d2 ++ r2 -> d1 = d2 /\ r1 = r2.
Lemma rend_inj d1 : fixed d1.
Proof.
  induction d1 as [w|s|c|a b|n fs IH|n l IH|l IH|o x y IHo IHx IHy] using doc_ind'; intros d2 alt k r1 r2 W1 W2 S1 S2 E;
    rewrite !rend_split, <- !app_assoc in E; apply word_split in E as (Eh & E); try (apply head_word; assumption); try (apply tail_other; assumption).
  - destruct d2 as [w'|s'|c'|a' b'|n' fs'|n' l'|l'|o' x' y']; cbn [head tail app] in Eh, E; try (subst r1; exfalso; cbn in S1; destruct S1 as [[S1|[S1|[S1|[S1|[]]]]]|(S1 & ? & S1')]; discriminate).
    + subst. auto.
    + exfalso. destruct l'; subst r1; cbn in S1; destruct S1 as [[S1|[S1|[S1|[S1|[]]]]]|(S1 & ? & S1')]; discriminate.
  - destruct d2 as [w'|s'|c'|a' b'|n' fs'|n' l'|l'|o' x' y']; cbn [head tail app] in Eh, E; try discriminate E; try discriminate Eh.
    + subst w'. destruct W2 as (W2 & _). contradiction.
    + apply str_text_inj in E as (-> & ->); auto.
    + destruct l'; discriminate E.
  - destruct d2 as [w'|s'|c'|a' b'|n' fs'|n' l'|l'|o' x' y']; cbn [head tail app] in Eh, E; try discriminate E; try discriminate Eh.
    + subst w'. destruct W2 as (W2 & _). contradiction.
    + apply char_text_inj in E as (-> & ->); auto.
    + destruct l'; discriminate E.
  - destruct d2 as [w'|s'|c'|a' b'|n' fs'|n' l'|l'|o' x' y']; cbn [head tail app] in Eh, E; try discriminate E; try discriminate Eh.
    + exfalso. subst r2. cbn in S2. destruct S2 as [[S2|[S2|[S2|[S2|[]]]]]|(S2 & _)]; discriminate.
    + rewrite <- !app_assoc in E. cbn [T app] in E. injection E as E. apply digits_prefix in E as (Ea & E); try apply dec_digits; try reflexivity. cbn in E. injection E as E.
      apply digits_prefix in E as (Eb & E); try apply dec_digits; try reflexivity. cbn in E. injection E as ->. apply dec_inj in Ea, Eb. subst. auto.
    + exfalso. destruct W2 as (_ & W2 & _). exact (W2 (eq_sym Eh)).
  - destruct d2 as [w'|s'|c'|a' b'|n' fs'|n' l'|l'|o' x' y']; cbn [head tail app] in Eh, E; try discriminate E.
    + exfalso. subst r2. cbn in S2. destruct S2 as [[S2|[S2|[S2|[S2|[]]]]]|(S2 & ? & S2')]; discriminate.
    + cbn [wf] in W1, W2. destruct W1 as (_ & N1 & W1), W2 as (_ & N2 & W2). apply every_forall in W1, W2. rewrite Forall_forall in IH, W1, W2. rewrite <- (app_assoc (T " {")), <- (app_assoc (T " {") _ r2) in E. apply app_inv_head in E.
      apply body_inj in E as (-> & ->); [subst; auto|left; auto|exact N1|exact N2|]. intros (f, x) (g, y) r r' Hx Hy Sr Sr' H. destruct (W1 _ Hx) as (Wf & Wx), (W2 _ Hy) as (Wg & Wy).
      rewrite <- !app_assoc in H. apply word_split in H as (<- & H); [|apply Wf|apply Wg|reflexivity|reflexivity]. apply app_inv_head in H. apply (IH _ Hx) in H as (<- & ->); cbn; auto.
    + destruct l'; discriminate E.
  - destruct d2 as [w'|s'|c'|a' b'|n' fs'|n' l'|l'|o' x' y']; cbn [head tail app] in Eh, E; try discriminate E.
    + exfalso. subst r2. cbn in S2. destruct S2 as [[S2|[S2|[S2|[S2|[]]]]]|(S2 & ? & S2')]; discriminate.
    + exfalso. destruct W1 as (_ & W1 & _). exact (W1 Eh).
    + cbn [wf] in W1, W2. destruct W1 as (_ & _ & N1 & W1), W2 as (_ & _ & N2 & W2). apply every_forall in W1, W2. rewrite Forall_forall in IH, W1, W2. rewrite <- (app_assoc (T "(")), <- (app_assoc (T "(") _ r2) in E. apply app_inv_head in E.
      apply body_inj in E as (-> & ->); [subst; auto|right; auto|exact N1|exact N2|]. intros x y r r' Hx Hy Sr Sr' H. apply (IH _ Hx) in H as (<- & ->); auto.
    + destruct l'; discriminate E.
  - destruct d2 as [w'|s'|c'|a' b'|n' fs'|n' l'|l'|o' x' y']; cbn [head tail app] in Eh, E; try (destruct l; discriminate E).
    + exfalso. subst w'. destruct W2 as (W2 & _). contradiction.
    + cbn [wf] in W1, W2. apply every_forall in W1, W2. destruct l as [|x l], l' as [|y l'].
      * cbn in E. injection E as ->. auto.
      * exfalso. cbn [T app] in E. injection E as E. unfold body, lead in E. destruct alt; [discriminate E|]. cbn [app join map] in E. rewrite <- !app_assoc in E. inversion W2; subst. symmetry in E. exact (not_close _ _ _ _ _ ltac:(eassumption) E).
      * exfalso. cbn [T app] in E. injection E as E. unfold body, lead in E. destruct alt; [discriminate E|]. cbn [app join map] in E. rewrite <- !app_assoc in E. inversion W1; subst. exact (not_close _ _ _ _ _ ltac:(eassumption) E).
      * rewrite <- (app_assoc (T "[")), <- (app_assoc (T "[") _ r2) in E. apply app_inv_head in E. rewrite Forall_forall in IH, W1, W2.
        apply body_inj in E as (-> & ->); [auto|right; auto|discriminate|discriminate|]. intros u v r r' Hx Hy Sr Sr' H. apply (IH _ Hx) in H as (<- & ->); auto.
  - destruct d2 as [w'|s'|c'|a' b'|n' fs'|n' l'|l'|o' x' y']; cbn [head tail app] in Eh, E; try discriminate E; try discriminate Eh.
    + exfalso. subst r2. cbn in S2. destruct S2 as [[S2|[S2|[S2|[S2|[]]]]]|(S2 & _)]; discriminate.
    + cbn [wf] in W1, W2. destruct W1 as (Wo & Wx & Wy), W2 as (Wo' & Wx' & Wy'). rewrite <- !(app_assoc (T "<")) in E. apply app_inv_head in E. rewrite <- !(app_assoc (rend false 0 _)) in E. apply IHo in E as (<- & E); [|assumption|assumption|cbn; auto 8|cbn; auto 8].
      rewrite <- !(app_assoc (T ">")) in E. apply app_inv_head in E. rewrite <- !(app_assoc (T " {")) in E. apply app_inv_head in E.
      set (R := fun '(f, d) => f ++ T ": " ++ rend alt (S k) d).
      change [T "lhs: " ++ rend alt (S k) x; T "rhs: " ++ rend alt (S k) y] with (map R [(T "lhs", x); (T "rhs", y)]) in E.
      change [T "lhs: " ++ rend alt (S k) x'; T "rhs: " ++ rend alt (S k) y'] with (map R [(T "lhs", x'); (T "rhs", y')]) in E.
      apply body_inj in E as (E & ->); [injection E as <- <-; auto|left; auto|discriminate|discriminate|].
      assert (V : forall f, f = T "lhs" \/ f = T "rhs" -> forallb wordc f = true) by (intros f [-> | ->]; reflexivity).
      intros (f, u) (g, v) r r' Hu Hv Sr Sr' H. unfold R in H. rewrite <- !app_assoc in H. 
      assert (Vf : forallb wordc f = true /\ wf u /\ fixed u) by (destruct Hu as [Hu|[Hu|[]]]; injection Hu as <- <-; auto).
      assert (Vg : forallb wordc g = true /\ wf v) by (destruct Hv as [Hv|[Hv|[]]]; injection Hv as <- <-; auto).
      destruct Vf as (Vf & Wu & Fu), Vg as (Vg & Wv). apply word_split in H as (<- & H); [|assumption|assumption|reflexivity|reflexivity]. apply app_inv_head in H. apply Fu in H as (<- & ->); auto.
Qed.
(** Both forms. *)
Lemma show_inj alt d1 d2 : wf d1 -> wf d2 -> show alt d1 = show alt d2 -> d1 = d2.
Proof.
  intros W1 W2 E. apply (f_equal (fun s => s ++ [])) in E. destruct alt; [rewrite !show_lines in E by assumption|rewrite !(show_line _ 0) in E]; apply rend_inj in E as (E & _); try assumption; exact I.
Qed.
End Render.
