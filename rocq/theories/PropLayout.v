(** * Property C50: the layout of formatted tokens, piece by piece. *)
From Verif Require Import Base Float Literal Spec Fmt FmtFacts Lexer Examples.
Local Open Scope nat_scope.

(** ** Specification: a token stream as a flat sequence of pieces, and what stands between two
    neighbouring pieces. *)
Inductive piece :=
| PWord (t : text)                   (** an identifier or a literal *)
| POp (c : char) (s : spacing)       (** an operator character *)
| POpen (d : delim) | PClose (d : delim)   (** the two delimiters of a visible group *)
| PBegin | PEnd.                     (** the two ends of an invisible group *)
Fixpoint pieces1 (t : tt) : list piece :=
  match t with
  | TIdent n _ => [PWord n]
  | TLit r _ => [PWord r]
  | TPunct c s _ => [POp c s]
  | TGroup d _ l =>
      let inner := (fix go l := match l with [] => [] | x :: r => pieces1 x ++ go r end) l in
      match d with
      | DNone => [PBegin] ++ inner ++ [PEnd]
      | _ => [POpen d] ++ inner ++ [PClose d]
      end
  end.
Definition pieces : list tt -> list piece := fix go l := match l with [] => [] | x :: r => pieces1 x ++ go r end.

(** with an indentation string a new line is started between [a] and [b] ... *)
Definition breaks (a b : piece) : bool :=
  match a, b with
  | POpen _, PClose _ => false           (* an empty group stays together *)
  | PBegin, _ | _, PEnd => false
  | POpen _, _ | _, PClose _ => true     (* after an opening, before a closing delimiter *)
  | PClose _, _ => true                  (* after a group *)
  | POp c Alone, _ => (c =? 44)%N || (c =? 59)%N   (* after a comma or a semicolon *)
  | _, _ => false
  end.
(** ... and otherwise there is one space, except at these places *)
Definition tight (a b : piece) : bool :=
  match a, b with
  | POpen _, _ | _, PClose _ | PBegin, _ | _, PEnd => true
  | POp _ Joint, _ => true
  | _, _ => false
  end.
(** the indentation at a nesting depth *)
Definition indentation (ind : option text) (depth : nat) : text :=
  match ind with Some s => List.concat (repeat s depth) | None => [] end.
(** what is written between [a] and [b]; [depth] is that of [b] *)
Definition between (ind : option text) (depth : nat) (a b : piece) : text :=
  match ind with
  | Some _ => if breaks a b then [10%N] ++ indentation ind depth else if tight a b then [] else [32%N]
  | None => if tight a b then [] else [32%N]
  end.
(** what is written for a piece: an invisible group repeats the indentation of the line it is in *)
Definition shown (ind : option text) (depth : nat) (a : piece) : text :=
  match a with
  | PWord t => t
  | POp c _ => [c]
  | POpen DParen => [40%N] | PClose DParen => [41%N]
  | POpen DBracket => [91%N] | PClose DBracket => [93%N]
  | POpen DBrace => [123%N] | PClose DBrace => [125%N]
  | POpen DNone | PClose DNone => []
  | PBegin => indentation ind depth
  | PEnd => []
  end.
(** the depth of a piece, and of what follows it, given the depth of what precedes it *)
Definition depth_of (depth : nat) (b : piece) : nat := match b with PClose _ => pred depth | _ => depth end.
Definition depth_after (depth : nat) (b : piece) : nat := match b with POpen _ => S depth | PClose _ => pred depth | _ => depth end.
(** the pieces after the piece [a] *)
Fixpoint laid_after (ind : option text) (depth : nat) (a : piece) (l : list piece) : text :=
  match l with
  | [] => []
  | b :: r => between ind (depth_of depth b) a b ++ shown ind (depth_of depth b) b ++ laid_after ind (depth_after depth b) b r
  end.
Definition laid (ind : option text) (depth : nat) (l : list piece) : text :=
  match l with
  | [] => []
  | a :: r => shown ind depth a ++ laid_after ind (depth_after depth a) a r
  end.

(** ** Proof *)
Definition depth_over (depth : nat) (l : list piece) : nat := fold_left depth_after l depth.
Lemma last_app_ne {A} (x : list A) b y a : last (x ++ b :: y) a = last y b.
Proof.
  revert a. induction x as [|c x IH]; intro a.
  - cbn [app]. destruct y as [|e y]; [reflexivity|]. cbn [last]. revert e. induction y as [|f y IHy]; intro e; [reflexivity|]. cbn [last]. apply IHy.
  - cbn [app last]. destruct (x ++ b :: y) as [|e z] eqn:E; [destruct x; discriminate|]. apply IH.
Qed.
Lemma laid_after_app ind x b y : forall depth a, laid_after ind depth a (x ++ b :: y) =
  laid_after ind depth a x ++ between ind (depth_of (depth_over depth x) b) (last x a) b ++
  shown ind (depth_of (depth_over depth x) b) b ++ laid_after ind (depth_after (depth_over depth x) b) b y.
Proof.
  induction x as [|c x IH]; intros depth a; [reflexivity|]. cbn [app laid_after]. rewrite IH, <- !app_assoc.
  unfold depth_over. cbn [fold_left]. replace (last (c :: x) a) with (last x c); [reflexivity|]. symmetry. apply (last_app_ne []).
Qed.
Definition starts (p : piece) : bool := match p with PClose _ | PEnd => false | _ => true end.
Definition ends (p : piece) : bool := match p with POpen _ | PBegin => false | _ => true end.
(** the shape of the pieces of one token tree *)
Lemma pieces1_group d s l : pieces1 (TGroup d s l) = match d with DNone => [PBegin] ++ pieces l ++ [PEnd] | _ => [POpen d] ++ pieces l ++ [PClose d] end.
Proof. reflexivity. Qed.
Lemma depth_over_app depth x y : depth_over depth (x ++ y) = depth_over (depth_over depth x) y.
Proof. unfold depth_over. apply fold_left_app. Qed.
Lemma depth_pieces1 t : forall depth, depth_over depth (pieces1 t) = depth.
Proof.
  induction t as [n s|c g s|r s|d s l IH] using tt_ind'; intro depth; try reflexivity.
  assert (G : forall depth, depth_over depth (pieces l) = depth).
  { clear - IH. induction IH as [|x r Hx Hr IH]; intro depth; [reflexivity|]. cbn [pieces]. rewrite depth_over_app, Hx. apply IH. }
  rewrite pieces1_group. destruct d; rewrite !depth_over_app, G; reflexivity.
Qed.
Lemma depth_pieces l : forall depth, depth_over depth (pieces l) = depth.
Proof. induction l as [|x r IH]; intro depth; [reflexivity|]. cbn [pieces]. rewrite depth_over_app, depth_pieces1. apply IH. Qed.
Lemma pieces1_ends t : exists a r, pieces1 t = a :: r /\ starts a = true /\ ends (last r a) = true.
Proof.
  destruct t as [n s|c g s|r s|d s l]; cbn [pieces1]; try (do 2 eexists; split; [reflexivity|split; reflexivity]).
  rewrite <- pieces1_group with (s := s), pieces1_group.
  destruct d; (do 2 eexists; split; [reflexivity|]; split; [reflexivity|]); rewrite last_last; reflexivity.
Qed.
Lemma pieces_ends t l : exists a r, pieces (t :: l) = a :: r /\ starts a = true /\ ends (last r a) = true.
Proof.
  revert t. induction l as [|u l IH]; intro t; cbn [pieces]; destruct (pieces1_ends t) as (a & r & -> & Ha & Hr).
  - rewrite app_nil_r. eauto.
  - destruct (IH u) as (b & q & Hb & _ & Hq). cbn [pieces] in Hb. rewrite Hb. exists a, (r ++ b :: q). split; [reflexivity|]. split; [exact Ha|].
    rewrite last_app_ne. exact Hq.
Qed.
Lemma laid_app ind depth a r b q : laid ind depth ((a :: r) ++ b :: q) =
  laid ind depth (a :: r) ++ between ind (depth_of (depth_over depth (a :: r)) b) (last r a) b ++
  match b with PClose _ => shown ind (depth_of (depth_over depth (a :: r)) b) b ++ laid_after ind (pred (depth_over depth (a :: r))) b q
  | _ => laid ind (depth_over depth (a :: r)) (b :: q) end.
Proof. cbn [app laid]. rewrite laid_after_app, <- !app_assoc. unfold depth_over. cbn [fold_left]. destruct b; reflexivity. Qed.

Definition pre (sp : spacing) : text := match sp with Joint => [] | Alone => [32%N] end.
Lemma concat_pre sp : List.concat (match sp with Joint => [] | Alone => [[32%N]] end) = pre sp.
Proof. destruct sp; reflexivity. Qed.
Lemma concat_indent ind lvl : List.concat (c_indent ind lvl) = indentation ind lvl.
Proof. destruct ind; reflexivity. Qed.
Lemma concat_ident n : List.concat (c_ident n) = n.
Proof. unfold c_ident. destruct n as [|a [|b r]]; cbn; rewrite ?app_nil_r; try reflexivity. destruct (_ && _); cbn; rewrite ?app_nil_r; reflexivity. Qed.

Section Tree.
Context (ind : option text).
(** what [c_tree] writes, in terms of the layout *)
Definition tree_spec (t : tt) : Prop := forall lvl sp,
  (List.concat (fst (c_tree ind lvl t false sp)) = pre sp ++ laid ind lvl (pieces1 t)) /\
  (forall b, starts b = true -> List.concat (fst (c_tree ind lvl t true sp)) ++ pre (snd (c_tree ind lvl t true sp)) =
     pre sp ++ laid ind lvl (pieces1 t) ++ between ind lvl (last (pieces1 t) PEnd) b).
Lemma loop_spec l : Forall tree_spec l -> forall lvl sp, List.concat (c_loop ind lvl l sp) = match l with [] => [] | _ => pre sp ++ laid ind lvl (pieces l) end.
Proof.
  induction 1 as [|x r Hx Hr IH]; intros lvl sp; [reflexivity|]. rewrite c_loop_cons. destruct (Hx lvl sp) as (H0 & H1). destruct r as [|y r].
  - destruct (c_tree ind lvl x false sp) as (a, sp'). cbn [c_loop pieces fst] in *. rewrite !app_nil_r. exact H0.
  - destruct (pieces_ends y r) as (b & q & Hb & Hs & _). specialize (H1 b Hs). specialize (IH lvl (snd (c_tree ind lvl x true sp))).
    destruct (c_tree ind lvl x true sp) as (c, sp'). cbn [fst snd] in *. rewrite concat_app, IH. rewrite app_assoc, H1, <- !app_assoc. f_equal.
    change (pieces (x :: y :: r)) with (pieces1 x ++ pieces (y :: r)). rewrite Hb. destruct (pieces1_ends x) as (e & f & He & _ & _). rewrite He.
    rewrite laid_app, <- He, depth_pieces1, He.
    replace (last (e :: f) PEnd) with (last f e). 2: { change (e :: f) with ([] ++ e :: f). symmetry. apply last_app_ne. }
    destruct b; try discriminate Hs; reflexivity.
Qed.
Lemma tree_ok t : tree_spec t.
Proof.
  induction t as [n s|c g s|r s|d s l IH] using tt_ind'; intros lvl sp.
  - cbn [c_tree fst snd pieces1 laid shown laid_after last pre]. rewrite concat_app, concat_pre, concat_ident, !app_nil_r. split; [reflexivity|].
    intros b Hb. rewrite <- app_assoc. do 2 f_equal. unfold between. destruct ind, b; try discriminate Hb; reflexivity.
  - cbn [c_tree pieces1 laid shown laid_after last]. rewrite andb_false_r, andb_true_r. cbn [fst]. rewrite concat_app, concat_pre. split; [reflexivity|].
    intros b Hb. destruct (((c =? 44)%N || (c =? 59)%N)) eqn:Hc; destruct g; cbn [spacing_eqb andb fst snd pre];
      rewrite ?app_nil_r, !concat_app, concat_pre, ?concat_indent, <- ?app_assoc; f_equal; cbn [List.concat app]; f_equal;
      unfold between, breaks, tight; destruct ind, b; try discriminate Hb; cbn [c_newline List.concat app indentation]; rewrite ?Hc, ?app_nil_r; reflexivity.
  - cbn [c_tree fst snd pieces1 laid shown laid_after last pre]. rewrite concat_app, concat_pre. cbn [List.concat]. rewrite !app_nil_r. split; [reflexivity|].
    intros b Hb. rewrite <- app_assoc. do 2 f_equal. unfold between. destruct ind, b; try discriminate Hb; reflexivity.
  - assert (Hin : forall lvl, List.concat (c_write ind lvl l) = indentation ind lvl ++ laid ind lvl (pieces l)).
    { intro lv. unfold c_write. rewrite concat_app, concat_indent, (loop_spec l IH). destruct l; reflexivity. }
    rewrite !c_tree_group, pieces1_group. cbv zeta. destruct (delimiters d) as [(o, c)|] eqn:Hd.
    + set (body := match l with [] => [] | _ => _ end).
      assert (Hb : pre sp ++ [o] ++ List.concat body ++ [c] = pre sp ++ laid ind lvl ([POpen d] ++ pieces l ++ [PClose d])).
      { f_equal. cbn [app laid]. subst body. destruct l as [|x l'].
        - destruct d; try discriminate Hd; injection Hd as <- <-; unfold between; destruct ind; reflexivity.
        - destruct (pieces_ends x l') as (e & f & He & Hs & Hl). rewrite !concat_app, Hin, concat_indent, He. cbn [app]. cbn [laid_after depth_after].
          assert (depth_over (S lvl) (e :: f) = S lvl) as Hdep by (rewrite <- He; apply depth_pieces).
          unfold depth_over in Hdep. cbn [fold_left] in Hdep.
          assert (depth_of (S lvl) e = S lvl) as -> by (destruct e; try discriminate Hs; reflexivity).
          rewrite laid_after_app. unfold depth_over. rewrite Hdep. cbn [depth_of pred laid_after]. cbn [laid].
          assert (between ind (S lvl) (POpen d) e = List.concat (c_newline ind Joint) ++ indentation ind (S lvl)) as ->.
          { unfold between. destruct ind, e; try discriminate Hs; reflexivity. }
          assert (between ind lvl (last f e) (PClose d) = List.concat (c_newline ind Joint) ++ indentation ind lvl) as ->.
          { unfold between. destruct ind, (last f e); try discriminate Hl; cbn [breaks tight c_newline List.concat app]; try reflexivity; destruct s0; reflexivity. }
          destruct d; try discriminate Hd; injection Hd as <- <-; cbn [shown]; rewrite <- !app_assoc; cbn [app]; rewrite <- ?app_assoc; reflexivity. }
      assert (Hv : d <> DNone) by (intros ->; discriminate Hd).
      assert (Hp : match d with DNone => [PBegin] ++ pieces l ++ [PEnd] | _ => [POpen d] ++ pieces l ++ [PClose d] end = [POpen d] ++ pieces l ++ [PClose d]) by (destruct d; congruence).
      rewrite Hp. cbn [fst snd pre]. split.
      * rewrite !concat_app, concat_pre. exact Hb.
      * intros b Hs. rewrite (app_assoc (pre sp) (laid _ _ _)), <- Hb, app_nil_r. rewrite !concat_app, concat_pre, concat_indent, <- !app_assoc. do 4 f_equal.
        cbn [app]. change (POpen d :: pieces l ++ [PClose d]) with ((POpen d :: pieces l) ++ [PClose d]). rewrite last_last.
        unfold between. destruct ind, b; try discriminate Hs; reflexivity.
    + destruct d; try discriminate Hd. cbn [fst snd]. rewrite concat_app, concat_pre, Hin.
      assert (Hb : indentation ind lvl ++ laid ind lvl (pieces l) = laid ind lvl ([PBegin] ++ pieces l ++ [PEnd])).
      { cbn [app laid shown depth_after]. f_equal. destruct l as [|x l'].
        - cbn. unfold between. destruct ind; reflexivity.
        - destruct (pieces_ends x l') as (e & f & He & Hs & Hl). rewrite He. cbn [app laid_after laid].
          assert (depth_of lvl e = lvl) as -> by (destruct e; try discriminate Hs; reflexivity).
          rewrite laid_after_app. cbn [laid_after depth_of shown].
          assert (between ind lvl PBegin e = []) as -> by (unfold between; destruct ind, e; try discriminate Hs; reflexivity).
          match goal with |- context [between ind ?n (last f e) PEnd] => assert (between ind n (last f e) PEnd = []) as -> end.
          { unfold between. destruct ind, (last f e); try discriminate Hl; try reflexivity; destruct s0; reflexivity. }
          rewrite !app_nil_r. reflexivity. }
      rewrite Hb. split; [reflexivity|]. intros b Hs. rewrite <- app_assoc. do 2 f_equal.
      cbn [app]. change (PBegin :: pieces l ++ [PEnd]) with ((PBegin :: pieces l) ++ [PEnd]). rewrite last_last.
      unfold between. destruct ind, b; try discriminate Hs; reflexivity.
Qed.
End Tree.

(** Whatever the indentation, the starting level and the tokens: the text is the indentation of
    the starting level followed by the pieces, with exactly [between] between neighbours. *)
Theorem C50_layout : forall ind lvl l, text_with ind lvl l = indentation ind lvl ++ laid ind lvl (pieces l).
Proof.
  intros ind lvl l. rewrite text_with_calls. unfold c_write. rewrite concat_app, concat_indent, loop_spec.
  - destruct l; reflexivity.
  - apply Forall_forall. intros t _. apply tree_ok.
Qed.
Print Assumptions C50_layout.

(** ** Lines *)
(** the number of groups around the piece [b] that comes after the pieces [ps] *)
Definition opening (p : piece) : bool := match p with POpen _ => true | _ => false end.
Definition closing (p : piece) : bool := match p with PClose _ => true | _ => false end.
Definition count (f : piece -> bool) (l : list piece) : nat := List.length (filter f l).
Definition enclosing (ps : list piece) (b : piece) : nat := count opening ps - count closing (ps ++ [b]).
(** the number of neighbours with a line break between them *)
Fixpoint line_breaks (l : list piece) : nat :=
  match l with
  | a :: ((b :: _) as r) => (if breaks a b then 1 else 0) + line_breaks r
  | _ => 0
  end.
(** no line break within a token or the indentation *)
Definition one_line_tokens (ind : text) (l : list tt) : Prop :=
  ~ In 10%N ind /\ (forall w, In (PWord w) (pieces l) -> ~ In 10%N w) /\ (forall c s, In (POp c s) (pieces l) -> c <> 10%N).

Lemma count_app f x y : count f (x ++ y) = count f x + count f y.
Proof. unfold count. rewrite filter_app, app_length. reflexivity. Qed.
Lemma prefix_app {A} (p q x y : list A) : p ++ q = x ++ y -> (exists z, x = p ++ z) \/ (exists z, p = x ++ z /\ z ++ q = y).
Proof.
  revert x. induction p as [|a p IH]; intros x H; [left; exists x; reflexivity|].
  destruct x as [|b x]; cbn in H; [right; exists (a :: p); split; [reflexivity|exact H]|].
  injection H as -> H. destruct (IH _ H) as [(z & ->)|(z & -> & Hz)]; [left; exists z; reflexivity|right; exists z; split; [reflexivity|exact Hz]].
Qed.
Definition good (l : list piece) : Prop := forall p q lvl, l = p ++ q -> depth_over lvl p + count closing p = lvl + count opening p.
Lemma good_app x y : good x -> good y -> good (x ++ y).
Proof.
  intros Hx Hy p q lvl H. symmetry in H. destruct (prefix_app _ _ _ _ H) as [(z & ->)|(z & -> & Hz)]; [eapply Hx; reflexivity|].
  rewrite depth_over_app, !count_app. specialize (Hx x [] lvl (eq_sym (app_nil_r x))). specialize (Hy z q (depth_over lvl x) (eq_sym Hz)). lia.
Qed.
Lemma good_pieces1 t : good (pieces1 t).
Proof.
  induction t as [n s|c g s|r s|d s l IH] using tt_ind';
    try (intros p q lvl H; destruct p as [|a [|b p]]; [reflexivity| |destruct p; discriminate H]; injection H as <- _; reflexivity).
  assert (G : good (pieces l)).
  { clear - IH. induction IH as [|x r Hx Hr IH]; [intros [|] q lvl H; [reflexivity|discriminate H]|]. cbn [pieces]. apply good_app; assumption. }
  rewrite pieces1_group.
  assert (forall d, good ([POpen d] ++ pieces l ++ [PClose d])).
  { intros e p q lvl H. destruct p as [|a p]; [reflexivity|]. injection H as <- H. symmetry in H. unfold depth_over. cbn [fold_left depth_after].
    change (count closing (POpen e :: p)) with (count closing p). change (count opening (POpen e :: p)) with (S (count opening p)).
    destruct (prefix_app _ _ _ _ H) as [(z & Hz)|(z & -> & Hz)]; [specialize (G p z (S lvl) Hz); unfold depth_over in G; lia|].
    specialize (G (pieces l) [] (S lvl) (eq_sym (app_nil_r _))). unfold depth_over in *. rewrite fold_left_app, !count_app.
    destruct z as [|f z]; [cbn in *; lia|]. injection Hz as -> Hz. destruct z; [|discriminate Hz]. cbn.
    rewrite (depth_pieces l (S lvl)) in G || idtac. pose proof (depth_pieces l (S lvl)) as Hd. unfold depth_over in Hd. rewrite Hd in *. cbn. lia. }
  assert (good ([PBegin] ++ pieces l ++ [PEnd])).
  { apply good_app; [|apply good_app; [exact G|]]; (intros p q lvl E; destruct p as [|a [|b p]]; [reflexivity| |destruct p; discriminate E]; injection E as <- _; reflexivity). }
  destruct d; auto.
Qed.
Lemma good_pieces l : good (pieces l).
Proof. induction l as [|x r IH]; [intros [|] q lvl H; [reflexivity|discriminate H]|]. cbn [pieces]. apply good_app; [apply good_pieces1|exact IH]. Qed.
Lemma depth_of_enclosing l lvl ps b qs : pieces l = ps ++ b :: qs -> depth_of (depth_over lvl ps) b = lvl + enclosing ps b.
Proof.
  intro H. pose proof (good_pieces l ps (b :: qs) lvl H) as H1. pose proof (good_pieces l ps (b :: qs) 0 H) as H0.
  assert (H2 : pieces l = (ps ++ [b]) ++ qs) by (rewrite H, <- app_assoc; reflexivity).
  pose proof (good_pieces l _ _ lvl H2) as H3. pose proof (good_pieces l _ _ 0 H2) as H4. rewrite depth_over_app, !count_app in *.
  unfold enclosing. rewrite count_app. destruct b; cbn in *; lia.
Qed.

Lemma newline_after x y u v : ~ In 10%N x -> x ++ y = u ++ 10%N :: v -> exists u', u = x ++ u' /\ y = u' ++ 10%N :: v.
Proof.
  intros Hn H. destruct (prefix_app _ _ _ _ H) as [(z & ->)|(z & -> & Hz)]; [|].
  - exists z. split; [reflexivity|]. rewrite <- app_assoc in H. apply app_inv_head in H. exact H.
  - destruct z as [|c z]; [exists []; cbn in Hz; rewrite !app_nil_r in *; split; [reflexivity|exact Hz]|].
    injection Hz as -> _. exfalso. apply Hn, in_app_iff. right. left. reflexivity.
Qed.
Lemma indentation_no_newline ind n : ~ In 10%N ind -> ~ In 10%N (indentation (Some ind) n).
Proof. intros H Hi. cbn in Hi. apply in_concat in Hi as (x & Hx & Hi). apply repeat_spec in Hx as ->. auto. Qed.
Lemma shown_no_newline ind l depth b : one_line_tokens ind l -> In b (pieces l) -> ~ In 10%N (shown (Some ind) depth b).
Proof.
  intros (Hi & Hw & Hp) Hin. destruct b as [w|c s|d|d| |]; cbn [shown].
  - apply Hw, Hin.
  - intros [E|[]]. eapply Hp; eassumption.
  - destruct d; cbn; intuition discriminate.
  - destruct d; cbn; intuition discriminate.
  - apply indentation_no_newline, Hi.
  - auto.
Qed.
Lemma newline_in_rest ind : ~ In 10%N ind -> forall r depth a u v, (forall depth b, In b r -> ~ In 10%N (shown (Some ind) depth b)) ->
  laid_after (Some ind) depth a r = u ++ 10%N :: v ->
  exists ps b qs, r = ps ++ b :: qs /\ breaks (last ps a) b = true /\ u = laid_after (Some ind) depth a ps /\
    v = indentation (Some ind) (depth_of (depth_over depth ps) b) ++ shown (Some ind) (depth_of (depth_over depth ps) b) b ++
        laid_after (Some ind) (depth_after (depth_over depth ps) b) b qs.
Proof.
  intros Hi. induction r as [|b r IH]; intros depth a u v Hs H; [destruct u; discriminate H|]. cbn [laid_after] in H.
  assert (Hgap : breaks a b = true -> between (Some ind) (depth_of depth b) a b = 10%N :: indentation (Some ind) (depth_of depth b)) by (unfold between; intros ->; reflexivity).
  assert (Hno : forall x, ~ In 10%N x -> x ++ shown (Some ind) (depth_of depth b) b ++ laid_after (Some ind) (depth_after depth b) b r = u ++ 10%N :: v ->
    exists ps c qs, b :: r = ps ++ c :: qs /\ breaks (last ps a) c = true /\
    (exists u', u = x ++ u' /\ (x ++ u' = x ++ shown (Some ind) (depth_of depth b) b ++ match ps with [] => [] | _ :: ps' => laid_after (Some ind) (depth_after depth b) b ps' end)) /\ ps <> [] /\
    v = indentation (Some ind) (depth_of (depth_over depth ps) c) ++ shown (Some ind) (depth_of (depth_over depth ps) c) c ++
        laid_after (Some ind) (depth_after (depth_over depth ps) c) c qs).
  { intros x Hx E. destruct (newline_after _ _ _ _ Hx E) as (u1 & -> & E1). destruct (newline_after _ _ _ _ (Hs _ b (or_introl eq_refl)) E1) as (u2 & -> & E2).
    destruct (IH _ _ _ _ (fun d c Hc => Hs d c (or_intror Hc)) E2) as (ps & c & qs & -> & Hb & -> & ->).
    exists (b :: ps), c, qs. split; [reflexivity|]. split.
    { replace (last (b :: ps) a) with (last ps b); [exact Hb|]. symmetry. apply (last_app_ne []). }
    split; [eexists; split; reflexivity|]. split; [discriminate|reflexivity]. }
  destruct (breaks a b) eqn:Hb.
  - rewrite Hgap in H by reflexivity. destruct u as [|c u].
    + injection H as H. exists [], b, r. cbn [app last laid_after]. unfold depth_over. cbn [fold_left]. rewrite Hb. repeat split. symmetry. exact H.
    + cbn [app] in H. injection H as <- H.
      assert (Hx : ~ In 10%N (indentation (Some ind) (depth_of depth b))) by (apply indentation_no_newline, Hi).
      destruct (newline_after _ _ _ _ Hx H) as (u1 & -> & E1). destruct (newline_after _ _ _ _ (Hs _ b (or_introl eq_refl)) E1) as (u2 & -> & E2).
      destruct (IH _ _ _ _ (fun d c Hc => Hs d c (or_intror Hc)) E2) as (ps & c & qs & -> & Hb' & -> & ->).
      exists (b :: ps), c, qs. split; [reflexivity|]. split.
      { replace (last (b :: ps) a) with (last ps b); [exact Hb'|]. symmetry. apply (last_app_ne []). }
      cbn [laid_after]. rewrite Hgap by reflexivity. split; reflexivity.
  - assert (Hx : ~ In 10%N (between (Some ind) (depth_of depth b) a b)).
    { unfold between. rewrite Hb. destruct (tight a b); cbn; intuition discriminate. }
    destruct (Hno _ Hx H) as (ps & c & qs & Er & Hb' & (u' & -> & Eu) & Hne & ->).
    exists ps, c, qs. split; [exact Er|]. split; [exact Hb'|]. split; [|reflexivity].
    destruct ps as [|e ps]; [congruence|]. injection Er as <- Er. cbn [laid_after]. exact Eu.
Qed.

(** Every line break in the formatted text stands between two neighbouring pieces that want one;
    the line before it ends with a piece, and the new line begins with one copy of the indentation
    for every group around its first piece, immediately followed by that piece. *)
Theorem C50_every_line_is_indented_by_depth : forall ind lvl l u v, one_line_tokens ind l ->
  text_with (Some ind) lvl l = u ++ [10%N] ++ v ->
  exists ps a b qs, pieces l = ps ++ [a; b] ++ qs /\ breaks a b = true /\
    (exists before, u = before ++ shown (Some ind) (lvl + enclosing ps a) a) /\
    (exists after, v = List.concat (repeat ind (lvl + enclosing (ps ++ [a]) b)) ++ shown (Some ind) (lvl + enclosing (ps ++ [a]) b) b ++ after).
Proof.
  intros ind lvl l u v Hl H. rewrite C50_layout in H. cbn [app] in H. destruct Hl as (Hi & Hw & Hp).
  assert (Hl : one_line_tokens ind l) by (split; auto).
  destruct (newline_after _ _ _ _ (indentation_no_newline ind lvl Hi) H) as (u1 & -> & E1).
  destruct (pieces l) as [|a r] eqn:Hps; [destruct u1; discriminate E1|]. cbn [laid] in E1.
  assert (Hin : forall depth b, In b (a :: r) -> ~ In 10%N (shown (Some ind) depth b)).
  { intros depth b Hb. apply (shown_no_newline ind l); [exact Hl|]. rewrite Hps. exact Hb. }
  destruct (newline_after _ _ _ _ (Hin _ a (or_introl eq_refl)) E1) as (u2 & -> & E2).
  destruct (newline_in_rest ind Hi _ _ _ _ _ (fun d c Hc => Hin d c (or_intror Hc)) E2) as (ps & b & qs & -> & Hb & -> & ->).
  assert (Hd : depth_of (depth_over (depth_after lvl a) ps) b = lvl + enclosing (a :: ps) b).
  { rewrite <- (depth_of_enclosing l lvl (a :: ps) b qs); [reflexivity|exact Hps]. }
  rewrite Hd.
  destruct (exists_last (l := a :: ps)) as (ps0 & z & Hz); [discriminate|].
  assert (Hlast : last ps a = z).
  { rewrite <- (last_app_ne [] a ps a). cbn [app]. rewrite Hz. apply last_last. }
  exists ps0, z, b, qs. split; [|split; [rewrite <- Hlast; exact Hb|]].
  { change (a :: ps ++ b :: qs) with ((a :: ps) ++ b :: qs). rewrite Hz, <- app_assoc. reflexivity. }
  rewrite <- Hz. split; [|eexists; reflexivity].
  assert (Hza : lvl + enclosing ps0 z = depth_of (depth_over lvl ps0) z).
  { symmetry. apply (depth_of_enclosing l lvl ps0 z (b :: qs)). rewrite Hps. change (a :: ps ++ b :: qs) with ((a :: ps) ++ b :: qs). rewrite Hz, <- app_assoc. reflexivity. }
  rewrite Hza. destruct ps0 as [|c ps0].
  - injection Hz as -> ->. cbn [laid_after]. unfold depth_over. cbn [fold_left]. exists (indentation (Some ind) lvl). rewrite app_nil_r.
    replace (depth_of lvl z) with lvl; [reflexivity|].
    destruct l as [|x l]; [discriminate Hps|]. destruct (pieces_ends x l) as (e & f & He & Hs & _). rewrite He in Hps. injection Hps as -> _. destruct z; try discriminate Hs; reflexivity.
  - injection Hz as -> ->. rewrite laid_after_app. cbn [laid_after]. rewrite app_nil_r. unfold depth_over. cbn [fold_left].
    rewrite !app_assoc. eexists. reflexivity.
Qed.
Print Assumptions C50_every_line_is_indented_by_depth.

Lemma count_newline_app x y : count_occ N.eq_dec (x ++ y) 10%N = count_occ N.eq_dec x 10%N + count_occ N.eq_dec y 10%N.
Proof. apply count_occ_app. Qed.
Lemma breaks_counted ind r : ~ In 10%N ind -> forall depth a, (forall depth b, In b r -> ~ In 10%N (shown (Some ind) depth b)) ->
  count_occ N.eq_dec (laid_after (Some ind) depth a r) 10%N = line_breaks (a :: r).
Proof.
  intro Hi. induction r as [|b r IH]; intros depth a Hs; [reflexivity|]. cbn [laid_after]. rewrite !count_newline_app.
  rewrite (proj1 (count_occ_not_In N.eq_dec (shown _ _ b) 10%N)) by (apply Hs; left; reflexivity).
  rewrite IH by (intros; apply Hs; right; assumption). change (line_breaks (a :: b :: r)) with ((if breaks a b then 1 else 0) + line_breaks (b :: r)). cbn [plus]. f_equal.
  unfold between. destruct (breaks a b).
  - cbn [app]. rewrite count_occ_cons_eq by reflexivity. rewrite (proj1 (count_occ_not_In N.eq_dec _ 10%N)) by (apply indentation_no_newline, Hi). reflexivity.
  - destruct (tight a b); reflexivity.
Qed.
(** ... and there are exactly as many line breaks as neighbours that want one *)
Theorem C50_number_of_lines : forall ind lvl l, one_line_tokens ind l ->
  count_occ N.eq_dec (text_with (Some ind) lvl l) 10%N = line_breaks (pieces l).
Proof.
  intros ind lvl l Hl. rewrite C50_layout, count_newline_app.
  rewrite (proj1 (count_occ_not_In N.eq_dec (indentation (Some ind) lvl) 10%N) (indentation_no_newline ind lvl (proj1 Hl))).
  pose proof (shown_no_newline ind l) as Hn. destruct (pieces l) as [|a r] eqn:Hps; [reflexivity|]. cbn [laid plus]. rewrite count_newline_app.
  rewrite (proj1 (count_occ_not_In N.eq_dec (shown _ _ a) 10%N)).
  2: { apply Hn; [exact Hl|]. left. reflexivity. }
  apply breaks_counted; [exact (proj1 Hl)|]. intros depth b Hb. apply Hn; [exact Hl|]. right. exact Hb.
Qed.
Print Assumptions C50_number_of_lines.

Lemma one_line_check ind l : existsb (N.eqb 10) ind = false ->
  forallb (fun p => match p with PWord w => negb (existsb (N.eqb 10) w) | POp c _ => negb (N.eqb 10 c) | _ => true end) (pieces l) = true -> one_line_tokens ind l.
Proof.
  intros Hi H. rewrite forallb_forall in H.
  assert (G : forall w, existsb (N.eqb 10) w = false -> ~ In 10%N w).
  { intros w Hw Hin. assert (existsb (N.eqb 10) w = true); [|congruence]. apply existsb_exists. exists 10%N. split; [exact Hin|reflexivity]. }
  split; [|split].
  - apply G, Hi.
  - intros w Hw. apply G. specialize (H _ Hw). cbv beta iota in H. apply Bool.negb_true_iff in H. exact H.
  - intros c sp Hc ->. specialize (H _ Hc). discriminate H.
Qed.
(** ** The documented examples (util.rs:507-628).  [quote!] gives an operator of several characters
    joint spacing inside and any other operator [Alone]; the lexer does the same with these texts. *)
Section WithTables.
Local Existing Instance ascii_only.
Definition lexed (t : text) : list tt := match lex 1 t with LOk l => l | _ => [] end.
Definition doc_pretty : list tt := lexed (T "[ [ 7.43 * { zzz ( 3333 + ""52"" - 'a / [ foo bar || & baz ; ] ) != 5 ; ww ; { } () + [
    // this is just a comment so the brackets are actually empty
  ] 6 <<= 78 >>= 951 , $ foo $ bar # ! [ attribute ] } , x , y ] ]").
Example C50_ex_pretty : to_text false doc_pretty = T "[
    [
        7.43 * {
            zzz (
                3333 + ""52"" - 'a / [
                    foo bar || & baz ;
                ]
            )
            != 5 ;
            ww ;
            {}
            ()
            + []
            6 <<= 78 >>= 951 ,
            $ foo $ bar # ! [
                attribute
            ]
        }
        ,
        x ,
        y
    ]
]".
Proof. vm_compute. reflexivity. Qed.
Definition doc_compact : list tt := lexed (T "[ ( 7.43 * { zzz ( 3333 + ""52"" - 'a / [ foo || & baz ; ] ) != 5 ; ww ; { } () + [ ] } , x , y ) ]").
Example C50_ex_compact : to_text true doc_compact = T "[(7.43 * {zzz (3333 + ""52"" - 'a / [foo || & baz ;]) != 5 ; ww ; {} () + []} , x , y)]".
Proof. vm_compute. reflexivity. Qed.
Example C50_ex_lines : line_breaks (pieces doc_pretty) = 22 /\ one_line_tokens (T "    ") doc_pretty.
Proof. split; [vm_compute; reflexivity|]. apply one_line_check; vm_compute; reflexivity. Qed.
(** an invisible group repeats the indentation in the middle of a line *)
Theorem C50_invisible_group_indents : exists l, pieces l = [POpen DParen; PWord (T "a"); PBegin; PWord (T "b"); PEnd; PClose DParen] /\
  to_text false l = T "(
    a     b
)".
Proof. exists [TGroup DParen call_site [TIdent (T "a") call_site; TGroup DNone call_site [TIdent (T "b") call_site]]]. split; vm_compute; reflexivity. Qed.
End WithTables.

Print Assumptions C50_invisible_group_indents.
