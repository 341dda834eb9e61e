(** * LexOut: what the lexer produces; its termination. *)
From Verif Require Import Base Float Literal Syn Fmt FmtFacts Reprint LiteralFacts Lexer LexFacts LexWf.
Local Open Scope nat_scope.

Section LexOut.
Context {U : unicode} (sane : sane_tables U).

(** ** Escaped strings are string literals *)
Lemma lex_cooked_escape f c rest : valid_char c = true -> c <> 0%N ->
  lex_cooked (S f) DStr (escape_debug c ++ rest) = lex_cooked f DStr rest.
Proof.
  intros Hv H0. unfold escape_debug.
  destruct (N.eqb_spec c 0) as [->|]; [congruence|].
  destruct (N.eqb_spec c 9) as [->|]; [reflexivity|].
  destruct (N.eqb_spec c 13) as [->|]; [reflexivity|].
  destruct (N.eqb_spec c 10) as [->|]; [reflexivity|].
  destruct (N.eqb_spec c 39) as [->|]; [reflexivity|].
  destruct (N.eqb_spec c 34) as [->|]; [reflexivity|].
  destruct (N.eqb_spec c 92) as [->|]; [reflexivity|]. cbn [orb].
  assert (E34 : (c =? 34)%N = false) by (apply N.eqb_neq; assumption). assert (E13 : (c =? 13)%N = false) by (apply N.eqb_neq; assumption). assert (E92 : (c =? 92)%N = false) by (apply N.eqb_neq; assumption).
  destruct (if (c <? 128)%N then _ else _) eqn:Hp.
  - cbn [app lex_cooked]. rewrite E34, E13, E92. reflexivity.
  - unfold escape_unicode. cbn [app lex_cooked N.eqb Pos.eqb lex_simple existsb orb andb].
    pose proof (backslash_u_escape c rest Hv) as Hb. cbn [app] in Hb. rewrite <- app_assoc. cbn [app]. rewrite Hb. rewrite andb_false_r. reflexivity.
Qed.
Lemma lex_cooked_escape_utf8 s : forall f rest, forallb valid_char s = true -> List.length s < f ->
  lex_cooked f DStr (escape_utf8 s ++ 34%N :: rest) = Some (literal_suffix rest).
Proof.
  induction s as [|c r IH]; intros f rest Hv Hf.
  - destruct f; [lia|]. reflexivity.
  - cbn in Hv. apply andb_true_iff in Hv as (Hc & Hr). cbn [List.length] in Hf. destruct f as [|f]; [lia|].
    cbn [escape_utf8]. rewrite <- app_assoc. destruct (N.eqb_spec c 0) as [->|H0].
    { destruct (octal_next r); cbn [app]; rewrite <- (IH f rest Hr ltac:(lia)); reflexivity. }
    destruct (N.eqb_spec c 39) as [->|].
    { rewrite <- (IH f rest Hr ltac:(lia)). reflexivity. }
    rewrite lex_cooked_escape by assumption. apply IH; [exact Hr|lia].
Qed.
Lemma show_str_lexes s : forallb valid_char s = true -> literal_nocapture (show_str s) = Some [].
Proof.
  intro Hv. unfold literal_nocapture, show_str, lex_string. cbn [app strip_prefix N.eqb Pos.eqb].
  rewrite lex_cooked_escape_utf8; [reflexivity|exact Hv|]. rewrite app_length. cbn [List.length]. pose proof (escape_utf8_length s). lia.
Qed.

(** ** Leaf tokens *)
Lemma literal_spec s r rest : literal s = Some (r, rest) -> s = r ++ rest /\ r <> [] /\ literal_nocapture r = Some [].
Proof.
  unfold literal. destruct (literal_nocapture s) as [t|] eqn:E; [|discriminate]. intro H. apply (f_equal (fun o => match o with Some p => p | None => ([], []) end)) in H. apply pair_equal_spec in H as (<- & <-).
  destruct (literal_stable _ _ E) as (p & Hp & -> & Hs).
  assert (Ep : firstn (List.length (p ++ t) - List.length t) (p ++ t) = p).
  { rewrite app_length. replace (List.length p + List.length t - List.length t) with (List.length p) by lia. rewrite <- (Nat.add_0_r (List.length p)), firstn_app_2. cbn [firstn]. apply app_nil_r. }
  rewrite Ep. split; [reflexivity|]. split; [exact Hp|]. specialize (Hs [] I (or_introl I)). rewrite app_nil_r in Hs. exact Hs.
Qed.
(** what follows a joint punctuation character *)
Definition jready (c : char) (s : text) : Prop :=
  if (c =? 39)%N then quote_ok s else punct_char s <> None /\ (c = 47%N -> match s with d :: _ => d <> 47%N /\ d <> 42%N | [] => True end).
(** the spelling of a leaf *)
Definition leaf_text (t : tt) : text := match t with TIdent n _ => n | TPunct c _ _ => [c] | TLit r _ => r | TGroup _ _ _ => [] end.
Lemma leaf_spec s f rest sp : leaf_token s = Some (f, rest) -> solid s ->
  s = leaf_text (f sp) ++ rest /\ leaf_text (f sp) <> [] /\ wf_tree (f sp) /\
  match f sp with TPunct c Joint _ => jready c rest | _ => True end.
Proof.
  unfold leaf_token. intros H Hs. destruct (literal s) as [(r, t)|] eqn:E1.
  { injection H as <- <-. apply literal_spec in E1 as (-> & Hr & Hl). cbn [leaf_text wf_tree]. repeat split; auto. left. exact Hl. }
  destruct (lex_punct s) as [((c, g), t)|] eqn:E2.
  { injection H as <- <-. unfold lex_punct in E2. destruct (punct_char s) as [(c', r)|] eqn:Ep; [|discriminate].
    apply punct_char_some in Ep as (-> & Hc & _). cbn [leaf_text wf_tree]. destruct (N.eqb_spec c' 39) as [->|Hn].
    - destruct (ident_any r) as [(n, r')|] eqn:Ei; [|discriminate]. destruct (starts_with [39%N] r') eqn:Es; [discriminate|].
      apply (f_equal (fun o => match o with Some p => p | None => (0%N, Alone, []) end)) in E2. apply pair_equal_spec in E2 as (E2 & <-). apply pair_equal_spec in E2 as (<- & <-).
      split; [reflexivity|]. split; [discriminate|]. split; [auto|]. unfold jready. cbn [N.eqb Pos.eqb]. exists n, r'. split; [exact Ei|].
      destruct r' as [|a r']; [exact I|]. intros ->. discriminate.
    - assert (X : c' = c /\ r = t /\ g = match punct_char r with Some _ => Joint | None => Alone end) by (injection E2 as <- <- <-; auto). destruct X as (<- & <- & ->).
      split; [reflexivity|]. split; [discriminate|]. split; [split; [exact Hc|congruence]|].
      destruct (punct_char r) eqn:Ep; [|exact I]. unfold jready. destruct (N.eqb_spec c' 39); [contradiction|]. rewrite Ep. split; [discriminate|]. intros ->. apply Hs. reflexivity. }
  destruct (ident s) as [(n, t)|] eqn:E3.
  { injection H as <- <-. unfold ident in E3. destruct (existsb _ _); [discriminate|]. apply ident_any_prefix in E3 as (-> & Hn & _). cbn [leaf_text wf_tree].
    split; [reflexivity|]. split; [destruct (ident_ok_head n Hn) as (c & x & -> & _); discriminate|]. split; [exact Hn|exact I]. }
  destruct (strip_prefix error_repr s) as [t|] eqn:E4; [|discriminate]. injection H as <- <-. apply strip_prefix_spec in E4. cbn [leaf_text wf_tree].
  split; [exact E4|]. split; [discriminate|]. split; [right; reflexivity|exact I].
Qed.
Lemma quote_head s : quote_ok s -> exists c r, s = c :: r /\ ident_start c = true.
Proof. intros (n & r & H & _). apply ident_any_prefix in H as (-> & Hn & _). destruct (ident_ok_head n Hn) as (c & t & -> & Hc & _). exists c, (t ++ r). auto. Qed.
Lemma jready_solid c s : jready c s -> solid s /\ open_delim s = None /\ match s with a :: _ => close_delim a = None | [] => False end.
Proof.
  unfold jready. destruct (c =? 39)%N.
  - intro H. destruct (quote_head s H) as (a & r & -> & Ha). split; [split; [apply (start_white sane); exact Ha|intros ->; discriminate]|].
    split; [unfold open_delim; rewrite !(start_not' a) by (exact Ha || reflexivity); reflexivity|]. unfold close_delim. rewrite !(start_not' a) by (exact Ha || reflexivity). reflexivity.
  - intros (H & _). destruct (punct_char s) as [(a, r)|] eqn:E; [|congruence]. apply punct_char_some in E as (-> & Ha & Hs). split; [exact Hs|].
    apply punct_facts in Ha as (_ & _ & _ & _ & _ & F1 & F2 & _). auto.
Qed.
Lemma prefix_word (n r l rest : text) : n ++ r = l ++ rest -> (exists m, l = n ++ m /\ m <> [] /\ r = m ++ rest) \/ (exists m, n = l ++ m).
Proof.
  revert l. induction n as [|a n IH]; intros l E; cbn in E.
  - destruct l as [|b l]; [right; exists []; reflexivity|]. left. exists (b :: l). split; [reflexivity|]. split; [discriminate|exact E].
  - destruct l as [|b l]; [right; exists (a :: n); reflexivity|]. cbn in E. injection E as <- E. destruct (IH l E) as [(m & -> & Hm & ->)|(m & ->)]; [left; exists m; auto|right; exists m; auto].
Qed.
Lemma word_prefix_no_literal n m : ident_ok (n ++ m) -> literal_nocapture n = Some [] -> False.
Proof.
  intros H Hl. assert (Hs : literal_nocapture n = literal_nocapture (n ++ [])) by (rewrite app_nil_r; reflexivity). destruct H as [(c & r & E & Hc & Hr)|(k & E & Hk & _)].
  - destruct n as [|a n]; [discriminate|]. cbn in E. injection E as -> <-. apply Forall_app in Hr as (Hr & _).
    pose proof (word_no_literal c n [] Hc Hr (conj I I)) as F. rewrite app_nil_r in F. congruence.
  - destruct n as [|a [|b n]]; [discriminate| |].
    + cbn in E. injection E as -> _. discriminate.
    + cbn in E. injection E as -> -> <-. destruct n as [|c n]; [discriminate|]. cbn in Hk. destruct Hk as (c' & r & E & Hc & Hr). injection E as <- <-. apply Forall_app in Hr as (Hr & _).
      pose proof (raw_word_no_literal (c :: n) [] (ex_intro _ c (ex_intro _ n (conj eq_refl (conj Hc Hr)))) (conj I I)) as F. rewrite app_nil_r in F. cbn [app] in F. congruence.
Qed.
(** the next token after a joint punctuation character is one that may follow it *)
Lemma next_joint c s f rest sp r : jready c s -> leaf_token s = Some (f, rest) -> joint_ok c (f sp :: r).
Proof.
  intros Hj H. destruct (jready_solid c s Hj) as (Hs & _ & _). unfold leaf_token in H. unfold jready in Hj. destruct (N.eqb_spec c 39) as [->|Hn].
  - destruct (quote_head s Hj) as (a & s0 & E0 & Ha). destruct (literal s) as [(l, t)|] eqn:E1.
    { injection H as <- <-. apply literal_spec in E1 as (E1 & Hl & Hlit). cbn [joint_ok N.eqb Pos.eqb]. destruct Hj as (n & r' & Hi & Hr').
      pose proof (ident_any_prefix _ _ _ Hi) as (E & Hok & Hnc). rewrite E in E1. destruct (prefix_word _ _ _ _ E1) as [(m & -> & Hm & ->)|(m & ->)].
      - destruct m as [|b m]; [congruence|]. cbn [app] in Hr', Hnc. exists n, (b :: m). split; [|exact Hr'].
        unfold ident_any in *. rewrite E in Hi. destruct Hok as [Hok|(k & -> & Hk & Hraw)].
        + assert (No : strip_prefix [114; 35]%N (n ++ b :: m) = None).
          { destruct (strip_prefix [114; 35]%N (n ++ b :: m)) as [u|] eqn:Eu; [|reflexivity]. exfalso. apply strip_prefix_spec in Eu.
            assert (Es : strip_prefix [114; 35]%N (n ++ (b :: m) ++ t) = Some (u ++ t)) by (apply strip_prefix_spec; rewrite app_assoc, Eu, <- app_assoc; reflexivity). cbn [app] in Es, Hi. rewrite Es in Hi.
            destruct (ident_not_raw (u ++ t)) as [(x, y)|]; [|discriminate]. destruct (text_mem x no_raw); [discriminate|]. injection Hi as Hx _. destruct Hok as (c & q & -> & _ & Hq). injection Hx as <- <-. inversion Hq. discriminate. }
          rewrite No. apply ident_not_raw_app; [exact Hok|exact Hnc].
        + rewrite <- app_assoc, strip_prefix_app, ident_not_raw_app, Hraw; [reflexivity|exact Hk|exact Hnc].
      - exfalso. exact (word_prefix_no_literal l m Hok Hlit). }
    subst s. rewrite start_not_punct in H by exact Ha. destruct (ident (a :: s0)) as [(n, t)|]; [injection H as <- <-; reflexivity|].
    destruct (strip_prefix error_repr (a :: s0)) as [t|] eqn:E4; [|discriminate]. apply strip_prefix_spec in E4. injection E4 as -> _. discriminate.
  - destruct Hj as (Hp & H47). destruct (punct_char s) as [(d, s0)|] eqn:Ep; [|congruence]. pose proof (punct_char_some _ _ _ Ep) as (-> & Hd & _).
    destruct (literal (d :: s0)) as [(l, t)|] eqn:E1.
    { injection H as <- <-. apply literal_spec in E1 as (E1 & Hl & Hlit). cbn [joint_ok]. destruct (N.eqb_spec c 39); [contradiction|].
      destruct (literal_first _ _ Hlit) as (x & y & -> & Hx). injection E1 as <- _. exists y. f_equal. apply punct_facts in Hd as (_ & _ & _ & F1 & _ & _ & _ & F2 & F3 & F4 & F5).
      destruct Hx as [Hx|Hx]; [|congruence]. cbn [In] in Hx. intuition congruence. }
    unfold lex_punct in H. rewrite Ep in H.
    assert (Ok : forall g t, joint_ok c (TPunct d g t :: r)) by (intros g t; cbn [joint_ok]; auto).
    destruct (N.eqb_spec d 39) as [->|Hd39]; [|injection H as <- <-; apply Ok].
    assert (I1 : ident (39%N :: s0) = None).
    { unfold ident. destruct (existsb _ _); [reflexivity|]. reflexivity. }
    assert (I2 : strip_prefix error_repr (39%N :: s0) = None) by reflexivity.
    rewrite I1, I2 in H. destruct (ident_any s0) as [(n, r')|]; [|discriminate]. destruct (starts_with [39%N] r'); [discriminate|]. injection H as <- <-. apply Ok.
Qed.

(** ** Streams still being read *)
Fixpoint wfo (l : list tt) (s : text) : Prop :=
  match l with
  | [] => True
  | x :: r => wf_tree x /\ match x with TPunct c Joint _ => match r with [] => jready c s | _ => joint_ok c r end | _ => True end /\ wfo r s
  end.
Lemma wf_wfo l s : wf l -> wfo l s.
Proof.
  induction l as [|x r IH]; [auto|]. rewrite wf_cons. intros (H1 & H2 & H3). cbn [wfo]. split; [exact H1|]. split; [|auto].
  destruct x as [| c g sp | |]; auto. destruct g; [|auto]. destruct r; [destruct H2|exact H2].
Qed.
Lemma wfo_wf l s : (forall c, ~ jready c s) -> wfo l s -> wf l.
Proof.
  intro Hn. induction l as [|x r IH]; [auto|]. cbn [wfo]. intros (H1 & H2 & H3). rewrite wf_cons. split; [exact H1|]. split; [|auto].
  destruct x as [| c g sp | |]; auto. destruct g; [|auto]. destruct r; [destruct (Hn _ H2)|exact H2].
Qed.
Lemma joint_ok_app c l x : l <> [] -> joint_ok c l -> joint_ok c (l ++ x).
Proof. destruct l; [congruence|]. intros _ H. exact H. Qed.
Lemma wfo_snoc l s x s' : wfo l s -> (forall c, jready c s -> joint_ok c [x]) -> wf_tree x ->
  match x with TPunct c Joint _ => jready c s' | _ => True end -> wfo (l ++ [x]) s'.
Proof.
  intros H Hj Hx Hx'. induction l as [|y l IH].
  - cbn [app wfo]. auto.
  - cbn [app wfo] in *. destruct H as (H1 & H2 & H3). split; [exact H1|]. split; [|auto]. destruct y as [| c g sp | |]; auto. destruct g; [|auto].
    destruct l as [|z l]; [apply Hj; exact H2|]. apply (joint_ok_app c (z :: l) [x]); [discriminate|exact H2].
Qed.
Lemma wf_app l1 l2 : wf l1 -> wf l2 -> wf (l1 ++ l2).
Proof.
  induction l1 as [|x r IH]; [auto|]. cbn [app]. rewrite !wf_cons. intros (H1 & H2 & H3) H. split; [exact H1|]. split; [|auto].
  destruct x as [| c g sp | |]; auto. destruct g; [|auto]. destruct r; [destruct H2|]. apply joint_ok_app; [discriminate|exact H2].
Qed.

(** ** Comments and white space: what remains is a suffix *)
Definition suffix (r s : text) : Prop := exists p, s = p ++ r.
Lemma suffix_refl s : suffix s s. Proof. exists []. reflexivity. Qed.
Lemma suffix_trans a b c : suffix a b -> suffix b c -> suffix a c.
Proof. intros (p & ->) (q & ->). exists (q ++ p). apply app_assoc. Qed.
Lemma suffix_cons c r s : suffix r s -> suffix r (c :: s).
Proof. intros (p & ->). exists (c :: p). reflexivity. Qed.
Lemma suffix_length r s : suffix r s -> List.length r <= List.length s.
Proof. intros (p & ->). rewrite app_length. lia. Qed.
Lemma suffix_skipn n s : suffix (skipn n s) s.
Proof. exists (firstn n s). symmetry. apply firstn_skipn. Qed.
Lemma block_end_suffix n : forall s d r, List.length s <= n -> block_end s d = Some r -> exists p, s = p ++ [42; 47]%N ++ r.
Proof.
  induction n as [|n IH]; intros s d r Hn H; [destruct s; [discriminate|cbn in Hn; lia]|].
  destruct s as [|a [|b t]]; [discriminate|discriminate|]. cbn [block_end] in H. cbn [List.length] in Hn.
  destruct ((a =? 47)%N && (b =? 42)%N).
  - destruct (IH t (S d) r ltac:(lia) H) as (p & ->). exists (a :: b :: p). reflexivity.
  - destruct ((a =? 42)%N && (b =? 47)%N) eqn:E.
    + apply andb_true_iff in E as (E1 & E2). apply N.eqb_eq in E1, E2. subst. destruct (Nat.leb d 1); [injection H as <-; exists []; reflexivity|].
      destruct (IH t (pred d) r ltac:(lia) H) as (p & ->). exists (42%N :: 47%N :: p). reflexivity.
    + destruct (IH (b :: t) d r ltac:(cbn [List.length] in *; lia) H) as (p & E'). exists (a :: p). cbn [app] in *. congruence.
Qed.
Lemma block_comment_suffix s r : block_comment s = Some r -> exists p, s = p ++ [42; 47]%N ++ r /\ 2 <= List.length p \/ s = [47; 42; 47]%N ++ r.
Proof.
  unfold block_comment. destruct (starts_with [47; 42]%N s) eqn:E; [|discriminate]. apply starts_with_spec in E as (t & ->). cbn [app block_end N.eqb Pos.eqb andb]. intro H.
  destruct (block_end_suffix (List.length t) t 1 r (le_n _) H) as (p & ->). exists (47%N :: 42%N :: p). left. split; [reflexivity|cbn; lia].
Qed.
Lemma take_line_suffix s : suffix (fst (take_line s)) s.
Proof.
  induction s as [|c r IH]; [apply suffix_refl|]. cbn [take_line]. destruct (c =? 10)%N; [apply suffix_refl|].
  destruct ((c =? 13)%N && starts_with [10%N] r); [apply suffix_cons, suffix_refl|]. destruct (take_line r) as (a, b). apply suffix_cons. exact IH.
Qed.
Lemma take_line_text s : exists nl, s = snd (take_line s) ++ nl ++ fst (take_line s) /\ (nl = [] \/ nl = [13%N]).
Proof.
  induction s as [|c r IH]; [exists []; auto|]. cbn [take_line]. destruct (c =? 10)%N; [exists []; auto|].
  destruct ((c =? 13)%N && starts_with [10%N] r) eqn:E; [apply andb_true_iff in E as (E & _); apply N.eqb_eq in E; subst; exists [13%N]; auto|].
  destruct (take_line r) as (a, b). cbn [fst snd] in *. destruct IH as (nl & -> & Hnl). exists nl. auto.
Qed.
Lemma skip_ws_suffix f : forall s, suffix (skip_ws f s) s.
Proof.
  induction f as [|f IH]; intro s; [apply suffix_refl|]. cbn [skip_ws]. destruct s as [|c r]; [apply suffix_refl|].
  assert (W : suffix (if lex_white c then skip_ws f r else c :: r) (c :: r)) by (destruct (lex_white c); [apply suffix_cons, IH|apply suffix_refl]).
  destruct (c =? 47)%N; [|exact W]. destruct (_ && _); [eapply suffix_trans; [apply IH|apply take_line_suffix]|].
  destruct (starts_with _ _); [eapply suffix_trans; [apply IH|apply suffix_skipn]|]. destruct (_ && _); [|exact W].
  destruct (block_comment (c :: r)) as [t|] eqn:E; [|apply suffix_refl]. apply block_comment_suffix in E as (p & [(E & _)|E]); eapply suffix_trans; [apply IH| |apply IH|]; rewrite E.
  - exists (p ++ [42; 47]%N). rewrite <- app_assoc. reflexivity.
  - exists [47; 42; 47]%N. reflexivity.
Qed.
Lemma skip_suffix s : suffix (skip_whitespace s) s.
Proof. apply skip_ws_suffix. Qed.

Lemma forallb_suffix f (p q : text) : forallb f (p ++ q) = true -> forallb f p = true /\ forallb f q = true.
Proof. rewrite forallb_app. intro H. apply andb_true_iff in H. exact H. Qed.
(** a doc comment takes a non-empty piece of the text, and its text is part of it *)
Lemma doc_spec s t inner rest : doc_comment_contents s = Some (t, inner, rest) ->
  exists p, s = p ++ rest /\ p <> [] /\ exists a b, p = a ++ t ++ b.
Proof.
  assert (Line : forall pre_ : text, List.length pre_ = 3 -> starts_with pre_ s = true -> forall rest t, take_line (skipn 3 s) = (rest, t) -> exists p, s = p ++ rest /\ p <> [] /\ exists a b, p = a ++ t ++ b).
  { intros pre_ Hlen Hp rest' t' E. apply starts_with_spec in Hp as (x & ->). destruct pre_ as [|a [|b [|c [|? ?]]]]; try discriminate. cbn [app skipn] in E.
    destruct (take_line_text x) as (nl & Ex & _). rewrite E in Ex. cbn [fst snd] in Ex. exists ([a; b; c] ++ t' ++ nl). split; [rewrite Ex; cbn [app]; rewrite <- !app_assoc; reflexivity|].
    split; [discriminate|]. exists [a; b; c], nl. reflexivity. }
  assert (Block : forall inner0, match block_comment s with Some rest => Some (drop_last2 (skipn 3 (firstn (List.length s - List.length rest) s)), inner0, rest) | None => None end = Some (t, inner, rest) ->
      exists p, s = p ++ rest /\ p <> [] /\ exists a b, p = a ++ t ++ b).
  { intros inner0 H. destruct (block_comment s) as [rest'|] eqn:E; [|discriminate]. apply (f_equal (fun o => match o with Some p => p | None => ([], true, []) end)) in H. apply pair_equal_spec in H as (H & <-). apply pair_equal_spec in H as (<- & _).
    assert (X : exists p, s = p ++ rest' /\ p <> []).
    { apply block_comment_suffix in E as (p & [(-> & Hp)| ->]); [exists (p ++ [42; 47]%N); split; [rewrite <- app_assoc; reflexivity|destruct p; discriminate]|exists [47; 42; 47]%N; split; [reflexivity|discriminate]]. }
    destruct X as (p & -> & Hp). exists p. split; [reflexivity|]. split; [exact Hp|].
    rewrite app_length. replace (List.length p + List.length rest' - List.length rest') with (List.length p) by lia.
    rewrite <- (Nat.add_0_r (List.length p)), firstn_app_2. cbn [firstn]. rewrite app_nil_r. unfold drop_last2.
    exists (firstn 3 p), (skipn (List.length (skipn 3 p) - 2) (skipn 3 p)). rewrite firstn_skipn. symmetry. apply firstn_skipn. }
  unfold doc_comment_contents. cbv zeta. intro H.
  destruct (starts_with [47; 47; 33]%N s) eqn:E1.
  { destruct (take_line (skipn 3 s)) as (r', t') eqn:E. injection H as <- <- <-. exact (Line [47; 47; 33]%N eq_refl E1 _ _ eq_refl). }
  destruct (starts_with [47; 42; 33]%N s) eqn:E2; [exact (Block true H)|].
  destruct (starts_with [47; 47; 47]%N s) eqn:E3.
  { destruct (starts_with [47%N] (skipn 3 s)); [discriminate|]. destruct (take_line (skipn 3 s)) as (r', t') eqn:E. injection H as <- <- <-. exact (Line [47; 47; 47]%N eq_refl E3 _ _ eq_refl). }
  destruct (_ && _); [exact (Block false H)|discriminate].
Qed.
Lemma doc_not_solid s x : doc_comment s = Some x -> ~ solid s.
Proof. intros H Hs. rewrite solid_no_doc in H by exact Hs. discriminate. Qed.

(** ** Rounds of the loop *)
Lemma skip_head f : forall s, List.length s <= f -> match skip_ws f s with c :: _ => lex_white c = false | [] => True end.
Proof.
  induction f as [|f IH]; intros s Hs; [destruct s; [exact I|cbn in Hs; lia]|]. destruct s as [|c r]; [exact I|]. cbn [List.length] in Hs. cbn [skip_ws].
  assert (W : match (if lex_white c then skip_ws f r else c :: r) with c :: _ => lex_white c = false | [] => True end) by (destruct (lex_white c) eqn:E; [apply IH; lia|exact E]).
  destruct (N.eqb_spec c 47) as [->|_]; [|exact W]. destruct (_ && _) eqn:E1.
  { apply IH. apply andb_true_iff in E1 as (E1 & _). apply andb_true_iff in E1 as (E1 & _). apply starts_with_spec in E1 as (t & E1). injection E1 as ->. cbn [app take_line N.eqb Pos.eqb andb].
    pose proof (suffix_length _ _ (take_line_suffix t)). cbn [app List.length] in Hs. destruct (take_line t) as (x, y). cbn [fst] in *. lia. }
  destruct (starts_with [47; 42; 42; 47]%N _) eqn:E2.
  { apply IH. apply starts_with_spec in E2 as (t & E2). injection E2 as ->. cbn [app skipn List.length] in *. lia. }
  lazymatch goal with |- match (if ?b then _ else _) with _ => _ end => destruct b; [|exact W] end. destruct (block_comment _) as [t|] eqn:E; [|reflexivity]. apply IH.
  apply block_comment_suffix in E as (p & [(E & Hp)|E]); apply (f_equal (@List.length N)) in E; rewrite ?app_length in E; cbn [List.length app] in E; lia.
Qed.
Lemma skip_white s : match skip_whitespace s with c :: _ => lex_white c = false | [] => True end.
Proof. apply skip_head. lia. Qed.
Lemma comment_no_leaf s : starts_with [47; 47]%N s = true \/ starts_with [47; 42]%N s = true -> leaf_token s = None.
Proof.
  intro H. assert (P : lex_punct s = None) by (unfold lex_punct, punct_char; destruct H as [-> | ->]; rewrite ?orb_true_r; reflexivity).
  assert (X : exists r, s = 47%N :: r) by (destruct H as [H|H]; apply starts_with_spec in H as (r & ->); eexists; reflexivity). destruct X as (r & ->).
  unfold leaf_token. rewrite P. assert (L : literal_nocapture (47%N :: r) = None).
  { destruct (literal_nocapture (47%N :: r)) as [t|] eqn:E; [|reflexivity]. destruct (literal_first _ _ E) as (c & y & Ey & Hy). injection Ey as <- _. destruct Hy as [Hy|Hy]; [cbn in Hy; intuition discriminate|discriminate]. }
  rewrite literal_none by exact L. unfold ident. destruct (existsb _ _); reflexivity.
Qed.
Lemma leaf_solid s f rest : leaf_token s = Some (f, rest) -> match s with c :: _ => lex_white c = false | [] => True end -> solid s.
Proof.
  intros H Hw. destruct s as [|c r]; [discriminate|]. split; [exact Hw|]. intros ->. destruct r as [|d r]; [exact I|].
  split; intros ->; rewrite comment_no_leaf in H; auto; discriminate.
Qed.
Lemma solid_skip s : solid s -> skip_whitespace s = s.
Proof. intro H. apply (skip_gap' [] s); [right; exact H|constructor]. Qed.
End LexOut.
