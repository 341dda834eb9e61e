(** * C33, C34: spans, offsets and their display *)
From Verif Require Import Base Float Literal Syn Fmt Lexer Offsets FloatFacts Spec DecText.
Local Open Scope nat_scope.

(** ** Specification, in terms of the text only *)
(** character number [off] of the text is at this line and column: [done] is the text of the lines
    before, [line] the text before it on its own line *)
Definition at_position (src : text) (off : nat) (p : lc) : Prop :=
  exists done line, firstn off src = done ++ line /\ ~ In 10%N line /\ (done = [] \/ exists d, done = d ++ [10%N]) /\
    lc_line p = 1 + count_occ N.eq_dec done 10%N /\ lc_col p = List.length line.
(** the UTF-8 encoding of a character (RFC 3629, section 3) *)
Definition utf8 (c : char) : list N :=
  (if c <? 0x80 then [c]
   else if c <? 0x800 then [0xC0 + c / 0x40; 0x80 + c mod 0x40]
   else if c <? 0x10000 then [0xE0 + c / 0x1000; 0x80 + (c / 0x40) mod 0x40; 0x80 + c mod 0x40]
   else [0xF0 + c / 0x40000; 0x80 + (c / 0x1000) mod 0x40; 0x80 + (c / 0x40) mod 0x40; 0x80 + c mod 0x40])%N.
(** number of bytes before character number [off] *)
Definition bytes_before (src : text) (off : nat) : nat := List.length (flat_map utf8 (firstn off src)).
Definition substring (src : text) (lo hi : nat) : text := firstn (hi - lo) (skipn lo src).
(** the span covers the characters from number [lo] up to number [hi] of the text *)
Definition covers (src : text) (sp : span) (lo hi : nat) : Prop :=
  lo <= hi <= List.length src /\ at_position src lo (sp_start sp) /\ at_position src hi (sp_end sp).

(** ** Text positions *)
Lemma utf8_length c : List.length (utf8 c) = len_utf8 c.
Proof. unfold utf8, len_utf8. repeat destruct (_ <? _)%N; reflexivity. Qed.
Lemma str_len_sum s : str_len s = List.length (flat_map utf8 s).
Proof. induction s as [|c s IH]; [reflexivity|]. cbn [str_len flat_map]. rewrite app_length, utf8_length, IH. reflexivity. Qed.
Lemma str_len_app a b : str_len (a ++ b) = str_len a + str_len b.
Proof. induction a; cbn; lia. Qed.
Lemma len_pos c : 1 <= len_utf8 c.
Proof. unfold len_utf8. repeat destruct (_ <? _)%N; lia. Qed.

Lemma line_starts_app p : forall q t, line_starts (p ++ q) t = line_starts p t ++ line_starts q (t + List.length p).
Proof.
  induction p as [|c p IH]; intros q t; [cbn; rewrite Nat.add_0_r; reflexivity|]. cbn [app line_starts]. rewrite IH.
  replace (S t + List.length p) with (t + List.length (c :: p)) by (cbn; lia). destruct (c =? 10)%N; reflexivity.
Qed.
Lemma line_starts_range s : forall t o, In o (line_starts s t) -> t < o <= t + List.length s.
Proof.
  induction s as [|c s IH]; intros t o H; [destruct H|]. cbn [line_starts] in H. cbn [List.length].
  destruct (c =? 10)%N; [destruct H as [<-|H]; [lia|]|]; apply IH in H; lia.
Qed.
Lemma filter_all {A} (f : A -> bool) l : (forall x, In x l -> f x = true) -> filter f l = l.
Proof. induction l as [|x l IH]; intro H; [reflexivity|]. cbn. rewrite (H x (or_introl eq_refl)), IH; [reflexivity|]. intros y Hy. apply H. right. exact Hy. Qed.
Lemma filter_none {A} (f : A -> bool) l : (forall x, In x l -> f x = false) -> filter f l = [].
Proof. induction l as [|x l IH]; intro H; [reflexivity|]. cbn. rewrite (H x (or_introl eq_refl)), IH; [reflexivity|]. intros y Hy. apply H. right. exact Hy. Qed.

Lemma line_column_before src off : off <= List.length src ->
  line_column src off = let l := 0 :: line_starts (firstn off src) 0 in LC (List.length l) (off - last l 0).
Proof.
  intro H. unfold line_column. cbv zeta.
  assert (E : filter (fun o => Nat.leb o off) (0 :: line_starts src 0) = 0 :: line_starts (firstn off src) 0).
  { cbn [filter]. cbn [Nat.leb]. f_equal. rewrite <- (firstn_skipn off src) at 1. rewrite line_starts_app, filter_app.
    rewrite filter_all, filter_none, app_nil_r; [reflexivity| |].
    - intros o Ho. apply line_starts_range in Ho. rewrite firstn_length in Ho. apply Nat.leb_gt. lia.
    - intros o Ho. apply line_starts_range in Ho. rewrite firstn_length in Ho. apply Nat.leb_le. lia. }
  rewrite E. reflexivity.
Qed.
Lemma starts_spec p : exists done line, p = done ++ line /\ ~ In 10%N line /\ (done = [] \/ exists d, done = d ++ [10%N]) /\
  List.length (line_starts p 0) = count_occ N.eq_dec done 10%N /\ last (0 :: line_starts p 0) 0 = List.length done.
Proof.
  induction p as [|c p IH] using rev_ind; [exists [], []; cbn; auto 6|].
  destruct IH as (done & line & E & Hn & He & Hc & Hl). rewrite line_starts_app. cbn [line_starts Nat.add].
  destruct (c =? 10)%N eqn:E10.
  - apply N.eqb_eq in E10. subst c. exists (p ++ [10%N]), []. rewrite app_nil_r. split; [reflexivity|]. split; [intros []|]. split; [eauto|].
    split; [|rewrite app_comm_cons, last_last, app_length; cbn; lia].
    rewrite app_length, Hc, E, !count_occ_app. cbn [List.length count_occ].
    assert (Hz : count_occ N.eq_dec line 10%N = 0) by (apply count_occ_not_In; exact Hn). rewrite Hz.
    destruct (N.eq_dec 10 10); [lia|congruence].
  - apply N.eqb_neq in E10. exists done, (line ++ [c]). split; [rewrite E, app_assoc; reflexivity|].
    split; [intro F; apply in_app_or in F as [F|[F|[]]]; [exact (Hn F)|congruence]|]. split; [exact He|].
    rewrite app_nil_r. auto.
Qed.
(** the lexer's positions are positions of the text *)
Theorem line_column_position src off : off <= List.length src -> at_position src off (line_column src off).
Proof.
  intro H. rewrite line_column_before by exact H. cbv zeta. destruct (starts_spec (firstn off src)) as (done & line & E & Hn & He & Hc & Hl).
  exists done, line. repeat (split; [assumption|]). rewrite Hl. cbn [lc_line lc_col List.length]. split; [lia|].
  assert (List.length (firstn off src) = off) by (apply firstn_length_le; exact H). rewrite E, app_length in H0. lia.
Qed.

(** ** Lines *)
Lemma split_concat s : List.concat (split_inclusive s) = s.
Proof.
  induction s as [|c s IH]; [reflexivity|]. cbn [split_inclusive]. destruct (c =? 10)%N; [cbn; rewrite IH; reflexivity|].
  destruct (split_inclusive s) as [|l ls]; cbn in *; rewrite <- IH; reflexivity.
Qed.
Lemma split_app d s : (d = [] \/ exists d', d = d' ++ [10%N]) -> split_inclusive (d ++ s) = split_inclusive d ++ split_inclusive s.
Proof.
  intros [->|(d' & ->)]; [reflexivity|]. rewrite <- app_assoc. cbn [app].
  induction d' as [|c d' IH]; [reflexivity|]. cbn [app split_inclusive]. rewrite IH. destruct (c =? 10)%N; [reflexivity|].
  destruct (split_inclusive (d' ++ [10%N])) as [|l ls] eqn:E; [|reflexivity].
  apply (f_equal (@List.concat N)) in E. rewrite split_concat in E. destruct d'; discriminate.
Qed.
Lemma split_count d : (d = [] \/ exists d', d = d' ++ [10%N]) -> List.length (split_inclusive d) = count_occ N.eq_dec d 10%N.
Proof.
  intros [->|(d' & ->)]; [reflexivity|]. induction d' as [|c d' IH]; [reflexivity|]. cbn [app split_inclusive count_occ].
  destruct (c =? 10)%N eqn:E.
  - apply N.eqb_eq in E. subst c. destruct (N.eq_dec 10 10); [|congruence]. cbn [List.length]. rewrite IH. reflexivity.
  - apply N.eqb_neq in E. destruct (N.eq_dec c 10); [congruence|]. rewrite <- IH.
    destruct (split_inclusive (d' ++ [10%N])) as [|l ls] eqn:E'; [|reflexivity].
    apply (f_equal (@List.concat N)) in E'. rewrite split_concat in E'. destruct d'; discriminate.
Qed.
Lemma split_line line s : ~ In 10%N line -> line ++ s <> [] -> exists l ls, split_inclusive (line ++ s) = (line ++ l) :: ls.
Proof.
  induction line as [|c line IH]; intros Hn Hne.
  - cbn [app] in *. destruct (split_inclusive s) as [|l ls] eqn:E; [|eauto]. apply (f_equal (@List.concat N)) in E. rewrite split_concat in E. contradiction.
  - assert (Hc : (c =? 10)%N = false) by (apply N.eqb_neq; intros ->; apply Hn; left; reflexivity). cbn [app split_inclusive]. rewrite Hc.
    destruct (line ++ s) as [|x y] eqn:E.
    + destruct line; [|discriminate]. exists [], []. reflexivity.
    + destruct IH as (l & ls & El); [intro F; apply Hn; right; exact F|discriminate|]. rewrite El. exists l, ls. reflexivity.
Qed.
Lemma indices_nth s : forall at_ n, nth_error (char_indices at_ s) n = match nth_error s n with Some c => Some (at_ + str_len (firstn n s), c) | None => None end.
Proof.
  induction s as [|c s IH]; intros at_ n; [destruct n; reflexivity|]. destruct n as [|n]; cbn [char_indices nth_error firstn str_len]; [f_equal; f_equal; lia|].
  rewrite IH. destruct (nth_error s n); [|reflexivity]. do 2 f_equal. lia.
Qed.
(** the byte offset within a line is the length of its first characters *)
Lemma column_bytes line col : match nth_error (char_indices 0 line) col with Some (i, _) => i | None => str_len line end = str_len (firstn col line).
Proof.
  rewrite indices_nth. destruct (nth_error line col) eqn:E; [reflexivity|]. apply nth_error_None in E. rewrite firstn_all2; [reflexivity|exact E].
Qed.
Lemma sum_concat ls : list_sum (map str_len ls) = str_len (List.concat ls).
Proof. induction ls as [|l ls IH]; [reflexivity|]. cbn [map List.concat]. rewrite str_len_app, <- IH. reflexivity. Qed.

(** every location of the form line/column is a number of characters, clamped to the text *)
Definition clamp (src : text) (p : lc) : nat :=
  let k := lc_line p - 1 in
  List.length (List.concat (firstn k (split_inclusive src))) +
  match skipn k (split_inclusive src) with [] => 0 | l :: _ => Nat.min (lc_col p) (List.length l) end.
Lemma clamp_spec src p : clamp src p <= List.length src /\ byte_offset src p = str_len (firstn (clamp src p) src).
Proof.
  unfold clamp, byte_offset. cbv zeta. set (k := lc_line p - 1). set (ls := split_inclusive src). rewrite sum_concat.
  assert (E : src = List.concat (firstn k ls) ++ List.concat (skipn k ls)) by (rewrite <- concat_app, firstn_skipn; symmetry; apply split_concat).
  set (a := List.concat (firstn k ls)) in *. destruct (skipn k ls) as [|l rest].
  - cbn [List.concat] in E. rewrite app_nil_r in E. rewrite Nat.add_0_r, <- E, firstn_all. split; lia.
  - rewrite column_bytes. cbn [List.concat] in E. rewrite E. rewrite !app_length. split; [lia|].
    rewrite firstn_app_2, str_len_app. f_equal. rewrite firstn_app.
    replace (Nat.min (lc_col p) (List.length l) - List.length l) with 0 by lia. rewrite firstn_O, app_nil_r.
    destruct (Nat.le_gt_cases (lc_col p) (List.length l)) as [H|H]; [rewrite Nat.min_l by lia; reflexivity|].
    rewrite Nat.min_r by lia. rewrite firstn_all, firstn_all2 by lia. reflexivity.
Qed.
Lemma position_split src off p : off <= List.length src -> at_position src off p ->
  clamp src p = off /\ char_offset src p = off.
Proof.
  intros Ho (done & line & E & Hn & He & Hl & Hc).
  assert (Es : src = done ++ line ++ skipn off src) by (rewrite app_assoc, <- E; symmetry; apply firstn_skipn).
  assert (Eo : off = List.length done + List.length line) by (rewrite <- app_length, <- E; symmetry; apply firstn_length_le; exact Ho).
  unfold clamp, char_offset. cbv zeta. rewrite Hl. replace (1 + count_occ N.eq_dec done 10%N - 1) with (List.length (split_inclusive done)) by (rewrite split_count by exact He; lia).
  rewrite Es. rewrite split_app by exact He. rewrite firstn_app, Nat.sub_diag, firstn_O, app_nil_r, firstn_all, split_concat.
  rewrite skipn_app, Nat.sub_diag, skipn_all. cbn [app skipn]. rewrite Hc. split; [|lia].
  destruct (line ++ skipn off src) as [|x y] eqn:Ex.
  - cbn [split_inclusive]. apply app_eq_nil in Ex as [-> _]. cbn in *. lia.
  - rewrite <- Ex. destruct (split_line line (skipn off src) Hn) as (l & ls & ->); [rewrite Ex; discriminate|]. rewrite app_length. lia.
Qed.

(** ** String slices *)
Lemma drop_bytes_spec s : forall n r, drop_bytes n s = Some r <-> exists p, s = p ++ r /\ str_len p = n.
Proof.
  induction s as [|c s IH]; intros n r; cbn [drop_bytes].
  - split.
    + destruct (Nat.eqb_spec n 0); [|discriminate]. injection 1 as <-. exists []. subst. auto.
    + intros (p & E & <-). symmetry in E. apply app_eq_nil in E as [-> ->]. reflexivity.
  - pose proof (len_pos c) as Hp. destruct (Nat.eqb_spec n 0) as [->|Hn].
    + split; [injection 1 as <-; exists []; auto|]. intros (p & E & Hl). destruct p as [|a p]; [cbn in E; congruence|]. cbn in Hl. pose proof (len_pos a). lia.
    + destruct (Nat.leb_spec (len_utf8 c) n) as [Hle|Hgt].
      * rewrite IH. split.
        -- intros (p & -> & Hl). exists (c :: p). cbn. split; [reflexivity|lia].
        -- intros (p & E & Hl). destruct p as [|a p]; [cbn in Hl; lia|]. cbn in E. injection E as <- ->. exists p. cbn in Hl. split; [reflexivity|lia].
      * split; [discriminate|]. intros (p & E & Hl). destruct p as [|a p]; [cbn in Hl; lia|]. cbn in E. injection E as <- ->. cbn in Hl. lia.
Qed.
Lemma take_bytes_spec s : forall n t, take_bytes n s = Some t <-> exists q, s = t ++ q /\ str_len t = n.
Proof.
  induction s as [|c s IH]; intros n t; cbn [take_bytes].
  - split.
    + destruct (Nat.eqb_spec n 0); [|discriminate]. injection 1 as <-. exists []. subst. auto.
    + intros (q & E & <-). symmetry in E. apply app_eq_nil in E as [-> ->]. reflexivity.
  - pose proof (len_pos c) as Hp. destruct (Nat.eqb_spec n 0) as [->|Hn].
    + split; [injection 1 as <-; exists (c :: s); auto|]. intros (q & E & Hl). destruct t as [|a t]; [reflexivity|]. cbn in Hl. pose proof (len_pos a). lia.
    + destruct (Nat.leb_spec (len_utf8 c) n) as [Hle|Hgt].
      * destruct (take_bytes (n - len_utf8 c) s) as [t'|] eqn:E.
        -- apply IH in E as (q & -> & Hl). split.
           ++ injection 1 as <-. exists q. cbn. split; [reflexivity|lia].
           ++ intros (q' & E & Hl'). destruct t as [|a t]; [cbn in Hl'; lia|]. cbn in E. injection E as <- E. f_equal. f_equal. cbn in Hl'.
              assert (H1 : take_bytes (n - len_utf8 c) (t' ++ q) = Some t') by (apply IH; exists q; auto).
              assert (H2 : take_bytes (n - len_utf8 c) (t' ++ q) = Some t) by (apply IH; exists q'; split; [exact E|lia]). congruence.
        -- split; [discriminate|]. intros (q & E' & Hl). destruct t as [|a t]; [cbn in Hl; lia|]. cbn in E'. injection E' as <- ->. cbn in Hl.
           assert (H2 : take_bytes (n - len_utf8 c) (t ++ q) = Some t) by (apply IH; exists q; split; [reflexivity|lia]). congruence.
      * split; [discriminate|]. intros (q & E & Hl). destruct t as [|a t]; [cbn in Hl; lia|]. cbn in E. injection E as <- ->. cbn in Hl. lia.
Qed.
(** a slice is what lies between the two byte offsets, and the slice panics exactly when there is none *)
Lemma str_index_spec s a b t : str_index s (a, b) = Some t <-> exists p q, s = p ++ t ++ q /\ str_len p = a /\ a + str_len t = b.
Proof.
  unfold str_index. destruct (Nat.leb_spec a b) as [Hle|Hgt].
  - destruct (drop_bytes a s) as [r|] eqn:E.
    + apply drop_bytes_spec in E as (p & -> & Hp). rewrite take_bytes_spec. split.
      * intros (q & -> & Hl). exists p, q. split; [reflexivity|]. split; [exact Hp|lia].
      * intros (p' & q & E & Hp' & Hb). exists q. assert (H1 : drop_bytes a (p ++ r) = Some r) by (apply drop_bytes_spec; exists p; auto).
        assert (H2 : drop_bytes a (p ++ r) = Some (t ++ q)) by (apply drop_bytes_spec; exists p'; auto). split; [congruence|lia].
    + split; [discriminate|]. intros (p & q & E' & Hp & Hb). assert (H2 : drop_bytes a s = Some (t ++ q)) by (apply drop_bytes_spec; exists p; auto). congruence.
  - split; [discriminate|]. intros (p & q & _ & _ & Hb). lia.
Qed.
Lemma skipn_add {A} (l : list A) a b : skipn a (skipn b l) = skipn (b + a) l.
Proof. revert l. induction b as [|b IH]; intros [|x l]; cbn [skipn Nat.add]; auto using skipn_nil. Qed.
Lemma str_index_chars s lo hi : lo <= hi <= List.length s -> str_index s (str_len (firstn lo s), str_len (firstn hi s)) = Some (substring s lo hi).
Proof.
  intros (H1 & H2). apply str_index_spec. exists (firstn lo s), (skipn hi s). unfold substring.
  assert (E : skipn lo s = firstn (hi - lo) (skipn lo s) ++ skipn hi s).
  { rewrite <- (firstn_skipn (hi - lo) (skipn lo s)) at 1. f_equal. rewrite skipn_add. f_equal. lia. }
  split; [rewrite <- E; symmetry; apply firstn_skipn|]. split; [reflexivity|]. rewrite <- str_len_app. f_equal.
  rewrite <- (firstn_skipn lo s) at 3. rewrite firstn_app, firstn_firstn, firstn_length_le by lia. rewrite Nat.min_r by lia. reflexivity.
Qed.
Lemma bytes_len src off : bytes_before src off = str_len (firstn off src).
Proof. symmetry. apply str_len_sum. Qed.

(** ** C33 *)
(** Positions are determined by the offset, and the two conversions recover it. *)
Theorem C33_offsets_invert_positions src off p : off <= List.length src -> at_position src off p ->
  char_offset src p = off /\ byte_offset src p = bytes_before src off.
Proof.
  intros Ho Hp. destruct (position_split src off p Ho Hp) as (Ec & ->). split; [reflexivity|].
  destruct (clamp_spec src p) as (_ & ->). rewrite Ec, bytes_len. reflexivity.
Qed.
Theorem C33_lexer_positions src off : off <= List.length src ->
  char_offset src (line_column src off) = off /\ byte_offset src (line_column src off) = bytes_before src off.
Proof. intro H. apply C33_offsets_invert_positions; [exact H|apply line_column_position; exact H]. Qed.
(** A span of the text selects exactly the text it covers. *)
Theorem C33_ranges_are_the_extent src sp lo hi : covers src sp lo hi ->
  char_range src sp = (lo, hi) /\ byte_range src sp = (bytes_before src lo, bytes_before src hi) /\
  source_substring src sp = Some (substring src lo hi).
Proof.
  intros ((H1 & H2) & Hs & He).
  destruct (C33_offsets_invert_positions src lo (sp_start sp) ltac:(lia) Hs) as (A1 & A2).
  destruct (C33_offsets_invert_positions src hi (sp_end sp) H2 He) as (B1 & B2).
  unfold char_range, source_substring, byte_range. rewrite A1, A2, B1, B2. split; [reflexivity|]. split; [reflexivity|].
  rewrite !bytes_len. apply str_index_chars. lia.
Qed.
(** Any location at all: the byte offset is a character boundary inside the text. *)
Theorem C33_byte_offset_clamped src p : exists off, off <= List.length src /\ byte_offset src p = bytes_before src off.
Proof. exists (clamp src p). destruct (clamp_spec src p) as (H & ->). split; [exact H|symmetry; apply bytes_len]. Qed.
Lemma clamp_mono src p q : 1 <= lc_line p -> lc_leb p q = true -> clamp src p <= clamp src q.
Proof.
  intros Hp Hle. unfold lc_leb in Hle. apply orb_true_iff in Hle as [H|H].
  - apply Nat.ltb_lt in H. unfold clamp. cbv zeta. set (ls := split_inclusive src). set (j := lc_line p - 1). set (k := lc_line q - 1).
    assert (Hjk : S j <= k) by (unfold j, k; lia). clearbody j k ls.
    transitivity (List.length (List.concat (firstn (S j) ls))).
    + replace (firstn (S j) ls) with (firstn j ls ++ firstn 1 (skipn j ls)).
      * rewrite concat_app, app_length. apply Nat.add_le_mono_l. destruct (skipn j ls) as [|l r]; cbn; [lia|]. rewrite app_length. lia.
      * clear. revert ls. induction j as [|j IH]; intros [|l ls]; try reflexivity. specialize (IH ls). cbn [firstn skipn app] in *. f_equal. exact IH.
    + apply Nat.le_trans with (List.length (List.concat (firstn k ls))); [|lia].
      rewrite <- (firstn_skipn (S j) (firstn k ls)), concat_app, app_length, firstn_firstn, Nat.min_l by lia. lia.
  - apply andb_true_iff in H as (H1 & H2). apply Nat.eqb_eq in H1. apply Nat.leb_le in H2. unfold clamp. rewrite H1. cbv zeta.
    destruct (skipn _ _); lia.
Qed.
Lemma firstn_len_mono s a b : a <= b -> str_len (firstn a s) <= str_len (firstn b s).
Proof. intro H. rewrite <- (firstn_skipn a (firstn b s)), firstn_firstn, Nat.min_l, str_len_app by exact H. lia. Qed.
(** [source_substring] does not panic on any span whose end is not before its start, even one of
    another text. *)
Theorem C33_substring_never_panics src sp : 1 <= lc_line (sp_start sp) -> lc_leb (sp_start sp) (sp_end sp) = true ->
  exists lo hi, lo <= hi <= List.length src /\ source_substring src sp = Some (substring src lo hi).
Proof.
  intros H1 H2. exists (clamp src (sp_start sp)), (clamp src (sp_end sp)).
  destruct (clamp_spec src (sp_start sp)) as (A1 & A2). destruct (clamp_spec src (sp_end sp)) as (B1 & B2).
  pose proof (clamp_mono src _ _ H1 H2). split; [lia|]. unfold source_substring, byte_range. rewrite A2, B2. apply str_index_chars. lia.
Qed.
(** The character offset is not clamped: outside the text the two ranges disagree. *)
Theorem C33_char_offset_clamped_refuted :
  exists src p, lc_line p = 1 /\ byte_offset src p = str_len src /\ char_offset src p > List.length src.
Proof. exists (T "ab"), (LC 1 7). vm_compute. repeat split; repeat constructor. Qed.
Example C33_example : let src := T "a" ++ [369; 10; 233; 98; 99]%N in
  covers src (Span 1 (LC 1 1) (LC 2 2)) 1 5 /\ byte_range src (Span 1 (LC 1 1) (LC 2 2)) = (1, 7).
Proof.
  split; [|reflexivity]. split; [cbn; lia|]. split.
  - exists [], [97%N]. repeat split; auto. intros [|[]]; discriminate.
  - exists [97; 369; 10]%N, [233; 98]%N. repeat split; [intros [|[|[]]]; discriminate|]. right. exists [97; 369]%N. reflexivity.
Qed.

(** ** C34 *)
Lemma digits_prefix a b x y : forallb is_digit a = true -> forallb is_digit b = true ->
  match x with c :: _ => is_digit c = false | [] => True end -> match y with c :: _ => is_digit c = false | [] => True end ->
  a ++ x = b ++ y -> a = b /\ x = y.
Proof.
  revert b. induction a as [|c a IH]; intros [|d b] Ha Hb Hx Hy E; cbn in *.
  - auto.
  - subst x. apply andb_true_iff in Hb as (Hd & _). cbn in Hx. congruence.
  - subst y. apply andb_true_iff in Ha as (Hd & _). cbn in Hy. congruence.
  - injection E as <- E. apply andb_true_iff in Ha as (_ & Ha), Hb as (_ & Hb). destruct (IH b Ha Hb Hx Hy E) as (-> & ->). auto.
Qed.
Lemma dec_inj m n : dec m = dec n -> m = n.
Proof. intro E. rewrite <- (read_dec m), <- (read_dec n), E. reflexivity. Qed.
(** the text of the two end points *)
Theorem C34_format sl sc el ec file :
  span_display (Span file (LC sl sc) (LC el ec)) =
    numeral sl ++ T ":" ++ numeral (S sc) ++ T ".." ++ numeral el ++ T ":" ++ numeral ec.
Proof. unfold span_display. cbn [sp_start sp_end lc_line lc_col]. rewrite Nat.add_1_r, <- !dec_numeral. reflexivity. Qed.
(** two spans with the same text have the same end points *)
Theorem C34_injective a b : span_display a = span_display b -> sp_start a = sp_start b /\ sp_end a = sp_end b.
Proof.
  intro E. unfold span_display in E. cbn [app] in E.
  apply digits_prefix in E as (E1 & E); [|apply dec_digits|apply dec_digits|reflexivity|reflexivity]. injection E as E.
  apply digits_prefix in E as (E2 & E); [|apply dec_digits|apply dec_digits|reflexivity|reflexivity]. injection E as E.
  apply digits_prefix in E as (E3 & E); [|apply dec_digits|apply dec_digits|reflexivity|reflexivity]. injection E as E4.
  apply dec_inj in E1, E2, E3, E4. apply Nat2N.inj in E1, E2, E3, E4.
  destruct a as [fa [al ac] [bl bc]], b as [fb [al' ac'] [bl' bc']]. cbn in *. split; f_equal; lia.
Qed.
(** the numbers printed for a span of the text are the 1-based line and column of its first
    character and those of its last character *)
Theorem C34_first_and_last_character src sp lo hi first_ last_ : covers src sp lo hi -> lo < hi ->
  nth_error src (hi - 1) <> Some 10%N ->
  at_position src lo first_ -> at_position src (hi - 1) last_ ->
  span_display sp = numeral (lc_line first_) ++ T ":" ++ numeral (S (lc_col first_)) ++ T ".." ++
                    numeral (lc_line last_) ++ T ":" ++ numeral (S (lc_col last_)).
Proof.
  intros ((H1 & H2) & Hs & He) Hlt Hnl Hf Hl.
  assert (U : forall off p q, at_position src off p -> at_position src off q -> p = q).
  { intros off p q (d & l & E & Hn & Hd & E1 & E2) (d' & l' & E' & Hn' & Hd' & E1' & E2').
    assert (X : d = d' /\ l = l').
    { rewrite E in E'. clear - E' Hn Hn' Hd Hd'.
      assert (L : forall d d' l l' : text, d ++ l = d' ++ l' -> ~ In 10%N l -> (d' = [] \/ exists x, d' = x ++ [10%N]) -> List.length d' <= List.length d).
      { intros a a' b b' E Hb [->|(x & ->)]; [cbn; lia|]. destruct (Nat.le_gt_cases (List.length (x ++ [10%N])) (List.length a)) as [H|H]; [exact H|]. exfalso.
        apply Hb. rewrite app_length in H. cbn in H. assert (Hi : nth_error (a ++ b) (List.length x) = Some 10%N).
        { rewrite E, <- app_assoc, nth_error_app2, Nat.sub_diag by lia. reflexivity. }
        rewrite nth_error_app2 in Hi by lia. apply nth_error_In in Hi. exact Hi. }
      assert (Hlen : List.length d = List.length d') by (apply Nat.le_antisymm; [apply (L d' d l' l)|apply (L d d' l l')]; auto).
      clear L. revert d' Hlen E' Hd Hd'. induction d as [|x d IH]; intros [|y d'] Hlen E' _ _; try discriminate; [auto|].
      cbn in E', Hlen. injection E' as -> E'. injection Hlen as Hlen. clear Hn Hn'. revert d' Hlen E'. clear IH.
      induction d as [|z d IH]; intros [|z' d'] Hl E; try discriminate; [cbn in E; subst; auto|]. cbn in *. injection E as -> E. injection Hl as Hl.
      destruct (IH d' Hl E) as (X & ->). injection X as ->. auto. }
    destruct X as (-> & ->). destruct p, q. cbn in *. congruence. }
  assert (Hend : at_position src hi (LC (lc_line last_) (S (lc_col last_)))).
  { destruct Hl as (d & l & E & Hn & Hd & E1 & E2). destruct (nth_error src (hi - 1)) as [c|] eqn:Ec; [|apply nth_error_None in Ec; lia].
    exists d, (l ++ [c]). split.
    - assert (F : firstn hi src = firstn (hi - 1) src ++ [c]).
      { clear - Ec Hlt. assert (E : hi = S (hi - 1)) by lia. rewrite E at 1. set (k := hi - 1) in *. clearbody k. clear - Ec. revert src Ec.
        induction k as [|k IH]; intros [|x src] Ec; try discriminate; cbn in Ec; [injection Ec as ->; reflexivity|]. cbn [firstn app]. f_equal. apply IH. exact Ec. }
      rewrite F, E, app_assoc. reflexivity.
    - split; [intro F; apply in_app_or in F as [F|[F|[]]]; [exact (Hn F)|congruence]|]. split; [exact Hd|]. cbn [lc_line lc_col]. split; [exact E1|].
      rewrite app_length, E2. cbn. lia. }
  pose proof (U _ _ _ Hs Hf) as Es. pose proof (U _ _ _ He Hend) as Ee. destruct sp as [f s e]. cbn [sp_start sp_end] in *. subst s e. destruct first_ as [a b]. rewrite C34_format. reflexivity.
Qed.
(** one character: equal columns *)
Theorem C34_one_character line col file :
  span_display (Span file (LC line col) (LC line (S col))) =
    numeral line ++ T ":" ++ numeral (S col) ++ T ".." ++ numeral line ++ T ":" ++ numeral (S col).
Proof. apply C34_format. Qed.
Example C34_example : span_display (Span 1 (LC 3 4) (LC 3 16)) = T "3:5..3:16".
Proof. reflexivity. Qed.
(** the source a span's first/last characters theorem speaks of *)
Example C34_example_text : covers (T "ab cd") (Span 1 (LC 1 3) (LC 1 5)) 3 5 /\ nth_error (T "ab cd") 4 <> Some 10%N /\
  at_position (T "ab cd") 4 (LC 1 4).
Proof.
  split; [split; [cbn; lia|]; split|split; [discriminate|]].
  - exists [], (T "ab "). repeat split; auto. cbn. intuition discriminate.
  - exists [], (T "ab cd"). repeat split; auto. cbn. intuition discriminate.
  - exists [], (T "ab c"). repeat split; auto. cbn. intuition discriminate.
Qed.
(** A span ending with a newline would print column 0 of the next line. *)
Theorem C34_last_character_newline_refuted : exists src sp,
  covers src sp 0 2 /\ span_display sp = T "1:1..2:0".
Proof.
  exists [97; 10]%N, (Span 1 (LC 1 0) (LC 2 0)). split; [|reflexivity]. split; [cbn; lia|]. split.
  - exists [], []. repeat split; auto.
  - exists [97; 10]%N, []. repeat split; auto. right. exists [97%N]. reflexivity.
Qed.

Print Assumptions C33_offsets_invert_positions.
Print Assumptions C33_lexer_positions.
Print Assumptions C33_ranges_are_the_extent.
Print Assumptions C33_byte_offset_clamped.
Print Assumptions C33_substring_never_panics.
Print Assumptions C33_char_offset_clamped_refuted.
Print Assumptions C34_format.
Print Assumptions C34_injective.
Print Assumptions C34_first_and_last_character.
Print Assumptions C34_one_character.
Print Assumptions C34_last_character_newline_refuted.
