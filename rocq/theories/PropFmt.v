(** * Properties C31, C32, C42: the token formatter. *)
From Verif Require Import Base Float Literal Spec Fmt FmtFacts Examples.
Local Open Scope nat_scope.

(** ** C31: pretty and compact output differ only in whitespace between tokens. *)
(** the spellings of the tokens, in order *)
Fixpoint spell1 (t : tt) : list text :=
  match t with
  | TIdent n _ => [n]
  | TPunct c _ _ => [[c]]
  | TLit r _ => [r]
  | TGroup d _ l =>
      let inner := (fix go l := match l with [] => [] | x :: r => spell1 x ++ go r end) l in
      match d with
      | DParen => [T "("] ++ inner ++ [T ")"]
      | DBracket => [T "["] ++ inner ++ [T "]"]
      | DBrace => [T "{"] ++ inner ++ [T "}"]
      | DNone => inner
      end
  end.
Fixpoint spell (l : list tt) : list text := match l with [] => [] | x :: r => spell1 x ++ spell r end.
(** [t] consists of the pieces in order, with gaps of [gap] characters before, between and after *)
Inductive spaced (gap : char -> Prop) : list text -> text -> Prop :=
| sd_end g : Forall gap g -> spaced gap [] g
| sd_piece g p ps t : Forall gap g -> spaced gap ps t -> spaced gap (p :: ps) (g ++ p ++ t).

Lemma spaced_app gap ps qs t u : spaced gap ps t -> spaced gap qs u -> spaced gap (ps ++ qs) (t ++ u).
Proof.
  induction 1 as [g Hg|g p ps t Hg H IH]; intro Hu; cbn [app].
  - destruct Hu as [g2 H2|g2 p2 ps2 t2 H2 H3]; [constructor; apply Forall_app; auto|].
    rewrite app_assoc. constructor; [apply Forall_app; auto|exact H3].
  - rewrite <- !app_assoc. constructor; auto.
Qed.
Lemma spaced_gap gap g : Forall gap g -> spaced gap [] g.
Proof. apply sd_end. Qed.
Lemma spaced_one gap p : spaced gap [p] p.
Proof. rewrite <- (app_nil_r p) at 2. apply (sd_piece gap [] p [] []); constructor; constructor. Qed.
Lemma spaced_eq gap ps qs t u : spaced gap ps t -> ps = qs -> t = u -> spaced gap qs u.
Proof. congruence. Qed.

Section Gap.
Context (ind : option text) (gap : char -> Prop).
Context (G : match ind with None => gap 32%N | Some s => gap 32%N /\ gap 10%N /\ Forall gap s end).
Lemma g_newline sp : Forall gap (List.concat (c_newline ind sp)).
Proof. destruct ind as [s|], sp; cbn in *; repeat constructor; tauto. Qed.
Lemma g_indent n : Forall gap (List.concat (c_indent ind n)).
Proof. destruct ind as [s|]; cbn; [|constructor]. induction n as [|n IH]; cbn; [constructor|]. apply Forall_app. tauto. Qed.
Lemma g_pre (sp : spacing) : Forall gap (List.concat match sp with Joint => [] | Alone => [[32%N]] end).
Proof. destruct sp; cbn; repeat constructor. destruct ind; tauto. Qed.
Lemma spaced_loop l : Forall (fun t => forall lvl more sp, spaced gap (spell1 t) (List.concat (fst (c_tree ind lvl t more sp)))) l ->
  forall lvl sp, spaced gap (spell l) (List.concat (c_loop ind lvl l sp)).
Proof.
  induction 1 as [|x r Hx Hr IH]; intros lvl sp; [apply spaced_gap; constructor|].
  rewrite c_loop_cons. specialize (Hx lvl (match r with [] => false | _ => true end) sp). destruct (c_tree ind lvl x _ sp) as (a, sp').
  rewrite concat_app. apply spaced_app; [exact Hx|apply IH].
Qed.
Lemma spaced_tree t : forall lvl more sp, spaced gap (spell1 t) (List.concat (fst (c_tree ind lvl t more sp))).
Proof.
  induction t as [n s|c g s|r s|d s l IH] using tt_ind'; intros lvl more sp.
  - cbn [c_tree fst spell1]. rewrite concat_app. apply (spaced_app gap [] [n]); [apply spaced_gap, g_pre|].
    eapply spaced_eq; [apply spaced_one|reflexivity|]. unfold c_ident. destruct n as [|a [|b r]]; cbn; rewrite ?app_nil_r; try reflexivity.
    destruct (_ && _); cbn; rewrite ?app_nil_r; reflexivity.
  - cbn [c_tree spell1]. destruct (_ && more); cbn [fst]; rewrite !concat_app; (apply (spaced_app gap [] [[c]]); [apply spaced_gap, g_pre|]).
    + apply (spaced_app gap [[c]] []); [apply spaced_one|]. apply spaced_gap. apply Forall_app. split; [apply g_newline|apply g_indent].
    + apply spaced_one.
  - cbn [c_tree fst spell1]. rewrite concat_app. apply (spaced_app gap [] [r]); [apply spaced_gap, g_pre|]. cbn. rewrite app_nil_r. apply spaced_one.
  - assert (Hin : forall lvl, spaced gap (spell l) (List.concat (c_write ind lvl l))).
    { intro lv. unfold c_write. rewrite concat_app. apply (spaced_app gap []); [apply spaced_gap, g_indent|]. apply spaced_loop, IH. }
    assert (Hs : (fix go l := match l with [] => [] | x :: r => spell1 x ++ go r end) l = spell l) by reflexivity.
    rewrite c_tree_group. cbv zeta. cbn [spell1]. rewrite Hs. destruct (delimiters d) as [(o, c)|] eqn:Hd.
    + assert (Hb : spaced gap (spell l) (List.concat match l with [] => [] | _ => c_newline ind Joint ++ c_write ind (S lvl) l ++ c_newline ind Joint ++ c_indent ind lvl end)).
      { destruct l as [|x l']; [apply spaced_gap; constructor|]. rewrite !concat_app. apply (spaced_app gap [] (spell (x :: l'))); [apply spaced_gap, g_newline|].
        rewrite <- (app_nil_r (spell (x :: l'))). apply spaced_app; [apply Hin|]. apply spaced_gap. apply Forall_app. split; [apply g_newline|apply g_indent]. }
      assert (Hp : spell1 (TGroup d s l) = [] ++ [[o]] ++ spell l ++ [[c]] ++ []).
      { destruct d; cbn in Hd; try discriminate; injection Hd as <- <-; cbn [spell1]; rewrite Hs; reflexivity. }
      cbn [spell1] in Hp. rewrite Hs in Hp. rewrite Hp.
      destruct more; cbn [fst]; rewrite !concat_app; (apply spaced_app; [apply spaced_gap, g_pre|]); (apply spaced_app; [apply spaced_one|]);
        (apply spaced_app; [exact Hb|]).
      * apply spaced_app; [apply spaced_one|]. apply spaced_gap. apply Forall_app. split; [apply g_newline|apply g_indent].
      * apply spaced_one.
    + destruct d; try discriminate. cbn [fst]. rewrite concat_app. apply (spaced_app gap []); [apply spaced_gap, g_pre|apply Hin].
Qed.
Lemma spaced_write lvl l : spaced gap (spell l) (text_with ind lvl l).
Proof.
  rewrite text_with_calls. unfold c_write. rewrite concat_app. apply (spaced_app gap []); [apply spaced_gap, g_indent|].
  apply spaced_loop. apply Forall_forall. intros t _. apply spaced_tree.
Qed.
End Gap.

(** Every indenting formatter writes the tokens in order, and between them only newlines, spaces
    and characters of its indentation string. *)
Theorem C31_only_whitespace_between : forall ind lvl l,
  spaced (fun c => c = 10%N \/ c = 32%N \/ In c ind) (spell l) (text_with (Some ind) lvl l).
Proof. intros ind lvl l. apply spaced_write. split; [auto|]. split; [auto|]. apply Forall_forall. auto. Qed.
Print Assumptions C31_only_whitespace_between.
(** The compact formatter writes the same tokens, and between them only spaces. *)
Theorem C31_compact_spaces_only : forall lvl l, spaced (fun c => c = 32%N) (spell l) (text_with None lvl l).
Proof. intros lvl l. apply spaced_write. reflexivity. Qed.
Print Assumptions C31_compact_spaces_only.
(** ... so it is one line unless a token contains a line break itself *)
Theorem C31_compact_is_one_line : forall lvl l, In 10%N (text_with None lvl l) <-> exists p, In p (spell l) /\ In 10%N p.
Proof.
  intros lvl l. pose proof (C31_compact_spaces_only lvl l) as H. induction H as [g Hg|g p ps t Hg H IH].
  - split; [|intros (p & [] & _)]. intro Hi. rewrite Forall_forall in Hg. specialize (Hg _ Hi). discriminate.
  - rewrite !in_app_iff, IH. split.
    + intros [Hi|[Hi|(q & Hq & Hi)]].
      * rewrite Forall_forall in Hg. specialize (Hg _ Hi). discriminate.
      * exists p. cbn. auto.
      * exists q. cbn. auto.
    + intros (q & [<-|Hq] & Hi); [auto|]. right. right. eauto.
Qed.
Print Assumptions C31_compact_is_one_line.
(** the two displays of a node: [{}] is pretty, [{:#}] is compact *)
Theorem C31_displays_agree : forall l,
  spaced (fun c => c = 10%N \/ c = 32%N) (spell l) (to_text false l) /\ spaced (fun c => c = 32%N) (spell l) (to_text true l).
Proof.
  intro l. rewrite !to_text_with. split.
  - apply spaced_write. split; [auto|]. split; [auto|]. repeat (apply Forall_cons; [auto|]). constructor.
  - apply spaced_write. reflexivity.
Qed.
Print Assumptions C31_displays_agree.

(** the doc test of [pretty] and [compact], abridged (util.rs:514-555, 584-612) *)
Definition doc_tokens : list tt :=
  [TGroup DBracket call_site
     [TLit (T "7.43") call_site; TPunct 42 Alone call_site;
      TGroup DBrace call_site
        [TIdent (T "zzz") call_site; TGroup DParen call_site [TLit (T "3333") call_site; TPunct 39 Joint call_site; TIdent (T "a") call_site];
         TPunct 33 Joint call_site; TPunct 61 Alone call_site; TLit (T "5") call_site; TPunct 59 Alone call_site;
         TIdent (T "ww") call_site; TPunct 59 Alone call_site; TGroup DBrace call_site []; TGroup DParen call_site []; TPunct 43 Alone call_site];
      TPunct 44 Alone call_site; TIdent (T "x") call_site; TPunct 44 Alone call_site; TIdent (T "y") call_site]].
Example C31_ex_pretty : to_text false doc_tokens = T
"[
    7.43 * {
        zzz (
            3333 'a
        )
        != 5 ;
        ww ;
        {}
        ()
        +
    }
    ,
    x ,
    y
]".
Proof. vm_compute. reflexivity. Qed.
Example C31_ex_compact : to_text true doc_tokens = T "[7.43 * {zzz (3333 'a) != 5 ; ww ; {} () +} , x , y]".
Proof. vm_compute. reflexivity. Qed.

(** ** C32: state and errors. *)
Theorem C32_level_is_restored : forall W (ws : text -> W -> bool * W) l f f', write ws l f = (Some Datatypes.tt, f') ->
  f_level f' = f_level f /\ f_indent f' = f_indent f.
Proof.
  intros W ws l [lvl ind w] f' H. pose proof (makes_write ws ind lvl l w) as M. destruct (feed ws _ w) as ([|], w').
  - rewrite M in H. injection H as <-. auto.
  - destruct M as (l' & M). rewrite M in H. discriminate.
Qed.
Print Assumptions C32_level_is_restored.
(** What is written depends on the stream, the indentation and the level only: every writer
    receives the same calls, in the same order, up to and including the first one that fails; the
    error is passed on, and there is no call after it. *)
Theorem C32_stops_at_the_first_error : forall ind lvl l, exists calls, List.concat calls = text_with ind lvl l /\
  forall W (ws : text -> W -> bool * W) w, exists f',
    write ws l (Formatter lvl ind w) = ((if fst (feed ws calls w) then Some Datatypes.tt else None), f') /\
    f_writer f' = snd (feed ws calls w).
Proof.
  intros ind lvl l. exists (c_write ind lvl l). split; [rewrite text_with_calls; reflexivity|].
  intros W ws w. pose proof (makes_write ws ind lvl l w) as M. destruct (feed ws _ w) as ([|], w').
  - eexists. split; [exact M|reflexivity].
  - destruct M as (l' & M). eexists. split; [exact M|reflexivity].
Qed.
Print Assumptions C32_stops_at_the_first_error.
(** For a writer that on success appends the text, and on failure at most a prefix of it: what has
    been written is always a prefix of the full output, and all of it on success. *)
Theorem C32_prefix_is_written : forall W (ws : text -> W -> bool * W) (content : W -> text),
  (forall s w w', ws s w = (true, w') -> content w' = content w ++ s) ->
  (forall s w w', ws s w = (false, w') -> exists p q, s = p ++ q /\ content w' = content w ++ p) ->
  forall ind lvl l w r f', write ws l (Formatter lvl ind w) = (r, f') ->
  exists p q, text_with ind lvl l = p ++ q /\ content (f_writer f') = content w ++ p /\ (r <> None -> q = []).
Proof.
  intros W ws content Hok Herr ind lvl l w r f' H. destruct (C32_stops_at_the_first_error ind lvl l) as (calls & Hc & Hall).
  destruct (Hall W ws w) as (f2 & E & Hw). rewrite E in H. injection H as <- <-. rewrite Hw, <- Hc. clear - Hok Herr.
  revert w. induction calls as [|s calls IH]; intro w; cbn [feed List.concat].
  - exists [], []. cbn. rewrite app_nil_r. auto.
  - destruct (ws s w) as ([|], w') eqn:Es.
    + destruct (IH w') as (p & q & H1 & H2 & H3). exists (s ++ p), q. rewrite H1, <- app_assoc. split; [reflexivity|]. split; [|exact H3].
      rewrite H2, (Hok _ _ _ Es), <- app_assoc. reflexivity.
    + destruct (Herr _ _ _ Es) as (p & q & -> & H2). exists p, (q ++ List.concat calls). rewrite <- app_assoc. split; [reflexivity|]. split; [exact H2|].
      cbn. congruence.
Qed.
Print Assumptions C32_prefix_is_written.
(** So writing again after success continues like a fresh formatter at that level. *)
Theorem C32_write_twice : forall W (ws : text -> W -> bool * W) l1 l2 f f1 f2,
  write ws l1 f = (Some Datatypes.tt, f1) -> write ws l2 f1 = (Some Datatypes.tt, f2) ->
  write ws l2 (Formatter (f_level f) (f_indent f) (f_writer f1)) = (Some Datatypes.tt, f2).
Proof.
  intros W ws l1 l2 f f1 f2 H1 H2. destruct (C32_level_is_restored W ws l1 f f1 H1) as (<- & <-). destruct f1. exact H2.
Qed.
Print Assumptions C32_write_twice.
Theorem C32_write_twice_text : forall ind lvl l1 l2,
  f_writer (snd (write string_write l2 (snd (write string_write l1 (Formatter lvl ind []))))) = text_with ind lvl l1 ++ text_with ind lvl l2.
Proof. intros. rewrite !text_with_calls, !write_string. cbn [snd]. rewrite write_string. reflexivity. Qed.
Print Assumptions C32_write_twice_text.
(** After an error the level is not restored: the formatter keeps indenting by where it failed. *)
Definition small_buffer (n : nat) (s w : text) : bool * text :=
  if Nat.leb (List.length (w ++ s)) n then (true, w ++ s) else (false, w).
Theorem C32_level_after_error_refuted : exists l f f', write (small_buffer 3) l f = (None, f') /\ f_level f = 0 /\ f_level f' = 2.
Proof.
  exists [TGroup DParen call_site [TGroup DParen call_site [TIdent (T "long") call_site]]], (compact []), (Formatter 2 None (T "((")).
  repeat split. 
Qed.
Example C32_ex : exists f', write (small_buffer 11) doc_tokens (pretty []) = (None, f') /\ f_writer f' = T "[
    7.43 ".
Proof. eexists. split; vm_compute; reflexivity. Qed.
Example C32_ex_ok : exists f', write (small_buffer 1000) doc_tokens (pretty []) = (Some Datatypes.tt, f').
Proof. eexists. vm_compute. reflexivity. Qed.

(** ** C42: with_indent *)
Lemma trim_start_spec {U : unicode} s : exists p, s = p ++ trim_start s /\ Forall (fun c => is_white c = true) p /\
  match trim_start s with [] => True | c :: _ => is_white c = false end.
Proof.
  induction s as [|c s IH]; cbn; [exists []; auto|]. destruct (is_white c) eqn:E.
  - destruct IH as (p & H1 & H2 & H3). exists (c :: p). cbn. rewrite <- H1. auto.
  - exists []. auto.
Qed.
Lemma trim_nil {U : unicode} s : trim s = [] <-> Forall (fun c => is_white c = true) s.
Proof.
  assert (N : forall s, trim_start s = [] <-> Forall (fun c => is_white c = true) s).
  { clear. intro s. induction s as [|c s IH]; cbn; [split; auto|]. destruct (is_white c) eqn:E.
    - rewrite IH. split; [auto|intro H; inversion H; auto].
    - split; [discriminate|intro H; inversion H; congruence]. }
  unfold trim. destruct (trim_start_spec s) as (p & Hs & Hp & Hh). split.
  - intro H. apply (f_equal (@rev _)) in H. rewrite rev_involutive in H. cbn in H. apply N in H. apply Forall_rev in H. rewrite rev_involutive in H.
    rewrite Hs. apply Forall_app. auto.
  - intro H. apply N in H. rewrite H. reflexivity.
Qed.
Theorem C42_accepts_exactly_whitespace : forall (U : unicode) W s (w : W),
  (with_indent s w <> None <-> forall c, In c s -> is_white c = true) /\
  (forall f, with_indent s w = Some f -> f_level f = 0 /\ f_indent f = Some s /\ f_writer f = w).
Proof.
  intros U W s w. unfold with_indent. split.
  - destruct (trim s) eqn:E; (split; [intro H|intros H]).
    + apply Forall_forall. apply trim_nil. exact E.
    + discriminate.
    + congruence.
    + exfalso. assert (F : trim s = []) by (apply trim_nil, Forall_forall; exact H). congruence.
  - destruct (trim s); [|discriminate]. intros f H. injection H as <-. auto.
Qed.
Print Assumptions C42_accepts_exactly_whitespace.
(** every indentation the formatter can have (made by its constructors) is whitespace, so what is
    between the tokens is whitespace *)
Theorem C42_output_between_tokens_is_whitespace : forall (U : unicode) s f, with_indent s (@nil N) = Some f ->
  forall l, spaced (fun c => is_white c = true) (spell l) (f_writer (snd (write string_write l f))).
Proof.
  intros U s f H l. destruct (C42_accepts_exactly_whitespace U _ s (@nil N)) as (H1 & H2). destruct (H2 f H) as (E1 & E2 & E3).
  destruct f as [lvl ind w]. cbn in E1, E2, E3. subst. rewrite H in H1. apply (spaced_write (Some s)).
  split; [reflexivity|]. split; [reflexivity|]. apply Forall_forall. apply H1. discriminate.
Qed.
Print Assumptions C42_output_between_tokens_is_whitespace.
Definition ascii_only : unicode := {| u_printable _ := false; u_xid_start _ := false; u_xid_continue _ := false; u_white _ := false |}.
Example C42_ex : with_indent (U := ascii_only) [32; 32; 9]%N (@nil N) <> None /\ with_indent (U := ascii_only) (T "  not ws ") (@nil N) = None.
Proof. split; [discriminate|reflexivity]. Qed.

Print Assumptions C32_level_after_error_refuted.
