(** * PropJoin: documents written one below the other are a document of many (C68). *)
From Verif Require Import Base Float Literal Syn Ast Derive Grammar Spec LitSpec LiteralFacts Reprint LitDenote SynFacts Lawful Mono
  Combinators GrammarBeh Assoc ManyFacts Sound Sim RoundFacts Examples PropLit PropRoundtrip Term TermCheck NoPanic Typed LL1 LL1Facts LL1Check PropLL1
  Fmt FmtFacts Lexer Offsets LexFacts LexWf LexOut LexRun LexPrint PropLex Writable PropStr ParsedTyped PropAgain PropEq PropExtend Laid PropLaid Joined Lang PropLang.
Local Open Scope nat_scope.

(** ** Specification *)
(** the texts, each with a line break after it *)
Definition one_below_another (srcs : list text) : text := List.concat (map (fun s => s ++ [10%N]) srcs).
(** the [Many<T>] with these items (ast.rs:1443: [Punctuated<T, NotEof>], no [NotEof] after the last item) *)
Fixpoint many_of (vs : list val) : list (val * val) * option val :=
  match vs with
  | [] => ([], None)
  | [v] => ([], Some v)
  | v :: r => let (inner, last) := many_of r in ((v, VUnit) :: inner, last)
  end.
Definition many (vs : list val) : val := VPunct (fst (many_of vs)) (snd (many_of vs)).
(** [src] is a text of the tokens [ts], laid out as in C58: every token may be followed by what follows it *)
Definition written {U : unicode} (file : nat) (src : text) (ts : list tt) : Prop :=
  forallb valid_char src = true /\ lex file src = LOk ts /\ laid ts src [].

Lemma many_cons v v2 vs : many_of (v :: v2 :: vs) = ((v, VUnit) :: fst (many_of (v2 :: vs)), snd (many_of (v2 :: vs))).
Proof. change (many_of (v :: v2 :: vs)) with (let (inner, last) := many_of (v2 :: vs) in ((v, VUnit) :: inner, last)). destruct (many_of (v2 :: vs)). reflexivity. Qed.
Lemma many_last v vs : snd (many_of (v :: vs)) <> None.
Proof. revert v. induction vs as [|w vs IH]; intro v; [discriminate|]. rewrite many_cons. apply IH. Qed.
Lemma many_spelled {U : unicode} K E t : forall vs tss, Forall2 (spells K E t) vs tss -> spells K E (TyMany t) (many vs) (List.concat tss).
Proof.
  intros vs tss H.
  assert (X : exists ts us, List.concat tss = ts ++ us /\ spells_pairs K E t TyNotEof (fst (many_of vs)) ts /\ spells_opt K E t (snd (many_of vs)) us /\ (snd (many_of vs) = None -> fst (many_of vs) = [])).
  { induction H as [|v a vs tss Hv H IH]; [exists [], []; split; [reflexivity|]; split; [constructor|]; split; [constructor|reflexivity]|]. destruct H as [|v2 a2 vs tss Hv2 H].
    - exists [], a. cbn. rewrite app_nil_r. split; [reflexivity|]. split; [constructor|]. split; [constructor; exact Hv|discriminate].
    - destruct IH as (ts & us & E1 & P & O & N). cbn [List.concat] in E1 |- *. rewrite E1. exists (a ++ [] ++ ts), us. split; [rewrite <- app_assoc; reflexivity|].
      rewrite many_cons. cbn [fst snd]. split; [|split; [exact O|]].
      + apply sps_cons; [exact Hv|constructor|exact P].
      + intro Q. exfalso. exact (many_last v2 vs Q). }
  destruct X as (ts & us & -> & P & O & N). unfold many, TyMany. constructor; auto.
Qed.

Section C68.
Context {U : unicode} (sane : sane_tables U) (K : char -> bool) (g : list tdef) (t : ty).
Notation E := (env_of g).
Context (Hg : ll1 g (TyMany t) = true) (Hfree : spacing_free K g t).
(** Tokens: documents accepted one by one are, one after the other, accepted as many. *)
Theorem C68_joined_tokens tss vs : Forall2 (parses E t) tss vs -> Forall (fun ts => visible ts = true /\ lits_ok ts) tss -> tame (List.concat tss) ->
  parses E (TyMany t) (List.concat tss) (many vs).
Proof.
  intros H Hts Htm. destruct Hfree as (FE & FT).
  assert (HV : visible (List.concat tss) = true /\ lits_ok (List.concat tss)).
  { clear H Htm. induction Hts as [|ts tss (A & B) H (IV & IL)]; [split; [reflexivity|constructor]|]. cbn [List.concat]. rewrite visible_app, A, IV. split; [reflexivity|].
    unfold lits_ok in *. rewrite lits_app, Forall_app. auto. }
  apply (C62_what_is_spelled_is_read K g (TyMany t) Hg); try apply HV; [eapply env_leaves_impl; [apply free_sharp|exact FE]|split; [eapply leaves_impl; [apply free_sharp|exact FT]|exact I]|exact Htm|].
  apply many_spelled. clear - H Hts FE FT. induction H as [|ts v tss vs Hp H IH]; [constructor|]. apply Forall_cons_iff in Hts as ((A & B) & Hts). constructor; [|apply IH; exact Hts].
  apply spells_free; [exact FE|exact FT|]. apply parsed_spelled in Hp. rewrite (visible_flat ts A) in Hp. exact Hp.
Qed.
(** Texts: the joined text has the tokens of the parts, in order; ... *)
Theorem C68_joined_lexes docs file : Forall (fun d : text * list tt => exists f, written f (fst d) (snd d)) docs ->
  exists ts, lex file (one_below_another (map fst docs)) = LOk ts /\ same_tokens ts (List.concat (map snd docs)).
Proof.
  intro H. assert (X : wf (List.concat (map snd docs)) /\ laid (List.concat (map snd docs)) (one_below_another (map fst docs)) []).
  { induction H as [|(s, ts) docs (f & Hv & Hl & Hd) H (IW & IL)].
    - split; [exact I|]. apply (l_end [] []). constructor.
    - cbn [map fst snd List.concat one_below_another] in *. split; [apply wf_app; [apply (lex_out sane f s ts Hv Hl)|exact IW]|].
      unfold one_below_another. cbn [map List.concat]. rewrite <- app_assoc. cbn [app]. apply laid_below; [exact Hd|exact IL]. }
  destruct X as (W & L). destruct (C58_every_layout_lexes sane _ _ file W L) as (Q & _). exact Q.
Qed.
(** ... so documents written one below another are read as all their trees, in order, up to source locations. *)
Theorem C68_joined_texts (docs : list (text * list tt * val)) file : Forall (fun '(s, ts, v) => exists f, written f s ts /\ from_str E t f s v) docs ->
  tame (List.concat (map (fun d => snd (fst d)) docs)) ->
  exists w, from_str E (TyMany t) file (one_below_another (map (fun d => fst (fst d)) docs)) w /\ strip w = strip (many (map snd docs)).
Proof.
  intros H Htm. destruct (C68_joined_lexes (map fst docs) file) as (ts & L & S).
  { apply Forall_map. eapply Forall_impl; [|exact H]. intros ((s, l), v) (f & Hw & _). exists f. exact Hw. }
  rewrite !map_map in L, S.
  assert (P : parses E (TyMany t) (List.concat (map (fun d => snd (fst d)) docs)) (many (map snd docs))).
  { apply C68_joined_tokens; [| |exact Htm].
    - clear Htm L S. induction H as [|((s, l), v) docs (f & (Hv & Hl & _) & F) H IH]; [constructor|]. cbn [map fst snd]. constructor; [|exact IH].
      apply from_str_parses in F as (l' & Hl' & F). assert (l' = l) as -> by congruence. exact F.
    - apply Forall_map. eapply Forall_impl; [|exact H]. intros ((s, l), v) (f & (Hv & Hl & _) & _). cbn [fst snd].
      split; [apply wf_visible, (lex_out sane f s l Hv Hl)|eapply lexed_lits_ok; eassumption]. }
  symmetry in S. destruct (C40_spans_do_not_matter U E (TyMany t) _ ts S) as (A & _). destruct (A _ P) as (w & F & Sw). exists w. split; [|exact Sw].
  apply from_str_parses. eauto.
Qed.
End C68.

(** The same with separators between the documents, and possibly after the last: a [Punctuated<T, P>], or a [Separated<T, P>] if none is after the last. *)
Section Separators.
Context {U : unicode} (K : char -> bool) (g : list tdef) (t p : ty).
Notation E := (env_of g).
Definition accepted (t : ty) (d : list tt * val) : Prop := parses E t (fst d) (snd d) /\ visible (fst d) = true /\ lits_ok (fst d).
Lemma accepted_spelled u d : spacing_free K g u -> accepted u d -> spells K E u (snd d) (fst d).
Proof. intros (FE & FT) (H & V & _). apply spells_free; [exact FE|exact FT|]. apply parsed_spelled in H. rewrite (visible_flat _ V) in H. exact H. Qed.
Context (Ft : spacing_free K g t) (Fp : spacing_free K g p).
Definition in_pairs (l : list ((list tt * val) * (list tt * val))) : list tt := List.concat (map (fun x => fst (fst x) ++ fst (snd x)) l).
Lemma pairs_spelled l : Forall (fun x => accepted t (fst x) /\ accepted p (snd x)) l ->
  spells_pairs K E t p (map (fun x => (snd (fst x), snd (snd x))) l) (in_pairs l) /\ visible (in_pairs l) = true /\ lits_ok (in_pairs l).
Proof.
  unfold in_pairs, lits_ok. induction 1 as [|(d, e) l (A & B) H (I1 & I2 & I3)]; [repeat split; constructor|]. cbn [map fst snd List.concat] in *.
  rewrite !visible_app, !lits_app, !Forall_app, I2, <- app_assoc. pose proof A as (_ & VA & LA). pose proof B as (_ & VB & LB). rewrite VA, VB. repeat split; try assumption.
  apply sps_cons; [apply accepted_spelled; assumption|apply accepted_spelled; assumption|exact I1].
Qed.
Theorem C68_punctuated_tokens l last : ll1 g (TyPunctuated t p) = true -> p <> TyNotEof -> Forall (fun x => accepted t (fst x) /\ accepted p (snd x)) l ->
  (forall d, last = Some d -> accepted t d) -> let ts := in_pairs l ++ match last with Some d => fst d | None => [] end in tame ts ->
  parses E (TyPunctuated t p) ts (VPunct (map (fun x => (snd (fst x), snd (snd x))) l) (option_map snd last)).
Proof.
  intros Hg Hn H Hl ts Htm. destruct (pairs_spelled l H) as (P & V & L).
  assert (X : spells_opt K E t (option_map snd last) (match last with Some d => fst d | None => [] end) /\ visible ts = true /\ lits_ok ts).
  { unfold ts, lits_ok. rewrite visible_app, V, lits_app, Forall_app. destruct last as [d|]; cbn [option_map].
    - pose proof (Hl d eq_refl) as A. pose proof A as (_ & VA & LA). split; [constructor; apply accepted_spelled; assumption|]. split; [exact VA|]. split; assumption.
    - split; [constructor|]. split; [reflexivity|]. split; [exact L|constructor]. }
  destruct X as (X1 & X2 & X3), Ft as (FE & FT), Fp as (_ & FP).
  apply (C62_what_is_spelled_is_read K g (TyPunctuated t p) Hg); try assumption; [eapply env_leaves_impl; [apply free_sharp|exact FE]|split; (eapply leaves_impl; [apply free_sharp|assumption])|].
  constructor; [exact P|exact X1|contradiction].
Qed.
Theorem C68_separated_tokens l last : ll1 g (TySeparated t p) = true -> Forall (fun x => accepted t (fst x) /\ accepted p (snd x)) l -> accepted t last ->
  tame (in_pairs l ++ fst last) -> parses E (TySeparated t p) (in_pairs l ++ fst last) (VPunct (map (fun x => (snd (fst x), snd (snd x))) l) (Some (snd last))).
Proof.
  intros Hg H A Htm. destruct (pairs_spelled l H) as (P & V & L). pose proof A as (_ & VA & LA). pose proof (accepted_spelled t last Ft A) as SA. destruct Ft as (FE & FT), Fp as (_ & FP).
  apply (C62_what_is_spelled_is_read K g (TySeparated t p) Hg); try assumption; [eapply env_leaves_impl; [apply free_sharp|exact FE]|split; (eapply leaves_impl; [apply free_sharp|assumption])| | |].
  - rewrite visible_app, V, VA. reflexivity.
  - unfold lits_ok in *. rewrite lits_app, Forall_app. auto.
  - constructor; assumption.
Qed.
End Separators.

(** ** Texts written by the library *)
Section Written.
Context {U : unicode} (sane : sane_tables U).
(** what a formatter writes for a token stream, with any indentation and at any level *)
Definition layout : Type := option text * nat.
Definition write_out (f : layout) (ts : list tt) : text := text_with (fst f) (snd f) ts.
Lemma joined_runs file src docs : Forall (fun d : layout * list tt => indentation (fst (fst d)) /\ wf (snd d)) docs -> forall g trees, white g ->
  exists l', same_tokens l' (List.concat (map snd docs)) /\
    run file src (LS (g ++ one_below_another (map (fun d => write_out (fst d) (snd d)) docs)) trees []) = LOk (trees ++ l').
Proof.
  induction 1 as [|((ind, lvl), ts) docs (Hi & Hw) H IH]; intros g trees Hg.
  - exists []. split; [reflexivity|]. rewrite !app_nil_r. apply run_end. exact Hg.
  - cbn [map fst snd List.concat] in *. unfold one_below_another, write_out at 1. cbn [map List.concat fst snd].
    match goal with |- context [_ ++ List.concat ?x] => change (List.concat x) with (one_below_another (map (fun d : layout * list tt => write_out (fst d) (snd d)) docs)) end.
    set (rest := one_below_another _) in *.
    assert (Hio : ind_ok ind). { destruct ind as [x|]; [|exact I]. cbn in *. eapply Forall_impl; [|exact Hi]. intros c Hc. unfold lex_white. rewrite Hc. reflexivity. }
    destruct (relexes_all sane file src ind Hio ts lvl Joint (g ++ List.concat (c_indent ind lvl)) (10%N :: rest) trees [] Hw (proj2 (Forall_app _ _ _) (conj Hg (white_indent ind Hio lvl))) eq_refl) as (g' & l1 & Hg' & E1 & St).
    destruct (IH (g' ++ [10%N]) (trees ++ l1)) as (l2 & E2 & R); [apply Forall_app; split; [exact Hg'|repeat constructor]|].
    exists (l1 ++ l2). split; [unfold same_tokens in *; rewrite !map_app, E1, E2; reflexivity|].
    rewrite <- (app_assoc g' [10%N] rest) in R. cbn [app] in R. rewrite (app_assoc trees l1 l2), <- R, <- (run_steps file src _ _ St). f_equal. f_equal.
    rewrite text_with_calls. unfold c_write, loop_text. rewrite concat_app, <- !app_assoc. reflexivity.
Qed.
Theorem C68_written_lexes docs file : Forall (fun d : layout * list tt => indentation (fst (fst d)) /\ wf (snd d)) docs ->
  exists ts, lex file (one_below_another (map (fun d => write_out (fst d) (snd d)) docs)) = LOk ts /\ same_tokens ts (List.concat (map snd docs)).
Proof.
  intro H. set (src := one_below_another _). destruct (joined_runs file src docs H [] [] (Forall_nil _)) as (l' & E & R). exists l'. split; [|exact E].
  rewrite lex_run. replace (no_bom src) with src; [exact R|]. unfold src. destruct H as [|((ind, lvl), ts) docs (Hi & Hw) H]; [reflexivity|].
  unfold one_below_another, write_out. cbn [map List.concat fst snd] in *. pose proof (first_not_bom sane ind lvl ts Hi Hw) as Q.
  destruct (text_with ind lvl ts) as [|c r]; cbn [app]; unfold no_bom; cbn [app]; [reflexivity|]. destruct (N.eqb_spec c 65279); [congruence|reflexivity].
Qed.
Lemma many_typed E t vs : Forall (typed E t) vs -> typed E (TyMany t) (many vs).
Proof.
  intro H. unfold many, TyMany.
  assert (X : typed_pairs E t TyNotEof (fst (many_of vs)) /\ typed_opt E t (snd (many_of vs)) /\ (snd (many_of vs) = None -> fst (many_of vs) = [])).
  { induction H as [|v vs Hv H IH]; [split; [constructor|split; [constructor|reflexivity]]|]. destruct H as [|v2 vs Hv2 H]; [split; [constructor|split; [constructor; exact Hv|discriminate]]|].
    destruct IH as (P & O & N). rewrite many_cons. cbn [fst snd]. split; [constructor; [exact Hv|constructor|exact P]|]. split; [exact O|]. intro Z. exfalso. exact (many_last v2 vs Z). }
  destruct X as (P & O & N). constructor; auto.
Qed.
Lemma many_prints : forall vs tss, Forall2 (fun v ts => print v = Some ts) vs tss -> print (many vs) = Some (List.concat tss).
Proof.
  intros vs tss H. unfold many. induction H as [|v a vs tss Hv H IH]; [reflexivity|]. destruct H as [|v2 a2 vs tss Hv2 H].
  - cbn in *. rewrite Hv, app_nil_r. reflexivity.
  - rewrite many_cons. cbn [fst snd map List.concat] in *. cbn [print] in *. cbn [map oconcat fold_right]. rewrite Hv.
    match goal with |- context [fold_right oapp (Some []) ?l] => change (fold_right oapp (Some []) l) with (oconcat l) end.
    destruct (oconcat _) as [x|]; [|discriminate IH]. destruct (match snd _ with Some _ => _ | None => _ end) as [y|]; [|discriminate IH].
    cbn [oapp] in IH. injection IH as IH. rewrite <- IH. cbn. rewrite app_nil_r, <- app_assoc. reflexivity.
Qed.
(** Every list of values, each written by [to_string] or [{:#}] or any other formatter of the library on lines of its own, is read back as the list.
    Here spacing is of no matter, whatever the grammar: it is the printer that chose it. *)
Theorem C68_written_texts g t (docs : list (layout * val)) tss file : ll1 g (TyMany t) = true ->
  Forall (fun d => indentation (fst (fst d)) /\ typed (env_of g) t (snd d) /\ writable (snd d)) docs ->
  Forall2 (fun d ts => print (snd d) = Some ts) docs tss ->
  exists w, from_str (env_of g) (TyMany t) file (one_below_another (map (fun d => write_out (fst d) (snd d)) (combine (map fst docs) tss))) w /\
    strip w = strip (many (map snd docs)).
Proof.
  intros Hg H Hp.
  assert (X : Forall (fun d : layout * list tt => indentation (fst (fst d)) /\ wf (snd d)) (combine (map fst docs) tss) /\ map snd (combine (map fst docs) tss) = tss /\
    Forall (typed (env_of g) t) (map snd docs) /\ Forall2 (fun v ts => print v = Some ts) (map snd docs) tss).
  { induction Hp as [|(f, v) ts docs tss Hv Hp IH]; [repeat split; constructor|]. apply Forall_cons_iff in H as ((A & B & C) & H). destruct (IH H) as (I1 & I2 & I3 & I4).
    cbn [map fst snd combine] in *. rewrite I2. split; [|split; [reflexivity|split; constructor; assumption]]. constructor; [|exact I1]. split; [exact A|]. eapply print_wf; eassumption. }
  destruct X as (X1 & X2 & X3 & X4). destruct (C68_written_lexes _ file X1) as (ts & L & S). rewrite X2 in S. symmetry in S.
  destruct (C40_spans_do_not_matter U (env_of g) (TyMany t) _ ts S) as (A & _).
  destruct (A _ (C10_parse_of_print U g (TyMany t) (many (map snd docs)) (List.concat tss) Hg (many_typed _ _ _ X3) (many_prints _ _ X4))) as (w & F & Sw).
  exists w. split; [|exact Sw]. apply from_str_parses. eauto.
Qed.
(** [to_string] and [{:#}] in particular *)
Theorem C68_to_string g t (docs : list (bool * val)) outs file : ll1 g (TyMany t) = true ->
  Forall (fun d => typed (env_of g) t (snd d) /\ writable (snd d)) docs -> Forall2 (fun d out => to_string (fst d) (snd d) = Some out) docs outs ->
  exists w, from_str (env_of g) (TyMany t) file (one_below_another outs) w /\ strip w = strip (many (map snd docs)).
Proof.
  intros Hg H Ho. set (lay := fun b : bool => (if b then None else Some (T "    "), 0) : layout).
  assert (X : exists tss, Forall2 (fun (d : layout * val) ts => print (snd d) = Some ts) (map (fun d => (lay (fst d), snd d)) docs) tss /\
    map (fun d => write_out (fst d) (snd d)) (combine (map fst (map (fun d => (lay (fst d), snd d)) docs)) tss) = outs).
  { clear H. induction Ho as [|(b, v) out docs outs Hd Ho IH]; [exists []; split; [constructor|reflexivity]|]. destruct IH as (tss & I1 & I2).
    unfold to_string in Hd. cbn [fst snd] in Hd. destruct (print v) as [ts|] eqn:Ep; [|discriminate]. cbn [option_map] in Hd. injection Hd as <-.
    exists (ts :: tss). cbn [map fst snd combine]. split; [constructor; assumption|]. rewrite I2. f_equal. rewrite to_text_with. destruct b; reflexivity. }
  destruct X as (tss & X1 & X2).
  assert (Q : Forall (fun d : layout * val => indentation (fst (fst d)) /\ typed (env_of g) t (snd d) /\ writable (snd d)) (map (fun d => (lay (fst d), snd d)) docs)).
  { apply Forall_map. eapply Forall_impl; [|exact H]. intros (b, v) (A & B). cbn [fst snd] in *. split; [destruct b; [exact I|repeat constructor]|]. split; assumption. }
  destruct (C68_written_texts g t _ tss file Hg Q X1) as (w & F & S). rewrite X2 in F. rewrite map_map in S. exists w. split; [exact F|exact S].
Qed.
End Written.

(** ** Examples *)
Example C68_ex_checked : ll1 calc (TyMany (TyRef 0)) = true.
Proof. vm_compute. reflexivity. Qed.
Section WithTables.
Local Existing Instance ascii_only.
(** A text as the plain formatter of C58 writes it is [written]. *)
Lemma written_spaced file src ts : forallb valid_char src = true -> lex file src = LOk ts -> spaced ts = src -> written file src ts.
Proof. intros Hv L E. split; [exact Hv|]. split; [exact L|]. rewrite <- E. apply (C58_every_stream_can_be_written ascii_sane). exact (proj1 (lex_out ascii_sane file src ts Hv L)). Qed.
(** [x <= ( y + "s" )] and [z], of the calculator of C62 *)
Definition first_src : text := Eval compute in T "x <= ( y + ""s"" ) ".
Definition second_src : text := Eval compute in T "z ".
Example C68_ex_joined : exists v1 v2 w ts1 ts2, written 1 first_src ts1 /\ written 2 second_src ts2 /\
  from_str (env_of calc) (TyRef 0) 1 first_src v1 /\ from_str (env_of calc) (TyRef 0) 2 second_src v2 /\
  from_str (env_of calc) (TyMany (TyRef 0)) 3 (first_src ++ [10%N] ++ second_src ++ [10%N]) w /\ strip w = strip (VPunct [(v1, VUnit)] (Some v2)).
Proof.
  destruct (lex 1 first_src) as [ts1|] eqn:L1; [|vm_compute in L1; discriminate L1]. destruct (lex 2 second_src) as [ts2|] eqn:L2; [|vm_compute in L2; discriminate L2].
  assert (W1 : written 1 first_src ts1). { apply written_spaced; [vm_compute; reflexivity|exact L1|]. vm_compute in L1. injection L1 as <-. vm_compute. reflexivity. }
  assert (W2 : written 2 second_src ts2). { apply written_spaced; [vm_compute; reflexivity|exact L2|]. vm_compute in L2. injection L2 as <-. vm_compute. reflexivity. }
  assert (F1 : exists v, from_str (env_of calc) (TyRef 0) 1 first_src v) by (eexists; exists 40; vm_compute; reflexivity).
  assert (F2 : exists v, from_str (env_of calc) (TyRef 0) 2 second_src v) by (eexists; exists 40; vm_compute; reflexivity).
  destruct F1 as (v1 & F1), F2 as (v2 & F2).
  destruct (C68_joined_texts ascii_sane lt_only calc (TyRef 0) C68_ex_checked (proj1 C62_ex_free) [(first_src, ts1, v1); (second_src, ts2, v2)] 3) as (w & F & S).
  - constructor; [exists 1; split; assumption|]. constructor; [exists 2; split; assumption|constructor].
  - cbn [map fst snd List.concat]. clear - L1 L2. vm_compute in L1, L2. injection L1 as <-. injection L2 as <-. split.
    + intro Z. repeat match goal with Z : minus_zero _ |- _ => inversion Z; clear Z; subst end.
    + repeat constructor. intros f Q. vm_compute in Q. discriminate Q.
  - cbn [map fst snd] in F, S. assert (Q : one_below_another [first_src; second_src] = first_src ++ [10%N] ++ second_src ++ [10%N]) by (vm_compute; reflexivity).
    rewrite Q in F. exists v1, v2, w, ts1, ts2. split; [exact W1|]. split; [exact W2|]. split; [exact F1|]. split; [exact F2|]. split; [exact F|exact S].
Qed.
(** the tree of [x <= ("s")], written by [to_string] and by [{:#}], one below the other *)
Example C68_ex_to_string : exists out1 out2 w, to_string false meant = Some out1 /\ to_string true meant = Some out2 /\ out1 <> out2 /\
  from_str (env_of calc) (TyMany (TyRef 0)) 1 (one_below_another [out1; out2; out1]) w /\ strip w = strip (many [meant; meant; meant]).
Proof.
  assert (X : typed (env_of calc) (TyRef 0) meant /\ writable meant).
  { split.
    - apply (spells_typed lt_only (env_of calc) (TyRef 0) meant written_out (C62_ex_spelled lt_only)).
      + constructor; [|constructor]. split; [vm_compute; intuition discriminate|vm_compute; reflexivity].
      + split; [intro Z; repeat match goal with Z : minus_zero _ |- _ => inversion Z; clear Z; subst end|]. repeat constructor. intros f Q. vm_compute in Q. discriminate Q.
    - assert (W : forall c r, ident_start c = true -> forallb xid_continue r = true -> ident_ok (c :: r)).
      { intros c r H1 H2. left. exists c, r. split; [reflexivity|]. split; [exact H1|]. apply Forall_forall. apply forallb_forall. exact H2. }
      unfold meant. cbn [writable]. repeat split; try (apply W; reflexivity); try (cbn; tauto); try discriminate; try (repeat constructor; fail); cbv; try discriminate; auto. }
  destruct (to_string false meant) as [out1|] eqn:E1; [|vm_compute in E1; discriminate E1]. destruct (to_string true meant) as [out2|] eqn:E2; [|vm_compute in E2; discriminate E2].
  destruct (C68_to_string ascii_sane calc (TyRef 0) [(false, meant); (true, meant); (false, meant)] [out1; out2; out1] 1 C68_ex_checked) as (w & F & S).
  - repeat (apply Forall_cons; [exact X|]). constructor.
  - repeat (constructor; try assumption).
  - exists out1, out2, w. repeat (split; [reflexivity || assumption|]). split; [|split; [exact F|exact S]]. clear - E1 E2. vm_compute in E1, E2. congruence.
Qed.
(** the documents [x <= ("s")] and [y] with a semicolon between them *)
Definition semi : list tt := [TPunct 59 Alone call_site].
Example C68_ex_separated : parses (env_of calc) (TySeparated (TyRef 0) (TyToken (T ";"))) (written_out ++ semi ++ [TIdent (T "y") call_site])
  (VPunct [(meant, VOp (T ";") [call_site])] (Some (VStruct [VRhs (VVariant 1 [VIdent (T "y") call_site])]))).
Proof.
  assert (Fs : spacing_free lt_only calc (TyToken (T ";"))).
  { destruct C62_ex_free as ((FE & _) & _). split; [exact FE|]. cbn. unfold free_op. cbn. repeat (constructor || reflexivity || exact I || (intro Q; discriminate Q)). }
  rewrite app_assoc. refine (C68_separated_tokens lt_only calc (TyRef 0) (TyToken (T ";")) (proj1 C62_ex_free) Fs [((written_out, meant), (semi, VOp (T ";") [call_site]))] ([TIdent (T "y") call_site], _) _ _ _ _).
  - vm_compute. reflexivity.
  - constructor; [|constructor]. split; (split; [|split; [reflexivity|]]); cbn [fst snd].
    + exact C62_ex_read.
    + constructor; [|constructor]. split; [vm_compute; intuition discriminate|vm_compute; reflexivity].
    + exists 5. vm_compute. reflexivity.
    + constructor.
  - split; [exists 15; vm_compute; reflexivity|]. split; [reflexivity|constructor].
  - split.
    + intro Z. repeat match goal with Z : minus_zero _ |- _ => inversion Z; clear Z; subst end.
    + repeat constructor. intros f Q. vm_compute in Q. discriminate Q.
Qed.
(** Without the check: [1] and [-1] are documents of LeftAssoc<Token![-], LitInt>; joined, they are one document, [1 - 1]. *)
Definition minus_chain : ty := TyLeftAssoc (TyToken (T "-")) (TyLit LtInt).
Theorem C68_unchecked_refuted : ll1 [] minus_chain = true /\ ll1 [] (TyMany minus_chain) = false /\ exists v1 v2 w,
  from_str (env_of []) minus_chain 1 (T "1") v1 /\ from_str (env_of []) minus_chain 2 (T "-1") v2 /\
  from_str (env_of []) (TyMany minus_chain) 3 (one_below_another [T "1"; T "-1"]) w /\ strip w <> strip (many [v1; v2]).
Proof.
  split; [vm_compute; reflexivity|]. split; [vm_compute; reflexivity|]. do 3 eexists. split; [exists 9; vm_compute; reflexivity|]. split; [exists 9; vm_compute; reflexivity|].
  split; [exists 9; vm_compute; reflexivity|]. intro Q. vm_compute in Q. discriminate Q.
Qed.
(** Joining does not keep errors: [x +] is refused, [y] accepted, and joined they are accepted. *)
Theorem C68_errors_do_not_stay_refuted : ll1 calc (TyMany (TyRef 0)) = true /\ from_str_err (env_of calc) (TyRef 0) 1 (T "x +") /\ exists v w,
  from_str (env_of calc) (TyRef 0) 2 (T "y") v /\ from_str (env_of calc) (TyMany (TyRef 0)) 3 (one_below_another [T "x +"; T "y"]) w.
Proof.
  split; [exact C68_ex_checked|]. split; [exists 40; eexists; vm_compute; reflexivity|]. do 2 eexists.
  split; [exists 40; vm_compute; reflexivity|exists 40; vm_compute; reflexivity].
Qed.
End WithTables.

Print Assumptions C68_joined_tokens.
Print Assumptions C68_joined_lexes.
Print Assumptions C68_joined_texts.
Print Assumptions C68_written_lexes.
Print Assumptions C68_written_texts.
Print Assumptions C68_to_string.
Print Assumptions C68_punctuated_tokens.
Print Assumptions C68_separated_tokens.
Print Assumptions C68_unchecked_refuted.
Print Assumptions C68_errors_do_not_stay_refuted.
