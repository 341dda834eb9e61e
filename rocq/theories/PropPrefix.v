(** * PropPrefix: whatever a parser complains about, everything before it is the beginning of a valid document (C63). *)
From Verif Require Import Base Float Literal Syn Ast Derive Grammar Spec LitSpec LiteralFacts Reprint LitDenote SynFacts Lawful Mono
  Combinators GrammarBeh Assoc ManyFacts Sound Sim RoundFacts Examples PropLit PropParse Origin PropMsg PropRoundtrip Term TermCheck Typed LL1 LL1Facts LL1Check PropLL1
  Fmt Lexer LexFacts LexWf LexOut LexRun PropLex Writable PropStr ParsedTyped PropAgain PropEq PropExtend Lang PropLang Prefix.
Local Open Scope nat_scope.

(** ** Specification *)
(** [found E t ts e r]: the error [e] of reading [ts] as a [t] is about what is left at [r]:
    - some node wanted something else there (C52 says what, and where the error points), nothing having been skipped;
    - or it is the first token nobody asked for, at the end of the input or of a group;
    - or such a token was left in a group, and another node failed after that group, whose error is the one reported. *)
Inductive found {U : unicode} (E : env) (t : ty) (ts : list tt) (e : error) (r : list tt) : Prop :=
| fd_node path s0 e0 t0 : origin E t (start ts) path s0 e0 -> complaint t0 s0 e0 -> e = chained path e0 -> ps_unexp s0 = None -> flat (ps_rest s0) = r -> found E t ts e r
| fd_unread x r' : r = x :: r' -> e = Err (tt_span x) (T "unexpected token") -> found E t ts e r
| fd_hidden path s0 e0 x r' : origin E t (start ts) path s0 e0 -> e = chained path e0 -> r = x :: r' -> ps_unexp s0 = Some (tt_span x) -> found E t ts e r.

Section C63.
Context {U : unicode} (g : list tdef) (t : ty).
Notation E := (env_of g).
Context (Hg : inhabited g t = true) (HE : named E).
Lemma begun n ts e : parse2 (pty E n t) ts = RErr e -> exists r us v, found E t ts e r /\ spells anyhow E t v us /\ until fresh (flat ts) r us.
Proof.
  intro H. destruct (inhabited_fillable g t Hg) as (Hr & Ho & Ot). apply (C52_whole_input U E t n ts e) in H as [(s' & H)|(v & s' & H & Hm & Hu)].
  - apply (traced_pty E HE) in H as (path & s0 & e0 & H & ->). destruct (origin_complaint _ _ _ _ _ _ H) as (t0 & Hc).
    destruct (origin_reaches E Hr Ho t (start ts) path s0 e0 H Ot eq_refl) as [(N & us & W & B)|(N & x & r & us & Hu & W & B)]; apply goal_type in W as (v & W).
    + exists (flat (ps_rest s0)), us, v. split; [eapply fd_node; eauto|]. split; [exact W|exact B].
    + exists (x :: r), us, v. split; [eapply fd_hidden; eauto|]. split; [exact W|exact B].
  - destruct (going_pty E Hr Ho n t Ot (start ts) v s' H) as ((_ & C) & St). cbn [start ps_rest ps_unexp] in *. destruct e as [sp m]. cbn [e_span e_msg] in *. subst m. destruct Hu as [Hu|(Hu & x & r & Hi & ->)].
    + destruct (St eq_refl ltac:(congruence)) as (x & r & us & Hx & (v0 & W) & B). exists (x :: r), us, v0. split; [eapply fd_unread; [reflexivity|congruence]|]. split; [exact W|exact B].
    + destruct (C Hu) as (c & Ec & (v0 & W)). rewrite <- (flat_ignore_none (ps_rest s')), Hi in Ec.
      assert (G : exists x' r', flat (x :: r) = x' :: r' /\ tt_span x' = tt_span x).
      { destruct x as [n0 s0|c0 g0 s0|n0 s0|d s0 l0]; try (eexists; eexists; split; reflexivity). pose proof (ignore_none_head (ps_rest s') (TGroup d s0 l0) r Hi) as Hd. cbn [flat]. rewrite flat1_group by (intros ->; eapply Hd; reflexivity). eexists. eexists. split; reflexivity. }
      destruct G as (x' & r' & G & Gs). rewrite G in Ec. exists (x' :: r'), c, v0. split; [eapply fd_unread; [reflexivity|congruence]|]. split; [exact W|]. rewrite Ec. apply until_stop.
Qed.
(** Every error of every grammar all of whose types have values: the tokens before it can be completed to a document the types
    spell out. *)
Theorem C63_valid_beginning n ts e : visible ts = true -> parse2 (pty E n t) ts = RErr e ->
  exists r us v, found E t ts e r /\ begins_like ts r us /\ spells anyhow E t v us.
Proof.
  intros Hv H. destruct (begun n ts e H) as (r & us & v & F & S & B). rewrite (visible_flat ts Hv) in B. exists r, us, v. split; [exact F|]. split; [apply until_begins; exact B|exact S].
Qed.
(** If one token decides, to a document the parser accepts. *)
Theorem C63_accepted_beginning K n ts e : ll1 g t = true -> spacing_free K g t -> visible ts = true -> lits_ok ts -> tame ts -> parse2 (pty E n t) ts = RErr e ->
  exists r us v, found E t ts e r /\ begins_like ts r us /\ parses E t us v.
Proof.
  intros Hl Hf Hv Hok Htm H. destruct (begun n ts e H) as (r & us & v & F & S & B). rewrite (visible_flat ts Hv) in B. exists r, us, v. split; [exact F|]. split; [apply until_begins; exact B|].
  destruct (until_fine ts r us B Hv Hok Htm) as (Hv' & Hok' & Htm'). apply (C62_exactly_what_is_spelled K g t v us Hl Hf Hv' Hok' Htm'). exact S.
Qed.
(** Texts. *)
Theorem C63_texts n file src e ts : sane_tables U -> forallb valid_char src = true -> lex file src = LOk ts -> parse_str (pty E n t) file src = RErr e ->
  exists r us v, found E t ts e r /\ begins_like ts r us /\ spells anyhow E t v us.
Proof.
  intros sane Hc Hl H. destruct (lex_out sane file src ts Hc Hl) as (Hw & _). unfold parse_str in H. rewrite Hl in H. eapply C63_valid_beginning; [apply wf_visible; exact Hw|exact H].
Qed.
End C63.

(** ** Examples *)
Section WithTables.
Local Existing Instance ascii_only.
(** [x <= ( 1 1 )] as an expression of PropLang's [calc]: the second number is not asked for; [x <= ( 1 )] is valid. *)
Definition too_much : list tt :=
  [TIdent (T "x") (sp 0 1); TPunct 60 Joint (sp 2 3); TPunct 61 Alone (sp 3 4); TGroup DParen (sp 5 10) [TLit (T "1") (sp 6 7); TLit (T "1") (sp 8 9)]].
Example C63_ex_checked : inhabited calc (TyRef 0) = true /\ named (env_of calc).
Proof. split; [vm_compute; reflexivity|]. intros [|[|[|[|i]]]] en cs H; cbn in H; try discriminate H; try (injection H as <- _; discriminate). Qed.
Example C63_ex : exists e, (exists n, parse2 (pty (env_of calc) n (TyRef 0)) too_much = RErr e) /\ e = Err (sp 8 9) (T "unexpected token") /\
  exists us v, begins_like too_much [TLit (T "1") (sp 8 9)] us /\ parses (env_of calc) (TyRef 0) us v.
Proof.
  eexists. split; [exists 14; vm_compute; reflexivity|]. split; [reflexivity|].
  exists [TIdent (T "x") (sp 0 1); TPunct 60 Joint (sp 2 3); TPunct 61 Alone (sp 3 4); TGroup DParen (sp 5 10) [TLit (T "1") (sp 6 7)]]. eexists. split.
  - do 3 apply un_token. apply un_inside; [|exact I]. apply un_token. apply un_here. exact I.
  - exists 14. vm_compute. reflexivity.
Qed.
(** ... and for every input: *)
Example C63_ex_all n ts e : visible ts = true -> lits_ok ts -> tame ts -> parse2 (pty (env_of calc) n (TyRef 0)) ts = RErr e ->
  exists r us v, found (env_of calc) (TyRef 0) ts e r /\ begins_like ts r us /\ parses (env_of calc) (TyRef 0) us v.
Proof.
  destruct C63_ex_checked as (Hi & Hn), C62_ex_checked as (Hl & _), C62_ex_free as (Hf & _). apply (C63_accepted_beginning calc (TyRef 0) Hi Hn lt_only n ts e Hl Hf).
Qed.

(** ** Limits *)
(** The error may be early: [Any] gives up an item that fails half way, and what is reported is that nobody asked for its first
    token.  struct List(Any<Item>); struct Item(Ident, Token![;]): for [a ; b] the error is at [b], although [a ; b ;] is valid. *)
Definition items : list tdef :=
  [DStruct (Ctor (T "List") [(LIndex 0, TyAny (TyRef 1))]); DStruct (Ctor (T "Item") [(LIndex 0, TyIdent); (LIndex 1, TyToken (T ";"))])].
Theorem C63_early_refuted : exists ts e us v, inhabited items (TyRef 0) = true /\ ll1 items (TyRef 0) = true /\ (exists n, parse2 (pty (env_of items) n (TyRef 0)) ts = RErr e) /\
  e = Err (sp 3 4) (T "unexpected token") /\ ts = [TIdent (T "a") (sp 0 1); TPunct 59 Alone (sp 1 2); TIdent (T "b") (sp 3 4)] /\
  begins_like ts [] us /\ parses (env_of items) (TyRef 0) us v.
Proof.
  exists [TIdent (T "a") (sp 0 1); TPunct 59 Alone (sp 1 2); TIdent (T "b") (sp 3 4)]. eexists.
  exists [TIdent (T "a") (sp 0 1); TPunct 59 Alone (sp 1 2); TIdent (T "b") (sp 3 4); TPunct 59 Alone call_site]. eexists.
  split; [vm_compute; reflexivity|]. split; [vm_compute; reflexivity|]. split; [exists 9; vm_compute; reflexivity|]. split; [reflexivity|]. split; [reflexivity|].
  split; [do 3 apply un_token; apply un_here; exact I|]. exists 9. vm_compute. reflexivity.
Qed.
(** The error reported may be after the first problem: tokens left in a group, then another error.
    struct Pair(Paren<Ident>, LitInt): for [(a b) c] the error is at [c], but no valid document begins with [(a b]. *)
Definition pair_ : list tdef := [DStruct (Ctor (T "Pair") [(LIndex 0, TyParen TyIdent); (LIndex 1, TyLit LtInt)])].
Theorem C63_hidden_refuted : exists ts e, inhabited pair_ (TyRef 0) = true /\ (exists n, parse2 (pty (env_of pair_) n (TyRef 0)) ts = RErr e) /\
  ts = [TGroup DParen (sp 0 5) [TIdent (T "a") (sp 1 2); TIdent (T "b") (sp 3 4)]; TIdent (T "c") (sp 6 7)] /\ e_span e = sp 6 7 /\
  forall us v, begins_like ts [TIdent (T "c") (sp 6 7)] us -> ~ spells anyhow (env_of pair_) (TyRef 0) v us.
Proof.
  exists [TGroup DParen (sp 0 5) [TIdent (T "a") (sp 1 2); TIdent (T "b") (sp 3 4)]; TIdent (T "c") (sp 6 7)]. eexists. split; [vm_compute; reflexivity|]. split; [exists 9; vm_compute; reflexivity|]. split; [reflexivity|]. split; [reflexivity|].
  intros us v B S. assert (exists r, us = TGroup DParen (sp 0 5) [TIdent (T "a") (sp 1 2); TIdent (T "b") (sp 3 4)] :: r) as (r & ->).
  { inversion B as [|x ts0 r0 us0 B0|d s ts0 r0 us0 ts' us' B0]; subst; [eauto|]. exfalso. clear - B0.
    inversion B0 as [|x ts0 r0 us1 B1|]; subst. inversion B1 as [|x ts0 r0 us2 B2|]; subst. inversion B2. }
  clear B. inversion S; subst; try (match goal with Q : TyGroup ?d _ = _ |- _ => destruct d; discriminate Q end); [|match goal with Q : env_of pair_ 0 = DEnum _ _ |- _ => discriminate Q end].
  match goal with Q : env_of pair_ 0 = DStruct ?c |- _ => injection Q as <- end. clear S. match goal with Q : spells_fields _ _ _ _ _ |- _ => cbn [c_fields] in Q; inversion Q; subst; clear Q end.
  match goal with Q : spells _ _ (TyParen TyIdent) _ _ |- _ => inversion Q; subst; clear Q end.
  match goal with Q : TyGroup ?d _ = _ |- _ => destruct d; try discriminate Q; injection Q as -> end.
  match goal with Q : [_] ++ _ = _ :: _ |- _ => injection Q as _ -> _ end.
  match goal with Q : spells _ _ TyIdent _ _ |- _ => inversion Q end.
Qed.
(** All types must have values: struct Never(Ident, Void); enum Void {}.  After [x], nothing would do. *)
Definition never : list tdef := [DStruct (Ctor (T "Never") [(LIndex 0, TyIdent); (LIndex 1, TyRef 1)]); DEnum (T "Void") []].
Theorem C63_empty_enum_refuted : inhabited never (TyRef 0) = false /\ (exists n e, parse2 (pty (env_of never) n (TyRef 0)) [TIdent (T "x") (sp 0 1)] = RErr e) /\
  forall v us, ~ spells anyhow (env_of never) (TyRef 0) v us.
Proof.
  split; [vm_compute; reflexivity|]. split; [exists 9; eexists; vm_compute; reflexivity|]. intros v us S.
  remember (TyRef 0) as t eqn:Et. destruct S; try discriminate Et; [destruct d; discriminate Et| |injection Et as ->; discriminate H]. injection Et as ->. injection H as <-. cbn [c_fields] in H0.
  remember [(LIndex 0, TyIdent); (LIndex 1, TyRef 1)] as fs eqn:Ef. destruct H0; [discriminate Ef|]. injection Ef as -> -> ->.
  remember [(LIndex 1, TyRef 1)] as fs eqn:Ef. destruct H0; [discriminate Ef|]. injection Ef as -> -> ->. remember (TyRef 1) as t eqn:Et. destruct H0; try discriminate Et.
  - destruct d; discriminate Et.
  - injection Et as ->. discriminate H0.
  - injection Et as ->. injection H0 as _ <-. destruct k; discriminate H2.
Qed.
End WithTables.

Print Assumptions C63_valid_beginning.
Print Assumptions C63_accepted_beginning.
Print Assumptions C63_texts.
Print Assumptions C63_early_refuted.
Print Assumptions C63_hidden_refuted.
Print Assumptions C63_empty_enum_refuted.
