(** * C09, C38: grammars that pass the check of C10 read back what they wrote of what they read.
    No proviso on the spacing of operators is needed for them. *)
From Verif Require Import Base Float Literal Syn Ast Derive Grammar Spec LitSpec Reprint Sound Examples PropLit PropRoundtrip Term TermCheck Typed LL1 LL1Facts LL1Check PropLL1
  Fmt Lexer LexFacts LexWf LexOut LexRun PropLex Writable PropStr ParsedTyped.
Local Open Scope nat_scope.

(** The types of a grammar do not mention [Lit]. *)
Definition not_any_lit (t : ty) : Prop := t <> TyAnyLit.

Section Again.
Context {U : unicode}.
Lemma parses_parsed E t ts v : parses E t ts v -> exists n s', pty E n t (start ts) = (OOk v, s').
Proof.
  intros (n & H). exists n. unfold parse2 in H. destruct (pty E n t (start ts)) as ([x|e| |], s') eqn:Ep; try discriminate.
  destruct (ps_unexp s'); [discriminate|]. destruct (leftover (ps_rest s')); [discriminate|]. injection H as <-. eauto.
Qed.

(** ** C09 *)
(** The parsed value is a value of its type, in the sense of C10, *)
Theorem C09_parsed_values_are_typed E t ts v : lits_ok ts -> parses E t ts v -> ~ In (LInt 0) (val_lits v) -> typed E t v.
Proof.
  intros Hok H Hz. destruct (parses_parsed E t ts v H) as (n & s' & Hn).
  refine (parsed_typed E True _ n t (start ts) v s' _ Hok Hn _); [apply env_leaves_all; auto|apply leaves_all; auto|]. intros _. exact Hz.
Qed.
(** ... without exception when the grammar does not mention [Lit] (whose [Lit::Int(0)], the value
    of [-0], is the exception). *)
Theorem C09_parsed_values_are_typed_no_lit E t ts v : env_leaves not_any_lit E -> leaves not_any_lit t ->
  lits_ok ts -> parses E t ts v -> typed E t v.
Proof.
  intros HE Ht Hok H. destruct (parses_parsed E t ts v H) as (n & s' & Hn).
  refine (parsed_typed E False _ n t (start ts) v s' _ Hok Hn _); [exact HE|exact Ht|]. intros [].
Qed.
(** So reading, printing and reading again gives exactly the first value, locations included. *)
Theorem C09_reparse_exact g t ts v ts' : ll1 g t = true -> lits_ok ts -> parses (env_of g) t ts v -> print v = Some ts' ->
  ~ In (LInt 0) (val_lits v) -> parses (env_of g) t ts' v.
Proof. intros Hg Hok H Hp Hz. eapply C10_parse_of_print; [exact Hg| |exact Hp]. eapply C09_parsed_values_are_typed; eassumption. Qed.
Theorem C09_reparse_exact_no_lit g t ts v ts' : env_leaves not_any_lit (env_of g) -> leaves not_any_lit t ->
  ll1 g t = true -> lits_ok ts -> parses (env_of g) t ts v -> print v = Some ts' -> parses (env_of g) t ts' v.
Proof. intros HE Ht Hg Hok H Hp. eapply C10_parse_of_print; [exact Hg| |exact Hp]. eapply C09_parsed_values_are_typed_no_lit; eassumption. Qed.

(** ** C38 *)
Context (sane : sane_tables U).
Lemma from_str_writable E t file src v : env_leaves punct_ops E -> leaves punct_ops t ->
  forallb valid_char src = true -> from_str E t file src v -> writable v.
Proof.
  intros HE Ht Hv F. apply from_str_parses in F as (ts & Hl & P). destruct (parses_parsed E t ts v P) as (n & s' & Hn).
  eapply parsed_writable; [exact HE|exact Ht| |exact Hn]. split; [eapply lexed_lits_ok; eassumption|]. apply wf_words. eapply lex_out; eassumption.
Qed.
Theorem C38_from_str_to_string_from_str g t file src v alternate out file' :
  ll1 g t = true -> env_leaves punct_ops (env_of g) -> leaves punct_ops t ->
  forallb valid_char src = true -> from_str (env_of g) t file src v -> ~ In (LInt 0) (val_lits v) ->
  to_string alternate v = Some out ->
  exists v', from_str (env_of g) t file' out v' /\ strip v' = strip v /\ to_string alternate v' = Some out.
Proof.
  intros Hg HE Ht Hv F Hz D. pose proof F as F'. apply from_str_parses in F' as (ts & Hl & P).
  destruct (C38_to_string_from_str sane g t v alternate out file') as (v' & G & S); [exact Hg| |eapply from_str_writable; eassumption|exact D|].
  - eapply C09_parsed_values_are_typed; [|exact P|exact Hz]. eapply lexed_lits_ok; eassumption.
  - exists v'. split; [exact G|]. split; [exact S|]. rewrite <- D. apply C38_same_value_same_text. exact S.
Qed.
Theorem C38_from_str_to_string_from_str_no_lit g t file src v alternate out file' :
  ll1 g t = true -> env_leaves not_any_lit (env_of g) -> leaves not_any_lit t -> env_leaves punct_ops (env_of g) -> leaves punct_ops t ->
  forallb valid_char src = true -> from_str (env_of g) t file src v -> to_string alternate v = Some out ->
  exists v', from_str (env_of g) t file' out v' /\ strip v' = strip v /\ to_string alternate v' = Some out.
Proof.
  intros Hg NE Nt HE Ht Hv F D. pose proof F as F'. apply from_str_parses in F' as (ts & Hl & P).
  destruct (C38_to_string_from_str sane g t v alternate out file') as (v' & G & S); [exact Hg| |eapply from_str_writable; eassumption|exact D|].
  - eapply C09_parsed_values_are_typed_no_lit; [exact NE|exact Nt| |exact P]. eapply lexed_lits_ok; eassumption.
  - exists v'. split; [exact G|]. split; [exact S|]. rewrite <- D. apply C38_same_value_same_text. exact S.
Qed.
End Again.
Print Assumptions C09_parsed_values_are_typed.
Print Assumptions C09_parsed_values_are_typed_no_lit.
Print Assumptions C09_reparse_exact.
Print Assumptions C09_reparse_exact_no_lit.
Print Assumptions C38_from_str_to_string_from_str.
Print Assumptions C38_from_str_to_string_from_str_no_lit.

Fixpoint op_okb (op : list char) : bool :=
  match op with
  | [] => true
  | c :: r => existsb (N.eqb c) punct_chars && negb (c =? 39)%N &&
      (negb (c =? 47)%N || match r with d :: _ => negb (d =? 47)%N && negb (d =? 42)%N | [] => true end) && op_okb r
  end.
Lemma op_okb_ok op : op_okb op = true -> op_ok op.
Proof.
  induction op as [|c r IH]; intro H; [exact I|]. cbn [op_okb] in H. apply andb_true_iff in H as (H & H4). apply andb_true_iff in H as (H & H3). apply andb_true_iff in H as (H1 & H2).
  cbn [op_ok]. split; [|split; [|split; [|apply IH; exact H4]]].
  - apply existsb_exists in H1 as (x & Hx & E). apply N.eqb_eq in E. subst x. exact Hx.
  - intros ->. discriminate.
  - intros ->. cbn in H3. destruct r as [|d r]; [exact I|]. apply andb_true_iff in H3 as (Ha & Hb). apply negb_true_iff in Ha, Hb. split; apply N.eqb_neq; assumption.
Qed.
(** The operators of Rust ([syn::Token!]) are such operators. *)
Definition rust_ops : list text := map T
  ["&"; "&&"; "&="; "@"; "^"; "^="; ":"; ","; "$"; "."; ".."; "..."; "..="; "="; "=="; "=>"; ">="; ">"; "<-"; "<="; "<"; "-"; "-="; "!="; "!";
   "|"; "|="; "||"; "::"; "%"; "%="; "+"; "+="; "#"; "?"; "->"; ";"; "<<"; "<<="; ">>"; ">>="; "/"; "/="; "*"; "*="; "~"]%string.
Example C38_ex_ops : Forall (fun op => punct_ops (TyToken op)) rust_ops.
Proof. apply Forall_forall. intros op H. apply op_okb_ok. revert op H. apply forallb_forall. reflexivity. Qed.

(** ** Example: the language of C10's example.  In the text [=] is joint to [-]; it is printed alone. *)
Local Existing Instance Examples.ascii_only.
Definition ex_prog : text := T "let x=-1<<f.g^0x2; { return; return 'a'+[3,4,]; } return;".
Definition ex_ty : ty := TyPunctuated (TyRef 0) TyNotEof.
Lemma lang_ops : env_leaves punct_ops (env_of lang) /\ leaves punct_ops ex_ty.
Proof.
  assert (Ht : forall op, op_okb op = true -> punct_ops (TyToken op)) by (intros op H; apply op_okb_ok; exact H).
  split; [|split; exact I]. intro i. do 5 (destruct i as [|i]; [cbn; repeat first [apply Ht; reflexivity | exact I | apply Forall_cons | apply Forall_nil | split]|]).
  unfold env_of. cbn. destruct i; repeat constructor.
Qed.
Example C38_ex_again : ll1 lang ex_ty = true /\ forallb valid_char ex_prog = true /\
  exists v out, from_str (env_of lang) ex_ty 1 ex_prog v /\ to_string true v = Some out /\ ~ In (LInt 0) (val_lits v) /\
    out = T "let x = - 1 << f . g ^ 2 ; {return ; return 'a' + [3 , 4 ,] ;} return ;".
Proof.
  split; [exact C10_ex_check|]. split; [reflexivity|]. eexists. eexists. split; [exists 60; vm_compute; reflexivity|]. split; [vm_compute; reflexivity|].
  split; [cbn; intuition discriminate|]. vm_compute. reflexivity.
Qed.
