(** * LL1: grammars whose choices are decided by the next token, or by the next token after a
    common prefix of fields (C10). *)
From Verif Require Import Base Float Literal Syn Ast Derive Grammar Spec LitSpec Reprint SynFacts Lawful Mono Combinators GrammarBeh
  Assoc LiteralFacts LitDenote Sound Term TermCheck NoPanic PropLit Typed.
Local Open Scope nat_scope.

(** ** What the next token can be. *)
Inductive kd := KdInt | KdFloat | KdChar | KdStr | KdByteStr | KdByte | KdCStr.
Inductive head :=
| HWord (n : text)              (* the word [n] *)
| HWordNot (ks : list text)     (* a word not in [ks] *)
| HOp (op : list char)          (* an operator *)
| HNeg (k : kd)                 (* a minus sign and a number *)
| HLit (k : kd)                 (* a literal token *)
| HGroup (d : delim)
| HEnd.                         (* nothing left *)
Definition kd_eq_dec (a b : kd) : {a = b} + {a <> b}.
Proof. decide equality. Defined.
Definition delim_eq_dec (a b : delim) : {a = b} + {a <> b}.
Proof. decide equality. Defined.
Definition head_eq_dec (a b : head) : {a = b} + {a <> b}.
Proof.
  decide equality; try apply kd_eq_dec; try apply delim_eq_dec; repeat (apply list_eq_dec; try apply N.eq_dec; intros).
Defined.
Definition ty_eq_dec (a b : ty) : {a = b} + {a <> b}.
Proof. repeat decide equality. Defined.
Definition ty_eqb (a b : ty) : bool := if ty_eq_dec a b then true else false.
Definition head_eqb (a b : head) : bool := if head_eq_dec a b then true else false.
Definition memb (h : head) (l : list head) : bool := existsb (head_eqb h) l.
Definition inclb (a b : list head) : bool := forallb (fun h => memb h b) a.
Lemma memb_In h l : memb h l = true <-> In h l.
Proof.
  unfold memb, head_eqb. rewrite existsb_exists. split.
  - intros (x & Hx & E). destruct (head_eq_dec h x); [subst; exact Hx|discriminate].
  - intro H. exists h. split; [exact H|]. destruct (head_eq_dec h h); [reflexivity|congruence].
Qed.
Lemma inclb_incl a b : inclb a b = true -> incl a b.
Proof. unfold inclb. rewrite forallb_forall. intros H h Hh. apply memb_In. apply H. exact Hh. Qed.

Fixpoint prefixb (p q : list char) : bool :=
  match p, q with
  | [], _ => true
  | c :: p', d :: q' => (c =? d)%N && prefixb p' q'
  | _, [] => false
  end.
(** could a parser that starts with [a] accept a stream that was printed starting with [h]? *)
Definition clash (a h : head) : bool :=
  match a, h with
  | HWord n, HWord m => text_eqb n m
  | HWord n, HWordNot ks => negb (text_mem n ks)
  | HWordNot ks, HWord m => negb (text_mem m ks)
  | HWordNot _, HWordNot _ => true
  | HOp p, HOp q => prefixb p q
  | HOp p, HNeg _ => prefixb p [45%N]
  | HNeg _, HOp q => text_eqb q [45%N]
  | HNeg k, HNeg k' => if kd_eq_dec k k' then true else false
  | HLit k, HLit k' => if kd_eq_dec k k' then true else false
  | HGroup d, HGroup d' => delim_eqb d d'
  | HEnd, HEnd => true
  | HOp p, _ => match p with [] => true | _ => false end
  | _, _ => false
  end.

(** ** The heads of a type: [acc]/[anull] for its parser, [pfirst]/[pnull] for its printer. *)
Definition word_heads : list head := [HWord (T "true"); HWord (T "false")].
Definition lit_heads (k : litty) : list head :=
  match k with
  | LtBool => word_heads | LtByte => [HLit KdByte] | LtInt => [HLit KdInt; HNeg KdInt] | LtUint => [HLit KdInt]
  | LtFloat => [HLit KdFloat; HNeg KdFloat] | LtChar => [HLit KdChar] | LtStr => [HLit KdStr] | LtByteStr => [HLit KdByteStr]
  end.
Definition any_lit_heads : list head :=
  word_heads ++ [HLit KdByte; HLit KdInt; HNeg KdInt; HLit KdFloat; HNeg KdFloat; HLit KdChar; HLit KdStr; HLit KdByteStr].

Section Heads.
Variable an : nat -> bool.
Variable ac : nat -> list head.
Fixpoint anull (t : ty) : bool :=
  match t with
  | TyToken op => match op with [] => true | _ => false end
  | TyEmpty | TyNotEof | TyMaybe _ _ | TyAny _ => true
  | TyPunctuated a _ | TySeparated a _ | TyLeftAssoc _ a | TyRightAssoc _ a | TyBox a => anull a
  | TyEither a b => anull a || anull b
  | TyRef i => an i
  | _ => false
  end.
Fixpoint acc (t : ty) : list head :=
  match t with
  | TyIdent => [HWordNot rust_keywords]
  | TyCustomIdent kws => [HWordNot kws]
  | TyKeyword kw | TyTokenKw kw => [HWord kw]
  | TyToken op => [HOp op]
  | TyLit k => lit_heads k
  | TyAnyLit => any_lit_heads
  | TyEmpty | TyNotEof => []
  | TyEof => [HEnd]
  | TyMaybe a b | TySeparated a b | TyLeftAssoc b a | TyRightAssoc b a => acc a ++ (if anull a then acc b else [])
  | TyParen _ => [HGroup DParen] | TyBracket _ => [HGroup DBracket] | TyBrace _ => [HGroup DBrace]
  | TyPunctuated a b => HEnd :: acc a ++ (if anull a then acc b else [])
  | TyAny a | TyBox a => acc a
  | TyEither a b => acc a ++ acc b
  | TyRef i => ac i
  end.
Definition anull_fields (fs : list (label * ty)) : bool := forallb (fun f => anull (snd f)) fs.
Fixpoint acc_fields (fs : list (label * ty)) : list head :=
  match fs with [] => [] | (_, t) :: r => acc t ++ (if anull t then acc_fields r else []) end.
Definition anull_def (d : tdef) : bool :=
  match d with DStruct c => anull_fields (c_fields c) | DEnum _ cs => existsb (fun c => anull_fields (c_fields c)) cs end.
Definition acc_def (d : tdef) : list head :=
  match d with DStruct c => acc_fields (c_fields c) | DEnum _ cs => List.concat (map (fun c => acc_fields (c_fields c)) cs) end.

Variable pn : nat -> bool.
Variable pf : nat -> list head.
Fixpoint pnull (t : ty) : bool :=
  match t with
  | TyToken op => match op with [] => true | _ => false end
  | TyEmpty | TyEof | TyNotEof | TyMaybe _ _ | TyAny _ | TyPunctuated _ _ => true
  | TySeparated a _ | TyLeftAssoc _ a | TyRightAssoc _ a | TyBox a => pnull a
  | TyEither a b => pnull a || pnull b
  | TyRef i => pn i
  | _ => false
  end.
Fixpoint pfirst (t : ty) : list head :=
  match t with
  | TyIdent => [HWordNot rust_keywords]
  | TyCustomIdent kws => [HWordNot kws]
  | TyKeyword kw | TyTokenKw kw => [HWord kw]
  | TyToken op => [HOp op]
  | TyLit k => lit_heads k
  | TyAnyLit => any_lit_heads
  | TyEmpty | TyNotEof | TyEof => []
  | TyMaybe a b | TySeparated a b | TyLeftAssoc b a | TyRightAssoc b a | TyPunctuated a b => pfirst a ++ (if pnull a then pfirst b else [])
  | TyParen _ => [HGroup DParen] | TyBracket _ => [HGroup DBracket] | TyBrace _ => [HGroup DBrace]
  | TyAny a | TyBox a => pfirst a
  | TyEither a b => pfirst a ++ pfirst b
  | TyRef i => pf i
  end.
Definition pnull_fields (fs : list (label * ty)) : bool := forallb (fun f => pnull (snd f)) fs.
(** what can be seen where [fs], then something of [F], was printed *)
Fixpoint peek_fields (fs : list (label * ty)) (F : list head) : list head :=
  match fs with [] => F | (_, t) :: r => pfirst t ++ (if pnull t then peek_fields r F else []) end.
Definition peek (t : ty) (F : list head) : list head := pfirst t ++ (if pnull t then F else []).
Definition pnull_def (d : tdef) : bool :=
  match d with DStruct c => pnull_fields (c_fields c) | DEnum _ cs => existsb (fun c => pnull_fields (c_fields c)) cs end.
Definition pfirst_def (d : tdef) : list head :=
  match d with DStruct c => peek_fields (c_fields c) [] | DEnum _ cs => List.concat (map (fun c => peek_fields (c_fields c) []) cs) end.

(** ** The check. [fo i]: what can follow the production [i]; [term]: parsing terminates. *)
Variable fo : nat -> list head.
Variable term : ty -> bool.
Definition no_clash (A F : list head) : bool := forallb (fun a => forallb (fun h => negb (clash a h)) F) A.
Definition is_end (h : head) : bool := match h with HEnd => true | _ => false end.
Definition only_end (F : list head) : bool := forallb is_end F.
Definition not_eofb (t : ty) : bool := match t with TyNotEof => true | _ => false end.
(** the parser of [t] refuses whatever starts with one of [F] *)
Definition apart (t : ty) (F : list head) : bool :=
  (not_eofb t && only_end F) || (negb (anull t) && no_clash (acc t) F && term t).
Definition apart_fields (fs : list (label * ty)) (F : list head) : bool :=
  negb (anull_fields fs) && no_clash (acc_fields fs) F && forallb (fun f => term (snd f)) fs.
(** [ok t F]: a value of type [t], printed and followed by something of [F], is read back *)
Fixpoint ok (t : ty) (F : list head) : bool :=
  match t with
  | TyToken op => match op with [] => false | _ => forallb (fun c => negb (c =? 39)%N) op end
  | TyEof => only_end F
  | TyNotEof => negb (existsb is_end F)
  | TyMaybe a b => ok a (peek b F) && ok b F && apart a F
  | TyParen a | TyBracket a | TyBrace a => ok a [HEnd]
  | TyPunctuated a b => only_end F && negb (pnull a) &&
      (if not_eofb b then ok a (HEnd :: pfirst a)
       else negb (pnull b) && ok a (HEnd :: pfirst b) && ok b (HEnd :: pfirst a))
  | TySeparated a b | TyLeftAssoc b a | TyRightAssoc b a =>
      negb (pnull b) && ok a (pfirst b ++ F) && ok b (peek a (pfirst b ++ F)) && apart b F
  | TyAny a => negb (pnull a) && ok a (pfirst a ++ F) && apart a F
  | TyEither a b => ok a F && ok b F && apart a (peek b F)
  | TyBox a => ok a F
  | TyRef i => inclb F (fo i)
  | _ => true
  end.
Fixpoint ok_fields (fs : list (label * ty)) (F : list head) : bool :=
  match fs with [] => true | (_, t) :: r => ok t (peek_fields r F) && ok_fields r F end.
(** the variant with the fields [fb] refuses what the variant with the fields [fc] printed: at
    once, or after reading the fields that both begin with *)
Fixpoint variant_refuses (fb fc : list (label * ty)) (F : list head) : bool :=
  apart_fields fb (peek_fields fc F) ||
  match fb, fc with
  | (_, t) :: fb', (_, t') :: fc' => ty_eqb t t' && variant_refuses fb' fc' F
  | _, _ => false
  end.
Fixpoint ok_variants (before cs : list ctor) (F : list head) : bool :=
  match cs with
  | [] => true
  | c :: r => ok_fields (c_fields c) F
              && forallb (fun b => variant_refuses (c_fields b) (c_fields c) F) before
              && ok_variants (before ++ [c]) r F
  end.
Definition ok_def (d : tdef) (F : list head) : bool :=
  match d with DStruct c => ok_fields (c_fields c) F | DEnum _ cs => ok_variants [] cs F end.
End Heads.

(** ** What the heads mean. *)
Section Facts.
Context {U : unicode}.
Definition kd_of (k : lkind) : kd :=
  match k with
  | KInt _ => KdInt | KFloat _ => KdFloat | KChar _ => KdChar | KStr _ => KdStr | KByteStr _ => KdByteStr | KByte _ => KdByte
  | KCStr => KdCStr
  end.
Definition starts (a : head) (l : list tt) : Prop :=
  match a with
  | HWord n => exists sp r, ignore_none l = TIdent n sp :: r
  | HWordNot ks => exists n sp r, ignore_none l = TIdent n sp :: r /\ ~ In n ks
  | HOp op => exists x, take_op op l = Some x
  | HNeg k => exists g sp1 sp2 repr r1 r x, ignore_none l = TPunct 45 g sp1 :: r1 /\ ignore_none r1 = TLit repr sp2 :: r /\
                lit_num (45%N :: repr) = Some x /\ kd_of x = k
  | HLit k => exists repr sp r x, ignore_none l = TLit repr sp :: r /\ lit_new repr = Some x /\ kd_of x = k
  | HGroup d => exists sp i r, ignore_none l = TGroup d sp i :: r
  | HEnd => l = []
  end.
Definition sees (h : head) (l : list tt) : Prop :=
  match h with
  | HWord n => exists sp r, l = TIdent n sp :: r
  | HWordNot ks => exists n sp r, l = TIdent n sp :: r /\ ~ In n ks
  | HOp op => exists sps r, op <> [] /\ List.length sps = List.length op /\ l = print_op op sps ++ r
  | HNeg k => exists sp1 sp2 repr r x, l = TPunct 45 Alone sp1 :: TLit repr sp2 :: r /\ lit_num (45%N :: repr) = Some x /\ kd_of x = k
  | HLit k => exists repr sp r x, l = TLit repr sp :: r /\ lit_new repr = Some x /\ kd_of x = k
  | HGroup d => d <> DNone /\ exists sp i r, l = TGroup d sp i :: r
  | HEnd => l = []
  end.
Lemma sees_app h l r : sees h l -> h <> HEnd -> sees h (l ++ r).
Proof.
  destruct h; cbn; intros H Hn.
  - destruct H as (sp & r0 & ->). eexists _, _. reflexivity.
  - destruct H as (n & sp & r0 & -> & H). eexists _, _, _. split; [reflexivity|exact H].
  - destruct H as (sps & r0 & H1 & H2 & ->). eexists _, _. split; [exact H1|]. split; [exact H2|]. rewrite <- app_assoc. reflexivity.
  - destruct H as (a & b & c & d & x & -> & H). eexists _, _, _, _, _. split; [reflexivity|exact H].
  - destruct H as (a & b & c & x & -> & H). eexists _, _, _, _. split; [reflexivity|exact H].
  - destruct H as (H & a & b & c & ->). split; [exact H|]. eexists _, _, _. reflexivity.
  - congruence.
Qed.
Lemma print_op_cons c op sps : List.length sps = List.length (c :: op) ->
  exists sp sps' g, sps = sp :: sps' /\ List.length sps' = List.length op /\ print_op (c :: op) sps = TPunct c g sp :: print_op op sps' /\
    g = match op with [] => Alone | _ => Joint end.
Proof.
  destruct sps as [|sp sps]; intro H; [discriminate|]. cbn in H. injection H as H. exists sp, sps. destruct op as [|c2 op].
  - exists Alone. destruct sps; [|discriminate]. auto.
  - exists Joint. auto.
Qed.
Lemma take_op_prefix p : forall q sps r x, List.length sps = List.length q -> q <> [] -> take_op p (print_op q sps ++ r) = Some x -> prefixb p q = true.
Proof.
  induction p as [|c p IH]; intros q sps r x Hl Hq H; [reflexivity|]. destruct q as [|d q]; [congruence|].
  destruct (print_op_cons d q sps Hl) as (sp & sps' & g & -> & Hl' & Ep & Eg). rewrite Ep in H. cbn [take_op app ignore_none open_none] in H.
  cbn [prefixb]. destruct (c =? d)%N; [|discriminate]. cbn [andb] in *. destruct (negb _); [|discriminate]. cbn [andb] in H.
  destruct p as [|c2 p]; [reflexivity|]. destruct q as [|d2 q]; [subst g; cbn in H; discriminate|].
  destruct (spacing_eqb g Joint); [|discriminate]. destruct (take_op (c2 :: p) _) as [y|] eqn:Et; [|discriminate].
  eapply IH; [exact Hl'|discriminate|exact Et].
Qed.
Lemma text_mem_false x l : text_mem x l = false <-> ~ In x l.
Proof. rewrite <- text_mem_In. destruct (text_mem x l); split; congruence. Qed.
Lemma ignore_visible t r : (forall sp i, t <> TGroup DNone sp i) -> ignore_none (t :: r) = t :: r.
Proof. intro H. destruct t as [| | |d sp i]; try reflexivity. destruct d; try reflexivity. exfalso. eapply H. reflexivity. Qed.
Lemma sees_head_op op l : sees (HOp op) l -> exists c g sp r, l = TPunct c g sp :: r /\ (g = Alone -> op = [c]) /\ (op <> [c] -> exists c2 g2 sp2 r2, r = TPunct c2 g2 sp2 :: r2) /\ exists op', op = c :: op'.
Proof.
  intros (sps & r & Ho & Hl & ->). destruct op as [|c op]; [congruence|]. destruct (print_op_cons c op sps Hl) as (sp & sps' & g & -> & Hl' & -> & ->).
  exists c, (match op with [] => Alone | _ => Joint end), sp, (print_op op sps' ++ r). split; [reflexivity|]. split; [destruct op; [reflexivity|discriminate]|].
  split; [|eauto]. intro Hne. destruct op as [|c2 op]; [congruence|]. destruct (print_op_cons c2 op sps' Hl') as (sp2 & sps2 & g2 & -> & _ & -> & _).
  eexists _, _, _, _. reflexivity.
Qed.
Lemma take_op_not_punct p l t r : p <> [] -> ignore_none l = t :: r -> (forall c g sp, t <> TPunct c g sp) -> take_op p l = None.
Proof. intros Hp Hi Ht. destruct p as [|c p]; [congruence|]. cbn [take_op]. rewrite Hi. destruct t; try reflexivity. exfalso. eapply Ht. reflexivity. Qed.
Lemma clash_ok a h l : starts a l -> sees h l -> clash a h = true.
Proof.
  assert (HE : forall a, starts a [] -> a = HEnd \/ a = HOp []).
  { intros [] H; cbn in H; auto.
    - destruct H as (? & ? & H); discriminate.
    - destruct H as (? & ? & ? & H & _); discriminate.
    - destruct H as (? & H). destruct op; [auto|discriminate].
    - destruct H as (? & ? & ? & ? & ? & ? & ? & H & _); discriminate.
    - destruct H as (? & ? & ? & ? & H & _); discriminate.
    - destruct H as (? & ? & ? & H); discriminate. }
  intros Ha Hh. destruct h as [m|ks|q|k'|k'|d'|].
  - (* word *) destruct Hh as (sp & r & ->). destruct a as [n|ks|p|k|k|d|]; cbn in Ha.
    + destruct Ha as (? & ? & E). injection E as <- _ _. apply text_eqb_refl.
    + destruct Ha as (? & ? & ? & E & Hn). injection E as <- _ _. cbn. apply negb_true_iff. apply text_mem_false. exact Hn.
    + destruct Ha as (x & E). destruct p; [reflexivity|]. cbn in E. discriminate.
    + destruct Ha as (? & ? & ? & ? & ? & ? & ? & E & _). discriminate.
    + destruct Ha as (? & ? & ? & ? & E & _). discriminate.
    + destruct Ha as (? & ? & ? & E). discriminate.
    + discriminate.
  - destruct Hh as (n0 & sp & r & -> & Hn0). destruct a as [n|ks'|p|k|k|d|]; cbn in Ha.
    + destruct Ha as (? & ? & E). injection E as <- _ _. cbn. apply negb_true_iff. apply text_mem_false. exact Hn0.
    + reflexivity.
    + destruct Ha as (x & E). destruct p; [reflexivity|]. cbn in E. discriminate.
    + destruct Ha as (? & ? & ? & ? & ? & ? & ? & E & _). discriminate.
    + destruct Ha as (? & ? & ? & ? & E & _). discriminate.
    + destruct Ha as (? & ? & ? & E). discriminate.
    + discriminate.
  - apply sees_head_op in Hh as Hs. destruct Hs as (c & g & sp & r & El & Hg & Hr & op' & Eop). destruct a as [n|ks'|p|k|k|d|]; cbn in Ha.
    + destruct Ha as (? & ? & E). rewrite El in E. discriminate.
    + destruct Ha as (? & ? & ? & E & _). rewrite El in E. discriminate.
    + destruct Ha as (x & E). destruct Hh as (sps & r2 & Hq & Hl & ->). cbn. eapply take_op_prefix; eassumption.
    + destruct Ha as (? & ? & ? & ? & ? & ? & ? & E & E2 & _). rewrite El in E. cbn in E. injection E as -> _ _ <-.
      cbn [clash]. apply text_eqb_eq. destruct (text_eq_dec q [45%N]) as [|Hne]; [assumption|]. destruct (Hr Hne) as (? & ? & ? & ? & ->). discriminate.
    + destruct Ha as (? & ? & ? & ? & E & _). rewrite El in E. discriminate.
    + destruct Ha as (? & ? & ? & E). rewrite El in E. discriminate.
    + congruence.
  - destruct Hh as (sp1 & sp2 & repr & r & x & -> & Hx & Hk). destruct a as [n|ks'|p|k|k|d|]; cbn in Ha.
    + destruct Ha as (? & ? & E). discriminate.
    + destruct Ha as (? & ? & ? & E & _). discriminate.
    + destruct Ha as (y & E). cbn [clash]. apply (take_op_prefix p [45%N] [sp1] (TLit repr sp2 :: r) y); [reflexivity|discriminate|exact E].
    + destruct Ha as (? & ? & ? & ? & ? & ? & ? & E & E2 & E3 & E4). cbn in E. injection E as _ _ <-. cbn in E2. injection E2 as <- _ _.
      rewrite Hx in E3. injection E3 as <-. cbn [clash]. subst. destruct (kd_eq_dec _ _); congruence.
    + destruct Ha as (? & ? & ? & ? & E & _). discriminate.
    + destruct Ha as (? & ? & ? & E). discriminate.
    + discriminate.
  - destruct Hh as (repr & sp & r & x & -> & Hx & Hk). destruct a as [n|ks'|p|k|k|d|]; cbn in Ha.
    + destruct Ha as (? & ? & E). discriminate.
    + destruct Ha as (? & ? & ? & E & _). discriminate.
    + destruct Ha as (y & E). destruct p; [reflexivity|]. cbn in E. discriminate.
    + destruct Ha as (? & ? & ? & ? & ? & ? & ? & E & _). discriminate.
    + destruct Ha as (? & ? & ? & ? & E & E3 & E4). injection E as <- _ _. rewrite Hx in E3. injection E3 as <-. cbn [clash]. subst. destruct (kd_eq_dec _ _); congruence.
    + destruct Ha as (? & ? & ? & E). discriminate.
    + discriminate.
  - destruct Hh as (Hd & sp & i & r & ->). assert (Hi : ignore_none (TGroup d' sp i :: r) = TGroup d' sp i :: r) by (apply ignore_visible; congruence).
    destruct a as [n|ks'|p|k|k|d|]; cbn [starts] in Ha; try rewrite Hi in Ha.
    + destruct Ha as (? & ? & E). discriminate.
    + destruct Ha as (? & ? & ? & E & _). discriminate.
    + destruct Ha as (y & E). destruct p; [reflexivity|]. cbn [take_op] in E. rewrite Hi in E. discriminate.
    + destruct Ha as (? & ? & ? & ? & ? & ? & ? & E & _). discriminate.
    + destruct Ha as (? & ? & ? & ? & E & _). discriminate.
    + destruct Ha as (? & ? & ? & E). injection E as <- _ _ _. cbn. apply delim_eqb_refl.
    + discriminate.
  - cbn in Hh. subst l. apply HE in Ha as [-> | ->]; reflexivity.
Qed.
Lemma no_clash_ok A F l : no_clash A F = true -> (exists h, In h F /\ sees h l) -> forall a, In a A -> ~ starts a l.
Proof.
  unfold no_clash. rewrite forallb_forall. intros H (h & Hh & Hs) a Ha Hst. specialize (H a Ha). rewrite forallb_forall in H. specialize (H h Hh).
  rewrite (clash_ok a h l Hst Hs) in H. discriminate.
Qed.
End Facts.
