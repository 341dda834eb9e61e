(** * Joined: a text after another text, on a line of its own. *)
From Verif Require Import Base Float Literal Syn Fmt FmtFacts Reprint LiteralFacts Lexer Offsets PropSpan LexFacts LexWf LexOut LexRun Laid.
Local Open Scope nat_scope.

Section Joined.
Context {U : unicode}.
Section Below.
Variable u : text.
Notation v := (10%N :: u).
Lemma hd_more (x : text) k : k <> 10%N -> hd_error x <> Some k -> hd_error (x ++ v) <> Some k.
Proof. intros Hk H. destruct x as [|c x]; cbn in *; congruence. Qed.
Lemma blank_more g x : blank g x -> blank g (x ++ v).
Proof.
  induction 1 as [x|c g x Hc H IH|c g x (Hc & Hd) Hp H IH|c g x Hc Hp H IH]; [constructor| | |].
  - apply b_white; assumption.
  - apply b_line; [|exact Hp|exact IH]. split; [exact Hc|]. rewrite app_assoc. destruct (g ++ x) as [|a y]; [reflexivity|exact Hd].
  - apply b_block; assumption.
Qed.
Lemma may_more t s : may_follow t s -> may_follow t (s ++ v).
Proof.
  destruct s as [|c r]; cbn [app].
  - destruct t as [n sp|p [|] sp|n sp|d sp l]; cbn [may_follow]; intro H.
    + split; [reflexivity|]. cbn. intuition discriminate.
    + contradiction.
    + left. cbn. intuition discriminate.
    + left. cbn. tauto.
    + exact I.
  - destruct t as [n sp|p [|] sp|n sp|d sp l]; cbn [may_follow]; intro H; try exact H.
    + destruct H as (H1 & H2). split; [exact H1|]. intros (H3 & H4). apply H2. split; [exact H3|]. destruct r; cbn in H4; [destruct H4; discriminate|exact H4].
    + destruct H as [H|(H1 & H2 & H3)]; [left; exact H|right]. split; [exact H1|]. split; [exact H2|]. destruct r; cbn in H3; [destruct H3; discriminate|exact H3].
Qed.
Lemma cut_before p : ~ In 10%N p -> forall x q, x ++ v = p ++ q -> exists y, x = p ++ y.
Proof.
  induction p as [|a p IH]; intros Hp x q E; [exists x; reflexivity|]. destruct x as [|b x]; cbn [app] in E.
  - injection E as <- _. exfalso. apply Hp. left. reflexivity.
  - injection E as -> E. destruct (IH (fun H => Hp (or_intror H)) x q E) as (y & ->). exists y. reflexivity.
Qed.
Lemma line_more s : line_end s -> line_end (s ++ v).
Proof. intros [->|[(r & ->)|(r & ->)]]; right; [left; exists u; reflexivity|left; eexists; reflexivity|right; eexists; reflexivity]. Qed.
(** tokens up to some point of a text are not changed by what comes after the text *)
Lemma laid_inside l s rest : laid l s rest -> rest <> [] -> laid l (s ++ v) (rest ++ v).
Proof.
  induction 1 as [g rest Hb|g t s r rest Ht Hb Hm H IH|g d o c sp l inside s r rest Hd Hb He H1 IH1 H2 IH2|g inner t sp s r rest Hb H1 H2 H3 H4 H IH|g inner t sp s r rest Hb H1 H2 H3 H IH]; intros Hr.
  - rewrite <- app_assoc. apply l_end. apply blank_more. exact Hb.
  - rewrite <- !app_assoc. apply l_leaf; [exact Ht| |apply may_more; exact Hm|apply IH; exact Hr]. rewrite app_assoc. apply blank_more. exact Hb.
  - rewrite <- app_assoc. cbn [app]. eapply (l_group g d o c sp l (inside ++ v) (s ++ v)); [exact Hd| | | |apply IH2; exact Hr].
    + apply (blank_more g (o :: inside)). exact Hb.
    + intros (-> & q & E). apply He. split; [reflexivity|]. apply (cut_before (T "/*ERROR*/)")) in E; [exact E|]. vm_compute. intuition discriminate.
    + apply IH1. discriminate.
  - rewrite <- !app_assoc. apply l_doc_line; try assumption; [| |apply line_more; exact H4|apply IH; exact Hr].
    + rewrite !(app_assoc _ _ v). apply blank_more. exact Hb.
    + intro Hi. rewrite app_assoc. apply hd_more; [discriminate|apply H3; exact Hi].
  - rewrite <- !app_assoc. apply l_doc_block; try assumption; [|apply IH; exact Hr]. rewrite !(app_assoc _ _ v). apply blank_more. exact Hb.
Qed.
End Below.
(** a gap in front of a text *)
Lemma laid_gap g l s rest : laid l s rest -> blank g s -> laid l (g ++ s) rest.
Proof.
  intros H. destruct H as [h rest Hb|h t s r rest Ht Hb Hm H|h d o c sp l inside s r rest Hd Hb He H1 H2|h inner t sp s r rest Hb H1 H2 H3 H4 H|h inner t sp s r rest Hb H1 H2 H3 H]; intro B; rewrite app_assoc.
  - apply l_end. apply blank_app; assumption.
  - apply l_leaf; auto. apply blank_app; assumption.
  - eapply l_group; eauto. apply blank_app; assumption.
  - apply l_doc_line; auto. apply blank_app; assumption.
  - apply l_doc_block; auto. apply blank_app; assumption.
Qed.
(** Two texts, the second below the first: the tokens of the first, then those of the second. *)
Theorem laid_below l l2 s s2 : laid l s [] -> laid l2 s2 [] -> laid (l ++ l2) (s ++ 10%N :: s2) [].
Proof.
  intros H H'. remember (@nil char) as rest eqn:Er in H. revert Er.
  induction H as [g rest Hb|g t s r rest Ht Hb Hm H IH|g d o c sp l inside s r rest Hd Hb He H1 IH1 H2 IH2|g inner t sp s r rest Hb H1 H2 H3 H4 H IH|g inner t sp s r rest Hb H1 H2 H3 H IH]; intros ->.
  - rewrite app_nil_r. cbn [app]. change (10%N :: s2) with ([10%N] ++ s2). rewrite app_assoc.
    assert (B : blank [10%N] s2) by (apply b_white; [reflexivity|constructor]).
    apply laid_gap; [exact H'|]. apply blank_app; [|exact B]. exact (blank_more s2 g [] Hb).
  - rewrite <- !app_assoc. cbn [app]. apply l_leaf; [exact Ht| |apply may_more; exact Hm|apply IH; reflexivity]. rewrite app_assoc. apply blank_more. exact Hb.
  - rewrite <- app_assoc. cbn [app]. eapply (l_group g d o c sp l (inside ++ 10%N :: s2) (s ++ 10%N :: s2)); [exact Hd| | | |apply IH2; reflexivity].
    + apply (blank_more s2 g (o :: inside)). exact Hb.
    + intros (-> & q & E). apply He. split; [reflexivity|]. apply (cut_before s2 (T "/*ERROR*/)")) in E; [exact E|]. vm_compute. intuition discriminate.
    + exact (laid_inside s2 _ _ _ H1 ltac:(discriminate)).
  - rewrite <- !app_assoc. apply l_doc_line; try assumption; [| |apply line_more; exact H4|apply IH; reflexivity].
    + rewrite !(app_assoc _ _ (10%N :: s2)). apply blank_more. exact Hb.
    + intro Hi. rewrite app_assoc. apply hd_more; [discriminate|apply H3; exact Hi].
  - rewrite <- !app_assoc. apply l_doc_block; try assumption; [|apply IH; reflexivity]. rewrite !(app_assoc _ _ (10%N :: s2)). apply blank_more. exact Hb.
Qed.
Lemma joint_app c x y : joint_ok c x -> joint_ok c (x ++ y).
Proof. destruct x as [|[]]; cbn; auto; contradiction. Qed.
Lemma wf_app a b : wf a -> wf b -> wf (a ++ b).
Proof.
  intros Ha Hb. induction a as [|x a IH]; [exact Hb|]. cbn [app]. rewrite wf_cons in *. destruct Ha as (H1 & H2 & H3). split; [exact H1|]. split; [|auto].
  destruct x as [|c [|] sp| |]; auto. apply joint_app. exact H2.
Qed.
End Joined.
