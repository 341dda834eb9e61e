(** * FmtFacts: the formatter as a list of writes, independent of the writer. *)
From Verif Require Import Base Float Literal Fmt.
Local Open Scope nat_scope.

(** the calls to [write_str], as a function of the indentation *)
Definition c_indent (ind : option text) (lvl : nat) : list text := match ind with Some s => repeat s lvl | None => [] end.
Definition c_newline (ind : option text) (sp : spacing) : list text :=
  match ind, sp with Some _, _ => [[10%N]] | None, Alone => [[32%N]] | None, Joint => [] end.
Definition c_ident (n : text) : list text :=
  match n with
  | a :: b :: r => if (a =? 114)%N && (b =? 35)%N then [[a; b]; r] else [n]
  | _ => [n]
  end.
Fixpoint c_tree (ind : option text) (lvl : nat) (t : tt) (more : bool) (sp : spacing) : list text * spacing :=
  let pre := match sp with Joint => [] | Alone => [[32%N]] end in
  match t with
  | TLit r _ => (pre ++ [r], Alone)
  | TIdent n _ => (pre ++ c_ident n, Alone)
  | TPunct c g _ =>
      if ((c =? 44)%N || (c =? 59)%N) && spacing_eqb g Alone && more
      then (pre ++ [[c]] ++ c_newline ind g ++ c_indent ind lvl, Joint)
      else (pre ++ [[c]], g)
  | TGroup d _ inner =>
      let c_inner lvl := c_indent ind lvl ++
        (fix loop l sp :=
           match l with
           | [] => []
           | x :: r => let '(a, sp') := c_tree ind lvl x (match r with [] => false | _ => true end) sp in a ++ loop r sp'
           end) inner Joint in
      match delimiters d with
      | None => (pre ++ c_inner lvl, Alone)
      | Some (o, c) =>
          let body := match inner with
                      | [] => []
                      | _ => c_newline ind Joint ++ c_inner (S lvl) ++ c_newline ind Joint ++ c_indent ind lvl
                      end in
          if more then (pre ++ [[o]] ++ body ++ [[c]] ++ c_newline ind Alone ++ c_indent ind lvl, Joint)
          else (pre ++ [[o]] ++ body ++ [[c]], Alone)
      end
  end.
Definition c_loop (ind : option text) (lvl : nat) : list tt -> spacing -> list text := fix loop l sp :=
  match l with
  | [] => []
  | x :: r => let '(a, sp') := c_tree ind lvl x (match r with [] => false | _ => true end) sp in a ++ loop r sp'
  end.
Lemma c_loop_cons ind lvl x r sp : c_loop ind lvl (x :: r) sp =
  let '(a, sp') := c_tree ind lvl x (match r with [] => false | _ => true end) sp in a ++ c_loop ind lvl r sp'.
Proof. reflexivity. Qed.
Definition c_write ind lvl l : list text := c_indent ind lvl ++ c_loop ind lvl l Joint.
Lemma c_tree_group ind lvl d gsp inner more sp : c_tree ind lvl (TGroup d gsp inner) more sp =
  let pre := match sp with Joint => [] | Alone => [[32%N]] end in
  match delimiters d with
  | None => (pre ++ c_write ind lvl inner, Alone)
  | Some (o, c) =>
      let body := match inner with
                  | [] => []
                  | _ => c_newline ind Joint ++ c_write ind (S lvl) inner ++ c_newline ind Joint ++ c_indent ind lvl
                  end in
      if more then (pre ++ [[o]] ++ body ++ [[c]] ++ c_newline ind Alone ++ c_indent ind lvl, Joint)
      else (pre ++ [[o]] ++ body ++ [[c]], Alone)
  end.
Proof. reflexivity. Qed.

(** giving the calls to a writer one after the other, until one fails *)
Fixpoint feed {W} (ws : text -> W -> bool * W) (calls : list text) (w : W) : bool * W :=
  match calls with
  | [] => (true, w)
  | s :: r => match ws s w with
              | (true, w') => feed ws r w'
              | (false, w') => (false, w')
              end
  end.
Lemma feed_app {W} (ws : text -> W -> bool * W) a b w : feed ws (a ++ b) w =
  match feed ws a w with (true, w') => feed ws b w' | (false, w') => (false, w') end.
Proof. revert w. induction a as [|s a IH]; intro w; cbn; [reflexivity|]. destruct (ws s w) as ([|], w'); [apply IH|reflexivity]. Qed.

Section Facts.
Context {W : Type} (ws : text -> W -> bool * W).
(** [m] at (level, indentation) makes the calls [cs] and, if none fails, leaves level [lvl'] and returns [v] *)
Definition makes {A} (m : fm (W := W) A) ind lvl (cs : list text) lvl' (v : A) : Prop := forall w,
  match feed ws cs w with
  | (true, w') => m (Formatter lvl ind w) = (Some v, Formatter lvl' ind w')
  | (false, w') => exists lvl'', m (Formatter lvl ind w) = (None, Formatter lvl'' ind w')
  end.
Lemma makes_ret {A} (v : A) ind lvl : makes (fret v) ind lvl [] lvl v.
Proof. intro w. reflexivity. Qed.
Lemma makes_emit s ind lvl : makes (emit ws s) ind lvl [s] lvl Datatypes.tt.
Proof. intro w. cbn. unfold emit. cbn. destruct (ws s w) as ([|], w'); eauto. Qed.
Lemma makes_bind {A B} (m : fm (W := W) A) (k : A -> fm B) ind l1 a l2 b l3 v u :
  makes m ind l1 a l2 v -> makes (k v) ind l2 b l3 u -> makes (fbind m k) ind l1 (a ++ b) l3 u.
Proof.
  intros H1 H2 w. rewrite feed_app. specialize (H1 w). unfold fbind. destruct (feed ws a w) as ([|], w').
  - rewrite H1. apply H2.
  - destruct H1 as (l & ->). eauto.
Qed.
Lemma makes_indent ind lvl : makes (write_indent ws) ind lvl (c_indent ind lvl) lvl Datatypes.tt.
Proof.
  destruct ind as [s|]; [|intro w; reflexivity].
  intro w. unfold write_indent. cbn [f_indent f_level c_indent].
  assert (G : forall n, makes (emit_times ws n s) (Some s) lvl (repeat s n) lvl Datatypes.tt).
  { induction n as [|n IH]; cbn [emit_times repeat]; [apply makes_ret|]. change (s :: repeat s n) with ([s] ++ repeat s n).
    eapply makes_bind; [apply makes_emit|exact IH]. }
  apply G.
Qed.
Lemma makes_newline sp ind lvl : makes (write_newline ws sp) ind lvl (c_newline ind sp) lvl Datatypes.tt.
Proof. destruct ind as [s|], sp; cbn [c_newline]; try (intro w; apply (makes_emit _ _ lvl w)); intro w; reflexivity. Qed.
Lemma makes_newline_indent sp ind lvl : makes (write_newline_and_indent ws sp) ind lvl (c_newline ind sp ++ c_indent ind lvl) lvl Datatypes.tt.
Proof. eapply makes_bind; [apply makes_newline|apply makes_indent]. Qed.
Lemma makes_ident n ind lvl : makes (write_ident ws n) ind lvl (c_ident n) lvl Datatypes.tt.
Proof.
  unfold write_ident, c_ident. destruct n as [|a [|b r]]; try apply makes_emit.
  destruct ((a =? 114)%N && (b =? 35)%N); [|apply makes_emit].
  change [[a; b]; r] with ([[a; b]] ++ [r]). eapply makes_bind; apply makes_emit.
Qed.
Lemma makes_eq {A} (m : fm (W := W) A) ind lvl a b lvl' v : makes m ind lvl a lvl' v -> a = b -> makes m ind lvl b lvl' v.
Proof. intros H <-. exact H. Qed.
Lemma makes_loop_of ind l : Forall (fun t => forall lvl more sp, makes (write_tree ws t more sp) ind lvl (fst (c_tree ind lvl t more sp)) lvl (snd (c_tree ind lvl t more sp))) l ->
  forall lvl sp, makes (write_loop ws l sp) ind lvl (c_loop ind lvl l sp) lvl Datatypes.tt.
Proof.
  induction 1 as [|x r Hx Hr IH]; intros lvl sp; cbn [write_loop]; [apply makes_ret|]. rewrite c_loop_cons.
  specialize (Hx lvl (match r with [] => false | _ => true end) sp).
  destruct (c_tree ind lvl x _ sp) as (a, sp'). cbn [fst snd] in Hx. eapply makes_bind; [exact Hx|apply IH].
Qed.
Lemma makes_tree ind t : forall lvl more sp, makes (write_tree ws t more sp) ind lvl (fst (c_tree ind lvl t more sp)) lvl (snd (c_tree ind lvl t more sp)).
Proof.
  induction t as [n s|c g s|r s|d s l IH] using tt_ind'; intros lvl more sp.
  - cbn [write_tree c_tree fst snd]. eapply makes_bind; [destruct sp; [apply makes_ret|apply makes_emit]|].
    rewrite <- (app_nil_r (c_ident n)). eapply makes_bind; [apply makes_ident|apply makes_ret].
  - cbn [write_tree c_tree]. destruct (_ && more); cbn [fst snd];
      (eapply makes_bind; [destruct sp; [apply makes_ret|apply makes_emit]|]).
    + eapply makes_bind; [apply makes_emit|]. rewrite <- (app_nil_r (c_newline ind g ++ c_indent ind lvl)).
      eapply makes_bind; [apply makes_newline_indent|apply makes_ret].
    + rewrite <- (app_nil_r [[c]]). eapply makes_bind; [apply makes_emit|apply makes_ret].
  - cbn [write_tree c_tree fst snd]. eapply makes_bind; [destruct sp; [apply makes_ret|apply makes_emit]|].
    rewrite <- (app_nil_r [r]). eapply makes_bind; [apply makes_emit|apply makes_ret].
  - rewrite write_tree_group, c_tree_group. cbv zeta.
    assert (Hin : forall lvl, makes (write ws l) ind lvl (c_write ind lvl l) lvl Datatypes.tt).
    { intro lv. eapply makes_bind; [apply makes_indent|]. apply makes_loop_of. exact IH. }
    destruct (delimiters d) as [(o, c)|].
    + assert (G : makes (match l with [] => fret Datatypes.tt | _ =>
          fbind level_up (fun _ => fbind (write_newline ws Joint) (fun _ => fbind (write ws l) (fun _ => fbind level_down (fun _ => write_newline_and_indent ws Joint)))) end)
        ind lvl (match l with [] => [] | _ => c_newline ind Joint ++ c_write ind (S lvl) l ++ c_newline ind Joint ++ c_indent ind lvl end) lvl Datatypes.tt).
      { destruct l as [|x l']; [apply makes_ret|].
        apply (makes_bind _ _ ind lvl [] (S lvl) _ lvl Datatypes.tt); [intro w; reflexivity|].
        eapply makes_bind; [apply makes_newline|]. eapply makes_bind; [apply Hin|].
        apply (makes_bind _ _ ind (S lvl) [] lvl _ lvl Datatypes.tt); [intro w; reflexivity|]. apply makes_newline_indent. }
      assert (Hpre : makes (match sp with Joint => fret Datatypes.tt | Alone => emit ws [32%N] end) ind lvl (match sp with Joint => [] | Alone => [[32%N]] end) lvl Datatypes.tt).
      { destruct sp; [apply makes_ret|apply makes_emit]. }
      destruct more; cbn [fst snd].
      * eapply makes_bind; [exact Hpre|]. eapply makes_bind; [apply makes_emit|]. eapply makes_bind; [exact G|]. eapply makes_bind; [apply makes_emit|].
        rewrite <- (app_nil_r (c_newline ind Alone ++ c_indent ind lvl)). eapply makes_bind; [apply makes_newline_indent|apply makes_ret].
      * eapply makes_bind; [exact Hpre|]. eapply makes_bind; [apply makes_emit|]. eapply makes_bind; [exact G|].
        rewrite <- (app_nil_r [[c]]). eapply makes_bind; [apply makes_emit|apply makes_ret].
    + cbn [fst snd]. eapply makes_bind; [destruct sp; [apply makes_ret|apply makes_emit]|].
      rewrite <- (app_nil_r (c_write ind lvl l)). eapply makes_bind; [apply Hin|apply makes_ret].
Qed.
Lemma makes_write ind lvl l : makes (write ws l) ind lvl (c_write ind lvl l) lvl Datatypes.tt.
Proof. eapply makes_bind; [apply makes_indent|]. apply makes_loop_of. apply Forall_forall. intros t _. apply makes_tree. Qed.
End Facts.

Lemma feed_string calls w : feed string_write calls w = (true, w ++ List.concat calls).
Proof. revert w. induction calls as [|s r IH]; intro w; cbn; [rewrite app_nil_r; reflexivity|]. rewrite IH, app_assoc. reflexivity. Qed.
Lemma write_string ind lvl l w : write string_write l (Formatter lvl ind w) = (Some Datatypes.tt, Formatter lvl ind (w ++ List.concat (c_write ind lvl l))).
Proof. pose proof (makes_write string_write ind lvl l w) as H. rewrite feed_string in H. exact H. Qed.
Lemma text_with_calls ind lvl l : text_with ind lvl l = List.concat (c_write ind lvl l).
Proof. unfold text_with. rewrite write_string. reflexivity. Qed.
Lemma to_text_with alt l : to_text alt l = text_with (if alt then None else Some [32; 32; 32; 32]%N) 0 l.
Proof. unfold to_text, format_tokens, format_tokens_compact, format_tokens_pretty, text_with, pretty, compact. destruct alt; rewrite !write_string; reflexivity. Qed.
