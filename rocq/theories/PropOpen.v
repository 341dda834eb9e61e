(** * PropOpen (C61): parsel's nodes and derived types work with parts of any other type that
    implements [Parse] and [ToTokens]: hand-written ones, and those of other crates. *)
From Verif Require Import Base Float Literal Syn Ast Derive Grammar Spec LitSpec Reprint SynFacts Lawful Mono Combinators GrammarBeh Assoc Term RoundFacts Sound ManyFacts Examples Open.
Local Open Scope nat_scope.

(** ** What counts as an implementation. *)
(** Every program made of the operations syn offers is one, whatever its procedures call. *)
Theorem C61_any_program_implements : forall (U : unicode) X V (proc : X -> nat -> parser V) body, program proc body ->
  forall A p, written proc A p -> exists i : impl A, run i = p.
Proof. intros U X V proc body Hb A p H. exists (implementation proc body Hb A p H). reflexivity. Qed.
(** So is every type of a closed grammar. *)
Theorem C61_closed_types_implement : forall (U : unicode) E t, (exists i : impl val, run i = fun n => pty E n t) /\
  (forall s v s', yes (does (i_node E t)) s v s' <-> yes (tbeh E t) s v s') /\ (forall s e, no (does (i_node E t)) s e <-> no (tbeh E t) s e).
Proof. intros U E t. split; [exists (i_node E t); reflexivity|]. split; intros; reflexivity. Qed.
(** [does] is a function: an implementation has at most one outcome. *)
Theorem C61_one_outcome : forall A (p : impl A) s,
  (forall v s1 w s2, yes (does p) s v s1 -> yes (does p) s w s2 -> v = w /\ s1 = s2) /\
  (forall v s1 e, yes (does p) s v s1 -> ~ no (does p) s e) /\
  (forall e1 e2, no (does p) s e1 -> no (does p) s e2 -> e1 = e2) /\
  ((exists v s', yes (does p) s v s') \/ (exists e, no (does p) s e) -> ~ panics p s /\ ~ runs_forever p s).
Proof.
  intros A p s.
  assert (D : forall n m o1 s1 o2 s2, run p n s = (o1, s1) -> o1 <> ODiverge -> run p m s = (o2, s2) -> o2 <> ODiverge -> (o1, s1) = (o2, s2)).
  { intros n m o1 s1 o2 s2 H1 D1 H2 D2. apply (run_keep p n (n + m)) in H1; [|lia|exact D1]. apply (run_keep p m (n + m)) in H2; [|lia|exact D2]. congruence. }
  repeat split.
  - destruct H as (n & H), H0 as (m & H0). assert (E := D _ _ _ _ _ _ H ltac:(discriminate) H0 ltac:(discriminate)). congruence.
  - destruct H as (n & H), H0 as (m & H0). assert (E := D _ _ _ _ _ _ H ltac:(discriminate) H0 ltac:(discriminate)). congruence.
  - intros v s1 e (n & H) (m & s2 & H0). assert (E := D _ _ _ _ _ _ H ltac:(discriminate) H0 ltac:(discriminate)). discriminate E.
  - intros e1 e2 (n & s1 & H) (m & s2 & H0). assert (E := D _ _ _ _ _ _ H ltac:(discriminate) H0 ltac:(discriminate)). congruence.
  - intros (m & s2 & H0). destruct H as [(v & s' & n & H)|(e & n & s' & H)]; assert (E := D _ _ _ _ _ _ H ltac:(discriminate) H0 ltac:(discriminate)); discriminate E.
  - intro H0. destruct H as [(v & s' & n & H)|(e & n & s' & H)]; specialize (H0 n); rewrite H in H0; discriminate H0.
Qed.

(** ** What each node does, in terms of what its parts do. *)
Theorem C61_maybe : forall P A (p : impl P) (a : impl A) s,
  (forall v s', yes (does (i_maybe p a)) s v s' <->
     (exists e, v = None /\ s' = s /\ no (does p) s e) \/ (exists x w s1, v = Some (x, w) /\ yes (does p) s x s1 /\ yes (does a) s1 w s')) /\
  (forall e, no (does (i_maybe p a)) s e <-> exists x s1, yes (does p) s x s1 /\ no (does a) s1 e).
Proof. intros. split; intros; [apply i_maybe_yes|apply i_maybe_no]. Qed.
Theorem C61_either : forall L R (l : impl L) (r : impl R) s,
  (forall v s', yes (does (i_either l r)) s v s' <->
     (exists w, v = ELeft w /\ yes (does l) s w s') \/ (exists e w, v = ERight w /\ no (does l) s e /\ yes (does r) s w s')) /\
  (forall e, no (does (i_either l r)) s e <-> exists e1 e2, no (does l) s e1 /\ no (does r) s e2 /\ reported [e1; e2] e).
Proof. intros. split; intros; [apply i_either_yes|apply i_either_no]. Qed.
Theorem C61_any : forall A (a : impl A) s,
  (forall l s', yes (does (i_any a)) s l s' <-> run_yes (does a) s l s') /\ (forall e, ~ no (does (i_any a)) s e).
Proof. intros. split; intros; [apply i_any_yes|apply i_any_no]. Qed.
Theorem C61_separated : forall A P (a : impl A) (p : impl P) s,
  (forall x s', yes (does (i_separated a p)) s x s' <->
     exists v s1 l, yes (does a) s v s1 /\ tail_yes (does a) (does p) s1 l s' /\ x = Pn (fst (pairs_of v l)) (Some (snd (pairs_of v l)))) /\
  (forall e, no (does (i_separated a p)) s e <-> no (does a) s e \/ exists v s1, yes (does a) s v s1 /\ tail_no (does a) (does p) s1 e).
Proof. intros. split; intros; [apply i_separated_yes|apply i_separated_no]. Qed.
Theorem C61_punctuated : forall A P (a : impl A) (p : impl P) s,
  (forall x s', yes (does (i_punctuated a p)) s x s' <-> exists l o, x = Pn l o /\ fill_yes (does a) (does p) s l o s') /\
  (forall e, no (does (i_punctuated a p)) s e <-> fill_no (does a) (does p) s e).
Proof. intros. split; intros; [apply i_punctuated_yes|apply i_punctuated_no]. Qed.
Theorem C61_group : forall A d (a : impl A) s,
  (forall x s', yes (does (i_group d a)) s x s' <->
     exists sp w inner r si, x = (sp, w) /\ ignore_none (ps_rest s) = TGroup d sp inner :: r /\
       yes (does a) (PS inner (close_span sp) (ps_unexp s)) w si /\ s' = PS r (ps_scope s) (drop_unexp (ps_unexp si) (ps_rest si))) /\
  (forall e, no (does (i_group d a)) s e <->
     (exists sp inner r, ignore_none (ps_rest s) = TGroup d sp inner :: r /\ no (does a) (PS inner (close_span sp) (ps_unexp s)) e) \/
     ((forall sp inner r, ignore_none (ps_rest s) <> TGroup d sp inner :: r) /\ e = error_at s (delim_msg d))).
Proof. intros. split; intros; [apply i_group_yes|apply i_group_no]. Qed.
Theorem C61_left_assoc : forall O R (o : impl O) (r : impl R) s,
  (forall t s', yes (does (i_left o r)) s t s' <-> exists x s1 l, yes (does r) s x s1 /\ tail_yes (does r) (does o) s1 l s' /\ left_form x l t) /\
  (forall e, no (does (i_left o r)) s e <-> no (does r) s e \/ exists v s1, yes (does r) s v s1 /\ tail_no (does r) (does o) s1 e).
Proof. intros. split; intros; [apply i_left_yes|apply i_left_no]. Qed.
Theorem C61_right_assoc : forall O L (o : impl O) (l : impl L) s,
  (forall t s', yes (does (i_right o l)) s t s' <-> exists x s1 r, yes (does l) s x s1 /\ tail_yes (does l) (does o) s1 r s' /\ right_form x r t) /\
  (forall e, no (does (i_right o l)) s e <-> no (does l) s e \/ exists v s1, yes (does l) s v s1 /\ tail_no (does l) (does o) s1 e).
Proof. intros. split; intros; [apply i_right_yes|apply i_right_no]. Qed.
(** Derived types: the fields in order; the first variant whose fields all succeed, else the error of a variant that got furthest. *)
Theorem C61_struct : forall V c (fs : list (label * impl V)) s,
  (forall vs s', yes (does (i_struct c fs)) s vs s' <-> seq_yes (parts fs) s vs s') /\
  (forall e, no (does (i_struct c fs)) s e <-> exists k f e0, nth_error fs k = Some f /\ seq_no (parts fs) s k e0 /\ e = chained [Hop None c (fst f)] e0).
Proof. intros. split; intros; [apply i_struct_yes|apply i_struct_no]. Qed.
Theorem C61_enum : forall V en (cs : list (text * list (label * impl V))) s,
  (forall k vs s', yes (does (i_enum en cs)) s (k, vs) s' <->
     exists c, nth_error cs k = Some c /\ seq_yes (parts (snd c)) s vs s' /\ forall j d, j < k -> nth_error cs j = Some d -> exists e, variant_no en d s e) /\
  (forall e, no (does (i_enum en cs)) s e <->
     exists errs, Forall2 (fun c x => variant_no en c s x) cs errs /\ (reported errs e \/ cs = [] /\ e = error_at s (T "parsing an empty choice (enum) always fails"))).
Proof. intros. split; intros; [apply i_enum_yes|apply i_enum_no]. Qed.

(** ** Printing.  [R c ts]: [ts] is an acceptable printing of the tokens [c]; any such relation that
    goes through sequences and groups. *)
Record respected (ok : list tt -> Prop) (R : list tt -> list tt -> Prop) : Prop := Respected {
  r_nil : R [] [];
  r_app : forall a b c d, R a b -> R c d -> R (a ++ c) (b ++ d);
  r_group : forall d sp a b, d <> DNone -> R a b -> R [TGroup d sp a] [TGroup d sp b];
  ok_rest : forall a b, ok (a ++ b) -> ok b;
  ok_inside : forall d sp l r, ok (TGroup d sp l :: r) -> ok l }.
(** Reading a value with [p] and printing it with [pr] gives the tokens that were read ([R]), provided nothing was left over in a group. *)
Definition faithful (ok : list tt -> Prop) (R : list tt -> list tt -> Prop) {A} (p : impl A) (pr : printer A) : Prop :=
  forall s v s' ts, ok (flat (ps_rest s)) -> yes (does p) s v s' -> ps_unexp s' = None -> pr v = Some ts ->
    exists c, flat (ps_rest s) = c ++ flat (ps_rest s') /\ R c ts.
Section Faithful.
Context (ok : list tt -> Prop) (R : list tt -> list tt -> Prop) (HR : respected ok R).
Definition copies (s : pstate) (ts : list tt) (s' : pstate) : Prop :=
  frame s s' /\ (ok (flat (ps_rest s)) -> ps_unexp s' = None -> exists c, flat (ps_rest s) = c ++ flat (ps_rest s') /\ R c ts).
Lemma copies_refl s : copies s [] s.
Proof. split; [apply frame_refl|]. intros _ _. exists []. split; [reflexivity|]. apply (r_nil _ _ HR). Qed.
Lemma copies_trans s a s1 b s2 : copies s a s1 -> copies s1 b s2 -> copies s (a ++ b) s2.
Proof.
  intros (F1 & H1) (F2 & H2). split; [eapply frame_trans; eassumption|]. intros Hok Hu.
  destruct (H1 Hok (frame_unexp_none _ _ F2 Hu)) as (c & E & Hc). rewrite E in Hok. apply (ok_rest _ _ HR) in Hok.
  destruct (H2 Hok Hu) as (d & E2 & Hd). exists (c ++ d). split; [rewrite E, E2, app_assoc; reflexivity|]. apply (r_app _ _ HR); assumption.
Qed.
Lemma yes_frame {A} (p : impl A) s v s' : yes (does p) s v s' -> frame s s'.
Proof. intros (n & H). exact (proj1 (run_lawful p n) _ _ _ H). Qed.
Definition copying {A} (b : behaviour A) (pr : printer A) : Prop := forall s v s' ts, yes b s v s' -> pr v = Some ts -> copies s ts s'.
Lemma faithful_copying {A} (p : impl A) pr : faithful ok R p pr <-> copying (does p) pr.
Proof.
  split.
  - intros H s v s' ts Hy Hp. split; [eapply yes_frame; exact Hy|]. intros Hok Hu. eapply H; eassumption.
  - intros H s v s' ts Hok Hy Hu Hp. destruct (H s v s' ts Hy Hp) as (_ & Hc). apply Hc; assumption.
Qed.
Lemma copy_run {A} (b : behaviour A) pr s vs s' : copying b pr -> run_yes b s vs s' -> forall ts, oconcat (map pr vs) = Some ts -> copies s ts s'.
Proof.
  intros HF H. induction H as [s e Hn|s v s1 vs s2 Hb Hs IH]; intros ts Hp.
  - cbn in Hp. injection Hp as <-. apply copies_refl.
  - cbn in Hp. apply oapp_some in Hp as (x & y & Hx & Hy & ->). eapply copies_trans; [eapply HF; eassumption|]. apply IH; assumption.
Qed.
Lemma copy_tail {A P} (a : behaviour A) (p : behaviour P) pa pp s l s' : copying a pa -> copying p pp -> tail_yes a p s l s' ->
  forall ts, oconcat (map (fun oy => oapp (pp (fst oy)) (pa (snd oy))) l) = Some ts -> copies s ts s'.
Proof.
  intros HA HP H. induction H as [s e Hn|s q s1 v s2 l s3 H1 H2 Hs IH]; intros ts Hp.
  - cbn in Hp. injection Hp as <-. apply copies_refl.
  - cbn in Hp. apply oapp_some in Hp as (x & y & Hx & Hy & ->). apply oapp_some in Hx as (x1 & x2 & Hx1 & Hx2 & ->).
    rewrite <- app_assoc. eapply copies_trans; [eapply HP; eassumption|]. eapply copies_trans; [eapply HA; eassumption|]. apply IH; assumption.
Qed.
Lemma copy_fill {A P} (a : behaviour A) (p : behaviour P) pa pp s l o s' : copying a pa -> copying p pp -> fill_yes a p s l o s' ->
  forall ts, print_punctuated pa pp (Pn l o) = Some ts -> copies s ts s'.
Proof.
  intros HA HP H. induction H as [s Hn|s v s1 Hn H1 H2|s v s1 q s2 l o s3 Hn H1 Hn2 H2 Hs IH]; intros ts Hp; unfold print_punctuated in *; cbn [pn_inner pn_last] in *.
  - cbn in Hp. injection Hp as <-. apply copies_refl.
  - cbn in Hp. destruct (pa v) as [x|] eqn:Ev; [|discriminate Hp]. cbn in Hp. injection Hp as <-. eapply HA; eassumption.
  - cbn [map oconcat fold_right] in Hp. rewrite !oapp_assoc in Hp.
    apply oapp_some in Hp as (x & y & Hx & Hy & ->). apply oapp_some in Hy as (y1 & y2 & Hy1 & Hy2 & ->).
    eapply copies_trans; [eapply HA; eassumption|]. eapply copies_trans; [eapply HP; eassumption|]. apply IH. exact Hy2.
Qed.
Lemma copy_seq {V} (bs : list (behaviour V)) prs s vs s' : Forall2 copying bs prs -> seq_yes bs s vs s' ->
  forall ts, print_fields prs vs = Some ts -> copies s ts s'.
Proof.
  intros HF H. revert prs HF. induction H as [s|b bs s v s1 vs s2 Hb Hs IH]; intros prs HF ts Hp; inversion HF as [|? pr ? prs' Hb0 HF']; subst.
  - cbn in Hp. injection Hp as <-. apply copies_refl.
  - cbn in Hp. apply oapp_some in Hp as (x & y & Hx & Hy & ->). eapply copies_trans; [eapply Hb0; eassumption|]. eapply IH; eassumption.
Qed.
Lemma print_left_pieces {O Q} (po : printer O) (pr : printer Q) x l t : left_form x l t ->
  print_left po pr t = oapp (pr x) (oconcat (map (fun oy => oapp (po (fst oy)) (pr (snd oy))) l)).
Proof.
  induction 1 as [|l t o y H IH]; cbn [print_left map oconcat fold_right]; [rewrite oapp_nil_r; reflexivity|].
  rewrite IH, oapp_assoc, map_app, oconcat_app. f_equal. f_equal. cbn. rewrite oapp_nil_r. reflexivity.
Qed.
Lemma print_right_pieces {O Q} (po : printer O) (pr : printer Q) x l t : right_form x l t ->
  print_right po pr t = oapp (pr x) (oconcat (map (fun oy => oapp (po (fst oy)) (pr (snd oy))) l)).
Proof.
  induction 1 as [x|x o y l t H IH]; cbn [print_right map oconcat fold_right fst snd]; [rewrite oapp_nil_r; reflexivity|].
  rewrite IH, !oapp_assoc. reflexivity.
Qed.
Lemma print_sep_pieces {A P} (pa : printer A) (pp : printer P) x l :
  print_punctuated pa pp (Pn (fst (pairs_of x l)) (Some (snd (pairs_of x l)))) = oapp (pa x) (oconcat (map (fun oy => oapp (pp (fst oy)) (pa (snd oy))) l)).
Proof.
  revert x. induction l as [|[p y] l IH]; intro x.
  - cbn. rewrite oapp_nil_r. destruct (pa x); reflexivity.
  - cbn [pairs_of]. specialize (IH y). destruct (pairs_of y l) as [ps z]. unfold print_punctuated in *. cbn [fst snd pn_inner pn_last] in *. cbn [map oconcat fold_right fst snd] in *.
    rewrite !oapp_assoc. f_equal. f_equal. exact IH.
Qed.
End Faithful.

Theorem C61_print_maybe : forall ok R, respected ok R -> forall P A (p : impl P) (a : impl A) pp pa,
  faithful ok R p pp -> faithful ok R a pa -> faithful ok R (i_maybe p a) (print_maybe pp pa).
Proof.
  intros ok R HR P A p a pp pa Hp Ha. apply faithful_copying in Hp. apply faithful_copying in Ha. apply faithful_copying. intros s v s' ts H Ht.
  apply i_maybe_yes in H as [(e & -> & -> & _)|(x & w & s1 & -> & H1 & H2)].
  - injection Ht as <-. apply (copies_refl _ _ HR).
  - cbn in Ht. apply oapp_some in Ht as (y & z & Hy & Hz & ->). eapply (copies_trans _ _ HR); [eapply Hp|eapply Ha]; eassumption.
Qed.
Theorem C61_print_either : forall ok R L Q (l : impl L) (r : impl Q) pl pr,
  faithful ok R l pl -> faithful ok R r pr -> faithful ok R (i_either l r) (print_either pl pr).
Proof.
  intros ok R L Q l r pl pr Hl Hr s v s' ts Hok H Hu Ht. apply i_either_yes in H as [(w & -> & H)|(e & w & -> & _ & H)]; [eapply Hl|eapply Hr]; eassumption.
Qed.
Theorem C61_print_any : forall ok R, respected ok R -> forall A (a : impl A) pa, faithful ok R a pa -> faithful ok R (i_any a) (print_any pa).
Proof.
  intros ok R HR A a pa Ha. apply faithful_copying in Ha. apply faithful_copying. intros s v s' ts H Ht. apply i_any_yes in H.
  eapply (copy_run _ _ HR); [exact Ha|exact H|exact Ht].
Qed.
Theorem C61_print_separated : forall ok R, respected ok R -> forall A P (a : impl A) (p : impl P) pa pp,
  faithful ok R a pa -> faithful ok R p pp -> faithful ok R (i_separated a p) (print_punctuated pa pp).
Proof.
  intros ok R HR A P a p pa pp Ha Hp. apply faithful_copying in Ha. apply faithful_copying in Hp. apply faithful_copying. intros s v s' ts H Ht.
  apply i_separated_yes in H as (x & s1 & l & H1 & H2 & ->). rewrite print_sep_pieces in Ht. apply oapp_some in Ht as (y & z & Hy & Hz & ->).
  eapply (copies_trans _ _ HR); [eapply Ha; eassumption|]. eapply (copy_tail _ _ HR); [exact Ha|exact Hp|exact H2|exact Hz].
Qed.
Theorem C61_print_punctuated : forall ok R, respected ok R -> forall A P (a : impl A) (p : impl P) pa pp,
  faithful ok R a pa -> faithful ok R p pp -> faithful ok R (i_punctuated a p) (print_punctuated pa pp).
Proof.
  intros ok R HR A P a p pa pp Ha Hp. apply faithful_copying in Ha. apply faithful_copying in Hp. apply faithful_copying. intros s v s' ts H Ht.
  apply i_punctuated_yes in H as (l & o & -> & H). eapply (copy_fill _ _ HR); [exact Ha|exact Hp|exact H|exact Ht].
Qed.
Theorem C61_print_group : forall ok R, respected ok R -> forall A d (a : impl A) pa, d <> DNone ->
  faithful ok R a pa -> faithful ok R (i_group d a) (print_group d pa).
Proof.
  intros ok R HR A d a pa Hd Ha s v s' ts Hok H Hu Ht. apply i_group_yes in H as (sp & w & inner & r & si & -> & Hi & H & ->).
  unfold print_group in Ht. cbn [fst snd] in Ht. destruct (pa w) as [o|] eqn:Ew; [|discriminate Ht]. injection Ht as <-.
  cbn [ps_unexp] in Hu. unfold drop_unexp in Hu. destruct (ps_unexp si) as [x|] eqn:Eu; [discriminate Hu|]. apply leftover_none_flat in Hu.
  assert (EF : flat (ps_rest s) = TGroup d sp (flat inner) :: flat r) by (rewrite <- flat_ignore_none, Hi; cbn [flat]; rewrite flat1_group by exact Hd; reflexivity).
  rewrite EF in *. cbn [ps_rest]. apply (ok_inside _ _ HR) in Hok.
  destruct (Ha (PS inner (close_span sp) (ps_unexp s)) w si o Hok H Eu Ew) as (c & Ec & Hc). cbn [ps_rest] in Ec. rewrite Hu, app_nil_r in Ec.
  exists [TGroup d sp c]. rewrite Ec. split; [reflexivity|]. apply (r_group _ _ HR); assumption.
Qed.
Theorem C61_print_left_assoc : forall ok R, respected ok R -> forall O Q (o : impl O) (r : impl Q) po pr,
  faithful ok R o po -> faithful ok R r pr -> faithful ok R (i_left o r) (print_left po pr).
Proof.
  intros ok R HR O Q o r po pr Ho Hr. apply faithful_copying in Ho. apply faithful_copying in Hr. apply faithful_copying. intros s v s' ts H Ht.
  apply i_left_yes in H as (x & s1 & l & H1 & H2 & Hf). rewrite (print_left_pieces po pr _ _ _ Hf) in Ht. apply oapp_some in Ht as (y & z & Hy & Hz & ->).
  eapply (copies_trans _ _ HR); [eapply Hr; eassumption|]. eapply (copy_tail _ _ HR); [exact Hr|exact Ho|exact H2|exact Hz].
Qed.
Theorem C61_print_right_assoc : forall ok R, respected ok R -> forall O Q (o : impl O) (r : impl Q) po pr,
  faithful ok R o po -> faithful ok R r pr -> faithful ok R (i_right o r) (print_right po pr).
Proof.
  intros ok R HR O Q o r po pr Ho Hr. apply faithful_copying in Ho. apply faithful_copying in Hr. apply faithful_copying. intros s v s' ts H Ht.
  apply i_right_yes in H as (x & s1 & l & H1 & H2 & Hf). rewrite (print_right_pieces po pr _ _ _ Hf) in Ht. apply oapp_some in Ht as (y & z & Hy & Hz & ->).
  eapply (copies_trans _ _ HR); [eapply Hr; eassumption|]. eapply (copy_tail _ _ HR); [exact Hr|exact Ho|exact H2|exact Hz].
Qed.
Theorem C61_print_struct : forall ok R, respected ok R -> forall V c (fs : list (label * impl V)) prs,
  Forall2 (fun f pr => faithful ok R (snd f) pr) fs prs -> faithful ok R (i_struct c fs) (print_fields prs).
Proof.
  intros ok R HR V c fs prs HF. apply faithful_copying. intros s vs s' ts H Ht. apply i_struct_yes in H.
  eapply (copy_seq _ _ HR); [|exact H|exact Ht]. unfold parts. clear -HF. induction HF as [|f pr fs prs H HF IH]; cbn [map]; constructor; [apply faithful_copying; exact H|exact IH].
Qed.
Theorem C61_print_enum : forall ok R, respected ok R -> forall V en (cs : list (text * list (label * impl V))) prss,
  Forall2 (fun c prs => Forall2 (fun f pr => faithful ok R (snd f) pr) (snd c) prs) cs prss -> faithful ok R (i_enum en cs) (print_enum prss).
Proof.
  intros ok R HR V en cs prss HF. apply faithful_copying. intros s (k, vs) s' ts H Ht. apply i_enum_yes in H as (c & Hc & H & _).
  unfold print_enum in Ht. cbn [fst snd] in Ht.
  assert (HK : exists prs, nth_error prss k = Some prs /\ Forall2 (fun f pr => faithful ok R (snd f) pr) (snd c) prs).
  { clear -HF Hc. revert k Hc. induction HF as [|d prs cs prss H HF IH]; intros [|k] Hc; try discriminate Hc; [injection Hc as <-; exists prs; auto|apply (IH k Hc)]. }
  destruct HK as (prs & Ek & HK). rewrite Ek in Ht. eapply (copy_seq _ _ HR); [|exact H|exact Ht].
  unfold parts. clear -HK. induction HK as [|f pr fs prs H HF IH]; cbn [map]; constructor; [apply faithful_copying; exact H|exact IH].
Qed.
(** A whole input. *)
Definition reads {A} (p : impl A) (ts : list tt) (v : A) : Prop := exists n, parse2 (run p n) ts = ROk v.
Theorem C61_reads_means : forall A (p : impl A) ts v, reads p ts v <->
  exists s', yes (does p) (start ts) v s' /\ ps_unexp s' = None /\ flat (ps_rest s') = [].
Proof.
  intros A p ts v. split.
  - intros (n & H). apply parse2_ok in H as (s' & H & Hu & Hr). exists s'. split; [exists n; exact H|auto].
  - intros (s' & (n & H) & Hu & Hr). exists n. unfold parse2. rewrite H, Hu. rewrite (proj2 (leftover_none_flat _) Hr). reflexivity.
Qed.
Theorem C61_print_whole_input : forall ok R A (p : impl A) pr, faithful ok R p pr -> forall ts v out, ok (flat ts) -> reads p ts v -> pr v = Some out -> R (flat ts) out.
Proof.
  intros ok R A p pr H ts v out Hok Hr Hp. apply C61_reads_means in Hr as (s' & Hy & Hu & E). destruct (H (start ts) v s' out Hok Hy Hu Hp) as (c & Ec & Hc).
  cbn [start ps_rest] in Ec. rewrite E, app_nil_r in Ec. rewrite Ec. exact Hc.
Qed.
Theorem C61_print_map : forall ok R A B (f : A -> B) (a : impl A) pr, faithful ok R a (fun v => pr (f v)) -> faithful ok R (i_map f a) pr.
Proof. intros ok R A B f a pr H s w s' ts Hok Hy Hu Ht. apply i_map_yes in Hy as (v & -> & Hy). eapply H; eassumption. Qed.
(** A recursive implementation: [p] is [B p], where [B] uses its argument only by calling it. *)
Definition cut {A} (p : impl A) (k : nat) : impl A.
Proof. refine (Impl (fun n => run p (Nat.min k n)) _ _); [intro n; apply run_lawful|]. intros n m Hn. apply run_mono. lia. Defined.
Definition recursive {A} (p : impl A) (B : impl A -> impl A) : Prop :=
  (exists F, forall q n, run (B q) n = F n (run q n)) /\ (forall s, run p 0 s = (ODiverge, s)) /\ (forall n s, run p (S n) s = run (B p) n s).
Theorem C61_print_recursive : forall ok R A (p : impl A) B pr, recursive p B ->
  (forall q, faithful ok R q pr -> faithful ok R (B q) pr) -> faithful ok R p pr.
Proof.
  intros ok R A p B pr ((F & HF) & H0 & HS) HB.
  assert (HC : forall n, faithful ok R (cut p n) pr).
  { induction n as [|n IH]; intros s v s' ts Hok (m & H) Hu Ht.
    - cbn [cut run Nat.min] in H. rewrite H0 in H. discriminate H.
    - change (run p (Nat.min (S n) m) s = (OOk v, s')) in H. apply (run_keep p _ (S n)) in H; [|lia|discriminate]. rewrite HS, HF in H.
      apply (HB (cut p n) IH s v s' ts Hok); [|exact Hu|exact Ht]. exists n. rewrite HF. change (run (cut p n) n) with (run p (Nat.min n n)). rewrite Nat.min_id. exact H. }
  intros s v s' ts Hok (n & H) Hu Ht. apply (HC n s v s' ts Hok); [|exact Hu|exact Ht]. exists n. change (run p (Nat.min n n) s = (OOk v, s')). rewrite Nat.min_id. exact H.
Qed.
(** What [p] does is then what [B p] does. *)
Theorem C61_recursive_does : forall A (p : impl A) B, recursive p B ->
  (forall s v s', yes (does p) s v s' <-> yes (does (B p)) s v s') /\ (forall s e, no (does p) s e <-> no (does (B p)) s e).
Proof.
  intros A p B (_ & H0 & HS). split.
  - intros s v s'. split; intros (n & H); [destruct n; [rewrite H0 in H; discriminate H|]; exists n; rewrite <- HS; exact H|exists (S n); rewrite HS; exact H].
  - intros s e. split; intros (n & s' & H); [destruct n; [rewrite H0 in H; discriminate H|]; exists n, s'; rewrite <- HS; exact H|exists (S n), s'; rewrite HS; exact H].
Qed.

(** Parts of different origin: printing acceptable piece by piece. *)
Inductive pieces (piece : list tt -> list tt -> Prop) : list tt -> list tt -> Prop :=
| pc_nil : pieces piece [] []
| pc_piece a b : piece a b -> pieces piece a b
| pc_app a b c d : pieces piece a b -> pieces piece c d -> pieces piece (a ++ c) (b ++ d)
| pc_group d sp a b : d <> DNone -> pieces piece a b -> pieces piece [TGroup d sp a] [TGroup d sp b].
Lemma lits_ok_respects : (forall {U : unicode} a b, lits_ok (a ++ b) -> lits_ok b) /\ (forall {U : unicode} d sp l r, lits_ok (TGroup d sp l :: r) -> lits_ok l).
Proof.
  split; intros U.
  - intros a b H. apply lits_ok_app in H. apply H.
  - intros d sp l r H. apply (lits_ok_app [_] r) in H as (H & _). unfold lits_ok in *. cbn [lits] in H. rewrite lits1_group, app_nil_r in H. exact H.
Qed.
Theorem C61_pieces_respected : forall (U : unicode) piece, respected lits_ok (pieces piece).
Proof. intros U piece. constructor; [constructor|intros; constructor; assumption|intros; constructor; assumption|apply lits_ok_respects|apply lits_ok_respects]. Qed.
Theorem C61_print_piecewise : forall ok (piece piece' : list tt -> list tt -> Prop) A (p : impl A) pr,
  (forall a b, piece a b -> piece' a b) -> faithful ok piece p pr -> faithful ok (pieces piece') p pr.
Proof. intros ok piece piece' A p pr Hi H s v s' ts Hok Hy Hu Ht. destruct (H s v s' ts Hok Hy Hu Ht) as (c & E & Hc). exists c. split; [exact E|]. apply pc_piece, Hi, Hc. Qed.
(** The closed types of parsel are such parts (C07). *)
Theorem C61_print_closed : forall (U : unicode) E t, faithful lits_ok (reprints loose nothing) (i_node E t) print.
Proof.
  intros U E t s v s' ts Hok Hy Hu Ht. destruct (sound_loose E t s v s' ts Hy Ht) as (_ & H). destruct (H (proj1 (lits_ok_flat _) Hok)) as (c & Ec & Hc).
  exists c. split; [exact Ec|]. eapply reprints_mono; [|exact Hc]. intros x Hx. apply Hx. exact Hu.
Qed.

(** ** Termination.  [returns k p]: on inputs of up to [k] tokens, [p] comes back with a value or an
    error: it neither panics nor runs forever (C61_one_outcome). *)
Definition returns {A} (k : nat) (p : impl A) : Prop :=
  forall s, ts_size (ps_rest s) <= k -> (exists v s', yes (does p) s v s') \/ (exists e, no (does p) s e).
Definition eats {A} (p : impl A) : Prop := forall s v s', yes (does p) s v s' -> ps_rest s' <> ps_rest s.
Lemma yes_size {A} (p : impl A) s v s' : yes (does p) s v s' -> ts_size (ps_rest s') <= ts_size (ps_rest s).
Proof. intros (n & H). exact (wfp_sz _ _ _ _ (run_lawful p n) H). Qed.
Lemma eats_size {A} (p : impl A) s v s' : eats p -> yes (does p) s v s' -> ts_size (ps_rest s') < ts_size (ps_rest s).
Proof.
  intros He Hy. destruct (Nat.lt_ge_cases (ts_size (ps_rest s')) (ts_size (ps_rest s))) as [Hlt|Hge]; [exact Hlt|]. exfalso. apply (He _ _ _ Hy).
  destruct Hy as (n & H). exact (wfp_eq _ _ _ _ (run_lawful p n) H Hge).
Qed.
Theorem C61_returns_maybe : forall k P A (p : impl P) (a : impl A), returns k p -> returns k a -> returns k (i_maybe p a).
Proof.
  intros k P A p a Hp Ha s Hs. destruct (Hp s Hs) as [(x & s1 & H1)|(e & H1)].
  - pose proof (yes_size _ _ _ _ H1). destruct (Ha s1 ltac:(lia)) as [(w & s2 & H2)|(e & H2)].
    + left. exists (Some (x, w)), s2. apply i_maybe_yes. right. eauto 8.
    + right. exists e. apply i_maybe_no. eauto.
  - left. exists None, s. apply i_maybe_yes. left. eauto.
Qed.
Theorem C61_returns_either : forall k L R (l : impl L) (r : impl R), returns k l -> returns k r -> returns k (i_either l r).
Proof.
  intros k L R l r Hl Hr s Hs. destruct (Hl s Hs) as [(x & s1 & H1)|(e1 & H1)].
  - left. exists (ELeft x), s1. apply i_either_yes. left. eauto.
  - destruct (Hr s Hs) as [(w & s2 & H2)|(e2 & H2)].
    + left. exists (ERight w), s2. apply i_either_yes. right. eauto 6.
    + right. destruct (fold_reported0 e1 [e2]) as (e & _ & He). exists e. apply i_either_no. eauto.
Qed.
Theorem C61_returns_any : forall k A (a : impl A), returns k a -> eats a -> returns k (i_any a).
Proof.
  intros k A a Ha He s Hs. left. cut (forall m s, ts_size (ps_rest s) < m -> ts_size (ps_rest s) <= k -> exists l s', run_yes (does a) s l s').
  - intro H. destruct (H _ s (Nat.lt_succ_diag_r _) Hs) as (l & s' & Hl). exists l, s'. apply i_any_yes. exact Hl.
  - induction m as [|m IH]; intros s0 Hm Hk; [lia|]. destruct (Ha s0 Hk) as [(v & s1 & H1)|(e & H1)].
    + pose proof (eats_size _ _ _ _ He H1). destruct (IH s1 ltac:(lia) ltac:(lia)) as (l & s' & Hl). exists (v :: l), s'. econstructor; eassumption.
    + exists [], s0. econstructor. exact H1.
Qed.
(** Without consumption there is no end. *)
Theorem C61_any_must_eat : forall A (a : impl A) s v, yes (does a) s v s -> runs_forever (i_any a) s.
Proof.
  intros A a s v Hy n. destruct (fst (run (i_any a) n s)) as [l|e| |] eqn:E; [| | |reflexivity]; exfalso; destruct (run (i_any a) n s) as (o, s') eqn:R; cbn [fst] in E; subst o.
  - assert (H : run_yes (does a) s l s') by (apply i_any_yes; exists n; exact R).
    clear R. revert Hy. induction H as [s e Hn|s w s1 vs s2 Hb Hs IH]; intro Hy.
    + eapply (proj1 (proj2 (C61_one_outcome A a s))); eassumption.
    + destruct (proj1 (C61_one_outcome A a s) _ _ _ _ Hy Hb) as (<- & <-). exact (IH Hy).
  - eapply i_any_no. exists n, s'. exact R.
  - destruct Hy as (m & Hy). set (N := n + m). apply (run_keep (i_any a) n N) in R; [|lia|discriminate]. apply (run_keep a m N) in Hy; [|lia|discriminate].
    change (any_loop N (run a N) [] s = (OPanic, s')) in R. revert R. generalize ([] : list A). generalize N at 1. intro j. induction j as [|j IH]; intros acc R; [discriminate R|].
    rewrite any_loop_speculate, speculate_spec in R by apply run_lawful. rewrite Hy in R. exact (IH _ R).
Qed.
Lemma tail_returns k A P (a : impl A) (p : impl P) : returns k a -> returns k p -> eats a \/ eats p ->
  forall s, ts_size (ps_rest s) <= k -> (exists l s', tail_yes (does a) (does p) s l s') \/ (exists e, tail_no (does a) (does p) s e).
Proof.
  intros Ha Hp He s Hs. remember (ts_size (ps_rest s)) as m eqn:Em. revert s Em Hs. induction m as [m IH] using lt_wf_ind. intros s -> Hs.
  destruct (Hp s Hs) as [(q & s1 & H1)|(e & H1)]; [|left; exists [], s; econstructor; exact H1]. pose proof (yes_size _ _ _ _ H1).
  destruct (Ha s1 ltac:(lia)) as [(v & s2 & H2)|(e & H2)]; [|right; exists e; eapply tail_fail; eassumption]. pose proof (yes_size _ _ _ _ H2).
  assert (Hlt : ts_size (ps_rest s2) < ts_size (ps_rest s)) by (destruct He as [He|He]; [pose proof (eats_size _ _ _ _ He H2)|pose proof (eats_size _ _ _ _ He H1)]; lia).
  destruct (IH _ Hlt s2 eq_refl ltac:(lia)) as [(l & s' & Hl)|(e & Hl)]; [left; exists ((q, v) :: l), s'; econstructor; eassumption|right; exists e; eapply tail_later; eassumption].
Qed.
Theorem C61_returns_separated : forall k A P (a : impl A) (p : impl P), returns k a -> returns k p -> eats a \/ eats p -> returns k (i_separated a p).
Proof.
  intros k A P a p Ha Hp He s Hs. destruct (Ha s Hs) as [(v & s1 & H1)|(e & H1)]; [|right; exists e; apply i_separated_no; left; exact H1].
  pose proof (yes_size _ _ _ _ H1). destruct (tail_returns k _ _ a p Ha Hp He s1 ltac:(lia)) as [(l & s' & Hl)|(e & Hl)].
  - left. exists (Pn (fst (pairs_of v l)) (Some (snd (pairs_of v l)))), s'. apply i_separated_yes. eauto 8.
  - right. exists e. apply i_separated_no. right. eauto.
Qed.
Theorem C61_returns_left_assoc : forall k O R (o : impl O) (r : impl R), returns k o -> returns k r -> eats o \/ eats r -> returns k (i_left o r).
Proof.
  intros k O R o r Ho Hr He s Hs. destruct (Hr s Hs) as [(v & s1 & H1)|(e & H1)]; [|right; exists e; apply i_left_no; left; exact H1].
  pose proof (yes_size _ _ _ _ H1). destruct (tail_returns k _ _ r o Hr Ho ltac:(tauto) s1 ltac:(lia)) as [(l & s' & Hl)|(e & Hl)].
  - left. assert (HF : exists t, left_form v l t). { clear. induction l as [|(o, y) l (t & IH)] using rev_ind; [eexists; constructor|eexists; constructor; exact IH]. }
    destruct HF as (t & Hf). exists t, s'. apply i_left_yes. eauto 8.
  - right. exists e. apply i_left_no. right. eauto.
Qed.
Theorem C61_returns_right_assoc : forall k O L (o : impl O) (l : impl L), returns k o -> returns k l -> eats o \/ eats l -> returns k (i_right o l).
Proof.
  intros k O R o r Ho Hr He s Hs. destruct (Hr s Hs) as [(v & s1 & H1)|(e & H1)]; [|right; exists e; apply i_right_no; left; exact H1].
  pose proof (yes_size _ _ _ _ H1). destruct (tail_returns k _ _ r o Hr Ho ltac:(tauto) s1 ltac:(lia)) as [(l & s' & Hl)|(e & Hl)].
  - left. assert (HF : forall v, exists t, right_form v l t). { clear. induction l as [|(o, y) l IH]; intro v; [eexists; constructor|destruct (IH y) as (t & Ht); eexists; constructor; exact Ht]. }
    destruct (HF v) as (t & Hf). exists t, s'. apply i_right_yes. eauto 8.
  - right. exists e. apply i_right_no. right. eauto.
Qed.
Theorem C61_returns_punctuated : forall k A P (a : impl A) (p : impl P), returns k a -> returns k p -> eats a \/ eats p -> returns k (i_punctuated a p).
Proof.
  intros k A P a p Ha Hp He s Hs.
  assert (H : (exists l o s', fill_yes (does a) (does p) s l o s') \/ exists e, fill_no (does a) (does p) s e).
  { remember (ts_size (ps_rest s)) as m eqn:Em. revert s Em Hs. induction m as [m IH] using lt_wf_ind. intros s -> Hs.
    destruct (ps_rest s) as [|t0 r0] eqn:E0; [left; exists [], None, s; apply fill_end; exact E0|]. assert (N0 : ps_rest s <> []) by (rewrite E0; discriminate). rewrite <- E0 in *.
    destruct (Ha s Hs) as [(v & s1 & H1)|(e & H1)]; [|right; exists e; apply fill_no_item; assumption]. pose proof (yes_size _ _ _ _ H1).
    destruct (ps_rest s1) as [|t1 r1] eqn:E1; [left; exists [], (Some v), s1; apply fill_last; assumption|]. assert (N1 : ps_rest s1 <> []) by (rewrite E1; discriminate). rewrite <- E1 in *.
    destruct (Hp s1 ltac:(lia)) as [(q & s2 & H2)|(e & H2)]; [|right; exists e; eapply fill_no_punct; eassumption]. pose proof (yes_size _ _ _ _ H2).
    assert (Hlt : ts_size (ps_rest s2) < ts_size (ps_rest s)) by (destruct He as [He|He]; [pose proof (eats_size _ _ _ _ He H1)|pose proof (eats_size _ _ _ _ He H2)]; lia).
    destruct (IH _ Hlt s2 eq_refl ltac:(lia)) as [(l & o & s' & Hl)|(e & Hl)]; [left; exists ((v, q) :: l), o, s'; eapply fill_step; eassumption|right; exists e; eapply fill_no_later; eassumption]. }
  destruct H as [(l & o & s' & H)|(e & H)]; [left; exists (Pn l o), s'; apply i_punctuated_yes; eauto|right; exists e; apply i_punctuated_no; exact H].
Qed.
(** The inside of a group is smaller than the group. *)
Theorem C61_returns_group : forall k A d (a : impl A), (forall j, j < k -> returns j a) -> returns k (i_group d a).
Proof.
  intros k A d a Ha s Hs.
  assert (HD : (exists sp inner r, ignore_none (ps_rest s) = TGroup d sp inner :: r) \/ (forall sp inner r, ignore_none (ps_rest s) <> TGroup d sp inner :: r)).
  { destruct (ignore_none (ps_rest s)) as [|[n sp|c g sp|l sp|d' sp inner] r]; try (right; intros; discriminate).
    destruct (delim_eqb d' d) eqn:Ed; [apply delim_eqb_eq in Ed; subst d'; left; eauto|]. right. intros sp' i' r' E. injection E as -> _ _ _. rewrite (proj2 (delim_eqb_eq d d) eq_refl) in Ed. discriminate Ed. }
  destruct HD as [(sp & inner & r & Hi)|HD].
  - assert (Hsz : ts_size inner < ts_size (ps_rest s)).
    { pose proof (pops_size _ _ (ignore_none_pops (ps_rest s))) as Q. rewrite Hi in Q. cbn [ts_size] in Q. rewrite tt_size_group in Q. lia. }
    destruct (Ha (ts_size inner) ltac:(lia) (PS inner (close_span sp) (ps_unexp s)) (le_n _)) as [(w & si & H)|(e & H)].
    + left. do 2 eexists. apply i_group_yes. exists sp, w, inner, r, si. eauto.
    + right. exists e. apply i_group_no. left. eauto 8.
  - right. eexists. apply i_group_no. right. split; [exact HD|reflexivity].
Qed.
(** A sequence of fields returns if each field does; a field behind one that eats needs to return only on smaller inputs. *)
Fixpoint in_turn {V} (fs : list (label * impl V)) (k : nat) : Prop :=
  match fs with
  | [] => True
  | f :: r => returns k (snd f) /\ (in_turn r k \/ eats (snd f) /\ forall j, j < k -> in_turn r j)
  end.
Lemma turns {V} (fs : list (label * impl V)) : forall k s, in_turn fs k -> ts_size (ps_rest s) <= k ->
  (exists vs s', seq_yes (parts fs) s vs s') \/ exists i f e, nth_error fs i = Some f /\ seq_no (parts fs) s i e.
Proof.
  induction fs as [|f fs IH]; intros k s H Hs; [left; exists [], s; constructor|]. destruct H as (H1 & H2).
  destruct (H1 s Hs) as [(v & s1 & Hv)|(e & Hv)].
  - pose proof (yes_size _ _ _ _ Hv).
    assert (HT : (exists vs s', seq_yes (parts fs) s1 vs s') \/ exists i f e, nth_error fs i = Some f /\ seq_no (parts fs) s1 i e).
    { destruct H2 as [H2|(He & H2)]; [apply (IH k); [exact H2|lia]|]. pose proof (eats_size _ _ _ _ He Hv). apply (IH (ts_size (ps_rest s1))); [apply H2; lia|lia]. }
    destruct HT as [(vs & s' & Hvs)|(i & f' & e & Hf & b & vs & s2 & Hb & Hs2 & Hn)].
    + left. exists (v :: vs), s'. econstructor; eassumption.
    + right. exists (S i), f', e. split; [exact Hf|]. exists b, (v :: vs), s2. split; [exact Hb|]. split; [|exact Hn]. cbn [parts map firstn]. econstructor; eassumption.
  - right. exists 0, f, e. split; [reflexivity|]. exists (does (snd f)), [], s. split; [reflexivity|]. split; [constructor|exact Hv].
Qed.
Theorem C61_returns_struct : forall k V c (fs : list (label * impl V)), in_turn fs k -> returns k (i_struct c fs).
Proof.
  intros k V c fs H s Hs. destruct (turns fs k s H Hs) as [(vs & s' & Hv)|(i & f & e & Hf & Hn)].
  - left. exists vs, s'. apply i_struct_yes. exact Hv.
  - right. eexists. apply i_struct_no. exists i, f, e. eauto.
Qed.
Theorem C61_returns_enum : forall k V en (cs : list (text * list (label * impl V))), Forall (fun c => in_turn (snd c) k) cs -> returns k (i_enum en cs).
Proof.
  intros k V en cs H s Hs.
  assert (HE : (exists i vs s', exists c, nth_error cs i = Some c /\ seq_yes (parts (snd c)) s vs s' /\ forall j d, j < i -> nth_error cs j = Some d -> exists e, variant_no en d s e)
    \/ exists errs, Forall2 (fun c x => variant_no en c s x) cs errs).
  { induction H as [|c cs Hc Hcs IH]; [right; exists []; constructor|]. destruct (turns _ k s Hc Hs) as [(vs & s' & Hv)|(i & f & e & Hf & Hn)].
    - left. exists 0, vs, s', c. split; [reflexivity|]. split; [exact Hv|]. intros; lia.
    - assert (HV : variant_no en c s (chained [context en (fst c) (fst f)] e)) by (exists i, f, e; auto). destruct IH as [(i' & vs & s' & c' & H1 & H2 & H3)|(errs & H1)].
      + left. exists (S i'), vs, s', c'. split; [exact H1|]. split; [exact H2|]. intros [|j] d Hj Hd; [injection Hd as <-; eauto|apply (H3 j d); [lia|exact Hd]].
      + right. exists (chained [context en (fst c) (fst f)] e :: errs). constructor; assumption. }
  destruct HE as [(i & vs & s' & Hv)|(errs & He)]; [left; exists (i, vs), s'; apply i_enum_yes; exact Hv|right].
  destruct errs as [|x errs].
  - inversion He; subst. eexists. apply i_enum_no. exists []. split; [constructor|]. right. split; reflexivity.
  - destruct (fold_reported0 x errs) as (e & _ & Hr). exists e. apply i_enum_no. exists (x :: errs). split; [exact He|]. left. exact Hr.
Qed.
Theorem C61_returns_recursive : forall A (p : impl A) B, recursive p B ->
  (forall k, (forall j, j < k -> returns j p) -> returns k (B p)) -> forall k, returns k p.
Proof.
  intros A p B Hr HB. induction k as [k IH] using lt_wf_ind. intros s Hs. destruct (C61_recursive_does A p B Hr) as (Hy & Hn).
  destruct (HB k IH s Hs) as [(v & s' & H)|(e & H)]; [left; exists v, s'; apply Hy; exact H|right; exists e; apply Hn; exact H].
Qed.

(** ** Types of other crates: [proc_macro2::TokenTree] (syn 2 parse.rs, [impl Parse for TokenTree]: the
    next token tree, of any kind) and [proc_macro2::TokenStream] (everything that is left). *)
Definition token_tree : list tt -> (tt * list tt) + text := fun l => match l with t :: r => inl (t, r) | [] => inr (T "expected token tree") end.
Definition token_stream : list tt -> (list tt * list tt) + text := fun l => inl (l, []).
Lemma token_tree_pops l t r : token_tree l = inl (t, r) -> pops l r.
Proof. destruct l as [|x l]; intro H; [discriminate H|]. injection H as <- <-. apply pops_drop, pops_refl. Qed.
Lemma pops_all l : pops l [].
Proof. induction l; [apply pops_refl|apply pops_drop; assumption]. Qed.
Lemma token_stream_pops l t r : token_stream l = inl (t, r) -> pops l r.
Proof. intro H. injection H as _ <-. apply pops_all. Qed.
Definition i_step {A} (f : list tt -> (A * list tt) + text) (H : forall l v r, f l = inl (v, r) -> pops l r) : impl A :=
  Impl (fun _ => step f) (fun _ => lawful_step f H) (fun _ _ _ => le_refl _).
Definition i_token_tree : impl tt := i_step token_tree token_tree_pops.
Definition i_token_stream : impl (list tt) := i_step token_stream token_stream_pops.
Theorem C61_token_tree : forall s,
  (forall t s', yes (does i_token_tree) s t s' <-> ps_rest s = t :: ps_rest s' /\ s' = set_rest s (ps_rest s')) /\
  (forall e, no (does i_token_tree) s e <-> ps_rest s = [] /\ e = error_at s (T "expected token tree")) /\ eats i_token_tree.
Proof.
  intro s. split; [|split].
  - intros t s'. split.
    + intros (n & H). cbn [i_token_tree i_step run] in H. unfold step, token_tree in H. destruct (ps_rest s) as [|x r]; [discriminate H|]. injection H as <- <-. split; reflexivity.
    + intros (H & E). exists 0. cbn [i_token_tree i_step run]. unfold step, token_tree. rewrite H, <- E. reflexivity.
  - intro e. split.
    + intros (n & s' & H). cbn [i_token_tree i_step run] in H. unfold step, token_tree in H. destruct (ps_rest s) as [|x r]; [|discriminate H]. injection H as <- <-. split; reflexivity.
    + intros (H & ->). exists 0, s. cbn [i_token_tree i_step run]. unfold step, token_tree. rewrite H. reflexivity.
  - intros s0 v s' (n & H). cbn [i_token_tree i_step run] in H. unfold step, token_tree in H. destruct (ps_rest s0) as [|x r]; [discriminate H|]. injection H as <- <-. cbn [set_rest ps_rest].
    intro E. apply (f_equal (@List.length tt)) in E. cbn in E. lia.
Qed.
Theorem C61_token_stream : forall s,
  (forall l s', yes (does i_token_stream) s l s' <-> l = ps_rest s /\ s' = set_rest s []) /\ (forall e, ~ no (does i_token_stream) s e).
Proof.
  intro s. split.
  - intros l s'. split; [intros (n & H); cbn in H; unfold step, token_stream in H; injection H as <- <-; auto|intros (-> & ->); exists 0; reflexivity].
  - intros e (n & s' & H). discriminate H.
Qed.
(** They print exactly what they read (a group without delimiters keeps its place). *)
Definition exactly (c ts : list tt) : Prop := c = flat ts.
Theorem C61_print_exactly : forall (U : unicode), respected lits_ok exactly /\
  faithful lits_ok exactly i_token_tree (fun t => Some [t]) /\ faithful lits_ok exactly i_token_stream (fun l => Some l).
Proof.
  intro U. split; [|split].
  - constructor; [reflexivity| | |apply lits_ok_respects|apply lits_ok_respects].
    + intros a b c d -> ->. unfold exactly. rewrite flat_app. reflexivity.
    + intros d sp a b Hd ->. unfold exactly. cbn [flat]. rewrite flat1_group by exact Hd. reflexivity.
  - intros s t s' ts _ Hy _ Ht. injection Ht as <-. apply (proj1 (C61_token_tree s)) in Hy as (H & _). exists (flat [t]). split; [rewrite H; cbn [flat]; rewrite app_nil_r; reflexivity|reflexivity].
  - intros s t s' ts _ Hy _ Ht. injection Ht as <-. apply (proj1 (C61_token_stream s)) in Hy as (-> & ->). exists (flat (ps_rest s)). split; [cbn; rewrite app_nil_r; reflexivity|reflexivity].
Qed.

(** ** Examples. *)
(** [#[derive(Parse, ToTokens)] struct Call { name: Ident, args: Paren<TokenStream> }] *)
Section Call.
Context {U : unicode}.
Definition some_value : Type := val + (span * list tt).
Definition call : impl (list some_value) :=
  i_struct (T "Call") [(LName (T "name"), i_map inl (i_node (fun _ => DStruct (Ctor [] [])) TyIdent)); (LName (T "args"), i_map inr (i_group DParen i_token_stream))].
Definition print_value (v : some_value) : option (list tt) := match v with inl v => print v | inr g => print_group DParen (fun l => Some l) g end.
Theorem C61_example_call : faithful lits_ok (pieces (fun c ts => reprints loose nothing c ts \/ exactly c ts)) call (print_fields [print_value; print_value]).
Proof.
  apply C61_print_struct; [apply C61_pieces_respected|]. repeat constructor; cbn [snd].
  - apply C61_print_map. eapply C61_print_piecewise; [|apply C61_print_closed]. cbn. auto.
  - apply C61_print_map. cbn [print_value]. apply C61_print_group; [apply C61_pieces_respected|discriminate|].
    eapply C61_print_piecewise; [|apply C61_print_exactly]. cbn. auto.
Qed.
Theorem C61_example_call_returns : forall k, returns k (i_group DParen i_token_stream) /\ returns k i_token_tree.
Proof.
  assert (H : forall k, returns k i_token_stream). { intros k s _. left. exists (ps_rest s), (set_rest s []). apply C61_token_stream. auto. }
  intro k. split; [apply C61_returns_group; auto|]. intros s _. destruct (ps_rest s) as [|t r] eqn:E.
  - right. eexists. apply C61_token_tree. auto.
  - left. exists t, (set_rest s r). apply C61_token_tree. cbn. auto.
Qed.
End Call.
(** A hand-written recursive type: [impl Parse for Sexp] reads [Either<Paren<Any<Sexp>>, word>]. *)
Inductive sexp := Word (n : text) (sp : span) | Sexp (sp : span) (l : list sexp).
Definition word : list tt -> ((text * span) * list tt) + text := fun l =>
  match l with TIdent n sp :: r => inl ((n, sp), r) | _ => inr (T "expected a word") end.
Lemma word_pops l v r : word l = inl (v, r) -> pops l r.
Proof. destruct l as [|[] l]; intro H; try discriminate H. injection H as <- <-. apply pops_drop, pops_refl. Qed.
Definition sexp_of (x : either (span * list sexp) (text * span)) : sexp :=
  match x with ELeft (sp, l) => Sexp sp l | ERight (n, sp) => Word n sp end.
Definition sexp_body (p : parser sexp) (n : nat) : parser sexp := pmap sexp_of (p_either (p_group DParen (p_any n p)) (step word)).
Fixpoint parse_sexp (n : nat) : parser sexp := match n with O => fun s => (ODiverge, s) | S n => sexp_body (parse_sexp n) n end.
Fixpoint print_sexp (x : sexp) : option (list tt) :=
  match x with
  | Word n sp => Some [TIdent n sp]
  | Sexp sp l => option_map (fun ts => [TGroup DParen sp ts]) ((fix go l := match l with [] => Some [] | x :: r => oapp (print_sexp x) (go r) end) l)
  end.
Section SexpExample.
Context {U : unicode}.
Lemma sexp_program : program (fun _ : unit => parse_sexp) (fun _ n => sexp_body (parse_sexp n) n).
Proof.
  split; [|split; reflexivity]. intro x. unfold sexp_body. apply wr_map. apply wr_either; [apply wr_group, wr_any, (wr_call (fun _ : unit => parse_sexp) Datatypes.tt)|]. apply wr_step. exact word_pops.
Qed.
Definition i_sexp : impl sexp := implementation _ _ sexp_program _ _ (wr_call (fun _ : unit => parse_sexp) Datatypes.tt).
Definition sexp_step (q : impl sexp) : impl sexp := i_map sexp_of (i_either (i_group DParen (i_any q)) (i_step word word_pops)).
Lemma sexp_recursive : recursive i_sexp sexp_step.
Proof. split; [exists (fun n p => sexp_body p n); reflexivity|]. split; reflexivity. Qed.
(** It prints what it reads, to the letter, and it always comes back. *)
Theorem C61_example_recursive_prints : faithful lits_ok exactly i_sexp print_sexp.
Proof.
  destruct (C61_print_exactly U) as (HR & _). apply (C61_print_recursive _ _ _ _ _ _ sexp_recursive). intros q Hq. unfold sexp_step. apply C61_print_map.
  assert (E : forall x, print_sexp (sexp_of x) = print_either (print_group DParen (print_any print_sexp)) (fun w => Some [TIdent (fst w) (snd w)]) x).
  { intros [(sp, l)|(n, sp)]; [|reflexivity]. cbn [sexp_of print_sexp print_either]. unfold print_group, print_any. cbn [fst snd]. f_equal.
    induction l as [|x l IH]; [reflexivity|]. cbn [map oconcat fold_right]. rewrite IH. reflexivity. }
  intros s v s' ts Hok Hy Hu Ht. rewrite E in Ht. eapply C61_print_either; [| |exact Hok|exact Hy|exact Hu|exact Ht].
  - apply C61_print_group; [exact HR|discriminate|]. apply C61_print_any; [exact HR|exact Hq].
  - clear -HR. intros s v s' ts _ (n & H) _ Ht. injection Ht as <-. cbn [i_step run] in H. unfold step, word in H. destruct (ps_rest s) as [|[] r]; try discriminate H. injection H as <- <-.
    eexists [_]. split; reflexivity.
Qed.
Theorem C61_example_recursive_returns : forall k, returns k i_sexp.
Proof.
  apply (C61_returns_recursive _ _ _ sexp_recursive). intros k IH. unfold sexp_step. intros s Hs.
  assert (HE : returns k (i_either (i_group DParen (i_any i_sexp)) (i_step word word_pops))).
  { apply C61_returns_either.
    - apply C61_returns_group. intros j Hj. apply C61_returns_any; [apply IH; exact Hj|].
      intros s0 v s' Hy. apply (C61_recursive_does _ _ _ sexp_recursive) in Hy. apply i_map_yes in Hy as (w & _ & Hy). apply i_either_yes in Hy as [(y & _ & Hy)|(e & y & _ & _ & Hy)].
      + apply i_group_yes in Hy as (sp & z & inner & r & si & _ & Hi & _ & ->). cbn [ps_rest]. intro Er.
        pose proof (pops_size _ _ (ignore_none_pops (ps_rest s0))) as Q. rewrite Hi, <- Er in Q. cbn [ts_size] in Q. rewrite tt_size_group in Q. lia.
      + destruct Hy as (n & H). cbn [i_step run] in H. unfold step, word in H. destruct (ps_rest s0) as [|[] r]; try discriminate H. injection H as <- <-. cbn [set_rest ps_rest].
        intro Er. apply (f_equal (@List.length tt)) in Er. cbn in Er. lia.
    - intros s0 _. destruct (word (ps_rest s0)) as [(v, r)|m] eqn:E.
      + left. exists v, (set_rest s0 r). exists 0. cbn [i_step run]. unfold step. rewrite E. reflexivity.
      + right. exists (error_at s0 m). exists 0, s0. cbn [i_step run]. unfold step. rewrite E. reflexivity. }
  destruct (HE s Hs) as [(v & s' & H)|(e & H)]; [left; exists (sexp_of v), s'; apply i_map_yes; eauto|right; exists e; apply i_map_no; exact H].
Qed.
End SexpExample.
(** ["(a (b c) d)"] *)
Definition some_sexp (sp : span) : list tt := [TGroup DParen sp [TIdent (T "a") sp; TGroup DParen sp [TIdent (T "b") sp; TIdent (T "c") sp]; TIdent (T "d") sp]].
Theorem C61_example_recursive_reads : forall (U : unicode) sp, reads i_sexp (some_sexp sp) (Sexp sp [Word (T "a") sp; Sexp sp [Word (T "b") sp; Word (T "c") sp]; Word (T "d") sp]).
Proof. intros U sp. exists 10. vm_compute. reflexivity. Qed.
(** [f(a -)]: the type [Call] keeps what is in the parentheses as it is *)
Theorem C61_example_call_reads : forall sp, exists v, reads (call (U := ascii_only)) [TIdent (T "f") sp; TGroup DParen sp [TIdent (T "a") sp; TPunct 45 Joint sp]] v /\
  print_fields [print_value (U := ascii_only); print_value (U := ascii_only)] v = Some [TIdent (T "f") sp; TGroup DParen sp [TIdent (T "a") sp; TPunct 45 Joint sp]].
Proof. intro sp. eexists. split; [exists 5; vm_compute; reflexivity|vm_compute; reflexivity]. Qed.
(** An item that never fails makes [Any] run forever: [Any<TokenStream>]. *)
Theorem C61_any_must_fail : forall A (a : impl A), (forall s, exists v s', yes (does a) s v s') -> forall s, runs_forever (i_any a) s.
Proof.
  intros A a Ha s n. destruct (run (i_any a) n s) as ([l|e| |], s') eqn:R; [| | |reflexivity]; exfalso.
  - assert (H : run_yes (does a) s l s') by (apply i_any_yes; exists n; exact R). clear R. induction H as [s e Hn|s w s1 vs s2 Hb Hs IH]; [|exact IH].
    destruct (Ha s) as (v & s1 & Hy). exact (proj1 (proj2 (C61_one_outcome A a s)) _ _ _ Hy Hn).
  - eapply i_any_no. exists n, s'. exact R.
  - change (any_loop n (run a n) [] s = (OPanic, s')) in R. revert s R. generalize ([] : list A). generalize n at 1. intro j. induction j as [|j IH]; intros acc s R; [discriminate R|].
    rewrite any_loop_speculate, speculate_spec in R by apply run_lawful. destruct (run a n s) as ([v|e| |], s1) eqn:E; try discriminate R; [exact (IH _ _ R)|].
    destruct (Ha s) as (v & s2 & Hy). destruct (proj2 (proj2 (proj2 (C61_one_outcome A a s))) (or_introl (ex_intro _ v (ex_intro _ s2 Hy)))) as (NP & _). apply NP. exists n, s1. exact E.
Qed.
Theorem C61_any_token_stream_never_ends : forall s, runs_forever (i_any i_token_stream) s.
Proof. apply C61_any_must_fail. intro s. exists (ps_rest s), (set_rest s []). apply C61_token_stream. auto. Qed.

Print Assumptions C61_any_program_implements.
Print Assumptions C61_closed_types_implement.
Print Assumptions C61_one_outcome.
Print Assumptions C61_maybe.
Print Assumptions C61_either.
Print Assumptions C61_any.
Print Assumptions C61_separated.
Print Assumptions C61_punctuated.
Print Assumptions C61_group.
Print Assumptions C61_left_assoc.
Print Assumptions C61_right_assoc.
Print Assumptions C61_struct.
Print Assumptions C61_enum.
Print Assumptions C61_print_maybe.
Print Assumptions C61_print_either.
Print Assumptions C61_print_any.
Print Assumptions C61_print_separated.
Print Assumptions C61_print_punctuated.
Print Assumptions C61_print_group.
Print Assumptions C61_print_left_assoc.
Print Assumptions C61_print_right_assoc.
Print Assumptions C61_print_struct.
Print Assumptions C61_print_enum.
Print Assumptions C61_reads_means.
Print Assumptions C61_print_whole_input.
Print Assumptions C61_print_map.
Print Assumptions C61_print_recursive.
Print Assumptions C61_recursive_does.
Print Assumptions C61_pieces_respected.
Print Assumptions C61_print_piecewise.
Print Assumptions C61_print_closed.
Print Assumptions C61_returns_maybe.
Print Assumptions C61_returns_either.
Print Assumptions C61_returns_any.
Print Assumptions C61_any_must_eat.
Print Assumptions C61_returns_separated.
Print Assumptions C61_returns_left_assoc.
Print Assumptions C61_returns_right_assoc.
Print Assumptions C61_returns_punctuated.
Print Assumptions C61_returns_group.
Print Assumptions C61_returns_struct.
Print Assumptions C61_returns_enum.
Print Assumptions C61_returns_recursive.
Print Assumptions C61_token_tree.
Print Assumptions C61_token_stream.
Print Assumptions C61_print_exactly.
Print Assumptions C61_example_call.
Print Assumptions C61_example_call_returns.
Print Assumptions C61_example_recursive_prints.
Print Assumptions C61_example_recursive_returns.
Print Assumptions C61_example_recursive_reads.
Print Assumptions C61_example_call_reads.
Print Assumptions C61_any_must_fail.
Print Assumptions C61_any_token_stream_never_ends.
