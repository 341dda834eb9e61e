(** * Property C51: the generated code does what [Derive.v] says. *)
From Verif Require Import Base Float Literal Syn Ast Derive Grammar Spec Typed ToTokens TermCheck Offsets PropSpan Examples Expand.
Local Open Scope nat_scope.

(** ** Specification *)
(** the labels of the fields, as [Derive.v] wants them: names, or positions *)
Definition labelled {X} (fs : ifields X) : list (label * X) :=
  match fs with
  | INamed l => map (fun f => (LName (fst f), snd f)) l
  | IUnnamed l => map (fun f => (LIndex (fst f), snd f)) (enum_from 0 l)
  | IUnit => []
  end.
(** what rustc demands of an item before any macro runs: distinct field and variant names *)
Definition legal_fields {X} (fs : ifields X) : Prop := match fs with INamed l => NoDup (map fst l) | _ => True end.
Definition legal {X} (i : item X) : Prop :=
  match i with
  | IStruct _ fs => legal_fields fs
  | IEnum _ vs => NoDup (map fst vs) /\ Forall (fun v => legal_fields (snd v)) vs
  | IUnion => True
  end.
(** the item may use the names of the generated variables for anything but constants and functions *)
Definition parse_names : list text := [n_input; n_cause; n_node; n_error; n_result; n_err; n_Err].
Definition clear_of (scope : text -> bool) (names : list text) : Prop := forall x, In x names -> scope x = false.

(** ** Stores and locals *)
Lemma upd_same st i s : nth_error st i = Some s -> upd st i s = st.
Proof. revert i. induction st as [|x st IH]; intros [|i] H; try discriminate H; cbn in *; [congruence|]. rewrite IH by exact H. reflexivity. Qed.
Lemma upd_upd st i s s' : upd (upd st i s) i s' = upd st i s'.
Proof. revert i. induction st as [|x st IH]; intros [|i]; cbn; congruence. Qed.
Lemma nth_upd st i s s0 : nth_error st i = Some s0 -> nth_error (upd st i s) i = Some s.
Proof. revert i. induction st as [|x st IH]; intros [|i] H; try discriminate H; cbn in *; [reflexivity|]. apply IH, H. Qed.
Lemma nth_upd_ne st i j s : i <> j -> nth_error (upd st i s) j = nth_error st j.
Proof. revert i j. induction st as [|x st IH]; intros [|i] [|j] H; cbn; try congruence. apply IH. congruence. Qed.
Lemma lookup_in {A} (l : list (text * A)) f a : NoDup (map fst l) -> In (f, a) l -> lookup l f = Some a.
Proof.
  induction l as [|(g, b) l IH]; [intros _ []|]. cbn [map lookup fst]. intros Hn Hi. inversion Hn as [|? ? Hg Hl]; subst.
  destruct (text_eqb g f) eqn:E.
  - apply text_eqb_eq in E as ->. destruct Hi as [Hi|Hi]; [congruence|]. exfalso. apply Hg. apply (in_map fst) in Hi. exact Hi.
  - destruct Hi as [Hi|Hi]; [injection Hi as -> ->; rewrite text_eqb_refl in E; discriminate|]. apply IH; assumption.
Qed.
Lemma lookup_none {A} (l : list (text * A)) f : ~ In f (map fst l) -> lookup l f = None.
Proof.
  induction l as [|(g, b) l IH]; [reflexivity|]. cbn [map lookup fst]. intro H. destruct (text_eqb g f) eqn:E.
  - apply text_eqb_eq in E as ->. exfalso. apply H. left. reflexivity.
  - apply IH. intro Hi. apply H. right. exact Hi.
Qed.

Section Parse.
Context {V : Type} (it : item (parser V)) (scope : text -> bool).
Hypothesis Hclear : clear_of scope parse_names.
Lemma clear_name x : existsb (text_eqb x) parse_names = true -> scope x = false.
Proof. intro H. apply Hclear. apply existsb_exists in H as (y & Hy & E). apply text_eqb_eq in E as ->. exact Hy. Qed.

(** the value a parser's outcome becomes *)
Definition as_eout {A} (f : A -> rv) (o : outcome A) : eout (V := V) :=
  match o with OOk v => NNorm (f v) | OErr e => NReturn (RErr' e) | OPanic => NPanic | ODiverge => NDiverge end.

Lemma eval_init p en c fl l st i m s : lookup l n_input = Some (m, RIn i) -> nth_error st i = Some s ->
  eval it scope (Some p) l (m_init en c fl) st = let '(o, s') := map_err (chain_error en c fl) p s in (as_eout RVal o, upd st i s').
Proof.
  intros Hl Hs. unfold m_init. cbn [eval then_]. rewrite Hl. cbn [then_]. rewrite Hs. unfold map_err. destruct (p s) as (o, s').
  destruct o; cbn [then_]; try reflexivity. rewrite (clear_name n_cause eq_refl). cbn [eval lookup]. rewrite text_eqb_refl. reflexivity.
Qed.

Lemma eval_args_spec en c fs : forall n l st i m s, lookup l n_input = Some (m, RIn i) -> nth_error st i = Some s ->
  eval_args it scope fs l (exprs_of (map (fun f => m_init en c (LIndex (fst f))) (enum_from n fs))) st =
  let '(o, s') := p_fields en c (map (fun f => (LIndex (fst f), snd f)) (enum_from n fs)) s in
  (match o with OOk vs => inl vs | o => inr (as_eout (fun _ => RNone) o) end, upd st i s').
Proof.
  induction fs as [|p fs IH]; intros n l st i m s Hl Hs; cbn [enum_from map exprs_of p_fields eval_args fst snd].
  - cbn. rewrite upd_same by exact Hs. reflexivity.
  - rewrite (eval_init p en c _ l st i m s Hl Hs). unfold bind. destruct (map_err (chain_error en c (LIndex n)) p s) as (o, s1).
    destruct o; cbn [as_eout]; try reflexivity. rewrite (IH (S n) l (upd st i s1) i m s1 Hl (nth_upd _ _ _ _ Hs)).
    destruct (p_fields en c _ s1) as (o, s2). rewrite upd_upd. destruct o; reflexivity.
Qed.

Lemma p_fields_length en c (fs : list (label * parser V)) : forall s vs s', p_fields en c fs s = (OOk vs, s') -> List.length vs = List.length fs.
Proof.
  induction fs as [|(lb, p) fs IH]; intros s vs s' H; cbn [p_fields] in H; [injection H as <- _; reflexivity|]. unfold bind in H.
  destruct (map_err _ p s) as ([v|e| |], s1); try discriminate H. destruct (p_fields en c fs s1) as ([ws|e| |], s2) eqn:E; try discriminate H.
  injection H as <- _. cbn [List.length]. rewrite (IH _ _ _ E). reflexivity.
Qed.
Lemma map_fst_combine {A B} (a : list A) (b : list B) : List.length b = List.length a -> map fst (combine a b) = a.
Proof. revert b. induction a as [|x a IH]; intros [|y b] H; try discriminate H; [reflexivity|]. cbn. rewrite IH by (injection H; auto). reflexivity. Qed.
Lemma eval_inits_spec en c fs0 fs : NoDup (map fst fs) -> (forall f p, In (f, p) fs -> lookup fs0 f = Some p) ->
  forall l st i m s, lookup l n_input = Some (m, RIn i) -> nth_error st i = Some s ->
  eval_inits it scope fs0 l (inits_of (map (fun f => (fst f, m_init en c (LName (fst f)))) fs)) st =
  let '(o, s') := p_fields en c (map (fun f => (LName (fst f), snd f)) fs) s in
  (match o with OOk vs => inl (combine (map fst fs) vs) | o => inr (as_eout (fun _ => RNone) o) end, upd st i s').
Proof.
  induction fs as [|(f, p) fs IH]; intros Hn H0 l st i m s Hl Hs; cbn [map inits_of p_fields eval_inits fst snd].
  - cbn. rewrite upd_same by exact Hs. reflexivity.
  - inversion Hn as [|? ? Hf Hn']; subst. rewrite (H0 f p (or_introl eq_refl)), (eval_init p en c _ l st i m s Hl Hs). unfold bind.
    destruct (map_err (chain_error en c (LName f)) p s) as (o, s1). destruct o; cbn [as_eout]; try reflexivity.
    rewrite (IH Hn' (fun g q Hg => H0 g q (or_intror Hg)) l (upd st i s1) i m s1 Hl (nth_upd _ _ _ _ Hs)).
    destruct (p_fields en c _ s1) as (o, s2) eqn:E. rewrite upd_upd. destruct o; try reflexivity.
    rewrite lookup_none; [reflexivity|]. rewrite map_fst_combine; [exact Hf|]. apply p_fields_length in E. rewrite !map_length in *. exact E.
Qed.
Lemma in_order_self (fs : list (text * parser V)) : NoDup (map fst fs) -> forall vs given, List.length vs = List.length fs ->
  (forall f v, In (f, v) (combine (map fst fs) vs) -> lookup given f = Some v) -> in_order fs given = Some vs.
Proof.
  induction fs as [|(f, p) fs IH]; intros Hn [|v vs] given Hlen Hg; try discriminate Hlen; [reflexivity|]. cbn [in_order].
  inversion Hn as [|? ? Hf Hn']; subst. rewrite (Hg f v (or_introl eq_refl)). rewrite (IH Hn' vs given); [reflexivity|injection Hlen; auto|].
  intros g w Hi. apply Hg. right. exact Hi.
Qed.

(** the body generated for one constructor *)
Lemma run_fields en c fs k : legal_fields fs -> resolve it (match en with Some n => [n] | None => [] end ++ [c]) = Some (k, fs) ->
  forall l st i m s, lookup l n_input = Some (m, RIn i) -> nth_error st i = Some s ->
  run_block it scope l (m_fields en c fs) st =
  let '(o, s') := p_fields (match en with Some n => n | None => [] end) c (labelled fs) s in (as_eout (fun vs => ROk' (RNode k vs)) o, upd st i s').
Proof.
  intros Hleg Hres l st i m s Hl Hs. destruct fs as [fs|fs|]; cbn [m_fields run_block labelled legal_fields] in *.
  - rewrite (clear_name n_node eq_refl). cbn [eval]. rewrite Hres.
    rewrite (eval_inits_spec _ c fs fs Hleg (fun f p Hi => lookup_in fs f p Hleg Hi) l st i m s Hl Hs).
    destruct (p_fields _ c _ s) as (o, s') eqn:E. destruct o as [vs|e| |]; cbn [then_ as_eout]; try reflexivity.
    apply p_fields_length in E. rewrite map_length in E.
    rewrite (in_order_self fs Hleg vs _ E).
    + rewrite combine_length, map_length, E, Nat.min_id, Nat.eqb_refl. cbn [then_ eval lookup run_block]. rewrite text_eqb_refl. reflexivity.
    + intros f v Hi. apply lookup_in; [|exact Hi]. rewrite map_fst_combine; [exact Hleg|]. rewrite map_length. exact E.
  - rewrite (clear_name n_node eq_refl). cbn [eval]. rewrite Hres. rewrite (eval_args_spec _ c fs 0 l st i m s Hl Hs).
    destruct (p_fields _ c _ s) as (o, s'). destruct o as [vs|e| |]; cbn [then_ as_eout run_block eval lookup]; rewrite ?text_eqb_refl; reflexivity.
  - cbn [eval]. rewrite Hres. cbn [then_ p_fields ret as_eout]. rewrite upd_same by exact Hs. reflexivity.
Qed.

Lemma eval_variant want l input acc x body st : eval it scope want l (EVariant input acc x body) st =
  then_ (eval it scope None l input st) (fun i st => then_ (eval it scope None l acc st) (fun a st =>
    match i, (match a with RNone => Some None | RSome er => Some (Some er) | _ => None end) with
    | RIn i, Some acc =>
        match nth_error st i with
        | Some s =>
            let j := List.length st in
            if scope x then (NStuck, st)
            else match run_block it scope ((x, (false, RIn j)) :: l) body (st ++ [fork s]) with
                 | (o, st) => then_ (leave o, st) (fun v st =>
                     match v, nth_error st j with
                     | ROk' v, Some fk => (NNorm (ROk' v), upd st i (advance_to s fk))
                     | RErr' er, _ => (NNorm (RErr' (match acc with Some a => max_error a er | None => er end)), st)
                     | _, _ => (NStuck, st)
                     end)
                 end
        | None => (NStuck, st)
        end
    | _, _ => (NStuck, st)
    end)).
Proof. reflexivity. Qed.
Lemma run_let l mut x e b st : run_block it scope l (BStmt (SLet mut x e) b) st =
  if scope x then (NStuck, st) else then_ (eval it scope None l e st) (fun v st => run_block it scope ((x, (mut, v)) :: l) b st).
Proof. reflexivity. Qed.
Lemma run_match l e ret x target v b st : run_block it scope l (BStmt (SMatch e ret x target v) b) st =
  then_ (eval it scope None l e st) (fun r st =>
    match r with
    | ROk' _ => match eval it scope None l ret st with (NNorm v, st) => (NReturn v, st) | (o, st) => (o, st) end
    | RErr' er =>
        if scope x then (NStuck, st)
        else let l' := (x, (false, RError er)) :: l in
             then_ (eval it scope None l' v st) (fun w st =>
               match assign l' target w with
               | Some (_ :: l'') => run_block it scope l'' b st
               | _ => (NStuck, st)
               end)
    | _ => (NStuck, st)
    end).
Proof. reflexivity. Qed.
(** the variables of the enum parser: the stream and the error so far *)
Definition opt_rv (a : option error) : rv (V := V) := match a with Some e => RSome e | None => RNone end.
Definition inv (l : locals (V := V)) (acc : option error) : Prop :=
  (exists m, lookup l n_input = Some (m, RIn 0)) /\ lookup l n_error = Some (true, opt_rv acc).
Lemma assign_inv l acc e : inv l acc -> exists l', assign l n_error (RSome e) = Some l' /\ inv l' (Some e).
Proof.
  intros (Hi & He). unfold inv. enough (G : exists l', assign l n_error (RSome e) = Some l' /\ lookup l' n_input = lookup l n_input /\ lookup l' n_error = Some (true, RSome e)).
  { destruct G as (l' & G1 & G2 & G3). exists l'. rewrite G2. auto. }
  clear Hi. induction l as [|(y, (mut, w)) l IH]; [discriminate He|]. cbn [lookup] in He. cbn [assign]. destruct (text_eqb y n_error) eqn:E.
  - injection He as -> ->. eexists. split; [reflexivity|]. cbn [lookup]. rewrite E. split; [|reflexivity].
    apply text_eqb_eq in E as ->. reflexivity.
  - destruct (IH He) as (l' & -> & H2 & H3). eexists. split; [reflexivity|]. cbn [lookup]. rewrite E, H2. auto.
Qed.

Lemma find_variant_at k done v (fs : ifields (parser V)) rest : NoDup (map fst (done ++ (v, fs) :: rest)) -> find_variant k (done ++ (v, fs) :: rest) v = Some (k + List.length done, fs).
Proof.
  revert k. induction done as [|(n, gs) done IH]; intros k H; cbn [app find_variant List.length].
  - rewrite text_eqb_refl, Nat.add_0_r. reflexivity.
  - cbn [app map fst] in H. inversion H as [|? ? Hn Hd]; subst. destruct (text_eqb n v) eqn:E.
    + apply text_eqb_eq in E as ->. exfalso. apply Hn. rewrite map_app. apply in_or_app. right. left. reflexivity.
    + rewrite IH by exact Hd. f_equal. f_equal. lia.
Qed.
Context (name : text) (vs0 : list (text * ifields (parser V))).
Hypothesis Hit : it = IEnum name vs0.
Hypothesis Hlegal : legal it.
Definition enum_end : block :=
  BEnd (ECallErr n_Err (EOrElse (EVar n_error) (EError (EVar n_input) (T "parsing an empty choice (enum) always fails")))).

Definition as_result (o : outcome (nat * list V)) : eout (V := V) :=
  match o with OOk (k, vs) => NNorm (ROk' (RNode k vs)) | OErr e => NNorm (RErr' e) | OPanic => NPanic | ODiverge => NDiverge end.
Lemma run_variants vs : forall done l acc st s, vs0 = done ++ vs -> inv l acc -> nth_error st 0 = Some s ->
  exists o st', run_block it scope l (stmts_then (m_variants name vs) enum_end) st = (o, st') /\
    (let '(o', s') := p_variants name (List.length done) acc (map (fun v => (fst v, labelled (snd v))) vs) s in
     leave o = as_result o' /\ nth_error st' 0 = Some s').
Proof.
  induction vs as [|(v, fs) vs IH]; intros done l acc st s Hvs Hinv Hs.
  - destruct Hinv as ((m & Hi) & He). cbn [m_variants flat_map stmts_then enum_end run_block eval map p_variants].
    unfold enum_end. cbn [run_block eval]. rewrite (clear_name n_Err eq_refl), He. cbn [then_].
    destruct acc as [e|]; cbn [opt_rv then_].
    + do 2 eexists. split; [reflexivity|]. cbn. auto.
    + cbn [eval]. rewrite Hi. cbn [then_]. rewrite Hs. cbn [leave then_]. do 2 eexists. split; [reflexivity|]. auto.
  - assert (Hres : resolve it [name; v] = Some (List.length done, fs)).
    { rewrite Hit. cbn [resolve]. rewrite text_eqb_refl, Hvs. rewrite Hit in Hlegal. cbn in Hlegal. rewrite Hvs in Hlegal.
      apply (find_variant_at 0). apply Hlegal. }
    assert (Hleg : legal_fields fs).
    { rewrite Hit, Hvs in Hlegal. destruct Hlegal as (_ & Hf). rewrite Forall_forall in Hf. apply (Hf (v, fs)). apply in_or_app. right. left. reflexivity. }
    change (m_variants name ((v, fs) :: vs)) with
      ([SLet false n_result (EVariant (EVar n_input) (EVar n_error) n_input (m_fields (Some name) v fs));
        SMatch (EVar n_result) (EVar n_result) n_err n_error (ESome (EVar n_err))] ++ m_variants name vs).
    cbn [app stmts_then]. destruct Hinv as ((m & Hi) & He).
    rewrite run_let, (clear_name n_result eq_refl), eval_variant. cbn [eval]. rewrite Hi. cbn [then_]. rewrite He. cbn [then_].
    assert (Ho : match opt_rv acc with RNone => Some None | RSome er => Some (Some er) | _ => None end = Some acc) by (destruct acc; reflexivity).
    rewrite Ho, Hs, (clear_name n_input eq_refl).
    set (st1 := st ++ [fork s]). set (j := List.length st).
    assert (Hj : nth_error st1 j = Some (fork s)).
    { subst st1 j. rewrite nth_error_app2 by lia. rewrite Nat.sub_diag. reflexivity. }
    assert (Hj0 : j <> 0) by (subst j; destruct st; [discriminate Hs|cbn; lia]).
    assert (H10 : nth_error st1 0 = Some s) by (subst st1; rewrite nth_error_app1 by (destruct st; [discriminate Hs|cbn; lia]); exact Hs).
    rewrite (run_fields (Some name) v fs (List.length done) Hleg Hres ((n_input, (false, RIn j)) :: l) st1 j false (fork s)); [|reflexivity|exact Hj].
    cbn [map p_variants fst snd]. unfold try_parse_variant.
    destruct (p_fields name v (labelled fs) (fork s)) as (o, fk).
    assert (Hk : nth_error (upd st1 j fk) j = Some fk) by (eapply nth_upd, Hj).
    assert (H0 : nth_error (upd st1 j fk) 0 = Some s) by (rewrite nth_upd_ne by exact Hj0; exact H10).
    destruct o as [ws|e| |]; cbn [as_eout leave then_].
    + rewrite Hk. cbn [then_]. rewrite run_match. cbn [eval lookup]. rewrite text_eqb_refl. cbn [then_]. do 2 eexists. split; [reflexivity|].
      cbn [leave]. split; [reflexivity|]. eapply nth_upd, H0.
    + set (e' := match acc with Some a => max_error a e | None => e end).
      cbn [then_]. rewrite run_match. cbn [eval lookup]. rewrite text_eqb_refl. cbn [then_]. rewrite (clear_name n_err eq_refl), text_eqb_refl. cbn [then_].
      destruct (assign_inv l acc e') as (l' & Ha & Hinv'); [split; [exists m; exact Hi|exact He]|].
      change (assign ((n_err, (false, RError e')) :: (n_result, (false, RErr' e')) :: l) n_error (RSome e'))
        with (option_map (cons (n_err, (false, RError e'))) (option_map (cons (n_result, (false, RErr' e'))) (assign l n_error (RSome e')))).
      rewrite Ha. cbn [option_map].
      destruct (IH (done ++ [(v, fs)]) ((n_result, (false, RErr' e')) :: l') (Some e') (upd st1 j fk) s) as (o & st' & E & R).
      * rewrite <- app_assoc. exact Hvs.
      * destruct Hinv' as ((m' & A) & B). split; [exists m'; exact A|exact B].
      * exact H0.
      * exists o, st'. split; [exact E|]. rewrite app_length, Nat.add_1_r in R. exact R.
    + do 2 eexists. split; [reflexivity|]. auto.
    + do 2 eexists. split; [reflexivity|]. auto.
Qed.
End Parse.

(** ** The derived [parse] *)
(** A derived struct: the generated function parses the fields in order and builds the struct. *)
Theorem C51_generated_struct_parser : forall V scope name (fs : ifields (parser V)) s, legal (IStruct name fs) -> clear_of scope parse_names ->
  call (IStruct name fs) scope (m_struct name fs) s =
  Some (let '(o, s') := p_struct name (labelled fs) s in
        (match o with OOk vs => OOk (0, vs) | OErr e => OErr e | OPanic => OPanic | ODiverge => ODiverge end, s')).
Proof.
  intros V scope name fs s Hleg Hc. unfold call, m_struct, p_struct. rewrite (clear_name scope Hc n_input eq_refl).
  rewrite (run_fields (IStruct name fs) scope Hc None name fs 0 Hleg) with (i := 0) (m := false) (s := s); try reflexivity.
  2: { cbn. rewrite text_eqb_refl. reflexivity. }
  destruct (p_fields [] name (labelled fs) s) as (o, s'). destruct o; reflexivity.
Qed.
Print Assumptions C51_generated_struct_parser.
(** A derived enum: the generated function is ordered choice over the variants. *)
Theorem C51_generated_enum_parser : forall V scope name (vs : list (text * ifields (parser V))) s, legal (IEnum name vs) -> clear_of scope parse_names ->
  call (IEnum name vs) scope (m_enum name vs) s = Some (p_enum name (map (fun v => (fst v, labelled (snd v))) vs) s).
Proof.
  intros V scope name vs s Hleg Hc. unfold call, m_enum, p_enum. rewrite (clear_name scope Hc n_input eq_refl).
  rewrite run_let, (clear_name scope Hc n_error eq_refl). cbn [eval then_].
  destruct (run_variants (IEnum name vs) scope Hc name vs eq_refl Hleg vs [] [(n_error, (true, RNone)); (n_input, (false, RIn 0))] None [s] s) as (o & st' & E & R).
  { reflexivity. } { split; [exists false; reflexivity|reflexivity]. } { reflexivity. }
  unfold enum_end in E. rewrite E. cbn [List.length] in R. destruct (p_variants name 0 None _ s) as (o', s'). destruct R as (-> & ->).
  destruct o' as [(k, ws)|e| |]; reflexivity.
Qed.
Print Assumptions C51_generated_enum_parser.

(** ** The derived [to_tokens] *)
Section Print.
Context {V : Type}.
Lemma run_calls_vars fs (vs : list V) l names : forall qs ws out, List.length qs = List.length names -> List.length ws = List.length names ->
  Forall2 (fun x qw => lookup l x = Some (PField (fst qw) (snd qw))) names (combine qs ws) -> lookup l n_tokens = Some PTokens ->
  run_calls fs vs l (map (fun x => TCall (TVar x) n_tokens) names) out =
  match print_fields qs ws with Some ts => PDone (out ++ ts) | None => PPanic end.
Proof.
  induction names as [|x names IH]; intros qs ws out Hq Hw HF Ht; destruct qs as [|q qs], ws as [|w ws]; try discriminate; cbn [map run_calls print_fields].
  - rewrite app_nil_r. reflexivity.
  - cbn [combine] in HF. inversion HF as [|? ? ? ? Hx Hr]; subst. cbn [t_arg t_dest arg_of fst snd] in *. rewrite Hx, Ht.
    destruct (q w) as [ts|]; [|reflexivity]. rewrite (IH qs ws (out ++ ts)); [|injection Hq; auto|injection Hw; auto|exact Hr|exact Ht].
    unfold oapp. destruct (print_fields qs ws) as [us|]; [rewrite app_assoc; reflexivity|reflexivity].
Qed.
(** the fields of [self] *)
Lemma run_calls_gen fs (vs : list V) l args : forall qs ws out, List.length qs = List.length args -> List.length ws = List.length args ->
  Forall2 (fun a qw => arg_of fs vs l a = Some (PField (fst qw) (snd qw))) args (combine qs ws) -> lookup l n_tokens = Some PTokens ->
  run_calls fs vs l (map (fun a => TCall a n_tokens) args) out =
  match print_fields qs ws with Some ts => PDone (out ++ ts) | None => PPanic end.
Proof.
  induction args as [|x args IH]; intros qs ws out Hq Hw HF Ht; destruct qs as [|q qs], ws as [|w ws]; try discriminate; cbn [map run_calls print_fields].
  - rewrite app_nil_r. reflexivity.
  - cbn [combine] in HF. inversion HF as [|? ? ? ? Hx Hr]; subst. cbn [t_arg t_dest fst snd] in *. rewrite Hx, Ht.
    destruct (q w) as [ts|]; [|reflexivity]. rewrite (IH qs ws (out ++ ts)); [|injection Hq; auto|injection Hw; auto|exact Hr|exact Ht].
    unfold oapp. destruct (print_fields qs ws) as [us|]; [rewrite app_assoc; reflexivity|reflexivity].
Qed.
End Print.

Lemma lookup_combine {A} (l : list text) (m : list A) : NoDup l -> List.length l = List.length m -> Forall2 (fun x a => lookup (combine l m) x = Some a) l m.
Proof.
  intros Hn Hlen. assert (G : forall l' m', List.length l' = List.length m' -> (forall x a, In (x, a) (combine l' m') -> In (x, a) (combine l m)) -> Forall2 (fun x a => lookup (combine l m) x = Some a) l' m').
  { induction l' as [|x l' IH]; intros [|a m'] H1 H2; try discriminate H1; constructor.
    - apply lookup_in; [|apply H2; left; reflexivity]. rewrite map_fst_combine by (symmetry; exact Hlen). exact Hn.
    - apply IH; [injection H1; auto|]. intros y b Hy. apply H2. right. exact Hy. }
  apply G; auto.
Qed.
Lemma lookup_app_l {A} (l m : list (text * A)) x a : lookup l x = Some a -> lookup (l ++ m) x = Some a.
Proof. induction l as [|(y, b) l IH]; [discriminate|]. cbn. destruct (text_eqb y x); auto. Qed.
Lemma lookup_app_r {A} (l m : list (text * A)) x : ~ In x (map fst l) -> lookup (l ++ m) x = lookup m x.
Proof.
  induction l as [|(y, b) l IH]; [reflexivity|]. cbn. intro H. destruct (text_eqb y x) eqn:E; [|apply IH; tauto].
  apply text_eqb_eq in E as ->. exfalso. apply H. left. reflexivity.
Qed.
Lemma Forall2_map_r {A B C} (R : A -> C -> Prop) (f : B -> C) l m : Forall2 (fun a b => R a (f b)) l m -> Forall2 R l (map f m).
Proof. induction 1; constructor; auto. Qed.
Lemma Forall2_map_r' {A B C} (R : A -> C -> Prop) (f : B -> C) l m : Forall2 R l (map f m) -> Forall2 (fun a b => R a (f b)) l m.
Proof. revert m. induction l as [|a l IH]; intros [|b m] H; inversion H; subst; constructor; auto. Qed.
Lemma Forall2_map_l {A B C} (R : C -> B -> Prop) (f : A -> C) l m : Forall2 (fun a b => R (f a) b) l m -> Forall2 R (map f l) m.
Proof. induction 1; constructor; auto. Qed.
Lemma Forall2_impl' {A B} (R S : A -> B -> Prop) l m : (forall a b, R a b -> S a b) -> Forall2 R l m -> Forall2 S l m.
Proof. intro H. induction 1; constructor; auto. Qed.

Lemma enum_from_length {A} (l : list A) : forall n, List.length (enum_from n l) = List.length l.
Proof. induction l as [|a l IH]; intro n; [reflexivity|]. cbn. rewrite IH. reflexivity. Qed.

(** A derived struct prints its fields in order, appending to the stream. *)
Theorem C51_generated_struct_printer : forall V scope name (fs : ifields (printer V)) k vs out, legal (IStruct name fs) -> scope n_tokens = false ->
  List.length vs = List.length (field_types fs) ->
  call_print (IStruct name fs) scope (m_print_struct fs) k vs out =
  match print_fields (field_types fs) vs with Some ts => PDone (out ++ ts) | None => PPanic end.
Proof.
  intros V scope name fs k vs out Hleg Hc Hlen. unfold call_print, m_print_struct. rewrite Hc. destruct fs as [fs|fs|]; cbn [field_types legal legal_fields] in *.
  - replace (map (fun f => TCall (TField (fst f)) n_tokens) fs) with (map (fun a => TCall a n_tokens) (map (fun f => TField (fst f)) fs)) by (rewrite map_map; reflexivity).
    apply run_calls_gen; [rewrite !map_length; reflexivity|rewrite !map_length in *; exact Hlen| |reflexivity].
    rewrite <- (map_map fst TField). apply Forall2_map_l. cbn [arg_of].
    apply (Forall2_map_r' (fun x a => lookup (combine (map fst fs) (map (fun q => PField (fst q) (snd q)) (combine (map snd fs) vs))) x = Some a) (fun qw => PField (fst qw) (snd qw))).
    apply lookup_combine; [exact Hleg|]. rewrite !map_length, combine_length, map_length, Hlen, map_length, Nat.min_id. reflexivity.
  - replace (map (fun f => TCall (TIndex (fst f)) n_tokens) (enum_from 0 fs)) with (map (fun a => TCall a n_tokens) (map (fun f => TIndex (fst f)) (enum_from 0 fs))) by (rewrite map_map; reflexivity).
    pose proof (enum_from_length fs) as Hel.
    apply run_calls_gen; [rewrite map_length, Hel; reflexivity|rewrite map_length, Hel; exact Hlen| |reflexivity].
    apply Forall2_map_l. cbn [arg_of].
    assert (G : forall pre wpre post wpost, fs = pre ++ post -> vs = wpre ++ wpost -> List.length wpre = List.length pre -> List.length wpost = List.length post ->
      Forall2 (fun a qw => match nth_error fs (fst a) with Some q => match nth_error vs (fst a) with Some v => Some (PField q v) | None => None end | None => None end = Some (PField (fst qw) (snd qw))) (enum_from (List.length pre) post) (combine post wpost)).
    { intros pre wpre post. revert pre wpre. induction post as [|q post IH]; intros pre wpre [|w wpost] H1 H2 H3 H4; try discriminate H4; cbn [enum_from combine]; constructor.
      - cbn [fst snd]. rewrite H1, H2. rewrite (nth_error_app2 pre) by lia. rewrite (nth_error_app2 wpre) by lia. rewrite H3, Nat.sub_diag. reflexivity.
      - specialize (IH (pre ++ [q]) (wpre ++ [w]) wpost). rewrite !app_length in IH. cbn [List.length] in IH. rewrite !Nat.add_1_r in IH. apply IH.
        + rewrite <- app_assoc. exact H1.
        + rewrite <- app_assoc. exact H2.
        + lia.
        + injection H4; auto. }
    exact (G [] [] fs vs eq_refl eq_refl eq_refl Hlen).
  - destruct vs; [|discriminate Hlen]. cbn. rewrite app_nil_r. reflexivity.
Qed.
Print Assumptions C51_generated_struct_printer.

(** the names the arm of a variant binds *)
Definition arm_names {X} (v : text * ifields X) : list text :=
  match snd v with
  | IUnit => []
  | INamed fs => map fst fs
  | IUnnamed fs => map (fun f => field_var (fst v) (fst f)) (enum_from 0 fs)
  end.
Lemma field_var_inj v i j : field_var v i = field_var v j -> i = j.
Proof.
  unfold field_var. intro H. apply app_inv_head in H. apply app_inv_head in H. apply app_inv_head in H. apply dec_inj in H. apply Nat2N.inj in H. exact H.
Qed.
Lemma enum_from_fst {A} (l : list A) n i : In i (map fst (enum_from n l)) -> n <= i.
Proof. revert n. induction l as [|a l IH]; intros n H; [destruct H|]. destruct H as [<-|H]; [reflexivity|]. apply IH in H. lia. Qed.
Lemma field_vars_nodup {A} v (l : list A) : forall n, NoDup (map (fun f => field_var v (fst f)) (enum_from n l)).
Proof.
  induction l as [|a l IH]; intro n; cbn [enum_from map fst]; constructor; [|apply IH]. intro H. apply in_map_iff in H as ((i & b) & E & Hi). cbn [fst] in E.
  apply field_var_inj in E as ->. apply (in_map fst) in Hi. apply enum_from_fst in Hi. cbn in Hi. lia.
Qed.
Lemma field_var_not_tokens v i : field_var v i <> n_tokens.
Proof. unfold field_var. discriminate. Qed.
Lemma nodupb_true l : NoDup l -> nodupb l = true.
Proof.
  induction 1 as [|x l Hx Hl IH]; [reflexivity|]. cbn [nodupb]. rewrite IH, andb_true_r. apply negb_true_iff.
  destruct (text_mem x l) eqn:E; [|reflexivity]. apply text_mem_In in E. contradiction.
Qed.
Lemma clear_existsb scope l : clear_of scope l -> existsb scope l = false.
Proof. intro H. destruct (existsb scope l) eqn:E; [|reflexivity]. apply existsb_exists in E as (x & Hx & E). rewrite (H x Hx) in E. discriminate. Qed.
Lemma find_arm_at {X} name (vs : list (text * ifields X)) k n fs : NoDup (map fst vs) -> nth_error vs k = Some (n, fs) ->
  find_arm (map (m_arm name) vs) [name; n] = Some (m_arm name (n, fs)).
Proof.
  revert k. induction vs as [|(m, gs) vs IH]; intros k Hn Hk; [destruct k; discriminate Hk|]. cbn [map find_arm]. inversion Hn as [|? ? Hm Hv]; subst.
  destruct k as [|k].
  - injection Hk as -> ->. cbn [m_arm t_path]. destruct (list_eq_dec text_eq_dec _ _) as [_|F]; [reflexivity|]. exfalso. apply F. reflexivity.
  - cbn [m_arm t_path fst]. destruct (list_eq_dec text_eq_dec [name; m] [name; n]) as [E|_]; [|exact (IH k Hv Hk)].
    injection E as ->. exfalso. apply Hm. cbn [nth_error] in Hk. apply nth_error_In in Hk. apply (in_map fst) in Hk. exact Hk.
Qed.
Lemma bindings_ok {V} scope n (fs : ifields (printer V)) vs : legal_fields fs -> clear_of scope (arm_names (n, fs)) -> List.length vs = List.length (field_types fs) ->
  bindings scope fs (t_pat (m_arm [] (n, fs))) vs =
  Some (combine (arm_names (n, fs)) (map (fun q => PField (fst q) (snd q)) (combine (field_types fs) vs))).
Proof.
  intros Hleg Hc Hlen. unfold bindings, arm_names in *. destruct fs as [fs|fs|]; cbn [m_arm t_pat snd field_types field_names legal_fields fst] in *.
  - rewrite (nodupb_true _ Hleg), (clear_existsb _ _ Hc). cbn [negb andb].
    assert (G : forallb (fun f => text_mem f (map fst fs)) (map fst fs) = true) by (apply forallb_forall; intros x Hx; apply text_mem_In, Hx).
    rewrite !G. reflexivity.
  - rewrite (nodupb_true _ (field_vars_nodup n fs 0)), (clear_existsb _ _ Hc). cbn [negb andb].
    rewrite !map_length, enum_from_length, combine_length, Hlen, Nat.min_id, Nat.eqb_refl. reflexivity.
  - reflexivity.
Qed.

(** A derived enum prints the fields of the active variant in order — provided no named field is called [tokens]. *)
Theorem C51_generated_enum_printer : forall V scope name (variants : list (text * ifields (printer V))) k n fs vs out, legal (IEnum name variants) ->
  nth_error variants k = Some (n, fs) -> List.length vs = List.length (field_types fs) ->
  clear_of scope (n_tokens :: arm_names (n, fs)) -> ~ In n_tokens (field_names fs) ->
  call_print (IEnum name variants) scope (m_print_enum name variants) k vs out =
  match print_enum (map (fun v => field_types (snd v)) variants) (k, vs) with Some ts => PDone (out ++ ts) | None => PPanic end.
Proof.
  intros V scope name variants k n fs vs out (Hn & Hf) Hk Hlen Hc Htok. unfold call_print, m_print_enum. rewrite (Hc n_tokens (or_introl eq_refl)).
  unfold print_enum. cbn [fst snd]. rewrite nth_error_map, Hk. cbn [option_map snd].
  assert (Hleg : legal_fields fs) by (rewrite Forall_forall in Hf; apply (Hf (n, fs)); eapply nth_error_In, Hk).
  pose proof (find_arm_at name variants k n fs Hn Hk) as Ha. destruct (map (m_arm name) variants) as [|a arms] eqn:E; [discriminate Ha|]. rewrite Ha.
  change (t_pat (m_arm name (n, fs))) with (t_pat (m_arm [] (n, fs))).
  rewrite (bindings_ok scope n fs vs Hleg (fun x Hx => Hc x (or_intror Hx)) Hlen).
  change (t_calls (m_arm name (n, fs))) with (map (fun x => TCall (TVar x) n_tokens) (arm_names (n, fs))).
  set (names := arm_names (n, fs)). set (fields := map _ (combine (field_types fs) vs)).
  assert (Hnd : NoDup names) by (subst names; destruct fs as [fs|fs|]; cbn; [exact Hleg|apply field_vars_nodup|constructor]).
  assert (Hnt : ~ In n_tokens names).
  { subst names. destruct fs as [fs|fs|]; cbn in *; [exact Htok| |tauto]. intro Hi. apply in_map_iff in Hi as (f & E1 & _). exact (field_var_not_tokens _ _ E1). }
  assert (Hnl : List.length names = List.length (field_types fs)).
  { subst names. destruct fs as [fs|fs|]; cbn; [rewrite !map_length; reflexivity|rewrite map_length; apply enum_from_length|reflexivity]. }
  assert (Hfl : List.length names = List.length fields) by (subst fields; rewrite map_length, combine_length, Hlen, Nat.min_id; exact Hnl).
  apply run_calls_vars; [congruence|congruence| |].
  - apply (Forall2_map_r' (fun x a => lookup (combine names fields ++ [(n_tokens, PTokens)]) x = Some a) (fun qw => PField (fst qw) (snd qw))). fold fields.
    eapply Forall2_impl'; [|apply lookup_combine; [exact Hnd|exact Hfl]]. intros x y Hx. apply lookup_app_l, Hx.
  - rewrite lookup_app_r; [reflexivity|]. rewrite map_fst_combine by (symmetry; exact Hfl). exact Hnt.
Qed.
Print Assumptions C51_generated_enum_printer.

(** *** What the generated code cannot do *)
(** a named field of a variant called [tokens] hides the stream to write to: rustc refuses the impl *)
Theorem C51_field_called_tokens_refuted : forall V scope name (variants : list (text * ifields (printer V))) k n fs vs out, legal (IEnum name variants) ->
  nth_error variants k = Some (n, INamed fs) -> List.length vs = List.length fs -> In n_tokens (map fst fs) ->
  call_print (IEnum name variants) scope (m_print_enum name variants) k vs out = PStuck.
Proof.
  intros V scope name variants k n fs vs out (Hn & Hf) Hk Hlen Htok. unfold call_print, m_print_enum. destruct (scope n_tokens); [reflexivity|].
  rewrite Hk. pose proof (find_arm_at name variants k n _ Hn Hk) as Ha. destruct (map (m_arm name) variants) as [|a arms]; [reflexivity|]. rewrite Ha.
  assert (Hleg : NoDup (map fst fs)) by (rewrite Forall_forall in Hf; apply (Hf (n, INamed fs)); eapply nth_error_In, Hk).
  destruct (bindings scope (INamed fs) _ vs) as [l|] eqn:Hb; [|reflexivity].
  assert (El : l = combine (map fst fs) (map (fun q => PField (fst q) (snd q)) (combine (map snd fs) vs))).
  { cbn in Hb. destruct (_ && _); [injection Hb as <-; reflexivity|discriminate Hb]. }
  assert (Hl : exists q w, lookup l n_tokens = Some (PField q w)).
  { subst l. assert (Hlc : List.length (map fst fs) = List.length (map (fun q => PField (fst q) (snd q)) (combine (map snd fs) vs))) by (rewrite !map_length, combine_length, map_length, Hlen, Nat.min_id; reflexivity).
    pose proof (lookup_combine (map fst fs) _ Hleg Hlc) as F.
    apply In_nth_error in Htok as (i & Hi). assert (Hi' : i < List.length (map (fun q => PField (fst q) (snd q)) (combine (map snd fs) vs))) by (rewrite <- Hlc; apply nth_error_Some; congruence).
    destruct (nth_error (map (fun q => PField (fst q) (snd q)) (combine (map snd fs) vs)) i) as [x|] eqn:Ex; [|apply nth_error_None in Ex; lia].
    assert (G : forall l1 (l2 : list (pv (V := V))) (R : text -> pv -> Prop), Forall2 R l1 l2 -> forall i a b, nth_error l1 i = Some a -> nth_error l2 i = Some b -> R a b).
    { clear. induction 1 as [|a0 b0 l1 l2 H0 HF IH]; intros [|i] a b H1 H2; try discriminate H1; [injection H1 as <-; injection H2 as <-; exact H0|exact (IH i a b H1 H2)]. }
    pose proof (G _ _ _ F i _ _ Hi Ex) as Hx. cbv beta in Hx. rewrite Hx. apply nth_error_In in Ex. apply in_map_iff in Ex as ((q & w) & <- & _). exists q, w. reflexivity. }
  destruct Hl as (q & w & Hl). destruct fs as [|f fs]; [destruct Htok|].
  cbn [m_arm t_calls snd map fst run_calls t_dest t_arg]. rewrite (lookup_app_l _ _ _ _ Hl).
  destruct (arg_of None vs _ _) as [[q' w'|]|]; reflexivity.
Qed.
Print Assumptions C51_field_called_tokens_refuted.
(** an enum without variants: [match self {}] on a reference *)
Theorem C51_empty_enum_printer_refuted : forall V scope name k (vs : list V) out, call_print (IEnum name []) scope (m_print_enum name (@nil (text * ifields (printer V)))) k vs out = PStuck.
Proof. intros. unfold call_print, m_print_enum. destruct (scope n_tokens); reflexivity. Qed.
(** the generated enum parser calls [Err] by its bare name: with a function or tuple struct [Err] in scope it
    is not the prelude's *)
Theorem C51_bare_Err_refuted : forall V scope name s, scope n_Err = true -> call (IEnum name (@nil (text * ifields (parser V)))) scope (m_enum name (@nil (text * ifields (parser V)))) s = None.
Proof.
  intros V scope name s H. unfold call, m_enum. destruct (scope n_input); [reflexivity|]. rewrite run_let. destruct (scope n_error); [reflexivity|].
  cbn [eval then_ m_variants flat_map stmts_then run_block]. rewrite H. reflexivity.
Qed.
(** unions: both macros answer with an error instead of code *)
Theorem C51_unions_refused : forall X, m_parse (@IUnion X) = None /\ m_to_tokens (@IUnion X) = None.
Proof. split; reflexivity. Qed.

(** ** In a grammar of derived items *)
(** Only the names and the shape of an item reach the macros, never what its types mean. *)
Definition map_fields {X Y} (f : X -> Y) (fs : ifields X) : ifields Y :=
  match fs with INamed l => INamed (map (fun x => (fst x, f (snd x))) l) | IUnnamed l => IUnnamed (map f l) | IUnit => IUnit end.
Definition map_item {X Y} (f : X -> Y) (i : item X) : item Y :=
  match i with
  | IStruct n fs => IStruct n (map_fields f fs)
  | IEnum n vs => IEnum n (map (fun v => (fst v, map_fields f (snd v))) vs)
  | IUnion => IUnion
  end.
(** The definition [Grammar.v] has for an item, and its values. *)
Definition def_of (i : item ty) : option tdef :=
  match i with
  | IStruct n fs => Some (DStruct (Ctor n (labelled fs)))
  | IEnum n vs => Some (DEnum n (map (fun v => Ctor (fst v) (labelled (snd v))) vs))
  | IUnion => None
  end.
Definition node_of (i : item ty) (kv : nat * list val) : val :=
  match i with IEnum _ _ => VVariant (fst kv) (snd kv) | _ => VStruct (snd kv) end.
Definition map_outcome {A B} (f : A -> B) (o : outcome A) : outcome B :=
  match o with OOk v => OOk (f v) | OErr e => OErr e | OPanic => OPanic | ODiverge => ODiverge end.
(** the item whose [parse] and [to_tokens] the macros write, with the names its variants bind *)
Definition all_arm_names {X} (i : item X) : list text := match i with IEnum _ vs => flat_map arm_names vs | _ => [] end.
Definition no_field_called_tokens {X} (i : item X) : Prop :=
  match i with IEnum _ vs => Forall (fun v => match snd v with INamed fs => ~ In n_tokens (map fst fs) | _ => True end) vs | _ => True end.

Lemma enum_from_map {X Y} (f : X -> Y) l : forall n, enum_from n (map f l) = map (fun x => (fst x, f (snd x))) (enum_from n l).
Proof. induction l as [|a l IH]; intro n; [reflexivity|]. cbn [map enum_from]. rewrite IH. reflexivity. Qed.
Lemma m_fields_map {X Y} (f : X -> Y) en c fs : m_fields en c (map_fields f fs) = m_fields en c fs.
Proof.
  destruct fs as [l|l|]; cbn [map_fields m_fields]; [| |reflexivity].
  - rewrite map_map. reflexivity.
  - rewrite enum_from_map, map_map. reflexivity.
Qed.
Lemma m_variants_map {X Y} (f : X -> Y) name vs : m_variants name (map (fun v => (fst v, map_fields f (snd v))) vs) = m_variants name vs.
Proof. unfold m_variants. induction vs as [|v vs IH]; [reflexivity|]. cbn [map flat_map fst snd]. rewrite m_fields_map. f_equal. f_equal. exact IH. Qed.
Lemma m_parse_map {X Y} (f : X -> Y) i : m_parse (map_item f i) = m_parse i.
Proof.
  destruct i as [n fs|n vs|]; cbn [map_item m_parse]; [| |reflexivity].
  - unfold m_struct. rewrite m_fields_map. reflexivity.
  - unfold m_enum. rewrite m_variants_map. reflexivity.
Qed.
Lemma m_arm_map {X Y} (f : X -> Y) name v : m_arm name (fst v, map_fields f (snd v)) = m_arm name v.
Proof.
  destruct v as (n & [l|l|]); unfold m_arm; cbn [map_fields fst snd]; [| |reflexivity].
  - rewrite (map_map _ fst). reflexivity.
  - rewrite enum_from_map, (map_map _ (fun f0 => field_var n (fst f0))). reflexivity.
Qed.
Lemma m_to_tokens_map {X Y} (f : X -> Y) i : m_to_tokens (map_item f i) = m_to_tokens i.
Proof.
  destruct i as [n [l|l|]|n vs|]; cbn [map_item map_fields m_to_tokens]; unfold m_print_struct; try reflexivity.
  - rewrite map_map. reflexivity.
  - rewrite enum_from_map, map_map. reflexivity.
  - unfold m_print_enum. rewrite map_map. do 2 f_equal. apply map_ext. intro v. apply m_arm_map.
Qed.
Lemma legal_fields_map {X Y} (f : X -> Y) fs : legal_fields fs -> legal_fields (map_fields f fs).
Proof. destruct fs as [l|l|]; cbn; auto. rewrite map_map. auto. Qed.
Lemma legal_map {X Y} (f : X -> Y) i : legal i -> legal (map_item f i).
Proof.
  destruct i as [n fs|n vs|]; cbn [legal map_item]; [apply legal_fields_map| |auto].
  intros (H1 & H2). split; [rewrite map_map; exact H1|]. rewrite Forall_map. eapply Forall_impl; [|exact H2]. intros v Hv. apply legal_fields_map, Hv.
Qed.
Lemma labelled_map {X Y} (f : X -> Y) fs : labelled (map_fields f fs) = map (fun '(l, x) => (l, f x)) (labelled fs).
Proof.
  destruct fs as [l|l|]; cbn [map_fields labelled]; [| |reflexivity].
  - rewrite !map_map. apply map_ext. intros (n & x). reflexivity.
  - rewrite enum_from_map, !map_map. apply map_ext. intros (n & x). reflexivity.
Qed.

(** Running the generated [parse] of an item is parsing its type in [Grammar.v]: every theorem about
    [pty] is a theorem about the code the macro writes. *)
Theorem C51_generated_parse : forall (U : unicode) E i it b scope n s, legal it -> clear_of scope parse_names ->
  m_parse it = Some b -> def_of it = Some (E i) ->
  exists o s', call (map_item (pty E n) it) scope b s = Some (o, s') /\ pty E (S n) (TyRef i) s = (map_outcome (node_of it) o, s').
Proof.
  intros U E i it b scope n s Hl Hc Hb Hd. apply (legal_map (pty E n)) in Hl as Hl'. rewrite <- (m_parse_map (pty E n)) in Hb.
  destruct it as [name fs|name vs|]; [| |discriminate Hb]; cbn [map_item m_parse def_of] in *; injection Hb as <-; injection Hd as Hd.
  - rewrite C51_generated_struct_parser by assumption. rewrite labelled_map.
    cbn [pty p_layer]. rewrite <- Hd. cbn [p_def c_name c_fields]. unfold pmap, bind.
    destruct (p_struct name _ s) as (o & s'). exists (map_outcome (fun vs => (0, vs)) o), s'. split; [destruct o; reflexivity|]. destruct o; reflexivity.
  - rewrite C51_generated_enum_parser by assumption. cbn [pty p_layer]. rewrite <- Hd. cbn [p_def]. rewrite !map_map. cbn [fst snd c_name c_fields].
    replace (map (fun x => (fst x, labelled (map_fields (pty E n) (snd x)))) vs) with (map (fun x => (fst x, map (fun '(l, t) => (l, pty E n t)) (labelled (snd x)))) vs)
      by (apply map_ext; intro v; rewrite labelled_map; reflexivity).
    unfold pmap, bind. destruct (p_enum name _ s) as (o & s'). exists o, s'. split; [reflexivity|]. destruct o as [(k & ws)|e| |]; reflexivity.
Qed.
Print Assumptions C51_generated_parse.

Lemma typed_fields_length {U : unicode} E fs vs : typed_fields E fs vs -> List.length vs = List.length fs.
Proof. induction 1; cbn; congruence. Qed.
Lemma labelled_length {X} (fs : ifields X) : List.length (labelled fs) = List.length (match fs with INamed l => map snd l | IUnnamed l => l | IUnit => [] end).
Proof. destruct fs as [l|l|]; cbn [labelled]; rewrite ?map_length, ?enum_from_length; reflexivity. Qed.
Lemma field_types_map (f : ty -> printer val) fs : field_types (map_fields f fs) = map (fun x => f (snd x)) (labelled fs).
Proof.
  destruct fs as [l|l|]; cbn [map_fields labelled field_types]; [| |reflexivity].
  - rewrite !map_map. apply map_ext. intros (n & x). reflexivity.
  - rewrite map_map. cbn [snd]. rewrite <- (map_map snd f). f_equal. generalize 0. induction l as [|x l IH]; intro n; [reflexivity|]. cbn. f_equal. apply IH.
Qed.
Lemma field_names_map (f : ty -> printer val) fs : field_names (map_fields f fs) = match fs with INamed l => map fst l | _ => [] end.
Proof. destruct fs as [l|l|]; cbn; [rewrite map_map; reflexivity|reflexivity|reflexivity]. Qed.
Lemma arm_names_map {X Y} (f : X -> Y) v : arm_names (fst v, map_fields f (snd v)) = arm_names v.
Proof.
  destruct v as (n & [l|l|]); unfold arm_names; cbn [map_fields fst snd]; [| |reflexivity].
  - rewrite map_map. reflexivity.
  - rewrite enum_from_map, map_map. reflexivity.
Qed.

Lemma typed_ref_inv {U : unicode} E i v : typed E (TyRef i) v ->
  (exists c vs, v = VStruct vs /\ E i = DStruct c /\ typed_fields E (c_fields c) vs) \/
  (exists en cs k c vs, v = VVariant k vs /\ E i = DEnum en cs /\ nth_error cs k = Some c /\ typed_fields E (c_fields c) vs).
Proof.
  intro H. remember (TyRef i) as t eqn:Et. destruct H; try discriminate Et.
  - destruct d; cbn in Et; discriminate Et.
  - injection Et as ->. left. eauto 6.
  - injection Et as ->. right. eauto 9.
Qed.
(** Running the generated [to_tokens] of an item on any value of its type appends what [Grammar.print] says. *)
Theorem C51_generated_to_tokens : forall (U : unicode) E i it b scope v, legal it -> clear_of scope (n_tokens :: all_arm_names it) -> no_field_called_tokens it ->
  m_to_tokens it = Some b -> def_of it = Some (E i) -> typed E (TyRef i) v ->
  exists k vs, v = node_of it (k, vs) /\ exists n0, forall d n out, n0 <= n ->
    call_print (map_item (to_tokens d E n) it) scope b k vs out = match print v with Some ts => PDone (out ++ ts) | None => PPanic end.
Proof.
  intros U E i it b scope v Hl Hc Hnt Hb Hd Hv. destruct (typed_agree E _ v Hv) as (n0 & Ha). unfold agree in Ha.
  destruct it as [name fs|name vs|]; [| |discriminate Hb]; cbn [m_to_tokens def_of] in *; injection Hb as <-; injection Hd as Hd.
  - destruct (typed_ref_inv _ _ _ Hv) as [(c & ws & -> & Hi & Hf)|(en & cs & k & c & ws & -> & Hi & Hk & Hf)]; rewrite <- Hd in Hi; [|discriminate Hi]. injection Hi as <-. cbn [c_fields] in Hf.
    exists 0, ws. split; [reflexivity|]. exists (S n0). intros d n out Hn.
    rewrite <- (Ha d (S n)) by lia. cbn [to_tokens t_layer]. rewrite <- Hd. cbn [t_def c_fields map_item].
    assert (Eb : m_print_struct fs = m_print_struct (map_fields (to_tokens d E n) fs)).
    { pose proof (m_to_tokens_map (to_tokens d E n) (IStruct name fs)) as H. apply (f_equal (fun o => match o with Some x => x | None => TCalls [] end)) in H. symmetry. exact H. }
    rewrite Eb. rewrite C51_generated_struct_printer.
    + rewrite field_types_map. reflexivity.
    + exact (legal_map (to_tokens d E n) (IStruct name fs) Hl).
    + apply Hc. left. reflexivity.
    + rewrite field_types_map, map_length. apply typed_fields_length in Hf. exact Hf.
  - destruct (typed_ref_inv _ _ _ Hv) as [(c & ws & -> & Hi & Hf)|(en & cs & k & c & ws & -> & Hi & Hk & Hf)]; rewrite <- Hd in Hi; [discriminate Hi|]. injection Hi as <- <-.
    rewrite nth_error_map in Hk. destruct (nth_error vs k) as [(vn & fs)|] eqn:Ek; [|discriminate Hk]. injection Hk as <-. cbn [fst snd c_fields] in Hf.
    exists k, ws. split; [reflexivity|]. exists (S n0). intros d n out Hn.
    rewrite <- (Ha d (S n)) by lia. cbn [to_tokens t_layer]. rewrite <- Hd. cbn [t_def map_item].
    assert (Eb : m_print_enum name vs = m_print_enum name (map (fun v => (fst v, map_fields (to_tokens d E n) (snd v))) vs)).
    { pose proof (m_to_tokens_map (to_tokens d E n) (IEnum name vs)) as H. apply (f_equal (fun o => match o with Some x => x | None => TCalls [] end)) in H. symmetry. exact H. }
    rewrite Eb. rewrite (C51_generated_enum_printer _ scope name _ k vn (map_fields (to_tokens d E n) fs)).
    + rewrite !map_map. cbn [snd c_fields]. unfold print_enum. cbn [fst]. rewrite !nth_error_map, Ek. cbn [option_map snd]. rewrite field_types_map. reflexivity.
    + exact (legal_map (to_tokens d E n) (IEnum name vs) Hl).
    + rewrite nth_error_map, Ek. reflexivity.
    + rewrite field_types_map, map_length. apply typed_fields_length in Hf. exact Hf.
    + pose proof (arm_names_map (to_tokens d E n) (vn, fs)) as Ean. cbn [fst snd] in Ean. rewrite Ean. intros x [<-|Hx]; [apply Hc; left; reflexivity|].
      apply Hc. right. cbn [all_arm_names]. apply in_flat_map. exists (vn, fs). split; [eapply nth_error_In, Ek|exact Hx].
    + rewrite field_names_map. cbn [no_field_called_tokens] in Hnt. rewrite Forall_forall in Hnt. apply nth_error_In in Ek. apply Hnt in Ek. cbn [snd] in Ek.
      destruct fs; auto.
Qed.
Print Assumptions C51_generated_to_tokens.

(** *** The hypotheses are met: an enum with all three kinds of variants, and fields named like the variables of the generated code *)
Definition shape : item ty := IEnum (T "Shape")
  [(T "Circle", INamed [(T "input", TyIdent); (T "error", TyToken (T ","))]);
   (T "Frame", IUnnamed [TyBracket TyIdent; TyIdent]);
   (T "Dot", IUnit)].
Definition shape_env : env := fun _ => match def_of shape with Some d => d | None => unit_def end.
Example C51_ex_legal : legal shape /\ clear_of (fun _ => false) parse_names /\ clear_of (fun _ => false) (n_tokens :: all_arm_names shape) /\ no_field_called_tokens shape /\ def_of shape = Some (shape_env 0).
Proof.
  split; [|split; [intros ? _; reflexivity|split; [intros ? _; reflexivity|split; [|reflexivity]]]].
  - split; cbn; [repeat constructor; cbn; intuition discriminate|]. repeat constructor; cbn; intuition discriminate.
  - cbn. repeat constructor; cbn; intuition discriminate.
Qed.
Section WithTables.
Local Existing Instance ascii_only.
Definition run_shape (ts : list tt) : option (outcome (nat * list val) * pstate) :=
  match m_parse shape with Some b => call (map_item (pty shape_env 5) shape) (fun _ => false) b (start ts) | None => None end.
Definition one (k : nat) : span := Span 1 (LC 1 k) (LC 1 (k + 1)).
(** [x ,] is a circle; [[y] z] a frame; [[y]] falls through to the dot, leaving the stream as it was *)
Example C51_ex_circle : run_shape [TIdent (T "x") (one 0); TPunct 44 Alone (one 1)] =
  Some (OOk (0, [VIdent (T "x") (one 0); VOp (T ",") [one 1]]), PS [] call_site None).
Proof. vm_compute. reflexivity. Qed.
Example C51_ex_frame : run_shape [TGroup DBracket (one 0) [TIdent (T "y") (one 1)]; TIdent (T "z") (one 3)] =
  Some (OOk (1, [VGroup DBracket (one 0) (VIdent (T "y") (one 1)); VIdent (T "z") (one 3)]), PS [] call_site None).
Proof. vm_compute. reflexivity. Qed.
Example C51_ex_dot : run_shape [TGroup DBracket (one 0) [TIdent (T "y") (one 1)]] =
  Some (OOk (2, []), PS [TGroup DBracket (one 0) [TIdent (T "y") (one 1)]] call_site None).
Proof. vm_compute. reflexivity. Qed.
Example C51_ex_print : match m_to_tokens shape with
  | Some b => call_print (map_item (to_tokens None shape_env 5) shape) (fun _ => false) b 1 [VGroup DBracket (one 0) (VIdent (T "y") (one 1)); VIdent (T "z") (one 3)] [TIdent (T "x") (one 9)]
  | None => PStuck
  end = PDone [TIdent (T "x") (one 9); TGroup DBracket (one 0) [TIdent (T "y") (one 1)]; TIdent (T "z") (one 3)].
Proof. vm_compute. reflexivity. Qed.
(** and a field really called [tokens] stops the printer, not the parser *)
Definition bad_shape : item ty := IEnum (T "S") [(T "A", INamed [(T "tokens", TyIdent)])].
Example C51_ex_bad : match m_to_tokens bad_shape with
  | Some b => call_print (map_item (to_tokens None shape_env 5) bad_shape) (fun _ => false) b 0 [VIdent (T "y") (one 1)] []
  | None => PDone []
  end = PStuck /\ exists b, m_parse bad_shape = Some b /\ call (map_item (pty shape_env 5) bad_shape) (fun _ => false) b (start [TIdent (T "x") (one 0)]) = Some (OOk (0, [VIdent (T "x") (one 0)]), PS [] call_site None).
Proof. split; [vm_compute; reflexivity|]. eexists. split; [reflexivity|]. vm_compute. reflexivity. Qed.
End WithTables.

Print Assumptions C51_empty_enum_printer_refuted.
Print Assumptions C51_bare_Err_refuted.
Print Assumptions C51_unions_refused.
