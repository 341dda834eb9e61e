(** * PropKeys: syntax trees as keys of maps (C64). *)
From Verif Require Import Base Float Literal Syn Ast Derive Grammar Spec LitSpec Conv ConvFacts PropSpan Reprint PropLit Typed Writable NodeEq PropLL1 PropEq PropOrder HashCalls HashFacts Examples.
Local Open Scope nat_scope.

(** ** Specification *)
(** the same tree, locations and the signs of floating-point zeros apart (C53: this is [==]) *)
Definition same_tree (v w : val) : Prop := strip (plus_zeros v) = strip (plus_zeros w).
(** a history of a map from trees to [V], the latest operation first *)
Inductive map_op (V : Type) := Put (k : val) (x : V) | Del (k : val).
Arguments Put {V}. Arguments Del {V}.
Definition op_key {V} (o : map_op V) : val := match o with Put k _ | Del k => k end.
(** what the map should hold under [k] *)
Inductive holds {V} (k : val) : list (map_op V) -> option V -> Prop :=
| ho_never : holds k [] None
| ho_put k' x r : same_tree k k' -> holds k (Put k' x :: r) (Some x)
| ho_del k' r : same_tree k k' -> holds k (Del k' :: r) None
| ho_other o r y : ~ same_tree k (op_key o) -> holds k r y -> holds k (o :: r) y.

(** ** Model of [std::collections::HashMap<K, V, S>] (not in /repo), for any [S: BuildHasher]: [finish] is what the hasher makes of the
    calls.  An entry is found by its hash and [==]; [insert] under a key that is there replaces the value. *)
Section Table.
Context (finish : list call -> N) (E : env) (t : ty) {V : Type}.
Definition probe (hash : N) (eq : val -> bool) (m : list (val * V)) : option (val * V) :=
  find (fun e => (finish (hv E t (fst e)) =? hash)%N && eq (fst e)) m.
(** [get(&k)], where [k: Q] and [K: Borrow<Q>]: the hash of [k], and comparison of the borrowed key with [k] *)
Definition get_by (calls : list call) (eq : val -> bool) (m : list (val * V)) : option V := option_map snd (probe (finish calls) eq m).
Definition get (k : val) : list (val * V) -> option V := get_by (hv E t k) (fun k' => veqb k' k).
Fixpoint insert (k : val) (x : V) (m : list (val * V)) : list (val * V) :=
  match m with
  | [] => [(k, x)]
  | (k', y) :: r => if (finish (hv E t k') =? finish (hv E t k))%N && veqb k' k then (k', x) :: r else (k', y) :: insert k x r
  end.
Definition remove (k : val) (m : list (val * V)) : list (val * V) :=
  filter (fun e => negb ((finish (hv E t (fst e)) =? finish (hv E t k))%N && veqb (fst e) k)) m.
Definition step (o : map_op V) (m : list (val * V)) : list (val * V) := match o with Put k x => insert k x m | Del k => remove k m end.
Definition run (ops : list (map_op V)) : list (val * V) := fold_right step [] ops.
End Table.

(** ** Proofs *)
Lemma same_tree_dec v w : proper v -> proper w -> {same_tree v w} + {~ same_tree v w}.
Proof. intros Pv Pw. destruct (veqb v w) eqn:H; [left; apply veqb_bare; assumption|right; intro Q; apply (veqb_bare v w Pv Pw) in Q; congruence]. Qed.
Lemma hit finish E t k k' : proper k -> proper k' -> (finish (hv E t k') =? finish (hv E t k))%N && veqb k' k = true <-> same_tree k k'.
Proof.
  intros Pk Pk'. rewrite andb_true_iff, N.eqb_eq. split; [intros (_ & H); symmetry; apply veqb_bare; assumption|]. intro H.
  assert (Q : veqb k' k = true) by (apply veqb_bare; try assumption; symmetry; exact H). split; [|exact Q]. f_equal. apply hv_equal; assumption.
Qed.
Section Lookups.
Context (finish : list call -> N) (E : env) (t : ty) {V : Type}.
Notation get := (get finish E t). Notation insert := (insert finish E t). Notation remove := (remove finish E t).
Lemma get_insert k k' (x : V) m : proper k -> proper k' -> Forall (fun e => proper (fst e)) m ->
  (same_tree k k' -> get k (insert k' x m) = Some x) /\ (~ same_tree k k' -> get k (insert k' x m) = get k m) /\ Forall (fun e => proper (fst e)) (insert k' x m).
Proof.
  intros Pk Pk' Pm. induction m as [|(k1, y) r IH]; cbn [PropKeys.insert].
  - unfold PropKeys.get, get_by, probe. cbn [find fst]. pose proof (hit finish E t k k' Pk Pk') as Hh. destruct (_ && _) eqn:Q.
    + split; [reflexivity|]. split; [intro N; exfalso; apply N, Hh; reflexivity|repeat constructor; assumption].
    + split; [intro S; exfalso; apply Hh in S; discriminate S|]. split; [reflexivity|repeat constructor; assumption].
  - inversion Pm as [|? ? P1 Pr]; subst. cbn [fst] in P1. destruct (IH Pr) as (A & B & C). clear IH. pose proof (hit finish E t k' k1 Pk' P1) as H1. pose proof (hit finish E t k k1 Pk P1) as H2.
    destruct ((finish (hv E t k1) =? finish (hv E t k'))%N && veqb k1 k') eqn:Q1; unfold PropKeys.get, get_by, probe in *; cbn [find fst]; destruct ((finish (hv E t k1) =? finish (hv E t k))%N && veqb k1 k) eqn:Q2; cbn [option_map snd] in *.
    + split; [reflexivity|]. split; [|constructor; assumption]. intro N. exfalso. apply N. pose proof (proj1 H1 eq_refl). pose proof (proj1 H2 eq_refl). unfold same_tree in *. congruence.
    + split; [|split; [reflexivity|constructor; assumption]]. intro S. exfalso. assert (same_tree k k1) as S' by (pose proof (proj1 H1 eq_refl); unfold same_tree in *; congruence). apply H2 in S'. discriminate S'.
    + split; [|split; [reflexivity|constructor; assumption]]. intro S. exfalso. assert (same_tree k' k1) as S' by (pose proof (proj1 H2 eq_refl); unfold same_tree in *; congruence). apply H1 in S'. discriminate S'.
    + split; [exact A|]. split; [exact B|constructor; assumption].
Qed.
Lemma get_remove k k' (m : list (val * V)) : proper k -> proper k' -> Forall (fun e => proper (fst e)) m ->
  (same_tree k k' -> get k (remove k' m) = None) /\ (~ same_tree k k' -> get k (remove k' m) = get k m) /\ Forall (fun e => proper (fst e)) (remove k' m).
Proof.
  intros Pk Pk' Pm. induction m as [|(k1, y) r IH]; cbn [PropKeys.remove filter].
  - split; [reflexivity|]. split; [reflexivity|constructor].
  - inversion Pm as [|? ? P1 Pr]; subst. cbn [fst] in *. destruct (IH Pr) as (A & B & C). clear IH. pose proof (hit finish E t k' k1 Pk' P1) as H1. pose proof (hit finish E t k k1 Pk P1) as H2.
    unfold PropKeys.remove in *. destruct ((finish (hv E t k1) =? finish (hv E t k'))%N && veqb k1 k') eqn:Q1; cbn [negb]; unfold PropKeys.get, get_by, probe in *; cbn [find fst];
      destruct ((finish (hv E t k1) =? finish (hv E t k))%N && veqb k1 k) eqn:Q2; cbn [option_map snd] in *.
    + split; [exact A|]. split; [|assumption]. intro N. exfalso. apply N. pose proof (proj1 H1 eq_refl). pose proof (proj1 H2 eq_refl). unfold same_tree in *. congruence.
    + split; [exact A|]. split; [exact B|assumption].
    + split; [|split; [reflexivity|constructor; assumption]]. intro S. exfalso. assert (same_tree k' k1) as S' by (pose proof (proj1 H2 eq_refl); unfold same_tree in *; congruence). apply H1 in S'. discriminate S'.
    + split; [exact A|]. split; [exact B|constructor; assumption].
Qed.
End Lookups.

(** ** C64 *)
(** Every value of a grammar's type has the Rust type. *)
Theorem C64_values_have_their_types : forall (U : unicode) E t v, typed E t v -> of_type E t v.
Proof. intros U E t v. apply typed_of_type. Qed.
(** Equal trees make the same calls to the hasher, whatever the hasher does with them ([k1 == k2 -> hash(k1) == hash(k2)]). *)
Theorem C64_equal_trees_same_calls : forall E t v w, of_type E t v -> of_type E t w -> veqb v w = true -> hv E t v = hv E t w.
Proof. intros E t v w Tv Tw. apply hv_equal; eapply of_type_proper; eassumption. Qed.
(** Trees of a type that are not equal feed different bytes to the hasher; moreover neither is a beginning of the other, so this
    holds for tuples and sequences of them, too. *)
Theorem C64_no_collisions : forall big E t v w a b, of_type E t v -> of_type E t w -> in_memory v -> in_memory w -> no_subnormal v -> no_subnormal w ->
  hash_bytes big (hv E t v) ++ a = hash_bytes big (hv E t w) ++ b -> veqb v w = true /\ a = b.
Proof.
  intros big E t v w a b Tv Tw Mv Mw Sv Sw H. destruct (hv_inj big E v t w a b Tv Tw Mv Mw Sv Sw H) as (H' & Hb). split; [|exact Hb]. apply veqb_bare; [eapply of_type_proper; exact Tv|eapply of_type_proper; exact Tw|exact H'].
Qed.
Corollary C64_same_hash_same_tree : forall big E t v w, of_type E t v -> of_type E t w -> in_memory v -> in_memory w -> no_subnormal v -> no_subnormal w ->
  hash_bytes big (hv E t v) = hash_bytes big (hv E t w) <-> veqb v w = true.
Proof.
  intros big E t v w Tv Tw Mv Mw Sv Sw. split; intro H.
  - apply (C64_no_collisions big E t v w [] []); try assumption. rewrite H. reflexivity.
  - f_equal. apply C64_equal_trees_same_calls; assumption.
Qed.
(** A [HashMap] with trees as keys, with any hasher, after any history, holds under a tree what was last put under that tree. *)
Theorem C64_hash_map : forall (finish : list call -> N) E t (V : Type) (ops : list (map_op V)) k, of_type E t k -> Forall (fun o => of_type E t (op_key o)) ops ->
  holds k ops (get finish E t k (run finish E t ops)).
Proof.
  intros finish E t V ops k Tk To. pose proof (of_type_proper _ _ _ Tk) as Pk.
  assert (G : holds k ops (get finish E t k (run finish E t ops)) /\ Forall (fun e => proper (fst e)) (run finish E t ops)); [|apply G].
  induction To as [|o ops T1 To (IH & Pm)]; [split; constructor|]. pose proof (of_type_proper _ _ _ T1) as P1. cbn [run fold_right] in *. fold (run finish E t ops) in *.
  destruct o as [k' x|k']; cbn [step op_key] in *.
  - destruct (get_insert finish E t k k' x _ Pk P1 Pm) as (A & B & C). split; [|exact C]. destruct (same_tree_dec k k' Pk P1) as [S|S]; [rewrite (A S); constructor; exact S|rewrite (B S); apply ho_other; [exact S|exact IH]].
  - destruct (get_remove finish E t k k' _ Pk P1 Pm) as (A & B & C). split; [|exact C]. destruct (same_tree_dec k k' Pk P1) as [S|S]; [rewrite (A S); constructor; exact S|rewrite (B S); apply ho_other; [exact S|exact IH]].
Qed.
(** ... and there is only one thing it can hold. *)
Theorem C64_holds_one : forall (V : Type) (ops : list (map_op V)) k x y, holds k ops x -> holds k ops y -> x = y.
Proof. induction ops as [|o ops IH]; intros k x y H H'; inversion H; subst; inversion H'; subst; cbn [op_key] in *; try reflexivity; try contradiction; eauto. Qed.

(** Looking up by a borrowed form of the key finds the same entry: [Borrow<$raw> for LitX] (ast.rs:2396-2400), [Borrow<str> for LitStr]
    (2747-2751), [Borrow<[u8]> for LitByteStr] (2833-2837): the hash and the comparison of the value itself. *)
Definition value_eq (l : lit) (k : val) : bool := match k with VLit m sp => node_eqb (m, sp) (l, call_site) | _ => false end.
Theorem C64_lookup_by_value : forall (finish : list call -> N) E (V : Type) (m : list (val * V)) l sp,
  get_by finish E (TyLit (litty_of l)) (h_lit l) (value_eq l) m = get finish E (TyLit (litty_of l)) (VLit l sp) m.
Proof.
  intros. unfold get, get_by, probe. cbn [hv unbox]. f_equal. induction m as [|(k, x) m IH]; [reflexivity|]. cbn [find fst]. rewrite IH.
  assert (Q : value_eq l k = veqb k (VLit l sp)) by (destruct k; reflexivity). rewrite Q. reflexivity.
Qed.
(** [Borrow<[T]>], [Borrow<Vec<T>> for Any<T>] (ast.rs:2187-2197): a slice hashes its length and its elements, and compares elementwise. *)
Definition h_slice (E : env) (t : ty) (l : list val) : list call := CUsize (List.length l) :: flat_map (hv E t) l.
Definition slice_eq (l : list val) (k : val) : bool := match k with VList l' => list_eqb veqb l' l | _ => false end.
Theorem C64_lookup_by_slice : forall (finish : list call -> N) E t (V : Type) (m : list (val * V)) l,
  get_by finish E (TyAny t) (h_slice E t l) (slice_eq l) m = get finish E (TyAny t) (VList l) m.
Proof.
  intros. unfold get, get_by, probe, h_slice. cbn [hv unbox]. rewrite flat_map_concat_map. f_equal. induction m as [|(k, x) m IH]; [reflexivity|]. cbn [find fst]. rewrite IH.
  assert (Q : slice_eq l k = veqb k (VList l)) by (destruct k; reflexivity). rewrite Q. reflexivity.
Qed.

(** ** [std::collections::BTreeMap<K, V>] (not in /repo), for types with [Ord].  Simplification: the entries in order, searched from the
    left; the tree above them only saves comparisons. *)
Section Ordered.
Context {V : Type}.
Fixpoint bt_get (k : val) (m : list (val * V)) : option V :=
  match m with [] => None | (k', x) :: r => match vcmp k k' with Some Eq => Some x | Some Lt => None | _ => bt_get k r end end.
Fixpoint bt_insert (k : val) (x : V) (m : list (val * V)) : list (val * V) :=
  match m with
  | [] => [(k, x)]
  | (k', y) :: r => match vcmp k k' with Some Eq => (k', x) :: r | Some Lt => (k, x) :: (k', y) :: r | _ => (k', y) :: bt_insert k x r end
  end.
Fixpoint bt_remove (k : val) (m : list (val * V)) : list (val * V) :=
  match m with
  | [] => []
  | (k', y) :: r => match vcmp k k' with Some Eq => r | Some Lt => (k', y) :: r | _ => (k', y) :: bt_remove k r end
  end.
Definition bt_step (o : map_op V) (m : list (val * V)) : list (val * V) := match o with Put k x => bt_insert k x m | Del k => bt_remove k m end.
Definition bt_run (ops : list (map_op V)) : list (val * V) := fold_right bt_step [] ops.
(** every key is less than all later ones *)
Inductive ascending : list (val * V) -> Prop :=
| as_nil : ascending []
| as_cons k x r : Forall (fun e => vcmp k (fst e) = Some Lt) r -> ascending r -> ascending ((k, x) :: r).
End Ordered.
(** the types that have [Ord]: identifiers, keywords, markers, literals other than [Lit], [Either], and derived types made of them *)
Fixpoint has_ord (t : ty) : bool :=
  match t with
  | TyIdent | TyCustomIdent _ | TyKeyword _ | TyLit _ | TyEmpty | TyEof | TyNotEof | TyRef _ => true
  | TyEither a b => has_ord a && has_ord b
  | TyBox a => has_ord a
  | _ => false
  end.
Definition all_ord (E : env) : Prop :=
  forall i, match E i with
            | DStruct c => forall f, In f (c_fields c) -> has_ord (snd f) = true
            | DEnum _ cs => forall c f, In c cs -> In f (c_fields c) -> has_ord (snd f) = true
            end.
Lemma has_ord_unbox t : has_ord (unbox t) = has_ord t.
Proof. induction t; cbn [unbox has_ord]; auto. Qed.
Lemma comparable E v : all_ord E -> forall t w, has_ord t = true -> of_type E t v -> of_type E t w -> vcmp v w <> None.
Proof.
  intro HE.
  assert (L : forall l, Forall (fun v => forall t w, has_ord t = true -> of_type E t v -> of_type E t w -> vcmp v w <> None) l -> forall fs l', (forall f, In f fs -> has_ord (snd f) = true) ->
    all2 (fun a x => of_type E a x) fs l -> all2 (fun a x => of_type E a x) fs l' -> lex_cmp (fun a b => vcmp a b) l l' <> None).
  { induction 1 as [|x l Hx Hl IH]; intros [|f fs] [|y l'] Ho T T'; cbn [all2] in T, T'; try contradiction; try discriminate T; try discriminate T'; cbn [lex_cmp]; try discriminate.
    destruct T as (Tx & T), T' as (Ty & T'). pose proof (Hx (snd f) y (Ho f (or_introl eq_refl)) Tx Ty) as C. destruct (vcmp x y) as [[]|]; try discriminate; [|congruence]. apply (IH fs); auto. intros g Hg. apply Ho. right. exact Hg. }
  induction v as [n sp|k sp|op sps|l sp| | |x y IHx IHy|d sp x IHx|inner last IHi IHl|l IHl|l o r IH1 IH2 IH3|x IHx|l o r IH1 IH2 IH3|x IHx|x IHx|x IHx|l IHl|k l IHl] using val_ind'; intros t w Ho Tv Tw;
    rewrite <- has_ord_unbox in Ho; cbn [of_type] in Tv; destruct (unbox t) eqn:Ut; try contradiction; try (destruct Tv; contradiction); try discriminate Ho;
    destruct w; cbn [of_type] in Tw; rewrite Ut in Tw; try contradiction; try (destruct Tw; contradiction); cbn [vcmp]; try discriminate.
  - subst. assert (R : text_eqb kw kw = true) by (apply text_eqb_eq; reflexivity). rewrite R. discriminate.
  - destruct Tv as (_ & Tv), Tw as (_ & Tw). rewrite <- Tw in Tv. unfold node_cmp. cbn [fst]. destruct l, l0; try discriminate Tv; discriminate.
  - cbn [has_ord] in Ho. apply andb_true_iff in Ho as (A & B). eapply IHx; [exact A|exact Tv|exact Tw].
  - cbn [has_ord] in Ho. apply andb_true_iff in Ho as (A & B). eapply IHx; [exact B|exact Tv|exact Tw].
  - specialize (HE i). destruct (E i) as [c|en cs]; [|contradiction]. eapply L; eassumption.
  - specialize (HE i). destruct (E i); contradiction.
  - specialize (HE i). destruct (E i); contradiction.
  - specialize (HE i). destruct (E i) as [c|en cs]; [contradiction|]. destruct (Nat.compare_spec k k0) as [->| |]; try discriminate.
    destruct (nth_error cs k0) as [c|] eqn:Nc; [|contradiction]. apply nth_error_In in Nc. eapply L; [exact IHl|intros f Hf; exact (HE c f Nc Hf)|exact Tv|exact Tw].
Qed.
Section OrderedFacts.
Context (K : val -> Prop) (HK : forall v w, K v -> K w -> vcmp v w <> None) (HP : forall v, K v -> proper v) {V : Type}.
Notation keys_ok m := (Forall (fun e : val * V => K (fst e)) m).
Lemma cmp_same k k' : K k -> K k' -> vcmp k k' = Some Eq <-> same_tree k k'.
Proof. intros A B. rewrite (vcmp_eqb k k' (HK _ _ A B)). apply veqb_bare; apply HP; assumption. Qed.
Lemma lt_trans x y z : vcmp x y = Some Lt -> vcmp y z = Some Lt -> vcmp x z = Some Lt.
Proof. intros A B. exact (vcmp_through x y z Lt Lt Lt A B eq_refl). Qed.
Lemma gt_lt x y : vcmp x y = Some Gt -> vcmp y x = Some Lt.
Proof. intro H. rewrite vcmp_opp, H. reflexivity. Qed.
Lemma not_below k (m : list (val * V)) : Forall (fun e => vcmp k (fst e) = Some Lt) m -> bt_get k m = None.
Proof. destruct m as [|(k', x) r]; [reflexivity|]. intro H. inversion H as [|? ? A B]; subst. cbn [bt_get fst] in *. rewrite A. reflexivity. Qed.
Lemma bt_get_insert k k' x (m : list (val * V)) : K k -> K k' -> keys_ok m -> ascending m ->
  (same_tree k k' -> bt_get k (bt_insert k' x m) = Some x) /\ (~ same_tree k k' -> bt_get k (bt_insert k' x m) = bt_get k m) /\ keys_ok (bt_insert k' x m) /\ ascending (bt_insert k' x m) /\
  (forall j, vcmp j k' = Some Lt -> Forall (fun e => vcmp j (fst e) = Some Lt) m -> Forall (fun e => vcmp j (fst e) = Some Lt) (bt_insert k' x m)).
Proof.
  intros Pk Pk' Pm Am. induction m as [|(k1, y) r IH]; cbn [bt_insert].
  - split; [intro S; cbn [bt_get]; apply (cmp_same k k' Pk Pk') in S; rewrite S; reflexivity|].
    split; [intro N; cbn [bt_get]; pose proof (proj1 (cmp_same k k' Pk Pk')) as Q; destruct (vcmp k k') as [[]|]; try reflexivity; exfalso; apply N, Q; reflexivity|].
    split; [repeat constructor; assumption|]. split; [repeat constructor|]. intros j Hj _. repeat constructor. exact Hj.
  - inversion Pm as [|? ? P1 Pr]; subst. inversion Am as [|? ? ? Hlt Ar]; subst. cbn [fst] in P1. destruct (IH Pr Ar) as (A & B & C & D & F). clear IH. pose proof (HK k' k1 Pk' P1) as N1. pose proof (HK k k1 Pk P1) as N2.
    destruct (vcmp k' k1) as [[]|] eqn:Q1; [| | |congruence].
    + pose proof (proj1 (cmp_same k' k1 Pk' P1) Q1) as S1. split; [|split; [|split; [constructor; assumption|split; [constructor; assumption|]]]].
      * intro S. cbn [bt_get]. assert (S' : same_tree k k1) by (unfold same_tree in *; congruence). apply (cmp_same k k1 Pk P1) in S'. rewrite S'. reflexivity.
      * intro N. cbn [bt_get]. destruct (vcmp k k1) as [[]|] eqn:Q2; try reflexivity. exfalso. apply N. apply (cmp_same k k1 Pk P1) in Q2. unfold same_tree in *. congruence.
      * intros j Hj Hm. inversion Hm; subst. constructor; assumption.
    + split; [|split; [|split; [constructor; [exact Pk'|assumption]|split]]].
      * intro S. cbn [bt_get]. apply (cmp_same k k' Pk Pk') in S. rewrite S. reflexivity.
      * intro N. cbn [bt_get]. destruct (vcmp k k') as [[]|] eqn:Q3.
        -- exfalso. apply N. apply (cmp_same k k' Pk Pk'). exact Q3.
        -- rewrite (lt_trans _ _ _ Q3 Q1). reflexivity.
        -- reflexivity.
        -- reflexivity.
      * constructor; [|exact Am]. constructor; [exact Q1|]. eapply Forall_impl; [|exact Hlt]. intros e He. eapply lt_trans; eassumption.
      * intros j Hj Hm. constructor; [exact Hj|exact Hm].
    + split; [|split; [|split; [constructor; assumption|split]]].
      * intro S. cbn [bt_get]. assert (Q : vcmp k k1 = Some Gt) by (apply (cmp_same k k' Pk Pk') in S; exact (vcmp_through k k' k1 Eq Gt Gt S Q1 eq_refl)). rewrite Q. apply A. exact S.
      * intro N. cbn [bt_get]. destruct (vcmp k k1) as [[]|]; try reflexivity; apply B; exact N.
      * constructor; [|exact D]. apply F; [apply gt_lt; exact Q1|exact Hlt].
      * intros j Hj Hm. inversion Hm; subst. constructor; [assumption|]. apply F; assumption.
Qed.
Lemma bt_get_remove k k' (m : list (val * V)) : K k -> K k' -> keys_ok m -> ascending m ->
  (same_tree k k' -> bt_get k (bt_remove k' m) = None) /\ (~ same_tree k k' -> bt_get k (bt_remove k' m) = bt_get k m) /\ keys_ok (bt_remove k' m) /\ ascending (bt_remove k' m) /\
  (forall j, Forall (fun e => vcmp j (fst e) = Some Lt) m -> Forall (fun e => vcmp j (fst e) = Some Lt) (bt_remove k' m)).
Proof.
  intros Pk Pk' Pm Am. induction m as [|(k1, y) r IH]; cbn [bt_remove].
  - split; [reflexivity|]. split; [reflexivity|]. split; [constructor|]. split; [constructor|]. auto.
  - inversion Pm as [|? ? P1 Pr]; subst. inversion Am as [|? ? ? Hlt Ar]; subst. cbn [fst] in P1. destruct (IH Pr Ar) as (A & B & C & D & F). clear IH. pose proof (HK k' k1 Pk' P1) as N1. pose proof (HK k k1 Pk P1) as N2.
    destruct (vcmp k' k1) as [[]|] eqn:Q1; [| | |congruence].
    + pose proof (proj1 (cmp_same k' k1 Pk' P1) Q1) as S1. split; [|split; [|split; [assumption|split; [assumption|intros j Hj; inversion Hj; assumption]]]].
      * intro S. apply not_below. apply (cmp_same k k' Pk Pk') in S. pose proof (vcmp_through k k' k1 Eq Eq Eq S Q1 eq_refl) as S2. eapply Forall_impl; [|exact Hlt]. intros e He. exact (vcmp_through k k1 (fst e) Eq Lt Lt S2 He eq_refl).
      * intro N. cbn [bt_get]. destruct (vcmp k k1) as [[]|] eqn:Q2; try reflexivity.
        -- exfalso. apply N. apply (cmp_same k k1 Pk P1) in Q2. unfold same_tree in *. congruence.
        -- apply not_below. eapply Forall_impl; [|exact Hlt]. intros e He. eapply lt_trans; eassumption.
    + split; [|split; [reflexivity|split; [assumption|split; [assumption|auto]]]].
      intro S. cbn [bt_get]. apply (cmp_same k k' Pk Pk') in S. rewrite (vcmp_through k k' k1 Eq Lt Lt S Q1 eq_refl). reflexivity.
    + split; [|split; [|split; [constructor; assumption|split]]].
      * intro S. cbn [bt_get]. assert (Q : vcmp k k1 = Some Gt) by (apply (cmp_same k k' Pk Pk') in S; exact (vcmp_through k k' k1 Eq Gt Gt S Q1 eq_refl)). rewrite Q. apply A. exact S.
      * intro N. cbn [bt_get]. destruct (vcmp k k1) as [[]|]; try reflexivity; apply B; exact N.
      * constructor; [|exact D]. apply F. exact Hlt.
      * intros j Hm. inversion Hm; subst. constructor; [assumption|]. apply F; assumption.
Qed.
End OrderedFacts.
(** A [BTreeMap] with trees of an ordered type as keys, after any history, holds under a tree what was last put under that tree, and lists
    its keys in ascending order ([less], PropOrder.v, says which). *)
Theorem C64_btree_map : forall E t (V : Type) (ops : list (map_op V)) k, all_ord E -> has_ord t = true -> of_type E t k -> Forall (fun o => of_type E t (op_key o)) ops ->
  holds k ops (bt_get k (bt_run ops)) /\ ascending (bt_run ops).
Proof.
  intros E t V ops k HE Ho Tk To.
  assert (HK : forall v w, of_type E t v -> of_type E t w -> vcmp v w <> None) by (intros v w; apply (comparable E v HE t w Ho)).
  assert (HP : forall v, of_type E t v -> proper v) by (intros v; apply of_type_proper).
  assert (G : holds k ops (bt_get k (bt_run ops)) /\ ascending (bt_run ops) /\ Forall (fun e => of_type E t (fst e)) (bt_run ops)); [|split; apply G].
  induction To as [|o ops T1 To (IH & Am & Pm)]; [split; [constructor|split; constructor]|]. cbn [bt_run fold_right] in *. fold (bt_run ops) in *.
  destruct o as [k' x|k']; cbn [bt_step op_key] in *.
  - destruct (bt_get_insert (of_type E t) HK HP k k' x _ Tk T1 Pm Am) as (A & B & C & D & _). split; [|split; assumption].
    destruct (same_tree_dec k k' (HP _ Tk) (HP _ T1)) as [S|S]; [rewrite (A S); constructor; exact S|rewrite (B S); apply ho_other; [exact S|exact IH]].
  - destruct (bt_get_remove (of_type E t) HK HP k k' _ Tk T1 Pm Am) as (A & B & C & D & _). split; [|split; assumption].
    destruct (same_tree_dec k k' (HP _ Tk) (HP _ T1)) as [S|S]; [rewrite (A S); constructor; exact S|rewrite (B S); apply ho_other; [exact S|exact IH]].
Qed.
(** ... and each tree once: no two keys are equal. *)
Theorem C64_no_duplicate_keys : forall (V : Type) (m : list (val * V)) a k x b k' y c, ascending m -> m = a ++ (k, x) :: b ++ (k', y) :: c -> veqb k k' = false.
Proof.
  intros V m a k x b k' y c Am. revert a. induction Am as [|k1 x1 r Hlt Am IH]; intros a Q; [destruct a; discriminate Q|]. destruct a as [|e a]; cbn [app] in Q.
  - injection Q as -> -> ->. rewrite Forall_forall in Hlt. specialize (Hlt (k', y) ltac:(apply in_or_app; right; left; reflexivity)). cbn [fst] in Hlt.
    destruct (veqb k k') eqn:H; [|reflexivity]. apply vcmp_eqb in H; [congruence|rewrite Hlt; discriminate].
  - injection Q as _ Q. exact (IH a Q).
Qed.

(** ** Limits and examples *)
(** The hash of a subnormal double does not contain its highest digit: 2^-1074 and 2^-1074 + 2^-1023 are different keys with
    the same hash, under every hasher. *)
Theorem C64_subnormal_refuted : exists x y, let v := VLit (LFloat x) call_site in let w := VLit (LFloat y) call_site in
  of_type (fun _ => DStruct (Ctor [] [])) (TyLit LtFloat) v /\ of_type (fun _ => DStruct (Ctor [] [])) (TyLit LtFloat) w /\ in_memory v /\ in_memory w /\
  veqb v w = false /\ hv (fun _ => DStruct (Ctor [] [])) (TyLit LtFloat) v = hv (fun _ => DStruct (Ctor [] [])) (TyLit LtFloat) w.
Proof. exists (FFin false 1 emin), (FFin false 2251799813685249 emin). vm_compute. repeat split. Qed.
(** Without their types, trees do collide: [Maybe] absent, and the first variant of an [enum] of two. *)
Example C64_ex_types_matter : hv (fun _ => DEnum (T "E") [Ctor (T "A") []; Ctor (T "B") []]) (TyMaybe TyIdent TyEmpty) VNothing =
  hv (fun _ => DEnum (T "E") [Ctor (T "A") []; Ctor (T "B") []]) (TyRef 0) (VVariant 0 []).
Proof. reflexivity. Qed.
(** struct Key(Any<Ident>, Maybe<Token![:], Lit>): two keys and their bytes *)
Definition key_env : env := fun _ => DStruct (Ctor (T "Key") [(LIndex 0, TyAny TyIdent); (LIndex 1, TyMaybe (TyToken (T ":")) TyAnyLit)]).
Definition key1 : val := VStruct [VList [VIdent (T "ab") (sp 0 2); VIdent (T "c") (sp 3 4)]; VJust (VOp (T ":") [sp 5 6]) (VLit (LUint 258) (sp 7 10))].
Definition key2 : val := VStruct [VList [VIdent (T "a") (sp 0 2); VIdent (T "bc") (sp 3 4)]; VJust (VOp (T ":") [sp 5 6]) (VLit (LUint 258) (sp 7 10))].
Definition key3 : val := VStruct [VList [VIdent (T "ab") (sp 10 12); VIdent (T "c") (sp 13 14)]; VJust (VOp (T ":") [sp 15 16]) (VLit (LUint 258) (sp 17 20))].
Example C64_ex_typed : of_type key_env (TyRef 0) key1 /\ of_type key_env (TyRef 0) key2 /\ of_type key_env (TyRef 0) key3 /\ in_memory key1 /\ in_memory key2 /\ no_subnormal key1 /\ no_subnormal key2.
Proof.
  assert (V : lit_valid (LUint 258)) by (split; vm_compute; discriminate). assert (F : fits 2) by reflexivity.
  assert (T : forall n m s1 s2 s3 s4, of_type key_env (TyRef 0) (VStruct [VList [VIdent n s1; VIdent m s2]; VJust (VOp (T ":") [s3]) (VLit (LUint 258) s4)])).
  { intros. change (all2 (fun a x => of_type key_env a x) (c_fields (Ctor (T "Key") [(LIndex 0, TyAny TyIdent); (LIndex 1, TyMaybe (TyToken (T ":")) TyAnyLit)])) [VList [VIdent n s1; VIdent m s2]; VJust (VOp (T ":") [s3]) (VLit (LUint 258) s4)]).
    cbn [all2 c_fields snd of_type unbox all]. auto 10. }
  assert (S : forall x, Forall (fun l => ~ subnormal l) [LUint x]) by (intro x; constructor; [exact (fun Q => Q)|constructor]).
  split; [apply T|]. split; [apply T|]. split; [apply T|]. split; [cbn [in_memory key1 all List.length]; auto 10|]. split; [cbn [in_memory key2 all List.length]; auto 10|]. split; apply S.
Qed.
Example C64_ex_bytes : hash_bytes false (hv key_env (TyRef 0) key1) =
  [2;0;0;0;0;0;0;0; 97;98;255; 99;255; 1;0;0;0;0;0;0;0; 3;0;0;0;0;0;0;0; 2;1;0;0;0;0;0;0]%N.
Proof. reflexivity. Qed.
Example C64_ex_differ : hash_bytes false (hv key_env (TyRef 0) key1) <> hash_bytes false (hv key_env (TyRef 0) key2) /\ hv key_env (TyRef 0) key1 = hv key_env (TyRef 0) key3.
Proof. split; [discriminate|reflexivity]. Qed.
(** with a hasher that maps everything to zero *)
Example C64_ex_map : get (fun _ => 0%N) key_env (TyRef 0) key3 (run (fun _ => 0%N) key_env (TyRef 0) [Put key2 20; Put key1 10]) = Some 10 /\
  get (fun _ => 0%N) key_env (TyRef 0) key1 (run (fun _ => 0%N) key_env (TyRef 0) [Del key3; Put key2 20; Put key1 10]) = None.
Proof. split; reflexivity. Qed.
(** ordered keys: string literals in the order of their bytes *)
Definition by_str (s : text) : val := VLit (LStr s) call_site.
Definition some_history : list (map_op nat) := [Put (by_str (T "b")) 1; Put (by_str (T "a")) 2; Del (by_str (T "c")); Put (by_str (T "c")) 3; Put (by_str (T "b")) 4].
Example C64_ex_btree : map fst (bt_run some_history) = [by_str (T "a"); by_str (T "b")] /\ bt_get (VLit (LStr (T "b")) (sp 3 6)) (bt_run some_history) = Some 1.
Proof. split; reflexivity. Qed.
Example C64_ex_ord : all_ord (fun _ => DEnum (T "E") [Ctor (T "A") [(LIndex 0, TyIdent); (LIndex 1, TyBox (TyRef 0))]; Ctor (T "B") [(LIndex 0, TyLit LtStr)]]) /\ has_ord (TyRef 0) = true.
Proof. split; [|reflexivity]. intros i c f [<-|[<-|[]]] Hf; cbn [c_fields In] in Hf; repeat destruct Hf as [<-|Hf]; try reflexivity; contradiction. Qed.
Example C64_ex_by_str : get_by (fun c => N.of_nat (List.length c)) key_env (TyLit LtStr) (h_str (T "x")) (value_eq (LStr (T "x"))) [(VLit (LStr (T "x")) (sp 3 6), 1)] = Some 1.
Proof. reflexivity. Qed.

Print Assumptions C64_values_have_their_types.
Print Assumptions C64_equal_trees_same_calls.
Print Assumptions C64_no_collisions.
Print Assumptions C64_same_hash_same_tree.
Print Assumptions C64_hash_map.
Print Assumptions C64_holds_one.
Print Assumptions C64_lookup_by_value.
Print Assumptions C64_lookup_by_slice.
Print Assumptions C64_btree_map.
Print Assumptions C64_no_duplicate_keys.
Print Assumptions C64_subnormal_refuted.
