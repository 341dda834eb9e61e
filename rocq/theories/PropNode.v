(** * C49: every node of a parsed value knows where it comes from *)
From Verif Require Import Base Float Literal Syn Ast Derive Grammar Spec LitSpec Reprint SynFacts RoundFacts Sound Tree Examples PropRoundtrip
  Fmt Lexer Offsets PropSpan LexFacts LexWf LexOut LexRun PropLex LexPrint LexLit Writable PropStr NodeSpan.
Local Open Scope nat_scope.

(** ** Any stream: the value is a syntax tree of what was consumed.  Groups may have unread tokens only if leftovers are
    recorded (then any whole-input parse fails, C11). *)
Theorem C49_value_is_a_tree_of_its_tokens : forall (U : unicode) E t s v s' ts, yes (tbeh E t) s v s' -> lits_ok (ps_rest s) -> print v = Some ts ->
  exists consumed, flat (ps_rest s) = consumed ++ flat (ps_rest s') /\ tree (fun left => ps_unexp s' = None -> left = []) consumed v.
Proof. intros U E t s v s' ts H Hl Hp. exact (parsed_tree E t s v s' ts H Hl Hp). Qed.
(** In a tree every part, at any depth, is made of a contiguous run of tokens, and prints as that run. *)
Theorem C49_every_part_has_its_tokens : forall (U : unicode) L a v u, tree L a v -> part u v ->
  exists b us, segment b a /\ tree L b u /\ print u = Some us /\ reprints loose L b us.
Proof.
  intros U L a v u H Hu. destruct (tree_part L u v Hu a H) as (b & Hb & Ht). destruct (proj1 (tree_print L) b u Ht) as (us & Hp & R). exists b, us. auto.
Qed.
Print Assumptions C49_value_is_a_tree_of_its_tokens.
Print Assumptions C49_every_part_has_its_tokens.

Section Text.
Context {U : unicode} (sane : sane_tables U).
Variables (E : env) (t : ty) (file : nat) (src : text) (v : val).
Hypothesis valid : forallb valid_char src = true.
Hypothesis parsed : from_str E t file src v.
Hypothesis printable : print v <> None.

Lemma text_tree : exists ts, lex file src = LOk ts /\ tree nothing ts v /\ placed file src (start_of src) (List.length src) ts.
Proof.
  apply from_str_parses in parsed as (ts & Hlex & (n & Hp)). exists ts. split; [exact Hlex|].
  destruct (lex_out sane file src ts valid Hlex) as (Hw & Hpl). split; [|exact Hpl]. apply parse2_ok in Hp as (s' & Hp & Hu & Hr).
  destruct (print v) as [us|] eqn:Ev; [|congruence]. destruct (parsed_tree E t (start ts) v s' us) as (c & Ec & T); [exists n; exact Hp|exact (lexed_lits_ok sane file src ts valid Hlex)|exact Ev|].
  rewrite Hr, app_nil_r in Ec. cbn [start ps_rest] in Ec. rewrite (visible_flat ts (wf_visible ts Hw)) in Ec. subst c.
  eapply (proj1 (tree_mono _ _ _)). exact T. Unshelve. intros x Hx. exact (Hx Hu).
Qed.
Lemma part_span a u : tree nothing a u -> forall la lb hi, located file src la lb hi a ->
  exists us, print u = Some us /\ reprints loose nothing a us /\ (a = [] <-> us = []) /\
    forall lo h, extent src a lo h -> covers src (join_spans us) lo h /\ sp_file (join_spans us) = file.
Proof.
  intros T la lb hi K. destruct (proj1 (tree_print nothing) a u T) as (us & Hp & R). exists us. split; [exact Hp|]. split; [exact R|]. split.
  - split; [intros ->; inversion R; reflexivity|intros ->; inversion R; reflexivity].
  - intros lo h X. apply (located_join file src la lb hi us lo h); [exact (reprints_located file src _ _ _ _ R _ _ _ K)|exact (reprints_extent file src _ _ _ _ _ _ _ _ _ R K X)].
Qed.

(** The whole value is a tree of the tokens of the text. *)
Theorem C49_tree_of_the_text : exists ts, lex file src = LOk ts /\ tree nothing ts v.
Proof. destruct text_tree as (ts & H & T & _). eauto. Qed.
(** Every part of the value consists of a contiguous run [a] of tokens of the text.  If that run is not empty, the span of the
    part is exactly from the start of the first to the end of the last token; so [source_substring], [byte_range] and
    [char_range] are those of this piece of the text, and nothing panics. *)
Theorem C49_span_of_a_part : forall u, part u v -> exists ts a us, lex file src = LOk ts /\ segment a ts /\
  print u = Some us /\ reprints loose nothing a us /\
  (a = [] -> us = [] /\ node_span u = Some call_site) /\
  (a <> [] -> exists lo hi sp, lo < hi <= List.length src /\ extent src a lo hi /\ node_span u = Some sp /\ sp_file sp = file /\ covers src sp lo hi /\
     node_source src u = Some (substring src lo hi) /\ node_chars src u = Some (lo, hi) /\
     node_bytes src u = Some (bytes_before src lo, bytes_before src hi)).
Proof.
  intros u Hu. destruct text_tree as (ts & Hlex & T & P). exists ts. destruct (tree_part _ u v Hu ts T) as (a & Ha & Ta). pose proof (placed_located _ _ _ _ _ P) as K.
  pose proof (located_segment _ _ _ _ Ha _ _ _ (le_n _) K) as Ka. destruct (part_span a u Ta _ _ _ Ka) as (us & Hp & R & He & Hs). exists a, us. split; [exact Hlex|]. split; [exact Ha|]. split; [exact Hp|]. split; [exact R|].
  unfold node_source, node_chars, node_bytes, node_span. rewrite Hp. cbn [option_map]. split.
  - intro Hn. apply He in Hn as ->. split; reflexivity.
  - intro Hn. destruct (located_extent _ _ _ _ _ _ Ka Hn) as (lo & hi & L1 & L2 & L3 & X). destruct (Hs lo hi X) as (C & F). destruct (C33_ranges_are_the_extent _ _ _ _ C) as (R1 & R2 & R3).
    exists lo, hi, (join_spans us). rewrite R1, R2, R3. repeat split; try assumption; try lia; apply C.
Qed.
(** A part lies inside what it is part of. *)
Theorem C49_parts_lie_inside : forall u w, part w v -> part u w -> print u <> Some [] ->
  exists lo hi lo' hi', node_chars src w = Some (lo, hi) /\ node_chars src u = Some (lo', hi') /\ lo <= lo' < hi' /\ hi' <= hi <= List.length src.
Proof.
  intros u w Hw Hu Hne. destruct text_tree as (ts & Hlex & T & P). destruct (tree_part _ w v Hw ts T) as (a & Ha & Ta). destruct (tree_part _ u w Hu a Ta) as (b & Hb & Tb).
  pose proof (located_segment _ _ _ _ Ha _ _ _ (le_n _) (placed_located _ _ _ _ _ P)) as Ka. assert (Hbn : b <> []).
  { intros ->. apply Hne. destruct (proj1 (tree_print nothing) _ u Tb) as (us & Hp & R). inversion R; subst. exact Hp. }
  assert (Han : a <> []). { intros ->. inversion Hb as [p q E'|p d sp l q H' E']; [|destruct p; discriminate]. destruct p; [|discriminate]. destruct b; [contradiction|discriminate]. }
  destruct (located_extent _ _ _ _ _ _ Ka Han) as (lo & hi & L1 & L2 & L3 & X). pose proof (located_tight _ _ _ _ _ _ _ _ Ka X) as Kt.
  pose proof (located_segment _ _ _ _ Hb _ _ _ (le_n _) Kt) as Kb. destruct (located_extent _ _ _ _ _ _ Kb Hbn) as (lo' & hi' & M1 & M2 & M3 & Y).
  destruct (part_span a w Ta _ _ _ Ka) as (us & Hp & _ & _ & Hs). destruct (part_span b u Tb _ _ _ Kb) as (us' & Hp' & _ & _ & Hs').
  destruct (C33_ranges_are_the_extent _ _ _ _ (proj1 (Hs lo hi X))) as (R1 & _). destruct (C33_ranges_are_the_extent _ _ _ _ (proj1 (Hs' lo' hi' Y))) as (R1' & _).
  exists lo, hi, lo', hi'. unfold node_chars, node_span. rewrite Hp, Hp'. cbn [option_map]. rewrite R1, R1'. repeat split; lia.
Qed.
(** Fields, items and operands that print something are in the text in their order; unless the text has a number sign (an
    attribute or a doc comment, whose tokens all have the span of the comment), each ends before the next one starts. *)
Lemma trees_two L vs1 x vs2 y vs3 : forall a, trees L a (vs1 ++ x :: vs2 ++ y :: vs3) -> exists p ax q ay r, a = p ++ ax ++ q ++ ay ++ r /\ tree L ax x /\ tree L ay y.
Proof.
  intros a H. apply trees_app_inv in H as (p & b & -> & _ & H). inversion H as [|ax x' c vs' Hx Hc]; subst. apply trees_app_inv in Hc as (q & d & -> & _ & Hd). inversion Hd as [|ay y' r vs' Hy Hr]; subst.
  exists p, ax, q, ay, r. auto.
Qed.
Theorem C49_siblings_are_in_order : forall w vs1 x vs2 y vs3, part w v -> children w = vs1 ++ x :: vs2 ++ y :: vs3 -> print x <> Some [] -> print y <> Some [] ->
  exists a b c d, node_chars src x = Some (a, b) /\ node_chars src y = Some (c, d) /\ a < b /\ c < d /\ a <= c /\ b <= d /\
    ((forall ts g sp, lex file src = LOk ts -> ~ within (TPunct 35 g sp) ts) -> b <= c).
Proof.
  intros w vs1 x vs2 y vs3 Hw Hc Hx Hy. destruct text_tree as (ts & Hlex & T & P). destruct (tree_part _ w v Hw ts T) as (a & Ha & Ta).
  assert (Two : exists a', segment a' ts /\ exists p ax q ay r, a' = p ++ ax ++ q ++ ay ++ r /\ tree nothing ax x /\ tree nothing ay y).
  { destruct Ta as [a w us Hl Hp R|d sp i left z Ht HL|a w Hl Hg Ht].
    - destruct w; try discriminate Hl; destruct vs1; discriminate Hc.
    - destruct vs1 as [|? vs1]; [|destruct vs1; discriminate Hc]. destruct vs2; discriminate Hc.
    - exists a. split; [exact Ha|]. rewrite Hc in Ht. exact (trees_two _ _ _ _ _ _ _ Ht). }
  destruct Two as (a' & Ha' & p & ax & q & ay & r & -> & Tx & Ty).
  assert (Sub : segment (ax ++ q ++ ay) ts). { eapply segment_trans; [|exact Ha']. replace (p ++ ax ++ q ++ ay ++ r) with (p ++ (ax ++ q ++ ay) ++ r) by (rewrite <- !app_assoc; reflexivity). constructor. }
  assert (Hne : forall z l, tree nothing l z -> print z <> Some [] -> l <> []). { intros z l Tz Hz ->. apply Hz. destruct (proj1 (tree_print nothing) _ z Tz) as (us & Hp & R). inversion R; subst. exact Hp. }
  pose proof (located_segment _ _ _ _ Sub _ _ _ (le_n _) (placed_located _ _ _ _ _ P)) as K. destruct (located_app _ _ _ _ _ _ _ K) as (Kx & Kr). destruct (located_app _ _ _ _ _ _ _ Kr) as (_ & Ky).
  destruct (located_extent _ _ _ _ _ _ Kx (Hne _ _ Tx Hx)) as (a1 & b1 & L1 & L2 & L3 & X). destruct (located_extent _ _ _ _ _ _ Ky (Hne _ _ Ty Hy)) as (c1 & d1 & M1 & M2 & M3 & Y).
  assert (Axy : located file src (start_of src) (start_of src) (List.length src) (ax ++ ay) -> a1 <= c1 /\ b1 <= d1) by (intro G; exact (located_order _ _ _ _ _ _ _ _ _ _ _ G X Y)).
  assert (G : located file src (start_of src) (start_of src) (List.length src) (ax ++ ay)). { exact (located_remove _ _ _ _ _ ax q ay K). }
  destruct (Axy G) as (O1 & O2).
  destruct (part_span ax x Tx _ _ _ Kx) as (us & Hp & _ & _ & Hs). destruct (part_span ay y Ty _ _ _ Ky) as (us' & Hp' & _ & _ & Hs').
  destruct (C33_ranges_are_the_extent _ _ _ _ (proj1 (Hs _ _ X))) as (R1 & _). destruct (C33_ranges_are_the_extent _ _ _ _ (proj1 (Hs' _ _ Y))) as (R1' & _).
  exists a1, b1, c1, d1. unfold node_chars, node_span. rewrite Hp, Hp'. cbn [option_map]. rewrite R1, R1'. repeat (split; [reflexivity || lia|]).
  intro Hn. pose proof (strictly_segment _ _ _ Sub _ (placed_strictly _ _ _ _ _ P (fun g sp => Hn ts g sp Hlex))) as St.
  exact (strictly_order _ _ _ _ _ _ _ _ (strictly_remove _ _ _ _ _ St) X Y).
Qed.
(** The whole value covers the text except for white space and comments at its ends. *)
Theorem C49_whole_text : print v <> Some [] -> exists lo hi, lo < hi <= List.length src /\ node_source src v = Some (substring src lo hi) /\ node_chars src v = Some (lo, hi) /\
  blank (substring src (start_of src) lo) (skipn lo src) /\ blank (skipn hi src) [].
Proof.
  intro Hne. destruct text_tree as (ts & Hlex & T & P). pose proof (placed_located _ _ _ _ _ P) as K. destruct (part_span ts v T _ _ _ K) as (us & Hp & _ & He & Hs).
  destruct (placed_extent _ _ _ _ _ P) as (lo & hi & L1 & L2 & X & B1 & B2); [intros ->; apply Hne; rewrite Hp; f_equal; apply He; reflexivity|].
  destruct (C33_ranges_are_the_extent _ _ _ _ (proj1 (Hs _ _ X))) as (R1 & R2 & R3). exists lo, hi. unfold node_source, node_chars, node_span. rewrite Hp. cbn [option_map]. rewrite R1, R3. repeat split; try lia; [exact B1|].
  rewrite skipn_all in B2. unfold substring in B2. rewrite firstn_all2 in B2; [exact B2|]. rewrite skipn_length. lia.
Qed.
End Text.
Print Assumptions C49_tree_of_the_text.
Print Assumptions C49_span_of_a_part.
Print Assumptions C49_parts_lie_inside.
Print Assumptions C49_siblings_are_in_order.
Print Assumptions C49_whole_text.

(** ** Examples: the documentation of [byte_range] and [char_range] (parsel/src/util.rs:116-165), of [SpanDisplay]
    (parsel/src/util.rs:231-263; the [TokenStream] after the colon is read as words with slashes), and a text with comments. *)
Local Existing Instance Examples.ascii_only.
Definition doc_source : text :=
  [10%N] ++ T "   -3.667" ++ [10%N] ++ T "  1248  " ++ [34%N] ++ T "string " ++ [369%N] ++ T " literal" ++ [34; 10]%N ++ T "      " ++ [34%N] ++ T "w" ++ [237; 337]%N ++ T "zs" ++ [34; 10]%N.
Definition no_defs : env := fun _ => DStruct (Ctor [] []).
Example C49_ex_ranges : exists v us, from_str no_defs (TyMany TyAnyLit) 1 doc_source v /\ forallb valid_char doc_source = true /\ print v = Some us /\
  map (node_bytes doc_source) (filter is_leaf (children v)) = [Some (4, 10); Some (13, 17); Some (19, 38); Some (45, 54)] /\
  map (node_chars doc_source) (filter is_leaf (children v)) = [Some (4, 10); Some (13, 17); Some (19, 37); Some (44, 51)].
Proof. eexists. eexists. split; [exists 7; vm_compute; reflexivity|]. repeat split; vm_compute; reflexivity. Qed.
Definition header : env := fun _ => DStruct (Ctor (T "HttpHeader")
  [(LName (T "key"), TySeparated (TyCustomIdent []) (TyToken (T "-"))); (LName (T "colon"), TyToken (T ":")); (LName (T "value"), TySeparated (TyCustomIdent []) (TyToken (T "/")))]).
Definition header_source : text :=
  [10%N] ++ T "    // this comment exists only so that there is a line before the actual tokens" ++ [10%N] ++ T "    Content-Type: application/json" ++ [10%N] ++
  T "    /* another comment, just to confuse the lexer */" ++ [10%N].
Example C49_ex_display : exists v us, from_str header (TyRef 0) 1 header_source v /\ forallb valid_char header_source = true /\ print v = Some us /\
  map (fun u => option_map span_display (node_span u)) (children v) = [Some (T "3:5..3:16"); Some (T "3:17..3:17"); Some (T "3:19..3:34")] /\
  map (node_source header_source) (children v) = [Some (T "Content-Type"); Some (T ":"); Some (T "application/json")] /\
  node_source header_source v = Some (T "Content-Type: application/json").
Proof. eexists. eexists. split; [exists 7; vm_compute; reflexivity|]. repeat split; vm_compute; reflexivity. Qed.
(** a node that has no tokens has the span [Span::call_site()], wherever it was parsed *)
Example C49_ex_no_tokens : exists v us u, from_str no_defs (TyMaybe (TyToken (T "+")) TyEmpty) 1 (T " + ") v /\ print v = Some us /\ part u v /\
  node_span u = Some call_site /\ node_source (T " + ") u = Some [] /\ node_chars (T " + ") v = Some (1, 2).
Proof.
  eexists. eexists. exists VUnit. split; [exists 5; vm_compute; reflexivity|]. split; [vm_compute; reflexivity|].
  split; [eapply part_of; [right; left; reflexivity|constructor]|]. repeat split; vm_compute; reflexivity.
Qed.
(** the sign and the number of a negative literal are one part *)
Example C49_ex_negative : exists v us, from_str no_defs (TyPunctuated TyAnyLit (TyToken (T ","))) 1 (T "- 1, - 0 ") v /\ print v = Some us /\
  map (node_source (T "- 1, - 0 ")) (children v) = [Some (T "- 1"); Some (T ","); Some (T "- 0")].
Proof. eexists. eexists. split; [exists 6; vm_compute; reflexivity|]. repeat split; vm_compute; reflexivity. Qed.
