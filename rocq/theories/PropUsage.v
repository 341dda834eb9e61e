(** * PropUsage: C48, the published grammars; and the examples of the documentation and the
    test-suite, run through the model. *)
From Verif Require Import Base Float Literal Syn Ast Derive Grammar Spec LitSpec Reprint Mono Sound Examples PropLit PropTerm PropRoundtrip Term TermCheck Typed LL1 LL1Facts LL1Check PropLL1
  Fmt Lexer LexFacts LexWf LexOut LexRun PropLex Writable PropStr ParsedTyped PropAgain TypedWritable Usage.
Local Open Scope nat_scope.

Notation defs g := (env_of (g_defs g)).
Lemma all_checked (check : grammar -> bool) l : forallb check l = true -> forall g, In g l -> check g = true.
Proof. rewrite forallb_forall. auto. Qed.
Lemma published_terminate g : In g published_grammars -> terminating (g_defs g) (g_root g) = true.
Proof. apply (all_checked (fun g => terminating (g_defs g) (g_root g))). vm_compute. reflexivity. Qed.
Lemma round_trip_ll1 g : In g round_trip_grammars -> ll1 (g_defs g) (g_root g) = true.
Proof. apply (all_checked (fun g => ll1 (g_defs g) (g_root g))). vm_compute. reflexivity. Qed.
Lemma published_leaves {U : unicode} g : In g published_grammars -> env_leaves rust_leaf (defs g) /\ leaves rust_leaf (g_root g).
Proof.
  intro H. assert (C : forallb (defb rust_leafb) (g_defs g) && leavesb rust_leafb (g_root g) = true).
  { revert g H. apply (all_checked (fun g => forallb (defb rust_leafb) (g_defs g) && leavesb rust_leafb (g_root g))). vm_compute. reflexivity. }
  apply andb_true_iff in C as (C1 & C2). split; [eapply env_ok; [apply rust_leafb_ok|exact C1]|eapply leavesb_ok; [apply rust_leafb_ok|exact C2]].
Qed.
Lemma rust_punct {U : unicode} t : leaves rust_leaf t -> leaves punct_ops t.
Proof. induction t; cbn; tauto. Qed.
Lemma rust_punct_env {U : unicode} E : env_leaves rust_leaf E -> env_leaves punct_ops E.
Proof.
  intros H i. specialize (H i). destruct (E i) as [c|n cs]; cbn [def_leaves] in *.
  - eapply Forall_impl; [|exact H]. intros f. apply rust_punct.
  - eapply Forall_impl; [|exact H]. intros c Hc. eapply Forall_impl; [|exact Hc]. intros f. apply rust_punct.
Qed.
(** the published grammars without [Lit] *)
Definition no_lit_grammars : list grammar :=
  [json; boolean; words_and_numbers; function; sum; path; right_expr; int_or_word; items; generic_struct; generic_enum; cond].
Definition not_any_litb (t : ty) : bool := match t with TyAnyLit => false | _ => true end.
Lemma no_lit_leaves g : In g no_lit_grammars -> env_leaves not_any_lit (defs g) /\ leaves not_any_lit (g_root g).
Proof.
  assert (Hb : forall t, not_any_litb t = true -> not_any_lit t) by (intros [] H; try discriminate H; intro X; discriminate X).
  intro H. assert (C : forallb (defb not_any_litb) (g_defs g) && leavesb not_any_litb (g_root g) = true).
  { revert g H. apply (all_checked (fun g => forallb (defb not_any_litb) (g_defs g) && leavesb not_any_litb (g_root g))). vm_compute. reflexivity. }
  apply andb_true_iff in C as (C1 & C2). split; [eapply env_ok; [exact Hb|exact C1]|eapply leavesb_ok; [exact Hb|exact C2]].
Qed.

(** ** C48 *)
(** Every text is a value or an error: parsing a published grammar never loops and never panics. *)
Theorem C48_every_text_is_decided : forall (U : unicode), sane_tables U -> forall g file src, In g published_grammars ->
  forallb valid_char src = true -> (exists v, from_str (defs g) (g_root g) file src v) \/ from_str_err (defs g) (g_root g) file src.
Proof. intros U sane g file src Hg Hv. apply C45_from_str_total; [exact sane|exact Hv|apply published_terminate; exact Hg]. Qed.
(** Every value prints, unless one of its floats is infinite, and the tokens are read back as
    that value, which no other value prints. *)
Theorem C48_parse_of_to_tokens_is_identity : forall (U : unicode) g v, In g round_trip_grammars -> typed (defs g) (g_root g) v ->
  (forall l, In l (val_lits v) -> lit_finite l) ->
  exists ts, print v = Some ts /\ parses (defs g) (g_root g) ts v /\
    forall w, typed (defs g) (g_root g) w -> print w = Some ts -> w = v.
Proof.
  intros U g v Hg Ht Hf. destruct (C10_values_print U _ _ v Ht Hf) as (ts & Hp). exists ts. split; [exact Hp|]. split.
  - apply C10_parse_of_print; [apply round_trip_ll1; exact Hg|exact Ht|exact Hp].
  - intros w Hw Pw. eapply C10_print_injective; [apply round_trip_ll1; exact Hg|exact Hw|exact Ht|exact Pw|exact Hp].
Qed.
(** The text of a value is read back as that value, whichever layout is used.  What is asked of
    the identifiers is that they are words, as [Ident::new] does. *)
Theorem C48_from_str_of_to_string_is_identity : forall (U : unicode), sane_tables U -> forall g v alternate out file, In g round_trip_grammars ->
  typed (defs g) (g_root g) v -> (forall n, In n (val_words v) -> ident_ok n) -> to_string alternate v = Some out ->
  exists v', from_str (defs g) (g_root g) file out v' /\ strip v' = strip v.
Proof.
  intros U sane g v alternate out file Hg Ht Hw D. assert (Hg' : In g published_grammars) by (apply in_or_app; left; exact Hg).
  destruct (published_leaves g Hg') as (L1 & L2).
  eapply (C38_to_string_from_str sane); [apply round_trip_ll1; exact Hg|exact Ht| |exact D]. eapply typed_writable; [exact L1|exact L2|exact Ht|]. apply Forall_forall. exact Hw.
Qed.
(** What was read from a text is read back from the text it is written as. *)
Theorem C48_output_is_read_back : forall (U : unicode), sane_tables U -> forall g file src v alternate out file', In g round_trip_grammars ->
  forallb valid_char src = true -> from_str (defs g) (g_root g) file src v ->
  (In g no_lit_grammars \/ ~ In (LInt 0) (val_lits v)) -> to_string alternate v = Some out ->
  exists v', from_str (defs g) (g_root g) file' out v' /\ strip v' = strip v /\ to_string alternate v' = Some out.
Proof.
  intros U sane g file src v alternate out file' Hg Hv F Hz D. assert (Hg' : In g published_grammars) by (apply in_or_app; left; exact Hg).
  destruct (published_leaves g Hg') as (L1 & L2). apply rust_punct in L2. apply rust_punct_env in L1. pose proof (round_trip_ll1 g Hg) as Hl. destruct Hz as [Hn|Hz].
  - destruct (no_lit_leaves g Hn) as (N1 & N2). eapply (C38_from_str_to_string_from_str_no_lit sane); eassumption.
  - eapply (C38_from_str_to_string_from_str sane); eassumption.
Qed.
Print Assumptions C48_every_text_is_decided.
Print Assumptions C48_parse_of_to_tokens_is_identity.
Print Assumptions C48_from_str_of_to_string_is_identity.
Print Assumptions C48_output_is_read_back.
Lemma parses_not_refuses {U : unicode} E t ts v : parses E t ts v -> ~ refuses E t ts.
Proof.
  intros (n & H) (m & e & H'). unfold parse2 in *. destruct (Nat.le_ge_cases n m) as [L|L].
  - destruct (le_pty E n m t L (start ts)) as [Hd|He]; [destruct (pty E n t (start ts)) as (?, ?); cbn in Hd; subst; discriminate H|]. rewrite <- He in H'. congruence.
  - destruct (le_pty E m n t L (start ts)) as [Hd|He]; [destruct (pty E m t (start ts)) as (?, ?); cbn in Hd; subst; discriminate H'|]. rewrite <- He in H. congruence.
Qed.
(** The grammar of the documentation of [Eof] is not one of them: a value with a [BoolAtEnd]
    that is not at the end prints tokens that do not parse. *)
Definition not_at_end : val := VPunct [(VVariant 0 [VStruct [VLit (LBool true) call_site; VUnit]], VOp (T ",") [call_site])] (Some (VVariant 1 [VLit (LInt 2) call_site])).
Theorem C48_bool_at_end_refuted : forall (U : unicode), exists v ts, typed (defs bool_at_end) (g_root bool_at_end) v /\ print v = Some ts /\
  forall w, ~ parses (defs bool_at_end) (g_root bool_at_end) ts w.
Proof.
  intro U. exists not_at_end. eexists. split; [|split; [reflexivity|]].
  - constructor.
    + constructor; [|constructor; reflexivity|constructor]. eapply td_enum; [reflexivity|reflexivity|]. constructor; [|constructor]. eapply td_struct; [reflexivity|].
      constructor; [apply (td_lit _ (LBool true)); exact I|constructor; [constructor|constructor]].
    + constructor. eapply td_enum; [reflexivity|reflexivity|]. constructor; [|constructor]. apply (td_lit _ (LInt 2)). vm_compute. split; discriminate.
    + discriminate.
  - intros w Hw. eapply parses_not_refuses; [exact Hw|]. exists 10. eexists. vm_compute. reflexivity.
Qed.
Print Assumptions C48_bool_at_end_refuted.

(** ** The examples of the documentation and the test-suite, run through the model.

    [parse_quote!] gets its tokens from the compiler; here they come from the same text.  Values are
    compared as the tests do, that is, spans apart (C44). *)
Local Existing Instance Examples.ascii_only.
Local Open Scope string_scope.
Definition id (s : string) : val := VIdent (T s) call_site.
Definition kw (s : string) : val := VKw (T s) call_site.
Definition o (s : string) : val := VOp (T s) (repeat call_site (String.length s)).
Definition lit (l : lit) : val := VLit l call_site.
Definition int (z : Z) : val := lit (LInt z).
Definition uint (z : Z) : val := lit (LUint z).
Definition bool_ (b : bool) : val := lit (LBool b).
Definition str (s : string) : val := lit (LStr (T s)).
(** [LitFloat::try_from(x)] where the source spells [x] as [s] *)
Definition flt (s : string) : val := match float_read (T s) with Some f => lit (LFloat f) | None => VUnit end.
Definition brace (v : val) : val := VGroup DBrace call_site v.
Definition bracket (v : val) : val := VGroup DBracket call_site v.
Definition paren (v : val) : val := VGroup DParen call_site v.
(** [Punctuated::from_iter] with default separators, no trailing one; [Many::from_iter] *)
Fixpoint seq_of (p : val) (l : list val) : val :=
  match l with
  | [] => VPunct [] None
  | [x] => VPunct [] (Some x)
  | x :: r => match seq_of p r with VPunct i t => VPunct ((x, p) :: i) t | v => v end
  end.
Definition parses_as (g : grammar) (src : string) (v : val) : Prop :=
  exists w, from_str (defs g) (g_root g) 1 (T src) w /\ strip w = strip v.
Definition is_error (g : grammar) (src : string) : Prop := from_str_err (defs g) (g_root g) 1 (T src).
Ltac run_with n := eexists; split; [exists n; vm_compute; reflexivity|vm_compute; reflexivity].
Ltac run := first [run_with 5 | run_with 8 | run_with 10 | run_with 12 | run_with 14 | run_with 16 | run_with 18 | run_with 20].
Ltac fails := exists 10; eexists; vm_compute; reflexivity.

(** README.md:83-137 *)
Example readme_json : parses_as json
"{
    ""key1"": ""string value"",
    ""other key"": 318,
    ""recursive"": [
        1.6180,
        2.7182,
        3.1416,
        null
    ],
    ""inner"": {
        ""nested key"": true,
        ""hard to write a parser"": false
    }
}" (let kv k v := VStruct [str k; o ":"; v] in
    VVariant 6 [brace (seq_of (o ",")
      [kv "key1" (VVariant 4 [str "string value"]); kv "other key" (VVariant 2 [int 318]);
       kv "recursive" (VVariant 5 [bracket (seq_of (o ",") [VVariant 3 [flt "1.6180"]; VVariant 3 [flt "2.7182"]; VVariant 3 [flt "3.1416"]; VVariant 0 [kw "null"]])]);
       kv "inner" (VVariant 6 [brace (seq_of (o ",") [kv "nested key" (VVariant 1 [bool_ true]); kv "hard to write a parser" (VVariant 1 [bool_ false])])])])]).
Proof. run. Qed.

(** README.md:209-234 *)
Example readme_boolean : parses_as boolean "true & (false | true & true) & !false"
  (let l b := VVariant 0 [bool_ b] in
   VVariant 1 [VVariant 0 [l true; o "&"; VVariant 0 [
      VVariant 2 [paren (VVariant 0 [VVariant 1 [l false]; o "|"; VVariant 1 [VVariant 0 [l true; o "&"; VVariant 1 [l true]]]])]; o "&";
      VVariant 1 [VVariant 1 [o "!"; l false]]]]]).
Proof. run. Qed.

(** ast.rs:2055-2080 *)
Definition wn (ws : list string) (ns : list Z) : val := VStruct [VList (map id ws); VList (map int ns)].
Example any_docs :
  parses_as words_and_numbers "" (wn [] []) /\ parses_as words_and_numbers "one_word" (wn ["one_word"%string] []) /\
  parses_as words_and_numbers "one two three" (wn ["one"; "two"; "three"]%string []) /\ parses_as words_and_numbers "777 " (wn [] [777%Z]) /\
  parses_as words_and_numbers "88 777  99999" (wn [] [88; 777; 99999]%Z) /\
  parses_as words_and_numbers "hello_world someident 222 333" (wn ["hello_world"; "someident"]%string [222; 333]%Z) /\
  is_error words_and_numbers "word 3456 more_words".
Proof. repeat split; try run. fails. Qed.

(** ast.rs:666-726 *)
Example maybe_docs :
  let named s := VVariant 0 [id s] in
  parses_as function "fn foo() {}" (VStruct [kw "fn"; id "foo"; paren VNothing; VNothing; brace VUnit]) /\
  parses_as function "fn another_name() -> ?Rofl {}"
    (VStruct [kw "fn"; id "another_name"; paren VNothing; VJust (o "->") (VVariant 2 [o "?"; named "Rofl"]); brace VUnit]) /\
  parses_as function "fn fn_3(the_arg: ?&DoubleTrouble) -> &Indirect {}"
    (VStruct [kw "fn"; id "fn_3"; paren (VJust (id "the_arg") (VStruct [o ":"; VVariant 2 [o "?"; VVariant 1 [o "&"; named "DoubleTrouble"]]]));
              VJust (o "->") (VVariant 1 [o "&"; named "Indirect"]); brace VUnit]).
Proof. repeat split; run. Qed.

(** ast.rs:558-589: [NotEof] *)
Definition not_eof : grammar := Grammar "ast.rs: NotEof" [] TyNotEof.
Definition eof : grammar := Grammar "ast.rs: Eof" [] TyEof.
Example not_eof_docs :
  parses_as simple_block "{ 54194; }" (brace (VStruct [uint 54194; o ";"; VNothing])) /\
  parses_as simple_block "{ 54194; true }" (brace (VStruct [uint 54194; o ";"; VJust VUnit (bool_ true)])) /\
  is_error not_eof "" /\ from_str_err (defs not_eof) TyNotEof 1 [32; 9; 10]%N.
Proof. repeat split; try run; fails. Qed.
(** ast.rs:463-466, 480-497: [Eof] *)
Example eof_docs :
  parses_as eof "" VUnit /\ (exists w, from_str (defs eof) TyEof 1 [13; 10; 32; 32; 32]%N w) /\
  parses_as bool_at_end "2, 46, 802, false"
    (seq_of (o ",") [VVariant 1 [int 2]; VVariant 1 [int 46]; VVariant 1 [int 802]; VVariant 0 [VStruct [bool_ false; VUnit]]]) /\
  is_error bool_at_end "2, 46, false, 802".
Proof. repeat split; try run; try fails. eexists. exists 5. vm_compute. reflexivity. Qed.
(** ast.rs:1222-1230: [Brace] *)
Example brace_docs : parses_as brace_key_value "{ ""age"" = 27 }" (brace (VStruct [str "age"; o "="; uint 27])) /\
  is_error (Grammar "Brace<Ident>" [] (TyBrace TyIdent)) "my_ident".
Proof. split; [run|fails]. Qed.
(** ast.rs:1624-1646: [Many] *)
Example many_docs : parses_as many_key_value "key_one -> 678
  no_2    -> 2.718
  third   -> false"
  (seq_of VUnit [VStruct [id "key_one"; o "->"; uint 678]; VStruct [id "no_2"; o "->"; flt "2.718"]; VStruct [id "third"; o "->"; bool_ false]]).
Proof. run. Qed.
(** ast.rs:1663-1688: [Separated] *)
Example separated_docs :
  parses_as sum "1 + 2 + 4 + 8 + 16 + 32" (seq_of (o "+") (map int [1; 2; 4; 8; 16; 32]%Z)) /\
  to_string false (seq_of (o "+") (map int [1; 2; 4; 8; 16; 32; 64]%Z)) = Some (T "1 + 2 + 4 + 8 + 16 + 32 + 64") /\
  parses_as path "one" (seq_of (o "::") [id "one"]) /\
  parses_as path "root::module::Item" (seq_of (o "::") [id "root"; id "module"; id "Item"]) /\
  parses_as (Grammar "Many<Ident>" [] (TyMany TyIdent)) "root module Item" (seq_of VUnit [id "root"; id "module"; id "Item"]) /\
  is_error path "root::module::Item::" /\ is_error path "".
Proof. repeat split; try run; try fails. Qed.
(** ast.rs:3306-3357: [LeftAssoc] *)
Definition left_doc : val :=
  let lit_ v := VVariant 0 [v] in let var s := VVariant 1 [id s] in let sub := VVariant 1 [o "-"] in
  VBinL (VBinL (VBinL (VRhs (VRhs (lit_ (uint 10)))) sub (VRhs (lit_ (flt "2.99")))) (VVariant 0 [o "+"])
                      (VBinL (VRhs (var "p")) (VVariant 1 [o "/"]) (lit_ (flt "42.0"))))
        sub
        (VBinL (VRhs (VVariant 2 [paren (VBinL (VRhs (VRhs (var "q"))) sub (VRhs (lit_ (flt "-24.314"))))])) (VVariant 0 [o "*"]) (lit_ (int (-13)))).
Definition newline : string := String (ascii_of_nat 10) EmptyString.
Example left_assoc_docs : parses_as left_expr "10 - 2.99 + p / 42.0 - (q - -24.314) * -13" left_doc /\
  to_string false left_doc = Some (T ("10 - 2.99 + p / 42.0 - (" ++ newline ++ "    q - - 24.314" ++ newline ++ ")" ++ newline ++ "* - 13")).
Proof. split; [run|vm_compute; reflexivity]. Qed.
(** ast.rs:3513-3551: [RightAssoc] *)
Example right_assoc_docs : parses_as right_expr "(~false | a) & ~(b & c & true)"
  (let var s := VVariant 1 [id s] in let l b := VVariant 0 [bool_ b] in let not v := VVariant 2 [o "~"; v] in
   VLhs (VBinR (VVariant 3 [paren (VBinR (VLhs (not (l false))) (o "|") (VLhs (VLhs (var "a"))))]) (o "&")
     (VLhs (not (VVariant 3 [paren (VLhs (VBinR (var "b") (o "&") (VBinR (var "c") (o "&") (VLhs (l true)))))]))))).
Proof. run. Qed.
(** ast.rs:3662-3676: [Either] *)
Example either_docs : parses_as int_or_word "1234567890" (VLeft (int 1234567890)) /\ parses_as int_or_word "i_am_an_ident" (VRight (id "i_am_an_ident")) /\
  to_string false (VLeft (int 1234567890)) = Some (T "1234567890") /\ is_error int_or_word "184.3549".
Proof. repeat split; try run; try fails. Qed.
(** parsel/tests/parse.rs *)
Example parse_rs :
  parses_as assignment "foo = 13.37" (VStruct [id "foo"; o "="; flt "13.37"]) /\
  parses_as assignment_tuple "quux = 'X'" (VStruct [id "quux"; o "="; lit (LChar 88)]) /\
  parses_as foo "foo1 42" (VVariant 1 [id "foo1"; uint 42]) /\
  parses_as foo "- 1337, 0.5" (VVariant 0 [int (-1337); o ","; flt "0.5"]) /\
  parses_as generic_struct "my_ns :: ""lorem ipsum""" (VStruct [id "my_ns"; o "::"; str "lorem ipsum"]) /\
  parses_as generic_enum "42_usize" (VVariant 0 [uint 42]) /\
  parses_as generic_enum """foo bar! #qux""; =>" (VVariant 2 [str "foo bar! #qux"; o ";"; o "=>"]) /\
  parses_as arith "(pq * 3.14) - 738291"
    (VVariant 1 [VVariant 2 [VVariant 2 [paren (VVariant 2 [VVariant 0 [VVariant 1 [id "pq"]; o "*"; VVariant 0 [flt "3.14"]]])]]; o "-"; VVariant 2 [VVariant 0 [uint 738291]]]) /\
  parses_as cond "true & (a_var | !false)"
    (VVariant 1 [VVariant 0 [VVariant 0 [bool_ true]; o "&";
       VVariant 3 [paren (VVariant 0 [VVariant 1 [VVariant 1 [id "a_var"]]; o "|"; VVariant 1 [VVariant 2 [o "!"; VVariant 0 [bool_ false]]]])]]]).
Proof. repeat split; run. Qed.
(** parsel/tests/roundtrip.rs *)
Definition variant_ (s : string) : val := VStruct [id s; o ","].
Definition field_ (n t : string) : val := VStruct [id n; o ":"; id t; o ","].
Definition struct_ (n : string) (fs : list val) : val := VVariant 0 [VStruct [kw "struct"; id n; brace (seq_of VUnit fs)]].
Definition enum_ (n : string) (vs : list val) : val := VVariant 1 [VStruct [kw "enum"; id n; brace (seq_of VUnit vs)]].
Definition ast_original : val := seq_of VUnit
  [struct_ "ThisIsANewtypeStruct" [field_ "inner" "ThisIsAnEmptyStruct"]; enum_ "Option" [variant_ "None"; variant_ "Some"]; struct_ "ThisIsAnEmptyStruct" []].
Example parse_of_to_tokens_is_identity : exists ts, print ast_original = Some ts /\ parses (defs items) (g_root items) ts ast_original.
Proof. eexists. split; [vm_compute; reflexivity|]. exists 14. vm_compute. reflexivity. Qed.
Example to_tokens_of_parse_is_identity : exists ts v ts', lex 1 (T "enum Bool { False, True, } struct Foo { bar: Bar, baz: Qux, lol: What, }") = LOk ts /\
  parses (defs items) (g_root items) ts v /\ print v = Some ts' /\ to_text false ts' = to_text false ts.
Proof. eexists. eexists. eexists. split; [vm_compute; reflexivity|]. split; [exists 14; vm_compute; reflexivity|]. split; vm_compute; reflexivity. Qed.
(** parsel/tests/to_tokens.rs *)
Definition prints (v : val) (src : string) : Prop :=
  exists ts ts', print v = Some ts /\ lex 1 (T src) = LOk ts' /\ to_text true ts = to_text true ts'.
Ltac prints := eexists; eexists; split; [vm_compute; reflexivity|split; vm_compute; reflexivity].
Fixpoint token_list (l : list string) : val :=
  match l with [] => VVariant 1 [] | x :: r => VVariant 0 [VStruct [id x; o ","; token_list r]] end.
Example to_tokens_rs :
  prints (VStruct [id "has_frobnicator"; o "?"; str "frobnicate"; o ":"; uint 42]) "has_frobnicator ? ""frobnicate"" : 42" /\
  prints (VStruct [id "is_bug"; o "?"; int 13; o ":"; flt "37.0"]) "is_bug ? 13 : 37.0" /\
  prints (VVariant 1 [str "foo"; o "+"; int 987]) """foo"" + 987" /\
  prints (VVariant 0 [flt "24.99"]) "24.99" /\
  prints (VStruct [id "the_key"; o "="; bool_ true]) "the_key = true" /\
  prints (VVariant 0 [flt "31.42"; o ","; flt "0.7238492"]) "31.42, 0.7238492" /\
  prints (VVariant 1 [flt "6.789"; o ":"; id "some_very_long_ident"]) "6.789: some_very_long_ident" /\
  prints (VVariant 2 []) "" /\
  prints (VVariant 2 [VVariant 3 [VVariant 0 [id "xyz"]; o "*"; VVariant 1 [bool_ false]]; o "+"; VVariant 1 [int 192837]]) "xyz * false + 192837" /\
  prints (token_list ["hey"; "loller_roller"; "last_kw"]) "hey, loller_roller, last_kw," /\
  prints (VVariant 0 [o "+"; VStruct [uint 11111; VVariant 1 [o "-"; VStruct [uint 0; VVariant 2 []]]]]) "+11111 -0".
Proof. repeat split; prints. Qed.
