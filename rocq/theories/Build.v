(** * Build: making and changing syntax trees by hand (C57).

    The constructors, conversions, accessors and setters of the node types of
    parsel/src/ast.rs.  They are functions on [val]; [None] stands for a panic, for [None] or for an
    [Err], as said at each.  Methods that give a reference to a part are modelled by what can be done
    with the reference: read the part ([get_part]) or write to it ([set_part]). *)
From Verif Require Import Base Float Literal Syn Ast Derive Grammar Spec LitSpec Lexer PropStr NodeSpan Punctuated PropSeq.
Local Open Scope nat_scope.

Section Build.
Context {U : unicode}.

(** ** Leaves *)
(** proc_macro2 [Ident::new]: panics unless the string is a word ([validate_ident]); [ident] of
    ast.rs:32-34 is this with the call-site span *)
Definition ident_new (s : text) (sp : span) : option val := if xid_ok s then Some (VIdent s sp) else None.
(** proc_macro2 [Ident::new_raw] ([validate_ident_raw]) *)
Definition ident_new_raw (s : text) (sp : span) : option val :=
  if xid_ok s && negb (text_mem s no_raw) then Some (VIdent ([114; 35]%N ++ s) sp) else None.
(** ast.rs:170-178, [Word::new] (and [word], 37-39) *)
Definition word_new (s : text) (sp : span) : option val := ident_new s sp.
(** ast.rs:78-94, [CustomIdent::try_from(Ident)]; the error is not modelled here *)
Definition custom_try_from (kws : list text) (v : val) : option val :=
  match v with VIdent n sp => if text_mem n kws then None else Some (VIdent n sp) | _ => None end.
(** ast.rs:96-100, [Ident::from(CustomIdent)] *)
Definition custom_into_ident (v : val) : val := v.
(** ast.rs:296-298, [new] of a keyword type; 318-322 [default] is this at the call site *)
Definition keyword_new (kw : text) (sp : span) : val := VKw kw sp.
(** [Token![..](spans)] of syn: one span per character *)
Definition token_new (op : list char) (sps : list span) : val := VOp op sps.
(** ast.rs:2347-2349, [new] of the literal types; From<raw> (2377-2382) is this at the call site *)
Definition lit_make (l : lit) (sp : span) : val := VLit l sp.
(** [set_span]: ast.rs:60-62 (identifiers), 308-310 (keywords), 2363-2365 (literals), 2997-3008 ([Lit]) *)
Definition set_span (sp : span) (v : val) : option val :=
  match v with
  | VIdent n _ => Some (VIdent n sp)
  | VKw kw _ => Some (VKw kw sp)
  | VLit l _ => Some (VLit l sp)
  | _ => None
  end.
(** [span]: ast.rs:56-58, 304-306, 2359-2361, 2984-2995 *)
Definition get_span (v : val) : option span :=
  match v with VIdent _ sp | VKw _ sp | VLit _ sp => Some sp | _ => None end.

(** ** Maybe *)
(** ast.rs:734-736 *)
Definition maybe_new : val := VNothing.
(** ast.rs:812-816 *)
Definition maybe_from_option_parts (x : option (val * val)) : val :=
  match x with Some (p, t) => VJust p t | None => VNothing end.
(** ast.rs:818-824: [dflt] is [P::default()] *)
Definition maybe_from_option (dflt : val) (x : option val) : val :=
  maybe_from_option_parts (option_map (fun t => (dflt, t)) x).
(** ast.rs:826-830 *)
Definition maybe_from_parts (p t : val) : val := maybe_from_option_parts (Some (p, t)).
(** ast.rs:832-839 *)
Definition maybe_from (dflt t : val) : val := maybe_from_parts dflt t.
(** ast.rs:774-784, [as_parts]/[into_parts]/deref *)
Definition maybe_parts (v : val) : option (val * val) := match v with VJust p t => Some (p, t) | _ => None end.

(** ** Paren, Bracket, Brace *)
(** ast.rs:985-988, 1113-1116, 1248-1251 *)
Definition group_new (d : delim) (inner : val) (sp : span) : val := VGroup d sp inner.
(** ast.rs:1013-1018, 1141-1146, 1276-1281: the span of the contents ([None]: they cannot be printed) *)
Definition group_from (d : delim) (inner : val) : option val := option_map (group_new d inner) (node_span inner).
(** ast.rs:990-1010, 1020-1024 *)
Definition group_parts (v : val) : option (span * val) := match v with VGroup _ sp x => Some (sp, x) | _ => None end.

(** ** Any *)
(** ast.rs:2090-2094, 2137-2141, 2211-2219 *)
Definition any_from (l : list val) : val := VList l.
(** ast.rs:2096-2098, 2149-2161: [Vec] methods through [Deref] *)
Definition any_items (v : val) : option (list val) := match v with VList l => Some l | _ => None end.
(** ast.rs:2222-2229 *)
Definition any_extend (more : list val) (v : val) : option val := option_map (fun l => VList (l ++ more)) (any_items v).

(** ** LeftAssoc, RightAssoc *)
(** ast.rs:3375-3379, 3568-3572 *)
Definition left_from (r : val) : val := VRhs r.
Definition right_from (l : val) : val := VLhs l.
(** the variant [Binary], ast.rs:3362-3369, 3555-3562 *)
Definition left_binary (lhs op rhs : val) : val := VBinL lhs op rhs.
Definition right_binary (lhs op rhs : val) : val := VBinR lhs op rhs.

(** ** Either *)
(** ast.rs:3718-3723 *)
Definition either_flip (v : val) : option val :=
  match v with VLeft x => Some (VRight x) | VRight x => Some (VLeft x) | _ => None end.
(** ast.rs:3751-3760 *)
Definition either_map (f g : val -> val) (v : val) : option val :=
  match v with VLeft x => Some (VLeft (f x)) | VRight x => Some (VRight (g x)) | _ => None end.
(** ast.rs:3794-3801 *)
Definition either_into_inner (v : val) : option val :=
  match v with VLeft x | VRight x => Some x | _ => None end.

(** ** Default *)
(** [Default] of the literal types (ast.rs:2368-2375: the default of the raw type) *)
Definition lit_default (k : litty) : lit :=
  match k with
  | LtBool => LBool false | LtByte => LByte 0 | LtInt => LInt 0 | LtUint => LUint 0
  | LtFloat => LFloat (FFin false 0 emin) | LtChar => LChar 0 | LtStr => LStr [] | LtByteStr => LByteStr []
  end.
(** keywords ast.rs:318-322; [Empty], [Eof], [NotEof] (derive, ast.rs:419, 502, 590); [Maybe] 806-810;
    groups (derive, 978, 1106, 1241) with the call-site span; [Punctuated] 1409-1413; [Any] 2131-2135;
    syn's tokens; [Box].  No [Default]: identifiers, [Lit], [Separated], associations, [Either]. *)
Fixpoint default_val (t : ty) : option val :=
  match t with
  | TyKeyword kw | TyTokenKw kw => Some (VKw kw call_site)
  | TyToken op => Some (VOp op (map (fun _ => call_site) op))
  | TyLit k => Some (VLit (lit_default k) call_site)
  | TyEmpty | TyEof | TyNotEof => Some VUnit
  | TyMaybe _ _ => Some VNothing
  | TyParen a => option_map (VGroup DParen call_site) (default_val a)
  | TyBracket a => option_map (VGroup DBracket call_site) (default_val a)
  | TyBrace a => option_map (VGroup DBrace call_site) (default_val a)
  | TyPunctuated _ _ => Some (VPunct [] None)
  | TyAny _ => Some (VList [])
  | TyBox a => default_val a
  | _ => None
  end.

(** ** Parts and references to them *)
(** The accessors by which one gets at a part: *)
Inductive part :=
| PPrefix               (* Maybe::as_prefix, as_prefix_mut, into_prefix; ast.rs:738-748 *)
| PTail                 (* Maybe::as_ref, as_mut, into_inner; ast.rs:750-760 *)
| PInner                (* Paren etc.: deref, as_ref, as_mut, into_inner; ast.rs:990, 1026-1050 *)
| PValue (i : nat)      (* Punctuated, Separated: index, iter, iter_mut; ast.rs:1388-1394, 1541-1553, 1748-1754, 1955-1967 *)
| PPunct (i : nat)      (* Punctuated, Separated: pairs, pairs_mut; ast.rs:1400-1406, 1760-1766 *)
| PItem (i : nat)       (* Any: index, get, get_mut, iter_mut; ast.rs:2108-2128, 2258-2276 *)
| PLhs | POp | PRhs     (* fields of LeftAssoc and RightAssoc; ast.rs:3362-3372, 3555-3565 *)
| PSide                 (* Either::left, right, as_ref, as_mut; ast.rs:3689-3701, 3725-3737 *)
| PField (k : nat).     (* a field of a derived struct or of the variant at hand *)

Definition get_part (s : part) (v : val) : option val :=
  match s, v with
  | PPrefix, VJust p _ => Some p
  | PTail, VJust _ t => Some t
  | PInner, VGroup _ _ x => Some x
  | PValue i, VPunct inner last => nth_error (pn_iter (Pn inner last)) i
  | PPunct i, VPunct inner last => nth_error (map snd inner) i
  | PItem i, VList l => nth_error l i
  | PLhs, (VBinL x _ _ | VBinR x _ _ | VLhs x) => Some x
  | POp, (VBinL _ o _ | VBinR _ o _) => Some o
  | PRhs, (VBinL _ _ y | VBinR _ _ y | VRhs y) => Some y
  | PSide, (VLeft x | VRight x) => Some x
  | PField k, (VStruct vs | VVariant _ vs) => nth_error vs k
  | _, _ => None
  end.
(** [l[i] = x] for a [Vec] *)
Definition set_nth (i : nat) (x : val) (l : list val) : option (list val) :=
  if i <? List.length l then Some (firstn i l ++ x :: skipn (S i) l) else None.
(** writing to a sequence through a reference, as in Punctuated.v *)
Definition seq_write (m : method (punctuated val val) unit) (inner : list (val * val)) (last : option val) : option val :=
  match m (Pn inner last) with (Some _, x) => Some (VPunct (pn_inner x) (pn_last x)) | (None, _) => None end.
Definition set_part (s : part) (x : val) (v : val) : option val :=
  match s, v with
  | PPrefix, VJust _ t => Some (VJust x t)
  | PTail, VJust p _ => Some (VJust p x)
  | PInner, VGroup d sp _ => Some (VGroup d sp x)
  | PValue i, VPunct inner last => seq_write (pn_set i x) inner last
  | PPunct i, VPunct inner last => seq_write (pn_set_punct i x) inner last
  | PItem i, VList l => option_map VList (set_nth i x l)
  | PLhs, VBinL _ o y => Some (VBinL x o y)
  | PLhs, VBinR _ o y => Some (VBinR x o y)
  | PLhs, VLhs _ => Some (VLhs x)
  | POp, VBinL l _ y => Some (VBinL l x y)
  | POp, VBinR l _ y => Some (VBinR l x y)
  | PRhs, VBinL l o _ => Some (VBinL l o x)
  | PRhs, VBinR l o _ => Some (VBinR l o x)
  | PRhs, VRhs _ => Some (VRhs x)
  | PSide, VLeft _ => Some (VLeft x)
  | PSide, VRight _ => Some (VRight x)
  | PField k, VStruct vs => option_map VStruct (set_nth k x vs)
  | PField k, VVariant n vs => option_map (VVariant n) (set_nth k x vs)
  | _, _ => None
  end.
(** the type of a part, which rustc knows *)
Fixpoint part_ty (E : env) (t : ty) (s : part) (v : val) : option ty :=
  match t with
  | TyMaybe p a => match s with PPrefix => Some p | PTail => Some a | _ => None end
  | TyParen a | TyBracket a | TyBrace a => match s with PInner => Some a | _ => None end
  | TyPunctuated a p | TySeparated a p => match s with PValue _ => Some a | PPunct _ => Some p | _ => None end
  | TyAny a => match s with PItem _ => Some a | _ => None end
  | TyLeftAssoc o r => match s with PLhs => Some (TyLeftAssoc o r) | POp => Some o | PRhs => Some r | _ => None end
  | TyRightAssoc o l => match s with PLhs => Some l | POp => Some o | PRhs => Some (TyRightAssoc o l) | _ => None end
  | TyEither a b => match s, v with PSide, VLeft _ => Some a | PSide, VRight _ => Some b | _, _ => None end
  | TyBox a => part_ty E a s v
  | TyRef i =>
      match s, E i, v with
      | PField k, DStruct c, VStruct _ => option_map snd (nth_error (c_fields c) k)
      | PField k, DEnum _ cs, VVariant n _ =>
          match nth_error cs n with Some c => option_map snd (nth_error (c_fields c) k) | None => None end
      | _, _, _ => None
      end
  | _ => None
  end.
(** a part of a part of ...: [a.b.c = x] *)
Fixpoint get_path (ss : list part) (v : val) : option val :=
  match ss with [] => Some v | s :: r => match get_part s v with Some x => get_path r x | None => None end end.
Fixpoint set_path (ss : list part) (x : val) (v : val) : option val :=
  match ss with
  | [] => Some x
  | s :: r => match get_part s v with
              | Some y => match set_path r x y with Some y' => set_part s y' v | None => None end
              | None => None
              end
  end.

(** ** Sequences: what the methods of [syn::punctuated::Punctuated] (by [Deref], ast.rs:1427-1439) do *)
(** [pop], [pop_punct], [clear] (syn 2.0.66) *)
Definition pn_pop : method (punctuated val val) unit := fun x =>
  match pn_last x with
  | Some _ => (Some done, Pn (pn_inner x) None)
  | None => (Some done, Pn (removelast (pn_inner x)) None)
  end.
Definition pn_pop_punct : method (punctuated val val) unit := fun x =>
  match pn_last x with
  | Some _ => (Some done, x)
  | None => match rev (pn_inner x) with
            | (v, _) :: r => (Some done, Pn (rev r) (Some v))
            | [] => (Some done, x)
            end
  end.
Definition pn_clear : method (punctuated val val) unit := fun x => (Some done, Pn [] None).
Inductive seq_change :=
| QPushValue (v : val) | QPushPunct (p : val)
| QPush (v : val) (dflt : option val) | QInsert (i : nat) (v : val) (dflt : option val)
| QPop | QPopPunct | QClear
| QExtend (items : list (val * option val)) (stop : bool)
| QExtendPairs (l : list (pair val val)) (dflt : option val) (stop : bool)
| QSet (i : nat) (v : val) | QSetPunct (i : nat) (p : val).
Definition seq_apply (c : seq_change) : method (punctuated val val) unit :=
  match c with
  | QPushValue v => push_value v
  | QPushPunct p => push_punct p
  | QPush v d => pn_push v d
  | QInsert i v d => pn_insert i v d
  | QPop => pn_pop
  | QPopPunct => pn_pop_punct
  | QClear => pn_clear
  | QExtend items stop => pn_extend items stop
  | QExtendPairs l d stop => pn_extend_pairs l d stop
  | QSet i v => pn_set i v
  | QSetPunct i p => pn_set_punct i p
  end.
(** the values and separators a change brings in *)
Definition opt_list {A} (o : option A) : list A := match o with Some x => [x] | None => [] end.
Definition pair_value (x : pair val val) : val := match x with PPunctuated v _ | PEnd v => v end.
Definition pair_puncts (x : pair val val) : list val := match x with PPunctuated _ p => [p] | PEnd _ => [] end.
Definition seq_values (c : seq_change) : list val :=
  match c with
  | QPushValue v | QPush v _ | QInsert _ v _ | QSet _ v => [v]
  | QExtend items _ => map fst items
  | QExtendPairs l _ _ => map pair_value l
  | _ => []
  end.
Definition seq_puncts (c : seq_change) : list val :=
  match c with
  | QPushPunct p | QSetPunct _ p => [p]
  | QPush _ d | QInsert _ _ d => opt_list d
  | QExtend items _ => List.concat (map (fun x => opt_list (snd x)) items)
  | QExtendPairs l d _ => opt_list d ++ List.concat (map pair_puncts l)
  | _ => []
  end.
Definition sep_values (c : change val val) : list val :=
  match c with
  | Insert _ v _ | Push _ v | PushValue v _ | SetFirst v | SetLast v | SetAt _ v => [v]
  | ExtendValues items _ => map fst items
  | ExtendPairs items _ => map snd items
  | SetPunct _ _ => []
  end.
Definition sep_puncts (c : change val val) : list val :=
  match c with
  | Push p _ | SetPunct _ p => [p]
  | Insert _ _ d | PushValue _ d => opt_list d
  | ExtendValues items _ => List.concat (map (fun x => opt_list (snd x)) items)
  | ExtendPairs items _ => map fst items
  | _ => []
  end.
End Build.
