(** * Reprint: when one token list is a re-printing of another (C07-C09, C38, C40). *)
From Verif Require Import Base Float Literal Syn Ast Derive Grammar Spec LitSpec.

Section Reprint.
Context {U : unicode}.

(** What a literal token means: its kind and value; for floats the double it rounds to. *)
Inductive meaning := MTok (k : lkind) | MFloat (f : option f64).
Definition denotes (repr : text) : option meaning :=
  match lit_new repr with
  | Some (KFloat ds) => Some (MFloat (float_read ds))
  | Some k => Some (MTok k)
  | None => None
  end.
Definition unsigned (repr : text) : Prop :=
  match repr with c :: _ => c <> 45%N | [] => True end.

(** A literal token as Rust can hold it: the minus sign is a token of its own, characters are
    Unicode scalar values, bytes are below 256. *)
Definition lit_ok (repr : text) : Prop :=
  unsigned repr /\
  match lit_new repr with
  | Some (KStr v) => forallb valid_char v = true
  | Some (KByteStr v) => forallb (fun b => (b <? 256)%N) v = true
  | Some (KChar c) => valid_char c = true
  | Some (KByte b) => (b < 256)%N
  | _ => True
  end.
(** all literal tokens, at any depth *)
Fixpoint lits1 (t : tt) : list text :=
  match t with
  | TLit r _ => [r]
  | TGroup _ _ l => (fix go l := match l with [] => [] | x :: r => lits1 x ++ go r end) l
  | _ => []
  end.
Fixpoint lits (l : list tt) : list text :=
  match l with [] => [] | x :: r => lits1 x ++ lits r end.
Definition lits_ok (l : list tt) : Prop := Forall lit_ok (lits l).

(** A spelling the printer uses for some literal value. *)
Definition written (repr : text) : Prop :=
  exists l sp ts, lit_valid l /\ print_lit l sp = Some ts /\ In (TLit repr sp) ts.

(** [reprints Q L a b]: [b] is [a] printed again.  Words, operators and groups are the same, with
    the same spans; the spacing of an operator character [c] is related by [Q c]; a literal may
    be spelled differently (the printer's way) but denotes the same; the negative zero integer loses its sign.  In
    every group, what was not printed satisfies [L]. *)
Inductive reprints (Q : char -> spacing -> spacing -> Prop) (L : list tt -> Prop) : list tt -> list tt -> Prop :=
| rp_nil : reprints Q L [] []
| rp_ident n sp a b : reprints Q L a b -> reprints Q L (TIdent n sp :: a) (TIdent n sp :: b)
| rp_punct c g1 g2 sp a b : Q c g1 g2 -> reprints Q L a b ->
    reprints Q L (TPunct c g1 sp :: a) (TPunct c g2 sp :: b)
| rp_lit r1 r2 sp a b : denotes r1 = denotes r2 -> unsigned r1 -> unsigned r2 -> written r2 -> reprints Q L a b ->
    reprints Q L (TLit r1 sp :: a) (TLit r2 sp :: b)
| rp_neg g1 r1 r2 sp1 sp2 sp a b : Q 45%N g1 Alone -> denotes r1 = denotes r2 -> unsigned r1 -> unsigned r2 -> written r2 ->
    sp = join_or sp1 sp2 -> reprints Q L a b ->
    reprints Q L (TPunct 45 g1 sp1 :: TLit r1 sp2 :: a) (TPunct 45 Alone sp :: TLit r2 sp :: b)
| rp_neg_zero g1 r1 sp1 sp2 sp a b : denotes r1 = Some (MTok (KInt (T "0"))) ->
    sp = join_or sp1 sp2 -> reprints Q L a b ->
    reprints Q L (TPunct 45 g1 sp1 :: TLit r1 sp2 :: a) (TLit (T "0") sp :: b)
| rp_group d sp i left o a b : reprints Q L i o -> L left -> reprints Q L a b ->
    reprints Q L (TGroup d sp (i ++ left) :: a) (TGroup d sp o :: b).

(** An operator character may have become [Alone]. *)
Definition loose (c : char) (g1 g2 : spacing) : Prop := g2 = g1 \/ g2 = Alone.
(** Nothing left unprinted in any group. *)
Definition nothing : list tt -> Prop := fun left => left = [].

(** The operator characters and their spacing, in order, at any depth. *)
Fixpoint puncts1 (t : tt) : list (char * spacing) :=
  match t with
  | TPunct c g _ => [(c, g)]
  | TGroup _ _ l => (fix go l := match l with [] => [] | x :: r => puncts1 x ++ go r end) l
  | _ => []
  end.
Fixpoint puncts (l : list tt) : list (char * spacing) :=
  match l with [] => [] | x :: r => puncts1 x ++ puncts r end.

(** ** Conditions on the leaf types of a grammar. *)
Section Leaves.
Variable P : ty -> Prop.
Fixpoint leaves (t : ty) : Prop :=
  match t with
  | TyMaybe a b | TyPunctuated a b | TySeparated a b | TyLeftAssoc a b | TyRightAssoc a b | TyEither a b =>
      leaves a /\ leaves b
  | TyParen a | TyBracket a | TyBrace a | TyAny a | TyBox a => leaves a
  | TyRef _ => True
  | _ => P t
  end.
Definition def_leaves (d : tdef) : Prop :=
  match d with
  | DStruct c => Forall (fun f => leaves (snd f)) (c_fields c)
  | DEnum _ cs => Forall (fun c => Forall (fun f => leaves (snd f)) (c_fields c)) cs
  end.
Definition env_leaves (E : env) : Prop := forall i, def_leaves (E i).
End Leaves.

(** ** Values up to source locations. *)
Fixpoint strip (v : val) : val :=
  match v with
  | VIdent n _ => VIdent n call_site
  | VKw k _ => VKw k call_site
  | VOp op sps => VOp op (map (fun _ => call_site) sps)
  | VLit l _ => VLit l call_site
  | VUnit => VUnit
  | VNothing => VNothing
  | VJust p x => VJust (strip p) (strip x)
  | VGroup d _ x => VGroup d call_site (strip x)
  | VPunct inner last => VPunct (map (fun '(x, y) => (strip x, strip y)) inner) (option_map strip last)
  | VList l => VList (map strip l)
  | VBinL l o r => VBinL (strip l) (strip o) (strip r)
  | VRhs r => VRhs (strip r)
  | VBinR l o r => VBinR (strip l) (strip o) (strip r)
  | VLhs l => VLhs (strip l)
  | VLeft x => VLeft (strip x)
  | VRight x => VRight (strip x)
  | VStruct l => VStruct (map strip l)
  | VVariant k l => VVariant k (map strip l)
  end.
(** tokens up to source locations *)
Fixpoint unspan (t : tt) : tt :=
  match t with
  | TIdent n _ => TIdent n call_site
  | TPunct c g _ => TPunct c g call_site
  | TLit r _ => TLit r call_site
  | TGroup d _ l => TGroup d call_site (map unspan l)
  end.
End Reprint.
