(** * Examples: a concrete instance used to show that hypotheses are satisfiable. *)
From Verif Require Import Base Float Literal Syn Ast Derive Grammar Spec.

(** Unicode tables that know nothing outside ASCII (ASCII is fixed by the model). *)
Definition ascii_only : unicode :=
  {| u_printable := fun _ => false; u_xid_start := fun _ => false; u_xid_continue := fun _ => false;
     u_white := fun c => (c =? 32)%N || ((9 <=? c)%N && (c <=? 13)%N) |}.
Local Existing Instance ascii_only.

(** columns a..b of line 1 of the parsed source *)
Definition sp (a b : nat) : span := Span 1 (LC 1 a) (LC 1 b).
Definition word (w : string) (a : nat) : tt := TIdent (T w) (sp a (a + String.length w)).
Definition num (w : string) (a : nat) : tt := TLit (T w) (sp a (a + String.length w)).
Definition punct (c : ascii) (s : spacing) (a : nat) : tt := TPunct (ch c) s (sp a (a + 1)).
Definition parens (a b : nat) (l : list tt) : tt := TGroup DParen (sp a b) l.

(** struct Assign { lhs: Ident, eq: Token![=], rhs: Expr }
    enum Expr { Call { f: Ident, args: Paren<Punctuated<Expr, Token![,]>> }, Lit(LitInt), Var(Ident) }
    enum Empty {}   enum RightRec { Binary(Ident, Token![^], Box<RightRec>), Lhs(Ident) }
    enum Two { A(Ident, Ident), B(LitInt) } *)
Definition assign : nat := 0.
Definition expr : nat := 1.
Definition voidty : nat := 2.
Definition rrec : nat := 3.
Definition two : nat := 4.
Definition GE : env := fun i =>
  match i with
  | 0 => DStruct (Ctor (T "Assign") [(LName (T "lhs"), TyIdent); (LName (T "eq"), TyToken [61%N]);
                                     (LName (T "rhs"), TyRef expr)])
  | 1 => DEnum (T "Expr")
           [Ctor (T "Call") [(LName (T "f"), TyIdent);
                             (LName (T "args"), TyParen (TyPunctuated (TyRef expr) (TyToken [44%N])))];
            Ctor (T "Lit") [(LIndex 0, TyLit LtInt)];
            Ctor (T "Var") [(LIndex 0, TyIdent)]]
  | 2 => DEnum (T "Void") []
  | 3 => DEnum (T "RightRec")
           [Ctor (T "Binary") [(LIndex 0, TyIdent); (LIndex 1, TyToken [94%N]); (LIndex 2, TyBox (TyRef rrec))];
            Ctor (T "Lhs") [(LIndex 0, TyIdent)]]
  | 4 => DEnum (T "Two") [Ctor (T "A") [(LIndex 0, TyIdent); (LIndex 1, TyIdent)];
                          Ctor (T "B") [(LIndex 0, TyLit LtInt)]]
  | 5 => DEnum (T "Groups") [Ctor (T "One") [(LIndex 0, TyParen TyIdent)];
                             Ctor (T "Pair") [(LIndex 0, TyParen (TyRef 6))]]
  | 6 => DStruct (Ctor (T "P") [(LIndex 0, TyIdent); (LIndex 1, TyIdent)])
  | 7 => DEnum (T "E") [Ctor (T "Left") [(LIndex 0, TyIdent)]; Ctor (T "Right") [(LIndex 0, TyLit LtInt)]]
  | _ => DStruct (Ctor (T "Unit") [])
  end.
Lemma GE_named : named GE.
Proof. intros [|[|[|[|[|[|[|[|i]]]]]]]] en cs H; cbn in H; try discriminate; injection H as <- <-; discriminate. Qed.

(** x = f(1, y) *)
Definition src1 : list tt :=
  [word "x" 0; punct "=" Alone 2; word "f" 4; parens 5 11 [num "1" 6; punct "," Alone 7; word "y" 9]].
Definition val1 : val :=
  VStruct [VIdent (T "x") (sp 0 1); VOp [61%N] [sp 2 3];
           VVariant 0 [VIdent (T "f") (sp 4 5);
             VGroup DParen (sp 5 11)
               (VPunct [(VVariant 1 [VLit (LInt 1) (sp 6 7)], VOp [44%N] [sp 7 8])]
                       (Some (VVariant 2 [VIdent (T "y") (sp 9 10)])))]].
Example parse_src1 : parse2 (pty GE 20 (TyRef assign)) src1 = ROk val1.
Proof. vm_compute. reflexivity. Qed.
