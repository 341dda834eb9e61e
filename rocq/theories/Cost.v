(** * Cost: how many parse calls a parse makes, and how deeply they nest (C55).

    The same parsers once more, each also returning what it did: the number of calls of [Parse::parse], and the
    deepest nesting of such calls.  [cost_erase] (CostFacts.v) shows that the rest of the result is that of [pty]. *)
From Verif Require Import Base Float Literal Syn Ast Derive Grammar.
Local Open Scope nat_scope.

(** calls made, and how deeply they nest *)
Record cost := Cost { calls : nat; depth : nat }.
Definition free : cost := Cost 0 0.
(** one after the other *)
Definition then_ (a b : cost) : cost := Cost (calls a + calls b) (max (depth a) (depth b)).
(** inside a call of [Parse::parse] *)
Definition inside (a : cost) : cost := Cost (S (calls a)) (S (depth a)).

Definition cparser (A : Type) := pstate -> outcome A * pstate * cost.
Definition w_leaf {A} (p : parser A) : cparser A := fun s => (p s, free).
Definition w_ret {A} (v : A) : cparser A := w_leaf (ret v).
(** [?] *)
Definition w_bind {A B} (p : cparser A) (k : A -> cparser B) : cparser B := fun s =>
  let '(o, s1, c) := p s in
  match o with
  | OOk v => let '(r, c2) := k v s1 in (r, then_ c c2)
  | OErr e => (OErr e, s1, c)
  | OPanic => (OPanic, s1, c)
  | ODiverge => (ODiverge, s1, c)
  end.
Definition w_pmap {A B} (f : A -> B) (p : cparser A) : cparser B := w_bind p (fun x => w_ret (f x)).
(** [Result::map_err] *)
Definition w_map_err {A} (f : error -> error) (p : cparser A) : cparser A := fun s =>
  let '(o, s1, c) := p s in (match o with OErr e => OErr (f e) | o => o end, s1, c).
(** a fork of the stream that is advanced over or dropped: the shape of ast.rs:927-936 ([Maybe]), 2011-2024
    ([Separated]), 2312-2323 ([Any]), 3965-3979 ([Either]) and util.rs:340-352 ([try_parse_variant]) *)
Definition w_speculate {A B} (p : cparser A) (y : A -> cparser B) (n : error -> cparser B) : cparser B := fun s =>
  let '(o, fk, c) := p (fork s) in
  match o with
  | OOk v => let '(r, c2) := y v (advance_to s fk) in (r, then_ c c2)
  | OErr e => let '(r, c2) := n e s in (r, then_ c c2)
  | OPanic => (OPanic, s, c)
  | ODiverge => (ODiverge, s, c)
  end.
(** [Maybe], ast.rs:915-939 *)
Definition w_maybe {P A} (pp : cparser P) (pa : cparser A) : cparser (option (P * A)) :=
  w_speculate pp (fun x => w_bind pa (fun v => w_ret (Some (x, v)))) (fun _ => w_ret None).
(** [Paren], [Bracket], [Brace], ast.rs:1066-1074, 1194-1202, 1329-1337 *)
Definition w_group {A} (d : delim) (p : cparser A) : cparser (span * A) := fun s =>
  match ignore_none (ps_rest s) with
  | TGroup d' sp inner :: r =>
      if delim_eqb d d' then
        let '(o, si, c) := p (PS inner (close_span sp) (ps_unexp s)) in
        let s' := PS r (ps_scope s) (drop_unexp (ps_unexp si) (ps_rest si)) in
        (match o with OOk v => OOk (sp, v) | OErr e => OErr e | OPanic => OPanic | ODiverge => ODiverge end, s', c)
      else (OErr (error_at s (delim_msg d)), s, free)
  | _ => (OErr (error_at s (delim_msg d)), s, free)
  end.
(** [syn::punctuated::Punctuated::parse_terminated], for [Punctuated], ast.rs:1587-1596 *)
Fixpoint w_terminated {A P} (fuel : nat) (pa : cparser A) (pp : cparser P) (acc : list (A * P)) : cparser (punctuated A P) := fun s =>
  match fuel with
  | O => (ODiverge, s, free)
  | S f =>
      if is_empty s then (OOk (Pn (rev acc) None), s, free)
      else w_bind pa (fun v => fun s1 =>
             if is_empty s1 then (OOk (Pn (rev acc) (Some v)), s1, free)
             else w_bind pp (fun p => w_terminated f pa pp ((v, p) :: acc)) s1) s
  end.
(** [Separated], ast.rs:2001-2028 *)
Fixpoint w_separated_loop {A P} (fuel : nat) (pa : cparser A) (pp : cparser P) (acc : list (A * P)) (cur : A) : cparser (punctuated A P) :=
  match fuel with
  | O => fun s => (ODiverge, s, free)
  | S f => w_speculate pp (fun p => w_bind pa (fun v => w_separated_loop f pa pp ((cur, p) :: acc) v)) (fun _ => w_ret (Pn (rev acc) (Some cur)))
  end.
Definition w_separated {A P} (fuel : nat) (pa : cparser A) (pp : cparser P) : cparser (punctuated A P) :=
  w_bind pa (fun head => w_separated_loop fuel pa pp [] head).
(** [Any], ast.rs:2307-2327 *)
Fixpoint w_any {A} (fuel : nat) (pa : cparser A) (acc : list A) : cparser (list A) :=
  match fuel with
  | O => fun s => (ODiverge, s, free)
  | S f => w_speculate pa (fun v => w_any f pa (v :: acc)) (fun _ => w_ret (rev acc))
  end.
(** [LeftAssoc], ast.rs:3423-3446; [RightAssoc], 3616-3639 *)
Definition w_left_assoc {O R} (fuel : nat) (po : cparser O) (pr : cparser R) : cparser (left_assoc O R) :=
  w_bind (w_separated fuel pr po) (fun seq => w_leaf (fun s =>
    match into_first_rest seq with Some (first, rest) => (OOk (build_left first rest), s) | None => (OPanic, s) end)).
Definition w_right_assoc {O L} (fuel : nat) (po : cparser O) (pl : cparser L) : cparser (right_assoc O L) :=
  w_bind (w_separated fuel pl po) (fun seq => w_leaf (fun s =>
    match into_last_rest seq with Some (last, rest) => (OOk (build_right last rest), s) | None => (OPanic, s) end)).
(** [Either], ast.rs:3955-3981 *)
Definition w_either {L R} (pl : cparser L) (pr : cparser R) : cparser (either L R) :=
  w_speculate pl (fun v => w_ret (ELeft v)) (fun e1 => w_speculate pr (fun v => w_ret (ERight v)) (fun e2 => w_leaf (fail (max_error e1 e2)))).
(** derived structs and enums: parsel_derive/src/parse.rs:44-97 and 99-136, util.rs:331-354 *)
Fixpoint w_fields (enum_ ctor : text) (fs : list (label * cparser val)) : cparser (list val) :=
  match fs with
  | [] => w_ret []
  | (l, p) :: r => w_bind (w_map_err (chain_error enum_ ctor l) p) (fun v => w_bind (w_fields enum_ ctor r) (fun vs => w_ret (v :: vs)))
  end.
Fixpoint w_variants (ename : text) (k : nat) (acc : option error) (vs : list (text * list (label * cparser val))) : cparser (nat * list val) :=
  match vs with
  | [] => w_leaf (fun s => (OErr (match acc with Some e => e | None => error_at s (T "parsing an empty choice (enum) always fails") end), s))
  | (ctor, fs) :: r =>
      w_speculate (w_fields ename ctor fs) (fun v => w_ret (k, v))
        (fun e => w_variants ename (S k) (Some (match acc with Some a => max_error a e | None => e end)) r)
  end.
Definition w_def (p : ty -> cparser val) (d : tdef) : cparser val :=
  match d with
  | DStruct c => w_pmap VStruct (w_fields [] (c_name c) (map (fun '(l, t) => (l, p t)) (c_fields c)))
  | DEnum name cs =>
      w_pmap (fun '(k, vs) => VVariant k vs)
             (w_variants name 0 None (map (fun c => (c_name c, map (fun '(l, t) => (l, p t)) (c_fields c))) cs))
  end.
Section Grammar.
Context {U : unicode}.
(** the parsers by type: [p_layer] of Grammar.v *)
Definition w_layer (E : env) (n : nat) (p : ty -> cparser val) (t : ty) : cparser val :=
  match t with
  | TyIdent => w_pmap (fun i => VIdent (fst i) (snd i)) (w_leaf p_ident)
  | TyCustomIdent kws => w_pmap (fun i => VIdent (fst i) (snd i)) (w_leaf (p_custom_ident kws))
  | TyKeyword kw => w_pmap (VKw kw) (w_leaf (p_keyword kw))
  | TyTokenKw kw => w_pmap (VKw kw) (w_leaf (p_token_kw kw))
  | TyToken op => w_pmap (VOp op) (w_leaf (p_token op))
  | TyLit k => w_pmap (fun x => VLit (fst x) (snd x)) (w_leaf (p_litty k))
  | TyAnyLit => w_pmap (fun x => VLit (fst x) (snd x)) (w_leaf p_any_lit)
  | TyEmpty => w_pmap (fun _ => VUnit) (w_leaf p_empty)
  | TyEof => w_pmap (fun _ => VUnit) (w_leaf p_eof)
  | TyNotEof => w_pmap (fun _ => VUnit) (w_leaf p_not_eof)
  | TyMaybe a b => w_pmap (fun o => match o with Some (x, y) => VJust x y | None => VNothing end) (w_maybe (p a) (p b))
  | TyParen a => w_pmap (fun x => VGroup DParen (fst x) (snd x)) (w_group DParen (p a))
  | TyBracket a => w_pmap (fun x => VGroup DBracket (fst x) (snd x)) (w_group DBracket (p a))
  | TyBrace a => w_pmap (fun x => VGroup DBrace (fst x) (snd x)) (w_group DBrace (p a))
  | TyPunctuated a b => w_pmap (fun x => VPunct (pn_inner x) (pn_last x)) (w_terminated n (p a) (p b) [])
  | TySeparated a b => w_pmap (fun x => VPunct (pn_inner x) (pn_last x)) (w_separated n (p a) (p b))
  | TyAny a => w_pmap VList (w_any n (p a) [])
  | TyLeftAssoc o r => w_pmap val_of_left (w_left_assoc n (p o) (p r))
  | TyRightAssoc o l => w_pmap val_of_right (w_right_assoc n (p o) (p l))
  | TyEither a b => w_pmap (fun x => match x with ELeft v => VLeft v | ERight v => VRight v end) (w_either (p a) (p b))
  | TyBox a => p a
  | TyRef i => w_def p (E i)
  end.
(** [<t as Parse>::parse]: one call, and those it makes *)
Fixpoint wty (E : env) (n : nat) (t : ty) : cparser val := fun s =>
  match n with
  | O => (ODiverge, s, free)
  | S m => let '(r, c) := w_layer E m (wty E m) t s in (r, inside c)
  end.
End Grammar.
