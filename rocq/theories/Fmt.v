(** * Fmt: [TokenStreamFormatter] and the formatting helpers (parsel/src/util.rs:355-696). *)
From Verif Require Import Base Float Literal.
Local Open Scope nat_scope.

(** [char::is_whitespace]: in ASCII the space and U+0009..U+000D, elsewhere the table. *)
Definition is_white {U : unicode} (c : char) : bool :=
  if (c <? 128)%N then (c =? 32)%N || ((9 <=? c)%N && (c <=? 13)%N) else u_white c.

(** util.rs:359-364. [indent_string] only matters through [AsRef<str>]. *)
Record formatter (W : Type) := Formatter { f_level : nat; f_indent : option text; f_writer : W }.
Arguments Formatter {W}. Arguments f_level {W}. Arguments f_indent {W}. Arguments f_writer {W}.

(** [str::trim] *)
Fixpoint trim_start {U : unicode} (s : text) : text :=
  match s with
  | [] => []
  | c :: r => if is_white c then trim_start r else s
  end.
Definition trim {U : unicode} (s : text) : text := rev (trim_start (rev (trim_start s))).

(** util.rs:370-395. [None]: the error "indentation contains non-whitespace characters". *)
Definition with_indent {U : unicode} {W} (indent_string : text) (writer : W) : option (formatter W) :=
  match trim indent_string with
  | [] => Some (Formatter 0 (Some indent_string) writer)
  | _ => None
  end.

(** util.rs:507-580 [pretty] *)
Definition pretty {W} (writer : W) : formatter W := Formatter 0 (Some [32; 32; 32; 32]%N) writer.
(** util.rs:582-628 [compact] *)
Definition compact {W} (writer : W) : formatter W := Formatter 0 None writer.

Section Write.
(** [core::fmt::Write::write_str] of an arbitrary writer: [true] is [Ok(())]; a failing call may
    have changed the writer as well.  [write_char] is [write_str] of the one character. *)
Context {W : Type} (write_str : text -> W -> bool * W).

(** a computation on the formatter; [None] is [Err(fmt::Error)], passed on by [?] *)
Definition fm (A : Type) := formatter W -> option A * formatter W.
Definition fret {A} (v : A) : fm A := fun f => (Some v, f).
Definition fbind {A B} (m : fm A) (k : A -> fm B) : fm B := fun f =>
  match m f with
  | (Some v, f') => k v f'
  | (None, f') => (None, f')
  end.
Notation "m ';;' k" := (fbind m (fun _ => k)) (at level 61, right associativity).

Definition emit (s : text) : fm unit := fun f =>
  let '(ok, w) := write_str s (f_writer f) in
  ((if ok then Some Datatypes.tt else None), Formatter (f_level f) (f_indent f) w).

(** [self.indent_level += 1], [-= 1] (util.rs:448,453) *)
Definition level_up : fm unit := fun f => (Some Datatypes.tt, Formatter (S (f_level f)) (f_indent f) (f_writer f)).
Definition level_down : fm unit := fun f => (Some Datatypes.tt, Formatter (pred (f_level f)) (f_indent f) (f_writer f)).

(** util.rs:479-489 *)
Fixpoint emit_times (n : nat) (s : text) : fm unit :=
  match n with O => fret Datatypes.tt | S n' => emit s ;; emit_times n' s end.
Definition write_indent : fm unit := fun f =>
  match f_indent f with
  | Some s => emit_times (f_level f) s f
  | None => (Some Datatypes.tt, f)
  end.
(** util.rs:491-499 *)
Definition write_newline (sp : spacing) : fm unit := fun f =>
  match f_indent f, sp with
  | Some _, _ => emit [10%N] f
  | None, Alone => emit [32%N] f
  | None, Joint => (Some Datatypes.tt, f)
  end.
(** util.rs:501-504 *)
Definition write_newline_and_indent (sp : spacing) : fm unit := write_newline sp ;; write_indent.

(** [Display for Ident] in proc_macro2: a raw identifier is written in two pieces. *)
Definition write_ident (n : text) : fm unit :=
  match n with
  | a :: b :: r => if (a =? 114)%N && (b =? 35)%N then emit [a; b] ;; emit r else emit n
  | _ => emit n
  end.

(** util.rs:431-439 *)
Definition delimiters (d : delim) : option (char * char) :=
  match d with
  | DNone => None
  | DParen => Some (40, 41)%N
  | DBracket => Some (91, 93)%N
  | DBrace => Some (123, 125)%N
  end.

(** util.rs:408-466: one round of the loop of [write].  [more]: [iter.peek().is_some()];
    [sp]: the variable [spacing] before, the result is [spacing] after the round.  The nested
    [fix] is the loop itself, for the call [self.write(inner_stream)]. *)
Fixpoint write_tree (t : tt) (more : bool) (sp : spacing) : fm spacing :=
  (match sp with Joint => fret Datatypes.tt | Alone => emit [32%N] end) ;;
  match t with
  | TLit r _ => emit r ;; fret Alone
  | TIdent n _ => write_ident n ;; fret Alone
  | TPunct c g _ =>
      emit [c] ;;
      (if ((c =? 44)%N || (c =? 59)%N) && spacing_eqb g Alone && more
       then write_newline_and_indent g ;; fret Joint
       else fret g)
  | TGroup d _ inner =>
      let write_inner :=
        write_indent ;;
        (fix loop l sp :=
           match l with
           | [] => fret Datatypes.tt
           | x :: r => fbind (write_tree x (match r with [] => false | _ => true end) sp) (fun sp' => loop r sp')
           end) inner Joint in
      match delimiters d with
      | None => write_inner ;; fret Alone
      | Some (o, c) =>
          emit [o] ;;
          (match inner with
           | [] => fret Datatypes.tt
           | _ => level_up ;; write_newline Joint ;; write_inner ;; level_down ;; write_newline_and_indent Joint
           end) ;;
          emit [c] ;;
          (if more then write_newline_and_indent Alone ;; fret Joint else fret Alone)
      end
  end.
(** util.rs:405-466: the loop *)
Fixpoint write_loop (l : list tt) (sp : spacing) : fm unit :=
  match l with
  | [] => fret Datatypes.tt
  | x :: r => fbind (write_tree x (match r with [] => false | _ => true end) sp) (fun sp' => write_loop r sp')
  end.
(** util.rs:403-469 [TokenStreamFormatter::write] *)
Definition write (l : list tt) : fm unit := write_indent ;; write_loop l Joint.

(** the call [self.write(inner_stream)] inside the loop is [write] *)
Lemma write_tree_group d gsp inner more sp : write_tree (TGroup d gsp inner) more sp =
  ((match sp with Joint => fret Datatypes.tt | Alone => emit [32%N] end) ;;
   match delimiters d with
   | None => write inner ;; fret Alone
   | Some (o, c) =>
       emit [o] ;;
       (match inner with
        | [] => fret Datatypes.tt
        | _ => level_up ;; write_newline Joint ;; write inner ;; level_down ;; write_newline_and_indent Joint
        end) ;;
       emit [c] ;;
       (if more then write_newline_and_indent Alone ;; fret Joint else fret Alone)
   end).
Proof. reflexivity. Qed.
End Write.

(** [String as Write]: never fails. *)
Definition string_write (s w : text) : bool * text := (true, w ++ s).

(** util.rs:650-660 [format_tokens_pretty], [format_tokens_compact] into any writer: the result
    and the writer afterwards. [format_ast_node_*] (util.rs:630-648, through write_ast_node, 472-477) apply them to the node's tokens. *)
Definition format_tokens_pretty {W} (ws : text -> W -> bool * W) (l : list tt) (w : W) : bool * W :=
  let '(r, f) := write ws l (pretty w) in (match r with Some _ => true | None => false end, f_writer f).
Definition format_tokens_compact {W} (ws : text -> W -> bool * W) (l : list tt) (w : W) : bool * W :=
  let '(r, f) := write ws l (compact w) in (match r with Some _ => true | None => false end, f_writer f).
(** util.rs:662-696 [format_tokens], and [format_ast_node] on the node's tokens *)
Definition format_tokens {W} (ws : text -> W -> bool * W) (alternate : bool) (l : list tt) (w : W) : bool * W :=
  if alternate then format_tokens_compact ws l w else format_tokens_pretty ws l w.

(** [to_string()] of something displayed through [format_tokens] *)
Definition to_text (alternate : bool) (l : list tt) : text := snd (format_tokens string_write alternate l []).
(** what a formatter with the given indentation writes into a [String] *)
Definition text_with (ind : option text) (lvl : nat) (l : list tt) : text :=
  f_writer (snd (write string_write l (Formatter lvl ind []))).
