(** * Offsets: positions in a source text (parsel/src/util.rs:98-290).

    A Rust [str] is the sequence of its [char]s; its bytes are their UTF-8 encodings, of which
    only the lengths matter here. *)
From Verif Require Import Base Float Literal Syn Fmt Lexer.
Local Open Scope nat_scope.

(** [char::len_utf8] *)
Definition len_utf8 (c : char) : nat :=
  if (c <? 128)%N then 1 else if (c <? 2048)%N then 2 else if (c <? 65536)%N then 3 else 4.
(** [str::len] *)
Fixpoint str_len (s : text) : nat := match s with [] => 0 | c :: r => len_utf8 c + str_len r end.

(** [str::split_inclusive('\n')]: lines with their newline; no empty last line *)
Fixpoint split_inclusive (s : text) : list text :=
  match s with
  | [] => []
  | c :: r =>
      if (c =? 10)%N then [c] :: split_inclusive r
      else match split_inclusive r with [] => [[c]] | l :: ls => (c :: l) :: ls end
  end.
(** [str::char_indices] *)
Fixpoint char_indices (at_ : nat) (s : text) : list (nat * char) :=
  match s with [] => [] | c :: r => (at_, c) :: char_indices (at_ + len_utf8 c) r end.

(** [byte_offset] (parsel/src/util.rs:188-209).  [lc_line loc - 1] is [saturating_sub(1)]. *)
Definition byte_offset (source : text) (loc : lc) : nat :=
  let lines := split_inclusive source in
  let k := lc_line loc - 1 in
  let line_offset := list_sum (map str_len (firstn k lines)) in
  let char_offset :=
    match skipn k lines with
    | [] => 0
    | line :: _ => match nth_error (char_indices 0 line) (lc_col loc) with Some (i, _) => i | None => str_len line end
    end in
  line_offset + char_offset.
(** [char_offset] (parsel/src/util.rs:211-229) *)
Definition char_offset (source : text) (loc : lc) : nat :=
  let line_offset := List.length (List.concat (firstn (lc_line loc - 1) (split_inclusive source))) in
  line_offset + lc_col loc.

(** [SpannedExt::byte_range], [char_range] (parsel/src/util.rs:136-142, 168-174), given the span of the node *)
Definition byte_range (source : text) (sp : span) : nat * nat := (byte_offset source (sp_start sp), byte_offset source (sp_end sp)).
Definition char_range (source : text) (sp : span) : nat * nat := (char_offset source (sp_start sp), char_offset source (sp_end sp)).

(** Indexing a [str] by a byte range: a panic ([None]) unless the range is ordered, inside the
    string and its ends are on character boundaries. *)
Fixpoint drop_bytes (n : nat) (s : text) : option text :=
  match s with
  | [] => if Nat.eqb n 0 then Some [] else None
  | c :: r => if Nat.eqb n 0 then Some s else if Nat.leb (len_utf8 c) n then drop_bytes (n - len_utf8 c) r else None
  end.
Fixpoint take_bytes (n : nat) (s : text) : option text :=
  match s with
  | [] => if Nat.eqb n 0 then Some [] else None
  | c :: r => if Nat.eqb n 0 then Some []
              else if Nat.leb (len_utf8 c) n then match take_bytes (n - len_utf8 c) r with Some t => Some (c :: t) | None => None end
              else None
  end.
Definition str_index (s : text) (range : nat * nat) : option text :=
  let '(a, b) := range in
  if Nat.leb a b then match drop_bytes a s with Some r => take_bytes (b - a) r | None => None end else None.
(** [SpannedExt::source_substring] (parsel/src/util.rs:108-110) *)
Definition source_substring (source : text) (sp : span) : option text := str_index source (byte_range source sp).

(** [Display for SpanDisplay] (parsel/src/util.rs:278-289) *)
Definition span_display (sp : span) : text :=
  dec (N.of_nat (lc_line (sp_start sp))) ++ [58%N] ++ dec (N.of_nat (lc_col (sp_start sp) + 1)) ++ [46; 46]%N ++
  dec (N.of_nat (lc_line (sp_end sp))) ++ [58%N] ++ dec (N.of_nat (lc_col (sp_end sp))).
