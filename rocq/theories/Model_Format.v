(** Model of core/src/formatter.rs: showing spans and positions. *)
From Coq Require Import String List NArith Arith Bool.
From Verif Require Import Model_Text Model_Position Model_Span Model_Message.
Import ListNotations.
Open Scope list_scope.

(** core/src/formatter.rs L26-62, the table inside [visualize_ws_and_cntrl]: left the matched
    character, right its replacement. *)
Definition pictures : list (char * char) :=
  ([(0x0, 0x2400); (0x1, 0x2401); (0x2, 0x2402); (0x3, 0x2403);
    (0x4, 0x2404); (0x5, 0x2405); (0x6, 0x2406); (0x7, 0x2407);
    (0x8, 0x2408); (0x9, 0x2409); (0xa, 0x240A); (0xb, 0x240B);
    (0xc, 0x240C); (0xd, 0x240D); (0xe, 0x240E); (0xf, 0x240F);
    (0x10, 0x2410); (0x11, 0x2411); (0x12, 0x2412); (0x13, 0x2413);
    (0x14, 0x2414); (0x15, 0x2415); (0x16, 0x2416); (0x17, 0x2417);
    (0x18, 0x2418); (0x19, 0x2419); (0x1a, 0x241A); (0x1b, 0x241B);
    (0x1c, 0x241C); (0x1d, 0x241D); (0x1e, 0x241E); (0x1f, 0x241F);
    (0x7f, 0x2421)])%N.

(** core/src/formatter.rs L25-62, the [match] on one character. *)
Definition visualize_char (c : char) : char :=
  match find (fun p => (fst p =? c)%N) pictures with
  | Some (_, p) => p
  | None => c
  end.

(** core/src/formatter.rs L23-65 [visualize_ws_and_cntrl]. *)
Definition visualize (line : text) : text := map visualize_char line.

(** [str::split_at] (used at core/src/formatter.rs L76, L77, L101): panics off boundaries. *)
Definition split_at (s : text) (n : nat) : outcome (text * text) :=
  match get_to s n, get_from s n with
  | Some a, Some b => Ret (a, b)
  | _, _ => Panic
  end.

(** core/src/formatter.rs L67-73 [Partition2] without its phantom field. *)
Record partition2 := mkPartition2 {
  p2_line : nat; p2_former : text; p2_middle : text; p2_latter : text }.

(** core/src/formatter.rs L75-90 [Partition2::new]. *)
Definition partition2_new (line : nat) (s : text) (col_start col_end : nat) : outcome partition2 :=
  let! (former, latter) := split_at s col_end in
  let! (former, middle) := split_at former col_start in
  Ret (mkPartition2 line (visualize former) (visualize middle) (visualize latter)).

(** core/src/formatter.rs L93-98 [Partition] without its phantom field. *)
Record partition := mkPartition { p_line : nat; p_former : text; p_latter : text }.

(** core/src/formatter.rs L100-111 [Partition::new]. *)
Definition partition_new (line : nat) (s : text) (col : nat) : outcome partition :=
  let! (former, latter) := split_at s col in
  Ret (mkPartition line (visualize former) (visualize latter)).

(** core/src/formatter.rs L149-157 [ceil_log10]. The loop runs fewer than [num] times, so the fuel
    [num] is never exhausted. *)
Fixpoint ceil_log10_loop (fuel digit i : nat) : nat :=
  match fuel with
  | 0 => digit
  | S k => if 10 <=? i then ceil_log10_loop k (digit + 1) (i / 10) else digit
  end.
Definition ceil_log10 (num : nat) : nat := ceil_log10_loop num 1 num.

(** [format!("{:w$}", n)] for an unsigned [n] (used at core/src/formatter.rs L175, L211, L248, L286,
    L310): the decimal digits, filled with blanks on the left up to [w] characters. *)
Definition padded (w n : nat) : text := spaces (w - length (decimal n)) ++ decimal n.

(** [writeln!(f)] (used at core/src/formatter.rs L173 and below). *)
Definition newline : text := [LF].

Section Format.
(** The three functions of [FormatOption] (core/src/formatter.rs L114-L121): what each writes for
    its argument. Simplification: stateless, never failing. *)
Variables span_formatter marker_formatter number_formatter : text -> text.
(** [UnicodeWidthStr::width_cjk] of the crate unicode-width. *)
Variable width_cjk : text -> nat.

(** core/src/formatter.rs L158-193 [display_snippet_single_pos]. *)
Definition display_snippet_single_pos (index_digit : nat) (line : partition) : text :=
  let spacing := spaces index_digit in
  spacing ++ lit " " ++ number_formatter (lit "|") ++ newline ++
  number_formatter (padded index_digit (p_line line + 1)) ++ lit " " ++
  number_formatter (lit "|") ++ lit " " ++ p_former line ++ p_latter line ++ newline ++
  spacing ++ lit " " ++ number_formatter (lit "|") ++
  lit " " ++ spaces (width_cjk (p_former line)) ++ marker_formatter (lit "^") ++ newline.

(** core/src/formatter.rs L194-234 [display_snippet_single_line]. *)
Definition display_snippet_single_line (index_digit : nat) (line : partition2) : text :=
  let spacing := spaces index_digit in
  spacing ++ lit " " ++ number_formatter (lit "|") ++ newline ++
  number_formatter (padded index_digit (p2_line line + 1)) ++ lit " " ++
  number_formatter (lit "|") ++ lit " " ++ p2_former line ++
  span_formatter (p2_middle line) ++ p2_latter line ++ newline ++
  spacing ++ lit " " ++ number_formatter (lit "|") ++
  lit " " ++ spaces (width_cjk (p2_former line)) ++
  marker_formatter (repeat 94%N (width_cjk (p2_middle line))) ++ newline.

(** core/src/formatter.rs L235-256 [display_full_covered_snippet]. *)
Definition display_full_covered_snippet (index_digit line : nat) (line_content : text) : text :=
  number_formatter (padded index_digit line) ++ lit " " ++ number_formatter (lit "|") ++ lit " " ++
  span_formatter line_content ++ newline.

(** core/src/formatter.rs L257-329 [display_snippet_multi_line]. *)
Definition display_snippet_multi_line (index_digit : nat) (start stop : partition)
    (inner : option text * option text * bool * option text) : text :=
  let '(inner_0, inner_1, inner_2, inner_3) := inner in
  let spacing := spaces index_digit in
  spacing ++ lit " " ++ number_formatter (lit "|") ++
  lit " " ++ spaces (width_cjk (p_former start)) ++ marker_formatter (lit "v") ++ newline ++
  number_formatter (padded index_digit (p_line start + 1)) ++ lit " " ++
  number_formatter (lit "|") ++ lit " " ++ p_former start ++
  span_formatter (p_latter start) ++ newline ++
  match inner_0 with
  | Some line => display_full_covered_snippet index_digit (p_line start + 2) line
  | None => []
  end ++
  match inner_1 with
  | Some line => display_full_covered_snippet index_digit (p_line start + 3) line
  | None =>
      if inner_2 then
        spacing ++ lit " " ++ number_formatter (lit "|") ++ lit " ..." ++ newline
      else []
  end ++
  match inner_3 with
  | Some line => display_full_covered_snippet index_digit (p_line stop) line
  | None => []
  end ++
  number_formatter (padded index_digit (p_line stop + 1)) ++ lit " " ++
  number_formatter (lit "|") ++ lit " " ++
  span_formatter (p_former stop) ++ p_latter stop ++ newline ++
  spacing ++ lit " " ++ number_formatter (lit "|") ++
  lit " " ++ spaces (width_cjk (p_former stop) - 1) ++ marker_formatter (lit "^") ++ newline.

(** core/src/formatter.rs L343-353 (the [while let] loop for the start) and L354-363 (the [for] loop
    for the end): look for the first of the lines [ls] whose end is not before [target]. The first
    line of [ls] has number [index] and starts at offset [pos]. Returns the line number and the
    byte column, and the state at the [break]: the lines not consumed (the found one included), the
    number of the first of them, and [pos]. [target - pos] does not underflow, as all lines before
    the found one end before [target]. *)
Fixpoint locate (target : nat) (ls : list text) (index pos : nat)
    : option (nat * nat) * (list text * nat * nat) :=
  match ls with
  | [] => (None, ([], index, pos))
  | line :: rest =>
      if target <=? pos + blen line then (Some (index, target - pos), (ls, index, pos))
      else locate target rest (index + 1) (pos + blen line)
  end.

(** core/src/formatter.rs L331-406 [display_span]. [Iterator::skip] and [take] are [skipn] and
    [firstn]. *)
Definition display_span (sp : span) : outcome text :=
  let! input := or_panic (span_new (sp_addr sp) (sp_input sp) 0 (blen (sp_input sp))) in
  let! all := lines (S (length (sp_input sp))) input in
  let '(start, (rest, index, pos)) := locate (sp_start sp) all 0 0 in
  let '(stop, _) := locate (sp_end sp) rest index pos in
  let! (start_line, start_col) := or_panic start in
  let! (end_line, end_col) := or_panic stop in
  let lines := firstn (end_line - start_line + 1) (skipn start_line all) in
  let index_digit := ceil_log10 (end_line + 1) in
  if start_line =? end_line then
    let! cur_line := or_panic (hd_error lines) in
    let! line := partition2_new start_line cur_line start_col end_col in
    Ret (display_snippet_single_line index_digit line)
  else
    let! first_line := or_panic (hd_error lines) in
    let! last_line := or_panic (hd_error (rev lines)) in
    let! start := partition_new start_line first_line start_col in
    let! stop := partition_new end_line last_line end_col in
    let! inner_first :=
      if 3 <=? length lines then
        let! l := or_panic (nth_error lines 1) in Ret (Some (visualize l))
      else Ret None in
    let! inner_mid :=
      if 6 <=? length lines then Ret (None, true)
      else if length lines =? 5 then
        let! l := or_panic (nth_error lines 2) in Ret (Some (visualize l), false)
      else Ret (None, false) in
    let! inner_last :=
      if 4 <=? length lines then
        let! l := or_panic (nth_error lines (length lines - 2)) in Ret (Some (visualize l))
      else Ret None in
    Ret (display_snippet_multi_line index_digit start stop
           (inner_first, fst inner_mid, snd inner_mid, inner_last)).

(** core/src/formatter.rs L420-433, the loop of [display_position]. *)
Fixpoint display_position_loop (position : nat) (ls : list text) (index pos : nat) : outcome text :=
  match ls with
  | [] => Ret []
  | line :: rest =>
      if position <? pos + blen line then
        let c := position - pos in
        let index_digit := ceil_log10 (index + 1) in
        let! line := partition_new index line c in
        Ret (display_snippet_single_pos index_digit line)
      else display_position_loop position rest (index + 1) (pos + blen line)
  end.

(** core/src/formatter.rs L408-435 [display_position]. *)
Definition display_position (p : position) : outcome text :=
  let! input := or_panic (span_new (p_addr p) (p_input p) 0 (blen (p_input p))) in
  let! all := lines (S (length (p_input p))) input in
  display_position_loop (p_pos p) all 0 0.

End Format.

(** core/src/span.rs L335-340 [Display for Span]: the default options of core/src/formatter.rs
    L124-132 write each argument as it is. *)
Definition span_display (width_cjk : text -> nat) (sp : span) : outcome text :=
  display_span (fun t => t) (fun t => t) (fun t => t) width_cjk sp.

(** core/src/position.rs L503-507 [Display for Position]. *)
Definition position_display (width_cjk : text -> nat) (p : position) : outcome text :=
  display_position (fun t => t) (fun t => t) width_cjk p.
