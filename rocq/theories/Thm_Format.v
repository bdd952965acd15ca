(** Theorems about the display of spans and positions (core/src/formatter.rs). *)
From Coq Require Import String List NArith Arith Bool.
From Verif Require Import Model_Text Model_Position Model_Span Model_Message Model_Format
  Spec_Text Spec_Message Spec_Format Proof_Span Proof_Message Proof_Format.
Import ListNotations.
Open Scope list_scope.

(** C33, a span within one line: the line with its number, the covered part written by the
    formatter for covered text, and markers below exactly that part. A span that starts at the
    beginning of a line other than the first is not of this form (see
    [C33_line_start_refuted]). *)
Theorem C33_one_line : forall covered marker number width num addr s La f m g Lz vf vm vg,
  numbering num ->
  split_lines s = La ++ (f ++ m ++ g) :: Lz -> (f = [] -> La = []) ->
  visible f vf -> visible m vm -> visible g vg ->
  display_span covered marker number width
    (mkSpan addr s (blen (concat La ++ f)) (blen (concat La ++ f ++ m))) =
  Ret (one_line covered marker number width num (length La + 1) vf vm vg).
Proof.
  intros covered marker number width num addr s La f m g Lz vf vm vg NUM SL.
  assert (s = concat La ++ (f ++ m ++ g) ++ concat Lz) as -> by
    (rewrite <- (concat_split_lines s), SL, concat_app; reflexivity).
  exact (fun C => display_span_one_line covered marker number width num NUM addr La f m g Lz vf vm vg SL C).
Qed.
Print Assumptions C33_one_line.
Example C33_one_line_ex :
  split_lines (lit "12" ++ [10]%N ++ lit "345" ++ [10]%N) = [lit "12" ++ [10]%N] ++ (lit "3" ++ lit "4" ++ (lit "5" ++ [10]%N)) :: [] /\
  span_display (@length _) (mkSpan 7 (lit "12" ++ [10]%N ++ lit "345" ++ [10]%N) 4 5) =
  Ret (lit "  |" ++ [10]%N ++ lit "2 | 345" ++ [0x240A; 10]%N ++ lit "  |  ^" ++ [10]%N).
Proof. split; vm_compute; reflexivity. Qed.

(** C33, a span over several lines: the first line from the start of the span, up to three of the
    lines in between (an ellipsis in the middle if there are more), and the last line to the end of
    the span, all with their numbers. *)
Theorem C33_many_lines : forall covered marker number width num addr s La f1 g1 ms f2 g2 Lz vf1 vg1 vms vf2 vg2,
  numbering num ->
  split_lines s = La ++ (f1 ++ g1) :: ms ++ (f2 ++ g2) :: Lz -> (f1 = [] -> La = []) -> f2 <> [] ->
  visible f1 vf1 -> visible g1 vg1 -> Forall2 visible ms vms -> visible f2 vf2 -> visible g2 vg2 ->
  display_span covered marker number width
    (mkSpan addr s (blen (concat La ++ f1)) (blen (concat La ++ (f1 ++ g1) ++ concat ms ++ f2))) =
  Ret (many_lines covered marker number width num (length La + 1) vf1 vg1 vms vf2 vg2).
Proof.
  intros covered marker number width num addr s La f1 g1 ms f2 g2 Lz vf1 vg1 vms vf2 vg2 NUM SL.
  assert (s = concat La ++ (f1 ++ g1) ++ concat ms ++ (f2 ++ g2) ++ concat Lz) as -> by
    (rewrite <- (concat_split_lines s), SL, concat_app; cbn [concat]; rewrite concat_app; reflexivity).
  exact (fun C N => display_span_many_lines covered marker number width num NUM addr La f1 g1 ms f2 g2 Lz
    vf1 vg1 vms vf2 vg2 SL C N).
Qed.
Print Assumptions C33_many_lines.
Example C33_many_lines_ex :
  let s := lit "ab" ++ [10]%N ++ lit "c" ++ [10]%N ++ lit "de" in
  split_lines s = [] ++ (lit "a" ++ (lit "b" ++ [10]%N)) :: [lit "c" ++ [10]%N] ++ (lit "d" ++ lit "e") :: [] /\
  span_display (@length _) (mkSpan 7 s 1 6) =
  Ret (lit "  |  v" ++ [10]%N ++ lit "1 | ab" ++ [0x240A; 10]%N ++ lit "2 | c" ++ [0x240A; 10]%N ++
       lit "3 | de" ++ [10]%N ++ lit "  | ^" ++ [10]%N).
Proof. split; vm_compute; reflexivity. Qed.

(** C33, the two cases are exhaustive for valid spans of a non-empty input. *)
Theorem C33_cases : forall a m r, a ++ m ++ r <> [] ->
  (exists La f g Lz, split_lines (a ++ m ++ r) = La ++ (f ++ m ++ g) :: Lz /\ a = concat La ++ f /\
     (f = [] -> La = [])) \/
  (exists La f1 g1 ms f2 g2 Lz, split_lines (a ++ m ++ r) = La ++ (f1 ++ g1) :: ms ++ (f2 ++ g2) :: Lz /\
     a = concat La ++ f1 /\ a ++ m = concat La ++ (f1 ++ g1) ++ concat ms ++ f2 /\
     (f1 = [] -> La = []) /\ f2 <> []).
Proof. exact span_cases. Qed.
Print Assumptions C33_cases.
Example C33_cases_ex : lit "a" ++ [10]%N ++ lit "b" <> [].
Proof. discriminate. Qed.

(** C33, no panic and between three and seven rows. *)
Theorem C33_rows : forall width addr a m r, a ++ m ++ r <> [] ->
  exists t, span_display width (mkSpan addr (a ++ m ++ r) (blen a) (blen (a ++ m))) = Ret t /\
    3 <= lf_count t <= 7.
Proof. exact span_display_rows. Qed.
Print Assumptions C33_rows.
Example C33_rows_ex :
  match span_display (@length _) (mkSpan 7 (flat_map (fun c => [c; 10]%N) (lit "abcdefgh")) 0 15) with
  | Ret t => lf_count t = 7
  | _ => False
  end.
Proof. vm_compute. reflexivity. Qed.

(** C33 is false for the empty input: displaying its only span panics. *)
Theorem C33_empty_input_refuted : forall width addr,
  span_new addr [] 0 0 = Some (mkSpan addr [] 0 0) /\ span_display width (mkSpan addr [] 0 0) = Panic.
Proof. intros. split; reflexivity. Qed.
Print Assumptions C33_empty_input_refuted.

(** C33, "the first row shows the first covered line" is false: a span of exactly the second line of
    "123\n456\n" is shown as starting at the end of the first line. *)
Theorem C33_line_start_refuted : exists s,
  split_lines s = [lit "123" ++ [10]; lit "456" ++ [10]]%N /\
  as_str (mkSpan 7 s 4 7) = Ret (lit "456") /\
  span_display (@length _) (mkSpan 7 s 4 7) =
  Ret (lit "  |     v" ++ [10]%N ++ lit "1 | 123" ++ [0x240A; 10]%N ++
       lit "2 | 456" ++ [0x240A; 10]%N ++ lit "  |   ^" ++ [10]%N).
Proof. exists (lit "123" ++ [10]%N ++ lit "456" ++ [10]%N). split; [|split]; vm_compute; reflexivity. Qed.
Print Assumptions C33_line_start_refuted.

(** C34: a position before the character after [f] in a line: the line with its number and one
    marker below that character. *)
Theorem C34_point : forall marker number width num addr s La f g Lz vf vg,
  numbering num -> split_lines s = La ++ (f ++ g) :: Lz -> g <> [] -> visible f vf -> visible g vg ->
  display_position marker number width (mkPosition addr s (blen (concat La ++ f))) =
  Ret (point marker number width num (length La + 1) vf vg).
Proof.
  intros marker number width num addr s La f g Lz vf vg NUM SL.
  assert (s = concat La ++ (f ++ g) ++ concat Lz) as -> by
    (rewrite <- (concat_split_lines s), SL, concat_app; reflexivity).
  exact (fun N => display_position_point (fun t => t) marker number width num NUM addr La f g Lz vf vg SL N).
Qed.
Print Assumptions C34_point.
Example C34_point_ex :
  let s := lit "12" ++ [10]%N ++ lit "345" in
  split_lines s = [lit "12" ++ [10]%N] ++ (lit "3" ++ lit "45") :: [] /\ lit "45" <> [] /\
  position_display (@length _) (mkPosition 7 s 4) =
  Ret (lit "  |" ++ [10]%N ++ lit "2 | 345" ++ [10]%N ++ lit "  |  ^" ++ [10]%N).
Proof. split; [reflexivity|]. split; [discriminate|vm_compute; reflexivity]. Qed.

(** C33 and C34, [Display] writes text, markers and numbers as they are, in plain decimal numbers. *)
Theorem C33_display : forall width num addr s La f m g Lz vf vm vg,
  numbering num -> split_lines s = La ++ (f ++ m ++ g) :: Lz -> (f = [] -> La = []) -> visible f vf -> visible m vm -> visible g vg ->
  span_display width (mkSpan addr s (blen (concat La ++ f)) (blen (concat La ++ f ++ m))) =
  Ret (one_line (fun t => t) (fun t => t) (fun t => t) width num (length La + 1) vf vm vg).
Proof. intros width. exact (C33_one_line (fun t => t) (fun t => t) (fun t => t) width). Qed.
Print Assumptions C33_display.
Example C33_display_ex :
  split_lines (lit "12" ++ [10]%N ++ lit "345") = [lit "12" ++ [10]%N] ++ (lit "3" ++ lit "45" ++ []) :: [] /\
  one_line (fun t => t) (fun t => t) (fun t => t) (@length _) decimal 2 (lit "3") (lit "45") [] =
  lit "  |" ++ [10]%N ++ lit "2 | 345" ++ [10]%N ++ lit "  |  ^^" ++ [10]%N.
Proof. split; vm_compute; reflexivity. Qed.
Theorem C33_display_many : forall width num addr s La f1 g1 ms f2 g2 Lz vf1 vg1 vms vf2 vg2,
  numbering num -> split_lines s = La ++ (f1 ++ g1) :: ms ++ (f2 ++ g2) :: Lz -> (f1 = [] -> La = []) -> f2 <> [] ->
  visible f1 vf1 -> visible g1 vg1 -> Forall2 visible ms vms -> visible f2 vf2 -> visible g2 vg2 ->
  span_display width (mkSpan addr s (blen (concat La ++ f1)) (blen (concat La ++ (f1 ++ g1) ++ concat ms ++ f2))) =
  Ret (many_lines (fun t => t) (fun t => t) (fun t => t) width num (length La + 1) vf1 vg1 vms vf2 vg2).
Proof. intros width. exact (C33_many_lines (fun t => t) (fun t => t) (fun t => t) width). Qed.
Print Assumptions C33_display_many.
Example C33_display_many_ex :
  split_lines (lit "12" ++ [10]%N ++ lit "345") = [] ++ (lit "1" ++ (lit "2" ++ [10]%N)) :: [] ++ (lit "34" ++ lit "5") :: [] /\
  many_lines (fun t => t) (fun t => t) (fun t => t) (@length _) decimal 1 (lit "1") (lit "2") [] (lit "34") (lit "5") =
  lit "  |  v" ++ [10]%N ++ lit "1 | 12" ++ [10]%N ++ lit "2 | 345" ++ [10]%N ++ lit "  |  ^" ++ [10]%N.
Proof. split; vm_compute; reflexivity. Qed.
Theorem C34_display : forall width num addr s La f g Lz vf vg,
  numbering num -> split_lines s = La ++ (f ++ g) :: Lz -> g <> [] -> visible f vf -> visible g vg ->
  position_display width (mkPosition addr s (blen (concat La ++ f))) =
  Ret (point (fun t => t) (fun t => t) width num (length La + 1) vf vg).
Proof. intros width. exact (C34_point (fun t => t) (fun t => t) width). Qed.
Print Assumptions C34_display.
Example C34_display_ex : numbering decimal /\
  split_lines (lit "12" ++ [10]%N ++ lit "345") = [lit "12" ++ [10]%N] ++ (lit "3" ++ lit "45") :: [] /\
  visible (lit "3") (lit "3") /\ visible (lit "45") (lit "45") /\
  point (fun t => t) (fun t => t) (@length _) decimal 2 (lit "3") (lit "45") = lit "  |" ++ [10]%N ++ lit "2 | 345" ++ [10]%N ++ lit "  |  ^" ++ [10]%N.
Proof.
  split; [intro; apply decimal_spec|]. split; [reflexivity|].
  split; [|split; [|vm_compute; reflexivity]]; repeat (apply Forall2_cons; [right; right; split; [intros [?|?]; discriminate|reflexivity]|]); apply Forall2_nil.
Qed.

(** C34, every valid position except the end of the input is of this form. *)
Theorem C34_cases : forall a b, b <> [] ->
  exists La f g Lz, split_lines (a ++ b) = La ++ (f ++ g) :: Lz /\ a = concat La ++ f /\ g <> [].
Proof. exact position_cases. Qed.
Print Assumptions C34_cases.
Example C34_cases_ex : lit "b" <> [].
Proof. discriminate. Qed.

(** C34 is false at the end of the input: nothing at all is shown. *)
Theorem C34_end_refuted : forall width addr s,
  position_new s (blen s) = Some (blen s) /\
  position_display width (mkPosition addr s (blen s)) = Ret [].
Proof.
  intros width addr s. split.
  - unfold position_new. pose proof (Proof_Text.get_from_app s []) as G. rewrite app_nil_r in G.
    rewrite G. reflexivity.
  - exact (display_position_end (fun t => t) (fun t => t) width addr s).
Qed.
Print Assumptions C34_end_refuted.

(** C35: every control character becomes its picture, every other character is kept. *)
Theorem C35_visible : forall t v, visualize t = v <-> visible t v.
Proof.
  intros t v. split; [intros <-; exact (visualize_spec t)|]. intro H. symmetry. exact (visible_unique t v H).
Qed.
Print Assumptions C35_visible.
Example C35_visible_ex : visible [97; 10; 127]%N [97; 0x240A; 0x2421]%N.
Proof. apply C35_visible. reflexivity. Qed.

(** C35: no control characters are left, and the number of characters stays. *)
Theorem C35_no_control : forall t,
  Forall (fun c => ~ is_control c) (visualize t) /\ length (visualize t) = length t.
Proof.
  intro t. split; [exact (visible_no_control t _ (visualize_spec t))|exact (visible_length t _ (visualize_spec t))].
Qed.
Print Assumptions C35_no_control.
Example C35_no_control_ex : is_control 10%N /\ visualize [97; 10]%N = [97; 0x240A]%N.
Proof. split; [left; reflexivity|reflexivity]. Qed.

(** C35: a text without control characters is unchanged. *)
Theorem C35_identity : forall t, Forall (fun c => ~ is_control c) t -> visualize t = t.
Proof. intros t H. symmetry. exact (visible_unique t t (visible_id t H)). Qed.
Print Assumptions C35_identity.
Example C35_identity_ex : Forall (fun c => ~ is_control c) [32; 97; 0x240A]%N.
Proof. repeat (apply Forall_cons; [intros [H|H]; discriminate|]). apply Forall_nil. Qed.
