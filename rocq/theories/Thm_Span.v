(** Theorems about core/src/span.rs. *)
From Coq Require Import String List NArith Arith Bool Lia.
From Verif Require Import Model_Text Model_Position Model_Span Spec_Text Spec_Span
  Proof_Text Proof_Position Proof_Span.
Import ListNotations.
Open Scope list_scope.

(** C10: spans are created exactly for valid ranges. *)
Theorem C10_span_new : forall addr s i j sp,
  span_new addr s i j = Some sp <->
  (i <= j /\ boundary s i /\ boundary s j) /\ sp = mkSpan addr s i j.
Proof. exact span_new_some. Qed.
Print Assumptions C10_span_new.
Example C10_span_new_ex :
  span_new 7 (lit "abc") 1 2 = Some (mkSpan 7 (lit "abc") 1 2) /\ span_new 7 (lit "abc") 2 1 = None /\
  span_new 7 [233%N] 1 2 = None.
Proof. repeat split. Qed.

(** C10: the text of a span, and its two ends. *)
Theorem C10_span_text : forall addr a m r,
  let sp := mkSpan addr (a ++ m ++ r) (blen a) (blen (a ++ m)) in
  as_str sp = Ret m /\ blen m = sp_end sp - sp_start sp /\
  start_pos sp = Ret (mkPosition addr (a ++ m ++ r) (blen a)) /\
  end_pos sp = Ret (mkPosition addr (a ++ m ++ r) (blen (a ++ m))) /\
  split sp = Ret (mkPosition addr (a ++ m ++ r) (blen a), mkPosition addr (a ++ m ++ r) (blen (a ++ m))).
Proof. exact span_text_full. Qed.
Print Assumptions C10_span_text.
Example C10_span_text_ex : as_str (mkSpan 7 (lit "abc") 1 2) = Ret (lit "b").
Proof. reflexivity. Qed.

(** C11: sub-spans. *)
Theorem C11_span_get : forall addr a m r lo hi i j,
  range_of (blen m) lo hi = (i, j) ->
  let sp := mkSpan addr (a ++ m ++ r) (blen a) (blen (a ++ m)) in
  (i <= j /\ boundary m i /\ boundary m j ->
     exists x t y, m = x ++ t ++ y /\ i = blen x /\ j = blen (x ++ t) /\
       exists sub, span_get sp lo hi = Ret (Some sub) /\ as_str sub = Ret t /\
         sub = mkSpan addr (a ++ m ++ r) (blen (a ++ x)) (blen (a ++ x ++ t))) /\
  (~ (i <= j /\ boundary m i /\ boundary m j) -> span_get sp lo hi = Ret None).
Proof. exact span_get_full. Qed.
Print Assumptions C11_span_get.
Example C11_span_get_ex :
  span_get (mkSpan 7 (lit "hello") 1 4) (Included 1) (Included 2) = Ret (Some (mkSpan 7 (lit "hello") 2 4)) /\
  span_get (mkSpan 7 (lit "hello") 1 4) (Excluded 0) Unbounded = Ret (Some (mkSpan 7 (lit "hello") 2 4)) /\
  span_get (mkSpan 7 (lit "hello") 1 4) Unbounded (Excluded 4) = Ret None.
Proof. repeat split. Qed.

(** C12, what the iteration yields: exactly the lines [p, q) of the input with start < q and
    p <= end, in order. *)
Theorem C12_lines : forall addr a m r fuel,
  let s := a ++ m ++ r in
  let sp := mkSpan addr s (blen a) (blen (a ++ m)) in
  length s < fuel ->
  lines_span fuel sp =
  Ret (map (span_of sp)
         (filter (fun pq => (blen a <? snd pq) && (fst pq <=? blen (a ++ m))) (line_ranges s))).
Proof. exact lines_span_spec. Qed.
Print Assumptions C12_lines.
Example C12_lines_ex :
  lines_span 10 (mkSpan 7 [97; 10; 98; 10; 99]%N 1 3) =
  Ret [mkSpan 7 [97; 10; 98; 10; 99]%N 0 2; mkSpan 7 [97; 10; 98; 10; 99]%N 2 4].
Proof. reflexivity. Qed.

(** C12 for spans that are not empty and do not end right after a line break: exactly the lines
    that share at least one byte with the span. Missing from the full statement: the excluded
    spans, for which it is false (below). *)
Theorem C12_lines_covered : forall addr a m r fuel,
  let s := a ++ m ++ r in
  let sp := mkSpan addr s (blen a) (blen (a ++ m)) in
  length s < fuel -> m <> [] -> ~ ends_line (a ++ m) ->
  lines_span fuel sp =
  Ret (map (span_of sp)
         (filter (fun pq => (blen a <? snd pq) && (fst pq <? blen (a ++ m))) (line_ranges s))).
Proof. exact lines_span_covered. Qed.
Print Assumptions C12_lines_covered.
Example C12_lines_covered_ex :
  length (lit "a" ++ [98; 10; 99]%N ++ [100]%N) < 10 /\ [98; 10; 99]%N <> [] /\
  ~ ends_line (lit "a" ++ [98; 10; 99]%N).
Proof.
  split; [cbn; lia|]. split; [discriminate|]. intros [H|[x H]]; [discriminate|].
  change (lit "a" ++ [98; 10; 99]%N) with ([97; 98; 10] ++ [99])%N in H.
  apply app_inj_tail in H as [_ H]. discriminate.
Qed.

(** C12, the texts: iterating over the span of the whole input gives all its lines. *)
Theorem C12_lines_whole : forall addr s fuel, length s < fuel ->
  lines fuel (mkSpan addr s 0 (blen s)) = Ret (split_lines s).
Proof. exact lines_whole. Qed.
Print Assumptions C12_lines_whole.
Example C12_lines_whole_ex :
  lines 10 (mkSpan 7 [97; 10; 98; 10; 99]%N 0 5) = Ret [[97; 10]; [98; 10]; [99]]%N.
Proof. reflexivity. Qed.

(** [split_lines] is the decomposition into lines: nothing is lost, no line is empty, and a LF is
    always the last character of its line. *)
Theorem C12_split_lines_spec : forall s,
  concat (split_lines s) = s /\
  forall l, In l (split_lines s) -> l <> [] /\ forall l1 c l2, l = l1 ++ c :: l2 -> c = LF -> l2 = [].
Proof. exact (fun s => conj (concat_split_lines s) (split_lines_shape s)). Qed.
Print Assumptions C12_split_lines_spec.
Example C12_split_lines_ex : split_lines [97; 10; 10; 98]%N = [[97; 10]; [10]; [98]]%N.
Proof. reflexivity. Qed.

(** C12 is false in general: the span of "a\n" in "a\nb" also yields the line "b". *)
Theorem C12_lines_only_covered_refuted : exists addr a m r fuel l,
  In l (match lines fuel (mkSpan addr (a ++ m ++ r) (blen a) (blen (a ++ m))) with Ret ls => ls | _ => [] end) /\
  m = [97; 10]%N /\ a = [] /\ r = [98]%N /\ l = [98]%N.
Proof. exact lines_uncovered. Qed.
Print Assumptions C12_lines_only_covered_refuted.

(** C13: merging spans. *)
Theorem C13_merge : forall addr s i j k l,
  i <= j -> boundary s i -> boundary s j -> k <= l -> boundary s k -> boundary s l ->
  (k <= j /\ i <= l ->
   merge_spans (mkSpan addr s i j) (mkSpan addr s k l) =
   Some (mkSpan addr s (Nat.min i k) (Nat.max j l))) /\
  (~ (k <= j /\ i <= l) -> merge_spans (mkSpan addr s i j) (mkSpan addr s k l) = None).
Proof. exact merge_some. Qed.
Print Assumptions C13_merge.
Example C13_merge_ex :
  merge_spans (mkSpan 7 (lit "hello") 1 3) (mkSpan 7 (lit "hello") 3 4) = Some (mkSpan 7 (lit "hello") 1 4) /\
  merge_spans (mkSpan 7 (lit "hello") 1 2) (mkSpan 7 (lit "hello") 3 4) = None /\
  boundary (lit "hello") 1 /\ boundary (lit "hello") 3 /\ boundary (lit "hello") 4.
Proof.
  repeat split; [exists (lit "h"), (lit "ello")|exists (lit "hel"), (lit "lo")|exists (lit "hell"), (lit "o")];
    split; reflexivity.
Qed.

Theorem C13_merge_comm : forall addr s i j k l,
  merge_spans (mkSpan addr s i j) (mkSpan addr s k l) =
  merge_spans (mkSpan addr s k l) (mkSpan addr s i j).
Proof. exact merge_comm. Qed.
Print Assumptions C13_merge_comm.
Example C13_merge_comm_ex :
  merge_spans (mkSpan 7 (lit "hello") 3 4) (mkSpan 7 (lit "hello") 1 3) = Some (mkSpan 7 (lit "hello") 1 4).
Proof. reflexivity. Qed.

(** The merged span is the smallest one that contains both. *)
Theorem C13_merge_smallest : forall addr s i j k l sp,
  i <= j -> boundary s i -> boundary s j -> k <= l -> boundary s k -> boundary s l ->
  merge_spans (mkSpan addr s i j) (mkSpan addr s k l) = Some sp ->
  (sp_start sp <= i /\ sp_start sp <= k /\ j <= sp_end sp /\ l <= sp_end sp) /\
  forall i' j', i' <= i -> i' <= k -> j <= j' -> l <= j' -> i' <= sp_start sp /\ sp_end sp <= j'.
Proof. exact merge_contains. Qed.
Print Assumptions C13_merge_smallest.
Example C13_merge_smallest_ex :
  merge_spans (mkSpan 7 (lit "hello") 1 3) (mkSpan 7 (lit "hello") 2 4) = Some (mkSpan 7 (lit "hello") 1 4).
Proof. reflexivity. Qed.
