(** Theorems about core/src/position.rs. Texts are split as [a ++ b], the position being the
    boundary [blen a] between the two parts. *)
From Coq Require Import String List NArith Arith Bool Lia.
From Verif Require Import Model_Text Model_Position Spec_Text Proof_Text Proof_Position.
Import ListNotations.
Open Scope list_scope.

(** Positions are created exactly at character boundaries. *)
Theorem C10_position_new : forall s pos, position_new s pos = Some pos <-> boundary s pos.
Proof. exact position_new_spec. Qed.
Print Assumptions C10_position_new.
Example C10_position_new_ex :
  position_new [233%N] 2 = Some 2 /\ position_new [233%N] 1 = None.
Proof. split; reflexivity. Qed.

(** C02: matching a literal. *)
Theorem C02_match_string : forall a b l,
  (forall r, b = l ++ r -> match_string (a ++ b) (blen a) l = (true, blen (a ++ l))) /\
  (~ starts_with l b -> match_string (a ++ b) (blen a) l = (false, blen a)).
Proof.
  exact (fun a b l => conj (match_string_true a b l) (match_string_false a b l)).
Qed.
Print Assumptions C02_match_string.
Example C02_match_string_ex :
  match_string (lit "xab") 1 (lit "ab") = (true, 3) /\ match_string (lit "xab") 1 (lit "b") = (false, 1).
Proof. split; reflexivity. Qed.

(** C03: matching a literal up to ASCII case. *)
Theorem C03_match_insensitive : forall a b l,
  (forall m r, b = m ++ r -> map ascii_fold m = map ascii_fold l ->
     match_insensitive (a ++ b) (blen a) l = Ret (true, blen (a ++ m))) /\
  ((~ exists m r, b = m ++ r /\ map ascii_fold m = map ascii_fold l) ->
     match_insensitive (a ++ b) (blen a) l = Ret (false, blen a)).
Proof.
  exact (fun a b l => conj (match_insensitive_true a b l) (match_insensitive_false a b l)).
Qed.
Print Assumptions C03_match_insensitive.
Example C03_match_insensitive_ex :
  match_insensitive (lit "xaBz") 1 (lit "Ab") = Ret (true, 3) /\
  match_insensitive (lit "x{z") 1 (lit "[") = Ret (false, 1).
Proof. split; reflexivity. Qed.

(** C04: character ranges, predicates, single characters. *)
Theorem C04_match_range : forall a lo hi,
  match_range a (blen a) lo hi = Ret (false, blen a) /\
  forall c b,
    ((lo <= c /\ c <= hi)%N -> match_range (a ++ c :: b) (blen a) lo hi = Ret (true, blen (a ++ [c]))) /\
    (~ (lo <= c /\ c <= hi)%N -> match_range (a ++ c :: b) (blen a) lo hi = Ret (false, blen a)).
Proof.
  exact match_range_full.
Qed.
Print Assumptions C04_match_range.
Example C04_match_range_ex :
  match_range (lit "xb") 1 97%N 98%N = Ret (true, 2) /\ match_range (lit "xb") 1 97%N 97%N = Ret (false, 1).
Proof. split; reflexivity. Qed.

Theorem C04_match_char_by : forall a f,
  match_char_by a (blen a) f = Ret (false, blen a) /\
  forall c b,
    (f c = true -> match_char_by (a ++ c :: b) (blen a) f = Ret (true, blen (a ++ [c]))) /\
    (f c = false -> match_char_by (a ++ c :: b) (blen a) f = Ret (false, blen a)).
Proof. exact match_char_by_full. Qed.
Print Assumptions C04_match_char_by.
Example C04_match_char_by_ex :
  match_char_by [120%N; 233%N] 1 (fun c => (c =? 233)%N) = Ret (true, 3).
Proof. reflexivity. Qed.

Theorem C04_next_char : forall a,
  next_char a (blen a) = Ret (None, blen a) /\
  forall c b, next_char (a ++ c :: b) (blen a) = Ret (Some c, blen (a ++ [c])).
Proof. exact (fun a => conj (next_char_nil a) (next_char_cons a)). Qed.
Print Assumptions C04_next_char.
Example C04_next_char_ex : next_char [120%N; 8364%N] 1 = Ret (Some 8364%N, 4).
Proof. reflexivity. Qed.

Theorem C04_match_char : forall a b c,
  match_char (a ++ b) (blen a) c = Ret true <-> exists r, b = c :: r.
Proof. exact match_char_spec. Qed.
Print Assumptions C04_match_char.
Example C04_match_char_ex : match_char (lit "xab") 1 97%N = Ret true.
Proof. reflexivity. Qed.

(** C06: skipping characters forwards and backwards. *)
Theorem C06_skip : forall a b n,
  (forall m r, b = m ++ r -> length m = n -> skip (a ++ b) (blen a) n = Ret (true, blen (a ++ m))) /\
  (length b < n -> skip (a ++ b) (blen a) n = Ret (false, blen a)).
Proof. exact skip_full. Qed.
Print Assumptions C06_skip.
Example C06_skip_ex : skip [97%N; 233%N; 98%N] 1 1 = Ret (true, 3) /\ skip (lit "abc") 1 3 = Ret (false, 1).
Proof. split; reflexivity. Qed.

Theorem C06_skip_back : forall a b n,
  (forall x m, a = x ++ m -> length m = n -> skip_back (a ++ b) (blen a) n = Ret (true, blen x)) /\
  (length a < n -> skip_back (a ++ b) (blen a) n = Ret (false, blen a)).
Proof. exact skip_back_full. Qed.
Print Assumptions C06_skip_back.
Example C06_skip_back_ex :
  skip_back [97%N; 233%N; 98%N] 3 1 = Ret (true, 1) /\ skip_back (lit "abc") 1 2 = Ret (false, 1).
Proof. split; reflexivity. Qed.

Theorem C06_skip_roundtrip : forall a b n pos',
  skip (a ++ b) (blen a) n = Ret (true, pos') -> skip_back (a ++ b) pos' n = Ret (true, blen a).
Proof. exact skip_roundtrip. Qed.
Print Assumptions C06_skip_roundtrip.
Example C06_skip_roundtrip_ex : skip (lit "a" ++ lit "bcd") (blen (lit "a")) 2 = Ret (true, 3).
Proof. reflexivity. Qed.

(** C07: skip-until stops at the earliest occurrence. *)
Theorem C07_skip_until : forall a b strings ok p,
  skip_until (a ++ b) (blen a) strings = (ok, p) ->
  if ok then
    exists m r, b = m ++ r /\ r <> [] /\ p = blen (a ++ m) /\ occurs strings r /\
      forall m' r', b = m' ++ r' -> length m' < length m -> ~ occurs strings r'
  else p = blen (a ++ b) /\ forall m r, b = m ++ r -> r <> [] -> ~ occurs strings r.
Proof. exact skip_until_sound. Qed.
Print Assumptions C07_skip_until.
Example C07_skip_until_ex :
  skip_until (lit "a" ++ lit "bcd") (blen (lit "a")) [lit "d"; lit "cd"] = (true, 2) /\
  skip_until (lit "a" ++ lit "bcd") (blen (lit "a")) [lit "a"] = (false, 4).
Proof. split; reflexivity. Qed.

(** C08: line and column. *)
Theorem C08_line_col : forall a b, exists y,
  after_last_lf a y /\ line_col (a ++ b) (blen a) = Ret (1 + lf_count a, 1 + length y).
Proof. exact line_col_full. Qed.
Print Assumptions C08_line_col.
Example C08_line_col_ex : line_col [97; 13; 10; 98; 13; 99]%N 5 = Ret (2, 3).
Proof. reflexivity. Qed.

(** C09: the line of a position. *)
Theorem C09_line_of : forall a b, exists y z,
  after_last_lf a y /\ upto_first_lf b z /\ line_of (a ++ b) (blen a) = Ret (y ++ z).
Proof. exact line_of_full. Qed.
Print Assumptions C09_line_of.
Example C09_line_of_ex : line_of [97; 10; 98; 99; 10; 100]%N 3 = Ret [98; 99; 10]%N.
Proof. reflexivity. Qed.

(** C53: comparison of positions and spans. *)
Theorem C53_position_eq : forall addr s i j,
  position_eqb (mkPosition addr s i) (mkPosition addr s j) = true <-> i = j.
Proof. exact position_eqb_same. Qed.
Print Assumptions C53_position_eq.
Example C53_position_eq_ex : position_eqb (mkPosition 1 (lit "ab") 1) (mkPosition 1 (lit "ab") 1) = true.
Proof. reflexivity. Qed.

Theorem C53_position_cmp : forall addr s i j c,
  position_cmp (mkPosition addr s i) (mkPosition addr s j) = Ret c <->
  match c with Lt => i < j | Eq => i = j | Gt => j < i end.
Proof. exact position_cmp_same. Qed.
Print Assumptions C53_position_cmp.
Example C53_position_cmp_ex :
  position_cmp (mkPosition 1 (lit "ab") 1) (mkPosition 1 (lit "ab") 2) = Ret Lt.
Proof. reflexivity. Qed.

Theorem C53_position_cmp_other : forall p q,
  p_input p <> p_input q -> position_cmp p q = Panic.
Proof. exact position_cmp_other. Qed.
Print Assumptions C53_position_cmp_other.
Example C53_position_cmp_other_ex :
  p_input (mkPosition 1 (lit "ab") 1) <> p_input (mkPosition 1 (lit "abc") 1).
Proof. discriminate. Qed.

Theorem C53_span_eq : forall addr s i j k l,
  span_eqb (mkSpan addr s i j) (mkSpan addr s k l) = true <-> i = k /\ j = l.
Proof. exact span_eqb_same. Qed.
Print Assumptions C53_span_eq.
Example C53_span_eq_ex :
  span_eqb (mkSpan 1 (lit "abc") 1 2) (mkSpan 1 (lit "abc") 1 3) = false.
Proof. reflexivity. Qed.

(** Values at different addresses are never equal, and no span is built across them. *)
Theorem C53_other_address : forall p q,
  p_addr p <> p_addr q -> position_eqb p q = false /\ position_span p q = Panic.
Proof. exact other_address. Qed.
Print Assumptions C53_other_address.
Example C53_other_address_ex :
  p_addr (mkPosition 1 (lit "ab") 1) <> p_addr (mkPosition 2 (lit "ab") 1).
Proof. discriminate. Qed.

Theorem C53_span_other_address : forall x y,
  sp_addr x <> sp_addr y -> span_eqb x y = false.
Proof. exact span_other_address. Qed.
Print Assumptions C53_span_other_address.
Example C53_span_other_address_ex :
  sp_addr (mkSpan 1 (lit "ab") 1 1) <> sp_addr (mkSpan 2 (lit "ab") 1 1).
Proof. discriminate. Qed.

(** Building a span of two positions of the same input succeeds exactly when they are ordered. *)
Theorem C53_position_span : forall addr s i j,
  boundary s i -> boundary s j ->
  (i <= j -> position_span (mkPosition addr s i) (mkPosition addr s j) = Ret (mkSpan addr s i j)) /\
  (j < i -> position_span (mkPosition addr s i) (mkPosition addr s j) = Panic).
Proof. exact position_span_same. Qed.
Print Assumptions C53_position_span.
Example C53_position_span_ex : boundary (lit "ab") 1 /\ boundary (lit "ab") 2.
Proof. split; [exists (lit "a"), (lit "b")|exists (lit "ab"), []]; split; reflexivity. Qed.

(** Finding: the order and the equality disagree on two copies of the same text at different
    addresses, so the order is not consistent with equality across inputs. *)
Theorem C53_order_consistent_with_equality_refuted : exists p q,
  boundary (p_input p) (p_pos p) /\ boundary (p_input q) (p_pos q) /\
  position_cmp p q = Ret Eq /\ position_eqb p q = false.
Proof. exact cmp_eq_mismatch. Qed.
Print Assumptions C53_order_consistent_with_equality_refuted.
