(** Literals and numbers in grammar files. *)
From Coq Require Import String List NArith ZArith Arith Bool Lia ZifyBool ZifyNat ZifyN.
From Verif Require Import Model_Text Model_Unescape Model_Meta Model_Grammar Spec_Unescape Spec_Message Spec_Grammar
  Proof_Text Proof_Unescape.
Import ListNotations.
Open Scope list_scope.

Lemma unescape_literal : forall s, inner_str s ->
  (exists r, unescape s = Ret (Some r) /\ documented s r) \/ (unescape s = Ret None /\ forall r, ~ documented s r).
Proof.
  intros s I. destruct (unescape_ret s) as ([r|] & E); [left|right].
  - exists r. split; [exact E|]. apply literal_documented; [exact I|]. apply unescape_iff, E.
  - split; [exact E|]. intros r D. apply documented_tolerated, unescape_iff in D. congruence.
Qed.
Lemma unescape_documented : forall s r, documented s r -> unescape s = Ret (Some r).
Proof. intros s r D. apply unescape_iff, documented_tolerated, D. Qed.

Lemma escape_unsplit : forall e c e' (s : text), escape_syntax e -> escape hex e' c -> e = e' ++ s -> s = [].
Proof.
  intros e c e' s ES E Q.
  destruct ES as [a ca La|h1 h2 H1 H2|t Bt Ft]; destruct E as [b cb Lb|g1 g2 n HC B|u n HC B SC]; cbn [app] in Q.
  - injection Q as _ <-. reflexivity.
  - injection Q as -> _. inversion La.
  - injection Q as -> _. inversion La.
  - injection Q as <- _. inversion Lb.
  - injection Q as _ _ <-. reflexivity.
  - discriminate.
  - injection Q as <- _. inversion Lb.
  - discriminate.
  - injection Q as Q. rewrite <- !app_assoc in Q. cbn [app] in Q.
    apply brace_split in Q; [destruct Q as (_ & <-); reflexivity|apply (is_hex_no_brace _ Ft)|].
    apply (plus_hex_no_brace _ n). left. exact HC.
Qed.
Lemma escape_one : forall e r, escape_syntax e -> documented e r -> exists c, r = [c] /\ escape hex e c.
Proof.
  intros e r ES D. assert (HD : hd_error e = Some 92%N) by (destruct ES; reflexivity).
  inversion D as [Q|c s r' N1 N2 D' Q|e' c s r' E D' Q]; subst.
  - discriminate.
  - cbn in HD. congruence.
  - assert (s = []) as -> by (eapply escape_unsplit; [exact ES|exact E|reflexivity]).
    exists c. rewrite app_nil_r. split; [|exact E].
    inversion D' as [| |e c' s r'' E' D'' Q]; subst; [reflexivity|]. destruct E'; discriminate.
Qed.

Lemma unescape_char : forall s, char_text s -> s <> [34%N] ->
  (exists c, unescape s = Ret (Some [c]) /\ char_meaning s c) \/ (unescape s = Ret None /\ forall c, ~ char_meaning s c).
Proof.
  intros s [ES|(c & N1 & ->)] NQ.
  - assert (I : inner_str s) by (rewrite <- (app_nil_r s); apply IS_escape; [exact ES|constructor]).
    destruct (unescape_literal s I) as [(r & E & D)|(E & N)].
    + destruct (escape_one s r ES D) as (c & -> & X). left. exists c. split; [exact E|left; exact X].
    + right. split; [exact E|]. intros c [X|(N1 & ->)].
      * apply (N [c]). rewrite <- (app_nil_r s). apply D_escape; [exact X|constructor].
      * inversion ES; congruence.
  - left. exists c. split; [|right; auto]. apply unescape_documented. apply D_plain; [exact N1|intros ->; apply NQ; reflexivity|constructor].
Qed.
Lemma unescape_char_meaning : forall s c, char_meaning s c -> s <> [34%N] -> unescape s = Ret (Some [c]).
Proof.
  intros s c [X|(N1 & ->)] NQ; apply unescape_documented.
  - rewrite <- (app_nil_r s). apply D_escape; [exact X|constructor].
  - apply D_plain; [exact N1|intros ->; apply NQ; reflexivity|constructor].
Qed.

(** Decimal numbers. *)
Lemma to_digit_ten : forall c, (48 <= c <= 57)%N -> to_digit 10 c = Some (c - 48)%N.
Proof.
  intros c H. unfold to_digit. replace ((48 <=? c) && (c <=? 57))%N with true by lia.
  replace (c - 48 <? 10)%N with true by lia. reflexivity.
Qed.
Lemma fold_digits_ge : forall t acc, (acc <= fold_left (fun a c => 10 * a + digit_value c) t acc)%N.
Proof.
  induction t as [|c t IH]; intro acc; cbn [fold_left]; [lia|]. etransitivity; [|apply IH]. lia.
Qed.
Lemma digits_value_ten : forall max t acc, Forall (fun c => (48 <= c <= 57)%N) t -> (acc <= max)%N ->
  digits_value 10 max t acc =
  let n := fold_left (fun a c => 10 * a + digit_value c)%N t acc in if (n <=? max)%N then Some n else None.
Proof.
  intro max. induction t as [|c t IH]; intros acc F L; cbn [digits_value fold_left].
  - cbn zeta. replace (acc <=? max)%N with true by lia. reflexivity.
  - inversion F as [|? ? H F']; subst. rewrite to_digit_ten by exact H. cbn zeta.
    set (f := fun a c => (10 * a + digit_value c)%N) in *.
    change (f acc c) with (10 * acc + digit_value c)%N. unfold digit_value at 1 2.
    replace (acc * 10 + (c - 48))%N with (10 * acc + (c - 48))%N by lia.
    destruct (10 * acc + (c - 48) <=? max)%N eqn:B.
    + rewrite IH; [reflexivity|exact F'|lia].
    + pose proof (fold_digits_ge t (10 * acc + (c - 48))%N) as G. fold f in G.
      match goal with |- None = if ?x then _ else _ => replace x with false by lia end. reflexivity.
Qed.
Lemma digits_notation : forall max t n, notation t n -> digits_value 10 max t 0 = if (n <=? max)%N then Some n else None.
Proof.
  intros max t n (F & V & _). rewrite digits_value_ten; [|exact F|lia]. cbn zeta. unfold value_of_digits in V. rewrite V. reflexivity.
Qed.
Lemma notation_head : forall t n, notation t n -> exists c r, t = c :: r /\ (48 <= c <= 57)%N.
Proof. intros [|c r] n (F & _ & NE & _); [congruence|]. inversion F; subst. exists c, r. auto. Qed.
Lemma radix_notation : forall max t n, notation t n -> from_str_radix 10 max t = if (n <=? max)%N then Some n else None.
Proof.
  intros max t n H. pose proof (digits_notation max t n H) as D. destruct (notation_head t n H) as (c & r & -> & B).
  cbn [from_str_radix]. replace (c =? 43)%N with false by lia. exact D.
Qed.
Lemma parse_usize_notation : forall t n, notation t n -> parse_usize t = if (n <=? usize_limit)%N then Some n else None.
Proof. intros t n H. exact (radix_notation usize_max t n H). Qed.
Lemma parse_isize_integer : forall t z, integer_text t z ->
  parse_isize t = if ((isize_low <=? z) && (z <=? isize_high))%Z then Some z else None.
Proof.
  intros t z H. assert (M : isize_max = Z.to_N isize_high) by reflexivity. unfold parse_isize.
  destruct H as [u n H|u n H|u n H].
  - pose proof (radix_notation isize_max u n H) as D. destruct (notation_head u n H) as (c & r & -> & B).
    replace (c =? 45)%N with false by lia. rewrite D, M. unfold isize_low, isize_high in *.
    destruct (n <=? Z.to_N 9223372036854775807)%N eqn:L; cbn [option_map];
      [replace ((-9223372036854775808 <=? Z.of_N n) && (Z.of_N n <=? 9223372036854775807))%Z with true by lia
      |replace ((-9223372036854775808 <=? Z.of_N n) && (Z.of_N n <=? 9223372036854775807))%Z with false by lia]; reflexivity.
  - cbn [N.eqb Pos.eqb]. cbn [from_str_radix]. cbn [N.eqb Pos.eqb].
    pose proof (digits_notation isize_max u n H) as D. destruct (notation_head u n H) as (c & r & -> & B).
    rewrite D, M. unfold isize_low, isize_high in *.
    destruct (n <=? Z.to_N 9223372036854775807)%N eqn:L; cbn [option_map];
      [replace ((-9223372036854775808 <=? Z.of_N n) && (Z.of_N n <=? 9223372036854775807))%Z with true by lia
      |replace ((-9223372036854775808 <=? Z.of_N n) && (Z.of_N n <=? 9223372036854775807))%Z with false by lia]; reflexivity.
  - cbn [N.eqb Pos.eqb].
    pose proof (digits_notation (isize_max + 1) u n H) as D. destruct (notation_head u n H) as (c & r & -> & B).
    rewrite D, M. unfold isize_low, isize_high in *.
    destruct (n <=? Z.to_N 9223372036854775807 + 1)%N eqn:L; cbn [option_map];
      [replace ((-9223372036854775808 <=? - Z.of_N n) && (- Z.of_N n <=? 9223372036854775807))%Z with true by lia
      |replace ((-9223372036854775808 <=? - Z.of_N n) && (- Z.of_N n <=? 9223372036854775807))%Z with false by lia]; reflexivity.
Qed.
