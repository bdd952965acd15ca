(** What the Pratt parser makes of operands and operators. *)
From Coq Require Import String List NArith ZArith Arith Bool Lia ZifyBool ZifyNat ZifyN.
From Verif Require Import Model_Text Model_Meta Model_Grammar.
Import ListNotations.
Open Scope list_scope.

Section Pratt.
Variable T : Type.
Variable primary : ppair -> outcome T.
Variable infix : T -> ppair -> T -> outcome T.
Notation expr := (pratt_expr T rule_operators primary infix).
Notation loop := (pratt_loop T rule_operators primary infix).

Inductive ev_seq : list ppair -> T -> Prop :=
| Es_one t v : rule_operators (pp_rule t) = None -> primary t = Ret v -> ev_seq [t] v
| Es_more t v o l w r : rule_operators (pp_rule t) = None -> primary t = Ret v ->
    rule_operators (pp_rule o) = Some 20 -> ev_seq l w -> infix v o w = Ret r -> ev_seq (t :: o :: l) r.
Inductive ev_alts : list ppair -> T -> Prop :=
| Ea_last l v : ev_seq l v -> ev_alts l v
| Ea_more l v o l' w r : ev_seq l v -> rule_operators (pp_rule o) = Some 10 -> ev_alts l' w ->
    infix v o w = Ret r -> ev_alts (l ++ o :: l') r.

Definition stops (rest : list ppair) : Prop :=
  match rest with [] => True | p :: _ => rule_operators (pp_rule p) = Some 10 end.

Lemma loop_stops : forall k v rest, stops rest -> loop (S k) 19 v rest = Ret (v, rest).
Proof.
  intros k v [|p rest] H; [reflexivity|]. cbn [pratt_loop]. cbn [stops] in H. rewrite H. reflexivity.
Qed.

Lemma seq_high : forall l v, ev_seq l v -> forall fuel rest, stops rest -> length l + 1 <= fuel ->
  expr fuel 19 (l ++ rest) = Ret (v, rest).
Proof.
  induction 1 as [t v O P|t v o l w r O P Q H IH I]; intros fuel rest ST L; cbn [length] in L.
  - destruct fuel as [|[|k]]; [lia|lia|]. cbn [app pratt_expr next obind]. rewrite O, P. cbn [obind]. apply loop_stops, ST.
  - destruct fuel as [|[|[|k]]]; [lia|lia|lia|]. remember (S k) as k1. cbn [app pratt_expr next obind].
    rewrite O, P. cbn [obind pratt_loop]. rewrite Q. change (19 <? 20) with true. cbv iota. change (20 - 1) with 19.
    rewrite IH by (auto; lia). cbn [obind]. rewrite I. cbn [obind]. subst k1. apply loop_stops, ST.
Qed.

Lemma seq_low : forall l v, ev_seq l v -> forall fuel rbp rest, stops rest -> rbp <= 9 -> length l + 1 <= fuel ->
  exists k, fuel <= k + length l /\ expr fuel rbp (l ++ rest) = loop k rbp v rest.
Proof.
  intros l v [t v' O P|t v' o l' w r O P Q H I] fuel rbp rest ST B L; cbn [length] in L.
  - destruct fuel as [|k]; [lia|]. exists k. split; [cbn [length]; lia|]. cbn [app pratt_expr next obind].
    rewrite O, P. reflexivity.
  - destruct fuel as [|[|k]]; [lia|lia|]. exists k. split; [cbn [length]; lia|]. cbn [app pratt_expr next obind].
    rewrite O, P. cbn [obind pratt_loop]. rewrite Q. replace (rbp <? 20) with true by lia. change (20 - 1) with 19.
    rewrite (seq_high l' w H) by (auto; lia). cbn [obind]. rewrite I. reflexivity.
Qed.

Lemma alts : forall l v, ev_alts l v -> forall fuel rbp, rbp <= 9 -> length l + 1 <= fuel ->
  expr fuel rbp l = Ret (v, []).
Proof.
  induction 1 as [l v H|l v o l' w r H Q A IH I]; intros fuel rbp B L.
  - destruct (seq_low l v H fuel rbp [] Logic.I B L) as (k & K & E). rewrite app_nil_r in E. rewrite E.
    destruct k as [|k]; [lia|]. reflexivity.
  - rewrite app_length in L. cbn [length] in L.
    destruct (seq_low l v H fuel rbp (o :: l') Q B) as (k & K & E); [lia|]. rewrite E.
    destruct k as [|[|k]]; [lia|lia|]. remember (S k) as k1. cbn [pratt_loop]. rewrite Q.
    replace (rbp <? 10) with true by lia. change (10 - 1) with 9. rewrite IH by lia. cbn [obind]. rewrite I. cbn [obind].
    subst k1. reflexivity.
Qed.

Lemma pratt_alts : forall l v, ev_alts l v -> pratt_parse T rule_operators primary infix l = Ret v.
Proof. intros l v A. unfold pratt_parse. rewrite (alts l v A) by lia. reflexivity. Qed.
End Pratt.
