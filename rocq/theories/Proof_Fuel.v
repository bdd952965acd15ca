(** More fuel never changes an outcome. *)
From Coq Require Import List NArith ZArith Arith Bool Lia.
From Verif Require Import Model_Text Model_Position Model_Span Model_Stack Model_Tracker Model_Node.
Import ListNotations.

Definition settles {A : Type} (m m' : outcome A) : Prop := m = OutOfFuel \/ m = m'.
Lemma settles_refl : forall (A : Type) (m : outcome A), settles m m.
Proof. right. reflexivity. Qed.
Lemma settles_trans : forall (A : Type) (a b c : outcome A), settles a b -> settles b c -> settles a c.
Proof. intros A a b c [->| ->] H; [left; reflexivity|exact H]. Qed.

Lemma settles_obind : forall (A B : Type) (m m' : outcome A) (f f' : A -> outcome B),
  settles m m' -> (forall a, settles (f a) (f' a)) -> settles (obind m f) (obind m' f').
Proof.
  intros A B m m' f f' [->| ->] H; [left; reflexivity|]. destruct m' as [a| |]; simpl.
  - apply H.
  - right. reflexivity.
  - left. reflexivity.
Qed.
Lemma settles_bind : forall (A B : Type) (m m' : res A) (f f' : A -> state -> res B),
  settles m m' -> (forall a st, settles (f a st) (f' a st)) -> settles (bind m f) (bind m' f').
Proof.
  intros A B m m' f f' [->| ->] H; [left; reflexivity|].
  destruct m' as [[[a|] st]| |]; simpl; try (right; reflexivity). apply H.
Qed.

Ltac settle :=
  repeat first
  [ apply settles_refl
  | apply settles_bind; [|intros]
  | apply settles_obind; [|intros]
  | match goal with |- settles (if ?b then _ else _) (if ?b then _ else _) => destruct b end
  | solve [auto] ].

Section Fuel.
Variable addr : N.
Variable s : text.
Variable env : rule -> rule_def.
Variable property : N -> char -> bool.
Notation chk := (check addr s env property).
Notation prs := (try_parse addr s env property).

Lemma seq_settles : forall c c', (forall n p st, settles (c n p st) (c' n p st)) ->
  forall fields first p st, settles (check_seq c first fields p st) (check_seq c' first fields p st).
Proof.
  intros c c' H. induction fields as [|[f tv] fields IH]; intros first p st; cbn [check_seq]; settle.
Qed.
Lemma choice_settles : forall c c', (forall n p st, settles (c n p st) (c' n p st)) ->
  forall ts p st, settles (check_choice c ts p st) (check_choice c' ts p st).
Proof.
  intros c c' H. induction ts as [|t ts IH]; intros p st; cbn [check_choice]; [settle|].
  destruct (H t p (on_stack stack_snapshot st)) as [->| ->]; [left; reflexivity|].
  destruct (c' t p (on_stack stack_snapshot st)) as [[[?|] ?]| |]; settle.
Qed.
Lemma unit_settles : forall c c', (forall n p st, settles (c n p st) (c' n p st)) ->
  forall t tv i p st, settles (check_unit c t tv i p st) (check_unit c' t tv i p st).
Proof. intros. unfold check_unit. settle. Qed.
Lemma check_rep_S : forall j c t tv min max i p st,
  check_rep (S j) c t tv min max i p st =
  if (i <? max)%N then
    match restore_on_none (check_unit c t tv i p) st with
    | Ret (Some next, st') => check_rep j c t tv min max (i + 1) next st'
    | Ret (None, st') => if (i <? min)%N then Ret (None, st') else Ret (Some p, st')
    | Panic => Panic
    | OutOfFuel => OutOfFuel
    end
  else Ret (Some p, st).
Proof. reflexivity. Qed.
Lemma rep_settles : forall c c', (forall n p st, settles (c n p st) (c' n p st)) ->
  forall t tv min max j i p st,
    settles (check_rep j c t tv min max i p st) (check_rep (S j) c' t tv min max i p st).
Proof.
  intros c c' H t tv min max. induction j as [|j IH]; intros i p st.
  - cbn [check_rep]. destruct (i <? max)%N; [left|right]; reflexivity.
  - rewrite !check_rep_S.
    destruct (i <? max)%N; [|settle]. unfold restore_on_none.
    destruct (unit_settles c c' H t tv i p (on_stack stack_snapshot st)) as [->| ->]; [left; reflexivity|].
    destruct (check_unit c' t tv i p (on_stack stack_snapshot st)) as [[[?|] ?]| |]; settle.
Qed.

Lemma check_settles : forall k n p st, settles (chk k n p st) (chk (S k) n p st).
Proof.
  induction k as [|k IH]; intros n p st; [left; reflexivity|].
  remember (S k) as k'. cbn [check]. rewrite Heqk' at 1. cbn [check].
  destruct n; try (apply settles_refl).
  - unfold during. apply settles_obind; [|intros; settle].
    destruct (IH n p (on_stack stack_snapshot (on_tracker (set_positive true) st))) as [->| ->];
      [left; reflexivity|settle].
  - unfold during. apply settles_obind; [|intros; settle].
    destruct (IH n p (on_stack stack_snapshot (on_tracker (set_positive false) st))) as [->| ->];
      [left; reflexivity|settle].
  - settle.
  - settle.
  - rewrite Heqk' at 1. apply rep_settles. exact IH.
  - destruct (IH n p (on_stack stack_snapshot st)) as [->| ->]; [left; reflexivity|settle].
  - apply seq_settles. exact IH.
  - apply choice_settles. exact IH.
  - unfold record_option_during_with. settle.
Qed.

Lemma pseq_settles : forall c c' f f', (forall n p st, settles (c n p st) (c' n p st)) ->
  (forall n p st, settles (f n p st) (f' n p st)) ->
  forall fields first p st, settles (parse_seq c f first fields p st) (parse_seq c' f' first fields p st).
Proof.
  intros c c' f f' H H0. induction fields as [|[x tv] fields IH]; intros first p st; cbn [parse_seq]; settle.
Qed.
Lemma pchoice_settles : forall c c', (forall n p st, settles (c n p st) (c' n p st)) ->
  forall ts i p st, settles (parse_choice c i ts p st) (parse_choice c' i ts p st).
Proof.
  intros c c' H. induction ts as [|t ts IH]; intros i p st; cbn [parse_choice]; [settle|].
  destruct (H t p (on_stack stack_snapshot st)) as [->| ->]; [left; reflexivity|].
  destruct (c' t p (on_stack stack_snapshot st)) as [[[[? ?]|] ?]| |]; settle.
Qed.
Lemma punit_settles : forall c c' f f', (forall n p st, settles (c n p st) (c' n p st)) ->
  (forall n p st, settles (f n p st) (f' n p st)) ->
  forall t tv i p st, settles (parse_unit c f t tv i p st) (parse_unit c' f' t tv i p st).
Proof. intros. unfold parse_unit. settle. Qed.
Lemma parse_rep_S : forall j c f t tv min max i vec p st,
  parse_rep (S j) c f t tv min max i vec p st =
  if (i <? max)%N then
    match restore_on_none (parse_unit c f t tv i p) st with
    | Ret (Some (next, matched), st') => parse_rep j c f t tv min max (i + 1) (matched :: vec) next st'
    | Ret (None, st') => if (i <? min)%N then Ret (None, st') else Ret (Some (p, VRep (rev vec)), st')
    | Panic => Panic
    | OutOfFuel => OutOfFuel
    end
  else Ret (Some (p, VRep (rev vec)), st).
Proof. reflexivity. Qed.
Lemma prep_settles : forall c c' f f', (forall n p st, settles (c n p st) (c' n p st)) ->
  (forall n p st, settles (f n p st) (f' n p st)) ->
  forall t tv min max j i vec p st,
    settles (parse_rep j c f t tv min max i vec p st) (parse_rep (S j) c' f' t tv min max i vec p st).
Proof.
  intros c c' f f' H H0 t tv min max. induction j as [|j IH]; intros i vec p st.
  - cbn [parse_rep]. destruct (i <? max)%N; [left|right]; reflexivity.
  - rewrite !parse_rep_S.
    destruct (i <? max)%N; [|settle]. unfold restore_on_none.
    destruct (punit_settles c c' f f' H H0 t tv i p (on_stack stack_snapshot st)) as [->| ->]; [left; reflexivity|].
    destruct (parse_unit c' f' t tv i p (on_stack stack_snapshot st)) as [[[[? ?]|] ?]| |]; settle.
Qed.

Lemma parse_settles : forall k n p st, settles (prs k n p st) (prs (S k) n p st).
Proof.
  induction k as [|k IH]; intros n p st; [left; reflexivity|].
  pose proof (check_settles k) as IHc.
  remember (S k) as k'. cbn [try_parse]. rewrite Heqk' at 1. cbn [try_parse].
  destruct n; try (apply settles_refl).
  - unfold during. apply settles_obind; [|intros; settle].
    destruct (IH n p (on_stack stack_snapshot (on_tracker (set_positive true) st))) as [->| ->];
      [left; reflexivity|settle].
  - unfold during. apply settles_obind; [|intros; settle].
    destruct (IHc n p (on_stack stack_snapshot (on_tracker (set_positive false) st))) as [->| ->];
      [left; reflexivity|settle].
  - settle.
  - settle.
  - rewrite Heqk' at 1. apply prep_settles; subst k'; assumption.
  - destruct (IH n p (on_stack stack_snapshot st)) as [->| ->]; [left; reflexivity|settle].
  - apply settles_bind; [|intros; settle]. apply pseq_settles; subst k'; assumption.
  - apply pchoice_settles. exact IH.
  - unfold record_option_during_with. settle.
Qed.

Lemma settles_le : forall (A : Type) (f : nat -> outcome A), (forall k, settles (f k) (f (S k))) ->
  forall k k', k <= k' -> f k <> OutOfFuel -> f k' = f k.
Proof.
  intros A f H k k' L. assert (G : settles (f k) (f k')).
  { induction L; [apply settles_refl|]. eapply settles_trans; eauto. }
  destruct G as [->|E]; congruence.
Qed.
Theorem check_fuel : forall k k' n p st, k <= k' -> chk k n p st <> OutOfFuel ->
  chk k' n p st = chk k n p st.
Proof. intros. apply (settles_le _ (fun k => chk k n p st)); auto. intros. apply check_settles. Qed.
Theorem parse_fuel : forall k k' n p st, k <= k' -> prs k n p st <> OutOfFuel ->
  prs k' n p st = prs k n p st.
Proof. intros. apply (settles_le _ (fun k => prs k n p st)); auto. intros. apply parse_settles. Qed.
End Fuel.
Lemma more_fuel : forall addr s env property k k' n p st, k <= k' ->
  (try_parse addr s env property k n p st <> OutOfFuel ->
   try_parse addr s env property k' n p st = try_parse addr s env property k n p st) /\
  (check addr s env property k n p st <> OutOfFuel ->
   check addr s env property k' n p st = check addr s env property k n p st).
Proof. intros. split; intro H0; [eapply parse_fuel|eapply check_fuel]; eauto. Qed.
