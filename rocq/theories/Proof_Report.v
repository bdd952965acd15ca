(** Consequences for error reports. *)
From Coq Require Import List NArith ZArith Arith Bool Lia.
From Verif Require Import Model_Text Model_Position Model_Span Model_Stack Model_Tracker Model_Node
  Model_Pairs Spec_Text Spec_Peg Spec_Run Spec_Tracker Spec_Yield Spec_Pairs Proof_Text Proof_Run Proof_Complete Proof_Yield Proof_Entry.
Import ListNotations.
Open Scope list_scope.

Section Report.
Variable addr : N.
Variable s : text.
Variable env : rule -> rule_def.
Variable property : N -> char -> bool.

Lemma partial_position : forall k n t,
  text_try_parse_partial addr s env property k n = Ret (inr t) ->
  exists tr, run addr s env property [] true n [] s [] RFail tr /\
    fst (finish t) = furthest 0 tr /\ boundary s (fst (finish t)).
Proof.
  intros k n t H. destruct (partial_report addr s env property k n t H) as (tr & R & P & B).
  exists tr. split; [exact R|]. split; [apply P|exact B].
Qed.
Lemma whole_report : forall k n t,
  text_try_parse_partial addr s env property k n = Ret (inr t) ->
  exists tr, run addr s env property [] true n [] s [] RFail tr /\ reports 0 tr (finish t).
Proof.
  intros k n t H. destruct (partial_report addr s env property k n t H) as (tr & R & P & B). eauto.
Qed.
Lemma position_monotone : forall k n p K sv t o st', boundary s p -> valid_stack K ->
  try_parse addr s env property k n p (mkState (mkStack K sv) t) = Ret (o, st') ->
  tk_position t <= tk_position (st_tracker st').
Proof. intros k n p K sv t o st' B V H. apply (balanced addr s env property k n p K sv t o st' B V H). Qed.
Lemma nesting_balanced : forall k n p K sv t o st', boundary s p -> valid_stack K ->
  try_parse addr s env property k n p (mkState (mkStack K sv) t) = Ret (o, st') ->
  map fst (tk_stack (st_tracker st')) = map fst (tk_stack t) /\
  tl (tk_stack (st_tracker st')) = tl (tk_stack t) /\
  tk_positive (st_tracker st') = tk_positive t.
Proof.
  intros k n p K sv t o st' B V H.
  destruct (balanced addr s env property k n p K sv t o st' B V H) as (A1 & A2 & A3 & _). auto.
Qed.
End Report.

(** Leaves store what they consumed. *)
Lemma leaf_text : forall addr s env property k n pre post K sv t p' v st',
  s = pre ++ post -> valid_stack K -> leaf n ->
  try_parse addr s env property k n (blen pre) (mkState (mkStack K sv) t) = Ret (Some (p', v), st') ->
  exists m post', post = m ++ post' /\ p' = blen (pre ++ m) /\ stores v m.
Proof.
  intros addr s env property k n pre post K sv t p' v st' Es HK HL H.
  destruct (call addr s env property k n (blen pre) K sv t) as [(_ & E)|(pre0 & post0 & r & tr & Es0 & Ep & R & F)]; auto.
  { exists pre, post. auto. }
  { cbn zeta in E. rewrite E in H. discriminate. }
  assert (pre0 = pre /\ post0 = post) as (-> & ->) by (eapply split_unique; eauto; congruence).
  destruct r as [|pre' post' K' w].
  { destruct F as (K' & _ & E). rewrite E in H. discriminate. }
  destruct F as (_ & Es' & _ & _ & E). rewrite E in H. injection H as <- <- _.
  inversion R; subst; try (exfalso; exact HL).
  match goal with A : terminal _ _ _ _ _ _ |- _ => rename A into T end.
  exists m, post'.
  assert (Epost : post = m ++ post').
  { rewrite <- app_assoc in Es'. apply app_inv_head in Es'. auto. }
  split; [exact Epost|]. split; [reflexivity|].
  inversion T; subst; cbn [terminal_value stores]; try exact I;
    repeat match goal with
    | A : one_char _ _ _ _ _ |- _ => inversion A; clear A; subst
    | A : one_text _ _ _ _ _ |- _ => inversion A; clear A; subst
    end;
    repeat match goal with
    | A : pre ++ _ = pre ++ _ |- _ => apply app_inv_head in A; subst
    | A : pre = pre ++ _ |- _ => rewrite <- app_nil_r in A at 1; apply app_inv_head in A; subst
    end; try reflexivity.
  all: try (exists pre, post'; cbn [sp_input sp_start sp_end span_to]; repeat split; auto; fail).
  match goal with A : Forall2 span_text _ _ |- _ => inversion A; subst; assumption end.
Qed.
