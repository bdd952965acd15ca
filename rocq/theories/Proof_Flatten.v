(** Collapsing right-nested sequences and choices. *)
From Coq Require Import String List NArith ZArith Arith Bool.
From Verif Require Import Model_Text Model_Message Model_Meta Model_Import Model_Tracker Model_Node Model_Generator
  Spec_Peg Spec_Grammar_Peg Proof_Box.
Import ListNotations.
Open Scope list_scope.

Section Flatten.
Variable unicode : list text.
Variable property : N -> char -> bool.
Notation gp := (gpeg unicode property).
Notation gi := (gpeg_items unicode property).
Notation gf := (gpeg_first unicode property).

Lemma items_app : forall l1 l2 g rho pre post K r,
  gi g rho (l1 ++ l2) pre post K r <->
  (exists pre' post' K', gi g rho l1 pre post K (Ok pre' post' K') /\ gi g rho l2 pre' post' K' r) \/
  (r = Fail /\ gi g rho l1 pre post K Fail).
Proof.
  induction l1 as [|x l1 IH]; intros l2 g rho pre post K r; cbn [app].
  - split; [intro H; left; exists pre, post, K; split; [constructor|exact H]|].
    intros [(a & b & c & H & H')|(_ & H)]; inversion H; subst. exact H'.
  - split.
    + intro H. inversion H; subst;
        try (right; split; [reflexivity|]; (apply GI_expr_fail || eapply GI_trivia_fail); eassumption);
        match goal with X : gi _ _ (l1 ++ l2) _ _ _ _ |- _ => apply IH in X; destruct X as [(a & b & c & A & B)|(-> & A)] end;
        ((left; exists a, b, c) || right); (split; [|try exact B]); try reflexivity;
        (eapply GI_expr || eapply GI_none || eapply GI_trivia); eassumption.
    + intros [(a & b & c & A & B)|(-> & A)]; inversion A; subst;
        try ((apply GI_expr_fail || eapply GI_trivia_fail); eassumption);
        (eapply GI_expr || eapply GI_none || eapply GI_trivia); try eassumption; apply IH;
        ((left; exists a, b, c; split; assumption) || (right; split; [reflexivity|assumption])).
Qed.
Lemma items_expr : forall g rho e pre post K r, gi g rho [It_expr e] pre post K r <-> gp g rho e pre post K r.
Proof.
  intros. split; intro H.
  - inversion H; subst; [|assumption].
    match goal with X : gi _ _ [] _ _ _ _ |- _ => inversion X; subst end. assumption.
  - destruct r as [|a b c]; [apply GI_expr_fail, H|eapply GI_expr; [exact H|constructor]].
Qed.
Lemma items_cong : forall g rho l1 l2, (forall pre post K r, gi g rho l1 pre post K r <-> gi g rho l2 pre post K r) ->
  forall l0 pre post K r, gi g rho (l0 ++ l1) pre post K r <-> gi g rho (l0 ++ l2) pre post K r.
Proof.
  intros g rho l1 l2 E l0 pre post K r. rewrite !items_app. split; (intros [(a & b & c & A & B)|C]; [left; exists a, b, c; split; [exact A|apply E, B]|right; exact C]).
Qed.

Lemma sequence_rest_items : forall g rho e t pre post K r,
  gi g rho [It_trivia t; It_expr e] pre post K r <->
  gi g rho (flat_map (fun te => [It_trivia (fst te); It_expr (snd te)]) (sequence_rest t e)) pre post K r.
Proof.
  intros g rho. apply (expr_rect (fun e => forall t pre post K r,
    gi g rho [It_trivia t; It_expr e] pre post K r <->
    gi g rho (flat_map (fun te => [It_trivia (fst te); It_expr (snd te)]) (sequence_rest t e)) pre post K r)); intros; try (cbn; reflexivity).
  destruct l as [le ls], r as [re rs]. cbn [n_expr sequence_rest flat_map fst snd] in *.
  apply (items_cong g rho [It_expr (PSeq (mkNode le ls) (mkNode re rs) t)]
    (It_expr le :: flat_map (fun te => [It_trivia (fst te); It_expr (snd te)]) (sequence_rest t re)))
    with (l0 := [It_trivia t0]).
  intros pre' post' K' r'. rewrite items_expr.
  assert (C := items_cong _ _ _ _ (H0 t) [It_expr le] pre' post' K' r'). cbn [app] in C. rewrite <- C. clear C.
  split; intro X; [inversion X; subst; try assumption|apply G_seq, X].
  match goal with R : repetition _ _ _ _ |- _ => destruct R as [(Y & _)|[(Y & _)|(range & Y & _)]]; discriminate Y end.
Qed.

Lemma flatten_sequence : forall g rho l r t pre post K res,
  gp g rho (PSeq l r t) pre post K res <->
  gi g rho (separated_items (collect_sequence (n_expr l) (n_expr r) t)) pre post K res.
Proof.
  intros. unfold collect_sequence, separated_items. cbn [separated_items].
  change (It_expr (n_expr l) :: flat_map (fun te => [It_trivia (fst te); It_expr (snd te)]) (sequence_rest t (n_expr r)))
    with ([It_expr (n_expr l)] ++ flat_map (fun te => [It_trivia (fst te); It_expr (snd te)]) (sequence_rest t (n_expr r))).
  assert (C := items_cong _ _ _ _ (sequence_rest_items g rho (n_expr r) t) [It_expr (n_expr l)] pre post K res).
  cbn [app] in C |- *. rewrite <- C. clear C.
  split; intro X; [inversion X; subst; try assumption|apply G_seq, X].
  match goal with R : repetition _ _ _ _ |- _ => destruct R as [(Y & _)|[(Y & _)|(range & Y & _)]]; discriminate Y end.
Qed.

Lemma choice_inv : forall g rho l r pre post K res, gp g rho (PChoice l r) pre post K res <->
  gf g rho pre post K [n_expr l; n_expr r] res.
Proof.
  intros. split; intro X.
  - inversion X; subst.
    + apply GF_here. assumption.
    + apply GF_next; [assumption|]. destruct res; [apply GF_next; [assumption|apply GF_nil]|apply GF_here; assumption].
    + match goal with R : repetition _ _ _ _ |- _ => destruct R as [(Y & _)|[(Y & _)|(range & Y & _)]]; discriminate Y end.
  - inversion X; subst; [apply G_choice_left; assumption|]. apply G_choice_right; [assumption|].
    match goal with X : gf _ _ _ _ _ [n_expr r] _ |- _ => inversion X; subst; [assumption|] end.
    match goal with X : gf _ _ _ _ _ [] _ |- _ => inversion X; subst end. assumption.
Qed.
Lemma choices_rest_first : forall g rho e pre post K res,
  gp g rho e pre post K res <-> gf g rho pre post K (choices_rest e) res.
Proof.
  intros g rho.
  assert (One : forall e pre post K res, gp g rho e pre post K res <-> gf g rho pre post K [e] res).
  { intros. split; intro X; [destruct res; [apply GF_next; [exact X|apply GF_nil]|apply GF_here, X]|].
    inversion X; subst; [assumption|]. match goal with X : gf _ _ _ _ _ [] _ |- _ => inversion X; subst end. assumption. }
  apply (expr_rect (fun e => forall pre post K res, gp g rho e pre post K res <-> gf g rho pre post K (choices_rest e) res));
    intros; try apply One.
  destruct l as [le ls], r as [re rs]. cbn [n_expr choices_rest] in *. rewrite choice_inv. cbn [n_expr].
  split; intro X; inversion X; subst; try (apply GF_here; assumption); apply GF_next; try assumption.
  - apply H0, One. assumption.
  - apply One, H0. assumption.
Qed.
Lemma flatten_choice : forall g rho l r pre post K res,
  gp g rho (PChoice l r) pre post K res <-> gf g rho pre post K (collect_choices (n_expr l) (n_expr r)) res.
Proof.
  intros. rewrite choice_inv. unfold collect_choices.
  split; intro X; inversion X; subst; try (apply GF_here; assumption); apply GF_next; try assumption.
  - apply choices_rest_first. match goal with X : gf _ _ _ _ _ [n_expr r] _ |- _ => inversion X; subst; [assumption|] end.
    match goal with X : gf _ _ _ _ _ [] _ |- _ => inversion X; subst end. assumption.
  - match goal with X : gf _ _ _ _ _ (choices_rest _) _ |- _ => apply choices_rest_first in X; rename X into Y end.
    destruct res; [apply GF_next; [exact Y|apply GF_nil]|apply GF_here, Y].
Qed.
End Flatten.

(** The same of nodes. *)
Section Nodes.
Variable env : rule -> rule_def.
Variable property : N -> char -> bool.
Notation pg := (peg env property).
Notation pi := (peg_items env property).
Notation pc := (peg_choice env property).

Lemma node_items_app : forall l1 l2 pre post K r,
  pi (l1 ++ l2) pre post K r <->
  (exists pre' post' K', pi l1 pre post K (Ok pre' post' K') /\ pi l2 pre' post' K' r) \/
  (r = Fail /\ pi l1 pre post K Fail).
Proof.
  induction l1 as [|x l1 IH]; intros l2 pre post K r; cbn [app].
  - split; [intro H; left; exists pre, post, K; split; [constructor|exact H]|].
    intros [(a & b & c & H & H')|(_ & H)]; inversion H; subst. exact H'.
  - split.
    + intro H. inversion H; subst.
      * match goal with X : _ (l1 ++ l2) _ _ _ _ |- _ => apply IH in X; rename X into H7 end. destruct H7 as [(a & b & c & A & B)|(-> & A)]; [left; exists a, b, c|right]; (split; [|try exact B]); try reflexivity; econstructor; eassumption.
      * right. split; [reflexivity|]. apply I_fail. assumption.
    + intros [(a & b & c & A & B)|(-> & A)]; inversion A; subst.
      * eapply I_cons; [eassumption|]. apply IH. left. eauto 6.
      * eapply I_cons; [eassumption|]. apply IH. right. split; [reflexivity|assumption].
      * apply I_fail. assumption.
Qed.
Lemma node_items_one : forall n pre post K r, pi [n] pre post K r <-> pg n pre post K r.
Proof.
  intros. split; intro H.
  - inversion H; subst; [|assumption].
    match goal with X : pi [] _ _ _ _ |- _ => inversion X; subst end. assumption.
  - destruct r as [|a b c]; [apply I_fail, H|eapply I_cons; [exact H|constructor]].
Qed.
Lemma seq_inv : forall fields pre post K r, pg (Seq fields) pre post K r <-> pi (sequence_items fields) pre post K r.
Proof. intros. split; intro H; [inversion H; subst; [inversion H0|assumption]|apply P_seq, H]. Qed.
Lemma choice_node_inv : forall l pre post K r, pg (Choice l) pre post K r <-> pc l pre post K r.
Proof. intros. split; intro H; [inversion H; subst; [inversion H0|assumption]|apply P_choice, H]. Qed.
Lemma node_choice_app : forall l1 l2 pre post K r,
  pc (l1 ++ l2) pre post K r <-> (pc l1 pre post K r /\ r <> Fail) \/ (pc l1 pre post K Fail /\ pc l2 pre post K r).
Proof.
  induction l1 as [|x l1 IH]; intros l2 pre post K r; cbn [app].
  - split; [intro H; right; split; [constructor|exact H]|]. intros [(H & N)|(_ & H)]; [inversion H; subst; congruence|exact H].
  - split.
    + intro H. inversion H; subst; [left; split; [apply C_ok; assumption|discriminate]|].
      match goal with X : _ (l1 ++ l2) _ _ _ _ |- _ => apply IH in X; rename X into H7 end. destruct H7 as [(A & N)|(A & B)]; [left; split; [apply C_next; assumption|exact N]|right; split; [apply C_next; assumption|exact B]].
    + intros [(H & N)|(H & B)]; inversion H; subst; [apply C_ok; assumption| |].
      * apply C_next; [assumption|]. apply IH. left. split; assumption.
      * apply C_next; [assumption|]. apply IH. right. split; assumption.
Qed.

Lemma flatten_seq_node : forall a x t0 b t pre post K r,
  pg (Seq (a ++ [(Seq ((x, t0) :: b), t)])) pre post K r <-> pg (Seq (a ++ (x, t) :: b)) pre post K r.
Proof.
  intros. rewrite !seq_inv.
  assert (E : exists l0, sequence_items (a ++ [(Seq ((x, t0) :: b), t)]) = l0 ++ [Seq ((x, t0) :: b)] /\
                         sequence_items (a ++ (x, t) :: b) = l0 ++ sequence_items ((x, t0) :: b)).
  { destruct a as [|(y, ty) a]; cbn.
    - exists []. split; reflexivity.
    - exists (y :: flat_map (fun f => [snd f; fst f]) a ++ [t]). rewrite !flat_map_app. cbn. rewrite <- !app_assoc. split; reflexivity. }
  destruct E as (l0 & -> & ->). rewrite !node_items_app.
  split; (intros [(p & q & s & A & B)|C]; [left; exists p, q, s; split; [exact A|]|right; exact C]).
  - apply node_items_one in B. apply seq_inv. exact B.
  - apply node_items_one. apply seq_inv. exact B.
Qed.
Lemma flatten_choice_node : forall a b pre post K r,
  pg (Choice (a ++ [Choice b])) pre post K r <-> pg (Choice (a ++ b)) pre post K r.
Proof.
  intros. rewrite !choice_node_inv, !node_choice_app.
  assert (E : pc [Choice b] pre post K r <-> pc b pre post K r).
  { split; intro H.
    - inversion H; subst; [apply choice_node_inv; assumption|].
      match goal with X : pc [] _ _ _ _ |- _ => inversion X; subst end. apply choice_node_inv. assumption.
    - apply choice_node_inv in H. destruct r; [apply C_next; [exact H|constructor]|apply C_ok, H]. }
  rewrite E. reflexivity.
Qed.
End Nodes.
