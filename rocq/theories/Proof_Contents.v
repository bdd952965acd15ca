(** What the generator does with any grammar, fine or not. *)
From Coq Require Import String List NArith ZArith Arith Bool Lia.
From Verif Require Import Model_Text Model_Message Model_Meta Model_Import Model_Generator Model_Output
  Spec_Text Spec_Grammar_Peg Spec_Occur Proof_Text Proof_Emit Proof_Box Proof_Process.
Import ListNotations.
Open Scope list_scope.

Section Contents.
Variable config : gconfig.
Variable fuel : nat.

(** The structs are those of the rules that are not trivia, in order. *)
Lemma process_all_contents : forall sys reach root depth rules tr o o' tr',
  process_all config fuel sys reach root depth rules tr o = Ret (o', tr') ->
  grows tr tr' /\ o_modules o' = o_modules o /\
  exists new, o_content o' = o_content o ++ new /\
    Forall2 (fun r s => exists i tr1 tr2, process_expr (pr_args r) sys root fuel (n_expr (pr_node r)) tr1 = Ret (i, tr2) /\
      s = create_rule config reach depth r i) (plain_rules rules) new.
Proof.
  intros sys reach root depth. induction rules as [|r rules IH]; intros tr o o' tr' H; cbn [process_all] in H.
  - injection H as <- <-. split; [apply grows_refl|]. split; [reflexivity|]. exists []. rewrite app_nil_r. split; [reflexivity|constructor].
  - unfold process_rule in H.
    destruct (process_expr (pr_args r) sys root fuel (n_expr (pr_node r)) tr) as [(i, t1)| |] eqn:E; try discriminate.
    cbn [obind] in H. destruct o as [c a b m v]. cbn [obind] in H. assert (G := process_expr_grows _ _ _ _ _ _ _ _ E).
    unfold plain_rules. cbn [filter]. unfold is_trivia_name.
    destruct (text_eqb (pr_name r) (lit "~")) eqn:T1; [|destruct (text_eqb (pr_name r) (lit "^")) eqn:T2];
      apply IH in H; destruct H as (G' & M & new & C & F); cbn [o_modules o_content] in *;
      (split; [eapply grows_trans; eassumption|]); (split; [exact M|]).
    + exists new. split; [exact C|exact F].
    + exists new. split; [exact C|exact F].
    + exists (create_rule config reach depth r i :: new). rewrite C, <- app_assoc. split; [reflexivity|].
      cbn [orb negb]. constructor; [|exact F]. exists i, tr, t1. split; [exact E|reflexivity].
Qed.

Lemma imports_grows : forall process l sys tr modules sys' tr',
  (forall alias g, In (File alias g) l -> forall t o c t', process g t = Ret (o, c, t') -> grows t t') ->
  imports_loop process l sys tr = Ret (modules, sys', tr') -> grows tr tr'.
Proof.
  intros process. induction l as [|[a p|a g] l IH]; intros sys tr modules sys' tr' P H; cbn [imports_loop] in H.
  - injection H as <- <- <-. apply grows_refl.
  - destruct (sys_alias sys p a) as [s| |]; try discriminate. cbn [obind] in H. eapply IH; [|exact H].
    intros b g' I. apply (P b g'). right. exact I.
  - destruct (process g tr) as [((o, im), t)| |] eqn:E; try discriminate. cbn [obind] in H.
    destruct (imports_loop process l _ t) as [((ms, s), t')| |] eqn:E2; try discriminate. cbn [obind] in H. injection H as <- <- <-.
    eapply grows_trans; [eapply (P a g); [left; reflexivity|exact E]|].
    eapply IH; [|exact E2]. intros b g' I. apply (P b g'). right. exact I.
Qed.

Lemma process_rules_contents : forall global g root depth tr o coll tr',
  process_rules config fuel global root depth g tr = Ret (o, coll, tr') ->
  grows tr tr' /\
  exists reach, collect_reachability (g_rules g) = Ret reach /\
    Forall2 (fun r s => exists sys i tr1 tr2, process_expr (pr_args r) sys root fuel (n_expr (pr_node r)) tr1 = Ret (i, tr2) /\
      s = create_rule config reach depth r i) (plain_rules (g_rules g)) (o_content o).
Proof.
  intros global g. induction g as [g IH] using gmodule_rect'. intros root depth tr o coll tr' H. rewrite process_rules_eq in H.
  destruct (imports_loop _ (g_imports g) (mkSys [] global) tr) as [((modules, sys1), t1)| |] eqn:E1; try discriminate. cbn [obind] in H.
  destruct (collect_reachability (g_rules g)) as [reach| |] eqn:E2; try discriminate. cbn [obind] in H.
  destruct (insert_rules (g_rules g) sys1) as [sys2| |] eqn:E3; try discriminate. cbn [obind] in H.
  destruct (process_all _ _ _ _ _ _ _ _ _) as [(o1, t2)| |] eqn:E4; try discriminate. cbn [obind] in H. injection H as <- <- <-.
  apply imports_grows in E1; [|intros alias g' I t o c t' Hp; eapply IH in Hp; [apply Hp|exact I]].
  apply process_all_contents in E4. destruct E4 as (G & _ & new & C & F). cbn [o_content app] in C. rewrite C.
  split; [eapply grows_trans; eassumption|]. exists reach. split; [reflexivity|].
  clear - F. induction F as [|r s l l' (i & a & b & P & Q) F IHF]; constructor; [|exact IHF]. exists sys2, i, a, b. split; assumption.
Qed.
End Contents.
