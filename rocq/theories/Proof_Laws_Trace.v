(** Laws of grammar expressions that keep the traces. *)
From Coq Require Import String List NArith ZArith Arith Bool Lia.
From Verif Require Import Proof_Accepted Proof_Accept Model_Text Model_Message Model_Meta Model_Import Model_Tracker Model_Node Model_Pairs Spec_Text Spec_Peg Spec_Grammar_Peg Spec_Occur Spec_Generator
  Spec_Inline Spec_Laws Spec_Grammar_Tree Spec_Grammar_Trace Spec_Laws_Trace Proof_Position Proof_Grammar_Trace_Det Proof_Det Proof_Grammar_Tree_Det Proof_Laws Proof_Laws_Tree Spec_Local.
Import ListNotations.
Open Scope list_scope.

Ltac ainv H := inversion H; subst; try no_rep;
  try match goal with X : (exists s, _ = PStr s) \/ _ |- _ => let Q := fresh in solve [destruct X as [(? & Q)|[(? & Q)|(? & ? & Q)]]; discriminate Q] end; clear H.

Section Laws.
Variable unicode : list text.
Variable property : N -> char -> bool.
Variable open : gmodule -> parse_rule -> Prop.
Notation G := (gpeg unicode property).
Notation A := (gtry unicode property open).
Notation AI := (gtry_items unicode property open).
Notation ARs := (gtry_rounds unicode property open).
Notation AR := (gtry_round unicode property open).

Definition try_G := proj1 (gtry_gpeg unicode property open).

Section In.
Variable chain : list (label * nat).
Variable pol : bool.
Variable m : gmodule.
Variable rho : list (text * closure).

Lemma aitems_one : forall e pre post K r tr, AI chain pol m rho [It_expr e] pre post K r tr <-> A chain pol m rho e pre post K r tr.
Proof.
  intros e pre post K r tr. split; intro H.
  - inversion H; subst; [|assumption]. match goal with X : AI _ _ _ _ [] _ _ _ _ _ |- _ => inversion X; subst end. rewrite app_nil_r. assumption.
  - destruct r as [|a b c]; [apply GAI_expr_fail, H|]. rewrite <- (app_nil_r tr). eapply GAI_expr; [exact H|constructor].
Qed.
Lemma atext : forall e pre post K r, ((exists s, e = PStr s) \/ (exists s, e = PInsens s) \/ (exists x y, e = PRange x y)) ->
  forall tr, A chain pol m rho e pre post K r tr <-> G m rho e pre post K r /\ tr = [].
Proof.
  intros e pre post K r E tr. split.
  - intro H. split; [exact (try_G _ _ _ _ _ _ _ _ _ _ H)|]. destruct E as [(s & ->)|[(s & ->)|(x & y & ->)]]; ainv H; reflexivity.
  - intros (H & ->). apply GA_text; assumption.
Qed.
Lemma aempty_str : forall pre post K r tr, A chain pol m rho (PStr []) pre post K r tr <-> r = Ok pre post K /\ tr = [].
Proof. intros pre post K r tr. rewrite atext by eauto. rewrite empty_str. reflexivity. Qed.
Lemma around_none : forall e i pre post K r tr, AR chain pol m rho e TriviaNone i pre post K r tr <-> A chain pol m rho e pre post K r tr.
Proof.
  intros e i pre post K r tr. split; intro H.
  - inversion H; subst; [apply aitems_one; assumption|]. match goal with X : AI _ _ _ _ (It_trivia _ :: _) _ _ _ _ _ |- _ => inversion X; subst end; try discriminate.
    apply aitems_one; assumption.
  - destruct (N.eq_dec i 0) as [->|N]; [constructor; apply aitems_one, H|]. apply GAR_later; [lia|]. apply GAI_none, aitems_one, H.
Qed.
Lemma around_first : forall e t pre post K r tr, AR chain pol m rho e t 0 pre post K r tr <-> A chain pol m rho e pre post K r tr.
Proof. intros e t pre post K r tr. split; intro H; [inversion H; subst; [apply aitems_one; assumption|lia]|constructor; apply aitems_one, H]. Qed.
Lemma arep_rounds : forall e n min max t, repetition e n min max -> round_trivia (n_expr n) t ->
  forall pre post K r tr, A chain pol m rho e pre post K r tr <-> ARs chain pol m rho (n_expr n) t min max 0 pre post K r tr.
Proof.
  intros e n min max t R Tr pre post K r tr. split; intro H; [|eapply GA_repeat; eassumption].
  inversion H; subst; try no_rep;
    try match goal with X : (exists s, _ = PStr s) \/ _ |- _ => destruct X as [(? & ->)|[(? & ->)|(? & ? & ->)]]; no_rep end.
  match goal with X : repetition ?x n min max, B : repetition ?x _ _ _ |- _ => destruct (repetition_det _ _ _ _ _ _ _ X B) as (<- & <- & <-) end.
  match goal with X : round_trivia (n_expr n) t, B : round_trivia (n_expr n) _ |- _ => destruct (round_trivia_det _ _ _ X B) end. assumption.
Qed.
Lemma arounds_max : forall e t min max i pre post K r tr, (max <= i)%N -> ARs chain pol m rho e t min max i pre post K r tr <-> r = Ok pre post K /\ tr = [].
Proof. intros e t min max i pre post K r tr L. split; [intro H; inversion H; subst; [auto|lia..]|intros (-> & ->); constructor; exact L]. Qed.
Lemma aseq_items : forall a b t pre post K r tr, A chain pol m rho (PSeq a b t) pre post K r tr <-> AI chain pol m rho [It_expr (n_expr a); It_trivia t; It_expr (n_expr b)] pre post K r tr.
Proof. intros. split; intro H; [ainv H; assumption|apply GA_seq, H]. Qed.
Lemma aitems_app : forall l l' pre post K r tr, AI chain pol m rho (l ++ l') pre post K r tr <->
  (AI chain pol m rho l pre post K Fail tr /\ r = Fail) \/
  exists pre' post' K' us vs, AI chain pol m rho l pre post K (Ok pre' post' K') us /\ AI chain pol m rho l' pre' post' K' r vs /\ tr = us ++ vs.
Proof.
  intros l l'. induction l as [|x l IH]; intros pre post K r tr; cbn [app].
  - split; [intro H; right; exists pre, post, K, [], tr; split; [constructor|split; [exact H|reflexivity]]|]. intros [(H & _)|(p0 & q0 & k0 & us & vs & H & J & ->)]; inversion H; subst. exact J.
  - split.
    + intro H. inversion H; subst;
        try match goal with X : AI _ _ _ _ (l ++ l') _ _ _ _ _ |- _ => apply IH in X; destruct X as [(X & ->)|(p0 & q0 & k0 & us & vs & X & J & ->)] end.
      * left. split; [eapply GAI_expr; eassumption|reflexivity].
      * right. exists p0, q0, k0, (tr0 ++ us), vs. split; [eapply GAI_expr; eassumption|]. split; [exact J|apply app_assoc].
      * left. split; [apply GAI_expr_fail; assumption|reflexivity].
      * left. split; [apply GAI_none; assumption|reflexivity].
      * right. exists p0, q0, k0, us, vs. split; [apply GAI_none; assumption|]. split; [exact J|reflexivity].
      * left. split; [eapply GAI_trivia; eassumption|reflexivity].
      * right. exists p0, q0, k0, (tr0 ++ us), vs. split; [eapply GAI_trivia; eassumption|]. split; [exact J|apply app_assoc].
      * left. split; [eapply GAI_trivia_fail; eassumption|reflexivity].
    + intros [(H & ->)|(p0 & q0 & k0 & us & vs & H & J & ->)]; inversion H; subst.
      * eapply GAI_expr; [eassumption|]. apply IH. left. auto.
      * apply GAI_expr_fail; assumption.
      * apply GAI_none. apply IH. left. auto.
      * eapply GAI_trivia; [eassumption|eassumption|eassumption|]. apply IH. left. auto.
      * eapply GAI_trivia_fail; eassumption.
      * rewrite <- app_assoc. eapply GAI_expr; [eassumption|]. apply IH. right. eauto 10.
      * apply GAI_none. apply IH. right. eauto 10.
      * rewrite <- app_assoc. eapply GAI_trivia; [eassumption|eassumption|eassumption|]. apply IH. right. eauto 10.
Qed.
Lemma aitems_flat : forall e l, (forall pre post K r tr, A chain pol m rho e pre post K r tr <-> AI chain pol m rho l pre post K r tr) ->
  forall l1 l2 pre post K r tr, AI chain pol m rho (l1 ++ It_expr e :: l2) pre post K r tr <-> AI chain pol m rho (l1 ++ l ++ l2) pre post K r tr.
Proof.
  intros e l E l1 l2 pre post K r tr. rewrite !aitems_app.
  assert (Q : forall pre post K r tr, AI chain pol m rho (It_expr e :: l2) pre post K r tr <-> AI chain pol m rho (l ++ l2) pre post K r tr).
  { intros. change (It_expr e :: l2) with ([It_expr e] ++ l2). rewrite !aitems_app. setoid_rewrite aitems_one. setoid_rewrite E. reflexivity. }
  setoid_rewrite Q. reflexivity.
Qed.
Lemma aseq_none : forall a b pre post K r tr, A chain pol m rho (PSeq a b TriviaNone) pre post K r tr <->
  (A chain pol m rho (n_expr a) pre post K Fail tr /\ r = Fail) \/
  exists pre' post' K' us vs, A chain pol m rho (n_expr a) pre post K (Ok pre' post' K') us /\ A chain pol m rho (n_expr b) pre' post' K' r vs /\ tr = us ++ vs.
Proof.
  intros a b pre post K r tr. rewrite aseq_items. split.
  - intro H. inversion H; subst; [|left; auto]. right. match goal with X : AI _ _ _ _ (It_trivia _ :: _) _ _ _ _ _ |- _ => inversion X; subst; try discriminate end.
    match goal with X : AI _ _ _ _ [It_expr _] _ _ _ _ _ |- _ => apply aitems_one in X end. eauto 10.
  - intros [(H & ->)|(p & q & k & us & vs & H & J & ->)]; [apply GAI_expr_fail, H|]. eapply GAI_expr; [exact H|]. apply GAI_none, aitems_one, J.
Qed.
End In.
Lemma arounds_shift : forall chain pol m rho e min max i pre post K r tr,
  ARs chain pol m rho e TriviaNone (min + 1) (max + 1) (i + 1) pre post K r tr -> ARs chain pol m rho e TriviaNone min max i pre post K r tr.
Proof.
  intros chain pol m rho e min max i pre post K r tr H. remember TriviaNone as t eqn:Et. remember (min + 1)%N as mi eqn:Ei. remember (max + 1)%N as ma eqn:Ea. remember (i + 1)%N as j eqn:Ej.
  revert i Ej. induction H; intros; subst.
  - apply GAR_max. lia.
  - eapply GAR_round; [lia| |eauto]. apply around_none. eapply around_none. eassumption.
  - apply GAR_stop; [lia|lia|]. apply around_none. eapply around_none. eassumption.
  - apply GAR_fail; [lia|lia|]. apply around_none. eapply around_none. eassumption.
Qed.
Lemma arounds_min : forall chain pol m rho e t min min' max i pre post K r tr, (min <= i)%N -> (min' <= i)%N ->
  ARs chain pol m rho e t min max i pre post K r tr -> ARs chain pol m rho e t min' max i pre post K r tr.
Proof.
  intros chain pol m rho e t min min' max i pre post K r tr L L' H. induction H.
  - apply GAR_max. lia.
  - eapply GAR_round; [lia|eassumption|]. apply IHgtry_rounds; lia.
  - apply GAR_stop; [lia|lia|assumption].
  - lia.
Qed.

Definition same_tries (m : gmodule) (rho : list (text * closure)) (e e' : parse_expr) : Prop :=
  forall chain pol pre post K r tr, A chain pol m rho e pre post K r tr -> A chain pol m rho e' pre post K r tr.

Lemma arounds_ok : forall chain pol m rho e t min max i pre post K r tr, ARs chain pol m rho e t min max i pre post K r tr -> (min <= i)%N -> r <> Fail.
Proof. intros chain pol m rho e t min max i pre post K r tr H. induction H; intro L; try discriminate; [apply IHgtry_rounds; lia|lia]. Qed.

Lemma law_tries : forall m rho e e', tracing_law e e' -> same_tries m rho e e'.
Proof.
  intros m rho e e' (L & N) chain pol pre post K r tr H.
  assert (Tx : forall x x', law x x' -> ((exists s, x' = PStr s) \/ (exists s, x' = PInsens s) \/ (exists a b, x' = PRange a b)) ->
    A chain pol m rho x pre post K r tr -> tr = [] -> A chain pol m rho x' pre post K r tr).
  { intros x x' Lx Ex Hx ->. apply atext; [exact Ex|]. split; [|reflexivity]. apply (law_alike unicode property m rho _ _ Lx), (try_G _ _ _ _ _ _ _ _ _ _ Hx). }
  destruct L.
  - (* opt_choice *) ainv H.
    + apply GA_left; assumption.
    + rewrite <- (app_nil_r tr). eapply GA_right; [eassumption|]. apply aempty_str. auto.
  - (* opt_bounds *) destruct (trivia_total (n_expr a)) as (t & Tr). apply (arep_rounds _ _ _ _ _ _ _ _ _ (bounds_rep a 0 1) Tr). ainv H.
    + rewrite <- (app_nil_r tr). eapply GAR_round; [lia|apply around_first; eassumption|]. apply GAR_max. lia.
    + apply GAR_stop; [lia|lia|]. apply around_first; assumption.
  - (* positive *) destruct N. right. right. left. eauto.
  - (* not_positive *) destruct N. right. right. right. eauto.
  - (* not_not_not *) ainv H; match goal with X : A _ _ _ _ (n_expr (mkNode _ _)) _ _ _ _ _ |- _ => cbn in X; ainv X end;
      match goal with X : A _ _ _ _ (n_expr (mkNode _ _)) _ _ _ _ _ |- _ => cbn in X; ainv X end; econstructor; eassumption.
  - (* seq *) apply aseq_items in H. apply aseq_items. cbn [n_expr] in *.
    apply (aitems_flat chain pol m rho _ _ (aseq_items chain pol m rho a b t) [] [_; _]) in H.
    apply (aitems_flat chain pol m rho _ _ (aseq_items chain pol m rho b c u) [_; _] []). exact H.
  - (* choice *) ainv H; match goal with X : A _ _ _ _ (n_expr (mkNode _ _)) _ _ _ _ _ |- _ => cbn in X; ainv X end.
    + apply GA_left; assumption.
    + eapply GA_right; [eassumption|]. cbn. apply GA_left; assumption.
    + rewrite <- app_assoc. eapply GA_right; [eassumption|]. cbn. eapply GA_right; eassumption.
  - (* same *) destruct N. left. eauto 10.
  - (* empty_left *) apply aseq_none in H. destruct H as [(H & _)|(p & q & k & us & vs & H & J & ->)]; cbn [n_expr] in H; apply aempty_str in H; destruct H as (E & E'); [discriminate E|]. injection E as -> -> ->. subst us. exact J.
  - (* empty_right *) apply aseq_none in H. destruct H as [(H & ->)|(p & q & k & us & vs & H & J & ->)]; [exact H|]. cbn [n_expr] in J. apply aempty_str in J. destruct J as (-> & ->). rewrite app_nil_r. exact H.
  - (* strings *) refine (Tx _ _ (L_strings x y sp sp') _ H _); [eauto|]. apply aseq_none in H. destruct H as [(H & _)|(p & q & k & us & vs & H & J & ->)]; cbn [n_expr] in *; apply atext in H; eauto; destruct H as (_ & ->); [reflexivity|].
    apply atext in J; eauto. destruct J as (_ & ->). reflexivity.
  - (* prefix *) refine (Tx _ _ (L_prefix x y sp sp') _ H _); [eauto|]. ainv H; repeat match goal with X : A _ _ _ _ (n_expr (mkNode _ _)) _ _ _ _ _ |- _ => cbn in X; apply atext in X; [destruct X as (_ & ->)|eauto] end; reflexivity.
  - (* char *) refine (Tx _ _ (L_char c) _ H _); [eauto|]. apply atext in H; [apply H|eauto 6].
  - (* ranges *) match goal with Q : (a <= b + 1)%N, Q' : (b <= c)%N |- _ => refine (Tx _ _ (L_ranges a b c sp sp' Q Q') _ H _) end; [eauto 6|].
    ainv H; repeat match goal with X : A _ _ _ _ (n_expr (mkNode _ _)) _ _ _ _ _ |- _ => cbn in X; apply atext in X; [destruct X as (_ & ->)|eauto 6] end; reflexivity.
  - (* separated *) ainv H. assumption.
  - (* look *) destruct N. right. left. eauto 10.
  - (* star *) destruct (trivia_total (n_expr a)) as (t & Tr). assert (U : (0 < usize_max)%N) by reflexivity.
    apply (arep_rounds chain pol m rho (PRep a) a 0 usize_max t ltac:(left; auto) Tr) in H.
    assert (Q := arep_rounds chain pol m rho (PRepOnce a) a 1 usize_max t ltac:(right; left; auto) Tr).
    inversion H; subst.
    + lia.
    + match goal with X : ARs _ _ _ _ _ _ _ _ (0 + 1)%N _ _ _ _ _ |- _ => assert (Ok' := arounds_ok _ _ _ _ _ _ _ _ _ _ _ _ _ _ X ltac:(lia)) end. destruct r as [|x y z]; [congruence|].
      apply GA_left. cbn. apply Q. eapply GAR_round; [exact U|eassumption|]. eapply arounds_min; [| |eassumption]; lia.
    + rewrite <- (app_nil_r tr). eapply GA_right; [cbn; apply Q, GAR_fail; [exact U|lia|eassumption]|]. apply aempty_str. auto.
    + lia.
  - (* star_bounds *) destruct (trivia_total (n_expr a)) as (t & Tr).
    apply (arep_rounds chain pol m rho (PRep a) a 0 usize_max t ltac:(left; auto) Tr) in H. apply (arep_rounds chain pol m rho (PRepRange a range) a 0 usize_max t); [|exact Tr|exact H].
    right. right. exists range. auto.
  - (* plus_bounds *) destruct (trivia_total (n_expr a)) as (t & Tr).
    apply (arep_rounds chain pol m rho (PRepOnce a) a 1 usize_max t ltac:(right; left; auto) Tr) in H. apply (arep_rounds chain pol m rho (PRepRange a range) a 1 usize_max t); [|exact Tr|exact H].
    right. right. exists range. auto.
  - (* once *) destruct (trivia_total (n_expr a)) as (t & Tr). apply (arep_rounds _ _ _ _ _ _ _ _ _ (bounds_rep a 1 1) Tr) in H.
    inversion H; subst; try lia.
    + match goal with X : ARs _ _ _ _ _ _ _ _ (0 + 1)%N _ _ _ _ _ |- _ => apply arounds_max in X; [|lia]; destruct X as (-> & ->) end. rewrite app_nil_r. eapply around_first; eassumption.
    + eapply around_first; eassumption.
  - (* more *) match goal with X : unseparated _ |- _ => assert (Tr := un_trivia _ X) end. apply (arep_rounds _ _ _ _ _ _ _ _ _ (bounds_rep a _ _) Tr) in H. apply aseq_none. cbn [n_expr].
    inversion H; subst; try lia.
    + right. match goal with X : AR _ _ _ _ _ _ _ _ _ _ _ _, B : ARs _ _ _ _ _ _ _ _ _ _ _ _ _ _ |- _ => apply around_none in X; apply arounds_shift in B; eexists _, _, _, _, _; split; [exact X|]; split; [|reflexivity] end.
      apply (arep_rounds _ _ _ _ _ _ _ _ _ (bounds_rep a _ _) Tr). assumption.
    + left. split; [eapply around_none; eassumption|reflexivity].
  - (* some *) match goal with X : unseparated _ |- _ => assert (Tr := un_trivia _ X) end. apply (arep_rounds _ _ _ _ _ _ _ _ _ (bounds_rep a _ _) Tr) in H.
    inversion H; subst; try lia.
    + match goal with X : ARs _ _ _ _ _ _ _ _ (0 + 1)%N _ _ _ _ _ |- _ => assert (Ok' := arounds_ok _ _ _ _ _ _ _ _ _ _ _ _ _ _ X ltac:(lia)) end. destruct r as [|x y z]; [congruence|].
      apply GA_some. cbn. apply aseq_none. right. cbn [n_expr].
      match goal with X : AR _ _ _ _ _ _ _ _ _ _ _ _, B : ARs _ _ _ _ _ _ _ _ _ _ _ _ _ _ |- _ => apply around_none in X; eexists _, _, _, _, _; split; [exact X|]; split; [|reflexivity] end.
      apply (arep_rounds _ _ _ _ _ _ _ _ _ (bounds_rep a _ _) Tr), arounds_shift. eapply arounds_min; [| |eassumption]; lia.
    + apply GA_none. cbn. apply aseq_none. left. split; [eapply around_none; eassumption|reflexivity].
Qed.

(** The other direction, as there is one trace only. *)
Lemma tries_back : distinct_properties unicode -> (forall h q, open h q \/ ~ open h q) -> forall m rho e e', complete unicode m -> good_env unicode rho -> alike unicode property m rho e e' -> same_tries m rho e e' -> same_tries m rho e' e.
Proof.
  intros Distinct Dec m rho e e' C Ge Al S chain pol pre post K r tr H. assert (Q := try_G _ _ _ _ _ _ _ _ _ _ H). apply Al in Q.
  destruct (proj1 (gpeg_gtry unicode property open Dec) _ _ _ _ _ _ _ Q chain pol) as (us & J). assert (J' := S _ _ _ _ _ _ _ J).
  destruct (proj1 (gtry_unique unicode property open Distinct) _ _ _ _ _ _ _ _ _ _ J' C Ge _ _ H) as (_ & ->). exact J.
Qed.

Lemma arounds_alike : forall m rho e e', same_tries m rho e e' -> forall chain pol t min max i pre post K r tr,
  ARs chain pol m rho e t min max i pre post K r tr -> ARs chain pol m rho e' t min max i pre post K r tr.
Proof.
  intros m rho e e' S chain pol t min max.
  assert (I : forall i pre post K r tr, AR chain pol m rho e t i pre post K r tr -> AR chain pol m rho e' t i pre post K r tr).
  { intros i pre post K r tr H. inversion H; subst; [apply GAR_first|apply GAR_later; [assumption|]].
    - apply aitems_one, S, aitems_one. assumption.
    - change [It_trivia t; It_expr e] with ([It_trivia t] ++ [It_expr e]) in *. change [It_trivia t; It_expr e'] with ([It_trivia t] ++ [It_expr e']).
      match goal with Z : AI _ _ _ _ _ _ _ _ _ _ |- _ => rename Z into X end. apply aitems_app in X. apply aitems_app. destruct X as [X|(p0 & q0 & k0 & us & vs & X & Y & ->)]; [left; exact X|right].
      exists p0, q0, k0, us, vs. split; [exact X|]. split; [|reflexivity]. apply aitems_one, S, aitems_one, Y. }
  intros i pre post K r tr H. revert I. clear S. induction H; intros I; [apply GAR_max|eapply GAR_round|apply GAR_stop|apply GAR_fail]; eauto.
Qed.
Lemma repeat_tries : forall m rho a b, same_tries m rho (n_expr a) (n_expr b) -> separator_alike (n_expr a) (n_expr b) ->
  forall e e' min max, repetition e a min max -> repetition e' b min max -> same_tries m rho e e'.
Proof.
  intros m rho a b S Sp e e' min max R R' chain pol pre post K r tr H. destruct (trivia_total (n_expr a)) as (t & Tr). assert (Tr' := separator_trivia _ _ _ Sp Tr).
  apply (arep_rounds _ _ _ _ _ _ _ _ _ R' Tr'). apply (arep_rounds _ _ _ _ _ _ _ _ _ R Tr) in H. revert H. apply arounds_alike; assumption.
Qed.

(** Arguments in which the same is tried. *)
Inductive aimp_clo : closure -> closure -> Prop :=
| AIC_means m rho e m' rho' e' : (forall pre post K r, G m rho e pre post K r -> G m' rho' e' pre post K r) ->
    (forall chain pol pre post K r tr, A chain pol m rho e pre post K r tr -> A chain pol m' rho' e' pre post K r tr) -> aimp_clo (Clo m rho e) (Clo m' rho' e')
| AIC_env m rho rho' e : aimp_env rho rho' -> aimp_clo (Clo m rho e) (Clo m rho' e)
with aimp_env : list (text * closure) -> list (text * closure) -> Prop :=
| AIE_nil : aimp_env [] []
| AIE_cons x c c' rho rho' : aimp_clo c c' -> aimp_env rho rho' -> aimp_env ((x, c) :: rho) ((x, c') :: rho').
Scheme aimp_clo_mut := Minimality for aimp_clo Sort Prop with aimp_env_mut := Minimality for aimp_env Sort Prop.
Lemma aimp_imp : forall rho rho', aimp_env rho rho' -> imp_env unicode property rho rho'.
Proof.
  apply (aimp_env_mut (fun c c' => imp_clo unicode property c c') (fun rho rho' => imp_env unicode property rho rho')); intros; try (constructor; assumption).
Qed.
Lemma aimp_assoc : forall rho rho', aimp_env rho rho' -> forall x c, assoc x rho c -> exists c', assoc x rho' c' /\ aimp_clo c c'.
Proof.
  intros rho rho' H. induction H as [|y c c' rho rho' Sc H IH]; intros x d As; inversion As; subst.
  - exists c'. split; [constructor|exact Sc].
  - destruct (IH _ _ ltac:(eassumption)) as (d' & A' & S). exists d'. split; [constructor; assumption|exact S].
Qed.
Lemma aimp_none : forall rho rho' path, aimp_env rho rho' -> (forall x c, path = [x] -> ~ assoc x rho c) -> forall x c, path = [x] -> ~ assoc x rho' c.
Proof. intros rho rho' path H. exact (imp_none unicode property rho rho' path (aimp_imp _ _ H)). Qed.
Lemma aimp_call : forall m rho rho' ps l, aimp_env rho rho' ->
  aimp_env (combine ps (map (fun n => Clo m rho (n_expr n)) l)) (combine ps (map (fun n => Clo m rho' (n_expr n)) l)).
Proof. intros m rho rho' ps l S. revert ps. induction l as [|n l IH]; intros [|p ps]; try constructor; [constructor; exact S|apply IH]. Qed.
Lemma aimp_G : forall m rho e pre post K r, G m rho e pre post K r -> forall rho', aimp_env rho rho' -> G m rho' e pre post K r.
Proof. intros m rho e pre post K r H rho' E. exact (proj1 (imp_meaning unicode property) _ _ _ _ _ _ _ H _ (aimp_imp _ _ E)). Qed.
Theorem aimp_tries :
  (forall chain pol m rho e pre post K r tr, A chain pol m rho e pre post K r tr -> forall rho', aimp_env rho rho' -> A chain pol m rho' e pre post K r tr) /\
  (forall chain pol m rho l pre post K r tr, AI chain pol m rho l pre post K r tr -> forall rho', aimp_env rho rho' -> AI chain pol m rho' l pre post K r tr) /\
  (forall chain pol m rho e t min max i pre post K r tr, ARs chain pol m rho e t min max i pre post K r tr -> forall rho', aimp_env rho rho' -> ARs chain pol m rho' e t min max i pre post K r tr) /\
  (forall chain pol m rho e t i pre post K r tr, AR chain pol m rho e t i pre post K r tr -> forall rho', aimp_env rho rho' -> AR chain pol m rho' e t i pre post K r tr).
Proof.
  apply (gtry_mutind unicode property open
    (fun chain pol m rho e pre post K r tr _ => forall rho', aimp_env rho rho' -> A chain pol m rho' e pre post K r tr)
    (fun chain pol m rho l pre post K r tr _ => forall rho', aimp_env rho rho' -> AI chain pol m rho' l pre post K r tr)
    (fun chain pol m rho e t min max i pre post K r tr _ => forall rho', aimp_env rho rho' -> ARs chain pol m rho' e t min max i pre post K r tr)
    (fun chain pol m rho e t i pre post K r tr _ => forall rho', aimp_env rho rho' -> AR chain pol m rho' e t i pre post K r tr)).
  all: intros; try (now (econstructor; eauto using aimp_none, aimp_call, aimp_G)).
  - match goal with E : aimp_env _ _ |- _ => destruct (aimp_assoc _ _ E _ _ a) as (c' & As & Sc) end. inversion Sc; subst; eapply GA_param; [exact As|auto|exact As|apply H; assumption].
Qed.
Lemma argument_tries : forall m rho path l a b k, alike unicode property m rho (n_expr a) (n_expr b) -> same_tries m rho (n_expr a) (n_expr b) ->
  same_tries m rho (PPath path (Some (PCall (l ++ a :: k)))) (PPath path (Some (PCall (l ++ b :: k)))).
Proof.
  intros m rho path l a b k Al S chain pol pre post K r tr H.
  assert (Q := argument_alike unicode property m rho path l a b k Al _ _ _ _ (try_G _ _ _ _ _ _ _ _ _ _ H)).
  assert (E : forall xs, aimp_env (combine xs (map (fun n => Clo m rho (n_expr n)) (l ++ a :: k))) (combine xs (map (fun n => Clo m rho (n_expr n)) (l ++ b :: k)))).
  { assert (E : forall ps l0, aimp_env (combine ps (map (fun n => Clo m rho (n_expr n)) l0)) (combine ps (map (fun n => Clo m rho (n_expr n)) l0))).
    { intros xs l0. revert xs. induction l0 as [|n l0 IH]; intros [|p xs]; try constructor; [|apply IH]. constructor; auto. }
    clear - Al S E. induction l as [|n l IH]; intros [|p xs]; cbn; constructor; try apply IH; try apply E; constructor; auto. intros pre post K r. apply Al. }
  inversion H; subst; try no_rep;
    try match goal with X : (exists s, _ = PStr s) \/ _ |- _ => let Q := fresh in solve [destruct X as [(? & Q)|[(? & Q)|(? & ? & Q)]]; discriminate Q] end.
  - eapply GA_builtin; try eassumption. discriminate.
  - eapply GA_empty; try eassumption. discriminate.
  - eapply GA_param; eassumption.
  - match goal with X : call_arguments _ _ |- _ => destruct X as [X|(X & _)]; [|discriminate X]; injection X as <- end.
    eapply GA_rule; [eassumption|eassumption|left; reflexivity|rewrite app_length in *; assumption|assumption|].
    eapply (proj1 aimp_tries); [eassumption|apply E].
  - match goal with X : call_arguments _ _ |- _ => destruct X as [X|(X & _)]; [|discriminate X]; injection X as <- end.
    eapply GA_open; [eassumption|eassumption|left; reflexivity|rewrite app_length in *; assumption|assumption|].
    eapply (proj1 aimp_tries); [eassumption|apply E].
  - destruct l as [|n' l]; cbn in *; [|destruct l; discriminate].
    match goal with X : [_] = _ :: _ |- _ => injection X as -> <- | X : _ :: _ = [_] |- _ => injection X as -> -> end. apply GA_push_ok; [assumption|assumption|]. apply S. assumption.
  - destruct l as [|n' l]; cbn in *; [|destruct l; discriminate].
    match goal with X : [_] = _ :: _ |- _ => injection X as -> <- | X : _ :: _ = [_] |- _ => injection X as -> -> end. apply GA_push_fail; [assumption|assumption|]. apply S. assumption.
Qed.

Theorem rewritten_tries : forall (L : parse_expr -> parse_expr -> Prop) m rho, (forall e e', L e e' -> alike unicode property m rho e e') ->
  (forall e e', L e e' -> same_tries m rho e e' /\ same_tries m rho e' e) ->
  forall e e', rewritten L e e' -> same_tries m rho e e' /\ same_tries m rho e' e.
Proof.
  intros L m rho HA HL e e' H. assert (Al := rewritten_alike unicode property L m rho HA).
  assert (Po : forall a b, same_tries m rho (n_expr a) (n_expr b) -> same_tries m rho (PPosPred a) (PPosPred b)).
  { intros a b S1 chain pol pre post K r tr J. ainv J; [eapply GA_positive_ok|eapply GA_positive_fail]; apply S1; eassumption. }
  assert (Ne : forall a b, same_tries m rho (n_expr a) (n_expr b) -> same_tries m rho (PNegPred a) (PNegPred b)).
  { intros a b S1 chain pol pre post K r tr J. ainv J; [eapply GA_negative_ok|eapply GA_negative_fail]; apply S1; eassumption. }
  assert (Seq : forall a b c d t, same_tries m rho (n_expr a) (n_expr b) -> same_tries m rho (n_expr c) (n_expr d) -> same_tries m rho (PSeq a c t) (PSeq b d t)).
  { intros a b c d t S1 S2 chain pol pre post K r tr J. apply aseq_items in J. apply aseq_items. inversion J; subst; [|apply GAI_expr_fail, S1; assumption]. eapply GAI_expr; [apply S1; eassumption|].
    match goal with X : AI _ _ _ _ (It_trivia _ :: _) _ _ _ _ _ |- _ => inversion X; subst end;
      [apply GAI_none; apply aitems_one, S2, aitems_one; assumption|eapply GAI_trivia; [eassumption|eassumption|eassumption|]; apply aitems_one, S2, aitems_one; assumption|eapply GAI_trivia_fail; eassumption]. }
  assert (Cho : forall a b c d, same_tries m rho (n_expr a) (n_expr b) -> same_tries m rho (n_expr c) (n_expr d) -> same_tries m rho (PChoice a c) (PChoice b d)).
  { intros a b c d S1 S2 chain pol pre post K r tr J. ainv J; [apply GA_left, S1; assumption|]. apply GA_right; [apply S1; assumption|apply S2; assumption]. }
  assert (Op : forall a b, same_tries m rho (n_expr a) (n_expr b) -> same_tries m rho (POpt a) (POpt b)).
  { intros a b S1 chain pol pre post K r tr J. ainv J; [apply GA_some, S1; assumption|]. apply GA_none, S1. assumption. }
  assert (Se : forall a b t, same_tries m rho (n_expr a) (n_expr b) -> same_tries m rho (PSeparated a t) (PSeparated b t)).
  { intros a b t S1 chain pol pre post K r tr J. ainv J. apply GA_separated, S1. assumption. }
  induction H; try (match goal with IH : same_tries _ _ _ _ /\ _ |- _ => destruct IH end); try (match goal with IH : same_tries _ _ _ _ /\ _ |- _ => destruct IH end).
  - apply HL. assumption.
  - split; intros chain pol pre post K r tr J; exact J.
  - split; assumption.
  - split; intros chain pol pre post K r tr J; auto.
  - split; apply Po; assumption.
  - split; apply Ne; assumption.
  - split; apply Op; assumption.
  - split; apply Seq; assumption.
  - split; apply Cho; assumption.
  - split; apply Se; assumption.
  - assert (Sp : separator_alike (n_expr b) (n_expr a)) by (intro t; symmetry; apply H0).
    split; [apply (repeat_tries m rho a b) with (min := 0%N) (max := usize_max)|apply (repeat_tries m rho b a) with (min := 0%N) (max := usize_max)];
      try assumption; try (left; auto; fail).
  - assert (Sp : separator_alike (n_expr b) (n_expr a)) by (intro t; symmetry; apply H0).
    split; [apply (repeat_tries m rho a b) with (min := 1%N) (max := usize_max)|apply (repeat_tries m rho b a) with (min := 1%N) (max := usize_max)];
      try assumption; try (right; left; auto; fail).
  - assert (Sp : separator_alike (n_expr b) (n_expr a)) by (intro t; symmetry; apply H0).
    assert (R : exists min max, repetition (PRepRange a range) a min max /\ repetition (PRepRange b range) b min max).
    { destruct (r_start range) as [mi|] eqn:E1, (r_end range) as [ma|] eqn:E2; eexists _, _; (split; right; right; exists range; (split; [reflexivity|]; split; eauto)). }
    destruct R as (mi & ma & R & R'). split; [apply (repeat_tries m rho a b) with (min := mi) (max := ma)|apply (repeat_tries m rho b a) with (min := mi) (max := ma)];
      assumption.
  - split; apply argument_tries; try assumption; [apply Al, H|apply alike_sym, Al, H].
Qed.
End Laws.

(** Inside of rules. *)
Section Rules.
Variable unicode : list text.
Variable property : N -> char -> bool.
Variables open open' : gmodule -> parse_rule -> Prop.
Variables g g' : gmodule.
Notation G := (gpeg unicode property).
Notation A := (gtry unicode property open).
Notation AI := (gtry_items unicode property open).
Notation ARs := (gtry_rounds unicode property open).
Notation AR := (gtry_round unicode property open).
Notation A' := (gtry unicode property open').
Notation AI' := (gtry_items unicode property open').
Notation ARs' := (gtry_rounds unicode property open').
Notation AR' := (gtry_round unicode property open').
Hypothesis Complete : complete unicode g'.
Variable related : parse_rule -> parse_rule -> Prop.
Hypothesis Related : forall r r', related r r' -> body_implies unicode property g' r r'.
Hypothesis Bodies : Forall2 related (g_rules g) (g_rules g').
Hypothesis Imports : g_imports g' = g_imports g.
Hypothesis Open : forall r r', related r r' -> In r (g_rules g) -> In r' (g_rules g') -> (open g r <-> open' g' r').
Hypothesis Open_inner : forall h q, inner unicode g h -> (open h q <-> open' h q).
Hypothesis Tries : forall r r', related r r' -> forall rho, good_env unicode rho -> same_tries unicode property open' g' rho (n_expr (pr_node r)) (n_expr (pr_node r')).
Notation same_mod := (same_mod unicode g g').
Notation same_env := (same_env unicode g g').
Notation Fr := (Forall2 (frame_alike (counterpart g g'))).
Notation Ev := (Forall2 (event_alike (counterpart g g'))).

Lemma arule_same : forall m m' path h r, same_mod m m' -> names unicode m path (E_rule h r) ->
  exists h' r', names unicode m' path (E_rule h' r') /\ same_mod h h' /\ counterpart g g' (h, r) (h', r') /\ pr_args r' = pr_args r /\
    (open h r <-> open' h' r') /\
    (forall rho, good_env unicode rho -> same_tries unicode property open' h' rho (n_expr (pr_node r)) (n_expr (pr_node r'))).
Proof.
  intros m m' path h r Sm N. destruct (names_same unicode property g g' Complete related Related Bodies Imports _ _ _ _ Sm N) as ([q|h' r'] & N' & S); [destruct S|].
  exists h', r'. split; [exact N'|]. assert (I := names_listed unicode _ _ _ _ N). assert (I' := names_listed unicode _ _ _ _ N').
  destruct S as [(<- & In_ & <-)|(-> & -> & Rl)].
  - destruct (inner_other unicode g g' Imports _ In_). split; [left; auto|]. split; [left; auto|]. split; [reflexivity|]. split; [apply Open_inner, In_|]. intros rho _ chain pol pre post K x tr H1. exact H1.
  - destruct (Related _ _ Rl) as (En & Ea & B). split; [right; auto|]. split; [right; cbn; auto 10|]. split; [exact Ea|]. split; [apply Open; assumption|].
    apply Tries, Rl.
Qed.
Lemma atrivia_same : forall m m' name r, same_mod m m' -> last_rule m name r -> exists r', last_rule m' name r' /\
  same_tries unicode property open' m' [] (n_expr (pr_node r)) (n_expr (pr_node r')).
Proof.
  intros m m' name r M L. destruct M as [(<- & C)|(-> & ->)].
  - exists r. split; [exact L|]. intros chain pol pre post K x tr H. exact H.
  - destruct (body_last unicode property g g' related Related Bodies _ _ L) as (r' & L' & B). exists r'. split; [exact L'|]. apply Tries; [exact B|constructor].
Qed.
Lemma aG : forall m rho e pre post K r, G m rho e pre post K r -> forall m' rho', same_mod m m' -> same_env rho rho' -> G m' rho' e pre post K r.
Proof. exact (proj1 (bodies_meaning unicode property g g' Complete related Related Bodies Imports)). Qed.
Lemma counterpart_tried : forall tr tr', Ev tr tr' -> tried_grammar_rule tr' = tried_grammar_rule tr.
Proof. intros tr tr' F. induction F as [|x y l l' E F IH]; [reflexivity|]. cbn. unfold tried_grammar_rule in IH. rewrite IH. destruct E; reflexivity. Qed.

Theorem bodies_tries :
  (forall chain pol m rho e pre post K r tr, A chain pol m rho e pre post K r tr -> forall chain' m' rho', Fr chain chain' -> same_mod m m' -> same_env rho rho' ->
     exists tr', A' chain' pol m' rho' e pre post K r tr' /\ Ev tr tr') /\
  (forall chain pol m rho l pre post K r tr, AI chain pol m rho l pre post K r tr -> forall chain' m' rho', Fr chain chain' -> same_mod m m' -> same_env rho rho' ->
     exists tr', AI' chain' pol m' rho' l pre post K r tr' /\ Ev tr tr') /\
  (forall chain pol m rho e t min max i pre post K r tr, ARs chain pol m rho e t min max i pre post K r tr -> forall chain' m' rho', Fr chain chain' -> same_mod m m' -> same_env rho rho' ->
     exists tr', ARs' chain' pol m' rho' e t min max i pre post K r tr' /\ Ev tr tr') /\
  (forall chain pol m rho e t i pre post K r tr, AR chain pol m rho e t i pre post K r tr -> forall chain' m' rho', Fr chain chain' -> same_mod m m' -> same_env rho rho' ->
     exists tr', AR' chain' pol m' rho' e t i pre post K r tr' /\ Ev tr tr').
Proof.
  apply (gtry_mutind unicode property open
    (fun chain pol m rho e pre post K r tr _ => forall chain' m' rho', Fr chain chain' -> same_mod m m' -> same_env rho rho' -> exists tr', A' chain' pol m' rho' e pre post K r tr' /\ Ev tr tr')
    (fun chain pol m rho l pre post K r tr _ => forall chain' m' rho', Fr chain chain' -> same_mod m m' -> same_env rho rho' -> exists tr', AI' chain' pol m' rho' l pre post K r tr' /\ Ev tr tr')
    (fun chain pol m rho e t min max i pre post K r tr _ => forall chain' m' rho', Fr chain chain' -> same_mod m m' -> same_env rho rho' -> exists tr', ARs' chain' pol m' rho' e t min max i pre post K r tr' /\ Ev tr tr')
    (fun chain pol m rho e t i pre post K r tr _ => forall chain' m' rho', Fr chain chain' -> same_mod m m' -> same_env rho rho' -> exists tr', AR' chain' pol m' rho' e t i pre post K r tr' /\ Ev tr tr')).
  all: intros;
    repeat match goal with
    | IH : forall chain' m' rho', Fr ?chain chain' -> same_mod ?m m' -> same_env ?rho rho' -> exists qs, _, Fc : Fr ?chain ?chain1, Sm : same_mod ?m ?m1, Se : same_env ?rho ?rho1 |- _ =>
        let qs := fresh "qs" in let X := fresh "X" in let Y := fresh "Y" in destruct (IH _ _ _ Fc Sm Se) as (qs & X & Y); clear IH
    end; try (now (eexists; split; [econstructor; eauto using env_none, names_builtin, aG|try assumption; try (apply Forall2_app; assumption); try constructor])).
  - (* empty *) eexists. split; [eapply GA_empty; eauto using env_none, names_builtin, aG|]. constructor; [constructor; assumption|constructor].
  - (* bounds *) eexists. split; [eapply GA_bounds; eauto using env_none, names_builtin, aG|]. constructor; [constructor; assumption|constructor].
  - (* parameter *) match goal with E : same_env _ _ |- _ => destruct (env_assoc _ _ _ _ _ E _ _ a) as (c' & As & Sc) end. inversion Sc; subst. destruct (H _ _ _ ltac:(eassumption) ltac:(eassumption) ltac:(eassumption)) as (qs & X & Y).
    exists qs. split; [|exact Y]. eapply GA_param; eassumption.
  - (* rule *) rename H0 into Fc, H1 into Sm, H2 into Se. destruct (arule_same _ _ _ _ _ Sm n0) as (h' & r' & N' & Sm' & Cp & Ea & Op & Bt).
    assert (Ge := env_call unicode g g' g0 m' rho rho' (pr_args q) l Se Sm). destruct (H (((h', r'), blen pre) :: chain') _ _ ltac:(constructor; [split; [exact Cp|reflexivity]|exact Fc]) Sm' Ge) as (qs & X & Y).
    eexists. split; [eapply GA_rule; [eapply env_none; eassumption|exact N'|eassumption|rewrite Ea; assumption|rewrite <- Op; assumption|]|].
    + rewrite Ea. apply Bt; [eapply env_good, Ge; assumption|exact X].
    + apply Forall2_app; [exact Y|]. rewrite (counterpart_tried _ _ Y). destruct (tried_grammar_rule tr); constructor; [constructor; assumption|constructor].
  - (* open *) rename H0 into Fc, H1 into Sm, H2 into Se. destruct (arule_same _ _ _ _ _ Sm n0) as (h' & r' & N' & Sm' & Cp & Ea & Op & Bt).
    assert (Ge := env_call unicode g g' g0 m' rho rho' (pr_args q) l Se Sm). destruct (H _ _ _ Fc Sm' Ge) as (qs & X & Y).
    exists qs. split; [|exact Y]. eapply GA_open; [eapply env_none; eassumption|exact N'|eassumption|rewrite Ea; assumption|apply Op; assumption|].
    rewrite Ea. apply Bt; [eapply env_good, Ge; assumption|exact X].
  - (* trivia *) match goal with Sm : same_mod _ _, L : last_rule _ _ _, Fc : Fr _ _, IH : forall chain' m' rho', _ -> _ -> same_env [] _ -> _ |- _ =>
      destruct (atrivia_same _ _ _ _ Sm L) as (q' & L' & B); destruct (IH _ _ _ Fc Sm (SE_nil _ _ _)) as (us & X' & Y') end.
    eexists. split; [eapply GAI_trivia; [eassumption|exact L'|apply B; eassumption|eassumption]|apply Forall2_app; assumption].
  - (* trivia fails *) match goal with Sm : same_mod _ _, L : last_rule _ _ _, Fc : Fr _ _, IH : forall chain' m' rho', _ -> _ -> same_env [] _ -> _ |- _ =>
      destruct (atrivia_same _ _ _ _ Sm L) as (q' & L' & B); destruct (IH _ _ _ Fc Sm (SE_nil _ _ _)) as (us & X' & Y') end.
    eexists. split; [eapply GAI_trivia_fail; [eassumption|exact L'|apply B; eassumption]|assumption].
Qed.
End Rules.
