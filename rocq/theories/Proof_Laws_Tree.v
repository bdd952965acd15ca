(** The laws of grammar expressions keep the trees. *)
From Coq Require Import String List NArith ZArith Arith Bool Lia.
From Verif Require Import Proof_Accepted Proof_Accept Model_Text Model_Message Model_Meta Model_Import Model_Node Model_Pairs Spec_Text Spec_Peg Spec_Grammar_Peg Spec_Occur Spec_Generator
  Spec_Inline Spec_Laws Spec_Grammar_Tree Proof_Position Proof_Grammar_Tree Proof_Grammar_Tree_Inline Proof_Det Proof_Laws Proof_Grammar_Tree_Det.
Import ListNotations.
Open Scope list_scope.

Ltac tinv H := inversion H; subst; try no_rep;
  try match goal with X : (exists s, _ = PStr s) \/ _ |- _ => let Q := fresh in solve [destruct X as [(? & Q)|[(? & Q)|(? & ? & Q)]]; discriminate Q] end;
  try match goal with X : (exists n, _ = PPosPred n) \/ _ |- _ => let Q := fresh in solve [destruct X as [(? & Q)|(? & Q)]; discriminate Q] end; clear H.

Section Laws.
Variable unicode : list text.
Variable property : N -> char -> bool.
Variable open : gmodule -> parse_rule -> Prop.
Notation G := (gpeg unicode property).
Notation GI := (gpeg_items unicode property).
Notation GRs := (gpeg_rounds unicode property).
Notation GR := (gpeg_round unicode property).
Notation T := (gtree unicode property open).
Notation TI := (gtree_items unicode property open).
Notation TRs := (gtree_rounds unicode property open).
Notation TR := (gtree_round unicode property open).

Definition tree_G := proj1 (gtree_gpeg unicode property open).

Section In.
Variable m : gmodule.
Variable rho : list (text * closure).

Lemma titems_one : forall e pre post K a b c ps, TI m rho [It_expr e] pre post K a b c ps <-> T m rho e pre post K a b c ps.
Proof.
  intros e pre post K a b c ps. split; intro H.
  - inversion H; subst. match goal with X : TI _ _ [] _ _ _ _ _ _ _ |- _ => inversion X; subst end. rewrite app_nil_r. assumption.
  - rewrite <- (app_nil_r ps). eapply GTI_expr; [exact H|constructor].
Qed.
Lemma tempty_str : forall pre post K a b c ps, T m rho (PStr []) pre post K a b c ps <-> a = pre /\ b = post /\ c = K /\ ps = [].
Proof.
  intros pre post K a b c ps. split.
  - intro H. assert (H' := tree_G _ _ _ _ _ _ _ _ _ _ H). apply empty_str in H'. injection H' as -> -> ->. tinv H. auto.
  - intros (-> & -> & -> & ->). apply GT_text; [eauto|]. apply empty_str. reflexivity.
Qed.
Lemma ttext : forall e pre post K a b c, ((exists s, e = PStr s) \/ (exists s, e = PInsens s) \/ (exists x y, e = PRange x y)) ->
  forall ps, T m rho e pre post K a b c ps <-> G m rho e pre post K (Ok a b c) /\ ps = [].
Proof.
  intros e pre post K a b c E ps. split.
  - intro H. split; [exact (tree_G _ _ _ _ _ _ _ _ _ _ H)|]. destruct E as [(s & ->)|[(s & ->)|(x & y & ->)]]; tinv H; reflexivity.
  - intros (H & ->). apply GT_text; assumption.
Qed.
Lemma tround_none : forall e i pre post K a b c ps, TR m rho e TriviaNone i pre post K a b c ps <-> T m rho e pre post K a b c ps.
Proof.
  intros e i pre post K a b c ps. split; intro H.
  - inversion H; subst; [apply titems_one; assumption|]. match goal with X : TI _ _ (It_trivia _ :: _) _ _ _ _ _ _ _ |- _ => inversion X; subst end; try discriminate.
    apply titems_one; assumption.
  - destruct (N.eq_dec i 0) as [->|N]; [constructor; apply titems_one, H|]. apply GTR_later; [lia|]. apply GTI_none, titems_one, H.
Qed.
Lemma tround_first : forall e t pre post K a b c ps, TR m rho e t 0 pre post K a b c ps <-> T m rho e pre post K a b c ps.
Proof. intros e t pre post K a b c ps. split; intro H; [inversion H; subst; [apply titems_one; assumption|lia]|constructor; apply titems_one, H]. Qed.
Lemma trep_rounds : forall e n min max t, repetition e n min max -> round_trivia (n_expr n) t ->
  forall pre post K a b c ps, T m rho e pre post K a b c ps <-> TRs m rho (n_expr n) t min max 0 pre post K a b c ps.
Proof.
  intros e n min max t R Tr pre post K a b c ps. split; intro H; [|eapply GT_repeat; eassumption].
  inversion H; subst; try no_rep;
    try match goal with X : (exists s, _ = PStr s) \/ _ |- _ => destruct X as [(? & ->)|[(? & ->)|(? & ? & ->)]]; no_rep end;
    try match goal with X : (exists n, _ = PPosPred n) \/ _ |- _ => destruct X as [(? & ->)|(? & ->)]; no_rep end.
  match goal with A : repetition ?x n min max, B : repetition ?x _ _ _ |- _ => destruct (repetition_det _ _ _ _ _ _ _ A B) as (<- & <- & <-) end.
  match goal with A : round_trivia (n_expr n) t, B : round_trivia (n_expr n) _ |- _ => destruct (round_trivia_det _ _ _ A B) end. assumption.
Qed.
Lemma trounds_max : forall e t min max i pre post K a b c ps, (max <= i)%N -> TRs m rho e t min max i pre post K a b c ps <-> a = pre /\ b = post /\ c = K /\ ps = [].
Proof. intros e t min max i pre post K a b c ps L. split; [intro H; inversion H; subst; [auto|lia..]|intros (-> & -> & -> & ->); constructor; exact L]. Qed.
Lemma tseq_items : forall a b t pre post K x y z ps, T m rho (PSeq a b t) pre post K x y z ps <-> TI m rho [It_expr (n_expr a); It_trivia t; It_expr (n_expr b)] pre post K x y z ps.
Proof. intros. split; intro H; [tinv H; assumption|apply GT_seq, H]. Qed.
Lemma titems_app : forall l l' pre post K a b c ps, TI m rho (l ++ l') pre post K a b c ps <->
  exists pre' post' K' qs rs, TI m rho l pre post K pre' post' K' qs /\ TI m rho l' pre' post' K' a b c rs /\ ps = qs ++ rs.
Proof.
  intros l l'. induction l as [|x l IH]; intros pre post K a b c ps; cbn [app].
  - split; [intro H; exists pre, post, K, [], ps; split; [constructor|split; [exact H|reflexivity]]|]. intros (p & q & k & qs & rs & H & J & ->). inversion H; subst. exact J.
  - split.
    + intro H. inversion H; subst;
        match goal with X : TI _ _ (l ++ l') _ _ _ _ _ _ _ |- _ => apply IH in X; destruct X as (p & q & k & us & vs & X & J & ->) end.
      * exists p, q, k, (ps0 ++ us), vs. split; [eapply GTI_expr; eassumption|]. split; [exact J|apply app_assoc].
      * exists p, q, k, us, vs. split; [apply GTI_none; assumption|]. split; [exact J|reflexivity].
      * exists p, q, k, us, vs. split; [eapply GTI_trivia; eassumption|]. split; [exact J|reflexivity].
    + intros (p & q & k & qs & rs & H & J & ->). inversion H; subst.
      * rewrite <- app_assoc. eapply GTI_expr; [eassumption|]. apply IH. eauto 10.
      * apply GTI_none. apply IH. eauto 10.
      * eapply GTI_trivia; [eassumption|eassumption|eassumption|]. apply IH. eauto 10.
Qed.
Lemma titems_flat : forall e l, (forall pre post K a b c ps, T m rho e pre post K a b c ps <-> TI m rho l pre post K a b c ps) ->
  forall l1 l2 pre post K a b c ps, TI m rho (l1 ++ It_expr e :: l2) pre post K a b c ps <-> TI m rho (l1 ++ l ++ l2) pre post K a b c ps.
Proof.
  intros e l E l1 l2 pre post K a b c ps. rewrite !titems_app.
  assert (Q : forall pre post K a b c ps, TI m rho (It_expr e :: l2) pre post K a b c ps <-> TI m rho (l ++ l2) pre post K a b c ps).
  { intros. change (It_expr e :: l2) with ([It_expr e] ++ l2). rewrite !titems_app. setoid_rewrite titems_one. setoid_rewrite E. reflexivity. }
  setoid_rewrite Q. reflexivity.
Qed.
Lemma tseq_none : forall a b pre post K x y z ps, T m rho (PSeq a b TriviaNone) pre post K x y z ps <->
  exists pre' post' K' qs rs, T m rho (n_expr a) pre post K pre' post' K' qs /\ T m rho (n_expr b) pre' post' K' x y z rs /\ ps = qs ++ rs.
Proof.
  intros a b pre post K x y z ps. rewrite tseq_items. split.
  - intro H. inversion H; subst. match goal with X : TI _ _ (It_trivia _ :: _) _ _ _ _ _ _ _ |- _ => inversion X; subst; try discriminate end.
    match goal with X : TI _ _ [It_expr _] _ _ _ _ _ _ _ |- _ => apply titems_one in X end. eauto 10.
  - intros (p & q & k & qs & rs & H & J & ->). eapply GTI_expr; [exact H|]. apply GTI_none, titems_one, J.
Qed.
End In.
Lemma trounds_shift : forall m rho e min max i pre post K a b c ps,
  TRs m rho e TriviaNone min max i pre post K a b c ps -> TRs m rho e TriviaNone (min + 1) (max + 1) (i + 1) pre post K a b c ps.
Proof.
  intros m rho e min max i pre post K a b c ps H. remember TriviaNone as t eqn:Et. induction H; subst.
  - apply GTR_max. lia.
  - eapply GTR_round; [lia| |auto]. apply tround_none. eapply tround_none. eassumption.
  - apply GTR_stop; [lia|lia|]. apply round_none. eapply round_none. eassumption.
Qed.
Lemma trounds_unshift : forall m rho e min max i pre post K a b c ps,
  TRs m rho e TriviaNone (min + 1) (max + 1) (i + 1) pre post K a b c ps -> TRs m rho e TriviaNone min max i pre post K a b c ps.
Proof.
  intros m rho e min max i pre post K a b c ps H. remember TriviaNone as t eqn:Et. remember (min + 1)%N as mi eqn:Ei. remember (max + 1)%N as ma eqn:Ea. remember (i + 1)%N as j eqn:Ej.
  revert i Ej. induction H; intros; subst.
  - apply GTR_max. lia.
  - eapply GTR_round; [lia| |eauto]. apply tround_none. eapply tround_none. eassumption.
  - apply GTR_stop; [lia|lia|]. apply round_none. eapply round_none. eassumption.
Qed.
Lemma trounds_min : forall m rho e t min min' max i pre post K a b c ps, (min <= i)%N -> (min' <= i)%N ->
  TRs m rho e t min max i pre post K a b c ps -> TRs m rho e t min' max i pre post K a b c ps.
Proof.
  intros m rho e t min min' max i pre post K a b c ps L L' H. induction H.
  - apply GTR_max. lia.
  - eapply GTR_round; [lia|eassumption|]. apply IHgtree_rounds; lia.
  - apply GTR_stop; [lia|lia|assumption].
Qed.
Arguments trep_rounds {m rho}.

Definition same_trees (m : gmodule) (rho : list (text * closure)) (e e' : parse_expr) : Prop :=
  forall pre post K a b c ps, T m rho e pre post K a b c ps -> T m rho e' pre post K a b c ps.

Lemma law_trees : forall m rho e e', law e e' -> same_trees m rho e e'.
Proof.
  intros m rho e e' L pre post K x y z ps H. destruct L.
  - (* opt_choice *) tinv H.
    + apply GT_left; assumption.
    + apply GT_right; [assumption|]. apply tempty_str. auto.
  - (* opt_bounds *) destruct (trivia_total (n_expr a)) as (t & Tr). apply (trep_rounds _ _ _ _ _ (bounds_rep a 0 1) Tr). tinv H.
    + rewrite <- (app_nil_r ps). eapply GTR_round; [lia|apply tround_first; eassumption|]. apply GTR_max. lia.
    + apply GTR_stop; [lia|lia|]. apply round_first; assumption.
  - (* positive *) assert (Q := tree_G _ _ _ _ _ _ _ _ _ _ H). tinv H. apply GT_predicate; [eauto|]. apply (law_alike unicode property m rho _ _ (L_positive a sp)), Q.
  - (* not_positive *) assert (Q := tree_G _ _ _ _ _ _ _ _ _ _ H). tinv H. apply GT_predicate; [eauto|]. apply (law_alike unicode property m rho _ _ (L_not_positive a sp)), Q.
  - (* not_not_not *) assert (Q := tree_G _ _ _ _ _ _ _ _ _ _ H). tinv H. apply GT_predicate; [eauto|]. apply (law_alike unicode property m rho _ _ (L_not_not_not a sp sp')), Q.
  - (* seq *) apply tseq_items in H. apply tseq_items. cbn [n_expr] in *.
    apply (titems_flat m rho _ _ (tseq_items m rho a b t) [] [_; _]) in H.
    apply (titems_flat m rho _ _ (tseq_items m rho b c u) [_; _] []). exact H.
  - (* choice *) tinv H.
    + match goal with X : T _ _ (n_expr (mkNode _ _)) _ _ _ _ _ _ _ |- _ => cbn in X; tinv X end; [apply GT_left; assumption|].
      apply GT_right; [assumption|]. cbn. apply GT_left; assumption.
    + match goal with X : G _ _ (n_expr (mkNode _ _)) _ _ _ _ |- _ => cbn in X; ginv X end.
      apply GT_right; [assumption|]. cbn. apply GT_right; assumption.
  - (* same *) rename H0 into E. tinv H; [assumption|rewrite E; assumption].
  - (* empty_left *) apply tseq_none in H. destruct H as (p & q & k & qs & rs & H & J & ->). cbn [n_expr] in H. apply tempty_str in H. destruct H as (-> & -> & -> & ->). exact J.
  - (* empty_right *) apply tseq_none in H. destruct H as (p & q & k & qs & rs & H & J & ->). cbn [n_expr] in J. apply tempty_str in J. destruct J as (-> & -> & -> & ->). rewrite app_nil_r. exact H.
  - (* strings *) assert (Q := tree_G _ _ _ _ _ _ _ _ _ _ H). apply (law_alike unicode property m rho _ _ (L_strings _ _ _ _)) in Q.
    apply tseq_none in H. destruct H as (p & q & k & qs & rs & H & J & ->). cbn [n_expr] in *. apply ttext in H; [|eauto]. apply ttext in J; [|eauto]. destruct H as (_ & ->), J as (_ & ->).
    apply GT_text; [eauto|exact Q].
  - (* prefix *) assert (Q := tree_G _ _ _ _ _ _ _ _ _ _ H). apply (law_alike unicode property m rho _ _ (L_prefix _ _ _ _)) in Q. apply ttext; [eauto|]. split; [exact Q|].
    tinv H; match goal with X : T _ _ (n_expr (mkNode _ _)) _ _ _ _ _ _ _ |- _ => cbn in X; apply ttext in X; [apply X|eauto] end.
  - (* char *) assert (Q := tree_G _ _ _ _ _ _ _ _ _ _ H). apply (law_alike unicode property m rho _ _ (L_char _)) in Q. apply ttext in H; [|eauto 6]. apply ttext; [eauto|]. split; [exact Q|apply H].
  - (* ranges *) assert (Q := tree_G _ _ _ _ _ _ _ _ _ _ H). apply (law_alike unicode property m rho _ _ (L_ranges a b c sp sp' H0 H1)) in Q. apply ttext; [eauto 6|]. split; [exact Q|].
    tinv H; match goal with X : T _ _ (n_expr (mkNode _ _)) _ _ _ _ _ _ _ |- _ => cbn in X; apply ttext in X; [apply X|eauto 6] end.
  - (* separated *) tinv H. assumption.
  - (* look *) apply tseq_none in H. destruct H as (p & q & k & qs & rs & H & J & ->). cbn [n_expr] in H. assert (Q := tree_G _ _ _ _ _ _ _ _ _ _ H). tinv H. ginv Q. exact J.
  - (* star *) destruct (trivia_total (n_expr a)) as (t & Tr). assert (U : (0 < usize_max)%N) by reflexivity.
    apply (trep_rounds (PRep a) a 0 usize_max t ltac:(left; auto) Tr) in H.
    assert (Q := @trep_rounds m rho (PRepOnce a) a 1 usize_max t ltac:(right; left; auto) Tr).
    inversion H; subst.
    + lia.
    + apply GT_left. cbn. apply Q. eapply GTR_round; [exact U|eassumption|]. eapply trounds_min; [| |eassumption]; lia.
    + apply GT_right; [cbn; apply (rep_rounds unicode property m rho (PRepOnce a) a 1 usize_max t ltac:(right; left; auto) Tr), GR_fail; [exact U|lia|assumption]|]. apply tempty_str. auto.
  - (* star_bounds *) destruct (trivia_total (n_expr a)) as (t & Tr).
    apply (trep_rounds (PRep a) a 0 usize_max t ltac:(left; auto) Tr) in H. apply (trep_rounds (PRepRange a range) a 0 usize_max t); [|exact Tr|exact H].
    right. right. exists range. auto.
  - (* plus_bounds *) destruct (trivia_total (n_expr a)) as (t & Tr).
    apply (trep_rounds (PRepOnce a) a 1 usize_max t ltac:(right; left; auto) Tr) in H. apply (trep_rounds (PRepRange a range) a 1 usize_max t); [|exact Tr|exact H].
    right. right. exists range. auto.
  - (* once *) destruct (trivia_total (n_expr a)) as (t & Tr). apply (trep_rounds _ _ _ _ _ (bounds_rep a 1 1) Tr) in H.
    inversion H; subst; try lia.
    match goal with X : TRs _ _ _ _ _ _ (0 + 1)%N _ _ _ _ _ _ _ |- _ => apply trounds_max in X; [|lia]; destruct X as (-> & -> & -> & ->) end. rewrite app_nil_r. eapply tround_first; eassumption.
  - (* more *) assert (Tr := un_trivia _ H0). apply (trep_rounds _ _ _ _ _ (bounds_rep a _ _) Tr) in H. apply tseq_none. cbn [n_expr].
    inversion H; subst; try lia.
    match goal with A : TR _ _ _ _ _ _ _ _ _ _ _ _, B : TRs _ _ _ _ _ _ _ _ _ _ _ _ _ _ |- _ => apply tround_none in A; apply trounds_unshift in B; eexists _, _, _, _, _; split; [exact A|]; split; [|reflexivity] end.
    apply (trep_rounds _ _ _ _ _ (bounds_rep a _ _) Tr). assumption.
  - (* some *) assert (Tr := un_trivia _ H0). apply (trep_rounds _ _ _ _ _ (bounds_rep a _ _) Tr) in H.
    inversion H; subst; try lia.
    + apply GT_some. cbn. apply tseq_none. cbn [n_expr].
      match goal with A : TR _ _ _ _ _ _ _ _ _ _ _ _, B : TRs _ _ _ _ _ _ _ _ _ _ _ _ _ _ |- _ => apply tround_none in A; eexists _, _, _, _, _; split; [exact A|]; split; [|reflexivity] end.
      apply (trep_rounds _ _ _ _ _ (bounds_rep a _ _) Tr), trounds_unshift. eapply trounds_min; [| |eassumption]; lia.
    + apply GT_none. cbn. apply seq_items. apply GI_expr_fail. eapply round_none; eassumption.
Qed.

Hypothesis Distinct : distinct_properties unicode.
Hypothesis Dec : forall h q, open h q \/ ~ open h q.

(** The other direction, as there is one tree only. *)
Lemma trees_back : forall m rho e e', complete unicode m -> good_env unicode rho -> alike unicode property m rho e e' -> same_trees m rho e e' -> same_trees m rho e' e.
Proof.
  intros m rho e e' C Ge A S pre post K a b c ps H. assert (Q := tree_G _ _ _ _ _ _ _ _ _ _ H). apply A in Q.
  destruct (proj1 (gpeg_gtree unicode property open Dec) _ _ _ _ _ _ _ Q _ _ _ eq_refl) as (qs & J). assert (J' := S _ _ _ _ _ _ _ J).
  destruct (proj1 (gtree_unique unicode property open Distinct) _ _ _ _ _ _ _ _ _ _ J' C Ge _ _ _ _ H) as (_ & _ & _ & ->). exact J.
Qed.
Lemma factor_trees : forall m rho e e', complete unicode m -> good_env unicode rho -> law_det e e' -> same_trees m rho e e'.
Proof.
  intros m rho e e' C Ge L pre post K x y z ps H. destruct L as [a a' a'' b c t sp sp' sp'' Ea' Ea'']. apply tseq_items. cbn [n_expr].
  change [It_expr (n_expr a); It_trivia t; It_expr (PChoice b c)] with ([It_expr (n_expr a); It_trivia t] ++ [It_expr (PChoice b c)]).
  tinv H; match goal with Z : T _ _ (n_expr (mkNode (PSeq _ _ t) _)) _ _ _ _ _ _ _ |- _ => rename Z into X end; cbn in X; apply tseq_items in X; try rewrite Ea' in X; try rewrite Ea'' in X;
    (change (It_expr (n_expr a) :: It_trivia t :: ?k) with ([It_expr (n_expr a); It_trivia t] ++ k) in X); apply titems_app in X; destruct X as (p & q & k & us & vs & X & Y & ->);
    apply titems_one in Y; apply titems_app; exists p, q, k, us, vs; (split; [exact X|]); (split; [|reflexivity]); apply titems_one; [apply GT_left, Y|].
  apply GT_right; [|exact Y]. match goal with Z : G _ _ (n_expr (mkNode (PSeq a' b t) _)) _ _ _ _ |- _ => rename Z into W end. cbn in W. apply seq_items in W. rewrite Ea' in W.
  change [It_expr (n_expr a); It_trivia t; It_expr (n_expr b)] with ([It_expr (n_expr a); It_trivia t] ++ [It_expr (n_expr b)]) in W. apply items_app in W.
  assert (X' := proj1 (proj2 (gtree_gpeg unicode property open)) _ _ _ _ _ _ _ _ _ _ X).
  destruct W as [(W & _)|(p' & q' & k' & W & W')]; assert (E := proj1 (proj2 (gpeg_unique unicode property Distinct)) _ _ _ _ _ _ _ X' C Ge _ W); [discriminate E|].
  injection E as <- <- <-. apply items_one in W'. exact W'.
Qed.

(** Inside of expressions. *)
Lemma trounds_alike : forall m rho e e', alike unicode property m rho e e' -> same_trees m rho e e' -> forall t min max i pre post K a b c ps,
  TRs m rho e t min max i pre post K a b c ps -> TRs m rho e' t min max i pre post K a b c ps.
Proof.
  intros m rho e e' A S t min max.
  assert (I : forall i pre post K a b c ps, TR m rho e t i pre post K a b c ps -> TR m rho e' t i pre post K a b c ps).
  { intros i pre post K a b c ps H. inversion H; subst; [apply GTR_first|apply GTR_later; [assumption|]].
    - apply titems_one, S, titems_one. assumption.
    - change [It_trivia t; It_expr e] with ([It_trivia t] ++ [It_expr e]) in *. change [It_trivia t; It_expr e'] with ([It_trivia t] ++ [It_expr e']).
      match goal with Z : TI _ _ _ _ _ _ _ _ _ _ |- _ => rename Z into X end. apply titems_app in X. apply titems_app. destruct X as (p & q & k & us & vs & X & Y & ->).
      exists p, q, k, us, vs. split; [exact X|]. split; [|reflexivity]. apply titems_one, S, titems_one, Y. }
  assert (F : forall i pre post K, GR m rho e t i pre post K Fail -> GR m rho e' t i pre post K Fail).
  { intros i pre post K H. inversion H; subst; [apply GR_first|apply GR_later; [assumption|]].
    - apply items_one, A, items_one. assumption.
    - change [It_trivia t; It_expr e] with ([It_trivia t] ++ [It_expr e]) in *. change [It_trivia t; It_expr e'] with ([It_trivia t] ++ [It_expr e']).
      match goal with Z : GI _ _ _ _ _ _ _ |- _ => rename Z into X end. apply items_app in X. apply items_app. destruct X as [X|(p & q & k & X & Y)]; [left; assumption|].
      right. exists p, q, k. split; [exact X|]. apply items_one, A, items_one, Y. }
  intros i pre post K a b c ps H. revert I F. clear A S. induction H; intros I F; [apply GTR_max|eapply GTR_round|apply GTR_stop]; eauto.
Qed.
Lemma repeat_trees : forall m rho a b, alike unicode property m rho (n_expr a) (n_expr b) -> same_trees m rho (n_expr a) (n_expr b) -> separator_alike (n_expr a) (n_expr b) ->
  forall e e' min max, repetition e a min max -> repetition e' b min max -> same_trees m rho e e'.
Proof.
  intros m rho a b A S Sp e e' min max R R' pre post K x y z ps H. destruct (trivia_total (n_expr a)) as (t & Tr). assert (Tr' := separator_trivia _ _ _ Sp Tr).
  apply (trep_rounds _ _ _ _ _ R' Tr'). apply (trep_rounds _ _ _ _ _ R Tr) in H. revert H. apply trounds_alike; assumption.
Qed.

(** Arguments that have the same trees. *)
Inductive timp_clo : closure -> closure -> Prop :=
| TIC_means m rho e m' rho' e' : (forall pre post K r, G m rho e pre post K r -> G m' rho' e' pre post K r) ->
    (forall pre post K a b c ps, T m rho e pre post K a b c ps -> T m' rho' e' pre post K a b c ps) -> timp_clo (Clo m rho e) (Clo m' rho' e')
| TIC_env m rho rho' e : timp_env rho rho' -> timp_clo (Clo m rho e) (Clo m rho' e)
with timp_env : list (text * closure) -> list (text * closure) -> Prop :=
| TIE_nil : timp_env [] []
| TIE_cons x c c' rho rho' : timp_clo c c' -> timp_env rho rho' -> timp_env ((x, c) :: rho) ((x, c') :: rho').
Scheme timp_clo_mut := Minimality for timp_clo Sort Prop with timp_env_mut := Minimality for timp_env Sort Prop.
Lemma timp_imp : forall rho rho', timp_env rho rho' -> imp_env unicode property rho rho'.
Proof.
  apply (timp_env_mut (fun c c' => imp_clo unicode property c c') (fun rho rho' => imp_env unicode property rho rho')); intros; try (constructor; assumption).
Qed.
Lemma timp_assoc : forall rho rho', timp_env rho rho' -> forall x c, assoc x rho c -> exists c', assoc x rho' c' /\ timp_clo c c'.
Proof.
  intros rho rho' H. induction H as [|y c c' rho rho' Sc H IH]; intros x d A; inversion A; subst.
  - exists c'. split; [constructor|exact Sc].
  - destruct (IH _ _ ltac:(eassumption)) as (d' & A' & S). exists d'. split; [constructor; assumption|exact S].
Qed.
Lemma timp_none : forall rho rho' path, timp_env rho rho' -> (forall x c, path = [x] -> ~ assoc x rho c) -> forall x c, path = [x] -> ~ assoc x rho' c.
Proof. intros rho rho' path H. exact (imp_none unicode property rho rho' path (timp_imp _ _ H)). Qed.
Lemma timp_call : forall m rho rho' ps l, timp_env rho rho' ->
  timp_env (combine ps (map (fun n => Clo m rho (n_expr n)) l)) (combine ps (map (fun n => Clo m rho' (n_expr n)) l)).
Proof. intros m rho rho' ps l S. revert ps. induction l as [|n l IH]; intros [|p ps]; try constructor; [constructor; exact S|apply IH]. Qed.
Lemma timp_G : forall m rho e pre post K r, G m rho e pre post K r -> forall rho', timp_env rho rho' -> G m rho' e pre post K r.
Proof. intros m rho e pre post K r H rho' E. exact (proj1 (imp_meaning unicode property) _ _ _ _ _ _ _ H _ (timp_imp _ _ E)). Qed.
Lemma timp_GR : forall m rho e t i pre post K r, GR m rho e t i pre post K r -> forall rho', timp_env rho rho' -> GR m rho' e t i pre post K r.
Proof. intros m rho e t i pre post K r H rho' E. exact (proj2 (proj2 (proj2 (imp_meaning unicode property))) _ _ _ _ _ _ _ _ _ H _ (timp_imp _ _ E)). Qed.
Theorem timp_trees :
  (forall m rho e pre post K a b c ps, T m rho e pre post K a b c ps -> forall rho', timp_env rho rho' -> T m rho' e pre post K a b c ps) /\
  (forall m rho l pre post K a b c ps, TI m rho l pre post K a b c ps -> forall rho', timp_env rho rho' -> TI m rho' l pre post K a b c ps) /\
  (forall m rho e t min max i pre post K a b c ps, TRs m rho e t min max i pre post K a b c ps -> forall rho', timp_env rho rho' -> TRs m rho' e t min max i pre post K a b c ps) /\
  (forall m rho e t i pre post K a b c ps, TR m rho e t i pre post K a b c ps -> forall rho', timp_env rho rho' -> TR m rho' e t i pre post K a b c ps).
Proof.
  apply (gtree_mutind unicode property open
    (fun m rho e pre post K a b c ps _ => forall rho', timp_env rho rho' -> T m rho' e pre post K a b c ps)
    (fun m rho l pre post K a b c ps _ => forall rho', timp_env rho rho' -> TI m rho' l pre post K a b c ps)
    (fun m rho e t min max i pre post K a b c ps _ => forall rho', timp_env rho rho' -> TRs m rho' e t min max i pre post K a b c ps)
    (fun m rho e t i pre post K a b c ps _ => forall rho', timp_env rho rho' -> TR m rho' e t i pre post K a b c ps)).
  all: intros; try (now (econstructor; eauto using timp_none, timp_call, timp_G, timp_GR)).
  - match goal with E : timp_env _ _ |- _ => destruct (timp_assoc _ _ E _ _ a) as (c' & A & Sc) end. inversion Sc; subst; eapply GT_param; [exact A|auto|exact A|apply H; assumption].
Qed.
Lemma argument_trees : forall m rho path l a b k, alike unicode property m rho (n_expr a) (n_expr b) -> same_trees m rho (n_expr a) (n_expr b) ->
  same_trees m rho (PPath path (Some (PCall (l ++ a :: k)))) (PPath path (Some (PCall (l ++ b :: k)))).
Proof.
  intros m rho path l a b k A S pre post K x y z ps H.
  assert (Q := argument_alike unicode property m rho path l a b k A _ _ _ _ (tree_G _ _ _ _ _ _ _ _ _ _ H)).
  assert (E : forall xs, timp_env (combine xs (map (fun n => Clo m rho (n_expr n)) (l ++ a :: k))) (combine xs (map (fun n => Clo m rho (n_expr n)) (l ++ b :: k)))).
  { assert (E : forall ps l0, timp_env (combine ps (map (fun n => Clo m rho (n_expr n)) l0)) (combine ps (map (fun n => Clo m rho (n_expr n)) l0))).
    { intros xs l0. revert xs. induction l0 as [|n l0 IH]; intros [|p xs]; try constructor; [|apply IH]. constructor; auto. }
    clear - A S E. induction l as [|n l IH]; intros [|p xs]; cbn; constructor; try apply IH; try apply E; constructor; auto. intros pre post K r. apply A. }
  inversion H; subst; try no_rep;
    try match goal with X : (exists s, _ = PStr s) \/ _ |- _ => let Q := fresh in solve [destruct X as [(? & Q)|[(? & Q)|(? & ? & Q)]]; discriminate Q] end;
    try match goal with X : (exists n, _ = PPosPred n) \/ _ |- _ => let Q := fresh in solve [destruct X as [(? & Q)|(? & Q)]; discriminate Q] end.
  - eapply GT_builtin; eassumption.
  - eapply GT_param; eassumption.
  - match goal with X : call_arguments _ _ |- _ => destruct X as [X|(X & _)]; [|discriminate X]; injection X as <- end.
    eapply GT_rule; [eassumption|eassumption|left; reflexivity|rewrite app_length in *; assumption|assumption|].
    eapply (proj1 timp_trees); [eassumption|apply E].
  - match goal with X : call_arguments _ _ |- _ => destruct X as [X|(X & _)]; [|discriminate X]; injection X as <- end.
    eapply GT_silent; [eassumption|eassumption|left; reflexivity|rewrite app_length in *; assumption|assumption|assumption|].
    eapply timp_G; [eassumption|apply E].
  - match goal with X : call_arguments _ _ |- _ => destruct X as [X|(X & _)]; [|discriminate X]; injection X as <- end.
    eapply GT_open; [eassumption|eassumption|left; reflexivity|rewrite app_length in *; assumption|assumption|assumption|].
    eapply (proj1 timp_trees); [eassumption|apply E].
  - destruct l as [|n' l]; cbn in *; [|destruct l; discriminate].
    match goal with X : [_] = _ :: _ |- _ => injection X as -> <- | X : _ :: _ = [_] |- _ => injection X as -> -> end. apply GT_push; [assumption|assumption|]. apply S. assumption.
Qed.

Theorem rewritten_trees : forall (L : parse_expr -> parse_expr -> Prop) m rho, (forall e e', L e e' -> alike unicode property m rho e e') ->
  (forall e e', L e e' -> same_trees m rho e e' /\ same_trees m rho e' e) ->
  forall e e', rewritten L e e' -> same_trees m rho e e' /\ same_trees m rho e' e.
Proof.
  intros L m rho HA HL e e' H. assert (A := rewritten_alike unicode property L m rho HA).
  assert (PP : forall n n', rewritten L n n' -> ((exists x, n = PPosPred x) \/ (exists x, n = PNegPred x)) -> ((exists x, n' = PPosPred x) \/ (exists x, n' = PNegPred x)) -> same_trees m rho n n').
  { intros n n' R [(x & ->)|(x & ->)] E pre post K a b c ps J; assert (Q := tree_G _ _ _ _ _ _ _ _ _ _ J); apply (A _ _ R) in Q; tinv J; apply GT_predicate; assumption. }
  assert (Seq : forall a b c d t, same_trees m rho (n_expr a) (n_expr b) -> same_trees m rho (n_expr c) (n_expr d) -> same_trees m rho (PSeq a c t) (PSeq b d t)).
  { intros a b c d t S1 S2 pre post K x y z ps J. apply tseq_items in J. apply tseq_items. inversion J; subst. eapply GTI_expr; [apply S1; eassumption|].
    match goal with X : TI _ _ (It_trivia _ :: _) _ _ _ _ _ _ _ |- _ => inversion X; subst end; [apply GTI_none|eapply GTI_trivia; [eassumption|eassumption|eassumption|]]; apply titems_one, S2, titems_one; assumption. }
  assert (Cho : forall a b c d, alike unicode property m rho (n_expr a) (n_expr b) -> same_trees m rho (n_expr a) (n_expr b) -> same_trees m rho (n_expr c) (n_expr d) -> same_trees m rho (PChoice a c) (PChoice b d)).
  { intros a b c d Al S1 S2 pre post K x y z ps J. tinv J; [apply GT_left, S1; assumption|]. apply GT_right; [apply Al; assumption|apply S2; assumption]. }
  assert (Op : forall a b, alike unicode property m rho (n_expr a) (n_expr b) -> same_trees m rho (n_expr a) (n_expr b) -> same_trees m rho (POpt a) (POpt b)).
  { intros a b Al S1 pre post K x y z ps J. tinv J; [apply GT_some, S1; assumption|]. apply GT_none, Al. assumption. }
  assert (Se : forall a b t, same_trees m rho (n_expr a) (n_expr b) -> same_trees m rho (PSeparated a t) (PSeparated b t)).
  { intros a b t S1 pre post K x y z ps J. tinv J. apply GT_separated, S1. assumption. }
  induction H; try (match goal with IH : same_trees _ _ _ _ /\ _ |- _ => destruct IH end); try (match goal with IH : same_trees _ _ _ _ /\ _ |- _ => destruct IH end).
  - apply HL. assumption.
  - split; intros pre post K a b c ps J; exact J.
  - split; assumption.
  - split; intros pre post K a b c ps J; auto.
  - assert (R := RW_positive L a b H). split; apply PP; eauto. apply RW_sym, R.
  - assert (R := RW_negative L a b H). split; apply PP; eauto. apply RW_sym, R.
  - split; apply Op; try assumption; [apply A, H|apply alike_sym, A, H].
  - split; apply Seq; assumption.
  - split; apply Cho; try assumption; [apply A, H|apply alike_sym, A, H].
  - split; apply Se; assumption.
  - assert (Sp : separator_alike (n_expr b) (n_expr a)) by (intro t; symmetry; apply H0).
    split; [apply (repeat_trees m rho a b) with (min := 0%N) (max := usize_max)|apply (repeat_trees m rho b a) with (min := 0%N) (max := usize_max)];
      try assumption; try (left; auto; fail); [apply A, H|apply alike_sym, A, H].
  - assert (Sp : separator_alike (n_expr b) (n_expr a)) by (intro t; symmetry; apply H0).
    split; [apply (repeat_trees m rho a b) with (min := 1%N) (max := usize_max)|apply (repeat_trees m rho b a) with (min := 1%N) (max := usize_max)];
      try assumption; try (right; left; auto; fail); [apply A, H|apply alike_sym, A, H].
  - assert (Sp : separator_alike (n_expr b) (n_expr a)) by (intro t; symmetry; apply H0).
    assert (R : exists min max, repetition (PRepRange a range) a min max /\ repetition (PRepRange b range) b min max).
    { destruct (r_start range) as [mi|] eqn:E1, (r_end range) as [ma|] eqn:E2; eexists _, _; (split; right; right; exists range; (split; [reflexivity|]; split; eauto)). }
    destruct R as (mi & ma & R & R'). split; [apply (repeat_trees m rho a b) with (min := mi) (max := ma)|apply (repeat_trees m rho b a) with (min := mi) (max := ma)];
      try assumption; [apply A, H|apply alike_sym, A, H].
  - split; apply argument_trees; try assumption; [apply A, H|apply alike_sym, A, H].
Qed.
End Laws.

(** Grammars can be told apart. *)
Lemma text_eq : forall a b : text, {a = b} + {a <> b}.
Proof. apply list_eq_dec, N.eq_dec. Defined.
Lemma span_eq : forall a b : mspan, {a = b} + {a <> b}.
Proof. repeat decide equality. Defined.
Lemma trivia_eq : forall a b : trivia, {a = b} + {a <> b}.
Proof. decide equality. Defined.
Lemma range_eq : forall (A : Type), (forall a b : A, {a = b} + {a <> b}) -> forall a b : mrange A, {a = b} + {a <> b}.
Proof. intros A D [a b] [c d]. decide equality; decide equality. Defined.
Fixpoint expr_eq (a b : parse_expr) {struct a} : {a = b} + {a <> b}
with node_eq (a b : parse_node) {struct a} : {a = b} + {a <> b}
with args_eq (a b : path_args) {struct a} : {a = b} + {a <> b}.
Proof.
  - decide equality; try apply N.eq_dec; try apply text_eq; try apply trivia_eq; try (apply list_eq_dec; apply text_eq); try (apply range_eq; apply N.eq_dec). decide equality.
  - decide equality. apply span_eq.
  - decide equality; [apply (list_eq_dec node_eq)|apply range_eq; apply Z.eq_dec].
Defined.
Lemma rule_eq : forall a b : parse_rule, {a = b} + {a <> b}.
Proof. intros a b. decide equality; try apply bool_dec; try apply node_eq; try apply span_eq; try apply text_eq; apply list_eq_dec, text_eq. Defined.
Fixpoint module_eq (a b : gmodule) {struct a} : {a = b} + {a <> b}
with import_eq (a b : import) {struct a} : {a = b} + {a <> b}.
Proof.
  - decide equality; try (apply list_eq_dec; apply text_eq); [apply (list_eq_dec import_eq)|apply list_eq_dec, rule_eq|].
    repeat decide equality.
  - decide equality; try apply text_eq. apply list_eq_dec, text_eq.
Defined.
Lemma open_own_dec : forall g h q, open_own g h q \/ ~ open_own g h q.
Proof.
  intros g h q. unfold open_own, macro. destruct (module_eq h g) as [E|E]; [|tauto]. destruct (in_dec rule_eq q (g_rules g)) as [I|I]; [|tauto].
  destruct (pr_silent q); [|intuition discriminate]. destruct (pr_args q); intuition discriminate.
Qed.

Lemma same_weight : forall g g', g_imports g' = g_imports g -> weight g' = weight g.
Proof. intros [d0 r0 c0 i0] [d1 r1 c1 i1] E. cbn [g_imports] in E. subst i1. reflexivity. Qed.
Lemma inner_other : forall unicode g g', g_imports g' = g_imports g -> forall h, inner unicode g h -> h <> g /\ h <> g'.
Proof. intros unicode g g' E h (_ & W). assert (Q := same_weight _ _ E). split; intros ->; lia. Qed.

(** Inside of rules. *)
Section Rules.
Variable unicode : list text.
Variable property : N -> char -> bool.
Variables open open' : gmodule -> parse_rule -> Prop.
Variables g g' : gmodule.
Notation G := (gpeg unicode property).
Notation GR := (gpeg_round unicode property).
Notation T := (gtree unicode property open).
Notation TI := (gtree_items unicode property open).
Notation TRs := (gtree_rounds unicode property open).
Notation TR := (gtree_round unicode property open).
Notation T' := (gtree unicode property open').
Notation TI' := (gtree_items unicode property open').
Notation TRs' := (gtree_rounds unicode property open').
Notation TR' := (gtree_round unicode property open').
Hypothesis Complete : complete unicode g'.
Variable related : parse_rule -> parse_rule -> Prop.
Hypothesis Related : forall r r', related r r' -> body_implies unicode property g' r r'.
Hypothesis Bodies : Forall2 related (g_rules g) (g_rules g').
Hypothesis Imports : g_imports g' = g_imports g.
Hypothesis Silent : forall r r', related r r' -> pr_silent r' = pr_silent r.
Hypothesis Open : forall r r', related r r' -> In r (g_rules g) -> In r' (g_rules g') -> (open g r <-> open' g' r').
Hypothesis Open_inner : forall h q, inner unicode g h -> (open h q <-> open' h q).
Hypothesis Trees : forall r r', related r r' -> forall rho, good_env unicode rho -> same_trees unicode property open' g' rho (n_expr (pr_node r)) (n_expr (pr_node r')).
Notation same_mod := (same_mod unicode g g').
Notation same_env := (same_env unicode g g').
Notation M := (matched_all (counterpart g g')).

Lemma rule_same : forall m m' path h r, same_mod m m' -> names unicode m path (E_rule h r) ->
  exists h' r', names unicode m' path (E_rule h' r') /\ same_mod h h' /\ counterpart g g' (h, r) (h', r') /\ pr_args r' = pr_args r /\ pr_silent r' = pr_silent r /\
    (open h r <-> open' h' r') /\
    (forall rho pre post K res, good_env unicode rho -> G h' rho (n_expr (pr_node r)) pre post K res -> G h' rho (n_expr (pr_node r')) pre post K res) /\
    (forall rho, good_env unicode rho -> same_trees unicode property open' h' rho (n_expr (pr_node r)) (n_expr (pr_node r'))).
Proof.
  intros m m' path h r Sm N. destruct (names_same unicode property g g' Complete related Related Bodies Imports _ _ _ _ Sm N) as ([q|h' r'] & N' & S); [destruct S|].
  exists h', r'. split; [exact N'|]. assert (I := names_listed unicode _ _ _ _ N). assert (I' := names_listed unicode _ _ _ _ N').
  destruct S as [(<- & In_ & <-)|(-> & -> & Rl)].
  - destruct (inner_other unicode g g' Imports _ In_). split; [left; auto|]. split; [left; auto|]. split; [reflexivity|]. split; [reflexivity|]. split; [apply Open_inner, In_|]. split; [auto|]. intros rho _ pre post K a b c ps H1. exact H1.
  - destruct (Related _ _ Rl) as (En & Ea & B). split; [right; auto|]. split; [right; cbn; auto 10|]. split; [exact Ea|]. split; [apply Silent, Rl|]. split; [apply Open; assumption|].
    split; [intros; eapply B; eassumption|]. apply Trees, Rl.
Qed.
Lemma sG : forall m rho e pre post K r, G m rho e pre post K r -> forall m' rho', same_mod m m' -> same_env rho rho' -> G m' rho' e pre post K r.
Proof. exact (proj1 (bodies_meaning unicode property g g' Complete related Related Bodies Imports)). Qed.
Lemma sGR : forall m rho e t i pre post K r, GR m rho e t i pre post K r -> forall m' rho', same_mod m m' -> same_env rho rho' -> GR m' rho' e t i pre post K r.
Proof. exact (proj2 (proj2 (proj2 (bodies_meaning unicode property g g' Complete related Related Bodies Imports)))). Qed.

Theorem bodies_trees :
  (forall m rho e pre post K a b c ps, T m rho e pre post K a b c ps -> forall m' rho', same_mod m m' -> same_env rho rho' -> exists qs, T' m' rho' e pre post K a b c qs /\ M ps qs) /\
  (forall m rho l pre post K a b c ps, TI m rho l pre post K a b c ps -> forall m' rho', same_mod m m' -> same_env rho rho' -> exists qs, TI' m' rho' l pre post K a b c qs /\ M ps qs) /\
  (forall m rho e t min max i pre post K a b c ps, TRs m rho e t min max i pre post K a b c ps -> forall m' rho', same_mod m m' -> same_env rho rho' ->
     exists qs, TRs' m' rho' e t min max i pre post K a b c qs /\ M ps qs) /\
  (forall m rho e t i pre post K a b c ps, TR m rho e t i pre post K a b c ps -> forall m' rho', same_mod m m' -> same_env rho rho' ->
     exists qs, TR' m' rho' e t i pre post K a b c qs /\ M ps qs).
Proof.
  apply (gtree_mutind unicode property open
    (fun m rho e pre post K a b c ps _ => forall m' rho', same_mod m m' -> same_env rho rho' -> exists qs, T' m' rho' e pre post K a b c qs /\ M ps qs)
    (fun m rho l pre post K a b c ps _ => forall m' rho', same_mod m m' -> same_env rho rho' -> exists qs, TI' m' rho' l pre post K a b c qs /\ M ps qs)
    (fun m rho e t min max i pre post K a b c ps _ => forall m' rho', same_mod m m' -> same_env rho rho' -> exists qs, TRs' m' rho' e t min max i pre post K a b c qs /\ M ps qs)
    (fun m rho e t i pre post K a b c ps _ => forall m' rho', same_mod m m' -> same_env rho rho' -> exists qs, TR' m' rho' e t i pre post K a b c qs /\ M ps qs)).
  all: intros;
    repeat match goal with
    | IH : forall m' rho', same_mod ?m m' -> same_env ?rho rho' -> exists qs, _, Sm : same_mod ?m ?m1, Se : same_env ?rho ?rho1 |- _ =>
        let qs := fresh "qs" in let X := fresh "X" in let Y := fresh "Y" in destruct (IH _ _ Sm Se) as (qs & X & Y); clear IH
    end; try (now (eexists; split; [econstructor; eauto using env_none, names_builtin, sG, sGR|try assumption; try constructor])).
  - (* parameter *) match goal with E : same_env _ _ |- _ => destruct (env_assoc _ _ _ _ _ E _ _ a) as (c' & A & Sc) end. inversion Sc; subst. destruct (H _ _ ltac:(eassumption) ltac:(eassumption)) as (qs & X & Y).
    exists qs. split; [|exact Y]. eapply GT_param; eassumption.
  - (* rule *) rename H0 into Sm, H1 into Se. destruct (rule_same _ _ _ _ _ Sm n0) as (h' & r' & N' & Sm' & Cp & Ea & Es & Op & Bg & Bt).
    assert (Ge := env_call unicode g g' g0 m' rho rho' (pr_args r) l Se Sm). destruct (H _ _ Sm' Ge) as (qs & X & Y).
    eexists. split; [eapply GT_rule; [eapply env_none; eassumption|exact N'|eassumption|rewrite Ea; assumption|rewrite Es; assumption|]|].
    + rewrite Ea. apply Bt; [eapply env_good, Ge; assumption|exact X].
    + constructor; [|constructor]. constructor; assumption.
  - (* silent *) rename H into Sm, H0 into Se. destruct (rule_same _ _ _ _ _ Sm n0) as (h' & r' & N' & Sm' & Cp & Ea & Es & Op & Bg & Bt).
    assert (Ge := env_call unicode g g' g0 m' rho rho' (pr_args r) l Se Sm).
    exists []. split; [|constructor]. eapply GT_silent; [eapply env_none; eassumption|exact N'|eassumption|rewrite Ea; assumption|rewrite Es; assumption|rewrite <- Op; assumption|].
    rewrite Ea. apply Bg; [eapply env_good, Ge; assumption|]. eapply sG; eassumption.
  - (* open *) rename H0 into Sm, H1 into Se. destruct (rule_same _ _ _ _ _ Sm n0) as (h' & r' & N' & Sm' & Cp & Ea & Es & Op & Bg & Bt).
    assert (Ge := env_call unicode g g' g0 m' rho rho' (pr_args r) l Se Sm). destruct (H _ _ Sm' Ge) as (qs & X & Y).
    exists qs. split; [|exact Y]. eapply GT_open; [eapply env_none; eassumption|exact N'|eassumption|rewrite Ea; assumption|rewrite Es; assumption|apply Op; assumption|].
    rewrite Ea. apply Bt; [eapply env_good, Ge; assumption|exact X].
  - (* items *) eexists. split; [eapply GTI_expr; eassumption|apply matched_app; assumption].
  - (* trivia *) destruct (trivia_same unicode property g g' related Related Bodies _ _ _ _ H0 l0) as (q & L & M' & B).
    eexists. split; [|eassumption]. eapply GTI_trivia; [eassumption|exact L|apply B; eapply sG; [eassumption|exact M'|constructor]|eassumption].
  - (* rounds *) eexists. split; [eapply GTR_round; eassumption|apply matched_app; assumption].
Qed.
End Rules.
