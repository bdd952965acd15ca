(** The laws of grammar expressions hold, also inside of expressions and of rules. *)
From Coq Require Import String List NArith ZArith Arith Bool Lia.
From Verif Require Import Proof_Accepted Proof_Accept Model_Text Model_Message Model_Meta Model_Import Model_Node Spec_Text Spec_Peg Spec_Grammar_Peg Spec_Occur Spec_Generator
  Spec_Laws Proof_Position Proof_Grammar_Tree_Inline Proof_Det.
Import ListNotations.
Open Scope list_scope.

Ltac no_rep := match goal with H : repetition ?e _ _ _ |- _ =>
  let Q := fresh in solve [destruct H as [(Q & _)|[(Q & _)|(? & Q & _)]]; discriminate Q] end.
Ltac ginv H := inversion H; subst; try no_rep; clear H.

Lemma starts_nil : forall s : text, starts_with [] s.
Proof. intro s. exists s. reflexivity. Qed.
Lemma starts_app : forall x y s : text, starts_with (x ++ y) s -> starts_with x s.
Proof. intros x y s (r & ->). exists (y ++ r). apply app_assoc_reverse. Qed.

Section Laws.
Variable unicode : list text.
Variable property : N -> char -> bool.
Notation G := (gpeg unicode property).
Notation GI := (gpeg_items unicode property).
Notation GRs := (gpeg_rounds unicode property).
Notation GR := (gpeg_round unicode property).

Section In.
Variable m : gmodule.
Variable rho : list (text * closure).
Definition alike (e e' : parse_expr) : Prop := forall pre post K r, G m rho e pre post K r <-> G m rho e' pre post K r.

Lemma items_one : forall e pre post K r, GI m rho [It_expr e] pre post K r <-> G m rho e pre post K r.
Proof.
  intros e pre post K r. split; intro H.
  - inversion H; subst; [|assumption]. match goal with X : GI _ _ [] _ _ _ _ |- _ => inversion X; subst end. assumption.
  - destruct r as [|p q k]; [apply GI_expr_fail, H|eapply GI_expr; [exact H|constructor]].
Qed.
Lemma empty_str : forall pre post K r, G m rho (PStr []) pre post K r <-> r = Ok pre post K.
Proof.
  intros pre post K r. split; [intro H; ginv H|intros ->].
  - match goal with X : one_text _ _ _ _ _ |- _ => inversion X; subst end; [cbn; rewrite app_nil_r; reflexivity|].
    match goal with X : ~ starts_with [] _ |- _ => destruct (X (starts_nil _)) end.
  - constructor. rewrite <- (app_nil_r pre) at 2. constructor. reflexivity.
Qed.
Lemma round_none : forall e i pre post K r, GR m rho e TriviaNone i pre post K r <-> G m rho e pre post K r.
Proof.
  intros e i pre post K r. split; intro H.
  - inversion H; subst; [apply items_one; assumption|]. match goal with X : GI _ _ (It_trivia _ :: _) _ _ _ _ |- _ => inversion X; subst end; try discriminate.
    apply items_one; assumption.
  - destruct (N.eq_dec i 0) as [->|N]; [constructor; apply items_one, H|]. apply GR_later; [lia|]. apply GI_none, items_one, H.
Qed.
Lemma round_first : forall e t pre post K r, GR m rho e t 0 pre post K r <-> G m rho e pre post K r.
Proof. intros e t pre post K r. split; intro H; [inversion H; subst; [apply items_one; assumption|lia]|constructor; apply items_one, H]. Qed.
Lemma trivia_total : forall e, exists t, round_trivia e t.
Proof. intro e. destruct e; try (exists TriviaNone; right; split; [intros; discriminate|reflexivity]). eexists. left. eexists. reflexivity. Qed.
Lemma rep_rounds : forall e n min max t, repetition e n min max -> round_trivia (n_expr n) t ->
  forall pre post K r, G m rho e pre post K r <-> GRs m rho (n_expr n) t min max 0 pre post K r.
Proof.
  intros e n min max t R T pre post K r. split; intro H; [|eapply G_repeat; eassumption].
  inversion H; subst; try no_rep.
  match goal with A : repetition ?x n min max, B : repetition ?x _ _ _ |- _ => destruct (repetition_det _ _ _ _ _ _ _ A B) as (<- & <- & <-) end.
  match goal with A : round_trivia (n_expr n) t, B : round_trivia (n_expr n) _ |- _ => destruct (round_trivia_det _ _ _ A B) end. assumption.
Qed.
Lemma bounds_rep : forall a min max, repetition (bounds a min max) a min max.
Proof. intros. right. right. eexists. split; [reflexivity|]. split; left; reflexivity. Qed.
Lemma un_trivia : forall e, unseparated e -> round_trivia e TriviaNone.
Proof. intros e U. right. split; [exact U|reflexivity]. Qed.

Lemma rounds_max : forall e t min max i pre post K r, (max <= i)%N -> GRs m rho e t min max i pre post K r <-> r = Ok pre post K.
Proof. intros e t min max i pre post K r L. split; [intro H; inversion H; subst; [reflexivity|lia..]|intros ->; constructor; exact L]. Qed.
End In.
Arguments rep_rounds {m rho}.
Lemma rounds_shift : forall m rho e min max i pre post K r,
  GRs m rho e TriviaNone min max i pre post K r -> GRs m rho e TriviaNone (min + 1) (max + 1) (i + 1) pre post K r.
Proof.
  intros m rho e min max i pre post K r H. remember TriviaNone as t eqn:Et. induction H; subst.
  - apply GR_max. lia.
  - eapply GR_round; [lia| |auto]. apply round_none. eapply round_none. eassumption.
  - apply GR_stop; [lia|lia|]. apply round_none. eapply round_none. eassumption.
  - apply GR_fail; [lia|lia|]. apply round_none. eapply round_none. eassumption.
Qed.
Lemma rounds_unshift : forall m rho e min max i pre post K r,
  GRs m rho e TriviaNone (min + 1) (max + 1) (i + 1) pre post K r -> GRs m rho e TriviaNone min max i pre post K r.
Proof.
  intros m rho e min max i pre post K r H. remember TriviaNone as t eqn:Et. remember (min + 1)%N as mi eqn:Ei. remember (max + 1)%N as ma eqn:Ea. remember (i + 1)%N as j eqn:Ej.
  revert i Ej. induction H; intros; subst.
  - apply GR_max. lia.
  - eapply GR_round; [lia| |eauto]. apply round_none. eapply round_none. eassumption.
  - apply GR_stop; [lia|lia|]. apply round_none. eapply round_none. eassumption.
  - apply GR_fail; [lia|lia|]. apply round_none. eapply round_none. eassumption.
Qed.
(** The minimum is not looked at after it is reached. *)
Lemma rounds_min : forall m rho e t min min' max i pre post K r, (min <= i)%N -> (min' <= i)%N ->
  GRs m rho e t min max i pre post K r -> GRs m rho e t min' max i pre post K r.
Proof.
  intros m rho e t min min' max i pre post K r L L' H. induction H.
  - apply GR_max. lia.
  - eapply GR_round; [lia|eassumption|]. apply IHgpeg_rounds; lia.
  - apply GR_stop; [lia|lia|assumption].
  - lia.
Qed.

Lemma rounds_no_fail : forall m rho e t min max i pre post K r, (min <= i)%N -> GRs m rho e t min max i pre post K r -> r <> Fail.
Proof.
  intros m rho e t min max i pre post K r L H. induction H; try discriminate.
  - apply IHgpeg_rounds. lia.
  - lia.
Qed.
Lemma items_app : forall m rho l l' pre post K r, GI m rho (l ++ l') pre post K r <->
  (GI m rho l pre post K Fail /\ r = Fail) \/ exists pre' post' K', GI m rho l pre post K (Ok pre' post' K') /\ GI m rho l' pre' post' K' r.
Proof.
  intros m rho l l'. induction l as [|x l IH]; intros pre post K r; cbn [app].
  - split; [intro H; right; exists pre, post, K; split; [constructor|exact H]|]. intros [(H & _)|(p & q & k & H & J)]; inversion H; subst. exact J.
  - split.
    + intro H. inversion H; subst.
      * match goal with X : GI _ _ (l ++ l') _ _ _ _ |- _ => apply IH in X; destruct X as [(X & E)|(p & q & k & X & J)] end.
        -- left. split; [|exact E]. eapply GI_expr; eassumption.
        -- right. exists p, q, k. split; [|exact J]. eapply GI_expr; eassumption.
      * left. split; [|reflexivity]. apply GI_expr_fail; assumption.
      * match goal with X : GI _ _ (l ++ l') _ _ _ _ |- _ => apply IH in X; destruct X as [(X & E)|(p & q & k & X & J)] end.
        -- left. split; [|exact E]. apply GI_none; assumption.
        -- right. exists p, q, k. split; [|exact J]. apply GI_none; assumption.
      * match goal with X : GI _ _ (l ++ l') _ _ _ _ |- _ => apply IH in X; destruct X as [(X & E)|(p & q & k & X & J)] end.
        -- left. split; [|exact E]. eapply GI_trivia; eassumption.
        -- right. exists p, q, k. split; [|exact J]. eapply GI_trivia; eassumption.
      * left. split; [|reflexivity]. eapply GI_trivia_fail; eassumption.
    + intros [(H & ->)|(p & q & k & H & J)]; inversion H; subst.
      * eapply GI_expr; [eassumption|]. apply IH. left. auto.
      * apply GI_expr_fail; assumption.
      * apply GI_none. apply IH. left. auto.
      * eapply GI_trivia; [eassumption|eassumption|eassumption|]. apply IH. left. auto.
      * eapply GI_trivia_fail; eassumption.
      * eapply GI_expr; [eassumption|]. apply IH. right. eauto 6.
      * apply GI_none. apply IH. right. eauto 6.
      * eapply GI_trivia; [eassumption|eassumption|eassumption|]. apply IH. right. eauto 6.
Qed.
Lemma seq_items : forall m rho a b t pre post K r, G m rho (PSeq a b t) pre post K r <-> GI m rho [It_expr (n_expr a); It_trivia t; It_expr (n_expr b)] pre post K r.
Proof. intros. split; intro H; [ginv H; assumption|apply G_seq, H]. Qed.
Lemma items_flat : forall m rho e l, (forall pre post K r, G m rho e pre post K r <-> GI m rho l pre post K r) ->
  forall l1 l2 pre post K r, GI m rho (l1 ++ It_expr e :: l2) pre post K r <-> GI m rho (l1 ++ l ++ l2) pre post K r.
Proof.
  intros m rho e l E l1 l2 pre post K r. rewrite !items_app.
  assert (Q : forall pre post K r, GI m rho (It_expr e :: l2) pre post K r <-> GI m rho (l ++ l2) pre post K r).
  { intros a b c d. change (It_expr e :: l2) with ([It_expr e] ++ l2). rewrite !items_app. setoid_rewrite items_one. setoid_rewrite E. reflexivity. }
  setoid_rewrite Q. reflexivity.
Qed.

Lemma law_alike : forall m rho e e', law e e' -> alike m rho e e'.
Proof.
  intros m rho e e' L pre post K r. destruct L.
  - (* opt_choice *) split; intro H; ginv H.
    + apply G_choice_left; assumption.
    + apply G_choice_right; [assumption|]. apply empty_str. reflexivity.
    + apply G_opt_some; assumption.
    + match goal with X : G _ _ (n_expr (mkNode _ _)) _ _ _ _ |- _ => apply empty_str in X; subst end. apply G_opt_none; assumption.
  - (* opt_bounds *) destruct (trivia_total (n_expr a)) as (t & T). rewrite (rep_rounds _ _ _ _ _ (bounds_rep a 0 1) T). split; intro H; ginv H.
    + eapply GR_round; [lia|apply round_first; eassumption|]. apply GR_max. lia.
    + apply GR_stop; [lia|lia|]. apply round_first; assumption.
    + lia.
    + match goal with X : GRs _ _ _ _ _ _ _ _ _ _ _ |- _ => apply rounds_max in X; [|lia]; subst end. apply G_opt_some. eapply round_first; eassumption.
    + apply G_opt_none. eapply round_first; eassumption.
    + lia.
  - (* positive *) split; intro H; ginv H.
    + apply G_negative_ok. cbn. eapply G_negative_fail; eassumption.
    + eapply G_negative_fail. cbn. apply G_negative_ok; assumption.
    + match goal with X : G _ _ (n_expr (mkNode _ _)) _ _ _ _ |- _ => cbn in X; ginv X end. eapply G_positive_ok; eassumption.
    + match goal with X : G _ _ (n_expr (mkNode _ _)) _ _ _ _ |- _ => cbn in X; ginv X end. apply G_positive_fail; assumption.
  - (* not_positive *) split; intro H; ginv H.
    + match goal with X : G _ _ (n_expr (mkNode _ _)) _ _ _ _ |- _ => cbn in X; ginv X end. apply G_negative_ok; assumption.
    + match goal with X : G _ _ (n_expr (mkNode _ _)) _ _ _ _ |- _ => cbn in X; ginv X end. eapply G_negative_fail; eassumption.
    + apply G_negative_ok. cbn. apply G_positive_fail; assumption.
    + eapply G_negative_fail. cbn. eapply G_positive_ok; eassumption.
  - (* not_not_not *) split; intro H; ginv H.
    + match goal with X : G _ _ (n_expr (mkNode _ _)) _ _ _ _ |- _ => cbn in X; ginv X end.
      match goal with X : G _ _ (n_expr (mkNode _ _)) _ _ _ _ |- _ => cbn in X; ginv X end. apply G_negative_ok; assumption.
    + match goal with X : G _ _ (n_expr (mkNode _ _)) _ _ _ _ |- _ => cbn in X; ginv X end.
      match goal with X : G _ _ (n_expr (mkNode _ _)) _ _ _ _ |- _ => cbn in X; ginv X end. eapply G_negative_fail; eassumption.
    + apply G_negative_ok. cbn. eapply G_negative_fail. cbn. apply G_negative_ok; assumption.
    + eapply G_negative_fail. cbn. apply G_negative_ok. cbn. eapply G_negative_fail; eassumption.
  - (* seq *) rewrite !seq_items. cbn [n_expr].
    etransitivity; [exact (items_flat m rho _ _ (seq_items m rho a b t) [] [_; _] pre post K r)|].
    symmetry. exact (items_flat m rho _ _ (seq_items m rho b c u) [_; _] [] pre post K r).
  - (* choice *) split; intro H; ginv H.
    + match goal with X : G _ _ (n_expr (mkNode _ _)) _ _ _ _ |- _ => cbn in X; ginv X end; [apply G_choice_left; assumption|].
      apply G_choice_right; [assumption|]. cbn. apply G_choice_left; assumption.
    + match goal with X : G _ _ (n_expr (mkNode _ _)) _ _ _ _ |- _ => cbn in X; ginv X end.
      apply G_choice_right; [assumption|]. cbn. apply G_choice_right; assumption.
    + apply G_choice_left. cbn. apply G_choice_left; assumption.
    + match goal with X : G _ _ (n_expr (mkNode _ _)) _ _ _ _ |- _ => cbn in X; ginv X end.
      * apply G_choice_left. cbn. apply G_choice_right; assumption.
      * apply G_choice_right; [|assumption]. cbn. apply G_choice_right; assumption.
  - (* same *) rename H into E. split; intro H; [ginv H; [assumption|rewrite E; assumption]|].
    destruct r as [|p q k]; [apply G_choice_right; [exact H|rewrite <- E; exact H]|apply G_choice_left, H].
  - (* empty_left *) rewrite seq_items. cbn [n_expr]. split; intro H.
    + inversion H; subst; match goal with X : G _ _ (PStr []) _ _ _ _ |- _ => apply empty_str in X; try discriminate X; injection X as -> -> -> end.
      match goal with X : GI _ _ (_ :: _) _ _ _ _ |- _ => inversion X; subst; try discriminate end. apply items_one; assumption.
    + eapply GI_expr; [apply empty_str; reflexivity|]. apply GI_none, items_one, H.
  - (* empty_right *) rewrite seq_items. cbn [n_expr]. split; intro H.
    + inversion H; subst; [|assumption]. match goal with X : GI _ _ (It_trivia _ :: _) _ _ _ _ |- _ => inversion X; subst; try discriminate end.
      match goal with X : GI _ _ [It_expr _] _ _ _ _ |- _ => apply items_one, empty_str in X; subst end. assumption.
    + destruct r as [|p q k]; [apply GI_expr_fail, H|]. eapply GI_expr; [exact H|]. apply GI_none, items_one, empty_str. reflexivity.
  - (* strings *) rewrite seq_items. cbn [n_expr]. split; intro H.
    + constructor. inversion H; subst; match goal with X : G _ _ (PStr x) _ _ _ _ |- _ => ginv X end; match goal with X : one_text x _ _ _ _ |- _ => inversion X; subst end.
      * match goal with X : GI _ _ (It_trivia _ :: _) _ _ _ _ |- _ => inversion X; subst; try discriminate end.
        match goal with X : GI _ _ [It_expr _] _ _ _ _ |- _ => apply items_one in X; ginv X end.
        match goal with X : one_text y _ _ _ _ |- _ => inversion X; subst end.
        -- rewrite <- app_assoc. constructor. rewrite app_assoc. reflexivity.
        -- constructor. intros (q & E). rewrite <- app_assoc in E. apply app_inv_head in E. match goal with N : ~ starts_with y _ |- _ => apply N end. exists q. exact E.
      * constructor. intro E. apply starts_app in E. contradiction.
    + ginv H. match goal with X : one_text _ _ _ _ _ |- _ => inversion X; subst end.
      * eapply GI_expr; [constructor; constructor; rewrite <- app_assoc; reflexivity|]. apply GI_none, items_one. constructor. rewrite app_assoc. constructor. reflexivity.
      * destruct (starts_with_dec x post) as [(q & ->)|N].
        -- eapply GI_expr; [constructor; constructor; reflexivity|]. apply GI_none, items_one. constructor. constructor. intros (q' & ->).
           match goal with N : ~ starts_with _ _ |- _ => apply N end. exists q'. apply app_assoc.
        -- apply GI_expr_fail. constructor. constructor. exact N.
  - (* prefix *) split; intro H; ginv H.
    + assumption.
    + match goal with X : G _ _ (n_expr (mkNode (PStr x) _)) _ _ _ _ |- _ => assert (Y := X); cbn in X; ginv X end.
      match goal with X : one_text _ _ _ _ Fail |- _ => inversion X; subst end.
      match goal with X : G _ _ (n_expr (mkNode (PStr (x ++ y)) _)) _ _ _ _ |- _ => cbn in X; ginv X end.
      match goal with X : one_text (x ++ y) _ _ _ _ |- _ => inversion X; subst end; [|exact Y].
      match goal with X : ~ starts_with x _ |- _ => destruct X end. eapply starts_app. eexists. reflexivity.
    + match goal with X : one_text _ _ _ _ _ |- _ => inversion X; subst end.
      * apply G_choice_left. cbn. constructor. assumption.
      * apply G_choice_right; cbn; constructor; [assumption|]. constructor. intro S. apply starts_app in S. contradiction.
  - (* char *) split; intro H; ginv H; constructor.
    + match goal with X : one_char _ _ _ _ _ |- _ => inversion X; subst end.
      * match goal with X : between _ _ _ |- _ => unfold between in X end. assert (c0 = c) as -> by lia. constructor. reflexivity.
      * constructor. intros (q & ->). apply (H c q eq_refl). unfold between. lia.
    + match goal with X : one_text _ _ _ _ _ |- _ => inversion X; subst end.
      * cbn. econstructor; [reflexivity|unfold between; lia].
      * constructor. intros d q -> B. unfold between in B. assert (d = c) as -> by lia. apply H. exists q. reflexivity.
  - (* ranges *) split; intro J.
    + ginv J; match goal with X : G _ _ (n_expr (mkNode (PRange a b) _)) _ _ _ _ |- _ => cbn in X; ginv X end;
        match goal with X : one_char (between a b) _ _ _ _ |- _ => inversion X; subst end.
      * constructor. econstructor; [reflexivity|]. unfold between in *. lia.
      * match goal with X : G _ _ (n_expr (mkNode (PRange _ c) _)) _ _ _ _ |- _ => cbn in X; ginv X end. constructor.
        match goal with X : one_char (between _ c) _ _ _ _ |- _ => inversion X; subst end.
        -- econstructor; [reflexivity|]. unfold between in *. lia.
        -- constructor. intros d q -> B. match goal with N : forall c r, _ -> ~ between a b c, N' : forall c r, _ -> ~ between (b + 1) _ c |- _ => specialize (N d q eq_refl); specialize (N' d q eq_refl) end.
           unfold between in *. lia.
    + ginv J. match goal with X : one_char _ _ _ _ _ |- _ => inversion X; subst end.
      * destruct (N.le_gt_cases c0 b) as [L|L].
        -- apply G_choice_left. cbn. constructor. econstructor; [reflexivity|]. unfold between in *. lia.
        -- apply G_choice_right; cbn; constructor; [|econstructor; [reflexivity|unfold between in *; lia]]. constructor. intros d q E B. injection E as <- _. unfold between in B. lia.
      * apply G_choice_right; cbn; constructor; constructor; intros d q -> B; match goal with N : forall c r, _ -> ~ between _ _ c |- _ => apply (N d q eq_refl) end; unfold between in *; lia.
  - (* separated *) split; intro H; [ginv H; assumption|apply G_separated, H].
  - (* look *) rename H into E. rewrite seq_items. cbn [n_expr]. split; intro H.
    + inversion H; subst; match goal with X : G _ _ (PPosPred a) _ _ _ _ |- _ => ginv X end; [|rewrite <- E; assumption].
      match goal with X : GI _ _ (It_trivia _ :: _) _ _ _ _ |- _ => inversion X; subst; try discriminate end. apply items_one; assumption.
    + rewrite <- E in H. destruct r as [|p q k]; [apply GI_expr_fail, G_positive_fail, H|]. eapply GI_expr; [eapply G_positive_ok, H|]. rewrite E in H. apply GI_none, items_one, H.
  - (* star *) destruct (trivia_total (n_expr a)) as (t & T).
    rewrite (rep_rounds (PRep a) a 0 usize_max t); [|left; auto|exact T].
    assert (Q := @rep_rounds m rho (PRepOnce a) a 1 usize_max t ltac:(right; left; auto) T).
    split; intro H.
    + assert (U : (0 < usize_max)%N) by reflexivity. inversion H; subst.
      * lia.
      * destruct r as [|p q k].
        -- exfalso. eapply rounds_no_fail; [|eassumption|reflexivity]. lia.
        -- apply G_choice_left. cbn. apply Q. eapply GR_round; [exact U|eassumption|]. eapply rounds_min; [| |eassumption]; lia.
      * apply G_choice_right; [cbn; apply Q, GR_fail; [exact U|lia|assumption]|]. apply empty_str. reflexivity.
      * lia.
    + assert (U : (0 < usize_max)%N) by reflexivity. ginv H.
      * match goal with X : G _ _ (n_expr (mkNode _ _)) _ _ _ _ |- _ => cbn in X; apply Q in X; inversion X; subst end; try lia.
        eapply GR_round; [exact U|eassumption|]. eapply rounds_min; [| |eassumption]; lia.
      * match goal with X : G _ _ (n_expr (mkNode (PStr _) _)) _ _ _ _ |- _ => apply empty_str in X; subst end.
        match goal with X : G _ _ (n_expr (mkNode _ _)) _ _ _ _ |- _ => cbn in X; apply Q in X; inversion X; subst end; try lia.
        -- exfalso. eapply rounds_no_fail; [|eassumption|reflexivity]. lia.
        -- apply GR_stop; [exact U|lia|assumption].
  - (* star_bounds *) destruct (trivia_total (n_expr a)) as (t & T).
    rewrite (rep_rounds (PRep a) a 0 usize_max t); [|left; auto|exact T]. rewrite (rep_rounds (PRepRange a range) a 0 usize_max t); [reflexivity| |exact T].
    right. right. exists range. auto.
  - (* plus_bounds *) destruct (trivia_total (n_expr a)) as (t & T).
    rewrite (rep_rounds (PRepOnce a) a 1 usize_max t); [|right; left; auto|exact T]. rewrite (rep_rounds (PRepRange a range) a 1 usize_max t); [reflexivity| |exact T].
    right. right. exists range. auto.
  - (* once *) destruct (trivia_total (n_expr a)) as (t & T). rewrite (rep_rounds _ _ _ _ _ (bounds_rep a 1 1) T). split; intro H.
    + inversion H; subst; try lia.
      * match goal with X : GRs _ _ _ _ _ _ (0 + 1)%N _ _ _ _ |- _ => apply rounds_max in X; [|lia]; subst end. eapply round_first; eassumption.
      * eapply round_first; eassumption.
    + destruct r as [|p q k]; [apply GR_fail; [lia|lia|apply round_first, H]|]. eapply GR_round; [lia|apply round_first, H|apply GR_max; lia].
  - (* more *) assert (T := un_trivia _ H). rewrite (rep_rounds _ _ _ _ _ (bounds_rep a _ _) T), seq_items. cbn [n_expr]. split; intro J.
    + inversion J; subst; try lia.
      * eapply GI_expr; [eapply round_none; eassumption|]. apply GI_none, items_one, (rep_rounds _ _ _ _ _ (bounds_rep a _ _) T). apply rounds_unshift. assumption.
      * apply GI_expr_fail. eapply round_none; eassumption.
    + inversion J; subst.
      * match goal with X : GI _ _ (It_trivia _ :: _) _ _ _ _ |- _ => inversion X; subst; try discriminate end.
        match goal with X : GI _ _ [It_expr _] _ _ _ _ |- _ => apply items_one, (rep_rounds _ _ _ _ _ (bounds_rep a _ _) T) in X end.
        eapply GR_round; [lia|apply round_none; eassumption|]. apply rounds_shift. assumption.
      * apply GR_fail; [lia|lia|]. apply round_none; assumption.
  - (* some *) assert (T := un_trivia _ H). rewrite (rep_rounds _ _ _ _ _ (bounds_rep a _ _) T). split; intro J.
    + inversion J; subst; try lia.
      * destruct r as [|p q k]; [exfalso; eapply rounds_no_fail; [|eassumption|reflexivity]; lia|]. apply G_opt_some. cbn. apply seq_items.
        eapply GI_expr; [eapply round_none; eassumption|]. apply GI_none, items_one, (rep_rounds _ _ _ _ _ (bounds_rep a _ _) T). apply rounds_unshift.
        eapply rounds_min; [| |eassumption]; lia.
      * apply G_opt_none. cbn. apply seq_items. apply GI_expr_fail. eapply round_none; eassumption.
    + ginv J; match goal with X : G _ _ (n_expr (mkNode _ _)) _ _ _ _ |- _ => cbn in X; apply seq_items in X; inversion X; subst end;
        try match goal with X : GI _ _ (It_trivia _ :: _) _ _ _ _ |- _ => inversion X; subst; try discriminate end;
        try match goal with X : GI _ _ [It_expr _] _ _ _ _ |- _ => apply items_one, (rep_rounds _ _ _ _ _ (bounds_rep a _ _) T) in X end.
      * eapply GR_round; [lia|apply round_none; eassumption|]. match goal with X : GRs _ _ _ _ _ _ _ _ _ _ _ |- _ => apply rounds_shift in X end. eapply rounds_min; [| |eassumption]; lia.
      * exfalso. eapply rounds_no_fail; [|eassumption|reflexivity]. lia.
      * apply GR_stop; [lia|lia|]. apply round_none; assumption.
Qed.

(** Common beginnings of alternatives. *)
Lemma factor_alike : distinct_properties unicode -> forall m rho e e', complete unicode m -> good_env unicode rho -> law_det e e' -> alike m rho e e'.
Proof.
  intros D m rho e e' C Ge L pre post K r. destruct L as [a a' a'' b c t sp sp' sp'' Ea' Ea'']. rewrite seq_items. cbn [n_expr].
  change [It_expr (n_expr a); It_trivia t; It_expr (PChoice b c)] with ([It_expr (n_expr a); It_trivia t] ++ [It_expr (PChoice b c)]).
  assert (Q : forall x y, n_expr x = n_expr a -> forall res, G m rho (PSeq x y t) pre post K res <-> GI m rho ([It_expr (n_expr a); It_trivia t] ++ [It_expr (n_expr y)]) pre post K res).
  { intros x y E res. rewrite seq_items, E. reflexivity. }
  rewrite items_app. split.
  - intro H. ginv H; match goal with Z : G _ _ (n_expr (mkNode (PSeq a' b t) _)) _ _ _ _ |- _ => rename Z into X end; cbn in X; apply (Q _ _ Ea'), items_app in X; destruct X as [(X & E)|(p & q & k & X & Y)].
    + discriminate E.
    + right. exists p, q, k. split; [exact X|]. apply items_one. apply items_one in Y. apply G_choice_left, Y.
    + left. split; [exact X|].
      match goal with W : G _ _ (n_expr (mkNode (PSeq a'' c t) _)) _ _ _ _ |- _ => rename W into Z end; cbn in Z; apply (Q _ _ Ea''), items_app in Z; destruct Z as [(Z & E')|(p & q & k & Z & Y)]; [exact E'|].
      discriminate (proj1 (proj2 (gpeg_unique unicode property D)) _ _ _ _ _ _ _ X C Ge _ Z).
    + match goal with W : G _ _ (n_expr (mkNode (PSeq a'' c t) _)) _ _ _ _ |- _ => rename W into Z end; cbn in Z; apply (Q _ _ Ea''), items_app in Z; destruct Z as [(Z & E')|(p' & q' & k' & Z & Y')];
        assert (E := proj1 (proj2 (gpeg_unique unicode property D)) _ _ _ _ _ _ _ X C Ge _ Z); [discriminate E|]. injection E as <- <- <-.
      right. exists p, q, k. split; [exact X|]. apply items_one. apply items_one in Y, Y'. apply G_choice_right; assumption.
  - intros [(X & ->)|(p & q & k & X & Y)].
    + apply G_choice_right; cbn; [apply (Q _ _ Ea')|apply (Q _ _ Ea'')]; apply items_app; left; auto.
    + apply items_one in Y. ginv Y.
      * apply G_choice_left. cbn. apply (Q _ _ Ea'), items_app. right. exists p, q, k. split; [exact X|]. apply items_one. assumption.
      * apply G_choice_right; cbn; [apply (Q _ _ Ea')|apply (Q _ _ Ea'')]; apply items_app; right; exists p, q, k; (split; [exact X|apply items_one; assumption]).
Qed.

(** *** Inside of expressions *)
Lemma rounds_alike : forall m rho e e', alike m rho e e' -> forall t min max i pre post K r,
  GRs m rho e t min max i pre post K r -> GRs m rho e' t min max i pre post K r.
Proof.
  intros m rho e e' A t min max.
  assert (I : forall i pre post K r, GR m rho e t i pre post K r -> GR m rho e' t i pre post K r).
  { intros i pre post K r H. inversion H; subst; [apply GR_first|apply GR_later; [assumption|]].
    - apply items_one, A, items_one. assumption.
    - change [It_trivia t; It_expr e] with ([It_trivia t] ++ [It_expr e]) in *. change [It_trivia t; It_expr e'] with ([It_trivia t] ++ [It_expr e']).
      match goal with Z : GI _ _ _ _ _ _ _ |- _ => rename Z into X end. apply items_app in X. apply items_app. destruct X as [X|(p & q & k & X & Y)]; [left; assumption|].
      right. exists p, q, k. split; [exact X|]. apply items_one, A, items_one, Y. }
  intros i pre post K r H. revert I. clear A. induction H; intro I; [apply GR_max|eapply GR_round|apply GR_stop|apply GR_fail]; eauto.
Qed.
Lemma alike_sym : forall m rho e e', alike m rho e e' -> alike m rho e' e.
Proof. intros m rho e e' A pre post K r. symmetry. apply A. Qed.
Lemma separator_trivia : forall e e' t, separator_alike e e' -> round_trivia e t -> round_trivia e' t.
Proof.
  intros e e' t S [H|(N & ->)]; [left; apply S, H|]. right. split; [|reflexivity]. intros n t' ->. destruct (proj2 (S t') (ex_intro _ n eq_refl)) as (n' & ->). exact (N n' t' eq_refl).
Qed.
Lemma repeat_alike : forall m rho a b, alike m rho (n_expr a) (n_expr b) -> separator_alike (n_expr a) (n_expr b) ->
  forall e e' min max, repetition e a min max -> repetition e' b min max -> alike m rho e e'.
Proof.
  intros m rho a b A S e e' min max R R' pre post K r. destruct (trivia_total (n_expr a)) as (t & T). assert (T' := separator_trivia _ _ _ S T).
  rewrite (rep_rounds _ _ _ _ _ R T), (rep_rounds _ _ _ _ _ R' T'). split; apply rounds_alike; [exact A|apply alike_sym, A].
Qed.

(** Arguments that match the same. *)
Inductive imp_clo : closure -> closure -> Prop :=
| IC_means m rho e m' rho' e' : (forall pre post K r, G m rho e pre post K r -> G m' rho' e' pre post K r) -> imp_clo (Clo m rho e) (Clo m' rho' e')
| IC_env m rho rho' e : imp_env rho rho' -> imp_clo (Clo m rho e) (Clo m rho' e)
with imp_env : list (text * closure) -> list (text * closure) -> Prop :=
| IE_nil : imp_env [] []
| IE_cons x c c' rho rho' : imp_clo c c' -> imp_env rho rho' -> imp_env ((x, c) :: rho) ((x, c') :: rho').
Lemma imp_assoc : forall rho rho', imp_env rho rho' -> forall x c, assoc x rho c -> exists c', assoc x rho' c' /\ imp_clo c c'.
Proof.
  intros rho rho' H. induction H as [|y c c' rho rho' Sc H IH]; intros x d A; inversion A; subst.
  - exists c'. split; [constructor|exact Sc].
  - destruct (IH _ _ ltac:(eassumption)) as (d' & A' & S). exists d'. split; [constructor; assumption|exact S].
Qed.
Lemma imp_assoc_back : forall rho rho', imp_env rho rho' -> forall x c, assoc x rho' c -> exists c', assoc x rho c'.
Proof.
  intros rho rho' H. induction H as [|y c c' rho rho' Sc H IH]; intros x d A; inversion A; subst.
  - exists c. constructor.
  - destruct (IH _ _ ltac:(eassumption)) as (d' & A'). exists d'. constructor; assumption.
Qed.
Lemma imp_none : forall rho rho' path, imp_env rho rho' -> (forall x c, path = [x] -> ~ assoc x rho c) -> forall x c, path = [x] -> ~ assoc x rho' c.
Proof. intros rho rho' path H N x c E A. destruct (imp_assoc_back _ _ H _ _ A) as (d & D). exact (N x d E D). Qed.
Lemma imp_call : forall m rho rho' ps l, imp_env rho rho' ->
  imp_env (combine ps (map (fun n => Clo m rho (n_expr n)) l)) (combine ps (map (fun n => Clo m rho' (n_expr n)) l)).
Proof.
  intros m rho rho' ps l S. revert ps. induction l as [|n l IH]; intros [|p ps]; try constructor; [constructor; exact S|apply IH].
Qed.
Theorem imp_meaning :
  (forall m rho e pre post K r, G m rho e pre post K r -> forall rho', imp_env rho rho' -> G m rho' e pre post K r) /\
  (forall m rho l pre post K r, GI m rho l pre post K r -> forall rho', imp_env rho rho' -> GI m rho' l pre post K r) /\
  (forall m rho e t min max i pre post K r, GRs m rho e t min max i pre post K r -> forall rho', imp_env rho rho' -> GRs m rho' e t min max i pre post K r) /\
  (forall m rho e t i pre post K r, GR m rho e t i pre post K r -> forall rho', imp_env rho rho' -> GR m rho' e t i pre post K r).
Proof.
  apply (gpeg_mutind unicode property
    (fun m rho e pre post K r _ => forall rho', imp_env rho rho' -> G m rho' e pre post K r)
    (fun m rho l pre post K r _ => forall rho', imp_env rho rho' -> GI m rho' l pre post K r)
    (fun m rho e t min max i pre post K r _ => forall rho', imp_env rho rho' -> GRs m rho' e t min max i pre post K r)
    (fun m rho e t i pre post K r _ => forall rho', imp_env rho rho' -> GR m rho' e t i pre post K r)).
  all: intros; try (now (econstructor; eauto using imp_none, imp_call)).
  - destruct (imp_assoc _ _ H0 _ _ a) as (c' & A & Sc). inversion Sc; subst; eapply G_param; [exact A|auto|exact A|apply H; assumption].
Qed.
Lemma argument_alike : forall m rho path l a b k, alike m rho (n_expr a) (n_expr b) ->
  forall pre post K r, G m rho (PPath path (Some (PCall (l ++ a :: k)))) pre post K r -> G m rho (PPath path (Some (PCall (l ++ b :: k)))) pre post K r.
Proof.
  intros m rho path l a b k A pre post K r H. inversion H; subst; try no_rep.
  - eapply G_param; eassumption.
  - match goal with X : call_arguments _ _ |- _ => destruct X as [X|(X & _)]; [|discriminate X]; injection X as <- end.
    eapply G_rule; [eassumption|eassumption|left; reflexivity|rewrite app_length in *; assumption|].
    eapply (proj1 imp_meaning); [eassumption|]. clear - A.
    assert (E : forall ps l0, imp_env (combine ps (map (fun n => Clo m rho (n_expr n)) l0)) (combine ps (map (fun n => Clo m rho (n_expr n)) l0))).
    { intros ps l0. revert ps. induction l0 as [|n l0 IH]; intros [|p ps]; try constructor; [|apply IH]. constructor. auto. }
    generalize (pr_args r'). induction l as [|n l IH]; intros [|p ps]; cbn; constructor; try apply IH; try apply E; constructor; auto. intros pre post K r. apply A.
  - match goal with X : _ \/ _ /\ _ |- _ => destruct X as [X|(X & _)]; [discriminate X|injection X as X] end. destruct l; discriminate.
  - destruct l as [|n' l]; cbn in *; [|destruct l; discriminate].
    match goal with X : [_] = _ :: _ |- _ => injection X as -> <- | X : _ :: _ = [_] |- _ => injection X as -> -> end. apply G_push_ok; [assumption|assumption|]. apply A. assumption.
  - destruct l as [|n' l]; cbn in *; [|destruct l; discriminate].
    match goal with X : [_] = _ :: _ |- _ => injection X as -> <- | X : _ :: _ = [_] |- _ => injection X as -> -> end. apply G_push_fail; [assumption|assumption|]. apply A. assumption.
Qed.

Theorem rewritten_alike : forall (L : parse_expr -> parse_expr -> Prop) m rho, (forall e e', L e e' -> alike m rho e e') -> forall e e', rewritten L e e' -> alike m rho e e'.
Proof.
  intros L m rho HL e e' H. induction H.
  - apply HL. assumption.
  - intros pre post K r. reflexivity.
  - apply alike_sym. assumption.
  - intros pre post K r. rewrite (IHrewritten1 pre post K r). apply IHrewritten2.
  - intros pre post K r. split; intro H0; ginv H0; try (eapply G_positive_ok; apply IHrewritten; eassumption); apply G_positive_fail, IHrewritten; assumption.
  - intros pre post K r. split; intro H0; ginv H0; try (eapply G_negative_fail; apply IHrewritten; eassumption); apply G_negative_ok, IHrewritten; assumption.
  - intros pre post K r. split; intro H0; ginv H0; try (apply G_opt_some, IHrewritten; assumption); apply G_opt_none, IHrewritten; assumption.
  - intros pre post K r. rewrite !seq_items.
    etransitivity; [apply (items_flat m rho (n_expr a) [It_expr (n_expr b)] (fun p q k x => iff_trans (IHrewritten1 p q k x) (iff_sym (items_one m rho (n_expr b) p q k x))) [] _)|].
    apply (items_flat m rho (n_expr c) [It_expr (n_expr d)] (fun p q k x => iff_trans (IHrewritten2 p q k x) (iff_sym (items_one m rho (n_expr d) p q k x))) [_; _] []).
  - intros pre post K r. split; intro H1; ginv H1; try (apply G_choice_left, IHrewritten1; assumption); apply G_choice_right; try apply IHrewritten1; try apply IHrewritten2; assumption.
  - intros pre post K r. split; intro H0; ginv H0; apply G_separated, IHrewritten; assumption.
  - eapply (repeat_alike m rho a b IHrewritten H0); left; auto.
  - eapply (repeat_alike m rho a b IHrewritten H0); right; left; auto.
  - assert (R : exists min max, repetition (PRepRange a range) a min max /\ repetition (PRepRange b range) b min max).
    { destruct (r_start range) as [mi|] eqn:E1, (r_end range) as [ma|] eqn:E2; eexists _, _; (split; right; right; exists range; (split; [reflexivity|]; split; eauto)). }
    destruct R as (mi & ma & R & R'). eapply repeat_alike; eassumption.
  - intros pre post K r. split; apply argument_alike; [assumption|apply alike_sym; assumption].
Qed.

(** *** Inside of rules *)
Section Rules.
Variables g g' : gmodule.
Hypothesis Complete : complete unicode g'.
Definition body_implies (r r' : parse_rule) : Prop :=
  pr_name r' = pr_name r /\ pr_args r' = pr_args r /\
  forall rho, good_env unicode rho -> forall pre post K res, G g' rho (n_expr (pr_node r)) pre post K res -> G g' rho (n_expr (pr_node r')) pre post K res.
Variable related : parse_rule -> parse_rule -> Prop.
Hypothesis Related : forall r r', related r r' -> body_implies r r'.
Hypothesis Bodies : Forall2 related (g_rules g) (g_rules g').
Hypothesis Imports : g_imports g' = g_imports g.

(** Modules that are imported. *)
Definition inner (m : gmodule) : Prop := complete unicode m /\ weight m < weight g.
Definition same_mod (m m' : gmodule) : Prop := m = m' /\ inner m \/ m = g /\ m' = g'.
Inductive same_clo : closure -> closure -> Prop :=
| SC m m' rho rho' e : same_mod m m' -> same_env rho rho' -> same_clo (Clo m rho e) (Clo m' rho' e)
with same_env : list (text * closure) -> list (text * closure) -> Prop :=
| SE_nil : same_env [] []
| SE_cons x c c' rho rho' : same_clo c c' -> same_env rho rho' -> same_env ((x, c) :: rho) ((x, c') :: rho').
Scheme same_clo_mut := Minimality for same_clo Sort Prop with same_env_mut := Minimality for same_env Sort Prop.
Lemma mod_complete : forall m m', same_mod m m' -> complete unicode m'.
Proof. intros m m' [(<- & H & _)|(_ & ->)]; assumption. Qed.
Lemma env_good : forall rho rho', same_env rho rho' -> good_env unicode rho'.
Proof.
  apply (same_env_mut (fun _ c => good_clo unicode c) (fun _ rho => good_env unicode rho)); intros; constructor; try assumption. eapply mod_complete; eassumption.
Qed.
Lemma env_assoc : forall rho rho', same_env rho rho' -> forall x c, assoc x rho c -> exists c', assoc x rho' c' /\ same_clo c c'.
Proof.
  intros rho rho' H. induction H as [|y c c' rho rho' Sc H IH]; intros x d A; inversion A; subst.
  - exists c'. split; [constructor|exact Sc].
  - destruct (IH _ _ ltac:(eassumption)) as (d' & A' & S). exists d'. split; [constructor; assumption|exact S].
Qed.
Lemma env_assoc_back : forall rho rho', same_env rho rho' -> forall x c, assoc x rho' c -> exists c', assoc x rho c'.
Proof.
  intros rho rho' H. induction H as [|y c c' rho rho' Sc H IH]; intros x d A; inversion A; subst.
  - exists c. constructor.
  - destruct (IH _ _ ltac:(eassumption)) as (d' & A'). exists d'. constructor; assumption.
Qed.
Lemma env_none : forall rho rho' path, same_env rho rho' -> (forall x c, path = [x] -> ~ assoc x rho c) -> forall x c, path = [x] -> ~ assoc x rho' c.
Proof. intros rho rho' path H N x c E A. destruct (env_assoc_back _ _ H _ _ A) as (d & D). exact (N x d E D). Qed.
Lemma env_call : forall m m' rho rho' ps l, same_env rho rho' -> same_mod m m' ->
  same_env (combine ps (map (fun n => Clo m rho (n_expr n)) l)) (combine ps (map (fun n => Clo m' rho' (n_expr n)) l)).
Proof. intros m m' rho rho' ps l S M. revert ps. induction l as [|n l IH]; intros [|p ps]; try constructor; [constructor; assumption|apply IH]. Qed.

Lemma body_in : forall r, In r (g_rules g) -> exists r', In r' (g_rules g') /\ related r r'.
Proof.
  intros r I. induction Bodies as [|a b l l' B F IH]; [destruct I|]. destruct I as [<-|I]; [exists b; split; [left; reflexivity|exact B]|].
  destruct (IH F I) as (q & I2 & B2). exists q. split; [right; exact I2|exact B2].
Qed.
Lemma body_last : forall name r, last_rule g name r -> exists r', last_rule g' name r' /\ related r r'.
Proof.
  intros name r (a & b & E & N & L). pose proof Bodies as F. rewrite E in F. apply Forall2_app_inv_l in F. destruct F as (a' & b0 & _ & F & E').
  inversion F as [|? r' ? b' B F']; subst. exists r'. split; [|exact B]. exists a', b'. split; [exact E'|]. split; [destruct (Related _ _ B) as (En & _); exact En|].
  clear - Related F' L. intros q I. induction F' as [|x y l l' B F IH]; [destruct I|]. destruct I as [<-|I].
  - destruct (Related _ _ B) as (-> & _). apply L. left. reflexivity.
  - apply IH; [|exact I]. intros z Iz. apply L. right. exact Iz.
Qed.
Definition same_entity (x x' : entity) : Prop :=
  match x, x' with
  | E_builtin p, E_builtin p' => p = p'
  | E_rule h r, E_rule h' r' => h = h' /\ inner h /\ r = r' \/ h = g /\ h' = g' /\ related r r'
  | _, _ => False
  end.
Lemma inner_own : forall m path x, inner m -> own_name unicode m path x -> forall h r, x = E_rule h r -> inner h.
Proof.
  intros m path x (C & W) O h r E. split; [eapply own_complete; eassumption|]. clear C. induction O as [m q I _| |m alias m1 rest x I O IH]; try discriminate E.
  - injection E as <- <-. exact W.
  - apply IH; [|exact E]. apply weight_import in I. lia.
Qed.
Lemma inner_names : forall m path h r, inner m -> names unicode m path (E_rule h r) -> inner h.
Proof. intros m path h r Hm N. inversion N; subst. eapply inner_own; [exact Hm|eassumption|reflexivity]. Qed.
Lemma names_same : forall m m' path x, same_mod m m' -> names unicode m path x -> exists x', names unicode m' path x' /\ same_entity x x'.
Proof.
  intros m m' path x [(<- & C)|(-> & ->)] N.
  - exists x. split; [exact N|]. destruct x as [p|h r]; [reflexivity|]. left. split; [reflexivity|]. split; [|reflexivity]. eapply inner_names; eassumption.
  - inversion N as [p B|p y O Q]; subst; [exists (E_builtin p); split; [constructor; exact B|reflexivity]|]. inversion O; subst.
    + destruct (body_in r ltac:(assumption)) as (r' & I' & B). exists (E_rule g' r'). split; [|right; auto]. apply N_own; [|exact Q].
      destruct (Related _ _ B) as (En & _). rewrite <- En. apply O_rule; [exact I'|]. unfold is_trivia_rule in *. rewrite En. assumption.
    + exists (E_builtin (p ++ rest)). split; [|reflexivity]. apply N_own; [|exact Q]. apply O_builtin; [rewrite Imports; assumption|assumption].
    + exists x. split; [apply N_own; [eapply O_file; [rewrite Imports|]; eassumption|exact Q]|]. destruct x as [p|h r]; [reflexivity|]. left.
      split; [reflexivity|]. split; [|reflexivity]. assert (W := weight_import _ _ _ H). eapply inner_own; [|eassumption|reflexivity]. split; [|exact W].
      clear - Complete Imports H. inversion Complete; subst. rewrite Imports in *. eauto.
Qed.
Lemma names_builtin : forall m m' path q, same_mod m m' -> names unicode m path (E_builtin q) -> names unicode m' path (E_builtin q).
Proof. intros m m' path q M H. destruct (names_same _ _ _ _ M H) as ([q'|h r] & H' & S); [|destruct S]. cbn in S. subst. exact H'. Qed.
Lemma trivia_same : forall m m' name r, same_mod m m' -> last_rule m name r -> exists r', last_rule m' name r' /\ same_mod m m' /\
  forall pre post K res, G m' [] (n_expr (pr_node r)) pre post K res -> G m' [] (n_expr (pr_node r')) pre post K res.
Proof.
  intros m m' name r M L. destruct M as [(<- & C)|(-> & ->)].
  - exists r. split; [exact L|]. split; [left; auto|]. auto.
  - destruct (body_last _ _ L) as (r' & L' & B). exists r'. split; [exact L'|]. split; [right; auto|]. apply (Related _ _ B). constructor.
Qed.

Theorem bodies_meaning :
  (forall m rho e pre post K r, G m rho e pre post K r -> forall m' rho', same_mod m m' -> same_env rho rho' -> G m' rho' e pre post K r) /\
  (forall m rho l pre post K r, GI m rho l pre post K r -> forall m' rho', same_mod m m' -> same_env rho rho' -> GI m' rho' l pre post K r) /\
  (forall m rho e t min max i pre post K r, GRs m rho e t min max i pre post K r -> forall m' rho', same_mod m m' -> same_env rho rho' -> GRs m' rho' e t min max i pre post K r) /\
  (forall m rho e t i pre post K r, GR m rho e t i pre post K r -> forall m' rho', same_mod m m' -> same_env rho rho' -> GR m' rho' e t i pre post K r).
Proof.
  apply (gpeg_mutind unicode property
    (fun m rho e pre post K r _ => forall m' rho', same_mod m m' -> same_env rho rho' -> G m' rho' e pre post K r)
    (fun m rho l pre post K r _ => forall m' rho', same_mod m m' -> same_env rho rho' -> GI m' rho' l pre post K r)
    (fun m rho e t min max i pre post K r _ => forall m' rho', same_mod m m' -> same_env rho rho' -> GRs m' rho' e t min max i pre post K r)
    (fun m rho e t i pre post K r _ => forall m' rho', same_mod m m' -> same_env rho rho' -> GR m' rho' e t i pre post K r)).
  all: intros; try (now (econstructor; eauto using env_none, names_builtin)).
  - (* parameter *) destruct (env_assoc _ _ H1 _ _ a) as (c' & A & Sc). inversion Sc; subst. eapply G_param; [exact A|]. apply H; assumption.
  - (* rule *) rename H into IH, H0 into M, H1 into E. destruct (names_same _ _ _ _ M n0) as ([q|h r2] & N' & S); [destruct S|].
    assert (Ge := env_call g0 m' rho rho' (pr_args r') l E M).
    destruct S as [(<- & C & <-)|(-> & -> & Rl)]; [|destruct (Related _ _ Rl) as (_ & Ea & B)].
    + eapply G_rule; [eapply env_none; eassumption|exact N'|eassumption|assumption|]. apply IH; [left; auto|exact Ge].
    + eapply G_rule; [eapply env_none; eassumption|exact N'|eassumption|rewrite Ea; assumption|]. rewrite Ea. apply B; [eapply env_good, Ge|]. apply IH; [right; auto|exact Ge].
  - destruct (trivia_same _ _ _ _ H1 l0) as (q & L & M & B). eapply GI_trivia; [eassumption|exact L|apply B, H; [exact M|constructor]|apply H0; assumption].
  - destruct (trivia_same _ _ _ _ H0 l0) as (q & L & M & B). eapply GI_trivia_fail; [eassumption|exact L|apply B, H; [exact M|constructor]].
Qed.
End Rules.

Theorem rewritten_meaning : forall (L : parse_expr -> parse_expr -> Prop) g g', complete unicode g -> complete unicode g' ->
  (forall rho e e', good_env unicode rho -> L e e' -> alike g rho e e' /\ alike g' rho e e') -> rewritten_grammar L g g' ->
  forall e e', rewritten L e e' -> forall pre post K r, G g [] e pre post K r <-> G g' [] e' pre post K r.
Proof.
  intros L g g' C C' HL (F & Im) e e' R pre post K r.
  assert (A : forall rho e e', good_env unicode rho -> rewritten L e e' -> alike g rho e e' /\ alike g' rho e e').
  { intros rho x x' Ge Rx. split; eapply rewritten_alike; try exact Rx; intros y y' Ly; apply HL; assumption. }
  rewrite <- (proj2 (A [] e e' (GE_nil _) R) pre post K r). split; intro H.
  - refine (proj1 (bodies_meaning g g' C' (body_implies g') (fun _ _ x => x) _ Im) _ _ _ _ _ _ _ H _ _ (or_intror (conj eq_refl eq_refl)) (SE_nil _ _)).
    clear - F A. induction F as [|x y l l' (En & Ea & B) F IH]; constructor; [|exact IH]. split; [exact En|]. split; [exact Ea|].
    intros rho Ge pre post K res. apply (A rho _ _ Ge B).
  - refine (proj1 (bodies_meaning g' g C (body_implies g) (fun _ _ x => x) _ (eq_sym Im)) _ _ _ _ _ _ _ H _ _ (or_intror (conj eq_refl eq_refl)) (SE_nil _ _)).
    clear - F A. induction F as [|x y l l' (En & Ea & B) F IH]; constructor; [|exact IH]. split; [symmetry; exact En|]. split; [symmetry; exact Ea|].
    intros rho Ge pre post K res. apply (A rho _ _ Ge B).
Qed.
End Laws.
