(** Which rules are boxed. *)
From Coq Require Import String List NArith ZArith Arith Bool Lia.
From Verif Require Import Model_Text Model_Message Model_Meta Model_Import Model_Generator Spec_Occur Proof_Emit.
Import ListNotations.
Open Scope list_scope.

(** Induction over expressions with their operands. *)
Section Expr_ind.
Variable P : parse_expr -> Prop.
Hypothesis H_str : forall s, P (PStr s).
Hypothesis H_insens : forall s, P (PInsens s).
Hypothesis H_range : forall a b, P (PRange a b).
Hypothesis H_plain : forall path, P (PPath path None).
Hypothesis H_slice : forall path range, P (PPath path (Some (PSlice range))).
Hypothesis H_call : forall path args, (forall n, In n args -> P (n_expr n)) -> P (PPath path (Some (PCall args))).
Hypothesis H_pos : forall n, P (n_expr n) -> P (PPosPred n).
Hypothesis H_neg : forall n, P (n_expr n) -> P (PNegPred n).
Hypothesis H_seq : forall l r t, P (n_expr l) -> P (n_expr r) -> P (PSeq l r t).
Hypothesis H_choice : forall l r, P (n_expr l) -> P (n_expr r) -> P (PChoice l r).
Hypothesis H_opt : forall n, P (n_expr n) -> P (POpt n).
Hypothesis H_rep : forall n, P (n_expr n) -> P (PRep n).
Hypothesis H_once : forall n, P (n_expr n) -> P (PRepOnce n).
Hypothesis H_reprange : forall n range, P (n_expr n) -> P (PRepRange n range).
Hypothesis H_separated : forall n t, P (n_expr n) -> P (PSeparated n t).
Fixpoint expr_rect (e : parse_expr) : P e :=
  let nd (n : parse_node) : P (n_expr n) := match n with mkNode e s => expr_rect e end in
  match e with
  | PStr s => H_str s
  | PInsens s => H_insens s
  | PRange a b => H_range a b
  | PPath path None => H_plain path
  | PPath path (Some (PSlice range)) => H_slice path range
  | PPath path (Some (PCall args)) =>
      H_call path args
        (proj1 (Forall_forall (fun n => P (n_expr n)) args)
          ((fix go (l : list parse_node) : Forall (fun n => P (n_expr n)) l :=
              match l with
              | [] => Forall_nil _
              | m :: r => Forall_cons (P := fun n => P (n_expr n)) m (match m return P (n_expr m) with mkNode e s => expr_rect e end) (go r)
              end) args))
  | PPosPred n => H_pos n (nd n)
  | PNegPred n => H_neg n (nd n)
  | PSeq l r t => H_seq l r t (nd l) (nd r)
  | PChoice l r => H_choice l r (nd l) (nd r)
  | POpt n => H_opt n (nd n)
  | PRep n => H_rep n (nd n)
  | PRepOnce n => H_once n (nd n)
  | PRepRange n range => H_reprange n range (nd n)
  | PSeparated n t => H_separated n t (nd n)
  end.
End Expr_ind.

Lemma part_trans : forall a b c, part a b -> part b c -> part a c.
Proof. intros a b c H H'. induction H' as [|e1 e H1 IH O]; [exact H|eapply Part_in; eassumption]. Qed.
Lemma part_operand : forall e e1, operand_of e1 e -> part e1 e.
Proof. intros e e1 O. eapply Part_in; [apply Part_self|exact O]. Qed.

Lemma used_node : forall n, used_names_node n = used_names (n_expr n).
Proof. intros [e s]. reflexivity. Qed.
Lemma uses_node : forall t n, uses_trivia_node t n = uses_trivia t (n_expr n).
Proof. intros t [e s]. reflexivity. Qed.
Lemma used_args_in : forall x l, In x (used_names_args (PCall l)) <-> exists n, In n l /\ In x (used_names (n_expr n)).
Proof.
  intros x l. cbn [used_names_args]. induction l as [|n l IH]; cbn; [split; [intros []|intros (n & [] & _)]|].
  rewrite used_node, in_app_iff, IH. split.
  - intros [I|(m & I & J)]; [exists n; split; [left; reflexivity|exact I]|exists m; split; [right; exact I|exact J]].
  - intros (m & [->|I] & J); [left; exact J|right; exists m; split; assumption].
Qed.
Lemma uses_args_in : forall t l, uses_trivia_args t (PCall l) = true <-> exists n, In n l /\ uses_trivia t (n_expr n) = true.
Proof.
  intros t l. cbn [uses_trivia_args]. induction l as [|n l IH]; cbn; [split; [discriminate|intros (n & [] & _)]|].
  rewrite uses_node, orb_true_iff, IH. split.
  - intros [I|(m & I & J)]; [exists n; split; [left; reflexivity|exact I]|exists m; split; [right; exact I|exact J]].
  - intros (m & [->|I] & J); [left; exact J|right; exists m; split; assumption].
Qed.

Lemma mentions_operand : forall e e1 x, operand_of e1 e -> mentions e1 x -> mentions e x.
Proof. intros e e1 x O (args & P). exists args. eapply Part_in; eassumption. Qed.
Lemma used_names_operand : forall e e1 x, operand_of e1 e -> In x (used_names e1) -> In x (used_names e).
Proof.
  intros e e1 x O I. destruct O; cbn [used_names]; rewrite ?used_node; try exact I; try (apply in_or_app; (left; exact I) || (right; exact I)).
  apply in_or_app. right. apply used_args_in. exists n. split; assumption.
Qed.
Lemma used_names_spec : forall e x, In x (used_names e) <-> mentions e x.
Proof.
  intros e x. split.
  - revert e. apply (expr_rect (fun e => In x (used_names e) -> mentions e x)); intros; try contradiction;
      try (cbn [used_names] in *; rewrite ?used_node in *; eapply mentions_operand; [constructor|apply H; assumption]).
    + cbn in H. rewrite app_nil_r in H. destruct path as [|y [|? ?]]; try contradiction. destruct H as [->|[]]. exists None. constructor.
    + cbn in H. rewrite app_nil_r in H. destruct path as [|y [|? ?]]; try contradiction. destruct H as [->|[]]. eexists. constructor.
    + cbn [used_names] in H0. apply in_app_or in H0. destruct H0 as [I|I].
      * destruct path as [|y [|? ?]]; try contradiction. destruct I as [->|[]]. eexists. constructor.
      * apply used_args_in in I. destruct I as (n & I & J). eapply mentions_operand; [apply Op_arg, I|]. apply H; assumption.
    + cbn [used_names] in H1. rewrite !used_node in H1. apply in_app_or in H1.
      destruct H1 as [H1|H1]; eapply mentions_operand; [apply Op_seq_l|auto|apply Op_seq_r|auto].
    + cbn [used_names] in H1. rewrite !used_node in H1. apply in_app_or in H1.
      destruct H1 as [H1|H1]; eapply mentions_operand; [apply Op_choice_l|auto|apply Op_choice_r|auto].
  - intros (args & P). induction P as [|e1 e H1 IH O]; [left; reflexivity|]. eapply used_names_operand; eassumption.
Qed.

Lemma trivia_eqb_spec : forall a b, trivia_eqb a b = true <-> a = b.
Proof. intros [] []; cbn; split; congruence. Qed.
Lemma asks_operand : forall e e1 t, operand_of e1 e -> asks e1 t -> asks e t.
Proof. intros e e1 t O [(l & r & P)|(n & P)]; [left; exists l, r|right; exists n]; eapply Part_in; eassumption. Qed.
Lemma uses_trivia_operand : forall e e1 t, operand_of e1 e -> uses_trivia t e1 = true -> uses_trivia t e = true.
Proof.
  intros e e1 t O I. destruct O; cbn [uses_trivia]; rewrite ?uses_node; try rewrite I; rewrite ?orb_true_r; try reflexivity.
  apply uses_args_in. exists n. split; assumption.
Qed.
Lemma uses_trivia_spec : forall e t, uses_trivia t e = true <-> asks e t.
Proof.
  intros e t. split.
  - revert e. apply (expr_rect (fun e => uses_trivia t e = true -> asks e t)); intros; try discriminate;
      try (cbn [uses_trivia] in *; rewrite ?uses_node in *; eapply asks_operand; [constructor|apply H; assumption]).
    + cbn [uses_trivia] in H0. apply uses_args_in in H0. destruct H0 as (n & I & J).
      eapply asks_operand; [apply Op_arg, I|]. apply H; assumption.
    + cbn [uses_trivia] in H1. rewrite !uses_node in H1. apply orb_prop in H1. destruct H1 as [H1|H1].
      * apply orb_prop in H1. destruct H1 as [H1|H1]; [|eapply asks_operand; [apply Op_seq_l|auto]].
        apply trivia_eqb_spec in H1. subst. left. exists l, r. constructor.
      * eapply asks_operand; [apply Op_seq_r|auto].
    + cbn [uses_trivia] in H1. rewrite !uses_node in H1. apply orb_prop in H1.
      destruct H1 as [H1|H1]; eapply asks_operand; [apply Op_choice_l|auto|apply Op_choice_r|auto].
    + cbn [uses_trivia] in H0. rewrite !uses_node in H0. apply orb_prop in H0. destruct H0 as [H0|H0].
      * apply trivia_eqb_spec in H0. subst. right. exists n. constructor.
      * eapply asks_operand; [apply Op_separated|auto].
  - intros [(l & r & P)|(n & P)]; induction P as [|e1 e H1 IH O]; try (eapply uses_trivia_operand; eassumption).
    + cbn [uses_trivia]. rewrite (proj2 (trivia_eqb_spec t t) eq_refl). reflexivity.
    + cbn [uses_trivia]. rewrite (proj2 (trivia_eqb_spec t t) eq_refl). reflexivity.
Qed.

(** The first loop: every rule is there with the names it mentions. *)
Lemma collect_direct_spec : forall all rules res res', collect_direct all rules res = Ret res' ->
  (forall a x, (exists l, lookup a res = Some l /\ In x l) \/ uses rules a x <-> exists l, lookup a res' = Some l /\ In x l) /\
  (forall a, In a (map pr_name rules) \/ lookup a res <> None <-> lookup a res' <> None).
Proof.
  intros all rules. induction rules as [|r rules IH]; intros res res' H.
  - injection H as <-. split; intros; split; try tauto.
    intros [L|(r & [] & _)]. exact L.
  - cbn [collect_direct] in H. unfold collect_used_rule in H.
    destruct (_ || _); cbn [obind] in H; [discriminate|]. apply IH in H. destruct H as (A & B).
    set (e := n_expr (pr_node r)) in *. set (old := match lookup (pr_name r) res with Some l => l | None => [] end) in *.
    split.
    + intros a x. rewrite <- A. split.
      * intros [(l & L & I)|(r' & [->|I'] & E & M)].
        -- left. destruct (teqb a (pr_name r)) as [->|N].
           ++ exists (old ++ used_names e). rewrite lookup_insert_same. split; [reflexivity|].
              apply in_or_app. left. unfold old. rewrite L. exact I.
           ++ exists l. rewrite lookup_insert_other by exact N. split; assumption.
        -- left. subst a. exists (old ++ used_names e). rewrite lookup_insert_same. split; [reflexivity|].
           apply in_or_app. right. apply used_names_spec. exact M.
        -- right. exists r'. split; [exact I'|split; assumption].
      * intros [(l & L & I)|(r' & I' & E & M)].
        -- destruct (teqb a (pr_name r)) as [->|N].
           ++ rewrite lookup_insert_same in L. injection L as <-. apply in_app_or in I. destruct I as [I|I].
              ** left. unfold old in I. destruct (lookup (pr_name r) res) as [l|]; [exists l; split; [reflexivity|exact I]|destruct I].
              ** right. exists r. split; [left; reflexivity|]. split; [reflexivity|apply used_names_spec, I].
           ++ rewrite lookup_insert_other in L by exact N. left. exists l. split; assumption.
        -- right. exists r'. split; [right; exact I'|split; assumption].
    + intro a. rewrite <- B. cbn [map]. destruct (teqb a (pr_name r)) as [->|N].
      * rewrite lookup_insert_same. split; [intros _; right; discriminate|]. intros _. left. left. reflexivity.
      * rewrite lookup_insert_other by exact N. split.
        -- intros [[E|I]|L]; [congruence|left; exact I|right; exact L].
        -- intros [I|L]; [left; right; exact I|right; exact L].
Qed.

(** Reachability in the graph. *)
Inductive reaches (rules : list parse_rule) : text -> text -> Prop :=
| Reach_one a b : uses rules a b -> reaches rules a b
| Reach_more a x b : uses rules a x -> reaches rules x b -> reaches rules a b.
Lemma reaches_trans : forall rules a b c, reaches rules a b -> reaches rules b c -> reaches rules a c.
Proof. intros rules a b c H H'. induction H; [eapply Reach_more; eassumption|eapply Reach_more; [eassumption|auto]]. Qed.
Lemma reaches_chain : forall rules a b, reaches rules a b <-> exists l, chain rules l a b.
Proof.
  intros rules a b. split.
  - induction 1 as [a b U|a x b U _ (l & C)]; [exists []; constructor; exact U|exists (x :: l); econstructor; eassumption].
  - intros (l & C). induction C; [apply Reach_one; assumption|eapply Reach_more; eassumption].
Qed.

Section Rounds.
Variable rules : list parse_rule.

(** Everything collected is reachable; every rule not there reaches itself. *)
Definition sound (res : list (text * list text)) : Prop :=
  (forall a l x, lookup a res = Some l -> In x l -> reaches rules a x) /\
  (forall a, In a (map pr_name rules) -> lookup a res = None -> reaches rules a a).
Lemma reach_step_sound : forall res name, sound res -> sound (reach_step res name).
Proof.
  intros res name (A & B). unfold reach_step. destruct (lookup name res) as [cur|] eqn:L; [|split; assumption].
  set (new := cur ++ _).
  assert (R : forall x, In x new -> reaches rules name x).
  { intros x I. apply in_app_or in I. destruct I as [I|I]; [eapply A; eassumption|].
    apply in_flat_map in I. destruct I as (y & Iy & I). destruct (lookup y (remove name res)) as [l|] eqn:Ly; [|destruct I].
    destruct (teqb y name) as [->|N]; [rewrite lookup_remove_same in Ly; discriminate|].
    rewrite lookup_remove_other in Ly by exact N.
    eapply reaches_trans; [eapply A; eassumption|eapply A; eassumption]. }
  destruct (text_in_spec name new) as [I|I].
  - split.
    + intros a l x La. destruct (teqb a name) as [->|N]; [rewrite lookup_remove_same in La; discriminate|].
      rewrite lookup_remove_other in La by exact N. apply A, La.
    + intros a Ia La. destruct (teqb a name) as [->|N]; [apply R, I|].
      rewrite lookup_remove_other in La by exact N. apply B; assumption.
  - split.
    + intros a l x La Ix. destruct (teqb a name) as [->|N].
      * rewrite lookup_insert_same in La. injection La as <-. apply R, Ix.
      * rewrite lookup_insert_other in La by exact N. rewrite lookup_remove_other in La by exact N. eapply A; eassumption.
    + intros a Ia La. destruct (teqb a name) as [->|N]; [rewrite lookup_insert_same in La; discriminate|].
      rewrite lookup_insert_other in La by exact N. rewrite lookup_remove_other in La by exact N. apply B; assumption.
Qed.
Lemma fold_sound : forall names res, sound res -> sound (fold_left reach_step names res).
Proof. induction names as [|n names IH]; intros res S; [exact S|]. cbn. apply IH, reach_step_sound, S. Qed.
Lemma iter_sound : forall n names res, sound res -> sound (Nat.iter n (fun res => fold_left reach_step names res) res).
Proof. induction n as [|n IH]; intros names res S; [exact S|]. cbn. apply fold_sound, IH, S. Qed.

(** Names only leave the table. *)
Definition kept (res res' : list (text * list text)) : Prop := forall a, lookup a res' <> None -> lookup a res <> None.
Lemma reach_step_kept : forall res name, kept res (reach_step res name).
Proof.
  intros res name a. unfold reach_step. destruct (lookup name res) as [cur|] eqn:L; [|auto].
  destruct (teqb a name) as [->|N]; [intros _; congruence|].
  destruct (text_in _ _); [rewrite lookup_remove_other by exact N; auto|].
  rewrite lookup_insert_other by exact N. rewrite lookup_remove_other by exact N. auto.
Qed.
Lemma fold_kept : forall names res, kept res (fold_left reach_step names res).
Proof. induction names as [|n names IH]; intros res a K; [exact K|]. cbn in K. apply (reach_step_kept res n), IH, K. Qed.

(** [within res U k]: for the names in [U], everything that can be reached in at most [k + 1] steps through
    [U] has been collected. *)
Fixpoint steps (U : text -> Prop) (k : nat) (a b : text) : Prop :=
  match k with
  | 0 => uses rules a b
  | S k => steps U k a b \/ exists x, U x /\ uses rules a x /\ steps U k x b
  end.
Lemma steps_le : forall (U : text -> Prop) k k' a b, k <= k' -> steps U k a b -> steps U k' a b.
Proof. intros U k k' a b L H. induction L; [exact H|left; exact IHL]. Qed.
Lemma steps_uses : forall (U : text -> Prop) k a b, uses rules a b -> steps U k a b.
Proof. intros U k a b H. apply (steps_le U 0); [lia|exact H]. Qed.
Definition within (U : text -> Prop) (res : list (text * list text)) (k : nat) (a : text) : Prop :=
  exists l, lookup a res = Some l /\ forall b, steps U k a b -> In b l.
Lemma within_less : forall (U : text -> Prop) res k k' a, k' <= k -> within U res k a -> within U res k' a.
Proof. intros U res k k' a L (l & E & H). exists l. split; [exact E|]. intros b S. apply H. eapply steps_le; eassumption. Qed.

(** One step raises the bound of its name, if the name stays. *)
Lemma reach_step_within : forall (U : text -> Prop) res name k,
  (forall a, U a -> within U res k a) -> (forall a, U a -> lookup a (reach_step res name) <> None) ->
  (forall a, U a -> within U (reach_step res name) k a) /\
  (U name -> within U (reach_step res name) (S k) name) /\
  (forall a k', a <> name -> within U res k' a -> within U (reach_step res name) k' a) /\
  (U name -> ~ steps U (S k) name name).
Proof.
  intros U res name k W K.
  assert (Other : forall a k', a <> name -> within U res k' a -> within U (reach_step res name) k' a).
  { intros a k' N (l & E & H). unfold reach_step. destruct (lookup name res); [|exists l; split; assumption].
    destruct (text_in _ _); exists l; (split; [|exact H]).
    - rewrite lookup_remove_other by exact N. exact E.
    - rewrite lookup_insert_other by exact N. rewrite lookup_remove_other by exact N. exact E. }
  assert (Own : U name -> within U (reach_step res name) (S k) name /\ ~ steps U (S k) name name).
  { intro Un. destruct (W _ Un) as (cur & E & H). specialize (K _ Un). unfold reach_step in K |- *. rewrite E in K |- *.
    set (new := cur ++ _) in *.
    assert (C : ~ In name new -> forall b, steps U (S k) name b -> In b new).
    { intros Nn b [S|(x & Ux & Ex & S)]; [apply in_or_app; left; apply H, S|].
      destruct (teqb x name) as [->|N]; [apply in_or_app; left; apply H, S|].
      apply in_or_app. right. apply in_flat_map. exists x. split; [apply H, steps_uses, Ex|].
      rewrite lookup_remove_other by exact N. destruct (W _ Ux) as (l & El & Hl). rewrite El. apply Hl, S. }
    destruct (text_in_spec name new) as [I|I]; [rewrite lookup_remove_same in K; congruence|].
    split; [|intro S; apply I, C; assumption].
    exists new. split; [apply lookup_insert_same|apply C, I]. }
  split; [|split; [intro Un; apply Own, Un|split; [exact Other|intro Un; apply Own, Un]]].
  intros a Ua. destruct (teqb a name) as [->|N]; [|apply Other; [exact N|apply W, Ua]].
  apply (within_less U _ (S k)); [lia|]. apply Own, Ua.
Qed.

Lemma fold_within : forall (U : text -> Prop) names res k,
  (forall a, U a -> within U res k a) -> (forall a, U a -> lookup a (fold_left reach_step names res) <> None) ->
  (forall a, U a -> within U (fold_left reach_step names res) k a) /\
  (forall a, U a -> within U res (S k) a \/ In a names -> within U (fold_left reach_step names res) (S k) a) /\
  (forall a, U a -> In a names -> ~ steps U (S k) a a).
Proof.
  intros U names. induction names as [|n names IH]; intros res k W K.
  - cbn. split; [exact W|split; [intros a _ [H|[]]; exact H|intros a _ []]].
  - cbn [fold_left] in *.
    assert (K1 : forall a, U a -> lookup a (reach_step res n) <> None) by (intros a Ua; apply (fold_kept names), K, Ua).
    destruct (reach_step_within U res n k W K1) as (W1 & S1 & O1 & N1).
    destruct (IH (reach_step res n) k W1 K) as (W2 & S2 & N2).
    split; [exact W2|]. split.
    + intros a Ua [H|[->|I]]; apply S2; try exact Ua.
      * left. destruct (teqb a n) as [->|N]; [apply S1, Ua|apply O1; assumption].
      * left. apply S1, Ua.
      * right. exact I.
    + intros a Ua [->|I]; [apply N1, Ua|apply N2; assumption].
Qed.

Lemma iter_within : forall (U : text -> Prop) names n res,
  (forall a, U a -> within U res 0 a) -> (forall a, U a -> In a names) ->
  (forall a, U a -> lookup a (Nat.iter n (fun res => fold_left reach_step names res) res) <> None) ->
  (forall a, U a -> within U (Nat.iter n (fun res => fold_left reach_step names res) res) n a) /\
  (forall a, U a -> n <> 0 -> ~ steps U n a a).
Proof.
  intros U names. induction n as [|n IH]; intros res W I K; [split; [exact W|intros a _ N; congruence]|].
  cbn [Nat.iter nat_rect] in *. fold (Nat.iter n (fun res => fold_left reach_step names res) res) in *.
  set (mid := Nat.iter n (fun res => fold_left reach_step names res) res) in *.
  assert (K1 : forall a, U a -> lookup a mid <> None) by (intros a Ua; apply (fold_kept names), K, Ua).
  destruct (IH res W I K1) as (W1 & _).
  destruct (fold_within U names mid n W1 K) as (_ & S2 & N2).
  split; [intros a Ua; apply S2; [exact Ua|right; apply I, Ua]|].
  intros a Ua _. apply N2; [exact Ua|apply I, Ua].
Qed.

(** A cycle through [U] can be cut down to one without repetitions. *)
Lemma chain_steps : forall (U : text -> Prop) l a b, chain rules l a b -> (forall x, In x l -> U x) -> steps U (length l) a b.
Proof.
  intros U l a b C. induction C as [a b H|a x l b H C IH]; intro I; [exact H|].
  cbn [length steps]. right. exists x. split; [apply I; left; reflexivity|]. split; [exact H|].
  apply IH. intros y Iy. apply I. right. exact Iy.
Qed.
Lemma chain_suffix : forall l1 x l2 a b, chain rules (l1 ++ x :: l2) a b -> chain rules l2 x b.
Proof.
  induction l1 as [|y l1 IH]; intros x l2 a b C; inversion C; subst; [assumption|]. eapply IH; eassumption.
Qed.
Lemma chain_simple : forall l a b, chain rules l a b ->
  exists l', chain rules l' a b /\ NoDup (a :: l') /\ incl l' l.
Proof.
  intros l a b C. induction C as [a b H|a x l b H C (l' & C' & D & I)].
  - exists []. split; [constructor; exact H|]. split; [constructor; [intros []|constructor]|apply incl_refl].
  - destruct (in_dec (list_eq_dec N.eq_dec) a (x :: l')) as [Ia|Na].
    + destruct Ia as [->|Ia].
      * exists l'. split; [exact C'|]. split; [exact D|]. apply incl_tl, I.
      * apply in_split in Ia. destruct Ia as (l1 & l2 & ->). exists l2.
        split; [eapply chain_suffix, C'|]. inversion_clear D as [|? ? Nx D']. split.
        -- apply NoDup_remove in D'. destruct D' as (D1 & N1). constructor.
           ++ intro J. apply N1. apply in_or_app. right. exact J.
           ++ clear - D1. induction l1 as [|y l1 IH]; [exact D1|]. inversion_clear D1. apply IH. assumption.
        -- intros y J. right. apply I. apply in_or_app. right. right. exact J.
    + exists (x :: l'). split; [econstructor; eassumption|]. split; [constructor; assumption|].
      intros y [->|J]; [left; reflexivity|right; apply I, J].
Qed.
End Rounds.

Lemma reachability_sound : forall rules reach, collect_reachability rules = Ret reach -> sound rules reach.
Proof.
  intros rules reach H. unfold collect_reachability in H.
  destruct (collect_direct rules rules []) as [res| |] eqn:E; try discriminate. cbn [obind] in H. injection H as <-.
  apply iter_sound. destruct (collect_direct_spec _ _ _ _ E) as (A & B). split.
  - intros a l x L I. apply Reach_one. destruct (proj2 (A a x)) as [(l' & L' & _)|U]; [exists l; split; assumption|discriminate|exact U].
  - intros a I L. exfalso. apply (proj1 (B a)); [left; exact I|exact L].
Qed.

Lemma reachability_cycle : forall rules reach, collect_reachability rules = Ret reach ->
  forall a l, chain rules l a a -> exists b, In b (a :: l) /\ lookup b reach = None.
Proof.
  intros rules reach H a l C.
  assert (D : (exists b, In b (a :: l) /\ lookup b reach = None) \/ (forall b, In b (a :: l) -> lookup b reach <> None)).
  { generalize (a :: l). intro m. induction m as [|b m [(c & I & E)|IH]].
    - right. intros b [].
    - left. exists c. split; [right; exact I|exact E].
    - destruct (lookup b reach) eqn:E; [right|left; exists b; split; [left; reflexivity|exact E]].
      intros c [->|I]; [congruence|apply IH, I]. }
  destruct D as [D|D]; [exact D|]. exfalso.
  destruct (chain_simple rules l a a C) as (l' & C' & Nd & Inc).
  set (U := fun x => In x (a :: l')).
  assert (Ul : forall x, U x -> In x (a :: l)) by (intros x [->|I]; [left; reflexivity|right; apply Inc, I]).
  unfold collect_reachability in H.
  destruct (collect_direct rules rules []) as [res| |] eqn:E; try discriminate. cbn [obind] in H. injection H as H.
  destruct (collect_direct_spec _ _ _ _ E) as (A & B).
  assert (Names : forall x, U x -> In x (map pr_name rules)).
  { intros x Ux. assert (exists y, uses rules x y) as (y & r & I & <- & _); [|apply in_map, I].
    assert (G : forall l a b, chain rules l a b -> forall x, In x (a :: l) -> exists y, uses rules x y).
    { clear. intros l a b C. induction C as [a b H|a x l b H C IH]; intros y I.
      - destruct I as [->|[]]. exists b. exact H.
      - destruct I as [->|I]; [exists x; exact H|apply IH, I]. }
    eapply G; [exact C'|exact Ux]. }
  assert (W : forall x, U x -> within rules U res 0 x).
  { intros x Ux. destruct (lookup x res) as [m|] eqn:L; [|exfalso; apply (proj1 (B x)); [left; apply Names, Ux|exact L]].
    exists m. split; [exact L|]. intros b S. cbn in S. destruct (proj1 (A x b) (or_intror S)) as (m' & L' & I). congruence. }
  assert (Len : S (length l') <= length rules).
  { rewrite <- (map_length pr_name rules). change (length (a :: l') <= length (map pr_name rules)).
    apply NoDup_incl_length; [exact Nd|exact Names]. }
  destruct (iter_within rules U (map pr_name rules) (length rules) res W Names) as (_ & N).
  - intros x Ux. rewrite H. apply D, Ul, Ux.
  - apply (N a); [left; reflexivity|lia|].
    apply (steps_le rules U (length l')); [lia|]. apply chain_steps; [exact C'|]. intros x I. right. exact I.
Qed.
