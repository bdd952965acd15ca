(** Facts about the layout of the emitted structs. *)
From Coq Require Import String List NArith ZArith Arith Bool Lia Relations.
From Verif Require Import Model_Text Model_Message Model_Meta Model_Import Model_Tracker Model_Node Model_Generator Model_Output
  Spec_Text Spec_Peg Spec_Rust Spec_Grammar_Peg Spec_Occur Spec_Generator Spec_Layout
  Proof_Text Proof_Emit Proof_Box Proof_Process Proof_Place Proof_Compile Proof_Leaf Proof_Read Proof_Exists.
Import ListNotations.
Open Scope list_scope.

(** Without cycles, and with finitely many starting points, every descent ends. *)
Section Acyclic.
Variable R : text -> text -> Prop.
Variable L : list text.
Hypothesis Dom : forall a b, R a b -> In a L.
Hypothesis Acyclic : forall a, ~ clos_trans _ R a a.
Lemma descent : forall n V a, length L <= n + length V -> NoDup V -> incl V L -> (forall x, In x V -> clos_trans _ R x a) -> Acc (fun y x => R x y) a.
Proof.
  induction n as [|n IH]; intros V a Ln Nd Inc Anc; constructor; intros y Ry;
    assert (Na : ~ In a V) by (intro I; exact (Acyclic a (Anc a I)));
    assert (Nd' : NoDup (a :: V)) by (constructor; assumption);
    assert (Inc' : incl (a :: V) L) by (intros x [<-|I]; [eapply Dom, Ry|apply Inc, I]).
  - assert (Q := NoDup_incl_length Nd' Inc'). cbn [length] in Q. lia.
  - apply (IH (a :: V)); [cbn [length]; lia|exact Nd'|exact Inc'|].
    intros x [<-|I]; [apply t_step, Ry|]. eapply t_trans; [apply Anc, I|apply t_step, Ry].
Qed.
Lemma acyclic_acc : forall a, Acc (fun y x => R x y) a.
Proof. intro a. apply (descent (length L) [] a); [lia|constructor|intros x []|intros x []]. Qed.
End Acyclic.

Section Sized.
Variable unicode : list text.
Variable env : rule -> rule_def.
Variable boxed : rule -> bool.
Variable id : list text -> text -> rule.
Variable place : list text -> gmodule -> Prop.
Notation sized := (sized env boxed).
Notation compiles := (compiles unicode id place (fun _ _ _ n => sized n)).
Notation in_turn := (in_turn unicode id place (fun _ _ _ n => sized n)).
Notation one_of := (one_of unicode id place (fun _ _ _ n => sized n)).
Notation all_compile := (all_compile unicode id place (fun _ _ _ n => sized n)).

Definition small (mp : list text) (r : parse_rule) : Prop :=
  forall ns, length ns = length (pr_args r) -> (forall n, In n ns -> sized n) -> sized (Rule (id mp (pr_name r)) ns).
(** The rules that occur in [e] are of known size. *)
Definition small_names (g : gmodule) (e : parse_expr) : Prop :=
  forall path args g' r' mp, part (PPath path args) e -> own_name unicode g path (E_rule g' r') -> place mp g' ->
    In r' (g_rules g') -> ~ is_trivia_rule r' -> small mp r'.
Lemma small_operand : forall g e e1, operand_of e1 e -> small_names g e -> small_names g e1.
Proof. intros g e e1 O S path args g' r' mp P. apply S with args. eapply Part_in; eassumption. Qed.

(** The nodes at even places, where [sequence_items] has the fields. *)
Fixpoint evens (ns : list node) : Prop :=
  match ns with [] => True | n :: r => sized n /\ match r with [] => True | _ :: r' => evens r' end end.
Lemma evens_fields : forall fields, evens (sequence_items fields) -> forall t tr, In (t, tr) fields -> sized t.
Proof.
  intros [|(t0, tr0) fields] H t tr I; [destruct I|]. cbn [sequence_items] in H.
  revert t0 tr0 H t tr I. induction fields as [|(t1, tr1) fields IH]; intros t0 tr0 H t tr I.
  - destruct I as [E|[]]. injection E as -> ->. apply H.
  - cbn [flat_map app fst snd evens] in H. destruct H as (H0 & H1). destruct I as [E|I]; [injection E as -> ->; exact H0|].
    apply (IH t1 tr1 H1 t tr I).
Qed.

Lemma no_core_str : forall g rho n, ~ core unicode id place (fun _ _ _ n => sized n) g rho (PStr []) n.
Proof.
  intros g rho n C. inversion C; subst.
  match goal with R : repetition _ _ _ _ |- _ => destruct R as [(? & _)|[(? & _)|(? & ? & _)]]; discriminate end.
Qed.

Lemma sized_one : forall n t, (forall m, holds env boxed n m -> m = t) -> sized t -> sized n.
Proof. intros n t D S. constructor. intros m Hm. rewrite (D m Hm). exact S. Qed.
Lemma sized_zero : forall n, (forall m, ~ holds env boxed n m) -> sized n.
Proof. intros n D. constructor. intros m Hm. exfalso. exact (D m Hm). Qed.
Lemma sized_leaf : forall n, leaf n -> sized n.
Proof.
  fix Fx 2. intros n [m F|l F]; [apply sized_zero; intros t Ht; inversion Ht; subst; discriminate|].
  constructor. intros t Ht. assert (J : In t l) by (inversion Ht; subst; assumption). clear Ht. revert l F t J.
  fix Gx 2. intros l F t J. destruct F as [|n' l Ln F]; [destruct J|]. destruct J as [<-|J]; [apply Fx, Ln|exact (Gx l F t J)].
Qed.

Ltac no_rep := match goal with R : repetition _ _ _ _ |- _ => destruct R as [(? & _)|[(? & _)|(? & ? & _)]]; discriminate end.
Definition all_sized (g : gmodule) (rho : list (text * closure)) (e : parse_expr) : Prop :=
  (forall n, compiles g rho e n -> sized n) /\
  (forall ns, in_turn g rho [It_expr e] ns -> evens ns) /\
  (forall ns, one_of g rho e ns -> forall n, In n ns -> sized n).

Section Env.
Variable g : gmodule.
Variable rho : list (text * closure).
Hypothesis Cl : forall x c, assoc x rho c -> c = nothing.
Lemma all_sized_plain : forall e, (forall n, compiles g rho e n -> sized n) ->
  (forall l r, e <> PChoice l r) -> (forall l r t, e <> PSeq l r t) -> all_sized g rho e.
Proof.
  intros e H Nc Ns. split; [exact H|]. split.
  - intros ns T. inversion T; subst; [|exfalso; eapply Ns; reflexivity].
    match goal with X : in_turn _ _ [] _ |- _ => inversion X; subst end. cbn [evens]. split; [apply H; assumption|exact I].
  - intros ns O n J. inversion O; subst; [|exfalso; eapply Nc; reflexivity]. destruct J as [<-|[]]. apply H. assumption.
Qed.
Lemma all_compile_sized : forall l ns, all_compile g rho l ns -> (forall a, In a l -> all_sized g rho (n_expr a)) -> forall n, In n ns -> sized n.
Proof.
  induction l as [|a l IH]; intros ns A H n J; inversion A; subst; [destruct J|].
  destruct J as [<-|J]; [apply (proj1 (H a (or_introl eq_refl))); assumption|]. eapply IH; [eassumption|intros b K; apply H; right; exact K|exact J].
Qed.
Lemma all_compile_length : forall l ns, all_compile g rho l ns -> length ns = length l.
Proof. induction l as [|a l IH]; intros ns A; inversion A; subst; [reflexivity|]. cbn [length]. f_equal. apply IH. assumption. Qed.
Lemma path_sized : forall path args, (forall l n, args = Some (PCall l) -> In n l -> all_sized g rho (n_expr n)) ->
  small_names g (PPath path args) -> all_sized g rho (PPath path args).
Proof.
  intros path args IH S. apply all_sized_plain; [|discriminate|discriminate]. intros n C. inversion C as [? ? ? ? Lf|? ? x ? g' rho' e' ? A C'| |? ? ? ? K]; subst.
  - exact Lf.
  - assert (E := Cl _ _ A). injection E as -> -> ->. inversion C' as [? ? ? ? Lf| | |? ? ? ? K]; subst; [exact Lf|]. destruct (no_core_str _ _ _ K).
  - inversion K as [? ? ? ? l g' r' mp ns Np (Nm & _) Ca Ln Pl Ir Nt All|? ? ? a n' Np Nm C'| | | | | |]; subst; [| |no_rep].
    + assert (O : own_name unicode g path (E_rule g' r')) by (inversion Nm; subst; assumption).
      apply (S path args g' r' mp (Part_self _) O Pl Ir Nt); [rewrite (all_compile_length _ _ All); exact Ln|].
      apply (all_compile_sized _ _ All). intros b J. destruct Ca as [->|(_ & ->)]; [|destruct J]. eapply IH; [reflexivity|exact J].
    + apply (sized_one _ n'); [intros m Hm; inversion Hm; reflexivity|]. apply (IH [a] a eq_refl (or_introl eq_refl)), C'.
Qed.
Lemma compiles_sized : forall e, small_names g e -> all_sized g rho e.
Proof.
  apply (expr_rect (fun e => small_names g e -> all_sized g rho e)).
  1-3: intros; apply all_sized_plain; [|discriminate|discriminate]; intros n C; inversion C as [? ? ? ? Lf| | |? ? ? ? K]; subst; [exact Lf|inversion K; subst; no_rep].
  - intros path S. apply path_sized; [discriminate|exact S].
  - intros path range S. apply path_sized; [discriminate|exact S].
  - intros path args IH S. apply path_sized; [|exact S]. intros l n E J. injection E as <-. apply IH; [exact J|]. eapply small_operand; [|exact S]. constructor. exact J.
  - intros a IH S. apply all_sized_plain; [|discriminate|discriminate]. intros n C. inversion C as [? ? ? ? Lf| | |? ? ? ? K]; subst; [exact Lf|].
    inversion K as [| |? ? ? n' C'| | | | |]; subst; [|no_rep]. apply (sized_one _ n'); [intros m Hm; inversion Hm; reflexivity|].
    apply IH; [eapply small_operand; [constructor|exact S]|exact C'].
  - intros a IH S. apply all_sized_plain; [|discriminate|discriminate]. intros n C. inversion C as [? ? ? ? Lf| | |? ? ? ? K]; subst; [exact Lf|].
    inversion K; subst; [|no_rep]. apply sized_zero. intros m Hm. inversion Hm.
  - intros l r t IHl IHr S. specialize (IHl (small_operand _ _ _ (Op_seq_l l r t) S)). specialize (IHr (small_operand _ _ _ (Op_seq_r l r t) S)).
    assert (T : forall ns, in_turn g rho [It_expr (n_expr l); It_trivia t; It_expr (n_expr r)] ns -> evens ns).
    { intros ns T. inversion T as [|? ? ? ? n0 ns0 C0 T0| |]; subst. inversion T0 as [| |? ? ? ? n1 ns1 C1 T1|]; subst. cbn [evens].
      split; [apply IHl, C0|apply IHr, T1]. }
    assert (Cs : forall n, compiles g rho (PSeq l r t) n -> sized n).
    { intros n C. inversion C as [? ? ? ? Lf| | |? ? ? ? K]; subst; [exact Lf|]. inversion K as [| | | | |? ? ? ? ? fields T'| |]; subst; [|no_rep].
      constructor. intros m Hm. inversion Hm; subst. eapply evens_fields; [apply T, T'|eassumption]. }
    split; [exact Cs|]. split.
    + intros ns T'. inversion T' as [|? ? ? ? n0 ns0 C0 T0| |]; subst; [|apply T; assumption]. inversion T0; subst. cbn [evens]. split; [apply Cs, C0|exact I].
    + intros ns O n J. inversion O; subst. destruct J as [<-|[]]. apply Cs. assumption.
  - intros l r IHl IHr S. specialize (IHl (small_operand _ _ _ (Op_choice_l l r) S)). specialize (IHr (small_operand _ _ _ (Op_choice_r l r) S)).
    assert (Cs : forall n, compiles g rho (PChoice l r) n -> sized n).
    { intros n C. inversion C as [? ? ? ? Lf| | |? ? ? ? K]; subst; [exact Lf|]. inversion K as [| | | | | |? ? ? ? n0 ns C0 O|]; subst; [|no_rep].
      constructor. intros m Hm. inversion Hm as [| | | |? ? J|]; subst. destruct J as [<-|J]; [apply IHl, C0|]. destruct IHr as (_ & _ & IHr). eapply IHr; eassumption. }
    split; [exact Cs|]. split.
    + intros ns T'. inversion T' as [|? ? ? ? n0 ns0 C0 T0| |]; subst. inversion T0; subst. cbn [evens]. split; [apply Cs, C0|exact I].
    + intros ns O n J. inversion O as [|? ? ? ? n0 ns0 C0 O0]; subst; [destruct J as [<-|[]]; apply Cs; assumption|].
      destruct J as [<-|J]; [apply IHl, C0|]. destruct IHr as (_ & _ & IHr). eapply IHr; eassumption.
  - intros a IH S. apply all_sized_plain; [|discriminate|discriminate]. intros n C. inversion C as [? ? ? ? Lf| | |? ? ? ? K]; subst; [exact Lf|].
    inversion K as [| | | |? ? ? n' C'| | |]; subst; [|no_rep]. apply (sized_one _ n'); [intros m Hm; inversion Hm; reflexivity|].
    apply IH; [eapply small_operand; [constructor|exact S]|exact C'].
  - intros; apply all_sized_plain; [|discriminate|discriminate]; intros n' C; inversion C as [? ? ? ? Lf| | |? ? ? ? K]; subst; [exact Lf|];
    inversion K; subst; apply sized_zero; intros m Hm; inversion Hm.
  - intros; apply all_sized_plain; [|discriminate|discriminate]; intros n' C; inversion C as [? ? ? ? Lf| | |? ? ? ? K]; subst; [exact Lf|];
    inversion K; subst; apply sized_zero; intros m Hm; inversion Hm.
  - intros; apply all_sized_plain; [|discriminate|discriminate]; intros n' C; inversion C as [? ? ? ? Lf| | |? ? ? ? K]; subst; [exact Lf|];
    inversion K; subst; apply sized_zero; intros m Hm; inversion Hm.
  - intros a t IH S. apply all_sized_plain; [|discriminate|discriminate]. intros n C. inversion C as [? ? ? ? Lf| |? ? ? ? ? C'|? ? ? ? K]; subst; [exact Lf| |inversion K; subst; no_rep].
    apply IH; [eapply small_operand; [constructor|exact S]|exact C'].
Qed.
End Env.
End Sized.

Section Module.
Variable config : gconfig.
Variable unicode : list text.
Variable top : gmodule.
Variable env : rule -> rule_def.
Variable boxed : rule -> bool.
Variable id : list text -> text -> rule.
Notation place := (located (types_mod (rules_mod config)) top).
Notation small := (small env boxed id).
Hypothesis bodies : forall mp g r cs ns, place mp g -> In r (g_rules g) -> ~ is_trivia_rule r ->
  length cs = length (pr_args r) -> arguments unicode id place (fun _ _ _ n => sized env boxed n) cs ns ->
  compiles unicode id place (fun _ _ _ n => sized env boxed n) g (combine (pr_args r) cs) (n_expr (pr_node r)) (rd_body (env (id mp (pr_name r))) ns).
Hypothesis boxes : forall mp g r, place mp g -> In r (g_rules g) -> ~ is_trivia_rule r ->
  exists reach, collect_reachability (g_rules g) = Ret reach /\
    (boxed (id mp (pr_name r)) = false -> lookup (pr_name r) reach <> None).

Lemma assoc_nothing : forall (params : list text) x c, assoc x (combine params (map (fun _ => nothing) params)) c -> c = nothing.
Proof.
  induction params as [|y params IH]; intros x c A; cbn [map combine] in A; inversion A; subst; [reflexivity|]. eapply IH. eassumption.
Qed.
Lemma rule_small : forall mp g r, place mp g -> In r (g_rules g) -> ~ is_trivia_rule r ->
  (boxed (id mp (pr_name r)) = false -> small_names unicode env boxed id place g (n_expr (pr_node r))) -> small mp r.
Proof.
  intros mp g r Pl Ir Nt S ns L A. constructor. intros m Hm. inversion Hm as [| | | | |? ? B]; subst.
  assert (C := bodies mp g r (map (fun _ => nothing) (pr_args r)) ns Pl Ir Nt ltac:(apply map_length)).
  apply (compiles_sized unicode env boxed id place g _ (assoc_nothing (pr_args r)) _ (S B)). apply C.
  clear - L A. revert ns L A. induction (pr_args r) as [|x l IH]; intros [|n ns] L A; try discriminate; [constructor|].
  constructor; [apply K_leaf, A; left; reflexivity|]. apply IH; [injection L as L; exact L|]. intros n' J. apply A. right. exact J.
Qed.

Lemma uses_tc : forall rules (U : text -> Prop) a b, clos_trans _ (fun a b => uses rules a b /\ U a) a b ->
  exists l, chain rules l a b /\ forall x, In x (a :: l) -> U x.
Proof.
  intros rules U a b H. apply clos_trans_t1n in H. induction H as [a b (Hu & Ua)|a b c (Hu & Ua) _ (l & C & A)].
  - exists []. split; [constructor; exact Hu|]. intros x [<-|[]]. exact Ua.
  - exists (b :: l). split; [econstructor; eassumption|]. intros x [<-|I]; [exact Ua|apply A, I].
Qed.

(** Everything that a module can name is of known size. *)
Lemma names_small : forall g, fine unicode g -> forall p g' r', own_name unicode g p (E_rule g' r') ->
  forall mp, place mp g' -> small mp r'.
Proof.
  fix Fx 2. intros g F. assert (F0 := F). destruct F as [g _ _ _ _ _ _ _ _ Sub].
  assert (Child : forall alias g1 p g' r', In (File alias g1) (g_imports g) -> own_name unicode g1 p (E_rule g' r') -> forall mp, place mp g' -> small mp r').
  { intros alias g1 p g' r' I O. exact (Fx g1 (Sub alias g1 I) p g' r' O). }
  clear Fx. 
  assert (Own : forall name r mp, pr_name r = name -> place mp g -> In r (g_rules g) -> ~ is_trivia_rule r -> small mp r).
  { intros name. destruct (collect_reachability (g_rules g)) as [reach| |] eqn:Re;
      [|intros r mp _ Pl Ir Nt; destruct (boxes mp g r Pl Ir Nt) as (reach & E & _); congruence..].
    assert (W : Acc (fun y x => uses (g_rules g) x y /\ lookup x reach <> None) name).
    { apply (acyclic_acc (fun x y => uses (g_rules g) x y /\ lookup x reach <> None) (map pr_name (g_rules g))).
      - intros a b ((r & I & <- & _) & _). apply in_map, I.
      - intros a T. apply (uses_tc (g_rules g) (fun x => lookup x reach <> None)) in T. destruct T as (l & C & A).
        destruct (reachability_cycle _ _ Re _ _ C) as (b & I & N). exact (A b I N). }
    induction W as [name _ IH]. intros r mp En Pl Ir Nt. apply (rule_small mp g r Pl Ir Nt). intros B path args g' r' mp' P O Pl' Ir' Nt'.
    inversion O as [? ? Ir'' Nt''| |? alias g1 rest ? I O']; subst.
    - apply (IH (pr_name r')); try assumption; try reflexivity. split; [exists r; split; [exact Ir|split; [reflexivity|exists args; exact P]]|].
      destruct (boxes mp g' r Pl Ir Nt) as (reach' & E & N). rewrite Re in E. injection E as <-. apply N, B.
    - eapply Child; eassumption. }
  intros p g' r' O mp Pl. inversion O as [? ? Ir Nt| |? alias g1 rest ? I O']; subst; [eapply Own; try eassumption; reflexivity|eapply Child; eassumption].
Qed.
End Module.
