(** Grammars that agree on what a rule refers to give it the same meaning. *)
From Coq Require Import String List NArith ZArith Arith Bool Lia.
From Verif Require Import Model_Text Model_Message Model_Meta Model_Import Model_Node Spec_Text Spec_Peg Spec_Grammar_Peg Spec_Occur Spec_Generator Spec_Local.
Import ListNotations.
Open Scope list_scope.

Lemma part_trans : forall a b c, part a b -> part b c -> part a c.
Proof. intros a b c H J. induction J as [|e1 e J IH O]; [exact H|]. exact (Part_in _ _ _ IH O). Qed.
Lemma part_operand : forall a e, operand_of a e -> part a e.
Proof. intros a e H. exact (Part_in _ _ _ (Part_self _) H). Qed.
Lemma refers_part : forall P ps e e', refers P ps e -> part e' e -> refers P ps e'.
Proof.
  intros P ps e e' (A & B) H. split.
  - intros x path args J. eapply A, part_trans; eassumption.
  - intros t name [(l & r & J)|(n & J)] E; apply (B t name); auto; [left; exists l, r|right; exists n]; eapply part_trans; eassumption.
Qed.
Lemma assoc_in : forall (A : Type) x (rho : list (text * A)), In x (map fst rho) -> exists c, assoc x rho c.
Proof.
  intros A x rho. induction rho as [|(y, c) rho IH]; intro H; [destruct H|]. destruct (list_eq_dec N.eq_dec x y) as [->|N]; [exists c; constructor|].
  destruct H as [E|H]; [cbn in E; congruence|]. destruct (IH H) as (d & D). exists d. constructor; assumption.
Qed.

Section Local.
Variable unicode : list text.
Variable property : N -> char -> bool.
Variable P : text -> Prop.
Variables g g' : gmodule.
Hypothesis Agree : agree P g g'.
Hypothesis Closed : closed_under P g.
Hypothesis Plain : forall r, In r (g_rules g) -> P (pr_name r) -> is_trivia_rule r -> pr_args r = [].

Definition same_mod (m m' : gmodule) (params : list text) (e : parse_expr) : Prop :=
  m = m' \/ m = g /\ m' = g' /\ refers P params e.
Inductive same_clo : closure -> closure -> Prop :=
| SC m m' rho rho' e : same_mod m m' (map fst rho) e -> same_env rho rho' -> same_clo (Clo m rho e) (Clo m' rho' e)
with same_env : list (text * closure) -> list (text * closure) -> Prop :=
| SE_nil : same_env [] []
| SE_cons x c c' rho rho' : same_clo c c' -> same_env rho rho' -> same_env ((x, c) :: rho) ((x, c') :: rho').
Definition same_item (m m' : gmodule) (params : list text) (i : item) : Prop :=
  match i with
  | It_expr e => same_mod m m' params e
  | It_trivia t => m = m' \/ m = g /\ m' = g' /\ forall name, trivia_name t = Some name -> P name
  end.

Lemma same_operand : forall m m' ps e e', same_mod m m' ps e -> operand_of e' e -> same_mod m m' ps e'.
Proof.
  intros m m' ps e e' [E|(E & E' & R)] O; [left; exact E|]. right. split; [exact E|]. split; [exact E'|].
  eapply refers_part; [exact R|apply part_operand, O].
Qed.
Lemma env_names : forall rho rho', same_env rho rho' -> map fst rho' = map fst rho.
Proof. intros rho rho' H. induction H; cbn; congruence. Qed.
Lemma env_assoc : forall rho rho', same_env rho rho' -> forall x c, assoc x rho c -> exists c', assoc x rho' c' /\ same_clo c c'.
Proof.
  intros rho rho' H. induction H as [|y c c' rho rho' Sc H IH]; intros x d A; inversion A; subst.
  - exists c'. split; [constructor|exact Sc].
  - destruct (IH _ _ ltac:(eassumption)) as (d' & A' & S). exists d'. split; [constructor; assumption|exact S].
Qed.
Lemma env_assoc_back : forall rho rho', same_env rho rho' -> forall x c, assoc x rho' c -> exists c', assoc x rho c'.
Proof.
  intros rho rho' H. induction H as [|y c c' rho rho' Sc H IH]; intros x d A; inversion A; subst.
  - exists c. constructor.
  - destruct (IH _ _ ltac:(eassumption)) as (d' & A'). exists d'. constructor; assumption.
Qed.
Lemma env_none : forall rho rho' path, same_env rho rho' -> (forall x c, path = [x] -> ~ assoc x rho c) -> forall x c, path = [x] -> ~ assoc x rho' c.
Proof. intros rho rho' path H N x c E A. destruct (env_assoc_back _ _ H _ _ A) as (d & D). exact (N x d E D). Qed.
Lemma env_call : forall m m' rho rho' ps l, same_env rho rho' -> (forall n, In n l -> same_mod m m' (map fst rho) (n_expr n)) ->
  same_env (combine ps (map (fun n => Clo m rho (n_expr n)) l)) (combine ps (map (fun n => Clo m' rho' (n_expr n)) l)).
Proof.
  intros m m' rho rho' ps l S H. revert ps. induction l as [|n l IH]; intros [|p ps]; try constructor.
  - constructor; [apply H; left; reflexivity|exact S].
  - apply IH. intros k K. apply H. right. exact K.
Qed.
Lemma combine_names : forall (ps : list text) (cs : list closure), length cs = length ps -> map fst (combine ps cs) = ps.
Proof. intros ps. induction ps as [|p ps IH]; intros [|c cs] E; try discriminate; [reflexivity|]. cbn. f_equal. apply IH. injection E. auto. Qed.

(** Names. *)
Definition same_entity (x x' : entity) : Prop :=
  match x, x' with
  | E_builtin p, E_builtin p' => p = p'
  | E_rule h r, E_rule h' r' => r = r' /\ same_mod h h' (pr_args r) (n_expr (pr_node r))
  | _, _ => False
  end.
Lemma same_entity_refl : forall x, same_entity x x.
Proof. intros [p|h r]; cbn; [reflexivity|]. split; [reflexivity|left; reflexivity]. Qed.
Lemma own_same : forall x path e, P x -> own_name unicode g (x :: path) e -> exists e', own_name unicode g' (x :: path) e' /\ same_entity e e'.
Proof.
  intros x path e Px H. destruct Agree as (Ru & _ & Im). inversion H; subst.
  - exists (E_rule g' r). split; [apply O_rule; [apply Ru; assumption|assumption]|]. split; [reflexivity|]. right.
    split; [reflexivity|]. split; [reflexivity|]. apply Closed; assumption.
  - exists (E_builtin (p ++ path)). split; [|reflexivity]. apply O_builtin; [|assumption]. apply Im; assumption.
  - exists e. split; [|apply same_entity_refl]. eapply O_file; [|eassumption]. apply Im; assumption.
Qed.
Lemma names_same : forall m m' (rho : list (text * closure)) path args e, same_mod m m' (map fst rho) (PPath path args) -> (forall x c, path = [x] -> ~ assoc x rho c) ->
  names unicode m path e -> exists e', names unicode m' path e' /\ same_entity e e'.
Proof.
  intros m m' rho path args e [->|(-> & -> & R & _)] N H; [exists e; split; [exact H|apply same_entity_refl]|].
  inversion H as [p B|p x O Q]; subst; [exists (E_builtin p); split; [constructor; exact B|reflexivity]|].
  destruct path as [|y path]; [inversion O|]. assert (Py : P y).
  { destruct (R y path args (Part_self _)) as [Py|(-> & I)]; [exact Py|]. destruct (assoc_in _ _ _ I) as (c & A). destruct (N y c eq_refl A). }
  destruct (own_same y path e Py O) as (e' & O' & S). exists e'. split; [apply N_own; assumption|exact S].
Qed.
Lemma names_builtin : forall m m' (rho : list (text * closure)) path args q, same_mod m m' (map fst rho) (PPath path args) -> (forall x c, path = [x] -> ~ assoc x rho c) ->
  names unicode m path (E_builtin q) -> names unicode m' path (E_builtin q).
Proof. intros m m' rho path args q M N H. destruct (names_same _ _ _ _ _ _ M N H) as ([q'|h r] & H' & S); [|destruct S]. cbn in S. subst. exact H'. Qed.

Lemma same_trivia : forall m m' ps e t, same_mod m m' ps e -> asks e t -> same_item m m' ps (It_trivia t).
Proof. intros m m' ps e t [E|(E & E' & _ & R)] A; [left; exact E|]. right. split; [exact E|]. split; [exact E'|]. intros name N. eapply R; eassumption. Qed.
Lemma trivia_same : forall m m' ps t name r, same_item m m' ps (It_trivia t) -> trivia_name t = Some name -> last_rule m name r ->
  last_rule m' name r /\ same_mod m m' [] (n_expr (pr_node r)).
Proof.
  intros m m' ps t name r [->|(-> & -> & H)] N L; [split; [exact L|left; reflexivity]|]. specialize (H _ N). destruct Agree as (_ & Tr & _).
  split; [apply (Tr t); assumption|]. right. split; [reflexivity|]. split; [reflexivity|]. destruct L as (a & b & E & <- & _).
  assert (I : In r (g_rules g)) by (rewrite E; apply in_or_app; right; left; reflexivity).
  assert (C := Closed r I H). rewrite (Plain r I H) in C; [exact C|]. destruct t; cbn in N; [discriminate| |]; injection N as N; [left|right]; symmetry; exact N.
Qed.
Lemma none_trivia : forall m m' ps e, same_mod m m' ps e -> same_item m m' ps (It_trivia TriviaNone).
Proof. intros m m' ps e [E|(E & E' & _)]; [left; exact E|]. right. split; [exact E|]. split; [exact E'|]. intros name N. discriminate N. Qed.
Lemma rep_operand : forall e n min max, repetition e n min max -> operand_of (n_expr n) e.
Proof. intros e n min max [(-> & _)|[(-> & _)|(range & -> & _)]]; constructor. Qed.
Lemma rep_trivia : forall m m' ps e t, same_mod m m' ps e -> round_trivia e t -> same_item m m' ps (It_trivia t).
Proof.
  intros m m' ps e t M [(n & ->)|(_ & ->)]; [|eapply none_trivia, M]. eapply same_trivia; [exact M|]. right. exists n. apply Part_self.
Qed.

Theorem same_meaning :
  (forall m rho e pre post K r, gpeg unicode property m rho e pre post K r ->
     forall m' rho', same_mod m m' (map fst rho) e -> same_env rho rho' -> gpeg unicode property m' rho' e pre post K r) /\
  (forall m rho l pre post K r, gpeg_items unicode property m rho l pre post K r ->
     forall m' rho', Forall (same_item m m' (map fst rho)) l -> same_env rho rho' -> gpeg_items unicode property m' rho' l pre post K r) /\
  (forall m rho e t min max i pre post K r, gpeg_rounds unicode property m rho e t min max i pre post K r ->
     forall m' rho', same_mod m m' (map fst rho) e -> same_item m m' (map fst rho) (It_trivia t) -> same_env rho rho' ->
       gpeg_rounds unicode property m' rho' e t min max i pre post K r) /\
  (forall m rho e t i pre post K r, gpeg_round unicode property m rho e t i pre post K r ->
     forall m' rho', same_mod m m' (map fst rho) e -> same_item m m' (map fst rho) (It_trivia t) -> same_env rho rho' ->
       gpeg_round unicode property m' rho' e t i pre post K r).
Proof.
  apply (gpeg_mutind unicode property
    (fun m rho e pre post K r _ => forall m' rho', same_mod m m' (map fst rho) e -> same_env rho rho' -> gpeg unicode property m' rho' e pre post K r)
    (fun m rho l pre post K r _ => forall m' rho', Forall (same_item m m' (map fst rho)) l -> same_env rho rho' -> gpeg_items unicode property m' rho' l pre post K r)
    (fun m rho e t min max i pre post K r _ => forall m' rho', same_mod m m' (map fst rho) e -> same_item m m' (map fst rho) (It_trivia t) -> same_env rho rho' ->
       gpeg_rounds unicode property m' rho' e t min max i pre post K r)
    (fun m rho e t i pre post K r _ => forall m' rho', same_mod m m' (map fst rho) e -> same_item m m' (map fst rho) (It_trivia t) -> same_env rho rho' ->
       gpeg_round unicode property m' rho' e t i pre post K r)).
  all: intros; try (now (econstructor; eauto using same_operand, operand_of, Forall)).
  - (* parameter *) destruct (env_assoc _ _ H1 _ _ a) as (c' & A & Sc). inversion Sc; subst. eapply G_param; [exact A|]. apply H; assumption.
  - (* rule *) rename H into IH, H0 into M, H1 into E. destruct (names_same _ _ _ _ _ _ M n n0) as ([q|h r2] & N' & S); [destruct S|]. destruct S as (<- & S).
    eapply G_rule; [eapply env_none; eassumption|exact N'|eassumption|assumption|].
    assert (L : length (map (fun n => Clo g0 rho (n_expr n)) l) = length (pr_args r')) by (rewrite map_length; assumption).
    apply IH; [rewrite combine_names by exact L; exact S|]. apply env_call; [exact E|]. intros k I.
    match goal with X : call_arguments args l |- _ => destruct X as [->|(-> & ->)]; [|destruct I] end. eapply same_operand; [exact M|]. apply Op_arg, I.
  - (* built-in *) eapply G_builtin; [eapply env_none; eassumption|eapply names_builtin; eassumption|eassumption|assumption].
  - (* slice *) eapply G_slice; [eapply env_none; eassumption|eapply names_builtin; eassumption|eassumption|eassumption|assumption].
  - (* push *) eapply G_push_ok; [eapply env_none; eassumption|eapply names_builtin; eassumption|]. apply H; [|assumption]. eapply same_operand; [eassumption|]. apply Op_arg. left. reflexivity.
  - eapply G_push_fail; [eapply env_none; eassumption|eapply names_builtin; eassumption|]. apply H; [|assumption]. eapply same_operand; [eassumption|]. apply Op_arg. left. reflexivity.
  - (* sequence *) apply G_seq. apply H; [|assumption]. apply Forall_cons; [|apply Forall_cons; [|apply Forall_cons; [|apply Forall_nil]]].
    + eapply same_operand; [eassumption|constructor].
    + eapply same_trivia; [eassumption|]. left. exists l, r. apply Part_self.
    + eapply same_operand; [eassumption|constructor].
  - (* repetition *) assert (M : same_mod g0 m' (map fst rho) (n_expr n)) by (eapply same_operand; [eassumption|eapply rep_operand; eassumption]).
    eapply G_repeat; [eassumption|eassumption|]. apply H; [exact M|eapply rep_trivia; eassumption|assumption].
  - inversion H1; subst. eapply GI_expr; [apply H|apply H0]; assumption.
  - inversion H0; subst. apply GI_expr_fail. apply H; assumption.
  - inversion H0; subst. apply GI_none. apply H; assumption.
  - inversion H1; subst. match goal with X : same_item _ _ _ (It_trivia _), Y : trivia_name _ = _, Z : last_rule _ _ _ |- _ => destruct (trivia_same _ _ _ _ _ _ X Y Z) as (L & M) end.
    eapply GI_trivia; [eassumption|exact L|apply H; [exact M|constructor]|apply H0; assumption].
  - inversion H0; subst. match goal with X : same_item _ _ _ (It_trivia _), Y : trivia_name _ = _, Z : last_rule _ _ _ |- _ => destruct (trivia_same _ _ _ _ _ _ X Y Z) as (L & M) end.
    eapply GI_trivia_fail; [eassumption|exact L|apply H; [exact M|constructor]].
Qed.
End Local.
