(** The parsers of a grammar that does not name [pest::soi] do not ask where the input starts. *)
From Coq Require Import String List NArith ZArith Arith Bool Lia Relations.
From Verif Require Import Model_Text Model_Message Model_Meta Model_Import Model_Tracker Model_Node Model_Generator Model_Output
  Spec_Text Spec_Peg Spec_Grammar_Peg Spec_Occur Spec_Generator Spec_Rust Spec_Run Spec_Terminate Spec_Moved
  Proof_Text Proof_Names Proof_Compile Proof_Leaf Proof_Box Proof_Quiet.
Import ListNotations.
Open Scope list_scope.

Section Unplaced.
Variable unicode : list text.
Variable env : rule -> rule_def.
Variable id : list text -> text -> rule.
Variable place : list text -> gmodule -> Prop.
Definition unplaced_kind (g : gmodule) (_ : list (text * closure)) (e : parse_expr) (n : node) : Prop :=
  leaf n /\ (unplaced n = true \/ exists p args, e = PPath p args /\ names unicode g p (E_builtin [lit "soi"])).
Notation compiles := (compiles unicode id place unplaced_kind).
Notation core := (core unicode id place unplaced_kind).
Notation all_compile := (all_compile unicode id place unplaced_kind).
Notation triv := (triv unicode id place unplaced_kind).
Notation in_turn := (in_turn unicode id place unplaced_kind).
Notation one_of := (one_of unicode id place unplaced_kind).
Notation arguments := (arguments unicode id place unplaced_kind).
Hypothesis bodies : forall mp g r cs ns, place mp g -> In r (g_rules g) -> ~ is_trivia_rule r ->
  length cs = length (pr_args r) -> arguments cs ns ->
  compiles g (combine (pr_args r) cs) (n_expr (pr_node r)) (rd_body (env (id mp (pr_name r))) ns).
Hypothesis Free : forall mp g r, place mp g -> In r (g_rules g) -> soi_none unicode g (n_expr (pr_node r)).

Lemma free_operand : forall g e' e, soi_none unicode g e -> operand_of e' e -> soi_none unicode g e'.
Proof. intros g e' e H O path args P. apply (H path args). eapply Part_in; eassumption. Qed.
Inductive free_closure : closure -> Prop :=
| FC mp g rho e : place mp g -> soi_none unicode g e -> (forall x c, In (x, c) rho -> free_closure c) -> free_closure (Clo g rho e).

Definition made2 (n : node) : Prop :=
  (exists g rho e, compiles g rho e n /\ free_closure (Clo g rho e)) \/ (leaf n /\ unplaced n = true).
Definition good2 (n : node) : Prop := n <> Soi /\ forall c, Spec_Terminate.part env n c -> made2 c.

Lemma leaf_good2 : forall n, leaf n -> unplaced n = true -> good2 n.
Proof.
  intros n L U. destruct L as [n F|l F].
  - destruct n; try discriminate F; (split; [discriminate|]); intros d C; inversion C.
  - split; [discriminate|]. intros c C. inversion C as [| | | | |? ? J| | |]; subst. right. rewrite Forall_forall in F. split; [apply F, J|].
    cbn [unplaced] in U. rewrite forallb_forall in U. apply U, J.
Qed.
Definition item_free (g : gmodule) (rho : list (text * closure)) (i : item) : Prop :=
  match i with It_expr e => free_closure (Clo g rho e) | It_trivia _ => exists mp, place mp g end.

Lemma compiled_good2 :
  (forall g rho e n, compiles g rho e n -> free_closure (Clo g rho e) -> good2 n) /\
  (forall g rho e n, core g rho e n -> free_closure (Clo g rho e) -> good2 n) /\
  (forall g rho l ns, all_compile g rho l ns -> True) /\
  (forall g t n, triv g t n -> (exists mp, place mp g) -> made2 n) /\
  (forall g rho l ns, in_turn g rho l ns -> Forall (item_free g rho) l -> Forall made2 ns) /\
  (forall g rho e ns, one_of g rho e ns -> free_closure (Clo g rho e) -> Forall made2 ns).
Proof.
  assert (Sub : forall g rho e e', free_closure (Clo g rho e) -> operand_of e' e -> free_closure (Clo g rho e')).
  { intros g rho e e' Q O. inversion Q; subst. econstructor; [eassumption|eapply free_operand; eassumption|assumption]. }
  assert (Pl : forall g rho e, free_closure (Clo g rho e) -> exists mp, place mp g) by (intros g rho e Q; inversion Q; subst; eauto).
  assert (Three : forall g rho l r t, free_closure (Clo g rho (PSeq l r t)) ->
    Forall (item_free g rho) [It_expr (n_expr l); It_trivia t; It_expr (n_expr r)]).
  { intros g rho l r t Q. constructor; [eapply Sub; [exact Q|constructor]|]. constructor; [eapply Pl, Q|].
    constructor; [eapply Sub; [exact Q|constructor]|constructor]. }
  apply compiles_mutind.
  - intros g rho e n (L & U) Q. apply leaf_good2; [exact L|]. destruct U as [U|(p & args & -> & N)]; [exact U|].
    inversion Q as [? ? ? ? _ B]; subst. destruct (B p args); [constructor|exact N].
  - intros g rho x args g' rho' e n A C IH Q. apply IH. inversion Q as [? ? ? ? _ _ B]; subst. eapply B, assoc_in, A.
  - intros g rho a t n C IH Q. apply IH. eapply Sub; [exact Q|constructor].
  - intros g rho e n C IH Q. exact (IH Q).
  - intros g rho path args l g' r' mp ns Np On Ca Ln P Ir Nt Al _ Q. split; [discriminate|]. intros c C. inversion C; subst. left.
    set (cs := map (fun a => Clo g rho (n_expr a)) l).
    exists g', (combine (pr_args r') cs), (n_expr (pr_node r')). split.
    + apply bodies; try assumption; [unfold cs; rewrite map_length; exact Ln|]. eapply all_compile_arguments, Al.
    + econstructor; [exact P|eapply Free; eassumption|]. intros x c J. apply in_combine_r in J. unfold cs in J. apply in_map_iff in J.
      destruct J as (a & <- & J). eapply Sub; [exact Q|]. destruct Ca as [->|(_ & ->)]; [constructor; exact J|destruct J].
  - intros g rho path a n Np On C IH Q. split; [discriminate|]. intros c H. inversion H; subst. left. exists g, rho, (n_expr a).
    split; [exact C|]. eapply Sub; [exact Q|]. constructor. left. reflexivity.
  - intros g rho a n C IH Q. split; [discriminate|]. intros c H. inversion H; subst. left. exists g, rho, (n_expr a).
    split; [exact C|]. eapply Sub; [exact Q|constructor].
  - intros g rho a n C IH Q. split; [discriminate|]. intros c H. inversion H; subst. left. exists g, rho, (n_expr a).
    split; [exact C|]. eapply Sub; [exact Q|constructor].
  - intros g rho a n C IH Q. split; [discriminate|]. intros c H. inversion H; subst. left. exists g, rho, (n_expr a).
    split; [exact C|]. eapply Sub; [exact Q|constructor].
  - intros g rho l r t fields T IH Q. split; [discriminate|]. intros c H. inversion H as [| | | |? ? J| | | |]; subst.
    assert (F := IH (Three _ _ _ _ _ Q)). rewrite Forall_forall in F. apply F, J.
  - intros g rho l r n ns C _ O IH Q. split; [discriminate|]. intros c H. inversion H as [| | | | |? ? J| | |]; subst. destruct J as [<-|J].
    + left. exists g, rho, (n_expr l). split; [exact C|]. eapply Sub; [exact Q|constructor].
    + assert (F := IH (Sub _ _ _ _ Q (Op_choice_r _ _))). rewrite Forall_forall in F. apply F, J.
  - intros g rho e a min max t n tr R Rt C _ T IH Q.
    assert (O : operand_of (n_expr a) e) by (destruct R as [(-> & _)|[(-> & _)|(range & -> & _)]]; constructor).
    split; [discriminate|]. intros c H. inversion H; subst; [|apply IH; eapply Pl, Q].
    left. exists g, rho, (n_expr a). split; [exact C|exact (Sub _ _ _ _ Q O)].
  - intros. exact I.
  - intros. exact I.
  - intros g _. right. split; [apply Leaf_flat; reflexivity|reflexivity].
  - intros g t name r n N L C _ (mp & P). left. exists g, [], (n_expr (pr_node r)). split; [exact C|].
    econstructor; [exact P| |intros x c []]. eapply Free; [exact P|]. destruct L as (a & b & E & _). rewrite E. apply in_elt.
  - intros. constructor.
  - intros g rho e l n ns C _ T IH H. inversion H; subst. constructor; [|apply IH; assumption]. left. exists g, rho, e. split; assumption.
  - intros g rho t l n ns T IHt In_ IH H. inversion H; subst. constructor; [apply IHt; assumption|apply IH; assumption].
  - intros g rho l r t ns T IH H. apply IH. inversion H as [|? ? Q _]; subst. apply Three, Q.
  - intros g rho e n C _ Q. constructor; [|constructor]. left. exists g, rho, e. split; assumption.
  - intros g rho l r n ns C _ O IH Q. constructor.
    + left. exists g, rho, (n_expr l). split; [exact C|]. eapply Sub; [exact Q|constructor].
    + apply IH. eapply Sub; [exact Q|constructor].
Qed.

Lemma made_good2 : forall n, made2 n -> good2 n.
Proof. intros n [(g & rho & e & C & Q)|(L & U)]; [exact (proj1 compiled_good2 _ _ _ _ C Q)|apply leaf_good2; assumption]. Qed.
Lemma made_reaches : forall n x, Spec_Terminate.reaches env n x -> made2 n -> made2 x.
Proof.
  intros n x R. induction R as [a b P|a|a b c _ IH1 _ IH2]; intro M; [|exact M|exact (IH2 (IH1 M))].
  exact (proj2 (made_good2 _ M) _ P).
Qed.
Lemma rule_unplaced : forall mp g r, place mp g -> In r (g_rules g) -> ~ is_trivia_rule r -> pr_args r = [] ->
  ~ Spec_Terminate.reaches env (Rule (id mp (pr_name r)) []) Soi.
Proof.
  intros mp g r Pl Ir Nt Na W. apply clos_rt_rt1n in W. inversion W as [|x y P W']; subst. inversion P; subst. apply clos_rt1n_rt in W'.
  refine (proj1 (made_good2 _ (made_reaches _ _ W' _)) eq_refl). left. exists g, [], (n_expr (pr_node r)). split.
  - assert (B := bodies mp g r [] [] Pl Ir Nt). rewrite Na in B. apply B; [reflexivity|constructor].
  - econstructor; [exact Pl|eapply Free; eassumption|]. intros y c [].
Qed.
End Unplaced.
