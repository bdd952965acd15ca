(** The parsers of a grammar that asks for no trivia keep all of the text in their trees. *)
From Coq Require Import String List NArith ZArith Arith Bool Lia.
From Verif Require Import Model_Text Model_Message Model_Meta Model_Import Model_Tracker Model_Node Model_Generator Model_Output
  Spec_Text Spec_Peg Spec_Grammar_Peg Spec_Occur Spec_Generator Spec_Rust Spec_Run Spec_Lossless
  Proof_Text Proof_Names Proof_Compile Proof_Leaf Proof_Box.
Import ListNotations.
Open Scope list_scope.

Scheme compiles_mut := Induction for compiles Sort Prop
with core_mut := Induction for core Sort Prop
with all_compile_mut := Induction for all_compile Sort Prop
with triv_mut := Induction for triv Sort Prop
with in_turn_mut := Induction for in_turn Sort Prop
with one_of_mut := Induction for one_of Sort Prop.
Combined Scheme compiles_mutind from compiles_mut, core_mut, all_compile_mut, triv_mut, in_turn_mut, one_of_mut.

Section Quiet.
Variable slices : Prop.
(** No trivia, and no slices unless they are allowed. *)
Definition quiet (e : parse_expr) : Prop := asks_none e /\ (slices \/ slices_none e).
Lemma quiet_operand : forall e' e, quiet e -> operand_of e' e -> quiet e'.
Proof.
  intros e' e (A & B) O. split.
  - intros t [(l & r & P)|(n & P)]; apply A; [left; exists l, r|right; exists n]; eapply Part_in; eassumption.
  - destruct B as [B|B]; [left; exact B|right]. intros path range P. apply (B path range). eapply Part_in; eassumption.
Qed.

(** Expressions with the arguments in scope, all of them quiet. *)
Inductive quiet_closure : closure -> Prop :=
| QC g rho e : quiet e -> (forall x c, In (x, c) rho -> quiet_closure c) -> quiet_closure (Clo g rho e).
Lemma assoc_in : forall (A : Type) k (l : list (text * A)) v, assoc k l v -> In (k, v) l.
Proof. intros A k l v H. induction H; [left; reflexivity|right; assumption]. Qed.

Variable unicode : list text.
Variable env : rule -> rule_def.
Variable id : list text -> text -> rule.
Variable place : list text -> gmodule -> Prop.
Definition leaf_kind (_ : gmodule) (_ : list (text * closure)) (e : parse_expr) (n : node) : Prop :=
  leaf n /\ (unsliced n = true \/ exists p range, e = PPath p (Some (PSlice range))).
Notation compiles := (compiles unicode id place leaf_kind).
Notation core := (core unicode id place leaf_kind).
Notation all_compile := (all_compile unicode id place leaf_kind).
Notation triv := (triv unicode id place leaf_kind).
Notation in_turn := (in_turn unicode id place leaf_kind).
Notation one_of := (one_of unicode id place leaf_kind).
Notation arguments := (arguments unicode id place leaf_kind).
Hypothesis bodies : forall mp g r cs ns, place mp g -> In r (g_rules g) -> ~ is_trivia_rule r ->
  length cs = length (pr_args r) -> arguments cs ns ->
  compiles g (combine (pr_args r) cs) (n_expr (pr_node r)) (rd_body (env (id mp (pr_name r))) ns).
Hypothesis Quiet : forall mp g r, place mp g -> In r (g_rules g) -> ~ is_trivia_rule r -> quiet (n_expr (pr_node r)).

(** A node made from a quiet expression, and a leaf that matches no slice. *)
Definition made (n : node) : Prop :=
  (exists g rho e, compiles g rho e n /\ quiet_closure (Clo g rho e)) \/ (leaf n /\ (slices \/ unsliced n = true)).
(** What [keeps_all] or [no_gaps] asks of the node itself. *)
Definition local (n : node) : Prop :=
  match n with
  | PeekSlice1 _ | PeekSlice2 _ _ => slices
  | Seq fields => Forall (fun f => snd f = Empty) (tl fields)
  | RepMinMax _ trivia _ _ => trivia = Empty
  | _ => True
  end.
(** The nodes whose trees are in a tree of [n]. *)
Inductive child : node -> node -> Prop :=
| Ch_push t : child t (Push t)
| Ch_opt t : child t (Opt t)
| Ch_choice ts t : In t ts -> child t (Choice ts)
| Ch_seq fields t trivia : In (t, trivia) fields -> child t (Seq fields)
| Ch_rep t trivia min max : child t (RepMinMax t trivia min max)
| Ch_rule r args : child (rd_body (env r) args) (Rule r args).
Definition good (n : node) : Prop := local n /\ forall c, child c n -> made c.

Lemma leaf_good : forall n, leaf n -> slices \/ unsliced n = true -> good n.
Proof.
  intros n L U. destruct L as [n F|l F].
  - destruct n; try discriminate F; (split; [exact I || (destruct U as [U|U]; [exact U|discriminate U])|]); intros d C; inversion C.
  - split; [exact I|]. intros c C. inversion C as [| |? ? J| | |]; subst. right. rewrite Forall_forall in F. split; [apply F, J|].
    destruct U as [U|U]; [left; exact U|right]. cbn [unsliced] in U. rewrite forallb_forall in U. apply U, J.
Qed.

(** Expressions and no trivia in turn; nodes and [Empty] in turn. *)
Inductive turns (P : parse_expr -> Prop) : bool -> list item -> Prop :=
| Tu_nil b : turns P b []
| Tu_expr e l : P e -> turns P false l -> turns P true (It_expr e :: l)
| Tu_none l : turns P true l -> turns P false (It_trivia TriviaNone :: l).
Inductive node_turns : bool -> list node -> Prop :=
| Nt_nil b : node_turns b []
| Nt_node n l : made n -> node_turns false l -> node_turns true (n :: l)
| Nt_empty l : node_turns true l -> node_turns false (Empty :: l).

Lemma fields_turns : forall fields, node_turns false (flat_map (fun f => [snd f; fst f]) fields) ->
  Forall (fun f => made (fst f) /\ snd f = Empty) fields.
Proof.
  induction fields as [|(t, tr) fields IH]; intro H; [constructor|]. cbn [flat_map app fst snd] in H.
  inversion H as [| |? H1]; subst. inversion H1; subst. constructor; [split; [assumption|reflexivity]|apply IH; assumption].
Qed.
Lemma seq_good : forall fields, node_turns true (sequence_items fields) -> good (Seq fields).
Proof.
  intros [|(t, tr) fields] H; cbn [sequence_items] in H.
  - split; [constructor|]. intros c C. inversion C as [| | |? ? ? J| |]; subst. destruct J.
  - inversion H as [|? ? M H1|]; subst. apply fields_turns in H1. split.
    + cbn [local tl]. eapply Forall_impl; [|exact H1]. intros f (_ & E). exact E.
    + intros c C. inversion C as [| | |? ? ? J| |]; subst. destruct J as [J|J]; [injection J as <- _; exact M|].
      rewrite Forall_forall in H1. exact (proj1 (H1 _ J)).
Qed.

Lemma compiled_good :
  (forall g rho e n, compiles g rho e n -> quiet_closure (Clo g rho e) -> good n) /\
  (forall g rho e n, core g rho e n -> quiet_closure (Clo g rho e) -> good n) /\
  (forall g rho l ns, all_compile g rho l ns ->
     (forall a, In a l -> quiet_closure (Clo g rho (n_expr a))) -> Forall made ns) /\
  (forall g t n, triv g t n -> t = TriviaNone -> n = Empty) /\
  (forall g rho l ns, in_turn g rho l ns -> forall b, turns (fun e => quiet_closure (Clo g rho e)) b l -> node_turns b ns) /\
  (forall g rho e ns, one_of g rho e ns -> quiet_closure (Clo g rho e) -> Forall made ns).
Proof.
  assert (Sub : forall g rho e e', quiet_closure (Clo g rho e) -> operand_of e' e -> quiet_closure (Clo g rho e')).
  { intros g rho e e' Q O. inversion Q; subst. constructor; [eapply quiet_operand; eassumption|assumption]. }
  assert (Asks : forall g rho l r t, quiet_closure (Clo g rho (PSeq l r t)) -> t = TriviaNone).
  { intros g rho l r t Q. inversion Q as [? ? ? (A & _)]; subst. apply A. left. exists l, r. constructor. }
  apply compiles_mutind.
  - intros g rho e n (L & U) Q. apply leaf_good; [exact L|]. destruct U as [U|(p & range & ->)]; [right; exact U|].
    inversion Q as [? ? ? (_ & [B|B])]; subst; [left; exact B|]. destruct (B p range). constructor.
  - intros g rho x args g' rho' e n A C IH Q. apply IH. inversion Q as [? ? ? _ B]; subst. eapply B, assoc_in, A.
  - intros g rho a t n C IH Q. apply IH. eapply Sub; [exact Q|constructor].
  - intros g rho e n C IH Q. exact (IH Q).
  - intros g rho path args l g' r' mp ns Np On Ca Ln Pl Ir Nt Al IH Q. split; [exact I|]. intros c C. inversion C; subst. left.
    set (cs := map (fun a => Clo g rho (n_expr a)) l).
    exists g', (combine (pr_args r') cs), (n_expr (pr_node r')). split.
    + apply bodies; try assumption; [unfold cs; rewrite map_length; exact Ln|]. eapply all_compile_arguments, Al.
    + constructor; [eapply Quiet; eassumption|]. intros x c J. apply in_combine_r in J. unfold cs in J. apply in_map_iff in J.
      destruct J as (a & <- & J). eapply Sub; [exact Q|]. destruct Ca as [->|(_ & ->)]; [constructor; exact J|destruct J].
  - intros g rho path a n Np On C IH Q. split; [exact I|]. intros c H. inversion H; subst. left. exists g, rho, (n_expr a).
    split; [exact C|]. eapply Sub; [exact Q|]. constructor. left. reflexivity.
  - intros g rho a n C IH Q. split; [exact I|]. intros c H. inversion H.
  - intros g rho a n C IH Q. split; [exact I|]. intros c H. inversion H.
  - intros g rho a n C IH Q. split; [exact I|]. intros c H. inversion H; subst. left. exists g, rho, (n_expr a).
    split; [exact C|]. eapply Sub; [exact Q|constructor].
  - intros g rho l r t fields T IH Q. apply seq_good. apply IH. rewrite (Asks _ _ _ _ _ Q). constructor; [eapply Sub; [exact Q|constructor]|].
    constructor. constructor; [eapply Sub; [exact Q|constructor]|constructor].
  - intros g rho l r n ns C _ O IH Q. split; [exact I|]. intros c H. inversion H as [| |? ? J| | |]; subst. destruct J as [<-|J].
    + left. exists g, rho, (n_expr l). split; [exact C|]. eapply Sub; [exact Q|constructor].
    + assert (F := IH (Sub _ _ _ _ Q (Op_choice_r _ _))). rewrite Forall_forall in F. apply F, J.
  - intros g rho e a min max t n tr R Rt C _ T IH Q.
    assert (O : operand_of (n_expr a) e) by (destruct R as [(-> & _)|[(-> & _)|(range & -> & _)]]; constructor).
    split.
    + cbn [local]. apply IH. destruct Rt as [(b & E)|(_ & ->)]; [|reflexivity].
      assert (Qa := Sub _ _ _ _ Q O). inversion Qa as [? ? ? (A & _)]; subst. apply A. right. exists b. rewrite E. constructor.
    + intros c H. inversion H; subst. left. exists g, rho, (n_expr a). split; [exact C|exact (Sub _ _ _ _ Q O)].
  - intros. constructor.
  - intros g rho a l n ns C _ A IH Q. constructor.
    + left. exists g, rho, (n_expr a). split; [exact C|apply Q; left; reflexivity].
    + apply IH. intros b J. apply Q. right. exact J.
  - reflexivity.
  - intros g t name r n N L C _ E. subst t. discriminate N.
  - intros g rho b _. constructor.
  - intros g rho e l n ns C _ T IH b H. inversion H; subst. constructor; [|apply IH; assumption]. left. exists g, rho, e. split; assumption.
  - intros g rho t l n ns T IHt In_ IH b H. inversion H; subst. rewrite (IHt eq_refl). constructor. apply IH. assumption.
  - intros g rho l r t ns T IH b H. inversion H as [|? ? Q _|]; subst. apply IH. rewrite (Asks _ _ _ _ _ Q). constructor; [eapply Sub; [exact Q|constructor]|].
    constructor. constructor; [eapply Sub; [exact Q|constructor]|constructor].
  - intros g rho e n C _ Q. constructor; [|constructor]. left. exists g, rho, e. split; assumption.
  - intros g rho l r n ns C _ O IH Q. constructor.
    + left. exists g, rho, (n_expr l). split; [exact C|]. eapply Sub; [exact Q|constructor].
    + apply IH. eapply Sub; [exact Q|constructor].
Qed.

Lemma made_good : forall n, made n -> good n.
Proof. intros n [(g & rho & e & C & Q)|(L & U)]; [exact (proj1 compiled_good _ _ _ _ C Q)|apply leaf_good; assumption]. Qed.
Lemma made_within : forall n x, Spec_Lossless.within env x n -> made n -> local x.
Proof.
  intros n x W. induction W as [|t W IH|t W IH|ts t J W IH|fields t trivia J W IH|t trivia min max W IH|r args W IH]; intro M.
  - exact (proj1 (made_good _ M)).
  - apply IH, (proj2 (made_good _ M)). constructor.
  - apply IH, (proj2 (made_good _ M)). constructor.
  - apply IH, (proj2 (made_good _ M)). constructor. exact J.
  - apply IH, (proj2 (made_good _ M)). econstructor. exact J.
  - apply IH, (proj2 (made_good _ M)). constructor.
  - apply IH, (proj2 (made_good _ M)). constructor.
Qed.
Lemma rule_within : forall mp g r, place mp g -> In r (g_rules g) -> ~ is_trivia_rule r -> pr_args r = [] ->
  forall x, Spec_Lossless.within env x (Rule (id mp (pr_name r)) []) -> local x.
Proof.
  intros mp g r Pl Ir Nt Na x W. inversion W as [| | | | | |? ? W']; subst; [exact I|].
  refine (made_within _ x W' _). left. exists g, [], (n_expr (pr_node r)). split.
  - assert (B := bodies mp g r [] [] Pl Ir Nt). rewrite Na in B. apply B; [reflexivity|constructor].
  - constructor; [eapply Quiet; eassumption|]. intros y c [].
Qed.
End Quiet.
