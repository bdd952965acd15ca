(** A relation between grammar expressions and nodes that implies that they mean the same. *)
From Coq Require Import String List NArith ZArith Arith Bool Lia.
From Verif Require Import Model_Text Model_Message Model_Meta Model_Import Model_Tracker Model_Node
  Spec_Text Spec_Peg Spec_Grammar_Peg.
Import ListNotations.
Open Scope list_scope.

Lemma assoc_unique : forall {A : Type} k (l : list (text * A)) v, assoc k l v -> forall v', assoc k l v' -> v = v'.
Proof.
  intros A k l v H. induction H as [v l|k' v' l v N H IH]; intros w W; inversion W; subst; try congruence. apply IH. assumption.
Qed.
Lemma last_rule_unique : forall g name r r', last_rule g name r -> last_rule g name r' -> r = r'.
Proof.
  intros g name r r' (a & b & E & N & L) (a' & b' & E' & N' & L'). rewrite E in E'. clear E. revert a' E'.
  induction a as [|x a IH]; intros [|x' a'] E'; cbn [app] in E'; injection E'; intros; subst; try reflexivity.
  - exfalso. eapply (L r'); [|exact N']. apply in_elt.
  - exfalso. eapply (L' r); [|reflexivity]. apply in_elt.
  - eapply IH. eassumption.
Qed.
Lemma repetition_unique : forall e n min max n' min' max', repetition e n min max -> repetition e n' min' max' ->
  n = n' /\ min = min' /\ max = max'.
Proof.
  intros e n min max n' min' max' [(-> & -> & ->)|[(-> & -> & ->)|(range & -> & A & B)]] [(E & -> & ->)|[(E & -> & ->)|(range' & E & A' & B')]];
    try discriminate E; injection E; intros; subst; try (split; [reflexivity|split; reflexivity]).
  split; [reflexivity|]. split.
  - destruct A as [A|(A & ->)], A' as [A'|(A' & ->)]; congruence.
  - destruct B as [B|(B & ->)], B' as [B'|(B' & ->)]; congruence.
Qed.
Lemma round_trivia_unique : forall e t t', round_trivia e t -> round_trivia e t' -> t = t'.
Proof.
  intros e t t' [(n & ->)|(N & ->)] [(n' & E)|(N' & ->)].
  - congruence.
  - exfalso. eapply N'. reflexivity.
  - exfalso. eapply N. exact E.
  - reflexivity.
Qed.

Section Compile.
Variable unicode : list text.
Variable property : N -> char -> bool.
Variable env : rule -> rule_def.
(** The number of the rule of a module that stands at a place. *)
Variable id : list text -> text -> rule.
Variable place : list text -> gmodule -> Prop.
Variable leaf_ok : gmodule -> list (text * closure) -> parse_expr -> node -> Prop.
Notation gpeg := (gpeg unicode property).
Notation gpeg_items := (gpeg_items unicode property).
Notation gpeg_rounds := (gpeg_rounds unicode property).
Notation gpeg_round := (gpeg_round unicode property).
Notation peg := (peg env property).
Notation peg_items := (peg_items env property).
Notation peg_choice := (peg_choice env property).
Notation peg_rep := (peg_rep env property).

Definition not_param (rho : list (text * closure)) (path : list text) : Prop := forall x c, path = [x] -> ~ assoc x rho c.
Definition only_names (g : gmodule) (path : list text) (x : entity) : Prop :=
  names unicode g path x /\ forall y, names unicode g path y -> y = x.
(** Texts, ranges and built-in rules other than [push]. *)
Definition leaf_expr (g : gmodule) (rho : list (text * closure)) (e : parse_expr) : Prop :=
  match e with
  | PStr _ | PInsens _ | PRange _ _ => True
  | PPath path _ => not_param rho path /\ exists q, names unicode g path (E_builtin q) /\ q <> [lit "stack"; lit "push"]
  | _ => False
  end.

Inductive compiles : gmodule -> list (text * closure) -> parse_expr -> node -> Prop :=
| K_leaf g rho e n : leaf_ok g rho e n -> compiles g rho e n
| K_param g rho x args g' rho' e n : assoc x rho (Clo g' rho' e) -> compiles g' rho' e n -> compiles g rho (PPath [x] args) n
| K_separated g rho a t n : compiles g rho (n_expr a) n -> compiles g rho (PSeparated a t) n
| K_core g rho e n : core g rho e n -> compiles g rho e n
with core : gmodule -> list (text * closure) -> parse_expr -> node -> Prop :=
| K_rule g rho path args l g' r' mp ns :
    not_param rho path -> only_names g path (E_rule g' r') -> call_arguments args l -> length l = length (pr_args r') ->
    place mp g' -> In r' (g_rules g') -> ~ is_trivia_rule r' -> all_compile g rho l ns ->
    core g rho (PPath path args) (Rule (id mp (pr_name r')) ns)
| K_push g rho path a n :
    not_param rho path -> only_names g path (E_builtin [lit "stack"; lit "push"]) -> compiles g rho (n_expr a) n ->
    core g rho (PPath path (Some (PCall [a]))) (Push n)
| K_pos g rho a n : compiles g rho (n_expr a) n -> core g rho (PPosPred a) (Positive n)
| K_neg g rho a n : compiles g rho (n_expr a) n -> core g rho (PNegPred a) (Negative n)
| K_opt g rho a n : compiles g rho (n_expr a) n -> core g rho (POpt a) (Opt n)
| K_seq g rho l r t fields :
    in_turn g rho [It_expr (n_expr l); It_trivia t; It_expr (n_expr r)] (sequence_items fields) ->
    core g rho (PSeq l r t) (Seq fields)
| K_choice g rho l r n ns : compiles g rho (n_expr l) n -> one_of g rho (n_expr r) ns -> core g rho (PChoice l r) (Choice (n :: ns))
| K_rep g rho e a min max t n tr :
    repetition e a min max -> round_trivia (n_expr a) t -> compiles g rho (n_expr a) n -> triv g t tr ->
    core g rho e (RepMinMax n tr min max)
with all_compile : gmodule -> list (text * closure) -> list parse_node -> list node -> Prop :=
| All_nil g rho : all_compile g rho [] []
| All_cons g rho a l n ns : compiles g rho (n_expr a) n -> all_compile g rho l ns -> all_compile g rho (a :: l) (n :: ns)
(** The trivia of a module. *)
with triv : gmodule -> trivia -> node -> Prop :=
| Triv_none g : triv g TriviaNone Empty
| Triv_rule g t name r n : trivia_name t = Some name -> last_rule g name r -> compiles g [] (n_expr (pr_node r)) n -> triv g t n
(** Nodes that are tried in turn; a sequence at the end may be flattened. *)
with in_turn : gmodule -> list (text * closure) -> list item -> list node -> Prop :=
| Turn_nil g rho : in_turn g rho [] []
| Turn_expr g rho e l n ns : compiles g rho e n -> in_turn g rho l ns -> in_turn g rho (It_expr e :: l) (n :: ns)
| Turn_trivia g rho t l n ns : triv g t n -> in_turn g rho l ns -> in_turn g rho (It_trivia t :: l) (n :: ns)
| Turn_flat g rho l r t ns :
    in_turn g rho [It_expr (n_expr l); It_trivia t; It_expr (n_expr r)] ns -> in_turn g rho [It_expr (PSeq l r t)] ns
(** Alternatives; a choice at the end may be flattened. *)
with one_of : gmodule -> list (text * closure) -> parse_expr -> list node -> Prop :=
| One_last g rho e n : compiles g rho e n -> one_of g rho e [n]
| One_flat g rho l r n ns : compiles g rho (n_expr l) n -> one_of g rho (n_expr r) ns -> one_of g rho (PChoice l r) (n :: ns).

Definition arguments (cs : list closure) (ns : list node) : Prop :=
  Forall2 (fun c n => match c with Clo g rho e => compiles g rho e n end) cs ns.
Lemma all_compile_arguments : forall g rho l ns, all_compile g rho l ns -> arguments (map (fun a => Clo g rho (n_expr a)) l) ns.
Proof.
  intros g rho l. induction l as [|a l IH]; intros ns H; inversion H; subst; [constructor|]. constructor; [assumption|apply IH; assumption].
Qed.
Hypothesis leaves : forall g rho e n, leaf_ok g rho e n -> forall pre post K r, gpeg g rho e pre post K r <-> peg n pre post K r.
Hypothesis bodies : forall mp g r cs ns, place mp g -> In r (g_rules g) -> ~ is_trivia_rule r ->
  length cs = length (pr_args r) -> arguments cs ns ->
  compiles g (combine (pr_args r) cs) (n_expr (pr_node r)) (rd_body (env (id mp (pr_name r))) ns).

(** Everything but parameters and separators has a node of its own. *)
Lemma peel : forall g rho e n, compiles g rho e n ->
  (forall pre post K r, peg n pre post K r -> gpeg g rho e pre post K r) \/
  exists g' rho' e', core g' rho' e' n /\ forall pre post K r, gpeg g' rho' e' pre post K r -> gpeg g rho e pre post K r.
Proof.
  fix Fx 5. intros g rho e n H. destruct H as [g rho e n H|g rho x args g' rho' e n A H|g rho a t n H|g rho e n H].
  - left. intros pre post K r. apply (leaves _ _ _ _ H).
  - destruct (Fx _ _ _ _ H) as [P|(g1 & rho1 & e1 & C & P)].
    + left. intros pre post K r D. eapply G_param; [exact A|apply P, D].
    + right. exists g1, rho1, e1. split; [exact C|]. intros pre post K r D. eapply G_param; [exact A|apply P, D].
  - destruct (Fx _ _ _ _ H) as [P|(g1 & rho1 & e1 & C & P)].
    + left. intros pre post K r D. apply G_separated, P, D.
    + right. exists g1, rho1, e1. split; [exact C|]. intros pre post K r D. apply G_separated, P, D.
  - right. exists g, rho, e. split; [exact H|]. intros; assumption.
Qed.

Lemma items_one : forall g rho e pre post K res, gpeg g rho e pre post K res -> gpeg_items g rho [It_expr e] pre post K res.
Proof. intros g rho e pre post K [|pre' post' K'] H; [apply GI_expr_fail, H|]. eapply GI_expr; [exact H|constructor]. Qed.
Lemma one_item : forall g rho e pre post K res, gpeg_items g rho [It_expr e] pre post K res -> gpeg g rho e pre post K res.
Proof.
  intros g rho e pre post K res H. inversion H; subst; [|assumption].
  match goal with X : gpeg_items _ _ [] _ _ _ _ |- _ => inversion X; subst end. assumption.
Qed.

Theorem peg_gpeg :
  (forall n pre post K res, peg n pre post K res -> forall g rho e, compiles g rho e n -> gpeg g rho e pre post K res) /\
  (forall ns pre post K res, peg_items ns pre post K res -> forall g rho l, in_turn g rho l ns -> gpeg_items g rho l pre post K res) /\
  (forall ns pre post K res, peg_choice ns pre post K res -> forall g rho e, one_of g rho e ns -> gpeg g rho e pre post K res) /\
  (forall n tr min max i pre post K res, peg_rep n tr min max i pre post K res ->
     forall g rho e t, compiles g rho e n -> triv g t tr -> gpeg_rounds g rho e t min max i pre post K res).
Proof.
  assert (Round : forall g rho e t n tr i pre post K res,
    (forall g rho l, in_turn g rho l (round_items n tr i) -> gpeg_items g rho l pre post K res) ->
    compiles g rho e n -> triv g t tr -> gpeg_round g rho e t i pre post K res).
  { intros g rho e t n tr i pre post K res H C Tr. unfold round_items in H. destruct (N.eq_dec i 0) as [->|N].
    - apply GR_first. apply H. apply Turn_expr; [exact C|constructor].
    - apply GR_later; [lia|]. apply H. apply Turn_trivia; [exact Tr|]. apply Turn_expr; [exact C|constructor]. }
  apply peg_mutind.
  - (* terminal *)
    intros n pre post K r T g rho e C. destruct (peel _ _ _ _ C) as [P|(g1 & rho1 & e1 & C1 & P)]; [apply P, P_terminal, T|].
    exfalso. destruct C1; inversion T.
  - intros n pre post K pre' post' K' H IH g rho e C.
    destruct (peel _ _ _ _ C) as [P|(g1 & rho1 & e1 & C1 & P)]; [apply P; eapply P_positive_ok, H|]. apply P.
    inversion C1; subst. eapply G_positive_ok, IH. assumption.
  - intros n pre post K H IH g rho e C.
    destruct (peel _ _ _ _ C) as [P|(g1 & rho1 & e1 & C1 & P)]; [apply P; eapply P_positive_fail, H|]. apply P.
    inversion C1; subst. eapply G_positive_fail, IH. assumption.
  - intros n pre post K H IH g rho e C.
    destruct (peel _ _ _ _ C) as [P|(g1 & rho1 & e1 & C1 & P)]; [apply P; eapply P_negative_ok, H|]. apply P.
    inversion C1; subst. eapply G_negative_ok, IH. assumption.
  - intros n pre post K pre' post' K' H IH g rho e C.
    destruct (peel _ _ _ _ C) as [P|(g1 & rho1 & e1 & C1 & P)]; [apply P; eapply P_negative_fail, H|]. apply P.
    inversion C1; subst. eapply G_negative_fail, IH. assumption.
  - intros n pre post K m post' K' H IH g rho e C.
    destruct (peel _ _ _ _ C) as [P|(g1 & rho1 & e1 & C1 & P)]; [apply P; eapply P_push_ok, H|]. apply P.
    inversion C1; subst. match goal with X : only_names _ _ _ |- _ => destruct X as (Nm & _) end.
    eapply G_push_ok; [assumption|exact Nm|]. apply IH. assumption.
  - intros n pre post K H IH g rho e C.
    destruct (peel _ _ _ _ C) as [P|(g1 & rho1 & e1 & C1 & P)]; [apply P; eapply P_push_fail, H|]. apply P.
    inversion C1; subst. match goal with X : only_names _ _ _ |- _ => destruct X as (Nm & _) end.
    eapply G_push_fail; [assumption|exact Nm|]. apply IH. assumption.
  - intros n pre post K pre' post' K' H IH g rho e C.
    destruct (peel _ _ _ _ C) as [P|(g1 & rho1 & e1 & C1 & P)]; [apply P; eapply P_opt_some, H|]. apply P.
    inversion C1; subst. eapply G_opt_some, IH. assumption.
  - intros n pre post K H IH g rho e C.
    destruct (peel _ _ _ _ C) as [P|(g1 & rho1 & e1 & C1 & P)]; [apply P; eapply P_opt_none, H|]. apply P.
    inversion C1; subst. eapply G_opt_none, IH. assumption.
  - intros n tr min max pre post K r H IH g rho e C.
    destruct (peel _ _ _ _ C) as [P|(g1 & rho1 & e1 & C1 & P)]; [apply P; eapply P_rep, H|]. apply P.
    inversion C1; subst. eapply G_repeat; [eassumption|eassumption|]. apply IH; assumption.
  - intros fields pre post K r H IH g rho e C.
    destruct (peel _ _ _ _ C) as [P|(g1 & rho1 & e1 & C1 & P)]; [apply P; eapply P_seq, H|]. apply P.
    inversion C1; subst. apply G_seq, IH. assumption.
  - intros ns pre post K r H IH g rho e C.
    destruct (peel _ _ _ _ C) as [P|(g1 & rho1 & e1 & C1 & P)]; [apply P; eapply P_choice, H|]. apply P.
    inversion C1; subst. apply IH. apply One_flat; assumption.
  - intros r ns pre post K res H IH g rho e C.
    destruct (peel _ _ _ _ C) as [P|(g1 & rho1 & e1 & C1 & P)]; [apply P; eapply P_rule, H|]. apply P.
    inversion C1; subst. match goal with X : only_names _ _ _ |- _ => destruct X as (Nm & _) end.
    eapply G_rule; [assumption|exact Nm|eassumption|assumption|]. apply IH. apply bodies; try assumption.
    + rewrite map_length. assumption.
    + apply all_compile_arguments. assumption.
  - (* items *)
    intros pre post K g rho l H. inversion H; subst; [constructor|].
    match goal with X : in_turn _ _ [_; _; _] [] |- _ => inversion X end.
  - intros n ns pre post K pre' post' K' r H IH Hs IHs g rho l C. inversion C; subst.
    + eapply GI_expr; [apply IH; assumption|]. apply IHs. assumption.
    + match goal with X : triv _ _ _ |- _ => inversion X; subst end.
      * inversion H; subst. match goal with X : terminal _ _ _ _ Empty _ |- _ => inversion X; subst end. apply GI_none, IHs. assumption.
      * eapply GI_trivia; [eassumption|eassumption|apply IH; assumption|]. apply IHs. assumption.
    + match goal with X : in_turn _ _ [_; _; _] _ |- _ => inversion X; subst end.
      apply items_one, G_seq. eapply GI_expr; [apply IH; assumption|]. apply IHs. assumption.
  - intros n ns pre post K H IH g rho l C. inversion C; subst.
    + apply GI_expr_fail, IH. assumption.
    + match goal with X : triv _ _ _ |- _ => inversion X; subst end.
      * inversion H; subst. match goal with X : terminal _ _ _ _ Empty _ |- _ => inversion X end.
      * eapply GI_trivia_fail; [eassumption|eassumption|apply IH; assumption].
    + match goal with X : in_turn _ _ [_; _; _] _ |- _ => inversion X; subst end.
      apply items_one, G_seq. apply GI_expr_fail, IH. assumption.
  - (* alternatives *)
    intros pre post K g rho e H. inversion H.
  - intros n ns pre post K pre' post' K' H IH g rho e C. inversion C; subst; [apply IH; assumption|].
    apply G_choice_left, IH. assumption.
  - intros n ns pre post K r H IH Hs IHs g rho e C. inversion C; subst.
    + inversion Hs; subst. apply IH. assumption.
    + apply G_choice_right; [apply IH; assumption|apply IHs; assumption].
  - (* rounds *)
    intros n tr min max i pre post K L g rho e t C Tr. apply GR_max, L.
  - intros n tr min max i pre post K pre' post' K' r L H IH Hs IHs g rho e t C Tr.
    eapply GR_round; [exact L|eapply Round; eassumption|]. apply IHs; assumption.
  - intros n tr min max i pre post K L L' H IH g rho e t C Tr.
    apply GR_stop; [exact L|exact L'|]. eapply Round; eassumption.
  - intros n tr min max i pre post K L L' H IH g rho e t C Tr.
    apply GR_fail; [exact L|exact L'|]. eapply Round; eassumption.
Qed.

Ltac by_leaf := match goal with X : leaf_ok _ _ _ _ |- _ => apply (leaves _ _ _ _ X) end.
Ltac no_rep := match goal with X : repetition _ _ _ _ |- _ => destruct X as [(X & _)|[(X & _)|(? & X & _)]]; discriminate X end.

Lemma choice_one : forall n pre post K res, peg n pre post K res -> peg_choice [n] pre post K res.
Proof. intros n pre post K [|pre' post' K'] H; [apply C_next; [exact H|constructor]|apply C_ok, H]. Qed.
Lemma one_of_plain : forall g rho e pre post K res, (forall n, compiles g rho e n -> peg n pre post K res) ->
  (forall l r, e <> PChoice l r) -> forall ns, one_of g rho e ns -> peg_choice ns pre post K res.
Proof.
  intros g rho e pre post K res H N ns O. inversion O; subst; [apply choice_one, H; assumption|]. exfalso. eapply N. reflexivity.
Qed.

Theorem gpeg_peg :
  (forall g rho e pre post K res, gpeg g rho e pre post K res ->
     (forall n, compiles g rho e n -> peg n pre post K res) /\
     (forall l r t ns, e = PSeq l r t -> in_turn g rho [It_expr (n_expr l); It_trivia t; It_expr (n_expr r)] ns -> peg_items ns pre post K res) /\
     (forall ns, one_of g rho e ns -> peg_choice ns pre post K res)) /\
  (forall g rho l pre post K res, gpeg_items g rho l pre post K res -> forall ns, in_turn g rho l ns -> peg_items ns pre post K res) /\
  (forall g rho e t min max i pre post K res, gpeg_rounds g rho e t min max i pre post K res ->
     forall n tr, compiles g rho e n -> triv g t tr -> peg_rep n tr min max i pre post K res) /\
  (forall g rho e t i pre post K res, gpeg_round g rho e t i pre post K res ->
     forall n tr, compiles g rho e n -> triv g t tr -> peg_items (round_items n tr i) pre post K res).
Proof.
  assert (Plain : forall g rho e pre post K res, (forall n, compiles g rho e n -> peg n pre post K res) ->
    (forall l r, e <> PChoice l r) -> (forall l r t, e <> PSeq l r t) ->
    (forall n, compiles g rho e n -> peg n pre post K res) /\
    (forall l r t ns, e = PSeq l r t -> in_turn g rho [It_expr (n_expr l); It_trivia t; It_expr (n_expr r)] ns -> peg_items ns pre post K res) /\
    (forall ns, one_of g rho e ns -> peg_choice ns pre post K res)).
  { intros g rho e pre post K res H N M. split; [exact H|]. split; [intros l r t ns E; exfalso; eapply M, E|]. apply one_of_plain; assumption. }
  apply gpeg_mutind.
  - intros g rho s pre post K r H. apply Plain; [|discriminate|discriminate]. intros n C. assert (D := G_str unicode property g rho s _ _ _ _ H).
    inversion C; subst; [by_leaf; exact D|]. match goal with X : core _ _ _ _ |- _ => inversion X; subst; no_rep end.
  - intros g rho s pre post K r H. apply Plain; [|discriminate|discriminate]. intros n C. assert (D := G_insens unicode property g rho s _ _ _ _ H).
    inversion C; subst; [by_leaf; exact D|]. match goal with X : core _ _ _ _ |- _ => inversion X; subst; no_rep end.
  - intros g rho a b pre post K r H. apply Plain; [|discriminate|discriminate]. intros n C. assert (D := G_range unicode property g rho a b _ _ _ _ H).
    inversion C; subst; [by_leaf; exact D|]. match goal with X : core _ _ _ _ |- _ => inversion X; subst; no_rep end.
  - intros g rho x args g' rho' e pre post K r A H (IH & _). apply Plain; [|discriminate|discriminate]. intros n C.
    assert (D := G_param unicode property g rho x args _ _ _ _ _ _ _ A H).
    inversion C; subst; [by_leaf; exact D| |].
    + match goal with X : assoc _ _ _ |- _ => assert (Eq := assoc_unique _ _ _ A _ X); injection Eq as <- <- <- end. apply IH. assumption.
    + match goal with X : core _ _ _ _ |- _ => inversion X; subst; try no_rep end;
        exfalso; match goal with X : not_param _ _ |- _ => eapply X; [reflexivity|exact A] end.
  - intros g rho path args l g' r' pre post K r Np Nm Ca Ln H (IH & _). apply Plain; [|discriminate|discriminate]. intros n C.
    assert (D := G_rule unicode property g rho path args l g' r' _ _ _ _ Np Nm Ca Ln H).
    inversion C; subst; [by_leaf; exact D| |].
    + exfalso. match goal with X : assoc _ _ _ |- _ => eapply Np; [reflexivity|exact X] end.
    + match goal with X : core _ _ _ _ |- _ => inversion X; subst; try no_rep end.
      * match goal with X : only_names _ _ _ |- _ => destruct X as (_ & U) end. assert (Eq := U _ Nm). injection Eq as <- <-.
        apply P_rule, IH.
        assert (l0 = l) as ->.
        { match goal with X : call_arguments _ l0 |- _ => destruct X as [->|(-> & ->)], Ca as [Ca|(Ca & ->)]; congruence end. }
        apply bodies; try assumption; [rewrite map_length; assumption|]. apply all_compile_arguments. assumption.
      * exfalso. match goal with X : only_names _ _ _ |- _ => destruct X as (_ & U) end. assert (Eq := U _ Nm). discriminate.
  - intros g rho path args q pre post K r Np Nm Ar H. apply Plain; [|discriminate|discriminate]. intros n C.
    assert (D := G_builtin unicode property g rho path args q _ _ _ _ Np Nm Ar H).
    inversion C; subst; [by_leaf; exact D| |].
    + exfalso. match goal with X : assoc _ _ _ |- _ => eapply Np; [reflexivity|exact X] end.
    + exfalso. match goal with X : core _ _ _ _ |- _ => inversion X; subst; try no_rep end.
      * match goal with X : only_names _ _ _ |- _ => destruct X as (_ & U) end. assert (Eq := U _ Nm). discriminate.
      * destruct Ar as [Ar|(Ar & _)]; discriminate.
  - intros g rho path range a n0 pre post K r Np Nm St En H. apply Plain; [|discriminate|discriminate]. intros n C.
    assert (D := G_slice unicode property g rho path range a n0 _ _ _ _ Np Nm St En H).
    inversion C; subst; [by_leaf; exact D| |].
    + exfalso. match goal with X : assoc _ _ _ |- _ => eapply Np; [reflexivity|exact X] end.
    + exfalso. match goal with X : core _ _ _ _ |- _ => inversion X; subst; try no_rep end.
      match goal with X : only_names _ _ _ |- _ => destruct X as (_ & U) end. assert (Eq := U _ Nm). discriminate.
  - intros g rho path a pre post K m post' K' Np Nm H (IH & _). apply Plain; [|discriminate|discriminate]. intros n C.
    assert (D := G_push_ok unicode property g rho path a _ _ _ _ _ _ Np Nm H).
    inversion C; subst; [by_leaf; exact D| |].
    + exfalso. match goal with X : assoc _ _ _ |- _ => eapply Np; [reflexivity|exact X] end.
    + match goal with X : core _ _ _ _ |- _ => inversion X; subst; try no_rep end.
      * exfalso. match goal with X : only_names _ _ _ |- _ => destruct X as (_ & U) end. assert (Eq := U _ Nm). discriminate.
      * apply P_push_ok, IH. assumption.
  - intros g rho path a pre post K Np Nm H (IH & _). apply Plain; [|discriminate|discriminate]. intros n C.
    assert (D := G_push_fail unicode property g rho path a _ _ _ Np Nm H).
    inversion C; subst; [by_leaf; exact D| |].
    + exfalso. match goal with X : assoc _ _ _ |- _ => eapply Np; [reflexivity|exact X] end.
    + match goal with X : core _ _ _ _ |- _ => inversion X; subst; try no_rep end.
      * exfalso. match goal with X : only_names _ _ _ |- _ => destruct X as (_ & U) end. assert (Eq := U _ Nm). discriminate.
      * apply P_push_fail, IH. assumption.
  - intros g rho a pre post K pre' post' K' H (IH & _). apply Plain; [|discriminate|discriminate]. intros n C.
    assert (D := G_positive_ok unicode property g rho a _ _ _ _ _ _ H).
    inversion C; subst; [by_leaf; exact D|]. match goal with X : core _ _ _ _ |- _ => inversion X; subst; try no_rep end.
    eapply P_positive_ok, IH. assumption.
  - intros g rho a pre post K H (IH & _). apply Plain; [|discriminate|discriminate]. intros n C.
    assert (D := G_positive_fail unicode property g rho a _ _ _ H).
    inversion C; subst; [by_leaf; exact D|]. match goal with X : core _ _ _ _ |- _ => inversion X; subst; try no_rep end.
    eapply P_positive_fail, IH. assumption.
  - intros g rho a pre post K H (IH & _). apply Plain; [|discriminate|discriminate]. intros n C.
    assert (D := G_negative_ok unicode property g rho a _ _ _ H).
    inversion C; subst; [by_leaf; exact D|]. match goal with X : core _ _ _ _ |- _ => inversion X; subst; try no_rep end.
    eapply P_negative_ok, IH. assumption.
  - intros g rho a pre post K pre' post' K' H (IH & _). apply Plain; [|discriminate|discriminate]. intros n C.
    assert (D := G_negative_fail unicode property g rho a _ _ _ _ _ _ H).
    inversion C; subst; [by_leaf; exact D|]. match goal with X : core _ _ _ _ |- _ => inversion X; subst; try no_rep end.
    eapply P_negative_fail, IH. assumption.
  - intros g rho l r t pre post K res H IH.
    assert (One : forall n, compiles g rho (PSeq l r t) n -> peg n pre post K res).
    { intros n C. assert (D := G_seq unicode property g rho l r t _ _ _ _ H).
      inversion C; subst; [by_leaf; exact D|]. match goal with X : core _ _ _ _ |- _ => inversion X; subst; try no_rep end.
      apply P_seq, IH. assumption. }
    split; [exact One|]. split; [intros l' r' t' ns E; injection E as <- <- <-; apply IH|]. apply one_of_plain; [exact One|discriminate].
  - intros g rho l r pre post K pre' post' K' H (IH & _). assert (D := G_choice_left unicode property g rho l r _ _ _ _ _ _ H).
    assert (One : forall n, compiles g rho (PChoice l r) n -> peg n pre post K (Ok pre' post' K')).
    { intros n C. inversion C; subst; [by_leaf; exact D|]. match goal with X : core _ _ _ _ |- _ => inversion X; subst; try no_rep end.
      apply P_choice, C_ok, IH. assumption. }
    split; [exact One|]. split; [discriminate|]. intros ns C. inversion C; subst; [apply choice_one, One; assumption|]. apply C_ok, IH. assumption.
  - intros g rho l r pre post K res H (IH & _) H' (_ & _ & IH'). assert (D := G_choice_right unicode property g rho l r _ _ _ _ H H').
    assert (One : forall n, compiles g rho (PChoice l r) n -> peg n pre post K res).
    { intros n C. inversion C; subst; [by_leaf; exact D|]. match goal with X : core _ _ _ _ |- _ => inversion X; subst; try no_rep end.
      apply P_choice, C_next; [apply IH; assumption|apply IH'; assumption]. }
    split; [exact One|]. split; [discriminate|]. intros ns C. inversion C; subst; [apply choice_one, One; assumption|].
    apply C_next; [apply IH; assumption|apply IH'; assumption].
  - intros g rho a pre post K pre' post' K' H (IH & _). apply Plain; [|discriminate|discriminate]. intros n C.
    assert (D := G_opt_some unicode property g rho a _ _ _ _ _ _ H).
    inversion C; subst; [by_leaf; exact D|]. match goal with X : core _ _ _ _ |- _ => inversion X; subst; try no_rep end.
    apply P_opt_some, IH. assumption.
  - intros g rho a pre post K H (IH & _). apply Plain; [|discriminate|discriminate]. intros n C.
    assert (D := G_opt_none unicode property g rho a _ _ _ H).
    inversion C; subst; [by_leaf; exact D|]. match goal with X : core _ _ _ _ |- _ => inversion X; subst; try no_rep end.
    apply P_opt_none, IH. assumption.
  - intros g rho e a min max t pre post K r Re Rt H IH.
    assert (D := G_repeat unicode property g rho e a min max t _ _ _ _ Re Rt H).
    assert (Sh : (forall l r, e <> PChoice l r) /\ (forall l r t, e <> PSeq l r t) /\ (forall p args, e <> PPath p args) /\ (forall n t, e <> PSeparated n t)).
    { destruct Re as [(-> & _)|[(-> & _)|(range & -> & _)]]; repeat split; discriminate. }
    destruct Sh as (S1 & S2 & S3 & S4). apply Plain; [|exact S1|exact S2]. intros n C.
    inversion C; subst; [by_leaf; exact D|exfalso; eapply S3; reflexivity|exfalso; eapply S4; reflexivity|].
    match goal with X : core _ _ _ _ |- _ => inversion X; subst end;
      try (exfalso; eapply S3; reflexivity); try (exfalso; eapply S1; reflexivity); try (exfalso; eapply S2; reflexivity); try no_rep.
    match goal with X : repetition e _ _ _, Y : repetition e _ _ _ |- _ => destruct (repetition_unique _ _ _ _ _ _ _ X Y) as (? & ? & ?) end. subst.
    match goal with X : round_trivia (n_expr ?a) ?t1, Y : round_trivia (n_expr ?a) ?t2 |- _ => assert (t1 = t2) by (eapply round_trivia_unique; eassumption) end. subst.
    apply P_rep, IH; assumption.
  - intros g rho a t pre post K r H (IH & _). apply Plain; [|discriminate|discriminate]. intros n C.
    assert (D := G_separated unicode property g rho a t _ _ _ _ H).
    inversion C; subst; [by_leaf; exact D|apply IH; assumption|]. match goal with X : core _ _ _ _ |- _ => inversion X; subst; try no_rep end.
  - (* items *)
    intros g rho pre post K ns C. inversion C; subst. constructor.
  - intros g rho e l pre post K pre' post' K' r H (IH & IHf & _) Hs IHs ns C. inversion C; subst.
    + eapply I_cons; [apply IH; assumption|]. apply IHs. assumption.
    + inversion Hs; subst. eapply IHf; [reflexivity|assumption].
  - intros g rho e l pre post K H (IH & IHf & _) ns C. inversion C; subst.
    + apply I_fail, IH. assumption.
    + eapply IHf; [reflexivity|assumption].
  - intros g rho l pre post K r H IH ns C. inversion C; subst. match goal with X : triv _ _ _ |- _ => inversion X; subst end; [|discriminate].
    eapply I_cons; [apply P_terminal, T_empty|]. apply IH. assumption.
  - intros g rho t name r' l pre post K pre' post' K' r Tn La H (IH & _) Hs IHs ns C. inversion C; subst.
    match goal with X : triv _ _ _ |- _ => inversion X; subst end; [discriminate|].
    eapply I_cons; [|apply IHs; assumption]. apply IH.
    match goal with X : trivia_name t = Some ?x |- _ => assert (x = name) as -> by congruence end.
    match goal with X : last_rule g name ?x |- _ => assert (x = r') as -> by (eapply last_rule_unique; eassumption) end. assumption.
  - intros g rho t name r' l pre post K Tn La H (IH & _) ns C. inversion C; subst.
    match goal with X : triv _ _ _ |- _ => inversion X; subst end; [discriminate|].
    apply I_fail. apply IH.
    match goal with X : trivia_name t = Some ?x |- _ => assert (x = name) as -> by congruence end.
    match goal with X : last_rule g name ?x |- _ => assert (x = r') as -> by (eapply last_rule_unique; eassumption) end. assumption.
  - (* rounds *)
    intros g rho e t min max i pre post K L n tr C Tr. apply R_max, L.
  - intros g rho e t min max i pre post K pre' post' K' r L H IH Hs IHs n tr C Tr.
    eapply R_round; [exact L|apply IH; assumption|apply IHs; assumption].
  - intros g rho e t min max i pre post K L L' H IH n tr C Tr. apply R_stop; [exact L|exact L'|]. apply IH; assumption.
  - intros g rho e t min max i pre post K L L' H IH n tr C Tr. apply R_fail; [exact L|exact L'|]. apply IH; assumption.
  - intros g rho e t pre post K r H IH n tr C Tr. unfold round_items. destruct (N.eq_dec 0 0); [|congruence].
    apply IH. apply Turn_expr; [exact C|constructor].
  - intros g rho e t i pre post K r L H IH n tr C Tr. unfold round_items. destruct (N.eq_dec i 0); [lia|].
    apply IH. apply Turn_trivia; [exact Tr|]. apply Turn_expr; [exact C|constructor].
Qed.

Theorem compiles_same : forall g rho e n, compiles g rho e n -> forall pre post K r, peg n pre post K r <-> gpeg g rho e pre post K r.
Proof.
  intros g rho e n C pre post K r. split; intro H.
  - exact (proj1 peg_gpeg _ _ _ _ _ H _ _ _ C).
  - exact (proj1 (proj1 gpeg_peg _ _ _ _ _ _ _ H) _ C).
Qed.
End Compile.
