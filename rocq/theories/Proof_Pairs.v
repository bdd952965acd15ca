From Coq Require Import String List NArith ZArith Arith Bool Lia.
From Verif Require Import Model_Text Model_Position Model_Span Model_Stack Model_Tracker Model_Node
  Model_Pairs Spec_Text Spec_Peg Spec_Run Spec_Yield Spec_Pairs Proof_Text Proof_Terminal Proof_Run
  Proof_Complete Proof_Peg Proof_Yield.
Import ListNotations.
Open Scope list_scope.

(** Induction over values with lists. *)
Section ValueInd.
Variable P : value -> Prop.
Hypothesis H_unit : P VUnit.
Hypothesis H_insens : forall t, P (VInsens t).
Hypothesis H_span : forall sp, P (VSpan sp).
Hypothesis H_char : forall c, P (VChar c).
Hypothesis H_positive : forall v, P v -> P (VPositive v).
Hypothesis H_newline : forall t, P (VNewline t).
Hypothesis H_push : forall v, P v -> P (VPush v).
Hypothesis H_rep : forall l, Forall P l -> P (VRep l).
Hypothesis H_none : P (VOpt None).
Hypothesis H_some : forall v, P v -> P (VOpt (Some v)).
Hypothesis H_seq : forall l, Forall P l -> P (VSeq l).
Hypothesis H_choice : forall i v, P v -> P (VChoice i v).
Hypothesis H_rule : forall r v sp, P v -> P (VRule r v sp).
Fixpoint value_ind' (v : value) : P v :=
  let list_ind := fix go (l : list value) : Forall P l :=
    match l with
    | [] => Forall_nil P
    | x :: r => Forall_cons x (value_ind' x) (go r)
    end in
  match v with
  | VUnit => H_unit
  | VInsens t => H_insens t
  | VSpan sp => H_span sp
  | VChar c => H_char c
  | VPositive c => H_positive c (value_ind' c)
  | VNewline t => H_newline t
  | VPush c => H_push c (value_ind' c)
  | VRep l => H_rep l (list_ind l)
  | VOpt None => H_none
  | VOpt (Some c) => H_some c (value_ind' c)
  | VSeq l => H_seq l (list_ind l)
  | VChoice i c => H_choice i c (value_ind' c)
  | VRule r c sp => H_rule r c sp (value_ind' c)
  end.
End ValueInd.

(** Induction over pairs. *)
Fixpoint pair_ind' {R : Type} (P : pair R -> Prop)
  (H : forall r a b l, Forall P l -> P (mkPair r a b l)) (p : pair R) : P p :=
  match p with
  | mkPair r a b l => H r a b l
      ((fix go (l : list (pair R)) : Forall P l :=
          match l with [] => Forall_nil P | x :: r => Forall_cons x (pair_ind' P H x) (go r) end) l)
  end.

(** C54 *)
Lemma convert_id : forall (R : Type) (p : pair R), convert (fun r => r) p = p.
Proof.
  intros R. induction p as [r a b l IH] using pair_ind'. simpl. f_equal.
  induction IH; simpl; congruence.
Qed.
Lemma convert_compose : forall (R S T : Type) (f : R -> S) (g : S -> T) p,
  convert g (convert f p) = convert (fun r => g (f r)) p.
Proof.
  intros R S T f g. induction p as [r a b l IH] using pair_ind'. simpl. f_equal.
  induction IH; simpl; congruence.
Qed.

Section Pairs.
Variable env : rule -> rule_def.

Lemma trees_app : forall ws ts ws' ts', trees env ws ts -> trees env ws' ts' ->
  trees env (ws ++ ws') (ts ++ ts').
Proof.
  intros ws ts ws' ts' H H'. induction H; simpl; auto.
  - apply TS_silent; auto.
  - apply TS_cons; auto.
Qed.

(** What is visited: the trees of the outer rule nodes. *)
Definition visits (v : value) : Prop :=
  exists ws, outer v ws /\ trees env ws (pairs env true v).
Lemma visits_list : forall l, Forall visits l ->
  exists ws, outer_list l ws /\ trees env ws (flat_map (pairs env true) l).
Proof.
  intros l H. induction H as [|v l (ws & H1 & H2) _ (ws' & H3 & H4)].
  - exists []. split; constructor.
  - exists (ws ++ ws'). split; [constructor; auto|]. simpl. apply trees_app; auto.
Qed.
Lemma pairs_visit : forall v, visits v.
Proof.
  induction v using value_ind'; unfold visits in *; cbn [pairs];
    try (exists []; split; [constructor; exact I|constructor]).
  - destruct IHv as (ws & H1 & H2). exists ws. split; [apply O_push|]; auto.
  - destruct (visits_list l H) as (ws & H1 & H2). exists ws. split; [apply O_rep|]; auto.
  - destruct IHv as (ws & H1 & H2). exists ws. split; [(constructor; exact H1)|]; auto.
  - destruct (visits_list l H) as (ws & H1 & H2). exists ws. split; [apply O_seq|]; auto.
  - destruct IHv as (ws & H1 & H2). exists ws. split; [(constructor; exact H1)|]; auto.
  - destruct IHv as (ws & H1 & H2). exists [VRule r v sp]. split; [apply O_rule|].
    destruct (rd_silent (env r)) eqn:E.
    + apply TS_silent; [exact E|constructor].
    + apply TS_cons; [|constructor]. econstructor; eauto.
Qed.
Lemma children_visit : forall r c sp, rd_silent (env r) = false ->
  exists ws, outer c ws /\ trees env ws (for_each_child_pair env (VRule r c sp)).
Proof.
  intros r c sp E. unfold for_each_child_pair. cbn [pairs]. rewrite E. apply pairs_visit.
Qed.
Lemma as_pair_tree_spec : forall r c sp, rd_silent (env r) = false ->
  tree env (VRule r c sp) (as_pair_tree env r c sp).
Proof.
  intros r c sp E. destruct (children_visit r c sp E) as (ws & H1 & H2). econstructor; eauto.
Qed.

Scheme outer_mut := Induction for outer Sort Prop
with outer_list_mut := Induction for outer_list Sort Prop.
Combined Scheme outer_mutind from outer_mut, outer_list_mut.
Lemma outer_det_all :
  (forall v ws, outer v ws -> forall ws', outer v ws' -> ws = ws') /\
  (forall l ws, outer_list l ws -> forall ws', outer_list l ws' -> ws = ws').
Proof.
  apply outer_mutind; intros;
    match goal with H : outer _ ?w |- _ = ?w => inversion H; subst | H : outer_list _ ?w |- _ = ?w => inversion H; subst end;
    auto; try contradiction; try (destruct v; try contradiction; inversion H; auto; fail).
  - erewrite H by eassumption. erewrite H0 by eassumption. reflexivity.
Qed.

Scheme tree_mut := Induction for tree Sort Prop
with trees_mut := Induction for trees Sort Prop.
Combined Scheme tree_mutind from tree_mut, trees_mut.
Lemma tree_det_all :
  (forall v t, tree env v t -> forall t', tree env v t' -> t = t') /\
  (forall vs ts, trees env vs ts -> forall ts', trees env vs ts' -> ts = ts').
Proof.
  apply tree_mutind.
  - intros r c sp ws ts E O _ IH t' H. inversion H; subst.
    assert (ws = ws0) by (eapply (proj1 outer_det_all); eauto). subst. f_equal. auto.
  - intros ts' H. inversion H. reflexivity.
  - intros r c sp ws ts E _ IH ts' H. inversion H; subst; auto.
    match goal with A : tree _ _ _ |- _ => inversion A; congruence end.
  - intros w t ws ts Ht IHt _ IHs ts' H. inversion H; subst.
    + inversion Ht; congruence.
    + f_equal; auto.
Qed.

(** C28 *)
Lemma vec_children_no_push : forall v, (forall c, v <> VPush c) ->
  vec_children_pairs env v = for_each_child_pair env v.
Proof. intros [] H; try reflexivity. exfalso. eapply H; reflexivity. Qed.
Lemma vec_children_pushed : forall v w, pushed v w -> (forall c, w <> VPush c) ->
  vec_children_pairs env v = for_each_child_pair env w /\
  (v <> w -> for_each_child_pair env v = for_self_or_for_each_child_pair env w).
Proof.
  intros v w P N. split.
  - induction P as [w|v w P IH]; [apply vec_children_no_push; exact N|exact (IH N)].
  - induction P as [w|v w P IH]; intro D; [congruence|].
    change (for_self_or_for_each_child_pair env v = for_self_or_for_each_child_pair env w).
    clear D. destruct P as [|v w P]; [reflexivity|]. apply (IH N). intros E. subst w. exact (N _ eq_refl).
Qed.
End Pairs.

(** C26 *)
Section Nested.
Variable addr : N.
Variable s : text.
Variable env : rule -> rule_def.
Variable property : N -> char -> bool.
Notation runs := (run addr s env property).
Notation runs_items := (run_items addr s env property).
Notation runs_choice := (run_choice addr s env property).
Notation runs_rep := (run_rep addr s env property).

Lemma nested_le : forall (R : Type) lo hi (l : list (pair R)), nested lo hi l -> lo <= hi.
Proof. intros R lo hi l H. induction H; lia. Qed.
Lemma nested_app : forall (R : Type) lo mid (l : list (pair R)), nested lo mid l ->
  forall hi l', nested mid hi l' -> nested lo hi (l ++ l').
Proof.
  intros R lo mid l H. induction H; intros hi' l' H'.
  - simpl. inversion H'; subst; constructor; try lia; auto.
  - simpl. constructor; auto.
Qed.
Lemma nested_widen : forall (R : Type) lo hi (l : list (pair R)), nested lo hi l ->
  forall lo' hi', lo' <= lo -> hi <= hi' -> nested lo' hi' l.
Proof.
  intros R lo hi l H. induction H; intros lo' hi' L1 L2; constructor; try lia; auto.
Qed.

Definition placed (pre : text) (p' : text) (l : list value) : Prop :=
  nested (blen pre) (blen p') (flat_map (pairs env true) l) /\
  Forall (fun rs => sp_input (snd rs) = s /\ sp_addr (snd rs) = addr /\
            blen pre <= sp_start (snd rs) /\ sp_start (snd rs) <= sp_end (snd rs) /\
            sp_end (snd rs) <= blen p' /\ exists m, span_text (snd rs) m) (flat_map rule_nodes l).

Lemma placed_app : forall a b c l l', placed a b l -> placed b c l' -> placed a c (l ++ l').
Proof.
  intros a b c l l' (H1 & H2) (H3 & H4). pose proof (nested_le _ _ _ _ H1). pose proof (nested_le _ _ _ _ H3).
  split.
  - rewrite flat_map_app. eapply nested_app; eauto.
  - rewrite flat_map_app. apply Forall_app. split.
    + eapply Forall_impl; [|exact H2]. cbn beta. intros. intuition lia.
    + eapply Forall_impl; [|exact H4]. cbn beta. intros. intuition lia.
Qed.
Lemma placed_nil : forall pre m, placed pre (pre ++ m) [].
Proof. intros. split; constructor. rewrite blen_app. lia. Qed.
Lemma placed_one : forall pre p' v, nested (blen pre) (blen p') (pairs env true v) ->
  Forall (fun rs => sp_input (snd rs) = s /\ sp_addr (snd rs) = addr /\
            blen pre <= sp_start (snd rs) /\ sp_start (snd rs) <= sp_end (snd rs) /\
            sp_end (snd rs) <= blen p' /\ exists m, span_text (snd rs) m) (rule_nodes v) -> placed pre p' [v].
Proof. intros. split; simpl; rewrite app_nil_r; auto. Qed.

Definition okv (pre post : text) (K : list span) (r : rresult value) : Prop :=
  s = pre ++ post -> valid_stack K ->
  match r with RFail => True | ROk pre' _ _ v => placed pre pre' [v] end.
Definition okl (pre post : text) (K : list span) (r : rresult (list value)) : Prop :=
  s = pre ++ post -> valid_stack K ->
  match r with RFail => True | ROk pre' _ _ vs => placed pre pre' vs end.

Lemma run_items_well : forall chain pol items pre post K r tr,
  runs_items chain pol items pre post K r tr -> s = pre ++ post -> valid_stack K -> well s pre r.
Proof.
  intros chain pol items pre post K [|pre' post' K' v] tr H Hs (Ks & HK); [exact I|].
  destruct (proj1 (proj2 (run_peg_all addr s env property)) _ _ _ _ _ _ _ _ H Hs Ks HK)
    as (m & Ks' & -> & -> & HK' & _).
  simpl. repeat split; [eauto| |exists Ks'; exact HK']. rewrite <- app_assoc. exact Hs.
Qed.

Lemma terminal_value_leaf : forall n pre m K,
  pairs env true (terminal_value addr s n pre m K) = [] /\
  rule_nodes (terminal_value addr s n pre m K) = [].
Proof.
  intros n pre m K. destruct n; simpl; auto; try (destruct m as [|? [|? ?]]; auto);
    try (destruct K; auto); try (destruct (N.eq_dec _ _); auto).
Qed.

Lemma placed_same : forall pre p' v w,
  pairs env true w = pairs env true v -> rule_nodes w = rule_nodes v ->
  placed pre p' [v] -> placed pre p' [w].
Proof. intros pre p' v w E1 E2 H. unfold placed in *. simpl in *. rewrite E1, E2. exact H. Qed.
Lemma placed_list : forall pre p' l w,
  pairs env true w = flat_map (pairs env true) l -> rule_nodes w = flat_map rule_nodes l ->
  placed pre p' l -> placed pre p' [w].
Proof.
  intros pre p' l w E1 E2 H. unfold placed in *. simpl in *. rewrite E1, E2, !app_nil_r. exact H.
Qed.

Lemma run_placed_all :
  (forall chain pol n pre post K r tr, runs chain pol n pre post K r tr -> okv pre post K r) /\
  (forall chain pol items pre post K r tr, runs_items chain pol items pre post K r tr -> okl pre post K r) /\
  (forall chain pol (i : nat) ts pre post K r tr, runs_choice chain pol i ts pre post K r tr -> okv pre post K r) /\
  (forall chain pol x y mi ma i pre post K r tr, runs_rep chain pol x y mi ma i pre post K r tr -> okl pre post K r).
Proof.
  apply run_mutind; intros; intros Hs HK; try exact I;
    try (specialize (H Hs HK); cbn beta iota in H).
  - destruct (terminal_value_leaf n pre m K) as (E1 & E2). apply placed_one; rewrite ?E1, ?E2; constructor.
    rewrite blen_app. lia.
  - apply placed_one; simpl; constructor. lia.
  - apply placed_one; simpl; constructor. lia.
  - eapply placed_same; [| |exact H]; reflexivity.
  - eapply placed_same; [| |exact H]; reflexivity.
  - apply placed_one; simpl; constructor. lia.
  - eapply placed_list; [| |exact H]; reflexivity.
  - eapply placed_list; [| |exact H]; reflexivity.
  - exact H.
  - destruct (run_well addr s env property _ _ _ _ _ _ _ _ r0 Hs HK) as ((m & ->) & W1 & W2).
    unfold placed in H. cbn [flat_map] in H. rewrite !app_nil_r in H. destruct H as (H1 & H2).
    apply placed_one.
    + cbn [pairs]. destruct (rd_silent (env r)).
      * constructor. rewrite blen_app. lia.
      * constructor; [simpl; lia|exact H1|]. constructor. simpl. lia.
    + cbn [rule_nodes]. constructor; [|exact H2]. cbn [snd sp_input sp_addr sp_start sp_end span_to]. repeat split;
        [try rewrite blen_app; lia..|]. exists m. apply (span_to_text addr s pre m post'). rewrite app_assoc. exact W1.
  - rewrite <- (app_nil_r pre) at 2. apply placed_nil.
  - destruct (run_well addr s env property _ _ _ _ _ _ _ _ r Hs HK) as (_ & W1 & W2).
    specialize (H0 W1 W2). cbn beta iota in H0.
    destruct b; cbn [keep].
    + change (v :: vs) with ([v] ++ vs). eapply placed_app; eauto.
    + pose proof (nested_le _ _ _ _ (proj1 H)).
      destruct H0 as (A & B). split.
      * eapply nested_widen; eauto.
      * eapply Forall_impl; [|exact B]. cbn beta. intros. intuition lia.
  - eapply placed_same; [| |exact H]; reflexivity.
  - exact (H0 Hs HK).
  - rewrite <- (app_nil_r pre) at 2. apply placed_nil.
  - destruct (run_items_well _ _ _ _ _ _ _ _ r Hs HK) as (_ & W1 & W2).
    specialize (H0 W1 W2). cbn beta iota in H0. eapply placed_app; eauto.
  - rewrite <- (app_nil_r pre) at 2. apply placed_nil.
Qed.

Lemma parse_placed : forall k n p K sv t p' v st', boundary s p -> valid_stack K ->
  try_parse addr s env property k n p (mkState (mkStack K sv) t) = Ret (Some (p', v), st') ->
  nested p p' (pairs env true v) /\
  Forall (fun rs => sp_input (snd rs) = s /\ sp_addr (snd rs) = addr /\ p <= sp_start (snd rs) /\
            sp_start (snd rs) <= sp_end (snd rs) /\ sp_end (snd rs) <= p' /\ exists m, span_text (snd rs) m) (rule_nodes v).
Proof.
  intros k n p K sv t p' v st' (pre & post & Hs & ->) HK H.
  destruct (sound addr s env property k n pre post K sv t Hs HK) as [(_ & E)|(r & tr & HR & HF)];
    [congruence|].
  destruct r as [|pre' post' K' w].
  - destruct HF as (K' & _ & E). congruence.
  - destruct HF as (_ & _ & _ & _ & E). rewrite E in H. injection H as <- <- <-.
    pose proof (proj1 run_placed_all _ _ _ _ _ _ _ _ HR Hs HK) as P. cbn beta iota in P.
    unfold placed in P. simpl in P. rewrite !app_nil_r in P. exact P.
Qed.
Lemma tree_nested : forall k r args p K sv t p' c sp st', boundary s p -> valid_stack K ->
  rd_silent (env r) = false ->
  try_parse addr s env property k (Rule r args) p (mkState (mkStack K sv) t)
    = Ret (Some (p', VRule r c sp), st') ->
  nested p p' [as_pair_tree env r c sp].
Proof.
  intros k r args p K sv t p' c sp st' HB HK E H.
  destruct (parse_placed _ _ _ _ _ _ _ _ _ HB HK H) as (P & _). cbn [pairs] in P. rewrite E in P.
  unfold as_pair_tree. cbn [vec_children_pairs]. unfold for_each_child_pair. cbn [pairs]. rewrite E. exact P.
Qed.
End Nested.

(** Conversion, seen from outside. *)
Lemma convert_shape : forall (R S : Type) (f : R -> S) (p : pair R), same_shape f p (convert f p).
Proof.
  intros R S f p. induction p as [r a b cs IH] using pair_ind'. cbn [convert]. constructor.
  induction IH; cbn [map]; constructor; auto.
Qed.
Lemma shape_convert : forall (R S : Type) (f : R -> S) (p : pair R) q, same_shape f p q -> q = convert f p.
Proof.
  intros R S f p. induction p as [r a b cs IH] using pair_ind'. intros q H.
  inversion H as [? ? ? ? ds F]; subst. cbn [convert]. f_equal.
  clear H. revert ds F. induction IH as [|p l H IH' IH]; intros ds F; inversion F; subst; cbn [map]; [reflexivity|].
  f_equal; auto.
Qed.

Lemma listing_comma : forall l, listing l (comma_separated l).
Proof.
  induction l as [|x l IH]; [constructor|]. destruct l as [|y l]; [constructor|].
  change (comma_separated (x :: y :: l)) with (x ++ lit ", " ++ comma_separated (y :: l)).
  constructor. exact IH.
Qed.
Lemma display_spec : forall (R : Type) (debug : R -> text) number (p : pair R),
  displayed debug number p (display_pair debug number p).
Proof.
  intros R debug number p. induction p as [r a b cs IH] using pair_ind'. cbn [display_pair].
  apply D_pair with (ts := map (display_pair debug number) cs); [|apply listing_comma].
  induction IH; cbn [map]; constructor; auto.
Qed.
Lemma convert_iff : forall (R S : Type) (f : R -> S) (p : pair R) q,
  same_shape f p q <-> q = convert f p.
Proof. intros R S f p q. split; [apply shape_convert|intros ->; apply convert_shape]. Qed.

Lemma pairs_unique : forall env v,
  (forall ws ws', outer v ws -> outer v ws' -> ws = ws') /\
  (forall t t', tree env v t -> tree env v t' -> t = t') /\
  (forall ws ts ts', trees env ws ts -> trees env ws ts' -> ts = ts').
Proof.
  intros env v. split; [|split].
  - intros ws ws' A B. exact (proj1 outer_det_all v ws A ws' B).
  - intros t t' A B. exact (proj1 (tree_det_all env) v t A t' B).
  - intros ws ts ts' A B. exact (proj2 (tree_det_all env) ws ts A ts' B).
Qed.

Lemma silent_no_pairs : forall env r c sp, rd_silent (env r) = true ->
  for_self_or_for_each_child_pair env (VRule r c sp) = [] /\ for_each_child_pair env (VRule r c sp) = [].
Proof.
  intros env r c sp E. unfold for_self_or_for_each_child_pair, for_each_child_pair. cbn [pairs]. rewrite E. auto.
Qed.

Lemma ascii_blen : forall pre, Forall (fun c => (c < 128)%N) pre -> blen pre = length pre.
Proof.
  induction 1 as [|c l H _ IH]; [reflexivity|]. cbn [blen length]. rewrite IH.
  unfold len_utf8. replace (c <? 0x80)%N with true by lia. reflexivity.
Qed.

Lemma length_le_blen : forall pre, length pre <= blen pre.
Proof.
  induction pre as [|c l IH]; [reflexivity|]. cbn [blen length]. unfold len_utf8.
  repeat (match goal with |- context [if ?x then _ else _] => destruct x end); lia.
Qed.
Lemma ascii_blen_iff : forall pre, blen pre = length pre <-> Forall (fun c => (c < 128)%N) pre.
Proof.
  intro pre. split; [|apply ascii_blen]. induction pre as [|c l IH]; intro H; [constructor|].
  cbn [blen length] in H. pose proof (length_le_blen l). unfold len_utf8 in H.
  destruct (N.ltb_spec c 0x80); [constructor; [assumption|apply IH; lia]|].
  repeat (match goal with K : context [if ?x then _ else _] |- _ => destruct x end); lia.
Qed.

Lemma choice_getters : forall addr s env property k ts p st p' v st',
  try_parse addr s env property k (Choice ts) p st = Ret (Some (p', v), st') ->
  exists i c, i < length ts /\ choice_getter i v = Some c /\ forall j, j <> i -> choice_getter j v = None.
Proof.
  intros addr s env property [|k] ts p st p' v st' H; [discriminate|]. cbn [try_parse] in H.
  assert (G : forall ts i st, parse_choice (try_parse addr s env property k) i ts p st = Ret (Some (p', v), st') ->
    exists j c, v = VChoice (i + j) c /\ j < length ts).
  { clear. induction ts as [|t ts IH]; intros i st H; cbn [parse_choice] in H; [discriminate|].
    destruct (try_parse addr s env property k t p (on_stack stack_snapshot st)) as [[[[q w]|] st1]| |]; try discriminate.
    - injection H as <- <- <-. exists 0, w. rewrite Nat.add_0_r. cbn [length]. split; [reflexivity|lia].
    - destruct (IH _ _ H) as (j & c & -> & L). exists (S j), c. cbn [length].
      rewrite Nat.add_succ_r. split; [reflexivity|lia]. }
  destruct (G _ _ _ H) as (j & c & -> & L). exists j, c. split; [exact L|]. cbn [choice_getter plus].
  rewrite Nat.eqb_refl. split; [reflexivity|]. intros i N. destruct (Nat.eqb_spec j i); [lia|reflexivity].
Qed.
