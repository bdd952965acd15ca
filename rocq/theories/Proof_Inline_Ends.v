(** When inlining ends, and what it leaves as it is. *)
From Coq Require Import String List NArith ZArith Arith Bool Lia.
From Verif Require Import Model_Text Model_Message Model_Meta Model_Import Model_Node Model_Generator Model_Output Model_Inline
  Spec_Text Spec_Peg Spec_Grammar_Peg Spec_Occur Spec_Generator Spec_Inline Proof_Text Proof_Emit Proof_Box Proof_Process Proof_Compile Proof_Inline Proof_Inlined Proof_Inlining.
Import ListNotations.
Open Scope list_scope.

Section Ends.
Variable macros : list (option text * list (text * parse_rule)).
Notation at_one k n := (let! x := inline_expr macros k (n_expr n) in Ret (mkNode x (n_span n))).
Definition descend (k : nat) (e : parse_expr) : outcome parse_expr :=
  match e with
  | PSeq l r t => let! r := at_one k r in let! l := at_one k l in Ret (PSeq l r t)
  | PChoice l r => let! r := at_one k r in let! l := at_one k l in Ret (PChoice l r)
  | POpt n => let! n := at_one k n in Ret (POpt n)
  | PRep n => let! n := at_one k n in Ret (PRep n)
  | PRepOnce n => let! n := at_one k n in Ret (PRepOnce n)
  | PSeparated n t => let! n := at_one k n in Ret (PSeparated n t)
  | PRepRange n range => let! n := at_one k n in Ret (PRepRange n range)
  | PPosPred n => let! n := at_one k n in Ret (PPosPred n)
  | PNegPred n => let! n := at_one k n in Ret (PNegPred n)
  | _ => Ret e
  end.
Lemma inline_step : forall k e, inline_expr macros (S k) e = let! e := inline_here macros (S k) e in descend k e.
Proof. intros k e. reflexivity. Qed.

Definition no_call (e : parse_expr) : Prop := forall path l, part (PPath path (Some (PCall l))) e -> find_macro macros (last path []) = None.
Lemma no_call_here : forall k e, no_call e -> inline_here macros (S k) e = Ret e.
Proof.
  intros k e N. destruct e as [| | |path [[l|range]|]| | | | | | | | |]; try reflexivity. cbn [inline_here]. destruct path; [reflexivity|].
  rewrite (N _ l (Part_self _)). reflexivity.
Qed.
Lemma no_call_operand : forall e e1, operand_of e1 e -> no_call e -> no_call e1.
Proof. intros e e1 O N path l P. apply (N path l). eapply Part_in; eassumption. Qed.
Lemma node_eta : forall n, mkNode (n_expr n) (n_span n) = n.
Proof. intros [e s]. reflexivity. Qed.
(** Without calls of silent rules nothing changes. *)
Lemma no_call_same : forall k e e', no_call e -> inline_expr macros k e = Ret e' -> e' = e.
Proof.
  induction k as [|k IH]; intros e e' N H; [discriminate|]. rewrite inline_step, no_call_here in H by exact N. cbn [obind] in H.
  assert (One : forall n n', operand_of (n_expr n) e -> at_one k n = Ret n' -> n' = n).
  { intros n n' O Q. destruct (inline_expr macros k (n_expr n)) as [x| |] eqn:E; try discriminate. cbn [obind] in Q. injection Q as <-.
    rewrite (IH _ _ (no_call_operand _ _ O N) E). apply node_eta. }
  destruct e; cbn [descend] in H; try (injection H as <-; reflexivity);
    try (destruct (at_one k n) as [m| |] eqn:Q; try discriminate; cbn [obind] in H; injection H as <-; rewrite (One n m ltac:(constructor) Q); reflexivity).
  - destruct (at_one k rhs) as [m| |] eqn:Q; try discriminate. cbn [obind] in H. destruct (at_one k lhs) as [m'| |] eqn:Q'; try discriminate. cbn [obind] in H. injection H as <-.
    rewrite (One rhs m ltac:(constructor) Q), (One lhs m' ltac:(constructor) Q'). reflexivity.
  - destruct (at_one k rhs) as [m| |] eqn:Q; try discriminate. cbn [obind] in H. destruct (at_one k lhs) as [m'| |] eqn:Q'; try discriminate. cbn [obind] in H. injection H as <-.
    rewrite (One rhs m ltac:(constructor) Q), (One lhs m' ltac:(constructor) Q'). reflexivity.
Qed.

(** Inlining ends. *)
Definition ends (e : parse_expr) : Prop := exists k e', forall k', k <= k' -> inline_expr macros k' e = Ret e'.
Definition stays (e : parse_expr) : Prop := forall k, inline_here macros (S k) e = Ret e.
Lemma inline_here_more : forall k e e', inline_here macros k e = Ret e' -> forall k', k <= k' -> inline_here macros k' e = Ret e'.
Proof.
  induction k as [|k IH]; intros e e' H k' L; [discriminate|]. destruct k' as [|k']; [lia|]. cbn [inline_here] in *.
  destruct e as [| | |path [[l|range]|]| | | | | | | | |]; try exact H. destruct path as [|p path]; [exact H|]. destruct (find_macro macros (last (p :: path) [])); [|exact H].
  destruct (Nat.eqb (length (pr_args p0)) (length l)); [|exact H]. destruct (replace_all (combine (map n_expr l) (pr_args p0)) (n_expr (pr_node p0))) as (e2, []); [|exact H].
  apply IH; [exact H|lia].
Qed.
Lemma inline_more : forall k e e', inline_expr macros k e = Ret e' -> forall k', k <= k' -> inline_expr macros k' e = Ret e'.
Proof.
  induction k as [|k IH]; intros e e' H k' L; [discriminate|]. destruct k' as [|k']; [lia|]. rewrite inline_step in *.
  destruct (inline_here macros (S k) e) as [e1| |] eqn:I; try discriminate. rewrite (inline_here_more _ _ _ I (S k') L). cbn [obind] in *.
  assert (One : forall n m, at_one k n = Ret m -> at_one k' n = Ret m).
  { intros n m Q. destruct (inline_expr macros k (n_expr n)) as [x| |] eqn:E; try discriminate. rewrite (IH _ _ E k') by lia. exact Q. }
  destruct e1; cbn [descend] in *; try exact H;
    try (destruct (at_one k n) as [m| |] eqn:Q; try discriminate; rewrite (One _ _ Q); exact H);
    destruct (at_one k rhs) as [m| |] eqn:Q; try discriminate; rewrite (One _ _ Q); cbn [obind] in *;
    destruct (at_one k lhs) as [m'| |] eqn:Q'; try discriminate; rewrite (One _ _ Q'); exact H.
Qed.
Definition all_operands_end (e : parse_expr) : Prop := forall e1, operand_of e1 e -> ends e1.
Lemma ends_operands : forall e, stays e -> (forall path args, e <> PPath path args) -> all_operands_end e -> ends e.
Proof.
  intros e S Np A.
  assert (One : forall n, operand_of (n_expr n) e -> exists k m, forall k', k <= k' -> at_one k' n = Ret m).
  { intros n O. destruct (A _ O) as (k & e' & H). exists k, (mkNode e' (n_span n)). intros k' L. rewrite (H k' L). reflexivity. }
  assert (Go : forall k e', (forall k', k <= k' -> descend k' e = Ret e') -> ends e).
  { intros k e' H. exists (Datatypes.S k), e'. intros [|k'] L; [lia|]. rewrite inline_step, S. cbn [obind]. apply H. lia. }
  destruct e; try (exfalso; eapply Np; reflexivity); try (apply (Go 0 _ (fun _ _ => eq_refl)));
    try (destruct (One n ltac:(constructor)) as (k & m & H); eapply (Go k); intros k' L; cbn [descend]; rewrite (H k' L); reflexivity).
  - destruct (One lhs ltac:(constructor)) as (k & m & H). destruct (One rhs ltac:(constructor)) as (k1 & m1 & H1). eapply (Go (k + k1)). intros k' L. cbn [descend].
    rewrite (H k'), (H1 k') by lia. reflexivity.
  - destruct (One lhs ltac:(constructor)) as (k & m & H). destruct (One rhs ltac:(constructor)) as (k1 & m1 & H1). eapply (Go (k + k1)). intros k' L. cbn [descend].
    rewrite (H k'), (H1 k') by lia. reflexivity.
Qed.
Lemma ends_path : forall path args, stays (PPath path args) -> ends (PPath path args).
Proof. intros path args S. exists 1, (PPath path args). intros [|k] L; [lia|]. rewrite inline_step, S. reflexivity. Qed.
(** A step of unfolding. *)
Lemma ends_unfold : forall e e2, (forall k, inline_here macros (S k) e = inline_here macros k e2) -> ends e2 -> ends e.
Proof.
  intros e e2 H (k & e' & E). exists (S (S k)), e'. intros [|k'] L; [lia|]. assert (Q := E (S k') ltac:(lia)). rewrite inline_step in *. rewrite H.
  assert (Q' := E (S k) ltac:(lia)). rewrite inline_step in Q'. destruct (inline_here macros (S k) e2) as [e3| |] eqn:I; try discriminate.
  rewrite (inline_here_more _ _ _ I k') by lia. rewrite (inline_here_more _ _ _ I (S k')) in Q by lia. exact Q.
Qed.
Lemma no_call_ends : forall e, no_call e -> ends e.
Proof.
  apply (expr_rect (fun e => no_call e -> ends e)); intros;
    try (match goal with |- ends (PPath _ _) => apply ends_path; intro k; apply no_call_here; assumption end);
    try (apply ends_operands; [intro k; apply no_call_here; assumption|discriminate|]; intros e1 O; inversion O; subst;
         match goal with IH : no_call (n_expr ?n) -> _ |- ends (n_expr ?n) => apply IH; eapply no_call_operand; eassumption end).
Qed.
End Ends.

Lemma rules_end : forall macros rules, (forall r, In r rules -> ends macros (n_expr (pr_node r))) -> exists k rules', forall k', k <= k' -> inline_rules macros k' rules = Ret rules'.
Proof.
  intros macros rules. induction rules as [|r rules IH]; intro H; [exists 0, []; reflexivity|].
  destruct (H r (or_introl eq_refl)) as (k & e & E). destruct (IH (fun q J => H q (or_intror J))) as (k1 & rules' & E1).
  exists (k + k1). eexists. intros k' L. cbn [inline_rules]. rewrite (E k'), (E1 k') by lia. reflexivity.
Qed.
Lemma inline_macros_ends : forall g, (forall r, In r (g_rules g) -> is_macro r = false -> ends (collect_macros None g) (n_expr (pr_node r))) ->
  exists k g', forall k', k <= k' -> inline_macros k' g = Ret g'.
Proof.
  intros g H. destruct (rules_end (collect_macros None g) (filter (fun r => negb (is_macro r)) (g_rules g))) as (k & rules & E).
  - intros r J. apply filter_In in J. destruct J as (J & K). apply H; [exact J|]. apply negb_true_iff, K.
  - exists k. eexists. intros k' L. unfold inline_macros. rewrite (E k' L). reflexivity.
Qed.

Lemma inline_macros_more : forall k g g', inline_macros k g = Ret g' -> forall k', k <= k' -> inline_macros k' g = Ret g'.
Proof.
  intros k g g' H k' L. unfold inline_macros in *. destruct (inline_rules (collect_macros None g) k _) as [rules| |] eqn:E; try discriminate.
  assert (R : forall l l', inline_rules (collect_macros None g) k l = Ret l' -> inline_rules (collect_macros None g) k' l = Ret l').
  { induction l as [|r l IH]; intros l' Q; cbn [inline_rules] in *; [exact Q|].
    destruct (inline_expr (collect_macros None g) k (n_expr (pr_node r))) as [e| |] eqn:Ee; try discriminate. rewrite (inline_more _ _ _ _ Ee k' L). cbn [obind] in *.
    destruct (inline_rules (collect_macros None g) k l) as [rest| |] eqn:Er; try discriminate. rewrite (IH _ eq_refl). exact Q. }
  rewrite (R _ _ E). exact H.
Qed.
Lemma inline_macros_same : forall k k' g g1 g2, inline_macros k g = Ret g1 -> inline_macros k' g = Ret g2 -> g1 = g2.
Proof.
  intros k k' g g1 g2 H H'. assert (A := inline_macros_more _ _ _ H (k + k') ltac:(lia)). assert (B := inline_macros_more _ _ _ H' (k + k') ltac:(lia)). congruence.
Qed.

(** Inlining keeps the conditions of the theorems about the generator. *)
Lemma inlined_fine : forall unicode fuel g g', inline_macros fuel g = Ret g' -> fine unicode g -> tidy unicode g -> plain_trivia g -> fine unicode g'.
Proof.
  intros unicode fuel g g' Ei F Td Pt. destruct (result g g' fuel Ei) as (Ig & _).
  assert (Back : forall r', In r' (g_rules g') -> exists r, kept g g' fuel r r') by (apply kept_back; assumption).
  assert (Tb : forall t e, trivia_body g' t e -> trivia_body g t e).
  { intros t e (name & r' & E & La & ->). destruct (trivia_back unicode g g' fuel Td Ei t name r' E La) as (r & La' & K).
    exists name, r. split; [exact E|]. split; [exact La'|]. destruct K as (J & _ & _ & N & _ & Q & _).
    apply (no_call_same _ _ _ _) in Q; [exact Q|]. intros path l P. destruct (find_macro (collect_macros None g) (last path [])) as [s|] eqn:Fm; [|reflexivity].
    destruct (find_macro_some _ _ _ Fm) as (M & En). exfalso. refine (Pt r path l s J _ P M (eq_sym En)).
    destruct La' as (a & b & _ & Nr & _). unfold is_trivia_rule. rewrite Nr. destruct t; cbn in E; try discriminate; injection E as <-; [left|right]; reflexivity. }
  inversion F as [h D Ri Bi Rr Pa Tr Tn Tm Fi]; subst h. constructor; rewrite ?Ig; try assumption.
  - intros r' J. destruct (Back r' J) as (r & K & _ & _ & N & _). rewrite <- N. apply Rr, K.
  - intros r' x J I. destruct (Back r' J) as (r & K & _ & _ & _ & A & _). apply (Pa r x K). rewrite A. exact I.
  - intros r' J T. destruct (Back r' J) as (r & K & _ & _ & N & A & _). rewrite <- A. apply (Tr r K). unfold is_trivia_rule in *. rewrite N. exact T.
  - intros t e B. apply Tn, Tb, B.
  - intros e e' B B'. apply Tm; apply Tb; assumption.
Qed.

(** Grammars without silent rules with parameters. *)
Lemma none_found : forall g, (forall s, ~ some_macro g s) -> forall name, find_macro (collect_macros None g) name = None.
Proof. intros g N name. destruct (find_macro (collect_macros None g) name) as [s|] eqn:E; [|reflexivity]. destruct (find_macro_some _ _ _ E) as (M & _). destruct (N s M). Qed.
Lemma none_same : forall g, (forall s, ~ some_macro g s) -> (exists fuel, inline_macros fuel g = Ret g) /\ forall fuel g', inline_macros fuel g = Ret g' -> g' = g.
Proof.
  intros g N. assert (Nc : forall e, no_call (collect_macros None g) e) by (intros e path l P; apply none_found, N).
  assert (Fl : forall l, (forall r, In r l -> In r (g_rules g)) -> filter (fun r => negb (is_macro r)) l = l).
  { induction l as [|r l IH]; intro S; [reflexivity|]. cbn [filter]. destruct (is_macro r) eqn:K; [|cbn [negb]; f_equal; apply IH; intros q J; apply S; right; exact J].
    exfalso. apply (N r), SM_own, is_macro_spec. split; [apply S; left; reflexivity|exact K]. }
  assert (Q : forall fuel g', inline_macros fuel g = Ret g' -> g' = g).
  { intros fuel g' H. unfold inline_macros in H. rewrite (Fl _ (fun r J => J)) in H.
    assert (R : forall rules rules', inline_rules (collect_macros None g) fuel rules = Ret rules' -> rules' = rules).
    { induction rules as [|r rules IH]; intros rules' E; cbn [inline_rules] in E; [injection E as <-; reflexivity|].
      destruct (inline_expr (collect_macros None g) fuel (n_expr (pr_node r))) as [e| |] eqn:Ee; try discriminate. cbn [obind] in E.
      destruct (inline_rules (collect_macros None g) fuel rules) as [rest| |] eqn:Er; try discriminate. cbn [obind] in E. injection E as <-.
      rewrite (no_call_same _ _ _ _ (Nc _) Ee), (IH _ eq_refl), node_eta. destruct r; reflexivity. }
    destruct (inline_rules (collect_macros None g) fuel (g_rules g)) as [rules| |] eqn:E; try discriminate. cbn [obind] in H. injection H as <-. rewrite (R _ _ E). destruct g; reflexivity. }
  split; [|exact Q]. destruct (inline_macros_ends g) as (k & g' & H); [intros r _ _; apply no_call_ends, Nc|]. exists k. assert (E := H k (le_n k)). rewrite (Q _ _ E) in E. exact E.
Qed.

Section Order.
Variable unicode : list text.
Variable g : gmodule.
Hypothesis Cg : complete unicode g.
Hypothesis Td : tidy unicode g.
Variable rank : parse_rule -> nat.
Hypothesis Or : ordered g rank.
Notation macros := (collect_macros None g).
Notation source := (source g).
Notation clean := (clean g).

Definition below (m : nat) (e : parse_expr) : Prop := forall s l, macro g s -> part (PPath [pr_name s] (Some (PCall l))) e -> rank s < m.
Lemma below_operand : forall m e e1, operand_of e1 e -> below m e -> below m e1.
Proof. intros m e e1 O B s l M P. apply (B s l M). eapply Part_in; eassumption. Qed.
Lemma stays_other : forall e, (forall path l, e <> PPath path (Some (PCall l))) -> stays macros e.
Proof. intros e N k. apply inline_here_other, N. Qed.

Lemma substituted_ends : forall m,
  forall sigma, (forall x a, assoc x sigma a -> ends macros a) ->
  (forall e0 e, substitutes sigma e0 e -> source e0 -> below m e0 -> clean e -> ends macros e) /\
  (forall l0 l, substitutes_nodes sigma l0 l -> (forall n, In n l0 -> source (n_expr n) /\ below m (n_expr n)) -> (forall n, In n l -> clean (n_expr n)) ->
     forall n, In n l -> ends macros (n_expr n)).
Proof.
  intro m. induction m as [m IHm] using (well_founded_induction lt_wf). intros sigma Es.
  assert (Un : forall e e1, (forall path l, e <> PPath path (Some (PCall l))) -> (forall path args, e <> PPath path args) -> (forall e2, operand_of e2 e -> e2 = e1) -> ends macros e1 -> ends macros e).
  { intros e e1 N N' O E. apply ends_operands; [apply stays_other, N|exact N'|]. intros e2 O2. rewrite (O e2 O2). exact E. }
  apply substitutes_mutind; intros;
    try (apply ends_operands; [apply stays_other; discriminate|discriminate|]; intros e2 O; inversion O; fail);
    try (match goal with IH : source ?e -> _ -> _ -> ends _ ?e' |- _ => apply (Un _ e'); [discriminate|discriminate|intros e2 O; inversion O; reflexivity|]; apply IH;
           [eapply source_operand; [|eassumption]; match goal with |- operand_of ?x (?c (mkNode ?x ?s)) => change (operand_of (n_expr (mkNode x s)) (c (mkNode x s))); constructor
                                                                | |- operand_of ?x (?c (mkNode ?x ?s) ?y) => change (operand_of (n_expr (mkNode x s)) (c (mkNode x s) y)); constructor end
           |eapply below_operand; [|eassumption]; match goal with |- operand_of ?x (?c (mkNode ?x ?s)) => change (operand_of (n_expr (mkNode x s)) (c (mkNode x s))); constructor
                                                                | |- operand_of ?x (?c (mkNode ?x ?s) ?y) => change (operand_of (n_expr (mkNode x s)) (c (mkNode x s) y)); constructor end
           |eapply clean_operand; [|eassumption]; match goal with |- operand_of ?x (?c (mkNode ?x ?s)) => change (operand_of (n_expr (mkNode x s)) (c (mkNode x s))); constructor
                                                                | |- operand_of ?x (?c (mkNode ?x ?s) ?y) => change (operand_of (n_expr (mkNode x s)) (c (mkNode x s) y)); constructor end] end; fail).
  - apply (Es x a H).
  - apply ends_path, stays_other. discriminate.
  - apply ends_path, stays_other. discriminate.
  - (* a call *)
    rename H into Sl, H0 into IHl, H1 into So, H2 into Be, H3 into Cl.
    assert (Ea : forall n, In n l' -> ends macros (n_expr n)).
    { apply IHl.
      - intros n J. split; [eapply source_operand|eapply below_operand]; try eassumption; constructor; exact J.
      - intros n J. eapply clean_operand; [|exact Cl]. constructor. exact J. }
    destruct (find_macro macros (last path [])) as [s|] eqn:F;
      [|apply ends_path; intro k; cbn [inline_here]; rewrite F; destruct path; reflexivity].
    destruct (find_macro_some _ _ _ F) as (Sm & En). destruct So as (q & Jq & Pq). destruct (tidy_calls _ _ Td q _ l s Jq Pq Sm (eq_sym En)) as (s' & M & ->).
    assert (s' = s) by (cbn [last] in F; rewrite (find_macro_own unicode g Cg Td s' M) in F; congruence). subst s'.
    assert (L : length (pr_args s) = length l').
    { destruct (source_named unicode g Cg Td q _ _ Jq Pq) as [(x & _ & _ & E)|(_ & ent & Nm & Tk)]; [discriminate E|].
      assert (Ent := macro_names unicode g Cg Td s ent M Nm). subst ent. cbn [usage_in] in Tk. inversion Tk; subst.
      assert (Ll : length l = length l') by (clear - Sl; induction Sl; cbn; congruence). congruence. }
    assert (Cla : forall n, In n l' -> clean (n_expr n)) by (intros n J; eapply clean_operand; [apply Op_arg, J|exact Cl]).
    destruct (macro_substitutes unicode g Cg Td s l' M L Cla) as (S & Cl2 & Ks).
    destruct (replace_all (combine (map n_expr l') (pr_args s)) (n_expr (pr_node s))) as (e2, b) eqn:Er. cbn [fst] in *.
    assert (E2 : ends macros e2).
    { eapply (proj1 (IHm (rank s) (Be s l M (Part_self _)) _ (fun x a A => match proj2 (Ks x a A) with ex_intro _ n (conj J E) => eq_ind_r (fun z => ends macros z) (Ea n J) E end))); [exact S|exists s; split; [apply M|constructor]| |exact Cl2].
      intros s' l1 M' P. eapply Or; eassumption. }
    assert (Un1 : forall k, inline_here macros (Datatypes.S k) (PPath [pr_name s] (Some (PCall l'))) = if b then inline_here macros k e2 else Ret (PPath [pr_name s] (Some (PCall l')))).
    { intro k. cbn [inline_here]. rewrite F, (proj2 (Nat.eqb_eq _ _) L), Er. reflexivity. }
    destruct b; [apply (ends_unfold _ _ e2); [exact Un1|exact E2]|apply ends_path; intro k; apply Un1].
  - (* a sequence *)
    apply ends_operands; [apply stays_other; discriminate|discriminate|]. intros e2 O. inversion O; subst; cbn [n_expr]; [apply H0|apply H2];
      first [eapply source_operand; [|eassumption]|eapply below_operand; [|eassumption]|eapply clean_operand; [|eassumption]];
      match goal with |- operand_of ?x (PSeq (mkNode ?x ?s) ?y ?t) => exact (Op_seq_l (mkNode x s) y t) | |- operand_of ?x (PSeq ?y (mkNode ?x ?s) ?t) => exact (Op_seq_r y (mkNode x s) t) end.
  - apply ends_operands; [apply stays_other; discriminate|discriminate|]. intros e2 O. inversion O; subst; cbn [n_expr]; [apply H0|apply H2];
      first [eapply source_operand; [|eassumption]|eapply below_operand; [|eassumption]|eapply clean_operand; [|eassumption]];
      match goal with |- operand_of ?x (PChoice (mkNode ?x ?s) ?y) => exact (Op_choice_l (mkNode x s) y) | |- operand_of ?x (PChoice ?y (mkNode ?x ?s)) => exact (Op_choice_r y (mkNode x s)) end.
  - contradiction.
  - destruct H5 as [<-|J].
    + cbn [n_expr]. destruct (H3 (mkNode e s) (or_introl eq_refl)) as (A & B). apply H0; [exact A|exact B|]. apply (H4 (mkNode e' s)). left. reflexivity.
    + apply H2; [|intros k K; apply H4; right; exact K|exact J]. intros k K. apply H3. right. exact K.
Qed.

Lemma ordered_ends : exists k g', forall k', k <= k' -> inline_macros k' g = Ret g'.
Proof.
  apply inline_macros_ends. intros r J K.
  assert (B : exists m, forall s, In s (g_rules g) -> rank s < m).
  { clear. induction (g_rules g) as [|q l (m & H)]; [exists 0; intros s []|]. exists (S (rank q) + m). intros s [->|I]; [lia|]. specialize (H s I). lia. }
  destruct B as (m & B).
  apply (proj1 (substituted_ends m [] (fun x a A => match A in assoc _ l v return match l with [] => ends macros a | _ => True end with As_here _ _ _ => I | As_there _ _ _ _ _ _ _ => I end)) (n_expr (pr_node r))).
  - apply substitutes_same. intros x v _ A. inversion A.
  - exists r. split; [exact J|constructor].
  - intros s l M _. apply B, M.
  - intros s x M X Q. destruct (names_body unicode g Cg Td r x J Q) as [I|(ent & Nm)].
    + assert (E := tidy_names _ _ Td s r x M J I (or_introl X)). subst s. apply is_macro_spec in M. destruct M. congruence.
    + exact (proj1 (proj2 (tidy_params _ _ Td s M) x X) ent Nm).
Qed.
End Order.
