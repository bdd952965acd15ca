(** The emitted program has a reading: numbers for the structs, and a node for each of them. *)
From Coq Require Import String List NArith ZArith Arith Bool Lia.
From Verif Require Import Model_Text Model_Message Model_Meta Model_Import Model_Tracker Model_Node Model_Generator Model_Output
  Spec_Text Spec_Peg Spec_Grammar_Peg Spec_Occur Spec_Generator Spec_Rust Proof_Text Proof_Emit Proof_Box Proof_Process Proof_Names
  Proof_Place Proof_Resolve Proof_Accept Proof_Compile Proof_Leaf Proof_Read.
Import ListNotations.
Open Scope list_scope.

(** * Whether a type can be read does not depend on the nodes that its parameters stand for *)
Definition alike (d d' : meaning) : Prop :=
  match d, d' with M_node _, M_node _ => True | M_text s, M_text s' => s = s' | _, _ => False end.
Definition alike_arg (a a' : argument) : Prop :=
  match a, a' with Arg d, Arg d' => alike d d' | Arg _, _ => False | _, Arg _ => False | _, _ => a = a' end.
Definition alike_args : list argument -> list argument -> Prop := Forall2 alike_arg.

Ltac alike_cases :=
  repeat match goal with
  | H : Some _ = Some _ |- _ => injection H as <-
  | H : None = Some _ |- _ => discriminate H
  | H : alike_args [] _ |- _ => inversion H; clear H; subst
  | H : alike_args (_ :: _) _ |- _ => inversion H; clear H; subst
  | H : Forall2 alike_arg [] _ |- _ => inversion H; clear H; subst
  | H : Forall2 alike_arg (_ :: _) _ |- _ => inversion H; clear H; subst
  | H : alike_arg (Arg ?d) ?a |- _ => destruct a; cbn [alike_arg] in H; try contradiction
  | H : alike_arg _ ?a |- _ => destruct a; cbn [alike_arg] in H; try contradiction; try discriminate
  | H : alike (M_node _) ?d |- _ => destruct d; cbn [alike] in H; try contradiction
  | H : alike (M_text _) ?d |- _ => destruct d; cbn [alike] in H; try contradiction
  end.
Lemma template_alike : forall k f, In (k, f) template -> forall args args' n, alike_args args args' -> f args = Some n -> exists n', f args' = Some n'.
Proof.
  intros k f I args args' n A H. unfold template in I. cbn [In] in I.
  repeat (destruct I as [I|I]; [injection I as <- <-; unfold plain, with_life, with_type, with_trivia in *;
    repeat match type of H with
    | match ?l with [] => _ | _ :: _ => _ end = _ => is_var l; destruct l
    | match ?a with Arg_life => _ | Arg _ => _ | Arg_char _ => _ | Arg_usize _ => _ | Arg_isize _ => _ end = _ => is_var a; destruct a
    | match ?d with M_node _ => _ | M_text _ => _ end = _ => is_var d; destruct d
    end; alike_cases; eexists; reflexivity|]).
  destruct I.
Qed.
Lemma entry_in : forall {A : Type} k (l : list (text * A)) v, entry k l = Some v -> In (k, v) l.
Proof.
  intros A k l v H. unfold entry in H. destruct (filter (fun kv => text_eqb k (fst kv)) l) as [|(k', v') [|? ?]] eqn:E; try discriminate.
  injection H as ->. assert (I : In (k', v) (filter (fun kv => text_eqb k (fst kv)) l)) by (rewrite E; left; reflexivity).
  apply filter_In in I. destruct I as (I & T). cbn [fst] in T. destruct (teqb k k') as [->|]; [exact I|discriminate].
Qed.
Lemma nodes_alike : forall args args' l, alike_args args args' -> nodes args = Some l -> exists l', nodes args' = Some l' /\ length l' = length l.
Proof.
  intros args args' l A. revert l. induction A as [|a a' args args' H A IH]; intros l E; [injection E as <-; exists []; split; reflexivity|].
  cbn [nodes] in E. destruct a as [|[n|]| | |]; try discriminate. destruct (nodes args) as [l1|]; [|discriminate]. injection E as <-.
  destruct (IH l1 eq_refl) as (l' & E & L). alike_cases. cbn [nodes]. rewrite E. eexists. split; [reflexivity|]. cbn [length]. congruence.
Qed.
Lemma pairs_alike : forall m args args' l, length args <= m -> alike_args args args' -> node_pairs args = Some l -> exists l', node_pairs args' = Some l' /\ length l' = length l.
Proof.
  induction m as [|m IH]; intros args args' l L A E.
  - destruct args; [|cbn in L; lia]. injection E as <-. inversion A; subst. exists []. split; reflexivity.
  - destruct args as [|[|[n|]| | |] [|[|[t|]| | |] args]]; cbn [node_pairs] in E; try discriminate.
    + injection E as <-. inversion A; subst. exists []. split; reflexivity.
    + destruct (node_pairs args) as [l1|] eqn:E1; [|discriminate]. injection E as <-. inversion A as [|? a1 ? r1 H1 A1]; subst. inversion A1 as [|? a2 ? r2 H2 A2]; subst.
      destruct (IH args r2 l1) as (l' & E' & L'); [cbn in L; lia|exact A2|exact E1|]. clear A A1 A2. alike_cases. cbn [node_pairs]. rewrite E'.
      eexists. split; [reflexivity|]. cbn [length]. congruence.
Qed.
Lemma sequence_alike : forall k args args' n, alike_args args args' -> sequence_node k args = Some n -> exists n', sequence_node k args' = Some n'.
Proof.
  intros k args args' n A H. unfold sequence_node in *. destruct (node_pairs args) as [l|] eqn:E; [|discriminate].
  destruct (pairs_alike _ _ _ _ (le_n _) A E) as (l' & -> & ->). destruct (length l =? k); [eauto|discriminate].
Qed.
Lemma choice_alike : forall k args args' n, alike_args args args' -> choice_node k args = Some n -> exists n', choice_node k args' = Some n'.
Proof.
  intros k args args' n A H. unfold choice_node in *. destruct (nodes args) as [l|] eqn:E; [|discriminate].
  destruct (nodes_alike _ _ _ A E) as (l' & -> & ->). destruct (length l =? k); [eauto|discriminate].
Qed.
Lemma library_alike : forall unicode p args args' n, alike_args args args' -> library unicode p args = Some n -> exists n', library unicode p args' = Some n'.
Proof.
  intros unicode p args args' n A H. unfold library in *. destruct p as [|c [|a [|b [|d [|? ?]]]]]; try discriminate.
  - destruct (text_eqb c pest_crate); [|discriminate]. destruct (text_eqb a (lit "std")).
    + destruct (text_eqb b (lit "Option")); [|discriminate]. unfold with_type in *. destruct args as [|[|[m|]| | |] [|? ?]]; try discriminate. alike_cases. eauto.
    + destruct (text_eqb a (lit "sequence")).
      * destruct (of_arity _ b _); [|discriminate]. eapply sequence_alike; eassumption.
      * destruct (text_eqb a (lit "choice")); [|discriminate]. destruct (of_arity _ b _); [|discriminate]. eapply choice_alike; eassumption.
  - destruct (text_eqb c pest_crate && text_eqb a (lit "typed")); [|discriminate]. destruct (text_eqb b (lit "template")).
    + destruct (entry d template) as [f|] eqn:E; [|discriminate]. apply entry_in in E. eapply template_alike; eassumption.
    + destruct (text_eqb b (lit "unicode")); [|discriminate]. destruct (index_of d _); [|discriminate]. unfold plain in *.
      destruct args; [|discriminate]. alike_cases. eauto.
Qed.
Lemma alike_refl : forall d, alike d d.
Proof. intros [n|s]; [exact I|reflexivity]. Qed.

Section Alike.
Variable items : list (text * ritem).
Variable unicode : list text.
Variable id : list text -> text -> rule.
Notation read := (read_type items unicode id).

Lemma target_alike : forall k o args args' d, alike_args args args' -> read_target items unicode id k o args = Some d ->
  exists d', read_target items unicode id k o args' = Some d' /\ alike d d'.
Proof.
  assert (As : forall o o' d, as_node o = Some d -> (forall n, o = Some n -> exists n', o' = Some n') -> exists d', as_node o' = Some d' /\ alike d d').
  { intros [n|] o' d H X; [|discriminate]. injection H as <-. destruct (X n eq_refl) as (n' & ->). eexists. split; [reflexivity|exact I]. }
  intros k [[m i|p]|] args args' d A H; try discriminate.
  - destruct i; try discriminate; cbn [read_target] in *.
    + destruct args as [|[|[n|]| | |] args]; try discriminate. inversion A as [|? a1 ? r1 H1 A1]; subst. clear A. alike_cases.
      destruct (nodes args) as [l|] eqn:E; [|discriminate]. destruct (nodes_alike _ _ _ A1 E) as (l' & -> & ->).
      destruct (length l =? _); [|discriminate]. injection H as <-. eexists. split; [reflexivity|exact I].
    + destruct args as [|[|[n|]| | |] [|? ?]]; try discriminate. alike_cases. exists d. split; [exact H|apply alike_refl].
    + destruct args; [|discriminate]. alike_cases. eexists. split; [reflexivity|reflexivity].
    + eapply As; [exact H|]. intros n E. eapply sequence_alike; eassumption.
    + eapply As; [exact H|]. intros n E. eapply choice_alike; eassumption.
  - cbn [read_target] in *. eapply As; [exact H|]. intros n E. eapply library_alike; eassumption.
Qed.
Lemma read_alike : forall k m vals vals' t d, map fst vals = map fst vals' -> read k m vals t = Some d -> exists d', read k m vals' t = Some d' /\ alike d d'.
Proof.
  induction k as [|k IH]; intros m vals vals' t d K R; [discriminate|]. destruct t as [path args]. rewrite read_eq in R |- *.
  destruct path as [|h r]; [discriminate|].
  assert (L : (exists n n', lookup h vals = Some n /\ lookup h vals' = Some n') \/ lookup h vals = None /\ lookup h vals' = None).
  { clear - K. revert vals' K. induction vals as [|(x, n) vals IH]; intros [|(x', n') vals'] K; try discriminate; [right; split; reflexivity|].
    cbn in K. injection K as <- K. cbn [lookup]. destruct (text_eqb h x); [left; eauto|]. apply IH, K. }
  destruct L as [(n & n' & E & E')|(E & E')]; rewrite E in R; rewrite E'.
  - destruct r, args; try discriminate. injection R as <-. eexists. split; [reflexivity|exact I].
  - destruct (all_some (map (read_arg items unicode id k m vals) args)) as [da|] eqn:A; [|discriminate].
    assert (exists da', all_some (map (read_arg items unicode id k m vals') args) = Some da' /\ alike_args da da') as (da' & -> & Al).
    { clear - IH A K. revert da A. induction args as [|a args IHa]; intros da A; [injection A as <-; exists []; split; [reflexivity|constructor]|].
      cbn [map all_some] in *. destruct (read_arg items unicode id k m vals a) as [b|] eqn:B; [|discriminate].
      destruct (all_some (map (read_arg items unicode id k m vals) args)) as [da1|]; [|discriminate]. injection A as <-.
      destruct (IHa _ eq_refl) as (da' & -> & Al).
      assert (exists b', read_arg items unicode id k m vals' a = Some b' /\ alike_arg b b') as (b' & -> & Bl).
      { destruct a as [|t|c|x|z]; cbn [read_arg] in *; try (injection B as <-; eexists; split; [reflexivity|reflexivity]).
        destruct (read k m vals t) as [d|] eqn:E; [|discriminate]. injection B as <-. destruct (IH _ _ _ _ _ K E) as (d' & -> & D).
        eexists. split; [reflexivity|exact D]. }
      eexists. split; [reflexivity|]. constructor; assumption. }
    eapply target_alike; eassumption.
Qed.
End Alike.

(** * Numbers for the structs *)
Definition pair_code (a b : N) : N := (2 ^ a * (2 * b + 1))%N.
Lemma pair_code_inj : forall a a' b b', pair_code a b = pair_code a' b' -> a = a' /\ b = b'.
Proof.
  assert (Z : forall b b', (2 * b + 1)%N = (2 * b' + 1)%N -> b = b') by (intros; lia).
  induction a as [|a IH] using N.peano_ind; intros a' b b' H; destruct (N.zero_or_succ a') as [->|(a1 & ->)]; unfold pair_code in *.
  - split; [reflexivity|]. rewrite N.pow_0_r, !N.mul_1_l in H. apply Z, H.
  - exfalso. rewrite N.pow_0_r, N.pow_succ_r' in H. lia.
  - exfalso. rewrite N.pow_0_r, N.pow_succ_r' in H. lia.
  - rewrite !N.pow_succ_r', <- !N.mul_assoc in H. apply N.mul_cancel_l in H; [|lia]. destruct (IH _ _ _ H) as (-> & ->). split; reflexivity.
Qed.
Lemma pair_code_pos : forall a b, pair_code a b <> 0%N.
Proof. intros a b H. unfold pair_code in H. apply N.mul_eq_0 in H. destruct H as [H|H]; [|lia]. apply N.pow_nonzero in H; [exact H|lia]. Qed.
Fixpoint text_code (t : text) : N := match t with [] => 0%N | c :: t => pair_code c (text_code t) end.
Lemma text_code_inj : forall t t', text_code t = text_code t' -> t = t'.
Proof.
  induction t as [|c t IH]; intros [|c' t'] H; cbn [text_code] in H; [reflexivity| | |].
  - symmetry in H. destruct (pair_code_pos _ _ H).
  - destruct (pair_code_pos _ _ H).
  - apply pair_code_inj in H. destruct H as (-> & H). rewrite (IH _ H). reflexivity.
Qed.
Fixpoint path_code (p : list text) : N := match p with [] => 0%N | k :: p => pair_code (text_code k) (path_code p) end.
Lemma path_code_inj : forall t t', path_code t = path_code t' -> t = t'.
Proof.
  induction t as [|c t IH]; intros [|c' t'] H; cbn [path_code] in H; [reflexivity| | |].
  - symmetry in H. destruct (pair_code_pos _ _ H).
  - destruct (pair_code_pos _ _ H).
  - apply pair_code_inj in H. destruct H as (E & H). rewrite (IH _ H), (text_code_inj _ _ E). reflexivity.
Qed.
(** A number that is not that of the end of input. *)
Definition code (m : list text) (name : text) : rule := path_code (name :: m).

(** * All structs *)
Fixpoint item_structs (k : text) (i : ritem) : list (list text * text) :=
  match i with
  | R_struct s => [([], k)]
  | R_mod sub _ => map (fun mn => (k :: fst mn, snd mn)) (flat_map (fun ki => item_structs (fst ki) (snd ki)) sub)
  | _ => []
  end.
Definition structs (items : list (text * ritem)) : list (list text * text) := flat_map (fun ki => item_structs (fst ki) (snd ki)) items.
Lemma structs_all : forall m items sub n s, module_at items m = Some sub -> entry n sub = Some (R_struct s) -> In (m, n) (structs items).
Proof.
  induction m as [|k m IH]; intros items sub n s M E; cbn [module_at] in M.
  - injection M as ->. apply entry_in in E. apply in_flat_map. exists (n, R_struct s). split; [exact E|left; reflexivity].
  - destruct (entry k items) as [[]|] eqn:Ek; try discriminate. apply entry_in in Ek. apply in_flat_map. eexists. split; [exact Ek|].
    cbn [item_structs fst snd]. apply in_map_iff. exists (m, n). split; [reflexivity|]. eapply IH; eassumption.
Qed.

Section Env.
Variable items : list (text * ritem).
Variable unicode : list text.
Variable id : list text -> text -> rule.
Notation read := (read_type items unicode id).

Definition read_env (fuel : nat) (r : rule) : rule_def :=
  match find (fun mn => N.eqb (id (fst mn) (snd mn)) r) (structs items) with
  | Some (m, n) =>
      match module_at items m with
      | Some sub =>
          match entry n sub with
          | Some (R_struct s) =>
              mkRule (gs_silent s) (fun ns => match read fuel m (combine (gs_params s) ns) (gs_inner s) with Some (M_node n) => n | _ => Empty end)
          | _ => mkRule false (fun _ => Empty)
          end
      | None => mkRule false (fun _ => Empty)
      end
  | None => mkRule false (fun _ => Empty)
  end.

Hypothesis Inj : forall m n m' n', In (m, n) (structs items) -> In (m', n') (structs items) -> id m n = id m' n' -> m = m' /\ n = n'.
Lemma read_env_reads : forall fuel,
  (forall m s, is_struct items m s -> exists n, read fuel m (combine (gs_params s) (map (fun _ => Empty) (gs_params s))) (gs_inner s) = Some (M_node n)) ->
  reads_rules items unicode id (read_env fuel).
Proof.
  intros fuel R. assert (In_st : forall m s, is_struct items m s -> In (m, gs_name s) (structs items)) by (intros m s (sub & M & E); eapply structs_all; eassumption).
  split.
  - intros m s m' s' S S' E. destruct (Inj _ _ _ _ (In_st _ _ S) (In_st _ _ S') E) as (-> & N). split; [reflexivity|].
    destruct S as (sub & M & En), S' as (sub' & M' & En'). congruence.
  - intros m s S. assert (F : find (fun mn => N.eqb (id (fst mn) (snd mn)) (id m (gs_name s))) (structs items) = Some (m, gs_name s)).
    { destruct (find (fun mn => N.eqb (id (fst mn) (snd mn)) (id m (gs_name s))) (structs items)) as [(m', n')|] eqn:F.
      - apply find_some in F. destruct F as (I & E). apply N.eqb_eq in E. destruct (Inj _ _ _ _ I (In_st _ _ S) E) as (-> & ->). reflexivity.
      - exfalso. assert (H := find_none _ _ F _ (In_st _ _ S)). cbn [fst snd] in H. rewrite N.eqb_refl in H. discriminate. }
    assert (S' := S). destruct S' as (sub & M & En). unfold read_env. rewrite F, M, En. cbn [rd_silent rd_body]. split; [reflexivity|].
    intros ns L. exists fuel. destruct (R m s S) as (n & Rn).
    assert (Keys : map fst (combine (gs_params s) (map (fun _ => Empty) (gs_params s))) = map fst (combine (gs_params s) ns)).
    { clear - L. revert ns L. induction (gs_params s) as [|p ps IH]; intros [|n ns] L; try discriminate; [reflexivity|]. cbn in *. f_equal. apply IH. lia. }
    destruct (read_alike items unicode id fuel m _ _ _ _ Keys Rn) as (d & -> & A). destruct d; [reflexivity|contradiction].
Qed.
End Env.

(** * Every emitted struct can be read *)
Lemma in_sub_items : forall rm o k i, In (k, i) (sub_items rm o) ->
  (exists t, i = R_alias t) \/ (exists o', In (k, o') (o_modules o) /\ i = R_mod (fst (collect_output rm o')) (snd (collect_output rm o'))) \/
  exists s, In s (o_content o) /\ k = gs_name s /\ i = R_struct s.
Proof.
  intros rm o k i H. unfold sub_items in H. apply in_app_or in H. destruct H as [[H|[H|[]]]|H]; try (injection H as <- <-; left; eauto).
  apply in_app_or in H. destruct H as [H|H]; apply in_map_iff in H.
  - destruct H as ((k', o') & E & I). unfold child_item in E. cbn [fst snd] in E. injection E as <- <-. right. left. eauto.
  - destruct H as (s & E & I). injection E as <- <-. right. right. eauto.
Qed.
Lemma in_output : forall rm o k i, In (k, i) (fst (collect_output rm o)) ->
  (exists v, i = R_enum v) \/ (k = types_mod rm /\ exists impls, i = R_mod (sub_items rm o) impls).
Proof.
  intros rm o k i H. destruct (collect_output_eq rm o) as (impls & E). rewrite E in H. destruct H as [H|[H|[]]]; injection H as <- <-; [left|right]; eauto.
Qed.

Section Structs.
Variable config : gconfig.
Variable fuel : nat.
Variable unicode : list text.
Variable T : gtracker.
Variable top : gmodule.
Variable o_top : output.
Notation rm := (rules_mod config).
Notation tm := (types_mod rm).
Notation items := (all_items config T o_top).
Hypothesis Types : fine_types_mod tm top.
Notation emitted := (emitted config fuel unicode T top o_top).
Notation made := (struct_made config fuel unicode T o_top).

Lemma struct_inside : forall k m' mp depth g coll sub sub' s, length m' <= k -> emitted mp depth g coll -> module_at items mp = Some sub ->
  module_at sub m' = Some sub' -> entry (gs_name s) sub' = Some (R_struct s) ->
  exists depth' g' coll' r, emitted (mp ++ m') depth' g' coll' /\ In r (g_rules g') /\ ~ is_trivia_rule r /\ made (mp ++ m') depth' g' coll' r s.
Proof.
  induction k as [|k IH]; intros m' mp depth g coll sub sub' s L E A M En.
  - destruct m'; [|cbn in L; lia]. rewrite app_nil_r. injection M as ->. exists depth, g, coll.
    assert (E' := E). destruct E' as (o & Md & A' & _). rewrite A in A'. injection A' as ->.
    assert (I := entry_in _ _ _ En). apply in_sub_items in I.
    destruct I as [(t & Q)|[(o' & _ & Q)|(s0 & I & _ & Q)]]; try discriminate. injection Q as <-.
    inversion Md as [d0 g0 o0 c0 reach Re _ _ _ _ _ _ _ Ct _ _ _]. subst.
    destruct (forall2_right _ _ _ _ Ct I) as (r & Ir & i & B & Es). apply plain_in in Ir. destruct Ir as (Ir & Nt).
    exists r. split; [exact E|]. split; [exact Ir|]. split; [exact Nt|]. exists reach, i. split; [exact Re|]. split; [exact B|]. split; [exact Es|].
    exists (sub_items rm o). split; [exact A|]. rewrite Es in En at 1. exact En.
  - destruct m' as [|a m']; [apply (IH [] mp depth g coll sub sub' s); [cbn; lia|assumption..]|].
    cbn [module_at] in M. destruct (entry a sub) as [[its impls| | | | | | |]|] eqn:Ea; try discriminate.
    assert (E' := E). destruct E' as (o & Md & A' & _ & Lo & _). rewrite A in A'. injection A' as ->.
    assert (Ia := entry_in _ _ _ Ea). apply in_sub_items in Ia.
    destruct Ia as [(t & Q)|[(o' & Io & Q)|(s0 & _ & _ & Q)]]; try discriminate. injection Q as -> _.
    destruct m' as [|b m'].
    + injection M as <-. exfalso. assert (I := entry_in _ _ _ En). apply in_output in I. destruct I as [(v & Q)|(_ & imp & Q)]; discriminate.
    + cbn [module_at] in M. destruct (entry b (fst (collect_output rm o'))) as [[its' impls'| | | | | | |]|] eqn:Eb; try discriminate.
      assert (Ib := entry_in _ _ _ Eb). apply in_output in Ib. destruct Ib as [(v & Q)|(-> & imp & Q)]; [discriminate|]. injection Q as -> ->.
      assert (exists g', In (File a g') (g_imports g)) as (g' & If).
      { inversion Md as [d0 g0 o0 c0 reach _ _ Md' _ _ _ _ _ _ _ _ _]. subst. eapply Md', Io. }
      destruct (emitted_child config fuel unicode T top o_top Types _ _ _ _ _ _ E If) as (c & Ec & _).
      rewrite <- (types_rules config top Types _ _ _ _ Lo If) in Ec.
      assert (Ac : module_at items (mp ++ [a; tm]) = Some (sub_items rm o')).
      { rewrite module_at_app, A. cbn [module_at]. rewrite Ea, Eb. reflexivity. }
      destruct (IH m' (mp ++ [a; tm]) _ _ _ _ sub' s ltac:(cbn in L; lia) Ec Ac M En) as (d' & g2 & c2 & r & X).
      rewrite <- app_assoc in X. exists d', g2, c2, r. exact X.
Qed.
Lemma struct_located : forall coll, Made config fuel unicode T 0 top o_top coll -> fine unicode top ->
  forall m s, is_struct items m s ->
  exists depth g coll' r, emitted m depth g coll' /\ In r (g_rules g) /\ ~ is_trivia_rule r /\ made m depth g coll' r s.
Proof.
  intros coll Md Fi m s (sub & M & En). assert (Et := emitted_top config fuel unicode T top o_top Types coll Md Fi).
  assert (Tr : forall k i, In (k, i) (collect_tracker T) -> (exists l impls, i = R_mod l impls /\ forall k i, In (k, i) l -> (forall s, i <> R_struct s) /\ forall a b, i <> R_mod a b) \/ exists p, i = R_use p).
  { intros k i [H|[H|[H|[]]]]; apply (f_equal snd) in H; cbn [snd] in H; subst i; [left|right; eauto|left]; do 2 eexists; (split; [reflexivity|]); clear k; intros k i I.
    - apply in_map_iff in I. destruct I as (ws & E & _). injection E as <- <-. split; intros; discriminate.
    - apply in_app_or in I. destruct I as [I|I]; [|apply in_app_or in I; destruct I as [I|I]]; unfold fill in *; apply in_map_iff in I; destruct I as (n & E & _);
        injection E as <- <-; try destruct (16 <? n); split; intros; discriminate. }
  destruct m as [|a m]; cbn [module_at] in M.
  - injection M as <-. exfalso. apply entry_in in En. unfold all_items in En. apply in_app_or in En. destruct En as [I|I].
    + apply in_output in I. destruct I as [(v & Q)|(_ & imp & Q)]; discriminate.
    + destruct (Tr _ _ I) as [(l & imp & Q & _)|(p & Q)]; discriminate.
  - destruct (entry a items) as [[its impls| | | | | | |]|] eqn:Ea; try discriminate. assert (Ia := entry_in _ _ _ Ea). unfold all_items in Ia. apply in_app_or in Ia.
    destruct Ia as [I|I].
    + apply in_output in I. destruct I as [(v & Q)|(-> & imp & Q)]; [discriminate|]. injection Q as -> ->.
      apply (struct_inside (length m) m [tm] 0 top coll (sub_items rm o_top) sub s (le_n _) Et); [|exact M|exact En].
      cbn [module_at]. rewrite Ea. reflexivity.
    + exfalso. destruct (Tr _ _ I) as [(l & imp & Q & No)|(p & Q)]; [|discriminate]. injection Q as -> ->.
      destruct m as [|b m]; cbn [module_at] in M.
      * injection M as <-. apply entry_in in En. destruct (No _ _ En) as (X & _). exact (X s eq_refl).
      * destruct (entry b l) as [[]|] eqn:Eb; try discriminate. apply entry_in in Eb. destruct (No _ _ Eb) as (_ & X). exact (X _ _ eq_refl).
Qed.
End Structs.

(** One amount of fuel for all structs, then one reading. *)
Definition nothing : closure := Clo (mkModule [] [] [] []) [] (PStr []).
Lemma enough_fuel : forall {A : Type} (P : nat -> A -> Prop) l, (forall k k' a, k <= k' -> P k a -> P k' a) ->
  (forall a, In a l -> exists k, P k a) -> exists k, forall a, In a l -> P k a.
Proof.
  intros A P l Mo. induction l as [|a l IH]; intro H; [exists 0; intros a []|].
  destruct (H a (or_introl eq_refl)) as (k & Pk). destruct IH as (k' & Pk'); [intros b I; apply H; right; exact I|].
  exists (k + k'). intros b [<-|I]; [eapply Mo; [|exact Pk]; lia|eapply Mo; [|apply Pk', I]; lia].
Qed.
Theorem readable : forall config fuel unicode g items,
  generate_items config fuel unicode g = Ret items ->
  fine unicode g -> fine_types_mod (types_mod (rules_mod config)) g -> distinct_properties unicode ->
  forall id, (forall m n m' n', id m n = id m' n' -> m = m' /\ n = n') ->
  exists env, reads_rules items unicode id env.
Proof.
  intros config fuel unicode g items H Fi Ty Pr id Inj.
  unfold generate_items, generate_output in H. destruct (existsb _ (raw_names g)); [discriminate H|].
  destruct (process_rules config fuel (make_global unicode) [lit "super"] 0 g gt_new) as [((o, coll), tr)| |] eqn:P; try discriminate. cbn [obind] in H. injection H as <-.
  destruct (process_rules_spec config fuel unicode (builtin_resolves_all unicode Pr) g 0 gt_new o coll tr P Fi good_new) as (Tg & _ & M).
  specialize (M tr (extends_refl tr)). change (fst (collect_output (rules_mod config) o) ++ collect_tracker tr) with (all_items config tr o).
  set (good k mn := forall s, is_struct (all_items config tr o) (fst mn) s -> gs_name s = snd mn ->
    exists n, read_type (all_items config tr o) unicode id k (fst mn) (combine (gs_params s) (map (fun _ => Empty) (gs_params s))) (gs_inner s) = Some (M_node n)).
  destruct (enough_fuel good (structs (all_items config tr o))) as (k & Rk).
  - intros k k' mn L Gd s S N. destruct (Gd s S N) as (n & R). exists n. eapply read_more; [exact L|exact R].
  - intros (m, n) _. destruct (module_at (all_items config tr o) m) as [sub|] eqn:A.
    + destruct (entry n sub) as [[| s | | | | | |]|] eqn:E; try (exists 0; intros s (sub' & A' & E') N; cbn [fst snd] in *; rewrite A in A'; injection A' as <-; rewrite N, E in E'; discriminate).
      destruct (teqb (gs_name s) n) as [N|N];
        [|exists 0; intros s' (sub' & A' & E') N'; cbn [fst snd] in *; rewrite A in A'; injection A' as <-; rewrite N', E in E'; injection E' as <-; congruence].
      assert (S : is_struct (all_items config tr o) m s) by (exists sub; split; [exact A|rewrite N; exact E]).
      destruct (struct_located config fuel unicode tr g o Ty coll M Fi m s S) as (depth & g' & c & r & Em & Ir & Nt & Sm).
      assert (Ps : gs_params s = pr_args r) by (destruct Sm as (reach & i & _ & _ & -> & _); reflexivity).
      destruct (body_read config fuel unicode tr g o (fun _ _ => false) (fun _ => mkRule false (fun _ => Empty)) id (fun _ _ _ _ => True) Ty Pr Tg (fun _ _ _ _ _ _ _ _ _ => I)
        m depth g' c Em r s (map (fun _ => nothing) (pr_args r)) (map (fun _ => Empty) (pr_args r)) Ir Sm) as (k & n' & R & _).
      * rewrite map_length. reflexivity.
      * clear. induction (pr_args r) as [|x l IH]; constructor; [|exact IH]. apply K_leaf, I.
      * exists k. intros s' (sub' & A' & E') N'. cbn [fst snd] in *. rewrite A in A'. injection A' as <-. rewrite N', E in E'. injection E' as <-.
        exists n'. rewrite <- Ps in R. exact R.
    + exists 0. intros s (sub' & A' & _). cbn [fst] in A'. congruence.
  - exists (read_env (all_items config tr o) unicode id k). apply read_env_reads.
    + intros; apply Inj; assumption.
    + intros m s S. assert (I : In (m, gs_name s) (structs (all_items config tr o))) by (destruct S as (sub & A & E); eapply structs_all; eassumption).
      exact (Rk _ I s S eq_refl).
Qed.
Lemma code_inj : forall m n m' n', code m n = code m' n' -> m = m' /\ n = n'.
Proof. intros m n m' n' H. apply path_code_inj in H. injection H as -> ->. split; reflexivity. Qed.

(** * A reading by computation, for the examples *)
Definition eq_struct (a b : list text * text) : bool :=
  if list_eq_dec (list_eq_dec N.eq_dec) (snd a :: fst a) (snd b :: fst b) then true else false.
Fixpoint number (x : list text * text) (l : list (list text * text)) (i : N) : N :=
  match l with [] => 0%N | y :: r => if eq_struct x y then i else number x r (i + 1)%N end.
Definition numbered (items : list (text * ritem)) (m : list text) (n : text) : rule := number (m, n) (structs items) 1%N.
Lemma reads_node : forall o, match o with Some (M_node _) => true | _ => false end = true -> exists n, o = Some (M_node n).
Proof. intros [[n|]|] H; try discriminate. exists n. reflexivity. Qed.
Definition check_reads (items : list (text * ritem)) (unicode : list text) (id : list text -> text -> rule) (fuel : nat) : bool :=
  forallb (fun a => forallb (fun b => negb (N.eqb (id (fst a) (snd a)) (id (fst b) (snd b))) || eq_struct a b) (structs items)) (structs items) &&
  forallb (fun mn =>
    match module_at items (fst mn) with
    | Some sub => match entry (snd mn) sub with
        | Some (R_struct s) => match read_type items unicode id fuel (fst mn) (combine (gs_params s) (map (fun _ => Empty) (gs_params s))) (gs_inner s) with
            | Some (M_node _) => true | _ => false end
        | _ => false end
    | None => false end) (structs items).
Lemma check_reads_spec : forall items unicode id fuel, check_reads items unicode id fuel = true -> reads_rules items unicode id (read_env items unicode id fuel).
Proof.
  intros items unicode id fuel H. apply andb_prop in H. destruct H as (A & B). apply read_env_reads.
  - intros m n m' n' I I' E. rewrite forallb_forall in A. specialize (A _ I). rewrite forallb_forall in A. specialize (A _ I'). cbn [fst snd] in A.
    rewrite E, N.eqb_refl in A. cbn [negb orb] in A. unfold eq_struct in A. cbn [fst snd] in A.
    destruct (list_eq_dec (list_eq_dec N.eq_dec) (n :: m) (n' :: m')) as [Q|]; [|discriminate]. injection Q as -> ->. split; reflexivity.
  - intros m s S. assert (I : In (m, gs_name s) (structs items)) by (destruct S as (sub & M & E); eapply structs_all; eassumption).
    rewrite forallb_forall in B. specialize (B _ I). cbn [fst snd] in B. destruct S as (sub & M & E). rewrite M, E in B. apply reads_node, B.
Qed.

(** * Which structs are boxed *)
Definition struct_at (items : list (text * ritem)) (mn : list text * text) : option gstruct :=
  match module_at items (fst mn) with
  | Some sub => match entry (snd mn) sub with Some (R_struct s) => if text_eqb (gs_name s) (snd mn) then Some s else None | _ => None end
  | None => None
  end.
Lemma struct_at_spec : forall items m n s, struct_at items (m, n) = Some s <-> is_struct items m s /\ gs_name s = n.
Proof.
  intros items m n s. unfold struct_at, is_struct. cbn [fst snd]. destruct (module_at items m) as [sub|]; [|split; [discriminate|intros ((? & ? & _) & _); discriminate]].
  split.
  - destruct (entry n sub) as [[| s' | | | | | |]|] eqn:E; try discriminate. destruct (teqb (gs_name s') n) as [N|N]; try discriminate. intro Q. injection Q as <-.
    split; [|exact N]. exists sub. split; [reflexivity|]. rewrite N. exact E.
  - intros ((sub' & Q & E) & N). injection Q as <-. rewrite N in E. rewrite E. destruct (teqb (gs_name s) n); [reflexivity|contradiction].
Qed.
Definition boxes_of (items : list (text * ritem)) (id : list text -> text -> rule) (r : rule) : bool :=
  existsb (fun mn => match struct_at items mn with Some s => N.eqb (id (fst mn) (snd mn)) r && gs_boxed s | None => false end) (structs items).
Lemma boxes_of_spec : forall items unicode id env, reads_rules items unicode id env ->
  forall m s, is_struct items m s -> boxes_of items id (id m (gs_name s)) = gs_boxed s.
Proof.
  intros items unicode id env (U & _) m s S. unfold boxes_of. apply eq_true_iff_eq. rewrite existsb_exists. split.
  - intros ((m', n') & _ & B). destruct (struct_at items (m', n')) as [s'|] eqn:A; [|discriminate]. apply struct_at_spec in A. destruct A as (S' & <-).
    cbn [fst snd] in B. apply andb_prop in B. destruct B as (E & B). apply N.eqb_eq in E. destruct (U _ _ _ _ S' S E) as (_ & ->). exact B.
  - intro B. exists (m, gs_name s). split; [destruct S as (sub & A & E); eapply structs_all; eassumption|].
    assert (A : struct_at items (m, gs_name s) = Some s) by (apply struct_at_spec; split; [exact S|reflexivity]).
    rewrite A. cbn [fst snd]. rewrite N.eqb_refl, B. reflexivity.
Qed.
