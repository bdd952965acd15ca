(** C38: the emitted structs have a size (generator/src/typed/generator.rs). *)
From Coq Require Import String List NArith ZArith Arith Bool Lia Relations.
From Verif Require Import Model_Text Model_Message Model_Meta Model_Import Model_Tracker Model_Node Model_Generator Model_Output
  Spec_Text Spec_Peg Spec_Rust Spec_Grammar_Peg Spec_Occur Spec_Generator Spec_Layout
  Proof_Text Proof_Emit Proof_Box Proof_Process Proof_Names Proof_Place Proof_Resolve Proof_Compile Proof_Leaf Proof_Read Proof_Exists Proof_Layout
  Example_Generator Example_Fine Thm_Generated.
Import ListNotations.
Open Scope list_scope.

(** The boxes of the emitted program. *)
Definition reads_boxes (items : list (text * ritem)) (id : list text -> text -> rule) (boxed : rule -> bool) : Prop :=
  forall m s, is_struct items m s -> boxed (id m (gs_name s)) = gs_boxed s.

(** The struct of a rule, applied to types that have a size, has a size. *)
Theorem C38_sized : forall config fuel unicode g items,
  generate_items config fuel unicode g = Ret items ->
  fine unicode g -> fine_types_mod (types_mod (rules_mod config)) g -> distinct_properties unicode ->
  forall id env boxed, reads_rules items unicode id env -> reads_boxes items id boxed ->
  forall m g' r, located (types_mod (rules_mod config)) g m g' -> In r (g_rules g') -> ~ is_trivia_rule r ->
  forall ns, length ns = length (pr_args r) -> (forall n, In n ns -> sized env boxed n) ->
  sized env boxed (Rule (id m (pr_name r)) ns).
Proof.
  intros config fuel unicode g items H Fi Ty D id env boxed Rr Rb m g' r Lo Ir Nt ns L A.
  unfold generate_items, generate_output in H. destruct (existsb _ (raw_names g)); [discriminate H|].
  destruct (process_rules config fuel (make_global unicode) [lit "super"] 0 g gt_new) as [((o, coll), tr)| |] eqn:P; try discriminate. cbn [obind] in H. injection H as <-.
  destruct (process_rules_spec config fuel unicode (builtin_resolves_all unicode D) g 0 gt_new o coll tr P Fi good_new) as (Tg & _ & M).
  specialize (M tr (extends_refl tr)). change (fst (collect_output (rules_mod config) o) ++ collect_tracker tr) with (all_items config tr o) in Rr, Rb.
  assert (B := bodies_read config fuel unicode tr g o (fun _ _ => false) env id (fun _ _ _ n => sized env boxed n)
    Ty D Tg (fun _ _ _ n Lf _ _ _ _ => sized_leaf env boxed n Lf) coll M Fi Rr).
  assert (Fi' : fine unicode g').
  { clear - Fi Lo. induction Lo as [|m g1 alias g2 Lo IH J]; [exact Fi|]. destruct IH as [g1 _ _ _ _ _ _ _ _ Sub]. eapply Sub, J. }
  apply (names_small config unicode g env boxed id B) with (g := g') (g' := g') (p := [pr_name r]); [|exact Fi'|constructor; assumption|exact Lo|exact L|exact A].
  intros mp g1 r1 Lo1 Ir1 Nt1. destruct (located_emitted config fuel unicode tr g o Ty coll M Fi mp g1 Lo1) as (depth & c & Em).
  destruct (emitted_struct config fuel unicode tr g o _ _ _ _ r1 Em Ir1 Nt1) as (s & reach & i & Re & _ & -> & sub & At & En).
  exists reach. split; [exact Re|]. intro F. assert (Is : is_struct (all_items config tr o) mp (create_rule config reach depth r1 i)).
  { exists sub. split; [exact At|exact En]. }
  specialize (Rb _ _ Is). cbn [create_rule gs_name gs_boxed] in Rb. rewrite Rb in F. apply orb_false_elim in F. destruct F as (_ & F).
  intro N. rewrite N in F. discriminate.
Qed.
Print Assumptions C38_sized.

Lemma sized_acyclic : forall env boxed n, sized env boxed n -> ~ holds_inside env boxed n n.
Proof.
  intros env boxed n S. induction S as [n _ IH]. intro T. apply clos_trans_t1n in T. assert (T' := T).
  inversion T as [? D|m ? D T2]; subst.
  - eapply IH; [exact D|]. apply t_step, D.
  - eapply IH; [exact D|]. apply t_trans with n; [apply clos_t1n_trans, T2|apply t_step, D].
Qed.
(** No struct holds itself by value. *)
Theorem C38_not_inside : forall config fuel unicode g items,
  generate_items config fuel unicode g = Ret items ->
  fine unicode g -> fine_types_mod (types_mod (rules_mod config)) g -> distinct_properties unicode ->
  forall id env boxed, reads_rules items unicode id env -> reads_boxes items id boxed ->
  forall m g' r, located (types_mod (rules_mod config)) g m g' -> In r (g_rules g') -> ~ is_trivia_rule r -> pr_args r = [] ->
  ~ holds_inside env boxed (Rule (id m (pr_name r)) []) (Rule (id m (pr_name r)) []).
Proof.
  intros config fuel unicode g items H Fi Ty D id env boxed Rr Rb m g' r Lo Ir Nt Na. apply sized_acyclic.
  eapply C38_sized; try eassumption; [rewrite Na; reflexivity|intros n []].
Qed.
Print Assumptions C38_not_inside.

(** In the sample, boxed only where needed, [item] is the one boxed rule. If it were not, it would hold
    itself: in [paren] there is a [sum], and in this an [item]. *)
Definition layout_items : list (text * ritem) :=
  match generate_items box_needed 9 sample_unicode sample_main with Ret items => items | _ => [] end.
Definition layout_id : list text -> text -> rule := numbered layout_items.
Definition layout_env : rule -> rule_def := read_env layout_items sample_unicode layout_id 20.
Example C38_sized_ex :
  generate_items box_needed 9 sample_unicode sample_main = Ret layout_items /\
  reads_rules layout_items sample_unicode layout_id layout_env /\ reads_boxes layout_items layout_id (boxes_of layout_items layout_id) /\
  map (fun mn => (snd mn, boxes_of layout_items layout_id (layout_id (fst mn) (snd mn)))) (structs layout_items) =
    [(lit "item", true); (lit "paren", false); (lit "sum", false); (lit "word", false); (lit "lines", false); (lit "all", false)] /\
  let item := Rule (layout_id [lit "rules"; lit "s"; lit "rules"] (lit "item")) [] in
  sized layout_env (boxes_of layout_items layout_id) item /\ holds_inside layout_env (fun _ => false) item item.
Proof.
  assert (G : generate_items box_needed 9 sample_unicode sample_main = Ret layout_items) by (vm_compute; reflexivity).
  assert (R : reads_rules layout_items sample_unicode layout_id layout_env) by (apply check_reads_spec; vm_compute; reflexivity).
  assert (B : reads_boxes layout_items layout_id (boxes_of layout_items layout_id)) by (intros m s; eapply boxes_of_spec, R).
  split; [exact G|]. split; [exact R|]. split; [exact B|]. split; [vm_compute; reflexivity|]. cbv zeta. split.
  - apply (C38_sized _ _ _ _ _ G sample_main_fine (or_introl eq_refl) sample_distinct _ _ _ R B _ sample
      (rl "item" [] (alt (PRange 97%N 122%N) (call ["paren"%string] [nm "sum"])))); [|right; right; left; reflexivity|intros [E|E]; discriminate|reflexivity|intros n []].
    eapply (Loc_file _ _ [lit "rules"]); [constructor|left; reflexivity].
  - assert (Next : forall a b, In b (match a with
        | Rule r args => [rd_body (layout_env r) args] | Choice l => l | Seq fs => map fst fs | _ => [] end) -> holds layout_env (fun _ => false) a b).
    { intros a b I. destruct a; try destruct I as []; try (constructor; exact I).
      - apply in_map_iff in I. destruct I as ((t & tr) & <- & I). econstructor. exact I.
      - subst b. constructor. reflexivity.
      - contradiction. }
    assert (Path : forall l a b, (fix go (a : node) (l : list nat) : option node :=
        match l with [] => Some a
        | i :: r => match nth_error (match a with
            | Rule r args => [rd_body (layout_env r) args] | Choice l => l | Seq fs => map fst fs | _ => [] end) i with Some b => go b r | None => None end end) a l = Some b ->
      l <> [] -> holds_inside layout_env (fun _ => false) a b).
    { induction l as [|i l IH]; intros a b E N; [congruence|]. destruct (nth_error _ i) as [c|] eqn:Ei; [|discriminate].
      apply nth_error_In, Next in Ei. destruct l as [|j l]; [injection E as <-; apply t_step, Ei|].
      eapply t_trans; [apply t_step, Ei|]. apply IH; [exact E|discriminate]. }
    apply (Path [0; 1; 0; 1; 0; 0]); [vm_compute; reflexivity|discriminate].
Qed.
