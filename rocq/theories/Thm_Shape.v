(** C44: the shape of the types of accessor functions (generator/src/typed/getter.rs). *)
From Coq Require Import String List NArith ZArith Arith Bool Lia.
From Verif Require Import Model_Text Model_Message Model_Meta Model_Import Model_Node Model_Generator Model_Output
  Spec_Text Spec_Peg Spec_Rust Spec_Grammar_Peg Spec_Occur Spec_Generator Spec_Getter Spec_Shape
  Proof_Text Proof_Emit Proof_Process Proof_Names Proof_Place Proof_Resolve Proof_Accept Proof_Getter Proof_Exists Proof_Shape
  Example_Generator Example_Fine Thm_Generated Thm_Getter.
Import ListNotations.
Open Scope list_scope.

(** The type that an accessor declares has the shape that the body of the rule asks for, and no other. In
    particular no option is directly in an option, and tuples have at least two components. *)
Theorem C44_shape : forall config fuel unicode g items,
  generate_items config fuel unicode g = Ret items ->
  fine unicode g -> fine_types_mod (types_mod (rules_mod config)) g -> distinct_properties unicode ->
  forall m h r s, located (types_mod (rules_mod config)) g m h -> In r (g_rules h) -> ~ is_trivia_rule r ->
  is_struct items m s -> gs_name s = pr_name r ->
  forall a, In a (gs_accessors s) ->
  (forall sh, shaped unicode h (pr_args r) (ac_name a) (n_expr (pr_node r)) sh <-> sh = shape_of (ac_type a)) /\ plain (shape_of (ac_type a)).
Proof.
  intros config fuel unicode g items H Fi Ty D m h r s Lo Ir Nt Is Sn a Ia.
  destruct (C36_readable _ _ _ _ _ H Fi Ty D) as (id & env & _). destruct (generated _ _ _ _ _ H Fi D) as (T & o & coll & -> & Tg & M).
  assert (S := struct_shapes config fuel unicode T g o env id Ty D Tg coll M Fi m h r s Lo Ir Nt Is Sn a Ia). split.
  - intro sh. split; [|intros ->; exact S]. intro Q. exact (proj1 (shaped_once _ _ _ _) _ _ S _ Q).
  - exact (proj1 (shaped_plain _ _ _ _) _ _ S).
Qed.
Print Assumptions C44_shape.

(** In the rule [pick = a | b - a?] the name [a] is mentioned in both alternatives, the second one having
    it in an option already. In [many(x) = &a - (x | a)* - !b] the accessor [x] returns a vector of options. *)
Example C44_shapes :
  (forall sh, shaped sample_unicode pick_grammar [] (lit "a") (n_expr (pr_node (nth 2 pick_rules (rl "" [] (str ""))))) sh <->
     sh = Sh_tuple [Sh_option Sh_ref; Sh_option Sh_ref]) /\
  (forall sh, shaped sample_unicode pick_grammar [lit "x"] (lit "x") (n_expr (pr_node (nth 3 pick_rules (rl "" [] (str ""))))) sh <->
     sh = Sh_vec (Sh_option Sh_ref)).
Proof.
  assert (Lo : located (types_mod (rules_mod box_needed)) pick_grammar [lit "rules"] pick_grammar) by constructor.
  destruct C44_types as (T1 & T2). split.
  - destruct (C44_structs (lit "pick") (or_introl eq_refl)) as (Is & Sn).
    set (r := nth 2 pick_rules (rl "" [] (str ""))). assert (Ir : In r (g_rules pick_grammar)) by (do 2 right; left; reflexivity).
    assert (Nt : ~ is_trivia_rule r) by (intros [E|E]; discriminate).
    destruct (gs_accessors (pick_struct (lit "pick"))) as [|a l] eqn:Ea; [discriminate T1|]. cbn [map] in T1. injection T1 as Na Ta _.
    assert (Ia : In a (gs_accessors (pick_struct (lit "pick")))) by (rewrite Ea; left; reflexivity).
    destruct (C44_shape _ _ _ _ _ C44_generated pick_fine (or_introl eq_refl) sample_distinct _ _ r _ Lo Ir Nt Is Sn a Ia) as (S & _). rewrite Na, Ta in S. exact S.
  - destruct (C44_structs (lit "many") (or_intror (or_introl eq_refl))) as (Is & Sn).
    set (r := nth 3 pick_rules (rl "" [] (str ""))). assert (Ir : In r (g_rules pick_grammar)) by (do 3 right; left; reflexivity).
    assert (Nt : ~ is_trivia_rule r) by (intros [E|E]; discriminate).
    destruct (gs_accessors (pick_struct (lit "many"))) as [|a [|b l]] eqn:Ea; try discriminate T2. cbn [map] in T2. injection T2 as _ _ Nb Tb _.
    assert (Ib : In b (gs_accessors (pick_struct (lit "many")))) by (rewrite Ea; right; left; reflexivity).
    destruct (C44_shape _ _ _ _ _ C44_generated pick_fine (or_introl eq_refl) sample_distinct _ _ r _ Lo Ir Nt Is Sn b Ib) as (S & _). rewrite Nb, Tb in S. exact S.
Qed.
