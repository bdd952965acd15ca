(** Theorems about names that cannot be identifiers of Rust (generator/src/typed/generator.rs
    [process_single_rule], [process_expr], generator/src/common.rs). *)
From Coq Require Import String List NArith Arith Bool Lia.
From Verif Require Import Model_Text Model_Message Model_Meta Model_Grammar Model_Import Model_Generator Model_Output Model_Inline Model_Pest2 Model_Derive
  Spec_Text Spec_Grammar_Peg Spec_Occur Spec_Generator Spec_Inline Spec_Accepted Spec_Import Spec_Written Spec_Derive Spec_Whole
  Proof_Emit Proof_Raw Example_Generator Example_Fine Example_Inline Thm_Written Thm_Inline Thm_Pest2 Thm_Derive Thm_Whole.
Import ListNotations.
Open Scope list_scope.

(** The names that Rust does not allow as raw identifiers. *)
Definition never_raw (x : text) : Prop :=
  x = lit "self" \/ x = lit "Self" \/ x = lit "super" \/ x = lit "crate" \/ x = lit "_".

(** The names that a grammar gives, but for silent rules with parameters in the main file. *)
Inductive gives (g : gmodule) : text -> Prop :=
| Gives_rule r : In r (g_rules g) -> ~ is_trivia_rule r -> ~ macro g r -> gives g (pr_name r)
| Gives_param r x : In r (g_rules g) -> ~ is_trivia_rule r -> ~ macro g r -> In x (pr_args r) -> gives g x
| Gives_file alias g' : In (File alias g') (g_imports g) -> gives g alias
| Gives_inside alias g' x : In (File alias g') (g_imports g) -> bears g' x -> gives g x.

Lemma bears_panic : forall config k unicode g x, bears g x -> never_raw x -> generate_items config k unicode g = Panic.
Proof.
  intros config k unicode g x B N. unfold generate_items, generate_output.
  assert (E : existsb (fun y => text_in y not_raw) (raw_names g) = true).
  { apply existsb_exists. exists x. split; [apply bears_raw, B|]. apply (reflect_iff _ _ (text_in_spec _ _)).
    unfold never_raw, not_raw in *. cbn [map In]. intuition congruence. }
  rewrite E. reflexivity.
Qed.

Lemma forall2_left : forall (A B : Type) (R : A -> B -> Prop) l l' x, Forall2 R l l' -> In x l -> exists y, In y l' /\ R x y.
Proof.
  intros A B R l l' x F. induction F as [|a b l l' Rab F IH]; intros [].
  - subst a. exists b. split; [left; reflexivity|exact Rab].
  - destruct (IH H) as (y & I & Ry). exists y. split; [right; exact I|exact Ry].
Qed.

Lemma gives_bears : forall fuel g g' x, inline_macros fuel g = Ret g' -> gives g x -> bears g' x.
Proof.
  intros fuel g g' x E G. destruct (C40_removed fuel g g' E) as (_ & Im & kept & K & F).
  assert (R : forall r, In r (g_rules g) -> ~ macro g r -> exists r', In r' (g_rules g') /\ pr_name r' = pr_name r /\ pr_args r' = pr_args r).
  { intros r I N. destruct (forall2_left _ _ _ _ _ r F) as (r' & I' & En & Ea & _); [apply K; auto|]. exists r'. auto. }
  destruct G as [r I N M|r x I N M J|alias h I|alias h x I B].
  - destruct (R r I M) as (r' & I' & En & _). rewrite <- En. apply Bears_rule; [exact I'|]. unfold is_trivia_rule in *. rewrite En. exact N.
  - destruct (R r I M) as (r' & I' & En & Ea). apply (Bears_param g' r'); [exact I'| |rewrite Ea; exact J]. unfold is_trivia_rule in *. rewrite En. exact N.
  - apply (Bears_file g' alias h). rewrite Im. exact I.
  - apply (Bears_inside g' alias h); [rewrite Im; exact I|exact B].
Qed.

(** C84: a grammar that gives one of these names to a rule, a parameter or a file is not generated. *)
Theorem C84_rejected : forall config fuel unicode g x, gives g x -> never_raw x ->
  forall items, generate_typed config fuel unicode g <> Ret items.
Proof.
  intros config fuel unicode g x G N items H. unfold generate_typed in H. destruct (inline_macros fuel g) as [g'| |] eqn:E; try discriminate.
  cbn [obind] in H. rewrite (bears_panic config fuel unicode g' x (gives_bears fuel g g' x E G) N) in H. discriminate.
Qed.
Print Assumptions C84_rejected.

(** C84: so the macro does not expand a package with such a grammar. *)
Theorem C84_package : forall rust_ident manifest_dir path_exists read_file report path_text debug_path current_dir attrs g unicode x,
  Forall (accepted rust_ident) attrs -> written_grammar manifest_dir path_exists read_file attrs (forget (shape g)) ->
  gives g x -> never_raw x ->
  exists k0, forall k e, k0 <= k ->
    derive_parser rust_ident manifest_dir path_exists read_file (parse_text report) path_text debug_path current_dir k unicode attrs <> Ret e.
Proof.
  intros rust_ident manifest_dir path_exists read_file report path_text debug_path current_dir attrs g unicode x A W G N.
  destruct (package_expands rust_ident manifest_dir path_exists read_file report path_text debug_path current_dir attrs _ A W) as (c & _ & _ & _ & H).
  destruct (H g eq_refl) as (k0 & E). exists k0. intros k e L D.
  apply (C84_rejected c k unicode g x G N (x_items e)). apply (E k unicode L). exists e. auto.
Qed.
Print Assumptions C84_package.

(** Four grammars of one rule. The first two are not expanded; the others are: [fn] is a keyword but can be
    a raw identifier, and silent rules with parameters are put in place before names are looked at. *)
Definition self_attrs : list attribute := [is "grammar_inline" "Self=""1"""].
Definition self_grammar : gmodule := grammar [rl "Self" [] (str "1")].
Lemma self_written : w_file (lit "Self=""1""") [] [W_rule [] (lit "Self") [] false (T_str (lit "1"))].
Proof.
  apply (W_file [] [] [] ([] ++ lit "Self=""1""" ++ [] ++ []) [W_rule [] (lit "Self") [] false (T_str (lit "1"))] []).
  - white.
  - constructor.
  - apply W_rule_item with (braced := false); [constructor| |white|constructor|right; left; reflexivity].
    apply (W_rule_text (lit "Self") [] [] [] [] (lit """1""")); [left; name|white|constructor|white|].
    apply W_bare; [|discriminate]. apply W_plain, W_alternative, W_operand, (operand (lit """1""")). apply (short_string (lit "1")). reflexivity.
  - eexists _, _, _, _, _. left. reflexivity.
  - left. reflexivity.
Qed.
Example C84_ex :
  gives self_grammar (lit "Self") /\ never_raw (lit "Self") /\ Forall (accepted any_ident) self_attrs /\
  written_grammar None (fun _ => false) no_files self_attrs (forget (shape self_grammar)) /\
  run self_attrs = Panic /\ run [is "grammar_inline" "_=""1"""] = Panic /\ run [is "grammar_inline" "a(super)=super b=a(""1"")"] = Panic /\
  (exists x, run [is "grammar_inline" "fn=""1"""] = Ret x) /\
  (exists x, run [is "grammar_inline" "self(super)=_ super b=self(""1"")"] = Ret x).
Proof.
  split; [apply (Gives_rule self_grammar (rl "Self" [] (str "1"))); [left; reflexivity|intros [T|T]; discriminate|intros (_ & _ & M); apply M; reflexivity]|].
  split; [right; left; reflexivity|].
  destruct (attrs_read self_attrs [S_inline (lit "Self=""1""")] (mkDConfig false false false (mkConfig false false None))) as (A & B & C & _ & _); [vm_compute; reflexivity|].
  split; [exact A|]. split.
  { exists [S_inline (lit "Self=""1""")], [(lit "Self=""1""", None)], [forget (shape self_grammar)]. do 2 (split; [assumption|]). split; [|split; [|reflexivity]].
    - constructor; [|constructor]. constructor.
    - constructor; [|constructor]. apply W_loads with (items := [W_rule [] (lit "Self") [] false (T_str (lit "1"))]); [exact self_written|repeat constructor]. }
  do 3 (split; [vm_compute; reflexivity|]). split; eexists; vm_compute; reflexivity.
Qed.
