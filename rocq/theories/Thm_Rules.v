(** C64: the emitted [Rule] enums, the conversions between them, and the module that holds the types
    (generator/src/common.rs, generator/src/typed/generator.rs, output.rs). *)
From Coq Require Import String List NArith ZArith Arith Bool Lia.
From Verif Require Import Model_Text Model_Message Model_Meta Model_Import Model_Tracker Model_Node Model_Generator Model_Output
  Spec_Text Spec_Peg Spec_Grammar_Peg Spec_Occur Spec_Generator Spec_Rust Spec_Rules
  Proof_Text Proof_Emit Proof_Box Proof_Process Proof_Names Proof_Place Proof_Resolve Proof_Accept Proof_Read Proof_Rules
  Example_Generator Example_Fine.
Import ListNotations.
Open Scope list_scope.

Lemma generated : forall config fuel unicode g items,
  generate_items config fuel unicode g = Ret items -> fine unicode g -> distinct_properties unicode ->
  exists T o coll, items = all_items config T o /\ Made config fuel unicode T 0 g o coll.
Proof.
  intros config fuel unicode g items H Fi D. unfold generate_items, generate_output in H. destruct (existsb _ (raw_names g)); [discriminate H|].
  destruct (process_rules config fuel (make_global unicode) [lit "super"] 0 g gt_new) as [((o, coll), tr)| |] eqn:P; try discriminate. cbn [obind] in H. injection H as <-.
  destruct (process_rules_spec config fuel unicode (builtin_resolves_all unicode D) g 0 gt_new o coll tr P Fi good_new) as (_ & _ & M).
  exists tr, o, coll. split; [reflexivity|]. apply M. apply extends_refl.
Qed.

Definition variant_name (v : variant) : text := match v with V_plain n => n | V_module n _ => n end.
Definition plain_rule (r : parse_rule) : bool := negb (text_eqb (pr_name r) (lit "~") || text_eqb (pr_name r) (lit "^")).
Definition file_aliases (l : list import) : list text :=
  flat_map (fun i => match i with File alias _ => [alias] | Builtin _ _ => [] end) l.

(** The enum of a grammar, the main one or an imported one, is beside the module with its types. Its
    variants are [EOI], the rules except trivia, and the imported files, in this order; a variant for a
    file holds the enum of that file. *)
Theorem C64_enum : forall config fuel unicode g items,
  generate_items config fuel unicode g = Ret items ->
  fine unicode g -> fine_types_mod (types_mod (rules_mod config)) g -> distinct_properties unicode ->
  forall m h, located (types_mod (rules_mod config)) g m h ->
  exists vs, enum_at items (removelast m) vs /\
    map variant_name vs = lit "EOI" :: map pr_name (filter plain_rule (g_rules h)) ++ file_aliases (g_imports h) /\
    (forall name path, In (V_module name path) vs ->
       In name (file_aliases (g_imports h)) /\ names_enum items (removelast m) path (m ++ [name])).
Proof.
  intros config fuel unicode g items H Fi Ty D m h L. destruct (generated _ _ _ _ _ H Fi D) as (T & o & coll & -> & M).
  destruct (place config fuel unicode T g o coll Ty M Fi m h L) as (oh & P).
  assert (V := placed_variants _ _ _ _ _ _ _ _ P). exists (o_variants oh). split; [apply P|]. rewrite V. split.
  - unfold rule_enum. cbn [map variant_name]. f_equal. rewrite map_app, map_map. f_equal. unfold file_aliases.
    induction (g_imports h) as [|[a p|a g'] l IH]; [reflexivity|exact IH|]. cbn [flat_map app map]. rewrite IH. reflexivity.
  - intros name path I. apply enum_spec in I. destruct I as [I|[(r & _ & _ & I)|(a & g' & I & E)]]; try discriminate.
    injection E as -> ->. split.
    + unfold file_aliases. apply in_flat_map. exists (File a g'). split; [exact I|]. left. reflexivity.
    + eapply (placed_child config fuel unicode T g o Ty); eassumption.
Qed.
Print Assumptions C64_enum.

(** Each rule has a struct, and it implements the traits for the enums of its own grammar, of the
    importing grammar, and so on up to the main one. There the rule is the own variant, wrapped once for
    each import on the way; the emitted expression computes this value. *)
Theorem C64_rule_value : forall config fuel unicode g items,
  generate_items config fuel unicode g = Ret items ->
  fine unicode g -> fine_types_mod (types_mod (rules_mod config)) g -> distinct_properties unicode ->
  forall m h r, located (types_mod (rules_mod config)) g m h -> In r (g_rules h) -> ~ is_trivia_rule r ->
  exists s depth, is_struct items m s /\ gs_name s = pr_name r /\ length m = S (2 * depth) /\
    Forall2 (fun n im =>
      names_enum items m (im_type im) (ancestor m n) /\
      exists enum e, im_value im = enum ++ [pr_name r] /\ names_enum items m enum e /\
        converts_times items (im_converts im) (RV e (pr_name r)) (rule_value m (pr_name r) n) /\
        well_typed items (rule_value m (pr_name r) n)) (seq 0 (S depth)) (gs_impls s).
Proof.
  intros config fuel unicode g items H Fi Ty D m h r L I N. destruct (generated _ _ _ _ _ H Fi D) as (T & o & coll & -> & M).
  destruct (located_emitted config fuel unicode T g o Ty coll M Fi m h L) as (depth & coll' & Em).
  destruct (emitted_struct _ _ _ _ _ _ _ _ _ _ _ Em I N) as (s & reach & i & _ & _ & Es & sub & At & En).
  destruct Em as (oh & _ & _ & Len & _ & _). exists s, depth.
  split; [exists sub; split; [exact At|]; rewrite Es at 1; exact En|]. split; [rewrite Es; reflexivity|]. split; [exact Len|].
  assert (Ei : gs_impls s = map (fun n => mkImpl (up n) [lit "super"; lit "Rule"; pr_name r] n) (seq 0 (S depth))) by (rewrite Es; reflexivity).
  rewrite Ei. clear Ei Es.
  assert (Up : forall n, In n (seq 0 (S depth)) -> S (2 * n) <= length m) by (intros n J; apply in_seq in J; lia).
  revert Up. generalize (seq 0 (S depth)). intro l. induction l as [|n l IH]; intro Up; [constructor|]. cbn [map]. constructor.
  - cbn [im_type im_value im_converts]. specialize (Up n (or_introl eq_refl)).
    split; [eapply (ancestor_named config fuel unicode T g o coll Ty M Fi); eassumption|].
    exists [lit "super"; lit "Rule"], (removelast m). split; [reflexivity|].
    destruct (place config fuel unicode T g o coll Ty M Fi m h L) as (oh' & P).
    split; [eapply placed_enum, P|]. eapply (value_converted config fuel unicode T g o coll Ty M Fi); [exact L| |exact Up].
    right. exists r. auto.
  - apply IH. intros k J. apply Up. right. exact J.
Qed.
Print Assumptions C64_rule_value.

(** A value of the enum of an imported file converts to one of the importing file that holds it, and to
    nothing else. *)
Theorem C64_conversion : forall config fuel unicode g items,
  generate_items config fuel unicode g = Ret items ->
  fine unicode g -> fine_types_mod (types_mod (rules_mod config)) g -> distinct_properties unicode ->
  forall m h alias h', located (types_mod (rules_mod config)) g m h -> In (File alias h') (g_imports h) ->
  forall v, well_typed items v -> enum_of v = m ++ [alias] ->
  forall v', converts items v v' <-> v' = RV_in (removelast m) alias v /\ well_typed items v'.
Proof.
  intros config fuel unicode g items H Fi Ty D m h alias h' L I v W Ev v'.
  destruct (generated _ _ _ _ _ H Fi D) as (T & o & coll & -> & M).
  destruct (convert_step config fuel unicode T g o coll Ty M Fi m h alias h' v L I Ev) as (C & W').
  split; [|intros (-> & _); exact C].
  intro C'. apply (conversion_only config fuel unicode T g o coll Ty M Fi) in C'.
  rewrite Ev, removelast_last, last_last in C'. subst v'. auto.
Qed.
Print Assumptions C64_conversion.

(** Rust accepts the enum of a complete grammar: the names of its variants differ, unless something is
    called [EOI]. *)
Theorem C64_distinct : forall config fuel unicode g items,
  generate_items config fuel unicode g = Ret items ->
  fine unicode g -> fine_types_mod (types_mod (rules_mod config)) g -> distinct_properties unicode ->
  forall m h, located (types_mod (rules_mod config)) g m h ->
  (forall r, In r (g_rules h) -> pr_name r <> lit "EOI") -> (forall h', ~ In (File (lit "EOI") h') (g_imports h)) ->
  exists vs, enum_at items (removelast m) vs /\ NoDup (map variant_name vs).
Proof.
  intros config fuel unicode g items H Fi Ty D m h L Nr Ni.
  destruct (C64_enum _ _ _ _ _ H Fi Ty D m h L) as (vs & En & Nm & _). exists vs. split; [exact En|]. rewrite Nm.
  destruct (generated _ _ _ _ _ H Fi D) as (T & o & coll & -> & M).
  destruct (place config fuel unicode T g o coll Ty M Fi m h L) as (oh & (depth & coll' & _ & Mh) & _).
  destruct Mh as [depth h oh coll' reach _ _ _ _ _ _ Nd _ _ _ _ _]. change (plain_rules (g_rules h)) with (filter plain_rule (g_rules h)) in Nd.
  assert (Al : forall x, In x (file_aliases (g_imports h)) -> exists h', In (File x h') (g_imports h)).
  { intros x J. unfold file_aliases in J. apply in_flat_map in J. destruct J as ([a p|a g'] & J & K); [destruct K|].
    destruct K as [<-|[]]. exists g'. exact J. }
  assert (Nf : NoDup (file_aliases (g_imports h))).
  { assert (Na := nodup_app_l _ _ Nd). clear - Na. unfold file_aliases. induction (g_imports h) as [|i l IH]; [constructor|].
    cbn [map] in Na. inversion_clear Na as [|? ? X Y]. destruct i as [a p|a g']; [apply IH, Y|]. cbn [flat_map app]. constructor; [|apply IH, Y].
    intro J. apply X. apply in_flat_map in J. destruct J as ([b p|b g1] & J & K); [destruct K|]. destruct K as [K|[]]. cbn [import_alias]. rewrite <- K.
    apply (in_map import_alias) in J. exact J. }
  constructor.
  - intro J. apply in_app_or in J. destruct J as [J|J].
    + apply in_map_iff in J. destruct J as (r & E & J). apply filter_In in J. apply (Nr r (proj1 J) E).
    + apply Al in J. destruct J as (h' & J). exact (Ni _ J).
  - apply nodup_app_intro.
    + eapply nodup_app_r, Nd.
    + exact Nf.
    + intros x K J. apply Al in K. destruct K as (h' & K). apply (in_map import_alias) in K. eapply nodup_app_no; [exact Nd|exact K|exact J].
Qed.
Print Assumptions C64_distinct.

(** A rule may be called [EOI]; then the enum has two variants of this name, which Rust rejects. *)
Definition eoi_grammar : gmodule := mkModule [] [rl "EOI" [] (str "x")] [] [].
Theorem C64_eoi_refuted : exists items, generate_items box_needed 100 [] eoi_grammar = Ret items /\ complete [] eoi_grammar /\
  exists vs, enum_at items [] vs /\ ~ NoDup (map variant_name vs).
Proof.
  eexists. split; [vm_compute; reflexivity|]. split.
  - constructor.
    + cbn. repeat constructor. intros [].
    + intros r [<-|[]]. apply WN_other; [intros p a; discriminate|]. intros e' O. inversion O.
    + intros r t name [<-|[]] A E. exfalso. revert A. apply not_asked. destruct t; [discriminate|reflexivity|reflexivity].
    + intros alias g' [].
  - exists [V_plain (lit "EOI"); V_plain (lit "EOI")]. split.
    + eexists. split; reflexivity.
    + intro D. inversion_clear D as [|? ? X _]. apply X. left. reflexivity.
Qed.
Print Assumptions C64_eoi_refuted.

(** Trivia that a file does not define is [Empty]. *)
Theorem C64_trivia : forall config fuel unicode g items,
  generate_items config fuel unicode g = Ret items ->
  fine unicode g -> fine_types_mod (types_mod (rules_mod config)) g -> distinct_properties unicode ->
  forall m h t name alias, located (types_mod (rules_mod config)) g m h -> trivia_name t = Some name ->
  (t = TriviaOptional /\ alias = lit "__OptionalTrivia" \/ t = TriviaMandatory /\ alias = lit "__MandatoryTrivia") ->
  (forall r, In r (g_rules h) -> pr_name r <> name) ->
  forall id, read_type items unicode id 2 m [] (Ty [alias] [A_life]) = Some (M_node Empty).
Proof.
  intros config fuel unicode g items H Fi Ty D m h t name alias L Tn Ta No id.
  destruct (generated _ _ _ _ _ H Fi D) as (T & o & coll & -> & M).
  destruct (place config fuel unicode T g o coll Ty M Fi m h L) as (oh & (depth & coll' & _ & Mh) & Fh & _ & _ & At & _).
  assert (Nd := sub_items_nodup config fuel unicode T _ _ _ _ Mh Fh).
  assert (En : entry alias (sub_items (rules_mod config) oh) = Some (R_alias (Model_Generator.Ty (template_path (lit "Empty")) []))).
  { destruct Mh as [depth h oh coll' reach _ _ _ _ _ _ _ _ _ _ _ (_ & No' & Nm')].
    destruct Ta as [(-> & ->)|(-> & ->)]; injection Tn as <-; apply entry_unique; try exact Nd; unfold sub_items.
    - rewrite (No' No). left. reflexivity.
    - rewrite (Nm' No). right. left. reflexivity. }
  assert (Re : resolve (all_items config T o) m [alias] = Some (T_item m (R_alias (Model_Generator.Ty (template_path (lit "Empty")) [])))).
  { rewrite (resolve_own (all_items config T o) m alias [] _ ltac:(destruct Ta as [(_ & ->)|(_ & ->)]; discriminate)
      ltac:(destruct Ta as [(_ & ->)|(_ & ->)]; discriminate) At). cbn [descend]. rewrite En. reflexivity. }
  cbn [read_type lookup map all_some]. rewrite Re. reflexivity.
Qed.
Print Assumptions C64_trivia.

(** The types are in the module named in the attribute, or in [rules]. *)
Theorem C64_types_mod : forall config fuel unicode g items,
  let n := match rules_mod config with Some n => n | None => lit "rules" end in
  generate_items config fuel unicode g = Ret items ->
  fine unicode g -> fine_types_mod n g -> distinct_properties unicode ->
  forall r, In r (g_rules g) -> ~ is_trivia_rule r -> exists s, is_struct items [n] s /\ gs_name s = pr_name r.
Proof.
  intros config fuel unicode g items n H Fi Ty D r I N.
  destruct (C64_rule_value config fuel unicode g items H Fi Ty D [n] g r (Loc_top _ _) I N) as (s & _ & Is & Nm & _).
  exists s. split; assumption.
Qed.
Print Assumptions C64_types_mod.

(** If a name is given and a file is imported, the enum mentions a type that does not exist. *)
Definition named_types : gconfig := mkConfig true false (Some (lit "types")).
Theorem C64_rules_mod_refuted : exists items vs path,
  generate_items named_types 100 sample_unicode sample_main = Ret items /\
  enum_at items [] vs /\ In (V_module (lit "s") path) vs /\ resolve items [] path = None.
Proof.
  eexists. eexists. eexists. split; [vm_compute; reflexivity|]. split; [eexists; split; reflexivity|].
  split; [right; right; left; reflexivity|]. vm_compute. reflexivity.
Qed.
Print Assumptions C64_rules_mod_refuted.

(** Examples: the grammar of Example_Generator.v with a level more of imports. *)
Definition nested : gmodule := mkModule [] [rl "start" [] (PPath [lit "a"; lit "all"] None)] [] [File (lit "a") sample_main].
Lemma nested_fine : fine sample_unicode nested.
Proof.
  constructor; cbn [g_imports g_rules nested map import_alias].
  - repeat constructor. intros [].
  - intros i [<-|[]]. apply not_in. reflexivity.
  - intros alias p [E|[]]. discriminate.
  - intros r [<-|[]]. apply not_in. reflexivity.
  - intros r x [<-|[]] J. destruct J.
  - intros r [<-|[]] _. reflexivity.
  - intros t e B. apply body_of in B. destruct B as (r & I & E & ->). destruct I as [<-|[]]. destruct t; discriminate.
  - intros e e' B _ (A & _). apply body_of in B. destruct B as (r & I & E & ->). destruct I as [<-|[]]. discriminate.
  - intros alias g' [E|[]]. injection E as _ <-. apply sample_main_fine.
Qed.
Definition nested_items : list (text * ritem) :=
  match generate_items box_needed 200 sample_unicode nested with Ret items => items | _ => [] end.
Example C64_generated : generate_items box_needed 200 sample_unicode nested = Ret nested_items.
Proof. unfold nested_items. vm_compute. reflexivity. Qed.
Definition sample_place : list text := map lit ["rules"; "a"; "rules"; "s"; "rules"]%string.
Lemma nested_located : located (types_mod (rules_mod box_needed)) nested sample_place sample.
Proof.
  apply (Loc_file _ nested [lit "rules"; lit "a"; lit "rules"] sample_main (lit "s")); [|left; reflexivity].
  apply (Loc_file _ nested [lit "rules"] nested (lit "a")); [|left; reflexivity]. constructor.
Qed.
(** The enum of the innermost file, and the value of one of its rules in the enum of the main file. *)
Example C64_enum_example :
  exists vs, enum_at nested_items (removelast sample_place) vs /\
    map variant_name vs = map lit ["EOI"; "item"; "paren"; "sum"; "word"; "lines"]%string.
Proof.
  destruct (C64_enum _ _ _ _ _ C64_generated nested_fine (or_introl eq_refl) sample_distinct _ _ nested_located) as (vs & E & Nm & _).
  exists vs. split; [exact E|]. rewrite Nm. reflexivity.
Qed.
Example C64_value : rule_value sample_place (lit "sum") 2 =
  RV_in [] (lit "a") (RV_in (map lit ["rules"; "a"]%string) (lit "s") (RV (map lit ["rules"; "a"; "rules"; "s"]%string) (lit "sum"))).
Proof. reflexivity. Qed.
Example C64_rule_value_example :
  exists s, is_struct nested_items sample_place s /\ gs_name s = lit "sum" /\ length (gs_impls s) = 3 /\
    well_typed nested_items (rule_value sample_place (lit "sum") 2).
Proof.
  destruct (C64_rule_value _ _ _ _ _ C64_generated nested_fine (or_introl eq_refl) sample_distinct _ _ (nth 4 sample_rules (rl "" [] (str ""))) nested_located)
    as (s & depth & Is & Nm & Len & F).
  - cbn [sample_rules nth g_rules sample In]. tauto.
  - intros [E|E]; discriminate.
  - exists s. split; [exact Is|]. split; [exact Nm|]. assert (depth = 2) by (cbn in Len; lia). subst depth. split.
    + clear - F. inversion_clear F as [|? ? ? ? _ F0]. inversion_clear F0 as [|? ? ? ? _ F1]. inversion_clear F1 as [|? ? ? ? _ F2].
      inversion_clear F2. reflexivity.
    + inversion_clear F as [|? ? ? ? _ F0]. inversion_clear F0 as [|? ? ? ? _ F1]. inversion_clear F1 as [|? ? ? ? P2 _].
      destruct P2 as (_ & enum & e & _ & _ & _ & W). exact W.
Qed.
(** Its conversion to the enum of the file in between. *)
Example C64_conversion_example : forall v', let v := RV (map lit ["rules"; "a"; "rules"; "s"]%string) (lit "word") in
  converts nested_items v v' <-> v' = RV_in (map lit ["rules"; "a"]%string) (lit "s") v /\ well_typed nested_items v'.
Proof.
  intros v' v. eapply (C64_conversion _ _ _ _ _ C64_generated nested_fine (or_introl eq_refl) sample_distinct
    (map lit ["rules"; "a"; "rules"]%string) sample_main (lit "s") sample).
  - apply (Loc_file _ nested [lit "rules"] nested (lit "a")); [|left; reflexivity]. constructor.
  - left. reflexivity.
  - eapply (WT_plain nested_items _ _ [V_plain (lit "EOI"); V_plain (lit "item"); V_plain (lit "paren"); V_plain (lit "sum"); V_plain (lit "word"); V_plain (lit "lines")]).
    + assert (X : match module_at nested_items (map lit ["rules"; "a"; "rules"; "s"]%string) with
                  | Some its => entry (lit "Rule") its | None => None end =
                Some (R_enum [V_plain (lit "EOI"); V_plain (lit "item"); V_plain (lit "paren"); V_plain (lit "sum"); V_plain (lit "word"); V_plain (lit "lines")]))
        by (vm_compute; reflexivity).
      unfold enum_at. destruct (module_at nested_items _) as [its|]; [|discriminate]. exists its. split; [reflexivity|exact X].
    + cbn [In]. tauto.
  - reflexivity.
Qed.
Example C64_distinct_example : exists vs, enum_at nested_items [] vs /\ NoDup (map variant_name vs).
Proof.
  apply (C64_distinct _ _ _ _ _ C64_generated nested_fine (or_introl eq_refl) sample_distinct [lit "rules"] nested).
  - constructor.
  - intros r [<-|[]]. discriminate.
  - intros h' [E|[]]. discriminate.
Qed.
(** The main file defines no trivia. *)
Example C64_trivia_example : forall id, read_type nested_items sample_unicode id 2 [lit "rules"] [] (Ty [lit "__OptionalTrivia"] [A_life]) = Some (M_node Empty).
Proof.
  apply (C64_trivia _ _ _ _ _ C64_generated nested_fine (or_introl eq_refl) sample_distinct [lit "rules"] nested TriviaOptional (lit "~")).
  - constructor.
  - reflexivity.
  - left. auto.
  - intros r [<-|[]]. discriminate.
Qed.
(** A configured name. *)
Example C64_types_mod_example : exists items s, generate_items named_types 100 sample_unicode sample = Ret items /\ is_struct items [lit "types"] s /\ gs_name s = lit "paren".
Proof.
  destruct (generate_items named_types 100 sample_unicode sample) as [items| |] eqn:G; [|vm_compute in G; discriminate..].
  destruct (C64_types_mod named_types 100 sample_unicode sample items G) with (r := nth 3 sample_rules (rl "" [] (str ""))) as (s & Is & Nm).
  - apply sample_fine.
  - right. split; [apply not_in; reflexivity|]. intros alias g' [].
  - apply sample_distinct.
  - cbn [sample_rules nth g_rules sample In]. tauto.
  - intros [E|E]; discriminate.
  - exists items, s. auto.
Qed.
