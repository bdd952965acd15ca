(** C44: the accessor functions of the generated structs (generator/src/typed/getter.rs, generator.rs,
    generics/src/{sequence,choices,predefined_node}.rs). *)
From Coq Require Import String List NArith ZArith Arith Bool Lia.
From Verif Require Import Model_Text Model_Message Model_Meta Model_Import Model_Position Model_Span Model_Stack Model_Tracker Model_Node
  Model_Generator Model_Output
  Spec_Text Spec_Peg Spec_Run Spec_Yield Spec_Rust Spec_Grammar_Peg Spec_Occur Spec_Generator Spec_Getter
  Proof_Text Proof_Peg Proof_Yield Proof_Node Proof_Entry Proof_Emit Proof_Box Proof_Process Proof_Names Proof_Place Proof_Resolve Proof_Accept
  Proof_Compile Proof_Leaf Proof_Read Proof_Getter Proof_Exists Example_Generator Example_Fine Thm_Generated.
Import ListNotations.
Open Scope list_scope.

(** Which type stands for which node in the module [m], the parameters [params] being replaced by [ns]. *)
Definition stands items unicode id m (params : list text) (ns : list node) (t : ty) (n : node) : Prop :=
  exists k, read_type items unicode id k m (combine params ns) t = Some (M_node n).

Lemma generated : forall config fuel unicode g items,
  generate_items config fuel unicode g = Ret items -> fine unicode g -> distinct_properties unicode ->
  exists T o coll, items = all_items config T o /\ good_tracker T /\ Made config fuel unicode T 0 g o coll.
Proof.
  intros config fuel unicode g items H Fi D. unfold generate_items, generate_output in H. destruct (existsb _ (raw_names g)); [discriminate H|].
  destruct (process_rules config fuel (make_global unicode) [lit "super"] 0 g gt_new) as [((o, coll), tr)| |] eqn:P; try discriminate. cbn [obind] in H. injection H as <-.
  destruct (process_rules_spec config fuel unicode (builtin_resolves_all unicode D) g 0 gt_new o coll tr P Fi good_new) as (Tg & _ & M).
  exists tr, o, coll. split; [reflexivity|]. split; [exact Tg|]. apply M. apply extends_refl.
Qed.

(** What a parser returns is a value of its type. *)
Theorem C44_values : forall addr s env property k n pos st p v st',
  try_parse addr s env property k n pos st = Ret (Some (p, v), st') -> value_of env n v.
Proof. intros addr s env property k n pos st p v st' H. exact (parsed_value addr s env property k n pos st _ _ H). Qed.
Print Assumptions C44_values.

(** The struct of a rule has one accessor for each name that the body mentions, and no other; it has none
    if the grammar says [no_getter]. *)
Theorem C44_names : forall config fuel unicode g items,
  generate_items config fuel unicode g = Ret items ->
  fine unicode g -> fine_types_mod (types_mod (rules_mod config)) g -> distinct_properties unicode ->
  forall m h r s, located (types_mod (rules_mod config)) g m h -> In r (g_rules h) -> ~ is_trivia_rule r ->
  is_struct items m s -> gs_name s = pr_name r ->
  NoDup (map ac_name (gs_accessors s)) /\
  (no_getter config = true -> gs_accessors s = []) /\
  (no_getter config = false ->
     forall x, In x (map ac_name (gs_accessors s)) <-> mentions unicode h (pr_args r) x (n_expr (pr_node r))).
Proof.
  intros config fuel unicode g items H Fi Ty D m h r s Lo Ir Nt Is Sn. destruct (C36_readable _ _ _ _ _ H Fi Ty D) as (id & env & Rr).
  destruct (generated _ _ _ _ _ H Fi D) as (T & o & coll & -> & Tg & M).
  destruct (struct_access config fuel unicode T g o env id Ty D Tg coll M Fi Rr m h r s (map (fun _ => Empty) (pr_args r)) Lo Ir Nt Is Sn (map_length _ _)) as (_ & i & Ea & (Nd & _) & K & _).
  rewrite Ea. destruct (no_getter config); [split; [constructor|split; [reflexivity|discriminate]]|].
  rewrite map_map. cbn [ac_name]. split; [exact Nd|]. split; [discriminate|]. intros _ x. apply K.
Qed.
Print Assumptions C44_names.

(** The body of each accessor has the declared type, whatever types are put for the parameters of the
    rule, if the content of the struct is taken out of its box just when it is in one. *)
Theorem C44_typed : forall config fuel unicode g items,
  generate_items config fuel unicode g = Ret items ->
  fine unicode g -> fine_types_mod (types_mod (rules_mod config)) g -> distinct_properties unicode ->
  forall id env, reads_rules items unicode id env ->
  forall m h r s, located (types_mod (rules_mod config)) g m h -> In r (g_rules h) -> ~ is_trivia_rule r ->
  is_struct items m s -> gs_name s = pr_name r ->
  forall ns a, length ns = length (pr_args r) -> In a (gs_accessors s) ->
  ac_deref a = gs_boxed s /\
  checks (stands items unicode id m (pr_args r) ns) (ac_body a) (rd_body (env (id m (pr_name r))) ns) (ac_type a).
Proof.
  intros config fuel unicode g items H Fi Ty D id env Rr m h r s Lo Ir Nt Is Sn ns a L Ia.
  destruct (generated _ _ _ _ _ H Fi D) as (T & o & coll & -> & Tg & M).
  destruct (struct_access config fuel unicode T g o env id Ty D Tg coll M Fi Rr m h r s ns Lo Ir Nt Is Sn L) as (_ & i & Ea & (_ & Ft) & _ & _).
  rewrite Ea in Ia. destruct (no_getter config); [destruct Ia|]. apply in_map_iff in Ia. destruct Ia as ((x, p) & <- & J). split; [reflexivity|].
  cbn [ac_body ac_type snd fst]. destruct (Ft _ _ J) as (_ & C). exact C.
Qed.
Print Assumptions C44_typed.

(** For any result of the parser of a rule, the accessor for a name returns something of its declared type
    that refers to exactly the parts that belong to references with that name, from left to right. *)
Theorem C44_accessor : forall config fuel unicode g items,
  generate_items config fuel unicode g = Ret items ->
  fine unicode g -> fine_types_mod (types_mod (rules_mod config)) g -> distinct_properties unicode ->
  forall id env, reads_rules items unicode id env ->
  forall m h r s, located (types_mod (rules_mod config)) g m h -> In r (g_rules h) -> ~ is_trivia_rule r ->
  is_struct items m s -> gs_name s = pr_name r ->
  forall ns, length ns = length (pr_args r) ->
  forall addr t property k pos st p v st',
  try_parse addr t env property k (Rule (id m (pr_name r)) ns) pos st = Ret (Some (p, v), st') ->
  exists c sp, v = VRule (id m (pr_name r)) c sp /\
  (forall a, In a (gs_accessors s) ->
     exists x, Spec_Getter.call s a c = Some x /\ typed (stands items unicode id m (pr_args r) ns) env x (ac_type a) /\
       forall l, matched unicode h (pr_args r) (ac_name a) (n_expr (pr_node r)) c l <-> l = referred x) /\
  (no_getter config = false -> forall x, ~ In x (map ac_name (gs_accessors s)) ->
     forall l, matched unicode h (pr_args r) x (n_expr (pr_node r)) c l <-> l = []).
Proof.
  intros config fuel unicode g items H Fi Ty D id env Rr m h r s Lo Ir Nt Is Sn ns L addr t property k pos st p v st' Tp.
  apply C44_values in Tp.
  assert (V : exists c sp, v = VRule (id m (pr_name r)) c sp /\ value_of env (rd_body (env (id m (pr_name r))) ns) c).
  { inversion Tp as [n0 I E1 E2| | | | | | |n0 sp I E1 E2| | | | | | | | | | | | |r0 ns0 c sp Vc]; subst.
    - exfalso. destruct I as [E|[E|[E|[E|[]]]]]; discriminate E.
    - exfalso. destruct I as [E|[E|[E|[E|[]]]]]; discriminate E.
    - exists c, sp. split; [reflexivity|exact Vc]. }
  destruct V as (c & sp & -> & Vc). exists c, sp. split; [reflexivity|].
  destruct (generated _ _ _ _ _ H Fi D) as (T & o & coll & -> & Tg & M).
  destruct (struct_access config fuel unicode T g o env id Ty D Tg coll M Fi Rr m h r s ns Lo Ir Nt Is Sn L) as (_ & i & Ea & (_ & Ft) & _ & De).
  destruct (De c Vc) as (f & (Df & Dn) & Mf).
  assert (Eq : forall x l, matched unicode h (pr_args r) x (n_expr (pr_node r)) c l <-> l = f x).
  { intros x l. split; [|intros ->; apply Mf]. intro Q. exact (proj1 (matched_once unicode h (pr_args r) x) _ _ _ (Mf x) l Q). }
  rewrite Ea. split.
  - intros a Ia. destruct (no_getter config); [destruct Ia|]. apply in_map_iff in Ia. destruct Ia as ((x, nd) & <- & J).
    unfold Spec_Getter.call. cbn [ac_body ac_type ac_deref ac_name snd fst]. rewrite Bool.eqb_reflx.
    destruct (Df _ _ J) as (y & Ey & Ry). exists y. split; [exact Ey|]. destruct (Ft _ _ J) as (_ & C). split.
    + destruct (checked _ env _ _ _ _ _ (le_n _) C Vc) as (y' & Ey' & Ty'). rewrite Ey in Ey'. injection Ey' as <-. exact Ty'.
    + intro l. rewrite Ry. apply Eq.
  - intros Ng x N l. rewrite Ng, map_map in N. cbn [ac_name] in N. rewrite Eq, (Dn x N). reflexivity.
Qed.
Print Assumptions C44_accessor.

(** A grammar with choices, options, repetitions and predicates:
<<
    a = "a"
    b = "b"
    pick = a | b - a?
    many(x) = &a - (x | a)* - !b
    main = many(b)
>> *)
Definition pick_rules : list parse_rule := [
  rl "a" [] (str "a"); rl "b" [] (str "b");
  rl "pick" [] (alt (nm "a") (sq (nm "b") TriviaNone (POpt (nd (nm "a")))));
  rl "many" ["x"%string] (sq (PPosPred (nd (nm "a"))) TriviaNone (sq (PRep (nd (alt (nm "x") (nm "a")))) TriviaNone (PNegPred (nd (nm "b")))));
  rl "main" [] (Example_Generator.call ["many"%string] [nm "b"])].
Definition pick_grammar : gmodule := mkModule [] pick_rules [] [].
Lemma pick_fine : fine sample_unicode pick_grammar.
Proof.
  constructor; cbn [g_imports g_rules pick_grammar map]; try (intros ? []; fail); try (intros ? ? []; fail).
  - constructor.
  - intros r I. apply not_in. repeat (destruct I as [<-|I]; [reflexivity|]). destruct I.
  - intros r x I J. split; [|intros g' []].
    repeat (destruct I as [<-|I]; [cbn [pr_args rl map] in J; repeat (destruct J as [<-|J]; [apply not_in; reflexivity|]); destruct J|]). destruct I.
  - intros r I T. repeat (destruct I as [<-|I]; [first [reflexivity|destruct T; discriminate]|]). destruct I.
  - intros t e B. apply body_of in B. destruct B as (r & I & E & ->). cbn [g_rules pick_grammar] in I.
    repeat (destruct I as [<-|I]; [destruct t; discriminate|]). destruct I.
  - intros e e' B. apply body_of in B. destruct B as (r & I & E & ->). cbn [g_rules pick_grammar] in I.
    repeat (destruct I as [<-|I]; [discriminate|]). destruct I.
Qed.
Definition pick_items : list (text * ritem) :=
  match generate_items box_needed 20 sample_unicode pick_grammar with Ret items => items | _ => [] end.
Definition pick_id : list text -> text -> rule := numbered pick_items.
Definition pick_env : rule -> rule_def := read_env pick_items sample_unicode pick_id 20.
Definition pick_struct (name : text) : gstruct :=
  match module_at pick_items [lit "rules"] with
  | Some sub => match entry name sub with Some (R_struct s) => s | _ => mkStruct [] [] false false (Ty [] []) [] [] end
  | None => mkStruct [] [] false false (Ty [] []) [] []
  end.
Definition pick_parse (name : text) (ns : list node) (t : text) : res (nat * value) :=
  try_parse 0 t pick_env (fun _ _ => false) 60 (Rule (pick_id [lit "rules"] name) ns) 0 (mkState (mkStack [] []) (tracker_new 0)).
(** What the accessors of a result return. *)
Definition accessor_results (s : gstruct) (v : value) : list (text * option gvalue) :=
  match v with VRule _ c _ => map (fun a => (ac_name a, Spec_Getter.call s a c)) (gs_accessors s) | _ => [] end.

Example C44_generated : generate_items box_needed 20 sample_unicode pick_grammar = Ret pick_items.
Proof. vm_compute. reflexivity. Qed.
Example C44_reads : reads_rules pick_items sample_unicode pick_id pick_env.
Proof. apply check_reads_spec. vm_compute. reflexivity. Qed.
Example C44_structs : forall name, In name (map lit ["pick"; "many"]%string) ->
  is_struct pick_items [lit "rules"] (pick_struct name) /\ gs_name (pick_struct name) = name.
Proof.
  intros name I. destruct (module_at pick_items [lit "rules"]) as [sub|] eqn:E; [|vm_compute in E; discriminate E].
  repeat (destruct I as [<-|I]; [split; [exists sub; split; [exact E|]|vm_compute; reflexivity]; vm_compute in E; injection E as <-; vm_compute; reflexivity|]). destruct I.
Qed.
(** On ["ba"] the second alternative of [pick] matches, on ["a"] the first one; [many] is used with the
    parser of ["c"] for [x]. *)
Definition typed_as (name : string) : ty := Ty [lit name] [A_life].
Example C44_types :
  map (fun a => (ac_name a, ac_type a)) (gs_accessors (pick_struct (lit "pick"))) =
    [(lit "a", Y_tuple [Y_option (Y_ref (typed_as "a")); Y_option (Y_ref (typed_as "a"))]); (lit "b", Y_option (Y_ref (typed_as "b")))] /\
  map (fun a => (ac_name a, ac_type a)) (gs_accessors (pick_struct (lit "many"))) =
    [(lit "a", Y_tuple [Y_ref (typed_as "a"); Y_vec (Y_option (Y_ref (typed_as "a")))]); (lit "x", Y_vec (Y_option (Y_ref (Ty [lit "x"] []))))].
Proof. vm_compute. split; reflexivity. Qed.
Definition pick_result (name : text) (ns : list node) (t : text) : option value :=
  match pick_parse name ns t with Ret (Some (_, v), _) => Some v | _ => None end.
Definition at_span (t : text) (a b : nat) : span := mkSpan 0 t a b.
Definition value_a (t : text) (n : nat) : value := VRule (pick_id [lit "rules"] (lit "a")) VUnit (at_span t n (n + 1)).
Definition value_b (t : text) (n : nat) : value := VRule (pick_id [lit "rules"] (lit "b")) VUnit (at_span t n (n + 1)).
Example C44_results :
  option_map (accessor_results (pick_struct (lit "pick"))) (pick_result (lit "pick") [] (lit "ba")) =
    Some [(lit "a", Some (GV_tuple [GV_option None; GV_option (Some (GV_ref (value_a (lit "ba") 1)))]));
          (lit "b", Some (GV_option (Some (GV_ref (value_b (lit "ba") 0)))))] /\
  option_map (accessor_results (pick_struct (lit "many"))) (pick_result (lit "many") [Str (lit "c")] (lit "aca")) =
    Some [(lit "a", Some (GV_tuple [GV_ref (value_a (lit "aca") 0);
                                    GV_vec [GV_option (Some (GV_ref (value_a (lit "aca") 0))); GV_option None; GV_option (Some (GV_ref (value_a (lit "aca") 2)))]]));
          (lit "x", Some (GV_vec [GV_option None; GV_option (Some (GV_ref VUnit)); GV_option None]))].
Proof. vm_compute. split; reflexivity. Qed.
(** The theorem for this call of [many]: the accessor [a] returns the parts of three references to [a], the
    accessor [x] the one part that belongs to the parameter; nothing belongs to [b]. *)
Example C44_many : exists c sp,
  pick_result (lit "many") [Str (lit "c")] (lit "aca") = Some (VRule (pick_id [lit "rules"] (lit "many")) c sp) /\
  let body := n_expr (pr_node (nth 3 pick_rules (rl "" [] (str "")))) in
  (forall l, matched sample_unicode pick_grammar [lit "x"] (lit "a") body c l <-> l = [value_a (lit "aca") 0; value_a (lit "aca") 0; value_a (lit "aca") 2]) /\
  (forall l, matched sample_unicode pick_grammar [lit "x"] (lit "x") body c l <-> l = [VUnit]) /\
  (forall l, matched sample_unicode pick_grammar [lit "x"] (lit "b") body c l <-> l = []).
Proof.
  set (r := nth 3 pick_rules (rl "" [] (str ""))).
  assert (Ir : In r (g_rules pick_grammar)) by (do 3 right; left; reflexivity).
  assert (Nt : ~ is_trivia_rule r) by (intros [E|E]; discriminate).
  assert (Lo : located (types_mod (rules_mod box_needed)) pick_grammar [lit "rules"] pick_grammar) by constructor.
  destruct (C44_structs (lit "many") (or_intror (or_introl eq_refl))) as (Is & Sn).
  destruct (pick_parse (lit "many") [Str (lit "c")] (lit "aca")) as [([(p, v)|], st')| |] eqn:E; try (vm_compute in E; discriminate E).
  destruct (C44_accessor _ _ _ _ _ C44_generated pick_fine (or_introl eq_refl) sample_distinct _ _ C44_reads _ _ r _ Lo Ir Nt Is Sn
    [Str (lit "c")] eq_refl 0%N (lit "aca") (fun _ _ => false) _ _ _ _ _ _ E) as (c & sp & Ev & A & N).
  exists c, sp. unfold pick_result. rewrite E, Ev. split; [reflexivity|]. change (pr_args r) with [lit "x"] in *.
  assert (Ec : accessor_results (pick_struct (lit "many")) v =
    [(lit "a", Some (GV_tuple [GV_ref (value_a (lit "aca") 0);
                               GV_vec [GV_option (Some (GV_ref (value_a (lit "aca") 0))); GV_option None; GV_option (Some (GV_ref (value_a (lit "aca") 2)))]]));
     (lit "x", Some (GV_vec [GV_option None; GV_option (Some (GV_ref VUnit)); GV_option None]))]).
  { destruct C44_results as (_ & Q). unfold pick_result in Q. rewrite E in Q. cbn [option_map] in Q. injection Q as Q. exact Q. }
  rewrite Ev in Ec. cbn [accessor_results] in Ec.
  destruct (gs_accessors (pick_struct (lit "many"))) as [|a [|b [|? ?]]]; try discriminate Ec. cbn [map] in Ec. injection Ec as Na Ra Nb Rb.
  split; [|split].
  - destruct (A a (or_introl eq_refl)) as (x & Cx & _ & M). rewrite Ra in Cx. injection Cx as <-. rewrite Na in M. exact M.
  - destruct (A b (or_intror (or_introl eq_refl))) as (x & Cx & _ & M). rewrite Rb in Cx. injection Cx as <-. rewrite Nb in M. exact M.
  - apply N; [reflexivity|]. cbn [map]. rewrite Na, Nb. apply not_in. reflexivity.
Qed.
