(** Theorems about loading grammar files with imports (meta/src/parser.rs). *)
From Coq Require Import String List NArith ZArith Arith Bool Lia.
From Verif Require Import Model_Text Model_Message Model_Unescape Model_Meta Model_Grammar Model_Import
  Spec_Unescape Spec_Grammar Spec_Import Proof_Import Proof_Load.
Import ListNotations.
Open Scope list_scope.

(** Files for the examples: [r.pest] imports [a] and [b], which both import [c]; [l.pest] imports
    itself; [m.pest] imports a file that does not exist. The text of each is its name. *)
Definition leaf (r : grule) (s : text) (a : nat) : ppair := mkPPair r s a (a + blen s) [].
Definition use (name : string) (options : list ppair) : ppair :=
  mkPPair R_import [] 0 9 (mkPPair R_path (lit name) 4 (4 + blen (lit name)) [leaf R_identifier (lit name) 4] :: options).
Definition eoi : ppair := leaf R_eoi [] 9.
Definition name_rule : ppair :=
  mkPPair R_grammar_rule (lit "x=y") 0 3
    [leaf R_identifier (lit "x") 0; leaf R_assignment_operator (lit "=") 1;
     mkPPair R_expression (lit "y") 2 3 [mkPPair R_term (lit "y") 2 3 [mkPPair R_path (lit "y") 2 3 [leaf R_identifier (lit "y") 2]]]].
Definition sample_parse (input : text) : list ppair + N :=
  if text_eqb input (lit "r") then inl [use "a" []; use "b" [leaf R_identifier (lit "z") 8]; name_rule; eoi]
  else if text_eqb input (lit "a") then inl [use "c" []; eoi]
  else if text_eqb input (lit "b") then inl [use "c" []; name_rule; eoi]
  else if text_eqb input (lit "c") then inl [name_rule; eoi]
  else if text_eqb input (lit "l") then inl [use "l" []; eoi]
  else if text_eqb input (lit "m") then inl [use "missing" []; eoi]
  else inr 7%N.
Definition file (s : string) : path := [Normal (lit s ++ lit ".pest")].
Definition sample_read (p : path) : text + text :=
  if path_eqb p (file "a") then inl (lit "a")
  else if path_eqb p (file "b") then inl (lit "b")
  else if path_eqb p (file "c") then inl (lit "c")
  else if path_eqb p (file "l") then inl (lit "l")
  else inr (lit "not found").
Definition sample_text (p : path) : text := lit "f".
Definition sample_load (k : nat) (s : string) := load_file sample_parse sample_read sample_text sample_text k (lit s) (file s).
Lemma use_syntax : forall name options, plain_name (lit name) ->
  options = [] \/ (exists p, options = [p] /\ pp_rule p = R_identifier) -> exists alias, import_syntax (use name options) [lit name] None alias 4 (4 + blen (lit name)).
Proof.
  intros name options P [->|(p & -> & R)]; eexists;
    (apply (Import_syntax [] 0 9 (lit name) 4 _ [leaf R_identifier (lit name) 4] [lit name] []);
     [apply Seg_last; reflexivity|constructor; [exact P|constructor]|constructor|]); [apply No_alias|apply As_alias, R].
Qed.
Lemma one_name : forall c, name_char c -> plain_name [c].
Proof. intros c H. split; [discriminate|constructor; [exact H|constructor]]. Qed.
Ltac a_name := split; [discriminate|cbn; repeat (apply Forall_cons; [unfold name_char; lia|]); apply Forall_nil].
Lemma use_item : forall name options, plain_name (lit name) ->
  options = [] \/ (exists p, options = [p] /\ pp_rule p = R_identifier) -> syn_item (use name options).
Proof. intros name options P O. destruct (use_syntax name options P O) as (alias & S). eapply Syn_import, S. Qed.
Lemma name_rule_item : syn_item name_rule.
Proof.
  apply (Syn_rule _ [] (lit "x") [] false (mkPPair R_expression (lit "y") 2 3 [mkPPair R_term (lit "y") 2 3 [mkPPair R_path (lit "y") 2 3 [leaf R_identifier (lit "y") 2]]])).
  - apply (Rule_syntax _ _ _ [] [] (leaf R_identifier (lit "x") 0) [] [] (leaf R_assignment_operator (lit "=") 1)); [constructor|left; reflexivity|constructor|reflexivity|reflexivity|].
    constructor. reflexivity.
  - apply (Syn_expression _ _ _ []); [left; reflexivity|]. apply Syn_last. apply (Syn_term _ _ _ [] [_] []); [constructor| |constructor].
    apply (Syn_path (lit "y") 2 3 [leaf R_identifier (lit "y") 2] [lit "y"] []); [apply Seg_last; reflexivity|constructor].
  - repeat first [apply Forall_nil|apply Forall_cons|apply Tame; cbn [pp_rule pp_inner pp_str]; [discriminate || (intro; discriminate)|discriminate|]].
Qed.
Lemma eoi_item : syn_item eoi.
Proof. apply Syn_eoi. reflexivity. Qed.
Lemma sample_syntax : forall input, syn_file sample_parse input.
Proof.
  intros input pairs E. unfold sample_parse in E.
  repeat match type of E with (if ?b then _ else _) = _ => destruct b end; try discriminate; injection E as <-;
    repeat apply Forall_cons; try apply Forall_nil; try exact eoi_item; try exact name_rule_item; apply use_item; try a_name;
    first [left; reflexivity|right; eexists; split; reflexivity].
Qed.
Lemma sample_nice : forall q c, sample_read q = inl c -> syn_file sample_parse c.
Proof. intros. apply sample_syntax. Qed.

(** C50: after loading a grammar, the recorded dependencies are exactly the files that it imports
    directly or through other imports; these are the files that have been read, each of them once. *)
Theorem C50_exact : forall parse_file read_file path_text debug_path k root input m reads,
  syn_file parse_file input -> (forall q c, read_file q = inl c -> syn_file parse_file c) ->
  load_file parse_file read_file path_text debug_path k input root = Ret (inl (m, reads)) ->
  NoDup reads /\
  (forall q, In q reads <-> reaches parse_file read_file root input q) /\
  (forall q, In q (g_deps m) <-> reaches parse_file read_file root input q).
Proof. intros. eapply load_reads; eassumption. Qed.
Print Assumptions C50_exact.
Example C50_exact_ex : exists m, sample_load 3 "r" = Ret (inl (m, [file "a"; file "c"; file "b"])) /\
  g_deps m = [file "a"; file "c"; file "b"] /\ syn_file sample_parse (lit "r").
Proof. eexists. split; [vm_compute; reflexivity|]. split; [vm_compute; reflexivity|apply sample_syntax]. Qed.

(** C50 is false of the modules inside a loaded grammar: the dependencies of an imported grammar can
    lack a file that it imports. *)
Theorem C50_imported_refuted : exists parse_file read_file path_text debug_path k root input m reads alias m' q c x,
  (forall s, syn_file parse_file s) /\
  load_file parse_file read_file path_text debug_path k input root = Ret (inl (m, reads)) /\
  In (File alias m') (g_imports m) /\ read_file q = inl c /\
  file_means parse_file read_file path_text debug_path q c (Loaded (shape m')) /\
  reaches parse_file read_file q c x /\ ~ In x (g_deps m').
Proof.
  exists sample_parse, sample_read, sample_text, sample_text, 3, (file "r"), (lit "r").
  destruct (sample_load 3 "r") as [[(m, reads)|]| |] eqn:E; try (vm_compute in E; discriminate). exists m, reads.
  unfold sample_load in E. rewrite E. vm_compute in E. injection E as <- <-.
  set (n := mkNode (PPath [lit "y"] None) (mkMSpan (lit "f") 2 3)). set (r := mkParseRule [] (lit "x") [] (mkMSpan (lit "f") 0 3) n false).
  set (mc := mkModule [] [r] [] []). set (mb := mkModule [] [r] [] [File (lit "c") mc]).
  exists (lit "z"), mb, (file "b"), (lit "b"), (file "c"). split; [exact sample_syntax|]. split; [reflexivity|].
  split; [right; left; reflexivity|]. split; [reflexivity|]. split; [|split; [|intros []]].
  - destruct (sound_loaded sample_parse sample_read sample_text sample_text sample_nice 3 (file "b") (lit "b") (mkLState [] [])
      (mkModule [file "c"] [r] [] [File (lit "c") mc]) (mkLState [(file "c", mc)] [file "c"])) as (M & _).
    + apply sample_syntax.
    + intros q m H. discriminate.
    + vm_compute. reflexivity.
    + exact M.
  - apply Reach_direct. exists [use "c" []; name_rule; eoi], (use "c" []), (lit "c"), 4, 5. split; [reflexivity|]. split; [left; reflexivity|].
    destruct (use_syntax "c" [] ltac:(a_name) (or_introl eq_refl)) as (alias & S).
    destruct (import_total (file "b") _ _ _ _ _ _ S) as (y & M). pose proof (import_read (file "b") (lit "f") _ _ M) as V.
    vm_compute in V. destruct y as [x t a b|e|]; cbn [import_value] in V; try discriminate. injection V as <- <- <- <-. exact M.
Qed.
Print Assumptions C50_imported_refuted.

(** C51: loading ends exactly if the grammar has a meaning: a finite tree of imports. *)
Theorem C51_exact : forall parse_file read_file path_text debug_path root input,
  syn_file parse_file input -> (forall q c, read_file q = inl c -> syn_file parse_file c) ->
  ((exists k, load_file parse_file read_file path_text debug_path k input root <> OutOfFuel) <->
   exists r, file_means parse_file read_file path_text debug_path root input r).
Proof.
  intros parse_file read_file path_text debug_path root input S N. split.
  - intros (k & T). destruct (load_sound _ _ path_text debug_path N k root input S T) as (r & M & _). exists r. exact M.
  - intros (r & M). destruct (load_complete _ _ _ _ root input r M) as (k0 & H). exists k0. specialize (H k0 (le_n _)).
    destruct r as [t|e|]; cbn [outcome_of] in H; [destruct H as (m & reads & -> & _)|rewrite H|rewrite H]; discriminate.
Qed.
Print Assumptions C51_exact.
Example C51_exact_ex : syn_file sample_parse (lit "r") /\ sample_load 3 "r" <> OutOfFuel /\ sample_load 2 "r" = OutOfFuel.
Proof. split; [apply sample_syntax|]. split; [vm_compute; discriminate|vm_compute; reflexivity]. Qed.

(** C51: loading ends for every finite set of files in which none imports itself, directly or through
    others. *)
Theorem C51_acyclic : forall parse_file read_file path_text debug_path root input files,
  syn_file parse_file input -> (forall q c, read_file q = inl c -> syn_file parse_file c) ->
  (forall q c, reaches parse_file read_file root input q -> read_file q = inl c -> In q files) ->
  (forall q c, reaches parse_file read_file root input q -> read_file q = inl c -> ~ reaches parse_file read_file q c q) ->
  exists k0, forall k, k0 <= k -> load_file parse_file read_file path_text debug_path k input root <> OutOfFuel.
Proof. intros. eapply load_terminates; eassumption. Qed.
Print Assumptions C51_acyclic.
Example C51_acyclic_ex :
  (forall q c, reaches sample_parse sample_read (file "r") (lit "r") q -> sample_read q = inl c -> In q [file "a"; file "b"; file "c"]) /\
  (forall q c, reaches sample_parse sample_read (file "r") (lit "r") q -> sample_read q = inl c -> ~ reaches sample_parse sample_read q c q).
Proof.
  destruct C50_exact_ex as (m & E & D & S). unfold sample_load in E.
  destruct (C50_exact _ _ _ _ _ _ _ _ _ S sample_nice E) as (_ & A & _). split.
  - intros q c R _. apply A in R. destruct R as [<-|[<-|[<-|[]]]]; cbn [In]; auto.
  - intros q c R RQ. destruct (load_sound _ _ _ _ sample_nice 3 (file "r") (lit "r") S ltac:(rewrite E; discriminate)) as (r & M & O).
    destruct r as [t|e|]; cbn [outcome_of] in O; try (rewrite E in O; discriminate).
    destruct (reached_smaller _ _ _ _ sample_nice _ _ _ R t M) as (c' & u & RC & MU & _). rewrite RQ in RC. injection RC as <-. exact (not_cyclic _ _ _ _ sample_nice q c u RQ MU).
Qed.

(** C51 as intended, for all finite sets of files, is false: a file that imports itself is loaded
    forever. *)
Theorem C51_every_graph_refuted : exists parse_file read_file path_text debug_path root input (files : list path),
  (forall s, syn_file parse_file s) /\ (forall q c, read_file q = inl c -> In q files) /\
  forall k, load_file parse_file read_file path_text debug_path k input root = OutOfFuel.
Proof.
  exists sample_parse, sample_read, sample_text, sample_text, (file "l"), (lit "l"), [file "a"; file "b"; file "c"; file "l"].
  split; [exact sample_syntax|]. split.
  - intros q c E. unfold sample_read in E.
    repeat match type of E with (if path_eqb q ?f then _ else _) = _ => destruct (path_eqb_spec q f) as [->|]; [cbn [In]; auto|] end. discriminate.
  - intro k. unfold load_file.
    assert (L : forall st, cache_get (file "l") (ls_cache st) = None ->
      load_fuel sample_parse sample_read sample_text sample_text k (lit "l") (file "l") st = OutOfFuel).
    { induction k as [|k IH]; intros st C; [reflexivity|]. cbn [load_fuel].
      change (sample_parse (lit "l")) with (@inl (list ppair) N [use "l" []; eoi]). cbv iota.
      cbn [load_items]. change (pp_rule (use "l" [])) with R_import. cbv iota.
      replace (read_import (file "l") (sample_text (file "l")) (use "l" [])) with (@ok (text * target * nat * nat) (lit "l", To_file (file "l"), 4, 5)) by (vm_compute; reflexivity).
      unfold ok at 1. cbn [pbind obind]. rewrite C. change (sample_read (file "l")) with (@inl text text (lit "l")). cbv iota.
      rewrite IH by exact C. reflexivity. }
    rewrite L; reflexivity.
Qed.
Print Assumptions C51_every_graph_refuted.

(** C61: a grammar is loaded exactly as it means: each import is a grammar of its own under its alias,
    loaded from the file that the import names, whether or not that file has been loaded before. *)
Theorem C61_loaded : forall parse_file read_file path_text debug_path root input t,
  syn_file parse_file input -> (forall q c, read_file q = inl c -> syn_file parse_file c) ->
  ((exists k m reads, load_file parse_file read_file path_text debug_path k input root = Ret (inl (m, reads)) /\ shape m = t) <->
   file_means parse_file read_file path_text debug_path root input (Loaded t)).
Proof.
  intros parse_file read_file path_text debug_path root input t S N. split.
  - intros (k & m & reads & E & <-). destruct (load_sound _ _ path_text debug_path N k root input S) as (r & M & O); [rewrite E; discriminate|].
    rewrite E in O. destruct r as [t|e|]; cbn [outcome_of] in O; try discriminate. destruct O as (m' & r' & Q & <-). injection Q as <- <-. exact M.
  - intro M. destruct (load_complete _ _ _ _ root input _ M) as (k0 & H). destruct (H k0 (le_n _)) as (m & reads & E & SH). exists k0, m, reads. auto.
Qed.
Print Assumptions C61_loaded.
(** C61: the error is that of the first faulty item of the file itself; a fault in an imported file
    makes the program panic instead. *)
Theorem C61_error : forall parse_file read_file path_text debug_path root input e,
  syn_file parse_file input -> (forall q c, read_file q = inl c -> syn_file parse_file c) ->
  ((exists k, load_file parse_file read_file path_text debug_path k input root = Ret (inr e)) <->
   file_means parse_file read_file path_text debug_path root input (Failed e)).
Proof.
  intros parse_file read_file path_text debug_path root input e S N. split.
  - intros (k & E). destruct (load_sound _ _ path_text debug_path N k root input S) as (r & M & O); [rewrite E; discriminate|].
    rewrite E in O. destruct r as [t|e'|]; cbn [outcome_of] in O; try discriminate; [destruct O as (m' & r' & Q & _); discriminate|].
    injection O as <-. exact M.
  - intro M. destruct (load_complete _ _ _ _ root input _ M) as (k0 & H). exists k0. exact (H k0 (le_n _)).
Qed.
Print Assumptions C61_error.
Theorem C61_panic : forall parse_file read_file path_text debug_path root input,
  syn_file parse_file input -> (forall q c, read_file q = inl c -> syn_file parse_file c) ->
  ((exists k, load_file parse_file read_file path_text debug_path k input root = Panic) <->
   file_means parse_file read_file path_text debug_path root input Crash).
Proof.
  intros parse_file read_file path_text debug_path root input S N. split.
  - intros (k & E). destruct (load_sound _ _ path_text debug_path N k root input S) as (r & M & O); [rewrite E; discriminate|].
    rewrite E in O. destruct r as [t|e'|]; cbn [outcome_of] in O; try discriminate; [destruct O as (m' & r' & Q & _); discriminate|]. exact M.
  - intro M. destruct (load_complete _ _ _ _ root input _ M) as (k0 & H). exists k0. exact (H k0 (le_n _)).
Qed.
Print Assumptions C61_panic.
(** C61: a grammar has at most one meaning. *)
Theorem C61_unique : forall parse_file read_file path_text debug_path root input r r',
  file_means parse_file read_file path_text debug_path root input r ->
  file_means parse_file read_file path_text debug_path root input r' -> r = r'.
Proof. exact file_means_det. Qed.
Print Assumptions C61_unique.
Definition rule_x : parse_rule := mkParseRule [] (lit "x") [] (mkMSpan (lit "f") 0 3) (mkNode (PPath [lit "y"] None) (mkMSpan (lit "f") 2 3)) false.
Example C61_ex :
  syn_file sample_parse (lit "r") /\
  (exists m reads, sample_load 3 "r" = Ret (inl (m, reads)) /\
   shape m = MTree [rule_x] []
     [M_file (lit "a") (MTree [] [] [M_file (lit "c") (MTree [rule_x] [] [])]);
      M_file (lit "z") (MTree [rule_x] [] [M_file (lit "c") (MTree [rule_x] [] [])])]) /\
  sample_load 3 "m" = Ret (inr (CustomError (lit "cannot read from f due to: not found") 4 11)) /\
  sample_load 3 "q" = Ret (inr (SyntaxError 7%N)).
Proof.
  split; [apply sample_syntax|]. split; [eexists _, _; split; vm_compute; reflexivity|]. split; vm_compute; reflexivity.
Qed.
(** C61: what an import refers to and how it is called. *)
Theorem C61_import : forall root root_text p x, import_means root p x ->
  read_import root root_text p = match x with
  | Refers x t a b => Ret (inl (x, t, a, b))
  | Misread e => Ret (inr e)
  | No_directory => Panic
  end.
Proof. exact import_read. Qed.
Print Assumptions C61_import.
Theorem C61_import_total : forall root p names file alias a b, import_syntax p names file alias a b -> exists x, import_means root p x.
Proof. exact import_total. Qed.
Print Assumptions C61_import_total.
Example C61_import_ex :
  let dir := [RootDir; Normal (lit "g")] in
  let path l := mkPPair R_import [] 0 30 (mkPPair R_path [] 4 20 l ::
    [mkPPair R_string (34%N :: lit "./x//y/../z" ++ [34%N]) 22 35 []; leaf R_identifier (lit "n") 39]) in
  read_import (dir ++ [Normal (lit "r.pest")]) [] (use "a" []) = Ret (inl (lit "a", To_file (dir ++ [Normal (lit "a.pest")]), 4, 5)) /\
  read_import (dir ++ [Normal (lit "r.pest"); Normal (lit "s.pest")]) [] (use "a" []) = Ret (inl (lit "a", To_file (dir ++ [Normal (lit "a.pest")]), 4, 5)) /\
  read_import (dir ++ [Normal (lit "r.pest")]) [] (use "super" []) = Ret (inl (lit "super", To_file (dir ++ [ParentDir]), 4, 9)) /\
  read_import dir [] (path [leaf R_identifier (lit "a") 4; leaf R_ancestry_operator (lit "::") 5; leaf R_identifier (lit "b") 7]) =
    Ret (inl (lit "n", To_file [CurDir; Normal (lit "x"); Normal (lit "y"); ParentDir; Normal (lit "z")], 4, 20)) /\
  read_import dir [] (path [leaf R_identifier (lit "pest") 4; leaf R_ancestry_operator (lit "::") 8; leaf R_identifier (lit "stack") 10]) =
    Ret (inl (lit "n", To_builtin [lit "pest"; lit "stack"], 4, 20)) /\
  read_import [RootDir] [] (use "a" []) = Panic /\
  import_base (dir ++ [Normal (lit "r.pest"); Normal (lit "s.pest")]) dir /\ location [lit "super"; lit "a"] [ParentDir; Normal (lit "a.pest")] /\
  written (lit "./x//y/../z") [CurDir; Normal (lit "x"); Normal (lit "y"); ParentDir; Normal (lit "z")] /\
  exists alias, import_syntax (use "a" []) [lit "a"] None alias 4 5.
Proof.
  cbv zeta. do 6 (split; [vm_compute; reflexivity|]). split; [apply (Base_up _ (lit "r")); discriminate|]. split.
  - apply Loc_more; [left; split; reflexivity|]. apply Loc_file. discriminate.
  - split; [exact (written_components (lit "./x//y/../z"))|]. apply use_syntax; [a_name|left; reflexivity].
Qed.

(** C62: merging grammars keeps all rules, comments and imports in order, and all dependencies. *)
Theorem C62_merge : forall l,
  g_rules (merge_modules l) = concat (map g_rules l) /\ g_doc (merge_modules l) = concat (map g_doc l) /\
  g_imports (merge_modules l) = concat (map g_imports l) /\
  (forall q, In q (g_deps (merge_modules l)) <-> exists m, In m l /\ In q (g_deps m)).
Proof.
  intro l. unfold merge_modules.
  assert (A : forall l m0, let m := fold_left (fun m i => mkModule (set_extend (g_deps m) (g_deps i)) (g_rules m ++ g_rules i)
      (g_doc m ++ g_doc i) (g_imports m ++ g_imports i)) l m0 in
    g_rules m = g_rules m0 ++ concat (map g_rules l) /\ g_doc m = g_doc m0 ++ concat (map g_doc l) /\
    g_imports m = g_imports m0 ++ concat (map g_imports l) /\
    (forall q, In q (g_deps m) <-> In q (g_deps m0) \/ exists i, In i l /\ In q (g_deps i))).
  { clear l. induction l as [|i l IH]; intro m0; cbn [fold_left map concat].
    - rewrite !app_nil_r. repeat split; auto. intros [H|(i & [] & _)]. exact H.
    - destruct (IH (mkModule (set_extend (g_deps m0) (g_deps i)) (g_rules m0 ++ g_rules i) (g_doc m0 ++ g_doc i) (g_imports m0 ++ g_imports i)))
        as (R & D & I & Q). cbv zeta. rewrite R, D, I. cbn [g_rules g_doc g_imports]. rewrite <- !app_assoc. do 3 (split; [reflexivity|]). intro q. split.
      + intro H. apply Q in H. cbn [g_deps] in H. apply (or_iff_compat_r _ (set_extend_in sample_text sample_text _ _ _)) in H. destruct H as [[H|H]|(j & J & H)];
          [left; exact H|right; exists i; split; [left; reflexivity|exact H]|right; exists j; split; [right; exact J|exact H]].
      + intros H. apply Q. cbn [g_deps]. rewrite (set_extend_in sample_text sample_text). destruct H as [H|(j & [<-|J] & H)]; auto. right. exists j. auto. }
  destruct (A l empty_module) as (R & D & I & Q). rewrite R, D, I. repeat split.
  - intro H. apply Q in H. destruct H as [[]|H]. exact H.
  - intro H. apply Q. right. exact H.
Qed.
Print Assumptions C62_merge.
Example C62_ex :
  merge_modules [mkModule [file "a"] [rule_x] [lit "d"] []; mkModule [file "a"; file "b"] [rule_x] [lit "e"] [Builtin (lit "s") []]] =
  mkModule [file "a"; file "b"] [rule_x; rule_x] [lit "d"; lit "e"] [Builtin (lit "s") []].
Proof. vm_compute. reflexivity. Qed.
