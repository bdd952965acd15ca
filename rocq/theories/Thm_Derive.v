(** Theorems about the derive macro: its attributes, the grammars it takes and the files it depends on. *)
From Coq Require Import String List NArith Arith Bool Lia.
From Verif Require Import Model_Text Model_Message Model_Meta Model_Grammar Model_Import Model_Pest2 Model_Generator Model_Output Model_Inline
  Model_Derive Spec_Unescape Spec_Grammar Spec_Import Spec_Generator Spec_Occur Spec_Pest2 Spec_Derive
  Proof_Import Proof_Load Proof_Derive Example_Generator Thm_Box Thm_Import Thm_Pest2.
Import ListNotations.
Open Scope list_scope.

(** C72: what the attributes say. *)
Theorem C72_exact : forall rust_ident attrs sources c,
  parse_derive rust_ident attrs = Ret (sources, c) <->
  Forall (accepted rust_ident) attrs /\ sources_of attrs sources /\ sources <> [] /\
  flag "no_pair" attrs (no_pair c) /\ flag "no_span" attrs (no_span c) /\ flag "no_warnings" attrs (no_warnings c) /\
  flag "box_all_rules" attrs (box_rules_only_if_needed (d_config c)) /\ no_getter (d_config c) = false /\
  setting "rules_mod" attrs (rules_mod (d_config c)).
Proof.
  intros rust_ident attrs sources c. rewrite attributes_read. cbn [fst]. split.
  - intros (F & [R1 R2 R3 R4 R5 R6 R7] & N). auto 10.
  - intros (F & R1 & N & R2 & R3 & R4 & R5 & R6 & R7). split; [exact F|]. split; [constructor; assumption|exact N].
Qed.
Print Assumptions C72_exact.
(** C72: the macro panics exactly if such an attribute is not written as it should, or there is no grammar. *)
Theorem C72_panic : forall rust_ident attrs,
  parse_derive rust_ident attrs = Panic <-> ~ Forall (accepted rust_ident) attrs \/ sources_of attrs [].
Proof. exact attributes_panic. Qed.
Print Assumptions C72_panic.
(** C72: all other attributes are ignored. *)
Theorem C72_others : forall rust_ident l a r, (forall n, In n meaningful -> ~ named n a) ->
  parse_derive rust_ident (l ++ a :: r) = parse_derive rust_ident (l ++ r).
Proof. exact ignored. Qed.
Print Assumptions C72_others.
Definition attr (name : string) (m : ameta) : attribute := mkAttribute (Some (lit name)) m.
Definition is (name value : string) : attribute := attr name (M_value (V_str (lit value))).
Definition any_ident (s : text) : bool := true.
Example C72_ex :
  let l := [is "grammar" "g.pest"; is "doc" "Text."; attr "no_span" M_path; attr "no_pair" (M_value (V_bool true)); mkAttribute None M_list;
    is "grammar_inline" "a = b"; attr "no_pair" (M_value (V_bool false)); is "rules_mod" "types"] in
  parse_derive any_ident l = Ret ([S_file (lit "g.pest"); S_inline (lit "a = b")], mkDConfig false true false (mkConfig false false (Some (lit "types")))) /\
  parse_derive any_ident (l ++ [attr "no_pair" (M_value (V_str (lit "true")))]) = Panic /\
  parse_derive any_ident [attr "no_pair" M_path] = Panic /\
  (forall n, In n meaningful -> ~ named n (is "doc" "Text.")).
Proof.
  cbv zeta. do 3 (split; [vm_compute; reflexivity|]). intros n I N. cbn in I. repeat (destruct I as [<-|I]; [discriminate|]). contradiction.
Qed.

(** C72: which structs are boxed: all, without the attribute [box_all_rules]; with it, only those of rules
    that reach themselves. *)
Theorem C72_boxed : forall rust_ident attrs sources c fuel global root depth g tr o coll tr',
  parse_derive rust_ident attrs = Ret (sources, c) ->
  process_rules (d_config c) fuel global root depth g tr = Ret (o, coll, tr') ->
  (flag "box_all_rules" attrs false -> forall s, In s (o_content o) -> gs_boxed s = true) /\
  (flag "box_all_rules" attrs true -> forall s, In s (o_content o) -> gs_boxed s = true -> exists l, chain (g_rules g) l (gs_name s) (gs_name s)).
Proof.
  intros rust_ident attrs sources c fuel global root depth g tr o coll tr' P H. apply C72_exact in P. destruct P as (_ & _ & _ & _ & _ & _ & B & _).
  split; intros F; pose proof (flag_det _ _ _ _ B F); [eapply C39_all|eapply C39_needed]; eassumption.
Qed.
Print Assumptions C72_boxed.
(** A grammar without recursion. *)
Definition two_rules : text := line "a = ""x""" ++ lit "b = a - a".
Definition no_files (p : path) : text + text := inr (lit "not found").
Definition run (attrs : list attribute) : outcome expansion :=
  derive_parser any_ident None (fun _ => false) no_files (parse_text no_report) sample_text sample_text [] 40 [] attrs.
(** The names of the structs in the module of types, and whether they are boxed. *)
Definition boxes (x : expansion) : list (text * bool) :=
  flat_map (fun e => match snd e with
    | R_mod l _ => flat_map (fun i => match snd i with R_struct s => [(gs_name s, gs_boxed s)] | _ => [] end) l
    | _ => [] end) (x_items x).
Example C72_boxed_ex : exists sources c, parse_derive any_ident [is "grammar_inline" "a = b"; attr "box_all_rules" M_path] = Ret (sources, c) /\
  flag "box_all_rules" [is "grammar_inline" "a = b"; attr "box_all_rules" M_path] true /\ exists o coll tr',
  process_rules (d_config c) 9 (make_global sample_unicode) [lit "super"] 0 sample gt_new = Ret (o, coll, tr') /\
  map gs_boxed (o_content o) = [true; false; false; false; false].
Proof.
  eexists _, _. split; [vm_compute; reflexivity|]. split; [|do 3 eexists; split; vm_compute; reflexivity].
  apply (Flag_set _ _ [_] (attr "box_all_rules" M_path) [] true eq_refl); [apply Sets_alone; reflexivity|constructor].
Qed.
Lemma computed : forall (A : Type) (o : outcome A) (f : A -> bool), match o with Ret x => f x | _ => false end = true -> exists x, o = Ret x /\ f x = true.
Proof. intros A [x| |] f H; try discriminate. exists x. auto. Qed.
Arguments computed {A}.
Lemma computed_value : forall (A B : Type) (o : outcome A) (f : A -> B) v, match o with Ret x => Some (f x) | _ => None end = Some v -> exists x, o = Ret x /\ f x = v.
Proof. intros A B [x| |] f v H; try discriminate. injection H as <-. exists x. auto. Qed.
Arguments computed_value {A B}.
Definition all_are (b : bool) (l : list (text * bool)) : bool := match l with [] => false | _ => forallb (fun e => Bool.eqb (snd e) b) l end.
Lemma all_are_spec : forall b l, all_are b l = true -> l <> [] /\ forall n x, In (n, x) l -> x = b.
Proof.
  intros b [|e l] H; [discriminate|]. split; [discriminate|]. intros n x I. unfold all_are in H. rewrite forallb_forall in H. apply eqb_prop, (H _ I).
Qed.
(** C72: so [box_all_rules] does the opposite of what its name says. *)
Theorem C72_box_all_refuted : exists grammar x y,
  run [attr "grammar_inline" (M_value (V_str grammar))] = Ret x /\ boxes x <> [] /\ (forall n b, In (n, b) (boxes x) -> b = true) /\
  run [attr "grammar_inline" (M_value (V_str grammar)); attr "box_all_rules" M_path] = Ret y /\ boxes y <> [] /\ (forall n b, In (n, b) (boxes y) -> b = false).
Proof.
  exists two_rules.
  destruct (computed (run [attr "grammar_inline" (M_value (V_str two_rules))]) (fun x => all_are true (boxes x))) as (x & E & A); [vm_compute; reflexivity|].
  destruct (computed (run [attr "grammar_inline" (M_value (V_str two_rules)); attr "box_all_rules" M_path]) (fun x => all_are false (boxes x)))
    as (y & E' & A'); [vm_compute; reflexivity|].
  apply all_are_spec in A, A'. destruct A as (A & B), A' as (A' & B'). exists x, y. auto 10.
Qed.
Print Assumptions C72_box_all_refuted.
(** C72: not every declared attribute has an effect, and not every one that has an effect is declared. *)
Theorem C72_declared_refuted :
  (exists n, In n declared /\ forall rust_ident l m r, parse_derive rust_ident (l ++ attr n m :: r) = parse_derive rust_ident (l ++ r)) /\
  (exists n, ~ In n declared /\ exists rust_ident l, parse_derive rust_ident (l ++ [attr n M_path]) <> parse_derive rust_ident l).
Proof.
  split.
  - exists "no_getter"%string. split; [cbn; tauto|]. intros rust_ident l m r. apply C72_others. intros n I N. cbn in I. repeat (destruct I as [<-|I]; [discriminate|]). contradiction.
  - exists "box_all_rules"%string. split; [cbn; intuition discriminate|]. exists any_ident, [is "grammar" "g"]. vm_compute. discriminate.
Qed.
Print Assumptions C72_declared_refuted.

(** C73: where grammars are taken from. *)
Theorem C73_sources : forall manifest_dir path_exists read_file sources data,
  collect_data manifest_dir path_exists read_file sources = Ret data <->
  Forall2 (source_text (manifest manifest_dir) path_exists read_file) sources data.
Proof. intros. apply collect_all. Qed.
Print Assumptions C73_sources.
Theorem C73_missing : forall manifest_dir path_exists read_file sources,
  collect_data manifest_dir path_exists read_file sources = Panic <->
  exists s, In s sources /\ forall d, ~ source_text (manifest manifest_dir) path_exists read_file s d.
Proof. intros. apply collect_panic. Qed.
Print Assumptions C73_missing.
(** C73: if the directory of the package is not known, it is the current one. *)
Theorem C73_directory : forall path_exists read_file sources,
  collect_data None path_exists read_file sources = collect_data (Some (lit ".")) path_exists read_file sources /\
  grammar_root None None = CurDir :: [Normal (lit "_.rs")] /\
  forall p d n, components p = d ++ [Normal n] -> (forall x, In x d -> exists t, x = Normal t) -> path_exists (CurDir :: d ++ [Normal n]) = true ->
    collect_data None path_exists read_file [S_file p] =
    match read_file (CurDir :: d ++ [Normal n]) with inl c => Ret [(c, Some (CurDir :: d ++ [Normal n]))] | inr _ => Panic end.
Proof.
  intros path_exists read_file sources. split; [reflexivity|]. split; [reflexivity|]. intros p d n E D P.
  assert (J : join (manifest None) (components p) = CurDir :: d ++ [Normal n]).
  { rewrite E. unfold join, manifest. destruct d as [|x d]; [reflexivity|]. destruct (D x (or_introl eq_refl)) as (t & ->). reflexivity. }
  cbn [collect_data collect_source]. rewrite J, P. replace (file_name (CurDir :: d ++ [Normal n])) with (Some n).
  - destruct (read_file (CurDir :: d ++ [Normal n])); reflexivity.
  - unfold file_name. rewrite app_comm_cons, rev_app_distr. reflexivity.
Qed.
Print Assumptions C73_directory.
Example C73_directory_ex : components (lit "a/g.pest") = [Normal (lit "a")] ++ [Normal (lit "g.pest")].
Proof. reflexivity. Qed.
(** C73: imports of a grammar file are looked up beside it, if its name ends in [.pest]; those of an inline
    grammar in the directory of the package. *)
Theorem C73_beside : forall manifest_dir d x b, x <> [] ->
  (import_base (grammar_root manifest_dir (Some (d ++ [Normal (x ++ lit ".pest")]))) b <-> b = d).
Proof.
  intros manifest_dir d x b N. unfold grammar_root. split.
  - intro H. inversion H as [d' f F P E|d' y f F P E].
    + apply app_inj_tail in E. destruct E as (-> & _). destruct P. exists d, x. auto.
    + rewrite <- app_assoc in E. change (Normal (y ++ lit ".pest") :: [f]) with ([Normal (y ++ lit ".pest")] ++ [f]) in E. rewrite !app_assoc in E.
      apply app_inj_tail in E. destruct E as (E & _). apply app_inj_tail in E. destruct E as (E & _). congruence.
  - intros ->. rewrite <- app_assoc. apply Base_up; [discriminate|exact N].
Qed.
Print Assumptions C73_beside.
Theorem C73_inline : forall manifest_dir b, ~ named_pest (manifest manifest_dir) ->
  (import_base (grammar_root manifest_dir None) b <-> b = manifest manifest_dir).
Proof.
  intros manifest_dir b N. unfold grammar_root. split.
  - intro H. inversion H as [d' f F P E|d' y f F P E].
    + apply app_inj_tail in E. destruct E as (E & _). congruence.
    + change (Normal (y ++ lit ".pest") :: [f]) with ([Normal (y ++ lit ".pest")] ++ [f]) in E. rewrite app_assoc in E.
      apply app_inj_tail in E. destruct E as (E & _). destruct N. exists b, y. split; [assumption|congruence].
  - intros ->. apply Base_dir; [discriminate|exact N].
Qed.
Print Assumptions C73_inline.

Section Expansion.
Variables (rust_ident : text -> bool) (manifest_dir : option text) (path_exists : path -> bool) (read_file : path -> text + text)
  (parse_file : text -> list ppair + N) (path_text debug_path : path -> text) (current_dir : path).
Notation expands := (derive_parser rust_ident manifest_dir path_exists read_file parse_file path_text debug_path current_dir).
Notation means d := (file_means parse_file read_file path_text debug_path (grammar_root manifest_dir (snd d)) (fst d)).
Notation gives := (source_text (manifest manifest_dir) path_exists read_file).

Definition readable_sources (attrs : list attribute) : Prop :=
  (forall q c, read_file q = inl c -> syn_file parse_file c) /\
  (forall a s, In a attrs -> named "grammar_inline" a -> at_meta a = M_value (V_str s) -> syn_file parse_file s).
Lemma sources_syntax : forall attrs sources data, readable_sources attrs -> sources_of attrs sources -> Forall2 gives sources data ->
  Forall (fun d => syn_file parse_file (fst d)) data.
Proof.
  intros attrs sources data (A & B) S. revert data.
  assert (C : forall s, In (S_inline s) sources -> exists a, In a attrs /\ named "grammar_inline" a /\ at_meta a = M_value (V_str s)).
  { induction S as [|a s l r N M S IH|a s l r N M S IH|a l r N M S IH]; intros x I.
    - destruct I.
    - destruct I as [I|I]; [discriminate|]. destruct IH with (s := x) as (a' & J & K); [intros a' s' J; apply B; right; exact J|exact I|]. exists a'. split; [right; exact J|exact K].
    - destruct I as [I|I]; [injection I as <-; exists a; split; [left; reflexivity|auto]|].
      destruct IH with (s := x) as (a' & J & K); [intros a' s' J; apply B; right; exact J|exact I|]. exists a'. split; [right; exact J|exact K].
    - destruct IH with (s := x) as (a' & J & K); [intros a' s' J; apply B; right; exact J|exact I|]. exists a'. split; [right; exact J|exact K]. }
  clear S. induction sources as [|s sources IH]; intros data F; inversion F as [|s' d' l' r' G F']; subst; constructor.
  - destruct G as [s d n c _ R|s]; cbn [fst]; [eapply A, R|]. destruct (C s) as (a & I & N & M); [left; reflexivity|]. eapply B; eassumption.
  - apply IH; [intros x I; apply C; right; exact I|exact F'].
Qed.
Lemma load_one : forall k d m, load_source manifest_dir read_file parse_file path_text debug_path k d = Ret m ->
  exists reads, load_file parse_file read_file path_text debug_path k (fst d) (grammar_root manifest_dir (snd d)) = Ret (inl (m, reads)).
Proof.
  intros k d m H. unfold load_source in H. destruct (load_file _ _ _ _ k (fst d) _) as [[(m', reads)|e]| |]; try discriminate. cbn [obind] in H. injection H as <-. eauto.
Qed.
Lemma load_all : forall k data modules, load_sources manifest_dir read_file parse_file path_text debug_path k data = Ret modules ->
  Forall2 (fun d m => load_source manifest_dir read_file parse_file path_text debug_path k d = Ret m) data modules.
Proof.
  intro k. induction data as [|d data IH]; intros modules H; cbn [load_sources] in H; [injection H as <-; constructor|].
  destruct (load_source manifest_dir read_file parse_file path_text debug_path k d) as [m| |] eqn:E; try discriminate. cbn [obind] in H.
  destruct (load_sources manifest_dir read_file parse_file path_text debug_path k data) as [r| |]; try discriminate. cbn [obind] in H. injection H as <-. constructor; auto.
Qed.

(** C73: the expansion is generated from all the grammars, and it includes exactly their files and those
    that they import, directly or through others. *)
Theorem C73_expanded : forall k names attrs x, readable_sources attrs -> expands k names attrs = Ret x ->
  exists sources c data modules,
    parse_derive rust_ident attrs = Ret (sources, c) /\ Forall2 gives sources data /\
    Forall2 (fun d m => means d (Loaded (shape m))) data modules /\
    generate_typed (d_config c) k names (merge_modules modules) = Ret (x_items x) /\
    (forall q, In q (x_included x) <-> exists p d, q = join current_dir p /\ In d data /\
       (snd d = Some p \/ reaches parse_file read_file (grammar_root manifest_dir (snd d)) (fst d) p)).
Proof.
  intros k names attrs x S H. unfold derive_parser in H.
  destruct (parse_derive rust_ident attrs) as [(sources, c)| |] eqn:P; try discriminate. cbn [obind] in H.
  destruct (collect_data manifest_dir path_exists read_file sources) as [data| |] eqn:D; try discriminate. cbn [obind] in H.
  destruct (load_sources manifest_dir read_file parse_file path_text debug_path k data) as [modules| |] eqn:L; try discriminate. cbn [obind] in H.
  destruct (generate_typed (d_config c) k names (merge_modules modules)) as [items| |] eqn:G; try discriminate. cbn [obind] in H. injection H as <-. cbn [x_items x_included].
  apply C73_sources in D. assert (P' := P). apply C72_exact in P'. destruct P' as (_ & So & _).
  assert (Y := sources_syntax _ _ _ S So D). apply load_all in L.
  assert (Q : Forall2 (fun d m => means d (Loaded (shape m)) /\ forall q, In q (g_deps m) <-> reaches parse_file read_file (grammar_root manifest_dir (snd d)) (fst d) q) data modules).
  { clear - L Y S. destruct S as (S & _). induction L as [|d m data modules E L IH]; constructor.
    - inversion Y as [|? ? Sd _]; subst. apply load_one in E. destruct E as (reads & E). split.
      + apply (C61_loaded parse_file read_file path_text debug_path _ _ _ Sd S). eauto.
      + destruct (C50_exact _ _ _ _ _ _ _ _ _ Sd S E) as (_ & _ & Z). exact Z.
    - apply IH. inversion Y; assumption. }
  exists sources, c, data, modules. split; [reflexivity|]. split; [exact D|]. split; [|split; [exact G|]].
  - clear - Q. induction Q as [|d m data modules (A & _) Q IH]; constructor; assumption.
  - intro q. rewrite in_map_iff. destruct (C62_merge modules) as (_ & _ & _ & Z). split.
    + intros (p & <- & I). exists p. apply in_app_iff in I. destruct I as [I|I].
      * unfold source_paths in I. apply in_flat_map in I. destruct I as (d & I & J). exists d. split; [reflexivity|]. split; [exact I|]. left.
        destruct (snd d); [destruct J as [<-|[]]; reflexivity|destruct J].
      * apply Z in I. destruct I as (m & I & J). clear - Q I J. induction Q as [|d m' data modules (_ & A) Q IH]; [destruct I|].
        destruct I as [<-|I]; [exists d; split; [reflexivity|]; split; [left; reflexivity|]; right; apply A, J|].
        destruct (IH I) as (d' & E & K & R). exists d'. split; [exact E|]. split; [right; exact K|exact R].
    + intros (p & d & -> & I & J). exists p. split; [reflexivity|]. apply in_app_iff. destruct J as [J|J]; [left|right].
      * unfold source_paths. apply in_flat_map. exists d. split; [exact I|]. rewrite J. left. reflexivity.
      * apply Z. clear - Q I J. induction Q as [|d' m' data modules (_ & A) Q IH]; [destruct I|].
        destruct I as [->|I]; [exists m'; split; [left; reflexivity|apply A, J]|]. destruct (IH I) as (m & K & R). exists m. split; [right; exact K|exact R].
Qed.
(** C73: conversely, grammars that are found and can be loaded are expanded, if code can be generated from
    all of them together. *)
Theorem C73_accepted : forall names attrs sources c data trees,
  parse_derive rust_ident attrs = Ret (sources, c) -> Forall2 gives sources data -> Forall2 (fun d t => means d (Loaded t)) data trees ->
  exists k0, forall k, k0 <= k -> exists modules, map shape modules = trees /\
    forall items, generate_typed (d_config c) k names (merge_modules modules) = Ret items -> exists x, expands k names attrs = Ret x /\ x_items x = items.
Proof.
  intros names attrs sources c data trees P D M.
  assert (L : exists k0, forall k, k0 <= k -> exists modules, map shape modules = trees /\
    load_sources manifest_dir read_file parse_file path_text debug_path k data = Ret modules).
  { clear P D. induction M as [|d t data trees F M (k1 & IH)]; [exists 0; intros k _; exists []; split; reflexivity|].
    destruct (load_complete _ _ _ _ _ _ _ F) as (k2 & H). exists (k1 + k2). intros k Lk. destruct (IH k ltac:(lia)) as (modules & E & Q).
    destruct (H k ltac:(lia)) as (m & reads & Em & Sm). exists (m :: modules). cbn [map]. rewrite E, Sm. split; [reflexivity|].
    cbn [load_sources]. unfold load_source at 1. rewrite Em. cbn [obind]. rewrite Q. reflexivity. }
  destruct L as (k0 & L). exists k0. intros k Lk. destruct (L k Lk) as (modules & E & Q). exists modules. split; [exact E|]. intros items G.
  unfold derive_parser. rewrite P. cbn [obind]. apply C73_sources in D. rewrite D. cbn [obind]. rewrite Q. cbn [obind]. rewrite G. cbn [obind]. eexists. split; reflexivity.
Qed.
(** C73: a grammar that is not found, or cannot be loaded, is never expanded. *)
Theorem C73_rejected : forall names attrs sources c s, readable_sources attrs ->
  parse_derive rust_ident attrs = Ret (sources, c) -> In s sources ->
  (forall d, gives s d -> exists r, means d r /\ forall t, r <> Loaded t) ->
  forall k x, expands k names attrs <> Ret x.
Proof.
  intros names attrs sources c s S P I N k x H. destruct (C73_expanded _ _ _ _ S H) as (sources' & c' & data & modules & P' & D & M & _).
  rewrite P in P'. injection P' as <- <-.
  assert (E : exists d m, gives s d /\ means d (Loaded (shape m))).
  { clear - I D M. revert modules M. induction D as [|s' d sources data G D IH]; intros modules M; [destruct I|]. inversion M as [|d' m data' ms A M']; subst.
    destruct I as [<-|I]; [exists d, m; auto|]. apply (IH I _ M'). }
  destruct E as (d & m & G & L). destruct (N d G) as (r & R & X). destruct (X (shape m)). eapply C61_unique; eassumption.
Qed.
End Expansion.
Print Assumptions C73_expanded.
Print Assumptions C73_accepted.
Print Assumptions C73_rejected.

(** A package with the files [src/g.pest], [src/g.txt] and [src/b.pest]; the first two import the last. *)
Definition in_src_dir (n : string) : path := [CurDir; Normal (lit "src"); Normal (lit n)].
Definition package (p : path) : text + text :=
  if path_eqb p (in_src_dir "g.pest") then inl main_text
  else if path_eqb p (in_src_dir "g.txt") then inl main_text
  else if path_eqb p (in_src_dir "b.pest") then inl (lit "c = ""x""")
  else inr (lit "not found").
Definition package_has (p : path) : bool := match package p with inl _ => true | inr _ => false end.
Definition build (k : nat) (attrs : list attribute) : outcome expansion :=
  derive_parser any_ident None package_has package (parse_text no_report) sample_text sample_text [RootDir; Normal (lit "w")] k [] attrs.
Lemma package_readable : forall attrs, forallb (fun a => negb (is_named "grammar_inline" a)) attrs = true -> readable_sources package (parse_text no_report) attrs.
Proof.
  intros attrs N. split.
  - intros q c E. apply C68_readable. unfold package in E.
    repeat match type of E with (if ?b then _ else _) = _ => destruct b end; try discriminate; injection E as <-; apply tidy_check; vm_compute; reflexivity.
  - intros a s I K. rewrite forallb_forall in N. specialize (N a I). destruct (is_named_spec "grammar_inline" a); [discriminate|contradiction].
Qed.
Example C73_ex : let attrs := [is "grammar" "g.pest"] in
  readable_sources package (parse_text no_report) attrs /\
  (exists x, build 30 attrs = Ret x /\ x_included x = map (fun n => [RootDir; Normal (lit "w"); Normal (lit "src"); Normal (lit n)]) ["g.pest"; "b.pest"]%string) /\
  source_text (manifest None) package_has package (S_file (lit "g.pest")) (main_text, Some (in_src_dir "g.pest")) /\
  import_base (grammar_root None (Some (in_src_dir "g.pest"))) [CurDir; Normal (lit "src")] /\
  ~ named_pest (manifest None).
Proof.
  cbv zeta. split; [apply package_readable; reflexivity|]. split.
  { destruct (computed_value (build 30 [is "grammar" "g.pest"]) x_included
      (map (fun n => [RootDir; Normal (lit "w"); Normal (lit "src"); Normal (lit n)]) ["g.pest"; "b.pest"]%string)) as (x & E & A); [vm_compute; reflexivity|]. exists x. auto. }
  split; [|split].
  - apply (proj1 (collect_one None package_has package _ _)). vm_compute. reflexivity.
  - apply (C73_beside None [CurDir; Normal (lit "src")] (lit "g") [CurDir; Normal (lit "src")]); [discriminate|reflexivity].
  - intros ([|? [|? ?]] & x & _ & E); vm_compute in E; discriminate.
Qed.
(** C73 is false for grammar files with other names: their imports are looked up as if the file was a
    directory. *)
Theorem C73_other_names_refuted : exists k x, build k [is "grammar" "g.pest"] = Ret x /\
  package (in_src_dir "g.txt") = package (in_src_dir "g.pest") /\ forall k x, build k [is "grammar" "g.txt"] <> Ret x.
Proof.
  exists 30. destruct (computed (build 30 [is "grammar" "g.pest"]) (fun _ => true)) as (x & E & _); [vm_compute; reflexivity|]. exists x. split; [exact E|]. split; [reflexivity|].
  clear E x. intros k x. unfold build. eapply C73_rejected with (sources := [S_file (lit "g.txt")]).
  - apply package_readable. reflexivity.
  - vm_compute. reflexivity.
  - left. reflexivity.
  - intros d G. apply (proj2 (collect_one None package_has package _ _)) in G. vm_compute in G. injection G as <-. cbn [fst snd].
    assert (R : forall q c, package q = inl c -> syn_file (parse_text no_report) c) by (apply (package_readable [] eq_refl)).
    assert (S : syn_file (parse_text no_report) main_text) by (apply C68_readable, tidy_check; vm_compute; reflexivity).
    eexists (Failed _). split; [|discriminate].
    apply (C61_error (parse_text no_report) package sample_text sample_text (grammar_root None (Some (in_src_dir "g.txt"))) main_text); [exact S|exact R|]. exists 3. vm_compute. reflexivity.
Qed.
Print Assumptions C73_other_names_refuted.
