(** Theorems about the display of expressions, which is part of the documentation of generated types. *)
From Coq Require Import String List NArith ZArith Arith Bool Lia.
From Verif Require Import Model_Text Model_Message Model_Meta Model_Grammar Model_Import Model_Pest2 Model_Display
  Spec_Unescape Spec_Message Spec_Grammar Spec_Import Spec_Pest2 Spec_Written Spec_Display
  Proof_Display Thm_Grammar Thm_Import Thm_Pest2 Thm_Written.
Import ListNotations.
Open Scope list_scope.

(** A rule with the given text as its expression. *)
Definition rule_text (name shown : text) : text := name ++ lit " = {" ++ shown ++ lit "}".

(** C71: the displayed form of an expression that can be written and is displayed in the notation of grammars is
    read as that expression. *)
Theorem C71_reads_back : forall printable report read_file path_text debug_path root name u n,
  identifier_text name -> w_expression u (tree_of n) -> showable (tree_of n) ->
  exists k0, forall k, k0 <= k -> exists m reads,
    load_file (parse_text report) read_file path_text debug_path k (rule_text name (show_node printable n)) root = Ret (inl (m, reads)) /\
    forget (shape m) = WTree [([], name, [], false, tree_of n)] [] [].
Proof.
  intros printable report read_file path_text debug_path root name u n I W S. apply C70_loaded. apply (shown_written printable) in W; [|exact S].
  apply W_loads with (items := [W_rule [] name [] false (tree_of n)]); [|constructor; constructor].
  replace (rule_text name (show_node printable n)) with ([] ++ [] ++ ([] ++ (name ++ lit " " ++ [] ++ lit "=" ++ lit " " ++ lit "{" ++ [] ++ show_node printable n ++ [] ++ lit "}") ++ [] ++ []) ++ [])
    by (cbn [app]; rewrite !app_nil_r; reflexivity).
  apply W_file; [constructor|constructor| | |left; reflexivity].
  - apply W_rule_item with (braced := true); [constructor| |constructor|constructor|left; reflexivity].
    apply W_rule_text; [left; exact I|apply blank_space|constructor|apply blank_space|]. apply W_braces; [constructor| |constructor]. apply W_plain, W_alternative, W_operand, W.
  - eexists _, _, _, _, _. left. reflexivity.
Qed.
Print Assumptions C71_reads_back.
(** An expression with all kinds of parts that are allowed. *)
Definition at_ (e : parse_expr) : parse_node := mkNode e (mkMSpan [] 0 0).
Definition shown_node : parse_node :=
  at_ (PChoice
    (at_ (PSeq (at_ (PNegPred (at_ (POpt (at_ (PPath [lit "x"; lit "y"] None)))))) (at_ (PStr [34; 9; 7; 233]%N)) TriviaOptional))
    (at_ (PSeq (at_ (PRep (at_ (PSeparated (at_ (PRange 39%N 97%N)) TriviaMandatory))))
      (at_ (PPath [lit "f"] (Some (PCall [at_ (PPath [lit "g"] (Some (PSlice (mkRange (Some (-2)%Z) None)))); at_ (PStr [])])))) TriviaNone))).
Example C71_reads_back_ex : (exists u, w_expression u (tree_of shown_node)) /\ showable (tree_of shown_node) /\
  show_node (fun c => (32 <=? c)%N) shown_node = lit "((!x::y? ~ ""\""\t\u{7}" ++ [233%N] ++ lit """) | ('\''..'a'^* - f(g[-2..], """")))".
Proof.
  split; [|split; [|vm_compute; reflexivity]].
  - exists (lit "!x::y?~""\""\t\u{7}" ++ [233%N] ++ lit """|'\''..'a'^*-f(g[-2..],r"""")"). apply W_plain.
    apply (W_choice (lit "!x::y?~""\""\t\u{7}" ++ [233%N] ++ lit """") [] [] (lit "'\''..'a'^*-f(g[-2..],r"""")")); [|white|white|apply W_alternative].
    + apply (W_sequence (lit "!x::y?") [] (lit "~") TriviaOptional [] (lit """\""\t\u{7}" ++ [233%N] ++ lit """")); [|white|constructor|white|].
      * apply (W_neg [] (lit "x::y?")); [white|]. eapply (W_postfixed (lit "x::y") _ (lit "?")).
        -- apply W_path, (W_more_names (lit "x") [] [] (lit "y")); [name|white|white|apply W_name; name].
        -- apply one_postfix. constructor.
      * apply W_operand, operand, W_terminal, (W_string (lit "\""\t\u{7}" ++ [233%N])).
        apply (D_escape (lit "\""") 34%N); [apply E_letter; constructor|]. apply (D_escape (lit "\t") 9%N); [apply E_letter; constructor|].
        apply (D_escape (lit "\u{7}") 7%N); [|apply D_plain; [discriminate|discriminate|constructor]].
        apply (E_unicode hex (lit "7") 7%N); [apply (Hex_one 55%N 7%N); left; split; [lia|reflexivity]|cbn; lia|reflexivity].
    + apply (W_sequence (lit "'\''..'a'^*") [] (lit "-") TriviaNone [] (lit "f(g[-2..],r"""")")); [|white|constructor|white|apply W_operand].
      * eapply (W_postfixed (lit "'\''..'a'") _ (lit "^*")); [|apply (one_separated _ (lit "^") TriviaMandatory (lit "*")); constructor].
        apply W_terminal, (W_range (lit "'\''") [] [] (lit "'a'")); [|white|white|].
        -- exists (lit "\'"). split; [reflexivity|]. split; [left; apply E_letter; constructor|discriminate].
        -- exists (lit "a"). split; [reflexivity|]. split; [right; split; [discriminate|reflexivity]|discriminate].
      * apply operand, (W_call (lit "f") [lit "f"] [] [] (lit "g[-2..],r""""") _ []); [apply W_name; name|white|white| |white].
        apply (W_actuals (lit "g[-2..]") _ [] [] (lit "r""""")); [|white|white|].
        -- apply W_plain, W_alternative, W_operand, operand.
           apply (W_slice (lit "g") [lit "g"] [] [] (lit "-2") (Some (-2)%Z) [] [] [] None []); try white; [apply W_name; name| |constructor| |].
           ++ apply W_integer, (I_minus (lit "2") 2%N). exact (notation_one 50%N ltac:(lia)).
           ++ intros z E. injection E as <-. vm_compute. split; discriminate.
           ++ intros z E. discriminate.
        -- apply W_actual, W_plain, W_alternative, W_operand, operand, W_terminal, (W_raw []). intros [].
  - repeat split; try (intros (v & [E|E]); discriminate); try discriminate; repeat constructor.
Qed.

(** C71: different expressions of that kind are displayed differently. *)
Theorem C71_distinct : forall printable u n u' n', w_expression u (tree_of n) -> showable (tree_of n) ->
  w_expression u' (tree_of n') -> showable (tree_of n') -> show_node printable n = show_node printable n' -> tree_of n = tree_of n'.
Proof.
  intros printable u n u' n' W S W' S' E.
  destruct (C71_reads_back printable no_report sample_files sample_text sample_text [] (lit "a") u n ltac:(name) W S) as (k & H).
  destruct (C71_reads_back printable no_report sample_files sample_text sample_text [] (lit "a") u' n' ltac:(name) W' S') as (k' & H').
  destruct (H (max k k') (Nat.le_max_l _ _)) as (m & r & L & F). destruct (H' (max k k') (Nat.le_max_r _ _)) as (m' & r' & L' & F').
  rewrite E, L' in L. injection L as -> ->. rewrite F' in F. injection F as ->. reflexivity.
Qed.
Print Assumptions C71_distinct.
Example C71_distinct_ex : w_expression (lit "!x ~ (""a"" | 'b'..'c'){2..}") sample_expression /\ ~ showable sample_expression /\
  w_expression (lit "x") (tree_of (at_ (PPath [lit "x"] None))) /\ showable (tree_of (at_ (PPath [lit "x"] None))).
Proof.
  split; [exact sample_body|]. split; [intros (_ & [])|]. split; [|exact I]. apply W_plain, W_alternative, W_operand, operand, W_path, W_name. name.
Qed.

(** C71: the documentation of a generated type tells which rule and which expression it is for. *)
Lemma name_has_no : forall u c, identifier_text u -> ~ name_char c -> ~ In c u.
Proof.
  intros u c (d & r & -> & D & F) N [E|I]; [subst d; apply N; unfold name_char; tauto|]. apply N. rewrite Forall_forall in F. apply F, I.
Qed.
Lemma split_at : forall (c : char) u u' v v', ~ In c u -> ~ In c u' -> u ++ c :: v = u' ++ c :: v' -> u = u' /\ v = v'.
Proof.
  intros c. induction u as [|a u IH]; intros [|a' u'] v v' N N' E; cbn [app] in E.
  - injection E as ->. auto.
  - injection E as <- _. exfalso. apply N'. left. reflexivity.
  - injection E as -> _. exfalso. apply N. left. reflexivity.
  - injection E as <- E. destruct (IH u' v v') as (-> & ->); [intro I; apply N; right; exact I|intro I; apply N'; right; exact I|exact E|auto].
Qed.
Theorem C71_doc : forall printable name u n name' u' n', identifier_text name -> identifier_text name' ->
  w_expression u (tree_of n) -> showable (tree_of n) -> w_expression u' (tree_of n') -> showable (tree_of n') ->
  rule_doc_text printable name n = rule_doc_text printable name' n' -> name = name' /\ tree_of n = tree_of n'.
Proof.
  intros printable name u n name' u' n' I I' W S W' S' E. unfold rule_doc_text in E. apply app_inv_head in E.
  assert (B : ~ name_char 96%N) by (unfold name_char; lia).
  apply (split_at 96%N) in E; [|apply name_has_no; assumption|apply name_has_no; assumption]. destruct E as (-> & E). split; [reflexivity|].
  apply (app_inv_head (lit ". Grammar: `")), (app_inv_tail (lit "`.")) in E. eapply C71_distinct; eassumption.
Qed.
Print Assumptions C71_doc.
Example C71_doc_ex : identifier_text (lit "ab") /\ w_expression (lit "x") (tree_of (at_ (PPath [lit "x"] None))) /\
  rule_doc_text (fun _ => true) (lit "ab") (at_ (PPath [lit "x"] None)) = lit "Generated for rule `ab`. Grammar: `x`.".
Proof. split; [name|]. split; [apply C71_distinct_ex|reflexivity]. Qed.

(** The expression of the only rule of a text. *)
Definition expression_of (input : text) (n : parse_node) : Prop := exists m reads r,
  load_file (parse_text no_report) sample_files sample_text sample_text 1 input (file "r") = Ret (inl (m, reads)) /\
  shape m = MTree [r] [] [] /\ pr_node r = n.
Definition not_loaded (input : text) : Prop := forall k m reads,
  load_file (parse_text no_report) sample_files sample_text sample_text k input (file "r") <> Ret (inl (m, reads)).

(** C71: insensitive strings, bounded repetitions and quotation marks as bounds of ranges are displayed
    in a form that cannot be loaded. *)
Lemma rejected : forall input, parse_text no_report input = inr 0%N -> not_loaded input.
Proof. intros input E [|k] m reads; unfold load_file; cbn [load_fuel pbind obind]; [discriminate|]. rewrite E. discriminate. Qed.
Lemma panics : forall input l, parse_text no_report input = inl l ->
  (forall load, load_items sample_files sample_text sample_text load (file "r") l empty_module (mkLState [] []) = Panic) -> not_loaded input.
Proof. intros input l E P [|k] m reads; unfold load_file; cbn [load_fuel pbind obind]; [discriminate|]. rewrite E, P. discriminate. Qed.
Theorem C71_other_forms_refuted : forall printable,
  (exists input n, expression_of input n /\ show_node printable n = lit "^""""" /\ not_loaded (rule_text (lit "a") (show_node printable n))) /\
  (exists input n, expression_of input n /\ show_node printable n = lit "x*[2..3]" /\ not_loaded (rule_text (lit "a") (show_node printable n))) /\
  (printable 34%N = true ->
   exists input n, expression_of input n /\ show_node printable n = lit "'""'..'""'" /\ not_loaded (rule_text (lit "a") (show_node printable n))).
Proof.
  intros printable. split; [|split; [|intro P]].
  - exists (lit "a = i"""""). eexists. split; [eexists _, _, _; split; [vm_compute; reflexivity|split; reflexivity]|].
    split; [reflexivity|]. apply rejected. vm_compute. reflexivity.
  - exists (lit "a = x*{2..3}"). eexists. split; [eexists _, _, _; split; [vm_compute; reflexivity|split; reflexivity]|].
    split; [reflexivity|]. apply rejected. vm_compute. reflexivity.
  - exists (lit "a = '\""'..'\""'"). eexists. split; [eexists _, _, _; split; [vm_compute; reflexivity|split; reflexivity]|].
    match goal with |- ?x = ?y /\ _ => assert (E : x = y) by (cbn; unfold debug_char, escape_debug; cbn; rewrite P; reflexivity) end.
    split; [exact E|]. rewrite E. destruct (parse_text no_report (rule_text (lit "a") (lit "'""'..'""'"))) as [l|] eqn:Q; vm_compute in Q; [|discriminate].
    injection Q as <-. eapply panics; [vm_compute; reflexivity|]. intro load. vm_compute. reflexivity.
Qed.
Print Assumptions C71_other_forms_refuted.

(** C71: expressions that mean different things can have the same display: an operator on a predicate and
    a predicate of it; a bounded repetition of a rule and a slice of the stack. *)
Theorem C71_same_display_refuted :
  (exists input input' n n', expression_of input n /\ expression_of input' n' /\
    tree_of n = T_opt (T_pos (T_name [lit "x"])) /\ tree_of n' = T_pos (T_opt (T_name [lit "x"])) /\
    forall printable, show_node printable n = show_node printable n') /\
  (exists input input' n n', expression_of input n /\ expression_of input' n' /\
    tree_of n = T_times (T_name [lit "x"]) (Some 2%N) (Some 3%N) /\ tree_of n' = T_slice [lit "x"] (Some 2%Z) (Some 3%Z) /\
    forall printable, show_node printable n = show_node printable n').
Proof.
  split.
  - exists (lit "a = (&x)?"), (lit "a = &(x?)"). eexists _, _.
    split; [eexists _, _, _; split; [vm_compute; reflexivity|split; reflexivity]|].
    split; [eexists _, _, _; split; [vm_compute; reflexivity|split; reflexivity]|]. repeat split.
  - exists (lit "a = x{2..3}"), (lit "a = x[2..3]"). eexists _, _.
    split; [eexists _, _, _; split; [vm_compute; reflexivity|split; reflexivity]|].
    split; [eexists _, _, _; split; [vm_compute; reflexivity|split; reflexivity]|]. repeat split.
Qed.
Print Assumptions C71_same_display_refuted.
