(** Theorems about grammar files: what is written, with any white space and comments, is what is read. *)
From Coq Require Import String List NArith ZArith Arith Bool Lia.
From Verif Require Import Model_Text Model_Message Model_Meta Model_Grammar Model_Import Model_Pest2
  Spec_Unescape Spec_Message Spec_Grammar Spec_Import Spec_Pest2 Spec_Written
  Proof_Reading Proof_Regular Proof_Load Proof_Written4 Proof_Written5 Thm_Grammar Thm_Import Thm_Pest2.
Import ListNotations.
Open Scope list_scope.

(** Deriving how the sample is written. *)
Lemma no_start : forall t s, (exists c r, t = c :: r /\ match s with [] => True | d :: _ => d <> c end) -> ~ starts t s.
Proof. intros t s (c & r & -> & H) (x & E). destruct s; [discriminate|]. injection E as -> _. contradiction. Qed.
Ltac no_head := apply no_start; eexists _, _; split; [reflexivity|vm_compute; first [exact I|discriminate]].
Ltac in_list := cbn [In]; repeat first [left; reflexivity | right].
Ltac white := repeat first [apply Blank_nil | apply Blank_char; [in_list|]].
Ltac name := eexists _, _; split; [vm_compute; reflexivity|]; split; [lia|apply names_ok; reflexivity].
Ltac line_text := split; vm_compute; intuition discriminate.
Lemma trims : forall s, trimmed s (trim s).
Proof. intro s. apply trim_spec. reflexivity. Qed.
Lemma operand : forall u t, w_core u t -> w_term u t.
Proof. intros u t H. rewrite <- (app_nil_r u). eapply W_postfixed; [exact H|constructor]. Qed.
Definition sample_expression : tree :=
  T_seq (T_neg (T_name [lit "x"])) (T_times (T_choice (T_str (lit "a")) (T_range 98%N 99%N)) (Some 2%N) None) TriviaOptional.
Lemma sample_body : w_expression (lit "!x ~ (""a"" | 'b'..'c'){2..}") sample_expression.
Proof.
  apply W_plain, W_alternative. apply (W_sequence (lit "!x") (lit " ") (lit "~") TriviaOptional (lit " ") (lit "(""a"" | 'b'..'c'){2..}")); [|white|constructor|white|].
  - apply (W_neg [] (lit "x")); [white|]. apply (operand (lit "x")). apply W_path, W_name. name.
  - apply W_operand. apply (W_postfixed (lit "(""a"" | 'b'..'c')") (T_choice (T_str (lit "a")) (T_range 98%N 99%N)) ([] ++ lit "{2..}" ++ [])).
    + apply (W_parens [] (lit """a"" | 'b'..'c'") []); [white| |white]. apply W_plain.
      apply (W_choice (lit """a""") (lit " ") (lit " ") (lit "'b'..'c'")); [|white|white|apply W_alternative].
      * apply W_operand, (operand (lit """a""")). apply W_terminal, (W_string (lit "a")). apply D_plain; [discriminate|discriminate|constructor].
      * apply W_operand, (operand (lit "'b'..'c'")). apply W_terminal. apply (W_range (lit "'b'") [] [] (lit "'c'")); [|white|white|].
        -- exists (lit "b"). split; [reflexivity|]. split; [|discriminate]. right. split; [discriminate|reflexivity].
        -- exists (lit "c"). split; [reflexivity|]. split; [|discriminate]. right. split; [discriminate|reflexivity].
    + apply W_post with (t1 := T_times (T_choice (T_str (lit "a")) (T_range 98%N 99%N)) (Some 2%N) None); [white| |constructor].
      apply (W_times _ [] [] [] [] (lit "2") [] (Some 2%N) None); try white; [|constructor|].
      * apply W_number. exact (notation_one 50%N ltac:(lia)).
      * split; [intros m E; injection E as <-; vm_compute; discriminate|]. split; [discriminate|]. intros m n _ E. discriminate.
Qed.
Definition sample_items : list w_item :=
  [W_import [lit "pest"; lit "stack"] None None; W_rule [lit "A rule."] (lit "ab") [lit "x"] true sample_expression;
   W_rule [] (lit "~") [] false (T_str (lit "\"))].
Lemma sample_second : w_items (lit "~ = r""\"" /* blank */") [W_rule [] (lit "~") [] false (T_str (lit "\"))].
Proof.
  apply (W_rule_item [] [] (lit "~ = r""\""") (lit "~") [] false false (T_str (lit "\")) (lit " /* blank */") [] []).
  - constructor.
  - apply (W_rule_text (lit "~") (lit " ") [] [] (lit " ") (lit "r""\""")); [right; left; reflexivity|white|constructor|white|].
    apply W_bare; [|discriminate]. apply W_plain, W_alternative, W_operand, (operand (lit "r""\""")). apply W_terminal, (W_raw (lit "\")). vm_compute. intuition discriminate.
  - apply Blank_char; [in_list|]. apply (Blank_block (lit " blank ") []); [|white]. repeat (apply Body_char; [no_head|no_head|]). apply Body_end.
  - constructor.
  - right. left. reflexivity.
Qed.
Lemma sample_written : w_file sample_grammar [lit "Sample."] sample_items.
Proof.
  apply (W_file [] (lit "//!" ++ lit " Sample." ++ [10%N] ++ []) [lit "Sample."]
    (lit "use " ++ [] ++ lit "pest::stack" ++ [] ++ [] ++ [10%N] ++ (lit "///" ++ lit " A rule." ++ [10%N] ++ []) ++ lit "ab(x) = _{ !x ~ (""a"" | 'b'..'c'){2..} }" ++
     ([10%N] ++ lit "// comment" ++ [10%N]) ++ lit "~ = r""\"" /* blank */") sample_items []).
  - white.
  - apply (W_doc _ (lit " Sample.") (lit "Sample.") [10%N] [] []); [line_text|exact (trims (lit " Sample."))|left; exists []; reflexivity|white|constructor].
  - apply W_import_item; [white| |constructor|constructor|white| |right; discriminate|discriminate].
    + apply (W_more_names (lit "pest") [] [] (lit "stack")); [name|white|white|apply W_name; name].
    + apply W_rule_item with (braced := true); [| | |exact sample_second|left; reflexivity].
      * apply (W_doc _ (lit " A rule.") (lit "A rule.") [10%N] [] []); [line_text|exact (trims (lit " A rule."))|left; exists []; reflexivity|white|constructor].
      * apply (W_rule_text (lit "ab") [] (lit "(x) ") [lit "x"] (lit " ") (lit "_{ !x ~ (""a"" | 'b'..'c'){2..} }")); [left; name|white| |white|].
        -- apply (W_params [] (lit "x") [] [lit "x"] (lit " ")); [white|apply W_formal; name|white|white].
        -- apply (W_silent_braces [] (lit " ") (lit "!x ~ (""a"" | 'b'..'c'){2..}") (lit " ")); [white|white|exact sample_body|white].
      * apply Blank_char; [in_list|]. apply (Blank_line (lit " comment") [10%N]); [|left; exists []; reflexivity|white]. split; [line_text|]. split; no_head.
  - exists [], (lit "~"), [], false, (T_str (lit "\")). in_list.
  - left. reflexivity.
Qed.

(** C70: a written file is accepted; the pairs stand for its documentation, imports and rules, in order. *)
Theorem C70_parsed : forall report input docs items, w_file input docs items ->
  exists dps ips s a b l, parse_text report input = inl (dps ++ ips ++ [mkPPair R_eoi s a b l]) /\
    Forall2 (doc_pair R_grammar_doc (lit "//!")) dps docs /\ Forall2 item_read ips items.
Proof.
  intros report input docs items W. destruct (file_read input docs items W) as (s' & dps & ips & s & a & b & l & A & D & I & _).
  exists dps, ips, s, a, b, l. split; [eapply parse_reads, A|auto].
Qed.
Print Assumptions C70_parsed.
Example C70_parsed_ex : w_file sample_grammar [lit "Sample."] sample_items /\ accepts sample_grammar = true.
Proof. split; [exact sample_written|vm_compute; reflexivity]. Qed.

(** C70: the notation is unambiguous. *)
Theorem C70_unambiguous : forall input docs items docs' items', w_file input docs items -> w_file input docs' items' ->
  docs = docs' /\ items = items'.
Proof. exact file_unique. Qed.
Print Assumptions C70_unambiguous.
Example C70_unambiguous_ex : (forall docs items, w_file sample_grammar docs items -> items = sample_items) /\
  ~ w_file sample_grammar [] sample_items.
Proof.
  split.
  - intros docs items W. symmetry. eapply C70_unambiguous; [exact sample_written|exact W].
  - intro W. destruct (C70_unambiguous _ _ _ _ _ sample_written W) as (E & _). discriminate.
Qed.

(** C70: a written file whose imports are written files too is loaded, and what is loaded is what is
    written, whatever the places of its parts. *)
Theorem C70_loaded : forall report read_file path_text debug_path root input t, w_loads read_file root input t ->
  exists k0, forall k, k0 <= k -> exists m reads,
    load_file (parse_text report) read_file path_text debug_path k input root = Ret (inl (m, reads)) /\ forget (shape m) = t.
Proof.
  intros report read_file path_text debug_path root input t W. destruct (proj1 (written_loads report read_file path_text debug_path) _ _ _ W) as (m & M & F).
  destruct (load_complete _ _ _ _ root input _ M) as (k0 & H). exists k0. intros k L. destruct (H k L) as (m' & reads & E & S). exists m', reads. split; [exact E|]. rewrite S. exact F.
Qed.
Print Assumptions C70_loaded.
Example C70_loaded_ex : w_loads sample_files (file "r") main_text
  (WTree [([], lit "a", [], false, T_choice (T_name [lit "z"; lit "c"]) (T_range 120%N 121%N))] []
    [WI_file (lit "z") (WTree [([], lit "c", [], false, T_str (lit "x"));
       ([lit "Doc."], lit "d", [], true, T_seq (T_name [lit "c"]) (T_name [lit "c"]) TriviaNone)] [] [])]).
Proof.
  apply W_loads with (items := [W_import [lit "b"] None (Some (lit "z"));
    W_rule [] (lit "a") [] false (T_choice (T_name [lit "z"; lit "c"]) (T_range 120%N 121%N))]).
  - apply (W_file [] [] [] (lit "use " ++ [] ++ lit "b" ++ [] ++ lit " as z" ++ [10%N] ++ ([] ++ lit "a = z::c | 'x'..'y'" ++ [] ++ [])) _ []).
    + white.
    + constructor.
    + apply W_import_item; [white|apply W_name; name|constructor| |white| |right; discriminate|discriminate].
      * apply (W_as (lit " ") (lit " ") (lit "z")); [discriminate|white|white|name].
      * apply W_rule_item with (braced := false); [constructor| |white|constructor|right; left; reflexivity].
        apply (W_rule_text (lit "a") (lit " ") [] [] (lit " ") (lit "z::c | 'x'..'y'")); [left; name|white|constructor|white|].
        apply W_bare; [|discriminate]. apply W_plain. apply (W_choice (lit "z::c") (lit " ") (lit " ") (lit "'x'..'y'")); [|white|white|].
        -- apply W_operand, (operand (lit "z::c")). apply W_path, (W_more_names (lit "z") [] [] (lit "c")); [name|white|white|apply W_name; name].
        -- apply W_alternative, W_operand, (operand (lit "'x'..'y'")). apply W_terminal, (W_range (lit "'x'") [] [] (lit "'y'")); [|white|white|].
           ++ exists (lit "x"). split; [reflexivity|]. split; [|discriminate]. right. split; [discriminate|reflexivity].
           ++ exists (lit "y"). split; [reflexivity|]. split; [|discriminate]. right. split; [discriminate|reflexivity].
    + eexists _, _, _, _, _. right. left. reflexivity.
    + left. reflexivity.
  - apply WP_beside with (d := []) (q := file "b") (c := line "c = ""x""" ++ line "/// Doc." ++ lit "d = _ c - c").
    + intros (ns & E). discriminate.
    + left. reflexivity.
    + apply (Base_dir [] (Normal (lit "r.pest"))); [discriminate|]. intros ([|? ?] & x & _ & E); discriminate.
    + apply Loc_file. discriminate.
    + vm_compute. reflexivity.
    + apply W_loads with (items := [W_rule [] (lit "c") [] false (T_str (lit "x"));
        W_rule [lit "Doc."] (lit "d") [] true (T_seq (T_name [lit "c"]) (T_name [lit "c"]) TriviaNone)]); [|repeat constructor].
      apply (W_file [] [] [] ([] ++ lit "c = ""x""" ++ [10%N] ++ (lit "///" ++ lit " Doc." ++ [10%N] ++ []) ++ lit "d = _ c - c" ++ [] ++ []) _ []).
      * white.
      * constructor.
      * apply W_rule_item with (braced := false); [constructor| |white| |right; right; split; [discriminate|intros (o & k & w & r & O & _ & E); destruct O; discriminate]].
        -- apply (W_rule_text (lit "c") (lit " ") [] [] (lit " ") (lit """x""")); [left; name|white|constructor|white|]. apply W_bare; [|discriminate].
           apply W_plain, W_alternative, W_operand, (operand (lit """x""")). apply W_terminal, (W_string (lit "x")). apply D_plain; [discriminate|discriminate|constructor].
        -- apply W_rule_item with (braced := false); [| |white|constructor|right; left; reflexivity].
           ++ apply (W_doc _ (lit " Doc.") (lit "Doc.") [10%N] [] []); [line_text|exact (trims (lit " Doc."))|left; exists []; reflexivity|white|constructor].
           ++ apply (W_rule_text (lit "d") (lit " ") [] [] (lit " ") (lit "_ c - c")); [left; name|white|constructor|white|].
              apply (W_silent_bare (lit " ") (lit "c - c")); [white| |].
              ** intros (u & r & E & (c & t & -> & C & _)). injection E as <- _. lia.
              ** apply W_plain, W_alternative. apply (W_sequence (lit "c") (lit " ") (lit "-") TriviaNone (lit " ") (lit "c")); [|white|constructor|white|apply W_operand];
                   (apply (operand (lit "c")); apply W_path, W_name; name).
      * eexists _, _, _, _, _. left. reflexivity.
      * left. reflexivity.
    + repeat constructor.
Qed.
