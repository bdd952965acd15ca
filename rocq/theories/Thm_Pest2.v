(** Theorems about the parser of grammar files (meta/src/grammar.pest) and about loading files with it. *)
From Coq Require Import String List NArith ZArith Arith Bool Lia.
From Verif Require Import Model_Text Model_Message Model_Meta Model_Grammar Model_Import Model_Pest2
  Spec_Unescape Spec_Message Spec_Grammar Spec_Import Spec_Pest2 Proof_Pest2 Proof_Syntax Proof_Placed Proof_Regular Proof_Load Thm_Import.
Import ListNotations.
Open Scope list_scope.

(** Texts for the examples. *)
Definition line (s : string) : text := lit s ++ [10%N].
Definition sample_grammar : text :=
  line "//! Sample." ++ line "use pest::stack" ++ line "/// A rule." ++ line "ab(x) = _{ !x ~ (""a"" | 'b'..'c'){2..} }" ++
  line "// comment" ++ lit "~ = r""\"" /* blank */".
Definition accepts (input : text) : bool :=
  match qparse (enough input) (Silent S_grammar_rules) input with Ret (Some _) => true | _ => false end.

(** C65: every text is either accepted or rejected: reading ends, within a number of nested steps that is
    proportional to the length of the text, and does not panic. *)
Theorem C65_terminates : forall r input k, r <> Loud R_inner_raw_str -> enough input <= k ->
  exists o, qparse k r input = Ret o /\ forall k', enough input <= k' -> qparse k' r input = Ret o.
Proof.
  intros r input k N L. assert (needs r = 0) as E by (destruct r as [[]|]; try reflexivity; destruct (N eq_refl)).
  destruct (parse_answers r input k E L) as (o & H). exists o. split; [exact H|]. intros k' L'.
  rewrite (parse_same r input k' E L'), <- H. symmetry. apply parse_same; assumption.
Qed.
Print Assumptions C65_terminates.
Example C65_terminates_ex : accepts sample_grammar = true /\ accepts (lit "a = ") = false /\ enough (lit "a = ") = 150 /\
  qparse 3 (Silent S_grammar_rules) (lit "a = ") = OutOfFuel /\ qparse 90 (Loud R_inner_raw_str) (lit """") = Panic.
Proof. repeat split; vm_compute; reflexivity. Qed.
(** C65: an accepted text consists of documentation, imports, a rule, further imports and rules, and the
    end; each has the pairs that its syntax demands. *)
Theorem C65_syntax : forall report input ps, parse_text report input = inl ps -> file_pairs input ps /\ Forall any_item ps.
Proof.
  intros report input ps H. apply text_items in H as (s & H). split; [eapply file_order, H|eapply file_items, H].
Qed.
Print Assumptions C65_syntax.
Example C65_syntax_ex : exists ps, parse_text (fun _ => 0%N) sample_grammar = inl ps /\
  map pp_rule ps = [R_grammar_doc; R_import; R_grammar_rule; R_grammar_rule; R_eoi].
Proof. eexists. split; vm_compute; reflexivity. Qed.

(** C66: each pair has the text between its positions; the pairs inside it lie inside it, one after
    another; and all text is read. *)
Theorem C66_placed : forall report input ps, parse_text report input = inl ps -> in_order input 0 (blen input) ps.
Proof.
  intros report input ps H. apply text_items in H as (s & H). destruct (file_order _ _ _ _ H) as (E & _).
  destruct (parse_placed _ _ _ _ _ H) as ((before & B & P) & O). rewrite E, app_nil_r in B. subst before. rewrite P in O. exact O.
Qed.
Print Assumptions C66_placed.
(** C66: the same for every rule that parsing can start with. *)
Theorem C66_every_rule : forall k r input s ps, qparse k r input = Ret (Some (s, ps)) ->
  in_order input 0 (q_pos s) ps /\ exists before, input = before ++ q_rest s /\ q_pos s = blen before.
Proof. intros k r input s ps H. destruct (parse_placed _ _ _ _ _ H) as (B & O). split; [exact O|exact B]. Qed.
Print Assumptions C66_every_rule.
Example C66_ex : let input := lit "a = '" ++ [233%N] ++ lit "'..'z'" in
  exists p l, parse_text (fun _ => 0%N) input = inl (p :: l) /\ (pp_start p, pp_end p, pp_str p) = (0, 13, input) /\
    length input = 12 /\ blen input = 13.
Proof. cbv zeta. eexists _, _. split; [vm_compute; reflexivity|]. repeat split; vm_compute; reflexivity. Qed.

(** C67: the texts of names, numbers, literals, comments and operators, wherever they are. *)
Theorem C67_tokens : forall report input ps, parse_text report input = inl ps -> Forall (everywhere proper_token) ps.
Proof. intros report input ps H. apply text_items in H as (s & H). eapply parse_proper, H. Qed.
Print Assumptions C67_tokens.
Example C67_ex : exists r asg e t raw l p q, parse_text (fun _ => 0%N) (lit "a=r##""a""#b""##") = inl [r; q] /\
  pp_inner r = [p; asg; e] /\ pp_str p = lit "a" /\ pp_inner e = [t] /\ pp_inner t = [raw] /\ pp_rule raw = R_raw_string /\
  pp_str raw = lit "r##""a""#b""##" /\ pp_inner raw = l /\ map pp_str l = [lit "#"; lit "#"; lit """"; lit "a""#b"; lit """"].
Proof. eexists _, _, _, _, _, _, _, _. split; [vm_compute; reflexivity|]. repeat split. Qed.

(** C68: files without bare quotes as characters, without raw strings that have number signs and without
    arguments in imports are read as intended, whatever else is in them. *)
Definition tidy (report : text -> N) (input : text) : Prop :=
  forall pairs, parse_text report input = inl pairs -> Forall regular pairs.
Theorem C68_readable : forall report input, tidy report input -> syn_file (parse_text report) input.
Proof.
  intros report input T ps H. pose proof (T ps H) as R. apply C65_syntax in H as (_ & I).
  rewrite Forall_forall in *. intros p P. apply regular_item; [apply I, P|apply R, P].
Qed.
Print Assumptions C68_readable.
(** C68: they are loaded as they mean, the first error is reported, and loading panics only if an imported
    file has an error or there is no directory to search. *)
Theorem C68_loaded : forall report read_file path_text debug_path root input,
  tidy report input -> (forall q c, read_file q = inl c -> tidy report c) ->
  (forall t, (exists k m reads, load_file (parse_text report) read_file path_text debug_path k input root = Ret (inl (m, reads)) /\ shape m = t) <->
     file_means (parse_text report) read_file path_text debug_path root input (Loaded t)) /\
  (forall e, (exists k, load_file (parse_text report) read_file path_text debug_path k input root = Ret (inr e)) <->
     file_means (parse_text report) read_file path_text debug_path root input (Failed e)) /\
  ((exists k, load_file (parse_text report) read_file path_text debug_path k input root = Panic) <->
     file_means (parse_text report) read_file path_text debug_path root input Crash).
Proof.
  intros report read_file path_text debug_path root input T N.
  assert (S : syn_file (parse_text report) input) by (apply C68_readable, T).
  assert (F : forall q c, read_file q = inl c -> syn_file (parse_text report) c) by (intros q c R; eapply C68_readable, N, R).
  split; [|split]; [intro t; apply C61_loaded; assumption|intro e; apply C61_error; assumption|apply C61_panic; assumption].
Qed.
Print Assumptions C68_loaded.
Definition no_report (_ : text) : N := 0%N.
Definition sample_files (p : path) : text + text :=
  if path_eqb p (file "b") then inl (line "c = ""x""" ++ line "/// Doc." ++ lit "d = _ c - c") else inr (lit "not found").
Definition main_text : text := line "use b as z" ++ lit "a = z::c | 'x'..'y'".
Lemma tidy_check : forall input, match parse_text no_report input with
  | inl l => forallb (fun p => is_tame p && has_no_args p) l | inr _ => true end = true -> tidy no_report input.
Proof. intros input H l E. rewrite E in H. apply regular_all, H. Qed.
Example C68_ex : tidy no_report main_text /\ (forall q c, sample_files q = inl c -> tidy no_report c) /\
  exists m reads c d a, load_file (parse_text no_report) sample_files sample_text sample_text 2 main_text (file "r") = Ret (inl (m, reads)) /\
    shape m = MTree [a] [] [M_file (lit "z") (MTree [c; d] [] [])] /\
    (pr_name a, pr_name c, pr_name d, pr_doc d, pr_silent d) = (lit "a", lit "c", lit "d", [lit "Doc."], true) /\ reads = [file "b"].
Proof.
  split; [apply tidy_check; vm_compute; reflexivity|]. split.
  - intros q c E. unfold sample_files in E. destruct (path_eqb q (file "b")); [|discriminate]. injection E as <-. apply tidy_check. vm_compute. reflexivity.
  - eexists _, _, _, _, _. split; [vm_compute; reflexivity|]. split; [vm_compute; reflexivity|]. split; vm_compute; reflexivity.
Qed.
(** C68 is false without the restriction to imports without arguments: loading panics. *)
Theorem C68_arguments_refuted : exists input, accepts input = true /\
  forall read_file path_text debug_path k root,
    load_file (parse_text no_report) read_file path_text debug_path (S k) input root = Panic.
Proof.
  exists (line "use a(b)" ++ lit "c = d"). split; [vm_compute; reflexivity|]. intros. unfold load_file. cbn [load_fuel].
  destruct (parse_text no_report (line "use a(b)" ++ lit "c = d")) as [ps|e] eqn:E; vm_compute in E; [|discriminate].
  injection E as <-. reflexivity.
Qed.
Print Assumptions C68_arguments_refuted.

(** No file with such an import is loaded, whatever the arguments are. *)
Lemma segments_left : forall q n l, length l <= n -> In q l -> pp_rule q <> R_identifier -> pp_rule q <> R_ancestry_operator ->
  snd (path_segments n l) <> [].
Proof.
  intros q. induction n as [|n IH]; intros l L I N1 N2; [destruct l; [destruct I|cbn in L; lia]|].
  destruct l as [|p l]; [destruct I|]. cbn [path_segments]. destruct (pp_rule p) eqn:R; try discriminate.
  destruct I as [->|I]; [contradiction|]. cbn [length] in L.
  assert (I' : In q (Model_Grammar.skip R_ancestry_operator l) /\ length (Model_Grammar.skip R_ancestry_operator l) <= length l).
  { unfold Model_Grammar.skip. destruct l as [|x l]; [destruct I|]. destruct (grule_eqb (pp_rule x) R_ancestry_operator) eqn:X; [|split; [exact I|apply le_n]].
    split; [|cbn; lia]. destruct I as [->|I]; [|exact I]. exfalso. apply N2. destruct (pp_rule q); try discriminate X. reflexivity. }
  specialize (IH (Model_Grammar.skip R_ancestry_operator l) ltac:(lia) (proj1 I') N1 N2).
  destruct (path_segments n (Model_Grammar.skip R_ancestry_operator l)) as (a, b). exact IH.
Qed.
Lemma no_import : forall root t p path rest q x, pp_inner p = path :: rest -> In q (pp_inner path) -> pp_rule q = R_call \/ pp_rule q = R_slice ->
  read_import root t p <> Ret (inl x).
Proof.
  intros root t p path rest q x Ep I Q. unfold read_import. rewrite Ep. cbn [next obind]. unfold parse_path_raw.
  assert (G := segments_left q (length (pp_inner path)) (pp_inner path) (le_n _) I ltac:(destruct Q as [-> | ->]; discriminate) ltac:(destruct Q as [-> | ->]; discriminate)).
  destruct (path_segments (length (pp_inner path)) (pp_inner path)) as (segs, [|y l]); [exfalso; apply G; reflexivity|].
  destruct (pp_rule y); try discriminate.
  - destruct (next (pp_inner y)) as [(z, ys)| |]; [|discriminate|discriminate]. cbn [obind].
    match goal with |- context [call_args ?a ?b ?c] => destruct (call_args a b c) as [[args|e]| |] end; discriminate.
  - match goal with |- context [parse_range ?a ?b] => destruct (parse_range a b) as [[r|e]| |] end; discriminate.
Qed.
Theorem C68_arguments : forall report input pairs p path rest q,
  parse_text report input = inl pairs -> In p pairs -> pp_rule p = R_import -> pp_inner p = path :: rest ->
  In q (pp_inner path) -> pp_rule q = R_call \/ pp_rule q = R_slice ->
  forall read_file path_text debug_path k root x, load_file (parse_text report) read_file path_text debug_path k input root <> Ret (inl x).
Proof.
  intros report input pairs p path rest q E I R Ep Iq Q read_file path_text debug_path k root x.
  assert (L : forall load pairs m st y, In p pairs -> load_items read_file path_text debug_path load root pairs m st <> Ret (inl y)).
  { clear - R Ep Iq Q. intros load pairs. induction pairs as [|p0 pairs IH]; intros m st y I; [destruct I|]. cbn [load_items]. destruct I as [->|I].
    - rewrite R. destruct (read_import root (path_text root) p) as [[z|e]| |] eqn:F; try discriminate. exfalso. exact (no_import _ _ _ _ _ _ _ Ep Iq Q F).
    - destruct (pp_rule p0); try (apply IH; exact I).
      all: match goal with
        | |- context [parse_grammar_doc ?a] => destruct (parse_grammar_doc a) as [[d|e]| |]; try discriminate; apply IH, I
        | |- context [parse_grammar_rule ?a ?b] => destruct (parse_grammar_rule a b) as [[d|e]| |]; try discriminate; apply IH, I
        | |- context [read_import ?a ?b ?c] => destruct (read_import a b c) as [[(((alias, t), a0), b0)|e]| |]; try discriminate; cbn [obind pbind];
            destruct t as [mp|f]; [apply IH, I|]; destruct (cache_get f (ls_cache st)); [apply IH, I|]; destruct (read_file f) as [c'|e]; [|discriminate];
            match goal with |- context [obind ?x _] => destruct x as [[(m', st')|e]| |] end; try discriminate; apply IH, I
        end. }
  unfold load_file. destruct k as [|k]; [discriminate|]. cbn [load_fuel]. rewrite E.
  match goal with |- context [load_items ?a ?b ?c ?d ?e ?f ?g ?h] => destruct (load_items a b c d e f g h) as [[(m', st')|e']| |] eqn:F end; try discriminate.
  exfalso. exact (L _ _ _ _ _ I F).
Qed.
Print Assumptions C68_arguments.
(** With a slice; with a call, in which operators are not read; and with an error in the arguments. *)
Example C68_arguments_ex :
  (exists pairs p path rest q, parse_text no_report (line "use a[1..2]" ++ lit "c = d") = inl pairs /\ In p pairs /\ pp_rule p = R_import /\
     pp_inner p = path :: rest /\ In q (pp_inner path) /\ pp_rule q = R_slice) /\
  load_file (parse_text no_report) sample_files sample_text sample_text 2 (line "use a(b - ""\u{110000}"")" ++ lit "c = d") (file "r") = Panic /\
  exists e, load_file (parse_text no_report) sample_files sample_text sample_text 2 (line "use a(""\u{110000}"")" ++ lit "c = d") (file "r") = Ret (inr e).
Proof.
  split; [|split; [vm_compute; reflexivity|eexists; vm_compute; reflexivity]].
  eexists _, _, _, _, _. split; [vm_compute; reflexivity|]. split; [left; reflexivity|]. split; [reflexivity|]. split; [reflexivity|].
  split; [right; left; reflexivity|reflexivity].
Qed.

(** C69: appending items to a grammar. It is false that two accepted texts, the second one of which has
    rules only, make an accepted one: the start of the name of a rule is taken for the keyword [as] of an
    import before it; parameters of an overridden operator are taken for an operand. *)
Theorem C69_append_refuted :
  (exists a b, accepts a = true /\ accepts b = true /\ accepts (a ++ [10%N] ++ b) = false /\
     exists r, accepts (a ++ [10%N] ++ r ++ b) = true) /\
  (exists use a b, accepts a = true /\ accepts b = true /\ accepts (use ++ [10%N] ++ a) = true /\ accepts (use ++ [10%N] ++ b) = false).
Proof.
  split.
  - exists (lit "x = a"), (lit "~(p) = c"). do 3 (split; [vm_compute; reflexivity|]). exists (line "y = { b }"). vm_compute. reflexivity.
  - exists (lit "use a"), (lit "first = b"), (lit "assign = b"). repeat split; vm_compute; reflexivity.
Qed.
Print Assumptions C69_append_refuted.
(** C69: nor is a choice accepted wherever one of its operators is: one with implicit trivia, only as the
    first operator. *)
Theorem C69_choice_refuted :
  accepts (lit "x = a ~| b | c") = true /\ accepts (lit "x = a | b | c") = true /\ accepts (lit "x = a | b ~| c") = false.
Proof. repeat split; vm_compute; reflexivity. Qed.
Print Assumptions C69_choice_refuted.
(** C69: nor is a name of a rule accepted wherever another one is: the name [_] is taken for the mark of a
    silent rule. *)
Theorem C69_name_refuted :
  accepts (line "_ = c" ++ lit "x = b ~ _") = true /\ accepts (line "a = c" ++ lit "x = a ~ b") = true /\
  accepts (line "_ = c" ++ lit "x = _ ~ b") = false.
Proof. repeat split; vm_compute; reflexivity. Qed.
Print Assumptions C69_name_refuted.
