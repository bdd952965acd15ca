(** Checks of the conditions of the theorems about inlining for grammars without imports, and grammars
    for the examples. *)
From Coq Require Import String List NArith ZArith Arith Bool Lia.
From Verif Require Import Model_Text Model_Message Model_Meta Model_Import Model_Position Model_Span Model_Stack Model_Tracker Model_Node
  Model_Generator Model_Output Model_Inline
  Spec_Text Spec_Peg Spec_Run Spec_Yield Spec_Rust Spec_Grammar_Peg Spec_Occur Spec_Generator Spec_Inline
  Proof_Text Proof_Emit Proof_Box Proof_Names Proof_Resolve Proof_Read Proof_Exists Proof_Inlining Example_Generator Example_Fine Thm_Names Thm_Generated.
Import ListNotations.
Open Scope list_scope.

(** All parts of an expression. *)
Fixpoint parts (e : parse_expr) : list parse_expr :=
  e :: match e with
       | PStr _ | PInsens _ | PRange _ _ | PPath _ None | PPath _ (Some (PSlice _)) => []
       | PPosPred n | PNegPred n | POpt n | PRep n | PRepOnce n | PRepRange n _ | PSeparated n _ => match n with mkNode e _ => parts e end
       | PSeq l r _ | PChoice l r => match l with mkNode e _ => parts e end ++ match r with mkNode e _ => parts e end
       | PPath _ (Some (PCall l)) => (fix go l := match l with [] => [] | mkNode e _ :: r => parts e ++ go r end) l
       end.
Lemma parts_self : forall e, In e (parts e).
Proof. intros []; left; reflexivity. Qed.
Lemma parts_operand : forall e1 e x, operand_of e1 e -> In x (parts e1) -> In x (parts e).
Proof.
  intros e1 e x O J. destruct O as [[]|[]|[] []|[] []|[] []|[] []|[]|[]|[]|[]|[]|path l n I]; cbn [n_expr parts] in *; right;
    try exact J; try (apply in_or_app; (left; exact J) || (right; exact J)).
  induction l as [|[a s] l IH]; [contradiction|]. apply in_or_app. destruct I as [<-|I]; [left; exact J|right; apply IH, I].
Qed.
Lemma parts_all : forall e' e, part e' e -> In e' (parts e).
Proof. intros e' e H. induction H as [|e1 e H IH O]; [apply parts_self|]. eapply parts_operand; eassumption. Qed.

Definition is_none {A : Type} (o : option A) : bool := match o with None => true | _ => false end.
Definition is_nil {A : Type} (l : list A) : bool := match l with [] => true | _ => false end.
Fixpoint nodupb (l : list text) : bool := match l with [] => true | x :: r => negb (text_in x r) && nodupb r end.
Lemma nodupb_spec : forall l, nodupb l = true -> NoDup l.
Proof.
  induction l as [|x l IH]; intro H; constructor; cbn [nodupb] in H; apply andb_true_iff in H; destruct H as (A & B); [|apply IH, B].
  apply negb_true_iff in A. apply not_in, A.
Qed.
Fixpoint at_most_one {A : Type} (p : A -> bool) (l : list A) : bool :=
  match l with [] => true | a :: r => if p a then negb (existsb p r) else at_most_one p r end.
Lemma at_most_one_spec : forall {A : Type} (p : A -> bool) l1 a l2 b l3, at_most_one p (l1 ++ a :: l2 ++ b :: l3) = true -> p a = true -> p b = true -> False.
Proof.
  intros A p l1 a l2 b l3. induction l1 as [|c l1 IH]; cbn [app at_most_one]; intros H Pa Pb.
  - rewrite Pa in H. apply negb_true_iff in H. rewrite existsb_app in H. cbn [existsb] in H. rewrite Pb in H. rewrite orb_true_r in H. discriminate.
  - destruct (p c); [|apply IH; assumption]. apply negb_true_iff in H. rewrite existsb_app in H. cbn [existsb] in H. rewrite Pa, orb_true_r in H. discriminate.
Qed.
Definition separated (e : parse_expr) : bool := match e with PSeparated _ _ => true | _ => false end.

Definition all_parts (p : parse_expr -> bool) (r : parse_rule) : bool := forallb p (parts (n_expr (pr_node r))).
Lemma all_parts_spec : forall p r e, all_parts p r = true -> part e (n_expr (pr_node r)) -> p e = true.
Proof. intros p r e H P. apply (proj1 (forallb_forall _ _) H), parts_all, P. Qed.
Definition calls_ok (macros : list parse_rule) (e : parse_expr) : bool :=
  match e with
  | PPath path (Some (PCall l)) =>
      forallb (fun s => negb (text_eqb (last path []) (pr_name s)) || match path with [x] => text_eqb x (pr_name s) | _ => false end) macros &&
      forallb (fun n => negb (separated (n_expr n))) l
  | _ => true
  end.
Definition alone_ok (ps : list text) (e : parse_expr) : bool :=
  match e with PPath [x] args => negb (text_in x ps) || is_none args | _ => true end.
Definition once_ok (x : text) (e : parse_expr) : bool :=
  match e with PPath _ (Some (PCall l)) => at_most_one (fun n => text_in x (used_names (n_expr n))) l | _ => true end.
Definition trivia_rule (r : parse_rule) : bool := text_eqb (pr_name r) (lit "~") || text_eqb (pr_name r) (lit "^").
Definition same_rule (r s : parse_rule) : bool := text_eqb (pr_name r) (pr_name s).
Definition tidyb (g : gmodule) : bool :=
  let macros := filter is_macro (g_rules g) in
  is_nil (g_imports g) &&
  nodupb (map pr_name (filter (fun r => negb (trivia_rule r)) (g_rules g))) &&
  forallb (fun r => all_parts (calls_ok macros) r && all_parts (alone_ok (pr_args r)) r && (negb (trivia_rule r) || is_nil (pr_args r)) &&
                    forallb (fun s => negb (text_in (pr_name s) (pr_args r))) macros) (g_rules g) &&
  forallb (fun s =>
    nodupb (pr_args s) && negb (separated (n_expr (pr_node s))) &&
    forallb (fun x => forallb (fun r => negb (text_eqb x (pr_name r))) (g_rules g) && all_parts (once_ok x) s) (pr_args s) &&
    forallb (fun r => same_rule r s || forallb (fun x => negb (text_in x (pr_args s)) && negb (text_in x (used_names (n_expr (pr_node s))))) (pr_args r)) (g_rules g)) macros.

Lemma some_own : forall g s, g_imports g = [] -> some_macro g s -> macro g s.
Proof. intros g s E H. destruct H as [g s M|g alias g' s I _]; [exact M|]. rewrite E in I. destruct I. Qed.
Lemma not_separatedb : forall e, negb (separated e) = true -> not_separated e.
Proof. intros e H n t ->. discriminate. Qed.
Lemma tidyb_spec : forall unicode g, tidyb g = true -> tidy unicode g.
Proof.
  intros unicode g H. unfold tidyb in H. rewrite !andb_true_iff in H. destruct H as (((Im & Nd) & Ru) & Ma).
  assert (E : g_imports g = []) by (destruct (g_imports g); [reflexivity|discriminate]). clear Im.
  rewrite forallb_forall in Ru, Ma.
  assert (In_macro : forall s, macro g s -> In s (filter is_macro (g_rules g))) by (intros s M; apply filter_In, is_macro_spec, M).
  assert (Ru' : forall r, In r (g_rules g) -> all_parts (calls_ok (filter is_macro (g_rules g))) r = true /\ all_parts (alone_ok (pr_args r)) r = true /\
    (trivia_rule r = true -> pr_args r = []) /\ forall s, macro g s -> ~ In (pr_name s) (pr_args r)).
  { intros r J. specialize (Ru r J). rewrite !andb_true_iff, forallb_forall in Ru. destruct Ru as (((A & B) & C) & D). split; [exact A|]. split; [exact B|]. split.
    - intro T. rewrite T in C. destruct (pr_args r); [reflexivity|discriminate].
    - intros s M. apply not_in, negb_true_iff, D, In_macro, M. }
  assert (Uniq : forall r s, In r (g_rules g) -> macro g s -> pr_name r = pr_name s -> r = s).
  { intros r s J (K & _ & Na) En.
    assert (T : trivia_rule s = false) by (destruct (trivia_rule s) eqn:T; [|reflexivity]; destruct Na; apply (Ru' s K), T).
    assert (T' : trivia_rule r = false) by (unfold trivia_rule in *; rewrite En; exact T).
    assert (J' : In r (filter (fun r => negb (trivia_rule r)) (g_rules g))) by (apply filter_In; rewrite T'; split; [exact J|reflexivity]).
    assert (K' : In s (filter (fun r => negb (trivia_rule r)) (g_rules g))) by (apply filter_In; rewrite T; split; [exact K|reflexivity]).
    apply nodupb_spec in Nd. revert Nd J' K'. generalize (filter (fun r => negb (trivia_rule r)) (g_rules g)).
    induction l as [|a l IH]; intros D I I'; [destruct I|]. inversion D as [|? ? Ni D']; subst. destruct I as [->|I], I' as [->|I']; [reflexivity| | |apply IH; assumption].
    - destruct Ni. rewrite En. apply in_map, I'.
    - destruct Ni. rewrite <- En. apply in_map, I. }
  assert (Mac : forall s, macro g s -> NoDup (pr_args s) /\ not_separated (n_expr (pr_node s)) /\
    (forall x, In x (pr_args s) -> (forall r, In r (g_rules g) -> x <> pr_name r) /\ all_parts (once_ok x) s = true) /\
    (forall r x, In r (g_rules g) -> In x (pr_args r) -> In x (pr_args s) \/ mentions (n_expr (pr_node s)) x -> r = s)).
  { intros s M. specialize (Ma s (In_macro s M)). rewrite !andb_true_iff in Ma. destruct Ma as (((A & B) & C) & D). rewrite forallb_forall in C, D.
    split; [apply nodupb_spec, A|]. split; [apply not_separatedb, B|]. split.
    - intros x X. specialize (C x X). apply andb_true_iff in C. destruct C as (C1 & C2). rewrite forallb_forall in C1. split; [|exact C2].
      intros r J Ex. specialize (C1 r J). apply negb_true_iff in C1. destruct (teqb x (pr_name r)); congruence.
    - intros r x J X O. specialize (D r J). apply orb_true_iff in D. destruct D as [D|D].
      + apply Uniq; [exact J|exact M|]. apply text_eqb_eq, D.
      + rewrite forallb_forall in D. specialize (D x X). apply andb_true_iff in D. destruct D as (D1 & D2). apply negb_true_iff in D1, D2.
        destruct O as [O|O]; [destruct (not_in _ _ D1 O)|]. apply used_names_spec in O. destruct (not_in _ _ D2 O). }
  assert (Pa : forall s, macro g s -> NoDup (pr_args s)) by (intros s M; apply (Mac s M)).
  constructor.
  - intros r path l s J P Sm La. apply (some_own _ _ E) in Sm. destruct (Ru' r J) as (A & _). apply (all_parts_spec _ _ _ A) in P. cbn [calls_ok] in P.
    apply andb_true_iff in P. destruct P as (P & _). rewrite forallb_forall in P. specialize (P s (In_macro s Sm)). rewrite La, teqb_refl in P. cbn [negb orb] in P.
    destruct path as [|x [|y path]]; try discriminate. exists s. split; [exact Sm|]. f_equal. apply text_eqb_eq, P.
  - intros r J T. apply (Ru' r J). unfold trivia_rule. destruct T as [-> | ->]; reflexivity.
  - intros r x args J X P. destruct (Ru' r J) as (_ & A & _). apply (all_parts_spec _ _ _ A) in P. cbn [alone_ok] in P.
    destruct (text_in_spec x (pr_args r)); [|contradiction]. destruct args; [discriminate|reflexivity].
  - intros s M. destruct (Mac s M) as (A & _ & B & _). split; [exact A|]. intros x X. destruct (B x X) as (B1 & B2). split.
    + intros ent N. destruct (names_one _ _ _ _ N) as [(r & J & _ & Ex & _)|(p & I & _)]; [apply (B1 r J), Ex|]. rewrite E in I. destruct I.
    + split.
      * intros args P. destruct M as (J & _). destruct (Ru' s J) as (_ & Q & _). apply (all_parts_spec _ _ _ Q) in P. cbn [alone_ok] in P.
        destruct (text_in_spec x (pr_args s)); [|contradiction]. destruct args; [discriminate|reflexivity].
      * intros path l1 a l2 b l3 P (Ma1 & Mb). apply (all_parts_spec _ _ _ B2) in P. cbn [once_ok] in P.
        apply used_names_spec in Ma1, Mb. eapply at_most_one_spec; [exact P|apply (reflect_iff _ _ (text_in_spec _ _)), Ma1|apply (reflect_iff _ _ (text_in_spec _ _)), Mb].
  - intros s r x M J X O. apply (Mac s M) with (x := x); assumption.
  - intros s r M J. apply (Ru' r J), M.
  - intros s M. apply (Mac s M).
  - intros r path l a J P I. destruct (Ru' r J) as (A & _). apply (all_parts_spec _ _ _ A) in P. cbn [calls_ok] in P. apply andb_true_iff in P. destruct P as (_ & P).
    rewrite forallb_forall in P. apply not_separatedb, P, I.
Qed.

(** Grammars without imports that the theorems about the generator apply to. *)
Definition fineb (g : gmodule) : bool :=
  is_nil (g_imports g) &&
  forallb (fun r => negb (text_in (pr_name r) reserved) && forallb (fun x => negb (text_in x reserved)) (pr_args r) && (negb (trivia_rule r) || is_nil (pr_args r)) &&
    (negb (text_eqb (pr_name r) (lit "~")) || negb (uses_trivia TriviaOptional (n_expr (pr_node r))) && negb (uses_trivia TriviaMandatory (n_expr (pr_node r)))) &&
    (negb (text_eqb (pr_name r) (lit "^")) || negb (uses_trivia TriviaMandatory (n_expr (pr_node r))))) (g_rules g).
Lemma fineb_spec : forall unicode g, fineb g = true -> fine unicode g.
Proof.
  intros unicode g H. unfold fineb in H. apply andb_true_iff in H. destruct H as (Im & Ru).
  assert (E : g_imports g = []) by (destruct (g_imports g); [reflexivity|discriminate]). rewrite forallb_forall in Ru.
  assert (Ru' : forall r, In r (g_rules g) -> ~ In (pr_name r) reserved /\ (forall x, In x (pr_args r) -> ~ In x reserved) /\ (trivia_rule r = true -> pr_args r = []) /\
    (pr_name r = lit "~" -> ~ asks (n_expr (pr_node r)) TriviaOptional /\ ~ asks (n_expr (pr_node r)) TriviaMandatory) /\
    (pr_name r = lit "^" -> ~ asks (n_expr (pr_node r)) TriviaMandatory)).
  { intros r J. specialize (Ru r J). rewrite !andb_true_iff, forallb_forall in Ru. destruct Ru as ((((A & B) & C) & D) & F).
    split; [apply not_in, negb_true_iff, A|]. split; [intros x X; apply not_in, negb_true_iff, B, X|]. split; [|split].
    - intro T. rewrite T in C. destruct (pr_args r); [reflexivity|discriminate].
    - intro T. rewrite T in D. apply andb_true_iff in D. destruct D as (D1 & D2). split; apply not_asked, negb_true_iff; assumption.
    - intro T. rewrite T in F. apply not_asked, negb_true_iff, F. }
  constructor; rewrite ?E; try (intros ? []; fail); try (intros ? ? []; fail).
  - constructor.
  - intros r J. exact (proj1 (Ru' r J)).
  - intros r x J X. split; [apply (proj1 (proj2 (Ru' r J))), X|intros g' []].
  - intros r J T. apply (Ru' r J). unfold trivia_rule. destruct T as [-> | ->]; reflexivity.
  - intros t e B. apply body_of in B. destruct B as (r & J & N & ->). destruct (Ru' r J) as (_ & _ & _ & A & B). destruct t; cbn in N; [discriminate| |]; injection N as N.
    + apply (A (eq_sym N)).
    + apply (B (eq_sym N)).
  - intros e e' B _ (A & _). apply body_of in B. destruct B as (r & J & N & ->). destruct (Ru' r J) as (_ & _ & _ & B & _). injection N as N. apply (B (eq_sym N)), A.
Qed.

Definition srl (name : string) (params : list string) (e : parse_expr) : parse_rule :=
  mkParseRule [] (lit name) (map lit params) sp (nd e) true.
Definition grammar (rules : list parse_rule) : gmodule := mkModule [] rules [] [].

(** What the rule with the given number says about a text, as found by the generated parser: all of it
    is matched, or nothing. *)
Definition decide (fuel : nat) (unicode : list text) (g : gmodule) (i : nat) (s : text) : option bool :=
  match generate_items box_all fuel unicode g, nth_error (g_rules g) i with
  | Ret items, Some r =>
      let id := numbered items in
      let env := read_env items unicode id fuel in
      if check_reads items unicode id fuel && negb (trivia_rule r) && is_nil (pr_args r) then
        match try_parse 0 s env (fun _ _ => false) fuel (Rule (id [lit "rules"] (pr_name r)) []) (blen []) (mkState (mkStack [] []) (tracker_new 0)) with
        | Ret (Some (p, _), st) => if Nat.eqb p (blen s) && is_nil (stk_items (st_stack st)) then Some true else None
        | Ret (None, _) => Some false
        | _ => None
        end
      else None
  | _, _ => None
  end.
Lemma decide_spec : forall fuel unicode g i s b, fine unicode g -> distinct_properties unicode -> decide fuel unicode g i s = Some b ->
  complete unicode g /\ exists r, nth_error (g_rules g) i = Some r /\ gpeg unicode (fun _ _ => false) g [] (n_expr (pr_node r)) [] s [] (if b then Ok s [] [] else Fail).
Proof.
  intros fuel unicode g i s b F D H. unfold decide in H. destruct (generate_items box_all fuel unicode g) as [items| |] eqn:G; try discriminate.
  split; [apply (C63_accepts box_all unicode g F D); eauto|].
  destruct (nth_error (g_rules g) i) as [r|] eqn:Er; [|discriminate]. exists r. split; [reflexivity|].
  destruct (check_reads items unicode (numbered items) fuel && negb (trivia_rule r) && is_nil (pr_args r)) eqn:C; [|discriminate].
  rewrite !andb_true_iff in C. destruct C as ((C & T) & A). apply check_reads_spec in C.
  assert (Na : pr_args r = []) by (destruct (pr_args r); [reflexivity|discriminate]).
  assert (Nt : ~ is_trivia_rule r).
  { unfold trivia_rule in T. intros [E|E]; rewrite E in T; discriminate. }
  assert (Ty : fine_types_mod (types_mod (rules_mod box_all)) g) by (left; reflexivity).
  assert (Lo : located (types_mod (rules_mod box_all)) g [lit "rules"] g) by constructor.
  destruct (C36_parser _ _ _ _ _ G F Ty D _ _ C (fun _ _ => false) _ _ r Lo (nth_error_In _ _ Er) Nt Na 0 s [] s [] [] eq_refl (Forall2_nil _)) as (S1 & S2 & _ & _).
  destruct (try_parse 0 s _ _ fuel _ _ _) as [([(p, v)|], st)| |] eqn:E; try discriminate.
  - destruct (Nat.eqb p (blen s) && is_nil (stk_items (st_stack st))) eqn:Q; [|discriminate]. injection H as <-. apply andb_true_iff in Q. destruct Q as (Q & Sn).
    apply Nat.eqb_eq in Q. destruct (S1 _ _ _ _ _ _ E) as (x & post' & Ks' & Ex & L & Fs & Sa). cbn [app] in L, Sa.
    destruct (stk_items (st_stack st)); [|discriminate]. inversion Fs; subst Ks'.
    assert (post' = []) as -> by (apply blen_zero; rewrite Ex, blen_app in Q; lia). rewrite app_nil_r in Ex. subst x. exact Sa.
  - injection H as <-. eapply S2. exact E.
Qed.
