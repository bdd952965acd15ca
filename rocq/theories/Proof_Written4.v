(** Proofs about the parser of grammar files: files are read as written. *)
From Coq Require Import String List NArith ZArith Arith Bool Lia.
From Verif Require Import Model_Text Model_Message Model_Meta Model_Pest2 Spec_Unescape Spec_Message Spec_Grammar Spec_Import
  Spec_Pest2 Spec_Written Proof_Pest2 Proof_First Proof_Tokens Proof_Written Proof_Written2 Proof_Written3.
Import ListNotations.
Open Scope list_scope.
Local Notation "a ;; b" := (Q_seq a b) (at level 60, right associativity).
Local Notation "a // b" := (Q_choice a b) (at level 61, right associativity).
Local Notation "$ r" := (Q_rule (Loud r)) (at level 1, format "$ r").
Local Notation "# s" := (Q_rule (Silent s)) (at level 1, format "# s").
Local Notation postfix := #S_postfix_operator.
Local Notation more_names := ($R_ancestry_operator ;; $R_identifier).
Local Notation more_terms := (#S_infix_operator ;; $R_term).
Local Notation in_file := (Q_str (lit "in") ;; $R_string).
Local Notation as_name := (Q_str (lit "as") ;; $R_identifier).

(** * What items start with. *)
Inductive item_start : text -> Prop :=
| Start_doc z : item_start (lit "///" ++ z)
| Start_use z : item_start (lit "use " ++ z)
| Start_name name w z : identifier_text name -> blank w -> in_class [(40, 40); (61, 61)]%N z -> z <> [] -> item_start (name ++ w ++ z)
| Start_op o k w z : trivia_op o k -> blank w -> in_class [(40, 40); (61, 61)]%N z -> z <> [] -> item_start (o ++ w ++ z).
Lemma start_more : forall v, item_start v -> forall e, item_start (v ++ e).
Proof.
  intros v H e. destruct H as [z|z|name w z I B C N|o k w z O B C N]; rewrite <- ?app_assoc; [constructor|constructor|..].
  - constructor; [exact I|exact B|apply class_app; assumption|destruct z; [contradiction|discriminate]].
  - econstructor; [exact O|exact B|apply class_app; assumption|destruct z; [contradiction|discriminate]].
Qed.
Lemma start_solid : forall v, item_start v -> solid v.
Proof.
  intros v [z|z|name w z I B C N|o k w z O B C N].
  - apply solid_doc. left. reflexivity.
  - by_solid.
  - eapply solid_app; [exact (name_head name I)|reflexivity].
  - eapply solid_app; [exact (op_head o k O)|reflexivity].
Qed.
Lemma items_start : forall v items, w_items v items -> v <> [] -> item_start v.
Proof.
  intros v items [|d docs u name l braced silent t w v' items' D W _ _ _|w0 u names f file a alias w v' items' _ _ _ _ _ _ _ _] N; [contradiction| |constructor].
  destruct D as [|u' d w' v2 l' _ _ _ _ _]; [|rewrite <- app_assoc; constructor]. cbn [app]. destruct W as [name w1 a l w' b braced silent t R B A B' W].
  rewrite <- !app_assoc. destruct (params_written a l A (w' ++ b ++ w ++ v')) as (v0 & C & -> & _).
  assert (a ++ lit "=" ++ w' ++ b ++ w ++ v' <> []) as Nz by (destruct a; discriminate).
  destruct R as [I|[->| ->]]; [apply Start_name; assumption|..]; (eapply Start_op; [constructor|assumption..]).
Qed.
Definition tail (e : text) : Prop := e = [] \/ exists u, e = lit "//" ++ u /\ line_comment u.
Definition next (v e : text) : text := match v with [] => [] | _ => v ++ e end.
Lemma next_rests : forall v items e, w_items v items -> tail e -> rests (v ++ e) (next v e).
Proof.
  intros v items e W T. destruct v as [|c v].
  - destruct T as [->|(u & -> & L)]; [left; split; [apply solid_nil|reflexivity]|right; split; [reflexivity|]; exists u; auto].
  - left. split; [|reflexivity]. apply start_solid, start_more. eapply items_start; [exact W|discriminate].
Qed.
Lemma next_passes : forall w v items e, blank w -> w_items v items -> tail e -> passes NonAtomic (w ++ v ++ e) (next v e) /\ solid (next v e).
Proof.
  intros w v items e B W T. pose proof (next_rests v items e W T) as R. split; [|eapply rests_solid, R]. apply passes_rests; [reflexivity|exact B|exact R].
Qed.
Lemma tail_follow : forall e, tail e -> in_class follow e.
Proof. intros e [->|(u & -> & _)]; [apply class_nil|by_class]. Qed.
Lemma raw_follow : forall w v e, blank w -> (v = [] \/ w <> []) -> tail e -> in_class follow (w ++ v ++ e).
Proof.
  intros w v e B [->|N] T; [apply blank_follow; [exact B|apply tail_follow, T]|]. apply class_app; [exact N|]. eapply class_sub; [|apply blank_head; [exact B|exact N]]. reflexivity.
Qed.

(** * After a rule without braces. *)
Lemma opt_op_fails : forall x v, solid v -> fails NonAtomic #S_overridable_operator v -> fails NonAtomic x v -> fails NonAtomic (Q_opt #S_overridable_operator ;; x) v.
Proof. intros x v S F G. eapply fails_seq2; [apply yields_opt_none; [exact F|apply passes_solid, S]|exact G]. Qed.
Lemma start_ends : forall v, item_start v -> ~ params_on_operator v ->
  in_class after_term v /\ fails NonAtomic postfix v /\ fails NonAtomic more_terms v /\ fails NonAtomic $R_choice_operator v.
Proof.
  intros v H. pose proof (start_solid v H) as S. destruct H as [z|z|name w z I B C N|o k w z O B C N]; intro NP.
  - assert (fails NonAtomic $R_choice_operator (lit "///" ++ z)) as F by (apply fails_rule; cbn [inside_of body_of loud_body loud_kind]; apply opt_op_fails; [exact S|no_match|no_match]).
    split; [by_class|]. split; [apply fails_rule; cbn [inside_of body_of silent_body]; apply opt_op_fails; [exact S|no_match|no_match]|]. split; [|exact F].
    apply fails_seq1, fails_rule. cbn [inside_of body_of silent_body]. repeat (apply fails_choice; [no_match|]). exact F.
  - split; [by_class|]. split; [no_match|]. split; no_match.
  - destruct (name_head name I) as (Nn & Cn). apply (class_app _ _ (w ++ z) Nn) in Cn. split; [eapply class_sub; [|exact Cn]; reflexivity|]. split; [no_match|]. split; no_match.
  - assert (in_class [(61, 61)]%N z) as C'.
    { intros c z' ->. destruct (C c z' eq_refl) as (L & R). split; [exact L|]. unfold in_ranges in *. cbn [existsb fst snd] in *. apply orb_prop in R as [R|R]; [|exact R].
      apply andb_prop in R as (R1 & R2). apply N.leb_le in R1, R2. assert (c = 40%N) as -> by lia. destruct NP. exists o, k, w, z'. auto. }
    destruct (op_head o k O) as (No & Co). pose proof (class_app _ _ (w ++ z) No Co) as Cv.
    split; [eapply class_sub; [|exact Cv]; reflexivity|]. split; [eapply after_op; [exact O|exact B|eapply class_sub; [|exact C']; reflexivity]|].
    split; [|eapply no_choice; [exact O|exact B|eapply class_sub; [|exact C']; reflexivity]].
    eapply fails_seq2; [apply (infix_seq o k w z); [destruct O; constructor|exact B|apply solid_class; eapply class_sub; [|exact C']; reflexivity]|]. no_match.
Qed.
Lemma params_more : forall v e, item_start v -> tail e -> params_on_operator (v ++ e) -> params_on_operator v.
Proof.
  intros v e H T (o & k & w & r & O & B & E). destruct H as [z|z|name w' z I B' C N|o' k' w' z O' B' C N].
  - destruct O; discriminate.
  - destruct O; discriminate.
  - destruct I as (c & t & -> & L & _). destruct O; injection E as -> _; lia.
  - rewrite <- !app_assoc in E. assert (w' ++ z ++ e = w ++ lit "(" ++ r) as E' by (destruct O, O'; injection E as E; try discriminate; exact E).
    destruct z as [|c z]; [contradiction|]. destruct (C c z eq_refl) as (_ & M). unfold in_ranges in M. cbn [existsb fst snd] in M.
    exists o', k', w', z. split; [exact O'|]. split; [exact B'|]. f_equal. f_equal. cbn [app] in *. f_equal. 
    (* the first solid text after white space *)
    assert (passes NonAtomic (w' ++ c :: z ++ e) (c :: z ++ e)) as P1.
    { apply passes_blank; [exact B'|]. apply solid_class. apply class_cons. rewrite orb_false_r in M. apply orb_prop in M as [M|M]; apply andb_prop in M as (M1 & M2); apply N.leb_le in M1, M2; [assert (c = 40%N) as -> by lia|assert (c = 61%N) as -> by lia]; reflexivity. }
    assert (passes NonAtomic (w ++ lit "(" ++ r) (lit "(" ++ r)) as P2 by (apply passes_blank; [exact B|by_solid]).
    rewrite E' in P1. specialize (P1 (mkQ 0 (w ++ lit "(" ++ r) []) eq_refl) as (s1 & (_ & p1 & A1) & E1). specialize (P2 (mkQ 0 (w ++ lit "(" ++ r) []) eq_refl) as (s2 & (_ & p2 & A2) & E2).
    pose proof (ans_same _ _ _ _ _ A1 A2) as X. injection X as -> _. rewrite E2 in E1. injection E1 as <- _. reflexivity.
Qed.
Lemma bare_follow : forall w v items e, blank w -> w_items v items -> tail e -> (v = [] \/ (w <> [] /\ ~ params_on_operator v)) -> expr_follow (w ++ v ++ e) (next v e).
Proof.
  intros w v items e B W T H. destruct (next_passes w v items e B W T) as (P & S).
  assert (in_class follow (w ++ v ++ e)) as F by (apply raw_follow; [exact B|destruct H as [H|(H & _)]; auto|exact T]).
  assert (in_class after_term (next v e) /\ fails NonAtomic postfix (next v e) /\ fails NonAtomic more_terms (next v e) /\ fails NonAtomic $R_choice_operator (next v e)) as (A & X & Y & Z).
  { destruct v as [|c v]; cbn [next]; [split; [apply class_nil|]; split; [no_match|]; split; no_match|].
    assert (item_start (c :: v)) as I by (eapply items_start; [exact W|discriminate]).
    apply start_ends; [apply start_more, I|]. intro Q. destruct H as [H|(_ & H)]; [discriminate|]. apply H. eapply params_more; eassumption. }
  split; [|split; assumption]. split; [exact P|]. split; [exact S|]. split; [exact F|]. split; assumption.
Qed.

(** * Imports. *)
Definition alias_is (alias : option text) (ps : list ppair) : Prop := calm ps /\ opt_alias ps alias.
Definition file_is (file : option text) (ps : list ppair) : Prop :=
  calm ps /\ exists f, opt_file ps f /\ match f, file with Some (s, _, _), Some r => documented s r | None, None => True | _, _ => False end.
Lemma blank_class : forall w r, blank w -> w <> [] -> in_class follow (w ++ r).
Proof. intros w r B N. apply class_app; [exact N|]. eapply class_sub; [|apply blank_head; assumption]. reflexivity. Qed.
Lemma as_written : forall a alias, w_as a alias -> forall r v, passes NonAtomic r v -> in_class follow r -> solid v -> in_class after_term v ->
  (alias = None -> fails NonAtomic as_name v) -> fails NonAtomic in_file v ->
  exists v1, passes NonAtomic (a ++ r) v1 /\ in_class follow (a ++ r) /\ solid v1 /\ in_class after_term v1 /\ fails NonAtomic in_file v1 /\ yields NonAtomic (Q_opt as_name) v1 v (alias_is alias).
Proof.
  intros a alias [|w w' u N B B' I] r v P F S A X Y.
  - exists v. cbn [app]. repeat (split; [assumption|]). eapply yields_weaken; [apply yields_opt_none; [auto|apply passes_solid, S]|]. intros ps ->. split; constructor.
  - exists (lit "as" ++ w' ++ u ++ r). rewrite <- !app_assoc. split; [apply passes_blank; [exact B|by_solid]|]. split; [apply blank_class; assumption|].
    split; [by_solid|]. split; [by_class|]. split; [no_match|]. apply yields_opt. eapply yields_weaken.
    + eapply yields_seq; [eapply exactly_yields; [apply exactly_str|apply passes_blank; [exact B'|eapply solid_app; [exact (name_head u I)|reflexivity]]]|].
      eapply exactly_yields; [apply identifier_token; [exact I|exact F]|exact P].
    + intros ps (p & q & -> & -> & (i & j & l & -> & C)). cbn [app]. split; [constructor; [apply tame_plain; [discriminate|discriminate|exact C]|constructor]|].
      apply (As_alias (mkPPair R_identifier u i j l)). reflexivity.
Qed.
Lemma in_written : forall f file, w_in f file -> forall r v, passes NonAtomic r v -> in_class follow r -> solid v -> in_class after_term v ->
  fails NonAtomic in_file v -> exists v1, passes NonAtomic (f ++ r) v1 /\ in_class follow (f ++ r) /\ solid v1 /\ in_class after_term v1 /\ yields NonAtomic (Q_opt in_file) v1 v (file_is file).
Proof.
  intros f file [|w w' s d N B B' D] r v P F S A X.
  - exists v. cbn [app]. repeat (split; [assumption|]). eapply yields_weaken; [apply yields_opt_none; [exact X|apply passes_solid, S]|]. intros ps ->. split; [constructor|]. exists None. split; constructor.
  - exists (lit "in" ++ w' ++ 34%N :: s ++ 34%N :: r). rewrite <- !app_assoc. cbn [app]. rewrite <- app_assoc. cbn [app]. split; [apply passes_blank; [exact B|by_solid]|]. split; [apply blank_class; assumption|].
    split; [by_solid|]. split; [by_class|]. apply yields_opt. eapply yields_weaken.
    + eapply yields_seq; [eapply exactly_yields; [apply (exactly_str _ (lit "in"))|apply passes_blank; [exact B'|by_solid]]|].
      eapply exactly_yields; [apply string_token; eapply documented_inner, D|exact P].
    + intros ps (p & q & -> & -> & (i & j & l & -> & C)). cbn [app]. split; [constructor; [apply tame_plain; [discriminate|discriminate|exact C]|constructor]|].
      exists (Some (s, i, j)). split; [constructor; eapply documented_inner, D|exact D].
Qed.
Lemma plain_names : forall u names, w_names u names -> Forall plain_name names.
Proof.
  assert (forall u, identifier_text u -> plain_name u) as P.
  { intros u (c & t & -> & C & T). split; [discriminate|]. constructor; [unfold name_char; lia|exact T]. }
  intros u names H. induction H; auto.
Qed.
Definition import_is (names : list text) (file alias : option text) (ps : list ppair) : Prop :=
  exists p, ps = [p] /\ tame p /\ item_read p (W_import names file alias).
Lemma import_written : forall w0 u names f file a alias, blank w0 -> w_names u names -> w_in f file -> w_as a alias -> forall r v,
  passes NonAtomic r v -> in_class follow r -> solid v -> in_class after_term v -> (alias = None -> fails NonAtomic as_name v) -> fails NonAtomic in_file v ->
  yields NonAtomic $R_import (lit "use " ++ w0 ++ u ++ f ++ a ++ r) v (import_is names file alias).
Proof.
  intros w0 u names f file a alias B W Wf Wa r v P F S A X Y.
  destruct (as_written a alias Wa r v P F S A X Y) as (v2 & P2 & F2 & S2 & A2 & X2 & Y2).
  destruct (in_written f file Wf (a ++ r) v2 P2 F2 S2 A2 X2) as (v1 & P1 & F1 & S1 & A1 & Y1).
  destruct (names_written u names W (f ++ a ++ r) v1 P1 F1) as (v0 & Q1 & Q2 & Y0 & S0 & St & D). specialize (S0 S1).
  eapply yields_weaken; [apply yields_loud; [reflexivity|reflexivity|]|].
  - cbn [loud_body]. eapply yields_seq; [eapply exactly_yields; [apply exactly_str|apply passes_blank; [exact B|eapply solid_app; [exact (names_head u names W)|reflexivity]]]|].
    eapply yields_seq; [|eapply yields_seq; [exact Y1|exact Y2]].
    apply yields_loud; [reflexivity|reflexivity|]. cbn [loud_body]. eapply yields_seq; [exact Y0|]. eapply yields_seq; [apply yields_rep; [apply passes_solid, S0|exact St|no_match]|].
    apply yields_opt_none; [no_match|apply passes_solid, S1].
  - intros ps (x & i & j & l & -> & (p0 & q0 & -> & -> & (p1 & q1 & -> & (x1 & i1 & j1 & l1 & -> & (pa & qa & -> & H1 & (pb & qb & -> & H2 & ->))) & (p2 & p3 & -> & (C2 & f' & H3 & M) & (C3 & H4))))).
    rewrite app_nil_r. destruct (D pa pb H1 H2) as (Cn & Sg). cbn [app]. eexists. split; [reflexivity|]. split.
    + apply tame_plain; [discriminate|discriminate|]. constructor; [apply tame_plain; [discriminate|discriminate|exact Cn]|]. apply Forall_app. auto.
    + eapply Read_import; [constructor; [exact Sg|eapply plain_names, W|exact H3|exact H4]|exact M].
Qed.

(** * Keywords and names. *)
Lemma app_head : forall (t : text) (u s r : text), u ++ s = t ++ r -> (exists u', u = t ++ u' /\ r = u' ++ s) \/ (exists t', t' <> [] /\ t = u ++ t' /\ s = t' ++ r).
Proof.
  induction t as [|c t IH]; intros u s r E; [left; exists u; auto|]. destruct u as [|d u]; [right; exists (c :: t); split; [discriminate|]; auto|].
  injection E as -> E. destruct (IH u s r E) as [(u' & -> & ->)|(t' & N & -> & ->)]; [left; exists u'; auto|right; exists t'; auto].
Qed.
Lemma follow_not : forall c s, in_class follow (c :: s) -> ~ name_char c.
Proof.
  intros c s F. destruct (F c s eq_refl) as (_ & H). intro N. unfold name_char in N. assert (overlap [(95, 95); (97, 122); (65, 90); (48, 57)]%N follow = false) as O by reflexivity.
  eapply overlap_none; [exact O| |exact H]. unfold in_ranges. cbn [existsb fst snd]. rewrite !orb_true_iff, !andb_true_iff, !N.leb_le. lia.
Qed.
Lemma names_ok : forall t, forallb (fun c => in_ranges c [(95, 95); (97, 122); (65, 90); (48, 57)]%N) t = true -> Forall name_char t.
Proof.
  intros t H. apply Forall_forall. intros c I. rewrite forallb_forall in H. apply H in I. unfold in_ranges in I. cbn [existsb fst snd] in I.
  rewrite !orb_true_iff, !andb_true_iff, !N.leb_le in I. unfold name_char. lia.
Qed.
(** A keyword of letters in front of a name followed by something else. *)
Lemma keyword_in : forall t u s r, Forall name_char t -> in_class follow s -> u ++ s = t ++ r -> exists u', u = t ++ u' /\ r = u' ++ s.
Proof.
  intros t u s r T F E. destruct (app_head t u s r E) as [H|(t' & N & -> & ->)]; [exact H|exfalso]. destruct t' as [|c t']; [contradiction|].
  cbn [app] in F. apply follow_not in F. apply Forall_app in T as (_ & T). apply F. inversion T. assumption.
Qed.
Lemma name_rest : forall name t u, identifier_text name -> name = t ++ u -> t <> [] -> Forall name_char u.
Proof.
  intros name t u (c & r & -> & C & R) E N. destruct t as [|d t]; [contradiction|]. injection E as -> ->. apply Forall_app in R. apply R.
Qed.
Lemma name_solid : forall u s, Forall name_char u -> u <> [] -> in_class [(48, 57); (65, 90); (95, 95); (97, 122)]%N (u ++ s).
Proof.
  intros u s H N. destruct H as [|c u C _]; [contradiction|]. intros d r E. injection E as <- _. unfold name_char in C. split; [lia|]. unfold in_ranges. cbn [existsb fst snd].
  rewrite !orb_true_iff, !andb_true_iff, !N.leb_le. lia.
Qed.
Lemma decide_starts : forall t r : text, {x | r = t ++ x} + {strip t r = None}.
Proof.
  induction t as [|c t IH]; intro r; [left; exists r; reflexivity|]. destruct r as [|d r]; [right; reflexivity|].
  destruct (N.eq_dec c d) as [->|D]; [|right; cbn [strip]; destruct (N.eqb_spec c d); [contradiction|reflexivity]].
  destruct (IH r) as [(x & ->)|H]; [left; exists x; reflexivity|right]. cbn [strip]. rewrite N.eqb_refl. exact H.
Qed.
Lemma no_file : forall v, item_start v -> fails NonAtomic in_file v.
Proof.
  intros v [z|z|name w z I B C N|o k w z O B C N]; [no_match|no_match| |destruct O; no_match].
  assert (in_class follow (w ++ z)) as F by (apply blank_follow; [exact B|eapply class_sub; [|exact C]; reflexivity]).
  destruct (decide_starts (lit "in") (name ++ w ++ z)) as [(x & E)|E]; [|apply fails_seq1, fails_str, E].
  destruct (keyword_in (lit "in") name (w ++ z) x (names_ok (lit "in") eq_refl) F E) as (u & -> & ->). rewrite <- app_assoc.
  destruct u as [|c u'] eqn:Eu.
  - change ([] ++ w ++ z) with (w ++ z). eapply fails_seq2; [eapply exactly_yields; [apply exactly_str|apply passes_blank; [exact B|apply solid_class; eapply class_sub; [|exact C]; reflexivity]]|]. no_match.
  - rewrite <- Eu in *. assert (in_class [(48, 57); (65, 90); (95, 95); (97, 122)]%N (u ++ w ++ z)) as G.
    { apply name_solid; [eapply name_rest; [exact I|reflexivity|discriminate]|rewrite Eu; discriminate]. }
    eapply fails_seq2; [eapply exactly_yields; [apply exactly_str|apply passes_solid, solid_class; eapply class_sub; [|exact G]; reflexivity]|]. no_match.
Qed.
Lemma no_alias : forall v e, item_start v -> tail e -> (forall r, v = lit "as" ++ r -> ~ name_ahead r) -> fails NonAtomic as_name (v ++ e).
Proof.
  intros v e [z|z|name w z I B C N|o k w z O B C N] T H; [no_match|no_match| |destruct O; no_match]. rewrite <- !app_assoc.
  assert (in_class [(40, 40); (61, 61)]%N (z ++ e)) as C' by (apply class_app; assumption).
  assert (in_class follow (w ++ z ++ e)) as F by (apply blank_follow; [exact B|eapply class_sub; [|exact C']; reflexivity]).
  destruct (decide_starts (lit "as") (name ++ w ++ z ++ e)) as [(x & E)|E]; [|apply fails_seq1, fails_str, E].
  destruct (keyword_in (lit "as") name (w ++ z ++ e) x (names_ok (lit "as") eq_refl) F E) as (u & -> & ->). rewrite <- app_assoc.
  destruct u as [|c u'] eqn:Eu.
  - change ([] ++ w ++ z ++ e) with (w ++ z ++ e). eapply fails_seq2; [eapply exactly_yields; [apply exactly_str|apply passes_blank; [exact B|apply solid_class; eapply class_sub; [|exact C']; reflexivity]]|]. no_match.
  - rewrite <- Eu in *. assert (in_class [(48, 57); (65, 90); (95, 95); (97, 122)]%N (u ++ w ++ z ++ e)) as G.
    { apply name_solid; [eapply name_rest; [exact I|reflexivity|discriminate]|rewrite Eu; discriminate]. }
    eapply fails_seq2; [eapply exactly_yields; [apply exactly_str|apply passes_solid, solid_class; eapply class_sub; [|exact G]; reflexivity]|].
    apply fails_rule. cbn [inside_of body_of loud_kind]. assert (~ name_ahead (u ++ w ++ z)) as A by (apply H; rewrite <- app_assoc; reflexivity).
    pose proof (name_misses (u ++ w ++ z) e ltac:(rewrite Eu; discriminate) A) as M. rewrite <- !app_assoc in M. intros s Es. destruct (M s Es) as (k & Q). destruct k as [|k]; [discriminate|].
    rewrite match_rule in Q. exists k. cbn [inside_of body_of loud_kind] in Q. destruct (qmatch k Atomic (loud_body R_identifier) s) as [[(s', p)|]| |]; try discriminate. reflexivity.
Qed.
Lemma space_blank : forall w, blank (32%N :: w) -> blank w.
Proof. intros w H. inversion H; subst; assumption. Qed.
Lemma no_import_rule : forall name w z, rule_name name -> blank w -> in_class [(40, 40); (61, 61)]%N z -> z <> [] -> fails NonAtomic $R_import (name ++ w ++ z).
Proof.
  intros name w z R B C N. destruct R as [I|[->| ->]]; [|no_match..].
  assert (in_class follow (w ++ z)) as F by (apply blank_follow; [exact B|eapply class_sub; [|exact C]; reflexivity]).
  apply fails_rule. cbn [inside_of body_of loud_body loud_kind].
  destruct (decide_starts (lit "use ") (name ++ w ++ z)) as [(x & E)|E]; [|apply fails_seq1, fails_str, E].
  destruct (keyword_in (lit "use") name (w ++ z) (32%N :: x) (names_ok (lit "use") eq_refl) F E) as (u & -> & Ex).
  destruct u as [|c u].
  - rewrite app_nil_r. cbn [app] in Ex. destruct w as [|c w]; [cbn [app] in Ex; subst z; destruct (C 32%N x eq_refl) as (_ & X); discriminate X|]. injection Ex as <- ->.
    apply space_blank in B. change (lit "use" ++ (32%N :: w) ++ z) with (lit "use " ++ w ++ z).
    eapply fails_seq2; [eapply exactly_yields; [apply exactly_str|apply passes_blank; [exact B|apply solid_class; eapply class_sub; [|exact C]; reflexivity]]|].
    apply fails_seq1. no_match.
  - exfalso. injection Ex as <- _. assert (Forall name_char (32%N :: u)) as U by (eapply (name_rest _ (lit "use")); [exact I|reflexivity|discriminate]).
    inversion U as [|? ? H _]. unfold name_char in H. lia.
Qed.

(** * Items. *)
Definition items_are (items : list w_item) (ps : list ppair) : Prop := calm ps /\ Forall2 item_read ps items.
Lemma items_cons : forall i items p q, (exists x, p = [x] /\ tame x /\ item_read x i) -> items_are items q -> items_are (i :: items) (p ++ q).
Proof. intros i items p q (x & -> & T & R) (C & F). split; constructor; assumption. Qed.
Lemma next_nil : forall v e, v <> [] -> next v e = v ++ e.
Proof. intros [|c v] e N; [contradiction|reflexivity]. Qed.
Lemma rule_no_import : forall d docs u name l braced silent t r, w_docs (lit "///") d docs -> w_rule u name l braced silent t -> fails NonAtomic $R_import (d ++ u ++ r).
Proof.
  intros d docs u name l braced silent t r D W. destruct D as [|u' d w' v2 l' _ _ _ _ _]; [|rewrite <- !app_assoc; no_match]. cbn [app].
  destruct W as [name w1 a l w' b braced silent t R B A B' W]. rewrite <- !app_assoc. destruct (params_written a l A (w' ++ b ++ r)) as (v0 & C & -> & _).
  apply no_import_rule; [exact R|exact B|exact C|destruct a; discriminate].
Qed.
Lemma rule_item : forall d docs u name l braced silent t w v items e, w_docs (lit "///") d docs -> w_rule u name l braced silent t -> blank w -> w_items v items ->
  (braced = true \/ v = [] \/ (w <> [] /\ ~ params_on_operator v)) -> tail e ->
  yields NonAtomic $R_grammar_rule ((d ++ u ++ w ++ v) ++ e) (next v e) (rule_is docs name l silent t).
Proof.
  intros d docs u name l braced silent t w v items e D W B V H T. rewrite <- !app_assoc. eapply rule_written; [exact D|exact W|]. destruct braced; [|].
  - eapply next_passes; eassumption.
  - eapply bare_follow; try eassumption. destruct H as [H|H]; [discriminate|exact H].
Qed.
Lemma import_item : forall w0 u names f file a alias w v items e, blank w0 -> w_names u names -> w_in f file -> w_as a alias -> blank w -> w_items v items ->
  (v = [] \/ w <> []) -> (alias = None -> forall r, v = lit "as" ++ r -> ~ name_ahead r) -> tail e ->
  yields NonAtomic $R_import ((lit "use " ++ w0 ++ u ++ f ++ a ++ w ++ v) ++ e) (next v e) (import_is names file alias).
Proof.
  intros w0 u names f file a alias w v items e B0 U Wf Wa B V H A T. rewrite <- !app_assoc. destruct (next_passes w v items e B V T) as (P & S).
  apply import_written; [exact B0|exact U|exact Wf|exact Wa|exact P|apply raw_follow; assumption|exact S|..].
  - destruct v as [|c v]; [apply class_nil|]. cbn [next]. assert (item_start (c :: v)) as I by (eapply items_start; [exact V|discriminate]).
    destruct I as [z|z|name w' z I _ _ _|o k w' z O _ _ _]; [by_class|by_class| |].
    + rewrite <- app_assoc. apply class_app; [apply name_head, I|]. eapply class_sub; [|apply name_head, I]. reflexivity.
    + rewrite <- app_assoc. apply class_app; [apply (op_head o k O)|]. eapply class_sub; [|apply (op_head o k O)]. reflexivity.
  - intro E. destruct v as [|c v]; [no_match|]. apply no_alias; [eapply items_start; [exact V|discriminate]|exact T|apply A, E].
  - destruct v as [|c v]; [no_match|]. apply no_file, start_more. eapply items_start; [exact V|discriminate].
Qed.
Lemma rule_not_nil : forall d u name l braced silent t r, w_rule u name l braced silent t -> d ++ u ++ r <> [].
Proof. intros d u name l braced silent t r [name' w1 a l' w' b braced' silent' t' R _ _ _ _] E. apply app_eq_nil in E as (_ & E). apply app_eq_nil in E as (E & _). destruct name', w1, a; discriminate. Qed.
Lemma items_steps : forall v items, w_items v items -> forall e, tail e -> steps NonAtomic ($R_import // $R_grammar_rule) (next v e) [] (items_are items).
Proof.
  intros v items H. induction H as [|d docs u name l braced silent t w v items D W B V IH H|w0 u names f file a alias w v items B0 U Wf Wa B V IH H A]; intros e T.
  - eapply steps_weaken; [apply steps_nil|]. intros ps ->. split; constructor.
  - rewrite next_nil by (eapply rule_not_nil, W). eapply steps_weaken; [eapply steps_app; [apply steps_one, yields_choice2|apply IH, T]|].
    + rewrite <- !app_assoc. eapply rule_no_import; eassumption.
    + eapply rule_item; eassumption.
    + intros ps (p & q & -> & H1 & H2). apply items_cons; assumption.
  - rewrite next_nil by discriminate. eapply steps_weaken; [eapply steps_app; [apply steps_one, yields_choice1|apply IH, T]|].
    + eapply import_item; eassumption.
    + intros ps (p & q & -> & H1 & H2). apply items_cons; assumption.
Qed.
Lemma items_first : forall v items, w_items v items -> (exists ds n l b t, In (W_rule ds n l b t) items) -> forall e, tail e ->
  exists m m' P1 P2 P3, steps NonAtomic $R_import (next v e) m P1 /\ fails NonAtomic $R_import m /\ solid m /\ yields NonAtomic $R_grammar_rule m m' P2 /\ solid m' /\
    steps NonAtomic ($R_import // $R_grammar_rule) m' [] P3 /\ forall p q r, P1 p -> P2 q -> P3 r -> items_are items (p ++ q ++ r).
Proof.
  intros v items H. induction H as [|d docs u name l braced silent t w v items D W B V IH H|w0 u names f file a alias w v items B0 U Wf Wa B V IH H A]; intros X e T.
  - destruct X as (? & ? & ? & ? & ? & []).
  - exists ((d ++ u ++ w ++ v) ++ e), (next v e). eexists _, _, _. rewrite next_nil by (eapply rule_not_nil, W). split; [apply steps_nil|].
    split; [rewrite <- !app_assoc; eapply rule_no_import; eassumption|]. split; [|split; [eapply rule_item; eassumption|split; [eapply (next_passes w); eassumption|split; [eapply items_steps; eassumption|]]]].
    + apply start_solid, start_more. apply (items_start _ (W_rule docs name l silent t :: items)); [econstructor; eassumption|eapply rule_not_nil, W].
    + intros p q r -> H1 H2. change ([] ++ q ++ r) with (q ++ r). apply items_cons; assumption.
  - assert (exists ds n l b t, In (W_rule ds n l b t) items) as X'.
    { destruct X as (ds & n & l & b & t & [E|I]); [discriminate|]. exists ds, n, l, b, t. exact I. }
    destruct (IH X' e T) as (m & m' & P1 & P2 & P3 & St & F & S & Y & S' & St' & Z). exists m, m'. eexists _, P2, P3. rewrite next_nil by discriminate.
    split; [eapply steps_app; [apply steps_one; eapply import_item; eassumption|exact St]|]. do 5 (split; [assumption|]).
    intros p q r (p1 & p2 & -> & H1 & H2) H3 H4. rewrite <- app_assoc. apply items_cons; [exact H1|]. apply Z; assumption.
Qed.

(** * Files. *)
Lemma file_read : forall input docs items, w_file input docs items -> exists s' dps ips s a b l,
  ans NonAtomic #S_grammar_rules (mkQ 0 input []) (Some (s', dps ++ ips ++ [mkPPair R_eoi s a b l])) /\
  Forall2 (doc_pair R_grammar_doc (lit "//!")) dps docs /\ Forall2 item_read ips items /\ calm dps /\ calm ips.
Proof.
  intros input docs items [w d docs' v items' e B D V X T].
  assert (v <> []) as Nv by (destruct V as [|d' docs0 u name l braced silent t w' v' items0 _ W _ _ _|]; [destruct X as (? & ? & ? & ? & ? & [])|eapply rule_not_nil, W|discriminate]).
  destruct (items_first v items' V X e T) as (m & m' & P1 & P2 & P3 & St & F & S & Y & S' & St' & Z). rewrite next_nil in St by exact Nv.
  assert (item_start (v ++ e)) as I by (apply start_more; eapply items_start; [exact V|exact Nv]). pose proof (start_solid _ I) as Sv.
  destruct (docs_written R_grammar_doc (lit "//!") d docs' (or_intror (conj eq_refl eq_refl)) D (v ++ e) Sv) as (Sd & Std).
  assert (fails NonAtomic $R_grammar_doc (v ++ e)) as Nd.
  { destruct I as [z|z|name w' z I _ _ _|o k w' z O _ _ _]; [|no_match| |destruct O; no_match].
    - apply fails_rule. cbn [inside_of body_of loud_body]. apply fails_seq1, fails_str. reflexivity.
    - destruct (name_head name I) as (Nn & Cn). apply (class_app _ _ (w' ++ z) Nn) in Cn. no_match. }
  assert (yields NonAtomic (Q_rep $R_grammar_doc ;; Q_rep $R_import ;; $R_grammar_rule ;; Q_rep ($R_import // $R_grammar_rule) ;; $R_eoi) (d ++ v ++ e) []
    (both (docs_are R_grammar_doc (lit "//!") docs') (both P1 (both P2 (both P3 (token R_eoi [] nothing)))))) as Q.
  { eapply yields_seq; [apply yields_rep; [apply passes_solid, Sd|exact Std|exact Nd]|]. eapply yields_seq; [apply yields_rep; [apply passes_solid, Sv|exact St|exact F]|].
    eapply yields_seq; [exact Y|]. eapply yields_seq; [apply yields_rep; [apply passes_solid, S'|exact St'|no_match]|].
    eapply exactly_yields; [apply (exactly_loud NonAtomic R_eoi []); [reflexivity|apply exactly_end]|apply passes_solid, solid_nil]. }
  destruct (passes_blank w (d ++ v ++ e) B Sd (mkQ 0 (w ++ d ++ v ++ e) []) eq_refl) as (s1 & G & E1).
  destruct (Q s1 E1) as (s2 & s3 & ps & A & _ & _ & _ & (dps & q & -> & (Cd & Fd) & (p1 & q1 & -> & H1 & (p2 & q2 & -> & H2 & (p3 & q3 & -> & H3 & (i & j & l & -> & _)))))).
  destruct (Z p1 p2 p3 H1 H2 H3) as (Ci & Fi). exists s2, dps, (p1 ++ p2 ++ p3), [], i, j, l. split; [|auto].
  apply (ans_rule NonAtomic (Silent S_grammar_rules)). cbn [inside_of body_of silent_body]. rewrite <- !app_assoc.
  assert (ans NonAtomic Q_soi (mkQ 0 (w ++ d ++ v ++ e) []) (Some (mkQ 0 (w ++ d ++ v ++ e) [], []))) as A0 by (exists 1; reflexivity).
  exact (ans_seq _ _ _ _ _ _ _ _ A0 G A).
Qed.
Lemma parse_one : forall k k' r input o o', qparse k r input = Ret o -> qmatch k' NonAtomic (Q_rule r) (mkQ 0 input []) = Ret o' -> o = o'.
Proof. intros k k' r input o o' A B. eapply match_same; eassumption. Qed.
Lemma parse_reads : forall report input s' ps, ans NonAtomic #S_grammar_rules (mkQ 0 input []) (Some (s', ps)) -> parse_text report input = inl ps.
Proof.
  intros report input s' ps (k & A). unfold parse_text. destruct (parse_answers (Silent S_grammar_rules) input (enough input) eq_refl (le_n _)) as (o & E).
  rewrite E. rewrite (parse_one _ _ _ _ _ _ E A). reflexivity.
Qed.
