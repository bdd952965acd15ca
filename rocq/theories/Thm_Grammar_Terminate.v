(** C52: when the generated parsers terminate, in terms of the grammar (generator/src/typed/generator.rs,
    core/src/sequence.rs, choice.rs, core/src/typed/template/repetition.rs, core/src/typed/wrapper.rs). *)
From Coq Require Import String List NArith ZArith Arith Bool Lia Relations.
From Verif Require Import Model_Text Model_Message Model_Meta Model_Import Model_Position Model_Span Model_Stack Model_Tracker Model_Node
  Model_Generator Model_Output
  Spec_Text Spec_Peg Spec_Run Spec_Yield Spec_Rust Spec_Terminate Spec_Grammar_Peg Spec_Occur Spec_Generator Spec_Grammar_Terminate
  Proof_Text Proof_Run Proof_Peg Proof_Yield Proof_Node Proof_Entry Proof_Names Proof_Accept Proof_Read Proof_Exists
  Proof_Terminate Proof_Grammar_Terminate Example_Generator Example_Fine Thm_Names Thm_Generated.
Import ListNotations.
Open Scope list_scope.

Lemma located_complete : forall unicode tm top m g, located tm top m g -> complete unicode top -> fine unicode top ->
  complete unicode g /\ fine unicode g.
Proof.
  intros unicode tm top m g L C F. induction L as [|m g alias g' L (IH1 & IH2) I]; [auto|].
  split; [inversion IH1|inversion IH2]; subst; eauto.
Qed.

(** If the expression of a rule without parameters is not left recursive, its generated parser has an
    outcome on every text, at every place and with every stack; all four ways to parse a text end. *)
Theorem C52_grammar : forall config fuel unicode g items,
  generate_items config fuel unicode g = Ret items ->
  fine unicode g -> fine_types_mod (types_mod (rules_mod config)) g -> distinct_properties unicode ->
  forall id env, reads_rules items unicode id env ->
  forall property m g' r, located (types_mod (rules_mod config)) g m g' -> In r (g_rules g') -> ~ is_trivia_rule r -> pr_args r = [] ->
  not_left_recursive unicode property (Clo g' [] (n_expr (pr_node r))) ->
  forall addr s, let parser := Rule (id m (pr_name r)) [] in
  (forall p K, boundary s p -> valid_stack K -> exists o, yields addr s env property parser p K o) /\
  exists k0, forall k, k0 <= k ->
  returns (text_try_parse_partial addr s env property k parser) /\ returns (text_try_parse addr s env property k parser) /\
  returns (text_check_partial addr s env property k parser) /\ returns (text_check addr s env property k parser).
Proof.
  intros config fuel unicode g items H Fi Ty D id env Rr property m g' r Lo Ir Nt Na Nl addr s parser.
  assert (C : complete unicode g) by (apply (C63_accepts config unicode g Fi D); eauto).
  destruct (located_complete unicode _ g m g' Lo C Fi) as (C' & F').
  assert (Pr : proper unicode (Clo g' [] (n_expr (pr_node r)))).
  { assert (P := rule_proper unicode g' r [] C' F' Ir). rewrite Na in P. apply P; [reflexivity|intros c []]. }
  assert (Y : forall p K, boundary s p -> valid_stack K -> exists o, yields addr s env property parser p K o).
  { intros p K (pre & post & Hs & ->) (Ks & F).
    destruct (gsettled unicode property _ Pr Nl pre post Ks) as ([|pre' post' K'] & G);
      destruct (C36_parser config fuel unicode g items H Fi Ty D id env Rr property m g' r Lo Ir Nt Na addr s pre post K Ks Hs F) as (_ & _ & A & B).
    - eexists. exact (B G).
    - pose proof (gpeg_forward unicode property _ _ _ _ _ _ _ G) as (x & -> & ->). destruct (A x post' K' G) as (v & K2 & _ & O). eexists. exact O. }
  split; [exact Y|].
  destruct (Y 0 [] (start_boundary s) valid_nil) as (o & O). destruct (O [] (tracker_new 0)) as (k0 & H0). exists k0. intros k L.
  destruct (H0 k L) as (_ & E). apply entries_return. intro Z. unfold init_state, stack_new in Z. change from_start with 0 in Z. rewrite Z in E. discriminate E.
Qed.
Print Assumptions C52_grammar.

(** Among finitely many expressions with all of their parts none is left recursive if none leads back to
    itself. *)
Theorem C52_grammar_finite : forall unicode property l,
  closed_grammar unicode l -> (forall c, In c l -> ~ leads_back unicode property c) ->
  forall c, In c l -> not_left_recursive unicode property c.
Proof. exact gfinite. Qed.
Print Assumptions C52_grammar_finite.

(** The generator does not reject left recursion: if the expression of a rule begins with a part that
    begins with a part, and so on, then its parser never returns. *)
Theorem C52_grammar_left_recursive : forall config fuel unicode g items,
  generate_items config fuel unicode g = Ret items ->
  fine unicode g -> fine_types_mod (types_mod (rules_mod config)) g -> distinct_properties unicode ->
  forall id env, reads_rules items unicode id env ->
  forall property m g' r, located (types_mod (rules_mod config)) g m g' -> In r (g_rules g') -> ~ is_trivia_rule r -> pr_args r = [] ->
  forall P : closure -> Prop, (forall c, P c -> exists d, opens unicode c d /\ P d) -> P (Clo g' [] (n_expr (pr_node r))) ->
  forall addr s p K, boundary s p -> valid_stack K -> forall k sv t,
  let parser := Rule (id m (pr_name r)) [] in
  try_parse addr s env property k parser p (mkState (mkStack K sv) t) = OutOfFuel /\
  check addr s env property k parser p (mkState (mkStack K sv) t) = OutOfFuel.
Proof.
  intros config fuel unicode g items H Fi Ty D id env Rr property m g' r Lo Ir Nt Na P St Pc addr s p K B V k sv t parser.
  assert (E : try_parse addr s env property k parser p (mkState (mkStack K sv) t) = OutOfFuel).
  { pose proof (safe addr s env property k parser p K sv t B V) as (Np & _). cbv zeta in Np.
    destruct B as (pre & post & Hs & ->). destruct V as (Ks & F).
    destruct (C36_parser config fuel unicode g items H Fi Ty D id env Rr property m g' r Lo Ir Nt Na addr s pre post K Ks Hs F) as (A1 & A2 & _ & _).
    assert (No := proj1 (no_result unicode property P St)).
    destruct (try_parse addr s env property k parser (blen pre) (mkState (mkStack K sv) t)) as [([(p', v)|], st')| |] eqn:E; [| |contradiction|reflexivity]; exfalso.
    - destruct (A1 _ _ _ _ _ _ E) as (x & post' & Ks' & _ & _ & _ & G). exact (No _ _ _ _ _ _ _ G Pc).
    - exact (No _ _ _ _ _ _ _ (A2 _ _ _ _ E) Pc). }
  split; [exact E|]. rewrite (check_forget addr s env property k parser p K sv t B V), E. reflexivity.
Qed.
Print Assumptions C52_grammar_left_recursive.

(** The rule [sum] of the sample grammar and all parts of it. The rule [paren] is called with [sum] as
    argument; it is not left recursive because its parenthesis comes first. *)
Definition plus_item : parse_expr := sq (str "+") TriviaOptional (nm "item").
Definition e_sum : parse_expr := sq (nm "item") TriviaOptional (PRep (nd plus_item)).
Definition e_item : parse_expr := alt (PRange 97%N 122%N) (call ["paren"%string] [nm "sum"]).
Definition x_close : parse_expr := sq (nm "x") TriviaOptional (str ")").
Definition e_paren : parse_expr := sq (str "(") TriviaOptional x_close.
Definition at_x : list (text * closure) := [(lit "x", Clo sample [] (nm "sum"))].
Definition sum_parts : list closure :=
  map (Clo sample []) [e_sum; nm "item"; PRep (nd plus_item); plus_item; str "+"; e_item; PRange 97%N 122%N; call ["paren"%string] [nm "sum"]; nm "sum";
                       PRep (nd (str " ")); str " "] ++
  map (Clo sample at_x) [e_paren; str "("; x_close; nm "x"; str ")"].
Lemma sample_trivia : forall t e, trivia_body sample t e -> t = TriviaOptional /\ e = PRep (nd (str " ")) \/ t = TriviaMandatory.
Proof.
  intros t e B. apply body_of in B. destruct B as (r & I & E & ->). destruct t; [discriminate E| |right; reflexivity]. left. split; [reflexivity|].
  cbn [g_rules sample sample_rules In] in I. repeat (destruct I as [<-|I]; [first [reflexivity|discriminate E]|]). destruct I.
Qed.
Lemma sample_name : forall unicode rho x args d, lit "pest" <> x -> stands_for unicode (Clo sample rho (PPath [x] args)) d ->
  assoc x rho d \/ exists r l, In r sample_rules /\ pr_name r = x /\ call_arguments args l /\
    d = Clo sample (combine (pr_args r) (map (fun n => Clo sample rho (n_expr n)) l)) (n_expr (pr_node r)).
Proof.
  intros unicode rho x args d Np H. inversion H as [? ? ? ? ? A|? ? ? ? l g' r N Nm Ca L|? ? ? n N Nm]; subst; [left; exact A| |].
  - right. exists r, l. inversion Nm as [|p x' O _]; subst.
    inversion O as [g1 r1 I _| |? alias g1 rest x1 I]; subst; [|destruct I]. auto.
  - exfalso. inversion Nm as [|p y O _]; subst; try congruence. inversion O as [|? ? ? ? I|? ? ? ? ? I]; subst; destruct I.
Qed.
Ltac name_tac H :=
  apply sample_name in H; [|discriminate];
  destruct H as [H|(r & l & I & E & Ca & ->)];
  [inversion H; subst; try (match goal with A : assoc _ [] _ |- _ => inversion A end)
  |cbn [sample_rules In] in I; repeat (destruct I as [<-|I]; [first [discriminate E|destruct Ca as [Ca|(Ca & ->)]; try discriminate Ca; try (injection Ca as <-)]|]); try destruct I].
Lemma rep_no_trivia : forall g e n min max t e', repetition e n min max -> round_trivia (n_expr n) t -> trivia_body g t e' ->
  (exists n', operand_of (PSeparated n' t) e) /\ forall path args, e <> PPath path args.
Proof.
  intros g e n min max t e' Rp [(n' & E)|(_ & ->)] (name & r & Z & _); [|discriminate Z].
  split; [exists n'; rewrite <- E|]; destruct Rp as [(-> & _)|[(-> & _)|(range & -> & _)]]; try constructor; discriminate.
Qed.
Lemma sum_closed : forall unicode, closed_grammar unicode sum_parts.
Proof.
  intros unicode c d Ic H. unfold sum_parts, e_sum, e_item, e_paren, x_close, plus_item, nm, str, sq, alt, call in Ic. cbn [map app In] in Ic.
  repeat (destruct Ic as [<-|Ic]; [inversion H as [? ? ? e' O N|? ? S|? ? l r t e' T|? ? ? n min max t e' Rp Rt T]; subst; clear H|]); try destruct Ic.
  all: try match goal with N : ~ is_path (PPath ?p ?a) |- _ => exfalso; apply N; exists p, a; reflexivity end.
  all: try match goal with N : ~ is_path (nm _) |- _ => exfalso; apply N; unfold nm; eexists; eexists; reflexivity end.
  all: try match goal with O : operand_of _ _ |- _ => solve [inversion O; subst; unfold sum_parts; cbn [map app In n_expr nd]; tauto] end.
  all: try match goal with S : stands_for _ _ _ |- _ => solve [inversion S] end.
  all: try (match goal with Rp : repetition _ _ _ _ |- _ => destruct (rep_no_trivia _ _ _ _ _ _ _ Rp Rt T) as ((? & Op) & Np); try (exfalso; eapply Np; reflexivity); inversion Op; subst; discriminate end).
  all: try match goal with T : trivia_body _ _ _ |- _ => destruct (sample_trivia _ _ T) as [(_ & ->)|Z]; [|discriminate Z]; unfold sum_parts; cbn [map app In]; tauto end.
  all: match goal with S : stands_for _ _ _ |- _ => name_tac S end; unfold sum_parts; cbn [map app In]; tauto.
Qed.
Definition sum_rank (c : closure) : nat :=
  let 'Clo _ _ e := c in
  match e with
  | PPath [x] None => if text_eqb x (lit "x") then 12 else if text_eqb x (lit "sum") then 11 else 9
  | PSeq (mkNode (PPath [x] _) _) _ _ => if text_eqb x (lit "x") then 13 else 10
  | PChoice _ _ => 8 | PPath _ _ => 7 | PSeq _ _ _ => 6
  | PRep (mkNode (PSeq _ _ _) _) => 7 | PRep _ => 5 | _ => 0
  end.
Lemma sum_ranked : forall unicode property a b, In a sum_parts -> starts unicode property a b -> sum_rank b < sum_rank a.
Proof.
  intros unicode property c d Ic H. unfold sum_parts, e_sum, e_item, e_paren, x_close, plus_item, nm, str, sq, alt, call in Ic. cbn [map app In] in Ic.
  repeat (destruct Ic as [<-|Ic]; [inversion H as [? ? ? e' O N N2|? ? S|? ? l r t|? ? l r t e' M T|? ? l r t M T|? ? ? n min max t e' Rp Rt M T]; subst; clear H|]); try destruct Ic.
  all: try match goal with N : ~ is_path (PPath ?p ?a) |- _ => exfalso; apply N; exists p, a; reflexivity end.
  all: try match goal with N : ~ is_path (nm _) |- _ => exfalso; apply N; unfold nm; eexists; eexists; reflexivity end.
  all: try match goal with N : ~ is_seq (PSeq ?l ?r ?t) |- _ => exfalso; apply N; exists l, r, t; reflexivity end.
  all: try match goal with O : operand_of _ _ |- _ => solve [inversion O; subst; vm_compute; lia] end.
  all: try match goal with S : stands_for _ _ _ |- _ => solve [inversion S] end.
  all: try match goal with Rp : repetition _ _ _ _ |- _ => destruct (rep_no_trivia _ _ _ _ _ _ _ Rp Rt T) as ((? & Op) & Np); try (exfalso; eapply Np; reflexivity); inversion Op; subst; discriminate end.
  all: try match goal with M : can_be_empty _ _ (Clo ?g ?rho (n_expr (nd (PStr ?s)))) |- _ =>
    exfalso; refine (str_not_empty unicode property g rho (hd 0%N s) (tl s) _); vm_compute; exact M end.
  all: try match goal with T : trivia_body _ _ _ |- _ => destruct (sample_trivia _ _ T) as [(_ & ->)|Z]; [|discriminate Z] end.
  all: try match goal with S : stands_for _ _ _ |- _ => name_tac S end.
  all: vm_compute; lia.
Qed.
Example C52_grammar_ex :
  not_left_recursive sample_unicode sample_digit (Clo sample [] e_sum) /\
  exists r, In r (g_rules sample) /\ pr_name r = lit "sum" /\ n_expr (pr_node r) = e_sum /\
  forall addr s, exists k0, forall k, k0 <= k ->
    returns (text_try_parse addr s sample_env sample_digit k (Rule (sample_id [lit "rules"; lit "s"; lit "rules"] (lit "sum")) [])).
Proof.
  assert (N : not_left_recursive sample_unicode sample_digit (Clo sample [] e_sum)).
  { apply (C52_grammar_finite sample_unicode sample_digit sum_parts); [apply sum_closed| |left; reflexivity].
    apply (granked _ _ _ sum_rank); [apply sum_closed|apply sum_ranked]. }
  split; [exact N|]. exists (rl "sum" [] e_sum). assert (I : In (rl "sum" [] e_sum) (g_rules sample)) by (do 4 right; left; reflexivity).
  repeat (split; [first [exact I|reflexivity]|]). intros addr s.
  destruct C36_ex as (F & Ty & D & G & R & Lo & _).
  destruct (C52_grammar box_all 9 sample_unicode sample_main sample_items G F Ty D sample_id sample_env R sample_digit _ sample _ Lo I) with (addr := addr) (s := s) as (_ & k0 & H);
    [intros [E|E]; discriminate E|reflexivity|exact N|]. exists k0. intros k L. apply H, L.
Qed.

(** [expr = expr - "+" - "1" | "1"] is accepted, but its parser never returns. *)
Definition e_left : parse_expr := alt (sq (nm "expr") TriviaNone (sq (str "+") TriviaNone (str "1"))) (str "1").
Definition left_grammar : gmodule := mkModule [] [rl "expr" [] e_left] [] [].
Definition left_items : list (text * ritem) :=
  match generate_items box_all 9 sample_unicode left_grammar with Ret items => items | _ => [] end.
Definition left_id : list text -> text -> rule := numbered left_items.
Definition left_env : rule -> rule_def := read_env left_items sample_unicode left_id 20.
Example C52_grammar_left_recursive_ex :
  generate_items box_all 9 sample_unicode left_grammar = Ret left_items /\ fine sample_unicode left_grammar /\
  reads_rules left_items sample_unicode left_id left_env /\
  forall addr s k t, try_parse addr s left_env sample_digit k (Rule (left_id [lit "rules"] (lit "expr")) []) 0 (mkState (mkStack [] []) t) = OutOfFuel.
Proof.
  assert (G : generate_items box_all 9 sample_unicode left_grammar = Ret left_items) by (vm_compute; reflexivity).
  assert (F : fine sample_unicode left_grammar).
  { constructor; cbn [g_imports g_rules left_grammar map import_alias]; try (intros ? []; fail); try (intros ? ? []; fail).
    - constructor.
    - intros r I. apply not_in. destruct I as [<-|[]]. reflexivity.
    - intros r x [<-|[]] J. destruct J.
    - intros r [<-|[]] T. reflexivity.
    - intros t e B. apply body_of in B. destruct B as (r & [<-|[]] & E & ->). destruct t; discriminate E.
    - intros e e' B. apply body_of in B. destruct B as (r & [<-|[]] & E & ->). discriminate E. }
  assert (R : reads_rules left_items sample_unicode left_id left_env) by (apply check_reads_spec; vm_compute; reflexivity).
  split; [exact G|]. split; [exact F|]. split; [exact R|]. intros addr s k t.
  assert (U : forall x y, names sample_unicode left_grammar [lit "expr"] x -> names sample_unicode left_grammar [lit "expr"] y -> x = y).
  { apply C43_unique. apply (C63_accepts box_all); [exact F|exact sample_distinct|]. eauto. }
  refine (proj1 (C52_grammar_left_recursive box_all 9 sample_unicode left_grammar left_items G F (or_introl eq_refl) sample_distinct left_id left_env R sample_digit
    [lit "rules"] left_grammar (rl "expr" [] e_left) (Loc_top _ _) (or_introl eq_refl) _ eq_refl
    (fun c => In c (map (Clo left_grammar []) [e_left; sq (nm "expr") TriviaNone (sq (str "+") TriviaNone (str "1")); nm "expr"])) _ (or_introl eq_refl)
    addr s 0 [] (start_boundary s) valid_nil k [] t)).
  - intros [E|E]; discriminate E.
  - intros c [<-|[<-|[<-|[]]]].
    + eexists. split; [apply OP_choice|right; left; reflexivity].
    + eexists. split; [apply OP_seq|right; right; left; reflexivity].
    + exists (Clo left_grammar [] e_left). split; [|left; reflexivity]. apply OP_name; [|exact U].
      apply (SF_rule sample_unicode left_grammar [] [lit "expr"] None [] left_grammar (rl "expr" [] e_left)).
      * intros x c _ A. inversion A.
      * apply N_own; [|intros q E; discriminate E]. apply (O_rule _ left_grammar (rl "expr" [] e_left)); [left; reflexivity|intros [E|E]; discriminate E].
      * right. auto.
      * reflexivity.
Qed.
