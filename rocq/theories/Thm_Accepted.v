(** Theorems about which grammars with silent rules with parameters are accepted. *)
From Coq Require Import String List NArith Arith Bool Lia.
From Verif Require Import Model_Text Model_Message Model_Meta Model_Grammar Model_Import Model_Generator Model_Output Model_Inline Model_Pest2 Model_Derive
  Spec_Text Spec_Peg Spec_Grammar_Peg Spec_Occur Spec_Generator Spec_Inline Spec_Accepted Spec_Import Spec_Written Spec_Derive Spec_Whole
  Proof_Process Proof_Place Proof_Raw Proof_Accept Proof_Inlining Proof_Inline_Ends Proof_Accepted Example_Generator Example_Fine Example_Inline Thm_Names Thm_Inline Thm_Derive Thm_Whole.
Import ListNotations.
Open Scope list_scope.

Lemma enough_fuel : forall config unicode g, fine unicode g -> distinct_properties unicode -> complete unicode g ->
  exists k0, forall k, k0 <= k -> exists items, generate_items config k unicode g = Ret items.
Proof.
  intros config unicode g F D C. destruct (complete_accepted unicode D config g F C) as (k0 & H). exists k0. intros k L.
  destruct (H k L 0 gt_new good_new) as (o & coll & tr & E). unfold generate_items, generate_output. change [lit "super"] with (root_of 0). rewrite (fine_raw unicode g F), E. cbn [obind]. eauto.
Qed.

(** C75: where a call of a silent rule with parameters is left, the generator rejects the grammar. *)
Theorem C75_rejected : forall config unicode g, complete unicode g -> Spec_Inline.tidy unicode g -> plain_trivia g -> fine unicode g -> distinct_properties unicode ->
  left_calls g -> forall k items, generate_typed config k unicode g <> Ret items.
Proof.
  intros config unicode g C T Pt F D (r & J & M & K) k items G. unfold generate_typed in G. destruct (inline_macros k g) as [g'| |] eqn:E; try discriminate. cbn [obind] in G.
  assert (F' := inlined_fine unicode k g g' E F T Pt).
  apply (proj1 (complete_iff unicode g C T g' k E)) with (r := r); [|assumption..]. apply (C63_accepts config unicode g' F' D). eauto.
Qed.
Print Assumptions C75_rejected.

(** C75: and in no other case, unless silent rules call each other in a circle. *)
Theorem C75_exact : forall config unicode g rank, complete unicode g -> Spec_Inline.tidy unicode g -> plain_trivia g -> fine unicode g -> distinct_properties unicode -> ordered g rank ->
  ((exists k0, forall k, k0 <= k -> exists items, generate_typed config k unicode g = Ret items) <-> ~ left_calls g).
Proof.
  intros config unicode g rank C T Pt F D O. split.
  - intros (k & H) L. destruct (H k (le_n _)) as (items & G). exact (C75_rejected config unicode g C T Pt F D L k items G).
  - intro N. destruct (C40_ends unicode g rank C T O) as (k1 & g' & E).
    assert (C' : complete unicode g').
    { apply (complete_iff unicode g C T g' k1 (E k1 (le_n _))). intros r J M K. apply N. exists r. auto. }
    destruct (enough_fuel config unicode g' (inlined_fine unicode k1 g g' (E k1 (le_n _)) F T Pt) D C') as (k2 & H).
    exists (max k1 k2). intros k L. unfold generate_typed. rewrite (E k) by lia. cbn [obind]. apply H. lia.
Qed.
Print Assumptions C75_exact.

(** C75: a condition that can be read off the grammar. *)
Theorem C75_simple : forall g, simple_calls g -> ~ left_calls g.
Proof. intros g S (r & J & _ & K). exact (simple_enough g S r J K). Qed.
Print Assumptions C75_simple.

(** C75: so for the whole macro: a package whose grammar is written as it should be is expanded, just when no
    such call is left. What the parsers then do is said by C74. *)
Theorem C75_expands : forall rust_ident manifest_dir path_exists read_file report path_text debug_path current_dir attrs g unicode rank,
  Forall (accepted rust_ident) attrs -> written_grammar manifest_dir path_exists read_file attrs (forget (shape g)) ->
  complete unicode g -> Spec_Inline.tidy unicode g -> plain_trivia g -> fine unicode g -> distinct_properties unicode -> ordered g rank ->
  ((exists k0, forall k, k0 <= k ->
     exists x, derive_parser rust_ident manifest_dir path_exists read_file (parse_text report) path_text debug_path current_dir k unicode attrs = Ret x) <->
   ~ left_calls g).
Proof.
  intros rust_ident manifest_dir path_exists read_file report path_text debug_path current_dir attrs g unicode rank A W C T Pt F D O.
  destruct (package_expands rust_ident manifest_dir path_exists read_file report path_text debug_path current_dir attrs _ A W) as (c & _ & _ & _ & H).
  destruct (H g eq_refl) as (k0 & E). rewrite <- (C75_exact c unicode g rank C T Pt F D O). split.
  - intros (k1 & X). exists (max k0 k1). intros k L. destruct (X k ltac:(lia)) as (x & Ex). exists (x_items x). apply (E k unicode ltac:(lia)). eauto.
  - intros (k1 & X). exists (max k0 k1). intros k L. destruct (X k ltac:(lia)) as (items & G). apply (E k unicode ltac:(lia)) in G. destruct G as (x & Ex & _). eauto.
Qed.
Print Assumptions C75_expands.

(** In the grammar of C40 calls of silent rules are arguments of calls of silent rules, and none is left. In the
    two grammars that are rejected, one is. *)
Example C75_ex :
  complete sample_unicode inline_sample /\ Spec_Inline.tidy sample_unicode inline_sample /\ plain_trivia inline_sample /\ fine sample_unicode inline_sample /\
  ordered inline_sample sample_rank /\ ~ left_calls inline_sample /\
  complete sample_unicode nested /\ Spec_Inline.tidy sample_unicode nested /\ plain_trivia nested /\ fine sample_unicode nested /\ left_calls nested /\
  complete sample_unicode unused /\ Spec_Inline.tidy sample_unicode unused /\ plain_trivia unused /\ fine sample_unicode unused /\ left_calls unused.
Proof.
  destruct C40_ex as (F & _ & C & T & P & O & E & C' & _).
  split; [exact C|]. split; [exact T|]. split; [exact P|]. split; [exact F|]. split; [exact O|]. split.
  { intros (r & J & M & K). exact (proj1 (complete_iff sample_unicode inline_sample C T inlined_sample 9 E) C' r J M K). }
  destruct C40_nested_call_refuted as (C1 & T1 & F1 & _). destruct C40_unused_parameter_refuted as (C2 & T2 & F2 & _).
  split; [exact C1|]. split; [exact T1|]. split; [|split; [exact F1|split]].
  { intros r path l s J Tr. repeat (destruct J as [<-|J]; [destruct Tr; discriminate|]). destruct J. }
  { eexists. split; [left; reflexivity|]. split; [intros (_ & M & _); discriminate M|]. eapply Keeps_argument; [|left; reflexivity|].
    - intros s (J & M & _) Q. injection Q as Q. repeat (destruct J as [<-|J]; [discriminate|]). destruct J.
    - exists (nth 2 (g_rules nested) (rl "" [] (str ""))), [nd (str "1")]. split; [|exact (Part_self (call ["m"%string] [str "1"]))]. split; [right; right; left; reflexivity|].
      split; [reflexivity|discriminate]. }
  split; [exact C2|]. split; [exact T2|]. split; [|split; [exact F2|]].
  { intros r path l s J Tr. repeat (destruct J as [<-|J]; [destruct Tr; discriminate|]). destruct J. }
  eexists. split; [left; reflexivity|]. split; [intros (_ & M & _); discriminate M|].
  apply (Keeps_unused unused (srl "m" ["x"%string] (str "k"))); [split; [right; left; reflexivity|split; [reflexivity|discriminate]]|].
  intros x _ (args & Q). apply parts_all in Q. cbn in Q. destruct Q as [Q|[]]. discriminate.
Qed.

(** The package of C74. *)
Example C75_expands_ex :
  (exists rank, ordered layout_grammar rank) /\ simple_calls layout_grammar /\ ~ left_calls layout_grammar.
Proof.
  assert (S : simple_calls layout_grammar).
  { split.
    - intros r path l n J P I (s & l1 & (Js & Ms & _) & Q).
      destruct J as [<-|[<-|[]]]; apply parts_all in P; cbn in P; repeat (destruct P as [P|P]; [try discriminate P|]); try contradiction.
      injection P as <- <-. destruct I as [<-|[]]. apply parts_all in Q. cbn in Q. destruct Q as [Q|[]]. discriminate.
    - intros s (J & M & _). destruct J as [<-|[<-|[]]]; [|discriminate M]. exists (lit "x"). split; [left; reflexivity|]. exists None. eapply Part_in; [|apply Op_seq_r]. eapply Part_in; [apply Part_self|]. exact (Op_seq_l (nd (nm "x")) (nd (str ")")) TriviaNone). }
  split; [|split; [exact S|apply C75_simple, S]]. exists (fun _ => 0). intros s l s' (J & M & _) P (J' & M' & _).
  destruct J as [<-|[<-|[]]]; [|discriminate M]. apply parts_all in P. cbn in P. repeat (destruct P as [P|P]; [discriminate P|]). contradiction.
Qed.
