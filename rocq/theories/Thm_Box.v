(** Theorems about which structs are boxed (generator/src/typed/generator.rs). *)
From Coq Require Import String List NArith ZArith Arith Bool Lia.
From Verif Require Import Model_Text Model_Message Model_Meta Model_Import Model_Tracker Model_Node Model_Generator
  Spec_Text Spec_Peg Spec_Grammar_Peg Spec_Occur Proof_Text Proof_Emit Proof_Box Proof_Process Proof_Contents Proof_Place Example_Generator.
Import ListNotations.
Open Scope list_scope.

(** C38: on every cycle of rules that mention each other there is one whose structs are boxed. (What
    follows for the structs: [C38_sized].) *)
Theorem C38_cycle : forall config fuel global root depth g tr o coll tr',
  process_rules config fuel global root depth g tr = Ret (o, coll, tr') ->
  forall a l, chain (g_rules g) l a a ->
  exists b, In b (a :: l) /\ In b (map pr_name (g_rules g)) /\ forall s, In s (o_content o) -> gs_name s = b -> gs_boxed s = true.
Proof.
  intros config fuel global root depth g tr o coll tr' H a l C.
  destruct (process_rules_contents _ _ _ _ _ _ _ _ _ _ H) as (_ & reach & R & F).
  destruct (reachability_cycle _ _ R _ _ C) as (b & I & L). exists b. split; [exact I|]. split.
  - assert (X : forall l a c, chain (g_rules g) l a c -> forall b, In b (a :: l) -> In b (map pr_name (g_rules g))).
    { clear. intros l a c C. induction C as [a c (r & I & <- & _)|a x l c (r & I & <- & _) C IH]; intros b J.
      - destruct J as [<-|[]]. apply in_map, I.
      - destruct J as [<-|J]; [apply in_map, I|apply IH, J]. }
    exact (X _ _ _ C _ I).
  - intros s J E. destruct (forall2_right _ _ _ s F J) as (r & _ & sys & i & t1 & t2 & _ & ->). cbn [create_rule gs_name gs_boxed] in *.
    rewrite E, L. apply orb_true_r.
Qed.
Print Assumptions C38_cycle.

(** C39: with boxing only where needed, a boxed struct is that of a rule that reaches itself; else all
    structs are boxed. *)
Theorem C39_needed : forall config fuel global root depth g tr o coll tr',
  process_rules config fuel global root depth g tr = Ret (o, coll, tr') -> box_rules_only_if_needed config = true ->
  forall s, In s (o_content o) -> gs_boxed s = true -> exists l, chain (g_rules g) l (gs_name s) (gs_name s).
Proof.
  intros config fuel global root depth g tr o coll tr' H B s I Bs.
  destruct (process_rules_contents _ _ _ _ _ _ _ _ _ _ H) as (_ & reach & R & F).
  destruct (forall2_right _ _ _ s F I) as (r & J & sys & i & t1 & t2 & _ & ->). cbn [create_rule gs_name gs_boxed] in *.
  rewrite B in Bs. cbn [negb orb] in Bs. apply reaches_chain. apply (reachability_sound _ _ R).
  - apply in_map. apply plain_in in J. apply J.
  - destruct (lookup (pr_name r) reach); [discriminate|reflexivity].
Qed.
Print Assumptions C39_needed.
Theorem C39_all : forall config fuel global root depth g tr o coll tr',
  process_rules config fuel global root depth g tr = Ret (o, coll, tr') -> box_rules_only_if_needed config = false ->
  forall s, In s (o_content o) -> gs_boxed s = true.
Proof.
  intros config fuel global root depth g tr o coll tr' H B s I.
  destruct (process_rules_contents _ _ _ _ _ _ _ _ _ _ H) as (_ & reach & R & F).
  destruct (forall2_right _ _ _ s F I) as (r & J & sys & i & t1 & t2 & _ & ->). cbn [create_rule gs_boxed]. rewrite B. reflexivity.
Qed.
Print Assumptions C39_all.
(** [item], [paren] and [sum] of the sample mention each other in a circle ([item] mentions [sum] as an
    argument). *)
Example C38_C39_ex :
  (exists o coll tr', process_rules box_needed 9 (make_global sample_unicode) [lit "super"] 0 sample gt_new = Ret (o, coll, tr') /\
     map (fun s => (gs_name s, gs_boxed s)) (o_content o) =
       [(lit "item", true); (lit "paren", false); (lit "sum", false); (lit "word", false); (lit "lines", false)]) /\
  (exists o coll tr', process_rules box_all 9 (make_global sample_unicode) [lit "super"] 0 sample gt_new = Ret (o, coll, tr') /\
     map (fun s => (gs_name s, gs_boxed s)) (o_content o) =
       [(lit "item", true); (lit "paren", true); (lit "sum", true); (lit "word", true); (lit "lines", true)]) /\
  chain (g_rules sample) [lit "sum"] (lit "item") (lit "item").
Proof.
  split; [do 3 eexists; split; vm_compute; reflexivity|]. split; [do 3 eexists; split; vm_compute; reflexivity|].
  eapply Chain_next.
  - exists (rl "item" [] (alt (PRange 97%N 122%N) (call ["paren"%string] [nm "sum"]))). split; [right; right; left; reflexivity|].
    split; [reflexivity|]. apply used_names_spec. vm_compute. auto.
  - apply Chain_last. exists (rl "sum" [] (sq (nm "item") TriviaOptional (PRep (nd (sq (str "+") TriviaOptional (nm "item")))))).
    split; [do 4 right; left; reflexivity|]. split; [reflexivity|]. apply used_names_spec. vm_compute. auto.
Qed.
