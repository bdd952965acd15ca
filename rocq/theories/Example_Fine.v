(** The sample grammars meet the conditions of the theorems about the generator. *)
From Coq Require Import String List NArith ZArith Arith Bool Lia.
From Verif Require Import Model_Text Model_Message Model_Meta Model_Import Model_Generator
  Spec_Text Spec_Grammar_Peg Spec_Occur Spec_Generator Proof_Text Proof_Emit Proof_Box Example_Generator.
Import ListNotations.
Open Scope list_scope.

Lemma not_asked : forall e t, uses_trivia t e = false -> ~ asks e t.
Proof. intros e t H A. apply uses_trivia_spec in A. congruence. Qed.
Lemma not_in : forall (k : text) l, text_in k l = false -> ~ In k l.
Proof. intros k l H. destruct (text_in_spec k l); [discriminate|assumption]. Qed.
Lemma body_of : forall g t e, trivia_body g t e -> exists r, In r (g_rules g) /\ trivia_name t = Some (pr_name r) /\ e = n_expr (pr_node r).
Proof.
  intros g t e (name & r & E & (a & b & G & N & _) & ->). exists r. rewrite G. split; [apply in_elt|]. split; [congruence|reflexivity].
Qed.

Lemma sample_fine : fine sample_unicode sample.
Proof.
  constructor; cbn [g_imports g_rules sample map]; try (intros ? []; fail); try (intros ? ? []; fail).
  - constructor.
  - intros r I. apply not_in. repeat (destruct I as [<-|I]; [reflexivity|]). destruct I.
  - intros r x I J. split; [|intros g' []].
    repeat (destruct I as [<-|I]; [cbn [pr_args rl map] in J; repeat (destruct J as [<-|J]; [apply not_in; reflexivity|]); destruct J|]). destruct I.
  - intros r I T. repeat (destruct I as [<-|I]; [first [reflexivity|destruct T; discriminate]|]). destruct I.
  - intros t e B. apply body_of in B. destruct B as (r & I & E & ->). cbn [g_rules sample] in I. apply not_asked.
    repeat (destruct I as [<-|I]; [destruct t; try discriminate; try reflexivity|]). destruct I.
  - intros e e' B _ (A & _). apply body_of in B. destruct B as (r & I & E & ->). cbn [g_rules sample] in I. revert A. apply not_asked.
    repeat (destruct I as [<-|I]; [try discriminate; try reflexivity|]). destruct I.
Qed.
Lemma sample_main_fine : fine sample_unicode sample_main.
Proof.
  constructor; cbn [g_imports g_rules sample_main map import_alias].
  - repeat constructor; cbn [In]; intro H; decompose [or] H; try contradiction; discriminate.
  - intros i I. apply not_in. repeat (destruct I as [<-|I]; [reflexivity|]). destruct I.
  - intros alias p [I|[I|[]]]; [discriminate|]. injection I as <- <-. eexists. split; [reflexivity|]. left. right. right. reflexivity.
  - intros r I. apply not_in. repeat (destruct I as [<-|I]; [reflexivity|]). destruct I.
  - intros r x I J. destruct I as [<-|[]]. destruct J.
  - intros r I T. destruct I as [<-|[]]. destruct T; discriminate.
  - intros t e B. apply body_of in B. destruct B as (r & [<-|[]] & E & ->). destruct t; discriminate.
  - intros e e' B. apply body_of in B. destruct B as (r & [<-|[]] & E & ->). discriminate.
  - intros alias g' [I|[I|[]]]; [|discriminate]. injection I as <- <-. exact sample_fine.
Qed.
Lemma sample_distinct : distinct_properties sample_unicode.
Proof. unfold distinct_properties. vm_compute. repeat constructor; cbn [In]; intro H; decompose [or] H; try contradiction; discriminate. Qed.
