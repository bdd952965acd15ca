(** The raw identifiers made for a grammar. *)
From Coq Require Import String List NArith ZArith Arith Bool Lia.
From Verif Require Import Model_Text Model_Message Model_Meta Model_Import Model_Generator
  Spec_Text Spec_Grammar_Peg Spec_Occur Spec_Generator Proof_Text Proof_Emit Proof_Box Proof_Process.
Import ListNotations.
Open Scope list_scope.

Lemma raw_names_eq : forall g, raw_names g = flat_map (fun r =>
    if is_trivia_name (pr_name r) then filter (fun x => text_in x (pr_args r)) (used_names (n_expr (pr_node r)))
    else pr_name r :: pr_args r) (g_rules g) ++
  flat_map (fun i => match i with File name g' => name :: raw_names g' | Builtin _ _ => [] end) (g_imports g).
Proof.
  intros [deps rules doc imports]. cbn [raw_names g_rules g_imports]. f_equal.
  induction imports as [|[a p|a g'] l IH]; cbn [flat_map]; [reflexivity|exact IH|]. rewrite IH. reflexivity.
Qed.

Lemma trivia_name_spec : forall r, is_trivia_name (pr_name r) = true <-> is_trivia_rule r.
Proof.
  intro r. unfold is_trivia_name, is_trivia_rule. rewrite orb_true_iff. split; intros [H|H].
  - left. apply text_eqb_eq, H.
  - right. apply text_eqb_eq, H.
  - left. apply text_eqb_eq, H.
  - right. apply text_eqb_eq, H.
Qed.

Lemma bears_raw : forall g x, bears g x -> In x (raw_names g).
Proof.
  intros g x B. induction B as [g r I N|g r x I N J|g alias g' I|g alias g' x I B IH]; rewrite raw_names_eq; apply in_or_app.
  - left. apply in_flat_map. exists r. split; [exact I|]. destruct (is_trivia_name (pr_name r)) eqn:E; [exfalso; apply N, trivia_name_spec, E|]. left. reflexivity.
  - left. apply in_flat_map. exists r. split; [exact I|]. destruct (is_trivia_name (pr_name r)) eqn:E; [exfalso; apply N, trivia_name_spec, E|]. right. exact J.
  - right. apply in_flat_map. exists (File alias g'). split; [exact I|]. left. reflexivity.
  - right. apply in_flat_map. exists (File alias g'). split; [exact I|]. right. exact IH.
Qed.

Lemma fine_bears : forall unicode g x, fine unicode g -> In x (raw_names g) -> ~ In x reserved.
Proof.
  intros unicode g. induction g as [g IH] using gmodule_rect'. intros x F I. rewrite raw_names_eq in I.
  destruct F as [g _ Al _ Ru Pa Tr _ _ Fi]. apply in_app_or in I. destruct I as [I|I]; apply in_flat_map in I.
  - destruct I as (r & J & K). destruct (is_trivia_name (pr_name r)) eqn:E.
    + apply filter_In in K. destruct K as (_ & K). rewrite (Tr r J) in K; [discriminate|]. apply trivia_name_spec, E.
    + destruct K as [<-|K]; [apply Ru, J|]. apply (Pa r x J K).
  - destruct I as ([a p|a g'] & J & K); [destruct K|]. destruct K as [<-|K].
    + exact (Al _ J).
    + eapply IH; [exact J|eapply Fi; exact J|exact K].
Qed.

Lemma fine_raw : forall unicode g, fine unicode g -> existsb (fun x => text_in x not_raw) (raw_names g) = false.
Proof.
  intros unicode g F. destruct (existsb _ _) eqn:E; [|reflexivity]. apply existsb_exists in E. destruct E as (x & I & J).
  exfalso. apply (fine_bears unicode g x F I). apply (reflect_iff _ _ (text_in_spec _ _)) in J.
  unfold reserved, not_raw in *. cbn [map In] in *. tauto.
Qed.
