(** Theorems about the constants and types shared by the emitted items (generator/src/typed/output.rs). *)
From Coq Require Import String List NArith ZArith Arith Bool Lia.
From Verif Require Import Model_Text Model_Message Model_Meta Model_Import Model_Tracker Model_Node Model_Generator Model_Output
  Spec_Rust Proof_Text Proof_Emit Proof_Process Proof_Contents Example_Generator.
Import ListNotations.
Open Scope list_scope.

(** C41: whatever a tracker was asked for, in the emitted items the path given for a string denotes the
    constant with that string, and two paths are equal only if the strings are; equal strings get equal
    paths. [top] are the other items. *)
Theorem C41_strings : forall requests answers t top, serve requests gt_new = (answers, t) -> apart top ->
  (forall s p, In (s, p) answers -> exists m, resolve (top ++ collect_tracker t) [] p = Some (T_item m (R_string s))) /\
  (forall s p s' p', In (s, p) answers -> In (s', p') answers -> (s = s' <-> p = p')) /\
  (forall s, In (Ask_string s) requests -> exists p, In (s, p) answers).
Proof.
  intros requests answers t top H A.
  destruct (serve_spec _ _ _ _ (proj1 good_new) H) as (O & _ & An & _).
  split; [|split].
  - intros s p I. destruct (An s p I) as (w & -> & J). exists [wrapper_mod]. unfold resolve.
    cbn [text_eqb wrapper_mod pest_crate]. change (text_eqb wrapper_mod pest_crate) with false.
    change (text_eqb wrapper_mod (lit "super")) with false. cbn [module_at descend]. cbv iota.
    rewrite (entry_wrapper_mod top t A), (entry_wrapper t w s O J). reflexivity.
  - intros s p s' p' I I'. destruct (An s p I) as (w & -> & J). destruct (An s' p' I') as (w' & -> & J').
    destruct (wrappers_nodup t O) as (D & D'). split.
    + intros ->. f_equal. f_equal. eapply nodup_snd; eassumption.
    + intro E. injection E as ->. eapply nodup_fst; eassumption.
  - clear A An O. revert answers t H. generalize gt_new. induction requests as [|[s|n|n] requests IH]; intros t0 answers t H s' I; cbn [serve] in H.
    + destruct I.
    + destruct (insert_string_wrapper s t0) as (p, t1). destruct (serve requests t1) as (a, t2) eqn:E. injection H as <- <-.
      destruct I as [I|I]; [injection I as ->; exists p; left; reflexivity|].
      destruct (IH _ _ _ E _ I) as (p' & J). exists p'. right. exact J.
    + destruct I as [I|I]; [discriminate|]. eapply IH; eassumption.
    + destruct I as [I|I]; [discriminate|]. eapply IH; eassumption.
Qed.
Print Assumptions C41_strings.
Example C41_ex :
  exists answers t, serve [Ask_string (lit "a"); Use_seq 3; Ask_string (lit "b"); Ask_string (lit "a")] gt_new = (answers, t) /\
    map snd answers = map (fun w => [lit "wrapper"; lit w]) ["W0"; "W1"; "W0"]%string /\ apart [(lit "rules", R_mod [] [])] /\
    resolve ((lit "rules", R_mod [] []) :: collect_tracker t) [] [lit "wrapper"; lit "W1"] = Some (T_item [lit "wrapper"] (R_string (lit "b"))).
Proof.
  eexists. eexists. split; [vm_compute; reflexivity|]. split; [vm_compute; reflexivity|]. split; [|vm_compute; reflexivity].
  intros k I [<-|[]]. cbn [In] in I. decompose [or] I; discriminate || assumption.
Qed.

(** C42: of every arity of sequences used (they are at least 2, see [C42_arities]) the emitted items make
    one type available: one of [::pest3], which has that arity, or one that they define. The same of choices.
    No other arities are emitted. *)
Definition available (items : list (text * ritem)) (name kind : text) (define : nat -> ritem) (n : nat) : Prop :=
  resolve items [] [generics_mod; name ++ decimal n] = Some (T_item [generics_mod] (define n)) \/
  (resolve items [] [generics_mod; name ++ decimal n] = Some (T_library [pest_crate; kind; name ++ decimal n]) /\
   of_arity name (name ++ decimal n) library_arities = Some n).
Theorem C42_available : forall requests answers t top n, serve requests gt_new = (answers, t) -> apart top -> 2 <= n ->
  (In (Use_seq n) requests -> available (top ++ collect_tracker t) (lit "Sequence") (lit "sequence") R_seq n) /\
  (In (Use_choice n) requests -> available (top ++ collect_tracker t) (lit "Choice") (lit "choice") R_choice n).
Proof.
  intros requests answers t top n H A L.
  destruct (serve_spec _ _ _ _ (proj1 good_new) H) as (O & _ & _ & Sq & Ch & _).
  assert (Ar : (16 <? n) = false -> In n library_arities) by (intro Q; apply Nat.ltb_ge in Q; apply in_seq; lia).
  unfold available, resolve. change (text_eqb generics_mod pest_crate) with false. change (text_eqb generics_mod (lit "super")) with false.
  cbn [module_at descend]. cbv iota. rewrite (entry_generics_mod top t A). split; intro I.
  - apply Sq in I. rewrite (entry_sequence t n O I). destruct (16 <? n) eqn:Q; [left; reflexivity|].
    right. split; [reflexivity|]. apply of_arity_self, Ar, eq_refl.
  - apply Ch in I. rewrite (entry_choice t n O I). destruct (16 <? n) eqn:Q; [left; reflexivity|].
    right. split; [reflexivity|]. apply of_arity_self, Ar, eq_refl.
Qed.
Print Assumptions C42_available.
Theorem C42_only : forall requests answers t top n, serve requests gt_new = (answers, t) -> apart top ->
  (resolve (top ++ collect_tracker t) [] [generics_mod; lit "Sequence" ++ decimal n] <> None -> In (Use_seq n) requests) /\
  (resolve (top ++ collect_tracker t) [] [generics_mod; lit "Choice" ++ decimal n] <> None -> In (Use_choice n) requests).
Proof.
  intros requests answers t top n H A.
  destruct (serve_spec _ _ _ _ (proj1 good_new) H) as (O & _ & _ & _ & _ & Sq & Ch).
  unfold resolve. change (text_eqb generics_mod pest_crate) with false. change (text_eqb generics_mod (lit "super")) with false.
  cbn [module_at descend]. cbv iota. rewrite (entry_generics_mod top t A). split; intro N.
  - destruct (entry (lit "Sequence" ++ decimal n) (generics_items t)) as [i|] eqn:E; [|congruence].
    apply entry_in in E. unfold generics_items in E. rewrite !in_app_iff in E. destruct E as [E|[E|E]].
    + apply (in_map fst) in E. exfalso. exact (sequence_not_template n E).
    + apply (in_map fst) in E. rewrite fill_keys in E. apply in_map_iff in E. destruct E as (m & E & I). cbn [fst] in E.
      apply app_inv_head in E. apply decimal_inj in E. subst m. destruct (Sq n I) as [J|[]]. exact J.
    + apply (in_map fst) in E. rewrite fill_keys in E. apply in_map_iff in E. destruct E as (m & E & I). discriminate E.
  - destruct (entry (lit "Choice" ++ decimal n) (generics_items t)) as [i|] eqn:E; [|congruence].
    apply entry_in in E. unfold generics_items in E. rewrite !in_app_iff in E. destruct E as [E|[E|E]].
    + apply (in_map fst) in E. exfalso. exact (choice_not_template n E).
    + apply (in_map fst) in E. rewrite fill_keys in E. apply in_map_iff in E. destruct E as (m & E & I). discriminate E.
    + apply (in_map fst) in E. rewrite fill_keys in E. apply in_map_iff in E. destruct E as (m & E & I). cbn [fst] in E.
      apply app_inv_head in E. apply decimal_inj in E. subst m. destruct (Ch n I) as [J|[]]. exact J.
Qed.
Print Assumptions C42_only.
(** The expressions of a grammar ask only for arities from 2. *)
Theorem C42_arities : forall config fuel names g o t n,
  generate_output config fuel names g = Ret (o, t) -> In n (gt_seqs t) \/ In n (gt_choices t) -> 2 <= n.
Proof.
  intros config fuel names g o t n H I. unfold generate_output in H. destruct (existsb _ (raw_names g)); [discriminate H|].
  destruct (process_rules _ _ _ _ _ _ _) as [((o1, c), t1)| |] eqn:E; try discriminate. injection H as <- <-.
  destruct (process_rules_contents _ _ _ _ _ _ _ _ _ _ E) as (G & _). apply (G good_new), I.
Qed.
Print Assumptions C42_arities.
Example C42_ex :
  let requests := [Use_seq 3; Use_choice 20; Use_seq 17; Use_seq 3] in
  let t := snd (serve requests gt_new) in
  serve requests gt_new = ([], t) /\ apart [] /\
  resolve (collect_tracker t) [] [generics_mod; lit "Sequence3"] = Some (T_library (map lit ["::pest3"; "sequence"; "Sequence3"]%string)) /\
  resolve (collect_tracker t) [] [generics_mod; lit "Sequence17"] = Some (T_item [generics_mod] (R_seq 17)) /\
  resolve (collect_tracker t) [] [generics_mod; lit "Choice20"] = Some (T_item [generics_mod] (R_choice 20)) /\
  resolve (collect_tracker t) [] [generics_mod; lit "Choice3"] = None /\
  exists o t, generate_output box_needed 9 sample_unicode sample_main = Ret (o, t) /\ In 3 (gt_seqs t) /\ In 2 (gt_choices t).
Proof.
  cbv zeta. split; [reflexivity|]. split; [intros k _ []|]. do 4 (split; [vm_compute; reflexivity|]).
  eexists. eexists. split; [vm_compute; reflexivity|]. split; vm_compute; auto 9.
Qed.
