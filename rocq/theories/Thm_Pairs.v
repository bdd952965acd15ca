(** Theorems about the parse tree and its pairs: C25-C28, C54, C57, C58. *)
From Coq Require Import String List NArith ZArith Arith Bool Lia.
From Verif Require Import Model_Text Model_Position Model_Span Model_Stack Model_Tracker Model_Node Model_Pairs
  Spec_Text Spec_Peg Spec_Run Spec_Tracker Spec_Yield Spec_Pairs Proof_Run Proof_Yield Proof_Pairs Proof_Entry Proof_Report
  Example_Grammar.
Import ListNotations.
Open Scope list_scope.

(** C25: the node of a rule carries the span from where it was tried to where parsing continues. *)
Theorem C25_rule_span : forall addr s env property r args p K o, boundary s p -> valid_stack K ->
  (yields addr s env property (Rule r args) p K o <->
   (exists p' v K', yields addr s env property (rd_body (env r) args) p K (Some (p', v, K')) /\
      o = Some (p', VRule r v (mkSpan addr s p p'), K')) \/
   (yields addr s env property (rd_body (env r) args) p K None /\ o = None)).
Proof. exact rule_yield. Qed.
Print Assumptions C25_rule_span.
Example C25_rule_span_ex : boundary (lit "=ab") 1 /\ valid_stack [] /\
  visible (try_parse 0 (lit "=ab") sample no_property 20 n_word 1 at_new)
  = Ret (Some (3, VRule r_word (VPush (VRep [VChar 97%N; VChar 98%N])) (mkSpan 0 (lit "=ab") 1 3),
               [mkSpan 0 (lit "=ab") 1 3])).
Proof. split; [exists (lit "="), (lit "ab"); auto|]. split; [exists []; constructor|reflexivity]. Qed.

(** Every rule node reached without entering a predicate lies within the consumed text and denotes a
    text of the input. *)
Theorem C25_nodes_inside : forall addr s env property k n p K sv t p' v st',
  boundary s p -> valid_stack K ->
  try_parse addr s env property k n p (mkState (mkStack K sv) t) = Ret (Some (p', v), st') ->
  nested p p' (pairs env true v) /\
  Forall (fun rs => sp_input (snd rs) = s /\ sp_addr (snd rs) = addr /\ p <= sp_start (snd rs) /\
            sp_start (snd rs) <= sp_end (snd rs) /\ sp_end (snd rs) <= p' /\ exists m, span_text (snd rs) m)
         (rule_nodes v).
Proof. exact parse_placed. Qed.
Print Assumptions C25_nodes_inside.
Example C25_nodes_inside_ex :
  let s := lit "ab cd" in
  exists v st', try_parse 0 s sample no_property 20 (Rule r_list []) 0 at_new = Ret (Some (5, v), st') /\
    rule_nodes v = [(r_list, mkSpan 0 s 0 5); (r_word, mkSpan 0 s 0 2); (r_word, mkSpan 0 s 3 5)].
Proof. do 2 eexists. split; vm_compute; reflexivity. Qed.

(** What a leaf stores is the text it consumed. *)
Theorem C25_leaf_text : forall addr s env property k n pre post K sv t p' v st',
  s = pre ++ post -> valid_stack K -> leaf n ->
  try_parse addr s env property k n (blen pre) (mkState (mkStack K sv) t) = Ret (Some (p', v), st') ->
  exists m post', post = m ++ post' /\ p' = blen (pre ++ m) /\ stores v m.
Proof. exact leaf_text. Qed.
Print Assumptions C25_leaf_text.
Example C25_leaf_text_ex : leaf (Insens (lit "AB")) /\
  visible (try_parse 0 (lit "xaBc") sample no_property 1 (Insens (lit "AB")) 1 at_new)
  = Ret (Some (3, VInsens (lit "aB"), [])).
Proof. split; [exact I|reflexivity]. Qed.

(** The node kept by a positive predicate reaches beyond the span of the enclosing rule. *)
Theorem C25_predicate_nodes_refuted : exists s env n r w sp r' c' sp',
  text_try_parse_partial 0 s env no_property 20 n = Ret (inl (0, VRule r (VPositive w) sp)) /\
  w = VRule r' c' sp' /\ sp_end sp < sp_end sp'.
Proof.
  exists (lit "a"), (fun r => mkRule false (fun _ => if N.eqb r 1 then Positive (Rule 2%N []) else Str (lit "a"))), (Rule 1%N []).
  do 6 eexists. split; [vm_compute; reflexivity|]. split; [reflexivity|]. vm_compute. lia.
Qed.
Print Assumptions C25_predicate_nodes_refuted.

(** C26: pair trees are well nested and ordered. *)
Theorem C26_nested : forall addr s env property k r args p K sv t p' c sp st',
  boundary s p -> valid_stack K -> rd_silent (env r) = false ->
  try_parse addr s env property k (Rule r args) p (mkState (mkStack K sv) t)
    = Ret (Some (p', VRule r c sp), st') ->
  nested p p' [as_pair_tree env r c sp].
Proof. exact tree_nested. Qed.
Print Assumptions C26_nested.
Example C26_nested_ex :
  let s := lit "ab cd" in
  exists c sp st', rd_silent (sample r_list) = false /\
    try_parse 0 s sample no_property 20 (Rule r_list []) 0 at_new = Ret (Some (5, VRule r_list c sp), st') /\
    as_pair_tree sample r_list c sp
    = mkPair r_list 0 5 [mkPair r_word 0 2 []; mkPair r_word 3 5 []].
Proof. do 3 eexists. split; [reflexivity|]. split; vm_compute; reflexivity. Qed.

(** C27: the pairs of a value are the trees of its outer rule nodes; of silent ones there are none. *)
Theorem C27_pairs : forall env v,
  exists ws, outer v ws /\ trees env ws (for_self_or_for_each_child_pair env v).
Proof. exact pairs_visit. Qed.
Print Assumptions C27_pairs.
Example C27_pairs_ex :
  let sp := mkSpan 0 (lit "ab") 0 2 in
  for_self_or_for_each_child_pair sample
    (VSeq [VRule r_word VUnit sp; VPositive (VRule r_word VUnit sp); VRule r_blank (VRule r_word VUnit sp) sp;
           VOpt (Some (VRule r_list (VPush (VRule r_word VUnit sp)) sp))])
  = [mkPair r_word 0 2 []; mkPair r_list 0 2 [mkPair r_word 0 2 []]].
Proof. reflexivity. Qed.

Theorem C27_children : forall env r c sp, rd_silent (env r) = false ->
  exists ws, outer c ws /\ trees env ws (for_each_child_pair env (VRule r c sp)).
Proof. exact children_visit. Qed.
Print Assumptions C27_children.
Example C27_children_ex :
  rd_silent (sample r_list) = false /\
  for_each_child_pair sample (VRule r_list (VRep [VRule r_word VUnit (mkSpan 0 (lit "ab") 0 2)]) (mkSpan 0 (lit "ab") 0 2))
  = [mkPair r_word 0 2 []].
Proof. split; reflexivity. Qed.

Theorem C27_tree : forall env r c sp, rd_silent (env r) = false ->
  tree env (VRule r c sp) (as_pair_tree env r c sp).
Proof. exact as_pair_tree_spec. Qed.
Print Assumptions C27_tree.
Example C27_tree_ex :
  rd_silent (sample r_word) = false /\
  as_pair_tree sample r_word (VPush VUnit) (mkSpan 0 (lit "ab") 1 2) = mkPair r_word 1 2 [].
Proof. split; reflexivity. Qed.

(** The specification leaves no choice. *)
Theorem C27_unique : forall env v,
  (forall ws ws', outer v ws -> outer v ws' -> ws = ws') /\
  (forall t t', tree env v t -> tree env v t' -> t = t') /\
  (forall ws ts ts', trees env ws ts -> trees env ws ts' -> ts = ts').
Proof. exact pairs_unique. Qed.
Print Assumptions C27_unique.
Example C27_unique_ex :
  outer (VPush (VRule r_word VUnit (mkSpan 0 [] 0 0))) [VRule r_word VUnit (mkSpan 0 [] 0 0)] /\
  tree sample (VRule r_word VUnit (mkSpan 0 [] 0 0)) (mkPair r_word 0 0 []).
Proof.
  split; [apply O_push, O_rule|]. apply (T_rule sample r_word VUnit (mkSpan 0 [] 0 0) []); [reflexivity|apply O_leaf; exact I|constructor].
Qed.

(** A silent rule yields no pairs at all, not even those of the rules inside it. *)
Theorem C27_silent_nothing : forall env r c sp, rd_silent (env r) = true ->
  for_self_or_for_each_child_pair env (VRule r c sp) = [] /\ for_each_child_pair env (VRule r c sp) = [].
Proof. exact silent_no_pairs. Qed.
Print Assumptions C27_silent_nothing.
Example C27_silent_nothing_ex : rd_silent (sample r_blank) = true.
Proof. reflexivity. Qed.

(** C28: collecting and visiting child pairs. *)
Theorem C28_vec_children : forall env v, (forall c, v <> VPush c) ->
  vec_children_pairs env v = for_each_child_pair env v.
Proof. exact vec_children_no_push. Qed.
Print Assumptions C28_vec_children.
Example C28_vec_children_ex :
  (forall c, VSeq [VPush VUnit] <> VPush c) /\
  vec_children_pairs sample (VRule r_list (VPush (VRule r_word VUnit (mkSpan 0 [] 0 0))) (mkSpan 0 [] 0 0))
  = [mkPair r_word 0 0 []].
Proof. split; [discriminate|reflexivity]. Qed.

(** For a pushed content [w] (pushed any number of times) the vector has the child pairs of [w],
    whereas visiting gives the pairs of [w] itself. *)
Theorem C28_pushed : forall env v w, pushed v w -> (forall c, w <> VPush c) ->
  vec_children_pairs env v = for_each_child_pair env w /\
  (v <> w -> for_each_child_pair env v = for_self_or_for_each_child_pair env w).
Proof. exact vec_children_pushed. Qed.
Print Assumptions C28_pushed.
Example C28_pushed_ex : pushed (VPush (VPush (VChar 97%N))) (VChar 97%N) /\ (forall c, VChar 97%N <> VPush c).
Proof. split; [repeat constructor|discriminate]. Qed.

Theorem C28_agree_refuted : exists env v, vec_children_pairs env v <> for_each_child_pair env v.
Proof. exists sample, (VPush (VRule r_word VUnit (mkSpan 0 [] 0 0))). discriminate. Qed.
Print Assumptions C28_agree_refuted.

(** C54: conversion of rules. *)
Theorem C54_shape : forall (R S : Type) (f : R -> S) (p : pair R) q,
  same_shape f p q <-> q = convert f p.
Proof. exact convert_iff. Qed.
Print Assumptions C54_shape.
Example C54_shape_ex :
  convert (fun r => N.eqb r 1) (mkPair 1%N 0 5 [mkPair 2%N 0 2 []; mkPair 1%N 3 5 []])
  = mkPair true 0 5 [mkPair false 0 2 []; mkPair true 3 5 []].
Proof. reflexivity. Qed.

Theorem C54_identity : forall (R : Type) (p : pair R), convert (fun r => r) p = p.
Proof. exact convert_id. Qed.
Print Assumptions C54_identity.
Theorem C54_compose : forall (R S T : Type) (f : R -> S) (g : S -> T) p,
  convert g (convert f p) = convert (fun r => g (f r)) p.
Proof. exact convert_compose. Qed.
Print Assumptions C54_compose.
Example C54_compose_ex :
  convert negb (convert (fun r => N.eqb r 1) (mkPair 1%N 0 5 [mkPair 2%N 0 2 []]))
  = mkPair false 0 5 [mkPair true 0 2 []].
Proof. reflexivity. Qed.

Theorem C54_display : forall (R : Type) (debug : R -> text) number (p : pair R),
  displayed debug number p (display_pair debug number p).
Proof. exact display_spec. Qed.
Print Assumptions C54_display.
Example C54_display_ex :
  display_pair (fun r : bool => if r then lit "A" else lit "B") (fun n => lit (if n =? 0 then "0" else "5"))
    (mkPair true 0 5 [mkPair false 0 0 []; mkPair true 5 5 []])
  = lit "A(0, 5, [B(0, 0, []), A(5, 5, [])])".
Proof. reflexivity. Qed.

(** C57: the offsets in pairs are documented as code points (core/src/token/mod.rs L12-15); they are
    byte offsets. *)
Theorem C57_code_points_refuted : exists s n r c sp,
  (exists p, text_try_parse_partial 0 s sample no_property 20 n = Ret (inl (p, VSeq [VChar 233%N; VRule r c sp]))) /\
  rd_silent (sample r) = false /\
  (exists a b, s = a ++ b /\ blen a = sp_start sp /\
     forall p, as_pair_tree sample r c sp = p ->
     match p with mkPair _ start _ _ => start <> length a end).
Proof.
  exists (233%N :: lit "ab"), (Seq [(Any, Empty); (n_word, Empty)]). do 3 eexists.
  split; [eexists; vm_compute; reflexivity|]. split; [reflexivity|].
  exists [233%N], (lit "ab"). split; [reflexivity|]. split; [reflexivity|].
  intros p <-. vm_compute. discriminate.
Qed.
Print Assumptions C57_code_points_refuted.

(** C57: the offsets of a pair are the byte offsets of the span of its node. *)
Theorem C57_byte_offsets : forall env addr a m r rl c,
  let sp := mkSpan addr (a ++ m ++ r) (blen a) (blen (a ++ m)) in
  exists l, as_pair_tree env rl c sp = mkPair rl (blen a) (blen (a ++ m)) l.
Proof. intros. eexists. reflexivity. Qed.
Print Assumptions C57_byte_offsets.

(** Byte offsets are code point offsets exactly after ASCII text. *)
Theorem C57_ascii_offsets : forall pre, blen pre = length pre <-> Forall (fun c => (c < 128)%N) pre.
Proof. exact ascii_blen_iff. Qed.
Print Assumptions C57_ascii_offsets.
Example C57_ascii_offsets_ex : Forall (fun c => (c < 128)%N) (lit "ab").
Proof. repeat apply Forall_cons; try reflexivity; constructor. Qed.

(** C58: the getters of a choice: exactly the getter of the matched variant returns the content. *)
Theorem C58_choice_getters : forall addr s env property k ts p st p' v st',
  try_parse addr s env property k (Choice ts) p st = Ret (Some (p', v), st') ->
  exists i c, i < length ts /\ choice_getter i v = Some c /\ forall j, j <> i -> choice_getter j v = None.
Proof. exact choice_getters. Qed.
Print Assumptions C58_choice_getters.
Example C58_choice_getters_ex :
  try_parse 0 (lit "ab") sample no_property 9 (Choice [Str (lit "b"); Any]) 0 at_new
  = Ret (Some (1, VChoice 1 (VChar 97%N)), at_new).
Proof. reflexivity. Qed.
