(** Renaming what a grammar file names keeps the trees and the attempts, up to the names. *)
From Coq Require Import String List NArith ZArith Arith Bool Lia.
From Verif Require Import Model_Text Model_Message Model_Meta Model_Import Model_Tracker Model_Node Model_Pairs Proof_Grammar_Tree Proof_Grammar_Tree_Inline Proof_Grammar_Tree_Det Proof_Det Proof_Laws Proof_Laws_Tree Proof_Local_Tree Proof_Renaming
  Spec_Text Spec_Peg Spec_Run Spec_Grammar_Peg Spec_Occur Spec_Generator Spec_Inline Spec_Grammar_Tree Spec_Grammar_Trace Spec_Local Spec_Renaming.
Import ListNotations.
Open Scope list_scope.

Section Renamed.
Variable unicode : list text.
Variable property : N -> char -> bool.
Variables f h : text -> text.
Hypothesis Ren : renaming f h.
Variable g : gmodule.
Notation g' := (re_module f g).
Notation where_ := (where_ f g).
Notation re_env := (re_env f g).
Notation G := (gpeg unicode property).
Notation GR := (gpeg_round unicode property).
Notation T := (gtree unicode property (open_own g)).
Notation TI := (gtree_items unicode property (open_own g)).
Notation TRs := (gtree_rounds unicode property (open_own g)).
Notation TR := (gtree_round unicode property (open_own g)).
Notation T' := (gtree unicode property (open_own g')).
Notation TI' := (gtree_items unicode property (open_own g')).
Notation TRs' := (gtree_rounds unicode property (open_own g')).
Notation TR' := (gtree_round unicode property (open_own g')).
Notation A := (gtry unicode property (open_own g)).
Notation AI := (gtry_items unicode property (open_own g)).
Notation ARs := (gtry_rounds unicode property (open_own g)).
Notation AR := (gtry_round unicode property (open_own g)).
Notation A' := (gtry unicode property (open_own g')).
Notation AI' := (gtry_items unicode property (open_own g')).
Notation ARs' := (gtry_rounds unicode property (open_own g')).
Notation AR' := (gtry_round unicode property (open_own g')).
Notation renamed := (renamed_label f g).

Lemma weight_renamed : weight g' = weight g.
Proof. destruct g as [d r c imports]. cbn [re_module g_imports weight]. f_equal. induction imports as [|[a p|a m] l IH]; [reflexivity|exact IH|]. cbn [map re_import]. f_equal. exact IH. Qed.
Lemma low_other : forall m, weight m < weight g -> m <> g /\ m <> g'.
Proof. intros m L. split; intros ->; [lia|rewrite weight_renamed in L; lia]. Qed.
Lemma rule_re : forall p m m' path q r, where_ p m m' -> names unicode m path (E_rule q r) ->
  exists p2 q', names unicode m' (re_path p path) (E_rule q' (re_rule p2 r)) /\ where_ p2 q q' /\ renamed (q, r) (q', re_rule p2 r) /\ (open_own g q r <-> open_own g' q' (re_rule p2 r)).
Proof.
  intros p m m' path q r W N. destruct (names_re unicode f h Ren g _ _ _ _ _ W N) as ([b|q' r'] & N' & S); [destruct S|]. destruct S as (p2 & W2 & I & ->). exists p2, q'. split; [exact N'|]. split; [exact W2|].
  destruct W2 as [|m0 L].
  - split; [left; cbn; auto|]. unfold open_own, macro. cbn [re_rule pr_silent pr_args]. split; intros (_ & _ & S & Q); (split; [reflexivity|]).
    + split; [apply (in_map (re_rule f)), I|]. split; [exact S|]. destruct (pr_args r); [destruct (Q eq_refl)|discriminate].
    + split; [exact I|]. split; [exact S|]. intro E. rewrite E in Q. exact (Q eq_refl).
  - destruct (low_other _ L) as (X & Y). rewrite rule_kept. split; [right; auto|]. unfold open_own. tauto.
Qed.
Lemma lG : forall m rho e pre post K r, G m rho e pre post K r -> forall p m' rho', where_ p m m' -> re_env p rho rho' -> G m' rho' (re_expr p e) pre post K r.
Proof. exact (proj1 (renamed_meaning unicode property f h Ren g)). Qed.
Lemma lGR : forall m rho e t i pre post K r, GR m rho e t i pre post K r -> forall p m' rho', where_ p m m' -> re_env p rho rho' -> GR m' rho' (re_expr p e) t i pre post K r.
Proof. exact (proj2 (proj2 (proj2 (renamed_meaning unicode property f h Ren g)))). Qed.
Lemma text_re : forall p e, ((exists s, e = PStr s) \/ (exists s, e = PInsens s) \/ (exists a b, e = PRange a b)) ->
  ((exists s, re_expr p e = PStr s) \/ (exists s, re_expr p e = PInsens s) \/ (exists a b, re_expr p e = PRange a b)).
Proof. intros p e [(s & ->)|[(s & ->)|(a & b & ->)]]; cbn; eauto 6. Qed.
Lemma predicate_re : forall p e, ((exists n, e = PPosPred n) \/ (exists n, e = PNegPred n)) -> ((exists n, re_expr p e = PPosPred n) \/ (exists n, re_expr p e = PNegPred n)).
Proof. intros p e [(n & ->)|(n & ->)]; cbn; eauto. Qed.
Lemma no_slice : forall p args, (forall range, args <> Some (PSlice range)) -> forall range, option_map (re_args p) args <> Some (PSlice range).
Proof. intros p [[l|r]|] H range E; try discriminate E. exact (H _ eq_refl). Qed.
Lemma rule_node : forall p r, n_expr (pr_node (re_rule p r)) = re_expr p (n_expr (pr_node r)).
Proof. intros p r. apply node_expr. Qed.
Lemma call_length : forall p p2 (l : list parse_node) r, length l = length (pr_args r) -> length (map (re_node p) l) = length (pr_args (re_rule p2 r)).
Proof. intros p p2 l r E. cbn [re_rule pr_args]. rewrite !map_length. exact E. Qed.
Definition none_re := env_none f h Ren g.
Definition built_re := names_built unicode f h Ren g.
Definition call_env := env_call f g.

Notation M := (matched_all renamed).
Theorem renamed_trees :
  (forall m rho e pre post K a b c ps, T m rho e pre post K a b c ps ->
     forall p m' rho', where_ p m m' -> re_env p rho rho' -> exists qs, T' m' rho' (re_expr p e) pre post K a b c qs /\ M ps qs) /\
  (forall m rho l pre post K a b c ps, TI m rho l pre post K a b c ps ->
     forall p m' rho', where_ p m m' -> re_env p rho rho' -> exists qs, TI' m' rho' (map (re_item p) l) pre post K a b c qs /\ M ps qs) /\
  (forall m rho e t min max i pre post K a b c ps, TRs m rho e t min max i pre post K a b c ps ->
     forall p m' rho', where_ p m m' -> re_env p rho rho' -> exists qs, TRs' m' rho' (re_expr p e) t min max i pre post K a b c qs /\ M ps qs) /\
  (forall m rho e t i pre post K a b c ps, TR m rho e t i pre post K a b c ps ->
     forall p m' rho', where_ p m m' -> re_env p rho rho' -> exists qs, TR' m' rho' (re_expr p e) t i pre post K a b c qs /\ M ps qs).
Proof.
  apply (gtree_mutind unicode property (open_own g)
    (fun m rho e pre post K a b c ps _ => forall p m' rho', where_ p m m' -> re_env p rho rho' -> exists qs, T' m' rho' (re_expr p e) pre post K a b c qs /\ M ps qs)
    (fun m rho l pre post K a b c ps _ => forall p m' rho', where_ p m m' -> re_env p rho rho' -> exists qs, TI' m' rho' (map (re_item p) l) pre post K a b c qs /\ M ps qs)
    (fun m rho e t min max i pre post K a b c ps _ => forall p m' rho', where_ p m m' -> re_env p rho rho' -> exists qs, TRs' m' rho' (re_expr p e) t min max i pre post K a b c qs /\ M ps qs)
    (fun m rho e t i pre post K a b c ps _ => forall p m' rho', where_ p m m' -> re_env p rho rho' -> exists qs, TR' m' rho' (re_expr p e) t i pre post K a b c qs /\ M ps qs)).
  - (* text *) intros g0 rho e pre post K a b c Q H p m' rho' W E. exists []. split; [apply GT_text; [apply text_re, Q|eapply lG; eassumption]|constructor].
  - (* built-in *) intros g0 rho path args q pre post K a b c Np N Nq H p m' rho' W E. exists []. split; [|constructor].
    eapply GT_builtin; [eapply none_re; eassumption|eapply built_re; eassumption|exact Nq|exact (lG _ _ _ _ _ _ _ H _ _ _ W E)].
  - (* predicate *) intros g0 rho e pre post K a b c Q H p m' rho' W E. exists []. split; [apply GT_predicate; [apply predicate_re, Q|eapply lG; eassumption]|constructor].
  - (* parameter *) intros g0 rho x args g1 rho1 e pre post K a b c ps As _ IH p m' rho' W E. destruct (env_assoc f h Ren g _ _ _ _ _ W E _ _ As) as (c' & As' & Lc). inversion Lc; subst.
    destruct (IH _ _ _ ltac:(eassumption) ltac:(eassumption)) as (qs & X & Y). exists qs. split; [eapply GT_param; eassumption|exact Y].
  - (* rule *) intros g0 rho path args l g1 r pre post K a b c ps Np N Ca L S _ IH p m' rho' W E. destruct (rule_re _ _ _ _ _ _ W N) as (p2 & q & N' & W2 & Ke & _).
    destruct (IH _ _ _ W2 (call_env p p2 _ _ _ _ (pr_args r) l W E)) as (qs & X & Y). rewrite <- rule_node in X.
    eexists. split; [eapply GT_rule; [eapply none_re; eassumption|exact N'|apply call_re, Ca|apply call_length, L|exact S|exact X]|]. constructor; [constructor; [exact Ke|exact Y]|constructor].
  - (* silent *) intros g0 rho path args l g1 r pre post K a b c Np N Ca L S No H p m' rho' W E. destruct (rule_re _ _ _ _ _ _ W N) as (p2 & q & N' & W2 & _ & Op).
    exists []. split; [|constructor]. eapply GT_silent; [eapply none_re; eassumption|exact N'|apply call_re, Ca|apply call_length, L|exact S|tauto|].
    rewrite rule_node. exact (lG _ _ _ _ _ _ _ H _ _ _ W2 (call_env p p2 _ _ _ _ (pr_args r) l W E)).
  - (* open *) intros g0 rho path args l g1 r pre post K a b c ps Np N Ca L S Op _ IH p m' rho' W E. destruct (rule_re _ _ _ _ _ _ W N) as (p2 & q & N' & W2 & _ & Oq).
    destruct (IH _ _ _ W2 (call_env p p2 _ _ _ _ (pr_args r) l W E)) as (qs & X & Y). rewrite <- rule_node in X.
    exists qs. split; [|exact Y]. eapply GT_open; [eapply none_re; eassumption|exact N'|apply call_re, Ca|apply call_length, L|exact S|tauto|exact X].
  - (* push *) intros g0 rho path n pre post K x post' K' ps Np N _ IH p m' rho' W E. destruct (IH _ _ _ W E) as (qs & X & Y). rewrite <- node_expr in X. exists qs. split; [|exact Y].
    cbn [re_expr option_map re_args map]. eapply GT_push; [eapply none_re; eassumption|eapply built_re; eassumption|exact X].
  - (* sequence *) intros g0 rho l r t pre post K a b c ps _ IH p m' rho' W E. destruct (IH _ _ _ W E) as (qs & X & Y). cbn [map re_item] in X. rewrite <- !node_expr in X. exists qs. split; [apply GT_seq, X|exact Y].
  - intros g0 rho l r pre post K a b c ps _ IH p m' rho' W E. destruct (IH _ _ _ W E) as (qs & X & Y). rewrite <- node_expr in X. exists qs. split; [apply GT_left, X|exact Y].
  - intros g0 rho l r pre post K a b c ps H _ IH p m' rho' W E. destruct (IH _ _ _ W E) as (qs & X & Y). rewrite <- node_expr in X. exists qs.
    split; [apply GT_right; [rewrite node_expr; eapply lG; eassumption|exact X]|exact Y].
  - intros g0 rho n pre post K a b c ps _ IH p m' rho' W E. destruct (IH _ _ _ W E) as (qs & X & Y). rewrite <- node_expr in X. exists qs. split; [apply GT_some, X|exact Y].
  - intros g0 rho n pre post K H p m' rho' W E. exists []. split; [|constructor]. apply GT_none. rewrite node_expr. eapply lG; eassumption.
  - (* repetition *) intros g0 rho e n min max t pre post K a b c ps Rp Rt _ IH p m' rho' W E. destruct (IH _ _ _ W E) as (qs & X & Y). exists qs. split; [|exact Y].
    apply (repetition_re p) in Rp. apply (round_trivia_re p) in Rt. rewrite <- node_expr in X, Rt. eapply GT_repeat; eassumption.
  - intros g0 rho n t pre post K a b c ps _ IH p m' rho' W E. destruct (IH _ _ _ W E) as (qs & X & Y). rewrite <- node_expr in X. exists qs. split; [apply GT_separated, X|exact Y].
  - intros g0 rho pre post K p m' rho' _ _. exists []. split; constructor.
  - intros g0 rho e l pre post K p1 q1 K1 ps a b c qs _ IH _ IH' p m' rho' W E. destruct (IH _ _ _ W E) as (ps' & X & Y). destruct (IH' _ _ _ W E) as (qs' & X' & Y').
    exists (ps' ++ qs'). split; [eapply GTI_expr; eassumption|apply matched_app; assumption].
  - intros g0 rho l pre post K a b c qs _ IH p m' rho' W E. destruct (IH _ _ _ W E) as (qs' & X & Y). exists qs'. split; [apply GTI_none, X|exact Y].
  - intros g0 rho t name r l pre post K p1 q1 K1 a b c qs Tn L H _ IH p m' rho' W E. destruct (IH _ _ _ W E) as (qs' & X & Y).
    destruct (trivia_re f h Ren g _ _ _ _ _ _ W Tn L) as (r2 & L' & En). exists qs'. split; [|exact Y]. eapply GTI_trivia; [exact Tn|exact L'|rewrite En; eapply lG; [exact H|exact W|constructor]|exact X].
  - intros g0 rho e t min max i pre post K Le0 p m' rho' _ _. exists []. split; [apply GTR_max, Le0|constructor].
  - intros g0 rho e t min max i pre post K p1 q1 K1 ps a b c qs Lt _ IH _ IH' p m' rho' W E. destruct (IH _ _ _ W E) as (ps' & X & Y). destruct (IH' _ _ _ W E) as (qs' & X' & Y').
    exists (ps' ++ qs'). split; [eapply GTR_round; eassumption|apply matched_app; assumption].
  - intros g0 rho e t min max i pre post K Lt Lm0 H p m' rho' W E. exists []. split; [|constructor]. apply GTR_stop; [exact Lt|exact Lm0|eapply lGR; eassumption].
  - intros g0 rho e t pre post K a b c ps _ IH p m' rho' W E. destruct (IH _ _ _ W E) as (qs & X & Y). exists qs. split; [apply GTR_first, X|exact Y].
  - intros g0 rho e t i pre post K a b c ps Lt _ IH p m' rho' W E. destruct (IH _ _ _ W E) as (qs & X & Y). exists qs. split; [apply GTR_later; assumption|exact Y].
Qed.

Notation Ev := (Forall2 (event_alike renamed)).
Notation Fr := (Forall2 (frame_alike renamed)).
Lemma renamed_tried : forall tr tr', Ev tr tr' -> tried_grammar_rule tr' = tried_grammar_rule tr.
Proof. intros tr tr' H. induction H as [|x y l l' H _ IH]; [reflexivity|]. unfold tried_grammar_rule in *. cbn [existsb]. rewrite IH. destruct H; reflexivity. Qed.

Theorem renamed_tries :
  (forall chain pol m rho e pre post K r tr, A chain pol m rho e pre post K r tr ->
     forall chain' p m' rho', Fr chain chain' -> where_ p m m' -> re_env p rho rho' -> exists tr', A' chain' pol m' rho' (re_expr p e) pre post K r tr' /\ Ev tr tr') /\
  (forall chain pol m rho l pre post K r tr, AI chain pol m rho l pre post K r tr ->
     forall chain' p m' rho', Fr chain chain' -> where_ p m m' -> re_env p rho rho' -> exists tr', AI' chain' pol m' rho' (map (re_item p) l) pre post K r tr' /\ Ev tr tr') /\
  (forall chain pol m rho e t min max i pre post K r tr, ARs chain pol m rho e t min max i pre post K r tr ->
     forall chain' p m' rho', Fr chain chain' -> where_ p m m' -> re_env p rho rho' -> exists tr', ARs' chain' pol m' rho' (re_expr p e) t min max i pre post K r tr' /\ Ev tr tr') /\
  (forall chain pol m rho e t i pre post K r tr, AR chain pol m rho e t i pre post K r tr ->
     forall chain' p m' rho', Fr chain chain' -> where_ p m m' -> re_env p rho rho' -> exists tr', AR' chain' pol m' rho' (re_expr p e) t i pre post K r tr' /\ Ev tr tr').
Proof.
  apply (gtry_mutind unicode property (open_own g)
    (fun chain pol m rho e pre post K r tr _ => forall chain' p m' rho', Fr chain chain' -> where_ p m m' -> re_env p rho rho' -> exists tr', A' chain' pol m' rho' (re_expr p e) pre post K r tr' /\ Ev tr tr')
    (fun chain pol m rho l pre post K r tr _ => forall chain' p m' rho', Fr chain chain' -> where_ p m m' -> re_env p rho rho' -> exists tr', AI' chain' pol m' rho' (map (re_item p) l) pre post K r tr' /\ Ev tr tr')
    (fun chain pol m rho e t min max i pre post K r tr _ => forall chain' p m' rho', Fr chain chain' -> where_ p m m' -> re_env p rho rho' -> exists tr', ARs' chain' pol m' rho' (re_expr p e) t min max i pre post K r tr' /\ Ev tr tr')
    (fun chain pol m rho e t i pre post K r tr _ => forall chain' p m' rho', Fr chain chain' -> where_ p m m' -> re_env p rho rho' -> exists tr', AR' chain' pol m' rho' (re_expr p e) t i pre post K r tr' /\ Ev tr tr')).
  - (* text *) intros chain pol m rho e pre post K r Q H chain' p m' rho' Fc W E. exists []. split; [apply GA_text; [apply text_re, Q|eapply lG; eassumption]|constructor].
  - (* built-in *) intros chain pol m rho path args q pre post K r Np N Nq Ns Nt H chain' p m' rho' Fc W E. exists []. split; [|constructor].
    eapply GA_builtin; [eapply none_re; eassumption|eapply built_re; eassumption|exact Nq|apply no_slice, Ns|exact Nt|exact (lG _ _ _ _ _ _ _ H _ _ _ W E)].
  - intros chain pol m rho path args q pre post r Np N Ns Tt H chain' p m' rho' Fc W E. eexists. split; [|repeat constructor; exact Fc].
    eapply GA_empty; [eapply none_re; eassumption|eapply built_re; eassumption|apply no_slice, Ns|exact Tt|exact (lG _ _ _ _ _ _ _ H _ _ _ W E)].
  - intros chain pol m rho path range q pre post K r Np N B H chain' p m' rho' Fc W E. exists []. split; [|constructor].
    eapply GA_slice; [eapply none_re; eassumption|eapply built_re; eassumption|exact B|exact (lG _ _ _ _ _ _ _ H _ _ _ W E)].
  - intros chain pol m rho path range q pre post K r Np N B H chain' p m' rho' Fc W E. eexists. split; [|repeat constructor; exact Fc].
    eapply GA_bounds; [eapply none_re; eassumption|eapply built_re; eassumption|exact B|exact (lG _ _ _ _ _ _ _ H _ _ _ W E)].
  - (* parameter *) intros chain pol m rho x args g1 rho1 e pre post K r tr As _ IH chain' p m' rho' Fc W E. destruct (env_assoc f h Ren g _ _ _ _ _ W E _ _ As) as (c' & As' & Lc). inversion Lc; subst.
    destruct (IH _ _ _ _ Fc ltac:(eassumption) ltac:(eassumption)) as (tr' & X & Y). exists tr'. split; [eapply GA_param; eassumption|exact Y].
  - (* rule *) intros chain pol m rho path args l g1 q pre post K r tr Np N Ca L No _ IH chain' p m' rho' Fc W E. destruct (rule_re _ _ _ _ _ _ W N) as (p2 & q' & N' & W2 & Ke & Op).
    destruct (IH (((q', re_rule p2 q), blen pre) :: chain') _ _ _ ltac:(constructor; [split; [exact Ke|reflexivity]|exact Fc]) W2 (call_env p p2 _ _ _ _ (pr_args q) l W E)) as (tr' & X & Y).
    rewrite <- rule_node in X. eexists. split; [eapply GA_rule; [eapply none_re; eassumption|exact N'|apply call_re, Ca|apply call_length, L|tauto|exact X]|].
    apply Forall2_app; [exact Y|]. rewrite (renamed_tried _ _ Y).
    destruct (tried_grammar_rule tr); constructor; [constructor; [exact Fc|exact Ke]|constructor].
  - (* open *) intros chain pol m rho path args l g1 q pre post K r tr Np N Ca L Op _ IH chain' p m' rho' Fc W E. destruct (rule_re _ _ _ _ _ _ W N) as (p2 & q' & N' & W2 & Ke & Oq).
    destruct (IH chain' _ _ _ Fc W2 (call_env p p2 _ _ _ _ (pr_args q) l W E)) as (tr' & X & Y). rewrite <- rule_node in X.
    exists tr'. split; [|exact Y]. eapply GA_open; [eapply none_re; eassumption|exact N'|apply call_re, Ca|apply call_length, L|tauto|exact X].
  - intros chain pol m rho path n pre post K x post' K' tr Np N _ IH chain' p m' rho' Fc W E. destruct (IH chain' _ _ _ Fc W E) as (tr' & X & Y). rewrite <- node_expr in X. exists tr'. split; [|exact Y].
    cbn [re_expr option_map re_args map]. eapply GA_push_ok; [eapply none_re; eassumption|eapply built_re; eassumption|exact X].
  - intros chain pol m rho path n pre post K tr Np N _ IH chain' p m' rho' Fc W E. destruct (IH chain' _ _ _ Fc W E) as (tr' & X & Y). rewrite <- node_expr in X. exists tr'. split; [|exact Y].
    cbn [re_expr option_map re_args map]. eapply GA_push_fail; [eapply none_re; eassumption|eapply built_re; eassumption|exact X].
  - intros chain pol m rho n pre post K pre' post' K' tr _ IH chain' p m' rho' Fc W E. destruct (IH chain' _ _ _ Fc W E) as (tr' & X & Y). rewrite <- node_expr in X. exists tr'. split; [eapply GA_positive_ok, X|exact Y].
  - intros chain pol m rho n pre post K tr _ IH chain' p m' rho' Fc W E. destruct (IH chain' _ _ _ Fc W E) as (tr' & X & Y). rewrite <- node_expr in X. exists tr'. split; [eapply GA_positive_fail, X|exact Y].
  - intros chain pol m rho n pre post K tr _ IH chain' p m' rho' Fc W E. destruct (IH chain' _ _ _ Fc W E) as (tr' & X & Y). rewrite <- node_expr in X. exists tr'. split; [eapply GA_negative_ok, X|exact Y].
  - intros chain pol m rho n pre post K pre' post' K' tr _ IH chain' p m' rho' Fc W E. destruct (IH chain' _ _ _ Fc W E) as (tr' & X & Y). rewrite <- node_expr in X. exists tr'. split; [eapply GA_negative_fail, X|exact Y].
  - (* sequence *) intros chain pol m rho l r t pre post K res tr _ IH chain' p m' rho' Fc W E. destruct (IH chain' _ _ _ Fc W E) as (tr' & X & Y). cbn [map re_item] in X. rewrite <- !node_expr in X. exists tr'. split; [apply GA_seq, X|exact Y].
  - intros chain pol m rho l r pre post K a b c tr _ IH chain' p m' rho' Fc W E. destruct (IH chain' _ _ _ Fc W E) as (tr' & X & Y). rewrite <- node_expr in X. exists tr'. split; [apply GA_left, X|exact Y].
  - intros chain pol m rho l r pre post K res tr tr2 _ IH _ IH' chain' p m' rho' Fc W E. destruct (IH chain' _ _ _ Fc W E) as (tr' & X & Y). rewrite <- node_expr in X.
    destruct (IH' chain' _ _ _ Fc W E) as (tr2' & X' & Y'). rewrite <- node_expr in X'. exists (tr' ++ tr2'). split; [apply GA_right; assumption|apply Forall2_app; assumption].
  - intros chain pol m rho n pre post K a b c tr _ IH chain' p m' rho' Fc W E. destruct (IH chain' _ _ _ Fc W E) as (tr' & X & Y). rewrite <- node_expr in X. exists tr'. split; [apply GA_some, X|exact Y].
  - intros chain pol m rho n pre post K tr _ IH chain' p m' rho' Fc W E. destruct (IH chain' _ _ _ Fc W E) as (tr' & X & Y). rewrite <- node_expr in X. exists tr'. split; [apply GA_none, X|exact Y].
  - (* repetition *) intros chain pol m rho e n min max t pre post K r tr Rp Rt _ IH chain' p m' rho' Fc W E. destruct (IH chain' _ _ _ Fc W E) as (tr' & X & Y). exists tr'. split; [|exact Y].
    apply (repetition_re p) in Rp. apply (round_trivia_re p) in Rt. rewrite <- node_expr in X, Rt. eapply GA_repeat; eassumption.
  - intros chain pol m rho n t pre post K r tr _ IH chain' p m' rho' Fc W E. destruct (IH chain' _ _ _ Fc W E) as (tr' & X & Y). rewrite <- node_expr in X. exists tr'. split; [apply GA_separated, X|exact Y].
  - intros chain pol m rho pre post K chain' p m' rho' _ _ _. exists []. split; constructor.
  - intros chain pol m rho e l pre post K a b c r tr tr2 _ IH _ IH' chain' p m' rho' Fc W E. destruct (IH _ _ _ _ Fc W E) as (tr' & X & Y). destruct (IH' _ _ _ _ Fc W E) as (tr2' & X' & Y').
    exists (tr' ++ tr2'). split; [eapply GAI_expr; eassumption|apply Forall2_app; assumption].
  - intros chain pol m rho e l pre post K tr _ IH chain' p m' rho' Fc W E. destruct (IH _ _ _ _ Fc W E) as (tr' & X & Y). exists tr'. split; [eapply GAI_expr_fail; eassumption|exact Y].
  - intros chain pol m rho l pre post K r tr _ IH chain' p m' rho' Fc W E. destruct (IH _ _ _ _ Fc W E) as (tr' & X & Y). exists tr'. split; [apply GAI_none, X|exact Y].
  - intros chain pol m rho t name q l pre post K a b c r tr tr2 Tn L _ IH _ IH' chain' p m' rho' Fc W E. destruct (trivia_re f h Ren g _ _ _ _ _ _ W Tn L) as (r2 & L' & En).
    destruct (IH _ _ _ [] Fc W (RE_nil _ _ _)) as (tr' & X & Y). destruct (IH' _ _ _ _ Fc W E) as (tr2' & X' & Y'). rewrite <- En in X. exists (tr' ++ tr2'). split; [eapply GAI_trivia; eassumption|apply Forall2_app; assumption].
  - intros chain pol m rho t name q l pre post K tr Tn L _ IH chain' p m' rho' Fc W E. destruct (trivia_re f h Ren g _ _ _ _ _ _ W Tn L) as (r2 & L' & En).
    destruct (IH _ _ _ [] Fc W (RE_nil _ _ _)) as (tr' & X & Y). rewrite <- En in X. exists tr'. split; [eapply GAI_trivia_fail; eassumption|exact Y].
  - intros chain pol m rho e t min max i pre post K Le0 chain' p m' rho' _ _ _. exists []. split; [apply GAR_max, Le0|constructor].
  - intros chain pol m rho e t min max i pre post K a b c r tr tr2 Lt _ IH _ IH' chain' p m' rho' Fc W E. destruct (IH _ _ _ _ Fc W E) as (tr' & X & Y). destruct (IH' _ _ _ _ Fc W E) as (tr2' & X' & Y').
    exists (tr' ++ tr2'). split; [eapply GAR_round; eassumption|apply Forall2_app; assumption].
  - intros chain pol m rho e t min max i pre post K tr Lt Lm0 _ IH chain' p m' rho' Fc W E. destruct (IH _ _ _ _ Fc W E) as (tr' & X & Y). exists tr'. split; [apply GAR_stop; assumption|exact Y].
  - intros chain pol m rho e t min max i pre post K tr Lt Lm0 _ IH chain' p m' rho' Fc W E. destruct (IH _ _ _ _ Fc W E) as (tr' & X & Y). exists tr'. split; [apply GAR_fail; assumption|exact Y].
  - intros chain pol m rho e t pre post K r tr _ IH chain' p m' rho' Fc W E. destruct (IH _ _ _ _ Fc W E) as (tr' & X & Y). exists tr'. split; [apply GAR_first, X|exact Y].
  - intros chain pol m rho e t i pre post K r tr Lt _ IH chain' p m' rho' Fc W E. destruct (IH _ _ _ _ Fc W E) as (tr' & X & Y). exists tr'. split; [apply GAR_later; assumption|exact Y].
Qed.
End Renamed.
