(** C91: how many rules a parser tries (core/src/typed/template/mod.rs, core/src/choice.rs, core/src/typed/tracker.rs L66-155): each one at most once per offset would
    do, but nothing is remembered, and the number of attempts may grow exponentially. *)
From Coq Require Import String List NArith ZArith Arith Bool Lia Permutation.
From Verif Require Import Proof_Grammar_Tree_Inline Proof_Grammar_Tree_Det Proof_Grammar_Trace_Det Proof_Det Proof_Text Proof_Run Proof_Tracker Proof_Entry Model_Text Model_Message Model_Meta Model_Import Model_Position Model_Span Model_Stack Model_Tracker Model_Node Model_Pairs
  Model_Generator Model_Output Model_Inline
  Spec_Text Spec_Peg Spec_Run Spec_Yield Spec_Tracker Spec_Rust Spec_Grammar_Peg Spec_Occur Spec_Generator Spec_Inline Spec_Grammar_Tree Spec_Grammar_Trace
  Proof_Laws_Tree Example_Generator Example_Fine Example_Inline Thm_Generated Thm_Local Thm_Grammar_Tree Thm_Grammar_Trace.
Import ListNotations.
Open Scope list_scope.

(** The rules with their offsets that are tried. *)
Definition attempts (tr : list event) : list (rule * nat) :=
  flat_map (fun e => match e with Attempt _ r p _ _ => [(r, p)] | Special _ _ _ => [] end) tr.

Lemma finite_rules : forall tm (id : list text -> text -> rule) n g m, weight g < n ->
  exists L, forall m' h q, located tm g m' h -> In q (g_rules h) -> In (id (m ++ m') (pr_name q)) L.
Proof.
  intros tm id n. induction n as [|n IH]; intros g m W; [lia|].
  assert (Im : forall is, incl is (g_imports g) -> exists L, forall alias g' m' h q, In (File alias g') is -> located tm g' m' h -> In q (g_rules h) -> In (id (m ++ [tm] ++ [alias] ++ m') (pr_name q)) L).
  { intro is. induction is as [|i is IHi]; intro Inc; [exists []; intros alias g' m' h q []|]. destruct (IHi (fun x I => Inc x (or_intror I))) as (L & H).
    destruct i as [alias p|alias g'].
    - exists L. intros a h' m' h q [Q|Q] Lo J; [discriminate Q|eapply H; eassumption].
    - assert (Wg : weight g' < n) by (assert (Q := weight_import g alias g' (Inc _ (or_introl eq_refl))); lia).
      destruct (IH g' (m ++ [tm; alias]) Wg) as (L' & H'). exists (L' ++ L). intros a h' m' h q [Q|Q] Lo J; apply in_or_app; [left|right; eapply H; eassumption].
      injection Q as <- <-. assert (X := H' m' h q Lo J). rewrite <- app_assoc in X. exact X. }
  destruct (Im _ (fun x I => I)) as (L & H). exists (map (fun q => id (m ++ [tm]) (pr_name q)) (g_rules g) ++ L). intros m' h q Lo J.
  assert (m' = [tm] /\ h = g \/ exists alias g' m2, In (File alias g') (g_imports g) /\ m' = [tm] ++ [alias] ++ m2 /\ located tm g' m2 h) as [(-> & ->)|(alias & g' & m2 & I & -> & Lo')].
  { clear J. induction Lo as [|m1 h1 alias h2 Lo IHl I]; [left; auto|]. right. destruct IHl as [(-> & ->)|(a & g' & m2 & I' & -> & Lo')].
    - exists alias, h2, [tm]. split; [exact I|]. split; [reflexivity|constructor].
    - exists a, g', (m2 ++ [alias; tm]). split; [exact I'|]. split; [reflexivity|econstructor; eassumption]. }
  - apply in_or_app. left. exact (in_map (fun q => id (m ++ [tm]) (pr_name q)) _ _ J).
  - apply in_or_app. right. eapply H; eassumption.
Qed.

(** The number of different attempts is at most linear in the length of the text. *)
Theorem C91_distinct : forall unicode g tm id env, generated unicode g tm id env -> exists c,
  forall property r, In r (g_rules g) -> ~ is_trivia_rule r -> pr_args r = [] ->
  forall addr s res tr, run addr s env property [] true (Rule (id [tm] (pr_name r)) []) [] s [] res tr ->
  forall l, NoDup l -> incl l (attempts tr) -> length l <= c * (blen s + 1).
Proof.
  intros unicode g tm id env (config & fuel & items & G & -> & C & T & Pt & F & Ty & D & Rd).
  destruct (finite_rules (types_mod (rules_mod config)) id _ g [] (Nat.lt_succ_diag_r _)) as (L & Fin). exists (length L).
  intros property r I Nt Na addr s res tr Run l Nd Inc.
  destruct (inlined_tries config fuel unicode g items G C T Pt F Ty D id env Rd property _ g r (Loc_top _ _) I Nt Na addr s [] s [] [] eq_refl (Forall2_nil _) _ _ Run) as (gres & gtr & _ & _ & Ev).
  assert (B : Forall (fun e => boundary s (event_at e)) tr) by (exact (proj1 (run_events addr s env property) _ _ _ _ _ _ _ _ Run eq_refl valid_nil)).
  replace (length L * (blen s + 1)) with (length (list_prod L (seq 0 (blen s + 1)))) by (rewrite prod_length, seq_length; reflexivity).
  apply NoDup_incl_length; [exact Nd|]. intros (x, p) J. apply Inc in J. unfold attempts in J. apply in_flat_map in J. destruct J as (e & Je & Q). destruct e as [chain y q pol ok|]; [|destruct Q].
  destruct Q as [Q|[]]. injection Q as -> ->. apply in_prod.
  - clear - Ev Je Fin. induction Ev as [|a b l l' E _ IH]; [destruct Je|]. destruct Je as [->|Je]; [|auto]. inversion E as [? ? ? lb ? ? ? ? (m & Lo & J & ->)|]; subst. exact (Fin m (fst lb) (snd lb) Lo J).
  - rewrite Forall_forall in B. destruct (B _ Je) as (a & b & -> & E). cbn in E. subst. apply in_seq. rewrite blen_app. lia.
Qed.
Print Assumptions C91_distinct.

(** The grammar
<<
    e = "(" - e - ")" | "(" - e - "]" | "1"
>>
    tries [e] twice after each bracket. *)
Definition twice_rules : list parse_rule := [rl "e" []
  (alt (sq (str "(") TriviaNone (sq (nm "e") TriviaNone (str ")"))) (alt (sq (str "(") TriviaNone (sq (nm "e") TriviaNone (str "]"))) (str "1")))].
Definition twice : gmodule := grammar twice_rules.
Definition twice_rule : parse_rule := nth 0 twice_rules (rl "" [] (str "")).
Definition brackets (n : nat) : text := repeat 40%N n.
Lemma brackets_length : forall n, blen (brackets n) = n.
Proof. intro n. induction n as [|n IH]; [reflexivity|]. unfold brackets in *. cbn [repeat blen]. rewrite IH. reflexivity. Qed.

Definition attempted (e : gevent) : bool := match e with G_attempt _ _ _ _ _ => true | G_misuse _ _ _ => false end.
Lemma attempts_counted : forall R tr gtr, Forall2 (event_of R) tr gtr -> length (attempts tr) = length (filter attempted gtr).
Proof. intros R tr gtr H. induction H as [|a b l l' H _ IH]; [reflexivity|]. destruct H; cbn; rewrite <- ?IH; reflexivity. Qed.
Lemma twice_tries : forall property n pre chain,
  exists tr, gtry sample_unicode property (open_own twice) chain true twice [] (n_expr (pr_node twice_rule)) pre (brackets n) [] Fail tr /\
    tried_grammar_rule tr = negb (n =? 0) /\ length (filter attempted tr) = if n =? 0 then 0 else 2 ^ n.
Proof.
  intros property n. induction n as [|n IH]; intros pre chain.
  - exists []. split; [|split; reflexivity].
    assert (T : forall x l pol, gtry sample_unicode property (open_own twice) chain pol twice [] (PStr (x :: l)) pre [] [] Fail []).
    { intros x l pol. apply GA_text; [left; eauto|]. apply G_str, OT_fail. intros (r & E). discriminate E. }
    change (@nil gevent) with (@nil gevent ++ ([] ++ [])). apply GA_right; [apply GA_seq, GAI_expr_fail, T|]. apply GA_right; [apply GA_seq, GAI_expr_fail, T|]. apply T.
  - destruct (IH (pre ++ lit "(") (((twice, twice_rule), blen (pre ++ lit "(")) :: chain)) as (tr & Tr & Ti & Le).
    set (after := tr ++ (if tried_grammar_rule tr then [] else [G_attempt chain (twice, twice_rule) (blen (pre ++ lit "(")) true (succeeded Fail)])).
    assert (Call : gtry sample_unicode property (open_own twice) chain true twice [] (nm "e") (pre ++ lit "(") (brackets n) [] Fail after).
    { unfold after. eapply (GA_rule _ _ _ _ _ _ _ [lit "e"] None []).
      - intros x c _ Q. inversion Q.
      - apply N_own; [exact (O_rule _ twice twice_rule (or_introl eq_refl) ltac:(intros [Q|Q]; discriminate Q))|intros q Q; discriminate Q].
      - right. auto.
      - reflexivity.
      - intros (_ & _ & _ & Q). apply Q. reflexivity.
      - exact Tr. }
    assert (Sq : forall x, gtry sample_unicode property (open_own twice) chain true twice [] (sq (str "(") TriviaNone (sq (nm "e") TriviaNone (str x))) pre (brackets (S n)) [] Fail after).
    { intro x. apply GA_seq. change after with ([] ++ after). eapply GAI_expr.
      - apply GA_text; [left; eexists; reflexivity|]. apply G_str. apply (OT_ok (lit "(") pre (brackets (S n)) [] (brackets n)). reflexivity.
      - apply GAI_none, GAI_expr_fail. apply GA_seq, GAI_expr_fail. exact Call. }
    exists (after ++ (after ++ [])). split; [|split].
    + apply GA_right; [apply Sq|]. apply GA_right; [apply Sq|]. apply GA_text; [left; eexists; reflexivity|]. apply G_str, OT_fail. intros (r & E). discriminate E.
    + assert (A : tried_grammar_rule after = true).
      { unfold after. destruct (tried_grammar_rule tr) eqn:E; [rewrite app_nil_r; exact E|]. unfold tried_grammar_rule. rewrite existsb_app. apply orb_true_iff. right. reflexivity. }
      unfold tried_grammar_rule in *. rewrite existsb_app, A. reflexivity.
    + assert (L : length (filter attempted after) = 2 ^ n).
      { unfold after. rewrite filter_app, app_length, Le, Ti. destruct n; [reflexivity|]. cbn [Nat.eqb negb filter length]. lia. }
      rewrite !filter_app, !app_length, L. cbn [filter length Nat.eqb]. rewrite Nat.pow_succ_r'. lia.
Qed.
Lemma twice_generated : generated sample_unicode twice (lit "rules") (id_of twice) (env_of twice).
Proof. apply generated_if; vm_compute; reflexivity. Qed.

(** On [n] brackets it makes [2 ^ n] attempts, all of which the report accounts for. *)
Theorem C91_exponential : forall property addr n, let s := brackets n in let parser := Rule (id_of twice [lit "rules"] (lit "e")) [] in
  blen s = n /\
  (exists k0, forall k, k0 <= k -> exists tr, run addr s (env_of twice) property [] true parser [] s [] RFail tr /\
     text_try_parse addr s (env_of twice) property k parser = Ret (inr (play tr (tracker_new 0)))) /\
  forall res tr, run addr s (env_of twice) property [] true parser [] s [] res tr -> length (attempts tr) = 2 ^ n.
Proof.
  intros property addr n s parser. split; [apply brackets_length|].
  destruct twice_generated as (config & fuel & items & G & E & C & T & Pt & F & Ty & D & Rd). 
  assert (I : In twice_rule (g_rules twice)) by (left; reflexivity). assert (Nt : ~ is_trivia_rule twice_rule) by (intros [Q|Q]; discriminate Q).
  destruct (twice_tries property n [] [((twice, twice_rule), 0)]) as (gtr & Tr & Ti & Le).
  assert (Gt : gtry_rule sample_unicode property (open_own twice) twice twice_rule [] s [] Fail (gtr ++ (if tried_grammar_rule gtr then [] else [G_attempt [] (twice, twice_rule) 0 true false])))
    by (exists gtr; split; [exact Tr|reflexivity]).
  assert (Lg : length (filter attempted (gtr ++ (if tried_grammar_rule gtr then [] else [G_attempt [] (twice, twice_rule) 0 true false]))) = 2 ^ n).
  { rewrite filter_app, app_length, Le, Ti. destruct n; [reflexivity|]. cbn [Nat.eqb negb filter length]. lia. }
  rewrite E in *. split.
  - destruct (C86_inlined_rejects config fuel sample_unicode twice items G C T Pt F Ty D _ _ Rd property _ twice twice_rule (Loc_top _ _) I Nt eq_refl addr s _ Gt) as (k0 & K).
    exists k0. intros k Hk. destruct (K k Hk) as (t & Et & _). unfold parser. rewrite E. change (lit "e") with (pr_name twice_rule).
    destruct (full_outcome addr s (env_of twice) property k (Rule (id_of twice [types_mod (rules_mod config)] (pr_name twice_rule)) [])) as [(Q & _)|(r & tr & R & Q)]; [congruence|].
    destruct r as [|pre' post' K' v]; [exists tr; split; [exact R|exact (proj2 Q)]|]. exfalso.
    destruct (inlined_tries config fuel sample_unicode twice items G C T Pt F Ty D _ _ Rd property _ twice twice_rule (Loc_top _ _) I Nt eq_refl addr s [] s [] [] eq_refl (Forall2_nil _) _ _ R) as (gres & gtr' & Ag & Gt' & _).
    destruct (C86_unique _ _ _ _ _ D C _ _ _ _ _ _ _ Gt Gt') as (-> & _). destruct Ag.
  - intros res tr R. unfold parser in R. rewrite E in R. change (lit "e") with (pr_name twice_rule) in R.
    destruct (inlined_tries config fuel sample_unicode twice items G C T Pt F Ty D _ _ Rd property _ twice twice_rule (Loc_top _ _) I Nt eq_refl addr s [] s [] [] eq_refl (Forall2_nil _) _ _ R) as (gres & gtr' & Ag & Gt' & Ev).
    destruct (C86_unique _ _ _ _ _ D C _ _ _ _ _ _ _ Gt Gt') as (_ & ->). rewrite <- Lg. exact (attempts_counted _ _ _ Ev).
Qed.
Print Assumptions C91_exponential.

Lemma outgrows : forall c d, exists n, c * (n + 1) ^ d < 2 ^ n.
Proof.
  intros c d.
  assert (P : forall j, j < 2 ^ j) by (intro j; apply Nat.pow_gt_lin_r; lia).
  assert (Lin : forall a b, exists k, a * k + b < 2 ^ k).
  { intros a b. exists (2 * (2 * a + b)). set (j := 2 * a + b). replace (2 * j) with (j + j) by lia. rewrite Nat.pow_add_r.
    assert (Q := P j). assert (j + 1 <= 2 ^ j) by lia. assert ((j + 1) * (j + 1) <= 2 ^ j * 2 ^ j) by (apply Nat.mul_le_mono; assumption).
    assert (2 * a * j <= j * j) by (apply Nat.mul_le_mono_r; unfold j; lia). lia. }
  destruct (Lin d (c + d)) as (k & L). exists (2 ^ k).
  assert (A : 2 ^ k + 1 <= 2 ^ (k + 1)) by (rewrite Nat.pow_add_r; assert (Q := P k); cbn [Nat.pow]; lia).
  assert (B : (2 ^ k + 1) ^ d <= 2 ^ ((k + 1) * d)) by (rewrite Nat.pow_mul_r; apply Nat.pow_le_mono_l, A).
  assert (C : c * (2 ^ k + 1) ^ d <= 2 ^ c * 2 ^ ((k + 1) * d)) by (apply Nat.mul_le_mono; [assert (Q := P c); lia|exact B]).
  rewrite <- Nat.pow_add_r in C. eapply Nat.le_lt_trans; [exact C|]. apply Nat.pow_lt_mono_r; [lia|]. lia.
Qed.
(** So no polynomial in the length of the text bounds the number of attempts. *)
Theorem C91_polynomial_refuted : exists unicode g tm id env r, generated unicode g tm id env /\ In r (g_rules g) /\ ~ is_trivia_rule r /\ pr_args r = [] /\
  forall property addr c d, exists s k tr,
    text_try_parse addr s env property k (Rule (id [tm] (pr_name r)) []) = Ret (inr (play tr (tracker_new 0))) /\
    run addr s env property [] true (Rule (id [tm] (pr_name r)) []) [] s [] RFail tr /\
    c * (blen s + 1) ^ d < length (attempts tr).
Proof.
  exists sample_unicode, twice, (lit "rules"), (id_of twice), (env_of twice), twice_rule. split; [exact twice_generated|]. split; [left; reflexivity|]. split; [intros [Q|Q]; discriminate Q|]. split; [reflexivity|].
  intros property addr c d. destruct (outgrows c d) as (n & L). destruct (C91_exponential property addr n) as (B & (k0 & K) & U). change (pr_name twice_rule) with (lit "e").
  destruct (K k0 (le_n _)) as (tr & R & E). exists (brackets n), k0, tr. split; [exact E|]. split; [exact R|]. rewrite B, (U _ _ R). exact L.
Qed.
Print Assumptions C91_polynomial_refuted.

(** On ["(("] there are four attempts; the report says that [e] was expected in [e] at 2. *)
Example C91_ex : let parser := Rule (id_of twice [lit "rules"] (lit "e")) [] in
  generated sample_unicode twice (lit "rules") (id_of twice) (env_of twice) /\ In twice_rule (g_rules twice) /\ ~ is_trivia_rule twice_rule /\ pr_args twice_rule = [] /\
  brackets 2 = lit "((" /\
  (exists tr l, run 0 (lit "((") (env_of twice) (fun _ _ => false) [] true parser [] (lit "((") [] RFail tr /\ length (attempts tr) = 4 /\ NoDup l /\ incl l (attempts tr) /\ length l = 1) /\
  (match text_try_parse 0 (lit "((") (env_of twice) (fun _ _ => false) 60 parser with Ret (inr t) => Some (finish t) | _ => None end) =
    Some (2, [(Some (id_of twice [lit "rules"] (lit "e")), ([id_of twice [lit "rules"] (lit "e")], [], []))]).
Proof.
  cbv zeta. split; [exact twice_generated|]. split; [left; reflexivity|]. split; [intros [Q|Q]; discriminate Q|]. split; [reflexivity|]. split; [reflexivity|]. split; [|vm_compute; reflexivity].
  destruct (C91_exponential (fun _ _ => false) 0 2) as (_ & (k0 & K) & U). destruct (K k0 (le_n _)) as (tr & R & _). assert (L := U _ _ R).
  destruct (attempts tr) as [|a l] eqn:E; [discriminate L|]. exists tr, [a]. split; [exact R|]. rewrite E. split; [exact L|]. split; [constructor; [intros []|constructor]|]. split; [|reflexivity].
  intros x [<-|[]]. left. reflexivity.
Qed.
