(** Proofs about the accessor functions of the emitted structs. *)
From Coq Require Import String List NArith ZArith Arith Bool Lia.
From Verif Require Import Model_Text Model_Message Model_Meta Model_Import Model_Position Model_Span Model_Stack Model_Tracker Model_Node
  Model_Generator Model_Output
  Spec_Text Spec_Peg Spec_Rust Spec_Grammar_Peg Spec_Occur Spec_Generator Spec_Getter
  Proof_Text Proof_Emit Proof_Box Proof_Process Proof_Names Proof_Place Proof_Resolve Proof_Accept Proof_Compile Proof_Leaf Proof_Read.
Import ListNotations.
Open Scope list_scope.

(** * Parse results are values of their types *)
Section Values.
Variable addr : N.
Variable s : text.
Variable env : rule -> rule_def.
Variable property : N -> char -> bool.
Notation tp := (try_parse addr s env property).
Notation ck := (check addr s env property).

Definition gives {A : Type} (P : A -> Prop) (m : res A) : Prop := forall a st, m = Ret (Some a, st) -> P a.
Lemma gives_bind : forall {A B : Type} (P : A -> Prop) (Q : B -> Prop) (m : res A) k,
  gives P m -> (forall a st, P a -> gives Q (k a st)) -> gives Q (bind m k).
Proof.
  intros A B P Q m k G H b st E. unfold bind in E. destruct m as [([a|], st1)| |] eqn:Em; try discriminate.
  eapply H; [|exact E]. eapply G. reflexivity.
Qed.
Lemma gives_any : forall {A B : Type} (Q : B -> Prop) (m : res A) k, (forall a st, gives Q (k a st)) -> gives Q (bind m k).
Proof. intros A B Q m k H. eapply (gives_bind (fun _ => True)); [intros a st _; exact I|]. intros a st _. apply H. Qed.
Lemma gives_ret : forall {A : Type} (P : A -> Prop) a st, P a -> gives P (Ret (Some a, st)).
Proof. intros A P a st H b st' E. injection E as <- _. exact H. Qed.
Lemma gives_none : forall {A : Type} (P : A -> Prop) st, gives P (Ret (None, st)).
Proof. intros A P st b st' E. discriminate. Qed.
Lemma gives_let : forall {A B : Type} (P : B -> Prop) (m : outcome A) (k : A -> res B), (forall a, gives P (k a)) -> gives P (obind m k).
Proof. intros A B P [a| |] k H b st E; try discriminate. exact (H a b st E). Qed.
Lemma gives_during : forall {A : Type} (P : A -> Prop) pos f st, (forall st, gives P (f st)) -> gives P (during pos f st).
Proof.
  intros A P pos f st H a st' E. unfold during in E.
  match type of E with context [f ?x] => destruct (f x) as [(o, st1)| |] eqn:F end; try discriminate.
  cbn [obind] in E. injection E as -> _. eapply H, F.
Qed.
Lemma gives_record : forall {A : Type} (P : A -> Prop) pos f r st, (forall st, gives P (f st)) -> gives P (record_option_during_with pos f r st).
Proof.
  intros A P pos f r st H a st' E. unfold record_option_during_with in E.
  match type of E with context [f ?x] => destruct (f x) as [(o, st1)| |] eqn:F end; try discriminate.
  cbn [obind] in E. destruct (leave_rule _ _ _ _); try discriminate. cbn [obind] in E. injection E as -> _. eapply H, F.
Qed.

Definition good_pair (n : node) (pv : nat * value) : Prop := value_of env n (snd pv).
Section Step.
Variable prs : node -> nat -> state -> res (nat * value).
Variable chk : node -> nat -> state -> res nat.
Hypothesis Prs : forall n pos st, gives (good_pair n) (prs n pos st).
Lemma seq_values : forall fields first pos st,
  gives (fun pvs => Forall2 (fun f v => value_of env (fst f) v) fields (snd pvs)) (parse_seq chk prs first fields pos st).
Proof.
  induction fields as [|(t, tr) fields IH]; intros first pos st; cbn [parse_seq].
  - apply gives_ret. constructor.
  - apply gives_any. intros pos1 st1. eapply gives_bind; [apply Prs|]. intros pv st2 V.
    eapply gives_bind; [apply IH|]. intros pvs st3 Vs. apply gives_ret. constructor; [exact V|exact Vs].
Qed.
Lemma choice_values : forall variants before pos st,
  gives (good_pair (Choice (before ++ variants))) (parse_choice prs (length before) variants pos st).
Proof.
  induction variants as [|t variants IH]; intros before pos st; cbn [parse_choice]; [apply gives_none|].
  destruct (prs t pos (on_stack stack_snapshot st)) as [([(p, v)|], st')| |] eqn:E; try (intros ? ? X; discriminate X).
  - apply gives_ret. eapply VO_choice; [|exact (Prs _ _ _ _ _ E)]. rewrite nth_error_app2, Nat.sub_diag by lia. reflexivity.
  - specialize (IH (before ++ [t]) pos (on_stack stack_restore st')). rewrite app_length, <- app_assoc in IH.
    cbn [length app] in IH. rewrite Nat.add_1_r in IH. exact IH.
Qed.
Lemma rep_values : forall k t tr min max i vec pos st, Forall (value_of env t) vec -> forall a b,
  gives (good_pair (RepMinMax t tr a b)) (parse_rep k chk prs t tr min max i vec pos st).
Proof.
  induction k as [|k IH]; intros t tr min max i vec pos st F a b; cbn [parse_rep]; destruct (i <? max)%N.
  - intros ? ? X. discriminate X.
  - apply gives_ret. apply VO_rep, Forall_rev, F.
  - unfold restore_on_none.
    destruct (parse_unit chk prs t tr i pos (on_stack stack_snapshot st)) as [([(p, v)|], st')| |] eqn:E; try (intros ? ? X; discriminate X).
    + apply IH. constructor; [|exact F].
      assert (G : gives (good_pair t) (parse_unit chk prs t tr i pos (on_stack stack_snapshot st))).
      { unfold parse_unit. apply gives_any. intros. apply Prs. }
      exact (G _ _ E).
    + destruct (i <? min)%N; [apply gives_none|]. apply gives_ret. apply VO_rep, Forall_rev, F.
  - apply gives_ret. apply VO_rep, Forall_rev, F.
Qed.
End Step.

Theorem parsed_value : forall k n pos st, gives (good_pair n) (tp k n pos st).
Proof.
  induction k as [|k IH]; intros n pos st; [intros ? ? X; discriminate X|]. destruct n; cbn [try_parse].
  - destruct (match_string s pos content) as ([|], p); cbn [moved_unit]; [apply gives_ret; apply VO_str|apply gives_none].
  - apply gives_let. intros ([|], p); [|apply gives_none]. do 2 (apply gives_let; intro). apply gives_ret. apply VO_insens.
  - apply gives_let. intros ([|], p); [|apply gives_none]. apply gives_let; intro. apply gives_ret. apply VO_skip.
  - apply gives_let. intros ([|], p); [|apply gives_none]. do 2 (apply gives_let; intro). destruct a0; [intros ? ? X; discriminate X|]. apply gives_ret. apply VO_range.
  - destruct (match_string s pos [c]) as ([|], p); cbn [moved_unit]; [apply gives_ret; apply VO_char|apply gives_none].
  - apply gives_during. intro st0. destruct (tp k n pos (on_stack stack_snapshot st0)) as [([(p, v)|], st')| |] eqn:E; try (intros ? ? X; discriminate X).
    apply gives_ret. constructor. exact (IH _ _ _ _ _ E).
  - apply gives_during. intro st0. destruct (ck k n pos (on_stack stack_snapshot st0)) as [([p|], st')| |] eqn:E; try (intros ? ? X; discriminate X).
    apply gives_ret. apply VO_negative.
  - apply gives_let. intros ([c|], p); [|apply gives_none]. apply gives_ret. apply VO_any.
  - apply gives_none.
  - apply gives_ret. apply VO_unit. cbn [In]. tauto.
  - destruct (at_start pos); [|apply gives_none]. apply gives_ret. apply VO_unit. cbn [In]. tauto.
  - destruct (at_end s pos); [|apply gives_none]. apply gives_ret. apply VO_unit. cbn [In]. tauto.
  - destruct (match_string s pos [CR; LF]) as ([|], p1); [apply gives_ret; constructor|].
    destruct (match_string s p1 [LF]) as ([|], p2); [apply gives_ret; constructor|].
    destruct (match_string s p2 [CR]) as ([|], p3); [apply gives_ret; constructor|apply gives_none].
  - apply gives_let. intro. apply gives_any. intros. apply gives_ret. apply VO_span. cbn [In]. tauto.
  - destruct (stack_peek (st_stack st)); [|apply gives_none]. apply gives_let. intro. destruct (match_string s pos _) as ([|], p); [|apply gives_none].
    apply gives_let. intro. apply gives_ret. apply VO_span. cbn [In]. tauto.
  - destruct (stack_pop (st_stack st)) as ([x|], stk); [|apply gives_none]. apply gives_ret. apply VO_unit. cbn [In]. tauto.
  - destruct (stack_pop (st_stack st)) as ([x|], stk); [|apply gives_none]. apply gives_let. intro. destruct (match_string s pos _) as ([|], p); [|apply gives_none].
    apply gives_ret. apply VO_span. cbn [In]. tauto.
  - eapply gives_bind; [apply IH|]. intros (p, v) st' V. apply gives_ret. unfold good_pair in *. cbn [snd] in *.
    inversion V as [n I| | | | | | |n sp I| | | | | | | | | | | | |]; subst.
    + cbn [In] in I. decompose [or] I; try contradiction; discriminate.
    + apply VO_span. cbn [In]. tauto.
  - eapply gives_bind; [apply IH|]. intros (p, v) st' V. apply gives_let. intro. apply gives_ret. constructor. exact V.
  - apply gives_any. intros. apply gives_any. intros. apply gives_ret. apply VO_slice2.
  - apply gives_any. intros. apply gives_any. intros. apply gives_ret. apply VO_slice1.
  - apply rep_values; [apply IH|constructor].
  - destruct (tp k n pos (on_stack stack_snapshot st)) as [([(p, v)|], st')| |] eqn:E; try (intros ? ? X; discriminate X); apply gives_ret; constructor.
    exact (IH _ _ _ _ _ E).
  - eapply gives_bind; [apply seq_values, IH|]. intros pvs st' V. apply gives_ret. constructor. exact V.
  - apply (choice_values _ (ck k) IH _ []).
  - apply gives_let. intros ([c|], p'); [|apply gives_none]. apply gives_ret. constructor.
  - apply gives_record. intro st0. eapply gives_bind; [apply IH|]. intros pv st' V. apply gives_let. intro. apply gives_ret. constructor. exact V.
Qed.
End Values.

(** * Getters *)
Lemma all_some_spec : forall {A : Type} (l : list (option A)) l', all_some l = Some l' <-> l = map Some l'.
Proof.
  intros A l. induction l as [|[a|] l IH]; intros l'; cbn [all_some].
  - split; [intros [= <-]; reflexivity|]. destruct l'; [reflexivity|discriminate].
  - destruct (all_some l) as [l1|].
    + split; [intros [= <-]; cbn [map]; f_equal; apply IH; reflexivity|]. intro E. destruct l' as [|b l']; [discriminate|].
      cbn [map] in E. injection E as -> E. f_equal. apply IH in E. injection E as ->. reflexivity.
    + split; [discriminate|]. intro E. destruct l' as [|b l']; [discriminate|]. cbn [map] in E. injection E as -> E. apply IH in E. discriminate.
  - split; [discriminate|]. destruct l'; discriminate.
Qed.

(** Values by type. *)
Ltac other := match goal with I : In _ _ |- _ => cbn [In] in I; exfalso; clear - I; decompose [or] I; discriminate || contradiction end.
Lemma positive_value : forall env n v, value_of env (Positive n) v -> exists c, v = VPositive c /\ value_of env n c.
Proof. intros env n v V. inversion V; subst; try other. eauto. Qed.
Lemma push_value : forall env n v, value_of env (Push n) v -> exists c, v = VPush c /\ value_of env n c.
Proof. intros env n v V. inversion V; subst; try other. eauto. Qed.
Lemma seq_value : forall env fs v, value_of env (Seq fs) v -> exists vs, v = VSeq vs /\ Forall2 (fun f v => value_of env (fst f) v) fs vs.
Proof. intros env n v V. inversion V; subst; try other. eauto. Qed.
Lemma choice_value : forall env ns v, value_of env (Choice ns) v -> exists i n c, v = VChoice i c /\ nth_error ns i = Some n /\ value_of env n c.
Proof. intros env n v V. inversion V; subst; try other. eauto 6. Qed.
Lemma rep_value : forall env n tr a b v, value_of env (RepMinMax n tr a b) v -> exists vs, v = VRep vs /\ Forall (value_of env n) vs.
Proof. intros env n tr a b v V. inversion V; subst; try other. eauto. Qed.
Lemma opt_value : forall env n v, value_of env (Opt n) v -> v = VOpt None \/ exists c, v = VOpt (Some c) /\ value_of env n c.
Proof. intros env n v V. inversion V; subst; try other; eauto. Qed.

Section Checked.
Variable read : ty -> node -> Prop.
Variable env : rule -> rule_def.
Notation checks := (checks read).

Fixpoint gexpr_size (e : gexpr) : nat :=
  match e with
  | X_res => 1
  | X_content e | X_field _ e | X_as_ref _ e | X_choice _ _ e | X_iter e => S (gexpr_size e)
  | X_tuple l => S (list_sum (map gexpr_size l))
  end.

(** What type checks can be evaluated. *)
Lemma checked : forall k e n t v, gexpr_size e <= k -> checks e n t -> value_of env n v -> exists x, eval e v = Some x /\ typed read env x t.
Proof.
  induction k as [|k IH]; intros e n t v L C V; [destruct e; cbn [gexpr_size] in L; lia|].
  inversion C as [n0 t0 R|e0 n0 t0 C0|e0 n0 t0 C0|i e0 fs n0 tr t0 N C0|e0 n0 t0 C0|e0 n0 t0 C0|i e0 ns n0 t0 N C0|i e0 ns n0 t0 N C0|e0 n0 tr a b t0 C0|es n0 ts F]; subst; cbn [gexpr_size] in L.
  - exists (GV_ref v). split; [reflexivity|]. econstructor; eassumption.
  - destruct (positive_value _ _ _ V) as (c & -> & Vc). cbn [eval]. eapply IH; [lia|exact C0|exact Vc].
  - destruct (push_value _ _ _ V) as (c & -> & Vc). cbn [eval]. eapply IH; [lia|exact C0|exact Vc].
  - destruct (seq_value _ _ _ V) as (vs & -> & F).
    cbn [eval]. assert (E : exists c, nth_error vs i = Some c /\ value_of env n0 c).
    { clear - F N. revert i N. induction F as [|f v fs vs H F IHF]; intros [|i] N; cbn [nth_error] in *; try discriminate.
      - injection N as ->. exists v. split; [reflexivity|exact H].
      - apply IHF, N. }
    destruct E as (c & -> & Vc). eapply IH; [lia|exact C0|exact Vc].
  - destruct (opt_value _ _ _ V) as [->|(c & -> & Vc)].
    + cbn [eval flattened]. eexists. split; [reflexivity|constructor].
    + cbn [eval]. destruct (IH e0 n0 t0 c ltac:(lia) C0 Vc) as (x & -> & T). exists (GV_option (Some x)). split; [reflexivity|constructor; exact T].
  - destruct (opt_value _ _ _ V) as [->|(c & -> & Vc)].
    + cbn [eval flattened]. eexists. split; [reflexivity|constructor].
    + cbn [eval]. destruct (IH e0 n0 _ c ltac:(lia) C0 Vc) as (x & -> & T). exists x. split; [|exact T]. inversion T; reflexivity.
  - destruct (choice_value _ _ _ V) as (j & m & c & -> & Nj & Vc).
    cbn [eval]. destruct (Nat.eqb_spec i j) as [->|D].
    + rewrite N in Nj. injection Nj as <-. destruct (IH e0 n0 t0 c ltac:(lia) C0 Vc) as (x & -> & T). exists (GV_option (Some x)). split; [reflexivity|constructor; exact T].
    + eexists. split; [reflexivity|constructor].
  - destruct (choice_value _ _ _ V) as (j & m & c & -> & Nj & Vc).
    cbn [eval]. destruct (Nat.eqb_spec i j) as [->|D].
    + rewrite N in Nj. injection Nj as <-. destruct (IH e0 n0 _ c ltac:(lia) C0 Vc) as (x & -> & T). exists x. split; [|exact T]. inversion T; reflexivity.
    + eexists. split; [reflexivity|constructor].
  - destruct (rep_value _ _ _ _ _ _ V) as (vs & -> & F).
    cbn [eval]. assert (E : exists l, map (eval e0) vs = map Some l /\ Forall (fun x => typed read env x t0) l).
    { clear V. induction F as [|c vs Vc F (l & El & Tl)]; [exists []; split; [reflexivity|constructor]|].
      destruct (IH e0 n0 t0 c ltac:(lia) C0 Vc) as (x & Ex & T). exists (x :: l). cbn [map]. rewrite Ex, El. split; [reflexivity|constructor; assumption]. }
    destruct E as (l & El & Tl). apply all_some_spec in El. rewrite El. exists (GV_vec l). split; [reflexivity|constructor; exact Tl].
  - assert (E : exists l, map (fun e => eval e v) es = map Some l /\ Forall2 (typed read env) l ts).
    { clear C. induction F as [|e0 t0 es ts C0 F IHF]; [exists []; split; [reflexivity|constructor]|].
      cbn [map list_sum] in L. change (list_sum (gexpr_size e0 :: map gexpr_size es)) with (gexpr_size e0 + list_sum (map gexpr_size es)) in L.
      destruct (IH e0 n t0 v ltac:(lia) C0 V) as (x & Ex & T). destruct IHF as (l & El & Tl); [lia|].
      exists (x :: l). cbn [map]. rewrite Ex, El. split; [reflexivity|constructor; assumption]. }
    destruct E as (l & El & Tl). apply all_some_spec in El. destruct v; cbn [eval]; rewrite El; (exists (GV_tuple l); split; [reflexivity|constructor; exact Tl]).
Qed.

(** Getters fit the type of the content. *)
Notation body nd := (fst (g_expand nd)).
Definition chk (nd : gnode) (n : node) : Prop := checks (body nd) n (snd (g_expand nd)).
Definition opt_ok (nd : gnode) : Prop := flattenable nd = true -> exists t, snd (g_expand nd) = Y_option t.
Definition fits (gs : getters) (n : node) : Prop :=
  NoDup (map fst gs) /\ forall x nd, In (x, nd) gs -> opt_ok nd /\ chk nd n.

Lemma chk_expand : forall nd n, chk nd n -> forall e t, g_expand nd = (e, t) -> checks e n t.
Proof. intros nd n C e t E. unfold chk in C. rewrite E in C. exact C. Qed.
Lemma wrap_opt : forall edge nd, opt_ok nd -> opt_ok (g_wrap edge nd).
Proof.
  intros edge nd O. unfold opt_ok in *. destruct edge; cbn [g_wrap flattenable g_expand]; destruct (g_expand nd) as (e, t); cbn [snd] in *; try assumption;
    try discriminate; intro F; destruct (flattenable nd); try (apply O; exact F); eexists; reflexivity.
Qed.
Lemma wrap_content : forall nd n, chk nd n -> chk (g_wrap E_content nd) (Positive n).
Proof. intros nd n C. unfold chk in *. cbn [g_wrap g_expand]. destruct (g_expand nd). apply C_content, C. Qed.
Lemma wrap_seq : forall nd n i fs tr, nth_error fs i = Some (n, tr) -> chk nd n -> chk (g_wrap (E_content_i i) nd) (Seq fs).
Proof. intros nd n i fs tr N C. unfold chk in *. cbn [g_wrap g_expand]. destruct (g_expand nd). eapply C_field; eassumption. Qed.
Lemma wrap_choice : forall nd n i ns, nth_error ns i = Some n -> opt_ok nd -> chk nd n -> chk (g_wrap (E_choice i) nd) (Choice ns).
Proof.
  intros nd n i ns N O C. unfold chk, opt_ok in *. cbn [g_wrap g_expand]. destruct (g_expand nd) as (e, t). cbn [fst snd] in *. destruct (flattenable nd).
  - destruct (O eq_refl) as (t' & ->). eapply C_choice_flat; eassumption.
  - eapply C_choice; eassumption.
Qed.
Lemma wrap_optional : forall nd n, opt_ok nd -> chk nd n -> chk (g_wrap E_optional nd) (Opt n).
Proof.
  intros nd n O C. unfold chk, opt_ok in *. cbn [g_wrap g_expand]. destruct (g_expand nd) as (e, t). cbn [fst snd] in *. destruct (flattenable nd).
  - destruct (O eq_refl) as (t' & ->). apply C_as_ref_flat, C.
  - apply C_as_ref, C.
Qed.
Lemma wrap_contents : forall nd n tr a b, chk nd n -> chk (g_wrap E_contents nd) (RepMinMax n tr a b).
Proof. intros nd n tr a b C. unfold chk in *. cbn [g_wrap g_expand]. destruct (g_expand nd). apply C_iter, C. Qed.

Lemma prepend_keys : forall edge gs, map fst (g_prepend edge gs) = map fst gs.
Proof. intros edge gs. unfold g_prepend. rewrite map_map. apply map_ext. intros (k, nd). reflexivity. Qed.
Lemma prepend_in : forall edge gs x nd, In (x, nd) (g_prepend edge gs) -> exists nd', nd = g_wrap edge nd' /\ In (x, nd') gs.
Proof. intros edge gs x nd I. apply in_map_iff in I. destruct I as ((y, nd') & E & I). injection E as <- <-. exists nd'. split; [reflexivity|exact I]. Qed.
Lemma prepend_fits : forall edge gs n n', fits gs n -> (forall nd, opt_ok nd -> chk nd n -> chk (g_wrap edge nd) n') -> fits (g_prepend edge gs) n'.
Proof.
  intros edge gs n n' (Nd & F) W. split; [rewrite prepend_keys; exact Nd|]. intros x nd I. destruct (prepend_in _ _ _ _ I) as (nd' & -> & J).
  destruct (F _ _ J) as (O & C). split; [apply wrap_opt, O|apply W; assumption].
Qed.

(** Merging makes a tuple of the parts. *)
Definition parts (nd : gnode) : list gnode := match nd with G_tuple l => l | _ => [nd] end.
Lemma merge_parts : forall a b, g_merge a b = G_tuple (parts a ++ parts b).
Proof. intros [] []; reflexivity. Qed.
Lemma parts_chk : forall nd n, chk nd n -> Forall (fun p => chk p n) (parts nd).
Proof.
  intros nd n C. destruct nd; try (constructor; [exact C|constructor]). cbn [parts]. unfold chk in C. cbn [g_expand fst snd] in C.
  inversion C as [| | | | | | | | |es n0 ts F]; subst. clear C. remember (map (fun n => fst (g_expand n)) l) as es eqn:E1. remember (map (fun n => snd (g_expand n)) l) as ts eqn:E2.
  revert l E1 E2. induction F as [|e t es ts C F IH]; intros [|p l] E1 E2; try discriminate; constructor; cbn [map] in *.
  - injection E1 as -> _. injection E2 as -> _. exact C.
  - injection E1 as _ E1. injection E2 as _ E2. apply IH; assumption.
Qed.
Lemma tuple_chk : forall l n, Forall (fun p => chk p n) l -> chk (G_tuple l) n.
Proof.
  intros l n F. unfold chk. cbn [g_expand fst snd]. apply C_tuple. induction F; cbn [map]; constructor; assumption.
Qed.
Lemma merge_chk : forall a b n, chk a n -> chk b n -> chk (g_merge a b) n.
Proof. intros a b n A B. rewrite merge_parts. apply tuple_chk, Forall_app. split; apply parts_chk; assumption. Qed.
Lemma merge_opt : forall a b, opt_ok (g_merge a b).
Proof. intros a b. rewrite merge_parts. intro F. discriminate F. Qed.

Lemma add_keys : forall k nd gs x, In x (map fst (g_add k nd gs)) <-> x = k \/ In x (map fst gs).
Proof.
  intros k nd gs x. induction gs as [|(k', nd') gs IH]; cbn [g_add map fst In].
  - split; [intros [H|[]]; left; symmetry; exact H|]. intros [H|[]]. left. symmetry. exact H.
  - destruct (teqb k k') as [->|D]; cbn [map fst In]; [|rewrite IH]; split; intro H; decompose [or] H; subst; tauto.
Qed.
Lemma add_nodup : forall k nd gs, NoDup (map fst gs) -> NoDup (map fst (g_add k nd gs)).
Proof.
  intros k nd gs. induction gs as [|(k', nd') gs IH]; cbn [g_add map fst]; intro H.
  - constructor; [intros []|constructor].
  - inversion H as [|x l N H']; subst. destruct (teqb k k') as [->|D]; cbn [map fst]; [exact H|]. constructor; [|apply IH, H'].
    intro I. apply add_keys in I. destruct I as [->|I]; [apply D; reflexivity|contradiction].
Qed.
Lemma add_in : forall k nd gs x p, NoDup (map fst gs) -> In (x, p) (g_add k nd gs) ->
  (x <> k /\ In (x, p) gs) \/ (x = k /\ ((~ In k (map fst gs) /\ p = nd) \/ exists q, In (k, q) gs /\ p = g_merge q nd)).
Proof.
  intros k nd gs x p. induction gs as [|(k', nd') gs IH]; cbn [g_add map fst]; intros H I.
  - destruct I as [E|[]]. injection E as <- <-. right. split; [reflexivity|]. left. split; [intros []|reflexivity].
  - inversion H as [|y l N H']; subst. destruct (teqb k k') as [->|D]; destruct I as [E|I].
    + injection E as <- <-. right. split; [reflexivity|]. right. exists nd'. split; [left; reflexivity|reflexivity].
    + left. split; [|right; exact I]. intros ->. apply N. apply (in_map fst) in I. exact I.
    + injection E as <- <-. left. split; [congruence|left; reflexivity].
    + destruct (IH H' I) as [(X & J)|(-> & [(X & ->)|(q & J & ->)])].
      * left. split; [exact X|right; exact J].
      * right. split; [reflexivity|]. left. split; [|reflexivity]. intros [->|J]; [apply D; reflexivity|contradiction].
      * right. split; [reflexivity|]. right. exists q. split; [right; exact J|reflexivity].
Qed.
Lemma add_fits : forall k nd gs n, fits gs n -> opt_ok nd -> chk nd n -> fits (g_add k nd gs) n.
Proof.
  intros k nd gs n (Nd & F) O C. split; [apply add_nodup, Nd|]. intros x p I. destruct (add_in _ _ _ _ _ Nd I) as [(_ & J)|(_ & [(_ & ->)|(q & J & ->)])].
  - apply F with (1 := J).
  - split; assumption.
  - split; [apply merge_opt|]. apply merge_chk; [|exact C]. apply (F _ _ J).
Qed.
Lemma join_fits : forall h gs n, fits gs n -> fits h n -> fits (g_join gs h) n.
Proof.
  unfold g_join. induction h as [|(k, nd) h IH]; intros gs n F (Nd & H); cbn [fold_left]; [exact F|]. cbn [map fst] in Nd. inversion Nd; subst.
  destruct (H k nd (or_introl eq_refl)) as (O & C). apply IH; [apply add_fits; assumption|]. split; [assumption|]. intros x p I. apply H with (x := x). right. exact I.
Qed.
Lemma join_keys : forall h gs x, In x (map fst (g_join gs h)) <-> In x (map fst gs) \/ In x (map fst h).
Proof.
  unfold g_join. induction h as [|(k, nd) h IH]; intros gs x; cbn [fold_left map fst In]; [tauto|]. rewrite IH. cbn [fst snd]. rewrite add_keys.
  split; intro H; decompose [or] H; subst; tauto.
Qed.
Lemma children_fits : forall is edge i gs n, fits gs n ->
  (forall j c, nth_error is j = Some c -> fits (g_prepend (edge (i + j)) (i_getter c)) n) -> fits (join_children edge i is gs) n.
Proof.
  induction is as [|c is IH]; intros edge i gs n F H; cbn [join_children]; [exact F|]. apply IH.
  - apply join_fits; [exact F|]. specialize (H 0 c eq_refl). rewrite Nat.add_0_r in H. exact H.
  - intros j c' N. specialize (H (S j) c' N). replace (i + 1 + j) with (i + S j) by lia. exact H.
Qed.
Lemma children_keys : forall is edge i gs x, In x (map fst (join_children edge i is gs)) <->
  In x (map fst gs) \/ exists c, In c is /\ In x (map fst (i_getter c)).
Proof.
  induction is as [|c is IH]; intros edge i gs x; cbn [join_children].
  - split; [intro H; left; exact H|]. intros [H|(c & [] & _)]. exact H.
  - rewrite IH, join_keys, prepend_keys. split.
    + intros [[H|H]|(c' & I & H)]; [left; exact H|right; exists c; split; [left; reflexivity|exact H]|right; exists c'; split; [right; exact I|exact H]].
    + intros [H|(c' & [->|I] & H)]; [tauto|tauto|]. right. exists c'. split; assumption.
Qed.

(** What getters return. *)
Definition describes (gs : getters) (v : value) (f : text -> list value) : Prop :=
  (forall x nd, In (x, nd) gs -> exists r, eval (body nd) v = Some r /\ referred r = f x) /\
  forall x, ~ In x (map fst gs) -> f x = [].
Lemma describes_ext : forall gs v f f', describes gs v f -> (forall x, f x = f' x) -> describes gs v f'.
Proof.
  intros gs v f f' (A & B) E. split.
  - intros x nd I. destruct (A x nd I) as (r & Er & Rr). exists r. rewrite <- E. split; assumption.
  - intros x N. rewrite <- E. apply B, N.
Qed.
Lemma prepend_describes : forall edge gs v v' f f', describes gs v f ->
  (forall x nd r, In (x, nd) gs -> eval (body nd) v = Some r -> referred r = f x -> exists r', eval (body (g_wrap edge nd)) v' = Some r' /\ referred r' = f' x) ->
  (forall x, ~ In x (map fst gs) -> f' x = []) -> describes (g_prepend edge gs) v' f'.
Proof.
  intros edge gs v v' f f' (A & B) W N. split.
  - intros x nd I. destruct (prepend_in _ _ _ _ I) as (nd' & -> & J). destruct (A _ _ J) as (r & Er & Rr). eapply W; eassumption.
  - intros x X. rewrite prepend_keys in X. apply N, X.
Qed.

Lemma parts_eval : forall nd v r, eval (body nd) v = Some r ->
  exists l, map (fun p => eval (body p) v) (parts nd) = map Some l /\ flat_map referred l = referred r.
Proof.
  intros nd v r E. assert (One : (parts nd = [nd]) -> exists l, map (fun p => eval (body p) v) (parts nd) = map Some l /\ flat_map referred l = referred r).
  { intros ->. exists [r]. cbn [map flat_map]. rewrite E, app_nil_r. split; reflexivity. }
  destruct nd; try (apply One; reflexivity). clear One. cbn [g_expand fst parts] in *.
  assert (Q : exists l', all_some (map (fun e => eval e v) (map (fun n => body n) l)) = Some l' /\ r = GV_tuple l').
  { destruct v; cbn [eval] in E; (destruct (all_some _) as [l'|]; [|discriminate E]); injection E as <-; exists l'; split; reflexivity. }
  destruct Q as (l' & Q & ->). apply all_some_spec in Q. rewrite map_map in Q. exists l'. split; [exact Q|reflexivity].
Qed.
Lemma merge_eval : forall a b v r r', eval (body a) v = Some r -> eval (body b) v = Some r' ->
  exists x, eval (body (g_merge a b)) v = Some x /\ referred x = referred r ++ referred r'.
Proof.
  intros a b v r r' A B. destruct (parts_eval _ _ _ A) as (l & El & Rl). destruct (parts_eval _ _ _ B) as (l' & El' & Rl').
  rewrite merge_parts. exists (GV_tuple (l ++ l')). split.
  - cbn [g_expand fst]. assert (Q : all_some (map (fun e => eval e v) (map (fun n => body n) (parts a ++ parts b))) = Some (l ++ l')).
    { apply all_some_spec. rewrite map_map, !map_app, El, El'. reflexivity. }
    destruct v; cbn [eval]; rewrite Q; reflexivity.
  - cbn [referred]. rewrite flat_map_app, Rl, Rl'. reflexivity.
Qed.
Lemma add_describes : forall k nd gs v f r, NoDup (map fst gs) -> describes gs v f -> eval (body nd) v = Some r ->
  describes (g_add k nd gs) v (fun x => if text_eqb x k then f x ++ referred r else f x).
Proof.
  intros k nd gs v f r Nd (A & B) E. split.
  - intros x p I. destruct (add_in _ _ _ _ _ Nd I) as [(X & J)|(-> & [(X & ->)|(q & J & ->)])].
    + destruct (teqb x k); [contradiction|]. apply A with (1 := J).
    + rewrite teqb_refl. exists r. split; [exact E|]. rewrite B by exact X. reflexivity.
    + rewrite teqb_refl. destruct (A _ _ J) as (r0 & E0 & R0). destruct (merge_eval _ _ _ _ _ E0 E) as (y & Ey & Ry). exists y. split; [exact Ey|]. rewrite Ry, R0. reflexivity.
  - intros x N. rewrite add_keys in N. destruct (teqb x k) as [->|D]; [exfalso; apply N; left; reflexivity|]. apply B. tauto.
Qed.
Lemma join_describes : forall h gs v f f', NoDup (map fst gs) -> NoDup (map fst h) -> describes gs v f -> describes h v f' ->
  describes (g_join gs h) v (fun x => f x ++ f' x).
Proof.
  unfold g_join. induction h as [|(k, nd) h IH]; intros gs v f f' Ng Nh D (A & B); cbn [fold_left fst snd].
  - eapply describes_ext; [exact D|]. intro x. cbn beta. rewrite (B x) by (intros []). rewrite app_nil_r. reflexivity.
  - cbn [map fst] in Nh. inversion Nh as [|y l Nk Nh']; subst. destruct (A k nd (or_introl eq_refl)) as (r & Er & Rr).
    eapply describes_ext; [apply (IH _ v (fun x => if text_eqb x k then f x ++ referred r else f x) (fun x => if text_eqb x k then [] else f' x))|].
    + apply add_nodup, Ng.
    + exact Nh'.
    + apply add_describes; assumption.
    + split.
      * intros x p I. destruct (teqb x k) as [->|X]; [exfalso; apply Nk; apply (in_map fst) in I; exact I|]. apply A with (x := x). right. exact I.
      * intros x X. destruct (teqb x k) as [->|Xk]; [reflexivity|]. apply B. cbn [map fst In]. intros [E|I]; [congruence|contradiction].
    + intro x. cbn beta. destruct (teqb x k) as [->|X]; [rewrite Rr, app_nil_r; reflexivity|reflexivity].
Qed.
Lemma children_describes : forall is fs edge i gs v f, NoDup (map fst gs) -> describes gs v f -> length fs = length is ->
  (forall c, In c is -> NoDup (map fst (i_getter c))) ->
  (forall j c h, nth_error is j = Some c -> nth_error fs j = Some h -> describes (g_prepend (edge (i + j)) (i_getter c)) v h) ->
  describes (join_children edge i is gs) v (fun x => f x ++ flat_map (fun h => h x) fs).
Proof.
  induction is as [|c is IH]; intros [|h fs] edge i gs v f Ng D L Nd H; try discriminate; cbn [join_children flat_map].
  - eapply describes_ext; [exact D|]. intro x. cbn beta. rewrite app_nil_r. reflexivity.
  - assert (Np : NoDup (map fst (g_prepend (edge i) (i_getter c)))) by (rewrite prepend_keys; apply Nd; left; reflexivity).
    assert (D1 := H 0 c h eq_refl eq_refl). rewrite Nat.add_0_r in D1.
    assert (Nj : NoDup (map fst (g_join gs (g_prepend (edge i) (i_getter c))))).
    { generalize (g_prepend (edge i) (i_getter c)). clear - Ng. intro h. unfold g_join. revert gs Ng. induction h as [|(k, nd) h IHh]; intros gs Ng; cbn [fold_left]; [exact Ng|]. apply IHh, add_nodup, Ng. }
    eapply describes_ext; [apply (IH fs edge (i + 1) _ v (fun x => f x ++ h x))|].
    + exact Nj.
    + apply join_describes; assumption.
    + cbn in L. lia.
    + intros c' I. apply Nd. right. exact I.
    + intros j c' h' Nc Nh. specialize (H (S j) c' h' Nc Nh). replace (i + 1 + j) with (i + S j) by lia. exact H.
    + intro x. cbn beta. rewrite <- app_assoc. reflexivity.
Qed.
End Checked.

(** * What is returned belongs to the name *)
Lemma rest_mentions : forall unicode g params x e t,
  mentions unicode g params x e <-> exists e', In e' (map snd (sequence_rest t e)) /\ mentions unicode g params x e'.
Proof.
  intros unicode g params x. fix Fx 1. intros e t.
  assert (One : map snd (sequence_rest t e) = [e] ->
    (mentions unicode g params x e <-> exists e', In e' (map snd (sequence_rest t e)) /\ mentions unicode g params x e')).
  { intros ->. split; [intro M; exists e; split; [left; reflexivity|exact M]|]. intros (e' & [<-|[]] & M). exact M. }
  destruct e as [| | | | | |[l ls] [r rs] t'| | | | | |]; try (apply One; reflexivity). clear One. cbn [sequence_rest map snd]. split.
  - intro M. inversion M as [|n0 M0|l0 r0 t0 M0|l0 r0 t0 M0| | | |e0 n0 a b R M0|]; subst; cbn [n_expr] in *.
    + exists l. split; [left; reflexivity|exact M0].
    + apply (Fx r t') in M0. destruct M0 as (e' & I & M0). exists e'. split; [right; exact I|exact M0].
    + exfalso. clear - R. destruct R as [(R & _)|[(R & _)|(range & R & _)]]; discriminate R.
  - intros (e' & [<-|I] & M); [apply Mn_seq_l, M|]. apply Mn_seq_r. cbn [n_expr]. apply (Fx r t'). exists e'. split; assumption.
Qed.
Lemma choices_mentions : forall unicode g params x e,
  mentions unicode g params x e <-> exists e', In e' (choices_rest e) /\ mentions unicode g params x e'.
Proof.
  intros unicode g params x. fix Fx 1. intros e.
  assert (One : choices_rest e = [e] -> (mentions unicode g params x e <-> exists e', In e' (choices_rest e) /\ mentions unicode g params x e')).
  { intros ->. split; [intro M; exists e; split; [left; reflexivity|exact M]|]. intros (e' & [<-|[]] & M). exact M. }
  destruct e as [| | | | | | |[l ls] [r rs]| | | | |]; try (apply One; reflexivity). clear One. cbn [choices_rest]. split.
  - intro M. inversion M as [| | | |l0 r0 M0|l0 r0 M0| |e0 n0 a b R M0|]; subst; cbn [n_expr] in *.
    + exists l. split; [left; reflexivity|exact M0].
    + apply (Fx r) in M0. destruct M0 as (e' & I & M0). exists e'. split; [right; exact I|exact M0].
    + exfalso. clear - R. destruct R as [(R & _)|[(R & _)|(range & R & _)]]; discriminate R.
  - intros (e' & [<-|I] & M); [apply Mn_choice_l, M|]. apply Mn_choice_r. cbn [n_expr]. apply (Fx r). exists e'. split; assumption.
Qed.
Lemma rest_matched : forall unicode g params x e t vs ls,
  Forall2 (fun ev l => matched unicode g params x (fst ev) (snd ev) l) (combine (map snd (sequence_rest t e)) vs) ls ->
  length vs = length (sequence_rest t e) -> matched_fields unicode g params x e vs (concat ls).
Proof.
  intros unicode g params x. fix Fx 1. intros e t vs ls F L.
  assert (One : sequence_rest t e = [(t, e)] -> (forall a b t, e <> PSeq a b t) -> matched_fields unicode g params x e vs (concat ls)).
  { intros E N. rewrite E in F, L. destruct vs as [|v [|? ?]]; try discriminate L. cbn [map snd combine] in F.
    inversion F as [|ev l es ls' M F']; subst. inversion F'; subst. cbn [concat fst snd] in *. rewrite app_nil_r. apply MF_last; assumption. }
  destruct e as [| | | | | |[l ls0] [r rs] t'| | | | | |]; try (apply One; [reflexivity|discriminate]). clear One. cbn [sequence_rest map snd] in *.
  destruct vs as [|v vs]; [discriminate L|]. cbn [combine] in F. inversion F as [|ev m es ls' M F']; subst. cbn [concat fst snd] in *.
  apply MF_more; [exact M|]. cbn [n_expr]. apply (Fx r t'); [exact F'|]. cbn [length] in L. lia.
Qed.
Lemma choices_matched : forall unicode g params x e i e' v l, nth_error (choices_rest e) i = Some e' -> matched unicode g params x e' v l ->
  matched_variant unicode g params x e i v l.
Proof.
  intros unicode g params x. fix Fx 1. intros e i e' v l N M.
  assert (One : choices_rest e = [e] -> (forall a b, e <> PChoice a b) -> matched_variant unicode g params x e i v l).
  { intros E D. rewrite E in N. destruct i as [|i]; [|destruct i; discriminate N]. injection N as <-. apply MV_last; assumption. }
  destruct e as [| | | | | | |[l0 ls] [r rs]| | | | |]; try (apply One; [reflexivity|discriminate]). clear One. cbn [choices_rest] in N.
  destruct i as [|i]; [injection N as <-; apply MV_first, M|]. apply MV_later. cbn [n_expr]. eapply Fx; eassumption.
Qed.

Section Main.
Variable config : gconfig.
Variable fuel : nat.
Variable unicode : list text.
Variable T : gtracker.
Variable top : gmodule.
Variable o_top : output.
Variable env : rule -> rule_def.
Variable id : list text -> text -> rule.
Notation any_leaf := (fun (_ : gmodule) (_ : list (text * closure)) (_ : parse_expr) (_ : node) => True).
Notation no_property := (fun (_ : N) (_ : char) => false).
Notation rm := (rules_mod config).
Notation tm := (types_mod rm).
Notation items := (all_items config T o_top).
Hypothesis Types : fine_types_mod tm top.
Hypothesis Props : distinct_properties unicode.
Hypothesis Track : good_tracker T.
Notation emitted := (emitted config fuel unicode T top o_top).
Notation read := (read_type items unicode id).

Variable mp : list text.
Variable depth : nat.
Variable g : gmodule.
Variable coll : list (text * mnode).
Hypothesis Em : emitted mp depth g coll.
Variable params : list text.
Hypothesis Open : forall x, In x params -> ~ In x reserved /\ forall g', ~ In (File x g') (g_imports g).
Variable ns : list node.
Hypothesis Len : length ns = length params.
Notation cs := (map (fun _ => Clo g [] (PStr [])) ns).
Notation vals := (combine params ns).
Notation pe := (process_expr params (mkSys coll (make_global unicode)) (root_of depth)).
Notation ready := (ready config unicode T top o_top id any_leaf mp g).
Notation good_read := (good_read config unicode T top o_top id any_leaf mp g params cs ns).
Definition reading (t : ty) (n : node) : Prop := exists k, read k mp vals t = Some (M_node n).

Definition accessed (e : parse_expr) (i : intermediate) (n : node) : Prop :=
  fits reading (i_getter i) n /\ (forall x, In x (map fst (i_getter i)) <-> mentions unicode g params x e) /\
  forall v, value_of env n v -> exists f, describes (i_getter i) v f /\ forall x, matched unicode g params x e v (f x).

Lemma reading_unique : forall t n n', reading t n -> reading t n' -> n = n'.
Proof. intros t n n' (k & R) (k' & R'). assert (E := read_unique items unicode id _ _ _ _ _ _ _ R R'). injection E as <-. reflexivity. Qed.

(** A reference. *)
Lemma accessed_reference : forall path args t name nd n, g_expand nd = (X_res, Y_ref t) -> flattenable nd = false -> reading t n ->
  (forall x, refers unicode g params x path <-> x = name) -> accessed (PPath path args) (mkInter t [(name, nd)]) n.
Proof.
  intros path args t name nd n E Fl R H. split; [|split].
  - split; [cbn [i_getter map fst]; constructor; [intros []|constructor]|]. intros x p [Q|[]]. injection Q as <- <-. split; [intro Y; congruence|].
    unfold chk. rewrite E. apply C_res, R.
  - intro x. cbn [i_getter map fst In]. split.
    + intros [<-|[]]. apply Mn_path, H. reflexivity.
    + intro M. left. symmetry. apply H. inversion M as [p a Q| | | | | | |e0 n0 a b Q _|]; subst; [exact Q|].
      exfalso. destruct Q as [(Q & _)|[(Q & _)|(range & Q & _)]]; discriminate Q.
  - intros v V. exists (fun x => if text_eqb x name then [v] else []). split.
    + split.
      * intros x p [Q|[]]. injection Q as <- <-. rewrite E, teqb_refl. exists (GV_ref v). split; reflexivity.
      * intros x N. destruct (teqb x name) as [->|]; [exfalso; apply N; left; reflexivity|reflexivity].
    + intro x. destruct (teqb x name) as [->|D]; [apply M_here, H; reflexivity|]. apply M_elsewhere. intro Q. apply H in Q. contradiction.
Qed.
Lemma resolved_name : forall path pargs i, sys_resolve (mkSys coll (make_global unicode)) (mkRuleRef path pargs) (root_of depth) = inl i ->
  exists x, names unicode g path x /\ i = referring (i_type i) (entity_name x).
Proof.
  intros path pargs i Rs.
  destruct (proj1 (resolve_iff config fuel unicode T top o_top Types Props _ _ _ _ path pargs (root_of depth) Em)) as (x & Nm & _); [eexists; exact Rs|].
  destruct (names_resolve config fuel unicode T top o_top Types Props _ _ _ _ _ _ Em Nm) as (n & Rn & St).
  exists x. split; [exact Nm|]. assert (Fi : fine unicode g) by (destruct Em as (o & _ & _ & _ & _ & Fi); exact Fi).
  unfold sys_resolve in Rs. cbn [rr_path rr_args] in Rs. rewrite Rn in Rs. destruct path as [|h path]; [discriminate|].
  assert (Rg : forall rg name r args root, rg_call rg name r args root = inl i -> i = referring (i_type i) name).
  { clear. intros [[|argc]|direct slice callable] name r args root H; cbn [rg_call] in H.
    - destruct args as [[[|? ?]|]|]; try discriminate H; injection H as <-; reflexivity.
    - destruct args as [[l|]|]; try discriminate H. destruct (Nat.eqb (S argc) (length l)); [|discriminate H]. injection H as <-. reflexivity.
    - destruct args as [[l|range]|].
      + destruct callable as [argc|]; [|discriminate H]. destruct (match argc with Some a => _ | None => _ end); [|discriminate H]. injection H as <-. reflexivity.
      + destruct slice as [(s1, s2)|]; [|discriminate H]. injection H as <-. reflexivity.
      + destruct direct as [lf|]; [|discriminate H]. injection H as <-. reflexivity. }
  remember (h :: path) as p eqn:Ep. clear Ep. destruct x as [q|g' r]; cbn [stands_for entity_name] in *.
  - destruct (names_last _ _ _ _ Nm Fi) as [La|(y & La)]; destruct St as [x0 I| |x0 I| | |u I]; try discriminate La;
      cbn [m_get] in Rs; try (rewrite <- La; eapply Rg; exact Rs); try (eapply Rg; exact Rs);
      (destruct pargs as [[[|? ?]|]|]; try discriminate Rs; injection Rs as <-; reflexivity).
  - destruct St as (-> & _ & _ & La & _). cbn [m_get] in Rs. rewrite <- La. eapply Rg. exact Rs.
Qed.
Lemma accessed_path : forall path args pargs i n, (forall x, path = [x] -> ~ In x params) ->
  sys_resolve (mkSys coll (make_global unicode)) (mkRuleRef path pargs) (root_of depth) = inl i -> reading (i_type i) n -> accessed (PPath path args) i n.
Proof.
  intros path args pargs i n Np Rs R. destruct (resolved_name _ _ _ Rs) as (y & Nm & E). rewrite E. unfold referring.
  apply accessed_reference; try reflexivity; [exact R|]. intro x. split.
  - intros [(I & ->)|(_ & y' & Nm' & <-)]; [exfalso; exact (Np _ eq_refl I)|]. f_equal.
    eapply names_unique; [exact Types|exact Em|exact Nm'|exact Nm].
  - intros ->. right. split; [exact Np|]. exists y. split; [exact Nm|reflexivity].
Qed.

(** Nothing. *)
Lemma accessed_nothing : forall e t n, (forall x, ~ mentions unicode g params x e) -> (forall x v, matched unicode g params x e v []) -> accessed e (mkInter t []) n.
Proof.
  intros e t n N M. split; [split; [constructor|intros x nd []]|]. split.
  - intro x. cbn [i_getter map In]. split; [intros []|]. intro Q. exact (N x Q).
  - intros v _. exists (fun _ => []). split; [|intro x; apply M]. split; [intros x nd []|reflexivity].
Qed.
Ltac no_repetition := match goal with R : repetition _ _ _ _ |- _ => exfalso; clear - R; destruct R as [(R & _)|[(R & _)|(? & R & _)]]; discriminate R end.

Lemma wrapped_flat : forall nd n c r, opt_ok nd -> chk reading nd n -> value_of env n c -> eval (fst (g_expand nd)) c = Some r ->
  exists r', flattened (flattenable nd) (Some r) = Some r' /\ referred r' = referred r.
Proof.
  intros nd n c r O C V E. destruct (flattenable nd) eqn:F.
  - destruct (O F) as (t & Et). unfold chk in C. rewrite Et in C.
    destruct (checked reading env _ _ _ _ _ (le_n _) C V) as (r' & E' & Ty). rewrite E in E'. injection E' as <-. inversion Ty; subst; eexists; split; reflexivity.
  - exists (GV_option (Some r)). split; reflexivity.
Qed.
Lemma expand_wrap : forall edge nd, fst (g_expand (g_wrap edge nd)) =
  match edge with
  | E_content => X_content (fst (g_expand nd))
  | E_content_i i => X_field i (fst (g_expand nd))
  | E_choice i => X_choice i (flattenable nd) (fst (g_expand nd))
  | E_optional => X_as_ref (flattenable nd) (fst (g_expand nd))
  | E_contents => X_iter (fst (g_expand nd))
  end.
Proof. intros [] nd; cbn [g_wrap g_expand]; destruct (g_expand nd); reflexivity. Qed.

Lemma accessed_positive : forall a i t n, accessed (n_expr a) i n -> accessed (PPosPred a) (mkInter t (g_prepend E_content (i_getter i))) (Positive n).
Proof.
  intros a i t n (F & K & D). split; [|split]; cbn [i_getter].
  - eapply prepend_fits; [exact F|]. intros nd _ C. apply wrap_content, C.
  - intro x. rewrite prepend_keys, K. split; [apply Mn_positive|]. intro M. inversion M; subst; [assumption|no_repetition].
  - intros v V. destruct (positive_value _ _ _ V) as (c & -> & Vc). destruct (D c Vc) as (f & Df & Mf). exists f. split; [|intro x; apply M_positive, Mf].
    eapply prepend_describes; [exact Df| |apply Df]. intros x nd r _ E R. exists r. rewrite expand_wrap. split; assumption.
Qed.
Lemma accessed_optional : forall a i t n, accessed (n_expr a) i n -> accessed (POpt a) (mkInter t (g_prepend E_optional (i_getter i))) (Opt n).
Proof.
  intros a i t n (F & K & D). split; [|split]; cbn [i_getter].
  - eapply prepend_fits; [exact F|]. intros nd O C. apply wrap_optional; assumption.
  - intro x. rewrite prepend_keys, K. split; [apply Mn_opt|]. intro M. inversion M; subst; [assumption|no_repetition].
  - intros v V. destruct (opt_value _ _ _ V) as [->|(c & -> & Vc)].
    + exists (fun _ => []). split; [|intro x; apply M_none]. split; [|reflexivity].
      intros x nd I. destruct (prepend_in _ _ _ _ I) as (nd' & -> & _). rewrite expand_wrap. cbn [eval flattened].
      exists (GV_option None). split; [destruct (flattenable nd'); reflexivity|reflexivity].
    + destruct (D c Vc) as (f & Df & Mf). exists f. split; [|intro x; apply M_some, Mf].
      eapply prepend_describes; [exact Df| |apply Df]. intros x nd r I E R. rewrite expand_wrap. cbn [eval]. rewrite E, <- R.
      destruct F as (_ & F). destruct (F _ _ I) as (O & C). eapply wrapped_flat; eassumption.
Qed.
Lemma accessed_repeated : forall e a lo hi i t n tr lo' hi', repetition e a lo' hi' -> accessed (n_expr a) i n ->
  accessed e (mkInter t (g_prepend E_contents (i_getter i))) (RepMinMax n tr lo hi).
Proof.
  intros e a lo hi i t n tr lo' hi' Rp (F & K & D). split; [|split]; cbn [i_getter].
  - eapply prepend_fits; [exact F|]. intros nd _ C. apply wrap_contents, C.
  - intro x. rewrite prepend_keys, K. split; [eapply Mn_rep, Rp|]. intro M.
    inversion M as [p q H|m H|l r u H|l r u H|l r H|l r H|m H|e0 m lo0 hi0 Rp' H|m u H]; subst; try no_repetition.
    destruct (repetition_unique _ _ _ _ _ _ _ Rp Rp') as (-> & _). exact H.
  - intros v V. destruct (rep_value _ _ _ _ _ _ V) as (vs & -> & Fv).
    assert (H : exists hs, Forall2 (describes (i_getter i)) vs hs /\ forall x, Forall2 (fun v h => matched unicode g params x (n_expr a) v (h x)) vs hs).
    { clear V. induction Fv as [|c vs Vc Fv (hs & Dh & Mh)]; [exists []; split; [constructor|intro; constructor]|].
      destruct (D c Vc) as (f & Df & Mf). exists (f :: hs). split; [constructor; assumption|]. intro x. constructor; [apply Mf|apply Mh]. }
    destruct H as (hs & Dh & Mh). exists (fun x => flat_map (fun h => h x) hs). split.
    + split.
      * intros x nd I. destruct (prepend_in _ _ _ _ I) as (nd' & -> & J). rewrite expand_wrap. cbn [eval].
        assert (Q : exists rs, map (eval (fst (g_expand nd'))) vs = map Some rs /\ flat_map referred rs = flat_map (fun h => h x) hs).
        { clear - Dh J. induction Dh as [|v h vs hs (A & _) Dh (rs & E & R)]; [exists []; split; reflexivity|].
          destruct (A _ _ J) as (r & Er & Rr). exists (r :: rs). cbn [map flat_map]. rewrite Er, E, Rr, R. split; reflexivity. }
        destruct Q as (rs & E & R). apply all_some_spec in E. rewrite E. exists (GV_vec rs). split; [reflexivity|exact R].
      * intros x N. rewrite prepend_keys in N. clear - Dh N. induction Dh as [|v h vs hs (_ & B) Dh IH]; [reflexivity|]. cbn [flat_map]. rewrite IH, B by exact N. reflexivity.
    + intro x. eapply M_rounds; [exact Rp|]. specialize (Mh x). clear - Mh. induction Mh as [|v h vs hs M Mh IH]; cbn [flat_map]; [constructor|]. apply MR_cons; assumption.
Qed.

(** Sequences and choices. *)
Lemma accessed_sequence : forall l r u t es is fs, es = map snd (collect_sequence (n_expr l) (n_expr r) u) ->
  Forall2 (fun e p => accessed e (fst p) (fst (snd p))) es (combine is fs) -> length is = length fs -> length is = length es ->
  accessed (PSeq l r u) (mkInter t (join_children E_content_i 0 is [])) (Seq fs).
Proof.
  intros l r u t es is fs Ees A L1 L2.
  assert (At : forall j c, nth_error is j = Some c -> exists e n tr, nth_error es j = Some e /\ nth_error fs j = Some (n, tr) /\ accessed e c n).
  { clear Ees. revert es fs A L1 L2. induction is as [|i is IH]; intros es fs A L1 L2 j c N; [destruct j; discriminate N|].
    destruct fs as [|(n, tr) fs]; [discriminate L1|]. destruct es as [|e es]; [discriminate L2|]. cbn [combine] in A. inversion A as [|e0 p es0 ps H A']; subst.
    destruct j as [|j]; cbn [nth_error] in *.
    - injection N as <-. exists e, n, tr. split; [reflexivity|]. split; [reflexivity|exact H].
    - apply IH; [exact A'|cbn in L1; lia|cbn in L2; lia|exact N]. }
  split; [|split]; cbn [i_getter].
  - apply children_fits; [split; [constructor|intros x nd []]|]. intros j c N. destruct (At j c N) as (e & n & tr & _ & Nf & F & _). rewrite Nat.add_0_l.
    eapply prepend_fits; [exact F|]. intros nd _ C. eapply wrap_seq; eassumption.
  - intro x. rewrite children_keys. cbn [map In]. split.
    + intros [[]|(c & I & M)]. destruct (In_nth_error _ _ I) as (j & N). destruct (At j c N) as (e & n & tr & Ne & _ & _ & K & _).
      apply K in M. apply nth_error_In in Ne. rewrite Ees in Ne. unfold collect_sequence in Ne. cbn [map snd In] in Ne. destruct Ne as [<-|Ne]; [apply Mn_seq_l, M|].
      apply Mn_seq_r. apply (rest_mentions unicode g params x (n_expr r) u). exists e. split; assumption.
    + intro M. right. assert (E : exists e, In e es /\ mentions unicode g params x e).
      { rewrite Ees. unfold collect_sequence. cbn [map snd In]. inversion M; subst; try no_repetition.
        - exists (n_expr l). split; [left; reflexivity|assumption].
        - match goal with H : mentions _ _ _ _ (n_expr r) |- _ => apply (rest_mentions unicode g params x (n_expr r) u) in H; destruct H as (e & I & H); exists e; split; [right; exact I|exact H] end. }
      destruct E as (e & I & Me). destruct (In_nth_error _ _ I) as (j & N).
      destruct (nth_error is j) as [c|] eqn:Nc.
      * destruct (At j c Nc) as (e' & n & tr & Ne & _ & _ & K & _). rewrite N in Ne. injection Ne as <-. exists c. split; [eapply nth_error_In, Nc|]. apply K, Me.
      * exfalso. apply nth_error_None in Nc. assert (j < length es) by (apply nth_error_Some; congruence). lia.
  - intros v V. destruct (seq_value _ _ _ V) as (vs & -> & Fv).
    assert (H : exists hs, length hs = length is /\ length vs = length is /\
      (forall j c h, nth_error is j = Some c -> nth_error hs j = Some h -> exists w, nth_error vs j = Some w /\ describes (i_getter c) w h) /\
      forall x, Forall2 (fun ev k => matched unicode g params x (fst ev) (snd ev) k) (combine es vs) (map (fun h => h x) hs)).
    { clear V Ees At. revert es fs vs A L1 L2 Fv. induction is as [|i is IH]; intros es fs vs A L1 L2 Fv.
      - destruct fs; [|discriminate L1]. destruct es; [|discriminate L2]. inversion Fv; subst. exists []. repeat split; try reflexivity; [|intro; constructor].
        intros j c h N. destruct j; discriminate N.
      - destruct fs as [|(n, tr) fs]; [discriminate L1|]. destruct es as [|e es]; [discriminate L2|]. inversion Fv as [|f w fs0 vs0 Vw Fv']; subst.
        cbn [combine] in A. inversion A as [|e0 p es0 ps (_ & _ & D) A']; subst. cbn [fst snd] in *.
        destruct (IH es fs vs0 A' ltac:(cbn in L1; lia) ltac:(cbn in L2; lia) Fv') as (hs & Lh & Lv & Dh & Mh).
        destruct (D w Vw) as (f & Df & Mf). exists (f :: hs). split; [cbn; lia|]. split; [cbn; lia|]. split.
        + intros [|j] c h Nc Nh; cbn [nth_error] in *; [|eapply Dh; eassumption]. injection Nc as <-. injection Nh as <-. exists w. split; [reflexivity|exact Df].
        + intro x. cbn [combine map]. constructor; [apply Mf|apply Mh]. }
    destruct H as (hs & Lh & Lv & Dh & Mh). exists (fun x => flat_map (fun h => h x) hs). split.
    + apply (describes_ext _ _ (fun x => [] ++ flat_map (fun h => h x) hs)); [|reflexivity]. apply (children_describes is hs E_content_i 0 [] (VSeq vs) (fun _ => [])).
      * constructor.
      * split; [intros x nd []|reflexivity].
      * exact Lh.
      * intros c I. destruct (In_nth_error _ _ I) as (j & N). destruct (At j c N) as (e & n & tr & _ & _ & (Nd & _) & _). exact Nd.
      * intros j c h Nc Nh. rewrite Nat.add_0_l. destruct (Dh j c h Nc Nh) as (w & Nw & Dw). eapply prepend_describes; [exact Dw| |apply Dw].
        intros x nd r0 _ E R. exists r0. rewrite expand_wrap. cbn [eval]. rewrite Nw. split; assumption.
    + intro x. apply M_seq. rewrite flat_map_concat_map.
      specialize (Mh x). rewrite Ees in Mh, L2. unfold collect_sequence in *. cbn [map snd length] in *.
      destruct vs as [|w vs]; [cbn in Lv; lia|]. cbn [combine] in Mh. inversion Mh as [|ev k es0 ks M1 M2 E1 E2]; subst. cbn [fst snd] in M1.
      cbn [concat]. apply MF_more; [exact M1|]. eapply rest_matched; [exact M2|]. rewrite map_length in L2. cbn in Lv. lia.
Qed.
Lemma accessed_choice : forall l r t es is nds, es = collect_choices (n_expr l) (n_expr r) ->
  Forall2 (fun e p => accessed e (fst p) (snd p)) es (combine is nds) -> length is = length nds -> length is = length es ->
  accessed (PChoice l r) (mkInter t (join_children E_choice 0 is [])) (Choice nds).
Proof.
  intros l r t es is nds Ees A L1 L2.
  assert (At : forall j c, nth_error is j = Some c -> exists e n, nth_error es j = Some e /\ nth_error nds j = Some n /\ accessed e c n).
  { clear Ees. revert es nds A L1 L2. induction is as [|i is IH]; intros es nds A L1 L2 j c N; [destruct j; discriminate N|].
    destruct nds as [|n nds]; [discriminate L1|]. destruct es as [|e es]; [discriminate L2|]. cbn [combine] in A. inversion A as [|e0 p es0 ps H A']; subst.
    destruct j as [|j]; cbn [nth_error] in *.
    - injection N as <-. exists e, n. split; [reflexivity|]. split; [reflexivity|exact H].
    - apply IH; [exact A'|cbn in L1; lia|cbn in L2; lia|exact N]. }
  split; [|split]; cbn [i_getter].
  - apply children_fits; [split; [constructor|intros x nd []]|]. intros j c N. destruct (At j c N) as (e & n & _ & Nf & F & _). rewrite Nat.add_0_l.
    eapply prepend_fits; [exact F|]. intros nd O C. eapply wrap_choice; eassumption.
  - intro x. rewrite children_keys. cbn [map In]. split.
    + intros [[]|(c & I & M)]. destruct (In_nth_error _ _ I) as (j & N). destruct (At j c N) as (e & n & Ne & _ & _ & K & _).
      apply K in M. apply nth_error_In in Ne. rewrite Ees in Ne. unfold collect_choices in Ne. cbn [In] in Ne. destruct Ne as [<-|Ne]; [apply Mn_choice_l, M|].
      apply Mn_choice_r. apply (choices_mentions unicode g params x (n_expr r)). exists e. split; assumption.
    + intro M. right. assert (E : exists e, In e es /\ mentions unicode g params x e).
      { rewrite Ees. unfold collect_choices. cbn [In]. inversion M; subst; try no_repetition.
        - exists (n_expr l). split; [left; reflexivity|assumption].
        - match goal with H : mentions _ _ _ _ (n_expr r) |- _ => apply (choices_mentions unicode g params x (n_expr r)) in H; destruct H as (e & I & H); exists e; split; [right; exact I|exact H] end. }
      destruct E as (e & I & Me). destruct (In_nth_error _ _ I) as (j & N).
      destruct (nth_error is j) as [c|] eqn:Nc.
      * destruct (At j c Nc) as (e' & n & Ne & _ & _ & K & _). rewrite N in Ne. injection Ne as <-. exists c. split; [eapply nth_error_In, Nc|]. apply K, Me.
      * exfalso. apply nth_error_None in Nc. assert (j < length es) by (apply nth_error_Some; congruence). lia.
  - intros v V. destruct (choice_value _ _ _ V) as (i & n & w & -> & Nn & Vw).
    destruct (nth_error is i) as [c|] eqn:Nc; [|exfalso; apply nth_error_None in Nc; assert (i < length nds) by (apply nth_error_Some; congruence); lia].
    destruct (At i c Nc) as (e & n' & Ne & Nn' & F & _ & D). rewrite Nn in Nn'. injection Nn' as <-. destruct (D w Vw) as (f & Df & Mf).
    exists f. split.
    + set (hs := map (fun j => if Nat.eqb j i then f else fun _ => []) (seq 0 (length is))).
      assert (Eh : forall x, flat_map (fun h => h x) hs = f x).
      { intro x. assert (Li : i < length is) by (apply nth_error_Some; congruence). subst hs.
        assert (Q : forall m a, flat_map (fun h => h x) (map (fun j => if Nat.eqb j i then f else fun _ => []) (seq a m)) = if (a <=? i) && (i <? a + m) then f x else []).
        { clear. induction m as [|m IH]; intro a; cbn [seq map flat_map].
          - destruct (a <=? i) eqn:E1; [|reflexivity]. destruct (i <? a + 0) eqn:E2; [|reflexivity]. apply Nat.leb_le in E1. apply Nat.ltb_lt in E2. lia.
          - rewrite IH. destruct (Nat.eqb_spec a i) as [->|Da].
            + replace (S i <=? i) with false by (symmetry; apply Nat.leb_gt; lia). cbn [andb]. rewrite app_nil_r.
              replace (i <=? i) with true by (symmetry; apply Nat.leb_refl). replace (i <? i + S m) with true by (symmetry; apply Nat.ltb_lt; lia). reflexivity.
            + cbn [app]. replace (S a <=? i) with (a <=? i).
              * replace (S a + m) with (a + S m) by lia. reflexivity.
              * destruct (Nat.leb_spec a i), (Nat.leb_spec (S a) i); try reflexivity; lia. }
        rewrite Q. replace (0 <=? i) with true by reflexivity. replace (i <? 0 + length is) with true by (symmetry; apply Nat.ltb_lt; lia). reflexivity. }
      apply (describes_ext _ _ (fun x => [] ++ flat_map (fun h => h x) hs)); [|exact Eh]. apply (children_describes is hs E_choice 0 [] (VChoice i w) (fun _ => [])).
      * constructor.
      * split; [intros x nd []|reflexivity].
      * subst hs. rewrite map_length, seq_length. reflexivity.
      * intros c' I. destruct (In_nth_error _ _ I) as (j & N). destruct (At j c' N) as (e' & n' & _ & _ & (Nd & _) & _). exact Nd.
      * intros j c' h Nc' Nh. rewrite Nat.add_0_l.
        assert (Hh : h = if Nat.eqb j i then f else fun _ => []).
        { subst hs. rewrite nth_error_map in Nh. destruct (nth_error (seq 0 (length is)) j) as [j'|] eqn:Q; [|discriminate Nh]. cbn [option_map] in Nh. injection Nh as <-.
          assert (Lj : j < length is) by (apply nth_error_Some; congruence). rewrite (nth_error_nth' _ 0) in Q by (rewrite seq_length; exact Lj).
          rewrite seq_nth in Q by exact Lj. injection Q as <-. reflexivity. }
        subst h. destruct (Nat.eqb_spec j i) as [->|Dj].
        -- rewrite Nc in Nc'. injection Nc' as <-. eapply prepend_describes; [exact Df| |apply Df]. intros x nd r0 I E R. rewrite expand_wrap. cbn [eval]. rewrite Nat.eqb_refl, E, <- R.
           destruct F as (_ & F). destruct (F _ _ I) as (O & C). eapply wrapped_flat; eassumption.
        -- split; [|reflexivity]. intros x nd I. destruct (prepend_in _ _ _ _ I) as (nd' & -> & _). rewrite expand_wrap. cbn [eval].
           destruct (Nat.eqb_spec j i) as [|_]; [contradiction|]. exists (GV_option None). split; [destruct (flattenable nd'); reflexivity|reflexivity].
    + intro x. apply M_choice. rewrite Ees in Ne. unfold collect_choices in Ne. destruct i as [|i].
      * injection Ne as <-. apply MV_first, Mf.
      * apply MV_later. eapply choices_matched; [exact Ne|apply Mf].
Qed.

(** * Expressions *)
Lemma some_arguments : arguments unicode id (located tm top) any_leaf cs ns.
Proof. clear. induction ns as [|n l IH]; cbn [map]; constructor; [|exact IH]. apply K_leaf. exact I. Qed.
Lemma leaf_any : forall g rho e n, leaf n -> unsliced n = true \/ (exists p range, e = PPath p (Some (PSlice range))) ->
  unplaced n = true \/ (exists p args, e = PPath p args /\ names unicode g p (E_builtin [lit "soi"])) ->
  leaf_expr unicode g rho e /\ misused unicode g e n ->
  (forall pre post K r, gpeg unicode no_property g rho e pre post K r <-> peg env no_property n pre post K r) -> any_leaf g rho e n.
Proof. intros. exact I. Qed.

Definition got (e : parse_expr) (i : intermediate) : Prop := exists n, reading (i_type i) n /\ accessed e i n.
Lemma list_got : forall (process : parse_expr -> gtracker -> outcome (intermediate * gtracker)) l tr is tr',
  process_list process l tr = Ret (is, tr') -> good_tracker tr -> extends tr' T ->
  (forall e tr i tr', In e l -> process e tr = Ret (i, tr') -> grows tr tr') ->
  (forall e tr i tr', In e l -> process e tr = Ret (i, tr') -> good_tracker tr -> extends tr' T -> got e i) ->
  Forall2 got l is.
Proof.
  intros process. induction l as [|e l IH]; intros tr is tr' H G X Gr P; cbn [process_list] in H.
  - injection H as <- <-. constructor.
  - destruct (process e tr) as [(i, t1)| |] eqn:E1; try discriminate. cbn [obind] in H.
    destruct (process_list process l t1) as [(is1, t2)| |] eqn:E2; try discriminate. cbn [obind] in H. injection H as <- <-.
    destruct (Gr _ _ _ _ (or_introl eq_refl) E1 G) as (G1 & _).
    assert (Gl : grows t1 t2) by (eapply process_list_spec; [exact E2|]; intros; eapply Gr; [right|]; eassumption).
    destruct (Gl G1) as (G2 & X2).
    constructor.
    + eapply P; [left; reflexivity|exact E1|exact G|eapply extends_trans; eassumption].
    + eapply IH; [exact E2|exact G1|exact X| |]; intros; [eapply Gr|eapply P]; try (right; eassumption); eassumption.
Qed.
Lemma got_list : forall l is, Forall2 got l is ->
  exists k ns', Forall2 (fun t n => read k mp vals t = Some (M_node n)) (map i_type is) ns' /\
    Forall2 (fun e p => accessed e (fst p) (snd p)) l (combine is ns') /\ length is = length ns'.
Proof.
  intros l is F. induction F as [|e i l is (n & (k & R) & A) F (k' & ns' & R' & A' & L)]; [exists 0, []; repeat split; constructor|].
  exists (k + k'), (n :: ns'). split; [|split; [constructor; assumption|cbn; lia]]. cbn [map]. constructor; [eapply read_more; [|exact R]; lia|].
  clear - R'. induction R'; constructor; [eapply read_more; [|eassumption]; lia|assumption].
Qed.
Lemma got_pairs : forall l is, Forall2 (fun te i => got (snd te) i /\ ready (fst te)) l is ->
  exists k fs,
    all_some (map (read_arg items unicode id k mp vals)
      (flat_map (fun ti => [A_type (i_type (snd ti)); A_type (embed_trivia (fst ti))]) (combine (map fst l) is))) =
    Some (flat_map (fun f => [Arg (M_node (fst f)); Arg (M_node (snd f))]) fs) /\
    Forall2 (fun e p => accessed e (fst p) (fst (snd p))) (map snd l) (combine is fs) /\ length is = length fs.
Proof.
  intros l is F. induction F as [|te i l is ((n & (k & R) & C) & (k1 & tr & Tr & R1)) F (k' & fs & A & F' & L)]; [exists 0, []; repeat split; constructor|].
  exists (k + k1 + k'), ((n, tr) :: fs). split; [|split; [cbn [map combine]; constructor; assumption|cbn; lia]].
  cbn [map fst combine flat_map snd app all_some read_arg].
  rewrite (read_more items unicode id k (k + k1 + k') _ _ _ _ ltac:(lia) R).
  rewrite (read_more items unicode id k1 (k + k1 + k') _ _ _ _ ltac:(lia) (R1 _ (vals_open g params Open ns))).
  rewrite (all_some_more _ (read_arg items unicode id (k + k1 + k') mp vals) _ _) with (2 := A); [reflexivity|].
  intros [|t| | |] b Q; try exact Q. cbn [read_arg] in *. destruct (read k' mp vals t) as [d'|] eqn:Q'; [|discriminate].
  rewrite (read_more items unicode id k' (k + k1 + k') _ _ _ _ ltac:(lia) Q'). exact Q.
Qed.

Theorem access : forall F e tr i tr', pe F e tr = Ret (i, tr') -> good_tracker tr -> extends tr' T ->
  (forall t, asks e t -> ready t) -> got e i.
Proof.
  assert (O := vals_open g params Open ns). assert (ML := mp_length config fuel unicode T top o_top mp depth g coll Em).
  induction F as [|F IH]; intros e tr i tr' H G X Rd; [discriminate|].
  assert (Whole : exists n, reading (i_type i) n).
  { destruct (read_expr config fuel unicode T top o_top no_property env id any_leaf Types Props Track leaf_any mp depth g coll Em params Open cs ns
      some_arguments (eq_trans (map_length _ _) Len) (S F) e tr i tr' H G X Rd) as (k & n & R & _). exists n, k. exact R. }
  assert (One : forall n tr i tr', pe F (n_expr n) tr = Ret (i, tr') -> good_tracker tr -> extends tr' T -> operand_of (n_expr n) e ->
    exists m, reading (i_type i) m /\ accessed (n_expr n) i m).
  { intros n t j t' H' G' X' Op. eapply IH; [exact H'|exact G'|exact X'|]. intros u A. apply Rd. eapply asks_operand; eassumption. }
  assert (Rt : forall n, operand_of (n_expr n) e -> ready (get_trivia (n_expr n))).
  { intros n Op. destruct (n_expr n) eqn:En; cbn [get_trivia]; try apply none_ready. destruct t; [apply none_ready| |]; apply Rd;
      (eapply asks_operand; [exact Op|]); right; eexists; apply Part_self. }
  destruct e as [s|s|ca cb|path args|n|n|l r t|l r|n|n|n|n r|n t]; cbn [process_expr] in H.
  - destruct (insert_string_wrapper s tr) as (w, t1). injection H as <- <-. destruct Whole as (n & R). exists n. split; [exact R|].
    apply accessed_nothing; [|intros; apply M_str]. intros x M. inversion M; subst; no_repetition.
  - destruct (insert_string_wrapper s tr) as (w, t1). injection H as <- <-. destruct Whole as (n & R). exists n. split; [exact R|].
    apply accessed_nothing; [|intros; apply M_insens]. intros x M. inversion M; subst; no_repetition.
  - injection H as <- <-. destruct Whole as (n & R). exists n. split; [exact R|].
    apply accessed_nothing; [|intros; apply M_range]. intros x M. inversion M; subst; no_repetition.
  - destruct Whole as (n & R). exists n. split; [exact R|].
    destruct (match path with [x] => if text_in x params then Some x else None | _ => None end) as [x|] eqn:Px.
    + injection H as <- <-. destruct path as [|y [|? ?]]; try discriminate. destruct (text_in_spec y params) as [I|]; [|discriminate]. injection Px as <-.
      apply accessed_reference; try reflexivity; [exact R|]. intro x. split.
      * intros [(_ & E)|(N & _)]; [injection E as <-; reflexivity|]. exfalso. exact (N _ eq_refl I).
      * intros ->. left. split; [exact I|reflexivity].
    + assert (Np : forall x, path = [x] -> ~ In x params).
      { intros x -> I. destruct (text_in_spec x params); [discriminate|contradiction]. }
      destruct args as [[l|range]|]; cbn [obind] in H.
      * destruct (process_list (pe F) (map n_expr l) tr) as [(is, t1)| |] eqn:El; try discriminate. cbn [obind] in H.
        destruct (sys_resolve _ _ _) as [j|] eqn:Rs; [|discriminate]. injection H as <- <-. eapply accessed_path; eassumption.
      * destruct (sys_resolve _ _ _) as [j|] eqn:Rs; [|discriminate]. injection H as <- <-. eapply accessed_path; eassumption.
      * destruct (sys_resolve _ _ _) as [j|] eqn:Rs; [|discriminate]. injection H as <- <-. eapply accessed_path; eassumption.
  - destruct (pe F (n_expr n) tr) as [(j, t1)| |] eqn:E; try discriminate. cbn [obind] in H. injection H as <- <-.
    destruct (One _ _ _ _ E G X (Op_pos n)) as (m & (k & R) & A). exists (Positive m). split; [|apply accessed_positive, A]. exists (S k).
    cbn [i_type]. erewrite (read_generic config unicode T top o_top id Types k mp depth vals _ _ [Arg (M_node m)] _ O ML); [| |reflexivity|]; [reflexivity|apply (in_map lit); cbn [In]; tauto|].
    cbn [map all_some read_arg]. rewrite R. reflexivity.
  - destruct (pe F (n_expr n) tr) as [(j, t1)| |] eqn:E; try discriminate. cbn [obind] in H. injection H as <- <-. destruct Whole as (m & R). exists m. split; [exact R|].
    apply accessed_nothing; [|intros; apply M_negative]. intros x M. inversion M; subst; no_repetition.
  - destruct (process_list (pe F) (map snd (collect_sequence (n_expr l) (n_expr r) t)) tr) as [(is, t1)| |] eqn:El; try discriminate.
    cbn [obind] in H. injection H as <- <-.
    assert (X1 : extends t1 T) by (eapply extends_trans; [apply record_seq_extends|exact X]).
    assert (As : forall te, In te (collect_sequence (n_expr l) (n_expr r) t) -> ready (fst te) /\ forall u, asks (snd te) u -> ready u).
    { intros te [<-|I]; cbn [fst snd].
      - split; [apply none_ready|]. intros u A. apply Rd. eapply asks_operand; [apply Op_seq_l|exact A].
      - destruct (sequence_asks _ _ _ I) as (A & B). split.
        + destruct A as [->|A]; [|apply Rd; eapply asks_operand; [apply Op_seq_r|exact A]].
          apply Rd. left. do 2 eexists. apply Part_self.
        + intros u Au. apply Rd. eapply asks_operand; [apply Op_seq_r|apply B, Au]. }
    assert (F1 : Forall2 got (map snd (collect_sequence (n_expr l) (n_expr r) t)) is).
    { eapply list_got; [exact El|exact G|exact X1| |].
      - intros e t0 j' t' _ Hp. eapply process_expr_grows, Hp.
      - intros e t0 j' t' I Hp Gt' Xt'. apply in_map_iff in I. destruct I as (te & <- & I). eapply IH; [exact Hp|exact Gt'|exact Xt'|]. apply As, I. }
    assert (L2 : length is = length (collect_sequence (n_expr l) (n_expr r) t)) by (apply forall2_length in F1; rewrite map_length in F1; congruence).
    assert (F2 : Forall2 (fun te i => got (snd te) i /\ ready (fst te)) (collect_sequence (n_expr l) (n_expr r) t) is).
    { clear - F1 As. revert is F1. induction (collect_sequence (n_expr l) (n_expr r) t) as [|te its IHl]; intros is F1; inversion F1; subst; constructor.
      - split; [assumption|]. apply As. left. reflexivity.
      - apply IHl; [|assumption]. intros te' I. apply As. right. exact I. }
    destruct (got_pairs _ _ F2) as (k & fs & A & Fc & L).
    exists (Seq fs). split; [|eapply accessed_sequence; [reflexivity|exact Fc|exact L|rewrite map_length; exact L2]]. exists (S k).
    cbn [i_type]. rewrite L. apply (read_sequence config unicode T top o_top no_property env id any_leaf Types Track leaf_any k mp depth); [exact O|exact ML| |exact A].
    destruct X as (_ & X & _). apply X. cbn [record_seq gt_seqs]. rewrite L. apply arity_insert_in.
  - destruct (process_list (pe F) (collect_choices (n_expr l) (n_expr r)) tr) as [(is, t1)| |] eqn:El; try discriminate.
    cbn [obind] in H. injection H as <- <-.
    assert (X1 : extends t1 T) by (eapply extends_trans; [apply record_choice_extends|exact X]).
    assert (F1 : Forall2 got (collect_choices (n_expr l) (n_expr r)) is).
    { eapply list_got; [exact El|exact G|exact X1| |].
      - intros e t0 j' t' _ Hp. eapply process_expr_grows, Hp.
      - intros e t0 j' t' I Hp Gt' Xt'. eapply IH; [exact Hp|exact Gt'|exact Xt'|]. intros u A. apply Rd. destruct I as [<-|I].
        + eapply asks_operand; [apply Op_choice_l|exact A].
        + eapply asks_operand; [apply Op_choice_r|eapply choices_asks; eassumption]. }
    assert (L2 : length is = length (collect_choices (n_expr l) (n_expr r))) by (apply forall2_length in F1; congruence).
    destruct (got_list _ _ F1) as (k & l' & Rl & Cl & L).
    exists (Choice l'). split; [|eapply accessed_choice; [reflexivity|exact Cl|exact L|exact L2]]. exists (S k).
    cbn [i_type]. rewrite L. apply (read_choice config unicode T top o_top no_property env id any_leaf Types Track leaf_any k mp depth); [exact O|exact ML| |].
    + destruct X as (_ & _ & X). apply X. cbn [record_choice gt_choices]. rewrite L. apply arity_insert_in.
    + rewrite <- (map_map i_type A_type). apply types_read, Rl.
  - destruct (pe F (n_expr n) tr) as [(j, t1)| |] eqn:E; try discriminate. cbn [obind] in H. injection H as <- <-.
    destruct (One _ _ _ _ E G X (Op_opt n)) as (m & (k & R) & A). exists (Opt m). split; [|apply accessed_optional, A]. exists (S k). apply read_option; assumption.
  - destruct (pe F (n_expr n) tr) as [(j, t1)| |] eqn:E; try discriminate. cbn [obind] in H. injection H as <- <-.
    destruct (One _ _ _ _ E G X (Op_rep n)) as (m & (k & R) & A). destruct (Rt n (Op_rep n)) as (k1 & tn & Tr & R1). exists (Rep m tn).
    split; [|eapply accessed_repeated; [left; repeat split|exact A]]. exists (S (k + k1)).
    cbn [i_type]. erewrite (read_generic config unicode T top o_top id Types (k + k1) mp depth vals _ _ [Arg (M_node m); Arg (M_node tn)] _ O ML); [| |reflexivity|]; [reflexivity|apply (in_map lit); cbn [In]; tauto|].
    cbn [map all_some read_arg]. rewrite (read_more items unicode id k (k + k1) _ _ _ _ ltac:(lia) R), (read_more items unicode id k1 (k + k1) _ _ _ _ ltac:(lia) (R1 _ O)). reflexivity.
  - destruct (pe F (n_expr n) tr) as [(j, t1)| |] eqn:E; try discriminate. cbn [obind] in H. injection H as <- <-.
    destruct (One _ _ _ _ E G X (Op_once n)) as (m & (k & R) & A). destruct (Rt n (Op_once n)) as (k1 & tn & Tr & R1). exists (RepOnce m tn).
    split; [|eapply accessed_repeated; [right; left; repeat split|exact A]]. exists (S (k + k1)).
    cbn [i_type]. erewrite (read_generic config unicode T top o_top id Types (k + k1) mp depth vals _ _ [Arg (M_node m); Arg (M_node tn)] _ O ML); [| |reflexivity|]; [reflexivity|apply (in_map lit); cbn [In]; tauto|].
    cbn [map all_some read_arg]. rewrite (read_more items unicode id k (k + k1) _ _ _ _ ltac:(lia) R), (read_more items unicode id k1 (k + k1) _ _ _ _ ltac:(lia) (R1 _ O)). reflexivity.
  - destruct (pe F (n_expr n) tr) as [(j, t1)| |] eqn:E; try discriminate. cbn [obind] in H. injection H as <- <-.
    destruct (One _ _ _ _ E G X (Op_range n r)) as (m & (k & R) & C). destruct (Rt n (Op_range n r)) as (k1 & tn & Tr & R1).
    set (a := match r_start r with Some a => a | None => 0%N end). set (b := match r_end r with Some b => b | None => usize_max end).
    assert (Rep' : repetition (PRepRange n r) n a b).
    { right. right. exists r. split; [reflexivity|]. subst a b. split; [destruct (r_start r)|destruct (r_end r)]; [left|right|left|right]; try split; reflexivity. }
    assert (Ra : all_some (map (read_arg items unicode id (k + k1) mp vals) [A_type (i_type j); A_type (embed_trivia (get_trivia (n_expr n)))]) = Some [Arg (M_node m); Arg (M_node tn)]).
    { cbn [map all_some read_arg]. rewrite (read_more items unicode id k (k + k1) _ _ _ _ ltac:(lia) R), (read_more items unicode id k1 (k + k1) _ _ _ _ ltac:(lia) (R1 _ O)). reflexivity. }
    exists (RepMinMax m tn a b). split; [|eapply accessed_repeated; [exact Rep'|exact C]]. exists (S (k + k1)).
    cbn [map all_some read_arg] in Ra. subst a b.
    destruct (read (k + k1) mp vals (i_type j)) as [d1|] eqn:D1; [|discriminate].
    destruct (read (k + k1) mp vals (embed_trivia (get_trivia (n_expr n)))) as [d2|] eqn:D2; [|discriminate]. injection Ra as -> ->.
    cbn [i_type]. destruct (r_start r) as [a|], (r_end r) as [b|].
    + erewrite (read_generic config unicode T top o_top id Types (k + k1) mp depth vals _ _ [Arg (M_node m); Arg (M_node tn); Arg_usize a; Arg_usize b] _ O ML); [| |reflexivity|]; [reflexivity|apply (in_map lit); cbn [In]; tauto|].
      cbn [map all_some read_arg]. rewrite D1, D2. reflexivity.
    + erewrite (read_generic config unicode T top o_top id Types (k + k1) mp depth vals _ _ [Arg (M_node m); Arg (M_node tn); Arg_usize a] _ O ML); [| |reflexivity|]; [reflexivity|apply (in_map lit); cbn [In]; tauto|].
      cbn [map all_some read_arg]. rewrite D1, D2. reflexivity.
    + erewrite (read_generic config unicode T top o_top id Types (k + k1) mp depth vals _ _ [Arg (M_node m); Arg (M_node tn); Arg_usize b] _ O ML); [| |reflexivity|]; [reflexivity|apply (in_map lit); cbn [In]; tauto|].
      cbn [map all_some read_arg]. rewrite D1, D2. reflexivity.
    + erewrite (read_generic config unicode T top o_top id Types (k + k1) mp depth vals _ _ [Arg (M_node m); Arg (M_node tn)] _ O ML); [| |reflexivity|]; [reflexivity|apply (in_map lit); cbn [In]; tauto|].
      cbn [map all_some read_arg]. rewrite D1, D2. reflexivity.
  - destruct (One _ _ _ _ H G X (Op_separated n t)) as (m & R & A). exists m. split; [exact R|]. destruct A as (A & K & D). split; [exact A|]. split.
    + intro x. rewrite K. split; [apply Mn_separated|]. intro M. inversion M; subst; [no_repetition|assumption].
    + intros v V. destruct (D v V) as (f & Df & Mf). exists f. split; [exact Df|]. intro x. apply M_separated, Mf.
Qed.
End Main.

(** * The struct of a rule *)
Section Struct.
Variable config : gconfig.
Variable fuel : nat.
Variable unicode : list text.
Variable T : gtracker.
Variable top : gmodule.
Variable o_top : output.
Variable env : rule -> rule_def.
Variable id : list text -> text -> rule.
Notation items := (all_items config T o_top).
Hypothesis Types : fine_types_mod (types_mod (rules_mod config)) top.
Hypothesis Props : distinct_properties unicode.
Hypothesis Track : good_tracker T.
Variable coll : list (text * mnode).
Hypothesis M : Made config fuel unicode T 0 top o_top coll.
Hypothesis Fi : fine unicode top.
Hypothesis Rr : reads_rules items unicode id env.

Lemma struct_access : forall m g r s ns, located (types_mod (rules_mod config)) top m g -> In r (g_rules g) -> ~ is_trivia_rule r ->
  is_struct items m s -> gs_name s = pr_name r -> length ns = length (pr_args r) ->
  gs_params s = pr_args r /\
  exists i, gs_accessors s = (if no_getter config then [] else map (fun kn => mkAccessor (fst kn) (gs_boxed s) (fst (g_expand (snd kn))) (snd (g_expand (snd kn)))) (i_getter i)) /\
    accessed config unicode T o_top env id m g (pr_args r) ns (n_expr (pr_node r)) i (rd_body (env (id m (pr_name r))) ns).
Proof.
  intros m g r s ns Lo I Nt Is Sn L. destruct (located_emitted config fuel unicode T top o_top Types coll M Fi m g Lo) as (depth & c & Em).
  destruct (emitted_struct config fuel unicode T top o_top _ _ _ _ r Em I Nt) as (s' & reach & i & _ & (tr & tr' & P & G & X) & Es & sub & At & En).
  assert (s' = s) as <-.
  { destruct Is as (sub' & At' & En'). rewrite At in At'. injection At' as <-. rewrite Sn, En in En'. injection En' as <-. reflexivity. }
  assert (Ps : gs_params s' = pr_args r) by (rewrite Es; reflexivity). split; [exact Ps|]. exists i. split.
  - rewrite Es. unfold create_rule. cbn [gs_accessors gs_boxed]. destruct (no_getter config); [reflexivity|]. apply map_ext. intros (x, nd). cbn [fst snd]. destruct (g_expand nd). reflexivity.
  - assert (Fg : fine unicode g) by (destruct Em as (o & _ & _ & _ & _ & Fg); exact Fg). inversion Fg as [g0 _ _ _ _ Pa _ _ _ _]. subst g0.
    destruct (access config fuel unicode T top o_top env id Types Props Track m depth g c Em (pr_args r) (fun x J => Pa r x I J) ns L _ _ _ _ _ P G X) as (n & (k & R) & A).
    { apply (asked_ready config fuel unicode T top o_top (fun _ _ => false) env id (fun _ _ _ _ => True) Types Props Track (leaf_any unicode env) m depth g c Em r I). }
    destruct Rr as (_ & Rb). destruct (Rb m s' Is) as (_ & B). destruct (B ns) as (k' & R'); [rewrite Ps; exact L|].
    rewrite Ps in R'. rewrite Es in R' at 1. cbn [create_rule gs_inner] in R'. assert (E := read_unique items unicode id _ _ _ _ _ _ _ R R').
    injection E as E. rewrite Sn in E. rewrite <- E. exact A.
Qed.
End Struct.

(** * The parts with a name are determined *)
Section Once.
Variable unicode : list text.
Variable g : gmodule.
Variable params : list text.
Variable name : text.
Notation matched := (matched unicode g params name).
Notation matched_fields := (matched_fields unicode g params name).
Notation matched_variant := (matched_variant unicode g params name).
Notation matched_rounds := (matched_rounds unicode g params name).
Scheme matched_mut := Induction for Spec_Getter.matched Sort Prop
with fields_mut := Induction for Spec_Getter.matched_fields Sort Prop
with variant_mut := Induction for Spec_Getter.matched_variant Sort Prop
with rounds_mut := Induction for Spec_Getter.matched_rounds Sort Prop.
Combined Scheme matched_all from matched_mut, fields_mut, variant_mut, rounds_mut.
Ltac no_rep := try match goal with R : repetition _ _ _ _ |- _ => exfalso; clear - R; destruct R as [(R & _)|[(R & _)|(? & R & _)]]; discriminate R end.

Lemma matched_once :
  (forall e v l, matched e v l -> forall l', matched e v l' -> l' = l) /\
  (forall e vs l, matched_fields e vs l -> forall l', matched_fields e vs l' -> l' = l) /\
  (forall e i v l, matched_variant e i v l -> forall l', matched_variant e i v l' -> l' = l) /\
  (forall e vs l, matched_rounds e vs l -> forall l', matched_rounds e vs l' -> l' = l).
Proof.
  apply matched_all.
  - intros path args v R l' H. inversion H; subst; no_rep; [reflexivity|contradiction].
  - intros path args v R l' H. inversion H; subst; no_rep; [contradiction|reflexivity].
  - intros t v l' H. inversion H; subst; no_rep; reflexivity.
  - intros t v l' H. inversion H; subst; no_rep; reflexivity.
  - intros a b v l' H. inversion H; subst; no_rep; reflexivity.
  - intros n v l _ IH l' H. inversion H; subst; no_rep. apply IH; assumption.
  - intros n v l' H. inversion H; subst; no_rep; reflexivity.
  - intros l r t vs ls _ IH l' H. inversion H; subst; no_rep. apply IH; assumption.
  - intros l r i v ls _ IH l' H. inversion H; subst; no_rep. apply IH; assumption.
  - intros n l' H. inversion H; subst; no_rep; reflexivity.
  - intros n v l _ IH l' H. inversion H; subst; no_rep. apply IH; assumption.
  - intros e n a b vs ls Rp _ IH l' H. inversion H as [p q u Q E1 E2 E3|p q u Q E1 E2 E3| | | | | | | | | |e0 n0 a0 b0 vs0 ls0 Rp' Q E1 E2 E3|]; subst; no_rep.
    destruct (repetition_unique _ _ _ _ _ _ _ Rp Rp') as (<- & _). apply IH. exact Q.
  - intros n t v l _ IH l' H. inversion H; subst; no_rep. apply IH; assumption.
  - intros e v l D _ IH l' H. inversion H; subst; [apply IH; assumption|]. exfalso. eapply D. reflexivity.
  - intros a b t v vs l l' _ IH1 _ IH2 l2 H. inversion H; subst; [match goal with D : forall _ _ _, _ <> _ |- _ => exfalso; eapply D; reflexivity end|].
    f_equal; [apply IH1|apply IH2]; assumption.
  - intros e v l D _ IH l' H. inversion H; subst; [apply IH; assumption|]. exfalso. eapply D. reflexivity.
  - intros a b v l _ IH l' H. inversion H; subst; [match goal with D : forall _ _, _ <> _ |- _ => exfalso; eapply D; reflexivity end|]. apply IH; assumption.
  - intros a b i v l _ IH l' H. inversion H; subst. apply IH; assumption.
  - intros e l' H. inversion H; subst. reflexivity.
  - intros e v vs l l' _ IH1 _ IH2 l2 H. inversion H; subst. f_equal; [apply IH1|apply IH2]; assumption.
Qed.
End Once.
